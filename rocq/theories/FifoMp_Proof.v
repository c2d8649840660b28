(** Proofs about the multi-producer multi-consumer linked FIFO. *)
From Coq Require Import NArith Arith List Bool Lia.
From Verif Require Import Lib Lin Stack_Proof FifoSp_Proof FifoMp_Model.
Import ListNotations.
Local Arguments Nat.eqb : simpl never.
Local Arguments N.eqb : simpl never.
Local Arguments N.modulo : simpl never.
Local Arguments N.add : simpl never.
Local Arguments Nat.ltb : simpl never.
Local Arguments upd : simpl never.

Definition all (a : mabs) : list nat := stub a :: map fst (sq a).

(** the entry a thread is preparing *)
Definition prep (p : mpc) : option nat :=
  match p with
  | Q1 _ e _ | Q2 _ e _ | Q3 _ e _ | Q4 _ e _ | Q5 _ e _ _ | Q6 _ e _ _ _ | Q7 _ e _ _ _ _ | Q8 _ e _ _ _ _ _ | Q9 _ e _ _ _ _ | Q10 _ e _ _ _ _ => Some e
  | _ => None
  end.
Definition phase_of (p : mpc) : phase mop mres :=
  match p with
  | PIdle => Idle
  | Q1 b e v | Q2 b e v | Q3 b e v | Q4 b e v | Q5 b e v _ | Q6 b e v _ _ | Q7 b e v _ _ _ | Q8 b e v _ _ _ _ | Q9 b e v _ _ _ | Q10 b e v _ _ _ =>
      Called (if b then TryEnq e v else Enq e v)
  | Q11 b _ _ _ => Done (if b then RB true else RU)
  | K1 b | K2 b _ | K3 b _ _ | K4 b _ _ _ | K5 b _ _ _ _ | K6 b _ _ _ _ | K7 b _ _ _ | K8 b _ _ _ | K9 b _ _ _ _ => Called (if b then TryDeq else Deq)
  end.

(** what thread in [p] knows; [L] the entries from the head, [NP x]: nobody prepares [x] *)
Section TI.
Variables (L : list nat) (h0 t0 : nat) (nx : nat -> option nat) (vl : nat -> nat) (NP : nat -> Prop).
Definition HT (x : nat) : Prop := NP x /\ (In x L \/ nx x <> None) /\ (nx x = None -> t0 = x).
Definition HH (x : nat) : Prop := NP x /\ (In x L \/ nx x <> None) /\ (In x L -> h0 = x).
Definition TI (p : mpc) : Prop :=
  match p with
  | PIdle | Q1 _ _ _ | K1 _ | K2 _ _ => True
  | Q2 _ e v => vl e = v
  | Q3 _ e v | Q4 _ e v | Q5 _ e v _ => vl e = v /\ nx e = None
  | Q6 _ e v _ p | Q7 _ e v _ p _ => vl e = v /\ nx e = None /\ HT p
  | Q8 _ e v _ p _ x => vl e = v /\ nx e = None /\ HT p /\ (x = None \/ nx p = x)
  | Q9 _ e v _ p x => vl e = v /\ nx e = None /\ HT p /\ nx p = Some x
  | Q10 _ e v _ p _ => vl e = v /\ nx e = None /\ HT p
  | Q11 _ e _ p => HT p /\ nx p = Some e
  | K3 _ _ h | K4 _ _ h _ => HH h
  | K5 _ _ h _ tp | K6 _ _ h _ tp => HH h /\ (tp <> h -> t0 <> h)
  | K7 _ h x _ => HH h /\ nx h = Some x
  | K8 _ _ h x => HH h /\ nx h = Some x /\ t0 <> h
  | K9 _ _ h x v => HH h /\ nx h = Some x /\ t0 <> h /\ (h0 = h -> vl x = v)
  end.
End TI.

Section Mp.
Variable n : nat.

Record MR (s : mst) (b : mabs * (nat -> phase mop mres)) : Prop := {
  MR_chain : chain (nx s) (Some (hp s)) (all (fst b));
  MR_nd : NoDup (all (fst b));
  MR_vl : forall e v, In (e, v) (sq (fst b)) -> vl s e = v;
  MR_tl : exists l, all (fst b) = l ++ [tp s] \/ exists y, all (fst b) = l ++ [tp s; y];
  MR_own : forall e, own s e = true -> ~ In e (all (fst b)) /\ forall t, prep (thr s t) <> Some e;
  MR_uni : forall t u e, prep (thr s t) = Some e -> prep (thr s u) = Some e -> t = u;
  MR_pre : forall t e, prep (thr s t) = Some e -> ~ In e (all (fst b));
  MR_th : forall t, snd b t = phase_of (thr s t);
  MR_nt : forall t, n <= t -> thr s t = PIdle;
  MR_ti : forall t, TI (all (fst b)) (hp s) (tp s) (nx s) (vl s) (fun x => forall u, prep (thr s u) <> Some x) (thr s t) }.

Lemma MR_init : forall e, MR (minit e) (mabs0 e, idle).
Proof.
  intros e. constructor; simpl; auto; try contradiction; try discriminate.
  - constructor; auto. constructor.
  - exists []. auto.
  - intros x Hx. split; [|discriminate]. intros [-> |[]]. rewrite Nat.eqb_refl in Hx. discriminate.
Qed.

(** the frame: what a step of another thread must preserve of the memory *)
Definition keeps (L L' : list nat) h0 h0' t0 t0' (nx nx' : nat -> option nat) (vl vl' : nat -> nat) (x : nat) : Prop :=
  (In x L \/ nx x <> None -> In x L' \/ nx' x <> None) /\
  (forall y, nx x = Some y -> nx' x = Some y) /\
  (In x L \/ nx x <> None -> (nx x = None -> t0 = x) -> (nx' x = None -> t0' = x)) /\
  ((In x L -> h0 = x) -> (In x L' -> h0' = x)) /\
  ((In x L -> h0 = x) -> t0 <> x -> t0' <> x) /\
  ((In x L -> h0 = x) -> h0' = x -> h0 = x) /\
  (h0 = x -> h0' = x -> forall y, nx x = Some y -> vl' y = vl y).
Lemma TI_mono : forall L h0 t0 nx vl (NP : nat -> Prop) L' h0' t0' nx' vl' (NP' : nat -> Prop) p,
  (forall e, prep p = Some e -> vl' e = vl e /\ nx' e = nx e) ->
  (forall x, holds p x = true -> NP x -> NP' x /\ keeps L L' h0 h0' t0 t0' nx nx' vl vl' x) ->
  TI L h0 t0 nx vl NP p -> TI L' h0' t0' nx' vl' NP' p.
Proof.
  intros L h0 t0 nx vl NP L' h0' t0' nx' vl' NP' p P H.
  assert (XT : forall x, holds p x = true -> HT L t0 nx NP x -> HT L' t0' nx' NP' x).
  { intros x Hx [A [B C]]. destruct (H x Hx A) as [N [K1 [K2 [K3 [K4 [K5 K6]]]]]]. split; auto. }
  assert (XH : forall x, holds p x = true -> HH L h0 nx NP x -> HH L' h0' nx' NP' x).
  { intros x Hx [A [B C]]. destruct (H x Hx A) as [N [K1 [K2 [K3 [K4 [K5 K6]]]]]]. split; auto. }
  assert (XN : forall x y, holds p x = true -> NP x -> nx x = Some y -> nx' x = Some y).
  { intros x y Hx A E. destruct (H x Hx A) as [N [K1 [K2 _]]]. auto. }
  assert (XK : forall x, holds p x = true -> HH L h0 nx NP x -> t0 <> x -> t0' <> x).
  { intros x Hx [A [B C]]. destruct (H x Hx A) as [N [K1 [K2 [K3 [K4 [K5 K6]]]]]]. auto. }
  destruct p; cbn [TI holds prep] in *; auto;
    try (destruct (P _ eq_refl) as [P1 P2]; rewrite ?P1, ?P2); auto.
  - intros [A [B C]]. split; auto. split; auto. apply XT; auto. apply Nat.eqb_refl.
  - intros [A [B C]]. split; auto. split; auto. apply XT; auto. apply Nat.eqb_refl.
  - intros [A [B [C D]]]. split; auto. split; auto. split; [apply XT; auto; apply Nat.eqb_refl|]. destruct D as [D|D]; auto.
    destruct x as [y|]; auto. right. apply XN; auto; [apply Nat.eqb_refl|apply C].
  - intros [A [B [C D]]]. split; auto. split; auto. split; [apply XT; auto; apply Nat.eqb_refl|].
    apply XN; auto; [apply Nat.eqb_refl|apply C].
  - intros [A [B C]]. split; auto. split; auto. apply XT; auto. apply Nat.eqb_refl.
  - intros [A B]. split; [apply XT; auto; apply Nat.eqb_refl|]. apply XN; auto; [apply Nat.eqb_refl|apply A].
  - apply XH. apply Nat.eqb_refl.
  - apply XH. apply Nat.eqb_refl.
  - intros [A B]. split; [apply XH; auto; apply Nat.eqb_refl|]. intros N. apply XK; auto. apply Nat.eqb_refl.
  - intros [A B]. split; [apply XH; auto; apply Nat.eqb_refl|]. intros N. apply XK; auto. apply Nat.eqb_refl.
  - intros [A B]. split; [apply XH; auto; apply Nat.eqb_refl|]. apply XN; auto; [apply Nat.eqb_refl|apply A].
  - intros [A [B C]]. split; [apply XH; auto; apply Nat.eqb_refl|]. split; [apply XN; auto; [apply Nat.eqb_refl|apply A]|].
    apply XK; auto. apply Nat.eqb_refl.
  - intros [A [B [C D]]]. split; [apply XH; auto; apply Nat.eqb_refl|]. split; [apply XN; auto; [apply Nat.eqb_refl|apply A]|].
    split; [apply XK; auto; apply Nat.eqb_refl|]. intros E.
    destruct A as [A1 [A2 A3]]. destruct (H h (Nat.eqb_refl h) A1) as [N [K1 [K2 [K3 [K4 [K5 [K6 K7]]]]]]].
    specialize (K6 A3 E). rewrite (K7 K6 E x B). auto.
Qed.
Lemma keeps_refl : forall L h0 t0 nx vl x, keeps L L h0 h0 t0 t0 nx nx vl vl x.
Proof. intros. unfold keeps. tauto. Qed.

(** entries on the list *)
Lemma hp_in : forall s b, MR s b -> hp s = stub (fst b).
Proof. intros s b HR. pose proof (MR_chain _ _ HR) as C. unfold all in C. simpl in C. destruct C. congruence. Qed.
Lemma chain_in : forall (f : nat -> option nat) l h x y, chain f h l -> In x l -> f x = Some y -> In y l.
Proof.
  intros f. induction l as [|z l IH]; intros h x y C Hx E; [destruct Hx|]. simpl in C. destruct C as [-> C]. destruct Hx as [<- |Hx].
  - rewrite E in C. destruct l; simpl in C; [discriminate|]. destruct C as [C _]. injection C as ->. right. left. auto.
  - right. eapply IH; eauto.
Qed.
Lemma chain_none : forall (f : nat -> option nat) l h x, chain f h l -> In x l -> f x = None -> exists r, l = r ++ [x].
Proof.
  intros f. induction l as [|z l IH]; intros h x C Hx E; [destruct Hx|]. simpl in C. destruct C as [-> C]. destruct Hx as [<- |Hx].
  - rewrite E in C. destruct l; simpl in C; [exists []; auto|]. destruct C. discriminate.
  - destruct (IH _ _ C Hx E) as [r ->]. exists (z :: r). auto.
Qed.
Lemma tp_in : forall s b, MR s b -> In (tp s) (all (fst b)).
Proof. intros s b HR. destruct (MR_tl _ _ HR) as [l [-> |[y ->]]]; apply in_or_app; right; left; auto. Qed.
Lemma tl_next : forall s b x, MR s b -> nx s (tp s) = Some x -> exists l, all (fst b) = l ++ [tp s; x].
Proof.
  intros s b x HR E. pose proof (MR_chain _ _ HR) as C. destruct (MR_tl _ _ HR) as [l [Ea|[y Ea]]]; rewrite Ea in C.
  - apply chain_last in C. congruence.
  - apply chain_inner in C. exists l. congruence.
Qed.

(** a local step *)
Lemma MR_local : forall s b t p, MR s b -> t < n -> prep p = prep (thr s t) -> phase_of p = phase_of (thr s t) ->
  (TI (all (fst b)) (hp s) (tp s) (nx s) (vl s) (fun x => forall u, prep (thr s u) <> Some x) (thr s t) ->
   TI (all (fst b)) (hp s) (tp s) (nx s) (vl s) (fun x => forall u, prep (thr s u) <> Some x) p) ->
  MR (go s t p) b.
Proof.
  intros s b t p [C ND VL TL OW U PR TH NT T] Ht Ep Eph HT'.
  assert (G : forall u, prep (upd (thr s) t p u) = prep (thr s u)).
  { intros u. rewrite upd_eqv. destruct (Nat.eq_dec u t) as [->|]; auto. }
  constructor; cbn [go hp hg tp tg nx ng vl own thr]; auto.
  - intros e He. destruct (OW e He). split; auto. intros u. rewrite G. auto.
  - intros u v e. rewrite !G. apply U.
  - intros u e. rewrite G. apply PR.
  - intros u. rewrite upd_eqv. destruct (Nat.eq_dec u t) as [->|]; auto. rewrite TH. auto.
  - intros u Hu. rewrite upd_other by lia. auto.
  - intros u. apply TI_mono with (L := all (fst b)) (h0 := hp s) (t0 := tp s) (nx := nx s) (vl := vl s) (NP := fun x => forall u, prep (thr s u) <> Some x).
    + auto.
    + intros x _ Hx. split; [intros v; rewrite G; auto|apply keeps_refl].
    + rewrite upd_eqv. destruct (Nat.eq_dec u t) as [->|]; auto.
Qed.

(** a call, or a return of a thread that does not change the list *)
Lemma MR_own_step : forall s b b' s' t p e0,
  MR s b -> t < n -> fst b' = fst b -> (forall u, snd b' u = if Nat.eq_dec u t then phase_of p else snd b u) ->
  hp s' = hp s -> tp s' = tp s -> nx s' = nx s -> vl s' = vl s -> thr s' = upd (thr s) t p ->
  (forall e, own s' e = true -> e <> e0 -> own s e = true) ->
  (own s' e0 = true -> ~ In e0 (all (fst b)) /\ prep p <> Some e0 /\ forall u, u <> t -> prep (thr s u) <> Some e0) ->
  (forall e, prep p = Some e -> e = e0 /\ own s' e0 = false /\ may_enq n s e0 = true) ->
  TI (all (fst b)) (hp s) (tp s) (nx s) (vl s) (fun x => forall u, prep (thr s u) <> Some x) p ->
  holds p = (fun _ => false) ->
  MR s' b'.
Proof.
  intros s b b' s' t p e0 [C ND VL TL OW U PR TH NT T] Ht E1 E2 E3 E4 E5 E6 E7 O1 O2 P HT' HH'.
  assert (G : forall u, prep (thr s' u) = if Nat.eq_dec u t then prep p else prep (thr s u)).
  { intros u. rewrite E7, upd_eqv. destruct (Nat.eq_dec u t) as [->|]; auto. }
  assert (PF : forall e, prep p = Some e -> own s e = true /\ forall u x, holds (thr s u) x = true -> x <> e).
  { intros e He. destruct (P e He) as [-> [_ M]]. unfold may_enq in M. apply andb_prop in M. destruct M as [M1 M2]. split; auto.
    intros u x Hx ->. rewrite forallb_forall in M2. specialize (M2 u). rewrite Hx in M2.
    destruct (Nat.lt_ge_cases u n) as [L|L]; [|rewrite NT in Hx by auto; discriminate]. rewrite in_seq in M2. specialize (M2 ltac:(lia)). discriminate. }
  constructor; rewrite ?E1, ?E3, ?E4, ?E5, ?E6; auto.
  - intros e He. destruct (Nat.eq_dec e e0) as [->|ne].
    + destruct (O2 He) as [X1 [X2 X3]]. split; auto. intros u. rewrite G. destruct (Nat.eq_dec u t); auto.
    + destruct (OW e (O1 e He ne)) as [X1 X2]. split; auto. intros u. rewrite G. destruct (Nat.eq_dec u t); auto.
      intros Y. apply P in Y. tauto.
  - intros u v e. rewrite !G. destruct (Nat.eq_dec u t) as [->|nu]; destruct (Nat.eq_dec v t) as [->|nv]; auto; [| |apply U].
    + intros X Y. destruct (PF e X) as [Z _]. destruct (OW e Z) as [_ W]. destruct (W v Y).
    + intros X Y. destruct (PF e Y) as [Z _]. destruct (OW e Z) as [_ W]. destruct (W u X).
  - intros u e. rewrite G. destruct (Nat.eq_dec u t) as [->|nu]; [|apply PR]. intros X. destruct (PF e X) as [Z _]. apply (OW e Z).
  - intros u. rewrite E2, E7, upd_eqv. destruct (Nat.eq_dec u t); auto.
  - intros u Hu. rewrite E7, upd_other by lia. auto.
  - intros u. apply TI_mono with (L := all (fst b)) (h0 := hp s) (t0 := tp s) (nx := nx s) (vl := vl s) (NP := fun x => forall u, prep (thr s u) <> Some x).
    + auto.
    + intros x Hx Hn. split; [|apply keeps_refl]. intros v. rewrite G. destruct (Nat.eq_dec v t) as [->|]; auto.
      intros Y. rewrite E7, upd_eqv in Hx. destruct (Nat.eq_dec u t) as [->|nu]; [rewrite HH' in Hx; discriminate|].
      exact (proj2 (PF x Y) u x Hx eq_refl).
    + rewrite E7, upd_eqv. destruct (Nat.eq_dec u t) as [->|]; auto.
Qed.

(** preparing the private entry *)
Lemma MR_prep : forall s b s' t p e, MR s b -> t < n -> prep (thr s t) = Some e -> prep p = Some e -> phase_of p = phase_of (thr s t) ->
  hp s' = hp s -> tp s' = tp s -> own s' = own s -> thr s' = upd (thr s) t p ->
  (forall x, x <> e -> nx s' x = nx s x /\ vl s' x = vl s x) -> holds p = (fun _ => false) ->
  TI (all (fst b)) (hp s) (tp s) (nx s') (vl s') (fun x => forall u, prep (thr s u) <> Some x) p ->
  MR s' b.
Proof.
  intros s b s' t p e [C ND VL TL OW U PR TH NT T] Ht Pt Pp Eph E1 E2 E3 E4 M Hh HT'.
  assert (G : forall u, prep (thr s' u) = prep (thr s u)).
  { intros u. rewrite E4, upd_eqv. destruct (Nat.eq_dec u t) as [->|]; auto. congruence. }
  assert (Ne : ~ In e (all (fst b))) by (apply (PR t); auto).
  assert (ML : forall x, In x (all (fst b)) -> nx s' x = nx s x /\ vl s' x = vl s x) by (intros x Hx; apply M; congruence).
  constructor; rewrite ?E1, ?E2, ?E3; auto.
  - apply chain_ext with (nx := nx s); auto. intros x Hx. apply ML; auto.
  - intros x v Hx. destruct (ML x) as [_ ->]; auto. unfold all. right. apply (in_map fst) in Hx. auto.
  - intros x Hx. destruct (OW x Hx). split; auto. intros u. rewrite G. auto.
  - intros u v x. rewrite !G. apply U.
  - intros u x. rewrite G. apply PR.
  - intros u. rewrite TH, E4, upd_eqv. destruct (Nat.eq_dec u t) as [->|]; auto.
  - intros u Hu. rewrite E4, upd_other by lia. auto.
  - intros u. rewrite E4, upd_eqv. destruct (Nat.eq_dec u t) as [->|nu].
    + eapply TI_mono; [| |exact HT']; auto. intros x Hx. rewrite Hh in Hx. discriminate.
    + apply TI_mono with (L := all (fst b)) (h0 := hp s) (t0 := tp s) (nx := nx s) (vl := vl s) (NP := fun x => forall u, prep (thr s u) <> Some x); auto.
      * intros x Hx. destruct (M x); auto. intros ->. apply nu. eapply U; eauto.
      * intros x Hx Hn. split; [intros v; rewrite <- E4, G; auto|].
        assert (Nx : x <> e) by (intros ->; exact (Hn t Pt)). destruct (M x Nx) as [M1 M2].
        unfold keeps. rewrite M1. repeat split; auto.
        intros Eh _ y Ey. apply ML. eapply chain_in; [exact C| |exact Ey]. unfold all in C |- *. simpl in C. destruct C as [C _]. left. congruence.
Qed.

(** forwarding the tail *)
Lemma MR_tail : forall s b p g x, MR s b -> nx s p = Some x -> MR (cas_tail s p g x) b.
Proof.
  intros s b p g x HR E. unfold cas_tail. destruct (Nat.eqb_spec (tp s) p) as [Ep|]; [|auto]. destruct (N.eqb (tg s) g); [|auto]. cbn [andb].
  rewrite <- Ep in E. destruct (tl_next _ _ _ HR E) as [l Ea]. pose proof (hp_in _ _ HR) as Hh.
  destruct HR as [C ND VL TL OW U PR TH NT T].
  constructor; cbn [set_tail hp hg tp tg nx ng vl own thr]; auto.
  - exists (l ++ [tp s]). left. rewrite <- app_assoc. auto.
  - intros t. apply TI_mono with (L := all (fst b)) (h0 := hp s) (t0 := tp s) (nx := nx s) (vl := vl s) (NP := fun x => forall u, prep (thr s u) <> Some x); auto.
    intros y Hy Hn. split; auto. unfold keeps. repeat split; auto.
    + intros HL X Y. specialize (X Y). congruence.
    + intros X Nt ->. assert (Hi : In y (all (fst b))) by (rewrite Ea; apply in_or_app; right; right; left; auto).
      specialize (X Hi). unfold all in Ea, ND. rewrite <- Hh, X in Ea, ND. destruct l as [|z l]; simpl in Ea.
      * injection Ea as E1 E2. congruence.
      * injection Ea as -> Ea. inversion ND as [|? ? N1 N2]; subst. apply N1. rewrite Ea. apply in_or_app. right. right. left. auto.
Qed.

(** returning from a call that leaves the list alone *)
Lemma MR_fin : forall s b t r o s', MR s b -> t < n -> phase_of (thr s t) = Called o -> fifo_seq (fst b) o r = Some (fst b) ->
  (s' = go s t PIdle \/ exists e, prep (thr s t) = Some e /\ s' = set_own (go s t PIdle) e true) ->
  exists b', accepts (lstep fifo_seq mres_dec) b [Lin t r; Ret t r] = Some b' /\ MR s' b'.
Proof.
  intros s [a th] t r o s' HR Ht Ep Hs HE. pose proof (MR_th _ _ HR t) as E. cbn [snd fst] in *.
  eexists. split.
  - cbn [accepts lstep]. rewrite E, Ep, Hs. cbn [lstep]. rewrite upd_same. destruct (mres_dec r r); [reflexivity|congruence].
  - assert (SN : forall u, upd (upd th t (Done r)) t Idle u = if Nat.eq_dec u t then phase_of PIdle else th u).
    { intros u. rewrite !upd_eqv. destruct (Nat.eq_dec u t); auto. }
    destruct HE as [-> |[e [Pe ->]]].
    + apply MR_own_step with (s := s) (b := (a, th)) (t := t) (p := PIdle) (e0 := match prep (thr s t) with Some e => e | None => 0 end); auto; try discriminate; try exact I.
      intros Ho. destruct (MR_own _ _ HR _ Ho) as [X1 X2]. split; auto. split; [discriminate|auto].
    + apply MR_own_step with (s := s) (b := (a, th)) (t := t) (p := PIdle) (e0 := e); auto; try discriminate; try exact I.
      * intros x. cbn [set_own own go]. rewrite upd_eqv. destruct (Nat.eq_dec x e); auto; congruence.
      * intros _. split; [exact (MR_pre _ _ HR t e Pe)|]. split; [discriminate|]. intros u nu X. apply nu. eapply (MR_uni _ _ HR); eauto.
Qed.

Lemma MR_again : forall s b t (e v : nat) c s' ev, MR s b -> t < n -> prep (thr s t) = Some e -> phase_of (thr s t) = Called (if c : bool then TryEnq e v else Enq e v) ->
  vl s e = v -> nx s e = None -> again s t c e v = Some (s', ev) -> 
  exists b', accepts (lstep fifo_seq mres_dec) b ev = Some b' /\ MR s' b'.
Proof.
  intros s b t e v c s' ev HR Ht Pe Ep Ev En Hst. unfold again in Hst. destruct c; injection Hst as <- <-.
  - apply MR_fin with (s := s) (o := TryEnq e v); auto. right. exists e. auto.
  - exists b. split; auto. apply MR_local; auto. intros _. cbn [TI]. auto.
Qed.
Lemma MR_dagain : forall s b t c s' ev, MR s b -> t < n -> prep (thr s t) = None -> phase_of (thr s t) = Called (if c : bool then TryDeq else Deq) ->
  dagain s t c = Some (s', ev) -> 
  exists b', accepts (lstep fifo_seq mres_dec) b ev = Some b' /\ MR s' b'.
Proof.
  intros s b t c s' ev HR Ht Pe Ep Hst. unfold dagain in Hst. destruct c; injection Hst as <- <-.
  - apply MR_fin with (s := s) (o := TryDeq); auto.
  - exists b. split; auto. apply MR_local; auto. intros _. exact I.
Qed.

Lemma cas_tail_thr : forall s p g x, thr (cas_tail s p g x) = thr s /\ vl (cas_tail s p g x) = vl s /\ nx (cas_tail s p g x) = nx s.
Proof. intros. unfold cas_tail. destruct (_ && _); auto. Qed.

Lemma MR_step : forall s b l s' ev, MR s b -> mstep n s l = Some (s', ev) ->
  exists b', accepts (lstep fifo_seq mres_dec) b ev = Some b' /\ MR s' b'.
Proof.
  intros s b [t ac] s' ev HR Hst. unfold mstep in Hst.
  destruct (Nat.ltb_spec t n) as [Ht|]; [|discriminate]. cbn [negb] in Hst.
  destruct ac as [o|].
  - destruct (thr s t) eqn:Et; try discriminate. pose proof (MR_th _ _ HR t) as E. rewrite Et in E. cbn [phase_of] in E.
    destruct b as [a th]. cbn [snd] in E.
    assert (HA : accepts (lstep fifo_seq mres_dec) (a, th) [Call t o] = Some (a, upd th t (Called o))).
    { cbn [accepts lstep]. rewrite E. auto. }
    assert (SN : forall u, upd th t (Called o) u = if Nat.eq_dec u t then Called o else th u) by (intros; apply upd_eqv).
    unfold mcall in Hst. destruct o as [e v|e v| |].
    + destruct (may_enq n s e) eqn:Em; [|discriminate]. injection Hst as <- <-. eexists. split; [exact HA|].
      apply MR_own_step with (s := s) (b := (a, th)) (t := t) (p := Q1 false e v) (e0 := e); auto; cbn [set_own go own].
      * intros x. rewrite upd_eqv. destruct (Nat.eq_dec x e); auto; discriminate.
      * rewrite upd_same. discriminate.
      * intros x Hx. injection Hx as <-. rewrite upd_same. auto.
      * exact I.
    + destruct (may_enq n s e) eqn:Em; [|discriminate]. injection Hst as <- <-. eexists. split; [exact HA|].
      apply MR_own_step with (s := s) (b := (a, th)) (t := t) (p := Q1 true e v) (e0 := e); auto; cbn [set_own go own].
      * intros x. rewrite upd_eqv. destruct (Nat.eq_dec x e); auto; discriminate.
      * rewrite upd_same. discriminate.
      * intros x Hx. injection Hx as <-. rewrite upd_same. auto.
      * exact I.
    + injection Hst as <- <-. eexists. split; [exact HA|].
      apply MR_own_step with (s := s) (b := (a, th)) (t := t) (p := K1 false) (e0 := 0); auto; try discriminate; try exact I.
      intros Ho. destruct (MR_own _ _ HR _ Ho) as [X1 X2]. split; auto. split; [discriminate|auto].
    + injection Hst as <- <-. eexists. split; [exact HA|].
      apply MR_own_step with (s := s) (b := (a, th)) (t := t) (p := K1 true) (e0 := 0); auto; try discriminate; try exact I.
      intros Ho. destruct (MR_own _ _ HR _ Ho) as [X1 X2]. split; auto. split; [discriminate|auto].
  - pose proof (MR_ti _ _ HR t) as T. unfold mtick in Hst.
    destruct (thr s t) as [|c e v|c e v|c e v|c e v|c e v g|c e v g p|c e v g p m|c e v g p m x|c e v g p x|c e v g p m|c e g p|c|c g|c g h|c g h g'|c g h g' p|c g h g' p|c h x g'|c g h x|c g h x v] eqn:Et;
      cbn [TI] in T; [discriminate|..].
    + injection Hst as <- <-. exists b. split; auto. apply MR_prep with (s := s) (t := t) (p := Q2 c e v) (e := e); auto; try (rewrite Et; reflexivity); cbn [go set_vl nx vl TI].
      * intros x Hx. rewrite upd_other; auto.
      * apply upd_same.
    + injection Hst as <- <-. exists b. split; auto. apply MR_prep with (s := s) (t := t) (p := Q3 c e v) (e := e); auto; try (rewrite Et; reflexivity); cbn [go set_nx nx vl TI].
      * intros x Hx. rewrite upd_other; auto.
      * split; auto. apply upd_same.
    + injection Hst as <- <-. exists b. split; auto. apply MR_prep with (s := s) (t := t) (p := Q4 c e v) (e := e); auto; try (rewrite Et; reflexivity).
    + injection Hst as <- <-. exists b. split; auto. apply MR_local; auto; rewrite Et; auto.
    + injection Hst as <- <-. exists b. split; auto. apply MR_local; auto; rewrite Et; auto. cbn [TI]. intros [A B]. split; auto. split; auto.
      pose proof (tp_in _ _ HR) as Hi. split; [|split; auto]. intros u Hu. exact (MR_pre _ _ HR u _ Hu Hi).
    + injection Hst as <- <-. exists b. split; auto. apply MR_local; auto; rewrite Et; auto.
    + injection Hst as <- <-. exists b. split; auto. apply MR_local; auto; rewrite Et; auto. cbn [TI]. tauto.
    + destruct T as [T1 [T2 [T3 T4]]]. destruct (N.eqb (tg s) g).
      * destruct x as [y|]; injection Hst as <- <-; exists b; (split; [auto|]); apply MR_local; auto; rewrite Et; auto; cbn [TI].
        -- intros _. destruct T4; [discriminate|auto].
        -- tauto.
      * apply (MR_again s b t e v c); auto; rewrite Et; auto.
    + destruct T as [T1 [T2 [T3 T4]]]. destruct (cas_tail_thr s p g x) as [X1 [X2 X3]].
      apply (MR_again (cas_tail s p g x) b t e v c); auto; rewrite ?X1, ?X2, ?X3, ?Et; auto. apply MR_tail; auto.
    + destruct T as [T1 [T2 T3]].
      destruct (nx s p) as [y|] eqn:En; [apply (MR_again s b t e v c); auto; rewrite Et; auto|].
      destruct (N.eqb (ng s p) m); [|apply (MR_again s b t e v c); auto; rewrite Et; auto].
      injection Hst as <- <-. destruct b as [a th]. pose proof (MR_th _ _ HR t) as E. rewrite Et in E. cbn [phase_of snd] in E.
      exists ({| sq := sq a ++ [(e, v)]; stub := stub a |}, upd th t (Done (if c then RB true else RU))). split.
      { cbn [accepts lstep]. rewrite E. destruct c; reflexivity. }
      assert (Pt : prep (thr s t) = Some e) by (rewrite Et; auto).
      pose proof HR as [C ND VL TL OW U PR TH NT T]. cbn [fst snd] in *.
      assert (Ne : ~ In e (all a)) by (apply (PR t); auto).
      destruct T3 as [T3 [T4 T5]]. specialize (T5 En). destruct T4 as [T4|T4]; [|congruence].
      destruct (chain_none _ _ _ _ C T4 En) as [r Ea].
      assert (Npe : p <> e) by congruence.
      assert (EA : all {| sq := sq a ++ [(e, v)]; stub := stub a |} = all a ++ [e]).
      { unfold all. simpl. rewrite map_app. auto. }
      assert (G : forall u, prep (upd (thr s) t (Q11 c e g p) u) = if Nat.eq_dec u t then None else prep (thr s u)).
      { intros u. rewrite upd_eqv. destruct (Nat.eq_dec u t); auto. }
      constructor; cbn [fst snd go set_ng set_nx hp hg tp tg nx ng vl own thr]; rewrite ?EA; auto.
      * rewrite Ea in *. rewrite <- app_assoc. cbn [app]. apply chain_snoc; auto.
      * apply NoDup_app_snoc; auto.
      * cbn [sq]. intros x w Hx. apply in_app_or in Hx. destruct Hx as [Hx|[Hx|[]]]; auto. congruence.
      * exists r. right. exists e. rewrite Ea, T5, <- app_assoc. auto.
      * intros x Hx. destruct (OW x Hx) as [X1 X2]. split.
        -- intros X. apply in_app_or in X. destruct X as [X|[<- |[]]]; auto. exact (X2 t Pt).
        -- intros u. rewrite G. destruct (Nat.eq_dec u t); [discriminate|auto].
      * intros u w x. rewrite !G. destruct (Nat.eq_dec u t); [discriminate|]. destruct (Nat.eq_dec w t); [discriminate|]. apply U.
      * intros u x. rewrite G. destruct (Nat.eq_dec u t) as [->|nu]; [discriminate|]. intros Hu X. apply in_app_or in X. destruct X as [X|[<- |[]]]; [exact (PR u x Hu X)|].
        apply nu. eapply U; eauto.
      * intros u. rewrite !upd_eqv. destruct (Nat.eq_dec u t) as [->|]; auto.
      * intros u Hu. rewrite upd_other by lia. auto.
      * intros u. rewrite (upd_eqv (thr s)). destruct (Nat.eq_dec u t) as [->|nu].
        -- cbn [TI]. rewrite upd_same. split; auto. split; [|split].
           ++ intros w. rewrite G. destruct (Nat.eq_dec w t); [discriminate|auto].
           ++ right. rewrite upd_same. discriminate.
           ++ rewrite upd_same. discriminate.
        -- apply TI_mono with (L := all a) (h0 := hp s) (t0 := tp s) (nx := nx s) (vl := vl s) (NP := fun x => forall u, prep (thr s u) <> Some x); auto.
           ++ intros x Hx. split; auto. rewrite upd_other; auto. intros ->. exact (T3 u Hx).
           ++ intros y Hy Hn. split.
              { intros w. rewrite G. destruct (Nat.eq_dec w t); [discriminate|auto]. }
              assert (Nye : y <> e) by (intros ->; exact (Hn t Pt)).
              unfold keeps. split; [|split; [|split; [|split; [|repeat split; auto]]]].
              ** intros [X|X]; [left; apply in_or_app; auto|]. right. rewrite upd_other; auto. congruence.
              ** intros z Hz. rewrite upd_other; auto. congruence.
              ** intros _ X Y. apply X. rewrite upd_eqv in Y. destruct (Nat.eq_dec y p); [discriminate|auto].
              ** intros X Y. apply X. apply in_app_or in Y. destruct Y as [Y|[Y|[]]]; auto. congruence.
    + injection Hst as <- <-. destruct b as [a th]. pose proof (MR_th _ _ HR t) as E. rewrite Et in E. cbn [phase_of snd] in E.
      destruct T as [T1 T2]. pose proof (MR_tail _ _ p g e HR T2) as HR1. destruct (cas_tail_thr s p g e) as [X1 [X2 X3]].
      eexists. split.
      { cbn [accepts lstep]. rewrite E. destruct (mres_dec _ _); [reflexivity|congruence]. }
      apply MR_own_step with (s := cas_tail s p g e) (b := (a, th)) (t := t) (p := PIdle) (e0 := 0); auto; try discriminate; try exact I.
      * intros Ho. destruct (MR_own _ _ HR1 _ Ho) as [Y1 Y2]. split; auto. split; [discriminate|auto].
    + injection Hst as <- <-. exists b. split; auto. apply MR_local; auto; rewrite Et; auto.
    + injection Hst as <- <-. exists b. split; auto. apply MR_local; auto; rewrite Et; auto. cbn [TI]. intros _.
      assert (Hi : In (hp s) (all (fst b))) by (rewrite (hp_in _ _ HR); left; auto).
      split; [|split; auto]. intros u Hu. exact (MR_pre _ _ HR u _ Hu Hi).
    + injection Hst as <- <-. exists b. split; auto. apply MR_local; auto; rewrite Et; auto.
    + injection Hst as <- <-. exists b. split; auto. apply MR_local; auto; rewrite Et; auto. cbn [TI]. auto.
    + injection Hst as <- <-. exists b. split; auto. apply MR_local; auto; rewrite Et; auto.
    + destruct T as [T1 T2]. destruct (Nat.eqb_spec h p) as [->|nh]; destruct (nx s _) as [x|] eqn:En.
      * injection Hst as <- <-. exists b. split; auto. apply MR_local; auto; rewrite Et; auto. cbn [TI]. tauto.
      * injection Hst as <- <-. apply MR_fin with (s := s) (o := if c then TryDeq else Deq); auto.
        -- rewrite Et. auto.
        -- destruct T1 as [_ [A B]]. destruct A as [A|A]; [|congruence]. specialize (B A).
           destruct (chain_none _ _ _ _ (MR_chain _ _ HR) A En) as [r Ea]. rewrite <- B, (hp_in _ _ HR) in Ea.
           assert (Eq : sq (fst b) = []).
           { unfold all in Ea. destruct r as [|z r]; simpl in Ea.
             - injection Ea as Ea. destruct (sq (fst b)); auto; discriminate.
             - injection Ea as Ez Ea. pose proof (MR_nd _ _ HR) as ND. unfold all in ND. inversion ND as [|? ? N1 N2]. exfalso. apply N1. rewrite Ea. apply in_or_app. right. left. auto. }
           destruct c; cbn [fifo_seq]; auto. rewrite Eq. auto.
      * injection Hst as <- <-. exists b. split; auto. apply MR_local; auto; rewrite Et; auto. cbn [TI]. auto.
      * apply (MR_dagain s b t c); auto; rewrite Et; auto.
    + destruct T as [T1 T2]. destruct (cas_tail_thr s h g' x) as [X1 [X2 X3]].
      apply (MR_dagain (cas_tail s h g' x) b t c); auto; rewrite ?X1, ?Et; auto. apply MR_tail; auto.
    + injection Hst as <- <-. exists b. split; auto. apply MR_local; auto; rewrite Et; auto. cbn [TI]. tauto.
    + destruct T as [T1 [T2 [T3 T4]]].
      destruct (Nat.eqb_spec (hp s) h) as [Eh|]; [|apply (MR_dagain s b t c); auto; rewrite Et; auto].
      destruct (N.eqb (hg s) g); [|apply (MR_dagain s b t c); auto; rewrite Et; auto]. cbn [andb] in Hst. injection Hst as <- <-.
      destruct b as [a th]. pose proof (MR_th _ _ HR t) as E. rewrite Et in E. cbn [phase_of snd] in E.
      pose proof (hp_in _ _ HR) as Hs. pose proof HR as [C ND VL TL OW U PR TH NT T]. cbn [fst snd] in *.
      specialize (T4 Eh). unfold all in C. cbn [chain] in C. destruct C as [_ C]. rewrite <- Hs, Eh, T2 in C.
      destruct (sq a) as [|[x' w] q] eqn:Eq; cbn [map chain] in C; [discriminate|]. destruct C as [C0 C]. injection C0 as <-. cbn [fst] in C.
      assert (Ew : w = v) by (rewrite <- (VL x w); auto; left; auto). subst w.
      eexists. split.
      { cbn [accepts lstep]. rewrite E. replace (fifo_seq a (if c then TryDeq else Deq) (RD (Some (v, h)))) with (Some {| sq := q; stub := x |}).
        - cbn [lstep]. rewrite upd_same. destruct (mres_dec _ _); [reflexivity|congruence].
        - destruct c; cbn [fifo_seq]; rewrite Eq, Nat.eqb_refl, <- Hs, Eh, Nat.eqb_refl; reflexivity. }
      assert (EA : all a = h :: x :: map fst q) by (unfold all; rewrite Eq, <- Hs, Eh; auto).
      assert (EA' : all {| sq := q; stub := x |} = x :: map fst q) by reflexivity.
      assert (ND' : NoDup (h :: x :: map fst q)) by (rewrite <- EA; auto). inversion ND' as [|? ? N1 N2]; subst x0 l.
      assert (SUB : forall z, In z (x :: map fst q) -> In z (all a)) by (intros z Hz; rewrite EA; right; auto).
      assert (G : forall u, prep (upd (thr s) t PIdle u) = if Nat.eq_dec u t then None else prep (thr s u)).
      { intros u. rewrite upd_eqv. destruct (Nat.eq_dec u t); auto. }
      constructor; cbn [fst snd go set_own set_head hp hg tp tg nx ng vl own thr]; rewrite ?EA'; auto.
      * cbn [chain]. auto.
      * cbn [sq]. intros z w Hz. apply VL. right. auto.
      * destruct TL as [l TL]. rewrite EA in TL. destruct l as [|z l]; simpl in TL.
        -- destruct TL as [TL|[y TL]]; injection TL as TL _; congruence.
        -- exists l. destruct TL as [TL|[y TL]]; injection TL as _ TL; [left; auto|right; exists y; auto].
      * intros z Hz. rewrite upd_eqv in Hz. destruct (Nat.eq_dec z h) as [->|nz].
        -- split; auto. intros u. rewrite G. destruct (Nat.eq_dec u t); [discriminate|]. apply T1.
        -- destruct (OW z Hz) as [X1 X2]. split; auto. intros u. rewrite G. destruct (Nat.eq_dec u t); [discriminate|auto].
      * intros u w z. rewrite !G. destruct (Nat.eq_dec u t); [discriminate|]. destruct (Nat.eq_dec w t); [discriminate|]. apply U.
      * intros u z. rewrite G. destruct (Nat.eq_dec u t) as [->|nu]; [discriminate|]. intros Hu X. exact (PR u z Hu (SUB z X)).
      * intros u. rewrite !upd_eqv. destruct (Nat.eq_dec u t) as [->|]; auto.
      * intros u Hu. rewrite upd_other by lia. auto.
      * intros u. rewrite (upd_eqv (thr s)). destruct (Nat.eq_dec u t) as [->|nu]; [exact I|].
        apply TI_mono with (L := all a) (h0 := hp s) (t0 := tp s) (nx := nx s) (vl := vl s) (NP := fun x => forall u, prep (thr s u) <> Some x); auto.
        intros y Hy Hn. split.
        { intros w. rewrite G. destruct (Nat.eq_dec w t); [discriminate|auto]. }
        unfold keeps. split; [|split; [|split; [|split; [|repeat split; auto]]]]; auto.
        -- rewrite EA. intros [[<- |X]|X]; auto. right. congruence.
        -- intros X Y. specialize (X (SUB y Y)). exfalso. apply N1. congruence.
        -- intros X <-. apply X. apply SUB. left. auto.
Qed.

Lemma fifo_run : forall e ls s log, run (mstep n) (minit e) ls = Some (s, log) ->
  exists b, accepts (lstep fifo_seq mres_dec) (mabs0 e, idle) log = Some b /\ MR s b.
Proof. intros e ls s log Hr. apply (run_refines (mstep n) (lstep fifo_seq mres_dec) MR (minit e) (mabs0 e, idle) (MR_init e) MR_step ls). auto. Qed.
End Mp.

Lemma fifo_mp_lin : forall n e ls s log, run (mstep n) (minit e) ls = Some (s, log) -> linearizable fifo_seq mres_dec (mabs0 e) (history log).
Proof. intros n e ls s log Hr. destruct (fifo_run n e ls s log Hr) as [b [Hb _]]. apply lin_legal_history. exists b. auto. Qed.
