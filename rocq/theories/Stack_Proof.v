(** Proofs about the UPMC and MPMC stacks. *)
From Coq Require Import NArith Arith List Bool Lia.
From Verif Require Import Lib LockProg Lin RingMp_Proof Stack_Model Stack_Spec.
Import ListNotations.
Local Arguments N.modulo : simpl never.
Local Arguments N.add : simpl never.
Local Arguments N.eqb : simpl never.
Local Arguments Nat.eqb : simpl never.
Local Arguments Nat.ltb : simpl never.
Local Arguments upd : simpl never.

(** ** Chains *)
Fixpoint chain (nx : nat -> option nat) (h : option nat) (q : list nat) : Prop :=
  match q with [] => h = None | e :: q' => h = Some e /\ chain nx (nx e) q' end.

Lemma chain_ext : forall nx nx' q h, (forall e, In e q -> nx' e = nx e) -> chain nx h q -> chain nx' h q.
Proof.
  intros nx nx'. induction q as [|e q IH]; intros h H C; simpl in *; auto.
  destruct C as [-> C]. split; auto. rewrite H by auto. apply IH; auto.
Qed.
Lemma walk_chain : forall nx q h f, chain nx h q -> length q <= f -> walk f nx h = Some q.
Proof.
  intros nx. induction q as [|e q IH]; intros h f C L; simpl in C.
  - subst h. destruct f; reflexivity.
  - destruct C as [-> C]. destruct f as [|f]; [simpl in L; lia|]. simpl. rewrite (IH (nx e) f C); auto. simpl in L. lia.
Qed.
Lemma opt_eqb_eq : forall a b, opt_eqb a b = true <-> a = b.
Proof.
  intros [x|] [y|]; simpl; split; intros H; try discriminate; auto.
  - apply Nat.eqb_eq in H. congruence.
  - injection H as ->. apply Nat.eqb_refl.
Qed.
Lemma opt_eqb_neq : forall a b, opt_eqb a b = false <-> a <> b.
Proof. intros a b. rewrite <- opt_eqb_eq. destruct (opt_eqb a b); split; congruence. Qed.

(** ** Spans *)
Lemma span_app : forall t a b, span t (a ++ b) = fold_left (span1 t) b (span t a).
Proof. intros. unfold span. apply fold_left_app. Qed.
Lemma short_prefix : forall a b, short_calls (a ++ b) -> short_calls a.
Proof. intros a b H t pre suf n E Hn. apply (H t pre (suf ++ b) n); auto. rewrite E, app_assoc. auto. Qed.
Lemma short_now : forall a t n, short_calls a -> span t a = Some n -> (n < W)%N.
Proof. intros a t n H Hn. apply (H t a [] n); auto. rewrite app_nil_r. auto. Qed.

(** ** The simulation *)
Definition pushing (p : spc) : option nat :=
  match p with Pu1 _ e | Pu2 _ e _ | Pu3 _ e _ => Some e | _ => None end.

Definition phase_of (p : spc) : phase sop sres :=
  match p with
  | PIdle => Idle
  | Pu1 b e | Pu2 b e _ | Pu3 b e _ => Called (if b then TryPush e else Push e)
  | Po1 b | Po2 b _ | Po3 b _ _ | G1 b | G2 b _ | G3 b _ _ | G4 b _ _ _ => Called (if b then TryPop else Pop)
  | Ba => Called Batch
  end.

Definition in_mode (c : cfg) (p : spc) : Prop :=
  match p with
  | Po1 _ | Po2 _ _ | Po3 _ _ _ => md c = UP
  | G1 _ | G2 _ _ | G3 _ _ _ | G4 _ _ _ _ => md c = MP
  | Ba => bp c = true
  | _ => True
  end.

(** generation [g] was read [k] or fewer pops ago, as absolute count [a] *)
Definition gread (Gn : N) (sp : option N) (g : N) (K : Prop) : Prop :=
  exists k a, sp = Some k /\ g = (a mod W)%N /\ (a <= Gn <= a + k)%N /\ (a = Gn -> K).

(** per thread: what it knows of the stack [h], [nx], abstract stack [q], dirty flag [d] *)
Definition TI (h : option nat) (g : N) (nx : nat -> option nat) (q : list nat) (d : bool) (Gn : N) (sp : option N) (NP : nat -> Prop) (p : spc) : Prop :=
  match p with
  | PIdle | Pu1 _ _ | Po1 _ | Ba => True
  | Pu2 _ _ st => h = st \/ d = true
  | Pu3 _ e st => nx e = st /\ (h = st \/ d = true)
  | Po2 _ x => NP x /\ (h = Some x \/ d = true)
  | Po3 _ x n => NP x /\ (In x q -> nx x = n) /\ (h = Some x \/ d = true)
  | G1 _ => exists k, sp = Some k
  | G2 _ g' => gread Gn sp g' True /\ (g = g' \/ d = true)
  | G3 _ g' x => gread Gn sp g' (In x q) /\ (h = Some x /\ g = g' \/ d = true)
  | G4 _ g' x n => gread Gn sp g' (In x q /\ nx x = n) /\ (h = Some x /\ g = g' \/ d = true)
  end.

Section Stack.
Variable c : cfg.
Hypothesis Hc : md c = MP -> bp c = false.

Record R (s : sst) (a : sabs) (log : list sev) : Prop := {
  R_chain : chain (nxt s) (head s) (fst (a_lin a));
  R_nodup : NoDup (fst (a_lin a));
  R_len : length (fst (a_lin a)) <= pushes s;
  R_own : forall e, own s e = true -> ~ In e (fst (a_lin a)) /\ forall t, pushing (thr s t) <> Some e;
  R_uni : forall t u e, pushing (thr s t) = Some e -> pushing (thr s u) = Some e -> t = u;
  R_pq : forall t e, pushing (thr s t) = Some e -> ~ In e (fst (a_lin a));
  R_th : forall t, snd (a_lin a) t = phase_of (thr s t);
  R_md : forall t, in_mode c (thr s t);
  R_nt : forall t, nt c <= t -> thr s t = PIdle;
  R_ti : exists Gn, gen s = (Gn mod W)%N /\ forall t,
    TI (head s) (gen s) (nxt s) (fst (a_lin a)) (a_dirty a t) Gn (span t log) (fun x => forall u, pushing (thr s u) <> Some x) (thr s t) }.

Lemma R_init : R sinit a0 [].
Proof.
  constructor; simpl; try tauto; try discriminate; auto.
  - constructor.
  - intros e _. split; [auto|discriminate].
  - exists 0%N. split; [reflexivity|]. auto.
Qed.

(** a step that changes neither memory nor the abstract stack *)
Lemma R_local : forall s a log t p, R s a log -> t < nt c -> pushing p = pushing (thr s t) -> phase_of p = phase_of (thr s t) -> in_mode c p ->
  (forall Gn, gen s = (Gn mod W)%N ->
     TI (head s) (gen s) (nxt s) (fst (a_lin a)) (a_dirty a t) Gn (span t log) (fun x => forall u, pushing (thr s u) <> Some x) (thr s t) ->
     TI (head s) (gen s) (nxt s) (fst (a_lin a)) (a_dirty a t) Gn (span t log) (fun x => forall u, pushing (thr s u) <> Some x) p) ->
  R (go s t p) a (log ++ []).
Proof.
  intros s a log t p [C ND L O U PQ TH MD NT [Gn [Hg T]]] Ht Ep Eph Em HT. rewrite app_nil_r.
  assert (G : forall u, pushing (upd (thr s) t p u) = pushing (thr s u)).
  { intros u. destruct (Nat.eq_dec u t) as [->|n]; [rewrite upd_same|rewrite upd_other]; auto. }
  constructor; cbn [go head nxt gen thr own pushes]; auto.
  - intros e He. destruct (O e He). split; auto. intros u. rewrite G. auto.
  - intros u v e. rewrite !G. apply U.
  - intros u e. rewrite G. apply PQ.
  - intros u. destruct (Nat.eq_dec u t) as [->|n]; [rewrite upd_same|rewrite upd_other by auto]; rewrite TH; auto.
  - intros u. destruct (Nat.eq_dec u t) as [->|n]; [rewrite upd_same|rewrite upd_other by auto]; auto.
  - intros u Hu. rewrite upd_other by lia. auto.
  - exists Gn. split; auto. intros u.
    assert (X : forall q, (forall x, (forall v, pushing (thr s v) <> Some x) -> forall v, pushing (upd (thr s) t p v) <> Some x) -> 
       TI (head s) (gen s) (nxt s) (fst (a_lin a)) (a_dirty a u) Gn (span u log) (fun x => forall v, pushing (thr s v) <> Some x) q ->
       TI (head s) (gen s) (nxt s) (fst (a_lin a)) (a_dirty a u) Gn (span u log) (fun x => forall v, pushing (upd (thr s) t p v) <> Some x) q).
    { intros q HH. destruct q; cbn [TI]; auto; intros HT'; intuition (apply HH; auto). }
    destruct (Nat.eq_dec u t) as [->|n]; [rewrite upd_same|rewrite upd_other by auto]; apply X; auto;
      intros x Hx v; rewrite G; auto.
Qed.

Lemma upd_eqv : forall {A} (f : nat -> A) t v u, upd f t v u = if Nat.eq_dec u t then v else f u.
Proof. intros. unfold upd. destruct (Nat.eq_dec u t); auto. Qed.

(** what a step of another thread must preserve *)
Lemma TI_mono : forall h g nx q d Gn sp (NP : nat -> Prop) h' g' nx' q' d' Gn' sp' (NP' : nat -> Prop) p,
  in_mode c p ->
  (d' = true \/ h' = h /\ g' = g /\ d' = d) ->
  (forall e, pushing p = Some e -> nx' e = nx e) ->
  (md c = UP -> forall x, holds p x = true -> NP x -> NP' x /\ (In x q' -> In x q /\ nx' x = nx x)) ->
  (md c = MP -> (Gn <= Gn')%N /\ (forall k, sp = Some k -> exists k', sp' = Some k' /\ (Gn' + k <= Gn + k')%N) /\
     (Gn = Gn' -> forall x, In x q -> In x q' /\ nx' x = nx x)) ->
  TI h g nx q d Gn sp NP p -> TI h' g' nx' q' d' Gn' sp' NP' p.
Proof.
  intros h g nx q d Gn sp NP h' g' nx' q' d' Gn' sp' NP' p M D P U G.
  assert (DD : forall X Y : Prop, (h' = h -> g' = g -> X -> Y) -> X \/ d = true -> Y \/ d' = true).
  { intros X Y HXY [HX|HX]; destruct D as [D|[D1 [D2 D3]]]; auto. right. congruence. }
  assert (GG : md c = MP -> forall g0 (K K' : Prop), (Gn = Gn' -> K -> K') -> gread Gn sp g0 K -> gread Gn' sp' g0 K').
  { intros Em g0 K K' HK [k [a [E1 [E2 [E3 E4]]]]]. destruct (G Em) as [L [S _]]. destruct (S k E1) as [k' [E5 E6]].
    exists k', a. split; auto. split; auto. split; [lia|]. intros Ea. apply HK; [lia|]. apply E4. lia. }
  destruct p; cbn [TI in_mode] in *; auto.
  - apply DD. congruence.
  - intros [E HD]. rewrite P by reflexivity. split; auto. revert HD. apply DD. congruence.
  - intros [E HD]. destruct (U M x) as [N _]; [apply Nat.eqb_refl|auto|]. split; auto. revert HD. apply DD. congruence.
  - intros [E [Q HD]]. destruct (U M x) as [N N2]; [apply Nat.eqb_refl|auto|]. split; auto. split; [|revert HD; apply DD; congruence].
    intros Hx. destruct (N2 Hx) as [X1 X2]. rewrite X2. auto.
  - intros [k E]. destruct (G M) as [_ [S _]]. destruct (S k E) as [k' [E' _]]. eauto.
  - intros [E HD]. split; [revert E; apply GG; auto|]. revert HD. apply DD. congruence.
  - intros [E HD]. split; [|revert HD; apply DD; intuition congruence]. revert E. apply GG; auto. intros En Hx.
    destruct (G M) as [_ [_ S]]. apply S; auto.
  - intros [E HD]. split; [|revert HD; apply DD; intuition congruence]. revert E. apply GG; auto. intros En [Hx Hn].
    destruct (G M) as [_ [_ S]]. destruct (S En x Hx) as [X1 X2]. split; auto. congruence.
Qed.

(** the returning step of thread [t]; the abstract stack becomes [q'] *)
Lemma R_fin : forall s a log t r q' s', R s a log ->
  lifo (fst (a_lin a)) (match phase_of (thr s t) with Called o => o | _ => Pop end) r = Some q' ->
  thr s t <> PIdle ->
  (r = RB false -> a_dirty a t = true) ->
  (r = RV None -> fst (a_lin a) = [] \/ a_dirty a t = true) ->
  (forall a', fst (a_lin a') = q' -> (forall u, snd (a_lin a') u = upd (snd (a_lin a)) t Idle u) ->
     a_dirty a' = (if changes r then fun _ => true else a_dirty a) ->
     R s' a' (log ++ [Lin t r; Ret t r])) ->
  exists a', accepts stk_step a [Lin t r; Ret t r] = Some a' /\ R s' a' (log ++ [Lin t r; Ret t r]).
Proof.
  intros s [[q th] d] log t r q' s' HR Hl Hn H1 H2 H3. cbn [a_lin a_dirty fst snd] in *.
  pose proof (R_th _ _ _ HR t) as E. cbn [a_lin snd] in E.
  destruct (phase_of (thr s t)) as [|o|x] eqn:Ep.
  - destruct (thr s t); discriminate || congruence.
  - assert (Ok : match r with RB false => d t | RV None => match q with [] => true | _ => d t end | _ => true end = true).
    { destruct r as [|[|]|[v|]| |]; auto. destruct (H2 eq_refl) as [-> | HH]; auto. rewrite HH. destruct q; auto. }
    eexists. split.
    + cbn [accepts]. unfold stk_step at 1. cbn [lstep a_lin]. rewrite E, Hl. cbn [a_dirty fst]. rewrite Ok.
      unfold stk_step. cbn [lstep a_lin]. rewrite upd_same.
      destruct (sres_dec r r) as [_|]; [|congruence]. reflexivity.
    + apply H3; cbn [a_lin a_dirty snd]; auto. intros u. rewrite !upd_eqv. destruct (Nat.eq_dec u t); auto.
  - destruct (thr s t); discriminate.
Qed.

(** spans of other threads across the returning step *)
Lemma span_fin : forall u t r log, u <> t ->
  span u (log ++ [Lin t r; Ret t r]) = match r with RV (Some _) => option_map N.succ (span u log) | _ => span u log end.
Proof.
  intros u t r log n. rewrite span_app. cbn [fold_left span1]. rewrite (proj2 (Nat.eqb_neq t u)) by auto. 
  destruct r as [| |[v|]| |]; reflexivity.
Qed.

(** returning from thread [t] with new memory: the obligations on the new memory *)
Lemma R_ret : forall s a log t r q' s' a', R s a log -> t < nt c ->
  thr s' = upd (thr s) t PIdle ->
  chain (nxt s) (head s') q' -> NoDup q' -> length q' <= pushes s' -> nxt s' = nxt s ->
  (forall e, own s' e = true -> ~ In e q' /\ forall u, u <> t -> pushing (thr s u) <> Some e) ->
  (forall u e, u <> t -> pushing (thr s u) = Some e -> ~ In e q') ->
  (forall Gn, gen s = (Gn mod W)%N -> 
     (forall u, TI (head s) (gen s) (nxt s) (fst (a_lin a)) (a_dirty a u) Gn (span u log) (fun x => forall v, pushing (thr s v) <> Some x) (thr s u)) ->
     exists Gn', gen s' = (Gn' mod W)%N /\ 
    (md c = MP -> Gn' = match r with RV (Some _) => Gn + 1 | _ => Gn end)%N) ->
  (md c = UP -> forall u x, u <> t -> holds (thr s u) x = true -> In x q' -> In x (fst (a_lin a)) \/ pushing (thr s t) = Some x) ->
  (match r with RV (Some _) => False | _ => True end -> md c = MP -> forall x, In x (fst (a_lin a)) -> In x q') ->
  (changes r = false -> head s' = head s /\ gen s' = gen s) ->
  fst (a_lin a') = q' -> (forall u, snd (a_lin a') u = upd (snd (a_lin a)) t Idle u) ->
  a_dirty a' = (if changes r then fun _ => true else a_dirty a) ->
  R s' a' (log ++ [Lin t r; Ret t r]).
Proof.
  intros s a log t r q' s' a' [C ND L O U PQ TH MD NT [Gn [Hg T]]] Ht E1 C' ND' L' E2 O' PQ' G' HU' HM' HC' A1 A2 A3.
  assert (P : forall u, pushing (thr s' u) = if Nat.eq_dec u t then None else pushing (thr s u)).
  { intros u. rewrite E1, upd_eqv. destruct (Nat.eq_dec u t); auto. }
  destruct (G' Gn Hg T) as [Gn' [Hg' Hm]].
  constructor; rewrite ?A1, ?E2; auto.
  - intros e He. destruct (O' e He) as [X1 X2]. split; auto. intros u. rewrite P. destruct (Nat.eq_dec u t); [discriminate|auto].
  - intros u v e. rewrite !P. destruct (Nat.eq_dec u t); [discriminate|]. destruct (Nat.eq_dec v t); [discriminate|]. apply U.
  - intros u e. rewrite P. destruct (Nat.eq_dec u t); [discriminate|]. apply PQ'. auto.
  - intros u. rewrite A2, E1, !upd_eqv. destruct (Nat.eq_dec u t); auto.
  - intros u. rewrite E1, upd_eqv. destruct (Nat.eq_dec u t); [exact I|auto].
  - intros u Hu. rewrite E1, upd_other by lia. auto.
  - exists Gn'. split; auto. intros u. rewrite E1, upd_eqv. destruct (Nat.eq_dec u t) as [->|n]; [exact I|].
    apply TI_mono with (h := head s) (g := gen s) (nx := nxt s) (q := fst (a_lin a)) (d := a_dirty a u) (Gn := Gn) (sp := span u log)
      (NP := fun x => forall v, pushing (thr s v) <> Some x); auto.
    + rewrite A3. destruct (changes r) eqn:Er; auto. right. destruct (HC' eq_refl). auto.
    + intros Em x Hx Hn. split.
      * intros v. rewrite upd_eqv. destruct (Nat.eq_dec v t); [discriminate|]. apply Hn.
      * intros Hi. split; auto. destruct (HU' Em u x n Hx Hi) as [|X]; auto. exfalso. apply (Hn t). auto.
    + intros Em. rewrite span_fin by auto. specialize (Hm Em). subst Gn'. split; [destruct r as [| |[v|]| |]; lia|]. split.
      * intros k Hk. rewrite Hk. destruct r as [| |[v|]| |]; eexists; (split; [reflexivity|lia]).
      * intros En x Hx. split; auto. apply HM'; auto. destruct r as [| |[v|]| |]; auto. lia.
Qed.

(** a pop that finds the stack empty; a trypop that gives up *)
Lemma GIVEUP : forall s a log t r s', R s a log -> t < nt c -> phase_of (thr s t) = Called TryPop \/ (fst (a_lin a) = [] /\ phase_of (thr s t) = Called Pop) -> 
  fst (a_lin a) = [] \/ a_dirty a t = true -> r = RV None -> s' = go s t PIdle ->
  exists a', accepts stk_step a [Lin t r; Ret t r] = Some a' /\ R s' a' (log ++ [Lin t r; Ret t r]).
Proof.
  intros s a log t r s' HR Ht Hp Hd -> ->. pose proof HR as [C ND L O U PQ TH MD NT [Gn [Hg T]]].
  assert (NP : pushing (thr s t) = None). { destruct Hp as [Hp|[_ Hp]]; destruct (thr s t) as [|[]|[]|[]| | | | | | | |]; try discriminate Hp; auto. }
  apply R_fin with (s := s) (q' := fst (a_lin a)); auto; try discriminate.
  - destruct Hp as [-> |[Hq ->]]; auto. rewrite Hq. auto.
  - intros E. rewrite E in Hp. destruct Hp as [Hp|[_ Hp]]; discriminate.
  - intros a' A1 A2 A3. apply R_ret with (s := s) (a := a) (q' := fst (a_lin a)); auto.
    + intros e He. destruct (O e He). auto.
    + intros u e n Hu. exact (PQ u e Hu).
    + intros Gn' Hg' _. exists Gn'. auto.
Qed.
Lemma NONE : forall s a log t s' ev, R s a log -> t < nt c -> fin s t (RV None) = Some (s', ev) -> head s = None ->
  (exists b, phase_of (thr s t) = Called (if b : bool then TryPop else Pop)) ->
  exists a', accepts stk_step a ev = Some a' /\ R s' a' (log ++ ev).
Proof.
  intros s a log t s' ev HR Ht Hf Hh [b Hp]. injection Hf as <- <-.
  assert (Hq : fst (a_lin a) = []). { pose proof (R_chain _ _ _ HR) as C. destruct (fst (a_lin a)); auto. simpl in C. destruct C. congruence. }
  apply GIVEUP with (s := s) (t := t); auto. destruct b; auto.
Qed.

Lemma mod_window : forall W a b k, (0 < W)%N -> (a <= b <= a + k)%N -> (k < W)%N -> (b mod W = a mod W)%N -> a = b.
Proof.
  intros w a b k Hw L Hk E. pose proof (N.div_mod a w ltac:(lia)) as Da. pose proof (N.div_mod b w ltac:(lia)) as Db.
  rewrite E in Db. assert (w * (b / w) < w * (a / w) + w)%N by lia. assert (w * (a / w) <= w * (b / w))%N by lia.
  assert (b / w = a / w)%N by nia. congruence.
Qed.

Lemma R_step : forall s a log l s' ev, R s a log -> (md c = MP -> short_calls log) -> sstep c s l = Some (s', ev) ->
  exists a', accepts stk_step a ev = Some a' /\ R s' a' (log ++ ev).
Proof.
  intros s a log [t ac] s' ev HR Hs Hst. unfold sstep in Hst.
  destruct (Nat.ltb_spec t (nt c)) as [Ht|]; [|discriminate]. cbn [negb] in Hst.
  destruct ac as [o|].
  - (* call *)
    destruct (thr s t) eqn:Et; try discriminate. destruct a as [[q th] d].
    assert (Hi : th t = Idle). { change th with (snd (a_lin {| a_lin := (q, th); a_dirty := d |})). rewrite (R_th _ _ _ HR), Et. auto. }
    assert (HA : accepts stk_step {| a_lin := (q, th); a_dirty := d |} [Call t o] = Some {| a_lin := (q, upd th t (Called o)); a_dirty := upd d t false |}).
    { cbn [accepts]. unfold stk_step. cbn [lstep a_lin a_dirty]. rewrite Hi. auto. }
    assert (SP : forall u, u <> t -> span u (log ++ [Call t o]) = span u log).
    { intros u n. rewrite span_app. cbn [fold_left span1]. rewrite (proj2 (Nat.eqb_neq t u)); auto. }
    assert (SPt : span t (log ++ [Call t o]) = Some 0%N).
    { rewrite span_app. cbn [fold_left span1]. rewrite Nat.eqb_refl. auto. }
    assert (K : exists p ow, s' = {| head := head s; gen := gen s; nxt := nxt s; thr := upd (thr s) t p; own := ow; pushes := pushes s |} /\ ev = [Call t o] /\
       phase_of p = Called o /\ in_mode c p /\ 
       (forall e, ow e = true -> own s e = true /\ pushing p <> Some e) /\ 
       (forall e, pushing p = Some e -> may_push c s e = true) /\ 
       match p with Pu1 _ _ | Po1 _ | Ba | G1 _ => True | _ => False end).
    { unfold call in Hst. destruct o as [e|e| | |].
      - destruct (may_push c s e) eqn:Em; [|discriminate]. injection Hst as <- <-.
        exists (Pu1 false e), (upd (own s) e false). cbn [pushing phase_of in_mode]. repeat split; auto.
        + rewrite upd_eqv in H. destruct (Nat.eq_dec e0 e); [discriminate|auto].
        + rewrite upd_eqv in H. destruct (Nat.eq_dec e0 e); [discriminate|congruence].
        + congruence.
      - destruct (may_push c s e) eqn:Em; [|discriminate]. injection Hst as <- <-.
        exists (Pu1 true e), (upd (own s) e false). cbn [pushing phase_of in_mode]. repeat split; auto.
        + rewrite upd_eqv in H. destruct (Nat.eq_dec e0 e); [discriminate|auto].
        + rewrite upd_eqv in H. destruct (Nat.eq_dec e0 e); [discriminate|congruence].
        + congruence.
      - injection Hst as <- <-. destruct (md c) eqn:Em; [exists (Po1 false)|exists (G1 false)]; exists (own s); cbn [pushing phase_of in_mode]; repeat split; auto; discriminate.
      - injection Hst as <- <-. destruct (md c) eqn:Em; [exists (Po1 true)|exists (G1 true)]; exists (own s); cbn [pushing phase_of in_mode]; repeat split; auto; discriminate.
      - destruct (bp c) eqn:Eb; [|discriminate]. injection Hst as <- <-. exists Ba, (own s). cbn [pushing phase_of in_mode]. repeat split; auto; discriminate. }
    destruct K as [p [ow [-> [-> [K1 [K2 [K3 [K4 K5]]]]]]]]. eexists. split; [exact HA|].
    destruct HR as [C ND L O U PQ TH MD NT [Gn [Hg T]]]. cbn [a_lin fst snd a_dirty] in *.
    assert (P : forall u, pushing (upd (thr s) t p u) = if Nat.eq_dec u t then pushing p else pushing (thr s u)).
    { intros u. rewrite upd_eqv. destruct (Nat.eq_dec u t); auto. }
    assert (K6 : forall e, pushing p = Some e -> own s e = true).
    { intros e He. apply K4 in He. unfold may_push in He. apply andb_prop in He. tauto. }
    constructor; cbn [a_lin fst snd a_dirty head nxt gen thr own pushes]; auto.
    + intros e He. destruct (K3 e He) as [X1 X2]. destruct (O e X1) as [X3 X4]. split; auto. intros u. rewrite P. destruct (Nat.eq_dec u t); auto.
    + intros u v e. rewrite !P. destruct (Nat.eq_dec u t) as [->|n]; destruct (Nat.eq_dec v t) as [->|n']; auto.
      * intros H1 H2. destruct (O e (K6 e H1)) as [_ X]. exfalso. apply (X v). auto.
      * intros H1 H2. destruct (O e (K6 e H2)) as [_ X]. exfalso. apply (X u). auto.
      * apply U.
    + intros u e. rewrite P. destruct (Nat.eq_dec u t) as [->|n]; [|apply PQ]. intros H1. apply (O e (K6 e H1)).
    + intros u. rewrite !upd_eqv. destruct (Nat.eq_dec u t); auto.
    + intros u. rewrite upd_eqv. destruct (Nat.eq_dec u t); auto.
    + intros u Hu. rewrite upd_other by lia. auto.
    + exists Gn. split; auto. intros u. rewrite !upd_eqv. destruct (Nat.eq_dec u t) as [->|n].
      { destruct p; try contradiction; exact I || idtac. cbn [TI]. eauto. }
      apply TI_mono with (h := head s) (g := gen s) (nx := nxt s) (q := q) (d := d u) (Gn := Gn) (sp := span u log)
        (NP := fun x => forall v, pushing (thr s v) <> Some x); auto.
      * intros Em x Hx Hn. split; auto. intros v. rewrite P. destruct (Nat.eq_dec v t) as [->|]; [|apply Hn].
        intros He. apply K4 in He. unfold may_push in He. rewrite Em in He. apply andb_prop in He. destruct He as [_ He].
        rewrite forallb_forall in He. specialize (He u). rewrite Hx in He. 
        destruct (Nat.lt_ge_cases u (nt c)) as [Hu|Hu]; [|rewrite NT in Hx by auto; discriminate].
        rewrite in_seq in He. simpl in He. specialize (He ltac:(lia)). discriminate.
      * intros Em. split; [lia|]. split; [|auto]. intros k Hk. exists k. rewrite SP by auto. split; auto. lia.
  - (* tick *)
    pose proof (R_th _ _ _ HR t) as Eph. pose proof (R_md _ _ _ HR t) as Emd.
    unfold tick in Hst. destruct (thr s t) as [|b e|b e st|b e st|b|b x|b x n|b|b g|b g x|b g x n|] eqn:Et; cbn [in_mode] in Emd.
    + discriminate.
    + (* Pu1 *)
      injection Hst as <- <-. exists a. split; auto. apply R_local; auto; rewrite Et; auto. intros Gn _ _. cbn [TI]. auto.
    + (* Pu2 *)
      injection Hst as <- <-. exists a. split; auto. rewrite app_nil_r.
      destruct HR as [C ND L O U PQ TH MD NT [Gn [Hg T]]].
      assert (Pt : pushing (thr s t) = Some e) by (rewrite Et; auto).
      assert (NE : forall x, In x (fst (a_lin a)) -> upd (nxt s) e st x = nxt s x).
      { intros x Hx. rewrite upd_other; auto. intros ->. exact (PQ t e Pt Hx). }
      assert (P : forall u, pushing (upd (thr s) t (Pu3 b e st) u) = pushing (thr s u)).
      { intros u. rewrite upd_eqv. destruct (Nat.eq_dec u t) as [->|]; auto. }
      constructor; cbn [go set_nxt head nxt gen thr own pushes]; auto.
      * apply chain_ext with (nx := nxt s); auto.
      * intros x Hx. destruct (O x Hx). split; auto. intros u. rewrite P. auto.
      * intros u v x. rewrite !P. apply U.
      * intros u x. rewrite P. apply PQ.
      * intros u. rewrite TH, upd_eqv. destruct (Nat.eq_dec u t) as [->|]; auto. rewrite Et. auto.
      * intros u. rewrite upd_eqv. destruct (Nat.eq_dec u t); auto; exact I.
      * intros u Hu. rewrite upd_other by lia. auto.
      * exists Gn. split; auto. intros u. rewrite upd_eqv. destruct (Nat.eq_dec u t) as [->|n].
        { specialize (T t). rewrite Et in T. cbn [TI] in T |- *. rewrite upd_same. auto. }
        apply TI_mono with (h := head s) (g := gen s) (nx := nxt s) (q := fst (a_lin a)) (d := a_dirty a u) (Gn := Gn) (sp := span u log)
          (NP := fun x => forall v, pushing (thr s v) <> Some x); auto.
        -- intros x Hx. rewrite upd_other; auto. intros ->. apply n. apply (U u t e); auto.
        -- intros Em x Hx Hn. split; auto. intros v. rewrite P. auto.
        -- intros Em. split; [lia|]. split; [|auto]. intros k Hk. exists k. split; auto. lia.
    + (* Pu3 *)
      destruct (opt_eqb (head s) st) eqn:Eh.
      * apply opt_eqb_eq in Eh. injection Hst as <- <-.
        assert (Pt : pushing (thr s t) = Some e) by (rewrite Et; auto).
        pose proof HR as [C ND L O U PQ TH MD NT [Gn [Hg T]]].
        pose proof (T t) as Tt. rewrite Et in Tt. cbn [TI] in Tt. destruct Tt as [Nx _].
        apply R_fin with (s := s) (q' := e :: fst (a_lin a)); auto.
        -- rewrite Et. destruct b; auto.
        -- rewrite Et. discriminate.
        -- destruct b; discriminate.
        -- destruct b; discriminate.
        -- intros a' A1 A2 A3. apply R_ret with (s := s) (a := a) (q' := e :: fst (a_lin a)); auto; cbn [go fin bump set_head head nxt gen thr own pushes].
           ++ cbn [chain]. split; auto. rewrite Nx, <- Eh. auto.
           ++ constructor; auto. apply (PQ t e Pt).
           ++ simpl. lia.
           ++ intros x Hx. destruct (O x Hx) as [X1 X2]. split; auto. intros [-> |X]; [|tauto]. exact (X2 t Pt).
           ++ intros u x n Hu [-> |X]; [|exact (PQ u x Hu X)]. apply n. apply (U u t x); auto.
           ++ intros Gn' Hg' _. exists Gn'. split; auto. intros _. destruct b; auto.
           ++ intros Em u x n Hx [-> |X]; auto.
           ++ intros _ _ x Hx. right. auto.
           ++ destruct b; discriminate.
      * apply opt_eqb_neq in Eh. destruct b.
        -- injection Hst as <- <-.
           assert (Pt : pushing (thr s t) = Some e) by (rewrite Et; auto).
           pose proof HR as [C ND L O U PQ TH MD NT [Gn [Hg T]]].
           pose proof (T t) as Tt. rewrite Et in Tt. cbn [TI] in Tt. destruct Tt as [Nx [X|D]]; [congruence|].
           apply R_fin with (s := s) (q' := fst (a_lin a)); auto; try discriminate.
           ++ rewrite Et. auto.
           ++ rewrite Et. discriminate.
           ++ intros a' A1 A2 A3. apply R_ret with (s := s) (a := a) (q' := fst (a_lin a)); auto; cbn [go fin set_own head nxt gen thr own pushes].
              ** intros x Hx. rewrite upd_eqv in Hx. destruct (Nat.eq_dec x e) as [->|n].
                 --- split; [exact (PQ t e Pt)|]. intros u n Hu. apply n. apply (U u t e); auto.
                 --- destruct (O x Hx). auto.
              ** intros u x n Hu. exact (PQ u x Hu).
              ** intros Gn' Hg' _. exists Gn'. auto.
        -- injection Hst as <- <-. exists a. split; auto. apply R_local; auto; rewrite Et; auto. intros Gn _ _. cbn [TI]. auto.
    + (* Po1 *)
      destruct (head s) as [y|] eqn:Eh.
      * injection Hst as <- <-. exists a. split; auto. apply R_local; auto; rewrite ?Et; auto. intros Gn _ _. cbn [TI]. split; auto.
        intros u Hu. pose proof (R_chain _ _ _ HR) as C. pose proof (R_pq _ _ _ HR u y Hu) as X. destruct (fst (a_lin a)) as [|y' q']; simpl in C; [congruence|].
        apply X. left. destruct C. congruence.
      * apply NONE with (s := s) (t := t); auto. exists b. rewrite Et. auto.
    + (* Po2 *)
      injection Hst as <- <-. exists a. split; auto. apply R_local; auto; rewrite Et; auto. intros Gn _. cbn [TI]. tauto.
    + (* Po3 *)
      destruct (opt_eqb (head s) (Some x)) eqn:Eh.
      * apply opt_eqb_eq in Eh. injection Hst as <- <-.
        pose proof HR as [C ND L O U PQ TH MD NT [Gn [Hg T]]].
        pose proof (T t) as Tt. rewrite Et in Tt. cbn [TI] in Tt. destruct Tt as [Np [Nx _]].
        destruct (fst (a_lin a)) as [|y q'] eqn:Eq; simpl in C; [congruence|]. destruct C as [C0 C]. rewrite Eh in C0. injection C0 as <-.
        rewrite (Nx (or_introl eq_refl)) in C. rewrite <- Eq in *.
        assert (SUB : forall z, In z q' -> In z (fst (a_lin a))) by (intros z Hz; rewrite Eq; right; auto).
        assert (ND1 : NoDup (x :: q')) by (rewrite <- Eq; auto). inversion ND1 as [|? ? N1 N2]; subst.
        apply R_fin with (s := s) (q' := q'); auto; try discriminate.
        -- rewrite Et, Eq. cbn [phase_of]. destruct b; cbn [lifo]; rewrite Nat.eqb_refl; auto.
        -- rewrite Et. discriminate.
        -- intros a' A1 A2 A3. apply R_ret with (s := s) (a := a) (q' := q'); auto; cbn [go fin set_own set_head head nxt gen thr own pushes]; try discriminate; try tauto.
           ++ rewrite Eq in L. simpl in L. lia.
           ++ intros z Hz. rewrite upd_eqv in Hz. destruct (Nat.eq_dec z x) as [->|n1]; auto. destruct (O z Hz) as [X1 X2]. split; auto.
           ++ intros u z n1 Hu Hz. exact (PQ u z Hu (SUB z Hz)).
           ++ intros Gn' Hg' _. exists Gn'. split; auto. congruence.
      * apply opt_eqb_neq in Eh. destruct b.
        -- injection Hst as <- <-. apply GIVEUP with (s := s) (t := t); auto.
           ++ rewrite Et. auto.
           ++ destruct (R_ti _ _ _ HR) as [Gn [Hg T]]. specialize (T t). rewrite Et in T. cbn [TI] in T. destruct T as [_ [_ [X|D]]]; [congruence|auto].
        -- destruct (head s) as [y|] eqn:Eh'.
           ++ injection Hst as <- <-. exists a. split; auto. apply R_local; auto; rewrite ?Et; auto. intros Gn _ _. cbn [TI]. split; auto.
              intros u Hu. pose proof (R_chain _ _ _ HR) as C. pose proof (R_pq _ _ _ HR u y Hu) as X. destruct (fst (a_lin a)) as [|y' q']; simpl in C; [congruence|].
              apply X. left. destruct C. congruence.
           ++ apply NONE with (s := s) (t := t); auto. exists false. rewrite Et. auto.
    + (* G1 *)
      injection Hst as <- <-. exists a. split; auto. apply R_local; auto; rewrite Et; auto. intros Gn Hg. cbn [TI].
      intros [k Hk]. split; auto. exists k, Gn. split; auto. split; auto. split; auto. lia.
    + (* G2 *)
      destruct (head s) as [y|] eqn:Eh.
      * injection Hst as <- <-. exists a. split; auto. apply R_local; auto; rewrite ?Et; auto. intros Gn _. cbn [TI].
        assert (Hy : In y (fst (a_lin a))).
        { pose proof (R_chain _ _ _ HR) as C. destruct (fst (a_lin a)) as [|y' q']; simpl in C; [congruence|]. left. destruct C. congruence. }
        intros [[k [a1 [X1 [X2 [X3 X4]]]]] X5]. split; [exists k, a1; auto|]. destruct X5; auto.
      * apply NONE with (s := s) (t := t); auto. exists b. rewrite Et. auto.
    + (* G3 *)
      injection Hst as <- <-. exists a. split; auto. apply R_local; auto; rewrite Et; auto. intros Gn _. cbn [TI].
      intros [[k [a1 [X1 [X2 [X3 X4]]]]] X5]. split; auto. exists k, a1. split; auto.
    + (* G4 *)
      destruct (opt_eqb (head s) (Some x) && N.eqb (gen s) g) eqn:Eh.
      * apply andb_prop in Eh. destruct Eh as [Eh Eg]. apply opt_eqb_eq in Eh. apply N.eqb_eq in Eg. injection Hst as <- <-.
        pose proof HR as [C ND L O U PQ TH MD NT [Gn [Hg T]]].
        pose proof (T t) as Tt. rewrite Et in Tt. cbn [TI] in Tt. destruct Tt as [[k [a1 [X1 [X2 [X3 X4]]]]] _].
        pose proof (short_now _ _ _ (Hs Emd) X1) as Hk.
        assert (Ea : a1 = Gn). { apply mod_window with (W := W) (k := k); auto; [reflexivity|congruence]. }
        destruct (X4 Ea) as [Hx Nx].
        destruct (fst (a_lin a)) as [|y q'] eqn:Eq; simpl in C; [congruence|]. destruct C as [C0 C]. rewrite Eh in C0. injection C0 as <-.
        rewrite Nx in C. rewrite <- Eq in *.
        assert (SUB : forall z, In z q' -> In z (fst (a_lin a))) by (intros z Hz; rewrite Eq; right; auto).
        assert (ND1 : NoDup (x :: q')) by (rewrite <- Eq; auto). inversion ND1 as [|? ? N1 N2]; subst x0 l.
        apply R_fin with (s := s) (q' := q'); auto; try discriminate.
        -- rewrite Et, Eq. cbn [phase_of]. destruct b; cbn [lifo]; rewrite Nat.eqb_refl; auto.
        -- rewrite Et. discriminate.
        -- intros a' A1 A2 A3. apply R_ret with (s := s) (a := a) (q' := q'); auto; cbn [go fin set_own set_gen set_head head nxt gen thr own pushes]; try discriminate; try tauto.
           ++ rewrite Eq in L. simpl in L. lia.
           ++ intros z Hz. rewrite upd_eqv in Hz. destruct (Nat.eq_dec z x) as [->|n1].
              ** split; auto. intros u Hu X. exact (PQ u x X Hx).
              ** destruct (O z Hz) as [Y1 Y2]. split; auto.
           ++ intros u z n1 Hu Hz. exact (PQ u z Hu (SUB z Hz)).
           ++ intros Gn' Hg' _. exists (Gn' + 1)%N. split; auto. rewrite <- Eg, Hg'. rewrite N.add_mod_idemp_l; auto. discriminate.
      * assert (NB : ~ (head s = Some x /\ gen s = g)).
        { intros [Y1 Y2]. rewrite Y1, Y2, N.eqb_refl in Eh. cbn [opt_eqb] in Eh. rewrite Nat.eqb_refl in Eh. discriminate. }
        destruct b.
        -- injection Hst as <- <-. apply GIVEUP with (s := s) (t := t); auto.
           ++ rewrite Et. auto.
           ++ destruct (R_ti _ _ _ HR) as [Gn [Hg T]]. specialize (T t). rewrite Et in T. cbn [TI] in T. destruct T as [_ [X|D]]; [tauto|auto].
        -- destruct (head s) as [y|] eqn:Eh'.
           ++ injection Hst as <- <-. exists a. split; auto. apply R_local; auto; rewrite ?Et; auto. intros Gn Hg. cbn [TI].
              assert (Hy : In y (fst (a_lin a))).
              { pose proof (R_chain _ _ _ HR) as C. destruct (fst (a_lin a)) as [|y' q']; simpl in C; [congruence|]. left. destruct C. congruence. }
              intros [[k [a1 [X1 _]]] _]. split; auto. exists k, Gn. repeat split; auto; lia.
           ++ apply NONE with (s := s) (t := t); auto. exists false. rewrite Et. auto.
    + (* Ba *)
      pose proof HR as [C ND L O U PQ TH MD NT [Gn [Hg T]]].
      rewrite (walk_chain _ _ _ _ C L) in Hst. injection Hst as <- <-.
      apply R_fin with (s := s) (q' := []); auto; try discriminate.
      * rewrite Et. cbn [phase_of lifo]. destruct (list_eq_dec Nat.eq_dec (fst (a_lin a)) (fst (a_lin a))); congruence.
      * rewrite Et. discriminate.
      * intros a' A1 A2 A3. apply R_ret with (s := s) (a := a) (q' := []); auto; cbn [go fin give set_head head nxt gen thr own pushes].
        -- reflexivity.
        -- constructor.
        -- simpl. lia.
        -- intros e He. split; auto. intros u n Hu. apply orb_prop in He. destruct He as [He|He].
           ++ apply existsb_exists in He. destruct He as [z [Hz Ez]]. apply Nat.eqb_eq in Ez. subst z. exact (PQ u e Hu Hz).
           ++ exact (proj2 (O e He) u Hu).
        -- intros Gn' Hg' _. exists Gn'. auto.
        -- intros Em u x n Hx Hi. destruct Hi.
        -- intros _ Em. specialize (Hc Em). congruence.
        -- intros Er. destruct (fst (a_lin a)); [|discriminate]. simpl in C. rewrite C. auto.
Qed.

Lemma stack_run : forall ls s log, run (sstep c) sinit ls = Some (s, log) -> (md c = MP -> short_calls log) ->
  exists a, accepts stk_step a0 log = Some a /\ R s a log.
Proof.
  intros ls s log Hr Hs. apply (sim_run_guard _ _ _ _ (sstep c) stk_step R (fun log => md c = MP -> short_calls log)) with (ls := ls) (s := sinit) (log0 := []); auto.
  - intros l1 l2 H Em. exact (short_prefix _ _ (H Em)).
  - intros; eapply R_step; eauto.
  - apply R_init.
Qed.
End Stack.

Lemma stk_lin : forall log a a', accepts stk_step a log = Some a' -> accepts (lstep lifo sres_dec) (a_lin a) log = Some (a_lin a').
Proof.
  induction log as [|e log IH]; intros a a' H; simpl in H.
  - injection H as <-. auto.
  - simpl. unfold stk_step in H at 1. destruct (lstep lifo sres_dec (a_lin a) e) as [l|]; [|discriminate].
    destruct e as [t o|t r|t r].
    + apply IH in H. auto.
    + match type of H with match (if ?b then _ else _) with _ => _ end = _ => destruct b; [|discriminate] end. apply IH in H. auto.
    + apply IH in H. auto.
Qed.

Lemma stack_ok : forall c ls s log, (md c = MP -> bp c = false) -> run (sstep c) sinit ls = Some (s, log) -> (md c = MP -> short_calls log) ->
  linearizable lifo sres_dec [] (history log).
Proof.
  intros c ls s log Hc Hr Hs. destruct (stack_run c Hc ls s log Hr Hs) as [a [Ha _]]. apply lin_legal_history. exists (a_lin a).
  change ([], idle) with (a_lin a0). apply stk_lin. auto.
Qed.
Lemma stack_fail : forall c ls s log, (md c = MP -> bp c = false) -> run (sstep c) sinit ls = Some (s, log) -> (md c = MP -> short_calls log) ->
  exists a, accepts stk_step a0 log = Some a /\ walk (pushes s) (nxt s) (head s) = Some (fst (a_lin a)).
Proof.
  intros c ls s log Hc Hr Hs. destruct (stack_run c Hc ls s log Hr Hs) as [a [Ha HR]]. exists a. split; auto.
  apply walk_chain; [apply HR|apply (R_len _ _ _ _ HR)].
Qed.

Lemma span_le : forall t log n, span t log = Some n -> (n <= N.of_nat (length log))%N.
Proof.
  intros t log. induction log as [|e log IH] using rev_ind; intros n H.
  - discriminate.
  - rewrite span_app in H. cbn [fold_left] in H. rewrite app_length, Nat2N.inj_add. change (N.of_nat (length [e])) with 1%N.
    destruct e as [u o|u r|u r]; cbn [span1] in H.
    + destruct (Nat.eqb u t); [injection H as <-; lia|]. apply IH in H. lia.
    + destruct r as [| |[v|]| |]; try (apply IH in H; lia). destruct (span t log) as [m|]; [|discriminate]. simpl in H.
      injection H as <-. specialize (IH m eq_refl). lia.
    + destruct (Nat.eqb u t); [discriminate|]. apply IH in H. lia.
Qed.
Lemma short_small : forall log, (N.of_nat (length log) < 2 ^ 64)%N -> short_calls log.
Proof.
  intros log H t pre suf n -> Hn. apply span_le in Hn. rewrite app_length, Nat2N.inj_add in H. lia.
Qed.

(** ** batch_pop_mpmc and the generation *)
Lemma lifo_count : forall e l q q', seq_run lifo q l = Some q' ->
  ressum (gets e) l + count_occ Nat.eq_dec q' e <= opsum (puts e) l + count_occ Nat.eq_dec q e.
Proof.
  intros e. induction l as [|[o r] l IH]; intros q q' H; simpl in H.
  - injection H as ->. simpl. lia.
  - destruct (lifo q o r) as [q1|] eqn:El; [|discriminate]. apply IH in H. simpl.
    assert (X : gets e r + count_occ Nat.eq_dec q1 e <= puts e o + count_occ Nat.eq_dec q e); [|lia].
    clear IH H. destruct o as [x|x| | |]; destruct r as [|[|]|[v|]| |]; simpl in El |- *; try discriminate.
    + injection El as <-. simpl. destruct (Nat.eq_dec x e); lia.
    + injection El as <-. simpl. destruct (Nat.eq_dec x e); lia.
    + injection El as <-. lia.
    + destruct q as [|y q2]; [discriminate|]. destruct (Nat.eqb_spec v y); [|discriminate]. injection El as <-. subst. simpl. destruct (Nat.eq_dec y e); lia.
    + destruct q as [|y q2]; [|discriminate]. injection El as <-. simpl. lia.
    + destruct q as [|y q2]; [discriminate|]. destruct (Nat.eqb_spec v y); [|discriminate]. injection El as <-. subst. simpl. destruct (Nat.eq_dec y e); lia.
    + injection El as <-. lia.
    + destruct (list_eq_dec Nat.eq_dec l0 q); [|discriminate]. injection El as <-. subst. simpl. lia.
Qed.

Lemma batch_refuted : exists ls s log, run (sstep cB) sinit ls = Some (s, log) /\ short_calls log /\
  ~ linearizable lifo sres_dec [] (history log).
Proof.
  destruct (run (sstep cB) sinit batch_trace) as [[s log]|] eqn:E; [|vm_compute in E; discriminate].
  assert (El : log = match run (sstep cB) sinit batch_trace with Some (_, l) => l | None => [] end) by (rewrite E; auto).
  vm_compute in El.
  exists batch_trace, s, log. split; auto. split.
  - apply short_small. rewrite El. reflexivity.
  - intros H. apply (linearizable_count _ _ (puts 1) (gets 1)) in H.
    + rewrite El in H. vm_compute in H. lia.
    + intros l q Hl. apply (lifo_count 1) in Hl. simpl in Hl. lia.
Qed.

Lemma up_linearizable : forall n b ls s log, run (sstep {| md := UP; nt := n; bp := b |}) sinit ls = Some (s, log) ->
  linearizable lifo sres_dec [] (history log).
Proof. intros n b ls s log H. refine (stack_ok _ ls s log _ H _); discriminate. Qed.
Lemma up_failures : forall n b ls s log, run (sstep {| md := UP; nt := n; bp := b |}) sinit ls = Some (s, log) ->
  exists a, accepts stk_step a0 log = Some a /\ walk (pushes s) (nxt s) (head s) = Some (fst (a_lin a)).
Proof. intros n b ls s log H. refine (stack_fail _ ls s log _ H _); discriminate. Qed.
Lemma mp_linearizable : forall n ls s log, run (sstep {| md := MP; nt := n; bp := false |}) sinit ls = Some (s, log) ->
  short_calls log -> linearizable lifo sres_dec [] (history log).
Proof. intros n ls s log H Hs. refine (stack_ok _ ls s log _ H _); auto. Qed.
Lemma mp_failures : forall n ls s log, run (sstep {| md := MP; nt := n; bp := false |}) sinit ls = Some (s, log) ->
  short_calls log -> exists a, accepts stk_step a0 log = Some a /\ walk (pushes s) (nxt s) (head s) = Some (fst (a_lin a)).
Proof. intros n ls s log H Hs. refine (stack_fail _ ls s log _ H _); auto. Qed.
