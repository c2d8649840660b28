(** Proofs about the single-producer single-consumer FIFO on TSO. *)
From Coq Require Import Arith List Bool Lia.
From Verif Require Import Lib Stack_Proof FifoSp_Proof TsoFifoSp_Spec TsoFifoSp_Model.
Import ListNotations.
Local Arguments Nat.eqb : simpl never.
Local Arguments upd : simpl never.

(** entries whose links have arrived; all entries *)
Definition arrd (a : fq) : list nat := used a ++ out a ++ stub a :: map fst (here a).
Definition alle (a : fq) : list nat := arrd a ++ map fst (way a).
Definition lst (a : fq) : nat := last (map fst (here a)) (stub a).

(** the stores the producer has issued for the entries under way and for the call in progress *)
Fixpoint script (prev : nat) (w : list (nat * nat)) (cur : list sto) : list sto :=
  match w with
  | [] => cur
  | (e, v) :: w => SV e v :: SN e None :: SN prev (Some e) :: script e w cur
  end.
Definition cur (p : ppc) : list sto := match p with E2 e v => [SV e v] | E3 e v => [SV e v; SN e None] | _ => [] end.
Definition penq (p : ppc) : option (nat * nat) := match p with E1 e v | E2 e v | E3 e v => Some (e, v) | _ => None end.
(** the entry whose stores come next *)
Definition front (a : fq) (p : ppc) : option (nat * nat) := match way a with x :: _ => Some x | [] => penq p end.

Lemma last_ne : forall (l : list nat) d d', l <> [] -> last l d = last l d'.
Proof. induction l as [|x [|y l] IH]; intros d d' N; [congruence|reflexivity|]. cbn [last]. apply IH. discriminate. Qed.
Lemma last_app1 : forall (l : list nat) x d, last (l ++ [x]) d = x.
Proof. intros l x d. induction l as [|y l IH]; [reflexivity|]. cbn [app]. destruct l; [reflexivity|]. exact IH. Qed.
Lemma last_cons : forall (l : list nat) x d, last (x :: l) d = last l x.
Proof. intros [|y l] x d; [reflexivity|]. change (last (y :: l) d = last (y :: l) x). apply last_ne. discriminate. Qed.
Lemma script_app : forall w prev c d, script prev w (c ++ d) = script prev w c ++ d.
Proof. induction w as [|[e v] w IH]; intros; cbn [script app]; [reflexivity|]. rewrite IH. reflexivity. Qed.
Lemma script_snoc : forall w prev e v, script prev (w ++ [(e, v)]) [] =
  script prev w [SV e v; SN e None] ++ [SN (last (map fst w) prev) (Some e)].
Proof.
  induction w as [|[x y] w IH]; intros prev e v; cbn [script app map fst]; [reflexivity|].
  rewrite IH, last_cons. reflexivity.
Qed.
Lemma last_app2 : forall (l m : list nat) d, last (l ++ m) d = last m (last l d).
Proof. intros l m d. destruct m as [|x m]; [rewrite app_nil_r; reflexivity|]. induction l as [|y l IH]; [apply last_ne; discriminate|].
  rewrite <- app_comm_cons, last_cons. rewrite <- (last_ne (l ++ x :: m) d y) by (destruct l; discriminate). rewrite IH. apply last_ne. discriminate. Qed.
Lemma last_split : forall (l : list nat) d, exists k, d :: l = k ++ [last l d].
Proof. intros l d. induction l as [|x l IH] using rev_ind; [exists []; reflexivity|]. exists (d :: l). rewrite last_app1. reflexivity. Qed.

(** where the stores go *)
Lemma script_in : forall w prev c x o, In (SN x o) (script prev w c) ->
  (x = prev /\ w <> []) \/ In x (map fst w) \/ In (SN x o) c.
Proof.
  induction w as [|[e v] w IH]; intros prev c x o H; cbn [script map fst] in *; [auto|].
  destruct H as [H|[H|[H|H]]]; [discriminate| | |].
  - injection H as <- <-. right. left. left. reflexivity.
  - injection H as <- <-. left. split; [reflexivity|discriminate].
  - apply IH in H. destruct H as [[-> _]|[H|H]]; right; [left; left; reflexivity|left; right; exact H|right; exact H].
Qed.
Lemma in_skipn : forall (l : list sto) k x, In x (skipn k l) -> In x l.
Proof. induction l as [|y l IH]; intros [|k] x H; cbn [skipn] in H; auto. right. eauto. Qed.
Lemma skipn_app1 : forall (l d : list sto) k, k <= length l -> skipn k (l ++ d) = skipn k l ++ d.
Proof. induction l as [|y l IH]; intros d [|k] H; cbn [skipn length app] in *; auto; [lia|]. apply IH. lia. Qed.

Lemma vnx_out : forall b e d, (forall o, ~ In (SN e o) b) -> vnx b e d = d.
Proof.
  induction b as [|[x v|x o] b IH]; intros e d N; cbn [vnx]; auto.
  - apply IH. intros o H. exact (N o (or_intror H)).
  - destruct (Nat.eqb_spec x e) as [->|]; [exfalso; exact (N o (or_introl eq_refl))|]. apply IH. intros o' H. exact (N o' (or_intror H)).
Qed.

Record FI (s : st) (a : fq) : Prop := {
  F_chain : chain (nx s) (Some (garb s)) (arrd a);
  F_nd : NoDup (alle a);
  F_hd : hd s :: cb s = out a ++ [stub a];
  F_vl : forall e v, In (e, v) (here a) -> vl s e = v;
  F_snap : In (snap s) (used a ++ [hd s]);
  F_own : forall e, own s e = true -> ~ In e (alle a) /\ forall v, penq (pp s) <> Some (e, v);
  F_enq : forall e v, penq (pp s) = Some (e, v) -> ~ In e (alle a);
  F_tl : tl s = last (map fst (way a)) (lst a);
  F_pb : exists k, k <= 2 /\ k <= length (script (lst a) (way a) (cur (pp s))) /\ pb s = skipn k (script (lst a) (way a) (cur (pp s))) /\
         forall e v, front a (pp s) = Some (e, v) -> (1 <= k -> vl s e = v) /\ (2 <= k -> nx s e = None);
  F_pp : match pp s with
         | R3 => used a <> [] /\ snap s <> garb s
         | I2 h => In h (arrd a) /\ seen a = Nat.eqb h (tl s)
         | _ => True
         end;
  F_cp : match cp s with
         | D2 x => exists v q, here a = (x, v) :: q
         | D3 x v => exists q, here a = (x, v) :: q
         | J2 h => h = stub a
         | _ => True
         end }.

Lemma FI_init : forall e, FI (init e) (fq0 e).
Proof.
  intros e. constructor; cbn; auto; try discriminate; try contradiction.
  - constructor; [intros []|constructor].
  - intros x Hx. split; [|discriminate]. intros [<-|[]]. rewrite Nat.eqb_refl in Hx. discriminate.
  - exists 0. repeat split; auto; lia.
Qed.

Lemma chd_stub : forall s a, FI s a -> chd s = stub a.
Proof.
  intros s a H. unfold chd. rewrite <- (last_cons (cb s) (hd s) 0), (F_hd _ _ H). apply last_app1.
Qed.
Lemma arrd_last : forall a, exists l, arrd a = l ++ [lst a].
Proof.
  intros a. destruct (last_split (map fst (here a)) (stub a)) as [k E]. unfold arrd, lst. rewrite E. exists (used a ++ out a ++ k).
  rewrite !app_assoc. reflexivity.
Qed.
Lemma alle_last : forall s a, FI s a -> exists l, alle a = l ++ [tl s].
Proof.
  intros s a H. rewrite (F_tl _ _ H). destruct (arrd_last a) as [l E]. unfold alle. rewrite E, <- app_assoc.
  destruct (last_split (map fst (way a)) (lst a)) as [k E']. cbn [app]. rewrite E'. exists (l ++ k). rewrite app_assoc. reflexivity.
Qed.
Lemma stub_next : forall s a, FI s a -> nx s (stub a) = match here a with [] => None | (e, _) :: _ => Some e end.
Proof.
  intros s a H. pose proof (F_chain _ _ H) as C. unfold arrd in C. rewrite app_assoc in C.
  destruct (here a) as [|[e v] q]; cbn [map fst] in C; [eapply chain_last|eapply chain_inner]; eauto.
Qed.
(** the producer's stores are to the last arrived entry, entries under way, and its own *)
Lemma pb_out : forall s a x, FI s a -> In x (arrd a) -> (x <> lst a \/ way a = []) -> forall o, ~ In (SN x o) (pb s).
Proof.
  intros s a x H Hx Nx o Hin. destruct (F_pb _ _ H) as (k & _ & _ & E & _). rewrite E in Hin. apply in_skipn in Hin.
  apply script_in in Hin. destruct Hin as [[-> N]|[Hin|Hin]].
  - destruct Nx; contradiction.
  - pose proof (F_nd _ _ H) as ND. unfold alle in ND. revert Hx Hin ND. clear. generalize (arrd a) as l, (map fst (way a)) as m.
    induction l as [|y l IH]; intros m Hx Hin ND; [destruct Hx|]. cbn [app] in ND. inversion ND; subst. destruct Hx as [->|Hx]; [|eauto].
    apply H1. apply in_or_app. auto.
  - assert (P : exists v, penq (pp s) = Some (x, v)).
    { destruct (pp s); cbn [cur] in Hin; try contradiction.
      - destruct Hin as [Hin|[]]; discriminate.
      - destruct Hin as [Hin|[Hin|[]]]; [discriminate|]. injection Hin as -> _. exists v. reflexivity. }
    destruct P as [v P]. apply (F_enq _ _ H x v P). unfold alle. apply in_or_app. auto.
Qed.
Lemma vnx_in_script : forall w prev e v c d, ~ In prev (map fst ((e, v) :: w)) -> (forall o, ~ In (SN prev o) c) ->
  forall k, k <= 2 -> vnx (skipn k (script prev ((e, v) :: w) c)) prev d = Some e.
Proof.
  intros w prev e v c d N Nc k Hk. cbn [map fst] in N.
  assert (X : vnx (script e w c) prev (Some e) = Some e).
  { apply vnx_out. intros o Hin. apply script_in in Hin. destruct Hin as [[E _]|[Hin|Hin]].
    - apply N. left. auto.
    - apply N. right. auto.
    - exact (Nc o Hin). }
  assert (Ne : Nat.eqb e prev = false) by (apply Nat.eqb_neq; intros ->; apply N; left; reflexivity).
  destruct k as [|[|[|k]]]; [| | |lia]; cbn [script skipn vnx]; rewrite ?Ne, Nat.eqb_refl; exact X.
Qed.
(** the producer's isempty: the answer is whether [h] is the youngest entry *)
Lemma next_view : forall s a h, FI s a -> In h (arrd a) -> is_none (vnx (pb s) h (nx s h)) = Nat.eqb h (tl s).
Proof.
  intros s a h H Hh. destruct (arrd_last a) as [l E]. pose proof (F_chain _ _ H) as C. pose proof (F_nd _ _ H) as ND.
  destruct (Nat.eq_dec h (lst a)) as [->|N].
  - destruct (way a) as [|[e v] w] eqn:Ew.
    + rewrite vnx_out by (apply (pb_out s a _ H Hh); auto). rewrite (F_tl _ _ H), Ew. cbn [map last]. rewrite Nat.eqb_refl.
      rewrite E in C. rewrite (chain_last _ _ _ _ C). reflexivity.
    + assert (Nl : ~ In (lst a) (map fst ((e, v) :: w))).
      { unfold alle in ND. rewrite E, Ew in ND. rewrite <- app_assoc in ND. apply nodup_app_r in ND. cbn [app] in ND. inversion ND; auto. }
      destruct (F_pb _ _ H) as (k & Hk & _ & Ep & _). rewrite Ep, Ew.
      rewrite vnx_in_script; auto.
      * cbn [is_none]. symmetry. apply Nat.eqb_neq. rewrite (F_tl _ _ H), Ew. intros X. apply Nl. rewrite X. cbn [map fst].
        rewrite last_cons. destruct (last_split (map fst w) e) as [j Ej]. rewrite Ej. apply in_or_app. right. left. reflexivity.
      * intros o Hin. assert (P : exists v', penq (pp s) = Some (lst a, v')).
        { destruct (pp s); cbn [cur] in Hin; try contradiction.
          - destruct Hin as [Hin|[]]; discriminate.
          - destruct Hin as [Hin|[Hin|[]]]; [discriminate|]. injection Hin as -> _. eexists. reflexivity. }
        destruct P as [v' P]. apply (F_enq _ _ H _ _ P). unfold alle. apply in_or_app. auto.
  - rewrite vnx_out by (apply (pb_out s a _ H Hh); auto).
    assert (X : exists y, nx s h = Some y).
    { rewrite E in Hh, C. apply in_app_or in Hh. destruct Hh as [Hh|[Hh|[]]]; [|congruence].
      apply in_split in Hh. destruct Hh as [l1 [l2 ->]]. rewrite <- app_assoc in C. cbn [app] in C.
      destruct (l2 ++ [lst a]) as [|y r] eqn:Er; [destruct l2; discriminate|]. exists y. eapply chain_inner; exact C. }
    destruct X as [y X]. rewrite X. cbn [is_none]. symmetry. apply Nat.eqb_neq. intros ->.
    apply N. clear N X y. rewrite (F_tl _ _ H) in *. destruct (way a) as [|[e v] w] eqn:Ew; [reflexivity|]. exfalso.
    unfold alle in ND. rewrite Ew in ND.
    assert (In (last (map fst ((e, v) :: w)) (lst a)) (map fst ((e, v) :: w))).
    { cbn [map fst]. rewrite last_cons. destruct (last_split (map fst w) e) as [j Ej]. rewrite Ej. apply in_or_app. right. left. reflexivity. }
    revert Hh H0 ND. generalize (last (map fst ((e, v) :: w)) (lst a)). generalize (map fst ((e, v) :: w)) as m. generalize (arrd a) as l0. clear.
    induction l0 as [|y l IH]; intros m x Hx Hin ND; [destruct Hx|]. cbn [app] in ND. inversion ND; subst. destruct Hx as [->|Hx]; [|eauto].
    apply H1. apply in_or_app. auto.
Qed.

Ltac fc := cbn [gp gc ps hd tl snap garb nx vl own pb cb pp cp way here stub out used seen] in *.
Ltac sol H := first [exact (F_chain _ _ H)|exact (F_nd _ _ H)|exact (F_hd _ _ H)|exact (F_vl _ _ H)|exact (F_snap _ _ H)|exact (F_own _ _ H)|exact (F_enq _ _ H)
  |exact (F_tl _ _ H)|exact (F_pb _ _ H)|exact (F_pp _ _ H)|exact (F_cp _ _ H)].

Lemma front_fresh : forall s a e v, FI s a -> front a (pp s) = Some (e, v) -> ~ In e (arrd a).
Proof.
  intros s a e v H Fr Hin. unfold front in Fr. destruct (way a) as [|p w] eqn:Ew.
  - apply (F_enq _ _ H e v Fr). unfold alle. apply in_or_app. auto.
  - injection Fr as ->. pose proof (F_nd _ _ H) as ND. unfold alle in ND. rewrite Ew in ND. cbn [map fst] in ND.
    apply NoDup_remove_2 in ND. apply ND. apply in_or_app. auto.
Qed.
Lemma here_in : forall a e v, In (e, v) (here a) -> In e (arrd a).
Proof. intros a e v H. unfold arrd. apply in_or_app. right. apply in_or_app. right. right. apply (in_map fst) in H. exact H. Qed.

Lemma fl_v : forall s a e v b, FI s a -> front a (pp s) = Some (e, v) -> script (lst a) (way a) (cur (pp s)) = SV e v :: b ->
  FI {| hd := hd s; tl := tl s; snap := snap s; garb := garb s; nx := nx s; vl := upd (vl s) e v;
        own := own s; pb := b; cb := cb s; pp := pp s; cp := cp s |} a.
Proof.
  intros s a e v b H Fr Sc. pose proof (front_fresh _ _ _ _ H Fr) as Ne.
  constructor; fc; try sol H.
  - intros x w Hx. rewrite upd_other; [apply (F_vl _ _ H); exact Hx|]. intros ->. apply Ne. eapply here_in; eauto.
  - exists 1. rewrite Sc. cbn [length skipn]. split; [lia|]. split; [lia|]. split; [reflexivity|].
    intros x w E. rewrite Fr in E. injection E as <- <-. split; [intros _; apply upd_same|lia].
Qed.
Lemma fl_n : forall s a e v b, FI s a -> front a (pp s) = Some (e, v) -> script (lst a) (way a) (cur (pp s)) = SV e v :: SN e None :: b ->
  vl s e = v ->
  FI {| hd := hd s; tl := tl s; snap := snap s; garb := garb s; nx := upd (nx s) e None; vl := vl s;
        own := own s; pb := b; cb := cb s; pp := pp s; cp := cp s |} a.
Proof.
  intros s a e v b H Fr Sc Ev. pose proof (front_fresh _ _ _ _ H Fr) as Ne.
  constructor; fc; try sol H.
  - apply chain_ext with (nx := nx s); [|exact (F_chain _ _ H)]. intros x Hx. apply upd_other. congruence.
  - exists 2. rewrite Sc. cbn [length skipn]. split; [lia|]. split; [lia|]. split; [reflexivity|].
    intros x w E. rewrite Fr in E. injection E as <- <-. split; [auto|]. intros _. apply upd_same.
Qed.
Lemma fl_l : forall s a e v w, FI s a -> way a = (e, v) :: w -> vl s e = v -> nx s e = None ->
  FI {| hd := hd s; tl := tl s; snap := snap s; garb := garb s; nx := upd (nx s) (lst a) (Some e); vl := vl s;
        own := own s; pb := script e w (cur (pp s)); cb := cb s; pp := pp s; cp := cp s |}
     {| way := w; here := here a ++ [(e, v)]; stub := stub a; out := out a; used := used a; seen := seen a |}.
Proof.
  intros s a e v w H Ew Ev En.
  set (a' := {| way := w; here := here a ++ [(e, v)]; stub := stub a; out := out a; used := used a; seen := seen a |}).
  assert (Ea : arrd a' = arrd a ++ [e]).
  { unfold arrd, a'; fc. rewrite map_app. cbn [map fst]. rewrite !app_comm_cons, !app_assoc. reflexivity. }
  assert (El : alle a' = alle a). { unfold alle. rewrite Ea, Ew. unfold a'; fc. cbn [map fst]. rewrite <- app_assoc. reflexivity. }
  assert (Es : lst a' = e). { unfold lst, a'; fc. rewrite map_app. apply last_app1. }
  assert (Ne : ~ In e (arrd a)). { apply (front_fresh s a e v H). unfold front. rewrite Ew. reflexivity. }
  destruct (arrd_last a) as [l Al].
  constructor; fc; rewrite ?Ea, ?El, ?Es; unfold a'; fc; try sol H.
  - pose proof (F_chain _ _ H) as C. rewrite Al in C, Ne |- *. rewrite <- app_assoc. cbn [app]. apply chain_snoc; auto.
    pose proof (F_nd _ _ H) as ND. unfold alle in ND. apply nodup_app_l in ND. rewrite Al in ND. exact ND.
  - intros x y Hx. apply in_app_or in Hx. destruct Hx as [Hx|[Hx|[]]]; [apply (F_vl _ _ H); exact Hx|congruence].
  - rewrite (F_tl _ _ H), Ew. cbn [map fst]. apply last_cons.
  - exists 0. split; [lia|]. split; [lia|]. split; [reflexivity|]. intros; split; lia.
  - pose proof (F_pp _ _ H) as P. destruct (pp s); auto. destruct P as [P1 P2]. split; [apply in_or_app; auto|exact P2].
  - pose proof (F_cp _ _ H) as P. destruct (cp s); auto.
    + destruct P as [y [q ->]]. eexists _, _. reflexivity.
    + destruct P as [q ->]. eexists. reflexivity.
Qed.

Lemma look : forall s a, FI s a -> Nat.eqb (hd s) (tl s) = nil (way a) && nil (here a) && nil (out a).
Proof.
  intros s a H. pose proof (F_nd _ _ H) as ND. pose proof (F_hd _ _ H) as Hh.
  assert (E : alle a = used a ++ hd s :: (cb s ++ map fst (here a) ++ map fst (way a))).
  { unfold alle, arrd. rewrite <- !app_assoc. f_equal. rewrite app_comm_cons, Hh, <- app_assoc. reflexivity. }
  assert (T : tl s = last (cb s ++ map fst (here a) ++ map fst (way a)) (hd s)).
  { destruct (alle_last s a H) as [l El]. rewrite E in El. rewrite <- (last_cons _ (hd s) 0), <- (last_app1 l (tl s) 0), <- El.
    rewrite last_app2. rewrite !last_cons. reflexivity. }
  assert (C : nil (cb s) = nil (out a)).
  { destruct (cb s); destruct (out a) as [|x [|y o]]; try reflexivity; cbn [app] in Hh; injection Hh; intros; discriminate. }
  rewrite <- C. rewrite E in ND. apply nodup_app_r in ND. inversion ND as [|? ? N1 _]; subst.
  destruct (Nat.eqb_spec (hd s) (tl s)) as [X|X].
  - destruct (cb s ++ map fst (here a) ++ map fst (way a)) as [|y r] eqn:Er.
    + apply app_eq_nil in Er. destruct Er as [-> Er]. apply app_eq_nil in Er. destruct Er as [E1 E2].
      apply map_eq_nil in E1, E2. rewrite E1, E2. reflexivity.
    + exfalso. apply N1. rewrite X, T, last_cons. destruct (last_split r y) as [j Ej]. rewrite Ej. apply in_or_app. right. left. reflexivity.
  - destruct (way a); [|reflexivity]. destruct (here a); [|reflexivity]. destruct (cb s); [|reflexivity]. exfalso. apply X. exact (eq_sym T).
Qed.
Lemma hd_arrd : forall s a, FI s a -> In (hd s) (out a ++ [stub a]) /\ In (hd s) (arrd a).
Proof.
  intros s a H. assert (X : In (hd s) (out a ++ [stub a])) by (rewrite <- (F_hd _ _ H); left; reflexivity).
  split; [exact X|]. unfold arrd. apply in_or_app. right. apply in_app_or in X. apply in_or_app. destruct X as [X|[X|[]]]; [left; exact X|right; left; exact X].
Qed.

Lemma FI_step : forall s a l s' ev, FI s a -> step s l = Some (s', ev) ->
  exists a', accepts fq_step a ev = Some a' /\ FI s' a'.
Proof.
  intros s a l s' ev H Hst.
  pose proof (F_pp _ _ H) as PP. pose proof (F_cp _ _ H) as CP. destruct (F_pb _ _ H) as (k & K2 & KL & EB & FR).
  destruct l as [e v| | | | | | | |]; cbn [step] in Hst.
  - (* enqueue called *)
    destruct (pp s) eqn:Ep; try discriminate. destruct (own s e) eqn:Eo; [|discriminate]. injection Hst as <- <-.
    eexists. split; [reflexivity|]. destruct (F_own _ _ H e Eo) as [O1 O2].
    constructor; fc; try sol H.
    + intros x Hx. destruct (Nat.eq_dec x e) as [->|N]; [rewrite upd_same in Hx; discriminate|]. rewrite upd_other in Hx by auto.
      destruct (F_own _ _ H x Hx) as [X _]. split; [exact X|]. cbn [penq]. congruence.
    + cbn [penq]. intros x w E. injection E as <- <-. exact O1.
    + exists k. cbn [cur] in *. split; [exact K2|]. split; [exact KL|]. split; [exact EB|].
      intros x w E. unfold front in *. destruct (way a); [|apply FR; exact E].
      cbn [script length] in KL. split; lia.
    + exact I.
  - destruct (pp s) eqn:Ep; try discriminate. injection Hst as <- <-. eexists. split; [reflexivity|].
    constructor; fc; try sol H; cbn [penq]; try discriminate; auto.
    + intros x Hx. destruct (F_own _ _ H x Hx). split; [auto|discriminate].
    + exists k. repeat (split; auto).
  - destruct (pp s) eqn:Ep; try discriminate. injection Hst as <- <-. eexists. split; [reflexivity|].
    constructor; fc; try sol H; cbn [penq]; try discriminate; auto.
    + intros x Hx. destruct (F_own _ _ H x Hx). split; [auto|discriminate].
    + exists k. repeat (split; auto).
  - (* steps of the producer *)
    unfold ptick in Hst. destruct (pp s) as [|e v|e v|e v| | | | |h] eqn:Ep; try discriminate.
    + (* E1 *)
      injection Hst as <- <-. eexists. split; [reflexivity|]. constructor; fc; try sol H.
      * intros x Hx. pose proof (F_own _ _ H x Hx) as X. rewrite Ep in X. exact X.
      * intros x w E. apply (F_enq _ _ H x w). rewrite Ep. exact E.
      * exists k. cbn [cur] in *. rewrite (script_app (way a) (lst a) [] [SV e v] : script (lst a) (way a) [SV e v] = _).
        split; [exact K2|]. split; [rewrite app_length; lia|]. split; [rewrite skipn_app1 by exact KL; rewrite EB; reflexivity|exact FR].
      * exact I.
    + (* E2 *)
      injection Hst as <- <-. eexists. split; [reflexivity|]. constructor; fc; try sol H.
      * intros x Hx. pose proof (F_own _ _ H x Hx) as X. rewrite Ep in X. exact X.
      * intros x w E. apply (F_enq _ _ H x w). rewrite Ep. exact E.
      * exists k. cbn [cur] in *. rewrite (script_app (way a) (lst a) [SV e v] [SN e None] : script (lst a) (way a) [SV e v; SN e None] = _).
        split; [exact K2|]. split; [rewrite app_length; lia|]. split; [rewrite skipn_app1 by exact KL; rewrite EB; reflexivity|exact FR].
      * exact I.
    + (* E3 *)
      injection Hst as <- <-. eexists. split; [reflexivity|].
      assert (Ne : ~ In e (alle a)) by (apply (F_enq _ _ H e v); rewrite Ep; reflexivity).
      set (a' := {| way := way a ++ [(e, v)]; here := here a; stub := stub a; out := out a; used := used a; seen := seen a |}).
      assert (El : alle a' = alle a ++ [e]). { unfold alle, arrd, a'; fc. rewrite map_app. cbn [map fst]. rewrite <- !app_assoc. reflexivity. }
      constructor; fc; rewrite ?El; try sol H.
      * apply NoDup_app_snoc; [exact (F_nd _ _ H)|exact Ne].
      * intros x Hx. split; [|discriminate]. intros X. apply in_app_or in X. destruct (F_own _ _ H x Hx) as [O1 O2].
        destruct X as [X|[<-|[]]]; [exact (O1 X)|]. apply (O2 v). rewrite Ep. reflexivity.
      * discriminate.
      * unfold a'; fc. rewrite map_app. cbn [map fst]. rewrite last_app1. reflexivity.
      * exists k. change (lst a') with (lst a). unfold a'; fc. cbn [cur] in *. rewrite script_snoc, <- (F_tl _ _ H).
        split; [exact K2|]. split; [rewrite app_length; lia|]. split; [rewrite skipn_app1 by exact KL; rewrite EB; reflexivity|].
        intros x w E. apply FR. unfold front in *. fc. destruct (way a); exact E.
      * exact I.
    + (* R1 *)
      injection Hst as <- <-. eexists. split; [reflexivity|].
      destruct (Nat.eqb_spec (snap s) (garb s)) as [E|E].
      * constructor; fc; try sol H; cbn [penq]; try discriminate; auto.
        -- intros x Hx. destruct (F_own _ _ H x Hx). split; [auto|discriminate].
        -- exists k. repeat (split; auto).
      * constructor; fc; try sol H; cbn [penq]; try discriminate; auto.
        -- intros x Hx. destruct (F_own _ _ H x Hx). split; [auto|discriminate].
        -- exists k. repeat (split; auto).
        -- split; [|exact E]. intros Eu. pose proof (F_snap _ _ H) as SN. pose proof (F_chain _ _ H) as C. unfold arrd in C. rewrite Eu in C, SN.
           destruct SN as [SN|[]]. cbn [app] in C. pose proof (F_hd _ _ H) as Hh.
           destruct (out a) as [|x o]; cbn [app chain] in C, Hh; injection Hh as Hh _; destruct C as [C _]; congruence.
    + (* R2 *)
      destruct (Nat.eqb_spec (hd s) (garb s)) as [E|E]; injection Hst as <- <-.
      * assert (Eu : used a = []).
        { destruct (used a) as [|x u] eqn:Eu; [reflexivity|]. exfalso. pose proof (F_chain _ _ H) as C. pose proof (F_nd _ _ H) as ND.
          unfold alle, arrd in *. rewrite Eu in *. cbn [app chain] in *. destruct C as [C _]. inversion ND as [|? ? N1 _]; subst.
          apply N1. injection C as <-. rewrite <- E. apply in_or_app. left. apply in_or_app. right.
          destruct (hd_arrd s a H) as [X _]. apply in_app_or in X. apply in_or_app. destruct X as [X|[X|[]]]; [left; exact X|right; left; exact X]. }
        eexists. split; [cbn [accepts fq_step]; rewrite Eu; reflexivity|].
        constructor; fc; try sol H; cbn [penq]; try discriminate; auto.
        -- apply in_or_app. right. left. reflexivity.
        -- intros x Hx. destruct (F_own _ _ H x Hx). split; [auto|discriminate].
        -- exists k. repeat (split; auto).
      * eexists. split; [reflexivity|].
        constructor; fc; try sol H; cbn [penq]; try discriminate; auto.
        -- apply in_or_app. right. left. reflexivity.
        -- intros x Hx. destruct (F_own _ _ H x Hx). split; [auto|discriminate].
        -- exists k. repeat (split; auto).
        -- split; [|exact E]. intros Eu. pose proof (F_chain _ _ H) as C. unfold arrd in C. rewrite Eu in C. cbn [app] in C. pose proof (F_hd _ _ H) as Hh.
           destruct (out a) as [|x o]; cbn [app chain] in C, Hh; injection Hh as Hh _; destruct C as [C _]; congruence.
    + (* R3 *)
      destruct PP as [U1 U2]. destruct (used a) as [|x u] eqn:Eu; [congruence|].
      pose proof (F_chain _ _ H) as C. pose proof (F_nd _ _ H) as ND.
      assert (Eg : garb s = x) by (unfold arrd in C; rewrite Eu in C; cbn [app chain] in C; destruct C as [C _]; congruence).
      assert (Hx : In x (arrd a)) by (unfold arrd; rewrite Eu; left; reflexivity).
      assert (Nx : x <> lst a).
      { intros ->. unfold alle, arrd in ND. rewrite Eu in ND. cbn [app] in ND. inversion ND as [|? ? N1 _]; subst. apply N1.
        apply in_or_app. left. apply in_or_app. right. apply in_or_app. right. unfold lst.
        destruct (last_split (map fst (here a)) (stub a)) as [j Ej]. rewrite Ej. apply in_or_app. right. left. reflexivity. }
      rewrite Eg in *. rewrite vnx_out in Hst by (apply (pb_out s a x H Hx); auto).
      destruct (nx s x) as [g|] eqn:En; [|discriminate]. injection Hst as <- <-.
      eexists. split; [cbn [accepts fq_step]; rewrite Eu, Nat.eqb_refl; reflexivity|].
      set (a' := {| way := way a; here := here a; stub := stub a; out := out a; used := u; seen := seen a |}).
      assert (Ea : arrd a = x :: arrd a') by (unfold arrd, a'; fc; rewrite Eu; reflexivity).
      assert (El : alle a = x :: alle a') by (unfold alle; rewrite Ea; reflexivity).
      rewrite Ea in C. rewrite El in ND. inversion ND as [|? ? N1 N2]; subst x0 l. cbn [chain] in C. destruct C as [_ C]. rewrite En in C.
      constructor; fc; try sol H; cbn [penq]; try discriminate; auto.
      * pose proof (F_snap _ _ H) as SN. rewrite Eu in SN. unfold a'; fc. destruct SN as [SN|SN]; [congruence|exact SN].
      * intros y Hy. split; [|discriminate]. destruct (Nat.eq_dec y x) as [->|N]; [exact N1|]. rewrite upd_other in Hy by auto.
        destruct (F_own _ _ H y Hy) as [O _]. intros X. apply O. rewrite El. right. exact X.
      * exists k. repeat (split; auto).
    + (* I1 *)
      injection Hst as <- <-. eexists. split; [reflexivity|].
      constructor; fc; try sol H; cbn [penq]; try discriminate; auto.
      * intros x Hx. destruct (F_own _ _ H x Hx). split; [auto|discriminate].
      * exists k. repeat (split; auto).
      * split; [exact (proj2 (hd_arrd s a H))|]. symmetry. exact (look s a H).
    + (* I2 *)
      destruct PP as [P1 P2]. injection Hst as <- <-. rewrite (next_view s a h H P1), <- P2.
      eexists. split; [cbn [accepts fq_step]; rewrite eqb_reflx; reflexivity|].
      constructor; fc; try sol H; cbn [penq]; try discriminate; auto.
      * intros x Hx. destruct (F_own _ _ H x Hx). split; [auto|discriminate].
      * exists k. repeat (split; auto).
  - (* a store of the producer arrives *)
    assert (G : exists e v, front a (pp s) = Some (e, v) /\
       ((k = 0 /\ exists b, script (lst a) (way a) (cur (pp s)) = SV e v :: b) \/
        (k = 1 /\ exists b, script (lst a) (way a) (cur (pp s)) = SV e v :: SN e None :: b) \/
        (k = 2 /\ exists w, way a = (e, v) :: w)) \/ pb s = []).
    { unfold front. rewrite EB. destruct (way a) as [|[e v] w].
      - cbn [script] in *. destruct (pp s); cbn [cur penq length] in *;
          try (exists 0, 0; right; destruct k; [reflexivity|lia]).
        + exists e, v. destruct k as [|[|]]; [left; split; [reflexivity|left; eauto]|right; reflexivity|lia].
        + exists e, v. destruct k as [|[|[|]]]; [left; split; [reflexivity|left; eauto]|left; split; [reflexivity|right; left; eauto]|right; reflexivity|lia].
      - exists e, v. left. split; [reflexivity|]. cbn [script]. destruct k as [|[|[|]]]; [left; eauto|right; left; eauto|right; right; eauto|lia]. }
    destruct G as (e & v & [[Fr G]|G]); [|rewrite G in Hst; discriminate]. destruct (FR e v Fr) as [FR1 FR2].
    destruct G as [[-> [b Sc]]|[[-> [b Sc]]|[-> [w Ew]]]].
    + rewrite EB, Sc in Hst. cbn [skipn] in Hst. injection Hst as <- <-. eexists. split; [reflexivity|]. exact (fl_v s a e v b H Fr Sc).
    + rewrite EB, Sc in Hst. cbn [skipn] in Hst. injection Hst as <- <-. eexists. split; [reflexivity|]. exact (fl_n s a e v b H Fr Sc (FR1 ltac:(lia))).
    + rewrite EB, Ew in Hst. cbn [script skipn] in Hst. injection Hst as <- <-.
      eexists. split; [cbn [accepts fq_step]; rewrite Ew; reflexivity|]. exact (fl_l s a e v w H Ew (FR1 ltac:(lia)) (FR2 ltac:(lia))).
  - destruct (cp s) eqn:Ec; try discriminate. injection Hst as <- <-. eexists. split; [reflexivity|].
    constructor; fc; try sol H; exact I.
  - destruct (cp s) eqn:Ec; try discriminate. injection Hst as <- <-. eexists. split; [reflexivity|].
    constructor; fc; try sol H; exact I.
  - (* steps of the consumer *)
    unfold ctick in Hst. rewrite (chd_stub s a H), (stub_next s a H) in Hst. destruct (cp s) as [| |x|x v| |h] eqn:Ec; try discriminate.
    + destruct (here a) as [|[e v] q] eqn:Eh; injection Hst as <- <-.
      * eexists. split; [cbn [accepts fq_step]; rewrite Eh; reflexivity|]. constructor; fc; try sol H; exact I.
      * eexists. split; [reflexivity|]. constructor; fc; try sol H. eauto.
    + destruct CP as [v [q Eh]]. injection Hst as <- <-. eexists. split; [reflexivity|]. constructor; fc; try sol H.
      exists q. rewrite Eh. rewrite (F_vl _ _ H x v); [reflexivity|]. rewrite Eh. left. reflexivity.
    + destruct CP as [q Eh]. injection Hst as <- <-. eexists. split; [cbn [accepts fq_step]; rewrite Eh, Nat.eqb_refl; reflexivity|].
      set (a' := {| way := way a; here := q; stub := x; out := out a ++ [stub a]; used := used a; seen := seen a |}).
      assert (Ea : arrd a' = arrd a). { unfold arrd, a'; fc. rewrite Eh. cbn [map fst]. rewrite <- app_assoc. reflexivity. }
      assert (El : alle a' = alle a) by (unfold alle; rewrite Ea; reflexivity).
      assert (Es : lst a' = lst a). { unfold lst, a'; fc. rewrite Eh. cbn [map fst]. symmetry. apply last_cons. }
      assert (Ef : front a' (pp s) = front a (pp s)) by reflexivity.
      constructor; fc; rewrite ?Ea, ?El, ?Es, ?Ef; try sol H; try exact I.
      * unfold a'; fc. rewrite app_comm_cons, (F_hd _ _ H). reflexivity.
      * intros e w Hw. apply (F_vl _ _ H). rewrite Eh. right. exact Hw.
    + injection Hst as <- <-. eexists. split; [reflexivity|]. constructor; fc; try sol H. reflexivity.
    + subst h. injection Hst as <- <-. rewrite (stub_next s a H). eexists. split.
      * cbn [accepts fq_step]. replace (Bool.eqb _ _) with true by (destruct (here a) as [|[? ?] ?]; reflexivity). reflexivity.
      * constructor; fc; try sol H. exact I.
  - (* a store of the consumer arrives *)
    destruct (cb s) as [|x b] eqn:Eb; [discriminate|]. injection Hst as <- <-.
    pose proof (F_hd _ _ H) as Hh. rewrite Eb in Hh. destruct (out a) as [|y o] eqn:Eo; cbn [app] in Hh; [discriminate|]. injection Hh as <- Hh.
    eexists. split; [cbn [accepts fq_step]; rewrite Eo; reflexivity|].
    set (a' := {| way := way a; here := here a; stub := stub a; out := o; used := used a ++ [hd s]; seen := seen a |}).
    assert (Ea : arrd a' = arrd a). { unfold arrd, a'; fc. rewrite Eo. rewrite <- app_assoc. reflexivity. }
    assert (El : alle a' = alle a) by (unfold alle; rewrite Ea; reflexivity).
    assert (Ef : front a' (pp s) = front a (pp s)) by reflexivity.
    constructor; fc; rewrite ?Ea, ?El, ?Ef; try sol H.
    + exact Hh.
    + unfold a'; fc. apply in_or_app. left. exact (F_snap _ _ H).
    + unfold a'; fc. destruct (pp s); auto. destruct PP as [P1 P2]. split; [destruct (used a); discriminate|exact P2].
Qed.

Lemma FI_run : forall e ls s log, run step (init e) ls = Some (s, log) -> exists a, accepts fq_step (fq0 e) log = Some a /\ FI s a.
Proof. intros e ls s log H. exact (run_refines step fq_step FI (init e) (fq0 e) (FI_init e) FI_step ls s log H). Qed.

Lemma sp_legal : forall e ls s log, run step (init e) ls = Some (s, log) -> fq_legal e log.
Proof. intros e ls s log H. destruct (FI_run e ls s log H) as [a [A _]]. exists a. exact A. Qed.

Lemma sp_drained : forall e ls s log, run step (init e) ls = Some (s, log) ->
  exists a, accepts fq_step (fq0 e) log = Some a /\ (pb s = [] -> way a = []) /\ (cb s = [] -> out a = []).
Proof.
  intros e ls s log H. destruct (FI_run e ls s log H) as [a [A I]]. exists a. split; [exact A|]. split; intros E.
  - destruct (F_pb _ _ I) as (k & K2 & _ & EB & _). rewrite E in EB. destruct (way a) as [|[x y] w]; [reflexivity|].
    cbn [script] in EB. destruct k as [|[|[|]]]; try discriminate. lia.
  - pose proof (F_hd _ _ I) as Hh. rewrite E in Hh. destruct (out a) as [|x [|y o]]; [reflexivity| |]; discriminate.
Qed.

Lemma sp_stuck : forall e ls s log, run step (init e) ls = Some (s, log) ->
  (pp s <> PIdle -> exists r, step s PTick = Some r) /\ (cp s <> CIdle -> exists r, step s CTick = Some r).
Proof.
  intros e ls s log H. destruct (FI_run e ls s log H) as [a [_ I]]. split; intros N; cbn [step].
  - unfold ptick. destruct (pp s) eqn:Ep; try congruence; try (eexists; reflexivity).
    + destruct (Nat.eqb (hd s) (garb s)); eexists; reflexivity.
    + pose proof (F_pp _ _ I) as P. rewrite Ep in P. destruct P as [U1 _].
      assert (Hg : In (garb s) (arrd a) /\ garb s <> tl s).
      { destruct (used a) as [|x u] eqn:Eu; [congruence|]. pose proof (F_chain _ _ I) as C. unfold arrd in *. rewrite Eu in *. cbn [app chain] in *.
        destruct C as [C _]. injection C as ->. split; [left; reflexivity|]. intros X.
        pose proof (F_nd _ _ I) as ND. destruct (alle_last s a I) as [l El]. rewrite <- X in El.
        assert (E2 : alle a = x :: u ++ out a ++ stub a :: map fst (here a) ++ map fst (way a)).
        { unfold alle, arrd. rewrite Eu. cbn [app]. rewrite <- !app_assoc. reflexivity. }
        destruct l as [|y l]; rewrite E2 in El; cbn [app] in El; injection El; intros Q1.
        - destruct u; [destruct (out a); discriminate|discriminate].
        - intros <-. rewrite E2 in ND. inversion ND as [|? ? N1 _]; subst. apply N1. rewrite Q1. apply in_or_app. right. left. reflexivity. }
      destruct Hg as [Hg Hn]. pose proof (next_view s a _ I Hg) as V.
      destruct (vnx (pb s) (garb s) (nx s (garb s))); [eexists; reflexivity|]. cbn [is_none] in V. symmetry in V. apply Nat.eqb_eq in V. contradiction.
  - unfold ctick. destruct (cp s); try congruence; try (eexists; reflexivity). destruct (nx s (chd s)); eexists; reflexivity.
Qed.

(** read off the bare log *)
Lemma order_gen : forall log a a', accepts fq_step a log = Some a' ->
  map snd (here a) ++ map snd (way a) ++ enqs log = deqs log ++ map snd (here a') ++ map snd (way a').
Proof.
  induction log as [|x log IH]; intros a a' H; cbn [accepts] in H.
  - injection H as ->. cbn [enqs deqs app]. rewrite app_nil_r. reflexivity.
  - destruct (fq_step a x) as [a1|] eqn:E; [|discriminate]. apply IH in H. clear IH.
    destruct x; cbn [fq_step enqs deqs] in *.
    + injection E as <-. cbn [here way] in H. rewrite map_app, <- !app_assoc in H. exact H.
    + destruct (way a) as [|p w]; [discriminate|]. injection E as <-. cbn [here way] in H. rewrite map_app, <- !app_assoc in H. exact H.
    + destruct (here a) as [|[y w] h]; [discriminate|]. destruct (Nat.eqb_spec v w); [|discriminate]. injection E as <-. subst.
      cbn [here way map snd app] in *. f_equal. exact H.
    + destruct (nil (here a)); [|discriminate]. injection E as <-. exact H.
    + destruct (out a); [discriminate|]. injection E as <-. exact H.
    + destruct (used a); [discriminate|]. destruct (Nat.eqb _ _); [|discriminate]. injection E as <-. exact H.
    + destruct (nil (used a)); [|discriminate]. injection E as <-. exact H.
    + destruct (Bool.eqb _ _); [|discriminate]. injection E as <-. exact H.
    + injection E as <-. exact H.
    + destruct (Bool.eqb _ _); [|discriminate]. injection E as <-. exact H.
Qed.
Lemma recs_gen : forall log a a', accepts fq_step a log = Some a' ->
  alle a ++ ents log = recs log ++ alle a'.
Proof.
  induction log as [|x log IH]; intros a a' H; cbn [accepts] in H.
  - injection H as ->. cbn [ents recs app]. rewrite app_nil_r. reflexivity.
  - destruct (fq_step a x) as [a1|] eqn:E; [|discriminate]. apply IH in H. clear IH.
    destruct x; cbn [fq_step ents recs] in *.
    + injection E as <-. unfold alle, arrd in *. cbn [here way stub out used] in H. rewrite map_app in H. cbn [map fst] in H.
      rewrite <- !app_assoc in *. exact H.
    + destruct (way a) as [|p w] eqn:Ew; [discriminate|]. injection E as <-. unfold alle, arrd in *. cbn [here way stub out used] in H.
      rewrite Ew. rewrite map_app in H. cbn [map fst] in *. rewrite <- !app_assoc in *. cbn [app] in *. rewrite <- !app_assoc in H. exact H.
    + destruct (here a) as [|[y w] h] eqn:Eh; [discriminate|]. destruct (Nat.eqb_spec v w); [|discriminate]. injection E as <-.
      unfold alle, arrd in *. cbn [here way stub out used] in H. rewrite Eh. cbn [map fst] in *. rewrite <- !app_assoc in *. exact H.
    + destruct (nil (here a)); [|discriminate]. injection E as <-. exact H.
    + destruct (out a) as [|y o] eqn:Eo; [discriminate|]. injection E as <-. unfold alle, arrd in *. cbn [here way stub out used] in H. rewrite Eo.
      rewrite <- !app_assoc in *. exact H.
    + destruct (used a) as [|y u] eqn:Eu; [discriminate|]. destruct (Nat.eqb_spec e y); [|discriminate]. injection E as <-. subst.
      unfold alle, arrd in *. cbn [here way stub out used] in H. rewrite Eu. cbn [app]. f_equal. exact H.
    + destruct (nil (used a)); [|discriminate]. injection E as <-. exact H.
    + destruct (Bool.eqb _ _); [|discriminate]. injection E as <-. exact H.
    + injection E as <-. exact H.
    + destruct (Bool.eqb _ _); [|discriminate]. injection E as <-. exact H.
Qed.
Lemma sp_order : forall e ls s log, run step (init e) ls = Some (s, log) -> exists rest, enqs log = deqs log ++ rest.
Proof. intros e ls s log H. destruct (sp_legal e ls s log H) as [a A]. apply order_gen in A. cbn in A. eauto. Qed.
Lemma sp_recycle : forall e ls s log, run step (init e) ls = Some (s, log) -> exists rest, e :: ents log = recs log ++ rest /\ NoDup rest.
Proof.
  intros e ls s log H. destruct (FI_run e ls s log H) as [a [A I]]. apply recs_gen in A. cbn in A. exists (alle a). split; [exact A|exact (F_nd _ _ I)].
Qed.
