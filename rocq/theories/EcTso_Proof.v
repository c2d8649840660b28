(** Proofs about single-producer event counts on x86-TSO. *)
From Coq Require Import ZArith Arith List Bool Lia.
From Verif Require Import Lib LockSpec LockProg Ec_Model Ec_Proof EcTso_Model.
Import ListNotations.
Local Open Scope Z_scope.

Section P.
Variable o : wops.
Hypothesis L : laws o.
Variables D S : nat.

Fixpoint chain (m : Z) (b : list (Z * Z * nat)) : Prop :=
  match b with
  | [] => True
  | (w, d, e) :: r => 0 <= w < W o /\ 0 < d /\ wval o w = (wval o m + d) mod M o /\ chain w r
  end.
Definition vw (m : Z) (b : list (Z * Z * nat)) : Z := last (map (fun x => fst (fst x)) b) m.
Fixpoint pend (v : Z) (b : list (Z * Z * nat)) : list (Z * Z) :=
  match b with [] => [] | (w, d, _) :: r => (d, v) :: pend (wval o w) r end.

Lemma vw_cons : forall m w d e r, vw m ((w, d, e) :: r) = vw w r.
Proof.
  intros. unfold vw. simpl. destruct r as [|x r]; [reflexivity|]. simpl map.
  generalize (map (fun x0 : Z * Z * nat => fst (fst x0)) r). intros l. revert x. 
  assert (H : forall l (a b c : Z), last (a :: l) b = last (a :: l) c).
  { induction l0; intros; auto. change (last (a :: l0) b = last (a :: l0) c). auto. }
  intros. apply H.
Qed.
Lemma vw_app : forall b m w d e, vw m (b ++ [(w, d, e)]) = w.
Proof. intros. unfold vw. rewrite map_app. simpl. apply last_last. Qed.
Lemma chain_app : forall b m w d e, chain m b -> 0 <= w < W o -> 0 < d -> wval o w = (wval o (vw m b) + d) mod M o ->
  chain m (b ++ [(w, d, e)]).
Proof.
  induction b as [|[[w1 d1] e1] b IH]; intros m w d e H1 H2 H3 H4; simpl.
  - auto.
  - destruct H1 as [A [B [C E]]]. rewrite vw_cons in H4. auto.
Qed.
Lemma pend_app : forall b m w d e, pend (wval o m) (b ++ [(w, d, e)]) = pend (wval o m) b ++ [(d, wval o (vw m b))].
Proof.
  induction b as [|[[w1 d1] e1] b IH]; intros m w d e; simpl; auto. rewrite IH, vw_cons. reflexivity.
Qed.
Lemma chain_vw : forall b m, 0 <= m < W o -> chain m b -> 0 <= vw m b < W o.
Proof.
  induction b as [|[[w1 d1] e1] b IH]; intros m H1 H2; auto. rewrite vw_cons. destruct H2 as [A [B [C E]]]. auto.
Qed.
Lemma chain_mem : forall b m m', wval o m' = wval o m -> chain m b -> chain m' b.
Proof. destruct b as [|[[w1 d1] e1] b]; simpl; intros; auto. rewrite H. auto. Qed.

Lemma vw_val : forall b m m', wval o m = wval o m' -> wval o (vw m b) = wval o (vw m' b).
Proof. destruct b as [|[[w1 d1] e1] b]; intros; auto. rewrite !vw_cons. auto. Qed.

(** the waiters' awaited value *)
Definition wv (p : tpc) : option Z :=
  match p with Q0 v | Q1 v | Q2 v | QE v | QU v _ | QF v | QB v _ | QX v _ _ | QS v _ _ | QC v _ | QV v => Some v | _ => None end.
Definition producing (p : tpc) : bool := match p with PLd _ _ | PSt _ _ _ _ | PWk1 | PWk2 => true | _ => false end.

Record Ib (s : tst) : Prop := {
  b_mem : 0 <= mem s < W o;
  b_ch : chain (mem s) (buf s);
  b_prod : forall t, producing (tthr s t) = true -> t = 0%nat;
  b_wait : forall t v, wv (tthr s t) = Some v -> t <> 0%nat /\ 0 <= v < M o;
  b_ld : forall t d i, tthr s t = PLd d i -> 0 < d;
  b_st : forall t d i x e, tthr s t = PSt d i x e -> 0 < d /\ 0 <= x < W o /\ wval o x = wval o (view s)
}.

Ltac brk H :=
  repeat match type of H with
  | context [if ?c then _ else _] => let E := fresh "B" in destruct c eqn:E; try discriminate H
  | context [match ?c with Some _ => _ | None => _ end] => let E := fresh "B" in destruct c eqn:E; try discriminate H
  end.
Ltac cases H :=
  match type of H with tstep _ _ _ ?s ?l = _ =>
    destruct l as [t act| |]; cbn [tstep] in H;
    [ unfold tick in H; destruct (tthr s t) eqn:Et; destruct act; try discriminate H; unfold tgo, tset in H
    | destruct (buf s) as [|[[w d] e0] r] eqn:Eb; [discriminate H|]
    | ]
  end.

Lemma un_fl : forall v v', 0 <= v < M o -> 0 <= v' < M o -> wun o v <> wfl o v'.
Proof. intros v v' H H' E. destruct (l_un o L v H) as [_ [_ A]]. destruct (l_fl o L v' H') as [_ [_ B]]. congruence. Qed.
Lemma fl_inj : forall v v', 0 <= v < M o -> 0 <= v' < M o -> wfl o v = wfl o v' -> v = v'.
Proof. intros v v' H H' E. destruct (l_fl o L v H) as [_ [A _]]. destruct (l_fl o L v' H') as [_ [B _]]. congruence. Qed.

Lemma view_vw : forall s, view s = vw (mem s) (buf s).
Proof. reflexivity. Qed.

Lemma awk : forall p, (producing (tawake p) = producing p) /\ (wv (tawake p) = wv p).
Proof. destruct p; auto. Qed.
Lemma awk_ld : forall p d i, tawake p = PLd d i -> p = PLd d i.
Proof. destruct p; simpl; intros; try discriminate; auto. Qed.
Lemma awk_st : forall p d i x e, tawake p = PSt d i x e -> p = PSt d i x e.
Proof. destruct p; simpl; intros; try discriminate; auto. Qed.

Lemma Ib_init : forall v, 0 <= v < M o -> Ib (tinit o v).
Proof. intros v H. destruct (l_init o L v H) as [A [B C]]. constructor; simpl; intros; try discriminate; auto. Qed.

(** moves of one thread *)
Lemma Ib_go : forall s t p, Ib s ->
  (producing p = true -> t = 0%nat) -> (forall v, wv p = Some v -> t <> 0%nat /\ 0 <= v < M o) ->
  (forall d i, p = PLd d i -> 0 < d) ->
  (forall d i x e, p = PSt d i x e -> 0 < d /\ 0 <= x < W o /\ wval o x = wval o (view s)) ->
  Ib (mkt (mem s) (buf s) (now s) (upd (tthr s) t p)).
Proof.
  intros s t p [A B C E F G] H1 H2 H3 H4. constructor; simpl; auto; intros; upd_cases; subst; eauto.
Qed.

Lemma Ib_step : forall s l s' e, Ib s -> tstep o D S s l = Some (s', e) -> Ib s'.
Proof.
  intros s l s' e I H. pose proof I as [A B C E F G].
  assert (Hv : 0 <= view s < W o) by (rewrite view_vw; apply chain_vw; auto).
  cases H.
  all: try (assert (Hp : t = 0%nat) by (apply C; rewrite Et; reflexivity)).
  all: try (match goal with _ : context [wun o ?v] |- _ => destruct (E t v) as [Hn Hr]; [rewrite Et; reflexivity|] end).
  all: brk H.
  all: try (injection H as <- <-; apply Ib_go; auto; simpl; try discriminate; intros;
    repeat match goal with X : Some _ = Some _ |- _ => injection X as <- end;
    repeat match goal with X : PLd _ _ = PLd _ _ |- _ => injection X as <- <- | X : PSt _ _ _ _ = PSt _ _ _ _ |- _ => injection X as <- <- <- <- end;
    try discriminate;
    try (apply (E t); rewrite Et; reflexivity); try lia; fail).
  - (* add *) apply orb_false_iff in B0. destruct B0 as [B0 B2]. apply negb_false_iff, Nat.eqb_eq in B0. subst t.
    apply Z.ltb_ge in B2. apply Z.eqb_neq in B1. injection H as <- <-. apply Ib_go; auto; try discriminate.
    intros ? ? X; injection X as <- <-; lia.
  - apply negb_false_iff, Nat.eqb_eq in B0. subst t. injection H as <- <-. apply Ib_go; auto; try discriminate.
    intros ? ? X; injection X as <- <-; lia.
  - (* wait *) apply orb_false_iff in B0. destruct B0 as [B0 B2]. apply orb_false_iff in B0. destruct B0 as [B0 B1].
    apply Nat.eqb_neq in B0. apply Z.ltb_ge in B1. apply Z.leb_gt in B2. injection H as <- <-. apply Ib_go; auto; try discriminate.
    intros ? X; injection X as <-; lia.
  - (* PLd *) injection H as <- <-. apply Ib_go; auto; try discriminate.
    intros ? ? ? ? X; injection X as <- <- <- <-. split; [|auto]. apply (F t d inc Et).
  - (* PSt, wake *) destruct (G _ _ _ _ _ Et) as [G1 [G2 G3]]. injection H as <- <-.
    destruct (l_add o L w d G2 ltac:(lia)) as [W1 W2].
    constructor; simpl; auto; intros; upd_cases; subst; try discriminate; eauto.
    + apply chain_app; auto. rewrite W2, G3, view_vw. auto.
    + assert (t0 = 0%nat) by (apply C; rewrite H; reflexivity). congruence.
  - destruct (G _ _ _ _ _ Et) as [G1 [G2 G3]]. injection H as <- <-.
    destruct (l_add o L w d G2 ltac:(lia)) as [W1 W2].
    constructor; simpl; auto; intros; upd_cases; subst; try discriminate; eauto.
    + apply chain_app; auto. rewrite W2, G3, view_vw. auto.
    + assert (t0 = 0%nat) by (apply C; rewrite H; reflexivity). congruence.
  - (* Wk1 *) injection H as <- <-. destruct (l_clear o L _ A) as [W1 W2]. unfold nobuf in B0. destruct (buf s) eqn:Eb; [|discriminate].
    constructor; simpl; auto; intros; upd_cases; subst; try discriminate; eauto.
    assert (t0 = 0%nat) by (apply C; rewrite H; reflexivity). congruence.
  - (* Wk2 *) injection H as <- <-. constructor; simpl; auto; intros; upd_cases; subst; try discriminate.
    + rewrite (proj1 (awk _)) in H. auto.
    + rewrite (proj2 (awk _)) in H. eauto.
    + apply awk_ld in H. eauto.
    + apply awk_st in H. eapply G in H. exact H.
  - (* cas *) injection H as <- <-. apply Z.eqb_eq in B2. destruct (l_un o L v Hr) as [U1 [U2 U3]]. destruct (l_fl o L v Hr) as [W1 [W2 W3]].
    assert (Hm : wval o (wfl o v) = wval o (mem s)) by congruence.
    constructor; simpl; auto; intros; upd_cases; subst; try discriminate; eauto.
    + eapply chain_mem; [|exact B]. auto.
    + injection H as <-. auto.
    + destruct (G _ _ _ _ _ H) as [G1 [G2 G3]]. repeat split; try apply G1; try apply G2. rewrite G3, !view_vw. apply vw_val. auto.
  - (* flush *) injection H as <- <-. simpl in B. destruct B as [B1 [B2 [B3 B4]]].
    constructor; simpl; auto. intros. destruct (G _ _ _ _ _ H) as [G1 [G2 G3]]. repeat split; auto; try apply G2.
    rewrite G3, !view_vw. simpl. rewrite Eb, vw_cons. auto.
  - brk H. injection H as <- <-. constructor; simpl; auto.
Qed.

(** * Counting *)
Lemma nobuf_nil : forall s, nobuf s = true -> buf s = [].
Proof. unfold nobuf. intros s. destruct (buf s); auto; discriminate. Qed.

Ltac inj H := injection H as <- <-.

Lemma c_step : forall s l s' e, Ib s -> tstep o D S s l = Some (s', e) ->
  accepts (count_step (M o)) (wval o (mem s)) (seen e) = Some (wval o (mem s')) /\
  accepts (own_step (M o)) (wval o (view s)) e = Some (wval o (view s')) /\
  pend (wval o (mem s)) (buf s) ++ issued e = arrived e ++ pend (wval o (mem s')) (buf s').
Proof.
  intros s l s' e I H. pose proof I as [A B C E F G].
  assert (Hv : 0 <= view s < W o) by (rewrite view_vw; apply chain_vw; auto).
  cases H.
  all: try (match goal with _ : context [wun o ?v] |- _ => destruct (E t v) as [Hn Hr]; [rewrite Et; reflexivity|] end).
  all: brk H.
  all: try (injection H as <- <-; unfold view in *; simpl; rewrite ?app_nil_r; rewrite ?Z.eqb_refl; auto; fail).
  - destruct (G _ _ _ _ _ Et) as [G1 [G2 G3]]. inj H. destruct (l_add o L w d G2 ltac:(lia)) as [W1 W2].
    simpl. split; [auto|]. split.
    + rewrite (l_old o L), G3, Z.eqb_refl, (view_vw (mkt _ _ _ _)). simpl. rewrite vw_app, W2, G3. auto.
    + rewrite pend_app, (l_old o L), G3, view_vw. auto.
  - destruct (G _ _ _ _ _ Et) as [G1 [G2 G3]]. inj H. destruct (l_add o L w d G2 ltac:(lia)) as [W1 W2].
    simpl. split; [auto|]. split.
    + rewrite (l_old o L), G3, Z.eqb_refl, (view_vw (mkt _ _ _ _)). simpl. rewrite vw_app, W2, G3. auto.
    + rewrite pend_app, (l_old o L), G3, view_vw. auto.
  - inj H. destruct (l_clear o L _ A) as [W1 W2]. apply nobuf_nil in B0. unfold view. simpl. rewrite B0. simpl. rewrite W2. auto.
  - inj H. apply Z.eqb_eq in B2. destruct (l_un o L v Hr) as [U1 [U2 U3]]. destruct (l_fl o L v Hr) as [W1 [W2 W3]].
    assert (Hm : wval o (wfl o v) = wval o (mem s)) by congruence. simpl. rewrite Hm, app_nil_r. repeat split; auto.
    rewrite !view_vw. simpl. f_equal. apply vw_val. congruence.
  - inj H. simpl in B. destruct B as [B1 [B2 [B3 B4]]]. simpl. rewrite Z.eqb_refl, B3, !view_vw. simpl. rewrite Eb, vw_cons, app_nil_r.
    repeat split; auto.
Qed.

Lemma seen_app : forall a b, seen (a ++ b) = seen a ++ seen b.
Proof. induction a as [|x a IH]; intros; simpl; auto. destruct x; simpl; rewrite ?IH; auto. Qed.
Lemma issued_app : forall a b, issued (a ++ b) = issued a ++ issued b.
Proof. induction a as [|x a IH]; intros; simpl; auto. destruct x; simpl; rewrite ?IH; auto. Qed.
Lemma arrived_app : forall a b, arrived (a ++ b) = arrived a ++ arrived b.
Proof. induction a as [|x a IH]; intros; simpl; auto. destruct x; simpl; rewrite ?IH; auto. destruct e; simpl; rewrite ?IH; auto. Qed.

Definition Ic (v0 : Z) (s : tst) (log : list tev) : Prop := Ib s /\
  accepts (count_step (M o)) v0 (seen log) = Some (wval o (mem s)) /\
  accepts (own_step (M o)) v0 log = Some (wval o (view s)) /\
  issued log = arrived log ++ pend (wval o (mem s)) (buf s).

Lemma Ic_run : forall v0 ls s log, 0 <= v0 < M o -> run (tstep o D S) (tinit o v0) ls = Some (s, log) -> Ic v0 s log.
Proof.
  intros v0 ls s log Hv H. eapply (run_inv (tstep o D S) (Ic v0)); [| |exact H].
  - split; [apply Ib_init; auto|]. destruct (l_init o L v0 Hv) as [_ [E _]]. unfold view. simpl. rewrite E. auto.
  - intros s1 l1 l s2 e [I [H1 [H2 H3]]] Hs. destruct (c_step _ _ _ _ I Hs) as [K1 [K2 K3]].
    split; [eapply Ib_step; eauto|]. rewrite seen_app, issued_app, arrived_app, !accepts_app, H1, H2, K1, K2.
    repeat split; auto. rewrite H3, <- app_assoc, K3, app_assoc. auto.
Qed.

(** * Waiting *)
Definition Rw (s : tst) (a : wspec) : Prop :=
  Ib s /\ sv a = wval o (mem s) /\
  (forall t v, wv (tthr s t) = Some v -> exists c, sw a t = Some (v, c) /\ (c = false -> sv a = v)) /\
  (forall t v cur, tthr s t = QU v cur -> sw a t = Some (v, false) -> cur = wun o v \/ (cur = wfl o v /\ mem s = wfl o v)) /\
  (forall t v, tthr s t = QF v -> sw a t = Some (v, false) -> mem s = wfl o v).

Lemma awk_qu : forall p v c, tawake p = QU v c -> p = QU v c.
Proof. destruct p; simpl; intros; try discriminate; auto. Qed.
Lemma awk_qf : forall p v, tawake p = QF v -> p = QF v.
Proof. destruct p; simpl; intros; try discriminate; auto. Qed.

Lemma Rw_step : forall s a l s' e, Rw s a -> tstep o D S s l = Some (s', e) ->
  exists a', accepts (wait_step (M o) true) a (seen e) = Some a' /\ Rw s' a'.
Proof.
  intros s a l s' e [I [Hsv [Hwt [Hup Hf]]]] Hs. pose proof (Ib_step _ _ _ _ I Hs) as I'. pose proof I as [A B C E F G].
  assert (Hgo : forall t p ev', (forall z, accepts (wait_step (M o) true) z (seen ev') = Some z) ->
     (wv p = None \/ wv p = wv (tthr s t)) ->
     (forall v cur, p = QU v cur -> sw a t = Some (v, false) -> cur = wun o v \/ (cur = wfl o v /\ mem s = wfl o v)) ->
     (forall v, p = QF v -> sw a t = Some (v, false) -> mem s = wfl o v) ->
     tgo s t p ev' = Some (s', e) -> exists a', accepts (wait_step (M o) true) a (seen e) = Some a' /\ Rw s' a').
  { intros t p ev' H1 H3 H4 H5 Hg. unfold tgo in Hg. inj Hg. exists a. split; [apply H1|]. split; [auto|]. simpl.
    repeat split; intros; upd_cases; subst; eauto. destruct H3 as [H3|H3]; [congruence|]. apply Hwt. congruence. }
  assert (Hret : forall t r, (r = 0 -> exists v, sw a t = Some (v, true)) ->
     tgo s t PIdle [TE (ERet t r)] = Some (s', e) -> exists a', accepts (wait_step (M o) true) a (seen e) = Some a' /\ Rw s' a').
  { intros t r H1 Hg. unfold tgo in Hg. inj Hg. exists {| sv := sv a; sw := upd (sw a) t None |}. split.
    - simpl. destruct (Z.eqb_spec r 0); auto. destruct H1 as [v Hx]; auto. rewrite Hx. auto.
    - split; [auto|]. simpl. repeat split; intros; upd_cases; try discriminate; eauto. }
  assert (Hchg : forall t v, wv (tthr s t) = Some v -> wval o (mem s) <> v -> exists v, sw a t = Some (v, true)).
  { intros t v H1 H2. destruct (Hwt _ _ H1) as [c [Hc Hcv]]. destruct c; eauto. exfalso. apply H2. rewrite <- Hsv. auto. }
  assert (Htwo : mem s = wun o (wval o (mem s)) \/ mem s = wfl o (wval o (mem s))) by (apply (l_two o L); auto).
  cases Hs.
  all: try (match goal with _ : context [wun o ?v] |- _ => destruct (E t v) as [Hn Hr]; [rewrite Et; reflexivity|] end).
  all: try (match type of Hs with context [wfl o ?v] => destruct (E t v) as [Hn Hr]; [rewrite Et; reflexivity|] end).
  all: brk Hs.
  all: try (eapply (Hgo t); [| | | |exact Hs]; rewrite ?Et; auto; try discriminate; fail).
  all: try (eapply (Hret t); [|exact Hs]; intros; discriminate).
  all: try (eapply (Hret t); [|exact Hs];
            intros _; apply Z.eqb_neq in B0; eapply Hchg; [rewrite Et; reflexivity|exact B0]; fail).
  - (* wait *) inj Hs. eexists. split; [reflexivity|]. split; [auto|]. simpl.
    repeat split; intros; upd_cases; subst; simpl in *; try discriminate; eauto.
    injection H as <-. eexists; split; [reflexivity|]. intros Hx. apply negb_false_iff in Hx. apply Z.eqb_eq in Hx. auto.
  - (* PSt *) inj Hs. exists a. split; [reflexivity|]. split; [auto|]. simpl.
    repeat split; intros; upd_cases; subst; simpl in *; try discriminate; eauto.
  - inj Hs. exists a. split; [reflexivity|]. split; [auto|]. simpl.
    repeat split; intros; upd_cases; subst; simpl in *; try discriminate; eauto.
  - (* Wk1 *) inj Hs. destruct (l_clear o L _ A) as [W1 W2]. eexists. split; [reflexivity|]. split; [auto|]. simpl. split; [congruence|].
    repeat split; intros; upd_cases; subst; simpl in *; try discriminate.
    + destruct (Hwt _ _ H) as [c [Hc _]]. rewrite Hc. eexists; split; [reflexivity|]. discriminate.
    + destruct (sw a t0) as [[vv c]|]; discriminate.
    + destruct (sw a t0) as [[vv c]|]; discriminate.
  - (* Wk2 *) inj Hs. exists a. split; [reflexivity|]. split; [auto|]. simpl.
    repeat split; intros; upd_cases; subst; simpl in *; try discriminate; auto.
    + rewrite (proj2 (awk _)) in H. auto.
    + apply awk_qu in H. eauto.
    + apply awk_qf in H. eauto.
  - (* QE *) eapply (Hgo t); [| | | |exact Hs]; rewrite ?Et; auto; try discriminate.
    intros v1 cur X Hc. injection X as <- <-. destruct (Hwt t v) as [c [Hc2 Hcv]]; [rewrite Et; reflexivity|].
    rewrite Hc in Hc2. injection Hc2 as <-. specialize (Hcv eq_refl). rewrite <- Hsv, Hcv in Htwo. tauto.
  - eapply (Hgo t); [| | | |exact Hs]; rewrite ?Et; auto; try discriminate.
    intros v1 cur X Hc. injection X as <- <-. destruct (Hwt t v) as [c [Hc2 Hcv]]; [rewrite Et; reflexivity|].
    rewrite Hc in Hc2. injection Hc2 as <-. specialize (Hcv eq_refl). rewrite <- Hsv, Hcv in Htwo. tauto.
  - (* QU, flagged *) apply Z.eqb_eq in B0. subst cur. eapply (Hgo t); [| | | |exact Hs]; rewrite ?Et; auto; try discriminate.
    intros v1 X Hc. injection X as <-. destruct (Hup _ _ _ Et Hc) as [X|[_ X]]; auto. exfalso. symmetry in X. revert X. apply un_fl; auto.
  - apply negb_true_iff, Z.eqb_neq in B1. apply Z.eqb_neq in B0. eapply (Hret t); [|exact Hs]. intros _.
    destruct (Hwt t v) as [c [Hc Hcv]]; [rewrite Et; reflexivity|]. destruct c; eauto. exfalso.
    destruct (Hup _ _ _ Et Hc) as [X|[X _]]; auto.
  - (* cas *) inj Hs. apply Z.eqb_eq in B2. destruct (l_un o L v Hr) as [U1 [U2 U3]]. destruct (l_fl o L v Hr) as [W1 [W2 W3]].
    exists a. split; [reflexivity|]. split; [auto|]. simpl. split; [congruence|].
    repeat split; intros; upd_cases; subst; simpl in *; try discriminate; eauto.
    + injection H as <-. apply Hwt. rewrite Et. auto.
    + destruct (Hup _ _ _ H H0) as [X|[X1 X2]]; auto. exfalso. rewrite B2 in X2. revert X2. apply un_fl; auto.
      apply (E t0). rewrite H. auto.
    + injection H as <-. auto.
    + pose proof (Hf _ _ H H0) as X. exfalso. rewrite B2 in X. revert X. apply un_fl; auto. apply (E t0). rewrite H. auto.
  - apply Z.eqb_eq in B3. eapply (Hgo t); [| | | |exact Hs]; rewrite ?Et; auto; try discriminate.
    intros v1 X _. injection X as <-. auto.
  - apply Z.eqb_neq in B3. apply Z.eqb_neq in B2. eapply (Hret t); [|exact Hs]. intros _.
    apply Hchg with v; [rewrite Et; reflexivity|]. intros X. rewrite X in Htwo. tauto.
  - apply Z.eqb_eq in B0. eapply (Hgo t); [| | | |exact Hs]; rewrite ?Et; auto; try discriminate.
    intros v1 X _. injection X as <-. auto.
  - apply Z.eqb_neq in B0. eapply (Hret t); [|exact Hs]. intros _.
    destruct (Hwt t v) as [c [Hc Hcv]]; [rewrite Et; reflexivity|]. destruct c; eauto. exfalso. apply B0. eauto.
  - apply Z.eqb_neq in B0. eapply (Hret t); [|exact Hs]. intros _.
    destruct (Hwt t v) as [c [Hc Hcv]]; [rewrite Et; reflexivity|]. destruct c; eauto. exfalso. apply B0. eauto.
  - (* pred *) apply Z.eqb_neq in B0. eapply (Hret t); [|exact Hs]. intros; contradiction.
  - (* flush *) inj Hs. simpl in B. destruct B as [B1 [B2 [B3 B4]]]. eexists. split; [reflexivity|]. split; [auto|]. simpl. split; [congruence|].
    assert (Hd : (d =? 0) = false) by (apply Z.eqb_neq; lia).
    repeat split; intros.
    + destruct (Hwt _ _ H) as [c [Hc Hcv]]. rewrite Hc. simpl. rewrite Hd, orb_true_r. eexists; split; [reflexivity|]. discriminate.
    + destruct (sw a t) as [[vv c]|]; simpl in H0; [rewrite Hd, orb_true_r in H0; discriminate|discriminate].
    + destruct (sw a t) as [[vv c]|]; simpl in H0; [rewrite Hd, orb_true_r in H0; discriminate|discriminate].
  - brk Hs. inj Hs. exists a. split; [reflexivity|]. split; [auto|]. simpl. repeat split; auto.
Qed.

Lemma Rw_run : forall v0 ls s log, 0 <= v0 < M o -> run (tstep o D S) (tinit o v0) ls = Some (s, log) ->
  wait_truthful (M o) true v0 (seen log).
Proof.
  intros v0 ls s log Hv H.
  assert (K : exists a, accepts (wait_step (M o) true) {| sv := v0; sw := fun _ => None |} (seen log) = Some a /\ Rw s a).
  { eapply (run_inv (tstep o D S) (fun s log => exists a, accepts (wait_step (M o) true) {| sv := v0; sw := fun _ => None |} (seen log) = Some a /\ Rw s a)); [| |exact H].
    - eexists. split; [reflexivity|]. destruct (l_init o L v0 Hv) as [_ [E _]]. split; [apply Ib_init; auto|]. simpl. split; [auto|].
      repeat split; intros; discriminate.
    - intros s1 l1 l s2 e [a [H1 H2]] Hs. destruct (Rw_step _ _ _ _ _ H2 Hs) as [a' [K1 K2]]. exists a'. split; auto.
      rewrite seen_app, accepts_app, H1. auto. }
  destruct K as [a [K _]]. exists a. auto.
Qed.

(** * Wake-ups *)
Ltac inl X := repeat match type of X with _ \/ _ => destruct X as [<-|X]; auto | False => destruct X end.

Record trk := { ta : Z; tc : bool; ti : bool }.
Definition tr (t : nat) (k : trk) (e : tev) : trk :=
  match e with
  | TChk u => if Nat.eqb u t then {| ta := 0; tc := false; ti := ti k |} else k
  | TE (EAdd _ d _) => {| ta := ta k + d; tc := tc k; ti := ti k |}
  | TE (EClear _) => {| ta := ta k; tc := true; ti := ti k |}
  | TInf u => if Nat.eqb u t then {| ta := ta k; tc := tc k; ti := negb (tc k) && (ta k <? M o) |} else k
  | _ => k
  end.
Definition track (t : nat) (log : list tev) : trk := fold_left (tr t) log {| ta := 0; tc := true; ti := false |}.

Lemma track_app : forall t a b, track t (a ++ b) = fold_left (tr t) b (track t a).
Proof. intros. apply fold_left_app. Qed.

Definition before (c : nat) (s : tst) : Prop := exists e, In e (flying s) /\ (e <= c)%nat.
Definition fresh (v : Z) (s : tst) : Prop :=
  buf s = [] /\ forall d i x e, tthr s 0%nat = PSt d i x e -> x = wfl o v.
Definition good (v : Z) (s : tst) : Prop :=
  tthr s 0%nat = PWk1 \/ tthr s 0%nat = PWk2 \/ (mem s = wfl o v /\ fresh v s).

(** inside the backoff: awaited value and latest time of the check *)
Definition bo (n : nat) (p : tpc) : option (Z * nat) :=
  match p with
  | QB v None => Some (v, n)
  | QB v (Some b) | QX v b _ | QS v b _ | QC v b => Some (v, b)
  | _ => None
  end.
Definition infp (p : tpc) : option nat := match p with QX _ b true | QS _ b true => Some b | _ => None end.

Definition K (t : nat) (s : tst) (k : trk) : Prop :=
  forall v b, bo (now s) (tthr s t) = Some (v, b) ->
    (b <= now s)%nat /\ 0 <= ta k /\ wval o (mem s) = (v + ta k) mod M o /\
    (tc k = false -> ta k = 0 -> mem s = wfl o v /\ exists c, (c <= b)%nat /\
       (before c s \/ fresh v s \/ tthr s 0%nat = PWk1)).
Definition Kg (t : nat) (s : tst) (k : trk) : Prop :=
  (forall b, infp (tthr s t) = Some b -> (b + S <= now s)%nat) /\
  (forall v b, tthr s t = QS v b true -> ti k = true -> good v s).
Definition young (s : tst) : Prop := forall e, In e (flying s) -> (e <= now s <= e + D)%nat.

(** a step of another thread or of the machine, as far as the waiters are concerned *)
Lemma young_step : forall s l s' e, Ib s -> young s -> tstep o D S s l = Some (s', e) -> young s'.
Proof.
  intros s l s' e I Y H. pose proof I as [A B C E F G]. unfold young, flying in *.
  cases H.
  all: try (assert (Hp : t = 0%nat) by (apply C; rewrite Et; reflexivity)).
  all: brk H.
  all: try (injection H as <- <-; simpl; intros x Hx; apply Y; apply in_app_iff in Hx; apply in_app_iff; destruct Hx as [Hx|Hx]; auto; right;
    destruct (Nat.eq_dec t 0) as [->|Hz]; [rewrite upd_same in Hx; try (destruct Hx; fail)|rewrite upd_other in Hx; auto]; fail).
  - (* PLd *) inj H. subst t. rewrite Et in Y. cbn [buf tthr now mem]. rewrite upd_same. intros x Hx. apply in_app_iff in Hx. destruct Hx as [Hx|[<-|[]]]; [|lia].
    apply Y. rewrite app_nil_r. auto.
  - inj H. subst t. rewrite Et in Y. cbn [buf tthr now mem]. rewrite upd_same, map_app, app_nil_r. exact Y.
  - inj H. subst t. rewrite Et in Y. cbn [buf tthr now mem]. rewrite upd_same, map_app, app_nil_r. exact Y.
  - inj H. subst t. cbn [buf tthr now mem]. rewrite upd_same, app_nil_r. intros x Hx. apply Y. apply in_app_iff. auto.
  - inj H. simpl. intros x Hx. apply Y. simpl. auto.
  - brk H. inj H. simpl. rewrite forallb_forall in B0. intros x Hx. specialize (Y x Hx). specialize (B0 x Hx).
    apply Nat.ltb_lt in B0. lia.
Qed.

(** the parts of the state the claims about a waiter depend on *)
Lemma before_eq : forall c s s', flying s' = flying s -> before c s -> before c s'.
Proof. intros c s s' E [e [H1 H2]]. exists e. rewrite E. auto. Qed.

Lemma K_same : forall t s s' k k', K t s k -> mem s' = mem s -> buf s' = buf s -> now s' = now s -> tthr s' 0%nat = tthr s 0%nat ->
  ta k' = ta k -> tc k' = tc k ->
  (bo (now s) (tthr s' t) = None \/ bo (now s) (tthr s' t) = bo (now s) (tthr s t)) -> K t s' k'.
Proof.
  intros t s s' k k' HK E1 E2 E3 E4 E5 E6 Hb v b H. unfold K in HK. rewrite E1, E3, E4, E5, E6 in *.
  destruct Hb as [Hb|Hb]; [congruence|]. rewrite Hb in H. destruct (HK v b H) as [K1 [K2 [K3 K4]]]. repeat split; auto.
  - destruct (K4 H0 H1); auto.
  - destruct (K4 H0 H1) as [_ [c [Hc Hd]]]. exists c. split; auto. destruct Hd as [Hd|[Hd|Hd]]; auto.
    + left. eapply before_eq; [|exact Hd]. unfold flying. rewrite E2, E4. auto.
    + right; left. unfold fresh in *. rewrite E2, E4. auto.
Qed.

Lemma good_same : forall v s s', good v s -> mem s' = mem s -> buf s' = buf s -> tthr s' 0%nat = tthr s 0%nat -> good v s'.
Proof. unfold good, fresh. intros v s s' H E1 E2 E3. rewrite E1, E2, E3. auto. Qed.

Definition KK (t : nat) (s : tst) (k : trk) : Prop := K t s k /\ Kg t s k.

Lemma bo_range : forall t s v b, Ib s -> bo (now s) (tthr s t) = Some (v, b) -> 0 <= v < M o.
Proof.
  intros t s v b I H. apply (b_wait s I t). destruct (tthr s t) as [| | | | | | | | | | | |v1 [b1|]| | | |]; simpl in *; congruence.
Qed.

Lemma sum_eq : forall v a, 0 <= v < M o -> 0 <= a < M o -> (v + a) mod M o = v -> a = 0.
Proof.
  intros v a Hv Ha H. destruct (Z_lt_le_dec (v + a) (M o)) as [Hl|Hl].
  - rewrite Z.mod_small in H by lia. lia.
  - assert ((v + a) mod M o = v + a - M o); [|lia]. symmetry. apply Z.mod_unique with 1; lia.
Qed.

(** steps of a waiter that leave memory and the producer alone *)
Lemma KK_other : forall t s u p e k, KK t s k -> u <> t -> u <> 0%nat ->
  (forall x, In x e -> match x with TChk w | TInf w => w = u | TE (EAdd _ _ _) | TE (EClear _) => False | _ => True end) ->
  KK t (mkt (mem s) (buf s) (now s) (upd (tthr s) u p)) (fold_left (tr t) e k).
Proof.
  intros t s u p e k [HK [G1 G2]] Hu H0 He.
  assert (Hk : fold_left (tr t) e k = k).
  { revert k HK G2 He. induction e as [|x e IH]; intros k HK G2 He; auto. simpl. 
    assert (Hx : tr t k x = k).
    { specialize (He x (or_introl eq_refl)). destruct x as [x| | | |]; simpl; auto.
      - destruct x; simpl; auto; contradiction.
      - subst. destruct (Nat.eqb_spec u t); auto; contradiction.
      - subst. destruct (Nat.eqb_spec u t); auto; contradiction. }
    rewrite Hx. apply IH; auto. intros y Hy. apply He. right. auto. }
  rewrite Hk. split.
  - eapply K_same; [exact HK|..]; simpl; auto; rewrite ?upd_other; auto.
  - split; simpl; rewrite upd_other by auto; auto. intros v b H1 H2. eapply good_same; [eapply G2; eauto|..]; simpl; auto. rewrite upd_other; auto.
Qed.

(** moves of the producer that touch nothing *)
Lemma KK_prod : forall t s p e k, KK t s k -> t <> 0%nat -> (forall d i x e, tthr s 0%nat <> PSt d i x e) -> (forall d i x e, p <> PSt d i x e) ->
  tthr s 0%nat <> PWk1 -> tthr s 0%nat <> PWk2 ->
  fold_left (tr t) e k = k ->
  KK t (mkt (mem s) (buf s) (now s) (upd (tthr s) 0%nat p)) (fold_left (tr t) e k).
Proof.
  intros t s p e k [HK [G1 G2]] Ht N1 N2 N3 N4 Hk. rewrite Hk. split.
  - intros v b. cbn [tthr now mem]. rewrite upd_other by auto. intros H. destruct (HK v b H) as [K1 [K2 [K3 K4]]]. repeat split; auto.
    + destruct (K4 H0 H1); auto.
    + destruct (K4 H0 H1) as [_ [c [Hc Hd]]]. exists c. split; auto. destruct Hd as [Hd|[Hd|Hd]].
      * left. eapply before_eq; [|exact Hd]. unfold flying. cbn [tthr buf]. rewrite upd_same.
        destruct p; try (exfalso; eapply N2; reflexivity); destruct (tthr s 0%nat); try (exfalso; eapply N1; reflexivity); auto.
      * right; left. destruct Hd as [D1 D2]. split; cbn [tthr buf]; auto. intros d i x e1. rewrite upd_same. intros X. exfalso. eapply N2; eauto.
      * contradiction.
  - split; cbn [tthr now]; rewrite upd_other by auto; auto. intros v b H1 H2. destruct (G2 v b H1 H2) as [Hg|[Hg|Hg]]; try contradiction.
    right; right. destruct Hg as [D0 [D1 D2]]. split; auto. split; cbn [tthr buf]; auto. intros d i x e1. rewrite upd_same. intros X. exfalso. eapply N2; eauto.
Qed.

Hypothesis DS : (D < S)%nat.

Lemma KK_step : forall t s l s' e k, t <> 0%nat -> Ib s -> young s -> KK t s k -> tstep o D S s l = Some (s', e) ->
  KK t s' (fold_left (tr t) e k).
Proof.
  intros t s l s' e k Ht I Y HKK H. pose proof I as [A B C E F G]. pose proof HKK as [HK [G1 G2]].
  assert (Hback : forall t1 p, tthr s t1 = p -> wv p <> None -> t1 <> 0%nat).
  { intros t1 p <- Hw. destruct (wv (tthr s t1)) eqn:X; [|congruence]. eapply E; eauto. }
  destruct l as [u act| |].
  - cbn [tstep] in H. destruct (Nat.eq_dec u 0) as [->|Hu].
    + (* producer *)
      unfold tick in H; destruct (tthr s 0%nat) eqn:Et; destruct act; try discriminate H; unfold tgo, tset in H;
        try (exfalso; eapply (Hback 0%nat); [exact Et|discriminate|reflexivity]); brk H.
      all: try (injection H as <- <-; apply KK_prod; auto; rewrite ?Et; try discriminate; auto; fail).
      * (* PLd *) inj H. split.
        { intros v b. cbn [tthr now mem]. rewrite upd_other by auto. intros H. destruct (HK v b H) as [K1 [K2 [K3 K4]]]. simpl. repeat split; auto.
          - destruct (K4 H0 H1); auto.
          - destruct (K4 H0 H1) as [Hm [c [Hc Hd]]]. exists c. split; auto. destruct Hd as [Hd|[Hd|Hd]].
            + left. destruct Hd as [e [D1 D2]]. exists e. split; auto. unfold flying in *. rewrite Et in D1. cbn [tthr buf]. rewrite upd_same.
              rewrite app_nil_r in D1. apply in_app_iff. auto.
            + right; left. destruct Hd as [D1 D2]. split; cbn [tthr buf]; auto. intros d1 i1 x e1. rewrite upd_same. intros X. injection X as <- <- <- <-.
              unfold view. rewrite D1. simpl. auto.
            + congruence. }
        { split; cbn [tthr now]; rewrite upd_other by auto; auto. intros v b H1 H2. destruct (G2 v b H1 H2) as [Hg|[Hg|Hg]]; try congruence.
          right; right. destruct Hg as [D0 [D1 D2]]. split; auto. split; cbn [tthr buf]; auto. intros d1 i1 x e1. rewrite upd_same. intros X. injection X as <- <- <- <-.
          unfold view. rewrite D1. simpl. auto. }
      * (* PSt, wake *) inj H. split.
        { intros v b. cbn [tthr now mem]. rewrite upd_other by auto. intros H. destruct (HK v b H) as [K1 [K2 [K3 K4]]]. simpl. repeat split; auto.
          - destruct (K4 H0 H1); auto.
          - destruct (K4 H0 H1) as [Hm [c [Hc Hd]]]. exists c. split; auto. }
        { split; cbn [tthr now]; rewrite upd_other by auto; auto. intros v b H1 H2. left. cbn [tthr]. apply upd_same. }
      * (* PSt, no wake *) inj H. destruct (G _ _ _ _ _ Et) as [W1 [W2 W3]].
        assert (Hno : forall v, 0 <= v < M o -> w <> wfl o v).
        { intros v Hv ->. destruct (l_wake o L _ W2) as [X1 X2]. destruct (l_fl o L v Hv) as [_ [_ X3]]. destruct inc; congruence. }
        split.
        { intros v b. cbn [tthr now mem]. rewrite upd_other by auto. intros H. pose proof (bo_range _ _ _ _ I H) as Hv.
          destruct (HK v b H) as [K1 [K2 [K3 K4]]]. simpl. repeat split; auto.
          - destruct (K4 H0 H1); auto.
          - destruct (K4 H0 H1) as [Hm [c [Hc Hd]]]. exists c. split; auto. destruct Hd as [Hd|[Hd|Hd]].
            + left. destruct Hd as [e1 [D1 D2]]. exists e1. split; auto. unfold flying in *. rewrite Et in D1. cbn [tthr buf]. rewrite upd_same.
              rewrite app_nil_r, map_app. auto.
            + exfalso. destruct Hd as [D1 D2]. eapply (Hno v); eauto.
            + congruence. }
        { split; cbn [tthr now]; rewrite upd_other by auto; auto. intros v b H1 H2. destruct (G2 v b H1 H2) as [Hg|[Hg|Hg]]; try congruence.
          exfalso. destruct Hg as [D0 [D1 D2]]. eapply (Hno v); eauto. destruct (E t v); auto. rewrite H1. auto. }
      * (* PWk1 *) inj H. destruct (l_clear o L _ A) as [X1 X2]. split.
        { intros v b. cbn [tthr now mem]. rewrite upd_other by auto. intros H. destruct (HK v b H) as [K1 [K2 [K3 K4]]]. simpl. repeat split; auto; try discriminate.
          congruence. }
        { split; cbn [tthr now]; rewrite upd_other by auto; auto. intros v b H1 H2. right; left. cbn [tthr]. apply upd_same. }
      * (* PWk2 *) inj H. simpl fold_left. split.
        { intros v b. cbn [tthr now mem]. rewrite upd_other by auto. intros H.
          assert (Hb : bo (now s) (tthr s t) = Some (v, b)) by (destruct (tthr s t); simpl in *; auto).
          destruct (HK v b Hb) as [K1 [K2 [K3 K4]]]. repeat split; auto.
          - destruct (K4 H0 H1); auto.
          - destruct (K4 H0 H1) as [Hm [c [Hc Hd]]]. exists c. split; auto. destruct Hd as [Hd|[Hd|Hd]].
            + left. eapply before_eq; [|exact Hd]. unfold flying. cbn [tthr buf]. rewrite upd_same, Et. auto.
            + right; left. destruct Hd as [D1 D2]. split; cbn [tthr buf]; auto. intros d i x e1. rewrite upd_same. discriminate.
            + congruence. }
        { split; cbn [tthr now]; rewrite upd_other by auto.
          - intros b Hb. apply G1. destruct (tthr s t); simpl in *; auto; discriminate.
          - intros v b Hb. destruct (tthr s t); discriminate. }
    + destruct (Nat.eq_dec u t) as [->|Hut].
      * (* the waiter itself *)
        assert (Hgo : forall p ev', (forall x, In x ev' -> match x with TE (EAdd _ _ _) | TE (EClear _) | TChk _ | TInf _ => False | _ => True end) ->
           (bo (now s) p = None \/ bo (now s) p = bo (now s) (tthr s t)) ->
           (forall b, infp p = Some b -> (b + S <= now s)%nat) ->
           (forall v b, p = QS v b true -> False) ->
           KK t (mkt (mem s) (buf s) (now s) (upd (tthr s) t p)) (fold_left (tr t) ev' k)).
        { intros p ev' He Hb Hi Hq.
          assert (Hk : fold_left (tr t) ev' k = k).
          { clear -He. revert k. induction ev' as [|x ev' IH]; intros k; auto. simpl.
            assert (Hx : tr t k x = k).
            { specialize (He x (or_introl eq_refl)). destruct x as [x| | | |]; simpl; auto; try contradiction. destruct x; simpl; auto; contradiction. }
            rewrite Hx. apply IH. intros y Hy. apply He. right. auto. }
          rewrite Hk. split.
          - eapply K_same; [exact HK|..]; cbn [mem buf now tthr]; auto; rewrite ?upd_same; auto. rewrite upd_other; auto.
          - split; cbn [tthr now]; rewrite upd_same; auto. intros v b H1. exfalso; eauto. }
        unfold tick in H; destruct (tthr s t) eqn:Et; destruct act; try discriminate H; unfold tgo, tset in H; brk H.
        all: try (assert (Hp : t = 0%nat) by (apply C; rewrite Et; reflexivity); contradiction).
        all: try (injection H as <- <-; apply Hgo; rewrite ?Et; simpl; auto; try discriminate; try (intros; discriminate);
                  intros x Hx; inl Hx; destruct (Nat.eqb t 0); auto; fail).
        -- (* cas *) inj H. split.
           ++ intros v1 b. cbn [tthr]. rewrite upd_same. discriminate.
           ++ split; cbn [tthr]; rewrite upd_same; discriminate.
        -- (* check *) inj H. apply Z.eqb_eq in B0. simpl. rewrite Nat.eqb_refl. split.
           ++ intros v1 b. cbn [tthr now mem]. rewrite upd_same. simpl. intros X. injection X as <- <-.
              destruct (E t v) as [_ Hv]; [rewrite Et; auto|]. destruct (l_fl o L v Hv) as [_ [X2 _]].
              repeat split; auto; try lia.
              ** rewrite B0, X2, Z.add_0_r, Z.mod_small; auto.
              ** exists (now s). split; auto.
                 destruct (flying s) as [|e0 r] eqn:Ef.
                 --- right; left. unfold flying in Ef. apply app_eq_nil in Ef. destruct Ef as [F1 F2]. apply map_eq_nil in F1. split; auto.
                     intros d i x e1. cbn [tthr]. rewrite upd_other by auto. intros X. rewrite X in F2. discriminate.
                 --- left. exists e0. split; [|apply (Y e0); rewrite Ef; left; auto].
                     unfold flying in *. cbn [tthr buf]. rewrite upd_other by auto. rewrite Ef. left. auto.
           ++ split; cbn [tthr]; rewrite upd_same; discriminate.
        -- (* backoff *) inj H. apply Hgo; simpl; auto; try (intros; discriminate); try (intros x []; fail).
           intros b1. destruct (Nat.leb_spec (n + S) (now s)); [|discriminate]. intros X. injection X as <-. auto.
        -- inj H. apply Hgo; simpl; auto; try (intros; discriminate); try (intros x []; fail).
           intros b1. destruct (Nat.leb_spec (now s + S) (now s)); [|discriminate]. intros X. injection X as <-. auto.
        -- (* sleep without deadline *) inj H. apply Z.eqb_eq in B0. simpl. rewrite Nat.eqb_refl. split.
           ++ eapply K_same; [exact HK|..]; cbn [mem buf now tthr]; auto; rewrite ?upd_same; auto. rewrite upd_other; auto. rewrite Et. auto.
           ++ split; cbn [tthr now ti]; rewrite upd_same.
              ** intros b1 X. apply G1. auto.
              ** intros v1 b1 X Hti. injection X as <- <-. apply andb_true_iff in Hti. destruct Hti as [Hc Ha]. apply negb_true_iff in Hc. apply Z.ltb_lt in Ha.
                 destruct (HK v b) as [K1 [K2 [K3 K4]]]; [rewrite Et; auto|].
                 destruct (E t v) as [_ Hv]; [rewrite Et; auto|]. destruct (l_fl o L v Hv) as [_ [X2 _]].
                 assert (Hz : ta k = 0). { apply (sum_eq v); auto. rewrite <- K3, B0. auto. }
                 destruct (K4 Hc Hz) as [Hm [c [Hcb Hd]]].
                 assert (Hbs : (b + S <= now s)%nat) by (apply G1; auto).
                 destruct Hd as [Hd|[Hd|Hd]].
                 --- exfalso. destruct Hd as [e1 [D1 D2]]. specialize (Y _ D1). lia.
                 --- right; right. destruct Hd as [D1 D2]. split; [auto|]. split; cbn [buf tthr]; auto. rewrite upd_other by auto. auto.
                 --- left. cbn [tthr]. rewrite upd_other; auto.
      * (* another waiter *)
        unfold tick in H; destruct (tthr s u) eqn:Et; destruct act; try discriminate H; unfold tgo, tset in H; brk H.
        all: try (assert (Hp : u = 0%nat) by (apply C; rewrite Et; reflexivity); contradiction).
        all: try (injection H as <- <-; apply KK_other; auto; simpl; intros x Hx; inl Hx;
                  try (destruct (Nat.eqb u 0); auto); fail).
        (* cas *)
        inj H. simpl. apply Z.eqb_eq in B2. destruct (E u v) as [_ Hv]; [rewrite Et; auto|].
        destruct (l_un o L v Hv) as [U1 [U2 U3]]. destruct (l_fl o L v Hv) as [W1 [W2 W3]].
        split.
        { intros v1 b. cbn [tthr now mem]. rewrite upd_other by auto. intros H. pose proof (bo_range _ _ _ _ I H) as Hv1.
          destruct (HK v1 b H) as [K1 [K2 [K3 K4]]]. repeat split; auto; try congruence.
          - destruct (K4 H0 H1) as [Hm _]. exfalso. rewrite B2 in Hm. revert Hm. apply un_fl; auto.
          - destruct (K4 H0 H1) as [Hm _]. exfalso. rewrite B2 in Hm. revert Hm. apply un_fl; auto. }
        { split; cbn [tthr now]; rewrite upd_other by auto; auto. intros v1 b1 H1 H2. destruct (G2 _ _ H1 H2) as [Hg|[Hg|Hg]].
          - left. cbn [tthr]. rewrite upd_other; auto.
          - right; left. cbn [tthr]. rewrite upd_other; auto.
          - exfalso. destruct Hg as [Hm _]. rewrite B2 in Hm. revert Hm. apply un_fl; auto. apply (E t v1). rewrite H1. auto. }
  - (* flush *) cbn [tstep] in H. destruct (buf s) as [|[[w d] e0] r] eqn:Eb; [discriminate H|]. inj H. simpl in B. destruct B as [B1 [B2 [B3 B4]]]. simpl. split.
    + intros v b H. simpl in H. destruct (HK v b H) as [K1 [K2 [K3 K4]]]. simpl. repeat split; auto; try lia.
      rewrite B3, K3, Z.add_mod_idemp_l by (pose proof (l_M o L); lia). f_equal. lia.
    + split; simpl; auto. intros v b H1 H2. destruct (G2 v b H1 H2) as [Hg|[Hg|Hg]]; [left; auto|right; left; auto|].
      destruct Hg as [_ [Hg _]]. congruence.
  - (* clock *) cbn [tstep] in H. brk H. inj H. simpl. split.
    + intros v b H. simpl in H.
      assert (Hb : exists b', bo (now s) (tthr s t) = Some (v, b') /\ (b' <= b <= 1 + now s)%nat).
      { assert (Hle : forall v b, bo (now s) (tthr s t) = Some (v, b) -> (b <= now s)%nat) by (intros v1 b1 X; apply (HK v1 b1 X)).
        destruct (tthr s t) as [| | | | | | | | | | | |v1 [b1|]| | | |]; simpl in H; try discriminate; injection H as <- <-; simpl;
          (eexists; split; [reflexivity|]); specialize (Hle _ _ eq_refl); lia. }
      destruct Hb as [b' [Hb1 Hb2]]. destruct (HK v b' Hb1) as [K1 [K2 [K3 K4]]]. simpl. repeat split; auto; try lia.
      * destruct (K4 H0 H1); auto.
      * destruct (K4 H0 H1) as [_ [c [Hc Hd]]]. exists c. split; [lia|]. exact Hd.
    + split; simpl.
      * intros b Hb. specialize (G1 b Hb). lia.
      * intros v b H1 H2. exact (G2 v b H1 H2).
Qed.

Lemma tr_mid : forall t l2 k, ~ In (TChk t) l2 -> (forall u, ~ In (TE (EClear u)) l2) -> tc k = false ->
  tc (fold_left (tr t) l2 k) = false /\ ta (fold_left (tr t) l2 k) = ta k + fold_right Z.add 0 (map fst (arrived l2)).
Proof.
  intros t. induction l2 as [|x l2 IH]; intros k H1 H2 H3; simpl; [split; auto; lia|].
  assert (Hx : tc (tr t k x) = false /\ ta (tr t k x) = ta k + match x with TE (EAdd _ d _) => d | _ => 0 end).
  { destruct x as [x|d old|v|u|u]; simpl; try (split; auto; lia).
    - destruct x; simpl; try (split; auto; lia). exfalso. apply (H2 t0). left. auto.
    - destruct (Nat.eqb_spec u t); simpl; try (split; auto; lia). subst. exfalso. apply H1. left. auto.
    - destruct (Nat.eqb_spec u t); simpl; split; auto; lia. }
  destruct Hx as [X1 X2].
  destruct (IH (tr t k x)) as [Y1 Y2]; auto.
  { intros X. apply H1. right. auto. }
  { intros u X. apply (H2 u). right. auto. }
  split; auto. rewrite Y2, X2. destruct x as [x|d old|v|u|u]; simpl; try lia. destruct x; simpl; lia.
Qed.

Lemma tr_end : forall t l3 k, ~ In (TInf t) l3 -> ti (fold_left (tr t) l3 k) = ti k.
Proof.
  intros t. induction l3 as [|x l3 IH]; intros k H; simpl; auto. rewrite IH by (intros X; apply H; right; auto).
  destruct x as [x|d old|v|u|u]; simpl; auto.
  - destruct x; auto.
  - destruct (Nat.eqb u t); auto.
  - destruct (Nat.eqb_spec u t); auto. subst. exfalso. apply H. left. auto.
Qed.

Lemma calm_ti : forall t log, calm (M o) t log -> ti (track t log) = true.
Proof.
  intros t log [l1 [l2 [l3 [-> [H1 [H2 [H3 H4]]]]]]]. rewrite track_app. simpl. rewrite Nat.eqb_refl, fold_left_app. simpl. rewrite Nat.eqb_refl.
  rewrite tr_end by auto. simpl.
  destruct (tr_mid t l2 {| ta := 0; tc := false; ti := ti (track t l1) |} H1 H2 eq_refl) as [X1 X2]. rewrite X1, X2. simpl.
  apply Z.ltb_lt in H3. exact H3.
Qed.

Lemma all_run : forall v0 ls s log, 0 <= v0 < M o -> run (tstep o D S) (tinit o v0) ls = Some (s, log) ->
  Ib s /\ young s /\ forall t, t <> 0%nat -> KK t s (track t log).
Proof.
  intros v0 ls s log Hv H.
  eapply (run_inv (tstep o D S) (fun s log => Ib s /\ young s /\ forall t, t <> 0%nat -> KK t s (track t log))); [| |exact H].
  - split; [apply Ib_init; auto|]. split.
    + intros e []. 
    + intros t Ht. split; [|split]; intros v; simpl; discriminate.
  - intros s1 l1 l s2 e [I [Y HK]] Hs. split; [eapply Ib_step; eauto|]. split; [eapply young_step; eauto|].
    intros t Ht. rewrite track_app. eapply KK_step; eauto.
Qed.

Lemma flush_run : forall b m n th, exists log, run (tstep o D S) (mkt m b n th) (repeat LFlush (length b)) = Some (mkt (vw m b) [] n th, log).
Proof.
  induction b as [|[[w d] e] b IH]; intros m n th; [eexists; reflexivity|].
  destruct (IH w n th) as [log Hl]. rewrite vw_cons. cbn [length repeat]. eexists.
  eapply run_cons; [reflexivity|exact Hl].
Qed.

Lemma wk2_run : forall s, tthr s 0%nat = PWk2 -> exists s' log, run (tstep o D S) s [LT 0%nat TTick] = Some (s', log) /\ forall t v b i, tthr s' t <> QS v b i.
Proof.
  intros s H. eexists. eexists. split.
  - eapply run_cons; [cbn [tstep]; unfold tick; rewrite H; reflexivity|reflexivity].
  - intros t v b i. cbn [tthr]. destruct (Nat.eq_dec t 0) as [->|Hn].
    + rewrite upd_same. discriminate.
    + rewrite upd_other by auto. destruct (tthr s t); discriminate.
Qed.

Lemma no_lost : forall v0 ls s log, 0 <= v0 < M o -> run (tstep o D S) (tinit o v0) ls = Some (s, log) ->
  forall t v b, tthr s t = QS v b true -> calm (M o) t log -> wval o (view s) <> v ->
  exists ls' s' log', run (tstep o D S) s ls' = Some (s', log') /\ (forall l, In l ls' -> l = LFlush \/ l = LT 0%nat TTick) /\
    forall t v b i, tthr s' t <> QS v b i.
Proof.
  intros v0 ls s log Hv H t v b Ht Hc Hn. destruct (all_run _ _ _ _ Hv H) as [I [Y HK]].
  destruct (b_wait s I t v) as [Ht0 Hvr]; [rewrite Ht; auto|]. destruct (HK t Ht0) as [_ [_ G2]].
  destruct (G2 v b Ht (calm_ti _ _ Hc)) as [Hg|[Hg|[Hg [Hg2 _]]]].
  - destruct (flush_run (buf s) (mem s) (now s) (tthr s)) as [l1 H1].
    assert (H2 : run (tstep o D S) (mkt (vw (mem s) (buf s)) [] (now s) (tthr s)) [LT 0%nat TTick] =
      Some (mkt (wclear o (vw (mem s) (buf s))) [] (now s) (upd (tthr s) 0%nat PWk2), [TE (EClear 0%nat)])).
    { change [TE (EClear 0%nat)] with ([TE (EClear 0%nat)] ++ []). eapply run_cons; [cbn [tstep]; unfold tick; cbn [tthr]; rewrite Hg; reflexivity|reflexivity]. }
    destruct (wk2_run (mkt (wclear o (vw (mem s) (buf s))) [] (now s) (upd (tthr s) 0%nat PWk2))) as [s3 [l3 [H3 H4]]]; [cbn [tthr]; apply upd_same|].
    exists (repeat LFlush (length (buf s)) ++ [LT 0%nat TTick] ++ [LT 0%nat TTick]). eexists. eexists. split; [|split; [|exact H4]].
    + eapply run_app; [destruct s; exact H1|]. eapply run_app; [exact H2|exact H3].
    + intros l Hl. apply in_app_iff in Hl. destruct Hl as [Hl|Hl]; [apply repeat_spec in Hl; auto|].
      simpl in Hl. intuition.
  - destruct (wk2_run s Hg) as [s3 [l3 [H3 H4]]]. exists [LT 0%nat TTick]. eexists. eexists. split; [exact H3|]. split; [|exact H4].
    intros l [<-|[]]. auto.
  - exfalso. apply Hn. rewrite view_vw, Hg2, Hg. apply (l_fl o L v Hvr).
Qed.
End P.

(** * A lost wake-up *)
Lemma clock_run : forall o D S n s, flying s = [] ->
  run (tstep o D S) s (repeat LClock n) = Some (mkt (mem s) (buf s) (n + now s) (tthr s), []).
Proof.
  induction n as [|n IH]; intros s H; [destruct s; reflexivity|].
  cbn [repeat]. change (@nil tev) with (@nil tev ++ []). eapply run_cons; [cbn [tstep]; rewrite H; reflexivity|].
  rewrite IH by exact H. cbn [mem buf now tthr].
  replace (n + (1 + now s))%nat with (Datatypes.S n + now s)%nat by lia. reflexivity.
Qed.

Definition lost1 : list tlab :=
  [LT 3 (TWait 0); LT 3 TTick; LT 3 TTick; LT 3 TTick; LT 3 TStop; LT 3 TTick;
   LT 0 TInc; LT 0 TTick; LT 0 TTick; LFlush; LT 3 TTick;
   LT 1 (TWait 1); LT 1 TTick; LT 1 TTick; LT 1 TTick; LT 1 TStop; LT 1 TTick; LT 1 TStop; LT 1 TTick; LT 1 TTick]%nat.
Definition lost2 : list tlab :=
  [LT 0 TTick; LT 0 TTick; LT 0 TInc; LT 0 TTick;
   LT 2 (TWait 1); LT 2 TTick; LT 2 TTick; LT 2 TTick; LT 2 TStop; LT 2 TTick;
   LT 1 TTick; LT 1 TTick; LT 1 TTick; LT 0 TTick; LFlush; LT 2 TTick]%nat.

Lemma lost : forall w D S, exists ls s log b,
  run (tstep (ops w) D S) (tinit (ops w) 0) ls = Some (s, log) /\
  tthr s 1%nat = QS 1 b true /\ wval (ops w) (mem s) = 2 /\ buf s = [] /\ forall t, t <> 1%nat -> tthr s t = PIdle.
Proof.
  intros w D S.
  assert (H1 : exists s1 l1, run (tstep (ops w) D S) (tinit (ops w) 0) lost1 = Some (s1, l1) /\ flying s1 = [] /\ now s1 = 0%nat).
  { destruct w; (eexists; eexists; split; [vm_compute; reflexivity|]; split; reflexivity). }
  assert (E1 : forall s1 l1, run (tstep (ops w) D S) (tinit (ops w) 0) lost1 = Some (s1, l1) ->
     exists s2 l2, run (tstep (ops w) D S) (mkt (mem s1) (buf s1) S (tthr s1)) lost2 = Some (s2, l2) /\
       tthr s2 1%nat = QS 1 0 (Nat.leb S S) /\ wval (ops w) (mem s2) = 2 /\ buf s2 = [] /\ forall t, t <> 1%nat -> tthr s2 t = PIdle).
  { intros s1 l1 H. destruct w; vm_compute in H; injection H as <- <-.
    all: eexists; eexists; split; [vm_compute; reflexivity|]; split; [reflexivity|]; split; [reflexivity|]; split; [reflexivity|].
    all: intros t Ht; destruct t as [|[|[|[|t]]]]; try reflexivity; congruence. }
  destruct H1 as [s1 [l1 [H1 [F1 N1]]]]. destruct (E1 _ _ H1) as [s2 [l2 [H2 [T [V [B I]]]]]].
  exists (lost1 ++ repeat LClock S ++ lost2), s2. eexists. exists 0%nat. rewrite Nat.leb_refl in T. split; [|auto].
  eapply run_app; [exact H1|]. eapply run_app; [apply clock_run; auto|]. rewrite N1, Nat.add_0_r. exact H2.
Qed.

(** * For the two widths *)
Lemma pend_len : forall o b v, length (pend o v b) = length b.
Proof. induction b as [|[[w d] e] b IH]; intros; simpl; auto. Qed.

Lemma tso_counts_all : forall w D S v0 ls s log, 0 <= v0 < M (ops w) ->
  run (tstep (ops w) D S) (tinit (ops w) v0) ls = Some (s, log) ->
  counts (M (ops w)) v0 (seen log) /\ (exists v, accepts (own_step (M (ops w))) v0 log = Some v) /\
  exists rest, issued log = arrived log ++ rest /\ length rest = length (buf s).
Proof.
  intros w D S v0 ls s log Hv H. destruct (Ic_run _ (laws_ops w) D S _ _ _ _ Hv H) as [_ [H1 [H2 H3]]].
  split; [eexists; exact H1|]. split; [eexists; exact H2|]. eexists. split; [exact H3|]. apply pend_len.
Qed.

Lemma tso_wait_all : forall w D S v0 ls s log, 0 <= v0 < M (ops w) ->
  run (tstep (ops w) D S) (tinit (ops w) v0) ls = Some (s, log) -> wait_truthful (M (ops w)) true v0 (seen log).
Proof. intros w D S v0 ls s log Hv H. eapply Rw_run; eauto. apply laws_ops. Qed.

Lemma tso_no_lost_all : forall w D S v0 ls s log, (D < S)%nat -> 0 <= v0 < M (ops w) ->
  run (tstep (ops w) D S) (tinit (ops w) v0) ls = Some (s, log) ->
  forall t v b, tthr s t = QS v b true -> calm (M (ops w)) t log -> wval (ops w) (view s) <> v ->
  exists ls' s' log', run (tstep (ops w) D S) s ls' = Some (s', log') /\ (forall l, In l ls' -> l = LFlush \/ l = LT 0%nat TTick) /\
    forall t v b i, tthr s' t <> QS v b i.
Proof. intros w D S v0 ls s log HD Hv H. eapply no_lost; eauto. apply laws_ops. Qed.
