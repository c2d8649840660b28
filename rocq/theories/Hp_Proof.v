(** Proofs about hazard pointers, part 1: ownership of records and the list of subscribers. *)
From Coq Require Import NArith Arith List Bool Lia.
From Verif Require Import Lib Obs Hp_Model Hp_Spec.
Import ListNotations.

(** ** Reachability along a linked list *)
Inductive reach (nx : nat -> nat) : nat -> nat -> Prop :=
| reach_here : forall a, a <> 0 -> reach nx a a
| reach_step : forall a b, a <> 0 -> reach nx (nx a) b -> reach nx a b.

Lemma reach_nz : forall nx a b, reach nx a b -> a <> 0 /\ b <> 0.
Proof. induction 1; tauto. Qed.
Lemma reach_trans : forall nx a b c, reach nx a b -> reach nx b c -> reach nx a c.
Proof. induction 1; intros; auto. apply reach_step; auto. Qed.
Lemma reach_inv : forall nx a b, reach nx a b -> a = b \/ reach nx (nx a) b.
Proof. inversion 1; auto. Qed.
Lemma reach_next : forall nx a e, reach nx a e -> nx e <> 0 -> reach nx a (nx e).
Proof. intros. eapply reach_trans; eauto. apply reach_step; [eapply reach_nz; eauto|]. apply reach_here; auto. Qed.
Lemma reach_upd1 : forall nx r v a b, reach nx a b -> ~ reach nx a r -> reach (upd nx r v) a b.
Proof.
  induction 1; intros N; [apply reach_here; auto|].
  apply reach_step; auto. assert (a <> r) by (intros ->; apply N; apply reach_here; auto).
  rewrite upd_other by auto. apply IHreach. intro. apply N. apply reach_step; auto.
Qed.
Lemma reach_upd2 : forall nx r v a b, reach (upd nx r v) a b -> ~ reach nx a r -> reach nx a b.
Proof.
  induction 1; intros N; [apply reach_here; auto|].
  assert (a <> r) by (intros ->; apply N; apply reach_here; auto).
  rewrite upd_other in IHreach by auto. apply reach_step; auto. apply IHreach. intro. apply N. apply reach_step; auto.
Qed.

(** the record a thread is working with *)
Definition uses (p : pc) : option nat :=
  match p with
  | Clr r _ | Rt1 _ r _ _ _ | Rt2 _ r _ _ _ | Rt3 _ r _ | Rt4 _ r _ | Rt5 _ r | Rt6 r | Mc1 r _ | Mc2 r _ _ _ | Mc3 r _ _ _ _ | Mc4 r _ _ _ | Pu1 r => Some r
  | Lp0 x | Lp1 x | Ms1 x _ | Ms2 x _ _ | Ms3 x _ | De1 x | De2 x | De3 x | De4 x => Some (xr x)
  | _ => None
  end.
(** the record a thread is registering or giving up *)
Definition claim (p : pc) : option nat :=
  match p with Reg1 r | Reg2 r _ | Reg3 r _ | Reg4 r | Un1 r => Some r | _ => None end.
Definition frsh (p : pc) : option nat :=
  match p with Reg1 r | Reg2 r _ | Reg3 r _ => Some r | _ => None end.
(** positions in the list of subscribers: the cursor of a walk, and positions that may be NULL *)
Definition curs (p : pc) : option nat :=
  match p with
  | Rcy3 e | Rcy4 e | Rcy6 e | Mc2 _ _ _ e | Mc3 _ _ _ e _ | Mc4 _ _ _ e | Ms1 _ e | Ms2 _ e _ | Ms3 _ e => Some e
  | _ => None
  end.
Definition mark (p : pc) : nat :=
  match p with
  | Reg2 _ h | Reg3 _ h => h
  | Ms1 x _ | Ms2 x _ _ | Ms3 x _ | Lp0 x | Lp1 x | De1 x | De2 x | De3 x | De4 x => xm x
  | _ => 0
  end.

Record IA (s : st) : Prop := {
  a_own : forall r u, own s r = Some u -> reg s r = true /\ rfree s r = false;
  a_use : forall u r, uses (pcs s u) = Some r -> own s r = Some u;
  a_clm : forall u r, claim (pcs s u) = Some r -> own s r = None /\ rfree s r = false /\ reg s r = true;
  a_cu : forall u v r, claim (pcs s u) = Some r -> claim (pcs s v) = Some r -> u = v;
  a_fre : forall u r, frsh (pcs s u) = Some r -> ~ reach (snext s) (shead s) r;
  a_sub : forall r, reg s r = true -> (exists u, frsh (pcs s u) = Some r) \/ reach (snext s) (shead s) r;
  a_cur : forall u e, curs (pcs s u) = Some e -> reach (snext s) (shead s) e;
  a_mk : forall u, mark (pcs s u) <> 0 -> reach (snext s) (shead s) (mark (pcs s u));
  a_r3 : forall u r h, pcs s u = Reg3 r h -> snext s r = h;
  a_rg : forall r, reg s r = false -> ~ reach (snext s) (shead s) r;
  a_f : forall r, rfree s r = true -> reg s r = true;
  a_z : reg s 0 = false }.

Lemma IA_init : IA init.
Proof. constructor; cbn; try discriminate; try tauto; auto. intros r H C. apply reach_nz in C. tauto. Qed.

Lemma frsh_claim : forall p r, frsh p = Some r -> claim p = Some r.
Proof. destruct p; cbn; congruence. Qed.

Lemma IA_keep : forall s s' t p', IA s ->
  (forall r, own s' r = own s r) -> (forall r, reg s' r = reg s r) -> (forall r, rfree s' r = rfree s r) ->
  snext s' = snext s -> shead s' = shead s -> (forall u, pcs s' u = upd (pcs s) t p' u) ->
  (forall r, uses p' = Some r -> own s r = Some t) -> claim p' = claim (pcs s t) -> frsh p' = frsh (pcs s t) ->
  (forall e, curs p' = Some e -> reach (snext s) (shead s) e) -> (mark p' <> 0 -> reach (snext s) (shead s) (mark p')) -> (forall r h, p' = Reg3 r h -> snext s r = h) -> IA s'.
Proof.
  intros s s' t p' I Ho Hr Hf Hn Hh Hp Hu Hc Hfr Hcu Hmk H3.
  assert (Pt : pcs s' t = p') by (rewrite Hp, upd_same; auto).
  assert (Po : forall u, u <> t -> pcs s' u = pcs s u) by (intros; rewrite Hp, upd_other; auto).
  assert (C : forall u, claim (pcs s' u) = claim (pcs s u)) by (intros u; destruct (Nat.eq_dec u t) as [->|]; [rewrite Pt; auto|rewrite Po; auto]).
  assert (F : forall u, frsh (pcs s' u) = frsh (pcs s u)) by (intros u; destruct (Nat.eq_dec u t) as [->|]; [rewrite Pt; auto|rewrite Po; auto]).
  constructor; intros; try rewrite Ho in *; try rewrite Hr in *; try rewrite Hf in *; try rewrite Hn in *; try rewrite Hh in *; try rewrite C in *; try rewrite F in *.
  - eapply a_own; eauto.
  - destruct (Nat.eq_dec u t) as [->|ne]; [rewrite Pt in *; auto|rewrite Po in * by auto; eapply a_use; eauto].
  - eapply a_clm; eauto.
  - eapply (a_cu s I u v r); congruence.
  - eapply a_fre; eauto.
  - destruct (a_sub s I r H) as [[u U]|]; auto. left. exists u. rewrite F. auto.
  - destruct (Nat.eq_dec u t) as [->|ne]; [rewrite Pt in *; auto|rewrite Po in * by auto; eapply a_cur; eauto].
  - destruct (Nat.eq_dec u t) as [->|ne]; [rewrite Pt in *; auto|rewrite Po in * by auto; eapply a_mk; eauto].
  - destruct (Nat.eq_dec u t) as [->|ne]; [rewrite Pt in *; auto|rewrite Po in * by auto; eapply a_r3; eauto].
  - eapply a_rg; eauto.
  - eapply a_f; eauto.
  - eapply a_z; eauto.
Qed.

Ltac brk H :=
  match type of H with
  | (if ?b then _ else _) = _ => let E := fresh "E" in destruct b eqn:E; try discriminate H
  | match ?x with _ => _ end = _ => let E := fresh "E" in destruct x eqn:E; try discriminate H
  end.
Ltac sfold := cbn [shead snext nsub nfree thr rfree hz pfirst pnext hptr hdat npend npeak nrecl own reg out pcs
  go s_subs s_free s_thr s_hz s_pend s_desc s_cnt s_own s_reg s_out] in *.
Lemma mine_own : forall s t r, mine s t r = true -> own s r = Some t.
Proof. unfold mine. intros s t r H. destruct (own s r); try discriminate. apply Nat.eqb_eq in H. congruence. Qed.

Ltac rfe := match goal with E : rfree ?s ?e = false |- _ => intros r0; cbn; unfold upd; destruct (Nat.eq_dec r0 e) as [->|]; auto end.
Ltac sfg := cbn [shead snext nsub nfree thr rfree hz pfirst pnext hptr hdat npend npeak nrecl own reg out pcs
  go s_subs s_free s_thr s_hz s_pend s_desc s_cnt s_own s_reg s_out].
Ltac pd := match goal with |- context [upd _ ?t _ ?u] => destruct (Nat.eq_dec u t) as [->|]; [rewrite ?upd_same in *|rewrite ?upd_other in * by auto] end.
Ltac pdi := repeat pd; cbn [uses claim frsh curs mark]; intros; try discriminate; auto.
(** a step that only moves [t] *)
Ltac ik s t I P0 U0 K0 M0 :=
  match goal with |- IA (go _ t ?p) =>
    apply (IA_keep s _ t p I); [intros; reflexivity|intros; reflexivity|first [intros; reflexivity|rfe]|reflexivity|reflexivity|intros; reflexivity|..];
      rewrite ?P0; cbn [uses claim frsh curs mark xr x_ent x_nxt xm ctx] end;
  [first [discriminate | intros r0 R0; apply U0; auto; fail]
  |reflexivity|reflexivity
  |first [discriminate | intros e0 [= <-]; first [apply K0; auto; fail | apply reach_here; apply Nat.eqb_neq; auto; fail | apply reach_next; [apply K0; auto|apply Nat.eqb_neq; auto]; fail | apply M0; apply Nat.eqb_neq; auto; fail]]
  |first [intros Ne; exfalso; apply Ne; reflexivity | exact M0 | intros Ne; apply reach_here; auto; fail | intros Ne; apply K0; auto; fail | intros Ne; apply M0; apply Nat.eqb_neq; auto]
  |discriminate].

Lemma tick_IA : forall c s t s' ev, IA s -> tick c s t = Some (s', ev) -> IA s'.
Proof.
  intros c s t s' ev I H. unfold tick in H.
  pose proof (a_use s I t) as U0. pose proof (a_clm s I t) as C0. pose proof (a_cur s I t) as K0. pose proof (a_mk s I t) as M0.
  destruct (pcs s t) eqn:P0; try discriminate H; cbn [uses claim curs mark] in U0, C0, K0, M0;
    try match goal with x : rcx |- _ => destruct x as [xr0 xk0 xC0 xm0 xp0 xe0 xn0]; cbn [xr xk xC xm xp xe xn x_nxt x_ent] in H, U0, C0, K0, M0; unfold after in H; cbn [xr xk] in H end;
    try match type of H with context [if ?f then Rt6 _ else _] => destruct f end;
    try match type of H with context [match ?k with KRecl => _ | KFree => _ | KPurge => _ end] => destruct k end;
    try match type of H with context [if ?a =? 0 then s_pend _ _ _ else _] => destruct (a =? 0) end;
    repeat brk H; injection H as <- <-;
    try (ik s t I P0 U0 K0 M0; fail).
  - (* Reg2 *)
    pose proof (a_fre s I t r) as F0. rewrite P0 in F0. specialize (F0 eq_refl).
    assert (Q : forall b, reach (upd (snext s) r h) (shead s) b <-> reach (snext s) (shead s) b)
      by (intros b; split; intro X; [eapply reach_upd2; eauto|apply reach_upd1; auto]).
    assert (CE : forall u, claim (upd (pcs s) t (Reg3 r h) u) = claim (pcs s u)) by (intros u; pd; auto; rewrite P0; auto).
    assert (FE : forall u, frsh (upd (pcs s) t (Reg3 r h) u) = frsh (pcs s u)) by (intros u; pd; auto; rewrite P0; auto).
    constructor; sfg; intros *; rewrite ?CE, ?FE, ?Q.
    + apply (a_own s I).
    + pd; [discriminate|apply (a_use s I)].
    + apply (a_clm s I).
    + apply (a_cu s I).
    + apply (a_fre s I).
    + intros R. destruct (a_sub s I r0 R) as [[u U]|X]; auto. left. exists u. rewrite FE. auto.
    + pd; [discriminate|apply (a_cur s I)].
    + pd; [exact M0|apply (a_mk s I)].
    + pd; [intros [= -> ->]; apply upd_same|]. intros U. rewrite upd_other; [eapply a_r3; eauto|].
      intros ->. apply n. eapply (a_cu s I u t r); [rewrite U|rewrite P0]; auto.
    + apply (a_rg s I).
    + apply (a_f s I).
    + apply (a_z s I).
  - (* Reg3 *)
    apply Nat.eqb_eq in E. pose proof (a_r3 s I t r h P0) as R3.
    pose proof (a_fre s I t r) as F0. rewrite P0 in F0. specialize (F0 eq_refl).
    destruct (C0 r eq_refl) as [C1 [C2 C3]].
    assert (Nz : r <> 0) by (intros ->; rewrite (a_z s I) in C3; discriminate).
    assert (Q : forall b, reach (snext s) r b <-> b = r \/ reach (snext s) (shead s) b).
    { intros b. split; intro X.
      - apply reach_inv in X. destruct X as [X|X]; auto. right. rewrite R3 in X. congruence.
      - destruct X as [->|X]; [apply reach_here; auto|]. apply reach_step; auto. congruence. }
    assert (CE : forall u, claim (upd (pcs s) t (Reg4 r) u) = claim (pcs s u)) by (intros u; pd; auto; rewrite P0; auto).
    constructor; sfg; intros *; rewrite ?CE, ?Q.
    + apply (a_own s I).
    + pd; [discriminate|apply (a_use s I)].
    + apply (a_clm s I).
    + apply (a_cu s I).
    + pd; [discriminate|]. intros U [->|X]; [|eapply a_fre; eauto]. apply n. eapply (a_cu s I u t r); [apply frsh_claim; auto|rewrite P0]; auto.
    + intros R. destruct (Nat.eq_dec r0 r); auto. destruct (a_sub s I r0 R) as [[u U]|X]; auto. left. exists u. pd; auto. rewrite P0 in U. cbn in U. congruence.
    + pd; [discriminate|]. intros U. right. eapply a_cur; eauto.
    + pd; [tauto|]. intros U. right. eapply a_mk; eauto.
    + pd; [discriminate|apply (a_r3 s I)].
    + intros R [->|X]; [congruence|eapply a_rg; eauto].
    + apply (a_f s I).
    + apply (a_z s I).
  - (* Reg4 *)
    destruct (C0 r eq_refl) as [C1 [C2 C3]].
    assert (CE : forall u r', claim (upd (pcs s) t Idle u) = Some r' -> u <> t /\ r' <> r /\ claim (pcs s u) = Some r').
    { intros u r'. pd; [discriminate|]. intros X. repeat split; auto. intros ->. apply n. eapply (a_cu s I u t r); auto. rewrite P0; auto. }
    constructor; sfg; intros *.
    + pd; auto. apply (a_own s I).
    + pd; [discriminate|]. intros U. apply (a_use s I) in U. rewrite upd_other; auto. congruence.
    + intros X. apply CE in X. destruct X as [? [? X]]. rewrite upd_other by auto. eapply a_clm; eauto.
    + intros X Y. apply CE in X. apply CE in Y. destruct X as [? [? X]], Y as [? [? Y]]. exact (a_cu s I _ _ _ X Y).
    + pd; [discriminate|apply (a_fre s I)].
    + intros R. destruct (a_sub s I r0 R) as [[u U]|X]; auto. left. exists u. pd; auto. rewrite P0 in U. discriminate.
    + pd; [discriminate|apply (a_cur s I)].
    + pd; [tauto|apply (a_mk s I)].
    + pd; [discriminate|apply (a_r3 s I)].
    + apply (a_rg s I).
    + apply (a_f s I).
    + apply (a_z s I).
  - (* Rcy4 *)
    pose proof (a_f s I _ E) as Rg.
    assert (On : own s e = None) by (destruct (own s e) eqn:O; auto; apply (a_own s I) in O; destruct O; congruence).
    assert (CE : forall u r', claim (upd (pcs s) t (Rcy5 e) u) = Some r' -> u <> t /\ r' <> e /\ claim (pcs s u) = Some r').
    { intros u r'. pd; [discriminate|]. intros X. repeat split; auto. intros ->. apply (a_clm s I) in X. destruct X as [_ [X _]]. congruence. }
    constructor; sfg; intros *.
    + destruct (Nat.eq_dec r e) as [->|ne]; [rewrite !upd_same; auto|rewrite !upd_other by auto; apply (a_own s I)].
    + pd; [discriminate|]. intros U. apply (a_use s I) in U. rewrite upd_other; auto. congruence.
    + intros X. apply CE in X. destruct X as [? [? X]]. rewrite !upd_other by auto. eapply a_clm; eauto.
    + intros X Y. apply CE in X. apply CE in Y. destruct X as [? [? X]], Y as [? [? Y]]. exact (a_cu s I _ _ _ X Y).
    + pd; [discriminate|apply (a_fre s I)].
    + intros R. destruct (a_sub s I r R) as [[u U]|X]; auto. left. exists u. pd; auto. rewrite P0 in U. discriminate.
    + pd; [discriminate|apply (a_cur s I)].
    + pd; [tauto|apply (a_mk s I)].
    + pd; [discriminate|apply (a_r3 s I)].
    + apply (a_rg s I).
    + destruct (Nat.eq_dec r e) as [->|ne]; [rewrite upd_same; discriminate|rewrite upd_other by auto; apply (a_f s I)].
    + apply (a_z s I).
  - (* Un1 *)
    destruct (C0 r eq_refl) as [C1 [C2 C3]].
    assert (CE : forall u r', claim (upd (pcs s) t (Un2 r) u) = Some r' -> u <> t /\ r' <> r /\ claim (pcs s u) = Some r').
    { intros u r'. pd; [discriminate|]. intros X. repeat split; auto. intros ->. apply n. eapply (a_cu s I u t r); auto. rewrite P0; auto. }
    constructor; sfg; intros *.
    + intros O. rewrite upd_other by congruence. eapply a_own; eauto.
    + pd; [discriminate|apply (a_use s I)].
    + intros X. apply CE in X. destruct X as [? [? X]]. rewrite !upd_other by auto. eapply a_clm; eauto.
    + intros X Y. apply CE in X. apply CE in Y. destruct X as [? [? X]], Y as [? [? Y]]. exact (a_cu s I _ _ _ X Y).
    + pd; [discriminate|apply (a_fre s I)].
    + intros R. destruct (a_sub s I r0 R) as [[u U]|X]; auto. left. exists u. pd; auto. rewrite P0 in U. discriminate.
    + pd; [discriminate|apply (a_cur s I)].
    + pd; [tauto|apply (a_mk s I)].
    + pd; [discriminate|apply (a_r3 s I)].
    + apply (a_rg s I).
    + destruct (Nat.eq_dec r0 r) as [->|ne]; auto. rewrite upd_other by auto. apply (a_f s I).
    + apply (a_z s I).
Qed.

Lemma call_IA : forall c s t a s' ev, IA s -> pcs s t = Idle -> call c s t a = Some (s', ev) -> IA s'.
Proof.
  intros c s t a s' ev I P0 H. unfold call in H.
  destruct a; repeat brk H; try discriminate H; injection H as <- <-;
    repeat match goal with E : _ && _ = true |- _ => apply andb_prop in E; destruct E end;
    try match goal with E : mine _ _ _ = true |- _ => apply mine_own in E end;
    try (match goal with |- IA (go _ t ?p) =>
      apply (IA_keep s _ t p I); [intros; reflexivity|intros; reflexivity|intros; reflexivity|reflexivity|reflexivity|intros; reflexivity|..]; rewrite ?P0;
        cbn [uses claim frsh curs mark]; try reflexivity; try discriminate; try tauto; intros ? [= <-]; auto end; fail);
    try (apply (IA_keep s _ t (pcs s t) I);
         [intros; reflexivity|intros; reflexivity|intros; reflexivity|reflexivity|reflexivity|intros u; sfg; pd; auto|..]; rewrite ?P0; cbn; try tauto; try discriminate; fail).
  - (* register *)
    apply orb_false_iff in E. destruct E as [Z Rg]. apply Nat.eqb_neq in Z.
    assert (On : own s r = None) by (destruct (own s r) eqn:O; auto; apply (a_own s I) in O; destruct O; congruence).
    assert (CE : forall u r', claim (pcs s u) = Some r' -> u <> t /\ r' <> r).
    { intros u r' X. split; [intros ->; rewrite P0 in X; discriminate|]. intros ->. apply (a_clm s I) in X. destruct X as [_ [_ X]]. congruence. }
    constructor; sfg; intros *.
    + intros O. assert (r0 <> r) by congruence. rewrite !upd_other by auto. eapply a_own; eauto.
    + pd; [discriminate|apply (a_use s I)].
    + pd; cbn [claim]; [intros [= <-]; rewrite !upd_same; auto|]. intros X. pose proof (CE _ _ X) as [? ?]. rewrite !upd_other by auto. eapply a_clm; eauto.
    + pd; pd; cbn [claim]; auto.
      * intros [= <-] X. apply CE in X. tauto.
      * intros X [= <-]. apply CE in X. tauto.
      * apply (a_cu s I).
    + pd; cbn [frsh]; [intros [= <-]; apply (a_rg s I); auto|apply (a_fre s I)].
    + destruct (Nat.eq_dec r0 r) as [->|ne]; [left; exists t; rewrite upd_same; auto|]. rewrite upd_other by auto.
      intros R. destruct (a_sub s I r0 R) as [[u U]|X]; auto. left. exists u. pd; auto. rewrite P0 in U. discriminate.
    + pd; [discriminate|apply (a_cur s I)].
    + pd; [cbn; tauto|apply (a_mk s I)].
    + pd; [discriminate|apply (a_r3 s I)].
    + destruct (Nat.eq_dec r0 r) as [->|ne]; [rewrite upd_same; discriminate|]. rewrite upd_other by auto. apply (a_rg s I).
    + destruct (Nat.eq_dec r0 r) as [->|ne]; [rewrite upd_same; discriminate|]. rewrite !upd_other by auto. apply (a_f s I).
    + rewrite upd_other by auto. apply (a_z s I).
  - (* unregister *)
    destruct (a_own s I _ _ E) as [Rg Rf].
    assert (CE : forall u r', claim (pcs s u) = Some r' -> u <> t /\ r' <> r).
    { intros u r' X. split; [intros ->; rewrite P0 in X; discriminate|]. intros ->. apply (a_clm s I) in X. destruct X as [X _]. congruence. }
    constructor; sfg; intros *.
    + intros O. assert (r0 <> r) by (intros ->; rewrite upd_same in O; discriminate). rewrite upd_other in O by auto. eapply a_own; eauto.
    + pd; [discriminate|]. intros U. apply (a_use s I) in U. rewrite upd_other; auto. congruence.
    + pd; cbn [claim]; [intros [= <-]; rewrite !upd_same; auto|]. intros X. pose proof (CE _ _ X) as [? ?]. rewrite !upd_other by auto. eapply a_clm; eauto.
    + pd; pd; cbn [claim]; auto.
      * intros [= <-] X. apply CE in X. tauto.
      * intros X [= <-]. apply CE in X. tauto.
      * apply (a_cu s I).
    + pd; [discriminate|apply (a_fre s I)].
    + intros R. destruct (a_sub s I r0 R) as [[u U]|X]; auto. left. exists u. pd; auto. rewrite P0 in U. discriminate.
    + pd; [discriminate|apply (a_cur s I)].
    + pd; [cbn; tauto|apply (a_mk s I)].
    + pd; [discriminate|apply (a_r3 s I)].
    + apply (a_rg s I).
    + apply (a_f s I).
    + apply (a_z s I).
Qed.

Lemma nest_IA : forall c s t h d p s' ev, IA s -> nest c s t h d p = Some (s', ev) -> IA s'.
Proof.
  intros c s t h d p s' ev I H. unfold nest in H. repeat brk H. injection H as <- <-.
  pose proof (a_use s I t) as U0. pose proof (a_cur s I t) as K0. pose proof (a_mk s I t) as M0.
  apply (IA_keep s _ t (pcs s t) I); [intros; reflexivity|intros; reflexivity|intros; reflexivity|reflexivity|reflexivity|intros u; sfg; pd; auto|..]; auto.
  intros r h0 X. eapply a_r3; eauto.
Qed.

Lemma IA_step : forall c s l s' ev, IA s -> step c s l = Some (s', ev) -> IA s'.
Proof.
  intros c s [t a] s' ev I H. unfold step in H.
  destruct a; [eapply tick_IA; eauto|destruct (pcs s t) eqn:P0; try discriminate H; eapply call_IA; eauto..|eapply nest_IA; eauto].
Qed.
