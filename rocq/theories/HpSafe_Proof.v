(** Proofs about hazard pointers, part 4: a protected object is not destroyed. *)
From Coq Require Import NArith Arith List Bool Lia.
From Verif Require Import Lib Obs Hp_Model Hp_Spec Hp_Proof HpPend_Proof HpOnce_Proof.
Import ListNotations.

(** the scan of the thread at [p] has found pointer [q] in slot [(r, i)] or will still look at the slot *)
Definition scn (nx : nat -> nat) (p : pc) (h q r i : nat) : Prop :=
  match p with
  | Mc2 _ _ C e => In q C \/ reach nx e r
  | Mc3 _ _ C e j => In q C \/ (r = e /\ j <= i) \/ reach nx (nx e) r
  | Mc4 _ _ C e => In q C \/ reach nx (nx e) r
  | Lp0 x | Lp1 x | De4 x => In q (xC x) \/ reach nx (xm x) r
  | Ms1 x e => (In q (xC x) \/ reach nx (xm x) r) /\ (xe x = h -> reach nx e r)
  | Ms2 x e j => (In q (xC x) \/ reach nx (xm x) r) /\ (xe x = h -> (r = e /\ j <= i) \/ reach nx (nx e) r)
  | Ms3 x e => (In q (xC x) \/ reach nx (xm x) r) /\ (xe x = h -> reach nx (nx e) r)
  | De1 x | De2 x | De3 x => (In q (xC x) \/ reach nx (xm x) r) /\ xe x <> h
  | _ => True
  end.
Record IC (c : cfg) (s : st) (g : gs) : Prop := {
  c_sl : forall r i p, g_slot g r i = Some p -> hz s r i = p /\ own s r <> None /\ i < deg c;
  c_sc : forall t rr C r i x, rcl (pcs s t) = Some (rr, C) -> In x (pend_of g rr) -> g_prot g r i = true ->
         g_slot g r i = Some (q_p x) -> q_p x <> 0 -> scn (snext s) (pcs s t) (q_h x) (q_p x) r i }.
Lemma IC_init : forall c, IC c init gs0.
Proof. constructor; cbn; intros; discriminate. Qed.

Lemma reach_upd_safe : forall nx r v a b h, reach nx h a -> ~ reach nx h r -> reach nx a b -> reach (upd nx r v) a b.
Proof. intros. apply reach_upd1; auto. intros X. apply H0. eapply reach_trans; eauto. Qed.
Lemma scn_upd : forall s u r v h q r' i, IA s -> ~ reach (snext s) (shead s) r ->
  scn (snext s) (pcs s u) h q r' i -> scn (upd (snext s) r v) (pcs s u) h q r' i.
Proof.
  intros s u r v h q r' i A N H. pose proof (a_cur s A u) as C. pose proof (a_mk s A u) as M.
  assert (X : forall e b, reach (snext s) (shead s) e -> reach (snext s) e b -> reach (upd (snext s) r v) e b) by (intros; eapply reach_upd_safe; eauto).
  assert (Y : forall e b, reach (snext s) (shead s) e -> reach (snext s) (snext s e) b -> reach (upd (snext s) r v) (upd (snext s) r v e) b).
  { intros e b R1 R2. assert (e <> r) by (intros ->; tauto). rewrite upd_other by auto. apply X; auto. apply reach_next; auto. apply reach_nz in R2. tauto. }
  assert (Z : forall m b, (m <> 0 -> reach (snext s) (shead s) m) -> reach (snext s) m b -> reach (upd (snext s) r v) m b).
  { intros m b R1 R2. apply X; auto. apply R1. apply reach_nz in R2. tauto. }
  destruct (pcs s u); cbn [scn curs mark] in *; auto; try (specialize (C _ eq_refl));
    repeat match goal with H : _ /\ _ |- _ => destruct H end; intuition auto.
Qed.

(** protection never starts on a retired object *)
Lemma prot_old : forall g e r i p x, g_prot (gnext g e) r i = true -> g_slot (gnext g e) r i = Some p -> In x (g_out (gnext g e)) -> q_p x = p ->
  g_prot g r i = true /\ g_slot g r i = Some p.
Proof.
  intros g e r i p x P S O Q. cbn in P, S, O. unfold prot' in P. rewrite S in P.
  apply orb_true_iff in P. destruct P as [P|P].
  - apply andb_true_iff in P. destruct P as [P1 P2]. split; auto. destruct e; cbn in *; auto; unfold upd in S; try (destruct (Nat.eq_dec r r0); [discriminate|auto]).
    destruct (Nat.eq_dec r r0) as [->|]; auto. destruct (Nat.eq_dec i i0) as [->|]; auto. rewrite !Nat.eqb_refl in P2. discriminate.
  - exfalso. apply negb_true_iff in P. unfold retired in P. assert (Y : existsb (fun x => q_p x =? p) (out' g e) = true); [|congruence].
    apply existsb_exists. exists x. split; auto. apply Nat.eqb_eq; auto.
Qed.
Lemma prot_olds : forall ev g r i p x, length ev <= 1 -> g_prot (gf ev g) r i = true -> g_slot (gf ev g) r i = Some p -> In x (g_out (gf ev g)) -> q_p x = p ->
  g_prot g r i = true /\ g_slot g r i = Some p.
Proof. intros [|e [|? ?]] g r i p x L; cbn in L; [auto|apply prot_old|lia]. Qed.

Lemma IC_keep : forall c s s' g ev t p', IC c s g -> length ev <= 1 ->
  (forall u, pcs s' u = upd (pcs s) t p' u) ->
  (forall r i p, g_slot (gf ev g) r i = Some p -> hz s' r i = p /\ own s' r <> None /\ i < deg c) ->
  (forall u h q r i, u <> t -> scn (snext s) (pcs s u) h q r i -> scn (snext s') (pcs s u) h q r i) ->
  (forall u r C x, u <> t -> rcl (pcs s u) = Some (r, C) -> In x (pend_of (gf ev g) r) -> In x (pend_of g r)) ->
  (forall rr C r i x, rcl p' = Some (rr, C) -> In x (pend_of (gf ev g) rr) -> g_prot g r i = true -> g_slot g r i = Some (q_p x) -> q_p x <> 0 ->
     scn (snext s') p' (q_h x) (q_p x) r i) ->
  IC c s' (gf ev g).
Proof.
  intros c s s' g ev t p' I L Hp H1 H2 H3 H4. constructor; auto.
  intros u rr C r i x R X P S N. pose proof X as X'. apply pend_in in X'. destruct X' as [X1 X2].
  destruct (prot_olds _ _ _ _ _ _ L P S X1 eq_refl) as [P' S'].
  rewrite Hp in *. destruct (Nat.eq_dec u t) as [->|E].
  - rewrite upd_same in *. eapply H4; eauto.
  - rewrite upd_other in * by auto. apply H2; auto. eapply (c_sc c s g I); eauto.
Qed.

Lemma slot_facts : forall c s g r i p, IA s -> IC c s g -> g_slot g r i = Some p ->
  hz s r i = p /\ i < deg c /\ rfree s r = false /\ reach (snext s) (shead s) r.
Proof.
  intros c s g r i p A K S. destruct (c_sl c s g K r i p S) as [H1 [H2 H3]]. destruct (own s r) as [u|] eqn:O; [|congruence].
  destruct (a_own s A r u O) as [R F]. repeat split; auto. destruct (a_sub s A r R) as [[v V]|]; auto.
  apply frsh_claim in V. apply (a_clm s A) in V. destruct V. congruence.
Qed.
Lemma memb_false : forall p l, memb p l = false -> ~ In p l.
Proof.
  intros p l H X. unfold memb in H. assert (existsb (Nat.eqb p) l = true); [|congruence]. apply existsb_exists. exists p. split; auto. apply Nat.eqb_refl.
Qed.
(** the entry under examination *)
Lemma cur_ent : forall s g t x y, IB s g -> own s (xr x) = Some t -> xe x <> 0 ->
  match pcs s t with Lp1 x' | Ms2 x' _ _ => x' = x | _ => False end ->
  In y (pend_of g (xr x)) -> q_h y = xe x -> hptr s (xe x) = q_p y.
Proof.
  intros s g t x y I O N P Y Q. pose proof (b_rec s g I _ _ O) as B. rewrite <- Q.
  assert (D : dm s (pend_of g (xr x))); [|apply D; auto].
  destruct (pcs s t) eqn:E; try tauto; subst; unfold PR, ouse in B; cbn [uses] in B; rewrite Nat.eqb_refl in B; cbn [PX] in B.
  - destruct B as [K [R [_ [[_ B] _]]]]. auto.
  - destruct B as [K [z [R [_ [[_ B] _]]]]]. auto.
Qed.

Ltac cc :=
  match goal with |- IC ?c (go ?s0 ?tt ?pp) (gfold _ ?evv ?g) =>
    eapply (IC_keep c _ _ g evv tt pp); [eassumption|cbn; auto|intros; reflexivity| | | | ] end;
  cbn [rcl xr xC x_ent x_nxt ctx].
Lemma tick_IC : forall c s g t s' ev, IA s -> IB s g -> IC c s g -> tick c s t = Some (s', ev) ->
  legal_from gnext safe_ok g ev /\ IC c s' (gf ev g).
Proof.
  intros c s g t s' ev A I K H. unfold tick in H.
  pose proof (c_sc c s g K t) as K0. pose proof (a_use s A t) as U0.
  destruct (pcs s t) eqn:P0; try discriminate H; cbn [rcl uses scn] in K0, U0;
    try match type of H with context [if ?f then Rt6 _ else _] => destruct f end;
    repeat brk H; injection H as <- <-;
    (split; [first [exact Logic.I | split; exact Logic.I | idtac]|]);
    try (cc; [exact (c_sl c s g K)|auto|auto|first [discriminate | intros; exact Logic.I | intros ? ? ? ? ? [= <- <-]; apply (K0 _ _ _ _ _ eq_refl) | exact K0]]; fail).
  all: try (cc; [exact (c_sl c s g K)|auto|auto|]; intros r0 C0 r1 i1 y [= <- <-] Y P S N; pose proof (K0 _ _ _ _ _ eq_refl Y P S N) as Z;
             destruct (slot_facts _ _ _ _ _ _ A K S) as [F1 [F2 [F3 F4]]]; cbn [scn xC xm xe x_nxt x_ent ctx]).
  - cc; [exact (c_sl c s g K)| |auto|discriminate]. intros u h0 q r1 i1 N. apply scn_upd; auto. apply (a_fre s A t). rewrite P0. reflexivity.
  - cc; [|auto|auto|discriminate]. intros r1 i1 p1 S. cbn in S |- *. unfold upd in *. destruct (Nat.eq_dec r1 r); [discriminate|]. apply (c_sl c s g K); auto.
  - cc; [|auto|auto|discriminate]. intros r1 i1 p1 S. cbn in S |- *. unfold upd in *. destruct (Nat.eq_dec r1 0); [discriminate|]. apply (c_sl c s g K); auto.
  - cc; [|auto|auto|discriminate]. intros r1 i1 p1 S. cbn in S |- *. unfold upd in *. destruct (Nat.eq_dec r1 0); [discriminate|]. apply (c_sl c s g K); auto.
  - cc; [|auto|auto|discriminate]. intros r1 i1 p1 S. cbn in S |- *. unfold upd in *. destruct (Nat.eq_dec r1 e); [discriminate|]. apply (c_sl c s g K); auto.
  - cc; [|auto|auto|discriminate]. intros r1 i1 p1 S. cbn in S |- *. unfold upd in *. destruct (Nat.eq_dec r1 0); [discriminate|]. apply (c_sl c s g K); auto.
  - cc; [|auto|auto|discriminate]. intros r1 i1 p1 S. cbn in S |- *. unfold upd2, upd in *. destruct (Nat.eq_dec r1 r) as [->|]; [|apply (c_sl c s g K); auto].
    destruct (Nat.eq_dec i1 i) as [->|]; [|apply (c_sl c s g K); auto]. injection S as <-. apply Nat.ltb_lt in E. rewrite (U0 r eq_refl). repeat split; auto. discriminate.
  - apply Nat.eqb_eq in E. rewrite E in F4. apply reach_nz in F4. tauto.
  - auto.
  - destruct Z as [Z|Z]; auto. apply reach_inv in Z. destruct Z as [->|Z]; auto. congruence.
  - destruct Z as [Z|Z]; auto. apply reach_inv in Z. destruct Z as [->|Z]; auto with arith.
  - destruct Z as [Z|[[-> Z]|Z]]; auto; right.
    + apply reach_here. apply reach_nz in F4. tauto.
    + apply reach_step; auto. pose proof (a_cur s A t) as X. rewrite P0 in X. specialize (X _ eq_refl). apply reach_nz in X. tauto.
  - destruct Z as [Z|[[-> Z]|Z]]; auto. apply Nat.eqb_eq in E1. assert (i <> i1) by (intros ->; congruence). right; left. split; auto. lia.
  - destruct Z as [Z|[[-> Z]|Z]]; auto. { left. apply in_or_app; auto. } destruct (Nat.eq_dec i i1) as [->|].
    + left. apply in_or_app. right. left. auto.
    + right; left. split; auto. lia.
  - destruct Z as [Z|[[-> Z]|Z]]; auto. apply Nat.ltb_ge in E. lia.
  - destruct Z as [Z|Z]; auto. apply Nat.eqb_eq in E. rewrite E in Z. apply reach_nz in Z. tauto.
  - cc; [exact (c_sl c s g K)|auto|auto|]. intros r0 C0 r1 i1 y R. unfold after in R. destruct (xk x); discriminate.
  - split; auto. intros X. apply Nat.eqb_eq in E1. cbn [x_nxt xm] in E1. apply Nat.eqb_neq in E. destruct Z as [Z|Z]; [|rewrite E1 in Z; apply reach_nz in Z; tauto].
    cbn [x_nxt xe xC] in E0. rewrite (cur_ent s g t x y I (U0 _ eq_refl)) in E0; auto; [|rewrite P0; auto]. apply memb_false in E0. tauto.
  - split; auto. intros X. apply Nat.eqb_neq in E. destruct Z as [Z|Z]; auto. 
    cbn [x_nxt xe xC] in E0. rewrite (cur_ent s g t x y I (U0 _ eq_refl)) in E0; auto; [|rewrite P0; auto]. apply memb_false in E0. tauto.
  - destruct Z as [Z1 Z2]. split; auto. intros X. specialize (Z2 X). apply reach_inv in Z2. destruct Z2 as [->|Z]; auto. congruence.
  - destruct Z as [Z1 Z2]. split; auto. intros X. specialize (Z2 X). apply reach_inv in Z2. destruct Z2 as [->|Z]; auto with arith.
  - destruct Z as [Z1 Z2]. split; auto. intros X. specialize (Z2 X). destruct Z2 as [[-> Z]|Z]; auto. apply Nat.eqb_neq in E0.
    assert (Q : hptr s (xe x) = q_p y). { apply (cur_ent s g t x y I (U0 _ eq_refl)); auto; [|rewrite P0; auto]. apply pend_in in Y. destruct Y as [Y _]. apply (b_out s g I) in Y. destruct Y. congruence. }
    assert (i <> i1) by (intros ->; congruence).
    left. split; auto. lia.
  - destruct Z as [Z1 Z2]. split; auto. intros X. specialize (Z2 X). destruct Z2 as [[-> Z]|Z]; auto. apply Nat.ltb_ge in E. lia.
  - destruct Z as [Z1 Z2]. split; auto. intros X. specialize (Z2 X). apply Nat.eqb_eq in E. rewrite E in Z2. apply reach_nz in Z2. tauto.
  - destruct (xp x =? 0); (cc; [exact (c_sl c s g K)|auto|auto|exact K0]).
  - split; [|exact Logic.I]. intros r1 i1 p Np P S O. assert (Y : In (xr x, xe x, hdat s (xe x), p) (pend_of g (xr x))) by (apply pend_in; auto).
    destruct (K0 _ _ r1 i1 _ eq_refl Y P S Np) as [_ Z]. apply Z. reflexivity.
  - cc; [exact (c_sl c s g K)|auto|intros until x0; intros _ _; apply pend_des_in|].
    intros r C r1 i1 y [= <- <-] Y P S N. apply pend_des_in in Y. apply (K0 _ _ _ _ y eq_refl Y P S N).
Qed.

Lemma call_IC : forall c s g t a s' ev, IA s -> IB s g -> IC c s g -> pcs s t = Idle -> call c s t a = Some (s', ev) ->
  legal_from gnext safe_ok g ev /\ IC c s' (gf ev g).
Proof.
  intros c s g t a s' ev A I K P0 H. unfold call in H.
  destruct a; try discriminate H; repeat brk H; injection H as <- <-;
    (split; [first [exact Logic.I | split; exact Logic.I | idtac]|]);
    try (cc; [exact (c_sl c s g K)|auto|auto|first [discriminate|intros; exact Logic.I]]; fail).
  all: try match goal with E : _ && _ = true |- _ => rewrite ?andb_true_iff in E end.
  - cc; [|auto|auto|discriminate]. intros r1 i1 p1 S. destruct (c_sl c s g K r1 i1 p1 S) as [H1 [H2 H3]]. cbn. unfold upd.
    destruct (Nat.eq_dec r1 r) as [->|]; auto. exfalso. apply orb_false_iff in E. destruct (own s r) eqn:O; [|congruence]. apply (a_own s A) in O. destruct O, E; congruence.
  - cc; [|auto| |discriminate].
    + intros r1 i1 p1 S. cbn in S |- *. unfold upd in *. destruct (Nat.eq_dec r1 r); [discriminate|]. apply (c_sl c s g K); auto.
    + intros u r' C x N R X. cbn [gfold fold_left] in X. rewrite pend_unr in X. apply mine_own in E. pose proof (rcl_other _ _ _ _ _ _ A E N R).
      destruct (Nat.eqb r r') eqn:Q; [apply Nat.eqb_eq in Q; congruence|exact X].
  - constructor; [apply (c_sl c s g K)|apply (c_sc c s g K)].
  - destruct E as [E1 E2]. apply mine_own in E1. apply Nat.ltb_lt in E2.
    eapply (IC_keep c s _ g _ t Idle); [eassumption|auto| | |auto|auto|discriminate].
    + intros u. cbn. unfold upd. destruct (Nat.eq_dec u t) as [->|]; auto.
    + intros r1 i1 p1 S. cbn in S |- *. unfold upd2, upd in *. destruct (Nat.eq_dec r1 r) as [->|]; [|apply (c_sl c s g K); auto].
      destruct (Nat.eq_dec i1 i) as [->|]; [|apply (c_sl c s g K); auto]. injection S as <-. rewrite E1. repeat split; auto. discriminate.
  - cc; [exact (c_sl c s g K)|auto| |discriminate].
    intros u r' C x N R X. cbn [gfold fold_left] in X. rewrite pend_ret in X. destruct E as [[E _] _]. apply mine_own in E. pose proof (rcl_other _ _ _ _ _ _ A E N R).
    destruct (Nat.eqb r r') eqn:Q; [apply Nat.eqb_eq in Q; congruence|exact X].
  - cc; [exact (c_sl c s g K)|auto| |discriminate].
    intros u r' C x N R X. cbn [gfold fold_left] in X. rewrite pend_ret in X. destruct E as [[E _] _]. apply mine_own in E. pose proof (rcl_other _ _ _ _ _ _ A E N R).
    destruct (Nat.eqb r r') eqn:Q; [apply Nat.eqb_eq in Q; congruence|exact X].
Qed.

(** ** All of it *)
Definition HI (c : cfg) (s : st) (g : gs) : Prop := IA s /\ IB s g /\ IK s g /\ IC c s g.
Lemma HI_init : forall c, HI c init gs0.
Proof. intros. split; [apply IA_init|]. split; [apply IB_init|]. split; [apply IK_init|apply IC_init]. Qed.
Lemma legal_and : forall (p q : gs -> event -> Prop) l g, legal_from gnext p g l -> legal_from gnext q g l -> legal_from gnext (fun g e => p g e /\ q g e) g l.
Proof. induction l as [|e l IH]; cbn; intros; auto. intuition. Qed.
Lemma HI_step : forall c, reent c = false -> forall s g l s' ev, HI c s g -> step c s l = Some (s', ev) -> legal_from gnext hp_ok g ev /\ HI c s' (gf ev g).
Proof.
  intros c Hr s g [t a] s' ev [A [B [K C]]] H. pose proof (IA_step c s (t, a) s' ev A H) as A'.
  assert (G : (legal_from gnext acc_ok g ev /\ IB s' (gf ev g)) /\ IK s' (gf ev g) /\ (legal_from gnext safe_ok g ev /\ IC c s' (gf ev g))).
  { unfold step in H. destruct a.
    1: split; [eapply (tick_IB c s g t); eauto|]; split; [eapply (tick_IK c s g t); eauto|eapply (tick_IC c s g t); eauto].
    11: exfalso; unfold nest in H; rewrite Hr in H; destruct (pcs s t); discriminate.
    all: destruct (pcs s t) eqn:P; try discriminate H; (split; [eapply (call_IB c s g t); eauto|]; split; [eapply (call_IK c s g t); eauto|eapply (call_IC c s g t); eauto]). }
  destruct G as [[L1 B'] [K' [L2 C']]]. split; [|split; auto].
  eapply legal_imp; [|apply (legal_and _ _ _ _ L2 L1)]. intros g0 e [X [Y Z]]. split; auto.
Qed.
Lemma hp_run : forall c, reent c = false -> forall ls s log, run (step c) init ls = Some (s, log) -> legal_from gnext hp_ok gs0 log /\ HI c s (gf log gs0).
Proof. intros c Hr ls s log H. eapply obs_run; [|apply HI_init|apply H]. intros. eapply HI_step; eauto. Qed.
Lemma hp_safe : forall c, reent c = false -> forall ls s log, run (step c) init ls = Some (s, log) -> legal_from gnext safe_ok gs0 log.
Proof. intros. eapply legal_imp; [|eapply hp_run; eauto]. intros g e [X _]; auto. Qed.
Lemma hp_once : forall c, reent c = false -> forall ls s log, run (step c) init ls = Some (s, log) -> legal_from gnext once_ok gs0 log.
Proof. intros. eapply legal_imp; [|eapply hp_run; eauto]. intros g e [_ [X _]]; auto. Qed.
Lemma hp_excl : forall c, reent c = false -> forall ls s log, run (step c) init ls = Some (s, log) -> legal_from gnext excl_ok gs0 log.
Proof. intros. eapply legal_imp; [|eapply hp_run; eauto]. intros g e [_ [_ X]]; auto. Qed.
