(** Refinement of whole histories. *)
From Coq Require Import NArith List Bool Lia Arith.
From Verif Require Import Lib Bitmap_Model Bitmap_Proof Bitmap_Spec.
Import ListNotations.
Local Open Scope N_scope.

Definition rel1 (b : bitmap) (a : N * (N -> bool)) : Prop :=
  wf b /\ n_bits b = fst a /\ (forall i, is_set b i = snd a i) /\ (forall i, fst a <= i -> snd a i = false).
Definition rel (st : store) (a : sets) : Prop := forall x, rel1 (st x) (a x).

Lemma rel_upd : forall st a x b v, rel st a -> rel1 b v -> rel (upd st x b) (upd a x v).
Proof. intros st a x b v H1 H2 y. unfold upd. destruct (Nat.eq_dec y x); auto. Qed.

Lemma blk_of_min : forall s d i, i < N.min s d -> blk_of (BLOCKS (N.min s d)) i = true.
Proof. intros. unfold blk_of. apply Nat.ltb_lt, blocks_bound. auto. Qed.

Lemma sexec_step : forall st a o, rel st a -> legal a o -> no_long_union a o ->
  exists st', exec st o = Some (st', snd (sexec a o)) /\ rel st' (fst (sexec a o)).
Proof.
  intros st a o HR HL HU. destruct o; simpl in HL, HU; unfold exec, sexec, put, ans.
  - destruct (init_ok n set HL) as [b [H1 [H2 [H3 H4]]]]. rewrite H1. eexists. split; [reflexivity|]. apply rel_upd; auto.
    repeat split; auto; try apply H3. intros i Hi. cbn [fst snd] in *. destruct (N.ltb_spec i n); [lia|]. apply andb_false_r.
  - destruct (HR x) as [R1 [R2 [R3 R4]]]. destruct (set_ok (st x) i R1) as [b [H1 [[H2 H3] H4]]]; [lia|]. rewrite H1.
    eexists. split; [reflexivity|]. apply rel_upd; auto. split; auto. cbn [fst snd]. split; [lia|]. split.
    + intros j. rewrite H4, R3. auto.
    + intros j Hj. destruct (N.eqb_spec j i); [lia|]. apply R4. auto.
  - destruct (HR x) as [R1 [R2 [R3 R4]]]. destruct (reset_ok (st x) i R1) as [b [H1 [[H2 H3] H4]]]; [lia|]. rewrite H1.
    eexists. split; [reflexivity|]. apply rel_upd; auto. split; auto. cbn [fst snd]. split; [lia|]. split.
    + intros j. rewrite H4, R3. auto.
    + intros j Hj. rewrite R4 by auto. apply andb_false_r.
  - destruct (HR x) as [R1 [R2 [R3 R4]]]. destruct (bts_ok (st x) i R1) as [b [H1 [[H2 H3] H4]]]; [lia|]. rewrite H1, R3.
    eexists. split; [reflexivity|]. apply rel_upd; auto. split; auto. cbn [fst snd]. split; [lia|]. split.
    + intros j. rewrite H4, R3. auto.
    + intros j Hj. destruct (N.eqb_spec j i); [lia|]. apply R4. auto.
  - destruct (HR x) as [R1 [R2 [R3 R4]]]. rewrite test_ok by (auto; lia). rewrite R3. eexists. split; [reflexivity|]. auto.
  - destruct (HR d) as [R1 [R2 [R3 R4]]]. destruct (HR s) as [S1 [S2 [S3 S4]]].
    destruct (union_ok (st d) (st s) R1 S1) as [b [H1 [[H2 H3] H4]]]. rewrite H1.
    eexists. split; [reflexivity|]. apply rel_upd; auto. split; auto. cbn [fst snd]. split; [lia|]. split.
    + intros j. rewrite H4, R3, S3. f_equal. destruct (N.lt_ge_cases j (fst (a s))).
      * rewrite blk_of_min by lia. auto.
      * rewrite S4 by auto. apply andb_false_r.
    + intros j Hj. rewrite R4, S4 by lia. auto.
  - destruct (HR d) as [R1 [R2 [R3 R4]]]. destruct (HR s) as [S1 [S2 [S3 S4]]].
    destruct (intersection_ok (st d) (st s) R1 S1) as [b [H1 [[H2 H3] H4]]]. rewrite H1.
    eexists. split; [reflexivity|]. apply rel_upd; auto. split; auto. cbn [fst snd]. split; [lia|]. split.
    + intros j. rewrite H4, R3, S3. destruct (N.lt_ge_cases j (fst (a d))).
      * f_equal. destruct (N.lt_ge_cases j (fst (a s))).
        -- rewrite blk_of_min by lia. auto.
        -- rewrite S4 by auto. apply andb_false_r.
      * rewrite R4 by auto. auto.
    + intros j Hj. rewrite R4 by lia. auto.
  - destruct (HR d) as [R1 [R2 [R3 R4]]]. destruct (HR s) as [S1 [S2 [S3 S4]]].
    destruct (negate_ok (st d) (st s) R1 S1) as [b [H1 [[H2 H3] H4]]]. rewrite H1.
    eexists. split; [reflexivity|]. apply rel_upd; auto. split; auto. cbn [fst snd]. split; [lia|]. split.
    + intros j. rewrite H4, R3, S3. destruct (N.lt_ge_cases j (fst (a d))).
      * f_equal. f_equal. destruct (N.lt_ge_cases j (fst (a s))).
        -- rewrite blk_of_min by lia. auto.
        -- rewrite S4 by auto. apply andb_false_r.
      * rewrite R4 by auto. auto.
    + intros j Hj. rewrite R4 by lia. auto.
  - destruct (HR d) as [R1 [R2 [R3 R4]]]. destruct (clear_ok (st d) R1) as [b [H1 [[H2 H3] H4]]]. rewrite H1.
    eexists. split; [reflexivity|]. apply rel_upd; auto. split; auto. cbn [fst snd]. split; [lia|]. split; auto.
  - destruct (HR x) as [R1 [R2 [R3 R4]]]. destruct (empty_ok (st x) l R1) as [r [H1 H2]]. rewrite H1. rewrite R2 in H2.
    eexists. split; [|exact HR]. cbn [snd]. do 3 f_equal. unfold below.
    assert (Q : forall (g : N -> bool) (lst : list N), (forall z, In z lst -> g z = false) <-> match filter g lst with [] => true | _ :: _ => false end = true).
    { intros g lst. split.
      - intros H. rewrite filter_none; auto.
      - intros H z Hz. destruct (filter g lst) eqn:E; [|discriminate]. destruct (g z) eqn:G; auto.
        assert (In z (filter g lst)) by (apply filter_In; auto). rewrite E in H0. destruct H0. }
    apply eq_true_iff_eq. rewrite H2, <- Q. split; intros G z Hz.
    + rewrite <- R3. apply G. apply upto_in; auto.
    + rewrite R3. apply G. apply upto_in; auto.
  - destruct (HR x) as [R1 [R2 [R3 R4]]]. destruct (full_ok (st x) l R1) as [r [H1 H2]]. rewrite H1. rewrite R2 in H2.
    eexists. split; [|exact HR]. cbn [snd]. do 3 f_equal.
    apply eq_true_iff_eq. rewrite H2, forallb_forall. split; intros G z Hz.
    + rewrite <- R3. apply G. apply upto_in; auto.
    + rewrite R3. apply G. apply upto_in; auto.
  - destruct (HR x) as [R1 [R2 [R3 R4]]]. rewrite count_ok by auto. rewrite R2. eexists. split; [|exact HR]. cbn [snd]. do 3 f_equal.
    unfold below. rewrite (filter_ext _ _ R3). auto.
  - destruct (HR x) as [R1 [R2 [R3 R4]]]. destruct (HR y) as [S1 [S2 [S3 S4]]]. rewrite count_intersect_ok by auto. rewrite R2, S2.
    eexists. split; [|exact HR]. cbn [snd]. do 5 f_equal. unfold below.
    generalize (upto (N.min l (N.min (fst (a x)) (fst (a y))))). intros L. induction L as [|z L IH]; auto.
    simpl. rewrite R3, S3. destruct (snd (a x) z); simpl; auto. destruct (snd (a y) z); simpl; rewrite IH; auto.
  - destruct (HR x) as [R1 [R2 [R3 R4]]]. rewrite elements_ok; auto.
    + rewrite R2. eexists. split; [|exact HR]. cbn [snd]. unfold below. rewrite (filter_ext _ _ R3). auto.
    + intros i Hi. rewrite R3. apply R4. lia.
Qed.

Lemma history : forall os st a, rel st a -> always legal a os -> always no_long_union a os ->
  execs st os = Some (sexecs a os).
Proof.
  induction os as [|o os IH]; intros st a HR HL HU; [reflexivity|].
  destruct HL as [L1 L2]. destruct HU as [U1 U2]. destruct (sexec_step st a o HR L1 U1) as [st' [H1 H2]].
  simpl. rewrite H1. rewrite (IH _ _ H2 L2 U2). auto.
Qed.

Lemma rel0 : rel init0 sinit0.
Proof.
  intros x. split; [split; [reflexivity|split; [reflexivity|constructor]]|]. split; auto. split; auto.
  intros i. unfold is_set, ck_bitmap_test, init0. simpl. destruct (PTR i); auto.
Qed.

Lemma history0 : forall os, always legal sinit0 os -> always no_long_union sinit0 os ->
  execs init0 os = Some (sexecs sinit0 os).
Proof. intros. apply history; auto. apply rel0. Qed.
