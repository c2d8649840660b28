(** Proofs about the integer helpers. *)
From Coq Require Import NArith List Bool Lia.
From Verif Require Import Helpers_Model.
Import ListNotations.
Local Open Scope N_scope.

Definition pow2s : list N := map (fun k => 2 ^ N.of_nat k) (seq 0 32).

Lemma log_pow2 : forall k, k < 32 -> ck_internal_log (2 ^ k) = k.
Proof.
  intros k Hk.
  assert (H : forallb (fun i => ck_internal_log (2 ^ N.of_nat i) =? N.of_nat i) (seq 0 32) = true) by (vm_compute; reflexivity).
  rewrite forallb_forall in H. specialize (H (N.to_nat k)).
  rewrite N2Nat.id in H. apply N.eqb_eq, H. apply in_seq. lia.
Qed.

(** smearing *)
Definition smeared (k : N) (v w : N) : Prop :=
  forall i, N.testbit w i = true <-> exists j, j < k /\ N.testbit v (i + j) = true.

Lemma smear_step : forall k v w, smeared k v w -> smeared (2 * k) v (N.lor w (N.shiftr w k)).
Proof.
  intros k v w H i. rewrite N.lor_spec, N.shiftr_spec', orb_true_iff, (H i), (H (i + k)).
  split.
  - intros [[j [Hj Hb]]|[j [Hj Hb]]].
    + exists j. split; [lia|auto].
    + exists (k + j). split; [lia|]. rewrite N.add_assoc. auto.
  - intros [j [Hj Hb]]. destruct (N.lt_ge_cases j k).
    + left. eauto.
    + right. exists (j - k). split; [lia|]. replace (i + k + (j - k)) with (i + j) by lia. auto.
Qed.

Lemma smear_all : forall v, v <> 0 -> v < 2 ^ 32 ->
  (let v := N.lor v (N.shiftr v 1) in
   let v := N.lor v (N.shiftr v 2) in
   let v := N.lor v (N.shiftr v 4) in
   let v := N.lor v (N.shiftr v 8) in
   N.lor v (N.shiftr v 16)) = 2 ^ (N.log2 v + 1) - 1.
Proof.
  intros v H0 Hlt. cbv zeta.
  assert (S1 : smeared 1 v v).
  { intros i. split.
    - intros Hb. exists 0. split; [lia|]. rewrite N.add_0_r. auto.
    - intros [j [Hj Hb]]. assert (j = 0) by lia. subst. rewrite N.add_0_r in Hb. auto. }
  apply smear_step in S1. apply (smear_step (2 * 1)) in S1. apply (smear_step (2 * (2 * 1))) in S1.
  apply (smear_step (2 * (2 * (2 * 1)))) in S1. apply (smear_step (2 * (2 * (2 * (2 * 1))))) in S1.
  change (2 * (2 * (2 * (2 * 1)))) with 16 in S1. change (2 * (2 * (2 * 1))) with 8 in S1.
  change (2 * (2 * 1)) with 4 in S1. change (2 * 1) with 2 in S1. change (2 * 16) with 32 in S1.
  replace (2 ^ (N.log2 v + 1) - 1) with (N.ones (N.log2 v + 1)) by (rewrite N.ones_equiv; lia).
  assert (Hl : N.log2 v < 32) by (apply N.log2_lt_pow2; lia).
  apply N.bits_inj. intros i. 
  destruct (N.lt_ge_cases i (N.log2 v + 1)) as [Hi|Hi].
  - rewrite N.ones_spec_low by lia. apply S1. exists (N.log2 v - i). split; [lia|].
    replace (i + (N.log2 v - i)) with (N.log2 v) by lia. apply N.bit_log2. auto.
  - rewrite N.ones_spec_high by lia. 
    match goal with |- ?b = false => destruct b eqn:E; auto end.
    apply S1 in E. destruct E as [j [Hj Hb]]. rewrite N.bits_above_log2 in Hb by lia. discriminate.
Qed.

Lemma power_2_eq : forall x, 1 <= x <= 2 ^ 31 -> ck_internal_power_2 x = 2 ^ N.log2_up x.
Proof.
  intros x Hx. unfold ck_internal_power_2.
  assert (E : w32 (x + (2 ^ 32 - 1)) = x - 1).
  { unfold w32. replace (x + (2 ^ 32 - 1)) with ((x - 1) + 1 * 2 ^ 32) by lia.
    rewrite N.mod_add by lia. apply N.mod_small. lia. }
  rewrite E. destruct (N.eq_dec x 1) as [->|Hn]; [reflexivity|].
  pose proof (smear_all (x - 1)) as Hs. cbv zeta in Hs. rewrite Hs by lia.
  assert (Hl : N.log2 (x - 1) < 31) by (apply N.log2_lt_pow2; lia).
  assert (2 ^ (N.log2 (x - 1) + 1) <= 2 ^ 31) by (apply N.pow_le_mono_r; lia).
  assert (0 < 2 ^ (N.log2 (x - 1) + 1)) by (apply N.neq_0_lt_0, N.pow_nonzero; lia).
  replace (2 ^ (N.log2 (x - 1) + 1) - 1 + 1) with (2 ^ (N.log2 (x - 1) + 1)) by lia.
  unfold w32. rewrite N.mod_small by lia.
  rewrite N.log2_up_eqn by lia. rewrite <- N.sub_1_r, N.add_1_r. auto.
Qed.

Lemma power_2_least : forall x, 1 <= x <= 2 ^ 31 ->
  exists k, ck_internal_power_2 x = 2 ^ k /\ x <= 2 ^ k /\ forall j, x <= 2 ^ j -> 2 ^ k <= 2 ^ j.
Proof.
  intros x Hx. exists (N.log2_up x). rewrite power_2_eq by auto. split; auto. split.
  - destruct (N.eq_dec x 1) as [->|]; [vm_compute; discriminate|]. apply N.log2_up_spec. lia.
  - intros j Hj. apply N.pow_le_mono_r; [lia|]. apply N.log2_up_le_pow2; lia.
Qed.

Lemma power_2_zero : forall x, x = 0 \/ 2 ^ 31 < x < 2 ^ 32 -> ck_internal_power_2 x = 0.
Proof.
  intros x [->|Hx]; [reflexivity|].
  unfold ck_internal_power_2.
  assert (E : w32 (x + (2 ^ 32 - 1)) = x - 1).
  { unfold w32. replace (x + (2 ^ 32 - 1)) with ((x - 1) + 1 * 2 ^ 32) by lia.
    rewrite N.mod_add by lia. apply N.mod_small. lia. }
  rewrite E. pose proof (smear_all (x - 1)) as Hs. cbv zeta in Hs. rewrite Hs by lia.
  replace (N.log2 (x - 1)) with 31; [reflexivity|].
  symmetry. apply N.log2_unique; lia.
Qed.

Lemma max_ok : forall w x y, x < 2 ^ w -> y < 2 ^ w -> ck_internal_max w x y = N.max x y.
Proof.
  intros w x y Hx Hy. unfold ck_internal_max. destruct (N.ltb_spec x y) as [H|H].
  - rewrite N.land_ones, N.mod_small.
    + rewrite <- N.lxor_assoc, N.lxor_nilpotent, N.lxor_0_l. lia.
    + destruct (N.eq_dec (N.lxor x y) 0) as [->|Hz]; [lia|].
      apply N.log2_lt_pow2; [lia|].
      assert (w <> 0) by (intros ->; simpl in *; lia).
      eapply N.le_lt_trans; [apply N.log2_lxor|].
      apply N.max_lub_lt.
      * destruct (N.eq_dec x 0) as [->|]; [simpl; lia|]. apply N.log2_lt_pow2; lia.
      * apply N.log2_lt_pow2; lia.
  - rewrite N.land_0_r, N.lxor_0_r. lia.
Qed.

Lemma land1 : forall v, N.land v 1 = N.b2n (N.testbit v 0).
Proof. intros. change 1 with (N.ones 1). rewrite N.land_ones. change (2 ^ 1) with 2. rewrite <- N.bit0_mod. reflexivity. Qed.

Lemma ffs_loop_ok : forall fuel i v, v <> 0 -> v < 2 ^ N.of_nat fuel ->
  exists k, ffs_loop fuel i v = Some (i + k) /\ N.testbit v k = true /\ (forall j, j < k -> N.testbit v j = false) .
Proof.
  induction fuel as [|fuel IH]; intros i v H0 Hlt.
  - simpl in Hlt. lia.
  - cbn [ffs_loop]. rewrite land1. destruct (N.testbit v 0) eqn:E.
    + exists 0. rewrite N.add_0_r. simpl. repeat split; auto. intros j Hj. lia.
    + simpl (N.b2n false). change (0 =? 0) with true. cbv iota.
      assert (Hd : v = 2 * N.shiftr v 1).
      { rewrite N.shiftr_div_pow2. change (2 ^ 1) with 2. pose proof (N.bit0_mod v) as Hm. rewrite E in Hm. simpl in Hm.
        pose proof (N.div_mod v 2). lia. }
      destruct (IH (i + 1) (N.shiftr v 1)) as [k [Hk [Hb Hl]]]; [lia| |].
      { rewrite Nat2N.inj_succ, N.pow_succ_r' in Hlt. lia. }
      exists (k + 1). split; [rewrite Hk; f_equal; lia|]. rewrite N.shiftr_spec' in Hb. split; auto.
      intros j Hj. destruct (N.eq_dec j 0) as [->|]; auto.
      specialize (Hl (j - 1)). rewrite N.shiftr_spec' in Hl. replace (j - 1 + 1) with j in Hl by lia. apply Hl. lia.
Qed.

Lemma ffs_ok : forall w v, v < 2 ^ N.of_nat w ->
  (v = 0 /\ ck_cc_ffs w v = Some 0) \/
  exists k, ck_cc_ffs w v = Some (k + 1) /\ N.testbit v k = true /\ (forall j, j < k -> N.testbit v j = false).
Proof.
  intros w v Hv. unfold ck_cc_ffs. destruct (N.eqb_spec v 0); auto.
  right. destruct (ffs_loop_ok w 1 v) as [k [H1 H2]]; auto. exists k. rewrite H1. split; [f_equal; lia|auto].
Qed.

Lemma ctz_ok : forall w v, v <> 0 -> v < 2 ^ N.of_nat w ->
  exists k, ck_cc_ctz w v = Some k /\ N.testbit v k = true /\ (forall j, j < k -> N.testbit v j = false).
Proof.
  intros w v H0 Hv. unfold ck_cc_ctz. destruct (N.eqb_spec v 0); [congruence|].
  destruct (ffs_loop_ok w 0 v) as [k [H1 H2]]; auto. exists k. rewrite H1. split; auto.
Qed.

Lemma bits_below_shift : forall k x, bits_below (S k) x = N.b2n (N.testbit x 0) + bits_below k (N.shiftr x 1).
Proof.
  induction k; intros x.
  - simpl. lia.
  - change (bits_below (S (S k)) x) with (bits_below (S k) x + N.b2n (N.testbit x (N.of_nat (S k)))).
    rewrite IHk. cbn [bits_below]. rewrite N.shiftr_spec'. replace (N.of_nat k + 1) with (N.of_nat (S k)) by lia. lia.
Qed.

Lemma bits_below_0 : forall k, bits_below k 0 = 0.
Proof. induction k; simpl; auto. rewrite IHk. destruct (N.of_nat k); reflexivity. Qed.

Lemma popcount_loop_ok : forall fuel acc x, x < 2 ^ N.of_nat fuel ->
  popcount_loop fuel acc x = Some (acc + bits_below fuel x).
Proof.
  induction fuel as [|fuel IH]; intros acc x Hx.
  - simpl in *. assert (x = 0) by lia. subst. simpl. f_equal. lia.
  - cbn [popcount_loop]. destruct (N.eqb_spec x 0) as [->|Hn].
    + rewrite bits_below_0. f_equal. lia.
    + rewrite IH.
      * rewrite bits_below_shift, land1. f_equal. lia.
      * rewrite N.shiftr_div_pow2. change (2 ^ 1) with 2. apply N.div_lt_upper_bound; [lia|].
        rewrite Nat2N.inj_succ, N.pow_succ_r' in Hx. lia.
Qed.

Lemma popcount_ok : forall w x, x < 2 ^ N.of_nat w -> ck_cc_popcount w x = Some (bits_below w x).
Proof. intros. unfold ck_cc_popcount. rewrite popcount_loop_ok by auto. f_equal. Qed.

(** Backoff *)
Lemma spin_ok : forall fuel i c n, i <= c -> c - i <= N.of_nat fuel -> spin fuel i c n = Some (n + (c - i)).
Proof.
  induction fuel as [|fuel IH]; intros i c n H1 H2.
  - assert (i = c) by lia. subst. cbn [spin]. rewrite N.ltb_irrefl. f_equal. lia.
  - cbn [spin]. destruct (N.ltb_spec i c).
    + rewrite IH by lia. f_equal. lia.
    + f_equal. lia.
Qed.

Lemma eb_ok : forall fuel c, c <= N.of_nat fuel -> c < 2 ^ 31 ->
  ck_backoff_eb fuel c = Some (c, if c <? CEILING then 2 * c else c).
Proof.
  intros fuel c Hf Hc. unfold ck_backoff_eb. rewrite spin_ok by lia.
  do 2 f_equal; [lia|].
  destruct (N.ltb_spec c CEILING); simpl N.b2n.
  - rewrite N.shiftl_mul_pow2. unfold w32. rewrite N.mod_small; change (2 ^ 1) with 2; unfold CEILING in *; lia.
  - rewrite N.shiftl_0_r. unfold w32. apply N.mod_small. lia.
Qed.

Lemma eb_iter_val : forall k, eb_iter k INITIALIZER = 2 ^ (9 + N.min (N.of_nat k) 11).
Proof.
  assert (G : forall k j, j <= 11 -> eb_iter k (2 ^ (9 + j)) = 2 ^ (9 + N.min (N.of_nat k + j) 11)).
  { induction k as [|k IH]; intros j Hj; cbn [eb_iter].
    - f_equal. lia.
    - destruct (N.eq_dec j 11) as [->|Hn].
      + change (w32 _) with (2 ^ (9 + 11)). rewrite IH by lia. do 2 f_equal. lia.
      + assert (E : 2 ^ (9 + j) <? CEILING = true).
        { apply N.ltb_lt. unfold CEILING. assert (2 ^ (9 + j) <= 2 ^ 19) by (apply N.pow_le_mono_r; lia). lia. }
        rewrite E. simpl N.b2n. rewrite N.shiftl_mul_pow2, <- N.pow_add_r.
        unfold w32. rewrite N.mod_small by (apply N.pow_lt_mono_r; lia).
        replace (9 + j + 1) with (9 + (j + 1)) by lia. rewrite IH by lia. do 2 f_equal. lia. }
  intros k. change INITIALIZER with (2 ^ (9 + 0)). rewrite G by lia. do 3 f_equal. lia.
Qed.

Lemma eb_iter_bound : forall k, eb_iter k INITIALIZER <= CEILING + 1.
Proof. intros k. rewrite eb_iter_val. change (CEILING + 1) with (2 ^ 20). apply N.pow_le_mono_r; lia. Qed.

Lemma eb_iter_exceeds : exists k, CEILING < eb_iter k INITIALIZER.
Proof. exists 11%nat. vm_compute. reflexivity. Qed.

Lemma eb_iter_stable : forall k, (11 <= k)%nat -> eb_iter k INITIALIZER = CEILING + 1.
Proof. intros k Hk. rewrite eb_iter_val. change (CEILING + 1) with (2 ^ 20). f_equal. lia. Qed.
