(** Proofs about the bit-scan fallbacks. *)
From Coq Require Import ZArith List Bool Lia.
From Verif Require Import Cc_Model Cc_Spec.
Import ListNotations.
Local Open Scope Z_scope.

Lemma land1 : forall v, Z.land v 1 = if Z.testbit v 0 then 1 else 0.
Proof.
  intros. change 1 with (Z.ones 1) at 1. rewrite Z.land_ones by lia. change (2 ^ 1) with 2. rewrite <- Z.bit0_mod.
  destruct (Z.testbit v 0); reflexivity.
Qed.

Lemma word_shift : forall w v, word (S w) v -> word w (Z.shiftr v 1).
Proof.
  unfold word. intros w v H. rewrite Z.shiftr_div_pow2 by lia. change (2 ^ 1) with 2.
  rewrite Nat2Z.inj_succ, Z.pow_succ_r in H by lia.
  split; [apply Z.div_pos; lia|apply Z.div_lt_upper_bound; lia].
Qed.

Lemma scan_ok : forall w v i, word w v -> v <> 0 -> 0 <= i -> i + Z.of_nat w < U32 ->
  forall fuel, (w <= fuel)%nat -> exists k, scan fuel v i = Some (i + k) /\ lowest v k /\ k < Z.of_nat w.
Proof.
  induction w as [|w IH]; intros v i Hw Hv Hi Hu fuel Hf.
  - unfold word in Hw. simpl in Hw. lia.
  - destruct fuel as [|fuel]; [lia|]. cbn [scan]. rewrite land1. destruct (Z.testbit v 0) eqn:B.
    + change (1 =? 0) with false. cbv iota. exists 0. rewrite Z.add_0_r. repeat split; auto; lia.
    + change (0 =? 0) with true. cbv iota.
      assert (Hs : Z.shiftr v 1 <> 0).
      { intros E. apply Hv. apply Z.bits_inj'. intros n Hn. rewrite Z.bits_0.
        destruct (Z.eq_dec n 0) as [->|]; auto.
        replace n with ((n - 1) + 1) by lia. rewrite <- Z.shiftr_spec by lia. rewrite E. apply Z.bits_0. }
      rewrite Z.mod_small by (rewrite Nat2Z.inj_succ in Hu; lia).
      destruct (IH (Z.shiftr v 1) (i + 1) (word_shift _ _ Hw) Hs) with (fuel := fuel) as (k & E & (K0 & K1 & K2) & K3); try lia.
      exists (k + 1). rewrite E. split; [f_equal; lia|]. split; [|lia]. split; [lia|]. split.
      * rewrite <- Z.shiftr_spec by lia. auto.
      * intros j Hj. destruct (Z.eq_dec j 0) as [->|]; auto.
        replace j with ((j - 1) + 1) by lia. rewrite <- Z.shiftr_spec by lia. apply K2. lia.
Qed.

Lemma members_shift : forall w v, length (members (S w) v) =
  ((if Z.testbit v 0 then 1 else 0) + length (members w (Z.shiftr v 1)))%nat.
Proof.
  intros. unfold members. change (seq 0 (S w)) with (0%nat :: seq 1 w). cbn [filter]. change (Z.of_nat 0) with 0.
  assert (E : length (filter (fun i => Z.testbit v (Z.of_nat i)) (seq 1 w)) =
              length (filter (fun i => Z.testbit (Z.shiftr v 1) (Z.of_nat i)) (seq 0 w))).
  { rewrite <- seq_shift. generalize (seq 0 w). induction l as [|a l IH]; auto.
    cbn [map filter]. rewrite Z.shiftr_spec by lia. replace (Z.of_nat (S a)) with (Z.of_nat a + 1) by lia.
    destruct (Z.testbit v (Z.of_nat a + 1)); cbn [length]; rewrite IH; auto. }
  destruct (Z.testbit v 0); cbn [length]; rewrite E; reflexivity.
Qed.

Lemma members_zero : forall w, members w 0 = [].
Proof. intros. unfold members. generalize (seq 0 w). induction l; auto. cbn [filter]. rewrite Z.bits_0. auto. Qed.

Lemma count_ok : forall w x acc, word w x -> 0 <= acc -> acc + Z.of_nat w < U32 ->
  forall fuel, (w <= fuel)%nat -> count fuel x acc = Some (acc + Z.of_nat (length (members w x))).
Proof.
  induction w as [|w IH]; intros x acc Hw Ha Hu fuel Hf.
  - assert (x = 0) as -> by (unfold word in Hw; simpl in Hw; lia).
    destruct fuel; cbn; f_equal; lia.
  - destruct fuel as [|fuel]; [lia|]. cbn [count]. destruct (Z.eqb_spec x 0) as [->|Hx].
    + rewrite members_zero. cbn [length]. f_equal. lia.
    + rewrite land1, members_shift. rewrite Nat2Z.inj_succ in Hu. pose proof (word_shift _ _ Hw) as Hs.
      assert (B : (if Z.testbit x 0 then 1 else 0) = Z.of_nat (if Z.testbit x 0 then 1 else 0)) by (destruct (Z.testbit x 0); auto).
      rewrite Z.mod_small by (destruct (Z.testbit x 0); lia).
      rewrite IH; auto; try (destruct (Z.testbit x 0); lia). f_equal. rewrite Nat2Z.inj_add, <- B. lia.
Qed.

Lemma ffs_thm : forall w v fuel, word w v -> (w <= 64)%nat -> (w <= fuel)%nat ->
  exists r, ffs fuel v = Some r /\ (v = 0 -> r = 0) /\ (v <> 0 -> lowest v (r - 1)) /\ 0 <= r <= Z.of_nat w.
Proof.
  intros w v fuel Hw H64 Hf. unfold ffs. destruct (Z.eqb_spec v 0) as [->|Hv].
  - exists 0. repeat split; try lia; contradiction.
  - destruct (scan_ok w v 1 Hw Hv) with (fuel := fuel) as (k & E & L & K); auto; try (unfold U32; lia).
    exists (1 + k). split; auto. split; [contradiction|]. replace (1 + k - 1) with k by lia.
    split; auto. destruct L. lia.
Qed.

Lemma ctz_thm : forall w v fuel, word w v -> (w <= 64)%nat -> (w <= fuel)%nat ->
  exists r, ctz fuel v = Some r /\ (v = 0 -> r = 0) /\ (v <> 0 -> lowest v r) /\ 0 <= r <= Z.of_nat w.
Proof.
  intros w v fuel Hw H64 Hf. unfold ctz. destruct (Z.eqb_spec v 0) as [->|Hv].
  - exists 0. repeat split; try lia; contradiction.
  - destruct (scan_ok w v 0 Hw Hv) with (fuel := fuel) as (k & E & L & K); auto; try (unfold U32; lia).
    exists k. split; auto. split; [contradiction|]. split; auto. destruct L. lia.
Qed.

Lemma popcount_thm : forall w v fuel, word w v -> (w <= 64)%nat -> (w <= fuel)%nat ->
  popcount fuel v = Some (Z.of_nat (length (members w v))).
Proof.
  intros. unfold popcount. rewrite (count_ok w); auto; try (unfold U32; lia).
Qed.

Lemma lowest_unique : forall v a b, lowest v a -> lowest v b -> a = b.
Proof.
  intros v a b (A0 & A1 & A2) (B0 & B1 & B2). destruct (Z.lt_trichotomy a b) as [H|[H|H]]; auto.
  - rewrite B2 in A1 by lia. discriminate.
  - rewrite A2 in B1 by lia. discriminate.
Qed.
