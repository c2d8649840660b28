(** Packing a pointer and a small number into one word and taking them apart again. *)
From Coq Require Import NArith Bool Lia.
From Verif Require Import HtPack_Model.
Open Scope N_scope.

Lemma ones_low : forall k, 2 ^ k - 1 = N.ones k.
Proof. intros k. rewrite N.ones_equiv. lia. Qed.

Lemma tb_small : forall x k i, x < 2 ^ k -> k <= i -> N.testbit x i = false.
Proof.
  intros x k i H L. destruct (N.eq_dec x 0) as [->|N0]; [apply N.bits_0|].
  apply N.bits_above_log2. apply N.log2_lt_pow2; [lia|].
  eapply N.lt_le_trans; [exact H|]. apply N.pow_le_mono_r; lia.
Qed.

Section P.
Variable B : N.
Hypothesis HB : B < 64.

Lemma up_bits : forall x i, N.testbit (up B x) i = (i <? 64) && (B <=? i) && N.testbit x (i - B).
Proof.
  intros x i. unfold up. destruct (N.ltb_spec i 64) as [L|L].
  - rewrite N.mod_pow2_bits_low by exact L. destruct (N.leb_spec B i) as [M|M]; simpl.
    + apply N.shiftl_spec_high'. exact M.
    + apply N.shiftl_spec_low. exact M.
  - apply N.mod_pow2_bits_high. exact L.
Qed.

Lemma low_part : forall w x, N.land (N.lor w (up B x)) (low B) = w mod 2 ^ B.
Proof.
  intros w x. unfold low. rewrite ones_low, N.land_ones. apply N.bits_inj. intros i.
  destruct (N.lt_ge_cases i B) as [L|L].
  - rewrite !N.mod_pow2_bits_low by exact L. rewrite N.lor_spec, up_bits.
    replace (B <=? i) with false by (symmetry; apply N.leb_gt; exact L). rewrite andb_false_r. apply orb_false_r.
  - rewrite !N.mod_pow2_bits_high by exact L. reflexivity.
Qed.

Lemma high_part : forall w x, w < 2 ^ B -> N.shiftr (N.lor w (up B x)) B = x mod 2 ^ (64 - B).
Proof.
  intros w x H. apply N.bits_inj. intros i. rewrite N.shiftr_spec', N.lor_spec, up_bits.
  rewrite (tb_small w B) by lia. cbn [andb orb].
  replace (B <=? i + B) with true by (symmetry; apply N.leb_le; lia).
  replace (i + B - B) with i by lia.
  destruct (N.ltb_spec (i + B) 64) as [L|L]; cbn [andb orb].
  - rewrite N.mod_pow2_bits_low by lia. reflexivity.
  - rewrite N.mod_pow2_bits_high by lia. reflexivity.
Qed.

Lemma word_range : forall w x, w < 2 ^ 64 -> N.lor w (up B x) < 2 ^ 64.
Proof.
  intros w x H. destruct (N.eq_dec (N.lor w (up B x)) 0) as [->|N0]; [reflexivity|].
  apply N.log2_lt_pow2; [lia|].
  destruct (N.lt_ge_cases (N.log2 (N.lor w (up B x))) 64) as [L|L]; [exact L|exfalso].
  pose proof (N.bit_log2 _ N0) as T. rewrite N.lor_spec, up_bits in T.
  replace (N.log2 (N.lor w (up B x)) <? 64) with false in T by (symmetry; apply N.ltb_ge; exact L).
  rewrite (tb_small w 64) in T by (exact H || exact L). discriminate.
Qed.

Lemma pow_le : 2 ^ B <= 2 ^ 64.
Proof. apply N.pow_le_mono_r; lia. Qed.

Lemma roundtrip : forall h key len value, key < 2 ^ B -> value < 2 ^ B -> len < 2 ^ (64 - B) -> len < 2 ^ 16 ->
  let e := entry_set B h key len value in
  entry_key B e = key /\ entry_key_length B e = len /\ entry_value B e = value /\
  pkey e < 2 ^ 64 /\ pval e < 2 ^ 64 /\ hash_test B e h = true.
Proof.
  intros h key len value Hk Hv Hl H16 e. pose proof pow_le.
  unfold e, entry_key, entry_key_length, entry_value, hash_test, entry_set; cbn [pkey pval].
  rewrite !low_part, !high_part by assumption.
  rewrite (N.mod_small len (2 ^ 16)) by exact H16.
  rewrite (N.mod_small key), (N.mod_small value), (N.mod_small len (2 ^ (64 - B))), (N.mod_small len (2 ^ 16)) by assumption.
  refine (conj eq_refl (conj eq_refl (conj eq_refl (conj _ (conj _ _))))); try (apply word_range; lia).
  unfold kmask. rewrite ones_low, N.land_ones. apply N.eqb_refl.
Qed.

Lemma hash_iff : forall h h' key len value, value < 2 ^ B ->
  (hash_test B (entry_set B h key len value) h' = true <->
   forall i, 32 <= i -> i < 96 - B -> N.testbit h i = N.testbit h' i).
Proof.
  intros h h' key len value Hv. unfold hash_test, entry_set; cbn [pval].
  rewrite high_part by exact Hv. unfold kmask. rewrite ones_low, N.land_ones, N.eqb_eq. split.
  - intros E i L1 L2. assert (T : N.testbit (N.shiftr h 32 mod 2 ^ (64 - B)) (i - 32) = N.testbit (N.shiftr h' 32 mod 2 ^ (64 - B)) (i - 32)) by (rewrite E; reflexivity).
    rewrite !N.mod_pow2_bits_low in T by lia. rewrite !N.shiftr_spec' in T.
    replace (i - 32 + 32) with i in T by lia. exact T.
  - intros H. apply N.bits_inj. intros i. destruct (N.lt_ge_cases i (64 - B)) as [L|L].
    + rewrite !N.mod_pow2_bits_low by exact L. rewrite !N.shiftr_spec'. apply H; lia.
    + rewrite !N.mod_pow2_bits_high by exact L. reflexivity.
Qed.

Lemma special : forall h key len value, key < 2 ^ B -> len < 2 ^ (64 - B) -> len < 2 ^ 16 ->
  (entry_empty (entry_set B h key len value) = true <-> key = 0 /\ len = 0) /\
  (entry_tomb (entry_set B h key len value) = true <-> key = 2 ^ B - 1 /\ len = 2 ^ (64 - B) - 1).
Proof.
  intros h key len value Hk Hl H16. unfold entry_empty, entry_tomb, entry_set; cbn [pkey].
  rewrite (N.mod_small len) by exact H16. rewrite !N.eqb_eq.
  assert (P : forall w, N.lor key (up B len) = w <-> N.land (N.lor key (up B len)) (low B) = N.land w (low B) /\ N.shiftr (N.lor key (up B len)) B = N.shiftr w B).
  { intros w. split; [intros ->; auto|]. intros [E1 E2]. apply N.bits_inj. intros i.
    destruct (N.lt_ge_cases i B) as [L|L].
    - assert (T := f_equal (fun z => N.testbit z i) E1). cbv beta in T. unfold low in T.
      rewrite ones_low, !N.land_ones, !N.mod_pow2_bits_low in T by exact L. exact T.
    - assert (T := f_equal (fun z => N.testbit z (i - B)) E2). cbv beta in T.
      rewrite !N.shiftr_spec' in T. replace (i - B + B) with i in T by lia. exact T. }
  split; rewrite P, low_part, high_part, !N.mod_small by assumption.
  - rewrite N.land_0_l, N.shiftr_0_l. tauto.
  - assert (E1 : N.land (2 ^ 64 - 1) (low B) = 2 ^ B - 1).
    { unfold low. rewrite (ones_low B), N.land_ones, (ones_low 64). rewrite N.ones_mod_pow2 by lia. reflexivity. }
    assert (E2 : N.shiftr (2 ^ 64 - 1) B = 2 ^ (64 - B) - 1).
    { rewrite (ones_low 64), N.shiftr_div_pow2, N.ones_div_pow2 by lia. symmetry. apply ones_low. }
    rewrite E1, E2. tauto.
Qed.

(** a length that does not fit into the bits above the pointer is not the one read back *)
Lemma length_iff : forall h key len value, key < 2 ^ B -> len < 2 ^ 16 ->
  (entry_key_length B (entry_set B h key len value) = len <-> len < 2 ^ (64 - B)).
Proof.
  intros h key len value Hk H16. unfold entry_key_length, entry_set; cbn [pkey].
  rewrite high_part by exact Hk. rewrite (N.mod_small len (2 ^ 16)) by exact H16.
  assert (P : 2 ^ (64 - B) <> 0) by (apply N.pow_nonzero; lia).
  pose proof (N.mod_lt len (2 ^ (64 - B)) P) as M. pose proof (N.mod_le len (2 ^ (64 - B)) P) as M2.
  rewrite (N.mod_small (len mod 2 ^ (64 - B)) (2 ^ 16)) by lia. split; [intros E; lia|].
  intros L. apply N.mod_small. exact L.
Qed.
End P.
