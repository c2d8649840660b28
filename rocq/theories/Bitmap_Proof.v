(** Proofs about bitmaps. *)
From Coq Require Import NArith List Bool Lia Arith.
From Verif Require Import Helpers_Model Helpers_Proof Bitmap_Model.
Import ListNotations.
Local Open Scope N_scope.

(** ** Specification vocabulary *)

(** the indices below [k], ascending *)
Definition upto (k : N) : list N := List.map N.of_nat (seq 0 (N.to_nat k)).

(** membership as reported by the test operation *)
Definition is_set (b : bitmap) (i : N) : bool :=
  match ck_bitmap_test b i with Some r => r | None => false end.

(** shape of a bitmap in memory: as many blocks as init lays out, 32-bit words *)
Definition wf (b : bitmap) : Prop :=
  n_bits b < 2 ^ 32 /\ length (map b) = BLOCKS (n_bits b) /\ Forall (fun w => w < 2 ^ 32) (map b).

(** no bit is set at or beyond the length *)
Definition clean (b : bitmap) : Prop := forall i, n_bits b <= i -> is_set b i = false.

(** ** Bits *)

Definition mem (m : list N) (i : N) : bool := N.testbit (nth (PTR i) m 0) (OFFSET i).

Lemma land_bit : forall w k, negb (N.land w (N.shiftl 1 k) =? 0) = N.testbit w k.
Proof.
  intros. rewrite N.shiftl_1_l. destruct (N.testbit w k) eqn:E.
  - destruct (N.eqb_spec (N.land w (2 ^ k)) 0) as [Z|]; auto.
    assert (N.testbit (N.land w (2 ^ k)) k = true) by (rewrite N.land_spec, E, N.pow2_bits_true; auto).
    rewrite Z, N.bits_0 in H. discriminate.
  - replace (N.land w (2 ^ k)) with 0; auto. symmetry. apply N.bits_inj. intros j. rewrite N.bits_0, N.land_spec, N.pow2_bits_eqb.
    destruct (N.eqb_spec k j); [subst; rewrite E; auto|apply andb_false_r].
Qed.

Lemma test_mem : forall b i, (PTR i < length (map b))%nat -> ck_bitmap_test b i = Some (mem (map b) i).
Proof.
  intros b i H. unfold ck_bitmap_test, mem, BIT.
  destruct (nth_error (map b) (PTR i)) eqn:E.
  - rewrite land_bit. erewrite nth_error_nth; eauto.
  - apply nth_error_None in E. lia.
Qed.

Lemma is_set_mem : forall b i, is_set b i = mem (map b) i.
Proof.
  intros b i. unfold is_set, ck_bitmap_test, mem, BIT. destruct (nth_error (map b) (PTR i)) eqn:E.
  - rewrite land_bit. erewrite nth_error_nth; eauto.
  - apply nth_error_None in E. rewrite nth_overflow by auto. rewrite N.bits_0. auto.
Qed.

Lemma blocks_bound : forall n i, i < n -> (PTR i < BLOCKS n)%nat.
Proof.
  intros n i H. unfold PTR, BLOCKS, BLOCK.
  assert (i / 32 < (n + 32 - 1) / 32); [|lia].
  pose proof (N.div_mod (n + 32 - 1) 32 ltac:(lia)). pose proof (N.mod_lt (n + 32 - 1) 32 ltac:(lia)).
  apply N.div_lt_upper_bound; lia.
Qed.

Lemma blocks_over : forall n i, 32 * N.of_nat (BLOCKS n) <= i -> n <= i.
Proof.
  intros n i H. unfold BLOCKS, BLOCK in H. rewrite N2Nat.id in H.
  pose proof (N.div_mod (n + 32 - 1) 32 ltac:(lia)). pose proof (N.mod_lt (n + 32 - 1) 32 ltac:(lia)). lia.
Qed.

Lemma blocks_mono : forall a b, a <= b -> (BLOCKS a <= BLOCKS b)%nat.
Proof.
  intros. unfold BLOCKS, BLOCK.
  assert ((a + 32 - 1) / 32 <= (b + 32 - 1) / 32) by (apply N.div_le_mono; lia). lia.
Qed.

Lemma wf_ptr : forall b i, wf b -> i < n_bits b -> (PTR i < length (map b))%nat.
Proof. intros b i [_ [H _]] Hi. rewrite H. apply blocks_bound; auto. Qed.

Lemma PTR_of : forall k j, j < 32 -> PTR (32 * N.of_nat k + j) = k.
Proof.
  intros. unfold PTR, BLOCK. replace (32 * N.of_nat k + j) with (j + N.of_nat k * 32) by lia.
  rewrite N.div_add, N.div_small by lia. lia.
Qed.
Lemma OFFSET_of : forall k j, j < 32 -> OFFSET (32 * N.of_nat k + j) = j.
Proof.
  intros. unfold OFFSET, BLOCK. replace (32 * N.of_nat k + j) with (j + N.of_nat k * 32) by lia.
  rewrite N.mod_add, N.mod_small by lia. lia.
Qed.
Lemma idx_split : forall i, i = 32 * N.of_nat (PTR i) + OFFSET i.
Proof. intros. unfold PTR, OFFSET, BLOCK. rewrite N2Nat.id. apply N.div_mod. lia. Qed.
Lemma OFFSET_lt : forall i, OFFSET i < 32.
Proof. intros. apply N.mod_lt. discriminate. Qed.
Lemma idx_inj : forall i j, PTR i = PTR j -> OFFSET i = OFFSET j -> i = j.
Proof. intros i j H1 H2. rewrite (idx_split i), (idx_split j), H1, H2. auto. Qed.

(** ** Lists *)

Lemma lset_length : forall m n v, length (lset m n v) = length m.
Proof. induction m; destruct n; simpl; intros; auto. Qed.
Lemma lset_nth : forall m n v k, (n < length m)%nat -> nth k (lset m n v) 0 = if Nat.eqb k n then v else nth k m 0.
Proof.
  induction m; intros n v k H; simpl in H; [lia|].
  destruct n, k; simpl; auto. rewrite IHm by lia. auto.
Qed.
Lemma lset_Forall : forall (P : N -> Prop) m n v, Forall P m -> P v -> Forall P (lset m n v).
Proof. induction m; destruct n; simpl; intros v H1 H2; auto; inversion H1; subst; constructor; auto. Qed.
Lemma nth_Forall : forall m k, Forall (fun w => w < 2 ^ 32) m -> nth k m 0 < 2 ^ 32.
Proof.
  intros. destruct (Nat.lt_ge_cases k (length m)).
  - rewrite Forall_forall in H. apply H, nth_In; auto.
  - rewrite nth_overflow by auto. reflexivity.
Qed.
Lemma nth_error_ok : forall (m : list N) k, (k < length m)%nat -> nth_error m k = Some (nth k m 0).
Proof. intros. apply nth_error_nth'; auto. Qed.

Lemma lt32_bits : forall w, (forall j, 32 <= j -> N.testbit w j = false) <-> w < 2 ^ 32.
Proof.
  intros w. split; intros H.
  - destruct (N.eq_dec w 0); [subst; reflexivity|].
    apply N.log2_lt_pow2; [lia|]. destruct (N.lt_ge_cases (N.log2 w) 32); auto.
    pose proof (N.bit_log2 w n). rewrite H in H1; auto; discriminate.
  - intros j Hj. destruct (N.eq_dec w 0); [subst; apply N.bits_0|].
    apply N.bits_above_log2. apply N.log2_lt_pow2 in H; lia.
Qed.

Lemma not32_spec : forall x j, N.testbit (not32 x) j = xorb (N.testbit x j) (j <? 32).
Proof.
  intros. unfold not32, all1. rewrite N.lxor_spec. destruct (N.ltb_spec j 32).
  - rewrite N.ones_spec_low by auto. auto.
  - rewrite N.ones_spec_high by auto. auto.
Qed.

(** ** The word loop *)

Lemma for_blocks_ok : forall g body cnt n m,
  (n + cnt <= length m)%nat ->
  (forall k, (n <= k < n + cnt)%nat -> body k (nth k m 0) = Some (g k (nth k m 0))) ->
  exists m', for_blocks cnt n body m = Some m' /\ length m' = length m /\
    forall k, nth k m' 0 = if Nat.leb n k && Nat.ltb k (n + cnt) then g k (nth k m 0) else nth k m 0.
Proof.
  intros g body. induction cnt as [|cnt IH]; intros n m Hl Hb; simpl.
  - exists m. repeat split; auto. intros k.
    destruct (Nat.leb_spec n k), (Nat.ltb_spec k (n + 0)); simpl; auto; lia.
  - rewrite nth_error_ok by lia. rewrite Hb by lia.
    destruct (IH (S n) (lset m n (g n (nth n m 0)))) as [m' [H1 [H2 H3]]].
    + rewrite lset_length. lia.
    + intros k Hk. rewrite lset_nth by lia. destruct (Nat.eqb_spec k n); [lia|]. apply Hb. lia.
    + exists m'. rewrite H1. rewrite H2, lset_length. repeat split; auto.
      intros k. rewrite H3, lset_nth by lia.
      destruct (Nat.leb_spec (S n) k), (Nat.ltb_spec k (S n + cnt)), (Nat.leb_spec n k), (Nat.ltb_spec k (n + S cnt)),
        (Nat.eqb_spec k n); simpl; subst; auto; lia.
Qed.

Lemma Forall_nth_lt : forall m, (forall k, nth k m 0 < 2 ^ 32) -> Forall (fun w => w < 2 ^ 32) m.
Proof. intros m H. apply Forall_forall. intros x Hx. destruct (In_nth _ _ 0 Hx) as [k [_ <-]]. auto. Qed.

Lemma lor_lt : forall a b, a < 2 ^ 32 -> b < 2 ^ 32 -> N.lor a b < 2 ^ 32.
Proof. intros a b Ha Hb. rewrite <- lt32_bits in *. intros. rewrite N.lor_spec, Ha, Hb; auto. Qed.
Lemma land_lt : forall a b, a < 2 ^ 32 -> N.land a b < 2 ^ 32.
Proof. intros a b Ha. rewrite <- lt32_bits in *. intros. rewrite N.land_spec, Ha; auto. Qed.

(** ** Single-bit operations *)

Definition same_shape (b b' : bitmap) : Prop := n_bits b' = n_bits b /\ wf b'.

Lemma rmw_ok : forall b n f, wf b -> n < n_bits b ->
  (forall w, w < 2 ^ 32 -> f w < 2 ^ 32) ->
  exists b', with_map b (rmw (map b) (PTR n) f) = Some b' /\ same_shape b b' /\
    forall i, is_set b' i = if Nat.eqb (PTR i) (PTR n) then N.testbit (f (nth (PTR n) (map b) 0)) (OFFSET i) else is_set b i.
Proof.
  intros b n f Hw Hn Hf. pose proof (wf_ptr b n Hw Hn) as Hp. unfold rmw. rewrite nth_error_ok by auto.
  eexists. split; [reflexivity|]. destruct Hw as [W1 [W2 W3]]. split.
  - split; auto. split; [exact W1|]. split; [simpl; rewrite lset_length; auto|].
    simpl. apply lset_Forall; auto. apply Hf, nth_Forall; auto.
  - intros i. rewrite !is_set_mem. unfold mem. simpl. rewrite lset_nth by auto.
    destruct (Nat.eqb_spec (PTR i) (PTR n)); auto.
Qed.

Lemma BIT_lt : forall n, BIT n < 2 ^ 32.
Proof. intros. unfold BIT. rewrite N.shiftl_1_l. apply N.pow_lt_mono_r; [lia|apply OFFSET_lt]. Qed.

Lemma BIT_spec : forall n j, N.testbit (BIT n) j = (OFFSET n =? j).
Proof. intros. unfold BIT. rewrite N.shiftl_1_l. apply N.pow2_bits_eqb. Qed.

Lemma same_idx : forall i n, PTR i = PTR n -> (OFFSET n =? OFFSET i) = (i =? n).
Proof.
  intros i n H. destruct (N.eqb_spec (OFFSET n) (OFFSET i)) as [E|E], (N.eqb_spec i n) as [F|F]; auto; try congruence.
  - elim F. apply idx_inj; auto.
Qed.

Lemma diff_idx : forall i n, PTR i <> PTR n -> (i =? n) = false.
Proof. intros i n H. apply N.eqb_neq. intros ->. auto. Qed.

Lemma set_ok : forall b n, wf b -> n < n_bits b ->
  exists b', ck_bitmap_set b n = Some b' /\ same_shape b b' /\
    forall i, is_set b' i = (i =? n) || is_set b i.
Proof.
  intros b n Hw Hn. destruct (rmw_ok b n (fun w => N.lor w (BIT n)) Hw Hn) as [b' [H1 [H2 H3]]].
  - intros. apply lor_lt; auto. apply BIT_lt.
  - exists b'. split; auto. split; auto. intros i. rewrite H3. destruct (Nat.eqb_spec (PTR i) (PTR n)) as [E|E].
    + rewrite N.lor_spec, BIT_spec, same_idx by auto. rewrite is_set_mem. unfold mem. rewrite E. apply orb_comm.
    + rewrite diff_idx by auto. auto.
Qed.

Lemma reset_ok : forall b n, wf b -> n < n_bits b ->
  exists b', ck_bitmap_reset b n = Some b' /\ same_shape b b' /\
    forall i, is_set b' i = negb (i =? n) && is_set b i.
Proof.
  intros b n Hw Hn. destruct (rmw_ok b n (fun w => N.land w (not32 (BIT n))) Hw Hn) as [b' [H1 [H2 H3]]].
  - intros. apply land_lt; auto.
  - exists b'. split; auto. split; auto. intros i. rewrite H3. destruct (Nat.eqb_spec (PTR i) (PTR n)) as [E|E].
    + rewrite N.land_spec, not32_spec, BIT_spec, same_idx by auto. rewrite is_set_mem. unfold mem. rewrite E.
      pose proof (OFFSET_lt i) as L. apply N.ltb_lt in L. rewrite L, xorb_true_r. apply andb_comm.
    + rewrite diff_idx by auto. auto.
Qed.

Lemma bts_ok : forall b n, wf b -> n < n_bits b ->
  exists b', ck_bitmap_bts b n = Some (b', is_set b n) /\ same_shape b b' /\
    forall i, is_set b' i = (i =? n) || is_set b i.
Proof.
  intros b n Hw Hn. pose proof (wf_ptr b n Hw Hn) as Hp. unfold ck_bitmap_bts. rewrite nth_error_ok by auto.
  rewrite is_set_mem. unfold mem. eexists. split; [reflexivity|].
  destruct Hw as [W1 [W2 W3]]. split.
  - split; auto. split; [exact W1|]. split; [simpl; rewrite lset_length; auto|].
    simpl. apply lset_Forall; auto. rewrite N.setbit_spec'. apply lor_lt; [apply nth_Forall; auto|].
    apply N.pow_lt_mono_r; [lia|apply OFFSET_lt].
  - intros i. rewrite !is_set_mem. unfold mem. simpl. rewrite lset_nth by auto.
    destruct (Nat.eqb_spec (PTR i) (PTR n)) as [E|E].
    + rewrite N.setbit_eqb, same_idx by auto. rewrite E. auto.
    + rewrite diff_idx by auto. auto.
Qed.

Lemma test_ok : forall b n, wf b -> n < n_bits b -> ck_bitmap_test b n = Some (is_set b n).
Proof. intros. rewrite is_set_mem. apply test_mem, wf_ptr; auto. Qed.

(** ** Bulk operations *)

Lemma load_ok : forall m n f, (n < length m)%nat -> load m n f = Some (f (nth n m 0)).
Proof. intros. unfold load. rewrite nth_error_ok; auto. Qed.

Lemma min_bits : forall a b : N, (if a <? b then a else b) = N.min a b.
Proof. intros. destruct (N.ltb_spec a b); lia. Qed.

Definition blk_of (k : nat) : N -> bool := fun i => Nat.ltb (PTR i) k.

Lemma bulk_ok : forall b g body,
  wf b -> (forall k w, w < 2 ^ 32 -> g k w < 2 ^ 32) ->
  forall k, (k <= BLOCKS (n_bits b))%nat ->
  (forall j, (j < k)%nat -> body j (nth j (map b) 0) = Some (g j (nth j (map b) 0))) ->
  exists b', with_map b (for_blocks k 0 body (map b)) = Some b' /\ same_shape b b' /\
    forall i, is_set b' i = if Nat.ltb (PTR i) k then N.testbit (g (PTR i) (nth (PTR i) (map b) 0)) (OFFSET i) else is_set b i.
Proof.
  intros b g body [W1 [W2 W3]] Hg k Hk Hb.
  destruct (for_blocks_ok g body k 0 (map b)) as [m' [H1 [H2 H3]]]; [lia|intros; apply Hb; lia|].
  rewrite H1. eexists. split; [reflexivity|]. split.
  - split; auto. split; auto. split; [simpl; lia|]. simpl. apply Forall_nth_lt. intros j. rewrite H3.
    pose proof (nth_Forall _ j W3). destruct (_ && _); auto.
  - intros i. rewrite !is_set_mem. unfold mem. simpl. rewrite H3. simpl. destruct (Nat.ltb_spec (PTR i) k); auto.
Qed.

Lemma union_ok : forall d s, wf d -> wf s ->
  exists d', ck_bitmap_union d s = Some d' /\ same_shape d d' /\
    forall i, is_set d' i = is_set d i || (blk_of (BLOCKS (N.min (n_bits s) (n_bits d))) i && is_set s i).
Proof.
  intros d s Hd Hs. unfold ck_bitmap_union. rewrite min_bits.
  set (k := BLOCKS (N.min (n_bits s) (n_bits d))).
  assert (K1 : (k <= BLOCKS (n_bits d))%nat) by (apply blocks_mono; lia).
  assert (K2 : (k <= BLOCKS (n_bits s))%nat) by (apply blocks_mono; lia).
  destruct (bulk_ok d (fun n w => N.lor w (nth n (map s) 0)) (fun n w => load (map s) n (fun x => N.lor w x)) Hd) with (k := k) as [d' [H1 [H2 H3]]]; auto.
  - intros. apply lor_lt; auto. apply nth_Forall. apply Hs.
  - intros. apply load_ok. destruct Hs as [_ [-> _]]. lia.
  - exists d'. split; auto. split; auto. intros i. rewrite H3, !is_set_mem. unfold blk_of, mem.
    destruct (Nat.ltb (PTR i) k); simpl; [rewrite N.lor_spec; auto|rewrite orb_false_r; auto].
Qed.

Lemma negate_ok : forall d s, wf d -> wf s ->
  exists d', ck_bitmap_intersection_negate d s = Some d' /\ same_shape d d' /\
    forall i, is_set d' i = is_set d i && negb (blk_of (BLOCKS (N.min (n_bits s) (n_bits d))) i && is_set s i).
Proof.
  intros d s Hd Hs. unfold ck_bitmap_intersection_negate. rewrite min_bits.
  set (k := BLOCKS (N.min (n_bits s) (n_bits d))).
  assert (K1 : (k <= BLOCKS (n_bits d))%nat) by (apply blocks_mono; lia).
  assert (K2 : (k <= BLOCKS (n_bits s))%nat) by (apply blocks_mono; lia).
  destruct (bulk_ok d (fun n w => N.land w (not32 (nth n (map s) 0))) (fun n w => load (map s) n (fun x => N.land w (not32 x))) Hd) with (k := k) as [d' [H1 [H2 H3]]]; auto.
  - intros. apply land_lt; auto.
  - intros. apply load_ok. destruct Hs as [_ [-> _]]. lia.
  - exists d'. split; auto. split; auto. intros i. rewrite H3, !is_set_mem. unfold blk_of, mem.
    destruct (Nat.ltb (PTR i) k); simpl; [|rewrite andb_true_r; auto].
    rewrite N.land_spec, not32_spec. pose proof (OFFSET_lt i) as L. apply N.ltb_lt in L. rewrite L, xorb_true_r. auto.
Qed.

Lemma clear_ok : forall d, wf d ->
  exists d', ck_bitmap_clear d = Some d' /\ same_shape d d' /\ forall i, is_set d' i = false.
Proof.
  intros d Hd. unfold ck_bitmap_clear.
  destruct (bulk_ok d (fun _ _ => 0) (fun _ _ => Some 0) Hd) with (k := BLOCKS (n_bits d)) as [d' [H1 [H2 H3]]]; auto.
  - intros. reflexivity.
  - exists d'. split; auto. split; auto. intros i. rewrite H3. destruct (Nat.ltb_spec (PTR i) (BLOCKS (n_bits d))); [apply N.bits_0|].
    rewrite is_set_mem. unfold mem. rewrite nth_overflow; [apply N.bits_0|]. destruct Hd as [_ [-> _]]. auto.
Qed.

Lemma intersection_ok : forall d s, wf d -> wf s ->
  exists d', ck_bitmap_intersection d s = Some d' /\ same_shape d d' /\
    forall i, is_set d' i = is_set d i && (blk_of (BLOCKS (N.min (n_bits s) (n_bits d))) i && is_set s i).
Proof.
  intros d s Hd Hs. unfold ck_bitmap_intersection. rewrite min_bits.
  set (k := BLOCKS (N.min (n_bits s) (n_bits d))).
  assert (K1 : (k <= BLOCKS (n_bits d))%nat) by (apply blocks_mono; lia).
  assert (K2 : (k <= BLOCKS (n_bits s))%nat) by (apply blocks_mono; lia).
  destruct Hd as [D1 [D2 D3]].
  destruct (for_blocks_ok (fun n w => N.land w (nth n (map s) 0)) (fun n w => load (map s) n (fun x => N.land w x)) k 0 (map d)) as [m [H1 [H2 H3]]]; [lia| |].
  { intros. apply load_ok. destruct Hs as [_ [-> _]]. lia. }
  rewrite H1.
  destruct (for_blocks_ok (fun _ _ => 0) (fun _ _ => Some 0) (BLOCKS (n_bits d) - k) k m) as [m' [H4 [H5 H6]]]; [lia|auto|].
  rewrite H4. eexists. split; [reflexivity|]. split.
  - split; auto. split; auto. split; [simpl; lia|]. simpl. apply Forall_nth_lt. intros j. rewrite H6.
    destruct (_ && _); [reflexivity|]. rewrite H3. pose proof (nth_Forall _ j D3).
    destruct (_ && _); auto. apply land_lt; auto.
  - intros i. rewrite !is_set_mem. unfold blk_of, mem. simpl. rewrite H6, H3. simpl.
    destruct (Nat.ltb_spec (PTR i) k); simpl.
    + destruct (Nat.leb_spec k (PTR i)); [lia|]. simpl. apply N.land_spec.
    + destruct (Nat.leb_spec k (PTR i)); [|lia].
      destruct (Nat.ltb_spec (PTR i) (k + (BLOCKS (n_bits d) - k))); simpl.
      * rewrite ?N.bits_0, ?andb_false_r; auto.
      * rewrite nth_overflow by lia. rewrite ?N.bits_0. auto.
Qed.

(** ** Initialisation *)

Lemma slop_mask_ones : forall s, slop_mask s = N.ones s.
Proof. intros. unfold slop_mask. rewrite N.shiftl_1_l, N.ones_equiv, N.pred_sub. auto. Qed.

Lemma repeat_nth : forall (v : N) k n, nth k (repeat v n) 0 = if Nat.ltb k n then v else 0.
Proof.
  intros v k n. revert k. induction n; intros k; simpl; [destruct k; auto|].
  destruct k; simpl; auto. apply IHn.
Qed.

Lemma init_ok : forall n set, n < 2 ^ 32 ->
  exists b, ck_bitmap_init n set = Some b /\ n_bits b = n /\ wf b /\
    forall i, is_set b i = set && (i <? n).
Proof.
  intros n set Hn. unfold ck_bitmap_init. destruct set.
  - assert (B0 : all1 < 2 ^ 32) by reflexivity.
    assert (Hbit : forall j, j < 32 -> N.testbit all1 j = true) by (intros; apply N.ones_spec_low; auto).
    destruct (N.eqb_spec (n mod BLOCK) 0) as [E|E].
    + eexists. split; [reflexivity|]. split; auto. split.
      * split; auto. split; [simpl; rewrite repeat_length; auto|]. simpl. apply Forall_nth_lt. intros. rewrite repeat_nth.
        destruct (Nat.ltb _ _); auto; reflexivity.
      * intros i. rewrite is_set_mem. unfold mem. simpl. rewrite repeat_nth.
        assert (Hq : (Nat.ltb (PTR i) (BLOCKS n)) = (i <? n)).
        { destruct (N.ltb_spec i n) as [L|L].
          - apply Nat.ltb_lt, blocks_bound; auto.
          - apply Nat.ltb_ge. unfold PTR, BLOCKS. unfold BLOCK in *.
            pose proof (N.div_mod n 32 ltac:(lia)) as Q. rewrite E in Q.
            replace ((n + 32 - 1) / 32) with (n / 32).
            2:{ rewrite Q at 2. replace (32 * (n / 32) + 0 + 32 - 1) with (31 + n / 32 * 32) by lia. rewrite N.div_add by lia. change (31 / 32) with 0. lia. }
            assert (n / 32 <= i / 32) by (apply N.div_le_mono; lia). lia. }
        rewrite Hq. destruct (i <? n); [apply Hbit, OFFSET_lt|apply N.bits_0].
    + assert (N0 : n <> 0) by (intros ->; apply E; reflexivity).
      assert (P : (PTR (n - 1) < BLOCKS n)%nat) by (apply blocks_bound; lia).
      assert (PB : PTR (n - 1) = PTR n).
      { unfold PTR, BLOCK in *. assert (Q : (n - 1) / 32 = n / 32); [|rewrite Q; auto]. pose proof (N.div_mod n 32 ltac:(lia)). pose proof (N.mod_lt n 32 ltac:(lia)).
        symmetry. clear P Hbit B0. apply N.div_unique with (n mod 32 - 1); generalize dependent (n mod 32); generalize dependent (n / 32); intros; lia. }
      assert (BN : BLOCKS n = S (PTR n)).
      { unfold BLOCKS, PTR, BLOCK in *. pose proof (N.div_mod n 32 ltac:(lia)). pose proof (N.mod_lt n 32 ltac:(lia)).
        replace ((n + 32 - 1) / 32) with (n / 32 + 1); [lia|]. clear P PB Hbit B0; apply N.div_unique with (n mod 32 - 1); generalize dependent (n mod 32); generalize dependent (n / 32); intros; lia. }
      unfold rmw. rewrite nth_error_ok by (rewrite repeat_length; auto).
      eexists. split; [reflexivity|]. split; auto. split.
      * split; auto. split; [simpl; rewrite lset_length, repeat_length; auto|]. simpl. apply Forall_nth_lt. intros.
        rewrite lset_nth by (rewrite repeat_length; auto). rewrite !repeat_nth.
        destruct (Nat.eqb _ _); [apply land_lt|]; destruct (Nat.ltb _ _); auto; reflexivity.
      * intros i. rewrite is_set_mem. unfold mem. simpl. rewrite lset_nth by (rewrite repeat_length; auto). rewrite !repeat_nth.
        rewrite PB in *. apply Nat.ltb_lt in P. rewrite P.
        destruct (Nat.eqb_spec (PTR i) (PTR n)) as [F|F].
        -- rewrite N.land_spec, Hbit, slop_mask_ones by apply OFFSET_lt. simpl.
           pose proof (idx_split i) as S1. pose proof (idx_split n) as S2. rewrite F in S1. unfold OFFSET in S2 at 1.
           destruct (N.ltb_spec i n).
           ++ apply N.ones_spec_low. unfold OFFSET in *. lia.
           ++ apply N.ones_spec_high. unfold OFFSET in *. lia.
        -- pose proof (idx_split i) as S1. pose proof (idx_split n) as S2. pose proof (OFFSET_lt i). pose proof (OFFSET_lt n).
           rewrite BN. destruct (N.ltb_spec i n), (Nat.ltb_spec (PTR i) (S (PTR n))).
           ++ apply Hbit; auto.
           ++ lia.
           ++ lia.
           ++ apply N.bits_0.
  - eexists. split; [reflexivity|]. split; auto. split.
    + split; auto. split; [simpl; rewrite repeat_length; auto|]. simpl. apply Forall_nth_lt. intros. rewrite repeat_nth.
      destruct (Nat.ltb _ _); reflexivity.
    + intros i. rewrite is_set_mem. unfold mem. simpl. rewrite repeat_nth. destruct (Nat.ltb _ _); apply N.bits_0.
Qed.

(** ** Counting and enumerating *)

Lemma upto_S : forall k, upto (N.of_nat (S k)) = upto (N.of_nat k) ++ [N.of_nat k].
Proof. intros. unfold upto. rewrite !Nat2N.id. rewrite seq_S, map_app. auto. Qed.

Lemma upto_add : forall a b, upto (N.of_nat (a + b)) = upto (N.of_nat a) ++ List.map (N.add (N.of_nat a)) (upto (N.of_nat b)).
Proof.
  intros. unfold upto. rewrite !Nat2N.id, seq_app, map_app. f_equal. simpl.
  rewrite map_map. assert (G : forall z, List.map N.of_nat (seq (a + z) b) = List.map (fun x => N.of_nat a + N.of_nat x) (seq z b)).
  { induction b; intros z; simpl; auto. f_equal; [lia|]. replace (S (a + z)) with (a + S z)%nat by lia. auto. }
  specialize (G 0%nat). rewrite Nat.add_0_r in G. auto.
Qed.

Lemma upto_in : forall k i, In i (upto k) <-> i < k.
Proof.
  intros. unfold upto. rewrite in_map_iff. split.
  - intros [x [<- H]]. apply in_seq in H. lia.
  - intros H. exists (N.to_nat i). split; [lia|]. apply in_seq. lia.
Qed.

Lemma filter_map : forall (f : N -> bool) (g : N -> N) (l : list N), filter f (List.map g l) = List.map g (filter (fun x => f (g x)) l).
Proof. induction l; simpl; auto. destruct (f (g a)); simpl; rewrite IHl; auto. Qed.

Lemma filter_ext_in' : forall (f g : N -> bool) l, (forall x, In x l -> f x = g x) -> filter f l = filter g l.
Proof. intros. apply filter_ext_in; auto. Qed.

Definition bits (w : N) (s : N) : list N := filter (N.testbit w) (upto s).

Lemma filter_block : forall m k s, s <= 32 ->
  filter (mem m) (List.map (N.add (N.of_nat (32 * k))) (upto s)) =
  List.map (N.add (N.of_nat (32 * k))) (bits (nth k m 0) s).
Proof.
  intros. rewrite filter_map. f_equal. unfold bits. apply filter_ext_in. intros x Hx. apply upto_in in Hx.
  unfold mem. rewrite Nat2N.inj_mul. rewrite PTR_of, OFFSET_of by lia. auto.
Qed.

Strategy 1000 [upto bits].

Lemma bits_below_len : forall k w, bits_below k w = N.of_nat (length (bits w (N.of_nat k))).
Proof.
  unfold bits. induction k; intros w; [reflexivity|]. rewrite upto_S, filter_app, app_length. simpl bits_below. rewrite IHk.
  simpl. destruct (N.testbit w (N.of_nat k)); simpl; lia.
Qed.

Lemma popcount_bits : forall w, w < 2 ^ 32 -> ck_cc_popcount 32 w = Some (N.of_nat (length (bits w 32))).
Proof. intros. rewrite popcount_ok by auto. rewrite bits_below_len. auto. Qed.

Lemma filter_none : forall (f : N -> bool) l, (forall x, In x l -> f x = false) -> filter f l = [].
Proof. induction l; simpl; intros; auto. rewrite H by auto. apply IHl. auto. Qed.

Lemma bits_mask : forall w s, s <= 32 -> length (bits (N.land w (slop_mask s)) 32) = length (bits w s).
Proof.
  intros w s Hs. unfold bits. rewrite slop_mask_ones.
  replace 32 with (N.of_nat (N.to_nat s + N.to_nat (32 - s))) by lia.
  rewrite upto_add, filter_app, app_length. rewrite N2Nat.id.
  rewrite (filter_ext_in (N.testbit (N.land w (N.ones s))) (N.testbit w) (upto s)).
  2:{ intros x Hx. apply upto_in in Hx. rewrite N.land_spec, N.ones_spec_low by auto. apply andb_true_r. }
  rewrite (filter_none _ (List.map _ _)).
  - simpl. lia.
  - intros x Hx. apply in_map_iff in Hx. destruct Hx as [y [<- _]]. rewrite N.land_spec, N.ones_spec_high by lia. apply andb_false_r.
Qed.

Lemma filter_len_le : forall (f : N -> bool) l, (length (filter f l) <= length l)%nat.
Proof. induction l; simpl; auto. destruct (f a); simpl; lia. Qed.

Lemma upto_len : forall k, length (upto k) = N.to_nat k.
Proof. intros. unfold upto. rewrite map_length, seq_length. auto. Qed.

Lemma split_limit : forall limit, exists k s, limit = N.of_nat (32 * k + s) /\ (s < 32)%nat /\
  N.to_nat (limit / 32) = k /\ limit mod 32 = N.of_nat s.
Proof.
  intros. exists (N.to_nat (limit / 32)), (N.to_nat (limit mod 32)).
  pose proof (N.div_mod limit 32 ltac:(lia)). pose proof (N.mod_lt limit 32 ltac:(lia)). repeat split; lia.
Qed.

Section Count.
Variable m : list N.
Variable word : nat -> option N.
Hypothesis Hm : Forall (fun w => w < 2 ^ 32) m.
Variable lim : N.
Hypothesis Hlim : lim < 2 ^ 32.
Hypothesis Hword : forall i, 32 * N.of_nat i < lim -> word i = Some (nth i m 0).

Lemma sum_blocks_ok : forall words i count,
  32 * N.of_nat (i + words) <= lim ->
  count = N.of_nat (length (filter (mem m) (upto (N.of_nat (32 * i))))) ->
  sum_blocks words i word count = Some (N.of_nat (length (filter (mem m) (upto (N.of_nat (32 * (i + words))))))).
Proof.
  induction words as [|words IH]; intros i count Hi Hc; simpl.
  - rewrite Nat.add_0_r. rewrite Hc. auto.
  - rewrite Hword by lia. rewrite popcount_bits by (apply nth_Forall; auto).
    replace (i + S words)%nat with (S i + words)%nat by lia. apply IH; [lia|].
    replace (32 * S i)%nat with (32 * i + 32)%nat by lia. rewrite upto_add, filter_app, app_length.
    rewrite filter_block by reflexivity. rewrite map_length. rewrite Hc.
    unfold w32. rewrite N.mod_small; [rewrite Nat2N.inj_add; auto|].
    pose proof (filter_len_le (mem m) (upto (N.of_nat (32 * i)))). rewrite upto_len in H.
    pose proof (filter_len_le (N.testbit (nth i m 0)) (upto 32)). rewrite upto_len in H0. unfold bits. lia.
Qed.

Lemma count_words_ok : count_words lim word = Some (N.of_nat (length (filter (mem m) (upto lim)))).
Proof.
  unfold count_words, BLOCK. destruct (split_limit lim) as [k [s [E [Hs [Ek Es]]]]]. rewrite Ek, Es.
  rewrite sum_blocks_ok; [|lia|reflexivity]. simpl plus.
  destruct (N.ltb_spec 0 (N.of_nat s)).
  - rewrite Hword by lia. rewrite popcount_bits by (apply land_lt, nth_Forall; auto).
    rewrite bits_mask by lia. rewrite E, upto_add, filter_app, app_length, filter_block by lia. rewrite map_length.
    f_equal. unfold w32. rewrite N.mod_small; [lia|].
    pose proof (filter_len_le (mem m) (upto (N.of_nat (32 * k)))) as Q1. rewrite upto_len in Q1.
    pose proof (filter_len_le (N.testbit (nth k m 0)) (upto (N.of_nat s))) as Q2. rewrite upto_len in Q2. unfold bits. lia.
  - f_equal. f_equal. f_equal. f_equal. f_equal. lia.
Qed.
End Count.

Lemma clip_min : forall l n, clip l n = N.min l n.
Proof. intros. unfold clip. destruct (N.ltb_spec n l); lia. Qed.

Lemma wf_block : forall b i lim, wf b -> lim <= n_bits b -> 32 * N.of_nat i < lim -> nth_error (map b) i = Some (nth i (map b) 0).
Proof.
  intros b i lim Hw Hl Hi. apply nth_error_ok. pose proof (wf_ptr b (32 * N.of_nat i + 0) Hw ltac:(lia)).
  rewrite PTR_of in H by lia. auto.
Qed.

Lemma count_ok : forall b limit, wf b ->
  ck_bitmap_count b limit = Some (N.of_nat (length (filter (is_set b) (upto (N.min limit (n_bits b)))))).
Proof.
  intros b limit Hw. unfold ck_bitmap_count. rewrite clip_min.
  rewrite count_words_ok with (m := map b).
  - do 3 f_equal. apply filter_ext. intros. symmetry. apply is_set_mem.
  - apply Hw.
  - destruct Hw. lia.
  - intros. eapply wf_block; eauto. lia.
Qed.

Fixpoint zip_land (x y : list N) : list N :=
  match x, y with a :: x, b :: y => N.land a b :: zip_land x y | _, _ => [] end.
Lemma zip_land_nth : forall x y k, nth k (zip_land x y) 0 = N.land (nth k x 0) (nth k y 0).
Proof.
  induction x; destruct y, k; simpl; auto; rewrite ?N.land_0_r; auto.
Qed.

Lemma count_intersect_ok : forall x y limit, wf x -> wf y ->
  ck_bitmap_count_intersect x y limit =
  Some (N.of_nat (length (filter (fun i => is_set x i && is_set y i) (upto (N.min limit (N.min (n_bits x) (n_bits y))))))).
Proof.
  intros x y limit Hx Hy. unfold ck_bitmap_count_intersect. rewrite !clip_min.
  replace (N.min (N.min limit (n_bits x)) (n_bits y)) with (N.min limit (N.min (n_bits x) (n_bits y))) by lia.
  rewrite count_words_ok with (m := zip_land (map x) (map y)).
  - do 3 f_equal. apply filter_ext. intros. rewrite !is_set_mem. unfold mem. rewrite zip_land_nth. apply N.land_spec.
  - apply Forall_nth_lt. intros. rewrite zip_land_nth. apply land_lt, nth_Forall, Hx.
  - destruct Hx. lia.
  - intros. rewrite (wf_block x i (N.min limit (N.min (n_bits x) (n_bits y))) Hx) by (auto; lia).
    rewrite (wf_block y i (N.min limit (N.min (n_bits x) (n_bits y))) Hy) by (auto; lia).
    rewrite zip_land_nth. auto.
Qed.

(** ** empty and full *)

Lemma all_blocks_ok : forall (m : list N) ok (P : N -> bool) words i,
  (i + words <= length m)%nat ->
  (forall k, (k < length m)%nat -> (ok (nth k m 0) = true <-> forall j, j < 32 -> P (32 * N.of_nat k + j) = true)) ->
  exists r, all_blocks words i ok m = Some r /\
    (r = true <-> forall x, 32 * N.of_nat i <= x < 32 * N.of_nat (i + words) -> P x = true).
Proof.
  intros m ok P. induction words as [|words IH]; intros i Hl Hok; cbn [all_blocks].
  - exists true. split; auto. split; auto. intros _ x Hx. lia.
  - rewrite nth_error_ok by lia. destruct (ok (nth i m 0)) eqn:E.
    + destruct (IH (S i)) as [r [H1 H2]]; [lia|auto|]. exists r. split; auto. rewrite H2.
      pose proof (proj1 (Hok i ltac:(lia)) E) as E1. split; intros H x Hx.
      * destruct (N.lt_ge_cases x (32 * N.of_nat (S i))).
        -- replace x with (32 * N.of_nat i + (x - 32 * N.of_nat i)) by lia. apply E1. lia.
        -- apply H. lia.
      * apply H. lia.
    + exists false. split; auto. split; [discriminate|]. intros H.
      rewrite <- E. apply (Hok i ltac:(lia)). intros. apply H. lia.
Qed.

Lemma query_ok : forall b limit ok okslop (P : N -> bool), wf b ->
  (forall k, (k < length (map b))%nat -> (ok (nth k (map b) 0) = true <-> forall j, j < 32 -> P (32 * N.of_nat k + j) = true)) ->
  (forall k s, (k < length (map b))%nat -> s < 32 ->
     (okslop (nth k (map b) 0) s = true <-> forall j, j < s -> P (32 * N.of_nat k + j) = true)) ->
  exists r, query b limit ok okslop = Some r /\ (r = true <-> forall x, x < N.min limit (n_bits b) -> P x = true).
Proof.
  intros b limit ok okslop P Hw H1 H2. unfold query, BLOCK. rewrite clip_min.
  set (lim := N.min limit (n_bits b)). destruct (split_limit lim) as [k [s [E [Hs [Ek Es]]]]]. rewrite Ek, Es.
  assert (Hk : (k <= length (map b))%nat).
  { destruct k; [lia|]. pose proof (wf_ptr b (32 * N.of_nat k + 0) Hw ltac:(lia)). rewrite PTR_of in H by lia. lia. }
  destruct (all_blocks_ok (map b) ok P k 0) as [r [A1 A2]]; auto.
  rewrite A1. simpl plus in A2. destruct r.
  - destruct (N.ltb_spec 0 (N.of_nat s)).
    + assert (Hk' : (k < length (map b))%nat).
      { pose proof (wf_ptr b (32 * N.of_nat k + 0) Hw ltac:(lia)). rewrite PTR_of in H0 by lia. lia. }
      rewrite nth_error_ok by auto. eexists. split; [reflexivity|]. rewrite H2 by (auto; lia).
      split; intros G x Hx.
      * destruct (N.lt_ge_cases x (32 * N.of_nat k)).
        -- apply A2; auto. lia.
        -- replace x with (32 * N.of_nat k + (x - 32 * N.of_nat k)) by lia. apply G. lia.
      * apply G. lia.
    + exists true. split; auto. split; auto. intros _ x Hx. apply A2; auto. lia.
  - exists false. split; auto. split; [discriminate|]. intros G. apply A2. intros x Hx. apply G. lia.
Qed.

Lemma mem_block : forall m k j, j < 32 -> mem m (32 * N.of_nat k + j) = N.testbit (nth k m 0) j.
Proof. intros. unfold mem. rewrite PTR_of, OFFSET_of; auto. Qed.

Lemma empty_ok : forall b limit, wf b -> exists r, ck_bitmap_empty b limit = Some r /\
  (r = true <-> forall x, x < N.min limit (n_bits b) -> is_set b x = false).
Proof.
  intros b limit Hw.
  destruct (query_ok b limit (fun w => w =? 0) (fun w slop => N.land w (slop_mask slop) =? 0) (fun x => negb (mem (map b) x)) Hw) as [r [H1 H2]].
  - intros k Hk. rewrite N.eqb_eq. split.
    + intros E j Hj. rewrite mem_block, E by auto. rewrite N.bits_0. auto.
    + intros H. apply N.bits_inj. intros j. rewrite N.bits_0. destruct (N.lt_ge_cases j 32).
      * specialize (H j H0). rewrite mem_block in H by auto. apply negb_true_iff in H. auto.
      * apply lt32_bits; auto. apply nth_Forall, Hw.
  - intros k s Hk Hs. rewrite N.eqb_eq, slop_mask_ones. split.
    + intros E j Hj. rewrite mem_block by lia. apply negb_true_iff.
      assert (G : N.testbit (N.land (nth k (map b) 0) (N.ones s)) j = false) by (rewrite E; apply N.bits_0).
      rewrite N.land_spec, N.ones_spec_low, andb_true_r in G by auto. auto.
    + intros H. apply N.bits_inj. intros j. rewrite N.bits_0, N.land_spec. destruct (N.lt_ge_cases j s).
      * specialize (H j H0). rewrite mem_block in H by lia. apply negb_true_iff in H. rewrite H. auto.
      * rewrite N.ones_spec_high by auto. apply andb_false_r.
  - exists r. split; auto. rewrite H2. split; intros H x Hx; specialize (H x Hx).
    + rewrite is_set_mem. apply negb_true_iff. auto.
    + rewrite <- is_set_mem. rewrite H. auto.
Qed.

Lemma full_ok : forall b limit, wf b -> exists r, ck_bitmap_full b limit = Some r /\
  (r = true <-> forall x, x < N.min limit (n_bits b) -> is_set b x = true).
Proof.
  intros b limit Hw.
  destruct (query_ok b limit (fun w => w =? all1) (fun w slop => N.land (not32 w) (slop_mask slop) =? 0) (mem (map b)) Hw) as [r [H1 H2]].
  - intros k Hk. rewrite N.eqb_eq. split.
    + intros E j Hj. rewrite mem_block, E by auto. apply N.ones_spec_low; auto.
    + intros H. apply N.bits_inj. intros j. unfold all1. destruct (N.lt_ge_cases j 32).
      * specialize (H j H0). rewrite mem_block in H by auto. rewrite N.ones_spec_low; auto.
      * rewrite N.ones_spec_high by auto. apply lt32_bits; auto. apply nth_Forall, Hw.
  - intros k s Hk Hs. rewrite N.eqb_eq, slop_mask_ones. split.
    + intros E j Hj. rewrite mem_block by lia.
      assert (G : N.testbit (N.land (not32 (nth k (map b) 0)) (N.ones s)) j = false) by (rewrite E; apply N.bits_0).
      rewrite N.land_spec, N.ones_spec_low, andb_true_r, not32_spec in G by auto.
      destruct (N.ltb_spec j 32); [|lia]. rewrite xorb_true_r in G. apply negb_false_iff in G. auto.
    + intros H. apply N.bits_inj. intros j. rewrite N.bits_0, N.land_spec. destruct (N.lt_ge_cases j s).
      * specialize (H j H0). rewrite mem_block in H by lia. rewrite not32_spec, H. destruct (N.ltb_spec j 32); [|lia]. auto.
      * rewrite N.ones_spec_high by auto. apply andb_false_r.
  - exists r. split; auto. rewrite H2. split; intros H x Hx; specialize (H x Hx); rewrite is_set_mem in *; auto.
Qed.

(** ** Iteration *)

Lemma pred_bits : forall c z, N.testbit c z = true -> (forall j, j < z -> N.testbit c j = false) ->
  forall j, N.testbit (N.land c (c - 1)) j = N.testbit c j && negb (j =? z).
Proof.
  intros c z Hz Hlow.
  assert (E : c = N.lor (N.shiftl (N.shiftr c (z + 1)) (z + 1)) (2 ^ z)).
  { apply N.bits_inj. intros j. rewrite N.lor_spec, N.pow2_bits_eqb. destruct (N.lt_trichotomy j z) as [L|[->|L]].
    - rewrite Hlow by auto. rewrite N.shiftl_spec_low by lia. destruct (N.eqb_spec z j); [lia|]. auto.
    - rewrite N.eqb_refl, Hz, orb_true_r. auto.
    - rewrite N.shiftl_spec_high', N.shiftr_spec' by lia. replace (j - (z + 1) + (z + 1)) with j by lia.
      destruct (N.eqb_spec z j); [lia|]. rewrite orb_false_r. auto. }
  set (h := N.shiftl (N.shiftr c (z + 1)) (z + 1)) in *.
  assert (D1 : N.land h (2 ^ z) = 0).
  { apply N.bits_inj. intros j. rewrite N.bits_0, N.land_spec, N.pow2_bits_eqb. destruct (N.eqb_spec z j) as [<-|]; [|apply andb_false_r].
    unfold h. rewrite N.shiftl_spec_low by lia. auto. }
  assert (D2 : N.land h (N.ones z) = 0).
  { apply N.bits_inj. intros j. rewrite N.bits_0, N.land_spec. destruct (N.lt_ge_cases j z).
    - unfold h. rewrite N.shiftl_spec_low by lia. auto.
    - rewrite N.ones_spec_high by auto. apply andb_false_r. }
  assert (E2 : c - 1 = N.lor h (N.ones z)).
  { rewrite E. rewrite <- N.lxor_lor, <- N.add_nocarry_lxor by auto.
    rewrite <- N.lxor_lor, <- N.add_nocarry_lxor by auto. rewrite N.ones_equiv.
    pose proof (N.pow_nonzero 2 z ltac:(lia)). lia. }
  intros j. rewrite N.land_spec, E2, N.lor_spec.
  destruct (N.lt_trichotomy j z) as [L|[->|L]].
  - rewrite Hlow by auto. auto.
  - rewrite N.eqb_refl. unfold h. rewrite N.shiftl_spec_low by lia. rewrite N.ones_spec_high by lia. auto.
  - unfold h. rewrite N.shiftl_spec_high', N.shiftr_spec' by lia. replace (j - (z + 1) + (z + 1)) with j by lia.
    rewrite N.ones_spec_high by lia. destruct (N.eqb_spec j z); [lia|]. rewrite orb_false_r. simpl.
    destruct (N.testbit c j); auto.
Qed.

Lemma bits_next : forall c z, c < 2 ^ 32 -> N.testbit c z = true -> (forall j, j < z -> N.testbit c j = false) ->
  bits c 32 = z :: bits (N.land c (c - 1)) 32.
Proof.
  intros c z Hc Hz Hlow. assert (Hz32 : z < 32).
  { destruct (N.lt_ge_cases z 32); auto. rewrite (proj2 (lt32_bits c) Hc z) in Hz; auto; discriminate. }
  unfold bits. rewrite (filter_ext _ _ (pred_bits c z Hz Hlow)).
  replace 32 with (N.of_nat (N.to_nat z + (1 + N.to_nat (32 - z - 1)))) by lia.
  rewrite !upto_add, !filter_app, N2Nat.id, !map_app.
  rewrite (filter_none _ (upto z)), (filter_none _ (upto z)).
  2:{ intros x Hx. apply upto_in in Hx. rewrite Hlow by auto. auto. }
  2:{ intros x Hx. apply upto_in in Hx. auto. }
  change (upto (N.of_nat 1)) with [0]. simpl. rewrite N.add_0_r, Hz, N.eqb_refl. simpl. f_equal.
  rewrite !map_map. apply filter_ext_in. intros x Hx. apply in_map_iff in Hx. destruct Hx as [y [<- _]].
  destruct (N.eqb_spec (z + (1 + y)) z); [lia|]. rewrite andb_true_r. auto.
Qed.

Definition blk (m : list N) (k : nat) : list N := List.map (N.add (N.of_nat (32 * k))) (bits (nth k m 0) 32).

Lemma blocks_filter : forall m k, filter (mem m) (upto (N.of_nat (32 * k))) = flat_map (blk m) (seq 0 k).
Proof.
  intros m. induction k; [reflexivity|]. replace (32 * S k)%nat with (32 * k + 32)%nat by lia.
  rewrite upto_add, filter_app, IHk, filter_block by reflexivity. rewrite seq_S, flat_map_app. cbn [flat_map plus].
  rewrite app_nil_r. change (N.of_nat 32) with 32. unfold blk. reflexivity.
Qed.

Lemma find_block_ok : forall m cnt n, (n + cnt <= length m)%nat ->
  exists n' c, find_block m cnt n = Some (n', c) /\ (n <= n' <= n + cnt)%nat /\
    (c = 0 /\ flat_map (blk m) (seq n cnt) = [] \/
     c <> 0 /\ (n' < n + cnt)%nat /\ c = nth n' m 0 /\
     flat_map (blk m) (seq n cnt) = blk m n' ++ flat_map (blk m) (seq (S n') (n + cnt - S n'))).
Proof.
  intros m. induction cnt as [|cnt IH]; intros n H; cbn [find_block seq flat_map].
  - exists n, 0. repeat split; auto; try lia.
  - rewrite nth_error_ok by lia. destruct (N.eqb_spec (nth n m 0) 0) as [E|E].
    + destruct (IH (S n)) as [n' [c [H1 [H2 H3]]]]; [lia|]. exists n', c. rewrite H1. repeat split; try lia.
      assert (Z : blk m n = []).
      { unfold blk. rewrite E. unfold bits. rewrite filter_none; auto. }
      rewrite Z. cbn [app]. destruct H3 as [[-> H3]|[H4 [H5 [H6 H7]]]]; [left; auto|right].
      repeat split; auto; try lia. rewrite H7. replace (S n + cnt - S n')%nat with (n + S cnt - S n')%nat by lia. reflexivity.
    + exists n, (nth n m 0). repeat split; auto; try lia. right. repeat split; auto; try lia.
      replace (n + S cnt - S n)%nat with cnt by lia. reflexivity.
Qed.

(** what an iterator has yet to report *)
Definition rest (m : list N) (it : iter) : list N :=
  List.map (N.add (N.of_nat (32 * n_block it))) (bits (cache it) 32) ++
  flat_map (blk m) (seq (S (n_block it)) (n_limit it - S (n_block it))).

Definition iter_wf (b : bitmap) (it : iter) : Prop :=
  n_limit it = BLOCKS (n_bits b) /\ cache it < 2 ^ 32 /\ (cache it <> 0 -> (n_block it < n_limit it)%nat).

Lemma blocks32 : forall n, n < 2 ^ 32 -> 32 * N.of_nat (BLOCKS n) <= 2 ^ 32.
Proof.
  intros n H. unfold BLOCKS, BLOCK. rewrite N2Nat.id.
  assert ((n + 32 - 1) / 32 <= (2 ^ 32 - 1 + 32 - 1) / 32) by (apply N.div_le_mono; lia).
  change ((2 ^ 32 - 1 + 32 - 1) / 32) with (2 ^ 27) in H0. change (2 ^ 32) with (32 * 2 ^ 27). lia.
Qed.

Lemma non_zero_ok : forall b it n c, wf b -> n_limit it = BLOCKS (n_bits b) -> (n < n_limit it)%nat ->
  c <> 0 -> c < 2 ^ 32 ->
  exists bit it', non_zero it n c = Some (Some (bit, it')) /\ iter_wf b it' /\
    List.map (N.add (N.of_nat (32 * n))) (bits c 32) ++ flat_map (blk (map b)) (seq (S n) (n_limit it - S n)) = bit :: rest (map b) it'.
Proof.
  intros b it n c Hw Hl Hn Hc Hc2. unfold non_zero.
  destruct (ctz_ok 32 c Hc Hc2) as [z [Z1 [Z2 Z3]]]. rewrite Z1.
  assert (Hz32 : z < 32).
  { destruct (N.lt_ge_cases z 32); auto. rewrite (proj2 (lt32_bits c) Hc2 z) in Z2; auto; discriminate. }
  eexists _, _. split; [reflexivity|]. split.
  - split; auto. simpl. split; [apply land_lt; auto|]. intros; lia.
  - unfold rest. cbn [n_block cache n_limit]. rewrite (bits_next c z) by auto.
    cbn [List.map app]. apply (f_equal (fun a => a :: _)).
    unfold w32, BLOCK. pose proof (blocks32 (n_bits b) (proj1 Hw)). rewrite N.mod_small by lia. lia.
Qed.

Lemma next_ok : forall b it, wf b -> iter_wf b it ->
  match rest (map b) it with
  | [] => ck_bitmap_next b it = Some None
  | x :: l => exists it', ck_bitmap_next b it = Some (Some (x, it')) /\ iter_wf b it' /\ rest (map b) it' = l
  end.
Proof.
  intros b it Hw [I1 [I2 I3]]. unfold ck_bitmap_next. destruct (N.eqb_spec (cache it) 0) as [E|E].
  - assert (B0 : bits (cache it) 32 = []).
    { rewrite E. unfold bits. apply filter_none. intros. apply N.bits_0. }
    unfold rest. rewrite B0. simpl app.
    destruct (Nat.leb_spec (n_limit it) (n_block it)).
    + replace (n_limit it - S (n_block it))%nat with 0%nat by lia. simpl. auto.
    + destruct (find_block_ok (map b) (n_limit it - S (n_block it)) (S (n_block it))) as [n' [c [F1 [F2 F3]]]].
      { destruct Hw as [_ [-> _]]. lia. }
      rewrite F1. destruct F3 as [[-> F3]|[F3 [F4 [F5 F6]]]].
      * rewrite F3. auto.
      * rewrite F6. destruct (N.eqb_spec c 0); [congruence|].
        destruct (non_zero_ok b it n' c) as [bit [it' [G1 [G2 G3]]]]; auto; try lia.
        { subst c. apply nth_Forall, Hw. }
        unfold blk at 1. rewrite <- F5.
        replace (S (n_block it) + (n_limit it - S (n_block it)) - S n')%nat with (n_limit it - S n')%nat by lia.
        rewrite G3. exists it'. split; auto.
  - destruct (non_zero_ok b it (n_block it) (cache it)) as [bit [it' [G1 [G2 G3]]]]; auto.
    unfold rest at 1. rewrite G3. exists it'. split; auto.
Qed.

Lemma iterate_ok : forall b l it fuel, wf b -> iter_wf b it -> rest (map b) it = l -> (length l < fuel)%nat ->
  iterate fuel b it = Some l.
Proof.
  intros b. induction l as [|x l IH]; intros it fuel Hw Hi Hr Hf; (destruct fuel; [simpl in Hf; lia|]); simpl.
  - pose proof (next_ok b it Hw Hi) as N. rewrite Hr in N. rewrite N. auto.
  - pose proof (next_ok b it Hw Hi) as N. rewrite Hr in N. destruct N as [it' [N1 [N2 N3]]]. rewrite N1.
    rewrite (IH it'); auto. simpl in Hf. lia.
Qed.

Lemma elements_all : forall b fuel, wf b ->
  (length (filter (is_set b) (upto (32 * N.of_nat (BLOCKS (n_bits b))))) < fuel)%nat ->
  ck_bitmap_elements fuel b = Some (filter (is_set b) (upto (32 * N.of_nat (BLOCKS (n_bits b))))).
Proof.
  intros b fuel Hw Hf. unfold ck_bitmap_elements.
  rewrite (filter_ext _ _ (is_set_mem b)) in *.
  replace (32 * N.of_nat (BLOCKS (n_bits b))) with (N.of_nat (32 * BLOCKS (n_bits b))) in * by lia.
  rewrite blocks_filter in *.
  unfold ck_bitmap_iterator_init. destruct (Nat.ltb_spec 0 (BLOCKS (n_bits b))).
  - rewrite nth_error_ok by (destruct Hw as [_ [-> _]]; auto). apply iterate_ok; auto.
    + split; auto. simpl. split; auto. apply nth_Forall, Hw.
    + unfold rest. cbn [n_block cache n_limit]. destruct (BLOCKS (n_bits b)) as [|k]; [lia|].
      cbn [seq]. replace (S k - 1)%nat with k by lia. cbn [flat_map]. unfold blk at 2. reflexivity.
  - assert (Z : BLOCKS (n_bits b) = 0%nat) by lia. rewrite Z in *. apply iterate_ok; auto.
    split; auto. simpl. split; [reflexivity|]. congruence.
Qed.

Lemma clean_elements : forall b, clean b ->
  filter (is_set b) (upto (32 * N.of_nat (BLOCKS (n_bits b)))) = filter (is_set b) (upto (n_bits b)).
Proof.
  intros b Hc. assert (L : n_bits b <= 32 * N.of_nat (BLOCKS (n_bits b))) by (apply blocks_over; lia).
  replace (32 * N.of_nat (BLOCKS (n_bits b))) with (N.of_nat (N.to_nat (n_bits b) + (N.to_nat (32 * N.of_nat (BLOCKS (n_bits b)) - n_bits b)))) by lia.
  rewrite upto_add, filter_app, N2Nat.id. rewrite (filter_none _ (List.map _ _)), app_nil_r; auto.
  intros x Hx. apply in_map_iff in Hx. destruct Hx as [y [<- _]]. apply Hc. lia.
Qed.

Lemma elements_ok : forall b fuel, wf b -> clean b -> (N.to_nat (n_bits b) < fuel)%nat ->
  ck_bitmap_elements fuel b = Some (filter (is_set b) (upto (n_bits b))).
Proof.
  intros b fuel Hw Hc Hf. rewrite elements_all; auto; rewrite clean_elements; auto.
  pose proof (filter_len_le (is_set b) (upto (n_bits b))). rewrite upto_len in H. lia.
Qed.

Lemma blk_of_N : forall n i, blk_of (BLOCKS n) i = (i / 32 <? (n + 31) / 32).
Proof.
  intros. unfold blk_of, PTR, BLOCKS, BLOCK. replace (n + 32 - 1) with (n + 31) by lia.
  generalize (i / 32) ((n + 31) / 32). intros a b.
  destruct (N.ltb_spec a b); [apply Nat.ltb_lt|apply Nat.ltb_ge]; lia.
Qed.

Lemma union_blocks : forall d s, wf d -> wf s -> exists d', ck_bitmap_union d s = Some d' /\ same_shape d d' /\
  forall i, is_set d' i = is_set d i || ((i / 32 <? (N.min (n_bits s) (n_bits d) + 31) / 32) && is_set s i).
Proof. intros d s Hd Hs. destruct (union_ok d s Hd Hs) as [d' H]. exists d'. setoid_rewrite blk_of_N in H. exact H. Qed.
Lemma intersection_blocks : forall d s, wf d -> wf s -> exists d', ck_bitmap_intersection d s = Some d' /\ same_shape d d' /\
  forall i, is_set d' i = is_set d i && ((i / 32 <? (N.min (n_bits s) (n_bits d) + 31) / 32) && is_set s i).
Proof. intros d s Hd Hs. destruct (intersection_ok d s Hd Hs) as [d' H]. exists d'. setoid_rewrite blk_of_N in H. exact H. Qed.
Lemma negate_blocks : forall d s, wf d -> wf s -> exists d', ck_bitmap_intersection_negate d s = Some d' /\ same_shape d d' /\
  forall i, is_set d' i = is_set d i && negb ((i / 32 <? (N.min (n_bits s) (n_bits d) + 31) / 32) && is_set s i).
Proof. intros d s Hd Hs. destruct (negate_ok d s Hd Hs) as [d' H]. exists d'. setoid_rewrite blk_of_N in H. exact H. Qed.
