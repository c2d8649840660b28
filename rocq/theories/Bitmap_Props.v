(** Properties of bitmaps (C03-C06).  [is_set b i] is what the test operation
    answers for index [i] (false when the access would be out of bounds). *)
From Coq Require Import NArith List Bool.
From Verif Require Import Lib Bitmap_Model Bitmap_Proof Bitmap_Spec Bitmap_Hist.
Import ListNotations.
Local Open Scope N_scope.

(** Every history of every operation over any number of bitmaps of any lengths
    answers like the abstract sets do, and no access is out of bounds, as long as
    no union takes a source longer than its destination. *)
Theorem bitmap_history_partial : forall os,
  always legal sinit0 os -> always no_long_union sinit0 os ->
  execs init0 os = Some (sexecs sinit0 os).
Proof. exact history0. Qed.
Print Assumptions bitmap_history_partial.

(** With such a union the promise fails: the source's index 5 becomes a member
    of a bitmap of length 4 and is enumerated ... *)
Theorem bitmap_history_refuted : exists os, always legal sinit0 os /\ execs init0 os <> Some (sexecs sinit0 os).
Proof. exists [OInit 0 4 false; OInit 1 8 true; OUnion 0 1; OIter 0]. split; [vm_compute; repeat split|vm_compute; discriminate]. Qed.
Print Assumptions bitmap_history_refuted.

Theorem bitmap_iterate_refuted : exists d s d' l,
  ck_bitmap_init 4 false = Some d /\ ck_bitmap_init 8 true = Some s /\ ck_bitmap_union d s = Some d' /\
  ck_bitmap_elements 100 d' = Some l /\ exists i, In i l /\ n_bits d' <= i.
Proof.
  eexists _, _, _, _. split; [reflexivity|]. split; [reflexivity|]. split; [reflexivity|].
  split; [vm_compute; reflexivity|]. exists 5. split; [simpl; tauto|discriminate].
Qed.
Print Assumptions bitmap_iterate_refuted.

(** ... and from there reaches members of other bitmaps: pointwise union itself
    goes wrong when its source was overfilled before. *)
Theorem bitmap_union_pointwise_refuted : exists a b c b' c' r,
  ck_bitmap_init 8 true = Some a /\ ck_bitmap_init 4 false = Some b /\ ck_bitmap_init 8 false = Some c /\
  ck_bitmap_union b a = Some b' /\ ck_bitmap_union c b' = Some c' /\ n_bits b' <= 5 < n_bits c' /\
  ck_bitmap_test c' 5 = Some r /\ r = true.
Proof. eexists _, _, _, _, _, _. repeat split; try reflexivity; discriminate. Qed.
Print Assumptions bitmap_union_pointwise_refuted.

(** C03: the single-bit operations, for every well-formed bitmap *)
Theorem bitmap_init : forall n set, n < 2 ^ 32 -> exists b, ck_bitmap_init n set = Some b /\ n_bits b = n /\ wf b /\
  forall i, is_set b i = set && (i <? n).
Proof. exact init_ok. Qed.
Print Assumptions bitmap_init.

Theorem bitmap_set : forall b n, wf b -> n < n_bits b -> exists b', ck_bitmap_set b n = Some b' /\ same_shape b b' /\
  forall i, is_set b' i = (i =? n) || is_set b i.
Proof. exact set_ok. Qed.
Print Assumptions bitmap_set.

Theorem bitmap_reset : forall b n, wf b -> n < n_bits b -> exists b', ck_bitmap_reset b n = Some b' /\ same_shape b b' /\
  forall i, is_set b' i = negb (i =? n) && is_set b i.
Proof. exact reset_ok. Qed.
Print Assumptions bitmap_reset.

Theorem bitmap_bts : forall b n, wf b -> n < n_bits b -> exists b', ck_bitmap_bts b n = Some (b', is_set b n) /\ same_shape b b' /\
  forall i, is_set b' i = (i =? n) || is_set b i.
Proof. exact bts_ok. Qed.
Print Assumptions bitmap_bts.

Theorem bitmap_test : forall b n, wf b -> n < n_bits b -> ck_bitmap_test b n = Some (is_set b n).
Proof. exact test_ok. Qed.
Print Assumptions bitmap_test.

(** C05: queries, for every well-formed bitmap (also one overfilled by union) and every limit *)
Theorem bitmap_empty : forall b limit, wf b -> exists r, ck_bitmap_empty b limit = Some r /\
  (r = true <-> forall x, x < N.min limit (n_bits b) -> is_set b x = false).
Proof. exact empty_ok. Qed.
Print Assumptions bitmap_empty.

Theorem bitmap_full : forall b limit, wf b -> exists r, ck_bitmap_full b limit = Some r /\
  (r = true <-> forall x, x < N.min limit (n_bits b) -> is_set b x = true).
Proof. exact full_ok. Qed.
Print Assumptions bitmap_full.

Theorem bitmap_count : forall b limit, wf b ->
  ck_bitmap_count b limit = Some (N.of_nat (length (filter (is_set b) (upto (N.min limit (n_bits b)))))).
Proof. exact count_ok. Qed.
Print Assumptions bitmap_count.

Theorem bitmap_count_intersect : forall x y limit, wf x -> wf y ->
  ck_bitmap_count_intersect x y limit =
  Some (N.of_nat (length (filter (fun i => is_set x i && is_set y i) (upto (N.min limit (N.min (n_bits x) (n_bits y))))))).
Proof. exact count_intersect_ok. Qed.
Print Assumptions bitmap_count_intersect.

(** C06: enumeration terminates within [n_bits + 1] calls and yields the members in order *)
Theorem bitmap_iterate_partial : forall b fuel, wf b -> clean b -> (N.to_nat (n_bits b) < fuel)%nat ->
  ck_bitmap_elements fuel b = Some (filter (is_set b) (upto (n_bits b))).
Proof. exact elements_ok. Qed.
Print Assumptions bitmap_iterate_partial.

(** C04: bulk operations on any two well-formed bitmaps of any lengths: pointwise
    on the blocks that the shorter of the two has. *)
Theorem bitmap_union : forall d s, wf d -> wf s -> exists d', ck_bitmap_union d s = Some d' /\ same_shape d d' /\
  forall i, is_set d' i = is_set d i || ((i / 32 <? (N.min (n_bits s) (n_bits d) + 31) / 32) && is_set s i).
Proof. exact union_blocks. Qed.
Print Assumptions bitmap_union.

Theorem bitmap_intersection : forall d s, wf d -> wf s -> exists d', ck_bitmap_intersection d s = Some d' /\ same_shape d d' /\
  forall i, is_set d' i = is_set d i && ((i / 32 <? (N.min (n_bits s) (n_bits d) + 31) / 32) && is_set s i).
Proof. exact intersection_blocks. Qed.
Print Assumptions bitmap_intersection.

Theorem bitmap_intersection_negate : forall d s, wf d -> wf s -> exists d', ck_bitmap_intersection_negate d s = Some d' /\ same_shape d d' /\
  forall i, is_set d' i = is_set d i && negb ((i / 32 <? (N.min (n_bits s) (n_bits d) + 31) / 32) && is_set s i).
Proof. exact negate_blocks. Qed.
Print Assumptions bitmap_intersection_negate.

Theorem bitmap_clear : forall d, wf d -> exists d', ck_bitmap_clear d = Some d' /\ same_shape d d' /\ forall i, is_set d' i = false.
Proof. exact clear_ok. Qed.
Print Assumptions bitmap_clear.

(** a history using everything, with lengths inside and across blocks *)
Example bitmap_ex :
  let os := [OInit 0 70 false; OInit 1 40 true; OSet 0 69; OBts 0 33; OBts 0 33; OReset 1 33; OUnion 0 1; OTest 0 33;
             OCount 0 1000; OCount 0 35; OInter 0 1; OEmpty 0 0; OCountI 0 1 39; OFull 1 33; OFull 1 34; ONeg 1 0; OIter 1; OClear 0; OEmpty 0 70] in
  always legal sinit0 os /\ always no_long_union sinit0 os /\
  sexecs sinit0 os = [RUnit; RUnit; RUnit; RBool false; RBool true; RUnit; RUnit; RBool true; RNum 41; RNum 35; RUnit; RBool true;
                      RNum 38; RBool true; RBool false; RUnit; RList []; RUnit; RBool true].
Proof. cbv zeta. split; [vm_compute; repeat split; intros; discriminate|]. split; [vm_compute; repeat split; intros; discriminate|vm_compute; reflexivity]. Qed.
