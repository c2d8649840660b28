(** C82: the portable bit-scan fallbacks compute the functions they stand in for. *)
From Coq Require Import ZArith List Bool.
From Verif Require Import Cc_Model Cc_Spec Cc_Proof.
Import ListNotations.
Local Open Scope Z_scope.

(** ck_cc_ffs / ffsl / ffsll of a word of up to 64 bits: one plus the position of the lowest set bit, 0 for 0;
    the loop needs at most [w] iterations. *)
Theorem cc_ffs_correct : forall w v fuel, word w v -> (w <= 64)%nat -> (w <= fuel)%nat ->
  exists r, ffs fuel v = Some r /\ (v = 0 -> r = 0) /\ (v <> 0 -> lowest v (r - 1)) /\ 0 <= r <= Z.of_nat w.
Proof. exact ffs_thm. Qed.
Print Assumptions cc_ffs_correct.
Example cc_ffs_ex : word 64 (2 ^ 63) /\ ffs 64 (2 ^ 63) = Some 64 /\ word 64 40 /\ ffs 64 40 = Some 4.
Proof. unfold word. repeat split; reflexivity || discriminate. Qed.

(** ck_cc_ctz: the position of the lowest set bit, 0 for 0. *)
Theorem cc_ctz_correct : forall w v fuel, word w v -> (w <= 64)%nat -> (w <= fuel)%nat ->
  exists r, ctz fuel v = Some r /\ (v = 0 -> r = 0) /\ (v <> 0 -> lowest v r) /\ 0 <= r <= Z.of_nat w.
Proof. exact ctz_thm. Qed.
Print Assumptions cc_ctz_correct.
Example cc_ctz_ex : word 32 40 /\ ctz 32 40 = Some 3.
Proof. unfold word. repeat split; reflexivity || discriminate. Qed.

(** ck_cc_popcount: the number of set bits. *)
Theorem cc_popcount_correct : forall w v fuel, word w v -> (w <= 64)%nat -> (w <= fuel)%nat ->
  popcount fuel v = Some (Z.of_nat (length (members w v))).
Proof. exact popcount_thm. Qed.
Print Assumptions cc_popcount_correct.
Example cc_popcount_ex : word 32 (2 ^ 32 - 1) /\ popcount 32 (2 ^ 32 - 1) = Some 32 /\ popcount 32 41 = Some 3.
Proof. unfold word. repeat split; reflexivity || discriminate. Qed.
