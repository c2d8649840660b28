(** C87: packed hash table entries give back what was put into them. *)
From Coq Require Import NArith Bool.
From Verif Require Import HtPack_Model HtPack_Proof.
Open Scope N_scope.

(** Key, value and length come back if the pointers fit into [B] bits and the length into the
    remaining ones, and the hash the entry was made with passes the memoized test. *)
Theorem ht_pack_roundtrip_partial : forall B, B < 64 -> forall h key len value,
  key < 2 ^ B -> value < 2 ^ B -> len < 2 ^ (64 - B) -> len < 2 ^ 16 ->
  let e := entry_set B h key len value in
  entry_key B e = key /\ entry_key_length B e = len /\ entry_value B e = value /\
  pkey e < 2 ^ 64 /\ pval e < 2 ^ 64 /\ hash_test B e h = true.
Proof. exact roundtrip. Qed.
Print Assumptions ht_pack_roundtrip_partial.

(** A length comes back exactly if it fits into the bits above the pointer; nothing checks that. *)
Theorem ht_pack_length_iff : forall B, B < 64 -> forall h key len value, key < 2 ^ B -> len < 2 ^ 16 ->
  (entry_key_length B (entry_set B h key len value) = len <-> len < 2 ^ (64 - B)).
Proof. exact length_iff. Qed.
Print Assumptions ht_pack_length_iff.

(** The memoized test compares bits 32 to 95 - B of the two hashes. *)
Theorem ht_pack_hash_iff : forall B, B < 64 -> forall h h' key len value, value < 2 ^ B ->
  (hash_test B (entry_set B h key len value) h' = true <->
   forall i, 32 <= i -> i < 96 - B -> N.testbit h i = N.testbit h' i).
Proof. exact hash_iff. Qed.
Print Assumptions ht_pack_hash_iff.

(** An entry looks empty only with the NULL key of length 0, and looks deleted only with the
    highest pointer and the largest length. *)
Theorem ht_pack_special_iff : forall B, B < 64 -> forall h key len value,
  key < 2 ^ B -> len < 2 ^ (64 - B) -> len < 2 ^ 16 ->
  (entry_empty (entry_set B h key len value) = true <-> key = 0 /\ len = 0) /\
  (entry_tomb (entry_set B h key len value) = true <-> key = 2 ^ B - 1 /\ len = 2 ^ (64 - B) - 1).
Proof. exact special. Qed.
Print Assumptions ht_pack_special_iff.

(** With 57-bit pointers a key of 300 bytes is stored as one of 44 bytes. *)
Theorem ht_pack_roundtrip_refuted : exists B h key len value,
  B < 64 /\ key < 2 ^ B /\ value < 2 ^ B /\ len < 2 ^ 16 /\
  entry_key_length B (entry_set B h key len value) <> len.
Proof. exists 57, 0, 1, 300, 1. repeat split; try reflexivity. vm_compute. discriminate. Qed.
Print Assumptions ht_pack_roundtrip_refuted.

Example ht_pack_ex :
  let e := entry_set 48 (2 ^ 63 + 2 ^ 40 + 5) (2 ^ 47 + 4096) 65535 (2 ^ 46 + 8) in
  entry_key 48 e = 2 ^ 47 + 4096 /\ entry_key_length 48 e = 65535 /\ entry_value 48 e = 2 ^ 46 + 8 /\
  hash_test 48 e (2 ^ 40) = true /\ hash_test 48 e (2 ^ 41) = false.
Proof. vm_compute. repeat split. Qed.
