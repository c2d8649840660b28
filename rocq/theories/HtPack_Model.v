(** Packed entries of ck_ht: include/ck_ht.h 135-213 with CK_HT_PP defined (pointer packing
    enabled), 64-bit platform.  [B] is CK_MD_VMA_BITS, the number of bits of a pointer, chosen by
    configure; CK_HT_KEY_LENGTH is 64 - B. *)
From Coq Require Import NArith Bool.
Open Scope N_scope.

(** struct ck_ht_entry, 70-74 *)
Record pent := mkp { pkey : N; pval : N }.

Section Pack.
Variable B : N.

(** [x << B] in uintptr_t *)
Definition up (x : N) : N := N.shiftl x B mod 2 ^ 64.
(** [((uintptr_t)1 << CK_MD_VMA_BITS) - 1] *)
Definition low : N := 2 ^ B - 1.
(** CK_HT_KEY_MASK, 65 *)
Definition kmask : N := 2 ^ (64 - B) - 1.

(** ck_ht_entry_empty, 135-140 *)
Definition entry_empty (e : pent) : bool := N.eqb (pkey e) 0.
(** the test against CK_HT_KEY_TOMBSTONE, 94 *)
Definition entry_tomb (e : pent) : bool := N.eqb (pkey e) (2 ^ 64 - 1).
(** ck_ht_entry_key_set, 150-162; the length is a uint16_t *)
Definition entry_key_set (e : pent) (key len : N) : pent := mkp (N.lor key (up (len mod 2 ^ 16))) (pval e).
(** ck_ht_entry_key, 164-173 *)
Definition entry_key (e : pent) : N := N.land (pkey e) low.
(** ck_ht_entry_key_length, 175-184; returns uint16_t *)
Definition entry_key_length (e : pent) : N := N.shiftr (pkey e) B mod 2 ^ 16.
(** ck_ht_entry_value, 186-195 *)
Definition entry_value (e : pent) : N := N.land (pval e) low.
(** ck_ht_entry_set, 197-216 *)
Definition entry_set (h key len value : N) : pent :=
  mkp (N.lor key (up (len mod 2 ^ 16))) (N.lor value (up (N.shiftr h 32))).
(** the comparison of the memoized hash, src/ck_ht.c 348 and 569 *)
Definition hash_test (e : pent) (h : N) : bool := N.eqb (N.shiftr (pval e) B) (N.land (N.shiftr h 32) kmask).
End Pack.
