(** The portable bit-scan fallbacks of include/ck_cc.h:110-163, used when the compiler has no builtin.

    An unsigned word is an integer in [0, 2^w).  A loop is a function with fuel; [None] means that the fuel
    ran out.  The counters are [unsigned int], 32 bits wide (CK targets); the conversion of the result to
    [int] is the identity on the values that occur. *)
From Coq Require Import ZArith.
Local Open Scope Z_scope.

Definition U32 : Z := 2 ^ 32.

(** ck_cc.h:119: for (i = 1; (v & 1) == 0; i++, v >>= 1);  and ck_cc.h:147 with i = 0 *)
Fixpoint scan (fuel : nat) (v i : Z) : option Z :=
  match fuel with
  | O => None
  | S n => if Z.land v 1 =? 0 then scan n (Z.shiftr v 1) ((i + 1) mod U32) else Some i
  end.

(** ck_cc_ffs, ck_cc_ffsl, ck_cc_ffsll (ck_cc.h:110-136): one body for three widths *)
Definition ffs (fuel : nat) (v : Z) : option Z := if v =? 0 then Some 0 else scan fuel v 1.

(** ck_cc_ctz (ck_cc.h:138-150) *)
Definition ctz (fuel : nat) (x : Z) : option Z := if x =? 0 then Some 0 else scan fuel x 0.

(** ck_cc_popcount (ck_cc.h:152-163): for (acc = 0; x != 0; x >>= 1) acc += x & 1; *)
Fixpoint count (fuel : nat) (x acc : Z) : option Z :=
  if x =? 0 then Some acc else
  match fuel with
  | O => None
  | S n => count n (Z.shiftr x 1) ((acc + Z.land x 1) mod U32)
  end.
Definition popcount (fuel : nat) (x : Z) : option Z := count fuel x 0.
