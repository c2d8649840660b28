(** Integer helpers: src/ck_internal.h, portable fallbacks of include/ck_cc.h,
    and include/ck_backoff.h.  Words are [N]; wrap-around is explicit. *)
From Coq Require Import NArith List Bool.
Import ListNotations.
Local Open Scope N_scope.

(** Truncation to 32 bits (uint32_t arithmetic). *)
Definition w32 (x : N) : N := x mod 2 ^ 32.

(** [(b) << k] for a C boolean [b]. *)
Definition bshift (b : bool) (k : N) : N := N.shiftl (N.b2n b) k.

(** src/ck_internal.h:33-37, the masks. *)
Definition LOG_0 : N := 0xAAAAAAAA.
Definition LOG_1 : N := 0xCCCCCCCC.
Definition LOG_2 : N := 0xF0F0F0F0.
Definition LOG_3 : N := 0xFF00FF00.
Definition LOG_4 : N := 0xFFFF0000.

(** src/ck_internal.h:39-49, ck_internal_log. *)
Definition ck_internal_log (v : N) : N :=
  let nz m := negb (N.land v m =? 0) in
  let r := N.b2n (nz LOG_0) in
  let r := N.lor r (bshift (nz LOG_4) 4) in
  let r := N.lor r (bshift (nz LOG_3) 3) in
  let r := N.lor r (bshift (nz LOG_2) 2) in
  N.lor r (bshift (nz LOG_1) 1).

(** src/ck_internal.h:51-62, ck_internal_power_2 ([--v] is [v + (2^32-1)] mod 2^32). *)
Definition ck_internal_power_2 (v : N) : N :=
  let v := w32 (v + (2 ^ 32 - 1)) in
  let v := N.lor v (N.shiftr v 1) in
  let v := N.lor v (N.shiftr v 2) in
  let v := N.lor v (N.shiftr v 4) in
  let v := N.lor v (N.shiftr v 8) in
  let v := N.lor v (N.shiftr v 16) in
  w32 (v + 1).

(** src/ck_internal.h:64-83, ck_internal_max, _64 and _32: the word width is a
    parameter; [-(x < y)] is the all-ones word or zero. *)
Definition ck_internal_max (width x y : N) : N :=
  N.lxor x (N.land (N.lxor x y) (if x <? y then N.ones width else 0)).

(** The loop of include/ck_cc.h:117 (and 150): [for (; (v & 1) == 0; i++, v >>= 1)].
    [None] when the fuel runs out. *)
Fixpoint ffs_loop (fuel : nat) (i v : N) : option N :=
  match fuel with
  | O => None
  | S fuel =>
      if N.land v 1 =? 0 then ffs_loop fuel (i + 1) (N.shiftr v 1) else Some i
  end.

(** include/ck_cc.h:109-119, ck_cc_ffs (also ffsl, ffsll: only the type differs). *)
Definition ck_cc_ffs (fuel : nat) (v : N) : option N :=
  if v =? 0 then Some 0 else ffs_loop fuel 1 v.

(** include/ck_cc.h:143-152, ck_cc_ctz. *)
Definition ck_cc_ctz (fuel : nat) (v : N) : option N :=
  if v =? 0 then Some 0 else ffs_loop fuel 0 v.

(** include/ck_cc.h:158-167, ck_cc_popcount: [for (acc = 0; x != 0; x >>= 1) acc += x & 1]. *)
Fixpoint popcount_loop (fuel : nat) (acc x : N) : option N :=
  if x =? 0 then Some acc else
  match fuel with
  | O => None
  | S fuel => popcount_loop fuel (acc + N.land x 1) (N.shiftr x 1)
  end.
Definition ck_cc_popcount (fuel : nat) (x : N) : option N := popcount_loop fuel 0 x.

(** Specification: number of set bits among the lowest [k]. *)
Fixpoint bits_below (k : nat) (x : N) : N :=
  match k with O => 0 | S k => bits_below k x + N.b2n (N.testbit x (N.of_nat k)) end.

(** include/ck_backoff.h:34, 37. *)
Definition CEILING : N := 2 ^ 20 - 1.
Definition INITIALIZER : N := 2 ^ 9.

(** include/ck_backoff.h:44-55, ck_backoff_eb.  Result: iterations spun, new counter. *)
Fixpoint spin (fuel : nat) (i ceiling : N) (n : N) : option N :=
  if i <? ceiling then
    match fuel with O => None | S fuel => spin fuel (i + 1) ceiling (n + 1) end
  else Some n.
Definition ck_backoff_eb (fuel : nat) (c : N) : option (N * N) :=
  match spin fuel 0 c 0 with
  | Some n => Some (n, w32 (N.shiftl c (N.b2n (c <? CEILING))))
  | None => None
  end.

(** The counter after [k] calls starting from [c]. *)
Fixpoint eb_iter (k : nat) (c : N) : N :=
  match k with O => c | S k => eb_iter k (w32 (N.shiftl c (N.b2n (c <? CEILING)))) end.
