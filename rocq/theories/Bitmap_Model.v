(** Bitmaps: include/ck_bitmap.h.  The map is a list of 32-bit blocks (as [N]);
    an access outside the list is [None] (undefined behaviour).  Functions are
    modelled sequentially: one call runs to completion. *)
From Coq Require Import NArith List Bool.
From Verif Require Import Helpers_Model.
Import ListNotations.
Local Open Scope N_scope.

(** include/ck_bitmap.h:48-52 (the sum in BLOCKS is a size_t, so it does not wrap). *)
Definition BLOCK : N := 32.
Definition OFFSET (i : N) : N := i mod BLOCK.
Definition BIT (i : N) : N := N.shiftl 1 (OFFSET i).
Definition PTR (i : N) : nat := N.to_nat (i / BLOCK).
Definition BLOCKS (n : N) : nat := N.to_nat ((n + BLOCK - 1) / BLOCK).

(** include/ck_bitmap.h:119-123, struct ck_bitmap. *)
Record bitmap := { n_bits : N; map : list N }.

Definition all1 : N := N.ones 32.
(** 32-bit complement *)
Definition not32 (x : N) : N := N.lxor x all1.

(** store to [map[n]]; the caller has checked the index *)
Fixpoint lset (m : list N) (n : nat) (v : N) : list N :=
  match m, n with
  | [], _ => []
  | _ :: m, O => v :: m
  | x :: m, S n => x :: lset m n v
  end.

(** read-modify-write of one block, [None] out of bounds *)
Definition rmw (m : list N) (n : nat) (f : N -> N) : option (list N) :=
  match nth_error m n with Some w => Some (lset m n (f w)) | None => None end.

Definition with_map (b : bitmap) (m : option (list N)) : option bitmap :=
  match m with Some m => Some {| n_bits := n_bits b; map := m |} | None => None end.

(** 172-178 *)
Definition ck_bitmap_set (b : bitmap) (n : N) : option bitmap :=
  with_map b (rmw (map b) (PTR n) (fun w => N.lor w (BIT n))).
(** 186-192; ck_pr_bts_uint returns the old bit and sets it *)
Definition ck_bitmap_bts (b : bitmap) (n : N) : option (bitmap * bool) :=
  match nth_error (map b) (PTR n) with
  | Some w => Some ({| n_bits := n_bits b; map := lset (map b) (PTR n) (N.setbit w (OFFSET n)) |},
                    N.testbit w (OFFSET n))
  | None => None
  end.
(** 197-203 *)
Definition ck_bitmap_reset (b : bitmap) (n : N) : option bitmap :=
  with_map b (rmw (map b) (PTR n) (fun w => N.land w (not32 (BIT n)))).
(** 209-216 *)
Definition ck_bitmap_test (b : bitmap) (n : N) : option bool :=
  match nth_error (map b) (PTR n) with
  | Some block => Some (negb (N.land block (BIT n) =? 0))
  | None => None
  end.

(** [for (; n < n + cnt; n++) map[n] = body n map[n]]; [None] when some access
    (also inside [body]) is out of bounds *)
Fixpoint for_blocks (cnt n : nat) (body : nat -> N -> option N) (m : list N) : option (list N) :=
  match cnt with
  | O => Some m
  | S cnt =>
      match nth_error m n with
      | None => None
      | Some w => match body n w with
                  | None => None
                  | Some w' => for_blocks cnt (S n) body (lset m n w')
                  end
      end
  end.

Definition load (m : list N) (n : nat) (f : N -> N) : option N :=
  match nth_error m n with Some x => Some (f x) | None => None end.

(** 222-239 *)
Definition ck_bitmap_union (dst src : bitmap) : option bitmap :=
  let n_buckets := if n_bits src <? n_bits dst then n_bits src else n_bits dst in
  with_map dst (for_blocks (BLOCKS n_buckets) 0
                  (fun n w => load (map src) n (fun x => N.lor w x)) (map dst)).

(** 245-267 *)
Definition ck_bitmap_intersection (dst src : bitmap) : option bitmap :=
  let n_buckets := n_bits dst in
  let n_intersect := if n_bits src <? n_buckets then n_bits src else n_buckets in
  let n_buckets := BLOCKS n_buckets in
  let n_intersect := BLOCKS n_intersect in
  match for_blocks n_intersect 0 (fun n w => load (map src) n (fun x => N.land w x)) (map dst) with
  | None => None
  | Some m => with_map dst (for_blocks (n_buckets - n_intersect) n_intersect (fun _ _ => Some 0) m)
  end.

(** 273-290 *)
Definition ck_bitmap_intersection_negate (dst src : bitmap) : option bitmap :=
  let n_intersect := if n_bits src <? n_bits dst then n_bits src else n_bits dst in
  with_map dst (for_blocks (BLOCKS n_intersect) 0
                  (fun n w => load (map src) n (fun x => N.land w (not32 x))) (map dst)).

(** 296-307; base/sizeof is BLOCKS *)
Definition ck_bitmap_clear (b : bitmap) : option bitmap :=
  with_map b (for_blocks (BLOCKS (n_bits b)) 0 (fun _ _ => Some 0) (map b)).

Definition clip (limit n : N) : N := if n <? limit then n else limit.

(** [(1U << slop) - 1] *)
Definition slop_mask (slop : N) : N := N.shiftl 1 slop - 1.

(** [for (i = 0; i < words; i++) if (f(map[i])) return false] *)
Fixpoint all_blocks (words i : nat) (ok : N -> bool) (m : list N) : option bool :=
  match words with
  | O => Some true
  | S words =>
      match nth_error m i with
      | None => None
      | Some w => if ok w then all_blocks words (S i) ok m else Some false
      end
  end.

(** the loop and the [slop] block shared by empty and full *)
Definition query (b : bitmap) (limit : N) (ok : N -> bool) (okslop : N -> N -> bool) : option bool :=
  let limit := clip limit (n_bits b) in
  let words := N.to_nat (limit / BLOCK) in
  let slop := limit mod BLOCK in
  match all_blocks words 0 ok (map b) with
  | None => None
  | Some false => Some false
  | Some true =>
      if 0 <? slop then
        match nth_error (map b) words with
        | None => None
        | Some w => Some (okslop w slop)
        end
      else Some true
  end.

(** 314-339 *)
Definition ck_bitmap_empty (b : bitmap) (limit : N) : option bool :=
  query b limit (fun w => w =? 0) (fun w slop => N.land w (slop_mask slop) =? 0).
(** 345-369 *)
Definition ck_bitmap_full (b : bitmap) (limit : N) : option bool :=
  query b limit (fun w => w =? all1) (fun w slop => N.land (not32 w) (slop_mask slop) =? 0).

(** [for (i = 0, count = 0; i < words; i++) count += popcount(word(i))], 32-bit sum *)
Fixpoint sum_blocks (words i : nat) (word : nat -> option N) (count : N) : option N :=
  match words with
  | O => Some count
  | S words =>
      match word i with
      | None => None
      | Some w => match ck_cc_popcount 32 w with
                  | None => None
                  | Some c => sum_blocks words (S i) word (w32 (count + c))
                  end
      end
  end.

Definition count_words (limit : N) (word : nat -> option N) : option N :=
  let words := N.to_nat (limit / BLOCK) in
  let slop := limit mod BLOCK in
  match sum_blocks words 0 word 0 with
  | None => None
  | Some count =>
      if 0 <? slop then
        match word words with
        | None => None
        | Some w => match ck_cc_popcount 32 (N.land w (slop_mask slop)) with
                    | None => None
                    | Some c => Some (w32 (count + c))
                    end
        end
      else Some count
  end.

(** 376-396 *)
Definition ck_bitmap_count (b : bitmap) (limit : N) : option N :=
  count_words (clip limit (n_bits b)) (fun i => nth_error (map b) i).
(** 403-434 *)
Definition ck_bitmap_count_intersect (x y : bitmap) (limit : N) : option N :=
  count_words (clip (clip limit (n_bits x)) (n_bits y))
    (fun i => match nth_error (map x) i, nth_error (map y) i with
              | Some xi, Some yi => Some (N.land xi yi)
              | _, _ => None
              end).

(** 441-460; the memory handed in has exactly ck_bitmap_size(n_bits) bytes *)
Definition ck_bitmap_init (n : N) (set : bool) : option bitmap :=
  let m := repeat (if set then all1 else 0) (BLOCKS n) in
  let b := n mod BLOCK in
  let m' := if set then
              if b =? 0 then Some m
              else rmw m (PTR (n - 1)) (fun w => N.land w (slop_mask b))
            else Some m in
  with_map {| n_bits := n; map := [] |} m'.

(** 125-130, struct ck_bitmap_iterator *)
Record iter := { cache : N; n_block : nat; n_limit : nat }.

(** 466-479 *)
Definition ck_bitmap_iterator_init (b : bitmap) : option iter :=
  let lim := BLOCKS (n_bits b) in
  if Nat.ltb 0 lim then
    match nth_error (map b) 0 with
    | Some w => Some {| cache := w; n_block := 0; n_limit := lim |}
    | None => None
    end
  else Some {| cache := 0; n_block := 0; n_limit := lim |}.

(** 497-501: search the next non-zero block; [cnt = n_limit - n_block].
    Result: (block, cache), cache 0 meaning none was found. *)
Fixpoint find_block (m : list N) (cnt n : nat) : option (nat * N) :=
  match cnt with
  | O => Some (n, 0)
  | S cnt => match nth_error m n with
             | None => None
             | Some c => if c =? 0 then find_block m cnt (S n) else Some (n, c)
             end
  end.

(** 508-512, label non_zero *)
Definition non_zero (it : iter) (n : nat) (c : N) : option (option (N * iter)) :=
  match ck_cc_ctz 32 c with
  | None => None
  | Some z => Some (Some (w32 (BLOCK * N.of_nat n + z),
                          {| cache := N.land c (c - 1); n_block := n; n_limit := n_limit it |}))
  end.

(** 484-513: [None] undefined, [Some None] returns false (iterator state after
    that is [exhausted]), [Some (Some (bit, i))] returns true. *)
Definition ck_bitmap_next (b : bitmap) (it : iter) : option (option (N * iter)) :=
  if cache it =? 0 then
    if Nat.leb (n_limit it) (n_block it) then Some None
    else match find_block (map b) (n_limit it - S (n_block it)) (S (n_block it)) with
         | None => None
         | Some (n, c) => if c =? 0 then Some None else non_zero it n c
         end
  else non_zero it (n_block it) (cache it).

(** Client loop [while (ck_bitmap_next(b, &i, &bit)) emit bit].  [None] when
    undefined or out of fuel. *)
Fixpoint iterate (fuel : nat) (b : bitmap) (it : iter) : option (list N) :=
  match fuel with
  | O => None
  | S fuel =>
      match ck_bitmap_next b it with
      | None => None
      | Some None => Some []
      | Some (Some (bit, it')) =>
          match iterate fuel b it' with Some l => Some (bit :: l) | None => None end
      end
  end.

Definition ck_bitmap_elements (fuel : nat) (b : bitmap) : option (list N) :=
  match ck_bitmap_iterator_init b with Some it => iterate fuel b it | None => None end.
