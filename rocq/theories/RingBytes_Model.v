(** The bytes of the elements of a ring: the addressing of slots and the copies of
    include/ck_ring.h (_ck_ring_enqueue_sp 174-202, _ck_ring_dequeue_sc 218-250, and the same
    expression at 157, 296, 373, 240, 440, 463), for elements of any size as instantiated by
    CK_RING_PROTOTYPE (747-984, sizeof(struct type) passed as an unsigned int [ts]).
    Offsets are computed in unsigned int, that is modulo 2^32, before they are added to the
    64-bit buffer pointer; addresses are relative to the buffer.  One call at a time: the
    concurrent behaviour is the subject of the other ring models, which keep slots apart. *)
From Coq Require Import NArith List Bool.
Import ListNotations.
Open Scope N_scope.

(** UINT_MAX + 1 *)
Definition W : N := 2 ^ 32.
(** [ts * (idx & mask)] in unsigned int, ck_ring.h 192, 240 *)
Definition off (ts mask idx : N) : N := (ts * N.land idx mask) mod W.

Section Ring.
Context {byte : Type}.
(** struct ck_ring (ck_ring.h 39-48) without padding; size is mask + 1.  [mem]: the buffer *)
Record ring := mkr { mask : N; p_tail : N; c_head : N; mem : N -> byte }.

(** memcpy(buffer + base, src, ts) *)
Definition copy_in (m : N -> byte) (base ts : N) (src : N -> byte) : N -> byte :=
  fun a => if (base <=? a) && (a <? base + ts) then src (a - base) else m a.

(** ck_ring_init, 118-128, size 2^k *)
Definition init (k : N) (m : N -> byte) : ring := mkr (2 ^ k - 1) 0 0 m.

(** _ck_ring_enqueue_sp, 174-202 *)
Definition enqueue (ts : N) (r : ring) (e : N -> byte) : ring * bool :=
  let delta := (p_tail r + 1) mod W in
  if N.land delta (mask r) =? N.land (c_head r) (mask r) then (r, false)
  else (mkr (mask r) delta (c_head r) (copy_in (mem r) (off ts (mask r) (p_tail r)) ts e), true).

(** _ck_ring_dequeue_sc, 218-250; the result is what memcpy reads, byte by byte *)
Definition dequeue (ts : N) (r : ring) : ring * option (N -> byte) :=
  if c_head r =? p_tail r then (r, None)
  else (mkr (mask r) (p_tail r) ((c_head r + 1) mod W) (mem r),
        Some (fun j => mem r (off ts (mask r) (c_head r) + j))).

(** a client that makes one call at a time *)
Inductive op := Enq (e : N -> byte) | Deq.
Inductive res := RBool (b : bool) | RElem (e : option (N -> byte)).
Fixpoint calls (ts : N) (r : ring) (os : list op) : list res :=
  match os with
  | [] => []
  | Enq e :: os => let (r', b) := enqueue ts r e in RBool b :: calls ts r' os
  | Deq :: os => let (r', x) := dequeue ts r in RElem x :: calls ts r' os
  end.

(** accesses of single bytes by any code of the header: byte [j] of the slot with index [i] *)
Inductive acc := Wr (i j : N) (v : byte) | Rd (i j : N).
(** what the loads return when byte [j] of slot [i] lies at [off + j] in one flat buffer *)
Fixpoint flat (ts mk : N) (m : N -> byte) (l : list acc) : list byte :=
  match l with
  | [] => []
  | Wr i j v :: l => flat ts mk (fun a => if a =? off ts mk i + j then v else m a) l
  | Rd i j :: l => m (off ts mk i + j) :: flat ts mk m l
  end.
End Ring.
Arguments ring : clear implicits.
Arguments op : clear implicits.
Arguments res : clear implicits.
Arguments acc : clear implicits.
