(** C85: rings of structs of any size keep the bytes of their elements apart. *)
From Coq Require Import NArith List Bool.
From Verif Require Import RingBytes_Model RingBytes_Spec RingBytes_Proof.
Import ListNotations.
Open Scope N_scope.

(** For elements of [ts] bytes and 2^k slots, the loads of every sequence of byte accesses by
    the code of ck_ring.h return what they would if no two slots shared a byte, exactly when
    the offset of the last slot is below 2^32. *)
Theorem ring_bytes_apart_iff : forall (byte : Type) (a b : byte) ts k, a <> b -> 0 < ts -> ts < W ->
  ((forall l : list (acc byte), Forall (within k ts) l ->
     flat ts (2 ^ k - 1) (fun _ => a) l = cells (fun _ _ => a) l) <-> ts * (2 ^ k - 1) < W).
Proof. exact @traces_iff. Qed.
Print Assumptions ring_bytes_apart_iff.

(** Under that bound every sequence of calls is that of a FIFO of 2^k - 1 whole elements. *)
Theorem ring_bytes_fifo_partial : forall (byte : Type) ts k, 1 <= k -> k < 32 -> ts * (2 ^ k - 1) < W ->
  forall (m : N -> byte) os, fifo (N.to_nat (2 ^ k - 1)) ts [] os (calls ts (init k m) os).
Proof. exact @fifo_init. Qed.
Print Assumptions ring_bytes_fifo_partial.

(** Without it, it is not: an enqueue overwrites an element not yet dequeued. *)
Theorem ring_bytes_fifo_refuted : forall (byte : Type) (a b : byte), a <> b ->
  exists ts k os, 0 < ts /\ ts < W /\ 1 <= k /\ k < 32 /\
  ~ fifo (N.to_nat (2 ^ k - 1)) ts [] os (calls ts (init k (fun _ => a)) os).
Proof. exact @large_refuted. Qed.
Print Assumptions ring_bytes_fifo_refuted.

(** 24-byte elements in a ring of 4 slots: three fit, the fourth is refused, the counters move
    on and the last byte of each element comes back *)
Example ring_bytes_nontrivial :
  let e n : N -> N := fun j => n + j in
  let rs := calls 24 (init 2 (fun _ => 0)) [Enq (e 100); Enq (e 200); Enq (e 300); Enq (e 400); Deq; Enq (e 500); Deq; Deq; Deq; Deq] in
  map (fun r => match r with RBool b => if b then 1 else 0 | RElem (Some f) => f 23 | RElem None => 2 end) rs
  = [1; 1; 1; 0; 123; 1; 223; 323; 523; 2]
  /\ 24 * (2 ^ 2 - 1) < W
  /\ flat 24 3 (fun _ => 0) [Wr 1 23 7; Wr 2 0 8; Rd 1 23; Rd 2 0; Rd 1 0] = [7; 8; 0].
Proof. vm_compute. repeat split. Qed.
