(** What the list of the multi-producer FIFO must look like in memory, given the
    contents of the abstract queue (include/ck_fifo.h 206-463): following the
    next pointers from the stub meets the queued entries in order, each with its
    value stored, and ends in a null pointer. *)
From Coq Require Import List.
Import ListNotations.

Fixpoint chain_of (nx : nat -> option nat) (vl : nat -> nat) (h : nat) (q : list (nat * nat)) : Prop :=
  match q with
  | [] => nx h = None
  | (e, v) :: q => nx h = Some e /\ vl e = v /\ chain_of nx vl e q
  end.
