(** What counts for the progress of ck_fifo_mpmc. *)
From Coq Require Import NArith Arith List Bool.
From Verif Require Import FifoMp_Model.
Import ListNotations.

(** results of operations that change the queue *)
Definition chg (r : mres) : bool := match r with RU | RB true | RD (Some _) => true | _ => false end.
(** no call of enqueue or dequeue: only the try variants *)
Definition tryact (a : mact) : Prop := match a with ACall (Enq _ _) | ACall Deq => False | _ => True end.
