(** C14: the single-producer single-consumer linked FIFO. *)
From Coq Require Import Arith List Bool.
From Verif Require Import Lib Lin FifoSp_Model FifoSp_Proof.
Import ListNotations.

(** C14.  Every history of one enqueuer and one dequeuer is linearizable to an
    unbounded FIFO queue with exact isempty, in which recycle hands out, in order
    and once each, the entries whose contents were dequeued ([fifo_seq]). *)
Theorem fifo_spsc_linearizable : forall e ls s log, run fstep (finit e) ls = Some (s, log) ->
  linearizable fifo_seq fres_dec (fabs0 e) (history log).
Proof. exact fifo_lin. Qed.
Print Assumptions fifo_spsc_linearizable.

(** C14.  Stated on the bare history: an entry is returned by recycle at most once
    per enqueue of it (the initial stub once more). *)
Theorem fifo_spsc_recycle_once : forall e0 ls s log e, run fstep (finit e0) ls = Some (s, log) ->
  returned (rec_of e) (history log) <= called (enq_of e) (history log) + (if Nat.eq_dec e0 e then 1 else 0).
Proof. exact fifo_once. Qed.
Print Assumptions fifo_spsc_recycle_once.

(** The operations are wait free: whoever is inside a call can take its next step. *)
Theorem fifo_spsc_no_stuck : forall e ls s log, run fstep (finit e) ls = Some (s, log) ->
  (pp s <> PIdle -> exists r, fstep s PTick = Some r) /\ (cp s <> CIdle -> exists r, fstep s CTick = Some r).
Proof. exact fifo_stuck. Qed.
Print Assumptions fifo_spsc_no_stuck.

(** enqueue 5 and 6, dequeue once, recycle the stub and use it again, overlapping
    with an isempty of the dequeuer *)
Example fifo_spsc_example :
  let ls := [PCall (Enq 5 50); PTick; PTick; PTick; PTick; PCall (Enq 6 60); PTick; PTick; CCall Deq; CTick; PTick; CTick; PTick; CTick;
             PCall Recycle; PTick; PTick; CCall IsEmpty; PTick; CTick; PCall (Enq 9 90); PTick; PTick; PTick; CTick; PTick] in
  exists s, run fstep (finit 9) ls =
    Some (s, [Call 0 (Enq 5 50); Lin 0 RU; Ret 0 RU; Call 0 (Enq 6 60); Call 1 Deq; Lin 0 RU; Ret 0 RU; Lin 1 (RV (Some 50)); Ret 1 (RV (Some 50));
              Call 0 Recycle; Call 1 IsEmpty; Lin 0 (RE (Some 9)); Ret 0 (RE (Some 9)); Call 0 (Enq 9 90); Lin 0 RU;
              Lin 1 (RB false); Ret 1 (RB false); Ret 0 RU]).
Proof. eexists. vm_compute. reflexivity. Qed.
