(** C15: the multi-producer multi-consumer linked FIFO. *)
From Coq Require Import Arith List Bool.
From Verif Require Import Lib Lin FifoMp_Model FifoMp_Proof.
Import ListNotations.

(** C15.  For any number of threads using enqueue, tryenqueue, dequeue and trydequeue,
    with an entry enqueued only when no operation in progress holds it as its head or
    tail snapshot, the history is linearizable to a FIFO queue; dequeue answers empty
    only at a moment the queue is empty, and the garbage entry it returns is the one
    whose contents were taken out before.  No bound on the generation counters. *)
Theorem fifo_mpmc_linearizable : forall n e ls s log, run (mstep n) (minit e) ls = Some (s, log) ->
  linearizable fifo_seq mres_dec (mabs0 e) (history log).
Proof. exact fifo_mp_lin. Qed.
Print Assumptions fifo_mpmc_linearizable.

(** thread 1 enqueues behind the lagging tail of thread 0; a dequeue follows and its
    garbage is enqueued again *)
Example fifo_mpmc_example :
  let tk t k := repeat (t, ATick) k in
  let ls := [(0, ACall (Enq 5 50))] ++ tk 0 9 ++ [(1, ACall (Enq 6 60))] ++ tk 1 16 ++ tk 0 1 ++
            [(0, ACall TryDeq)] ++ tk 0 8 ++ [(0, ACall (TryEnq 9 90))] ++ tk 0 10 in
  exists s, run (mstep 2) (minit 9) ls =
    Some (s, [Call 0 (Enq 5 50); Lin 0 RU; Call 1 (Enq 6 60); Lin 1 RU; Ret 1 RU; Ret 0 RU;
              Call 0 TryDeq; Lin 0 (RD (Some (50, 9))); Ret 0 (RD (Some (50, 9))); Call 0 (TryEnq 9 90); Lin 0 (RB true); Ret 0 (RB true)]).
Proof. eexists. vm_compute. reflexivity. Qed.
