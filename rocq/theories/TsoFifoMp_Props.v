(** C89: the multi-producer multi-consumer linked FIFO on x86-TSO. *)
From Coq Require Import Arith List Bool.
From Verif Require Import Lib Lin FifoMp_Model TsoFifoMp_Model TsoFifoMp_Spec TsoFifoMp_Proof.
Import ListNotations.

(** C89.  With a FIFO store buffer per thread that drains whenever it likes, for any number
    of threads using enqueue, tryenqueue, dequeue and trydequeue, the history is linearizable
    to a FIFO queue, dequeue answers empty only at a moment the queue is empty, and the garbage
    entry is the one whose contents were taken out before. *)
Theorem fifo_mpmc_tso_linearizable : forall n e ls T log, run (fstep n) (finit e) ls = Some (T, log) ->
  linearizable fifo_seq mres_dec (mabs0 e) (history log).
Proof. exact tso_fifo_lin. Qed.
Print Assumptions fifo_mpmc_tso_linearizable.

(** C89.  At every moment the linearization points passed so far leave a queue whose entries are
    linked in order in memory, with their values: no part of a queued entry is still in a buffer. *)
Theorem fifo_mpmc_tso_memory : forall n e ls T log, run (fstep n) (finit e) ls = Some (T, log) ->
  exists a ph, accepts (lstep fifo_seq mres_dec) (mabs0 e, idle) log = Some (a, ph) /\
    hp (fm T) = stub a /\ chain_of (nx (fm T)) (vl (fm T)) (stub a) (sq a).
Proof. exact tso_fifo_mem. Qed.
Print Assumptions fifo_mpmc_tso_memory.

(** thread 0 reads the tail with its three stores still buffered; thread 1 enqueues; the
    tryenqueue fails with one store left in the buffer, and the entry is tried again *)
Example fifo_mpmc_tso_example :
  let tk t k := repeat (t, TTick) k in
  let fl t k := repeat (t, TFlush) k in
  let ls := [(0, TCall (TryEnq 5 50))] ++ tk 0 6 ++
            [(1, TCall (Enq 6 60))] ++ tk 1 3 ++ fl 1 1 ++ tk 1 5 ++ fl 1 2 ++ tk 1 2 ++
            tk 0 1 ++ fl 0 2 ++ tk 0 1 ++ [(0, TCall (TryEnq 5 51))] ++ tk 0 8 ++ fl 0 4 ++ tk 0 2 ++
            [(1, TCall Deq)] ++ tk 1 8 in
  match run (fstep 2) (finit 9) ls with
  | Some (T, log) => log = [Call 0 (TryEnq 5 50); Call 1 (Enq 6 60); Lin 1 RU; Ret 1 RU; Lin 0 (RB false); Ret 0 (RB false);
       Call 0 (TryEnq 5 51); Lin 0 (RB true); Ret 0 (RB true); Call 1 Deq; Lin 1 (RD (Some (60, 9))); Ret 1 (RD (Some (60, 9)))]
  | None => False
  end.
Proof. vm_compute. reflexivity. Qed.
