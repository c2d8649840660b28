(** C90: the single-producer single-consumer linked FIFO on x86-TSO. *)
From Coq Require Import Arith List Bool.
From Verif Require Import Lib TsoFifoSp_Spec TsoFifoSp_Model TsoFifoSp_Proof.
Import ListNotations.

(** C90.  [fq_legal] (TsoFifoSp_Spec): dequeue returns the values in the order of the enqueues, each
    once and not before it arrived, and fails only if none has arrived; recycle returns the emptied
    entries in order, each once and only after its release arrived, and NULL only if there is none;
    isempty of the consumer says whether an entry has arrived, isempty of the producer whether
    everything sent was consumed and that news had arrived. *)
Theorem fifo_spsc_tso_legal : forall e ls s log, run step (init e) ls = Some (s, log) -> fq_legal e log.
Proof. exact sp_legal. Qed.
Print Assumptions fifo_spsc_tso_legal.

(** C90.  On the bare log: the values dequeued are a prefix of the values enqueued. *)
Theorem fifo_spsc_tso_order : forall e ls s log, run step (init e) ls = Some (s, log) -> exists rest, enqs log = deqs log ++ rest.
Proof. exact sp_order. Qed.
Print Assumptions fifo_spsc_tso_order.

(** C90.  On the bare log: entries are recycled in the order they were enqueued, the stub first,
    and those not yet recycled are distinct. *)
Theorem fifo_spsc_tso_recycle : forall e ls s log, run step (init e) ls = Some (s, log) ->
  exists rest, e :: ents log = recs log ++ rest /\ NoDup rest.
Proof. exact sp_recycle. Qed.
Print Assumptions fifo_spsc_tso_recycle.

(** C90.  Once a buffer has emptied nothing of its thread is under way. *)
Theorem fifo_spsc_tso_drained : forall e ls s log, run step (init e) ls = Some (s, log) ->
  exists a, accepts fq_step (fq0 e) log = Some a /\ (pb s = [] -> way a = []) /\ (cb s = [] -> out a = []).
Proof. exact sp_drained. Qed.
Print Assumptions fifo_spsc_tso_drained.

(** C90.  Whoever is inside a call can take its next step; recycle never runs off the list. *)
Theorem fifo_spsc_tso_no_stuck : forall e ls s log, run step (init e) ls = Some (s, log) ->
  (pp s <> PIdle -> exists r, step s PTick = Some r) /\ (cp s <> CIdle -> exists r, step s CTick = Some r).
Proof. exact sp_stuck. Qed.
Print Assumptions fifo_spsc_tso_no_stuck.

(** a dequeue misses an entry that is still in the buffer, recycle misses a release that is; the
    recycled stub is enqueued again *)
Example fifo_spsc_tso_example :
  let p k := repeat PTick k in let c k := repeat CTick k in
  let ls := [CallEnq 5 50] ++ p 3 ++ [CallDeq] ++ c 1 ++ [PFlush; CallEmpP] ++ p 1 ++ [PFlush; PFlush] ++ [CallDeq] ++ c 3 ++
            p 1 ++ [CallRec] ++ p 2 ++ [CFlush; CallRec] ++ p 3 ++ [CallEnq 9 90] ++ p 3 ++ [CallEmpC] ++ c 2 ++ [PFlush; PFlush; PFlush; CallDeq] ++ c 3 in
  match run step (init 9) ls with
  | Some (s, log) => log = [Enq 5 50; NoDeq; Look; Sent; Deq 50; EmpP false; NoRec; Freed; Rec 9; Enq 9 90; EmpC true; Sent; Deq 90]
  | None => False
  end.
Proof. vm_compute. reflexivity. Qed.
