(** Properties of the CLH queue lock (C25). *)
From Coq Require Import Arith List Bool.
From Verif Require Import Lib LockSpec SpinClh_Model SpinClh_Proof.
Import ListNotations.

(** Every execution, with any number of threads and nodes recycled on unlock,
    is a legal first-come-first-served lock history. *)
Theorem clh_fcfs : forall ls s log, run step init ls = Some (s, log) -> fcfs_legal log.
Proof. exact clh_refines. Qed.
Print Assumptions clh_fcfs.

(** A waiting thread can always still acquire. *)
Theorem clh_no_stuck : forall s, reachable step init s -> forall t, waiting s t = true ->
  exists ls s' log, run step s ls = Some (s', log) /\ In (FAcq t) log.
Proof. exact clh_progress. Qed.
Print Assumptions clh_no_stuck.

(** [locked] is true exactly when a thread holds the lock or is queued. *)
Theorem clh_locked : forall s, reachable step init s ->
  locked s = true <-> exists t, holding s t = true \/ waiting s t = true.
Proof. exact clh_locked_exact. Qed.
Print Assumptions clh_locked.

(** Node ownership: no two threads own the same node, and the node handed back
    to an idle thread is neither the queue tail nor watched by anybody. *)
Theorem clh_node_exclusive : forall s, reachable step init s ->
  (forall t u, node s t = node s u -> t = u) /\
  (forall t, thr s t = Idle -> node s t <> tail s /\
     forall u p, (thr s u = L3 p \/ thr s u = L4 p \/ thr s u = U2 p) -> node s t <> p).
Proof. exact clh_recycle. Qed.
Print Assumptions clh_node_exclusive.

(** Three threads; 0 holds, 2 and 1 queue in that order, 0 releases and its
    next request reuses node 0, queueing behind 1. *)
Example clh_ex :
  match run step init
    [(0, ALock); (0, ATick); (0, ATick); (0, ATick); (0, ATick); (2, ALock); (1, ALock); (2, ATick); (1, ATick);
     (2, ATick); (1, ATick); (1, ATick); (1, ATick); (0, AUnlock); (0, ATick); (0, ATick); (0, ALock); (0, ATick);
     (0, ATick); (2, ATick); (2, ATick); (2, AUnlock); (2, ATick); (2, ATick); (1, ATick); (0, ATick); (0, ATick)] with
  | Some (s, log) => log = [FReq 0; FAcq 0; FReq 2; FReq 1; FRel 0; FReq 0; FAcq 2; FRel 2; FAcq 1]
        /\ waiting s 0 = true /\ node s 0 = 0 /\ node s 2 = 1 /\ locked s = true
  | None => False
  end.
Proof. vm_compute. repeat split; reflexivity. Qed.
