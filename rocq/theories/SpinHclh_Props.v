(** Properties of the hierarchical CLH lock (C26). *)
From Coq Require Import Arith List Bool.
From Verif Require Import Lib LockSpec SpinHclh_Model SpinHclh_Spec SpinHclh_Proof.
Import ListNotations.

(** At most one thread is between lock and unlock: for every assignment of
    threads to clusters, any number of threads and clusters, nodes recycled. *)
Theorem hclh_mutual_exclusion : forall cl ls s log,
  run (step cl) init ls = Some (s, log) -> lock_legal (flat_map fev_lock log).
Proof. exact hclh_mutex. Qed.
Print Assumptions hclh_mutual_exclusion.

(** In addition every cluster is served in request order. *)
Theorem hclh_cluster_fcfs : forall cl ls s log, run (step cl) init ls = Some (s, log) -> hier_legal cl log.
Proof. exact hclh_refines. Qed.
Print Assumptions hclh_cluster_fcfs.

(** A waiting thread can always still acquire. *)
Theorem hclh_no_stuck : forall cl s, reachable (step cl) init s -> forall t, waiting s t = true ->
  exists ls s' log, run (step cl) s ls = Some (s', log) /\ In (FAcq t) log.
Proof. exact hclh_progress. Qed.
Print Assumptions hclh_no_stuck.

(** Node ownership: the node unlock hands back is neither a queue tail, nor
    watched, nor about to be spliced by anybody. *)
Theorem hclh_node_exclusive : forall cl s, reachable (step cl) init s ->
  (forall t u, node s t = node s u -> t = u) /\
  (forall t, thr s t = Idle -> node s t <> glob s /\ (forall c, node s t <> loc s c) /\
     forall u p, (thr s u = L6 p \/ thr s u = L7 p \/ thr s u = L8a p \/ thr s u = L8b p \/ thr s u = L8c p \/
                  thr s u = L9a p \/ thr s u = L9b p \/ thr s u = L12 p \/ (exists x, thr s u = L13 p x) \/
                  (exists x, thr s u = L13 x p) \/ thr s u = L14 p \/ thr s u = U2 p) -> node s t <> p).
Proof. exact hclh_recycle. Qed.
Print Assumptions hclh_node_exclusive.

(** unlock never reads a NULL previous pointer. *)
Theorem hclh_unlock_total : forall cl s, reachable (step cl) init s -> forall t, thr s t = U1 ->
  exists s', step cl s (t, ATick) = Some (s', []).
Proof. exact hclh_unlock_node. Qed.
Print Assumptions hclh_unlock_total.

Definition enter (t : nat) : list (nat * act) := (t, ALock) :: repeat (t, ATick) 9.
Definition tick (t n : nat) : list (nat * act) := repeat (t, ATick) n.

(** Threads 0, 1 and 2 share cluster 0, thread 3 is alone in cluster 1.  Thread
    0 splices itself and 1 as one batch; 3 queues globally behind them; 2 joins
    the local queue behind 1 after the splice and must splice again, behind 3.
    Thread 0's next request reuses the local initial node. *)
Example hclh_ex :
  match run (step (fun t => t / 3)) init
    ((* 0 and 1 queue locally *) enter 0 ++ enter 1 ++
     (* 0 splices both and acquires *) tick 0 5 ++
     (* 3 queues globally *) enter 3 ++ tick 3 6 ++
     (* 2 queues locally behind 1 and splices behind 3 *) enter 2 ++ tick 2 12 ++
     (* 0 releases, 1 gets the lock locally, then 3, then 2 *)
     [(0, AUnlock)] ++ tick 0 2 ++ enter 0 ++ tick 1 4 ++ [(1, AUnlock)] ++ tick 1 2 ++
     tick 3 1 ++ [(3, AUnlock)] ++ tick 3 2 ++ tick 2 1) with
  | Some (s, log) => log = [FReq 0; FReq 1; FAcq 0; FReq 3; FReq 2; FRel 0; FReq 0; FAcq 1; FRel 1; FAcq 3; FRel 3; FAcq 2]
      /\ waiting s 0 = true /\ node s 0 = 1
  | None => False
  end.
Proof. vm_compute. repeat split; reflexivity. Qed.
