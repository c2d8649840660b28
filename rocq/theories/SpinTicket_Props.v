(** Properties of the ticket lock, packed and generic variants (C22). *)
From Coq Require Import Arith List ZArith Bool Lia.
From Verif Require Import Lib LockSpec.
From Verif Require SpinTicket_Model SpinTicket_Proof SpinTicketG_Model SpinTicketG_Proof.
Import ListNotations.

Module M := SpinTicket_Model.
Module G := SpinTicketG_Model.

(** Packed variant with [k]-bit halves: every execution by fewer than [2^k]
    threads is a legal first-come-first-served lock history, for unboundedly many
    acquisitions (the halves wrap around). *)
Theorem ticket_fcfs : forall k n, (0 <= k)%Z -> (Z.of_nat n < 2 ^ k)%Z ->
  forall ls s log, run (M.step k n) M.init ls = Some (s, log) -> fcfs_legal log.
Proof. exact SpinTicket_Proof.ticket_refines. Qed.
Print Assumptions ticket_fcfs.

Theorem ticket_no_stuck : forall k n, (0 <= k)%Z -> (Z.of_nat n < 2 ^ k)%Z ->
  forall s, reachable (M.step k n) M.init s -> forall t, M.waiting s t = true ->
  exists ls s' log, run (M.step k n) s ls = Some (s', log) /\ In (FAcq t) log.
Proof. exact SpinTicket_Proof.ticket_progress. Qed.
Print Assumptions ticket_no_stuck.

(** Generic variant with counters of range [W] (2^32 in the code). *)
Theorem ticketg_fcfs : forall W n, (Z.of_nat n <= W)%Z ->
  forall ls s log, run (G.step W n) G.init ls = Some (s, log) -> fcfs_legal log.
Proof. exact SpinTicketG_Proof.ticketg_refines. Qed.
Print Assumptions ticketg_fcfs.

Theorem ticketg_no_stuck : forall W n, (Z.of_nat n <= W)%Z ->
  forall s, reachable (G.step W n) G.init s -> forall t, G.waiting s t = true ->
  exists ls s' log, run (G.step W n) s ls = Some (s', log) /\ In (FAcq t) log.
Proof. exact SpinTicketG_Proof.ticketg_front. Qed.
Print Assumptions ticketg_no_stuck.

(** Reading of legality: mutual exclusion and acquisition order. *)
Theorem fcfs_mutex : forall log, fcfs_legal log ->
  forall t u, inside (flat_map fev_lock log) t -> inside (flat_map fev_lock log) u -> t = u.
Proof. exact (fun log H => lock_legal_mutex _ (fcfs_legal_lock _ H)). Qed.
Print Assumptions fcfs_mutex.

Theorem fcfs_order : forall log, fcfs_legal log -> exists rest, reqs log = acqs log ++ rest.
Proof. exact fcfs_prefix. Qed.
Print Assumptions fcfs_order.

(** Instance with four-valued counters that wrap, three threads. *)
Example ticket_ex :
  match run (M.step 2 3) M.init
    ([(0, M.ALock); (0, M.ATick); (1, M.ALock); (1, M.ATick); (2, M.ALock); (2, M.ATick);
     (2, M.ATick); (0, M.AUnlock); (0, M.ATry); (1, M.ATick); (1, M.AUnlock); (2, M.ATick);
     (2, M.AUnlock); (0, M.ATry); (0, M.ATick); (1, M.ALock); (1, M.ATick); (0, M.AUnlock);
     (1, M.ATick); (1, M.ALocked)]) with
  | Some (_, log) => log = [FReq 0; FAcq 0; FReq 1; FReq 2; FRel 0; FTryFail 0; FAcq 1; FRel 1;
       FAcq 2; FRel 2; FReq 0; FAcq 0; FReq 1; FRel 0; FAcq 1; FLocked 1 true]
  | None => False
  end.
Proof. vm_compute. reflexivity. Qed.

Example ticketg_ex :
  match run (G.step 2 2) G.init
    [(0, G.ALock); (0, G.ATick); (1, G.ALock); (1, G.ATick); (0, G.ATick); (1, G.ATick);
     (0, G.AUnlock); (0, G.ATick); (0, G.ALock); (0, G.ATick); (1, G.ATick)] with
  | Some (s, log) => G.waiting s 0 = true /\ log = [FReq 0; FReq 1; FAcq 0; FRel 0; FReq 0; FAcq 1]
  | None => False
  end.
Proof. vm_compute. split; reflexivity. Qed.
