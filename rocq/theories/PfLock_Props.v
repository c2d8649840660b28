(** Properties of the phase-fair reader-writer lock (C30). *)
From Coq Require Import Arith List Bool ZArith.
From Verif Require Import Lib LockSpec RwFairSpec PfLock_Model PfLock_Proof.
Import ListNotations.

(** Every execution of any number of threads below 2^24 is accepted by the
    phase-fair automaton: exclusion, writers in ticket order, and a writer only
    begins a write phase when no waiting reader has already waited for one. *)
Theorem pflock_legal : forall n, (Z.of_nat n < 2 ^ 24)%Z ->
  forall ls s log, run (step n) init ls = Some (s, log) -> pf_legal log.
Proof. exact pf_refines. Qed.
Print Assumptions pflock_legal.

Theorem pflock_writer_can_acquire : forall n, (Z.of_nat n < 2 ^ 24)%Z ->
  forall s, reachable (step n) init s -> forall t, waiting_w s t = true ->
  exists ls s' log, run (step n) s ls = Some (s', log) /\ In (PWAcq t) log.
Proof. exact pf_progress_w. Qed.
Print Assumptions pflock_writer_can_acquire.

Theorem pflock_reader_can_acquire : forall n, (Z.of_nat n < 2 ^ 24)%Z ->
  forall s, reachable (step n) init s -> forall t, waiting_r s t = true ->
  exists ls s' log, run (step n) s ls = Some (s', log) /\ In (PRAcq t) log.
Proof. exact pf_progress_r. Qed.
Print Assumptions pflock_reader_can_acquire.

(** What acceptance means on the events alone. *)
Theorem pf_exclusion : forall log, pf_legal log -> rw_legal (flat_map pev_rw log).
Proof. exact pf_legal_rw. Qed.
Print Assumptions pf_exclusion.

Theorem pf_writer_order : forall log, pf_legal log -> exists rest, pwreqs log = pwacqs log ++ rest.
Proof. exact pf_prefix. Qed.
Print Assumptions pf_writer_order.

(** A waiting reader sees at most one write phase begin, and none if a writer
    was inside when it arrived. *)
Theorem pf_reader_waits_one_phase : forall l1 t l2, pf_legal (l1 ++ PRReq t :: l2) -> ~ In (PRAcq t) l2 ->
  length (pwacqs l2) <= 1 /\ ((exists u, rw_winside (flat_map pev_rw l1) u) -> length (pwacqs l2) = 0).
Proof. exact pf_wait. Qed.
Print Assumptions pf_reader_waits_one_phase.

(** Reader 1 arrives while writer 0 waits for reader 2; writer 3 queues behind;
    reader 1 gets in between the two writers although writer 3 came first. *)
Example pflock_ex :
  match run (step 4) init
    [(2, ARLock); (0, AWLock); (0, ATick); (0, ATick); (3, AWLock); (1, ARLock); (1, ATick); (0, ATick);
     (2, ARUnlock); (0, ATick); (1, ATick); (0, AWUnlock); (0, ATick); (3, ATick); (3, ATick); (3, ATick);
     (1, ATick); (3, ATick); (1, ARUnlock); (3, ATick)] with
  | Some (s, log) => log = [PRReq 2; PRAcq 2; PWReq 0; PWReq 3; PRReq 1; PRRel 2; PWAcq 0; PWRel 0; PRAcq 1; PRRel 1; PWAcq 3]
  | None => False
  end.
Proof. vm_compute. reflexivity. Qed.
