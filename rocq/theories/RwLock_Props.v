(** Properties of the centralized reader-writer lock (C27). *)
From Coq Require Import Arith List Bool ZArith.
From Verif Require Import Lib LockSpec RwLock_Model RwLock_Proof.
Import ListNotations.

(** Every execution of any number of threads below 2^32 is a legal
    reader-writer history: writers exclude everybody, downgrade is atomic, and
    trylocks acquire only when permitted. *)
Theorem rwlock_legal : forall n, (Z.of_nat n < W)%Z ->
  forall ls s log, run (step n) init ls = Some (s, log) -> rw_legal log.
Proof. exact rw_refines. Qed.
Print Assumptions rwlock_legal.

Theorem rwlock_writer_can_acquire : forall n, (Z.of_nat n < W)%Z ->
  forall s, reachable (step n) init s -> forall t, waiting_w s t = true ->
  exists ls s' log, run (step n) s ls = Some (s', log) /\ In (WAcq t) log.
Proof. exact rw_progress_w. Qed.
Print Assumptions rwlock_writer_can_acquire.

Theorem rwlock_reader_can_acquire : forall n, (Z.of_nat n < W)%Z ->
  forall s, reachable (step n) init s -> forall t, waiting_r s t = true ->
  exists ls s' log, run (step n) s ls = Some (s', log) /\ In (RAcq t) log.
Proof. exact rw_progress_r. Qed.
Print Assumptions rwlock_reader_can_acquire.

(** What legality means on the events alone. *)
Theorem rw_exclusion : forall log, rw_legal log -> forall t, rw_winside log t ->
  (forall u, rw_winside log u -> u = t) /\ (forall u, ~ rw_rinside log u).
Proof. exact rw_legal_excl. Qed.
Print Assumptions rw_exclusion.

(** Writer 0, reader 1 backs off, downgrade, reader 1 joins, writer 2's trylock
    fails on the readers, readers leave, writer 2 acquires. *)
Example rwlock_ex :
  match run (step 3) init
    [(0, AWLock); (1, ARLock); (1, ATick); (0, ATick); (1, ATick); (0, ATick); (1, ATick); (1, ATick); (0, ATick);
     (0, ADown); (0, ATick); (1, ATick); (1, ATick); (1, ATick); (2, AWTry); (2, ATick); (2, ATick); (2, ATick);
     (1, ARUnlock); (2, AWLock); (2, ATick); (0, ARUnlock); (2, ATick)] with
  | Some (s, log) => log = [WAcq 0; Down 0; RAcq 1; WTryFail 2; RRel 1; RRel 0; WAcq 2]
  | None => False
  end.
Proof. vm_compute. reflexivity. Qed.
