(** Properties of cohort locks (C34, C35, C66). *)
From Coq Require Import Arith NArith List Bool Lia.
From Verif Require Import Lib LockSpec Cohort_Model Cohort_Proof CohortPass_Spec CohortPass_Proof.
Import ListNotations.

(** C34: for every assignment of threads to cohorts and every pass limit, every
    execution mixing lock, trylock and unlock is a legal lock history: an
    acquisition happens only when nobody of any cohort is inside. *)
Theorem cohort_legal : forall n coh lim, (N.of_nat n < 2 ^ 32)%N ->
  forall ls s log, run (step n coh lim) init ls = Some (s, log) -> lock_legal log.
Proof. exact legal. Qed.
Print Assumptions cohort_legal.

(** Two cohorts; the lock is passed inside cohort 0, then globally to cohort 1. *)
Example cohort_ex :
  match run (step 3 (fun t => if Nat.eqb t 2 then 1 else 0) (fun _ => 5%N)) init
    [(0, ALock); (0, ATick); (0, ATick); (0, ATick); (0, ATick); (0, ATick);
     (1, ALock); (1, ATick); (1, ATick); (2, ATry); (2, ATick); (2, ATick); (2, ATick); (2, ATick); (2, ATick); (2, ATick);
     (0, AUnlock); (0, ATick); (0, ATick); (0, ATick);
     (1, ATick); (1, ATick); (1, ATick);
     (1, AUnlock); (1, ATick); (1, ATick);
     (2, ALock); (2, ATick); (2, ATick); (2, ATick); (2, ATick); (2, ATick)] with
  | Some (s, log) => log = [Acq 0; Rel 0; Acq 1; Rel 1; Acq 2]
  | None => False
  end.
Proof. vm_compute. reflexivity. Qed.

(** C35, first half, for clients that do not call trylock: when no thread is in a
    call and nobody holds the lock, the global lock is free. *)
Theorem cohort_quiet_free_partial : forall n coh lim, (N.of_nat n < 2 ^ 32)%N ->
  forall ls s log, run (nstep n coh lim) init ls = Some (s, log) -> (forall t, thr s t = Idle) -> glob s = false.
Proof. exact quiet_free. Qed.
Print Assumptions cohort_quiet_free_partial.

(** With trylock: if the global lock is left held, some cohort has been handed it,
    so that a member of that cohort (and only those) can take the lock. *)
Theorem cohort_quiet_passed_partial : forall n coh lim, (N.of_nat n < 2 ^ 32)%N ->
  forall ls s log, run (step n coh lim) init ls = Some (s, log) -> (forall t, thr s t = Idle) -> glob s = true ->
  exists c, rel s c = true /\ loc s c = false.
Proof. exact quiet_pass. Qed.
Print Assumptions cohort_quiet_passed_partial.

(** C35, first half, fails with trylock: a trylock that fails because the local
    lock is held is counted in waiting_threads long enough for the concurrent
    unlock to "pass" the global lock to it.  Every thread is then outside, the
    global lock is held, and a thread of another cohort calling lock never gets
    it however long it runs. *)
Theorem cohort_trylock_leaves_global_refuted : exists n coh lim ls s log,
  run (step n coh lim) init ls = Some (s, log) /\ (forall t, thr s t = Idle) /\ log = [Acq 0; Rel 0] /\ glob s = true /\
  forall k, exists s', run (step n coh lim) s ((2, ALock) :: repeat (2, ATick) k) = Some (s', []).
Proof. exact stranded. Qed.
Print Assumptions cohort_trylock_leaves_global_refuted.

(** C35, second half: [locked] applies the global predicate to the local lock and
    the local one to the global lock.  With a fetch-and-store lock (locked iff the
    first word is not zero) as local and a ticket lock (locked iff the two words
    differ) as global lock it reports two free locks as held. *)
Theorem cohort_locked_refuted : exists (GI LI : N * N -> bool) l g,
  LI l = false /\ GI g = false /\ locked _ GI LI l g = true.
Proof. exact locked_swapped. Qed.
Print Assumptions cohort_locked_refuted.

(** It is right when both locks are of the same kind. *)
Theorem cohort_locked_partial : forall A (GI LI : A -> bool) l g, (forall x, GI x = LI x) ->
  (locked _ GI LI l g = true <-> LI l = true \/ GI g = true).
Proof. exact locked_same. Qed.
Print Assumptions cohort_locked_partial.

Example cohort_locked_ex : locked N (N.eqb 1) (N.eqb 1) 0%N 1%N = true /\ locked N (N.eqb 1) (N.eqb 1) 0%N 0%N = false.
Proof. vm_compute. auto. Qed.

(** C66: from the moment a cohort takes the global lock until it releases it, the lock is
    acquired at most max 1 limit times, by members of that cohort. *)
Theorem cohort_passes_bounded : forall n coh lim, (N.of_nat n < 2 ^ 32)%N -> (forall c, lim c < 2 ^ 32)%N ->
  forall ls s q log, run (tstep n coh lim) (init, []) ls = Some ((s, q), log) ->
  forall t, thr s t = Crit -> Forall (fun u => coh u = coh t) q /\ (N.of_nat (length q) <= N.max 1 (lim (coh t)))%N.
Proof. exact pass_bounded. Qed.
Print Assumptions cohort_passes_bounded.

(** and unlock passes the lock on inside the cohort exactly if somebody of the cohort is
    counted as waiting and the limit is not reached *)
Theorem cohort_pass_decision : forall n coh lim, (N.of_nat n < 2 ^ 32)%N -> (forall c, lim c < 2 ^ 32)%N ->
  forall ls s q log, run (tstep n coh lim) (init, []) ls = Some ((s, q), log) ->
  forall t, t < n -> thr s t = U1 -> exists s', step n coh lim s (t, ATick) = Some (s', []) /\
   (thr s' t = U2 <-> (0 < wait s (coh t))%N /\ (N.of_nat (length q) < lim (coh t))%N) /\ (thr s' t = U2 \/ thr s' t = U3).
Proof. exact pass_decides. Qed.
Print Assumptions cohort_pass_decision.

(** limit 2: the second acquisition in a row is the last although a third thread waits *)
Example cohort_passes_ex : exists s log,
  run (tstep 3 (fun _ => 0) (fun _ => 2%N)) (init, [])
    [(0, ALock); (0, ATick); (0, ATick); (0, ATick); (0, ATick); (0, ATick);
     (1, ALock); (1, ATick); (1, ATick); (2, ALock); (2, ATick); (2, ATick);
     (0, AUnlock); (0, ATick); (0, ATick); (0, ATick);
     (1, ATick); (1, ATick); (1, ATick); (1, AUnlock); (1, ATick)] = Some ((s, [1; 0]), log)
  /\ thr s 1 = U3 /\ wait s 0 = 1%N.
Proof. do 2 eexists. split; [vm_compute; reflexivity|]. split; vm_compute; reflexivity. Qed.
