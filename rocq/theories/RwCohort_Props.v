(** Properties of reader-writer cohort locks (C36). *)
From Coq Require Import Arith NArith List Bool.
From Verif Require Import Lib LockSpec RwCohort_Model RwCohort_Proof.
Import ListNotations.

(** Writer and reader preference, any number of cohorts, any pass limit: every
    execution is a legal reader-writer history, provided that the predicate that
    CK_COHORT_LOCKED applies to the global lock recognises it as held, whatever
    the other one does.  The hypothesis holds when the local and the global lock
    are of the same kind; it is needed because CK_COHORT_LOCKED applies the local
    lock's predicate to the global lock. *)
Theorem rwcohort_legal_partial : forall n coh lim gp lp k, (N.of_nat n < 2 ^ 32)%N -> lp true = true ->
  forall ls s log, run (step n coh lim gp lp k) init ls = Some (s, log) -> rw_legal log.
Proof. exact legal_k. Qed.
Print Assumptions rwcohort_legal_partial.

(** The neutral variant does not use the predicates. *)
Theorem rwcohort_neutral_legal : forall n coh lim gp lp, (N.of_nat n < 2 ^ 32)%N ->
  forall ls s log, run (step n coh lim gp lp NE) init ls = Some (s, log) -> rw_legal log.
Proof. exact legal_ne. Qed.
Print Assumptions rwcohort_neutral_legal.

(** If the local lock's predicate does not see that the global lock is held, a
    reader enters beside a writer of another cohort, in both other variants. *)
Theorem rwcohort_mixed_refuted : forall k, k <> NE -> exists n coh lim ls s log,
  run (step n coh lim (fun b => b) (fun _ => false) k) init ls = Some (s, log) /\ log = [WAcq 0; RAcq 1].
Proof. exact mixed. Qed.
Print Assumptions rwcohort_mixed_refuted.

Definition two (t : nat) : nat := if Nat.eqb t 1 then 1 else 0.

(** Writer preference: reader 1 (other cohort) meets writer 0 inside, backs off,
    raises the barrier, and enters after the writer left. *)
Example rwcohort_wp_ex :
  match run (step 2 two (fun _ => 5%N) (fun b => b) (fun b => b) WP) init
    [(0, AWLock); (0, ATick); (0, ATick); (0, ATick); (0, ATick); (0, ATick); (0, ATick); (1, ARLock); (1, ATick); (0, ATick); (1, ATick);
     (1, ATick); (1, ATick); (0, ATick); (1, ARaise); (1, ATick); (1, ATick); (0, AWUnlock); (0, ATick); (0, ATick); (1, ATick); (1, ATick);
     (1, ATick); (1, ATick); (1, ATick); (1, ATick); (1, ARUnlock)] with
  | Some (s, log) => log = [WAcq 0; WRel 0; RAcq 1; RRel 1]
  | None => False
  end.
Proof. vm_compute. reflexivity. Qed.

(** Reader preference: writer 0 backs off for reader 1 and enters later. *)
Example rwcohort_rp_ex :
  match run (step 2 two (fun _ => 5%N) (fun b => b) (fun b => b) RP) init
    ([(1, ARLock); (1, ATick); (1, ATick); (1, ATick); (1, ATick)] ++ (0, AWLock) :: repeat (0, ATick) 12 ++
     [(0, ARaise); (1, ARUnlock)] ++ repeat (0, ATick) 8 ++ (0, AWUnlock) :: repeat (0, ATick) 5) with
  | Some (s, log) => log = [RAcq 1; RRel 1; WAcq 0; WRel 0] /\ bar s = 0%N
  | None => False
  end.
Proof. vm_compute. auto. Qed.

(** Neutral. *)
Example rwcohort_ne_ex :
  match run (step 2 two (fun _ => 5%N) (fun b => b) (fun b => b) NE) init
    ((1, ARLock) :: repeat (1, ATick) 11 ++ (0, AWLock) :: repeat (0, ATick) 7 ++ (1, ARUnlock) :: repeat (0, ATick) 1 ++ (0, AWUnlock) :: repeat (0, ATick) 5) with
  | Some (s, log) => log = [RAcq 1; RRel 1; WAcq 0; WRel 0]
  | None => False
  end.
Proof. vm_compute. reflexivity. Qed.
