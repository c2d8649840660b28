(** Properties of the task-fair reader-writer lock (C31). *)
From Coq Require Import Arith List Bool ZArith.
From Verif Require Import Lib LockSpec RwFairSpec TfLock_Model TfLock_Proof.
Import ListNotations.

(** Every execution of any number of threads below 2^15 is accepted by the
    task-fair automaton, including across any number of counter wraps. *)
Theorem tflock_legal : forall n, (Z.of_nat n < 2 ^ 15)%Z ->
  forall ls s log, run (step n) init ls = Some (s, log) -> tf_legal log.
Proof. exact tf_refines. Qed.
Print Assumptions tflock_legal.

Theorem tflock_can_acquire : forall n, (Z.of_nat n < 2 ^ 15)%Z ->
  forall s, reachable (step n) init s -> forall w t, waiting w s t = true ->
  exists ls s' log, run (step n) s ls = Some (s', log) /\ In (TAcq w t) log.
Proof. exact tf_progress. Qed.
Print Assumptions tflock_can_acquire.

(** What acceptance means on the events alone. *)
Theorem tf_exclusion : forall log, tf_legal log -> rw_legal (flat_map tev_rw log).
Proof. exact tf_legal_rw. Qed.
Print Assumptions tf_exclusion.

(** While a request waits, the conflicting requests granted before and during
    the wait number at most those that had been made before it. *)
Theorem tf_task_fair : forall l1 w t l2, tf_legal (l1 ++ TReq w t :: l2) -> (forall x, ~ In (TAcq x t) l2) ->
  tacqs (conflicts w) l1 + tacqs (conflicts w) l2 <= treqs (conflicts w) l1.
Proof. exact tf_bound. Qed.
Print Assumptions tf_task_fair.

(** Reader 1 and reader 4 share; writer 2 waits for both; reader 3 came after
    the writer and waits for it. *)
Example tflock_ex :
  match run (step 5) init
    [(1, ARLock); (1, ATick); (2, AWLock); (4, ARLock); (4, ATick); (2, ATick); (2, ATick); (1, ATick); (4, ATick);
     (3, ARLock); (3, ATick); (3, ATick); (2, ATick); (1, ARUnlock); (4, ARUnlock); (4, ATick); (1, ATick); (1, ATick);
     (3, ATick); (2, ATick); (3, ATick); (2, AWUnlock); (2, ATick); (3, ATick)] with
  | Some (s, log) => log = [TReq false 1; TReq false 4; TReq true 2; TAcq false 1; TAcq false 4; TReq false 3;
                            TRel false 4; TRel false 1; TAcq true 2; TRel true 2; TAcq false 3]
  | None => False
  end.
Proof. vm_compute. reflexivity. Qed.
