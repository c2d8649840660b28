(** Properties of the big-reader lock (C33). *)
From Coq Require Import Arith NArith List Bool.
From Verif Require Import Lib LockSpec BrLock_Model BrLock_Proof.
Import ListNotations.

(** Every execution, from any initial contents of the reader objects, is accepted
    by the reader-writer automaton.  Every nested read section has its own RAcq
    and RRel; register and unregister are write sections. *)
Theorem brlock_legal : forall n g nx pv ls s log, run (step n) (init g nx pv) ls = Some (s, log) -> rw_legal log.
Proof. exact br_refines. Qed.
Print Assumptions brlock_legal.

(** What legality means: while a thread has an open write section no other write
    section and no read section is open. *)
Theorem brlock_exclusion : forall n g nx pv ls s log, run (step n) (init g nx pv) ls = Some (s, log) ->
  forall t, rw_winside log t -> (forall u, rw_winside log u -> u = t) /\ (forall u, ~ rw_rinside log u).
Proof. exact (fun n g nx pv ls s log H => rw_legal_excl log (br_refines n g nx pv ls s log H)). Qed.
Print Assumptions brlock_exclusion.

(** Whenever the writer flag is free the list holds exactly the registered readers, once each. *)
Theorem brlock_list : forall n g nx pv s, reachable (step n) (init g nx pv) s -> writer s = false ->
  exists l, chain (next s) (head s) l /\ NoDup l /\ forall t, In t l <-> registered s t = true.
Proof. exact br_list. Qed.
Print Assumptions brlock_list.

(** Two readers register; reader 0 nests; writer 2 waits for the outer section to
    end; reader 1 backs off while the writer waits, then unregisters. *)
Example brlock_ex :
  match run (step 3) (init (fun _ => 7%N) (fun _ => None) (fun _ => Some 5))
    [(0, AReg); (0, ATick); (0, ATick); (0, ATick); (0, ATick); (0, ATick); (0, ATick);
     (1, AReg); (1, ATick); (1, ATick); (1, ATick); (1, ATick); (1, ATick); (1, ATick); (1, ATick); (1, ATick);
     (0, ARLock); (0, ATick); (0, ATick); (0, ATick); (0, ARLock); (1, ARLock); (1, ATick);
     (2, AWLock); (2, ATick); (1, ATick); (2, ATick); (2, ATick); (1, ATick); (1, ATick); (2, ATick); (2, ATick);
     (2, ATick); (0, ARUnlock); (2, ATick); (0, ARUnlock); (2, ATick); (2, ATick); (2, AWUnlock);
     (1, ATick); (1, ATick); (1, ATick); (1, ARUnlock);
     (1, AUnreg); (1, ATick); (1, ATick); (1, ATick); (1, ATick); (1, ATick); (1, ATick); (1, ATick); (1, ATick); (1, ATick)] with
  | Some (s, log) => log = [WAcq 0; WRel 0; WAcq 1; WRel 1; RAcq 0; RAcq 0; RRel 0; RRel 0; WAcq 2; WRel 2; RAcq 1; RRel 1; WAcq 1; WRel 1] /\
                     head s = Some 0 /\ next s 0 = None
  | None => False
  end.
Proof. vm_compute. auto. Qed.
