(** Properties of the MCS queue lock (C24). *)
From Coq Require Import Arith List Bool.
From Verif Require Import Lib LockSpec SpinMcs_Model SpinMcs_Proof.
Import ListNotations.

(** Every execution of lock, trylock, locked and unlock, from arbitrary initial
    node contents and with any number of threads, is a legal
    first-come-first-served history (and [locked] is truthful in it). *)
Theorem mcs_fcfs : forall lk nx ls s log, run step (init lk nx) ls = Some (s, log) -> fcfs_legal log.
Proof. exact mcs_refines. Qed.
Print Assumptions mcs_fcfs.

Theorem mcs_no_stuck : forall lk nx s, reachable step (init lk nx) s -> forall t, waiting s t = true ->
  exists ls s' log, run step s ls = Some (s', log) /\ In (FAcq t) log.
Proof. exact mcs_progress. Qed.
Print Assumptions mcs_no_stuck.

Theorem mcs_unlock_no_stuck : forall lk nx s, reachable step (init lk nx) s -> forall t, holding s t = true ->
  exists ls s' log, run step s ls = Some (s', log) /\ In (FRel t) log.
Proof. exact mcs_can_release. Qed.
Print Assumptions mcs_unlock_no_stuck.

(** trylock fails only if another thread holds the lock or is queued for it. *)
Theorem mcs_trylock_truthful : forall lk nx s t s' ev, reachable step (init lk nx) s ->
  step s (t, ATick) = Some (s', ev) -> In (FTryFail t) ev ->
  exists u, u <> t /\ (holding s u = true \/ waiting s u = true).
Proof. exact mcs_try_fail. Qed.
Print Assumptions mcs_trylock_truthful.

(** 0 acquires; 1 swaps in but has not linked; 0's unlock sees no successor,
    fails to clear the tail, waits for the link and hands over; 2's trylock
    fails meanwhile. *)
Example mcs_ex :
  match run step (init (fun _ => false) (fun _ => Some 7))
    [(0, ALock); (0, ATick); (0, ATick); (0, ATick); (1, ALock); (1, ATick); (1, ATick); (0, AUnlock); (0, ATick);
     (0, ATick); (1, ATick); (0, ATick); (0, ATick); (2, ATry); (2, ATick); (2, ATick); (2, ATick); (1, ATick);
     (0, ATick); (1, ATick); (0, ATick); (2, ALocked); (1, ATick); (1, AUnlock); (1, ATick); (1, ATick); (1, ATick);
     (2, ALocked)] with
  | Some (s, log) => log = [FReq 0; FAcq 0; FReq 1; FTryFail 2; FRel 0; FLocked 2 true; FAcq 1; FRel 1; FLocked 2 false]
  | None => False
  end.
Proof. vm_compute. reflexivity. Qed.
