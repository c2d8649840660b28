(** Properties of the test-and-set spinlock (C19). *)
From Coq Require Import Arith List ZArith Bool Lia.
From Verif Require Import Lib LockSpec SpinFas_Model SpinFas_Proof.
Import ListNotations.

(** Every execution is a legal history of a lock: exclusive acquisition,
    release by the holder, truthful trylock failures and locked answers. *)
Theorem fas_legal : forall ls s log, run step init ls = Some (s, log) -> lock_legal log.
Proof. exact fas_refines. Qed.
Print Assumptions fas_legal.

(** From every reachable state a thread inside lock can still acquire. *)
Theorem fas_no_stuck : forall s t, reachable step init s -> waiting s t = true ->
  exists ls s' log, run step s ls = Some (s', log) /\ In (Acq t) log.
Proof. exact fas_progress. Qed.
Print Assumptions fas_no_stuck.

(** Non-trivial instance: thread 1 waits while thread 0 holds, a trylock fails,
    then thread 1 gets in. *)
Example fas_ex :
  match run step init
    [(0, ALock); (0, ATick); (1, ALock); (1, ATick); (2, ATry); (1, ATick);
     (0, ALocked); (0, AUnlock); (1, ATick); (1, ATick); (1, AUnlock); (3, ALockEb); (3, ATick)]%nat with
  | Some (_, log) => log = [Acq 0; TryFail 2; Locked 0 true; Rel 0; Acq 1; Rel 1; Acq 3]
  | None => False
  end.
Proof. vm_compute. reflexivity. Qed.

Example fas_waiting_ex :
  match run step init [(0, ALock); (0, ATick); (1, ALock); (1, ATick)]%nat with
  | Some (s, _) => waiting s 1 = true
  | None => False
  end.
Proof. vm_compute. reflexivity. Qed.
