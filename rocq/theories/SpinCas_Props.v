(** Properties of the compare-and-swap spinlock (C20). *)
From Coq Require Import Arith List ZArith Bool Lia.
From Verif Require Import Lib LockSpec SpinCas_Model SpinCas_Proof.
Import ListNotations.

(** Every execution is a legal history of a lock: exclusive acquisition,
    release by the holder, truthful trylock failures and locked answers. *)
Theorem cas_legal : forall ls s log, run step init ls = Some (s, log) -> lock_legal log.
Proof. exact cas_refines. Qed.
Print Assumptions cas_legal.

(** From every reachable state a thread inside lock can still acquire. *)
Theorem cas_no_stuck : forall s t, reachable step init s -> waiting s t = true ->
  exists ls s' log, run step s ls = Some (s', log) /\ In (Acq t) log.
Proof. exact cas_progress. Qed.
Print Assumptions cas_no_stuck.

(** Non-trivial instance: thread 1 waits while thread 0 holds, a trylock fails,
    then thread 1 gets in. *)
Example cas_ex :
  match run step init
    [(0, ALock); (0, ATick); (1, ALock); (1, ATick); (2, ATry); (1, ATick);
     (0, ALocked); (0, AUnlock); (1, ATick); (1, ATick); (1, AUnlock); (3, ALockEb); (3, ATick)]%nat with
  | Some (_, log) => log = [Acq 0; TryFail 2; Locked 0 true; Rel 0; Acq 1; Rel 1; Acq 3]
  | None => False
  end.
Proof. vm_compute. reflexivity. Qed.

Example cas_waiting_ex :
  match run step init [(0, ALock); (0, ATick); (1, ALock); (1, ATick)]%nat with
  | Some (s, _) => waiting s 1 = true
  | None => False
  end.
Proof. vm_compute. reflexivity. Qed.
