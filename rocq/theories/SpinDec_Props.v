(** Properties of the decrement spinlock (C21). *)
From Coq Require Import Arith List ZArith Bool Lia.
From Verif Require Import Lib LockSpec SpinDec_Model SpinDec_Proof.
Import ListNotations.

(** With fewer than 2^32 threads every execution is a legal lock history,
    although waiters keep decrementing the 32-bit lock word. *)
Theorem dec_legal : forall n ls s log, (Z.of_nat n < 2 ^ 32)%Z ->
  run (step n) init ls = Some (s, log) -> lock_legal log.
Proof. exact dec_refines. Qed.
Print Assumptions dec_legal.

Theorem dec_no_stuck : forall n s t, (Z.of_nat n < 2 ^ 32)%Z -> t < n ->
  reachable (step n) init s -> waiting s t = true ->
  exists ls s' log, run (step n) s ls = Some (s', log) /\ In (Acq t) log.
Proof. exact dec_progress. Qed.
Print Assumptions dec_no_stuck.

(** The concurrency bound is exact: with 2^32 threads exclusion is violated. *)
Theorem dec_bound_tight : exists n ls s log,
  Z.of_nat n = (2 ^ 32)%Z /\ run (step n) init ls = Some (s, log) /\ ~ lock_legal log.
Proof. exact dec_too_many. Qed.
Print Assumptions dec_bound_tight.

Example dec_ex :
  match run (step 4) init
    [(0, ALock); (0, ATick); (1, ALock); (1, ATick); (3, ALock); (3, ATick); (2, ATry); (1, ATick);
     (0, ALocked); (0, AUnlock); (1, ATick); (1, ATick); (1, AUnlock); (2, ALocked)] with
  | Some (s, log) => waiting s 3 = true /\
      log = [Acq 0; TryFail 2; Locked 0 true; Rel 0; Acq 1; Rel 1; Locked 2 false]
  | None => False
  end.
Proof. vm_compute. split; reflexivity. Qed.
