(** Properties of the recursive reader-writer lock (C28). *)
From Coq Require Import Arith List Bool ZArith.
From Verif Require Import Lib LockSpec RwLockRec_Model RwLockRec_Proof.
Import ListNotations.

(** Every execution is legal for the nesting reader-writer automaton: the
    holder may re-enter, and everybody else is excluded until it has released as
    often as it acquired. *)
Theorem rwrec_legal : forall n, (Z.of_nat n < W)%Z ->
  forall ls s log, run (step n) init ls = Some (s, log) -> rec_legal log.
Proof. exact rec_refines. Qed.
Print Assumptions rwrec_legal.

Theorem rwrec_writer_can_acquire : forall n, (Z.of_nat n < W)%Z ->
  forall s, reachable (step n) init s -> forall t, waiting_w s t = true ->
  exists ls s' log, run (step n) s ls = Some (s', log) /\ In (WAcq t) log.
Proof. exact rec_progress_w. Qed.
Print Assumptions rwrec_writer_can_acquire.

Theorem rwrec_reader_can_acquire : forall n, (Z.of_nat n < W)%Z ->
  forall s, reachable (step n) init s -> forall t, waiting_r s t = true ->
  exists ls s' log, run (step n) s ls = Some (s', log) /\ In (RAcq t) log.
Proof. exact rec_progress_r. Qed.
Print Assumptions rwrec_reader_can_acquire.

(** 0 nests twice (lock then trylock); 1's trylock fails until the outermost
    release. *)
Example rwrec_ex :
  match run (step 2) init
    [(0, AWLock); (0, ATick); (0, ATick); (0, ATick); (0, ATick); (0, AWTry); (0, ATick); (0, ATick);
     (1, AWTry); (1, ATick); (1, ATick); (0, AWUnlock); (0, ATick); (1, ARTry); (1, ATick); (0, AWUnlock); (0, ATick);
     (0, ATick); (1, AWTry); (1, ATick); (1, ATick); (1, ATick); (1, ATick)] with
  | Some (s, log) => log = [WAcq 0; WAcq 0; WTryFail 1; WRel 0; RTryFail 1; WRel 0; WAcq 1]
  | None => False
  end.
Proof. vm_compute. reflexivity. Qed.
