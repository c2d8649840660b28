(** Properties of the single-writer reader-writer lock (C29). *)
From Coq Require Import Arith List Bool ZArith.
From Verif Require Import Lib LockSpec SwLock_Model SwLock_Proof.
Import ListNotations.

(** Every execution of one writer and any number of readers (fewer than 2^30
    threads), with latching, copying the latched lock word and writing the copy
    back, is a legal reader-writer history. *)
Theorem swlock_legal : forall n, (Z.of_nat n < 2 ^ 30)%Z ->
  forall ls s log, run (step n) init ls = Some (s, log) -> rw_legal log.
Proof. exact sw_refines. Qed.
Print Assumptions swlock_legal.

(** Outside a latch the reader bits count exactly the readers inside and the
    threads about to take back or complete an increment: increments made under a
    latch leave no trace. *)
Theorem swlock_count : forall n, (Z.of_nat n < 2 ^ 30)%Z ->
  forall s, reachable (step n) init s -> thr s 0 <> LCrit ->
  Z.land (val s) RMASK
  = Z.of_nat (cnt (fun t => match thr s t with RCrit | RL3 | RT3 | WD => true | _ => false end) n).
Proof. exact sw_count. Qed.
Print Assumptions swlock_count.

Theorem swlock_writer_can_acquire : forall n, (Z.of_nat n < 2 ^ 30)%Z ->
  forall s, reachable (step n) init s -> forall t, waiting_w s t = true ->
  exists ls s' log, run (step n) s ls = Some (s', log) /\ In (WAcq t) log.
Proof. exact sw_progress_w. Qed.
Print Assumptions swlock_writer_can_acquire.

Theorem swlock_reader_can_acquire : forall n, (Z.of_nat n < 2 ^ 30)%Z ->
  forall s, reachable (step n) init s -> forall t, waiting_r s t = true ->
  exists ls s' log, run (step n) s ls = Some (s', log) /\ In (RAcq t) log.
Proof. exact sw_progress_r. Qed.
Print Assumptions swlock_reader_can_acquire.

(** Reader 1 increments while the writer holds the latch; the writer restores an
    earlier copy, unlatches, and reader 1 gets in; the writer then locks and
    downgrades. *)
Example swlock_ex :
  match run (step 3) init
    [(1, ARLock); (1, ATick); (2, ARTry); (2, ATick); (0, ALatch); (0, ATick); (0, ATick); (0, ACopy);
     (1, ATick); (2, ATick); (0, AWrite); (0, AUnlatch); (1, ATick); (1, ATick); (0, AWTry); (0, ATick);
     (1, ARUnlock); (0, AWLock); (0, ATick); (0, ATick); (0, ADown); (0, ATick); (0, ARUnlock)] with
  | Some (s, log) => log = [WAcq 0; RTryFail 2; WRel 0; RAcq 1; WTryFail 0; RRel 1; WAcq 0; Down 0; RRel 0] /\ val s = 0%Z
  | None => False
  end.
Proof. vm_compute. auto. Qed.
