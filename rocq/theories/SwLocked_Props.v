(** The predicates of ck_swlock (C29): when they are true. *)
From Coq Require Import Arith List Bool ZArith.
From Verif Require Import Lib LockSpec SwLock_Model SwLocked_Model SwLocked_Proof.
Import ListNotations.

(** locked_writer is true exactly from the moment the writer announces itself until its release. *)
Theorem swlock_locked_writer_iff : forall n, (Z.of_nat n < 2 ^ 30)%Z ->
  forall s, reachable (step n) init s ->
  (locked_writer s = true <->
   match thr s 0 with WL2 | WCrit | WD | LT2 | LT3 | LCrit => True | _ => False end).
Proof. exact lw. Qed.
Print Assumptions swlock_locked_writer_iff.

(** locked is true exactly if the writer has announced itself or is inside, or a reader is inside
    or about to take back its increment. *)
Theorem swlock_locked_iff : forall n, (Z.of_nat n < 2 ^ 30)%Z ->
  forall s, reachable (step n) init s ->
  (locked s = true <->
   match thr s 0 with WL2 | WCrit | WD | LT2 | LT3 | LCrit => True | _ => False end
   \/ exists t, match thr s t with RCrit | RL3 | RT3 | WD => True | _ => False end).
Proof. exact lk. Qed.
Print Assumptions swlock_locked_iff.

(** locked_reader is true while a reader is inside; it is true otherwise only while a reader is
    about to take back its increment, during a downgrade, or under a latch. *)
Theorem swlock_locked_reader_partial : forall n, (Z.of_nat n < 2 ^ 30)%Z ->
  forall s, reachable (step n) init s ->
  (forall t, thr s t = RCrit -> locked_reader s = true) /\
  (locked_reader s = true ->
   (exists t, match thr s t with RCrit | RL3 | RT3 | WD => True | _ => False end) \/ thr s 0 = LCrit).
Proof. exact lr. Qed.
Print Assumptions swlock_locked_reader_partial.

(** Under a latch it is true although no reader is inside or has an increment to take back. *)
Theorem swlock_locked_reader_refuted : exists n s, (Z.of_nat n < 2 ^ 30)%Z /\ reachable (step n) init s /\
  (forall t, thr s t <> RCrit /\ ~ match thr s t with RCrit | RL3 | RT3 | WD => True | _ => False end) /\
  locked_reader s = true.
Proof. exact lr_refuted. Qed.
Print Assumptions swlock_locked_reader_refuted.

(** a reader inside and a writer that waits for it *)
Example swlock_locked_ex :
  match run (step 2) init [(1, ARLock); (1, ATick); (1, ATick); (0, AWLock); (0, ATick)] with
  | Some (s, _) => locked_writer s = true /\ locked s = true /\ locked_reader s = true
                   /\ locked init = false /\ locked_reader init = false
  | None => False
  end.
Proof. vm_compute. repeat split. Qed.
