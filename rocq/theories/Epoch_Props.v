(** Properties of epoch reclamation (C43-C47). *)
From Coq Require Import List Arith NArith Bool.
From Verif Require Import Lib Epoch_Model Epoch_Spec EpochSync_Proof EpochGrace_Proof EpochEnd_Proof.
Import ListNotations.

(** ** C43 *)
(** Full statement: for every configuration [c] and every run, [legal sync_ok log].  Missing: clients
    that have plain sections and section objects of one record open together ([c_mix]), for which
    the statement is false (below), and runs with 2^32 or more advances of the global epoch. *)
Theorem epoch_synchronize_partial : forall c ls s log, c_mix c = false ->
  run (step c) init ls = Some (s, log) -> (N.of_nat (ticks log) + 16 < W)%N -> legal sync_ok log.
Proof. exact sync_run. Qed.
Print Assumptions epoch_synchronize_partial.

(** With a plain section and section objects open together synchronize returns too early. *)
Theorem epoch_synchronize_refuted : exists ls s log,
  run (step (mkC true true)) init ls = Some (s, log) /\ (N.of_nat (ticks log) + 16 < W)%N /\ ~ legal sync_ok log.
Proof. exact (ex_intro _ sync_bad sync_mix_bad). Qed.
Print Assumptions epoch_synchronize_refuted.

(** Two nested readers, one on section objects; synchronize advances the epoch twice and returns after
    the section that was open at its call has ended, while a younger one is still open. *)
Example epoch_synchronize_ex :
  match run (step (mkC false true)) init
    ([LCall 0 ORegister; LCall 1 ORegister; LCall 0 (OBegin false)] ++ go_ 0 3 ++ [LCall 0 (OBegin false)] ++ go_ 0 1 ++
     [LCall 1 OSync] ++ go_ 1 8 ++ [LCall 0 (OEnd 0)] ++ go_ 0 1 ++ [LCall 0 (OEnd 1)] ++ go_ 0 1 ++
     [LCall 0 (OBegin true)] ++ go_ 0 4 ++ go_ 1 8) with
  | Some (s, log) => log = [EBegin 0 0; EBegin 0 1; ESync 1; ETick; EEnd 0 0; EEndRet 0 false; EEnd 0 1; EEndRet 0 true; EBegin 0 2; ETick; ESynced 1]
  | None => False
  end.
Proof. vm_compute. reflexivity. Qed.

(** ** C44 *)
(** Full statement: the same for every configuration in which calls and polls of a record do not
    overlap.  Missing: mixed kinds of sections, for which it is false (below), and more than 2^32
    advances, as in C43. *)
Theorem epoch_grace_partial : forall c ls s log, c_mix c = false -> c_excl c = true ->
  run (step c) init ls = Some (s, log) -> (N.of_nat (ticks log) + 16 < W)%N -> legal grace_ok log.
Proof. exact grace_run. Qed.
Print Assumptions epoch_grace_partial.

(** With a plain section and section objects open together barrier runs a callback too early. *)
Theorem epoch_grace_refuted : exists ls s log,
  run (step (mkC true true)) init ls = Some (s, log) /\ (N.of_nat (ticks log) + 16 < W)%N /\ ~ legal grace_ok log.
Proof. exact (ex_intro _ grace_bad grace_mix_bad). Qed.
Print Assumptions epoch_grace_refuted.

(** A callback is deferred while a reader is active; the first poll only advances the epoch, and the
    callback runs when the poller has seen the reader's record inactive. *)
Example epoch_grace_ex :
  match run (step (mkC false true)) init
    ([LCall 0 ORegister; LCall 1 ORegister; LCall 0 (OBegin false)] ++ go_ 0 3 ++ [LCall 1 (OCall false 1)] ++ go_ 1 4 ++
     [LCall 1 (OPoll 1)] ++ go_ 1 17 ++ [LCall 0 (OEnd 0)] ++ go_ 0 1 ++ [LCall 1 (OPoll 1)] ++ go_ 1 29) with
  | Some (s, log) => log = [EBegin 0 0; EDefer 0 1; EPeak 1 0 1; ETick; EPeak 1 0 1; EPollRet 1 true; EEnd 0 0; EEndRet 0 true;
                            EPeak 1 0 1; EPeak 1 0 1; ERun 0; EPeak 1 0 1; EPeak 1 0 0; EPeak 1 0 0; EPollRet 1 true]
  | None => False
  end.
Proof. vm_compute. reflexivity. Qed.

(** ** C45 *)
(** Every callback that runs was deferred and has not run before: any client, also with overlapping
    calls and polls of one record. *)
Theorem epoch_run_once : forall c ls s log, run (step c) init ls = Some (s, log) -> legal run_ok log.
Proof. exact run_run. Qed.
Print Assumptions epoch_run_once.

(** In addition, after a barrier the callbacks pending on the record when it was called have run. *)
Theorem epoch_barrier : forall c ls s log, c_excl c = true -> run (step c) init ls = Some (s, log) -> legal once_ok log.
Proof. exact (fun c ls s log Hx H => proj1 (once_run c ls s log Hx H)). Qed.
Print Assumptions epoch_barrier.

(** The pending counter of every record is the number of callbacks deferred on it and not run. *)
Theorem epoch_pending_count : forall c ls s log, c_excl c = true -> run (step c) init ls = Some (s, log) ->
  (forall t, thr s t = Idle) -> forall r, rnpend (rc s r) = waiting r log.
Proof. exact count_run. Qed.
Print Assumptions epoch_pending_count.

(** The peak counter is below the pending counter in a dispatch. *)
Theorem epoch_peak_refuted : exists ls s log,
  run (step (mkC false true)) init ls = Some (s, log) /\ (N.of_nat (ticks log) + 16 < W)%N /\ ~ legal peak_ok log.
Proof. exact (ex_intro _ peak_bad peak_bad_run). Qed.
Print Assumptions epoch_peak_refuted.

(** Two callbacks, a barrier runs both; a third is then pending. *)
Example epoch_barrier_ex :
  match run (step (mkC false true)) init
    ([LCall 0 ORegister; LCall 0 (OCall false 0)] ++ go_ 0 4 ++ [LCall 0 (OCall true 0)] ++ go_ 0 3 ++
     [LCall 0 (OBarrier 0)] ++ go_ 0 24 ++ [LCall 0 (OCall false 0)] ++ go_ 0 4) with
  | Some (s, log) => filter (fun e => match e with EPeak _ _ _ => false | _ => true end) log
        = [EDefer 0 0; EDefer 1 0; EBar 0 0; ESync 0; ESynced 0; ERun 1; ERun 0; EBarred 0 0; EDefer 2 0]
      /\ thr s 0 = Idle /\ waiting 0 log = 1 /\ rnpend (rc s 0) = 1
  | None => False
  end.
Proof. vm_compute. auto. Qed.

(** ** C46 *)
(** Full statement: for every configuration.  Missing: mixed kinds of sections (false, below) and more
    than 2^32 advances.  [sep x] is the epoch section [x] was entered in. *)
Theorem epoch_advertised_partial : forall c ls s log, c_mix c = false ->
  run (step c) init ls = Some (s, log) -> (N.of_nat (ticks log) + 16 < W)%N ->
  forall t r x, own s t = Some r -> In x (opn s t) -> (rrep (rc s r) <= sep x)%N.
Proof. exact advertise_run. Qed.
Print Assumptions epoch_advertised_partial.

Theorem epoch_advertised_refuted : exists ls s log,
  run (step (mkC true true)) init ls = Some (s, log) /\ (N.of_nat (ticks log) + 16 < W)%N /\
  exists x, own s 0 = Some 0 /\ In x (opn s 0) /\ (sep x < rrep (rc s 0))%N.
Proof. exact (ex_intro _ mix_bad mix_bad_run). Qed.
Print Assumptions epoch_advertised_refuted.

(** end of a plain section returns true exactly when no section of the caller remains. *)
Theorem epoch_end_plain_partial : forall c ls s log, c_mix c = false -> forallb plain ls = true ->
  run (step c) init ls = Some (s, log) -> (N.of_nat (ticks log) + 16 < W)%N -> legal end_ok log.
Proof. exact end_run. Qed.
Print Assumptions epoch_end_plain_partial.

(** With section objects the result is only about the sections of the same bucket. *)
Theorem epoch_end_bucket_partial : forall c ls s log t i s' ev, c_mix c = false ->
  run (step c) init ls = Some (s, log) -> (N.of_nat (ticks log) + 16 < W)%N ->
  thr s t = E2 i -> tick s t = Some (s', ev) ->
  exists b, ev = [EEndRet t b] /\ (b = true <-> forall x, In x (opn s t) -> skind x <> Some i).
Proof. exact end_bucket_run. Qed.
Print Assumptions epoch_end_bucket_partial.

(** end returns true although another section object of the caller is still open. *)
Theorem epoch_end_refuted : exists ls s log,
  run (step (mkC false true)) init ls = Some (s, log) /\ (N.of_nat (ticks log) + 16 < W)%N /\ ~ legal end_ok log.
Proof. exact (ex_intro _ end_bad end_bad_run). Qed.
Print Assumptions epoch_end_refuted.

(** Overlapping section objects in epochs 1 and 2; ending the older one raises the advertised epoch. *)
Example epoch_advertised_ex :
  match run (step (mkC false true)) init end_bad with
  | Some (s, log) => opn s 0 = [mkS 1 (Some 0) 2%N] /\ rrep (rc s 0) = 2%N /\ forallb plain end_bad = false
  | None => False
  end.
Proof. vm_compute. auto. Qed.

Example epoch_end_plain_ex :
  let ls := [LCall 0 ORegister; LCall 0 (OBegin false)] ++ go_ 0 3 ++ [LCall 0 (OBegin false)] ++ go_ 0 1 ++ [LCall 0 (OEnd 0)] ++ go_ 0 1 ++ [LCall 0 (OEnd 1)] ++ go_ 0 1 in
  forallb plain ls = true /\
  match run (step (mkC false true)) init ls with
  | Some (s, log) => log = [EBegin 0 0; EBegin 0 1; EEnd 0 0; EEndRet 0 false; EEnd 0 1; EEndRet 0 true]
  | None => False
  end.
Proof. vm_compute. auto. Qed.

(** ** C47 *)
(** A poll that overlaps a strict call of its record may run the callback while a section that was
    open at the call is still open. *)
Theorem epoch_strict_refuted : exists ls s log,
  run (step (mkC false false)) init ls = Some (s, log) /\ (N.of_nat (ticks log) + 16 < W)%N /\ ~ legal grace_ok log.
Proof. exact (ex_intro _ strict_bad strict_bad_run). Qed.
Print Assumptions epoch_strict_refuted.

(** What is true: several strict calls on one record may overlap each other ([epoch_grace_partial] and
    the rest cover them), as long as no poll or barrier of the record overlaps a call.  Missing: the
    overlap the property is about. *)
Theorem epoch_strict_partial : forall c ls s log, c_mix c = false -> c_excl c = true ->
  run (step c) init ls = Some (s, log) -> (N.of_nat (ticks log) + 16 < W)%N -> legal grace_ok log.
Proof. exact grace_run. Qed.
Print Assumptions epoch_strict_partial.

(** Two overlapping strict calls on the record of thread 0, then its barrier. *)
Example epoch_strict_ex :
  match run (step (mkC false true)) init
    ([LCall 0 ORegister; LCall 1 (OCall true 0); LCall 2 (OCall true 0)] ++ go_ 1 2 ++ go_ 2 2 ++ go_ 1 1 ++ go_ 2 1 ++
     [LCall 0 (OBarrier 0)] ++ go_ 0 24) with
  | Some (s, log) => filter (fun e => match e with EPeak _ _ _ => false | _ => true end) log
        = [EDefer 0 0; EDefer 1 0; EBar 0 0; ESync 0; ESynced 0; ERun 1; ERun 0; EBarred 0 0] /\ rnpend (rc s 0) = 0
  | None => False
  end.
Proof. vm_compute. auto. Qed.
