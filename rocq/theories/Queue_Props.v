(** Properties of the intrusive lists of include/ck_queue.h (C60, C61). *)
From Coq Require Import Arith List Bool.
From Verif Require Import Lib Obs Queue_Model Queue_Spec QueueSeq_Proof QueueRd_Proof QueueEnd_Proof.
Import ListNotations.

(** C60: every macro a kind of list has, applied in memory that represents the lists [A] as
    it is meant to be applied, ends, leaves memory that represents the lists after the
    operation, and changes no field of an element outside the lists and of no other head.
    Missing: SLIST_REMOVE_PREVPTR where the caller's variable [prevptr] is not the argument
    (next theorem). *)
Theorem queue_macro_partial : forall k m A o, has k o = true -> Abs k m A -> pre A o ->
  (forall h p q e, o = ORemPrev h p q e -> p = q) ->
  exists n m', mrun k n m (prog k o) = Some (m', []) /\ Abs k m' (aop A o) /\ untouched A o m m'.
Proof. exact op_seq_prev. Qed.
Print Assumptions queue_macro_partial.

Example queue_macro_ex : exists m', mrun Li 4 w_lm (prog Li (OInsBefore 0 2 5)) = Some (m', []) /\ foreach 9 m' (nx m' (LH 0)) = Some [1; 5; 2]
  /\ pv m' 2 = LE 5 /\ pv m' 5 = LE 1.
Proof. eexists. split; [reflexivity|]. repeat split. Qed.
Example queue_macro_ex_pre : Abs Li w_lm w_A /\ pre w_A (OInsBefore 0 2 5).
Proof. exact w_lpre. Qed.

(** SLIST_REMOVE_PREVPTR stores through [prevptr], not through its parameter: a correct call
    does not remove the element. *)
Theorem slist_remove_prevptr_refuted : exists m A h p q e, Abs Sl m A /\ pre A (ORemPrev h p q e) /\
  ~ exists n m', mrun Sl n m (prog Sl (ORemPrev h p q e)) = Some (m', []) /\ Abs Sl m' (aop A (ORemPrev h p q e))
    /\ untouched A (ORemPrev h p q e) m m'.
Proof. exact prevptr_bad. Qed.
Print Assumptions slist_remove_prevptr_refuted.

(** C60 for histories: from any memory that represents lists, a sequence of macros, each a
    correct use, can be run, and whenever it is run the memory represents the lists the
    operations make. *)
Theorem queue_history_partial : forall k os m A, Abs k m A -> pres k A os ->
  Forall (fun o => forall h p q e, o = ORemPrev h p q e -> p = q) os ->
  (exists m', hist k m os m') /\ forall m', hist k m os m' -> Abs k m' (fold_left aop os A).
Proof. exact hist_ok_prev. Qed.
Print Assumptions queue_history_partial.

Example queue_history_ex : pres St (empty_lists 2)
    [OInsTail 0 1; OInsTail 0 2; OInsHead 1 3; OConcat 0 1; ORemAfter 0 1; OInit 7; OSwap 0 7]
  /\ fold_left aop [OInsTail 0 1; OInsTail 0 2; OInsHead 1 3; OConcat 0 1; ORemAfter 0 1; OInit 7; OSwap 0 7] (empty_lists 2) 7 = Some [1; 3].
Proof. exact hist_example. Qed.

(** a FOREACH loop over memory that represents lists visits the elements of the list in order *)
Theorem queue_foreach : forall k m A h xs n, Abs k m A -> A h = Some xs -> length xs <= n -> foreach n m (nx m (LH h)) = Some xs.
Proof. exact foreach_ok. Qed.
Print Assumptions queue_foreach.

Example queue_foreach_ex : Abs Li w_lm w_A /\ w_A 0 = Some [1; 2] /\ foreach 2 w_lm (nx w_lm (LH 0)) = Some [1; 2].
Proof. split; [exact (proj1 w_lpre)|]. split; reflexivity. Qed.

(** ... FOREACH_FROM visits the rest of the list from [v] on, or the whole list from NULL *)
Theorem queue_foreach_from : forall k m A h a v b n, Abs k m A -> A h = Some (a ++ v :: b) -> length (v :: b) <= n -> foreach_from n m h v = Some (v :: b).
Proof. exact foreach_from_ok. Qed.
Print Assumptions queue_foreach_from.

Theorem queue_foreach_from_null : forall k m A h xs n, Abs k m A -> A h = Some xs -> length xs <= n -> foreach_from n m h 0 = Some xs.
Proof. exact foreach_from_null. Qed.
Print Assumptions queue_foreach_from_null.

(** ... FOREACH_PREVPTR visits the list with varp such that INSERT_PREVPTR and REMOVE_PREVPTR may
    be applied ([points], the precondition of these macros) *)
Theorem slist_foreach_prevptr : forall m A h xs n, Abs Sl m A -> A h = Some xs -> length xs <= n ->
  exists r, foreach_prevptr n m (LH h) = Some r /\ map fst r = xs /\ forall x p, In (x, p) r -> points h xs p x.
Proof. exact prevptr_ok. Qed.
Print Assumptions slist_foreach_prevptr.

(** ... and EMPTY says whether the list is empty *)
Theorem queue_empty : forall k m A h xs, Abs k m A -> A h = Some xs -> (q_empty m h = true <-> xs = []).
Proof. exact empty_ok. Qed.
Print Assumptions queue_empty.

Example queue_foreach_from_ex : Abs Sl w_m w_A /\ w_A 0 = Some [1; 2] /\ foreach_from 2 w_m 0 2 = Some [2]
  /\ foreach_prevptr 2 w_m (LH 0) = Some [(1, LH 0); (2, LE 1)] /\ q_empty w_m 0 = false.
Proof. split; [exact w_abs|]. repeat split. Qed.

(** C61: any number of readers beside one writer, interleaved at every access: every element
    visited was in the list at some moment since the traversal began, and when a traversal
    ends it has visited all elements that were in the list all the time. *)
Theorem queue_readers : forall k n g gp ls s log, run (step k) (init n g gp) ls = Some (s, log) ->
  legal_from gnext ok (gs0 n) log.
Proof. exact rd_legal. Qed.
Print Assumptions queue_readers.

(** the two halves without the observer; [lists n l] are the lists after the log [l] *)
Theorem queue_reader_visits_all : forall k n g gp ls s log, run (step k) (init n g gp) ls = Some (s, log) ->
  forall a t h b c x, log = a ++ EBegin t h :: b ++ EEnd t :: c -> one_trav t b ->
  (forall b1 b2, b = b1 ++ b2 -> In x (elts (lists n (a ++ EBegin t h :: b1)) h)) -> In (EVisit t x) b.
Proof. exact rd_visits_all. Qed.
Print Assumptions queue_reader_visits_all.

Theorem queue_reader_visits_only : forall k n g gp ls s log, run (step k) (init n g gp) ls = Some (s, log) ->
  forall a t h b c x, log = a ++ EBegin t h :: b ++ EVisit t x :: c -> one_trav t b ->
  exists b1 b2, b = b1 ++ b2 /\ In x (elts (lists n (a ++ EBegin t h :: b1)) h).
Proof. exact rd_visits_only. Qed.
Print Assumptions queue_reader_visits_only.

(** reader 7 stands on element 1 while 1 is removed and 3 is inserted before 2 *)
Example queue_readers_ex : exists s log,
  run (step Li) (init 1 (fun e => e) LE)
    [WCall (OInsHead 0 2); WTick; WTick; WTick; WTick; WCall (OInsHead 0 1); WTick; WTick; WTick; WTick;
     RBegin 7 0; WCall (ORemove 0 1); WTick; WTick; WCall (OInsBefore 0 2 3); WTick; WTick; WTick; WTick; RTick 7; RTick 7] = Some (s, log)
  /\ log = [EDo (OInsHead 0 2); EDo (OInsHead 0 1); EBegin 7 0; EVisit 7 1; EDo (ORemove 0 1); EDo (OInsBefore 0 2 3); EVisit 7 2; EEnd 7].
Proof. do 2 eexists. split; vm_compute; reflexivity. Qed.

(** C61: once the writer stops, the traversal of each reader ends *)
Theorem queue_reader_ends : forall k n g gp ls s log, run (step k) (init n g gp) ls = Some (s, log) ->
  forall t, exists j s' ev, run (step k) s (repeat (RTick t) j) = Some (s', ev) /\ rd s' t = RIdle.
Proof. exact rd_ends. Qed.
Print Assumptions queue_reader_ends.

Example queue_reader_ends_ex : exists s log,
  run (step St) (init 1 (fun e => e) LE) [WCall (OInsTail 0 2); WTick; WTick; RBeginSafe 7 0; RTick 7] = Some (s, log) /\ rd s 7 = RB 0 2 0.
Proof. do 2 eexists. split; vm_compute; reflexivity. Qed.

(** the writer is never stuck on a NULL pointer, its operation ends, and after it memory
    represents the lists of the log *)
Theorem queue_writer_steps : forall k n g gp ls s log, run (step k) (init n g gp) ls = Some (s, log) -> todo s <> [] ->
  exists s' ev, step k s WTick = Some (s', ev).
Proof. exact wr_steps. Qed.
Print Assumptions queue_writer_steps.

Theorem queue_writer_ends : forall k n g gp ls s log, run (step k) (init n g gp) ls = Some (s, log) ->
  exists m s' ev, run (step k) s (repeat WTick m) = Some (s', ev) /\ todo s' = [].
Proof. exact wr_ends. Qed.
Print Assumptions queue_writer_ends.

Theorem queue_quiet_memory : forall k n g gp ls s log, run (step k) (init n g gp) ls = Some (s, log) -> todo s = [] ->
  Abs k (sm s) (lists n log).
Proof. exact wr_abs. Qed.
Print Assumptions queue_quiet_memory.

Example queue_writer_ex : exists s log,
  run (step Sl) (init 1 (fun e => e) LE) [WCall (OInsHead 0 2); WTick; WTick; WCall (ORemove 0 2); WTick] = Some (s, log) /\ todo s <> [].
Proof. do 2 eexists. split; [vm_compute; reflexivity|discriminate]. Qed.
