(** C81: progress of the non-blocking structures.  README.md 103 and 118 call ck_fifo and ck_stack lock-free; doc/ck_ring_*
    documents wait-free and lock-free progress.  Each theorem bounds the steps that a thread makes between any reachable
    state [s0] and a later one, for every schedule: by a constant for the call in progress, a constant per call it begins
    ([calls]), and, if the function is lock-free only, a constant per operation of any thread that takes effect in between
    ([effects]).  If no operation takes effect, a thread returns from its call within the constant; a wait-free function
    returns within the constant in any case. *)
From Coq Require Import NArith Arith List Bool.
From Verif Require Import Lib Lin LockFree_Spec.
From Verif Require Stack_Model FifoMp_Model HpClient_Model HpStack_Model HpFifo_Model HpFifo_Spec RingSp_Model RingMp_Model RingMix_Model Hp_Model.
From Verif Require LfStack_Spec LfFifo_Spec LfHpStack_Spec LfHpFifo_Spec LfRing_Spec.
From Verif Require LfStack_Proof LfFifo_Proof LfHpStack_Proof LfHpFifo_Proof LfRing_Proof.
Import ListNotations.

(** ck_stack: upmc and mpmc push, trypush, pop, trypop, batch_pop *)
Theorem stack_lock_free : forall c t s0 ls s log, run (Stack_Model.sstep c) s0 ls = Some (s, log) ->
  steps t ls <= 5 + 5 * calls t log + 2 * effects LfStack_Spec.chg log.
Proof. exact LfStack_Proof.lockfree. Qed.
Print Assumptions stack_lock_free.

(** trypush, trypop and batch_pop *)
Theorem stack_try_wait_free : forall c t pre s0 l0 ls s log, only LfStack_Spec.tryact t (pre ++ ls) ->
  run (Stack_Model.sstep c) Stack_Model.sinit pre = Some (s0, l0) -> run (Stack_Model.sstep c) s0 ls = Some (s, log) ->
  steps t ls <= 4 + 5 * calls t log.
Proof. exact LfStack_Proof.waitfree. Qed.
Print Assumptions stack_try_wait_free.

(** ck_fifo_mpmc: enqueue, tryenqueue, dequeue, trydequeue *)
Theorem fifo_mpmc_lock_free : forall n t e0 pre s0 l0 ls s log,
  run (FifoMp_Model.mstep n) (FifoMp_Model.minit e0) pre = Some (s0, l0) -> run (FifoMp_Model.mstep n) s0 ls = Some (s, log) ->
  steps t ls <= 30 + 11 * calls t log + 30 * effects LfFifo_Spec.chg log.
Proof. exact LfFifo_Proof.lockfree. Qed.
Print Assumptions fifo_mpmc_lock_free.

Theorem fifo_mpmc_try_wait_free : forall n t e0 pre s0 l0 ls s log, only LfFifo_Spec.tryact t (pre ++ ls) ->
  run (FifoMp_Model.mstep n) (FifoMp_Model.minit e0) pre = Some (s0, l0) -> run (FifoMp_Model.mstep n) s0 ls = Some (s, log) ->
  steps t ls <= 10 + 11 * calls t log.
Proof. exact LfFifo_Proof.waitfree. Qed.
Print Assumptions fifo_mpmc_try_wait_free.

(** ck_hp_stack: the steps of push, trypush, pop and trypop *)
Theorem hp_stack_lock_free : forall c t s0 ls s log, run (HpStack_Model.sstep c) s0 ls = Some (s, log) ->
  steps_of LfHpStack_Spec.opact t ls <= 7 + 6 * calls t (LfHpStack_Spec.ops log) + 4 * effects LfHpStack_Spec.chg (LfHpStack_Spec.ops log).
Proof. exact LfHpStack_Proof.lockfree. Qed.
Print Assumptions hp_stack_lock_free.

Theorem hp_stack_try_wait_free : forall c t pre s0 l0 ls s log, only LfHpStack_Spec.tryact t (pre ++ ls) ->
  run (HpStack_Model.sstep c) HpStack_Model.sinit pre = Some (s0, l0) -> run (HpStack_Model.sstep c) s0 ls = Some (s, log) ->
  steps_of LfHpStack_Spec.opact t ls <= 6 + 7 * calls t (LfHpStack_Spec.ops log).
Proof. exact LfHpStack_Proof.waitfree. Qed.
Print Assumptions hp_stack_try_wait_free.

(** ck_hp_fifo, under the conditions of C51; missing: runs that violate them, and the bound from any reachable state
    rather than from the initial one *)
Theorem hp_fifo_lock_free_partial : forall c t z, Hp_Model.reent (HpFifo_Model.hpc c) = false -> z <> 0 -> forall ls s log,
  HpFifo_Model.strict c = true \/ HpFifo_Model.nt c = 0 \/ NoDup (z :: HpFifo_Spec.given ls) ->
  run (HpFifo_Model.fstep c) (HpFifo_Model.finit z) ls = Some (s, log) ->
  steps_of LfHpFifo_Spec.opact t ls <= 10 * calls t (HpFifo_Spec.lin_of log) + 30 * effects LfHpFifo_Spec.chg (HpFifo_Spec.lin_of log).
Proof. exact LfHpFifo_Proof.lockfree. Qed.
Print Assumptions hp_fifo_lock_free_partial.

(** ** ck_ring *)
Import RingMp_Model RingMix_Model LfRing_Spec.

(** doc/ck_ring_enqueue_spsc, doc/ck_ring_enqueue_spmc: wait-free; so are reserve and commit for one producer *)
Theorem ring_sp_wait_free : forall sc t k pre s0 l0 ls s log, makes (fun o => negb (is_deq o)) t (pre ++ ls) ->
  run (xstep true sc) (xinit k) pre = Some (s0, l0) -> run (xstep true sc) s0 ls = Some (s, log) ->
  work (xstep true sc) (mine t) s0 ls <= 6 + 4 * calls t (lin_of log).
Proof. exact LfRing_Proof.sp_bound. Qed.
Print Assumptions ring_sp_wait_free.

(** doc/ck_ring_dequeue_spsc: wait-free *)
Theorem ring_sc_wait_free : forall sp t k pre s0 l0 ls s log, makes is_deq t (pre ++ ls) ->
  run (xstep sp true) (xinit k) pre = Some (s0, l0) -> run (xstep sp true) s0 ls = Some (s, log) ->
  work (xstep sp true) (mine t) s0 ls <= 6 + 4 * calls t (lin_of log).
Proof. exact LfRing_Proof.sc_bound. Qed.
Print Assumptions ring_sc_wait_free.

(** trydequeue for many consumers *)
Theorem ring_trydequeue_wait_free : forall sp t k pre s0 l0 ls s log, makes (fun o => match o with MTry => true | _ => false end) t (pre ++ ls) ->
  run (xstep sp false) (xinit k) pre = Some (s0, l0) -> run (xstep sp false) s0 ls = Some (s, log) ->
  work (xstep sp false) (mine t) s0 ls <= 6 + 5 * calls t (lin_of log).
Proof. exact LfRing_Proof.try_bound. Qed.
Print Assumptions ring_trydequeue_wait_free.

(** doc/ck_ring_dequeue_spmc: lock-free; [effects took]: dequeues that removed an entry.  Producers never delay it. *)
Theorem ring_mc_lock_free : forall sp t k pre s0 l0 ls s log, makes is_deq t (pre ++ ls) ->
  run (xstep sp false) (xinit k) pre = Some (s0, l0) -> run (xstep sp false) s0 ls = Some (s, log) ->
  work (xstep sp false) (mine t) s0 ls <= 6 + 5 * calls t (lin_of log) + 3 * effects took (lin_of log).
Proof. exact LfRing_Proof.mc_bound. Qed.
Print Assumptions ring_mc_lock_free.

(** enqueue, reserve and commit for many producers (for which nothing is documented): the steps outside the loops that
    wait for the producers before are bounded by the slots taken *)
Theorem ring_mp_unwaited_lock_free : forall sc t k pre s0 l0 ls s log, makes (fun o => negb (is_deq o)) t (pre ++ ls) ->
  run (xstep false sc) (xinit k) pre = Some (s0, l0) -> run (xstep false sc) s0 ls = Some (s, log) ->
  work (xstep false sc) (unwaited t) s0 ls <= 6 + 6 * calls t (lin_of log) + 2 * slots log.
Proof. exact LfRing_Proof.mp_bound. Qed.
Print Assumptions ring_mp_unwaited_lock_free.

(** ... and these loops block: there is a reachable state in which a call of enqueue is in progress that never returns,
    whatever all threads but one do.  (Thread 1 has taken the first slot, thread 2 the second; thread 2 waits for
    thread 1.) *)
Theorem ring_mp_enqueue_blocks : exists pre s0 l0, run (xstep false false) (xinit 2) pre = Some (s0, l0) /\
  In (ML (Call 2 (MEnq 6))) l0 /\ ~ In (ML (Ret 2 (RingSp_Model.RB true))) l0 /\
  forall ls s log, Forall (fun l => who l <> 1) ls -> run (xstep false false) s0 ls = Some (s, log) -> forall r, ~ In (ML (Ret 2 r)) log.
Proof. exact LfRing_Proof.mp_blocks. Qed.
Print Assumptions ring_mp_enqueue_blocks.

(** ** Examples *)
(** thread 0's pop of an mpmc stack fails its compare-and-swap twice, since thread 1 pushes *)
Definition stk_ls : list (nat * Stack_Model.sact) :=
  let tk t n := repeat (t, Stack_Model.ATick) n in
  let push e := (1, Stack_Model.ACall (Stack_Model.Push e)) :: tk 1 3 in
  push 7 ++ (0, Stack_Model.ACall Stack_Model.Pop) :: tk 0 3 ++ push 8 ++ tk 0 2 ++ push 9 ++ tk 0 3.
Example stack_progress_ex :
  match run (Stack_Model.sstep {| Stack_Model.md := Stack_Model.MP; Stack_Model.nt := 2; Stack_Model.bp := false |}) Stack_Model.sinit stk_ls with
  | Some (s, log) => (steps 0 stk_ls, calls 0 log, effects LfStack_Spec.chg log)
  | None => (0, 0, 0)
  end = (9, 1, 4).
Proof. vm_compute. reflexivity. Qed.

(** thread 0's enqueue finds the tail moved twice by thread 1 *)
Definition fifo_ls : list (nat * FifoMp_Model.mact) :=
  let tk t n := repeat (t, FifoMp_Model.ATick) n in
  let enq e := (1, FifoMp_Model.ACall (FifoMp_Model.Enq e e)) :: tk 1 10 in
  (0, FifoMp_Model.ACall (FifoMp_Model.Enq 5 50)) :: tk 0 6 ++ enq 6 ++ tk 0 6 ++ enq 7 ++ tk 0 8.
Example fifo_progress_ex :
  match run (FifoMp_Model.mstep 2) (FifoMp_Model.minit 9) fifo_ls with
  | Some (s, log) => (steps 0 fifo_ls, calls 0 log, effects LfFifo_Spec.chg log)
  | None => (0, 0, 0)
  end = (21, 1, 3).
Proof. vm_compute. reflexivity. Qed.

(** thread 3's dequeue from an mpmc ring fails its compare-and-swap once, since thread 4 dequeues *)
Definition ring_ls : list mlab :=
  let tk t n := repeat (MStep t) n in
  MCall 1 (MEnq 5) :: tk 1 6 ++ MCall 1 (MEnq 6) :: tk 1 6 ++ MCall 3 MDeq :: tk 3 3 ++ MCall 4 MDeq :: tk 4 4 ++ tk 3 4.
Example ring_progress_ex :
  match run (xstep false false) (xinit 2) ring_ls with
  | Some (s, log) => (work (xstep false false) (mine 3) (xinit 2) ring_ls, calls 3 (lin_of log), effects took (lin_of log))
  | None => (0, 0, 0)
  end = (8, 1, 2).
Proof. vm_compute. reflexivity. Qed.
