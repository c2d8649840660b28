(** C51: the FIFO with hazard pointers, include/ck_hp_fifo.h.  [reent (hpc c) = false]: the client's
    destructor does not itself retire objects.  [z]: the first stub.  trydequeue is not safe in
    general ([hp_fifo_trydequeue_refuted]).  The theorems need one of three conditions: the client
    does not enqueue an entry that a trydequeue in progress has loaded from the head and not yet
    protected ([strict c = true]); nobody calls trydequeue ([nt c = 0]); no entry is enqueued twice
    ([NoDup (z :: given ls)]). *)
From Coq Require Import NArith Arith List Bool.
From Verif Require Import Lib Obs Lin Hp_Model Hp_Spec HpClient_Model HpFifo_Model HpFifo_Spec HpFifo_Proof Stack_Spec.
From Verif Require FifoMp_Model.
Import ListNotations.

(** C51.  The history of enqueue, tryenqueue, dequeue and trydequeue is linearizable to a FIFO queue:
    each element is delivered at most once, in order; dequeue answers empty only if the queue was
    empty at some moment of the call. *)
Theorem hp_fifo_linearizable_partial : forall c z, reent (hpc c) = false -> z <> 0 -> forall ls s log,
  strict c = true \/ nt c = 0 \/ NoDup (z :: given ls) -> run (fstep c) (finit z) ls = Some (s, log) ->
  linearizable FifoMp_Model.fifo_seq FifoMp_Model.mres_dec (FifoMp_Model.mabs0 z) (history (lin_of log)).
Proof. exact hf_linearizable. Qed.
Print Assumptions hp_fifo_linearizable_partial.

(** C51.  No operation accesses NULL, or an entry that is destroyed or not yet enqueued. *)
Theorem hp_fifo_accesses_live_partial : forall c z, reent (hpc c) = false -> z <> 0 -> forall ls s log,
  strict c = true \/ nt c = 0 \/ NoDup (z :: given ls) -> run (fstep c) (finit z) ls = Some (s, log) ->
  legal_from wnext wok (w0 z) log.
Proof. exact hf_accesses. Qed.
Print Assumptions hp_fifo_accesses_live_partial.

(** The hazard pointers still do what C48 and C49 promise. *)
Theorem hp_fifo_hazards_partial : forall c z, reent (hpc c) = false -> z <> 0 -> forall ls s log,
  strict c = true \/ nt c = 0 \/ NoDup (z :: given ls) -> run (fstep c) (finit z) ls = Some (s, log) ->
  legal_from gnext hp_ok gs0 (hp_of log).
Proof. exact hf_hazards. Qed.
Print Assumptions hp_fifo_hazards_partial.

(** The entries form a chain from the head without repetition, which ends in NULL; the tail is on it. *)
Theorem hp_fifo_memory_partial : forall c z, reent (hpc c) = false -> z <> 0 -> forall ls s log,
  strict c = true \/ nt c = 0 \/ NoDup (z :: given ls) -> run (fstep c) (finit z) ls = Some (s, log) ->
  exists q, chainp (nx s) (fh s) (fh s :: q) /\ In (ft s) (fh s :: q) /\ NoDup (fh s :: q).
Proof. exact hf_memory. Qed.
Print Assumptions hp_fifo_memory_partial.

Definition hc : cfg := {| deg := 2; lim := 4; reent := false |}.
Definition tau (t n : nat) : list (nat * fact) := repeat (t, AHp ATau) n.
Definition tk (t n : nat) : list (nat * fact) := repeat (t, ATick) n.
Definition reg : list (nat * fact) := (0, AHp (ARegister 1)) :: tau 0 4 ++ (1, AHp (ARegister 2)) :: tau 1 4.
(** thread 0 clears its slots, retires [e] with descriptor [d] and reclaims *)
Definition retire (e d n : nat) : list (nat * fact) :=
  (0, AHp (ASet 1 0 0)) :: (0, AHp (ASet 1 1 0)) :: (0, AHp (ARetire 1 d 60 e)) :: tau 0 5 ++ (0, AHp (AReclaim 1)) :: tau 0 n.

(** thread 1 finds the queue empty, thread 0 enqueues 6 meanwhile and dequeues it again; the stub 5 is
    retired and, since thread 1 protects it, not destroyed; thread 1 answers empty; then 5 is
    destroyed and enqueued again, and thread 1 takes it with trydequeue *)
Definition ex_c : fcfg := {| hpc := hc; nt := 2; strict := true |}.
Definition ex_ls : list (nat * fact) :=
  reg ++ (1, ADeq false 2) :: tk 1 7 ++ (0, AEnq false 1 6 60) :: tk 0 9 ++ (0, ADeq false 1) :: tk 0 9 ++
  retire 5 9 14 ++ tk 1 2 ++ (0, AHp (AReclaim 1)) :: tau 0 18 ++
  (0, AEnq true 1 5 50) :: tk 0 8 ++ (1, ADeq true 2) :: tk 1 9.
Example hp_fifo_ex : option_map snd (run (fstep ex_c) (finit 5) ex_ls) = Some
  [HE (EReg 0 1); HE (EReg 1 2); LE (Call 1 Deq); HE (ESet 1 2 0 5); AC 1 5; HE (ESet 1 2 1 0);
   LE (Call 0 (Enq 6 60)); AC 0 6; AC 0 6; HE (ESet 0 1 0 5); AC 0 5; AC 0 5; LE (Lin 0 RU); LE (Ret 0 RU);
   LE (Call 0 Deq); HE (ESet 0 1 0 5); AC 0 5; HE (ESet 0 1 1 6); LE (Lin 0 (RD (Some (60, 5)))); AC 0 6; LE (Ret 0 (RD (Some (60, 5))));
   HE (ESet 0 1 0 0); HE (ESet 0 1 1 0); HE (ERet 0 1 9 60 5); HE (EBeg 0 1); HE (EEnd 0 1);
   HE (ESet 1 2 0 0); HE (ESet 1 2 1 0); LE (Lin 1 (RD None)); LE (Ret 1 (RD None));
   HE (EBeg 0 1); HE (EDes 0 1 9 60); HE (EEnd 0 1);
   LE (Call 0 (TryEnq 5 50)); AC 0 5; AC 0 5; HE (ESet 0 1 0 6); AC 0 6; AC 0 6; LE (Lin 0 (RB true)); LE (Ret 0 (RB true));
   LE (Call 1 TryDeq); HE (ESet 1 2 0 6); AC 1 6; HE (ESet 1 2 1 5); LE (Lin 1 (RD (Some (50, 6)))); AC 1 5; LE (Ret 1 (RD (Some (50, 6))))].
Proof. vm_compute. reflexivity. Qed.

(** C51, refuted.  trydequeue loads the tail before it protects the head, and it looks for a NULL next
    pointer only if they were equal.  Thread 1 loads head 5 and tail 6; thread 0 dequeues, so that 5
    is retired and destroyed, enqueues 5 again and dequeues: 5 is the stub of an empty queue.  Now
    thread 1 validates 5, compares it with the old tail and swings the head to NULL, which it then
    dereferences. *)
Definition bad_c : fcfg := {| hpc := hc; nt := 2; strict := false |}.
Definition bad_ls : list (nat * fact) :=
  reg ++ (0, AEnq false 1 6 60) :: tk 0 9 ++ (1, ADeq true 2) :: tk 1 2 ++ (0, ADeq false 1) :: tk 0 9 ++
  retire 5 9 18 ++ (0, AEnq false 1 5 50) :: tk 0 9 ++ (0, ADeq false 1) :: tk 0 9 ++ tk 1 7.
Theorem hp_fifo_trydequeue_refuted : exists c z ls s log, reent (hpc c) = false /\ z <> 0 /\
  run (fstep c) (finit z) ls = Some (s, log) /\ In (AC 1 0) log /\ fh s = 0 /\ ~ legal_from wnext wok (w0 z) log.
Proof.
  exists bad_c, 5, bad_ls. eexists. eexists. split; [reflexivity|]. split; [discriminate|]. split; [vm_compute; reflexivity|].
  match goal with |- In ?a ?l /\ _ => assert (X : In a l) by (repeat (try (left; reflexivity); right)) end.
  split; [exact X|]. split; [reflexivity|]. intros L. apply in_split in X. destruct X as [l1 [l2 X]]. rewrite X in L.
  apply legal_at in L. destruct L as [_ L]. apply L. reflexivity.
Qed.
Print Assumptions hp_fifo_trydequeue_refuted.
