(** Properties of the single-producer single-consumer ring (C10, C11, C13). *)
From Coq Require Import NArith List Bool Arith.
From Verif Require Import Lib Lin RingSp_Model RingSp_Proof.
Import ListNotations.
Local Open Scope N_scope.

(** C10: the linearization points give a legal execution of a FIFO holding
    [2^k - 1] entries, for every schedule and any number of operations. *)
Theorem ring_spsc_linearizable : forall k ls s log, k <= 31 -> run step (init k) ls = Some (s, log) ->
  linearizable (fifo_seq (N.to_nat (2 ^ k - 1))) res_dec fifo0 (history (lin_log log)).
Proof. intros k ls s log Hk Hr. apply lin_legal_history. exact (ring_linearizable k ls s log Hk Hr). Qed.
Print Assumptions ring_spsc_linearizable.

Theorem ring_spsc_lin_points : forall k ls s log, k <= 31 -> run step (init k) ls = Some (s, log) ->
  lin_legal (fifo_seq (N.to_nat (2 ^ k - 1))) res_dec fifo0 (lin_log log).
Proof. exact ring_linearizable. Qed.
Print Assumptions ring_spsc_lin_points.

(** C11: at every reachable state the size is the length of the abstract queue,
    the capacity is the initial size, and every size reported by an enqueue or
    reserve is the queue length when the call looked (checked by [ring_step]). *)
Theorem ring_spsc_size : forall k ls s log, k <= 31 -> run step (init k) ls = Some (s, log) ->
  exists f th lk, accepts (ring_step (N.to_nat (2 ^ k - 1))) (fifo0, idle, 0%nat) log = Some (f, th, lk) /\
    ck_ring_size (rg s) = N.of_nat (length (q f)) /\ ck_ring_capacity (rg s) = 2 ^ k.
Proof. exact ring_size_now. Qed.
Print Assumptions ring_spsc_size.

Example ring_spsc_ex :
  match run step (init 2)
    [PCall (OEnq 7); PStep; PStep; PStep; PCall OReserve; CCall; PStep; PCall (OWrite 8); CStep; PCall OCommit;
     CStep; CStep; PCall (OEnq 9); PStep; PStep; PStep; PCall (OEnq 10); PStep; PStep; PStep; PCall (OEnq 11); PStep] with
  | Some (s, log) => (ck_ring_size (rg s), lin_log log)
  | None => (0, [])
  end = (3, [Call 0 (OEnq 7); Lin 0 (RB true); Ret 0 (RB true); Call 0 OReserve; Call 1 ODeq;
             Lin 0 (RB true); Ret 0 (RB true); Call 0 (OWrite 8); Lin 0 RU; Ret 0 RU; Call 0 OCommit; Lin 0 RU; Ret 0 RU;
             Lin 1 (RV (Some 7%nat)); Ret 1 (RV (Some 7%nat)); Call 0 (OEnq 9); Lin 0 (RB true); Ret 0 (RB true);
             Call 0 (OEnq 10); Lin 0 (RB true); Ret 0 (RB true); Call 0 (OEnq 11); Lin 0 (RB false); Ret 0 (RB false)]).
Proof. vm_compute. reflexivity. Qed.

(** C13: a single-producer enqueue never advances p_head, so a healthy ring fails
    the validity check after one dequeue and repair discards its contents. *)
Theorem ring_sp_valid_refuted : exists ls s log, run step (init 2) ls = Some (s, log) /\ pp s = PIdle /\ cp s = CIdle /\
  ck_ring_valid (rg s) = false.
Proof.
  exists [PCall (OEnq 7); PStep; PStep; PStep; CCall; CStep; CStep; CStep].
  eexists. eexists. split; [reflexivity|]. vm_compute. auto.
Qed.
Print Assumptions ring_sp_valid_refuted.

Theorem ring_sp_repair_refuted : exists ls s log, run step (init 2) ls = Some (s, log) /\ pp s = PIdle /\ cp s = CIdle /\
  ck_ring_valid (rg s) = true /\ ck_ring_size (rg s) = 1 /\ ck_ring_size (fst (ck_ring_repair (rg s))) = 0.
Proof.
  exists [PCall (OEnq 7); PStep; PStep; PStep].
  eexists. eexists. split; [reflexivity|]. vm_compute. auto 10.
Qed.
Print Assumptions ring_sp_repair_refuted.

(** ... precisely: it is judged valid only while the number of dequeues is a
    multiple of 2^32, and repair always resets the producer cursor to 0. *)
Theorem ring_sp_valid_partial : forall k ls s log, k <= 31 -> run step (init k) ls = Some (s, log) ->
  (ck_ring_valid (rg s) = true <-> N.of_nat (deqs log) mod 2 ^ 32 = 0).
Proof. exact ring_sp_valid. Qed.
Print Assumptions ring_sp_valid_partial.

Theorem ring_sp_repair_resets : forall k ls s log, k <= 31 -> run step (init k) ls = Some (s, log) ->
  p_tail (fst (ck_ring_repair (rg s))) = 0.
Proof. exact ring_sp_repair. Qed.
Print Assumptions ring_sp_repair_resets.
