(** Properties of the multi-producer multi-consumer ring (C11-C13). *)
From Coq Require Import NArith List Bool Arith.
From Verif Require Import Lib Lin RingSp_Model RingMp_Model RingMp_Proof.
Import ListNotations.
Local Open Scope N_scope.

(** C12: linearizable to a FIFO holding [2^k - 1] entries *)
Theorem ring_mpmc_linearizable : forall k ls s log, k <= 31 -> run mstep (minit k) ls = Some (s, log) -> short_calls log ->
  linearizable (bq_seq (N.to_nat (2 ^ k - 1))) res_dec bq0 (history (mlin_log log)).
Proof. intros k ls s log Hk Hr Hs. apply lin_legal_history. exact (mring_linearizable k ls s log Hk Hr Hs). Qed.
Print Assumptions ring_mpmc_linearizable.

(** ... moreover an enqueue or reserve fails only when all slots were taken at its
    last look, trydequeue only when empty or beaten by another dequeue, and reported
    sizes are the occupancy at the look ([mring_step]). *)
Theorem ring_mpmc_failures : forall k ls s log, k <= 31 -> run mstep (minit k) ls = Some (s, log) -> short_calls log ->
  exists a, accepts (mring_step (N.to_nat (2 ^ k - 1))) mabs0 log = Some a.
Proof. intros k ls s log Hk Hr Hs. destruct (mring_run k Hk ls s log Hr Hs) as [a [Ha _]]. exact (ex_intro _ a Ha). Qed.
Print Assumptions ring_mpmc_failures.

(** the no-ABA hypothesis holds of every log shorter than 2^32 *)
Theorem ring_short_calls : forall log, N.of_nat (length log) < 2 ^ 32 -> short_calls log.
Proof. exact short_small. Qed.
Print Assumptions ring_short_calls.

(** C11, C13: at quiescence no slot is half-taken, the size is the queue length and
    repair changes nothing *)
Theorem ring_mpmc_quiescent : forall k ls s log, k <= 31 -> run mstep (minit k) ls = Some (s, log) -> short_calls log -> quiescent s ->
  exists a, accepts (mring_step (N.to_nat (2 ^ k - 1))) mabs0 log = Some a /\ mq_n (fst (m_lin a)) = 0%nat /\
    ck_ring_size (mrg s) = N.of_nat (length (mq_q (fst (m_lin a)))) /\ ck_ring_capacity (mrg s) = 2 ^ k /\
    ck_ring_repair (mrg s) = (mrg s, false).
Proof. exact mring_quiescent. Qed.
Print Assumptions ring_mpmc_quiescent.

(** C13: the validity check accepts until 2^32 entries have been enqueued ... *)
Theorem ring_mp_valid_partial : forall k ls s log, k <= 31 -> run mstep (minit k) ls = Some (s, log) -> short_calls log ->
  N.of_nat (resvs log) < 2 ^ 32 -> ck_ring_valid (mrg s) = true.
Proof. exact mring_valid. Qed.
Print Assumptions ring_mp_valid_partial.

(** ... and rejects a healthy ring once the producer cursor has wrapped past the consumer's. *)
Theorem ring_mp_valid_refuted : exists ls s log, run mstep (minit 2) ls = Some (s, log) /\ quiescent s /\
  ck_ring_size (mrg s) = 1 /\ ck_ring_valid (mrg s) = false.
Proof. exact mring_valid_wrap. Qed.
Print Assumptions ring_mp_valid_refuted.

(** two producers overlap, the later ticket waits for the earlier; a consumer loses
    its CAS and retries; a third enqueue finds the ring full *)
Definition demo : list mlab :=
  [MCall 0 (MEnq 5); MCall 1 (MReserve 1); MStep 0; MStep 1; MStep 0; MStep 1; MStep 0; MStep 1; MStep 1; MStep 1;
   MCall 1 (MWrite 1 6); MCall 1 (MCommit 1); MStep 1; MStep 0; MStep 0; MStep 0; MStep 1; MStep 1;
   MCall 2 MDeq; MCall 3 MTry; MStep 2; MStep 3; MStep 2; MStep 3; MStep 2; MStep 3; MStep 3; MStep 2; MStep 2; MStep 2; MStep 2].
Example ring_mpmc_ex :
  match run mstep (minit 2) demo with
  | Some (s, log) => (ck_ring_size (mrg s), mlin_log log)
  | None => (9, [])
  end = (0, [Call 0 (MEnq 5); Call 1 (MReserve 1); Lin 1 (RB true); Ret 1 (RB true);
             Call 1 (MWrite 1 6); Lin 1 RU; Ret 1 RU; Call 1 (MCommit 1); Lin 0 (RB true); Ret 0 (RB true);
             Lin 1 RU; Ret 1 RU; Call 2 MDeq; Call 3 MTry; Lin 3 (RV (Some 5%nat)); Ret 3 (RV (Some 5%nat));
             Lin 2 (RV (Some 6%nat)); Ret 2 (RV (Some 6%nat))]).
Proof. vm_compute. reflexivity. Qed.
