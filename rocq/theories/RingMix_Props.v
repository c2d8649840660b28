(** Properties of the rings with one producer or one consumer (C68).  [sp] and [sc] choose the
    functions for one producer (thread 0) and for one consumer (thread 1): [true false] is spmc,
    [false true] mpsc, [true true] spsc, [false false] mpmc.  The specifications are those of the
    ring for many (RingMp_Model). *)
From Coq Require Import NArith List Bool Arith.
From Verif Require Import Lib Lin RingSp_Model RingMp_Model RingMp_Proof RingMix_Model RingMix_Proof.
Import ListNotations.
Local Open Scope N_scope.

(** linearizable to a FIFO holding [2^k - 1] entries, whichever functions are mixed *)
Theorem ring_mixed_linearizable : forall k sp sc ls s log, k <= 31 -> run (xstep sp sc) (xinit k) ls = Some (s, log) -> short_calls log ->
  linearizable (bq_seq (N.to_nat (2 ^ k - 1))) res_dec bq0 (history (mlin_log log)).
Proof. exact xlin. Qed.
Print Assumptions ring_mixed_linearizable.

(** ... an enqueue or reserve fails only when all slots were taken at its last look, a dequeue
    only when empty, a trydequeue only when empty or beaten, and a reported size is the occupancy
    at the look *)
Theorem ring_mixed_failures : forall k sp sc ls s log, k <= 31 -> run (xstep sp sc) (xinit k) ls = Some (s, log) -> short_calls log ->
  exists a, accepts (mring_step (N.to_nat (2 ^ k - 1))) mabs0 log = Some a.
Proof. exact xfail. Qed.
Print Assumptions ring_mixed_failures.

(** ... and at quiescence the size is the number of entries queued *)
Theorem ring_mixed_quiescent : forall k sp sc ls s log, k <= 31 -> run (xstep sp sc) (xinit k) ls = Some (s, log) -> short_calls log -> xquiet s ->
  exists a, accepts (mring_step (N.to_nat (2 ^ k - 1))) mabs0 log = Some a /\ mq_n (fst (m_lin a)) = 0%nat /\
    ck_ring_size (xrg s) = N.of_nat (length (mq_q (fst (m_lin a)))) /\ ck_ring_capacity (xrg s) = 2 ^ k.
Proof. exact xquiescent. Qed.
Print Assumptions ring_mixed_quiescent.

(** spmc: an enqueue, a reserve and commit; two consumers race for the first entry and the loser
    takes the second; the ring ends empty *)
Definition spmc_demo : list mlab :=
  [MCall 0 (MEnq 5); MStep 0; MStep 0; MStep 0; MCall 0 (MReserve 0); MStep 0; MCall 2 MDeq; MCall 3 MDeq; MStep 2; MStep 3; MStep 2; MStep 3;
   MCall 0 (MWrite 0 6); MCall 0 (MCommit 0); MStep 2; MStep 3; MStep 3; MStep 2; MStep 2; MStep 2; MStep 2].
Example ring_spmc_ex :
  match run (xstep true false) (xinit 2) spmc_demo with
  | Some (s, log) => (ck_ring_size (xrg s), mlin_log log)
  | None => (9, [])
  end = (0, [Call 0 (MEnq 5); Lin 0 (RB true); Ret 0 (RB true); Call 0 (MReserve 0); Lin 0 (RB true); Ret 0 (RB true);
             Call 2 MDeq; Call 3 MDeq; Call 0 (MWrite 0 6); Lin 0 RU; Ret 0 RU; Call 0 (MCommit 0); Lin 0 RU; Ret 0 RU;
             Lin 3 (RV (Some 5%nat)); Ret 3 (RV (Some 5%nat)); Lin 2 (RV (Some 6%nat)); Ret 2 (RV (Some 6%nat))]).
Proof. vm_compute. reflexivity. Qed.

(** mpsc: two producers overlap in a ring of one slot; the second fails while the consumer waits
    on the first *)
Definition mpsc_demo : list mlab :=
  [MCall 0 (MEnq 5); MCall 2 (MEnq 6); MStep 0; MStep 0; MStep 0; MStep 2; MStep 2; MStep 2; MCall 1 MDeq; MStep 1;
   MStep 0; MStep 0; MStep 0; MCall 1 MDeq; MStep 1; MStep 1; MStep 1].
Example ring_mpsc_ex :
  match run (xstep false true) (xinit 1) mpsc_demo with
  | Some (s, log) => (ck_ring_size (xrg s), mlin_log log)
  | None => (9, [])
  end = (0, [Call 0 (MEnq 5); Call 2 (MEnq 6); Lin 2 (RB false); Ret 2 (RB false); Call 1 MDeq; Lin 1 (RV None); Ret 1 (RV None);
             Lin 0 (RB true); Ret 0 (RB true); Call 1 MDeq; Lin 1 (RV (Some 5%nat)); Ret 1 (RV (Some 5%nat))]).
Proof. vm_compute. reflexivity. Qed.
