(** C67: the portable fallbacks of the atomic operations, include/ck_pr.h. *)
From Coq Require Import NArith Arith List Bool.
From Verif Require Import Lib Lin Pr_Model Pr_Spec Pr_Proof.
Import ListNotations.
Local Open Scope N_scope.

(** C67.  Whatever any number of threads do to a word with the fallbacks and with load, store and
    compare-and-swap, each operation takes effect at one moment of its call, with the effect and
    result of the atomic operation on words of that width ([effect]).  Missing: the zero test of
    ck_pr_inc_ptr ([pr_inc_ptr_zero_refuted]). *)
Theorem pr_linearizable_partial : forall k v ls s log, v < 2 ^ width k -> (k = KPtr -> forall t, ~ In (t, ACall Incz) ls) ->
  run (pstep k) (init v) ls = Some (s, log) -> linearizable (pr_seq (2 ^ width k)) pres_dec v (history log).
Proof. exact pr_lin. Qed.
Print Assumptions pr_linearizable_partial.

(** C67.  No fallback runs into undefined behaviour.  Missing: int ([pr_int_overflow_refuted]). *)
Theorem pr_defined_partial : forall k v ls s log, k <> KInt -> run (pstep k) (init v) ls = Some (s, log) -> forall t, pcs s t <> PUb.
Proof. exact pr_ub. Qed.
Print Assumptions pr_defined_partial.

(** C67.  An operation that has begun returns within three steps of its thread if the others pause:
    nobody waits for anybody. *)
Theorem pr_returns_partial : forall k v ls s log, k <> KInt -> run (pstep k) (init v) ls = Some (s, log) -> forall t, pcs s t <> PIdle ->
  exists n s' log' r, (n <= 3)%nat /\ run (pstep k) s (repeat (t, ATick) n) = Some (s', log') /\ In (Ret t r) log' /\ pcs s' t = PIdle.
Proof. exact pr_solo. Qed.
Print Assumptions pr_returns_partial.

(** C67, refuted.  ck_pr_inc_ptr_is_zero compares the old value with UINT_MAX although pointers are
    wider: it answers true when the counter goes from 2^32-1 to 2^32. *)
Theorem pr_inc_ptr_zero_refuted : exists v ls s log, v < 2 ^ width KPtr /\
  run (pstep KPtr) (init v) ls = Some (s, log) /\ ~ linearizable (pr_seq (2 ^ width KPtr)) pres_dec v (history log).
Proof.
  exists (2 ^ 32 - 1), [(0%nat, ACall Incz); (0%nat, ATick); (0%nat, ATick)]. eexists. eexists. split; [reflexivity|]. split; [vm_compute; reflexivity|].
  intros L. apply one_call in L. destruct L as [q L]. vm_compute in L. discriminate.
Qed.
Print Assumptions pr_inc_ptr_zero_refuted.
(** ... and false when it wraps to zero *)
Theorem pr_inc_ptr_wrap_refuted : exists v ls s log, v < 2 ^ width KPtr /\
  run (pstep KPtr) (init v) ls = Some (s, log) /\ mem s = 0 /\ In (Ret 0%nat (RB false)) log /\
  ~ linearizable (pr_seq (2 ^ width KPtr)) pres_dec v (history log).
Proof.
  exists (2 ^ 64 - 1), [(0%nat, ACall Incz); (0%nat, ATick); (0%nat, ATick)]. eexists. eexists. split; [reflexivity|]. split; [vm_compute; reflexivity|].
  split; [reflexivity|]. split; [cbn; auto|]. intros L. apply one_call in L. destruct L as [q L]. vm_compute in L. discriminate.
Qed.
Print Assumptions pr_inc_ptr_wrap_refuted.

(** C67, refuted.  The fallbacks for int add with signed arithmetic: wrapping is undefined behaviour. *)
Theorem pr_int_overflow_refuted : exists v ls s log t, v < 2 ^ width KInt /\
  run (pstep KInt) (init v) ls = Some (s, log) /\ pcs s t = PUb.
Proof.
  exists (2 ^ 31 - 1), [(0%nat, ACall Inc); (0%nat, ATick); (0%nat, ATick)]. eexists. eexists. exists 0%nat. split; [reflexivity|]. split; [vm_compute; reflexivity|]. reflexivity.
Qed.
Print Assumptions pr_int_overflow_refuted.

(** two threads on a byte: the first compare-and-swap of thread 0 fails because thread 1 wraps the
    counter in between; then bit 7 is flipped *)
Example pr_ex : option_map (fun x => (mem (fst x), snd x)) (run (pstep K8) (init 254)
  [(0%nat, ACall (Faa 3)); (0%nat, ATick); (1%nat, ACall Incz); (1%nat, ATick); (1%nat, ATick); (0%nat, ATick);
   (1%nat, ACall Incz); (1%nat, ATick); (1%nat, ATick); (0%nat, ATick); (0%nat, ATick); (2%nat, ACall (Btx BTC 7)); (2%nat, ATick); (2%nat, ATick)])
  = Some (131, [Call 0%nat (Faa 3); Call 1%nat Incz; Lin 1%nat (RB false); Ret 1%nat (RB false); Call 1%nat Incz; Lin 1%nat (RB true); Ret 1%nat (RB true);
                Lin 0%nat (RV 0); Ret 0%nat (RV 0); Call 2%nat (Btx BTC 7); Lin 2%nat (RB false); Ret 2%nat (RB false)]).
Proof. vm_compute. reflexivity. Qed.
(** a lost update is not linearizable *)
Example pr_ex_bad : ~ linearizable (pr_seq 256) pres_dec 5 [Call 0%nat (Faa 3); Ret 0%nat (RV 8)].
Proof. intros L. apply one_call in L. destruct L as [q L]. vm_compute in L. discriminate. Qed.
