(** C16, C17: the UPMC and MPMC stacks. *)
From Coq Require Import NArith Arith List Bool.
From Verif Require Import Lib Lin Stack_Model Stack_Spec Stack_Proof.
Import ListNotations.

(** C16.  Whatever the threads do with push, trypush, pop, trypop and batch_pop of
    the UPMC variant, as long as no entry is pushed while a pop that has read it is
    in progress, the history is linearizable to a LIFO stack. *)
Theorem stack_upmc_linearizable : forall n b ls s log, run (sstep {| md := UP; nt := n; bp := b |}) sinit ls = Some (s, log) ->
  linearizable lifo sres_dec [] (history log).
Proof. exact up_linearizable. Qed.
Print Assumptions stack_upmc_linearizable.

(** C16.  The linearization in the log also shows that the try operations give up
    only under contention (or, for trypop, on an empty stack), and the memory holds
    exactly the linearized contents. *)
Theorem stack_upmc_failures : forall n b ls s log, run (sstep {| md := UP; nt := n; bp := b |}) sinit ls = Some (s, log) ->
  exists a, accepts stk_step a0 log = Some a /\ walk (pushes s) (nxt s) (head s) = Some (fst (a_lin a)).
Proof. exact up_failures. Qed.
Print Assumptions stack_upmc_failures.

Example upmc_example :
  let ls := push_by 0 7 ++ push_by 1 8 ++ [(0, ACall Pop); (1, ACall TryPop); (0, ATick); (1, ATick); (1, ATick); (0, ATick); (1, ATick); (0, ATick)] ++
            [(0, ATick); (0, ATick)] ++ push_by 1 8 ++ [(0, ACall Batch); (0, ATick)] in
  exists s, run (sstep {| md := UP; nt := 2; bp := true |}) sinit ls =
    Some (s, [Call 0 (Push 7); Lin 0 RU; Ret 0 RU; Call 1 (Push 8); Lin 1 RU; Ret 1 RU; Call 0 Pop; Call 1 TryPop;
              Lin 1 (RV (Some 8)); Ret 1 (RV (Some 8)); Lin 0 (RV (Some 7)); Ret 0 (RV (Some 7));
              Call 1 (Push 8); Lin 1 RU; Ret 1 RU; Call 0 Batch; Lin 0 (RL [8]); Ret 0 (RL [8])]).
Proof. eexists. vm_compute. reflexivity. Qed.
(** the discipline is what excludes pushing an entry back under a pop that has read it *)
Example upmc_discipline :
  run (sstep {| md := UP; nt := 2; bp := true |}) sinit
    (push_by 0 7 ++ [(0, ACall Pop); (0, ATick); (1, ACall Pop); (1, ATick); (1, ATick); (1, ATick); (1, ACall (Push 7))]) = None.
Proof. vm_compute. reflexivity. Qed.

(** C17, without batch_pop.  Entries may be pushed again the moment they are popped;
    the only hypothesis is that fewer than 2^64 pops take effect within one call. *)
Theorem stack_mpmc_linearizable_partial : forall n ls s log, run (sstep {| md := MP; nt := n; bp := false |}) sinit ls = Some (s, log) ->
  short_calls log -> linearizable lifo sres_dec [] (history log).
Proof. exact mp_linearizable. Qed.
Print Assumptions stack_mpmc_linearizable_partial.

Theorem stack_mpmc_failures_partial : forall n ls s log, run (sstep {| md := MP; nt := n; bp := false |}) sinit ls = Some (s, log) ->
  short_calls log -> exists a, accepts stk_step a0 log = Some a /\ walk (pushes s) (nxt s) (head s) = Some (fst (a_lin a)).
Proof. exact mp_failures. Qed.
Print Assumptions stack_mpmc_failures_partial.

(** the no-ABA hypothesis holds of every log shorter than 2^64 *)
Theorem stack_short_calls : forall log, (N.of_nat (length log) < 2 ^ 64)%N -> short_calls log.
Proof. exact short_small. Qed.
Print Assumptions stack_short_calls.

(** an entry is popped and pushed back under a pop that has read it; the pop retries *)
Example mpmc_example :
  let ls := push_by 0 7 ++ push_by 0 8 ++ [(0, ACall Pop); (0, ATick); (0, ATick); (0, ATick)] ++
            [(1, ACall Pop); (1, ATick); (1, ATick); (1, ATick); (1, ATick)] ++ push_by 1 8 ++ [(0, ATick); (0, ATick); (0, ATick)] in
  exists s log, run (sstep {| md := MP; nt := 2; bp := false |}) sinit ls = Some (s, log) /\ short_calls log /\ head s = Some 7 /\
    In (Ret 0 (RV (Some 8))) log /\ In (Ret 1 (RV (Some 8))) log.
Proof. eexists. eexists. split; [vm_compute; reflexivity|]. split; [apply short_small; reflexivity|]. vm_compute. tauto. Qed.

(** C17 with batch_pop is false: batch_pop does not advance the generation, so a pop
    that read the top before it and resumes after the top came back hands a popped
    entry out twice. *)
Theorem stack_mpmc_batch_refuted : exists ls s log, run (sstep cB) sinit ls = Some (s, log) /\ short_calls log /\
  ~ linearizable lifo sres_dec [] (history log).
Proof. exact batch_refuted. Qed.
Print Assumptions stack_mpmc_batch_refuted.
