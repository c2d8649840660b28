(** C88: the stacks of ck_stack.h on x86-TSO. *)
From Coq Require Import NArith Arith List Bool.
From Verif Require Import Lib Lin Stack_Model Stack_Spec TsoStack_Model TsoStack_Proof.
Import ListNotations.

(** UPMC: linearizable to a LIFO stack, under the discipline of C16. *)
Theorem stack_upmc_tso_linearizable : forall n b ls T log, run (tstep {| md := UP; nt := n; bp := b |}) tinit ls = Some (T, log) ->
  linearizable lifo sres_dec [] (history log).
Proof. exact tso_up_lin. Qed.
Print Assumptions stack_upmc_tso_linearizable.

(** The try operations give up only with cause, and the memory (without the buffers) holds exactly
    the linearized contents. *)
Theorem stack_upmc_tso_failures : forall n b ls T log, run (tstep {| md := UP; nt := n; bp := b |}) tinit ls = Some (T, log) ->
  exists a, accepts stk_step a0 log = Some a /\ walk (pushes (mem T)) (nxt (mem T)) (head (mem T)) = Some (fst (a_lin a)).
Proof. exact tso_up_fail. Qed.
Print Assumptions stack_upmc_tso_failures.

(** MPMC without batch_pop, fewer than 2^64 pops within one call. *)
Theorem stack_mpmc_tso_linearizable : forall n ls T log, run (tstep {| md := MP; nt := n; bp := false |}) tinit ls = Some (T, log) ->
  short_calls log -> linearizable lifo sres_dec [] (history log).
Proof. exact tso_mp_lin. Qed.
Print Assumptions stack_mpmc_tso_linearizable.

Theorem stack_mpmc_tso_failures : forall n ls T log, run (tstep {| md := MP; nt := n; bp := false |}) tinit ls = Some (T, log) ->
  short_calls log ->
  exists a, accepts stk_step a0 log = Some a /\ walk (pushes (mem T)) (nxt (mem T)) (head (mem T)) = Some (fst (a_lin a)).
Proof. exact tso_mp_fail. Qed.
Print Assumptions stack_mpmc_tso_failures.

(** A thread that has returned from its operation has an empty store buffer: whatever it did is
    visible to everybody. *)
Theorem stack_tso_visible : forall c ls T log, run (tstep c) tinit ls = Some (T, log) ->
  forall t, thr (mem T) t = PIdle -> buf T t = [].
Proof. exact tso_idle. Qed.
Print Assumptions stack_tso_visible.

(** Two pushes race: the loser's store to next waits in its buffer while the winner's CAS takes
    effect, arrives, is overwritten by the retry, and the pop returns the loser's entry. *)
Example stack_tso_example :
  match run (tstep {| md := UP; nt := 2; bp := true |}) tinit
    [(0, TCall (Push 7)); (0, TTick); (0, TTick); (1, TCall (Push 8)); (1, TTick); (1, TTick); (1, TFlush); (1, TTick);
     (0, TFlush); (0, TTick); (0, TTick); (0, TFlush); (0, TTick); (1, TCall Pop); (1, TTick); (1, TTick); (1, TTick);
     (1, TCall Batch); (1, TTick)] with
  | Some (T, log) => log = [Call 0 (Push 7); Call 1 (Push 8); Lin 1 RU; Ret 1 RU; Lin 0 RU; Ret 0 RU;
                            Call 1 Pop; Lin 1 (RV (Some 7)); Ret 1 (RV (Some 7)); Call 1 Batch; Lin 1 (RL [8]); Ret 1 (RL [8])]
  | None => False
  end.
Proof. vm_compute. reflexivity. Qed.
(** the same for the MPMC consumer; the log is short enough *)
Example stack_tso_mp_example :
  match run (tstep {| md := MP; nt := 2; bp := false |}) tinit
    [(0, TCall (Push 7)); (0, TTick); (0, TTick); (1, TCall TryPop); (1, TTick); (1, TTick); (0, TFlush); (0, TTick);
     (1, TCall Pop); (1, TTick); (1, TTick); (1, TTick); (1, TTick)] with
  | Some (T, log) => log = [Call 0 (Push 7); Call 1 TryPop; Lin 1 (RV None); Ret 1 (RV None); Lin 0 RU; Ret 0 RU;
                            Call 1 Pop; Lin 1 (RV (Some 7)); Ret 1 (RV (Some 7))] /\ (N.of_nat (length log) < 2 ^ 64)%N
  | None => False
  end.
Proof. vm_compute. split; reflexivity. Qed.
