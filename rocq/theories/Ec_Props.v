(** Properties of event counts (C62, C63).  [w] selects the 64- or 32-bit
    variant, [sp] the single-producer mode. *)
From Coq Require Import ZArith List Bool.
From Verif Require Import Lib Ec_Model Ec_Proof.
Import ListNotations.
Local Open Scope Z_scope.

(** The value is the initial value plus all increments modulo 2^31 / 2^63; every
    add returns the value before, every load the current value. *)
Theorem ec_counts : forall w sp v0 ls s log, 0 <= v0 < M (ops w) ->
  run (step (ops w) sp) (init (ops w) v0) ls = Some (s, log) ->
  counts (M (ops w)) v0 log /\ wval (ops w) (word s) = (v0 + adds log) mod M (ops w).
Proof. exact ec_counts_all. Qed.
Print Assumptions ec_counts.

(** A thread falls asleep only while the word is still its flagged word. *)
Theorem ec_sleep_unchanged : forall w sp s l s' t, step (ops w) sp s l = Some (s', [ESleep t]) ->
  exists v, thr s' t = Sleep v /\ word s = wfl (ops w) v /\ word s' = word s.
Proof. exact sleep_only_flagged. Qed.
Print Assumptions ec_sleep_unchanged.

(** Multi-producer mode: whenever the value differs from what a sleeper waits
    on, some producer is on its way to wake everybody, by its own steps alone. *)
Theorem ec_no_lost_wakeup : forall w v0, 0 <= v0 < M (ops w) -> forall s, reachable (step (ops w) false) (init (ops w) v0) s ->
  forall t v, thr s t = Sleep v -> wval (ops w) (word s) <> v ->
  exists u ls s' log, waker (thr s u) = true /\ run (step (ops w) false) s ls = Some (s', log) /\
    (forall l, In l ls -> l = (u, ATick)) /\ forall t v, thr s' t <> Sleep v.
Proof. exact no_lost_all. Qed.
Print Assumptions ec_no_lost_wakeup.

(** wait returns success only if the counter was different from the awaited
    value at the call, or was incremented since, or a waker cleared the flag
    since (missing: the last excuse should not be needed). *)
Theorem ec_wait_success_partial : forall w sp v0 ls s log, 0 <= v0 < M (ops w) ->
  run (step (ops w) sp) (init (ops w) v0) ls = Some (s, log) -> wait_truthful (M (ops w)) true v0 log.
Proof. exact ec_wait_all. Qed.
Print Assumptions ec_wait_success_partial.

(** Without that excuse the claim is false: wait(v) returns 0 although the value
    was v during the whole call. *)
Theorem ec_wait_success_refuted : forall w, exists ls s log,
  run (step (ops w) false) (init (ops w) 0) ls = Some (s, log) /\ ~ wait_truthful (M (ops w)) false 0 log.
Proof. exact spurious_untruthful. Qed.
Print Assumptions ec_wait_success_refuted.

(** A waiter sleeps, the producer increments and wakes it, it returns 0. *)
Example ec_ex :
  match run (step ops32 false) (init ops32 (2 ^ 31 - 1))
    [(1, AWait (2 ^ 31 - 1)); (1, ATick); (1, ATick); (1, ATick); (1, AStop); (1, ATick); (1, AStop); (1, ATick); (1, ATick);
     (0, AAdd 3); (0, ATick); (0, ATick); (0, ATick); (1, ATick); (1, ATick); (2, AValue); (2, ATick)]%nat with
  | Some (s, log) => log = [ECall 1 (2 ^ 31 - 1); ESleep 1; EAdd 0 3 (2 ^ 31 - 1); EClear 0; EWakeAll; ERet 1 0; EVal 2 2]%nat
  | None => False
  end.
Proof. vm_compute. reflexivity. Qed.
