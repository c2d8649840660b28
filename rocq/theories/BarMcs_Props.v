(** Properties of the MCS tree barrier (C40). *)
From Coq Require Import Arith NArith List Bool.
From Verif Require Import Lib BarSpec BarMcs_Model BarMcs_Proof.
Import ListNotations.

(** No participant returns from its k-th call before all n entered their k-th. *)
Theorem mcs_separated_partial : forall n ls s log, (1 <= N.of_nat n <= 2 ^ 30)%N -> run (step n) (init n) ls = Some (s, log) ->
  separated n log /\ returns_after_all n log.
Proof. intros n ls s log Hn. exact (sep n Hn ls s log). Qed.
Print Assumptions mcs_separated_partial.

(** Once everyone entered their k-th call, whoever has not returned from it can
    still do so, without anybody entering again. *)
Theorem mcs_progress_partial : forall n ls s log k t, (1 <= N.of_nat n <= 2 ^ 30)%N -> run (step n) (init n) ls = Some (s, log) ->
  (forall u, u < n -> k <= enters u log) -> t < n -> leaves t log < k ->
  exists ls' s' log', run (step n) s ls' = Some (s', log') /\ In (Leave t) log' /\ (forall u, ~ In (Enter u) log').
Proof. intros n ls s log k t Hn. exact (prog n Hn ls s log k t). Qed.
Print Assumptions mcs_progress_partial.

(** With 2^30 + 1 participants [i << 2] wraps to 0 for the last one, which then
    waits for ever for children it does not have. *)
Theorem mcs_progress_refuted : exists n ls s log t, (1 <= N.of_nat n < 2 ^ 32)%N /\ run (step n) (init n) ls = Some (s, log) /\
  (forall u, u < n -> 1 <= enters u log) /\ t < n /\ leaves t log < 1 /\
  forall ls' s' log', run (step n) s ls' = Some (s', log') -> ~ In (Leave t) log'.
Proof.
  destruct (big_stuck (N.to_nat (2 ^ 30 + 1)) (N2Nat.id _)) as [ls [s [log H]]].
  exists (N.to_nat (2 ^ 30 + 1)), ls, s, log, (N.to_nat (2 ^ 30 + 1) - 1). rewrite N2Nat.id. split; [split; [discriminate|reflexivity]|exact H].
Qed.
Print Assumptions mcs_progress_refuted.

(** Two participants; 0 is the root and returns first, then enters again. *)
Example mcs_ex :
  match run (step 2) (init 2) ([(0, ASub); (1, ASub); (0, AEnter); (0, ATick); (1, AEnter)] ++ repeat (1, ATick) 9 ++ [(1, ATick)]
        ++ repeat (0, ATick) 11 ++ [(0, AEnter); (0, ATick); (1, ATick); (1, ATick); (1, ATick)]) with
  | Some (s, log) => nr (init 2) 0 0 = true /\ nr (init 2) 0 1 = false /\ log = [Enter 0; Enter 1; Leave 0; Enter 0; Leave 1]
  | None => False
  end.
Proof. vm_compute. auto. Qed.
