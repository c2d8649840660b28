(** Properties of the dissemination barrier (C39). *)
From Coq Require Import Arith NArith List Bool.
From Verif Require Import Lib BarSpec BarDissem_Model BarDissem_Proof.
Import ListNotations.

(** No participant returns from its k-th call before all n entered their k-th. *)
Theorem dissem_separated_partial : forall n ls s log, (1 <= N.of_nat n <= 2 ^ 31)%N -> run (step n) init ls = Some (s, log) ->
  separated n log /\ returns_after_all n log.
Proof. intros n ls s log Hn. exact (sep n Hn ls s log). Qed.
Print Assumptions dissem_separated_partial.

(** Once everyone entered their k-th call, whoever has not returned from it can
    still do so, without anybody entering again. *)
Theorem dissem_progress_partial : forall n ls s log k t, (1 <= N.of_nat n <= 2 ^ 31)%N -> run (step n) init ls = Some (s, log) ->
  (forall u, u < n -> k <= enters u log) -> t < n -> leaves t log < k ->
  exists ls' s' log', run (step n) s ls' = Some (s', log') /\ In (Leave t) log' /\ (forall u, ~ In (Enter u) log').
Proof. intros n ls s log k t Hn. exact (prog n Hn ls s log k t). Qed.
Print Assumptions dissem_progress_partial.

(** With more than 2^31 participants ck_internal_power_2 wraps to 0, there are no
    rounds, and nobody waits for anybody. *)
Theorem dissem_separated_refuted : exists n ls s log, (1 <= N.of_nat n < 2 ^ 32)%N /\ run (step n) init ls = Some (s, log) /\ ~ separated n log.
Proof.
  destruct (big (N.to_nat (2 ^ 31 + 1)) (N2Nat.id _)) as [ls [s [log H]]].
  exists (N.to_nat (2 ^ 31 + 1)), ls, s, log. rewrite N2Nat.id. split; [split; [discriminate|reflexivity]|exact H].
Qed.
Print Assumptions dissem_separated_refuted.

(** Three participants, two rounds; 2 returns while 0 and 1 still wait in round 1,
    and enters its second call. *)
Example dissem_ex :
  match run (step 3) init ([(0, ASub); (1, ASub); (2, ASub); (0, AEnter); (1, AEnter); (2, AEnter); (0, ATick); (1, ATick); (2, ATick);
                            (2, ATick); (1, ATick); (0, ATick); (2, ATick); (0, ATick); (1, ATick); (2, ATick); (2, ATick);
                            (2, AEnter); (2, ATick); (0, ATick); (1, ATick); (0, ATick); (1, ATick)]) with
  | Some (s, log) => size 3 = 2 /\ log = [Enter 0; Enter 1; Enter 2; Leave 2; Enter 2; Leave 0; Leave 1]
  | None => False
  end.
Proof. vm_compute. auto. Qed.
