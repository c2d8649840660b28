(** Properties of the tournament barrier (C41). *)
From Coq Require Import Arith NArith List Bool.
From Verif Require Import Lib BarSpec BarTourn_Model BarTourn_Proof.
Import ListNotations.

(** No participant returns from its k-th call before all n entered their k-th,
    whatever the memory handed to init held. *)
Theorem tourn_separated_partial : forall n m0 ls s log, (1 <= N.of_nat n <= 2 ^ 31)%N -> run (step n m0) init ls = Some (s, log) ->
  separated n log /\ returns_after_all n log.
Proof. intros n m0 ls s log Hn. exact (sep n Hn m0 ls s log). Qed.
Print Assumptions tourn_separated_partial.

(** Once everyone entered their k-th call, whoever has not returned from it can
    still do so, without anybody entering again. *)
Theorem tourn_progress_partial : forall n m0 ls s log k t, (1 <= N.of_nat n <= 2 ^ 31)%N -> run (step n m0) init ls = Some (s, log) ->
  (forall u, u < n -> k <= enters u log) -> t < n -> leaves t log < k ->
  exists ls' s' log', run (step n m0) s ls' = Some (s', log') /\ In (Leave t) log' /\ (forall u, ~ In (Enter u) log').
Proof. intros n m0 ls s log k t Hn. exact (prog n Hn m0 ls s log k t). Qed.
Print Assumptions tourn_progress_partial.

(** The barrier itself never walks off the round arrays. *)
Theorem tourn_in_bounds_partial : forall n m0 ls s log t, (1 <= N.of_nat n <= 2 ^ 31)%N -> run (step n m0) init ls = Some (s, log) ->
  t < n -> thr s t <> Bad.
Proof. intros n m0 ls s log t Hn. exact (nofault n Hn m0 ls s log t). Qed.
Print Assumptions tourn_in_bounds_partial.

(** Init reads only initialised memory and stays in bounds if the caller hands it
    arrays whose role fields hold BYE or DROPOUT (for instance zeroed memory). *)
Theorem tourn_init_partial : forall n m0, (1 <= N.of_nat n <= 2 ^ 31)%N ->
  (forall i k, i < n -> m0 i k = Some Bye \/ m0 i k = Some Dropout) -> init_fault n m0 = None.
Proof. intros n m0 Hn. exact (init_ok n Hn m0). Qed.
Print Assumptions tourn_init_partial.

(** On arrays fresh from malloc init reads roles nobody stored... *)
Theorem tourn_init_refuted : exists n i k, (1 <= N.of_nat n <= 2 ^ 31)%N /\ init_fault n (fun _ _ => None) = Some (Uninit i k).
Proof. exists 3, 1, 2. split; [split; discriminate|reflexivity]. Qed.
Print Assumptions tourn_init_refuted.

(** ... and when the stale role happens to be LOSER it indexes [rounds] out of
    bounds: three threads, rounds[1][2] gives rounds[1 - 2]. *)
Theorem tourn_init_bounds_refuted : exists n m0 i k, (1 <= N.of_nat n <= 2 ^ 31)%N /\ (forall i k, m0 i k <> None) /\ init_fault n m0 = Some (Oob i k).
Proof. exists 3, (fun _ _ => Some Loser), 1, 2. split; [split; discriminate|]. split; [discriminate|reflexivity]. Qed.
Print Assumptions tourn_init_bounds_refuted.

(** With more than 2^31 participants ck_internal_power_2 wraps to 0 and nobody
    waits for anybody. *)
Theorem tourn_separated_refuted : exists n m0 ls s log, (1 <= N.of_nat n < 2 ^ 32)%N /\ run (step n m0) init ls = Some (s, log) /\ ~ separated n log.
Proof.
  destruct (big (N.to_nat (2 ^ 31 + 1)) (fun _ _ => None) (N2Nat.id _)) as [ls [s [log H]]].
  exists (N.to_nat (2 ^ 31 + 1)), (fun _ _ => None), ls, s, log. rewrite N2Nat.id. split; [split; [discriminate|reflexivity]|exact H].
Qed.
Print Assumptions tourn_separated_refuted.

(** Three participants, two rounds: 1 loses to 0 in round 1, 2 has a bye and loses
    to champion 0 in round 2.  2 returns first and enters its second call. *)
Example tourn_ex :
  match run (step 3 (fun _ _ => None)) init
      [(0, ASub); (1, ASub); (2, ASub); (2, AEnter); (2, ATick); (2, ATick); (0, AEnter); (0, ATick); (1, AEnter); (1, ATick);
       (0, ATick); (0, ATick); (0, ATick); (2, ATick); (2, ATick); (2, ATick); (2, AEnter); (2, ATick); (2, ATick);
       (0, ATick); (1, ATick); (0, ATick); (1, ATick)] with
  | Some (s, log) => size 3 = 3 /\ log = [Enter 2; Enter 0; Enter 1; Leave 2; Enter 2; Leave 0; Leave 1]
  | None => False
  end.
Proof. vm_compute. auto. Qed.
