(** Properties of the combining barrier (C42). *)
From Coq Require Import Arith NArith List Bool Lia.
From Verif Require Import Lib BarSpec Helpers_Model BarComb_Model BarComb_Spec BarComb_Proof.
Import ListNotations.

(** On any proper tree of groups: no participant returns from its k-th call before
    all n entered their k-th. *)
Theorem comb_separated_tree : forall h n m grp ls s log, proper h n m grp -> run (step h n grp) init ls = Some (s, log) ->
  separated n log /\ returns_after_all n log.
Proof. intros h n m grp ls s log HP. exact (sep h n m grp HP ls s log). Qed.
Print Assumptions comb_separated_tree.

(** Once everyone entered their k-th call, whoever has not returned from it can
    still do so, without anybody entering again. *)
Theorem comb_progress_tree : forall h n m grp ls s log k t, proper h n m grp -> run (step h n grp) init ls = Some (s, log) ->
  (forall u, u < n -> k <= enters u log) -> t < n -> leaves t log < k ->
  exists ls' s' log', run (step h n grp) s ls' = Some (s', log') /\ In (Leave t) log' /\ (forall u, ~ In (Enter u) log').
Proof. intros h n m grp ls s log k t HP. exact (prog h n m grp HP ls s log k t). Qed.
Print Assumptions comb_progress_tree.

(** Linking any sequence of groups succeeds and fills the tree level by level. *)
Theorem comb_build : forall l, (forall a, In a l -> (a < 2 ^ 32)%N) ->
  exists h, build l = Some h /\ par h 0 = None /\ forall g, 0 < g -> g <= length l -> par h g = Some ((g - 1) / 2).
Proof.
  intros l Ha. destruct (build_ok l Ha) as [h [nt [E _]]]. exists h. split; [exact E|]. exact (built_shape l h Ha E).
Qed.
Print Assumptions comb_build.

(** The trees made by init and group_init are proper, so both properties hold of
    the barrier as it is set up, if the group sizes leave room for the two child
    groups in the unsigned counter. *)
Theorem comb_separated_partial : forall l n grp h ls s log, 1 <= n -> announced l n grp -> (forall i, i < length l -> (nth i l 0 + 2 <= 2 ^ 32)%N) ->
  build l = Some h -> run (step h n grp) init ls = Some (s, log) -> separated n log /\ returns_after_all n log.
Proof. intros l n grp h ls s log Hn Ha Hf E. exact (sep h n _ grp (built_proper l n grp h Hn Ha Hf E) ls s log). Qed.
Print Assumptions comb_separated_partial.

Theorem comb_progress_partial : forall l n grp h ls s log k t, 1 <= n -> announced l n grp -> (forall i, i < length l -> (nth i l 0 + 2 <= 2 ^ 32)%N) ->
  build l = Some h -> run (step h n grp) init ls = Some (s, log) ->
  (forall u, u < n -> k <= enters u log) -> t < n -> leaves t log < k ->
  exists ls' s' log', run (step h n grp) s ls' = Some (s', log') /\ In (Leave t) log' /\ (forall u, ~ In (Enter u) log').
Proof. intros l n grp h ls s log k t Hn Ha Hf E. exact (prog h n _ grp (built_proper l n grp h Hn Ha Hf E) ls s log k t). Qed.
Print Assumptions comb_progress_partial.

(** A group of 2^32 - 1 threads that is given two child groups has its [k] wrap to
    1, and the barrier opens early. *)
Theorem comb_separated_refuted : exists l n grp h ls s log, 1 <= n /\ announced l n grp /\ build l = Some h /\
  run (step h n grp) init ls = Some (s, log) /\ ~ separated n log.
Proof.
  assert (E := N2Nat.id (2 ^ 32 + 2)). set (n := N.to_nat (2 ^ 32 + 2)) in *. clearbody n.
  destruct (big_sep n E) as [ls [s [log [H1 [H2 H3]]]]]. exists bl, n, bgrp, bh, ls, s, log.
  split; [assert (B := big_n n E); lia|].
  split; [exact (big_ann n E)|]. auto.
Qed.
Print Assumptions comb_separated_refuted.

(** Two groups of two and one group of one: threads 0 and 1 in group 1, 2 and 3 in
    group 2, 4 in group 3 below group 1. *)
Definition ex_grp (t : nat) : nat := S (t / 2).
Example comb_ex :
  announced [2; 2; 1]%N 5 ex_grp /\
  match build [2; 2; 1]%N with
  | None => False
  | Some h =>
      kk h 0 = 2%N /\ kk h 1 = 3%N /\ par h 3 = Some 1 /\
      match run (step h 5 ex_grp) init
        ([(0, AEnter); (1, AEnter); (2, AEnter); (3, AEnter); (4, AEnter)] ++
         map (fun t => (t, ATick)) [0; 1; 2; 3; 3; 4; 4; 4] ++ repeat (4, ATick) 9 ++
         [(4, AEnter); (0, ATick); (4, ATick); (1, ATick)]) with
      | Some (s, log) => log = [Enter 0; Enter 1; Enter 2; Enter 3; Enter 4; Leave 4; Enter 4; Leave 0; Leave 1]
      | None => False
      end
  end.
Proof.
  split; [|vm_compute; auto]. constructor.
  - intros t H. do 5 (destruct t; [split; repeat constructor|]). exfalso. do 5 apply Nat.succ_lt_mono in H. inversion H.
  - intros i H. do 3 (destruct i; [reflexivity|]). exfalso. do 3 apply Nat.succ_lt_mono in H. inversion H.
  - intros i H. do 3 (destruct i; [split; [discriminate|reflexivity]|]). exfalso. do 3 apply Nat.succ_lt_mono in H. inversion H.
Qed.
