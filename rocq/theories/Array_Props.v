(** Properties of ck_array (C07-C09). *)
From Coq Require Import NArith List Bool Arith Permutation.
From Verif Require Import Lib Array_Model Array_Proof.
Import ListNotations.

(** C07: every history runs without undefined behaviour and the final commit
    publishes the abstract multiset; only operations whose allocation was refused
    may have had no effect. *)
Theorem array_commit_publishes : forall cap a os,
  ck_array_init cap true = Some a -> (N.of_nat (length os) < 2 ^ 31)%N ->
  exists a' l M, execs a (os ++ [Commit]) = Some a' /\ visible a' = Some l /\
    spec_run (fun _ => 0) os M /\ forall v, occ l v = M v.
Proof. exact commit_publishes. Qed.
Print Assumptions array_commit_publishes.

(** ... so with a working allocator it is exactly the fold of the operations *)
Theorem array_spec_deterministic : forall M os M', spec_run M os M' ->
  (forall o, In o os -> alloc_ok o = true) -> M' = fold_left effect os M.
Proof. exact spec_run_det. Qed.
Print Assumptions array_spec_deterministic.

(** C09: remove tells the truth in every reachable state *)
Theorem array_remove_reports : forall a v ok, reach a -> exists a' r l,
  ck_array_remove a v ok = Some (a', r) /\ scheduled a = Some l /\
  if r then exists l', scheduled a' = Some l' /\ Permutation l (v :: l') else a' = a /\ (~ In v l \/ ok = false).
Proof. exact remove_reports. Qed.
Print Assumptions array_remove_reports.

(** put and put_unique do when no transaction is open ... *)
Theorem array_put_reports_partial : forall a v ok, reach a -> transaction a = None -> exists a' r l,
  ck_array_put a v ok = Some (a', r) /\ scheduled a = Some l /\
  if r then scheduled a' = Some (l ++ [v]) else ok = false /\ a' = a.
Proof. exact put_reports. Qed.
Print Assumptions array_put_reports_partial.

Theorem array_put_unique_reports_partial : forall a v ok, reach a -> transaction a = None -> exists a' r l,
  ck_array_put_unique a v ok = Some (a', r) /\ scheduled a = Some l /\
  match r with
  | U1 => In v l /\ a' = a
  | U0 => ~ In v l /\ scheduled a' = Some (l ++ [v])
  | Um1 => ~ In v l /\ ok = false /\ a' = a
  end.
Proof. exact putu_reports. Qed.
Print Assumptions array_put_unique_reports_partial.

(** ... and report failure on every success once one is open *)
Theorem array_put_reports_always_false : forall a v, reach a -> transaction a <> None -> exists a' l,
  ck_array_put a v true = Some (a', false) /\ scheduled a = Some l /\ scheduled a' = Some (l ++ [v]).
Proof. exact put_transaction. Qed.
Print Assumptions array_put_reports_always_false.

Theorem array_put_reports_refuted : exists a0 a a' v l,
  ck_array_init 4 true = Some a0 /\ execs a0 [Put 1 true; Commit; Remove 1 true] = Some a /\
  ck_array_put a v true = Some (a', false) /\ scheduled a' = Some l /\ In v l.
Proof.
  eexists _, _, _, 7, [7]. split; [reflexivity|]. split; [reflexivity|]. split; [reflexivity|].
  split; [reflexivity|simpl; auto].
Qed.
Print Assumptions array_put_reports_refuted.

(** C08: only a commit, or a remove issued while additions are pending, changes what readers see *)
Theorem array_isolation_partial : forall a o a' r,
  reach a -> o <> Commit -> ~ leaky a o -> exec a o = Some (a', r) -> visible a' = visible a.
Proof. exact step_visible. Qed.
Print Assumptions array_isolation_partial.

(** after a commit, removals followed by additions stay invisible *)
Theorem array_isolation_histories_partial : forall cap a0 os rs ps,
  ck_array_init cap true = Some a0 -> (N.of_nat (length os + length rs + length ps) < 2 ^ 31)%N ->
  Forall is_remove rs -> Forall is_put ps ->
  exists a a', execs a0 (os ++ [Commit]) = Some a /\ execs a (rs ++ ps) = Some a' /\
    visible a' = visible a /\ visible a <> None.
Proof. exact isolation. Qed.
Print Assumptions array_isolation_histories_partial.

(** an addition followed by a removal does not: element 1 vanishes and element 9
    appears before any commit *)
Theorem array_isolation_refuted : exists a0 a a',
  ck_array_init 4 true = Some a0 /\ execs a0 [Put 1 true; Put 2 true; Commit] = Some a /\
  execs a [Put 9 true; Remove 1 true] = Some a' /\ visible a = Some [1; 2] /\ visible a' = Some [9; 2].
Proof. eexists _, _, _. split; [reflexivity|]. split; [reflexivity|]. split; [reflexivity|]. split; reflexivity. Qed.
Print Assumptions array_isolation_refuted.

(** CK_ARRAY_FOREACH ignores its snapshot: two commits between its bound check
    and its read make it read outside the (new) block ... *)
Theorem array_foreach_bounds_refuted : exists a0 a,
  ck_array_init 4 true = Some a0 /\ execs a0 [Put 1 true; Put 2 true; Put 3 true; Commit] = Some a /\
  (exists r, interleave a reader0 [None; None; None; None; None] = Some r) /\
  (exists a', execs a [Remove 3 true; Remove 2 true; Commit; Remove 1 true; Commit] = Some a') /\
  interleave a reader0 [None; None; None; None; None; Some (Remove 3 true); Some (Remove 2 true); Some Commit; Some (Remove 1 true); Some Commit; None] = None.
Proof.
  eexists _, _. split; [reflexivity|]. split; [reflexivity|]. split; [eexists; reflexivity|]. split; [eexists; reflexivity|reflexivity].
Qed.
Print Assumptions array_foreach_bounds_refuted.

(** ... and one commit makes it deliver a mixture of two published versions *)
Theorem array_foreach_snapshot_refuted : exists a0 a a' r,
  ck_array_init 4 true = Some a0 /\ execs a0 [Put 1 true; Put 2 true; Commit] = Some a /\
  interleave a reader0 [None; None; Some (Remove 1 true); Some (Put 5 true); Some Commit; None; None; None] = Some (a', r) /\
  visible a = Some [1; 2] /\ visible a' = Some [2; 5] /\ done r = true /\ got r = [1; 5].
Proof. eexists _, _, _, _. split; [reflexivity|]. split; [reflexivity|]. split; [reflexivity|]. repeat split. Qed.
Print Assumptions array_foreach_snapshot_refuted.

(** growth, uniqueness, an allocation failure, and two commits *)
Example array_ex :
  match ck_array_init 1 true with
  | None => False
  | Some a0 =>
      match execs a0 [Put 1 true; Put 2 true; PutU 1 true; Put 3 false; Put 3 true; Commit; Remove 2 true; Put 4 true; Put 2 true; Commit] with
      | Some a => visible a = Some [1; 3; 4; 2]
      | None => False
      end
  end.
Proof. vm_compute. reflexivity. Qed.

Example array_reach_ex : exists a, reach a /\ transaction a <> None.
Proof.
  eexists. split.
  - exists 4%N. eexists. exists [Put 1 true; Commit; Remove 1 true]. split; [reflexivity|]. split; reflexivity.
  - discriminate.
Qed.
