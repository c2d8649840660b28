(** The predicates of ck_swlock against the positions of the threads. *)
From Coq Require Import Arith List Bool ZArith Lia.
From Verif Require Import Lib LockSpec SwLock_Model SwLock_Proof SwLocked_Model.
Import ListNotations.

Local Transparent tst WBIT LBIT WMASK RMASK.

Section P.
Variable n : nat.
Hypothesis Hn : (Z.of_nat n < 2 ^ 30)%Z.

Definition announced (s : state) : Prop :=
  match thr s 0 with WL2 | WCrit | WD | LT2 | LT3 | LCrit => True | _ => False end.
Definition counted (s : state) (t : nat) : Prop :=
  match thr s t with RCrit | RL3 | RT3 | WD => True | _ => False end.

Lemma cnt_pos : forall f m, (cnt f m > 0)%nat <-> exists t, (t < m)%nat /\ f t = true.
Proof.
  induction m as [|m IH]; simpl.
  - split; [lia|intros [t [H _]]; lia].
  - split.
    + intros H. destruct (f m) eqn:E; [exists m; auto|].
      destruct IH as [IH _]. destruct IH as [t [A B]]; [lia|]. exists t; auto.
    + intros [t [A B]]. destruct (Nat.eq_dec t m) as [->|N].
      * rewrite B. lia.
      * assert (cnt f m > 0)%nat by (apply IH; exists t; split; [lia|exact B]). lia.
Qed.

Lemma lw : forall s, reachable (step n) init s -> (locked_writer s = true <-> announced s).
Proof.
  intros s H. destruct (sw_reach n Hn s H) as [a [[_ [k [Hv Hl]]] _]].
  pose proof (low_range n Hn _ _ _ _ Hl). unfold locked_writer, announced. rewrite Hv, enc_wbit by auto.
  destruct (thr s 0); simpl; split; intros X; try exact I; try reflexivity; try discriminate; exact (False_ind _ X).
Qed.

Lemma rc_counted : forall s t, rc (thr s t) = true <-> counted s t.
Proof.
  intros s t. unfold counted. destruct (thr s t); simpl; split; intros X; try exact I; try reflexivity; try discriminate; exact (False_ind _ X).
Qed.

Lemma lr : forall s, reachable (step n) init s ->
  (forall t, thr s t = RCrit -> locked_reader s = true) /\
  (locked_reader s = true -> (exists t, counted s t) \/ thr s 0 = LCrit).
Proof.
  intros s H. destruct (sw_reach n Hn s H) as [a [[_ [k [Hv Hl]]] [_ Hi]]].
  pose proof (low_range n Hn _ _ _ _ Hl) as Hr. unfold locked_reader, tst. rewrite Hv, enc_rmask by auto.
  unfold low in Hl. split.
  - intros t Ht.
    assert (Hp : (cnt (fun t => rc (thr s t)) n > 0)%nat).
    { apply cnt_pos. exists t. split; [|rewrite Ht; reflexivity].
      destruct (le_lt_dec n t) as [L|L]; [|exact L]. rewrite (Hi t L) in Ht. discriminate. }
    destruct (lat (thr s 0)); [destruct Hl as [X _]; lia|].
    destruct (Z.eqb_spec k 0); [lia|reflexivity].
  - intros X. destruct (lat (thr s 0)) eqn:El.
    + right. destruct (thr s 0); try discriminate. reflexivity.
    + left. destruct (Z.eqb_spec k 0) as [->|N]; [discriminate|].
      assert (Hp : (cnt (fun t => rc (thr s t)) n > 0)%nat) by lia.
      apply cnt_pos in Hp. destruct Hp as [t [_ Ht]]. exists t. apply rc_counted. exact Ht.
Qed.

Lemma lk : forall s, reachable (step n) init s ->
  (locked s = true <-> announced s \/ exists t, counted s t).
Proof.
  intros s H. destruct (sw_reach n Hn s H) as [a [[_ [k [Hv Hl]]] [_ Hi]]].
  pose proof (low_range n Hn _ _ _ _ Hl) as Hr. unfold locked. rewrite Hv.
  pose proof (enc_inj0 (wset (thr s 0)) (lat (thr s 0)) k Hr) as E0.
  assert (Ea : wset (thr s 0) = true <-> announced s).
  { unfold announced. destruct (thr s 0); simpl; split; intros X; try exact I; try reflexivity; try discriminate; exact (False_ind _ X). }
  split.
  - intros X. destruct (Z.eqb_spec (enc (wset (thr s 0)) (lat (thr s 0)) k) 0) as [E|E]; [discriminate|].
    destruct (wset (thr s 0)) eqn:Ew; [left; tauto|right].
    assert (El : lat (thr s 0) = false) by (destruct (thr s 0); auto; discriminate).
    unfold low in Hl. rewrite El in *.
    assert (Hp : (cnt (fun t => rc (thr s t)) n > 0)%nat).
    { destruct (cnt (fun t => rc (thr s t)) n) eqn:Ec; [|lia]. exfalso. apply E. apply E0. auto. }
    apply cnt_pos in Hp. destruct Hp as [t [_ Ht]]. exists t. apply rc_counted. exact Ht.
  - intros X. destruct (Z.eqb_spec (enc (wset (thr s 0)) (lat (thr s 0)) k) 0) as [E|E]; [|reflexivity].
    exfalso. apply E0 in E. destruct E as (Ew & El & Ek). destruct X as [X|[t Ht]].
    + apply Ea in X. congruence.
    + unfold low in Hl. rewrite El in Hl.
      assert (Hp : (cnt (fun t => rc (thr s t)) n > 0)%nat).
      { apply cnt_pos. exists t. split; [|apply rc_counted; exact Ht].
        destruct (le_lt_dec n t) as [L|L]; [|exact L]. unfold counted in Ht. rewrite (Hi t L) in Ht. exact (False_ind _ Ht). }
      lia.
Qed.
End P.

(** reader 1 increments under the latch; the writer is inside, nobody reads *)
Lemma lr_refuted : exists n s, (Z.of_nat n < 2 ^ 30)%Z /\ reachable (step n) init s /\
  (forall t, thr s t <> RCrit /\ ~ counted s t) /\ locked_reader s = true.
Proof.
  destruct (run (step 2) init [(1, ARLock); (1, ATick); (0, ALatch); (0, ATick); (0, ATick); (1, ATick)]) as [[s log]|] eqn:E;
    [|vm_compute in E; discriminate].
  exists 2, s. split; [vm_compute; reflexivity|]. split; [eexists; eexists; exact E|].
  vm_compute in E. injection E as <- _. split; [|vm_compute; reflexivity].
  intros [|[|t]]; split; vm_compute; try discriminate; auto.
Qed.
