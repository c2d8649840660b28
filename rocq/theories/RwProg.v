(** Reader-writer automaton bookkeeping shared by the reader-writer lock proofs
    (proof infrastructure, no model). *)
From Coq Require Import Arith List Lia Bool.
From Verif Require Import Lib LockSpec LockProg.
Import ListNotations.

Section Abs.
Context {P : Type}.
Variables (wcr rcr : P -> bool).

(** The abstract part. *)
Definition rabs (a : rwst) (thr : nat -> P) : Prop :=
  (forall t, rw_w a = Some t <-> wcr (thr t) = true) /\ NoDup (rw_r a) /\
  (forall t, In t (rw_r a) <-> rcr (thr t) = true) /\ (forall t, rw_w a = Some t -> rw_r a = []).

Lemma abs_same : forall a thr t p, rabs a thr -> wcr (thr t) = wcr p -> rcr (thr t) = rcr p -> rabs a (upd thr t p).
Proof.
  intros a thr t p [H1 [H2 [H3 H4]]] E1 E2.
  assert (W1 : forall x, wcr (upd thr t p x) = wcr (thr x)) by (intros; upd_goal; subst; auto).
  assert (W2 : forall x, rcr (upd thr t p x) = rcr (thr x)) by (intros; upd_goal; subst; auto).
  split; [intros x; rewrite W1; auto|]. split; auto. split; auto. intros x; rewrite W2; auto.
Qed.

Lemma abs_wacq : forall a thr t p, rabs a thr -> (forall x, rcr (thr x) = false) -> (forall x, wcr (thr x) = false) ->
  wcr p = true -> rcr p = false ->
  exists a', accepts rw_step a [WAcq t] = Some a' /\ rabs a' (upd thr t p).
Proof.
  intros a thr t p [H1 [H2 [H3 H4]]] Hr Hw E1 E2.
  assert (rw_w a = None). { destruct (rw_w a) as [u|] eqn:E; auto. assert (wcr (thr u) = true) by (apply H1; auto). rewrite Hw in H. discriminate. }
  assert (rw_r a = []). { destruct (rw_r a) as [|u l] eqn:E; auto. assert (rcr (thr u) = true) by (apply H3; simpl; auto). rewrite Hr in H0. discriminate. }
  exists {| rw_w := Some t; rw_r := [] |}. split; [simpl; rewrite H, H0; reflexivity|].
  split; [|split; [constructor|split; [|auto]]]; simpl.
  - intros x. upd_goal; subst; [split; auto|]. rewrite Hw. split; [congruence|discriminate].
  - intros x. upd_goal; [rewrite E2|rewrite Hr]; split; try tauto; discriminate.
Qed.

Lemma abs_wrel : forall a thr t p, rabs a thr -> (forall u, wcr (thr u) = true -> u = t) -> wcr (thr t) = true ->
  wcr p = false -> rcr p = false ->
  exists a', accepts rw_step a [WRel t] = Some a' /\ rabs a' (upd thr t p).
Proof.
  intros a thr t p [H1 [H2 [H3 H4]]] Hu Ht E1 E2.
  assert (Hw : rw_w a = Some t) by (apply H1; auto).
  assert (Hr : rw_r a = []) by eauto.
  exists {| rw_w := None; rw_r := rw_r a |}. split; [simpl; rewrite Hw, Nat.eqb_refl; reflexivity|].
  rewrite Hr in *. split; [|split; [constructor|split; [|auto]]]; simpl; try discriminate.
  - intros x. upd_goal; subst; [rewrite E1; split; discriminate|]. split; [discriminate|]. intros Hx. exfalso; auto.
  - intros x. upd_goal; [rewrite E2; split; [tauto|discriminate]|]. rewrite <- H3. simpl. tauto.
Qed.

Lemma abs_down : forall a thr t p, rabs a thr -> (forall u, wcr (thr u) = true -> u = t) -> wcr (thr t) = true ->
  wcr p = false -> rcr p = true ->
  exists a', accepts rw_step a [Down t] = Some a' /\ rabs a' (upd thr t p).
Proof.
  intros a thr t p [H1 [H2 [H3 H4]]] Hu Ht E1 E2.
  assert (Hw : rw_w a = Some t) by (apply H1; auto).
  assert (Hr : rw_r a = []) by eauto.
  exists {| rw_w := None; rw_r := t :: rw_r a |}. split; [simpl; rewrite Hw, Nat.eqb_refl; reflexivity|].
  rewrite Hr in *. split; [|split; [|split; [|discriminate]]]; simpl.
  - intros x. upd_goal; subst; [rewrite E1; split; discriminate|]. split; [discriminate|]. intros Hx. exfalso; auto.
  - constructor; auto.
  - intros x. upd_goal; [subst; rewrite E2; split; auto|]. rewrite <- H3. simpl. split; [intros [?|?]; congruence|tauto].
Qed.

Lemma abs_racq : forall a thr t p, rabs a thr -> (forall u, wcr (thr u) = false) -> rcr (thr t) = false ->
  wcr p = false -> rcr p = true ->
  exists a', accepts rw_step a [RAcq t] = Some a' /\ rabs a' (upd thr t p).
Proof.
  intros a thr t p [H1 [H2 [H3 H4]]] Hw Ht E1 E2.
  assert (HN : rw_w a = None). { destruct (rw_w a) as [u|] eqn:E; auto. assert (wcr (thr u) = true) by (apply H1; auto). rewrite Hw in H. discriminate. }
  exists {| rw_w := None; rw_r := t :: rw_r a |}. split; [simpl; rewrite HN; reflexivity|].
  split; [|split; [|split; [|discriminate]]]; simpl.
  - intros x. upd_goal; subst; [rewrite E1|rewrite Hw]; split; discriminate.
  - constructor; auto. rewrite H3, Ht. discriminate.
  - intros x. upd_goal; [subst; rewrite E2; split; auto|]. rewrite <- H3. split; [intros [?|?]; congruence|tauto].
Qed.

Lemma abs_rrel : forall a thr t p, rabs a thr -> rcr (thr t) = true -> wcr (thr t) = false ->
  wcr p = false -> rcr p = false ->
  exists a', accepts rw_step a [RRel t] = Some a' /\ rabs a' (upd thr t p).
Proof.
  intros a thr t p [H1 [H2 [H3 H4]]] Ht Htw E1 E2.
  assert (Hin : In t (rw_r a)) by (apply H3; auto).
  destruct (remove1_in _ _ Hin) as [l' Hl']. destruct (remove1_nodup _ _ _ Hl' H2) as [Hnd Hi].
  exists {| rw_w := rw_w a; rw_r := l' |}. split; [simpl; rewrite Hl'; reflexivity|].
  split; [|split; [auto|split]]; simpl.
  - intros x. upd_goal; [subst; rewrite E1; rewrite H1, Htw; split; discriminate|auto].
  - intros x. rewrite Hi. upd_goal; [subst; rewrite E2; split; [tauto|discriminate]|]. rewrite H3. tauto.
  - intros x Hx. rewrite (H4 _ Hx) in Hin. destruct Hin.
Qed.

End Abs.
