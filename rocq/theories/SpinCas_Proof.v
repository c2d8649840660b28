From Coq Require Import Arith List ZArith Bool Lia.
From Verif Require Import Lib LockSpec SpinCas_Model.
Import ListNotations.
Local Open Scope Z_scope.

Ltac exploit_last H := match goal with G : thr _ _ = Crit |- _ => specialize (H _ G); congruence end.

Definition R (s : state) (h : option nat) : Prop :=
  match h with
  | None => value s = 0 /\ forall t, thr s t <> Crit
  | Some u => value s = 1 /\ thr s u = Crit /\ forall t, thr s t = Crit -> t = u
  end.

Lemma R_step : forall s h l s' ev, R s h -> step s l = Some (s', ev) ->
  exists h', accepts lock_step h ev = Some h' /\ R s' h'.
Proof.
  intros s h [t a] s' ev HR H. unfold step in H.
  destruct (thr s t) eqn:Ht, a; try discriminate;
    destruct h as [u|]; simpl in HR;
    repeat match goal with H : _ /\ _ |- _ => destruct H end;
    repeat match goal with H : value s = _ |- _ => rewrite H in * end;
    simpl in H; try discriminate;
    try (assert (t = u) by auto; subst t);
    try (exfalso; match goal with H : forall t, thr s t <> Crit |- _ => apply (H _ Ht) end);
    inversion H; subst; clear H; simpl; rewrite ?Nat.eqb_refl;
    (eexists; split; [reflexivity|]); simpl; unfold goto; simpl;
    repeat split; auto; intros; upd_cases; auto; try congruence;
    try (intro);
    match goal with H : forall t, _ |- _ => exploit_last H end.
Qed.

Lemma R_init : R init None.
Proof. simpl. split; auto. congruence. Qed.

Lemma cas_refines : forall ls s log, run step init ls = Some (s, log) -> lock_legal log.
Proof.
  intros. destruct (run_refines step lock_step R init None R_init R_step _ _ _ H) as [h [? _]].
  exists h; auto.
Qed.

Lemma cas_reach_R : forall s, reachable step init s -> exists h, R s h.
Proof.
  intros s [ls [log H]].
  destruct (run_refines step lock_step R init None R_init R_step _ _ _ H) as [h [_ ?]]. eauto.
Qed.

Lemma free_acquire : forall s t, value s = 0 -> waiting s t = true ->
  exists ls s' log, run step s ls = Some (s', log) /\ In (Acq t) log.
Proof.
  intros. unfold waiting in H0.
  destruct (thr s t) eqn:Ht; try discriminate.
  - exists [(t, ATick)]. simpl. rewrite Ht, H. simpl. eexists _, _. split; [reflexivity|]. simpl; auto.
  - exists [(t, ATick); (t, ATick)]. simpl. rewrite Ht, H. simpl. rewrite upd_same.
    rewrite H. simpl. eexists _, _. split; [reflexivity|]. simpl; auto.
  - exists [(t, ATick)]. simpl. rewrite Ht, H. simpl. eexists _, _. split; [reflexivity|]. simpl; auto.
Qed.

Lemma cas_progress : forall s t, reachable step init s -> waiting s t = true ->
  exists ls s' log, run step s ls = Some (s', log) /\ In (Acq t) log.
Proof.
  intros s t Hr Hw. destruct (cas_reach_R _ Hr) as [[u|] HR]; simpl in HR.
  - destruct HR as [Hv [Hu Hall]].
    assert (Hs : step s (u, AUnlock) = Some (mk 0 (upd (thr s) u Idle), [Rel u])).
    { unfold step. rewrite Hu. auto. }
    destruct (free_acquire (mk 0 (upd (thr s) u Idle)) t) as [ls [s' [log [Hrun Hin]]]]; auto.
    { unfold waiting in *. simpl. unfold upd. destruct (Nat.eq_dec t u); subst; auto.
      rewrite Hu in Hw. discriminate. }
    exists ((u, AUnlock) :: ls), s', ([Rel u] ++ log). split; [eapply run_cons; eauto|]. apply in_or_app; auto.
  - destruct HR. apply free_acquire; auto.
Qed.
