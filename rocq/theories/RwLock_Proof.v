From Coq Require Import Arith List Bool ZArith Lia.
From Verif Require Import Lib LockSpec LockProg RwProg RwLock_Model.
Import ListNotations.
Local Open Scope Z_scope.

Definition rc (p : pc) : bool := match p with RL3 | RL4 | RT3 | RT4 | RCrit | WD => true | _ => false end.
Definition own (p : pc) : bool := match p with WL2 | WT2 | WT3 | WCrit | WD => true | _ => false end.
Definition wcr (p : pc) : bool := match p with WCrit | WD => true | _ => false end.
Definition rcr (p : pc) : bool := match p with RCrit => true | _ => false end.

Section P.
Variable n : nat.
Hypothesis Hn : Z.of_nat n < W.

Record R (s : state) (a : rwst) : Prop := {
  i_nr : nr s = Z.of_nat (cnt (fun t => rc (thr s t)) n);
  i_own1 : forall t u, own (thr s t) = true -> own (thr s u) = true -> t = u;
  i_wr : writer s = true <-> exists t, own (thr s t) = true;
  i_w : forall t, rw_w a = Some t <-> wcr (thr s t) = true;
  i_nd : NoDup (rw_r a);
  i_r : forall t, In t (rw_r a) <-> rcr (thr s t) = true;
  i_x : forall t, rw_w a = Some t -> rw_r a = [];
  i_lt : forall t, (n <= t)%nat -> thr s t = Idle }.

Lemma R_init : R init rw_init.
Proof.
  constructor; simpl; auto; try discriminate.
  - rewrite cnt_all_false; auto.
  - split; [discriminate|]. intros [t Ht]; discriminate.
  - split; discriminate.
  - constructor.
  - split; [tauto|discriminate].
Qed.

Lemma cnt_n_inc : forall thr t p, (t < n)%nat -> rc (thr t) = false -> rc p = true ->
  inc (Z.of_nat (cnt (fun i => rc (thr i)) n)) = Z.of_nat (cnt (fun i => rc (upd thr t p i)) n).
Proof.
  intros thr t p Ht H1 H2. pose proof (cnt_upd _ rc thr n t p Ht) as C. rewrite H1, H2 in C.
  pose proof (cnt_le (fun i => rc (upd thr t p i)) n). unfold inc. rewrite Z.mod_small; lia.
Qed.

Lemma cnt_n_dec : forall thr t p, (t < n)%nat -> rc (thr t) = true -> rc p = false ->
  dec (Z.of_nat (cnt (fun i => rc (thr i)) n)) = Z.of_nat (cnt (fun i => rc (upd thr t p i)) n).
Proof.
  intros thr t p Ht H1 H2. pose proof (cnt_upd _ rc thr n t p Ht) as C. rewrite H1, H2 in C.
  pose proof (cnt_le (fun i => rc (thr i)) n). unfold dec. rewrite Z.mod_small; lia.
Qed.

Lemma cnt_n_same : forall thr t p, (t < n)%nat -> rc (thr t) = rc p ->
  Z.of_nat (cnt (fun i => rc (thr i)) n) = Z.of_nat (cnt (fun i => rc (upd thr t p i)) n).
Proof.
  intros thr t p Ht H1. pose proof (cnt_upd _ rc thr n t p Ht) as C. rewrite H1 in C. f_equal. lia.
Qed.

(** The part of the invariant about the words. *)
Definition words (w : bool) (k : Z) (thr : nat -> pc) : Prop :=
  k = Z.of_nat (cnt (fun t => rc (thr t)) n) /\
  (forall t u, own (thr t) = true -> own (thr u) = true -> t = u) /\
  (w = true <-> exists t, own (thr t) = true).

Lemma own_same : forall (w : bool) thr t p,
  (forall t u, own (thr t) = true -> own (thr u) = true -> t = u) ->
  (w = true <-> exists t, own (thr t) = true) -> own (thr t) = own p ->
  (forall x y, own (upd thr t p x) = true -> own (upd thr t p y) = true -> x = y) /\
  (w = true <-> exists x, own (upd thr t p x) = true).
Proof.
  intros w thr t p H1 H2 H3.
  assert (E : forall x, own (upd thr t p x) = own (thr x)) by (intros; upd_goal; subst; auto).
  split; [intros x y; rewrite !E; auto|].
  rewrite H2. split; intros [x Hx]; exists x; [rewrite E|rewrite E in Hx]; auto.
Qed.

Lemma own_take : forall thr t p,
  ~ (exists t, own (thr t) = true) -> own p = true ->
  (forall x y, own (upd thr t p x) = true -> own (upd thr t p y) = true -> x = y) /\
  (true = true <-> exists x, own (upd thr t p x) = true).
Proof.
  intros thr t p H1 H2. split.
  - intros x y. upd_goal; intros; subst; auto; exfalso; eauto.
  - split; auto. exists t. rewrite upd_same; auto.
Qed.

Lemma own_drop : forall thr t p,
  (forall t u, own (thr t) = true -> own (thr u) = true -> t = u) -> own (thr t) = true -> own p = false ->
  (forall x y, own (upd thr t p x) = true -> own (upd thr t p y) = true -> x = y) /\
  (false = true <-> exists x, own (upd thr t p x) = true).
Proof.
  intros thr t p H1 H2 H3. split.
  - intros x y. upd_goal; intros; subst; auto; congruence.
  - split; [discriminate|]. intros [x Hx]. revert Hx. upd_goal; [congruence|]. intros Hx. exfalso. apply n0. eauto.
Qed.

Notation abs := (rabs wcr rcr).

Lemma R_split : forall s a, R s a <-> words (writer s) (nr s) (thr s) /\ abs a (thr s) /\ (forall t, (n <= t)%nat -> thr s t = Idle).
Proof.
  split.
  - intros []. unfold words, rabs. auto 10.
  - intros [[? [? ?]] [[? [? [? ?]]] ?]]. constructor; auto.
Qed.

Lemma R_step : forall s a l s' ev, R s a -> step n s l = Some (s', ev) ->
  exists a', accepts rw_step a ev = Some a' /\ R s' a'.
Proof.
  intros s a [t x] s' ev HR H. unfold step in H.
  destruct (Nat.ltb t n) eqn:Hlt; [|discriminate]. apply Nat.ltb_lt in Hlt. simpl in H.
  pose proof (i_lt _ _ HR) as Hge.
  assert (Hlt' : forall p u, (n <= u)%nat -> upd (thr s) t p u = Idle).
  { intros. rewrite upd_other by lia. auto. }
  apply R_split in HR. destruct HR as [[Hk [Ho Hw]] [Ha _]].
  assert (Hwu : forall u, wcr (thr s t) = true -> wcr (thr s u) = true -> u = t).
  { intros u H1 H2. apply Ho; destruct (thr s u), (thr s t); simpl in *; congruence. }
  assert (Hnw : writer s = false -> forall u, wcr (thr s u) = false).
  { intros E u. destruct (wcr (thr s u)) eqn:Eu; auto. exfalso. assert (writer s = true); [|congruence].
    apply Hw. exists u. destruct (thr s u); simpl in *; congruence. }
  assert (Hnr : nr s = 0 -> forall u, rcr (thr s u) = false).
  { intros E u. destruct (rcr (thr s u)) eqn:Eu; auto. exfalso.
    assert (u < n)%nat. { destruct (Nat.lt_ge_cases u n); auto. rewrite Hge in Eu by auto. discriminate. }
    pose proof (cnt_pos (fun t => rc (thr s t)) n u H0). assert (rc (thr s u) = true) by (destruct (thr s u); simpl in *; congruence).
    specialize (H1 H2). lia. }
  assert (Hkeep : forall w' k' p, words w' k' (upd (thr s) t p) -> wcr (thr s t) = wcr p -> rcr (thr s t) = rcr p ->
            exists a', accepts rw_step a [] = Some a' /\ R (mk w' k' (upd (thr s) t p)) a').
  { intros w' k' p Hws E1 E2. exists a. split; [reflexivity|]. apply R_split. simpl. split; auto. split; auto. apply abs_same; auto. }
  assert (Hsame : forall p, rc (thr s t) = rc p -> own (thr s t) = own p -> words (writer s) (nr s) (upd (thr s) t p)).
  { intros p E1 E2. destruct (own_same (writer s) (thr s) t p Ho Hw E2). split; auto. rewrite Hk. apply cnt_n_same; auto. }
  assert (Hincw : forall p, rc (thr s t) = false -> rc p = true -> own (thr s t) = own p -> words (writer s) (inc (nr s)) (upd (thr s) t p)).
  { intros p E1 E2 E3. destruct (own_same (writer s) (thr s) t p Ho Hw E3). split; auto. rewrite Hk. apply cnt_n_inc; auto. }
  assert (Hdecw : forall p, rc (thr s t) = true -> rc p = false -> own (thr s t) = own p -> words (writer s) (dec (nr s)) (upd (thr s) t p)).
  { intros p E1 E2 E3. destruct (own_same (writer s) (thr s) t p Ho Hw E3). split; auto. rewrite Hk. apply cnt_n_dec; auto. }
  assert (Htake : forall p, writer s = false -> rc (thr s t) = rc p -> own p = true -> words true (nr s) (upd (thr s) t p)).
  { intros p E1 E2 E3. destruct (own_take (thr s) t p) as [? ?]; auto.
    - rewrite <- Hw. congruence.
    - split; auto. rewrite Hk. apply cnt_n_same; auto. }
  assert (Hdrop : forall p, own (thr s t) = true -> rc (thr s t) = rc p -> own p = false -> words false (nr s) (upd (thr s) t p)).
  { intros p E1 E2 E3. destruct (own_drop (thr s) t p Ho E1 E3). split; auto. rewrite Hk. apply cnt_n_same; auto. }
  assert (Hfail : forall w' k' p e, words w' k' (upd (thr s) t p) -> wcr (thr s t) = wcr p -> rcr (thr s t) = rcr p ->
            (e = WTryFail t \/ e = RTryFail t) ->
            exists a', accepts rw_step a [e] = Some a' /\ R (mk w' k' (upd (thr s) t p)) a').
  { intros w' k' p e Hws E1 E2 He. exists a. split; [destruct He; subst; reflexivity|]. apply R_split. simpl. split; auto. split; auto. apply abs_same; auto. }
  assert (Hfin : forall w' k' p e, words w' k' (upd (thr s) t p) ->
      (exists a', accepts rw_step a e = Some a' /\ abs a' (upd (thr s) t p)) ->
      exists a', accepts rw_step a e = Some a' /\ R (mk w' k' (upd (thr s) t p)) a').
  { intros w' k' p e Hws [a' [H1 H2]]. exists a'. split; auto. apply R_split. simpl. auto. }
  assert (Hown_w : own (thr s t) = true -> wcr (thr s t) = false -> forall u, wcr (thr s u) = false).
  { intros E1 E2 u. destruct (wcr (thr s u)) eqn:Eu; auto. exfalso.
    assert (u = t) by (apply Ho; auto; destruct (thr s u); simpl in *; congruence). subst. congruence. }
  unfold go in H.
  destruct (thr s t) eqn:Et; destruct x; try discriminate;
    try (destruct (writer s) eqn:Ew); try (destruct (Z.eqb (nr s) 0) eqn:Ez; [apply Z.eqb_eq in Ez|]);
    injection H as <- <-;
    try (apply Hkeep; simpl; auto; fail);
    try (apply Hfail; simpl; auto; fail).
  all: apply Hfin; auto.
  all: try (apply abs_wacq; auto; fail).
  all: try (apply abs_wrel; auto; try (intros; apply Hwu; auto); rewrite ?Et; auto; fail).
  all: try (apply abs_down; auto; try (intros; apply Hwu; auto); rewrite ?Et; auto; fail).
  all: try (apply abs_racq; auto; try (intros; apply Hwu; auto); rewrite ?Et; auto; fail).
  all: try (apply abs_rrel; auto; try (intros; apply Hwu; auto); rewrite ?Et; auto; fail).
Qed.

Lemma rw_refines : forall ls s log, run (step n) init ls = Some (s, log) -> rw_legal log.
Proof.
  intros ls s log H. destruct (sim_run _ _ _ _ (step n) rw_step R R_step _ _ _ _ _ R_init H) as [a [Ha _]].
  exists a. auto.
Qed.

Lemma rw_reach : forall s, reachable (step n) init s -> exists a, R s a.
Proof.
  intros s [ls [log H]]. destruct (sim_run _ _ _ _ (step n) rw_step R R_step _ _ _ _ _ R_init H) as [a [_ Ha]].
  exists a. auto.
Qed.

(** Progress *)
Definition wt (p : pc) : nat :=
  match p with
  | RL4 | RT4 | RCrit | WCrit | WT3 => 1
  | RL3 | RT3 | WD | WT2 | WL2 => 2
  | _ => 0
  end%nat.

Definition waits (p : pc) : bool := match p with WL1 | WL2 | RL1 | RL2 | RL3 | RL4 => true | _ => false end.
Definition acqev (p : pc) (t : nat) : rwev := match p with WL1 | WL2 => WAcq t | _ => RAcq t end.

Lemma rw_progress_gen : forall e t m s,
  (exists a, R s a /\ waits (thr s t) = true /\ acqev (thr s t) t = e /\ m = wsum (fun i => wt (thr s i)) n) ->
  exists ls s' log, run (step n) s ls = Some (s', log) /\ In e log.
Proof.
  intros e t. apply (run_reach_ev _ _ _ (step n) e).
  intros s m [a [HR [Hwt [He Hm]]]].
  assert (Hltt : (t < n)%nat).
  { destruct (Nat.lt_ge_cases t n); auto. rewrite (i_lt _ _ HR) in Hwt by auto. discriminate. }
  assert (Hnt : negb (Nat.ltb t n) = false) by (apply negb_false_iff, Nat.ltb_lt; auto).
  assert (Hmove : forall u x p w' k' ev, (u < n)%nat -> step n s (u, x) = Some (mk w' k' (upd (thr s) u p), ev) ->
     (u = t -> waits p = true /\ acqev p t = acqev (thr s t) t) -> (wt p < wt (thr s u))%nat ->
     exists l s' ev m', step n s l = Some (s', ev) /\ (m' < m)%nat /\
       exists a, R s' a /\ waits (thr s' t) = true /\ acqev (thr s' t) t = e /\ m' = wsum (fun i => wt (thr s' i)) n).
  { intros u x p w' k' ev Hu Hs Ht Hd. destruct (R_step _ _ _ _ _ HR Hs) as [a' [_ HR']].
    exists (u, x), (mk w' k' (upd (thr s) u p)), ev, (wsum (fun i => wt (upd (thr s) u p i)) n). split; auto. split.
    - subst m. apply wsum_drop; auto.
    - exists a'. split; auto. simpl. destruct (Nat.eq_dec t u).
      + subst u. destruct Ht as [H1 H2]; auto. rewrite upd_same. repeat split; auto. congruence.
      + rewrite upd_other by auto. auto. }
  destruct (Nat.eq_dec (cnt (fun t => rc (thr s t)) n) 0) as [Hz|Hz].
  - assert (Hnr : nr s = 0) by (rewrite (i_nr _ _ HR), Hz; auto).
    assert (Hnrc : forall u, (u < n)%nat -> rc (thr s u) = false) by (intros u Hu; apply (cnt_zero _ _ Hz u Hu)).
    destruct (writer s) eqn:Ew.
    + assert (Ho : exists u, own (thr s u) = true) by (apply (i_wr _ _ HR); auto). destruct Ho as [u Ho].
      assert (Hu : (u < n)%nat). { destruct (Nat.lt_ge_cases u n); auto. rewrite (i_lt _ _ HR) in Ho by auto. discriminate. }
      assert (Hnu : negb (Nat.ltb u n) = false) by (apply negb_false_iff, Nat.ltb_lt; auto).
      destruct (Nat.eq_dec u t).
      * subst u. left. destruct (thr s t) eqn:Et; try discriminate. simpl in He. subst e.
        exists [(t, ATick)], (go s t WCrit), [WAcq t]. split; [|simpl; auto]. apply run_last.
        unfold step. rewrite Hnt, Et, Hnr. reflexivity.
      * right. pose proof (Hnrc u Hu) as Hru.
        destruct (thr s u) eqn:Eu; try discriminate.
        -- eapply (Hmove u ATick WCrit); auto; [unfold step; rewrite Hnu, Eu, Hnr; reflexivity|congruence|rewrite Eu; simpl; lia].
        -- eapply (Hmove u ATick WCrit); auto; [unfold step; rewrite Hnu, Eu, Hnr; reflexivity|congruence|rewrite Eu; simpl; lia].
        -- eapply (Hmove u ATick Idle); auto; [unfold step; rewrite Hnu, Eu; reflexivity|congruence|rewrite Eu; simpl; lia].
        -- eapply (Hmove u AWUnlock Idle); auto; [unfold step; rewrite Hnu, Eu; reflexivity|congruence|rewrite Eu; simpl; lia].
    + left. pose proof (Hnrc t Hltt) as Hrt.
      assert (Hno : own (thr s t) = false).
      { destruct (own (thr s t)) eqn:Eo; auto. assert (writer s = true) by (apply (i_wr _ _ HR); eauto). congruence. }
      destruct (thr s t) eqn:Et; try discriminate; simpl in He; subst e.
      * eexists [(t, ATick); (t, ATick)], _, [WAcq t]. split; [|simpl; auto].
        eapply run1; [unfold step; rewrite Hnt, Et, Ew; reflexivity|].
        apply run_last. unfold step. rewrite Hnt. simpl. rewrite upd_same, Hnr. reflexivity.
      * eexists [(t, ATick); (t, ATick); (t, ATick)], _, [RAcq t]. split; [|simpl; auto].
        eapply run1; [unfold step; rewrite Hnt, Et, Ew; reflexivity|].
        eapply run1; [unfold step; rewrite Hnt; simpl; rewrite upd_same; reflexivity|].
        apply run_last. unfold step. rewrite Hnt. simpl. rewrite upd_same, Ew. reflexivity.
      * eexists [(t, ATick); (t, ATick)], _, [RAcq t]. split; [|simpl; auto].
        eapply run1; [unfold step; rewrite Hnt, Et; reflexivity|].
        apply run_last. unfold step. rewrite Hnt. simpl. rewrite upd_same, Ew. reflexivity.
  - destruct (cnt_exists (fun t => rc (thr s t)) n) as [u [Hu Hru]]; [lia|].
    assert (Hnu : negb (Nat.ltb u n) = false) by (apply negb_false_iff, Nat.ltb_lt; auto).
    destruct (thr s u) eqn:Eu; try discriminate.
    + right. eapply (Hmove u ATick RCrit); auto; [unfold step; rewrite Hnu, Eu; reflexivity| |rewrite Eu; simpl; lia].
      intros; subst. rewrite Eu in Hwt. discriminate.
    + destruct (writer s) eqn:Ew.
      * right. eapply (Hmove u ATick RL4); auto; [unfold step; rewrite Hnu, Eu, Ew; reflexivity| |rewrite Eu; simpl; lia].
        intros; subst. rewrite Eu. auto.
      * destruct (Nat.eq_dec u t).
        -- subst u. left. rewrite Eu in He. simpl in He. subst e.
           eexists [(t, ATick)], _, [RAcq t]. split; [|simpl; auto].
           apply run_last. unfold step. rewrite Hnt, Eu, Ew. reflexivity.
        -- right. eapply (Hmove u ATick RCrit); auto; [unfold step; rewrite Hnu, Eu, Ew; reflexivity|congruence|rewrite Eu; simpl; lia].
    + right. eapply (Hmove u ATick RL1); auto; [unfold step; rewrite Hnu, Eu; reflexivity| |rewrite Eu; simpl; lia].
      intros; subst. rewrite Eu. auto.
    + right. destruct (writer s) eqn:Ew.
      * eapply (Hmove u ATick RT4); auto; [unfold step; rewrite Hnu, Eu, Ew; reflexivity| |rewrite Eu; simpl; lia].
        intros; subst. rewrite Eu in Hwt. discriminate.
      * eapply (Hmove u ATick RCrit); auto; [unfold step; rewrite Hnu, Eu, Ew; reflexivity| |rewrite Eu; simpl; lia].
        intros; subst. rewrite Eu in Hwt. discriminate.
    + right. eapply (Hmove u ATick Idle); auto; [unfold step; rewrite Hnu, Eu; reflexivity| |rewrite Eu; simpl; lia].
      intros; subst. rewrite Eu in Hwt. discriminate.
    + right. eapply (Hmove u ARUnlock Idle); auto; [unfold step; rewrite Hnu, Eu; reflexivity| |rewrite Eu; simpl; lia].
      intros; subst. rewrite Eu in Hwt. discriminate.
Qed.

Lemma rw_progress_w : forall s, reachable (step n) init s -> forall t, waiting_w s t = true ->
  exists ls s' log, run (step n) s ls = Some (s', log) /\ In (WAcq t) log.
Proof.
  intros s Hre t Hw. destruct (rw_reach _ Hre) as [a HR].
  apply (rw_progress_gen (WAcq t) t (wsum (fun i => wt (thr s i)) n) s). exists a. split; [eassumption|]. unfold waiting_w in Hw.
  destruct (thr s t); try discriminate; repeat split; auto.
Qed.

Lemma rw_progress_r : forall s, reachable (step n) init s -> forall t, waiting_r s t = true ->
  exists ls s' log, run (step n) s ls = Some (s', log) /\ In (RAcq t) log.
Proof.
  intros s Hre t Hw. destruct (rw_reach _ Hre) as [a HR].
  apply (rw_progress_gen (RAcq t) t (wsum (fun i => wt (thr s i)) n) s). exists a. split; [eassumption|]. unfold waiting_r in Hw.
  destruct (thr s t); try discriminate; repeat split; auto.
Qed.
End P.
