From Coq Require Import Arith List Bool ZArith Lia.
From Verif Require Import Lib LockSpec LockProg RwProg RwLockRec_Model.
Import ListNotations.
Local Open Scope Z_scope.

Definition rc (p : pc) : bool := match p with RL3 | RL4 | RT3 | RT4 | RCrit => true | _ => false end.
Definition wcr (p : pc) : bool :=
  match p with WCrit | WL0 true | WL3 true | WT0 true | WT4 true | U1 | U2 => true | _ => false end.
Definition own (p : pc) : bool :=
  match p with WL2 false | WL3 false | WT2 false | WT3 false | WT4 false => true | _ => wcr p end.
Definition rcr (p : pc) : bool := match p with RCrit => true | _ => false end.
(** program points never reached while already holding *)
Definition badp (p : pc) : bool :=
  match p with WL1 true | WL2 true | WT1 true | WT2 true | WT3 true => true | _ => false end.

(** admitted writer that has not yet incremented the depth *)
Definition wx (p : pc) : bool := match p with WL3 false | WT4 false => true | _ => false end.

Section P.
Variable n : nat.
Hypothesis Hn : Z.of_nat n < W.

Definition words (w : nat) (k : Z) (thr : nat -> pc) : Prop :=
  k = Z.of_nat (cnt (fun t => rc (thr t)) n) /\
  (forall t, own (thr t) = true <-> w = S t).

(** nesting depth kept in [wc] *)
Definition depth (c : Z) (x : rwst * nat) (thr : nat -> pc) : Prop :=
  match rw_w (fst x) with
  | None => c = 0 /\ snd x = O
  | Some t => (thr t = U2 /\ snd x = 1%nat /\ c = 0) \/
      (thr t <> U2 /\ c = Z.of_nat (snd x) /\ (0 < snd x)%nat /\ c < W /\
         (forall b, (thr t = WL0 b \/ thr t = WL3 b \/ thr t = WT0 b \/ thr t = WT4 b) -> c + 1 < W))
  end.

Notation abs := (rabs wcr rcr).

Definition R (s : state) (x : rwst * nat) : Prop :=
  words (writer s) (nr s) (thr s) /\ abs (fst x) (thr s) /\ depth (wc s) x (thr s) /\
  (forall t, badp (thr s t) = false) /\ (forall t u, wx (thr s t) = true -> rcr (thr s u) = false) /\ (forall t, (n <= t)%nat -> thr s t = Idle).

Lemma R_init : R init (rw_init, O).
Proof.
  split; [|split; [|split; [|split; [|split]]]]; auto; try discriminate.
  - split; [simpl; rewrite cnt_all_false; auto|]. intros; simpl; split; discriminate.
  - repeat split; simpl; auto; try discriminate; try tauto. constructor.
  - simpl. unfold depth. simpl. auto.
Qed.

Lemma cnt_n_inc : forall thr t p, (t < n)%nat -> rc (thr t) = false -> rc p = true ->
  inc (Z.of_nat (cnt (fun i => rc (thr i)) n)) = Z.of_nat (cnt (fun i => rc (upd thr t p i)) n).
Proof.
  intros thr t p Ht H1 H2. pose proof (cnt_upd _ rc thr n t p Ht) as C. rewrite H1, H2 in C.
  pose proof (cnt_le (fun i => rc (upd thr t p i)) n). unfold inc. rewrite Z.mod_small; lia.
Qed.

Lemma cnt_n_dec : forall thr t p, (t < n)%nat -> rc (thr t) = true -> rc p = false ->
  dec (Z.of_nat (cnt (fun i => rc (thr i)) n)) = Z.of_nat (cnt (fun i => rc (upd thr t p i)) n).
Proof.
  intros thr t p Ht H1 H2. pose proof (cnt_upd _ rc thr n t p Ht) as C. rewrite H1, H2 in C.
  pose proof (cnt_le (fun i => rc (thr i)) n). unfold dec. rewrite Z.mod_small; lia.
Qed.

Lemma cnt_n_same : forall thr t p, (t < n)%nat -> rc (thr t) = rc p ->
  Z.of_nat (cnt (fun i => rc (thr i)) n) = Z.of_nat (cnt (fun i => rc (upd thr t p i)) n).
Proof.
  intros thr t p Ht H1. pose proof (cnt_upd _ rc thr n t p Ht) as C. rewrite H1 in C. f_equal. lia.
Qed.

Lemma own_same : forall (w : nat) thr t p, (forall t, own (thr t) = true <-> w = S t) -> own (thr t) = own p ->
  forall x, own (upd thr t p x) = true <-> w = S x.
Proof. intros w thr t p H1 H2 x. upd_goal; subst; auto. rewrite <- H2. auto. Qed.

Lemma own_take : forall thr t p, (forall t, own (thr t) = true <-> O = S t) -> own p = true ->
  forall x, own (upd thr t p x) = true <-> S t = S x.
Proof.
  intros thr t p H1 H2 x. upd_goal; [subst; tauto|]. rewrite H1. split; [discriminate|]. intros; congruence.
Qed.

Lemma own_drop : forall (w : nat) thr t p, (forall t, own (thr t) = true <-> w = S t) -> own (thr t) = true -> own p = false ->
  forall x, own (upd thr t p x) = true <-> O = S x.
Proof.
  intros w thr t p H1 H2 H3 x. upd_goal; [subst; rewrite H3; split; discriminate|]. rewrite H1.
  apply H1 in H2. split; [|discriminate]. intros; congruence.
Qed.

Lemma depth_other : forall c x thr t p, depth c x thr -> rw_w (fst x) <> Some t -> depth c x (upd thr t p).
Proof.
  intros c x thr t p H Hne. unfold depth in *. destruct (rw_w (fst x)) as [u|]; auto.
  rewrite upd_other by congruence. auto.
Qed.

Lemma rec_rw : forall a d e a', (forall t, e <> WAcq t) -> (forall t, e <> WRel t) ->
  accepts rw_step a [e] = Some a' -> accepts rec_step (a, d) [e] = Some (a', d).
Proof.
  intros a d e a' H1 H2 H. simpl in *. destruct e; try (exfalso; eapply H1; reflexivity); try (exfalso; eapply H2; reflexivity);
  destruct (rw_step a _) eqn:E; try discriminate; inversion H; subst; cbn [rec_step]; rewrite ?E; auto.
Qed.

Lemma R_step : forall s x l s' ev, R s x -> step n s l = Some (s', ev) ->
  exists x', accepts rec_step x ev = Some x' /\ R s' x'.
Proof.
  intros s [a d] [t y] s' ev HR H. unfold step in H.
  destruct (Nat.ltb t n) eqn:Hlt; [|discriminate]. apply Nat.ltb_lt in Hlt. simpl in H.
  destruct HR as [[Hk Ho] [Ha [Hd [Hb [Hx Hge]]]]]. cbn [fst] in *.
  assert (Hlt' : forall p u, (n <= u)%nat -> upd (thr s) t p u = Idle).
  { intros. rewrite upd_other by lia. auto. }
  assert (Hb' : forall p, badp p = false -> forall u, badp (upd (thr s) t p u) = false).
  { intros p Hp u. upd_goal; auto. }
  pose proof (Hb t) as Hbt.
  assert (Hx1 : forall p, wx p = false -> (rcr p = true -> writer s = O \/ rcr (thr s t) = true) ->
     forall u v, wx (upd (thr s) t p u) = true -> rcr (upd (thr s) t p v) = false).
  { intros p E1 E2 u v. unfold upd. destruct (Nat.eq_dec u t); [congruence|]. intros Hu.
    destruct (Nat.eq_dec v t); [|eauto]. destruct (rcr p) eqn:Ep; auto. exfalso.
    destruct (E2 eq_refl) as [Ez|Ez]; [|rewrite (Hx u t Hu) in Ez; discriminate].
    assert (own (thr s u) = true) by (destruct (thr s u) as [| [] | [] | [] | [] | [] | [] | [] | [] | [] | | | | | | | | | | | | ]; simpl in *; congruence).
    apply Ho in H0. congruence. }
  assert (Hx2 : forall p, rcr p = false -> (forall u, rcr (thr s u) = false) ->
     forall u v, wx (upd (thr s) t p u) = true -> rcr (upd (thr s) t p v) = false).
  { intros p E1 E2 u v _. upd_goal; auto. }
  assert (How : forall u, wcr (thr s u) = true -> own (thr s u) = true).
  { intros u Hu. destruct (thr s u) as [| [] | [] | [] | [] | [] | [] | [] | [] | [] | | | | | | | | | | | | ]; simpl in *; congruence. }
  assert (Hwu : wcr (thr s t) = true -> forall u, wcr (thr s u) = true -> u = t).
  { intros H1 u H2. apply How in H1. apply How in H2. apply Ho in H1. apply Ho in H2. congruence. }
  assert (Hnw : writer s = O -> forall u, wcr (thr s u) = false).
  { intros E u. destruct (wcr (thr s u)) eqn:Eu; auto. exfalso. apply How in Eu. apply Ho in Eu. congruence. }
  assert (Hnr : nr s = 0 -> forall u, rcr (thr s u) = false).
  { intros E u. destruct (rcr (thr s u)) eqn:Eu; auto. exfalso.
    assert (u < n)%nat. { destruct (Nat.lt_ge_cases u n); auto. rewrite Hge in Eu by auto. discriminate. }
    pose proof (cnt_pos (fun t => rc (thr s t)) n u H0). assert (rc (thr s u) = true) by (destruct (thr s u); simpl in *; congruence).
    specialize (H1 H2). lia. }
  assert (Hown_w : own (thr s t) = true -> wcr (thr s t) = false -> forall u, wcr (thr s u) = false).
  { intros E1 E2 u. destruct (wcr (thr s u)) eqn:Eu; auto. exfalso.
    pose proof (How _ Eu) as Eo. apply Ho in Eo. apply Ho in E1. assert (u = t) by congruence. subst. congruence. }
  assert (Hwnone : (forall u, wcr (thr s u) = false) -> rw_w a = None).
  { intros Hxx. destruct (rw_w a) as [u|] eqn:E; auto. assert (wcr (thr s u) = true) by (apply (proj1 Ha); auto). rewrite Hxx in H0. discriminate. }
  assert (Hwsome : wcr (thr s t) = true -> rw_w a = Some t) by (intros; apply (proj1 Ha); auto).
  assert (Hwother : wcr (thr s t) = false -> rw_w a <> Some t).
  { intros E E'. apply (proj1 Ha) in E'. congruence. }
  (* transitions keeping the abstract state, thread not the holder *)
  assert (Hkeep : forall w' k' p ev, words w' k' (upd (thr s) t p) -> wcr (thr s t) = false -> wcr p = false ->
      rcr (thr s t) = rcr p -> badp p = false -> wx p = false -> (ev = [] \/ ev = [WTryFail t] \/ ev = [RTryFail t]) ->
            exists x', accepts rec_step (a, d) ev = Some x' /\ R (mk w' k' (wc s) (upd (thr s) t p)) x').
  { intros w' k' p ev0 Hws E1 E2 E3 E4 E5 Hev. exists (a, d). split; [destruct Hev as [->|[->| ->]]; reflexivity|].
    split; [exact Hws|]. split; [apply abs_same; auto; congruence|]. split; [apply depth_other; auto|]. split; [apply Hb'; auto|].
    split; [apply Hx1; auto; intros Er; right; congruence|exact (Hlt' _)]. }
  assert (Hsame : forall p, rc (thr s t) = rc p -> own (thr s t) = own p -> words (writer s) (nr s) (upd (thr s) t p)).
  { intros p E1 E2. split; [rewrite Hk; apply cnt_n_same; auto|apply own_same; auto]. }
  assert (Hincw : forall p, rc (thr s t) = false -> rc p = true -> own (thr s t) = own p -> words (writer s) (inc (nr s)) (upd (thr s) t p)).
  { intros p E1 E2 E3. split; [rewrite Hk; apply cnt_n_inc; auto|apply own_same; auto]. }
  assert (Hdecw : forall p, rc (thr s t) = true -> rc p = false -> own (thr s t) = own p -> words (writer s) (dec (nr s)) (upd (thr s) t p)).
  { intros p E1 E2 E3. split; [rewrite Hk; apply cnt_n_dec; auto|apply own_same; auto]. }
  assert (Htake : forall p, writer s = O -> rc (thr s t) = rc p -> own p = true -> words (S t) (nr s) (upd (thr s) t p)).
  { intros p E1 E2 E3. split; [rewrite Hk; apply cnt_n_same; auto|apply own_take; auto]. rewrite <- E1. auto. }
  assert (Hdrop : forall p, own (thr s t) = true -> rc (thr s t) = rc p -> own p = false -> words O (nr s) (upd (thr s) t p)).
  { intros p E1 E2 E3. split; [rewrite Hk; apply cnt_n_same; auto|eapply own_drop; eauto]. }
  (* holder moves without changing the depth *)
  assert (Hhold : forall p, rc (thr s t) = rc p -> wcr (thr s t) = true -> wcr p = true -> own p = true -> rcr (thr s t) = rcr p -> rcr p = false ->
      badp p = false -> wx p = false -> depth (wc s) (a, d) (upd (thr s) t p) ->
      exists x', accepts rec_step (a, d) [] = Some x' /\ R (mk (writer s) (nr s) (wc s) (upd (thr s) t p)) x').
  { intros p E0 E1 E2 E2' E3 E3' E4 E5 Hd'. exists (a, d). split; [reflexivity|].
    split; [apply Hsame; auto; rewrite How; auto|].
    split; [apply abs_same; auto; congruence|]. split; [exact Hd'|]. split; [apply Hb'; auto|]. split; [apply Hx1; auto; congruence|exact (Hlt' _)]. }
  (* admission: the load of n_readers returned 0 *)
  assert (Hadm : forall p, nr s = 0 -> rc (thr s t) = rc p -> own (thr s t) = own p -> wcr (thr s t) = false -> wcr p = false ->
      rcr (thr s t) = false -> rcr p = false -> badp p = false ->
      exists x', accepts rec_step (a, d) [] = Some x' /\ R (mk (writer s) (nr s) (wc s) (upd (thr s) t p)) x').
  { intros p Ez E0 E1 E2 E3 E4 E5 E6. exists (a, d). split; [reflexivity|]. split; [apply Hsame; auto|].
    split; [apply abs_same; auto; congruence|]. split; [apply depth_other; auto|]. split; [apply Hb'; auto|]. split; [apply Hx2; auto|exact (Hlt' _)]. }
  (* outermost acquisition *)
  assert (Hacq : wx (thr s t) = true -> rc (thr s t) = false ->
      exists x', accepts rec_step (a, d) [WAcq t] = Some x' /\ R (mk (writer s) (nr s) (inc (wc s)) (upd (thr s) t WCrit)) x').
  { intros E1 E2. assert (E3 : own (thr s t) = true /\ wcr (thr s t) = false).
    { destruct (thr s t) as [| [] | [] | [] | [] | [] | [] | [] | [] | [] | | | | | | | | | | | | ]; simpl in *; try discriminate; auto. }
    destruct E3 as [E3 E4].
    destruct (abs_wacq wcr rcr a (thr s) t WCrit Ha) as [a' [H1 H2]]; auto; [intros; eapply Hx; eauto|].
    exists (a', 1%nat). assert (Hwn : rw_w a = None) by auto. split.
    - simpl in *. rewrite Hwn in *. destruct (rw_r a); [|discriminate]. inversion H1; subst. auto.
    - split; [apply Hsame; auto|]. split; auto. split.
      + unfold depth in *. cbn [fst snd wc thr] in *. rewrite Hwn in Hd. destruct Hd as [Hc Hd0].
        assert (Hw' : rw_w a' = Some t) by (apply (proj1 H2); rewrite upd_same; auto).
        rewrite Hw', upd_same, Hc. right. split; [discriminate|]. assert (1 < W) by (unfold W; lia).
        unfold inc. rewrite Z.mod_small by lia. repeat split; try lia.
      + split; [apply Hb'; auto|]. split; [apply Hx1; auto; discriminate|exact (Hlt' _)]. }
  (* nested acquisition *)
  assert (Hrec : wcr (thr s t) = true -> (exists b, thr s t = WL3 b \/ thr s t = WT4 b) ->
      exists x', accepts rec_step (a, d) [WAcq t] = Some x' /\ R (mk (writer s) (nr s) (inc (wc s)) (upd (thr s) t WCrit)) x').
  { intros E1 [b Eb]. pose proof (Hwsome E1) as Hw. exists (a, S d). split.
    - simpl. rewrite Hw, Nat.eqb_refl. auto.
    - assert (rc (thr s t) = false /\ rcr (thr s t) = false) as [E2 E3] by (destruct Eb as [Eb|Eb]; rewrite Eb; auto).
      split; [apply Hsame; auto; rewrite How; auto|]. split; [apply abs_same; auto; rewrite ?E1, ?E3; auto|]. split.
      + unfold depth in *. cbn [fst snd wc thr] in *. rewrite Hw in *. rewrite upd_same.
        destruct Hd as [[Hbad _]|[_ [Hc [Hp [? Hc']]]]]; [destruct Eb as [Eb|Eb]; congruence|].
        right. split; [discriminate|].
        assert (wc s + 1 < W) by (apply (Hc' b); tauto). unfold inc. rewrite Z.mod_small by lia. repeat split; try lia.
        intros b' Hbad; destruct Hbad as [Hbad|[Hbad|[Hbad|Hbad]]]; discriminate.
      + split; [apply Hb'; auto|]. split; [apply Hx1; auto; discriminate|exact (Hlt' _)]. }
  assert (Hrd : forall w' k' p e, words w' k' (upd (thr s) t p) -> wcr (thr s t) = false -> wcr p = false -> badp p = false -> wx p = false ->
      (rcr p = true -> writer s = O \/ rcr (thr s t) = true) ->
      (exists a', accepts rw_step a [e] = Some a' /\ abs a' (upd (thr s) t p)) ->
      (exists u, e = RAcq u \/ e = RRel u) ->
      exists x', accepts rec_step (a, d) [e] = Some x' /\ R (mk w' k' (wc s) (upd (thr s) t p)) x').
  { intros w' k' p e Hws E1 E2 E3 E4 E5 [a' [H1 H2]] [u He]. exists (a', d).
    assert (N1 : forall t, e <> WAcq t) by (intros; destruct He; subst; discriminate).
    assert (N2 : forall t, e <> WRel t) by (intros; destruct He; subst; discriminate).
    split; [apply rec_rw; auto|].
    split; [exact Hws|]. split; [exact H2|]. split; [|split; [apply Hb'; auto|split; [apply Hx1; auto|exact (Hlt' _)]]].
    assert (Hx' : depth (wc s) (a, d) (upd (thr s) t p)) by (apply depth_other; auto).
    assert (Ewa : rw_w a' = rw_w a).
    { simpl in H1. destruct (rw_step a e) as [a1|] eqn:Es; [|discriminate]. inversion H1; subst a1.
      destruct He as [-> | ->]; simpl in Es.
      - destruct (rw_w a) eqn:Ew; [discriminate|]. inversion Es; auto.
      - destruct (remove1 u (rw_r a)); [|discriminate]. inversion Es; auto. }
    unfold depth in *. cbn [fst snd wc thr] in *. rewrite Ewa. exact Hx'. }
  unfold go in H.
  destruct (thr s t) as [| [] | [] | [] | [] | [] | [] | [] | [] | [] | | | | | | | | | | | | ] eqn:Et;
    try discriminate Hbt; destruct y; try discriminate.
  - injection H as <- <-. apply Hkeep; auto.
  - injection H as <- <-. apply Hkeep; auto.
  - injection H as <- <-. apply Hkeep; auto.
  - injection H as <- <-. apply Hkeep; auto.
  - (* WL0 true *)
    assert (Ew : writer s = S t) by (apply Ho; rewrite Et; auto). rewrite Ew, Nat.eqb_refl in H.
    injection H as <- <-. rewrite <- Ew.
    apply Hhold; auto. unfold depth in *. cbn [fst snd] in *. rewrite (Hwsome eq_refl) in *.
    rewrite upd_same. rewrite Et in Hd. destruct Hd as [[? ?]|[? [? [? [? Hc]]]]]; [discriminate|].
    right. repeat split; auto; try discriminate. intros b _; apply (Hc true); auto.
  - (* WL0 false *)
    assert (Ew : writer s <> S t). { intros E. apply Ho in E. rewrite Et in E. discriminate. }
    apply Nat.eqb_neq in Ew. rewrite Ew in H. injection H as <- <-. apply Hkeep; auto.
  - destruct (Nat.eqb (writer s) 0) eqn:E; [apply Nat.eqb_eq in E|]; injection H as <- <-; apply Hkeep; auto.
  - destruct (Z.eqb (nr s) 0) eqn:E; [apply Z.eqb_eq in E|]; injection H as <- <-; [apply Hadm; auto|apply Hkeep; auto].
  - injection H as <- <-. apply Hrec; eauto.
  - injection H as <- <-. apply Hacq; auto.
  - (* WT0 true *)
    assert (Ew : writer s = S t) by (apply Ho; rewrite Et; auto). rewrite Ew, Nat.eqb_refl in H.
    injection H as <- <-. rewrite <- Ew.
    apply Hhold; auto. unfold depth in *. cbn [fst snd] in *. rewrite (Hwsome eq_refl) in *.
    rewrite upd_same. rewrite Et in Hd. destruct Hd as [[? ?]|[? [? [? [? Hc]]]]]; [discriminate|].
    right. repeat split; auto; try discriminate. intros b _; apply (Hc true); auto.
  - (* WT0 false *)
    assert (Ew : writer s <> S t). { intros E. apply Ho in E. rewrite Et in E. discriminate. }
    apply Nat.eqb_neq in Ew. rewrite Ew in H. injection H as <- <-. apply Hkeep; auto.
  - destruct (Nat.eqb (writer s) 0) eqn:E; [apply Nat.eqb_eq in E|]; injection H as <- <-; apply Hkeep; auto.
  - destruct (Z.eqb (nr s) 0) eqn:E; [apply Z.eqb_eq in E|]; injection H as <- <-; [apply Hadm; auto|apply Hkeep; auto].
  - injection H as <- <-. apply Hkeep; auto.
  - injection H as <- <-. apply Hrec; eauto.
  - injection H as <- <-. apply Hacq; auto.
  - (* WCrit, lock *)
    destruct (Z.ltb (wc s + 1) W) eqn:El; [|discriminate]. apply Z.ltb_lt in El. injection H as <- <-.
    apply Hhold; auto. unfold depth in *. cbn [fst snd] in *. rewrite (Hwsome eq_refl) in *.
    rewrite upd_same. rewrite Et in Hd. destruct Hd as [[? ?]|[? [? [? [? Hc]]]]]; [discriminate|].
    right. repeat split; auto; try discriminate.
  - (* WCrit, trylock *)
    destruct (Z.ltb (wc s + 1) W) eqn:El; [|discriminate]. apply Z.ltb_lt in El. injection H as <- <-.
    apply Hhold; auto. unfold depth in *. cbn [fst snd] in *. rewrite (Hwsome eq_refl) in *.
    rewrite upd_same. rewrite Et in Hd. destruct Hd as [[? ?]|[? [? [? [? Hc]]]]]; [discriminate|].
    right. repeat split; auto; try discriminate.
  - (* WCrit, unlock *)
    injection H as <- <-.
    apply Hhold; auto. unfold depth in *. cbn [fst snd] in *. rewrite (Hwsome eq_refl) in *.
    rewrite upd_same. rewrite Et in Hd. destruct Hd as [[? ?]|[? [? [? [? Hc]]]]]; [discriminate|].
    right. repeat split; auto; try discriminate. intros b Hbb; destruct Hbb as [E|[E|[E|E]]]; discriminate.
  - (* U1 *)
    pose proof (Hwsome eq_refl) as Hw.
    assert (Hdd : wc s = Z.of_nat d /\ (0 < d)%nat /\ wc s < W).
    { unfold depth in Hd. cbn [fst snd] in Hd. rewrite Hw, Et in Hd. destruct Hd as [[? ?]|[? [? [? [? ?]]]]]; [discriminate|repeat split; auto]. }
    destruct Hdd as [Hc [Hp HW]].
    assert (Hdec : dec (wc s) = Z.of_nat (d - 1)) by (unfold dec; rewrite Z.mod_small by lia; lia).
    destruct (Z.eqb (dec (wc s)) 0) eqn:E; injection H as <- <-.
    + apply Z.eqb_eq in E. assert (d = 1%nat) by lia. subst d.
      exists (a, 1%nat). split; [reflexivity|]. split; [apply Hsame; auto|]. split; [apply abs_same; auto; rewrite Et; auto|].
      split; [|split; [apply Hb'; auto|split; [apply Hx1; auto; discriminate|exact (Hlt' _)]]].
      unfold depth. cbn [fst snd wc thr]. rewrite Hw, upd_same. left. auto.
    + apply Z.eqb_neq in E. destruct d as [|[|d]]; [lia|simpl in Hdec; lia|].
      exists (a, S d). split; [simpl; rewrite Hw, Nat.eqb_refl; reflexivity|].
      split; [apply Hsame; auto|]. split; [apply abs_same; auto; rewrite Et; auto|].
      split; [|split; [apply Hb'; auto|split; [apply Hx1; auto; discriminate|exact (Hlt' _)]]].
      unfold depth. cbn [fst snd wc thr]. rewrite Hw, upd_same. right. split; [discriminate|].
      rewrite Hdec. repeat split; try lia.
  - (* U2 *)
    pose proof (Hwsome eq_refl) as Hw. injection H as <- <-.
    destruct (abs_wrel wcr rcr a (thr s) t Idle Ha) as [a' [H1 H2]]; auto; [rewrite Et; auto|].
    assert (Hdd : d = 1%nat /\ wc s = 0).
    { unfold depth in Hd. cbn [fst snd] in Hd. rewrite Hw, Et in Hd. destruct Hd as [[_ [? ?]]|[? _]]; [auto|congruence]. }
    destruct Hdd as [-> Hc].
    exists (a', O). assert (Ea' : rw_w a' = None).
    { simpl in H1. rewrite Hw, Nat.eqb_refl in H1. inversion H1; auto. }
    split; [simpl in *; rewrite Hw, Nat.eqb_refl in *; inversion H1; subst; auto|].
    split; [apply Hdrop; auto|]. split; auto. split; [unfold depth; cbn [fst snd]; rewrite Ea'; auto|].
    split; [apply Hb'; auto|]. split; [apply Hx1; auto; discriminate|exact (Hlt' _)].
  - destruct (Nat.eqb (writer s) 0) eqn:E; [apply Nat.eqb_eq in E|]; injection H as <- <-; apply Hkeep; auto.
  - injection H as <- <-; apply Hkeep; auto.
  - destruct (Nat.eqb (writer s) 0) eqn:E; [apply Nat.eqb_eq in E|]; injection H as <- <-; [|apply Hkeep; auto].
    apply Hrd; eauto. apply abs_racq; auto. rewrite Et; auto.
  - injection H as <- <-; apply Hkeep; auto.
  - destruct (Nat.eqb (writer s) 0) eqn:E; [apply Nat.eqb_eq in E|]; injection H as <- <-; apply Hkeep; auto.
  - injection H as <- <-; apply Hkeep; auto.
  - destruct (Nat.eqb (writer s) 0) eqn:E; [apply Nat.eqb_eq in E|]; injection H as <- <-; [|apply Hkeep; auto].
    apply Hrd; eauto. apply abs_racq; auto. rewrite Et; auto.
  - injection H as <- <-; apply Hkeep; auto.
  - injection H as <- <-. apply Hrd; auto; try discriminate; [apply abs_rrel; auto; rewrite Et; auto|eauto].
Qed.

Lemma rec_refines : forall ls s log, run (step n) init ls = Some (s, log) -> rec_legal log.
Proof.
  intros ls s log H. destruct (sim_run _ _ _ _ (step n) rec_step R R_step _ _ _ _ _ R_init H) as [a [Ha _]].
  exists a. auto.
Qed.

Lemma rec_reach : forall s, reachable (step n) init s -> exists a, R s a.
Proof.
  intros s [ls [log H]]. destruct (sim_run _ _ _ _ (step n) rec_step R R_step _ _ _ _ _ R_init H) as [a [_ Ha]].
  exists a. auto.
Qed.

(** Progress *)
Definition wt (p : pc) : nat :=
  match p with
  | RL4 | RT4 | RCrit | U2 | WT3 _ => 1
  | RL3 | RT3 | U1 => 2
  | WCrit => 3
  | WL3 _ | WT4 _ => 12
  | WL2 _ | WT2 _ | WL0 true | WT0 true => 13
  | _ => 0
  end%nat.

Definition waits (p : pc) : bool :=
  match p with WL0 _ | WL1 _ | WL2 _ | WL3 _ | RL1 | RL2 | RL3 | RL4 => true | _ => false end.
Definition acqev (p : pc) (t : nat) : rwev := match p with RL1 | RL2 | RL3 | RL4 => RAcq t | _ => WAcq t end.

Lemma rec_progress_gen : forall e t m s,
  (exists x, R s x /\ waits (thr s t) = true /\ acqev (thr s t) t = e /\
     m = (8 * snd x + wsum (fun i => wt (thr s i)) n)%nat) ->
  exists ls s' log, run (step n) s ls = Some (s', log) /\ In e log.
Proof.
  intros e t. apply (run_reach_ev _ _ _ (step n) e).
  intros s m [x [HR [Hwt [He Hm]]]].
  pose proof HR as [[Hk Ho] [Ha [Hd [Hb [Hx Hge]]]]].
  assert (Hlt : forall u, thr s u <> Idle -> (u < n)%nat /\ negb (Nat.ltb u n) = false).
  { intros u Hu. destruct (Nat.lt_ge_cases u n) as [Hl|Hl]; [|exfalso; auto].
    split; auto. apply negb_false_iff, Nat.ltb_lt; auto. }
  assert (Hnt : negb (Nat.ltb t n) = false) by (apply Hlt; intro E; rewrite E in Hwt; discriminate).
  assert (Hmove : forall u y p w' k' c' ev (x' : rwst * nat), thr s u <> Idle ->
     step n s (u, y) = Some (mk w' k' c' (upd (thr s) u p), ev) ->
     accepts rec_step x ev = Some x' ->
     (u = t -> waits p = true /\ acqev p t = acqev (thr s t) t) -> (8 * snd x' + wt p < 8 * snd x + wt (thr s u))%nat ->
     exists l s' ev m', step n s l = Some (s', ev) /\ (m' < m)%nat /\
       exists x, R s' x /\ waits (thr s' t) = true /\ acqev (thr s' t) t = e /\
         m' = (8 * snd x + wsum (fun i => wt (thr s' i)) n)%nat).
  { intros u y p w' k' c' ev x' Hu Hs Hacc Ht Hdd. destruct (R_step _ _ _ _ _ HR Hs) as [x2 [Hx2 HR']].
    rewrite Hacc in Hx2. inversion Hx2; subst x2.
    exists (u, y), (mk w' k' c' (upd (thr s) u p)), ev, (8 * snd x' + wsum (fun i => wt (upd (thr s) u p i)) n)%nat.
    split; auto. split.
    - subst m. destruct (Hlt u Hu) as [Hul _].
      pose proof (wsum_change (fun i => wt (thr s i)) (fun i => wt (upd (thr s) u p i)) n u Hul) as C.
      cbv beta in C. rewrite upd_same in C.
      assert (forall i, i <> u -> wt (thr s i) = wt (upd (thr s) u p i)) by (intros; rewrite upd_other; auto).
      specialize (C H). lia.
    - exists x'. split; auto. simpl. destruct (Nat.eq_dec t u).
      + subst u. destruct Ht as [H1 H2]; auto. rewrite upd_same. repeat split; auto. congruence.
      + rewrite upd_other by auto. auto. }
  destruct (Nat.eq_dec (cnt (fun t => rc (thr s t)) n) 0) as [Hz|Hz].
  - assert (Hnr : nr s = 0) by (rewrite Hk, Hz; auto).
    assert (Hnrc : forall u, rc (thr s u) = false).
    { intros u. destruct (Nat.lt_ge_cases u n) as [Hl|Hl]; [apply (cnt_zero _ _ Hz u Hl)|rewrite Hge; auto]. }
    destruct (Nat.eq_dec (writer s) 0) as [Ew|Ew].
    + left. pose proof (Hnrc t) as Hrt.
      assert (Hno : own (thr s t) = false).
      { destruct (own (thr s t)) eqn:Eo; auto. apply Ho in Eo. congruence. }
      pose proof (Hb t) as Hbt.
      destruct (thr s t) as [| [] | [] | [] | [] | [] | [] | [] | [] | [] | | | | | | | | | | | | ] eqn:Et; try discriminate; simpl in He; subst e.
      * eexists [(t, ATick); (t, ATick); (t, ATick); (t, ATick)], _, [WAcq t]. split; [|simpl; auto].
        eapply run1; [unfold step; rewrite Hnt, Et, Ew; reflexivity|].
        eapply run1; [unfold step; rewrite Hnt; simpl; rewrite upd_same, Ew; reflexivity|].
        eapply run1; [unfold step; rewrite Hnt; simpl; rewrite upd_same, Hnr; reflexivity|].
        apply run_last. unfold step. rewrite Hnt. simpl. rewrite upd_same. reflexivity.
      * eexists [(t, ATick); (t, ATick); (t, ATick)], _, [WAcq t]. split; [|simpl; auto].
        eapply run1; [unfold step; rewrite Hnt, Et, Ew; reflexivity|].
        eapply run1; [unfold step; rewrite Hnt; simpl; rewrite upd_same, Hnr; reflexivity|].
        apply run_last. unfold step. rewrite Hnt. simpl. rewrite upd_same. reflexivity.
      * eexists [(t, ATick); (t, ATick); (t, ATick)], _, [RAcq t]. split; [|simpl; auto].
        eapply run1; [unfold step; rewrite Hnt, Et, Ew; reflexivity|].
        eapply run1; [unfold step; rewrite Hnt; simpl; rewrite upd_same; reflexivity|].
        apply run_last. unfold step. rewrite Hnt. simpl. rewrite upd_same, Ew. reflexivity.
      * eexists [(t, ATick); (t, ATick)], _, [RAcq t]. split; [|simpl; auto].
        eapply run1; [unfold step; rewrite Hnt, Et; reflexivity|].
        apply run_last. unfold step. rewrite Hnt. simpl. rewrite upd_same, Ew. reflexivity.
    + destruct (writer s) as [|u] eqn:Ewr; [congruence|].
      assert (Huo : own (thr s u) = true) by (apply Ho; auto).
      assert (Hui : thr s u <> Idle) by (intro E; rewrite E in Huo; discriminate).
      destruct (Hlt u Hui) as [Hul Hnu]. pose proof (Hb u) as Hbu.
      destruct (Nat.eq_dec u t).
      * (* the waiter owns the writer word *)
        subst u. left.
        destruct (thr s t) as [| [] | [] | [] | [] | [] | [] | [] | [] | [] | | | | | | | | | | | | ] eqn:Et; try discriminate; simpl in He; subst e.
        -- eexists [(t, ATick); (t, ATick)], _, [WAcq t]. split; [|simpl; auto].
           eapply run1; [unfold step; rewrite Hnt, Et, Ewr, Nat.eqb_refl; reflexivity|].
           apply run_last. unfold step. rewrite Hnt. simpl. rewrite upd_same. reflexivity.
        -- eexists [(t, ATick); (t, ATick)], _, [WAcq t]. split; [|simpl; auto].
           eapply run1; [unfold step; rewrite Hnt, Et, Hnr; reflexivity|].
           apply run_last. unfold step. rewrite Hnt. simpl. rewrite upd_same. reflexivity.
        -- eexists [(t, ATick)], _, [WAcq t]. split; [|simpl; auto].
           apply run_last. unfold step. rewrite Hnt, Et. reflexivity.
        -- eexists [(t, ATick)], _, [WAcq t]. split; [|simpl; auto].
           apply run_last. unfold step. rewrite Hnt, Et. reflexivity.
      * right. destruct x as [a d].
        assert (Hdep : forall ev s', step n s (u, ATick) = Some (s', ev) -> exists x', accepts rec_step (a, d) ev = Some x').
        { intros ev s' Hs. destruct (R_step _ _ _ _ _ HR Hs) as [x2 [Hx2 _]]. eauto. }
        assert (Hacq : forall x', accepts rec_step (a, d) [WAcq u] = Some x' -> (snd x' <= S d \/ snd x' = 1)%nat).
        { intros x' Hacc. simpl in Hacc. destruct (rw_w a) as [v|].
          - destruct (Nat.eqb u v); [|discriminate]. inversion Hacc; subst. simpl. auto.
          - destruct (rw_r a); [|discriminate]. inversion Hacc; subst. simpl. auto. }
        assert (Hrel : forall x', accepts rec_step (a, d) [WRel u] = Some x' -> (S (snd x') = d)%nat).
        { intros x' Hacc. simpl in Hacc. destruct (rw_w a) as [v|]; [|discriminate]. destruct d as [|[|d]]; try discriminate.
          - destruct (Nat.eqb u v); [|discriminate]. inversion Hacc; subst. simpl. auto.
          - destruct (Nat.eqb u v); [|discriminate]. inversion Hacc; subst. simpl. auto. }
        destruct (thr s u) as [| [] | [] | [] | [] | [] | [] | [] | [] | [] | | | | | | | | | | | | ] eqn:Eu; try discriminate.
        -- eapply (Hmove u ATick (WL3 true)) with (x' := (a, d)); [congruence|unfold step; rewrite Hnu, Eu, Ewr, Nat.eqb_refl; reflexivity|reflexivity|congruence|rewrite Eu; simpl; lia].
        -- eapply (Hmove u ATick (WL3 false)) with (x' := (a, d)); [congruence|unfold step; rewrite Hnu, Eu, Hnr; reflexivity|reflexivity|congruence|rewrite Eu; simpl; lia].
        -- destruct (Hdep [WAcq u] (mk (writer s) (nr s) (inc (wc s)) (upd (thr s) u WCrit))) as [x' Hx']; [unfold step; rewrite Hnu, Eu; reflexivity|].
           eapply (Hmove u ATick WCrit) with (x' := x'); [congruence|unfold step; rewrite Hnu, Eu; reflexivity|exact Hx'|congruence|rewrite Eu; destruct (Hacq _ Hx'); simpl; lia].
        -- destruct (Hdep [WAcq u] (mk (writer s) (nr s) (inc (wc s)) (upd (thr s) u WCrit))) as [x' Hx']; [unfold step; rewrite Hnu, Eu; reflexivity|].
           eapply (Hmove u ATick WCrit) with (x' := x'); [congruence|unfold step; rewrite Hnu, Eu; reflexivity|exact Hx'|congruence|rewrite Eu; destruct (Hacq _ Hx'); simpl; lia].
        -- eapply (Hmove u ATick (WT4 true)) with (x' := (a, d)); [congruence|unfold step; rewrite Hnu, Eu, Ewr, Nat.eqb_refl; reflexivity|reflexivity|congruence|rewrite Eu; simpl; lia].
        -- eapply (Hmove u ATick (WT4 false)) with (x' := (a, d)); [congruence|unfold step; rewrite Hnu, Eu, Hnr; reflexivity|reflexivity|congruence|rewrite Eu; simpl; lia].
        -- eapply (Hmove u ATick Idle) with (x' := (a, d)); [congruence|unfold step; rewrite Hnu, Eu; reflexivity|reflexivity|congruence|rewrite Eu; simpl; lia].
        -- destruct (Hdep [WAcq u] (mk (writer s) (nr s) (inc (wc s)) (upd (thr s) u WCrit))) as [x' Hx']; [unfold step; rewrite Hnu, Eu; reflexivity|].
           eapply (Hmove u ATick WCrit) with (x' := x'); [congruence|unfold step; rewrite Hnu, Eu; reflexivity|exact Hx'|congruence|rewrite Eu; destruct (Hacq _ Hx'); simpl; lia].
        -- destruct (Hdep [WAcq u] (mk (writer s) (nr s) (inc (wc s)) (upd (thr s) u WCrit))) as [x' Hx']; [unfold step; rewrite Hnu, Eu; reflexivity|].
           eapply (Hmove u ATick WCrit) with (x' := x'); [congruence|unfold step; rewrite Hnu, Eu; reflexivity|exact Hx'|congruence|rewrite Eu; destruct (Hacq _ Hx'); simpl; lia].
        -- eapply (Hmove u AWUnlock U1) with (x' := (a, d)); [congruence|unfold step; rewrite Hnu, Eu; reflexivity|reflexivity|congruence|rewrite Eu; simpl; lia].
        -- destruct (Z.eqb (dec (wc s)) 0) eqn:Ez.
           ++ eapply (Hmove u ATick U2) with (x' := (a, d)); [congruence|unfold step; rewrite Hnu, Eu, Ez; reflexivity|reflexivity|congruence|rewrite Eu; simpl; lia].
           ++ destruct (Hdep [WRel u] (mk (writer s) (nr s) (dec (wc s)) (upd (thr s) u WCrit))) as [x' Hx']; [unfold step; rewrite Hnu, Eu, Ez; reflexivity|].
              eapply (Hmove u ATick WCrit) with (x' := x'); [congruence|unfold step; rewrite Hnu, Eu, Ez; reflexivity|exact Hx'|congruence|rewrite Eu; pose proof (Hrel _ Hx'); simpl; lia].
        -- destruct (Hdep [WRel u] (mk O (nr s) (wc s) (upd (thr s) u Idle))) as [x' Hx']; [unfold step; rewrite Hnu, Eu; reflexivity|].
           eapply (Hmove u ATick Idle) with (x' := x'); [congruence|unfold step; rewrite Hnu, Eu; reflexivity|exact Hx'|congruence|rewrite Eu; pose proof (Hrel _ Hx'); simpl; lia].
  - destruct (cnt_exists (fun t => rc (thr s t)) n) as [u [Hu Hru]]; [lia|].
    assert (Hnu : negb (Nat.ltb u n) = false) by (apply negb_false_iff, Nat.ltb_lt; auto).
    assert (Hrd : forall e x', (exists v, e = RAcq v \/ e = RRel v \/ e = RTryFail v) -> accepts rec_step x [e] = Some x' -> snd x' = snd x).
    { intros e0 x' [v Hv] Hacc. destruct x as [a d]. simpl in Hacc. destruct Hv as [->|[->| ->]]; simpl in Hacc.
      - destruct (rw_w a); inversion Hacc; auto.
      - destruct (remove1 v (rw_r a)); inversion Hacc; auto.
      - inversion Hacc; auto. }
    assert (Hdep : forall y ev s', step n s (u, y) = Some (s', ev) -> exists x', accepts rec_step x ev = Some x').
    { intros y ev s' Hs. destruct (R_step _ _ _ _ _ HR Hs) as [x2 [Hx2 _]]. eauto. }
    destruct (thr s u) eqn:Eu; try discriminate.
    + destruct (Nat.eq_dec (writer s) 0) as [Ew|Ew].
      * destruct (Nat.eq_dec u t).
        -- subst u. left. rewrite Eu in He. simpl in He. subst e.
           eexists [(t, ATick)], _, [RAcq t]. split; [|simpl; auto].
           apply run_last. unfold step. rewrite Hnt, Eu, Ew. reflexivity.
        -- right. assert (Hst : step n s (u, ATick) = Some (go s u RCrit, [RAcq u])) by (unfold step; rewrite Hnu, Eu, Ew; reflexivity).
           destruct (Hdep _ _ _ Hst) as [x' Hx'].
           eapply (Hmove u ATick RCrit) with (x' := x'); [congruence|exact Hst|exact Hx'|congruence|].
           rewrite Eu, (Hrd (RAcq u) x'); eauto. simpl; lia.
      * right. apply Nat.eqb_neq in Ew.
        eapply (Hmove u ATick RL4) with (x' := x); [congruence|unfold step; rewrite Hnu, Eu, Ew; reflexivity|reflexivity| |rewrite Eu; simpl; lia].
        intros; subst. rewrite Eu. auto.
    + right. eapply (Hmove u ATick RL1) with (x' := x); [congruence|unfold step; rewrite Hnu, Eu; reflexivity|reflexivity| |rewrite Eu; simpl; lia].
      intros; subst. rewrite Eu. auto.
    + right. assert (u <> t) by (intro; subst; rewrite Eu in Hwt; discriminate).
      destruct (Nat.eq_dec (writer s) 0) as [Ew|Ew].
      * assert (Hst : step n s (u, ATick) = Some (go s u RCrit, [RAcq u])) by (unfold step; rewrite Hnu, Eu, Ew; reflexivity).
        destruct (Hdep _ _ _ Hst) as [x' Hx'].
        eapply (Hmove u ATick RCrit) with (x' := x'); [congruence|exact Hst|exact Hx'|congruence|].
        rewrite Eu, (Hrd (RAcq u) x'); eauto. simpl; lia.
      * apply Nat.eqb_neq in Ew.
        eapply (Hmove u ATick RT4) with (x' := x); [congruence|unfold step; rewrite Hnu, Eu, Ew; reflexivity|reflexivity|congruence|rewrite Eu; simpl; lia].
    + right. assert (u <> t) by (intro; subst; rewrite Eu in Hwt; discriminate).
      assert (Hst : step n s (u, ATick) = Some (mk (writer s) (dec (nr s)) (wc s) (upd (thr s) u Idle), [RTryFail u])) by (unfold step; rewrite Hnu, Eu; reflexivity).
      destruct (Hdep _ _ _ Hst) as [x' Hx'].
      eapply (Hmove u ATick Idle) with (x' := x'); [congruence|exact Hst|exact Hx'|congruence|].
      rewrite Eu, (Hrd (RTryFail u) x'); eauto. simpl; lia.
    + right. assert (u <> t) by (intro; subst; rewrite Eu in Hwt; discriminate).
      assert (Hst : step n s (u, ARUnlock) = Some (mk (writer s) (dec (nr s)) (wc s) (upd (thr s) u Idle), [RRel u])) by (unfold step; rewrite Hnu, Eu; reflexivity).
      destruct (Hdep _ _ _ Hst) as [x' Hx'].
      eapply (Hmove u ARUnlock Idle) with (x' := x'); [congruence|exact Hst|exact Hx'|congruence|].
      rewrite Eu, (Hrd (RRel u) x'); eauto. simpl; lia.
Qed.

Lemma rec_progress_w : forall s, reachable (step n) init s -> forall t, waiting_w s t = true ->
  exists ls s' log, run (step n) s ls = Some (s', log) /\ In (WAcq t) log.
Proof.
  intros s Hre t Hw. destruct (rec_reach _ Hre) as [x HR].
  apply (rec_progress_gen (WAcq t) t (8 * snd x + wsum (fun i => wt (thr s i)) n) s).
  exists x. split; [assumption|]. unfold waiting_w in Hw. destruct (thr s t); try discriminate; repeat split; auto.
Qed.

Lemma rec_progress_r : forall s, reachable (step n) init s -> forall t, waiting_r s t = true ->
  exists ls s' log, run (step n) s ls = Some (s', log) /\ In (RAcq t) log.
Proof.
  intros s Hre t Hw. destruct (rec_reach _ Hre) as [x HR].
  apply (rec_progress_gen (RAcq t) t (8 * snd x + wsum (fun i => wt (thr s i)) n) s).
  exists x. split; [assumption|]. unfold waiting_r in Hw. destruct (thr s t); try discriminate; repeat split; auto.
Qed.
End P.
