(** Lock-freedom of ck_hp_stack. *)
From Coq Require Import Arith List Bool Lia.
From Verif Require Import Lib Lin LockFree_Spec LockFree_Proof LfHpStack_Spec Hp_Model HpClient_Model HpStack_Model.
Import ListNotations.


Definition pot (h : nat) (p : spc) : nat :=
  match p with
  | SIdle => 0
  | Su1 _ _ => 3
  | Su2 _ _ e => if Nat.eqb h e then 2 else 4
  | Su3 _ _ e => if Nat.eqb h e then 1 else 3
  | Sp1 _ _ => 5
  | Sp2 _ _ e => if Nat.eqb h e then 4 else 7
  | Sp3 _ _ e => if Nat.eqb h e then 3 else 6
  | Sp4 _ _ e => if Nat.eqb h e then 2 else 6
  | Sp5 _ _ e _ => if Nat.eqb h e then 1 else 5
  | Sp6 _ e => if Nat.eqb h e then 4 else 6
  | Sp7 _ e => if Nat.eqb h e then 3 else 5
  | Sp8 _ e => if Nat.eqb h e then 4 else 6
  | Sp9 _ e => if Nat.eqb h e then 3 else 5
  | Sp10 _ => 1
  end.
Lemma pot_any : forall h h' p, pot h' p <= pot h p + 4.
Proof. intros. unfold pot. destruct p; try lia; repeat match goal with |- context [if ?b then _ else _] => destruct b end; lia. Qed.

Section Lf.
Variable c : cfg.
Variable t : nat.
Definition gain (log : list sevt) : nat := 6 * calls t (ops log) + 4 * effects chg (ops log).
Lemma gain_app : forall a b, gain (a ++ b) = gain a + gain b.
Proof. intros. unfold gain, calls, effects, ops. rewrite flat_map_app, !count_app. lia. Qed.
Lemma ops_he : forall ev, ops (map HE ev) = [].
Proof. induction ev; auto. Qed.
Lemma ops_app : forall a b, ops (a ++ b) = ops a ++ ops b.
Proof. intros. apply flat_map_app. Qed.

Ltac split_if H :=
  repeat match type of H with
         | context [client ?a ?b ?d ?e] => destruct (client a b d e) as [[? ?]|] eqn:?
         | context [if ?b then _ else _] => destruct b eqn:?
         | context [match ?b with Some _ => _ | None => _ end] => destruct b as [[? ?]|] eqn:?
         end.
Lemma classify : forall s u a s' e, sstep c s (u, a) = Some (s', e) ->
  (hd s' = hd s \/ 1 <= effects chg (ops e)) /\ (t <> u -> sp s' t = sp s t) /\ (opact a = false -> sp s' u = sp s u /\ ops e = []).
Proof.
  intros s u a s' e H. unfold sstep in H. destruct a as [a|b e0|b r|].
  - destruct (sp s u) eqn:Eu; try discriminate. split_if H; try discriminate. injection H as <- <-. rewrite ops_he. simpl. auto.
  - refine (conj _ (conj _ _)); try discriminate; destruct (sp s u); try discriminate; unfold call in H; split_if H; try discriminate; injection H as <- <-; simpl; auto; intros; apply upd_other; auto.
  - refine (conj _ (conj _ _)); try discriminate; destruct (sp s u); try discriminate; unfold call in H; split_if H; try discriminate; injection H as <- <-; simpl; auto; intros; apply upd_other; auto.
  - refine (conj _ (conj _ _)); [| |discriminate].
    + unfold tick, slot, fin in H. destruct (sp s u); split_if H; try discriminate; injection H as <- <-; simpl; auto; right; unfold effects, count; repeat match goal with |- context [if ?b then _ else _] => destruct b end; simpl; lia.
    + unfold tick, slot, fin in H. intros. destruct (sp s u); split_if H; try discriminate; injection H as <- <-; simpl; apply upd_other; auto.
Qed.
Lemma own_step : forall s a s' e, sstep c s (t, a) = Some (s', e) -> opact a = true -> pot (hd s') (sp s' t) + 1 <= pot (hd s) (sp s t) + gain e.
Proof.
  intros s a s' e H Ho. unfold sstep in H. unfold gain. destruct a as [a|b e0|b r|]; [discriminate| | |].
  - destruct (sp s t); try discriminate; unfold call in H; split_if H; try discriminate; injection H as <- <-; simpl; rewrite upd_same; unfold calls, count; simpl; rewrite Nat.eqb_refl; simpl; lia.
  - destruct (sp s t); try discriminate; unfold call in H; split_if H; try discriminate; injection H as <- <-; simpl; rewrite upd_same; unfold calls, count; simpl; rewrite Nat.eqb_refl; simpl; lia.
  - unfold tick, slot, fin in H. destruct (sp s t) eqn:Et; try discriminate; cbn [pot];
      split_if H; try discriminate; injection H as <- <-; cbn [go set_cs set_nx set_hd give sp hd]; rewrite upd_same; cbn [pot];
      rewrite ?Nat.eqb_refl; repeat match goal with E : Nat.eqb _ _ = _ |- _ => rewrite E end; try lia; repeat match goal with |- context [if ?b then _ else _] => destruct b eqn:? end; try lia; try discriminate.
Qed.
Lemma pot_max : forall h p, pot h p <= 7.
Proof. intros. unfold pot. destruct p; try lia; repeat match goal with |- context [if ?b then _ else _] => destruct b end; lia. Qed.
Lemma lockfree : forall s0 ls s log, run (sstep c) s0 ls = Some (s, log) ->
  steps_of opact t ls <= 7 + 6 * calls t (ops log) + 4 * effects chg (ops log).
Proof.
  intros s0 ls s log H.
  assert (K := potential _ _ _ (sstep c) (fun _ => True) (fun _ => True) (fun s => pot (hd s) (sp s t)) (fun l => Nat.eqb (fst l) t && opact (snd l)) gain eq_refl gain_app).
  specialize (fun Q => K Q ls s0 s log Logic.I (Forall_true _ ls) H). unfold steps_of. pose proof (pot_max (hd s0) (sp s0 t)) as M.
  cut (pot (hd s) (sp s t) + count (fun l => Nat.eqb (fst l) t && opact (snd l)) ls <= pot (hd s0) (sp s0 t) + gain log); [unfold gain; lia|].
  apply K. clear K H ls s log M. intros s [u a] s' e _ _ H. split; auto. cbn [fst snd]. destruct (classify _ _ _ _ _ H) as [A [B C]].
  assert (D : sp s' t = sp s t -> pot (hd s') (sp s' t) + 0 <= pot (hd s) (sp s t) + gain e).
  { unfold gain. intros E. rewrite E. destruct A as [->|A]; [lia|]. pose proof (pot_any (hd s) (hd s') (sp s t)). lia. }
  destruct (Nat.eqb_spec u t) as [->|Hn]; [|apply D; auto]. destruct (opact a) eqn:Eo; simpl.
  - apply own_step with (1 := H). auto.
  - apply D. apply C. auto.
Qed.

Definition trypc (p : spc) : bool :=
  match p with
  | SIdle | Sp10 _ => true
  | Su1 b _ | Su2 b _ _ | Su3 b _ _ | Sp1 b _ | Sp2 b _ _ | Sp3 b _ _ | Sp4 b _ _ | Sp5 b _ _ _ => b
  | _ => false
  end.
Definition tpot (p : spc) : nat :=
  match p with
  | SIdle => 0
  | Su1 _ _ => 3 | Su2 _ _ _ => 2 | Su3 _ _ _ => 1
  | Sp1 _ _ => 6 | Sp2 _ _ _ => 5 | Sp3 _ _ _ => 4 | Sp4 _ _ _ => 3 | Sp5 _ _ _ _ => 2 | _ => 1
  end.
Definition tgain (log : list sevt) : nat := 7 * calls t (ops log).
Lemma tgain_app : forall a b, tgain (a ++ b) = tgain a + tgain b.
Proof. intros. unfold tgain, calls, ops. rewrite flat_map_app, count_app. lia. Qed.
Lemma try_step : forall s a s' e, trypc (sp s t) = true -> tryact a -> opact a = true -> sstep c s (t, a) = Some (s', e) ->
  trypc (sp s' t) = true /\ tpot (sp s' t) + 1 <= tpot (sp s t) + tgain e.
Proof.
  intros s a s' e Hp Ha Ho H. unfold sstep in H. unfold tgain. destruct a as [a|b e0|b r|]; [discriminate| | |]; simpl in Ha; try subst b.
  - destruct (sp s t); try discriminate; unfold call in H; split_if H; try discriminate; injection H as <- <-; simpl; rewrite upd_same; unfold calls, count; simpl; rewrite Nat.eqb_refl; simpl; split; auto; lia.
  - destruct (sp s t); try discriminate; unfold call in H; split_if H; try discriminate; injection H as <- <-; simpl; rewrite upd_same; unfold calls, count; simpl; rewrite Nat.eqb_refl; simpl; split; auto; lia.
  - unfold tick, slot, fin in H. destruct (sp s t) eqn:Et; try discriminate; simpl in Hp; try subst b;
      split_if H; try discriminate; injection H as <- <-; cbn [go set_cs set_nx set_hd give sp hd]; rewrite upd_same; cbn [tpot trypc]; split; auto; lia.
Qed.
Lemma tpot_max : forall p, tpot p <= 6.
Proof. destruct p; simpl; lia. Qed.
Lemma waitfree : forall pre s0 l0 ls s log, only tryact t (pre ++ ls) -> run (sstep c) sinit pre = Some (s0, l0) -> run (sstep c) s0 ls = Some (s, log) ->
  steps_of opact t ls <= 6 + 7 * calls t (ops log).
Proof.
  intros pre s0 l0 ls s log HO H0 H. apply Forall_app in HO. destruct HO as [O1 O2].
  assert (S : forall s l s' e, trypc (sp s t) = true -> (fst l = t -> tryact (snd l)) -> sstep c s l = Some (s', e) ->
    trypc (sp s' t) = true /\ tpot (sp s' t) + (if Nat.eqb (fst l) t && opact (snd l) then 1 else 0) <= tpot (sp s t) + tgain e).
  { clear. intros s [u a] s' e HT HO H. cbn [fst snd] in *. destruct (classify _ _ _ _ _ H) as [_ [B C]]. destruct (Nat.eqb_spec u t) as [->|Hn].
    - destruct (opact a) eqn:Eo.
      + apply try_step with (4 := H); auto.
      + destruct (C eq_refl) as [-> _]. split; [auto|simpl; lia].
    - rewrite B by auto. split; [auto|simpl; lia]. }
  assert (I : trypc (sp s0 t) = true).
  { apply (inv_run _ _ _ (sstep c) (fun s => trypc (sp s t) = true) (fun l => fst l = t -> tryact (snd l))) with (3 := O1) (4 := H0); [|reflexivity]. intros; eapply S; eauto. }
  pose proof (potential _ _ _ (sstep c) (fun s => trypc (sp s t) = true) (fun l => fst l = t -> tryact (snd l)) (fun s => tpot (sp s t)) (fun l => Nat.eqb (fst l) t && opact (snd l)) tgain eq_refl tgain_app S ls s0 s log I O2 H) as K.
  unfold steps_of, tgain in *. pose proof (tpot_max (sp s0 t)). lia.
Qed.
End Lf.
