(** Lock-freedom of ck_stack. *)
From Coq Require Import NArith Arith List Bool Lia.
From Verif Require Import Lib Lin LockFree_Spec LockFree_Proof LfStack_Spec Stack_Model.
Import ListNotations.

Definition fresh (s : sst) (st : option nat) : bool := opt_eqb (head s) st.
Definition pot (s : sst) (p : spc) : nat :=
  match p with
  | PIdle => 0
  | Pu1 _ _ => 3
  | Pu2 _ _ st => if fresh s st then 2 else 4
  | Pu3 _ _ st => if fresh s st then 1 else 3
  | Po1 _ => 3
  | Po2 _ x => if fresh s (Some x) then 2 else 4
  | Po3 _ x _ => if fresh s (Some x) then 1 else 3
  | G1 _ => 4
  | G2 _ g => if N.eqb (gen s) g then 3 else 5
  | G3 _ g x => if fresh s (Some x) && N.eqb (gen s) g then 2 else 4
  | G4 _ g x _ => if fresh s (Some x) && N.eqb (gen s) g then 1 else 3
  | Ba => 1
  end.
Lemma opt_refl : forall a, opt_eqb a a = true.
Proof. destruct a; simpl; auto. apply Nat.eqb_refl. Qed.
(** the head and generation are all that matters *)
Lemma pot_same : forall s s' p, head s' = head s -> gen s' = gen s -> pot s' p = pot s p.
Proof. intros s s' p H1 H2. unfold pot, fresh. rewrite H1, H2. auto. Qed.
Lemma pot_any : forall s s' p, pot s' p <= pot s p + 2.
Proof.
  intros. unfold pot. destruct p; try lia; repeat match goal with |- context [if ?b then _ else _] => destruct b end; lia.
Qed.
Definition gain (t : nat) (log : list sev) : nat := 5 * calls t log + 2 * effects chg log.
Lemma gain_app : forall t a b, gain t (a ++ b) = gain t a + gain t b.
Proof. intros. unfold gain, calls, effects. rewrite !count_app. lia. Qed.

Lemma quiet : forall c s u a s' e, sstep c s (u, a) = Some (s', e) ->
  (head s' = head s /\ gen s' = gen s) \/ 1 <= effects chg e.
Proof.
  intros c s u a s' e H. unfold sstep in H. destruct (negb (Nat.ltb u (nt c))); [discriminate|]. destruct a as [o|].
  - destruct (thr s u); try discriminate. left. unfold call in H.
    destruct o; repeat match type of H with context [if ?b then _ else _] => destruct b end; try discriminate; injection H as <- <-; simpl; auto.
  - unfold tick, fin in H. destruct (thr s u);
      repeat match type of H with
             | context [if ?b then _ else _] => destruct b
             | context [match ?b with Some _ => _ | None => _ end] => destruct b eqn:?
             end; try discriminate; injection H as <- <-; simpl; auto; right; unfold effects, count; repeat match goal with |- context [if ?b then _ else _] => destruct b end; simpl; lia.
Qed.
Lemma others : forall c s u a s' e t, sstep c s (u, a) = Some (s', e) -> t <> u -> thr s' t = thr s t.
Proof.
  intros c s u a s' e t H Hn. unfold sstep in H. destruct (negb (Nat.ltb u (nt c))); [discriminate|]. destruct a as [o|].
  - destruct (thr s u); try discriminate. unfold call in H.
    destruct o; repeat match type of H with context [if ?b then _ else _] => destruct b end; try discriminate; injection H as <- <-; simpl; apply upd_other; auto.
  - unfold tick, fin in H. destruct (thr s u);
      repeat match type of H with
             | context [if ?b then _ else _] => destruct b
             | context [match ?b with Some _ => _ | None => _ end] => destruct b
             end; try discriminate; injection H as <- <-; simpl; apply upd_other; auto.
Qed.
Lemma own_step : forall c s t a s' e, sstep c s (t, a) = Some (s', e) -> pot s' (thr s' t) + 1 <= pot s (thr s t) + gain t e.
Proof.
  intros c s t a s' e H. unfold sstep in H. destruct (negb (Nat.ltb t (nt c))); [discriminate|]. destruct a as [o|].
  - destruct (thr s t) eqn:Et; try discriminate. unfold call in H. unfold gain, calls, count.
    destruct o; repeat match type of H with context [if ?b then _ else _] => destruct b end; try discriminate; injection H as <- <-;
      cbn [set_own go thr filter length]; rewrite upd_same, ?Nat.eqb_refl; simpl; try lia; destruct (md c); simpl; lia.
  - unfold tick, fin in H. destruct (thr s t) eqn:Et; try discriminate.
    all: cbn [pot]; unfold fresh;
      repeat match type of H with
             | context [if ?b then _ else _] => destruct b eqn:?
             | context [match ?b with Some _ => _ | None => _ end] => destruct b eqn:?
             end; injection H as <- <-; cbn [set_own set_head set_gen set_nxt bump give go thr]; rewrite upd_same; cbn [pot]; unfold fresh; cbn [head gen go set_nxt];
      rewrite ?opt_refl, ?N.eqb_refl; try lia; repeat match goal with |- context [if ?b then _ else _] => destruct b eqn:? end; try lia.
    all: exfalso; match goal with A : head ?x = _, B : _ = false |- _ => rewrite A in B; simpl in B; rewrite ?Nat.eqb_refl, ?N.eqb_refl in B; discriminate B end.
Qed.
Lemma pot_max : forall s p, pot s p <= 5.
Proof. intros. unfold pot. destruct p; try lia; repeat match goal with |- context [if ?b then _ else _] => destruct b end; lia. Qed.
Lemma lockfree : forall c t s0 ls s log, run (sstep c) s0 ls = Some (s, log) -> steps t ls <= 5 + 5 * calls t log + 2 * effects chg log.
Proof.
  intros c t s0 ls s log H.
  assert (K := potential _ _ _ (sstep c) (fun _ => True) (fun _ => True) (fun s => pot s (thr s t)) (fun l => Nat.eqb (fst l) t) (gain t) eq_refl (gain_app t)).
  specialize (fun Q => K Q ls s0 s log Logic.I (Forall_true _ ls) H). unfold steps. pose proof (pot_max s0 (thr s0 t)) as M.
  cut (pot s (thr s t) + count (fun l => Nat.eqb (fst l) t) ls <= pot s0 (thr s0 t) + gain t log); [intros X; unfold gain in X; eapply Nat.le_trans; [eapply Nat.le_trans; [apply Nat.le_add_l|exact X]|rewrite <- Nat.add_assoc; apply Nat.add_le_mono_r; exact M]|].
  apply K. clear. intros s [u a] s' e _ _ H. split; auto. cbn [fst]. destruct (Nat.eqb_spec u t) as [->|Hn].
  - apply own_step with (1 := H).
  - rewrite (others _ _ _ _ _ _ t H) by auto. destruct (quiet _ _ _ _ _ _ H) as [[A B]|A].
    + rewrite (pot_same _ _ _ A B). lia.
    + pose proof (pot_any s s' (thr s t)). unfold gain. lia.
Qed.

Definition trypc (p : spc) : bool :=
  match p with
  | PIdle | Ba => true
  | Pu1 b _ | Pu2 b _ _ | Pu3 b _ _ | Po1 b | Po2 b _ | Po3 b _ _ | G1 b | G2 b _ | G3 b _ _ | G4 b _ _ _ => b
  end.
Definition tpot (p : spc) : nat :=
  match p with
  | PIdle => 0
  | Pu1 _ _ | Po1 _ | G2 _ _ => 3
  | Pu2 _ _ _ | Po2 _ _ | G3 _ _ _ => 2
  | Pu3 _ _ _ | Po3 _ _ _ | G4 _ _ _ _ | Ba => 1
  | G1 _ => 4
  end.
Definition tgain (t : nat) (log : list sev) : nat := 5 * calls t log.
Lemma tgain_app : forall t a b, tgain t (a ++ b) = tgain t a + tgain t b.
Proof. intros. unfold tgain, calls. rewrite count_app. lia. Qed.
Lemma try_step : forall c s t a s' e, trypc (thr s t) = true -> tryact a -> sstep c s (t, a) = Some (s', e) ->
  trypc (thr s' t) = true /\ tpot (thr s' t) + 1 <= tpot (thr s t) + tgain t e.
Proof.
  intros c s t a s' e Hp Ha H. unfold sstep in H. destruct (negb (Nat.ltb t (nt c))); [discriminate|]. destruct a as [o|].
  - destruct (thr s t) eqn:Et; try discriminate. unfold call in H. unfold tgain, calls, count.
    destruct o; try contradiction Ha; repeat match type of H with context [if ?b then _ else _] => destruct b end; try discriminate; injection H as <- <-;
      cbn [set_own go thr filter length]; rewrite upd_same, ?Nat.eqb_refl; simpl; try (split; [auto|lia]); destruct (md c); simpl; split; auto; lia.
  - unfold tick, fin in H. destruct (thr s t) eqn:Et; try discriminate; simpl in Hp; try subst b.
    all: repeat match type of H with
             | context [if ?b then _ else _] => destruct b eqn:?
             | context [match ?b with Some _ => _ | None => _ end] => destruct b eqn:?
             end; try discriminate; injection H as <- <-; cbn [set_own set_head set_gen set_nxt bump give go thr]; rewrite upd_same; cbn [tpot trypc]; split; auto; lia.
Qed.
Lemma tpot_max : forall p, tpot p <= 4.
Proof. destruct p; simpl; lia. Qed.
Lemma waitfree : forall c t pre s0 l0 ls s log, only tryact t (pre ++ ls) -> run (sstep c) sinit pre = Some (s0, l0) -> run (sstep c) s0 ls = Some (s, log) -> steps t ls <= 4 + 5 * calls t log.
Proof.
  intros c t pre s0 l0 ls s log HO H0 H. apply Forall_app in HO. destruct HO as [O1 O2].
  assert (S : forall s l s' e, trypc (thr s t) = true -> (fst l = t -> tryact (snd l)) -> sstep c s l = Some (s', e) ->
    trypc (thr s' t) = true /\ tpot (thr s' t) + (if Nat.eqb (fst l) t then 1 else 0) <= tpot (thr s t) + tgain t e).
  { clear. intros s [u a] s' e HT HO H. cbn [fst snd] in *. destruct (Nat.eqb_spec u t) as [->|Hn].
    - apply try_step with (3 := H); auto.
    - rewrite (others _ _ _ _ _ _ t H) by auto. split; [auto|lia]. }
  assert (I : trypc (thr s0 t) = true).
  { apply (inv_run _ _ _ (sstep c) (fun s => trypc (thr s t) = true) (fun l => fst l = t -> tryact (snd l))) with (3 := O1) (4 := H0); [|reflexivity]. intros; eapply S; eauto. }
  assert (K := potential _ _ _ (sstep c) (fun s => trypc (thr s t) = true) (fun l => fst l = t -> tryact (snd l)) (fun s => tpot (thr s t)) (fun l => Nat.eqb (fst l) t) (tgain t) eq_refl (tgain_app t) S ls s0 s log I O2 H).
  unfold steps, tgain in *. pose proof (tpot_max (thr s0 t)). lia.
Qed.
