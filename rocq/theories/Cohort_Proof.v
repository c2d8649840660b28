From Coq Require Import Arith NArith List Bool Lia.
From Verif Require Import Lib LockSpec LockProg Cohort_Model.
Import ListNotations.
Local Arguments upd : simpl never.
Local Arguments Nat.ltb : simpl never.
Local Arguments Nat.eqb : simpl never.

Lemma uinc_val : forall x, uinc x = ((x + 1) mod 4294967296)%N. Proof. reflexivity. Qed.
Lemma udec_val : forall x, udec x = ((x + 4294967295) mod 4294967296)%N. Proof. reflexivity. Qed.
Global Opaque uinc udec.
Lemma uinc_ok : forall k, (N.of_nat (S k) < 4294967296)%N -> uinc (N.of_nat k) = N.of_nat (S k).
Proof. intros. rewrite uinc_val, N.mod_small; lia. Qed.
Lemma udec_ok : forall k, (N.of_nat (S k) < 4294967296)%N -> udec (N.of_nat (S k)) = N.of_nat k.
Proof.
  intros. rewrite udec_val. replace (N.of_nat (S k) + 4294967295)%N with (N.of_nat k + 1 * 4294967296)%N by lia.
  rewrite N.mod_add by lia. rewrite N.mod_small; lia.
Qed.

(** Holds the local lock. *)
Definition hasl (p : pc) : bool :=
  match p with L3 | L4 | L5 | Crit | U1 | U2 | U3 | U4 | U5 | U6 _ | T3 true | T4 | T5 | T6 => true | _ => false end.
(** Inside, for the specification. *)
Definition ins (p : pc) : bool := match p with Crit | U1 | U2 | U3 | U6 false => true | _ => false end.
Definition cw (p : pc) : bool := match p with L2 | L3 | T2 | T3 _ => true | _ => false end.
Definition notry (p : pc) : bool := match p with T1 | T2 | T3 _ | T4 | T5 | T6 => false | _ => true end.

Section P.
Variables (n : nat) (coh : nat -> nat) (lim : nat -> N).
Hypothesis Hn : (N.of_nat n < 2 ^ 32)%N.

(** What the holder [p] of the local lock of a cohort knows about it; [o]: the
    cohort owns the global lock; [r]: release_state is LOCAL. *)
Definition lst (p : pc) (o r : bool) : Prop :=
  match p with
  | L3 | L4 | T3 _ | T4 => o = r
  | L5 | T5 | T6 | U5 | U6 true => o = false /\ r = false
  | U4 => o = false
  | U6 false => o = true /\ r = true
  | _ => o = true
  end.

Definition own (g : option nat) (c : nat) : bool := match g with Some d => Nat.eqb c d | None => false end.

Record I (s : state) (g : option nat) : Prop := mkI {
  i_g : glob s = match g with Some _ => true | None => false end;
  i_l : forall t, hasl (thr s t) = true -> loc s (coh t) = true /\ lst (thr s t) (own g (coh t)) (rel s (coh t)) /\
        forall u, coh u = coh t -> hasl (thr s u) = true -> u = t;
  i_f : forall c, loc s c = false -> own g c = rel s c;
  i_h : forall c, loc s c = true -> exists t, t < n /\ coh t = c /\ hasl (thr s t) = true;
  i_w : forall c, wait s c = N.of_nat (cnt (fun t => Nat.eqb (coh t) c && cw (thr s t)) n);
  i_ge : forall t, n <= t -> thr s t = Idle }.

Definition R (s : state) (h : option nat) : Prop :=
  exists g, I s g /\ (forall t, h = Some t <-> ins (thr s t) = true).

Lemma R_init : R init None.
Proof.
  exists None. split; [constructor; cbn; auto; try discriminate|intros; split; discriminate].
  intros c. rewrite cnt_all_false; auto. intros. apply andb_false_r.
Qed.

Lemma own_inj : forall g c d, own g c = true -> own g d = true -> c = d.
Proof. intros [x|] c d; cbn; try discriminate. intros A B. apply Nat.eqb_eq in A, B. congruence. Qed.

Lemma ins_own : forall s g t, I s g -> ins (thr s t) = true -> own g (coh t) = true /\ hasl (thr s t) = true.
Proof.
  intros s g t HI E. assert (Hh : hasl (thr s t) = true) by (destruct (thr s t); try discriminate; auto).
  split; auto. destruct (i_l _ _ HI t Hh) as [_ [L _]]. destruct (thr s t) as [| | | | | | | | | | | |[]| | |[]| | |]; cbn in *; try discriminate; tauto.
Qed.

Lemma ins_unique : forall s g t u, I s g -> ins (thr s t) = true -> ins (thr s u) = true -> t = u.
Proof.
  intros s g t u HI E1 E2. destruct (ins_own _ _ _ HI E1) as [O1 H1]. destruct (ins_own _ _ _ HI E2) as [O2 H2].
  destruct (i_l _ _ HI t H1) as [_ [_ L]]. symmetry. apply L; auto. eapply own_inj; eauto.
Qed.

(** A step of thread [t] to pc [p], touching only its own cohort's words. *)
Lemma I_step : forall s g t p g' s',
  let c := coh t in
  I s g -> t < n ->
  thr s' = upd (thr s) t p ->
  glob s' = match g' with Some _ => true | None => false end ->
  (forall d, d <> c -> own g' d = own g d /\ loc s' d = loc s d /\ rel s' d = rel s d /\ wait s' d = wait s d) ->
  (loc s' c = loc s c /\ hasl p = hasl (thr s t) \/ loc s' c = true /\ loc s c = false /\ hasl p = true \/ loc s' c = false /\ hasl (thr s t) = true /\ hasl p = false) ->
  (hasl p = true -> lst p (own g' c) (rel s' c)) ->
  (hasl (thr s t) = false -> own g' c = own g c /\ rel s' c = rel s c) ->
  (loc s' c = false -> own g' c = rel s' c) ->
  (wait s' c = N.of_nat (cnt (fun u => Nat.eqb (coh u) c && cw (upd (thr s) t p u)) n)) ->
  I s' g'.
Proof.
  intros s g t p g' s' c HI Hlt Ht Hb Ho Hl Hp1 Hp3 Hf Hw. assert (HI' := HI). destruct HI' as [G1 G2 G3 G4 G5 G6]. constructor; auto.
  - intros u. rewrite Ht. destruct (Nat.eq_dec u t) as [->|Hut].
    + rewrite upd_same. intros Hp. fold c. split; [|split; auto].
      * destruct Hl as [[-> E]|[[-> _]|[_ [_ E]]]]; auto; [|congruence]. rewrite Hp in E. apply G2. auto.
      * intros u Hu. upd_goal; auto. intros Hh. destruct Hl as [[_ E]|[[_ [E _]]|[_ [_ E]]]]; try congruence.
        -- rewrite Hp in E. apply G2; auto.
        -- destruct (G2 u Hh) as [X _]. rewrite Hu in X. fold c in X. congruence.
    + rewrite upd_other by auto. intros Hh. destruct (G2 u Hh) as [X1 [X2 X3]].
      destruct (Nat.eq_dec (coh u) c) as [Ec|Ec].
      * assert (hasl (thr s t) = false). { destruct (hasl (thr s t)) eqn:E; auto. apply X3 in E; auto. congruence. }
        rewrite Ec in *. destruct (Hp3 H) as [Y1 Y2]. rewrite Y1, Y2. split; [|split; auto].
        -- destruct Hl as [[-> _]|[[-> _]|[_ [E _]]]]; auto; congruence.
        -- intros v Hv. upd_goal; auto. subst v. intros Hpv. destruct Hl as [[_ E]|[[_ [E _]]|[_ [E _]]]]; congruence.
      * destruct (Ho _ Ec) as [O1 [O2 [O3 O4]]]. rewrite O1, O2, O3. split; auto. split; auto. intros v Hv. upd_goal; auto. subst v.
        exfalso. apply Ec. auto.
  - intros d. destruct (Nat.eq_dec d c) as [->|Hd]; auto. destruct (Ho _ Hd) as [O1 [O2 [O3 O4]]]. rewrite O1, O2, O3. auto.
  - intros d. rewrite Ht. destruct (Nat.eq_dec d c) as [->|Hd].
    + intros E0. rewrite E0 in Hl. destruct Hl as [[E1 E]|[[_ [_ E]]|[E _]]]; [| |discriminate].
      * destruct (G4 c (eq_sym E1)) as [u [U1' [U2' U3']]]. exists u. split; auto. split; auto. upd_goal; auto. subst. congruence.
      * exists t. rewrite upd_same. auto.
    + destruct (Ho _ Hd) as [O1 [O2 [O3 O4]]]. rewrite O2. intros Hd'. destruct (G4 d Hd') as [u [U1' [U2' U3']]]. exists u. split; auto. split; auto.
      rewrite upd_other; auto. intros ->. auto.
  - intros d. rewrite Ht. destruct (Nat.eq_dec d c) as [->|Hd]; auto. destruct (Ho _ Hd) as [O1 [O2 [O3 O4]]]. rewrite O4, G5. f_equal.
    apply cnt_ext. intros u Hu. upd_goal; auto. subst. fold c. destruct (Nat.eqb_spec c d); auto. congruence.
  - intros u Hu. rewrite Ht, upd_other by lia. auto.
Qed.

Lemma cw_same : forall s g t p, I s g -> t < n -> cw p = cw (thr s t) ->
  wait s (coh t) = N.of_nat (cnt (fun u => Nat.eqb (coh u) (coh t) && cw (upd (thr s) t p u)) n).
Proof.
  intros s g t p HI Hlt E. rewrite (i_w _ _ HI). f_equal. apply cnt_ext. intros u Hu. upd_goal; auto. subst. rewrite E. auto.
Qed.

Lemma cw_inc : forall s g t p, I s g -> t < n -> cw p = true -> cw (thr s t) = false ->
  uinc (wait s (coh t)) = N.of_nat (cnt (fun u => Nat.eqb (coh u) (coh t) && cw (upd (thr s) t p u)) n).
Proof.
  intros s g t p HI Hlt E1 E2. rewrite (i_w _ _ HI).
  assert (E : cnt (fun u => Nat.eqb (coh u) (coh t) && cw (upd (thr s) t p u)) n = S (cnt (fun u => Nat.eqb (coh u) (coh t) && cw (thr s u)) n)).
  { assert (X := cnt_change (fun u => Nat.eqb (coh u) (coh t) && cw (thr s u)) (fun u => Nat.eqb (coh u) (coh t) && cw (upd (thr s) t p u)) n t Hlt).
    cbn beta in X. rewrite upd_same, Nat.eqb_refl, E1, E2 in X. cbn in X. assert (Y : forall i, i <> t -> Nat.eqb (coh i) (coh t) && cw (thr s i) = Nat.eqb (coh i) (coh t) && cw (upd (thr s) t p i)) by (intros u Hu; rewrite upd_other; auto).
    specialize (X Y). lia. }
  rewrite E. apply uinc_ok. rewrite <- E. assert (Z := cnt_le (fun u => Nat.eqb (coh u) (coh t) && cw (upd (thr s) t p u)) n).
  change (2 ^ 32)%N with 4294967296%N in Hn. lia.
Qed.

Lemma cw_dec : forall s g t p, I s g -> t < n -> cw p = false -> cw (thr s t) = true ->
  udec (wait s (coh t)) = N.of_nat (cnt (fun u => Nat.eqb (coh u) (coh t) && cw (upd (thr s) t p u)) n).
Proof.
  intros s g t p HI Hlt E1 E2. rewrite (i_w _ _ HI).
  assert (E : cnt (fun u => Nat.eqb (coh u) (coh t) && cw (thr s u)) n = S (cnt (fun u => Nat.eqb (coh u) (coh t) && cw (upd (thr s) t p u)) n)).
  { assert (X := cnt_change (fun u => Nat.eqb (coh u) (coh t) && cw (thr s u)) (fun u => Nat.eqb (coh u) (coh t) && cw (upd (thr s) t p u)) n t Hlt).
    cbn beta in X. rewrite upd_same, Nat.eqb_refl, E1, E2 in X. cbn in X. assert (Y : forall i, i <> t -> Nat.eqb (coh i) (coh t) && cw (thr s i) = Nat.eqb (coh i) (coh t) && cw (upd (thr s) t p i)) by (intros u Hu; rewrite upd_other; auto).
    specialize (X Y). lia. }
  rewrite E. apply udec_ok. rewrite <- E. assert (Z := cnt_le (fun u => Nat.eqb (coh u) (coh t) && cw (thr s u)) n).
  change (2 ^ 32)%N with 4294967296%N in Hn. lia.
Qed.

(** The specification's holder after a step. *)
Lemma R_keep : forall s g h t p, I s g -> (forall u, h = Some u <-> ins (thr s u) = true) -> ins p = ins (thr s t) ->
  forall u, h = Some u <-> ins (upd (thr s) t p u) = true.
Proof. intros s g h t p HI Hh E u. upd_goal; auto. subst. rewrite E. auto. Qed.

Lemma R_acq : forall s g g' (h : option nat) t p, I s g -> (forall u, h = Some u <-> ins (thr s u) = true) -> ins p = true ->
  (own g (coh t) = false -> g = None) -> hasl (thr s t) = true -> ins (thr s t) = false -> g' = Some (coh t) ->
  h = None /\ forall u, Some t = Some u <-> ins (upd (thr s) t p u) = true.
Proof.
  intros s g g' h t p HI Hh Hp Hg Hl Hi ->.
  assert (Hno : forall u, ins (thr s u) = true -> False).
  { intros u Hu. destruct (ins_own _ _ _ HI Hu) as [O H]. destruct (own g (coh t)) eqn:Eo.
    - assert (coh u = coh t) by (eapply own_inj; eauto). destruct (i_l _ _ HI t Hl) as [_ [_ L]]. rewrite (L u) in Hu; auto. congruence.
    - rewrite Hg in O by auto. discriminate. }
  split.
  - destruct h as [u|]; auto. destruct (Hno u). apply Hh. auto.
  - intros u. upd_goal; [subst; tauto|]. split; [congruence|]. intros Hu. destruct (Hno _ Hu).
Qed.

Lemma R_rel : forall s g (h : option nat) t p, I s g -> (forall u, h = Some u <-> ins (thr s u) = true) -> ins (thr s t) = true -> ins p = false ->
  h = Some t /\ forall u, None = Some u <-> ins (upd (thr s) t p u) = true.
Proof.
  intros s g h t p HI Hh Hi Hp. split; [apply Hh; auto|]. intros u. split; [discriminate|]. upd_goal; [subst; congruence|].
  intros Hu. assert (u = t) by (eapply ins_unique; eauto). congruence.
Qed.

Lemma own_glob : forall s g c, I s g -> glob s = false -> g = None /\ own g c = false.
Proof. intros s g c HI E. rewrite (i_g _ _ HI) in E. destruct g; try discriminate. auto. Qed.

Ltac stp HI t g' Et :=
  eapply (I_step _ _ t _ g'); [exact HI|assumption|reflexivity|cbn|cbn|cbn|cbn|cbn|cbn|cbn]; rewrite ?Et, ?upd_same; cbn.

Lemma R_step : forall s a l s' e, R s a -> step n coh lim s l = Some (s', e) -> exists a', accepts lock_step a e = Some a' /\ R s' a'.
Proof.
  intros s h [t a] s' e [g [HI Hh]] Hs. unfold step in Hs.
  destruct (Nat.ltb_spec t n) as [Hlt|]; [|discriminate]. cbn [negb] in Hs.
  assert (HL := i_l _ _ HI t). assert (HG := i_g _ _ HI).
  (* a step that changes neither the global lock nor who is inside *)
  assert (Hkeep : forall p s', thr s' = upd (thr s) t p -> glob s' = glob s -> ins p = ins (thr s t) ->
     (forall d, d <> coh t -> loc s' d = loc s d /\ rel s' d = rel s d /\ wait s' d = wait s d) ->
     (loc s' (coh t) = loc s (coh t) /\ hasl p = hasl (thr s t) \/ loc s' (coh t) = true /\ loc s (coh t) = false /\ hasl p = true \/ loc s' (coh t) = false /\ hasl (thr s t) = true /\ hasl p = false) ->
     (hasl p = true -> lst p (own g (coh t)) (rel s' (coh t))) ->
     (hasl (thr s t) = false -> rel s' (coh t) = rel s (coh t)) ->
     (loc s' (coh t) = false -> own g (coh t) = rel s' (coh t)) ->
     (wait s' (coh t) = N.of_nat (cnt (fun u => Nat.eqb (coh u) (coh t) && cw (upd (thr s) t p u)) n)) ->
     exists a', accepts lock_step h [] = Some a' /\ R s' a').
  { intros p s1 E1 E2 E3 E4 E5 E6 E7 E8 E9. exists h. split; auto. exists g. split.
    - eapply (I_step _ _ t p g); eauto; congruence.
    - intros u. rewrite E1. eapply R_keep; eauto. }
  assert (Hacq : forall p s', thr s' = upd (thr s) t p -> glob s' = true -> ins p = true -> ins (thr s t) = false -> hasl (thr s t) = true ->
     (forall d, loc s' d = loc s d /\ rel s' d = rel s d /\ wait s' d = wait s d) ->
     cw p = cw (thr s t) -> (own g (coh t) = false -> g = None) -> lst p true (rel s (coh t)) ->
     exists a', accepts lock_step h [Acq t] = Some a' /\ R s' a').
  { intros p s1 E1 E2 E3 E4 E5 E6 E7 E8 E9. destruct (R_acq s g (Some (coh t)) h t p HI Hh E3 E8 E5 E4 eq_refl) as [-> X].
    exists (Some t). split; auto. exists (Some (coh t)).
    assert (hasl p = true) by (destruct p as [| | | | | | | | | | | |[]| | |[]| | |]; try discriminate; auto).
    assert (own (Some (coh t)) (coh t) = true) by (cbn; apply Nat.eqb_refl).
    assert (loc s (coh t) = true) by (apply HL; auto). split.
    - eapply (I_step s g t p (Some (coh t)) s1); eauto.
      + intros d Hd. destruct (E6 d) as [-> [-> ->]]. split; auto. cbn. destruct (Nat.eqb_spec d (coh t)); [congruence|].
        destruct (own g d) eqn:Ed; auto. destruct (own g (coh t)) eqn:Eo; [exfalso; apply n0; eapply own_inj; eauto|].
        rewrite E8 in Ed; auto.
      + left. destruct (E6 (coh t)) as [-> _]. split; congruence.
      + intros _. rewrite H0. destruct (E6 (coh t)) as [_ [-> _]]. auto.
      + congruence.
      + destruct (E6 (coh t)) as [-> _]. congruence.
      + destruct (E6 (coh t)) as [_ [_ ->]]. eapply cw_same; eauto.
    - intros u. rewrite E1. apply X. }
  destruct (thr s t) as [| | | | | | | | | | | |gf| | |r| | |] eqn:Et; destruct a; try discriminate;
  cbn iota in Hs;
  repeat match type of Hs with Some (if ?b then _ else _) = _ => destruct b eqn:? | (if ?b then _ else _) = _ => destruct b eqn:? end;
  try destruct gf; try destruct r;
  injection Hs as <- <-;
  try (eapply Hkeep; [reflexivity|reflexivity|reflexivity|cbn; intros d Hd; rewrite ?upd_other by auto; auto|cbn; rewrite ?upd_same; tauto|cbn..];
       rewrite ?upd_same; try discriminate; try tauto; try apply (i_f _ _ HI (coh t)); try (rewrite (i_f _ _ HI (coh t)); auto; fail);
       try (eapply cw_same; eauto; rewrite Et; reflexivity); try (eapply cw_inc; eauto; rewrite Et; reflexivity); try (eapply cw_dec; eauto; rewrite Et; reflexivity);
       try (destruct (HL eq_refl) as [H1 [H2 H3]]; cbn in H2; try tauto; congruence); fail).
  all: try (assert (HL' := HL eq_refl); destruct HL' as [H1 [H2 H3]]; cbn in H2).
  - eapply (Hacq Crit); cbn; auto; rewrite ?Heqb in *; rewrite H2 in *; try discriminate; auto.
    rewrite HG. destruct g; auto.
  - eapply (Hkeep L5); cbn; auto; try congruence. eapply cw_same; eauto; rewrite Et; reflexivity.
  - eapply (Hacq Crit); cbn; auto. intros _. eapply own_glob; eauto.
  - destruct ((0 <? wait s (coh t))%N && (acq s (coh t) <? lim (coh t))%N).
    + eapply (Hkeep U2); cbn; auto; try congruence. eapply cw_same; eauto; rewrite Et; reflexivity.
    + eapply (Hkeep U3); cbn; auto; try congruence. eapply cw_same; eauto; rewrite Et; reflexivity.
  - assert (Hi : ins (thr s t) = true) by (rewrite Et; auto).
    destruct (R_rel s g h t U4 HI Hh Hi eq_refl) as [-> X]. exists None. split; [cbn; rewrite Nat.eqb_refl; auto|].
    exists None. split; [|intros u; apply X]. eapply (I_step s g t U4 None); cbn; auto.
    + intros d Hd. split; auto. destruct (own g d) eqn:Ed; auto. exfalso. apply Hd. eapply own_inj; eauto.
    + left. rewrite Et. auto.
    + rewrite Et. discriminate.
    + congruence.
    + eapply cw_same; eauto; rewrite Et; reflexivity.
  - eapply (Hkeep Idle); cbn; auto; try congruence.
    + intros d Hd. rewrite upd_other by auto. auto.
    + rewrite upd_same. auto.
    + intros _. destruct H2. congruence.
    + eapply cw_same; eauto; rewrite Et; reflexivity.
  - assert (Hi : ins (thr s t) = true) by (rewrite Et; auto).
    destruct (R_rel s g h t Idle HI Hh Hi eq_refl) as [-> X]. exists None. split; [cbn; rewrite Nat.eqb_refl; auto|].
    destruct H2 as [H2 H2']. exists g. split; [|intros u; apply X]. eapply (I_step s g t Idle g); cbn; auto.
    + intros d Hd. rewrite upd_other by auto. auto.
    + rewrite upd_same, Et. auto.
    + congruence.
    + eapply cw_same; eauto; rewrite Et; reflexivity.
  - eapply (Hacq Crit); cbn; auto; rewrite ?Heqb in *; rewrite H2 in *; try discriminate; auto.
    rewrite HG. destruct g; auto.
  - eapply (Hkeep T6); cbn; auto; try congruence. eapply cw_same; eauto; rewrite Et; reflexivity.
  - eapply (Hacq Crit); cbn; auto. intros _. eapply own_glob; eauto.
  - eapply (Hkeep Idle); cbn; auto; try congruence.
    + intros d Hd. rewrite upd_other by auto. auto.
    + rewrite upd_same. auto.
    + intros _. destruct H2. congruence.
    + eapply cw_same; eauto; rewrite Et; reflexivity.
Qed.

Theorem legal : forall ls s log, run (step n coh lim) init ls = Some (s, log) -> lock_legal log.
Proof.
  intros ls s log H. destruct (run_refines _ lock_step R init None R_init R_step ls s log H) as [h [E _]]. exists h. auto.
Qed.

Lemma reach_I : forall ls s log, run (step n coh lim) init ls = Some (s, log) -> exists g, I s g.
Proof.
  intros ls s log H. destruct (run_refines _ lock_step R init None R_init R_step ls s log H) as [h [_ [g [E _]]]]. eauto.
Qed.

Definition quiet (s : state) : Prop := forall t, thr s t = Idle.

Theorem quiet_pass : forall ls s log, run (step n coh lim) init ls = Some (s, log) -> quiet s -> glob s = true ->
  exists c, rel s c = true /\ loc s c = false.
Proof.
  intros ls s log H Hq Hg. destruct (reach_I _ _ _ H) as [g HI]. rewrite (i_g _ _ HI) in Hg. destruct g as [c|]; [|discriminate].
  assert (L : loc s c = false). { destruct (loc s c) eqn:E; auto. destruct (i_h _ _ HI _ E) as [t [_ [_ X]]]. rewrite Hq in X. discriminate. }
  exists c. split; auto. rewrite <- (i_f _ _ HI _ L). cbn. apply Nat.eqb_refl.
Qed.

(** ** Clients that never call trylock *)
Definition wtr (s : state) (c : nat) : Prop := exists u, coh u = c /\ thr s u = L2.
Record Q (s : state) : Prop := {
  q_no : forall t, notry (thr s t) = true;
  q_fr : forall c, loc s c = false -> rel s c = true -> wtr s c;
  q_ps : forall t, thr s t = U2 \/ thr s t = U6 false -> wtr s (coh t) }.

Lemma wtr_mono : forall s s' t p c, thr s' = upd (thr s) t p -> thr s t <> L2 \/ p = L2 -> wtr s c -> wtr s' c.
Proof.
  intros s s' t p c E Hne [u [U1' U2']]. exists u. split; auto. rewrite E. upd_goal; auto. subst. destruct Hne; congruence.
Qed.

Lemma Q_step : forall s g l s' e, I s g -> Q s -> nstep n coh lim s l = Some (s', e) -> Q s'.
Proof.
  intros s g [t a] s' e HI HQ Hs. unfold nstep, step in Hs. cbn [snd] in Hs.
  assert (HL := i_l _ _ HI t). assert (Hno := q_no _ HQ t). destruct HQ as [Q1 Q2 Q3].
  (* only the thread's own cohort can be affected *)
  assert (Hgen : forall p s', thr s' = upd (thr s) t p -> notry p = true ->
     (forall d, d <> coh t -> loc s' d = loc s d /\ rel s' d = rel s d) ->
     (p <> L2 -> thr s t = L2 -> hasl p = true /\ loc s' (coh t) = true /\ loc s (coh t) = false) ->
     (loc s' (coh t) = false -> rel s' (coh t) = true -> wtr s' (coh t)) ->
     (p = U2 \/ p = U6 false -> wtr s' (coh t)) -> Q s').
  { intros p s1 E1 E2 E3 E4 E5 E6.
    assert (W : forall d, d <> coh t -> wtr s d -> wtr s1 d).
    { intros d Hd [u [W1 W2]]. exists u. split; auto. rewrite E1, upd_other; auto. intros ->. auto. }
    constructor.
    - intros u. rewrite E1. upd_goal; auto.
    - intros d Hd1 Hd2. destruct (Nat.eq_dec d (coh t)) as [->|Hd]; auto. destruct (E3 _ Hd) as [X1 X2]. apply W; auto. apply Q2; congruence.
    - intros u. rewrite E1. destruct (Nat.eq_dec u t) as [->|Hut]; [rewrite upd_same; auto|]. rewrite upd_other by auto. intros Hu.
      destruct (Nat.eq_dec (coh u) (coh t)) as [Ec|Hd]; [|apply W; auto]. rewrite Ec.
      assert (Hhu : hasl (thr s u) = true) by (destruct Hu as [-> | ->]; auto).
      destruct (i_l _ _ HI u Hhu) as [L1' _]. destruct (Q3 u Hu) as [v [V1 V2]].
      exists v. split; [congruence|]. rewrite E1. upd_goal; auto. subst v.
      assert (Dp : p = L2 \/ p <> L2) by (destruct p; (now left) || (right; discriminate)). destruct Dp as [|Dp]; auto.
      destruct (E4 Dp V2) as [_ [_ X]]. congruence. }
  destruct (Nat.ltb_spec t n) as [Hlt|]; [|destruct a; discriminate]. cbn [negb] in Hs.
  assert (Kfr : forall p s1, thr s1 = upd (thr s) t p -> thr s t <> L2 \/ p = L2 -> loc s1 (coh t) = loc s (coh t) -> rel s1 (coh t) = rel s (coh t) ->
     loc s1 (coh t) = false -> rel s1 (coh t) = true -> wtr s1 (coh t)).
  { intros. eapply wtr_mono; eauto; apply Q2; congruence. }
  destruct (thr s t) as [| | | | | | | | | | | |gf| | |r| | |] eqn:Et; destruct a; try discriminate; cbn iota in Hs;
  repeat match type of Hs with Some (if ?b then _ else _) = _ => destruct b eqn:? | (if ?b then _ else _) = _ => destruct b eqn:? end;
  try destruct gf;
  injection Hs as <- <-;
  try (eapply Hgen; [reflexivity|reflexivity|cbn; intros d Hd; rewrite ?upd_other by auto; auto|cbn; rewrite ?upd_same; try discriminate; auto; congruence
     |eapply Kfr; [reflexivity| |reflexivity|reflexivity]; auto; left; discriminate|intros [X|X]; discriminate X]; fail).
  all: try (assert (HL' := HL eq_refl); destruct HL' as [H1 [H2 H3]]; cbn in H2).
  - eapply (Hgen L2); cbn; auto; try congruence; try (intros [X|X]; discriminate); try (eapply (Kfr L2 (go s t L2)); auto).
  - eapply (Hgen L3); cbn; rewrite ?upd_same; auto; try congruence; try (intros [X|X]; discriminate); try (intros d Hd; rewrite upd_other by auto; auto).
  - eapply (Hgen Crit); cbn; auto; try congruence; try (intros [X|X]; discriminate).
  - eapply (Hgen L5); cbn; auto; try congruence; try (intros [X|X]; discriminate).
  - destruct ((0 <? wait s (coh t))%N && (acq s (coh t) <? lim (coh t))%N) eqn:Ew; [|eapply (Hgen U3); cbn; auto; try congruence; intros [X|X]; discriminate].
    apply andb_prop in Ew. destruct Ew as [Ew _]. apply N.ltb_lt in Ew. rewrite (i_w _ _ HI) in Ew.
    destruct (cnt_exists (fun u => Nat.eqb (coh u) (coh t) && cw (thr s u)) n) as [u [Hu1 Hu2]]; [lia|].
    apply andb_prop in Hu2. destruct Hu2 as [Hu2 Hu3]. apply Nat.eqb_eq in Hu2.
    assert (EL : thr s u = L2).
    { assert (Nu := Q1 u). destruct (thr s u) eqn:Eu; try discriminate; auto. assert (u = t) by (apply H3; auto; rewrite Eu; auto). congruence. }
    eapply (Hgen U2); cbn; auto; try congruence. intros _. exists u. split; auto. cbn. rewrite upd_other; auto. congruence.
  - assert (W := Q3 t (or_introl Et)). eapply (Hgen (U6 false)); cbn; auto; try congruence; try (intros d Hd; rewrite upd_other by auto; auto).
    intros _. eapply (wtr_mono s); [reflexivity| |exact W]. left. congruence.
  - eapply (Hgen U5); cbn; rewrite ?upd_same; auto; try congruence; try (intros [X|X]; discriminate); try (intros d Hd; rewrite upd_other by auto; auto).
  - eapply (Hgen Idle); cbn; rewrite ?upd_same; auto; try congruence; try (intros [X|X]; discriminate); try (intros d Hd; rewrite upd_other by auto; auto). intros _ X. destruct H2. congruence.
  - assert (W := Q3 t (or_intror Et)). eapply (Hgen Idle); cbn; rewrite ?upd_same; auto; try congruence; try (intros d Hd; rewrite upd_other by auto; auto); try (intros [X|X]; discriminate).
    intros _ _. eapply (wtr_mono s); [reflexivity| |exact W]. left. congruence.
Qed.

Lemma nstep_step : forall s l r, nstep n coh lim s l = Some r -> step n coh lim s l = Some r.
Proof. intros s [t []] r; cbn [nstep snd]; auto. discriminate. Qed.

Theorem quiet_free : forall ls s log, run (nstep n coh lim) init ls = Some (s, log) -> quiet s -> glob s = false.
Proof.
  intros ls s log H Hq.
  assert (X : exists h, accepts lock_step None log = Some h /\ (R s h /\ Q s)).
  { refine (run_refines (nstep n coh lim) lock_step (fun s h => R s h /\ Q s) init None _ _ ls s log H).
    - split; [apply R_init|]. constructor; cbn; auto; try discriminate. intros t [X|X]; discriminate.
    - intros s1 a l s2 ev [H1 H2] Hs. destruct (R_step _ _ _ _ _ H1 (nstep_step _ _ _ Hs)) as [a' [E1 E2]]. exists a'. split; auto. split; auto.
      destruct H1 as [g [HI _]]. eapply Q_step; eauto. }
  destruct X as [h [_ [[g [HI _]] HQ]]]. rewrite (i_g _ _ HI). destruct g as [c|]; auto. exfalso.
  assert (L : loc s c = false). { destruct (loc s c) eqn:E; auto. destruct (i_h _ _ HI _ E) as [t [_ [_ X]]]. rewrite Hq in X. discriminate. }
  destruct (q_fr _ HQ c L) as [u [_ U]]; [rewrite <- (i_f _ _ HI _ L); cbn; apply Nat.eqb_refl|]. rewrite Hq in U. discriminate.
Qed.

(** For the reader-writer cohort locks: who is inside keeps the global lock held. *)
Lemma ins_glob : forall ls s log t, run (step n coh lim) init ls = Some (s, log) -> ins (thr s t) = true -> glob s = true.
Proof.
  intros ls s log t H E. destruct (reach_I _ _ _ H) as [g HI]. destruct (ins_own _ _ _ HI E) as [O _].
  rewrite (i_g _ _ HI). destruct g; auto.
Qed.
End P.

Definition c2 (t : nat) : nat := if Nat.eqb t 2 then 1 else 0.
Definition st_ls : list (nat * act) :=
  [(0, ALock); (0, ATick); (0, ATick); (0, ATick); (0, ATick); (0, ATick); (1, ATry); (1, ATick);
   (0, AUnlock); (0, ATick); (1, ATick); (1, ATick); (0, ATick); (0, ATick)].

Lemma run_cons0 : forall (st : state -> nat * act -> option (state * list lev)) s l s1 ls,
  st s l = Some (s1, []) -> (exists s', run st s1 ls = Some (s', [])) -> exists s', run st s (l :: ls) = Some (s', []).
Proof. intros st s l s1 ls E [s' X]. exists s'. exact (run_cons st s l s1 [] ls s' [] E X). Qed.

Lemma spin_l5 : forall k s, thr s 2 = L5 -> glob s = true -> exists s', run (step 3 c2 (fun _ => 5%N)) s (repeat (2, ATick) k) = Some (s', []).
Proof.
  induction k; intros s E1 E2; [exists s; reflexivity|]. cbn [repeat].
  eapply run_cons0; [unfold step; rewrite E1, E2; reflexivity|]. apply IHk; auto.
Qed.

Lemma stranded : exists n coh lim ls s log,
  run (step n coh lim) init ls = Some (s, log) /\ (forall t, thr s t = Idle) /\ log = [Acq 0; Rel 0] /\ glob s = true /\
  forall k, exists s', run (step n coh lim) s ((2, ALock) :: repeat (2, ATick) k) = Some (s', []).
Proof.
  exists 3, c2, (fun _ => 5%N), st_ls.
  destruct (run (step 3 c2 (fun _ => 5%N)) init st_ls) as [[s log]|] eqn:E; [|vm_compute in E; discriminate].
  exists s, log. split; auto.
  assert (Hlog : log = [Acq 0; Rel 0]).
  { assert (X : match run (step 3 c2 (fun _ => 5%N)) init st_ls with Some (_, l) => l = [Acq 0; Rel 0] | None => False end) by (vm_compute; auto).
    rewrite E in X. auto. }
  assert (Hg : glob s = true /\ loc s 1 = false /\ rel s 1 = false /\ thr s 0 = Idle /\ thr s 1 = Idle /\ thr s 2 = Idle).
  { assert (X : match run (step 3 c2 (fun _ => 5%N)) init st_ls with Some (s, l) => glob s = true /\ loc s 1 = false /\ rel s 1 = false /\ thr s 0 = Idle /\ thr s 1 = Idle /\ thr s 2 = Idle | None => False end) by (vm_compute; tauto).
    rewrite E in X. auto. }
  destruct Hg as [Hg [Hl [Hr [T0 [T1' T2']]]]]. split; [|split; [auto|split; auto]].
  - destruct (reach_I 3 c2 (fun _ => 5%N) eq_refl _ _ _ E) as [g HI]. intros t. destruct (Nat.lt_ge_cases t 3); [|apply (i_ge _ _ _ _ HI); auto].
    destruct t as [|[|[|t]]]; auto; lia.
  - intros k. eapply run_cons0; [unfold step; rewrite T2'; reflexivity|].
    destruct k as [|k]; [eexists; reflexivity|]. cbn [repeat]. eapply run_cons0; [reflexivity|]. cbn.
    destruct k as [|k]; [eexists; reflexivity|]. cbn [repeat]. eapply run_cons0; [unfold step; cbn; rewrite upd_same; change (c2 2) with 1; cbn; rewrite Hl; reflexivity|].
    destruct k as [|k]; [eexists; reflexivity|]. cbn [repeat]. eapply run_cons0; [reflexivity|].
    destruct k as [|k]; [eexists; reflexivity|]. cbn [repeat]. eapply run_cons0; [unfold step; cbn; rewrite upd_same; change (c2 2) with 1; cbn; rewrite Hr; reflexivity|].
    apply spin_l5; auto.
Qed.

Lemma locked_swapped : exists (GI LI : N * N -> bool) l g, LI l = false /\ GI g = false /\ locked _ GI LI l g = true.
Proof.
  exists (fun w => negb (N.eqb (fst w) (snd w))), (fun w => negb (N.eqb (fst w) 0)), (0%N, 0%N), (7%N, 7%N). vm_compute. auto.
Qed.

Lemma locked_same : forall A (GI LI : A -> bool) l g, (forall x, GI x = LI x) ->
  (locked _ GI LI l g = true <-> LI l = true \/ GI g = true).
Proof. intros A GI LI l g E. unfold locked. rewrite orb_true_iff, !E. tauto. Qed.
