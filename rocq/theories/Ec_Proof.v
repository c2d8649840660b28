(** Proofs about event counts. *)
From Coq Require Import ZArith Arith List Bool Lia.
From Verif Require Import Lib LockSpec LockProg Ec_Model.
Import ListNotations.
Local Open Scope Z_scope.

(** Laws of the word operations. *)
Record laws (o : wops) : Prop := {
  l_M : 0 < M o;
  l_init : forall v, 0 <= v < M o -> 0 <= winit o v < W o /\ wval o (winit o v) = v /\ wflag o (winit o v) = false;
  l_val : forall w, 0 <= w < W o -> 0 <= wval o w < M o;
  l_add : forall w d, 0 <= w < W o -> 0 <= d -> 0 <= wadd o w d < W o /\ wval o (wadd o w d) = (wval o w + d) mod M o;
  l_old : forall w, wold o w = wval o w;
  l_wake : forall w, 0 <= w < W o -> wwake o w = wflag o w /\ wincwake o w = wflag o w;
  l_clear : forall w, 0 <= w < W o -> 0 <= wclear o w < W o /\ wval o (wclear o w) = wval o w;
  l_un : forall v, 0 <= v < M o -> 0 <= wun o v < W o /\ wval o (wun o v) = v /\ wflag o (wun o v) = false;
  l_add0 : forall w, 0 <= w < W o -> wadd o w 0 = w;
  l_fl : forall v, 0 <= v < M o -> 0 <= wfl o v < W o /\ wval o (wfl o v) = v /\ wflag o (wfl o v) = true;
  l_two : forall w, 0 <= w < W o -> w = wun o (wval o w) \/ w = wfl o (wval o w)
}.

Lemma land31 : forall w, Z.land w (2 ^ 31 - 1) = w mod 2 ^ 31.
Proof. intros. change (2 ^ 31 - 1) with (Z.ones 31). apply Z.land_ones. lia. Qed.

Lemma bit31 : forall w, 0 <= w < 2 ^ 32 -> negb (Z.land w (2 ^ 31) =? 0) = (2 ^ 31 <=? w).
Proof.
  intros w Hw.
  assert (E : Z.land w (2 ^ 31) = if Z.testbit w 31 then 2 ^ 31 else 0).
  { apply Z.bits_inj'. intros n Hn. rewrite Z.land_spec. 
    destruct (Z.eq_dec n 31) as [->|Hne].
    - rewrite Z.pow2_bits_true by lia. rewrite andb_true_r. destruct (Z.testbit w 31); auto.
    - rewrite Z.pow2_bits_false by lia. rewrite andb_false_r. destruct (Z.testbit w 31).
      + rewrite Z.pow2_bits_false by lia. auto.
      + rewrite Z.bits_0. auto. }
  rewrite E. destruct (Z.leb_spec (2 ^ 31) w) as [Hl|Hl].
  - assert (Z.testbit w 31 = true) as ->; [|reflexivity].
    rewrite Z.testbit_true by lia. replace (w / 2 ^ 31) with 1; [reflexivity|].
    apply Z.div_unique with (w - 2 ^ 31); lia.
  - assert (Z.testbit w 31 = false) as ->; [|reflexivity].
    rewrite Z.testbit_false by lia. rewrite Z.div_small by lia. reflexivity.
Qed.

Lemma mod31 : forall w, 0 <= w < 2 ^ 32 -> w mod 2 ^ 31 = if 2 ^ 31 <=? w then w - 2 ^ 31 else w.
Proof.
  intros w Hw. destruct (Z.leb_spec (2 ^ 31) w).
  - symmetry. apply Z.mod_unique with 1; lia.
  - apply Z.mod_small; lia.
Qed.

Lemma lor_add : forall a b, Z.land a b = 0 -> Z.lor a b = a + b.
Proof. intros a b H. rewrite <- Z.lxor_lor by auto. symmetry. apply Z.add_nocarry_lxor. auto. Qed.

Lemma lor31 : forall v, 0 <= v < 2 ^ 31 -> Z.lor v (2 ^ 31) = v + 2 ^ 31.
Proof.
  intros v Hv. apply lor_add.
  pose proof (bit31 v ltac:(lia)) as H. destruct (Z.leb_spec (2 ^ 31) v); [lia|].
  apply negb_false_iff in H. apply Z.eqb_eq in H. auto.
Qed.

Lemma laws32 : laws ops32.
Proof.
  assert (P31 : 2 ^ 31 = 2147483648) by reflexivity. assert (P32 : 2 ^ 32 = 4294967296) by reflexivity.
  constructor; cbn [M W winit wval wflag wadd wold wwake wincwake wclear wun wfl ops32]; intros.
  - lia.
  - rewrite !land31, Zmod_mod, (Z.mod_small v) by lia. rewrite bit31 by lia.
    destruct (Z.leb_spec (2 ^ 31) v); lia.
  - rewrite land31. apply Z.mod_pos_bound. lia.
  - split; [apply Z.mod_pos_bound; lia|]. rewrite !land31.
    rewrite Z.add_mod_idemp_l by lia.
    rewrite <- (Znumtheory.Zmod_div_mod (2 ^ 31) (2 ^ 32)); try lia. exists 2. reflexivity.
  - reflexivity.
  - rewrite bit31, land31, mod31 by lia. unfold s32.
    destruct (Z.leb_spec (2 ^ 31) w) as [Hl|Hl], (Z.ltb_spec w (2 ^ 31)) as [Hl'|Hl']; try (exfalso; lia).
    + destruct (Z.eqb_spec w (w - 2 ^ 31)); [exfalso; lia|]. split; [reflexivity|]. apply Z.leb_le. lia.
    + rewrite Z.eqb_refl. split; [reflexivity|]. apply Z.leb_gt. lia.
  - rewrite !land31, Zmod_mod. pose proof (Z.mod_pos_bound w (2 ^ 31)). lia.
  - rewrite land31, Z.mod_small by lia. rewrite bit31 by lia. destruct (Z.leb_spec (2 ^ 31) v); lia.
  - rewrite Z.add_0_r. apply Z.mod_small; lia.
  - rewrite lor31 by lia. rewrite land31, bit31 by lia. rewrite mod31 by lia.
    destruct (Z.leb_spec (2 ^ 31) (v + 2 ^ 31)); lia.
  - rewrite land31. pose proof (Z.mod_pos_bound w (2 ^ 31)). rewrite lor31 by lia. rewrite mod31 by lia.
    destruct (Z.leb_spec (2 ^ 31) w); lia.
Qed.

Lemma land1 : forall w, Z.land w 1 = w mod 2.
Proof. intros. change 1 with (Z.ones 1). rewrite Z.land_ones by lia. reflexivity. Qed.

Lemma land_m2 : forall w, 0 <= w < 2 ^ 64 -> Z.land w (2 ^ 64 - 2) = 2 * (w / 2).
Proof.
  intros w Hw. change (2 ^ 64 - 2) with (Z.ones 63 * 2). 
  rewrite (Z.div_mod w 2) at 1 by lia.
  rewrite <- (Z.shiftl_mul_pow2 _ 1) by lia.
  apply Z.bits_inj'. intros n Hn. rewrite Z.land_spec.
  destruct (Z.eq_dec n 0) as [->|Hne].
  - rewrite Z.shiftl_spec_low by lia. rewrite andb_false_r. rewrite Z.testbit_even_0. auto.
  - rewrite Z.shiftl_spec by lia.
    replace n with (Z.succ (n - 1)) at 1 3 by lia.
    assert (Hb : w mod 2 = 0 \/ w mod 2 = 1) by (pose proof (Z.mod_pos_bound w 2); lia).
    rewrite Z.testbit_even_succ by lia.
    assert (H1 : Z.testbit (2 * (w / 2) + w mod 2) (Z.succ (n - 1)) = Z.testbit (w / 2) (n - 1)).
    { destruct Hb as [->| ->]; [rewrite Z.add_0_r; apply Z.testbit_even_succ; lia|apply Z.testbit_odd_succ; lia]. }
    rewrite H1. destruct (Z.lt_ge_cases (n - 1) 63).
    + rewrite Z.ones_spec_low by lia. apply andb_true_r.
    + rewrite Z.ones_spec_high by lia. rewrite andb_false_r.
      symmetry. rewrite Z.testbit_false by lia. rewrite Z.div_small; [reflexivity|].
      split; [apply Z.div_pos; lia|]. apply Z.lt_le_trans with (2 ^ 63).
      * apply Z.div_lt_upper_bound; lia.
      * apply Z.pow_le_mono_r; lia.
Qed.

Lemma lor1 : forall x, Z.lor (2 * x) 1 = 2 * x + 1.
Proof. intros. apply lor_add. rewrite land1. rewrite Z.mul_comm. apply Z.mod_mul. lia. Qed.

Lemma laws64 : laws ops64.
Proof.
  assert (P63 : 2 ^ 63 = 9223372036854775808) by reflexivity. assert (P64 : 2 ^ 64 = 18446744073709551616) by reflexivity.
  assert (Hsh : forall w, Z.shiftr w 1 = w / 2) by (intros; rewrite Z.shiftr_div_pow2 by lia; reflexivity).
  assert (H2 : forall v, 2 * v / 2 = v) by (intros; rewrite Z.mul_comm; apply Z.div_mul; lia).
  assert (H21 : forall v, (2 * v + 1) / 2 = v) by (intros; symmetry; apply Z.div_unique with 1; lia).
  assert (Hm1 : forall v, (2 * v + 1) mod 2 = 1) by (intros; symmetry; apply Z.mod_unique with v; lia).
  assert (Hm0 : forall v, (2 * v) mod 2 = 0) by (intros; rewrite Z.mul_comm; apply Z.mod_mul; lia).
  constructor; cbn [M W winit wval wflag wadd wold wwake wincwake wclear wun wfl ops64]; intros; rewrite ?Hsh.
  - lia.
  - rewrite Z.mod_small by lia. rewrite land1, (Z.mul_comm v 2), H2, Hm0. repeat split; lia.
  - split; [apply Z.div_pos; lia|apply Z.div_lt_upper_bound; lia].
  - split; [apply Z.mod_pos_bound; lia|].
    rewrite Z.add_mod_idemp_r by lia.
    assert (E : w + 2 * d = 2 * (w / 2 + d) + w mod 2) by (pose proof (Z.div_mod w 2); lia).
    assert (Hb : 0 <= w mod 2 < 2) by (apply Z.mod_pos_bound; lia).
    pose proof (Z.div_mod (w / 2 + d) (2 ^ 63) ltac:(lia)) as Hq.
    pose proof (Z.mod_pos_bound (w / 2 + d) (2 ^ 63) ltac:(lia)) as Hr.
    set (r := (w / 2 + d) mod 2 ^ 63) in *. set (q := (w / 2 + d) / 2 ^ 63) in *.
    assert (Em : (w + 2 * d) mod 2 ^ 64 = 2 * r + w mod 2).
    { symmetry. apply Z.mod_unique with q; [lia|]. rewrite E, Hq. lia. }
    rewrite Em. symmetry. apply Z.div_unique with (w mod 2); lia.
  - reflexivity.
  - split; reflexivity.
  - rewrite land_m2 by lia. rewrite H2. pose proof (Z.div_mod w 2). pose proof (Z.mod_pos_bound w 2).
    assert (0 <= w / 2) by (apply Z.div_pos; lia). lia.
  - rewrite Z.mod_small by lia. rewrite (Z.mul_comm v 2), H2, land1, Hm0. repeat split; lia.
  - change ((2 * 0) mod 2 ^ 64) with 0. rewrite Z.add_0_r. apply Z.mod_small; lia.
  - rewrite Z.mod_small by lia. rewrite (Z.mul_comm v 2), lor1, H21, land1, Hm1. repeat split; lia.
  - pose proof (Z.div_mod w 2). pose proof (Z.mod_pos_bound w 2).
    rewrite Z.mod_small by lia. rewrite (Z.mul_comm _ 2), lor1. lia.
Qed.

Section P.
Variable o : wops.
Hypothesis L : laws o.
Variable sp : bool.

(** Awaited values at the interior of wait are in range. *)
Definition inner (p : pc) : option Z :=
  match p with W1 v | W2 v | E1 v | Up v _ | E2 v | B0 v | Fx v | Sleep v | Ck v | Vl v => Some v | _ => None end.

(** * Counting *)
Definition prod (p : pc) : bool := match p with SpLd _ _ | SpSt _ _ _ | Faa _ _ => true | _ => false end.

Definition Rc (s : st) (v : Z) : Prop :=
  0 <= word s < W o /\ wval o (word s) = v /\
  (forall t p, inner (thr s t) = Some p -> 0 <= p < M o) /\
  (forall t d i, thr s t = Faa d i -> 0 <= d) /\
  (forall t d i, thr s t = SpLd d i -> 0 <= d /\ sp = true /\ t = 0%nat) /\
  (forall t d i x, thr s t = SpSt d i x -> 0 <= d /\ sp = true /\ t = 0%nat /\ 0 <= x < W o /\ wval o x = v) /\
  (forall t d i, thr s t = Faa d i -> sp = false).

Ltac sg := rewrite upd_same.

Lemma Rc_step : forall s v l s' e, Rc s v -> step o sp s l = Some (s', e) ->
  exists v', accepts (count_step (M o)) v e = Some v' /\ Rc s' v'.
Proof.
  intros s v [t a] s' e HR Hs. pose proof HR as [Hw [Hv [Hin [Hfa [Hld [Hst Hsp]]]]]].
  (* the thread moves without touching the word *)
  assert (Hgo : forall p ev', (forall q, inner p = Some q -> 0 <= q < M o) ->
     (forall d i, p = Faa d i -> 0 <= d /\ sp = false) ->
     (forall d i, p = SpLd d i -> 0 <= d /\ sp = true /\ t = 0%nat) ->
     (forall d i x, p = SpSt d i x -> 0 <= d /\ sp = true /\ t = 0%nat /\ 0 <= x < W o /\ wval o x = v) ->
     accepts (count_step (M o)) v ev' = Some v ->
     go s t p ev' = Some (s', e) -> exists v', accepts (count_step (M o)) v e = Some v' /\ Rc s' v').
  { intros p ev' H1 H2 H3 H4 Hacc Hg. unfold go in Hg. injection Hg as <- <-. exists v. split; [exact Hacc|].
    unfold Rc. simpl. split; [auto|]. split; [auto|].
    split; [intros u q Hq; unfold upd in Hq; destruct (Nat.eq_dec u t); eauto|].
    split; [intros u d i Hq; unfold upd in Hq; destruct (Nat.eq_dec u t); [apply (H2 _ _ Hq)|eauto]|].
    split; [intros u d i Hq; unfold upd in Hq; destruct (Nat.eq_dec u t) as [->|]; [apply (H3 _ _ Hq)|eauto]|].
    split; [intros u d i x Hq; unfold upd in Hq; destruct (Nat.eq_dec u t) as [->|]; [apply (H4 _ _ _ Hq)|eauto]|].
    intros u d i Hq; unfold upd in Hq; destruct (Nat.eq_dec u t); [apply (H2 _ _ Hq)|eauto]. }
  assert (Hset : forall w' p ev' v', 0 <= w' < W o -> wval o w' = v' ->
     (forall q, inner p = Some q -> 0 <= q < M o) -> prod p = false ->
     (v' = v \/ (forall u d i x, thr s u = SpSt d i x -> u = t)) ->
     accepts (count_step (M o)) v ev' = Some v' ->
     set s w' t p ev' = Some (s', e) -> exists v', accepts (count_step (M o)) v e = Some v' /\ Rc s' v').
  { intros w' p ev' v' H1 H2 H3 H4 H5 Hacc Hg. unfold set in Hg. injection Hg as <- <-. exists v'. split; [exact Hacc|].
    unfold Rc. simpl. split; [auto|]. split; [auto|].
    split; [intros u q Hq; unfold upd in Hq; destruct (Nat.eq_dec u t); eauto|].
    split; [intros u d i Hq; unfold upd in Hq; destruct (Nat.eq_dec u t); [rewrite Hq in H4; discriminate|eauto]|].
    split; [intros u d i Hq; unfold upd in Hq; destruct (Nat.eq_dec u t) as [->|]; [rewrite Hq in H4; discriminate|eauto]|].
    split; [|intros u d i Hq; unfold upd in Hq; destruct (Nat.eq_dec u t); [rewrite Hq in H4; discriminate|eauto]].
    intros u d i x Hq; unfold upd in Hq; destruct (Nat.eq_dec u t) as [->|]; [rewrite Hq in H4; discriminate|].
    destruct H5 as [->|H5]; [eapply Hst; eassumption|]. exfalso. eauto. }
  assert (Hz : accepts (count_step (M o)) v [] = Some v) by reflexivity.
  assert (Hnil : forall p, (forall q, inner p = Some q -> 0 <= q < M o) -> prod p = false ->
     go s t p [] = Some (s', e) -> exists v', accepts (count_step (M o)) v e = Some v' /\ Rc s' v').
  { intros p H1 H2 Hg. eapply Hgo with (p := p); eauto; intros; subst p; simpl in H2; discriminate H2. }
  assert (Hret : forall r, go s t Idle [ERet t r] = Some (s', e) -> exists v', accepts (count_step (M o)) v e = Some v' /\ Rc s' v').
  { intros r Hg. eapply Hgo; [| | | | |exact Hg]; try discriminate. reflexivity. }
  unfold step in Hs. destruct (thr s t) eqn:Et; destruct a; try discriminate;
    try (pose proof (Hin t _ ltac:(rewrite Et; reflexivity)) as Hr).
  - (* AAdd *)
    destruct (Z.ltb_spec d 0); [discriminate|]. destruct sp eqn:Esp.
    + destruct (Nat.eqb_spec t 0); simpl in Hs; [|discriminate].
      destruct (Z.eqb_spec d 0).
      * eapply Hnil; [| |exact Hs]; [|reflexivity]. discriminate.
      * eapply Hgo; [| | | | |exact Hs]; try reflexivity; try discriminate. intros ? ? [=]; subst; auto.
    + eapply Hgo; [| | | | |exact Hs]; try reflexivity; try discriminate. intros ? ? [=]; subst; auto.
  - (* AInc *)
    destruct sp eqn:Esp.
    + destruct (Nat.eqb_spec t 0); simpl in Hs; [|discriminate].
      eapply Hgo; [| | | | |exact Hs]; try reflexivity; try discriminate. intros ? ? [=]; subst; repeat split; auto; lia.
    + eapply Hgo; [| | | | |exact Hs]; try reflexivity; try discriminate. intros ? ? [=]; subst; repeat split; auto; lia.
  - eapply Hnil; [| |exact Hs]; [|reflexivity]. discriminate.
  - destruct (v0 <? 0); [discriminate|]. eapply Hgo; [| | | | |exact Hs]; try reflexivity; discriminate.
  - (* Faa *)
    pose proof (Hfa t d inc Et) as Hd. destruct (l_add o L (word s) d Hw Hd) as [Hw' Hv'].
    eapply Hset with (v' := (v + d) mod M o); [| | | | | |exact Hs]; [exact Hw'| | | | |].
    + congruence.
    + intros q. destruct (if inc then _ else _); discriminate.
    + destruct (if inc then _ else _); reflexivity.
    + right. intros u d' i x Hu. apply Hst in Hu. apply Hsp in Et. destruct Hu as [_ [? _]]. congruence.
    + simpl. rewrite (l_old o L), Hv, Z.eqb_refl. reflexivity.
  - (* SpLd *)
    destruct (Hld t d inc Et) as [Hd [Hsp' Ht]].
    eapply Hgo; [| | | | |exact Hs]; try reflexivity; try discriminate. intros ? ? ? [=]; subst; repeat split; auto; lia.
  - (* SpSt *)
    destruct (Hst t d inc w Et) as [Hd [Hsp' [Ht [Hx Hvx]]]]. destruct (l_add o L w d Hx Hd) as [Hw' Hv'].
    eapply Hset with (v' := (v + d) mod M o); [| | | | | |exact Hs]; [exact Hw'| | | | |].
    + congruence.
    + intros q. destruct (if inc then _ else _); discriminate.
    + destruct (if inc then _ else _); reflexivity.
    + right. intros u d' i x Hu. apply Hst in Hu. intuition congruence.
    + simpl. rewrite (l_old o L), Hvx, Z.eqb_refl. reflexivity.
  - (* Wk1 *)
    destruct (l_clear o L _ Hw) as [H1 H2]. eapply Hset with (v' := v); [| | | | | |exact Hs]; auto; try congruence; discriminate.
  - (* Wk2 *)
    injection Hs as <- <-. exists v. split; [reflexivity|]. unfold Rc. simpl.
    assert (Ha : forall u, inner (awake (thr s u)) = inner (thr s u)) by (intros u; destruct (thr s u); reflexivity).
    assert (Hb : forall u p, awake (thr s u) = p -> (forall z, p <> Ck z) -> thr s u = p).
    { intros u p. destruct (thr s u); simpl; intros <- Hz'; auto. exfalso. eapply Hz'; reflexivity. }
    split; [exact Hw|]. split; [exact Hv|].
    split; [intros u q Hq; unfold upd in Hq; destruct (Nat.eq_dec u t); [discriminate|rewrite Ha in Hq; eauto]|].
    split; [intros u d i Hq; unfold upd in Hq; destruct (Nat.eq_dec u t); [discriminate|apply Hb in Hq; [eauto|discriminate]]|].
    split; [intros u d i Hq; unfold upd in Hq; destruct (Nat.eq_dec u t); [discriminate|apply Hb in Hq; [eauto|discriminate]]|].
    split; [intros u d i x Hq; unfold upd in Hq; destruct (Nat.eq_dec u t); [discriminate|apply Hb in Hq; [eauto|discriminate]]|].
    intros u d i Hq; unfold upd in Hq; destruct (Nat.eq_dec u t); [discriminate|apply Hb in Hq; [eauto|discriminate]].
  - (* Ld *)
    eapply Hgo; [| | | | |exact Hs]; try reflexivity; try discriminate. simpl. rewrite Hv, Z.eqb_refl. reflexivity.
  - destruct (Z.eqb_spec (wval o (word s)) v0); [|eapply Hret; exact Hs].
    eapply Hnil; [| |exact Hs]; [|reflexivity]. simpl. intros q [=]; subst. apply (l_val o L). auto.
  - destruct (wval o (word s) =? v0); [|eapply Hret; exact Hs]. eapply Hnil; [| |exact Hs]; [|reflexivity]. simpl. intros q [=]; subst; auto.
  - eapply Hnil; [| |exact Hs]; [|reflexivity]. simpl. intros q [=]; subst; auto.
  - eapply Hret; exact Hs.
  - destruct (word s =? wun o v0); (eapply Hnil; [| |exact Hs]; [|reflexivity]; simpl; intros q [=]; subst; auto).
  - eapply Hnil; [| |exact Hs]; [|reflexivity]; simpl; intros q [=]; subst; auto.
  - destruct (cur =? wfl o v0); [eapply Hnil; [| |exact Hs]; [|reflexivity]; simpl; intros q [=]; subst; auto|].
    destruct (negb (cur =? wun o v0)); [eapply Hret; exact Hs|].
    destruct (Z.eqb_spec (word s) (wun o v0)) as [Ew|].
    + destruct (l_un o L v0 Hr) as [_ [U2 _]]. destruct (l_fl o L v0 Hr) as [F1 [F2 F3]].
      eapply Hset with (v' := v); [| | | | | |exact Hs]; auto; try congruence. simpl; intros q [=]; subst; auto.
    + destruct (word s =? wfl o v0); [|eapply Hret; exact Hs]. eapply Hnil; [| |exact Hs]; [|reflexivity]; simpl; intros q [=]; subst; auto.
  - destruct (word s =? wfl o v0); [|eapply Hret; exact Hs]. eapply Hnil; [| |exact Hs]; [|reflexivity]; simpl; intros q [=]; subst; auto.
  - destruct (word s =? wfl o v0); [|eapply Hret; exact Hs]. eapply Hnil; [| |exact Hs]; [|reflexivity]; simpl; intros q [=]; subst; auto.
  - eapply Hnil; [| |exact Hs]; [|reflexivity]; simpl; intros q [=]; subst; auto.
  - eapply Hret; exact Hs.
  - destruct (r =? 0); [discriminate|]. eapply Hret; exact Hs.
  - destruct (word s =? wfl o v0).
    + eapply Hgo; [| | | | |exact Hs]; try reflexivity; try discriminate. simpl; intros q [=]; subst; auto.
    + eapply Hnil; [| |exact Hs]; [|reflexivity]; simpl; intros q [=]; subst; auto.
  - eapply Hnil; [| |exact Hs]; [|reflexivity]; simpl; intros q [=]; subst; auto.
  - destruct (word s =? wfl o v0); (eapply Hnil; [| |exact Hs]; [|reflexivity]; simpl; intros q [=]; subst; auto).
  - destruct (wval o (word s) =? v0); [|eapply Hret; exact Hs]. eapply Hnil; [| |exact Hs]; [|reflexivity]; simpl; intros q [=]; subst; auto.
Qed.

Lemma Rc_init : forall v, 0 <= v < M o -> Rc (init o v) v.
Proof.
  intros v Hv. destruct (l_init o L v Hv) as [H1 [H2 H3]]. unfold Rc. simpl. repeat split; auto; try discriminate; try apply H1.
Qed.

Lemma Rc_run : forall v0 ls s log, 0 <= v0 < M o -> run (step o sp) (init o v0) ls = Some (s, log) ->
  exists v, accepts (count_step (M o)) v0 log = Some v /\ Rc s v.
Proof. intros. eapply sim_run with (R := Rc); eauto using Rc_step, Rc_init. Qed.

Lemma ec_count_gen : forall v0 ls s log, 0 <= v0 < M o -> run (step o sp) (init o v0) ls = Some (s, log) ->
  exists v, accepts (count_step (M o)) v0 log = Some v /\ wval o (word s) = v.
Proof. intros. destruct (Rc_run _ _ _ _ H H0) as [v [H1 H2]]. exists v. split; auto. apply H2. Qed.
End P.

(** * Closed form of the abstract counter *)
Fixpoint adds (log : list ev) : Z :=
  match log with [] => 0 | EAdd _ d _ :: r => d + adds r | _ :: r => adds r end.

Lemma count_sum : forall m log v v', 0 < m -> 0 <= v < m -> accepts (count_step m) v log = Some v' -> v' = (v + adds log) mod m.
Proof.
  intros m. induction log as [|e log IH]; intros v v' Hm Hv H; simpl in H.
  - inversion H; subst. simpl. rewrite Z.add_0_r, Z.mod_small; auto.
  - destruct (count_step m v e) as [v1|] eqn:E; [|discriminate].
    destruct e; simpl in E; simpl adds.
    + destruct (old =? v); [|discriminate]. inversion E; subst. apply IH in H; auto; [|apply Z.mod_pos_bound; auto].
      rewrite H, Z.add_mod_idemp_l by lia. f_equal. lia.
    + destruct (v0 =? v); [|discriminate]. inversion E; subst. auto.
    + inversion E; subst. auto.
    + inversion E; subst. auto.
    + inversion E; subst. auto.
    + inversion E; subst. auto.
    + inversion E; subst. auto.
Qed.

(** * Wake-ups (multi-producer mode) *)
Section Wake.
Variable o : wops.
Hypothesis L : laws o.

Definition waker (p : pc) : bool := match p with Wk1 | Wk2 => true | _ => false end.

Definition Iw (s : st) : Prop :=
  (exists v, Rc o false s v) /\
  forall t v, thr s t = Sleep v -> word s = wfl o v \/ exists u, waker (thr s u) = true.

Lemma waker_keep : forall s t p u, waker (thr s u) = true -> waker (thr s t) = false -> exists u', waker (upd (thr s) t p u') = true.
Proof. intros. exists u. rewrite upd_other; auto. intros ->. congruence. Qed.

Lemma Iw_step : forall s l s' e, Iw s -> step o false s l = Some (s', e) -> Iw s'.
Proof.
  intros s [t a] s' e [[v HR] Hsl] Hs. split; [destruct (Rc_step o L false _ _ _ _ _ HR Hs) as [v' [_ ?]]; eauto|].
  pose proof HR as [Hw [Hv [Hin _]]].
  (* thread moves, not to sleep, not a waker: word unchanged *)
  assert (Hgo : forall p ev', waker (thr s t) = false -> (forall v, p = Sleep v -> word s = wfl o v) ->
     go s t p ev' = Some (s', e) -> forall t v, thr s' t = Sleep v -> word s' = wfl o v \/ exists u, waker (thr s' u) = true).
  { intros p ev' H1 H2 Hg u x Hu. unfold go in Hg. injection Hg as <- <-. simpl in *. unfold upd in Hu. destruct (Nat.eq_dec u t).
    - subst. left. auto.
    - destruct (Hsl _ _ Hu) as [Hx|[y Hy]]; auto. right. eapply waker_keep; eauto. }
  unfold step in Hs. destruct (thr s t) eqn:Et; destruct a; try discriminate;
    try (eapply Hgo; [reflexivity| |eassumption]; discriminate).
  - destruct (d <? 0); [discriminate|]. eapply Hgo; [reflexivity| |eassumption]; discriminate.
  - destruct (v0 <? 0); [discriminate|]. eapply Hgo; [reflexivity| |eassumption]; discriminate.
  - (* Faa *)
    injection Hs as <- <-. simpl. intros u x Hu. right.
    assert (Hne : u <> t). { intros ->. rewrite upd_same in Hu. destruct (if inc then _ else _); discriminate. }
    rewrite upd_other in Hu by auto.
    destruct (Hsl _ _ Hu) as [Hx|[y Hy]].
    + exists t. rewrite upd_same. destruct (l_wake o L _ Hw) as [Hk1 Hk2].
      pose proof (Hin u x ltac:(rewrite Hu; reflexivity)) as Hr. destruct (l_fl o L x Hr) as [_ [_ F]].
      rewrite Hk1, Hk2, Hx, F. destruct inc; reflexivity.
    + eapply waker_keep; eauto. rewrite Et. auto.
  - exfalso. destruct HR as [_ [_ [_ [_ [_ [Hst _]]]]]]. destruct (Hst _ _ _ _ Et) as [_ [? _]]. discriminate.
  - (* Wk1 *) injection Hs as <- <-. simpl. intros u x Hu. right. exists t. rewrite upd_same. reflexivity.
  - (* Wk2 *) injection Hs as <- <-. simpl. intros u x Hu. exfalso. unfold upd in Hu. destruct (Nat.eq_dec u t); [discriminate|].
    destruct (thr s u); discriminate.
  - destruct (wval o (word s) =? v0); (eapply Hgo; [reflexivity| |eassumption]; discriminate).
  - destruct (wval o (word s) =? v0); (eapply Hgo; [reflexivity| |eassumption]; discriminate).
  - destruct (word s =? wun o v0); (eapply Hgo; [reflexivity| |eassumption]; discriminate).
  - destruct (cur =? wfl o v0); [eapply Hgo; [reflexivity| |eassumption]; discriminate|].
    destruct (negb (cur =? wun o v0)); [eapply Hgo; [reflexivity| |eassumption]; discriminate|].
    destruct (Z.eqb_spec (word s) (wun o v0)) as [Ew|].
    + injection Hs as <- <-. simpl. intros u x Hu. 
      assert (Hne : u <> t) by (intros ->; rewrite upd_same in Hu; discriminate). rewrite upd_other in Hu by auto.
      destruct (Hsl _ _ Hu) as [Hx|[y Hy]].
      * left. pose proof (Hin u x ltac:(rewrite Hu; reflexivity)) as Hr. pose proof (Hin t v0 ltac:(rewrite Et; reflexivity)) as Hr0.
        destruct (l_fl o L x Hr) as [_ [F _]]. destruct (l_un o L v0 Hr0) as [_ [U _]].
        f_equal. rewrite <- U, <- Ew, Hx. auto.
      * right. eapply waker_keep; eauto. rewrite Et. auto.
    + destruct (word s =? wfl o v0); (eapply Hgo; [reflexivity| |eassumption]; discriminate).
  - destruct (word s =? wfl o v0); (eapply Hgo; [reflexivity| |eassumption]; discriminate).
  - destruct (word s =? wfl o v0); (eapply Hgo; [reflexivity| |eassumption]; discriminate).
  - destruct (r =? 0); [discriminate|]. eapply Hgo; [reflexivity| |eassumption]; discriminate.
  - destruct (Z.eqb_spec (word s) (wfl o v0)).
    + eapply Hgo; [reflexivity| |eassumption]. intros ? [=]; subst; auto.
    + eapply Hgo; [reflexivity| |eassumption]; discriminate.
  - destruct (word s =? wfl o v0); (eapply Hgo; [reflexivity| |eassumption]; discriminate).
  - destruct (wval o (word s) =? v0); (eapply Hgo; [reflexivity| |eassumption]; discriminate).
Qed.

Lemma Iw_reach : forall v0, 0 <= v0 < M o -> forall s, reachable (step o false) (init o v0) s -> Iw s.
Proof.
  intros v0 Hv s [ls [log Hr]]. eapply run_inv_state with (I := Iw); [| |exact Hr].
  - split; [exists v0; apply Rc_init; auto|]. simpl. discriminate.
  - intros. eapply Iw_step; eauto.
Qed.

(** No lost wake-up: a sleeper whose value has changed is about to be woken. *)
Lemma no_lost_gen : forall v0, 0 <= v0 < M o -> forall s, reachable (step o false) (init o v0) s ->
  forall t v, thr s t = Sleep v -> wval o (word s) <> v ->
  exists u, waker (thr s u) = true.
Proof.
  intros v0 Hv s Hr t v Ht Hne. destruct (Iw_reach v0 Hv s Hr) as [[x HR] Hs].
  destruct (Hs _ _ Ht) as [Hw|]; auto. exfalso. apply Hne. rewrite Hw.
  destruct HR as [_ [_ [Hin _]]]. apply (l_fl o L). eapply Hin. rewrite Ht. reflexivity.
Qed.

(** ... and the waker's next two steps wake everybody. *)
Lemma waker_wakes : forall s u, waker (thr s u) = true ->
  exists ls s' log, run (step o false) s ls = Some (s', log) /\ (forall l, In l ls -> l = (u, ATick)) /\
    forall t v, thr s' t <> Sleep v.
Proof.
  intros s u Hu.
  assert (H2 : forall s, thr s u = Wk2 -> exists s', step o false s (u, ATick) = Some (s', [EWakeAll]) /\ forall t v, thr s' t <> Sleep v).
  { intros s0 H0. unfold step. rewrite H0. eexists. split; [reflexivity|]. simpl. intros t v. unfold upd.
    destruct (Nat.eq_dec t u); [discriminate|]. destruct (thr s0 t); discriminate. }
  destruct (thr s u) eqn:Et; try discriminate.
  - destruct (H2 (mk (wclear o (word s)) (upd (thr s) u Wk2))) as [s' [Hst Hn]]; [simpl; apply upd_same|].
    exists [(u, ATick); (u, ATick)], s', [EClear u; EWakeAll]. split; [|split; auto].
    + change [EClear u; EWakeAll] with ([EClear u] ++ [EWakeAll]). eapply run_cons; [unfold step; rewrite Et; reflexivity|]. apply run_last. exact Hst.
    + intros l [<-|[<-|[]]]; auto.
  - destruct (H2 s Et) as [s' [Hst Hn]]. exists [(u, ATick)], s', [EWakeAll]. split; [apply run_last; auto|]. split; auto.
    intros l [<-|[]]; auto.
Qed.
End Wake.

(** * Truthfulness of wait *)
Section Wait.
Variable o : wops.
Hypothesis L : laws o.
Variable sp : bool.

Definition waiting (p : pc) : option Z :=
  match p with W0 v => Some v | _ => inner p end.

Definition spd (p : pc) : option Z := match p with SpLd d _ | SpSt d _ _ => Some d | _ => None end.

Definition Rw (s : st) (a : wspec) : Prop :=
  Rc o sp s (sv a) /\
  (forall t v, waiting (thr s t) = Some v -> exists c, sw a t = Some (v, c) /\ (c = false -> sv a = v)) /\
  (forall t v cur, thr s t = Up v cur -> sw a t = Some (v, false) -> cur = wun o v \/ (cur = wfl o v /\ word s = wfl o v)) /\
  (forall t v, thr s t = E2 v -> sw a t = Some (v, false) -> word s = wfl o v) /\
  (forall t d, spd (thr s t) = Some d -> d <> 0).

Lemma Rw_step : forall s a l s' e, Rw s a -> step o sp s l = Some (s', e) ->
  exists a', accepts (wait_step (M o) true) a e = Some a' /\ Rw s' a'.
Proof.
  intros s a [t x] s' e [HR [Hwt [Hup [He2 Hsd]]]] Hs.
  destruct (Rc_step o L sp _ _ _ _ _ HR Hs) as [v' [Hacc HR']].
  pose proof HR as [Hw [Hv [Hin [Hfa [Hld [Hst Hsp]]]]]].
  (* internal move, no event that matters *)
  assert (Hgo : forall p ev', (forall z, accepts (wait_step (M o) true) z ev' = Some z) -> v' = sv a ->
     (waiting p = None \/ waiting p = waiting (thr s t)) ->
     (forall v cur, p = Up v cur -> sw a t = Some (v, false) -> cur = wun o v \/ (cur = wfl o v /\ word s = wfl o v)) ->
     (forall v, p = E2 v -> sw a t = Some (v, false) -> word s = wfl o v) ->
     (forall d, spd p = Some d -> d <> 0) ->
     go s t p ev' = Some (s', e) -> exists a', accepts (wait_step (M o) true) a e = Some a' /\ Rw s' a').
  { intros p ev' H1 H2 H3 H4 H5 H6 Hg. unfold go in Hg. injection Hg as <- <-. exists a. split; [apply H1|].
    subst v'. split; [exact HR'|]. simpl.
    repeat split; intros; upd_cases; subst; eauto.
    destruct H3 as [H3|H3]; [congruence|]. apply Hwt. congruence. }
  assert (Hret : forall r, (r = 0 -> exists v, sw a t = Some (v, true)) -> v' = sv a ->
     go s t Idle [ERet t r] = Some (s', e) -> exists a', accepts (wait_step (M o) true) a e = Some a' /\ Rw s' a').
  { intros r H1 H2 Hg. unfold go in Hg. injection Hg as <- <-. exists {| sv := sv a; sw := upd (sw a) t None |}. split.
    - simpl. destruct (Z.eqb_spec r 0); auto. destruct H1 as [v Hx]; auto. rewrite Hx. auto.
    - subst v'. split; [exact HR'|]. simpl. repeat split; intros; upd_cases; try discriminate; eauto. }
  assert (Hchg : forall v, waiting (thr s t) = Some v -> sv a <> v -> exists v, sw a t = Some (v, true)).
  { intros v H1 H2. destruct (Hwt _ _ H1) as [c [Hc Hcv]]. destruct c; eauto. exfalso; auto. }
  assert (Hval : v' = sv a -> forall v p, waiting (thr s t) = Some v -> waiting p = Some v ->
     (forall w cur, p <> Up w cur) -> (forall w, p <> E2 w) ->
     (if wval o (word s) =? v then go s t p [] else go s t Idle [ERet t 0]) = Some (s', e) ->
     exists a', accepts (wait_step (M o) true) a e = Some a' /\ Rw s' a').
  { intros H0 v p H1 H2 H3 H4. destruct (Z.eqb_spec (wval o (word s)) v).
    - apply Hgo; auto; try congruence; try (right; congruence);
        try (intros v1 cur E; exfalso; exact (H3 _ _ E)); try (intros v1 E; exfalso; exact (H4 _ E));
        intros d Hd; destruct p; discriminate.
    - apply Hret; auto. intros _. apply (Hchg v); auto. congruence. }
  assert (Hfal : forall v, v' = sv a -> (forall c, sw a t = Some (v, c) -> c = true) -> waiting (thr s t) = Some v ->
     go s t Idle [ERet t 0] = Some (s', e) -> exists a', accepts (wait_step (M o) true) a e = Some a' /\ Rw s' a').
  { intros v H0 H1 H2. apply Hret; auto. intros _. destruct (Hwt _ _ H2) as [c [Hc _]]. rewrite (H1 _ Hc) in Hc. eauto. }
  assert (Hnv : forall t r z, accepts (count_step (M o)) z [ERet t r] = Some z) by reflexivity.
  (* add *)
  assert (Hadd : forall d w0 p, (forall v, waiting p <> Some v) -> spd p = None -> (d = 0 -> wadd o w0 d = word s) ->
     v' = (sv a + d) mod M o -> 
     set s (wadd o w0 d) t p [EAdd t d (wold o w0)] = Some (s', e) ->
     exists a', accepts (wait_step (M o) true) a e = Some a' /\ Rw s' a').
  { intros d w0 p H1 H2 H3 H4 Hg. unfold set in Hg. injection Hg as <- <-. eexists. split; [reflexivity|].
    unfold Rw. simpl sv. simpl sw. rewrite <- H4. split; [exact HR'|]. simpl.
    assert (Hz : d = 0 -> v' = sv a).
    { intros ->. rewrite H4, Z.add_0_r. apply Z.mod_small. rewrite <- Hv. apply (l_val o L). auto. }
    repeat split; intros; upd_cases; subst; try (exfalso; eapply H1; eassumption); try (exfalso; eapply H1; reflexivity); try congruence; eauto.
    - destruct (Hwt _ _ H) as [c [Hc Hcv]]. rewrite Hc. simpl. eexists; split; [reflexivity|].
      intros Hf. apply orb_false_iff in Hf. destruct Hf as [-> Hf]. apply negb_false_iff in Hf. apply Z.eqb_eq in Hf.
      rewrite Hz by auto. auto.
    - destruct (sw a t0) as [[vv c]|] eqn:Ec; [|discriminate]. simpl in H0. injection H0 as -> Hc.
      apply orb_false_iff in Hc. destruct Hc as [-> Hf]. apply negb_false_iff in Hf. apply Z.eqb_eq in Hf.
      rewrite H3 by auto. eauto.
    - destruct (sw a t0) as [[vv c]|] eqn:Ec; [|discriminate]. simpl in H0. injection H0 as -> Hc.
      apply orb_false_iff in Hc. destruct Hc as [-> Hf]. apply negb_false_iff in Hf. apply Z.eqb_eq in Hf.
      rewrite H3 by auto. eauto. }
  unfold step in Hs. destruct (thr s t) eqn:Et; destruct x; try discriminate;
    try (pose proof (Hin t _ ltac:(rewrite Et; reflexivity)) as Hr).
  - (* AAdd *)
    destruct (Z.ltb_spec d 0); [discriminate|]. destruct sp eqn:Esp.
    + destruct (Nat.eqb_spec t 0); simpl in Hs; [|discriminate].
      destruct (Z.eqb_spec d 0).
      * assert (v' = sv a) by (unfold go in Hs; injection Hs as <- <-; simpl in Hacc; congruence).
        eapply Hgo; [| | | | | |exact Hs]; simpl; auto; try discriminate.
      * assert (v' = sv a) by (unfold go in Hs; injection Hs as <- <-; simpl in Hacc; congruence).
        eapply Hgo; [| | | | | |exact Hs]; simpl; auto; try discriminate. congruence.
    + assert (v' = sv a) by (unfold go in Hs; injection Hs as <- <-; simpl in Hacc; congruence).
      eapply Hgo; [| | | | | |exact Hs]; simpl; auto; try discriminate.
  - (* AInc *)
    destruct sp eqn:Esp.
    + destruct (Nat.eqb_spec t 0); simpl in Hs; [|discriminate].
      assert (v' = sv a) by (unfold go in Hs; injection Hs as <- <-; simpl in Hacc; congruence).
      eapply Hgo; [| | | | | |exact Hs]; simpl; auto; try discriminate. intros ? [=]; subst. discriminate.
    + assert (v' = sv a) by (unfold go in Hs; injection Hs as <- <-; simpl in Hacc; congruence).
      eapply Hgo; [| | | | | |exact Hs]; simpl; auto; try discriminate.
  - assert (v' = sv a) by (unfold go in Hs; injection Hs as <- <-; simpl in Hacc; congruence).
    eapply Hgo; [| | | | | |exact Hs]; simpl; auto; try discriminate.
  - (* AWait *)
    destruct (v <? 0); [discriminate|]. unfold go in Hs. injection Hs as <- <-.
    simpl in Hacc. injection Hacc as <-. eexists. split; [reflexivity|]. split; [exact HR'|]. simpl.
    repeat split; intros; upd_cases; subst; simpl in *; try discriminate; eauto.
    injection H as ->. eexists; split; [reflexivity|]. intros Hf. apply negb_false_iff in Hf. apply Z.eqb_eq in Hf. auto.
  - (* Faa *)
    eapply Hadd; [| | | |exact Hs]; try (destruct (if inc then _ else _); simpl; intros; congruence).
    + intros ->. apply (l_add0 o L). auto.
    + injection Hs as <- <-. simpl in Hacc. destruct (wold o (word s) =? sv a); [|discriminate]. congruence.
  - assert (v' = sv a) by (unfold go in Hs; injection Hs as <- <-; simpl in Hacc; congruence).
    eapply Hgo; [| | | | | |exact Hs]; simpl; auto; try discriminate. intros ? [=]; subst. apply (Hsd t). rewrite Et. reflexivity.
  - (* SpSt *)
    eapply Hadd; [| | | |exact Hs]; try (destruct (if inc then _ else _); simpl; intros; congruence).
    + intros ->. exfalso. eapply (Hsd t 0); auto. rewrite Et. reflexivity.
    + injection Hs as <- <-. simpl in Hacc. destruct (wold o w =? sv a); [|discriminate]. congruence.
  - (* Wk1 *)
    unfold set in Hs. injection Hs as <- <-. simpl in Hacc. injection Hacc as <-. eexists. split; [reflexivity|].
    split; [exact HR'|]. simpl. repeat split; intros; upd_cases; subst; simpl in *; try discriminate; eauto.
    + destruct (Hwt _ _ H) as [c [Hc _]]. rewrite Hc. eexists; split; [reflexivity|]. discriminate.
    + destruct (sw a t0) as [[vv c]|]; discriminate.
    + destruct (sw a t0) as [[vv c]|]; discriminate.
  - (* Wk2 *)
    injection Hs as <- <-. simpl in Hacc. injection Hacc as <-. exists a. split; [reflexivity|].
    split; [exact HR'|]. simpl.
    assert (Ha : forall u, waiting (awake (thr s u)) = waiting (thr s u)) by (intros u; destruct (thr s u); reflexivity).
    assert (Hb : forall u p, awake (thr s u) = p -> (forall z, p <> Ck z) -> thr s u = p).
    { intros u p. destruct (thr s u); simpl; intros <- Hz; auto. exfalso. eapply Hz; reflexivity. }
    repeat split; intros; upd_cases; subst; simpl in *; try discriminate.
    + rewrite Ha in H. auto.
    + eapply Hup; eauto. apply Hb; auto. discriminate.
    + eapply He2; eauto. apply Hb; auto. discriminate.
    + apply (Hsd t0). destruct (thr s t0); auto.
  - assert (v' = sv a) by (unfold go in Hs; injection Hs as <- <-; simpl in Hacc; destruct (_ =? _); congruence).
    eapply Hgo with (ev' := [EVal t (wval o (word s))]); [| | | | | |exact Hs]; simpl; auto; try discriminate.
  - assert (v' = sv a) by (destruct (wval o (word s) =? v); unfold go in Hs; injection Hs as <- <-; simpl in Hacc; congruence).
    eapply Hval; [| | | | |exact Hs]; simpl; auto; discriminate.
  - assert (v' = sv a) by (destruct (wval o (word s) =? v); unfold go in Hs; injection Hs as <- <-; simpl in Hacc; congruence).
    eapply Hval; [| | | | |exact Hs]; simpl; auto; discriminate.
  - assert (v' = sv a) by (unfold go in Hs; injection Hs as <- <-; simpl in Hacc; congruence).
    eapply Hgo; [| | | | | |exact Hs]; simpl; auto; try discriminate.
  - assert (v' = sv a) by (unfold go in Hs; injection Hs as <- <-; simpl in Hacc; congruence).
    eapply Hret; [| |exact Hs]; auto. discriminate.
  - (* E1 tick *)
    assert (v' = sv a) by (destruct (word s =? wun o v); unfold go in Hs; injection Hs as <- <-; simpl in Hacc; congruence).
    destruct (word s =? wun o v); (eapply Hgo; [| | | | | |exact Hs]; simpl; auto; try discriminate).
    intros ? ? [=]; subst. intros Hc. destruct (Hwt t v0) as [c [Hc2 Hcv]]; [rewrite Et; reflexivity|]. rewrite Hc in Hc2. injection Hc2 as <-.
    specialize (Hcv eq_refl). subst v0. rewrite <- Hv. destruct (l_two o L _ Hw) as [T|T]; auto.
  - assert (v' = sv a) by (unfold go in Hs; injection Hs as <- <-; simpl in Hacc; congruence).
    eapply Hgo; [| | | | | |exact Hs]; simpl; auto; try discriminate.
    intros ? ? [=]; subst. intros Hc. destruct (Hwt t v0) as [c [Hc2 Hcv]]; [rewrite Et; reflexivity|]. rewrite Hc in Hc2. injection Hc2 as <-.
    specialize (Hcv eq_refl). subst v0. rewrite <- Hv. destruct (l_two o L _ Hw) as [T|T]; auto.
  - (* Up *)
    assert (Hvv : v' = sv a).
    { destruct (cur =? wfl o v); [unfold go in Hs; injection Hs as <- <-; simpl in Hacc; congruence|].
      destruct (negb (cur =? wun o v)); [unfold go in Hs; injection Hs as <- <-; simpl in Hacc; congruence|].
      destruct (word s =? wun o v); [unfold set in Hs; injection Hs as <- <-; simpl in Hacc; congruence|].
      destruct (word s =? wfl o v); unfold go in Hs; injection Hs as <- <-; simpl in Hacc; congruence. }
    assert (Hcur : sw a t = Some (v, false) -> word s = wun o v \/ word s = wfl o v).
    { intros Hc. destruct (Hwt t v) as [c [Hc2 Hcv]]; [rewrite Et; reflexivity|]. rewrite Hc in Hc2. injection Hc2 as <-.
      rewrite <- (Hcv eq_refl), <- Hv. apply (l_two o L). auto. }
    assert (Hfu : forall x, 0 <= x < M o -> wfl o x <> wun o v).
    { intros x Hx Heq. destruct (l_fl o L x Hx) as [_ [_ F]]. destruct (l_un o L v Hr) as [_ [_ U]]. congruence. }
    destruct (Z.eqb_spec cur (wfl o v)) as [Ecf|Ecf].
    { eapply Hgo; [| | | | | |exact Hs]; simpl; auto; try discriminate. intros ? [=] Hc; subst.
      destruct (Hup _ _ _ Et Hc) as [E|[_ E]]; auto. exfalso. eapply Hfu; eauto. }
    destruct (Z.eqb_spec cur (wun o v)) as [Ecu|Ecu]; cbn [negb] in Hs.
    2:{ eapply (Hfal v); [| | |exact Hs]; [auto| |reflexivity]. intros [|] Hc; auto. exfalso. destruct (Hup _ _ _ Et Hc) as [E|[E _]]; auto. }
    destruct (Z.eqb_spec (word s) (wun o v)) as [Ew|Ew].
    + unfold set in Hs. injection Hs as <- <-. exists a. split; [reflexivity|]. subst v'. split; [exact HR'|]. simpl.
      repeat split; intros; upd_cases; subst; simpl in *; try discriminate; eauto.
      * injection H as ->. apply Hwt. rewrite Et. reflexivity.
      * destruct (Hup _ _ _ H H0) as [E|[E1' E2']]; auto. exfalso. rewrite E2' in Ew. eapply Hfu; [|eassumption].
        apply (Hin t0). rewrite H. reflexivity.
      * congruence.
      * exfalso. pose proof (He2 _ _ H H0) as E. rewrite E in Ew. eapply Hfu; [|eassumption].
        apply (Hin t0). rewrite H. reflexivity.
    + destruct (Z.eqb_spec (word s) (wfl o v)) as [Ew2|Ew2].
      * eapply Hgo; [| | | | | |exact Hs]; simpl; auto; try discriminate. intros ? [=] Hc; subst; auto.
      * eapply (Hfal v); [| | |exact Hs]; [auto| |reflexivity]. intros [|] Hc; auto. exfalso. destruct (Hcur Hc); auto.
  - (* E2 tick *)
    assert (v' = sv a) by (destruct (word s =? wfl o v); unfold go in Hs; injection Hs as <- <-; simpl in Hacc; congruence).
    destruct (Z.eqb_spec (word s) (wfl o v)).
    + eapply Hgo; [| | | | | |exact Hs]; simpl; auto; try discriminate. intros ? [=] Hc; subst; auto.
    + eapply (Hfal v); [| | |exact Hs]; [auto| |reflexivity]. intros [|] Hc; auto. exfalso. eauto.
  - assert (v' = sv a) by (destruct (word s =? wfl o v); unfold go in Hs; injection Hs as <- <-; simpl in Hacc; congruence).
    destruct (Z.eqb_spec (word s) (wfl o v)).
    + eapply Hgo; [| | | | | |exact Hs]; simpl; auto; try discriminate.
    + eapply (Hfal v); [| | |exact Hs]; [auto| |reflexivity]. intros [|] Hc; auto. exfalso. eauto.
  - assert (v' = sv a) by (unfold go in Hs; injection Hs as <- <-; simpl in Hacc; congruence).
    eapply Hgo; [| | | | | |exact Hs]; simpl; auto; try discriminate.
  - assert (v' = sv a) by (unfold go in Hs; injection Hs as <- <-; simpl in Hacc; congruence).
    eapply Hret; [| |exact Hs]; auto. discriminate.
  - destruct (Z.eqb_spec r 0); [discriminate|].
    assert (v' = sv a) by (unfold go in Hs; injection Hs as <- <-; simpl in Hacc; congruence).
    eapply Hret; [| |exact Hs]; auto. congruence.
  - assert (v' = sv a) by (destruct (word s =? wfl o v); unfold go in Hs; injection Hs as <- <-; simpl in Hacc; congruence).
    destruct (word s =? wfl o v).
    + eapply Hgo with (ev' := [ESleep t]); [| | | | | |exact Hs]; simpl; auto; try discriminate.
    + eapply Hgo; [| | | | | |exact Hs]; simpl; auto; try discriminate.
  - assert (v' = sv a) by (unfold go in Hs; injection Hs as <- <-; simpl in Hacc; congruence).
    eapply Hgo; [| | | | | |exact Hs]; simpl; auto; try discriminate.
  - assert (v' = sv a) by (destruct (word s =? wfl o v); unfold go in Hs; injection Hs as <- <-; simpl in Hacc; congruence).
    destruct (word s =? wfl o v); (eapply Hgo; [| | | | | |exact Hs]; simpl; auto; try discriminate).
  - assert (v' = sv a) by (destruct (wval o (word s) =? v); unfold go in Hs; injection Hs as <- <-; simpl in Hacc; congruence).
    eapply Hval; [| | | | |exact Hs]; simpl; auto; discriminate.
Qed.

Lemma ec_wait_gen : forall v0 ls s log, 0 <= v0 < M o -> run (step o sp) (init o v0) ls = Some (s, log) ->
  wait_truthful (M o) true v0 log.
Proof.
  intros v0 ls s log Hv Hr.
  assert (H0 : Rw (init o v0) {| sv := v0; sw := fun _ => None |}).
  { split; [apply Rc_init; auto|]. simpl. repeat split; intros; discriminate. }
  destruct (sim_run _ _ _ _ (step o sp) (wait_step (M o) true) Rw Rw_step ls _ _ _ _ H0 Hr) as [a [Ha _]].
  exists a. auto.
Qed.
End Wait.

(** Both widths together. *)
Definition ops (w : bool) : wops := if w then ops64 else ops32.
Lemma laws_ops : forall w, laws (ops w).
Proof. destruct w; [exact laws64|exact laws32]. Qed.

Lemma ec_counts_all : forall w sp v0 ls s log, 0 <= v0 < M (ops w) ->
  run (step (ops w) sp) (init (ops w) v0) ls = Some (s, log) ->
  counts (M (ops w)) v0 log /\ wval (ops w) (word s) = (v0 + adds log) mod M (ops w).
Proof.
  intros w sp v0 ls s log Hv Hr. destruct (ec_count_gen _ (laws_ops w) sp _ _ _ _ Hv Hr) as [v [H1 H2]].
  split; [exists v; auto|]. rewrite H2. eapply count_sum; eauto. apply (l_M _ (laws_ops w)).
Qed.

Lemma no_lost_all : forall w v0, 0 <= v0 < M (ops w) -> forall s, reachable (step (ops w) false) (init (ops w) v0) s ->
  forall t v, thr s t = Sleep v -> wval (ops w) (word s) <> v ->
  exists u ls s' log, waker (thr s u) = true /\ run (step (ops w) false) s ls = Some (s', log) /\
    (forall l, In l ls -> l = (u, ATick)) /\ forall t v, thr s' t <> Sleep v.
Proof.
  intros w v0 Hv s Hr t v Ht Hne. destruct (no_lost_gen _ (laws_ops w) _ Hv _ Hr _ _ Ht Hne) as [u Hu].
  destruct (waker_wakes (ops w) s u Hu) as [ls [s' [log H]]]. exists u, ls, s', log. tauto.
Qed.

(** Falling asleep requires the unchanged flagged word. *)
Lemma sleep_only_flagged : forall w sp s l s' t, step (ops w) sp s l = Some (s', [ESleep t]) ->
  exists v, thr s' t = Sleep v /\ word s = wfl (ops w) v /\ word s' = word s.
Proof.
  intros w sp s [t a] s' u H. unfold step, go, set in H.
  destruct (thr s t) eqn:Et; destruct a; try discriminate;
    repeat match type of H with (if ?b then _ else _) = _ => destruct b eqn:?; try discriminate end;
    try (injection H; intros; discriminate).
  injection H as <- <-. exists v. simpl. rewrite upd_same. apply Z.eqb_eq in Heqb. auto.
Qed.

Lemma ec_wait_all : forall w sp v0 ls s log, 0 <= v0 < M (ops w) ->
  run (step (ops w) sp) (init (ops w) v0) ls = Some (s, log) -> wait_truthful (M (ops w)) true v0 log.
Proof. intros w sp v0 ls s log. apply ec_wait_gen. apply laws_ops. Qed.

(** Two waiters and one producer: thread 2 waits for a change from 1, the
    producer (thread 0) is still waking for its earlier increment. *)
Definition spurious : list (nat * act) :=
  [(1, AWait 0); (1, ATick); (1, ATick); (1, ATick); (1, AStop); (1, ATick);   (* 1 flags value 0 *)
   (0, AInc); (0, ATick);                                                      (* 0 -> 1, must wake *)
   (2, AWait 1); (2, ATick); (2, ATick); (2, ATick); (2, AStop); (2, ATick);   (* 2 flags value 1 *)
   (0, ATick);                                                                 (* clears the flag *)
   (2, ATick)]%nat.

Lemma spurious_bad : forall w, exists s log,
  run (step (ops w) false) (init (ops w) 0) spurious = Some (s, log) /\
  log = [ECall 1 0; EAdd 0 1 0; ECall 2 1; EClear 0; ERet 2 0]%nat.
Proof. intros [|]; eexists _, _; (split; [vm_compute; reflexivity|reflexivity]). Qed.

Lemma spurious_untruthful : forall w, exists ls s log,
  run (step (ops w) false) (init (ops w) 0) ls = Some (s, log) /\ ~ wait_truthful (M (ops w)) false 0 log.
Proof.
  intros w. destruct (spurious_bad w) as [s [log [H1 H2]]]. exists spurious, s, log. split; auto.
  subst log. intros [a Ha]. destruct w; vm_compute in Ha; discriminate.
Qed.
