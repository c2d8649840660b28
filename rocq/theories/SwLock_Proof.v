From Coq Require Import Arith List Bool ZArith Lia.
From Verif Require Import Lib LockSpec LockProg RwProg SwLock_Model.
Import ListNotations.
Local Open Scope Z_scope.

(** * Word arithmetic *)
Definition top (w l : bool) : Z := (if w then 2 else 0) + (if l then 1 else 0).
Definition enc (w l : bool) (k : Z) : Z := k + top w l * 2 ^ 30.

Lemma land_shl : forall v m k, 0 <= k -> Z.land v (Z.shiftl m k) = Z.shiftl (Z.land (Z.shiftr v k) m) k.
Proof.
  intros v m k Hk. apply Z.bits_inj'. intros i Hi.
  rewrite Z.land_spec, !Z.shiftl_spec, Z.land_spec by lia.
  destruct (Z.lt_ge_cases i k).
  - rewrite !(Z.testbit_neg_r _ (i - k)) by lia. simpl. apply andb_false_r.
  - rewrite Z.shiftr_spec by lia. f_equal. f_equal. lia.
Qed.

Lemma enc_hi : forall w l k, 0 <= k < 2 ^ 30 -> Z.shiftr (enc w l k) 30 = top w l.
Proof. intros. rewrite Z.shiftr_div_pow2 by lia. unfold enc. rewrite Z.div_add, Z.div_small; lia. Qed.

Lemma enc_wmask : forall w l k, 0 <= k < 2 ^ 30 -> Z.land (enc w l k) WMASK = top w l * 2 ^ 30.
Proof.
  intros. change WMASK with (Z.shiftl 3 30). rewrite land_shl, enc_hi by lia. destruct w, l; reflexivity.
Qed.

Lemma enc_wbit : forall w l k, 0 <= k < 2 ^ 30 -> tst (enc w l k) WBIT = w.
Proof.
  intros. unfold tst. change WBIT with (Z.shiftl 2 30). rewrite land_shl, enc_hi by lia. destruct w, l; reflexivity.
Qed.

Lemma enc_rmask : forall w l k, 0 <= k < 2 ^ 30 -> Z.land (enc w l k) RMASK = k.
Proof.
  intros. change RMASK with (Z.ones 30). rewrite Z.land_ones by lia. unfold enc. rewrite Z.mod_add, Z.mod_small; lia.
Qed.

Lemma lor_low : forall k h, 0 <= k < 2 ^ 30 -> Z.lor k (h * 2 ^ 30) = k + h * 2 ^ 30.
Proof.
  intros. rewrite <- Z.shiftl_mul_pow2 by lia.
  assert (Z.land k (Z.shiftl h 30) = 0).
  { rewrite land_shl, Z.shiftr_div_pow2, Z.div_small by lia. reflexivity. }
  rewrite <- Z.lxor_lor by auto. symmetry. apply Z.add_nocarry_lxor; auto.
Qed.

Lemma enc_lor : forall w l k, 0 <= k < 2 ^ 30 -> Z.lor (enc w l k) WBIT = enc true l k.
Proof.
  intros. unfold enc. rewrite <- !lor_low by auto. rewrite <- Z.lor_assoc. f_equal. destruct w, l; reflexivity.
Qed.

Lemma enc_inj0 : forall w l k, 0 <= k < 2 ^ 30 -> enc w l k = 0 <-> w = false /\ l = false /\ k = 0.
Proof.
  intros. unfold enc, top. change (2 ^ 30) with 1073741824 in *. destruct w, l; split; intros; try lia; destruct H0 as [? [? ?]]; try discriminate; lia.
Qed.

Lemma enc_injw : forall w l k, 0 <= k < 2 ^ 30 -> enc w l k = WBIT <-> w = true /\ l = false /\ k = 0.
Proof.
  intros. unfold enc, top, WBIT. change (2 ^ 31) with 2147483648 in *. change (2 ^ 30) with 1073741824 in *.
  destruct w, l; split; intros; try lia; destruct H0 as [? [? ?]]; try discriminate; lia.
Qed.

Lemma enc_inc : forall w l k, 0 <= k -> k + 1 < 2 ^ 30 -> inc (enc w l k) = enc w l (k + 1).
Proof.
  intros. unfold inc, enc, top. rewrite Z.mod_small; [lia|]. change (2 ^ 32) with 4294967296. change (2 ^ 30) with 1073741824 in *. destruct w, l; lia.
Qed.

Lemma enc_dec : forall w l k, 0 < k < 2 ^ 30 -> dec (enc w l k) = enc w l (k - 1).
Proof.
  intros. unfold dec, enc, top. rewrite Z.mod_small; [lia|]. change (2 ^ 32) with 4294967296. change (2 ^ 30) with 1073741824 in *. destruct w, l; lia.
Qed.

Lemma top_zero : forall w l, (top w l * 2 ^ 30 =? 0) = negb w && negb l.
Proof. destruct w, l; reflexivity. Qed.
Lemma top_wbit : forall w l, (top w l * 2 ^ 30 =? WBIT) = w && negb l.
Proof. destruct w, l; reflexivity. Qed.

Global Opaque enc tst WBIT WMASK RMASK inc dec.

(** * Invariant *)
Definition rc (p : pc) : bool := match p with RL3 | RT3 | RCrit | WD => true | _ => false end.
Definition ent (p : pc) : bool := match p with RL2 | RT2 => true | _ => false end.
Definition wset (p : pc) : bool := match p with WL2 | WCrit | WD | LT2 | LT3 | LCrit => true | _ => false end.
Definition lat (p : pc) : bool := match p with LCrit => true | _ => false end.
Definition wpc (p : pc) : bool := match p with WL1 | WL2 | WT1 | WCrit | WD | LT1 | LT2 | LT3 | LCrit => true | _ => false end.
Definition wcr (p : pc) : bool := match p with WCrit | WD | LCrit => true | _ => false end.
Definition rcr (p : pc) : bool := match p with RCrit => true | _ => false end.

Section P.
Variable n : nat.
Hypothesis Hn : Z.of_nat n < 2 ^ 30.

Definition low (p0 : pc) (k : Z) (cp : option Z) (c e : nat) : Prop :=
  if lat p0 then c = O /\ 0 <= k /\ k + Z.of_nat e <= Z.of_nat n /\
                 (forall x, cp = Some x -> exists k', x = enc true true k' /\ 0 <= k' <= k)
  else k = Z.of_nat c.

Definition words (v : Z) (cp : option Z) (thr : nat -> pc) : Prop :=
  (forall t, t <> O -> wpc (thr t) = false) /\
  exists k, v = enc (wset (thr O)) (lat (thr O)) k /\
            low (thr O) k cp (cnt (fun t => rc (thr t)) n) (cnt (fun t => ent (thr t)) n).

Notation abs := (rabs wcr rcr).
Definition xcl (thr : nat -> pc) : Prop := wcr (thr O) = true -> forall t, rcr (thr t) = false.

Definition R (s : state) (a : rwst) : Prop :=
  words (val s) (copy s) (thr s) /\ abs a (thr s) /\ (forall t, (n <= t)%nat -> thr s t = Idle).

Lemma R_init : R init rw_init.
Proof.
  split; [|split; auto].
  - split; auto. exists 0. simpl. split; [reflexivity|]. unfold low; simpl. rewrite cnt_all_false; auto.
  - split; [|split; [|split]]; simpl; try discriminate; try constructor; try tauto; discriminate.
Qed.

Lemma low_range : forall p0 k cp thr, low p0 k cp (cnt (fun t => rc (thr t)) n) (cnt (fun t => ent (thr t)) n) -> 0 <= k < 2 ^ 30.
Proof.
  intros p0 k cp th H. unfold low in H. destruct (lat p0).
  - destruct H as [_ [? [? _]]]. lia.
  - pose proof (cnt_le (fun t => rc (th t)) n). lia.
Qed.

Lemma R_step : forall s a l s' ev, R s a -> step n s l = Some (s', ev) ->
  exists a', accepts rw_step a ev = Some a' /\ R s' a'.
Proof.
  intros s a [t x] s' ev [[Hp [k [Hv Hl]]] [Ha Hge]] H. unfold step in H.
  destruct (Nat.ltb t n) eqn:Hlt; [|discriminate]. apply Nat.ltb_lt in Hlt. cbn [negb] in H.
  assert (Hlt' : forall p u, (n <= u)%nat -> upd (thr s) t p u = Idle).
  { intros. rewrite upd_other by lia. auto. }
  pose proof (low_range _ _ _ _ Hl) as Hk.
  pose proof (fun p => cnt_upd _ rc (thr s) n t p Hlt) as Crc.
  pose proof (fun p => cnt_upd _ ent (thr s) n t p Hlt) as Cen.
  pose proof (fun p => cnt_le (fun i => rc (upd (thr s) t p i)) n) as Clr.
  pose proof (fun p => cnt_le (fun i => ent (upd (thr s) t p i)) n) as Cle.
  assert (Hw0 : forall u, wcr (thr s u) = true -> u = O).
  { intros u Hu. destruct (Nat.eq_dec u O); auto. specialize (Hp u n0). destruct (thr s u); discriminate. }
  assert (Ht0 : wpc (thr s t) = true -> t = O).
  { intros Hu. destruct (Nat.eq_dec t O); auto. rewrite Hp in Hu; auto. discriminate. }
  assert (Hnoc : cnt (fun i => rc (thr s i)) n = O -> forall u, rcr (thr s u) = false).
  { intros Hz u. destruct (rcr (thr s u)) eqn:E; auto. assert (u < n)%nat. { destruct (Nat.lt_ge_cases u n); auto. rewrite Hge in E by auto. discriminate. }
    pose proof (cnt_zero _ _ Hz u H0). simpl in H1. destruct (thr s u); discriminate. }
  assert (Hnow : wset (thr s O) = false -> forall u, wcr (thr s u) = false).
  { intros E u. destruct (wcr (thr s u)) eqn:Eu; auto. pose proof (Hw0 u Eu). subst u. destruct (thr s O); discriminate. }
  (* new words for a step of a thread other than the writer's protocol *)
  assert (Wr : forall p k' v', wpc p = false -> wpc (thr s t) = false ->
     v' = enc (wset (thr s O)) (lat (thr s O)) k' ->
     (if lat (thr s O) then (rc p = true -> rc (thr s t) = true) /\ k <= k' /\ k' + (if ent p then 1 else 0) <= k + (if ent (thr s t) then 1 else 0)
      else k' + (if rc (thr s t) then 1 else 0) = k + (if rc p then 1 else 0)) ->
     words v' (copy s) (upd (thr s) t p)).
  { intros p k' v' Hp1 Hp2 Hv' Hk'. specialize (Crc p). specialize (Cen p).
    assert (E1 : wset (upd (thr s) t p O) = wset (thr s O)).
    { destruct (Nat.eq_dec t O). - subst. rewrite upd_same. destruct p, (thr s O); try reflexivity; discriminate. - rewrite upd_other; auto. }
    assert (E2 : lat (upd (thr s) t p O) = lat (thr s O)).
    { destruct (Nat.eq_dec t O). - subst. rewrite upd_same. destruct p, (thr s O); try reflexivity; discriminate. - rewrite upd_other; auto. }
    split.
    - intros u Hu. upd_goal; auto.
    - exists k'. rewrite E1, E2. split; auto. unfold low in *. rewrite E2. destruct (lat (thr s O)).
      + destruct Hl as [H1 [H2 [H3 H4]]]. destruct Hk' as [G1 [G2 G3]]. split; [|split; [|split]].
        * destruct (rc p); [specialize (G1 eq_refl); rewrite G1 in Crc|]; destruct (rc (thr s t)); lia.
        * lia.
        * destruct (ent p), (ent (thr s t)); lia.
        * intros y Hy. destruct (H4 y Hy) as [q [? ?]]. exists q. split; auto; lia.
      + destruct (rc p), (rc (thr s t)); lia. }
  (* new words for a step of the writer *)
  assert (Ww : forall p k' v' cp', t = O -> v' = enc (wset p) (lat p) k' ->
     low p k' cp' (cnt (fun i => rc (upd (thr s) t p i)) n) (cnt (fun i => ent (upd (thr s) t p i)) n) ->
     words v' cp' (upd (thr s) t p)).
  { intros p k' v' cp' -> Hv' Hl'. split; [intros; rewrite upd_other; auto|]. exists k'. rewrite upd_same. auto. }
  assert (Wk : forall p, t = O -> wset p = wset (thr s O) -> lat p = lat (thr s O) -> rc p = rc (thr s O) -> ent p = ent (thr s O) ->
     words (val s) (copy s) (upd (thr s) t p)).
  { intros p -> E1 E2 E3 E4. apply (Ww p k); auto; [congruence|]. specialize (Crc p). specialize (Cen p).
    rewrite E3 in Crc. rewrite E4 in Cen. unfold low in *. rewrite E2. destruct (lat (thr s O)); [|lia].
    destruct Hl as [? [? [? ?]]]. repeat split; auto; lia. }
  assert (Hkeep : forall v' c' p, words v' c' (upd (thr s) t p) -> wcr (thr s t) = wcr p -> rcr (thr s t) = rcr p ->
            exists a', accepts rw_step a [] = Some a' /\ R (mk v' c' (upd (thr s) t p)) a').
  { intros w' k' p Hws E1 E2. exists a. split; [reflexivity|]. split; [exact Hws|]. split; [|exact (Hlt' p)]. apply abs_same; auto. }
  assert (Hfail : forall v' c' p e, words v' c' (upd (thr s) t p) -> wcr (thr s t) = wcr p -> rcr (thr s t) = rcr p ->
            (e = WTryFail t \/ e = RTryFail t) ->
            exists a', accepts rw_step a [e] = Some a' /\ R (mk v' c' (upd (thr s) t p)) a').
  { intros w' k' p e Hws E1 E2 He. exists a. split; [destruct He; subst; reflexivity|]. split; [exact Hws|]. split; [|exact (Hlt' p)]. apply abs_same; auto. }
  assert (Hfin : forall v' c' p e, words v' c' (upd (thr s) t p) ->
      (exists a', accepts rw_step a e = Some a' /\ abs a' (upd (thr s) t p)) ->
      exists a', accepts rw_step a e = Some a' /\ R (mk v' c' (upd (thr s) t p)) a').
  { intros w' k' p e Hws [a' [H1 H2]]. exists a'. split; auto. split; [exact Hws|]. split; [exact H2|exact (Hlt' p)]. }
  unfold go, put in H. cbv zeta in H.
  assert (Wi : forall p, wpc p = false -> wpc (thr s t) = false -> rc p = false -> rc (thr s t) = false -> (ent p = true -> lat (thr s O) = false \/ ent (thr s t) = true) ->
     words (val s) (copy s) (upd (thr s) t p)).
  { intros p E1 E2 E3 E4 E5. apply (Wr p k); auto. rewrite E3, E4. destruct (lat (thr s O)); [|lia]. split; [auto|].
    split; [lia|]. destruct (ent p); [destruct E5 as [?|E5]; auto; [discriminate|rewrite E5; lia]|destruct (ent (thr s t)); lia]. }
  assert (Cdec : rc (thr s t) = true -> lat (thr s O) = false /\ 0 < k).
  { intros E. pose proof (cnt_pos (fun i => rc (thr s i)) n t Hlt E) as C. unfold low in Hl. destruct (lat (thr s O)); [lia|].
    split; auto. lia. }
  assert (Wdec : forall p, wpc p = false -> wpc (thr s t) = false -> rc (thr s t) = true -> rc p = false -> ent p = false ->
     words (dec (val s)) (copy s) (upd (thr s) t p)).
  { intros p E1 E2 E3 E4 E5. destruct (Cdec E3) as [C1 C2]. apply (Wr p (k - 1)); auto.
    - rewrite Hv. apply enc_dec. lia.
    - rewrite C1, E3, E4. lia. }
  assert (Winc : forall p, wpc p = false -> wpc (thr s t) = false -> ent (thr s t) = true -> rc (thr s t) = false ->
     ent p = false -> rc p = negb (lat (thr s O)) -> words (inc (val s)) (copy s) (upd (thr s) t p)).
  { intros p E1 E2 E3 E4 E5 E6. 
    assert (k + 1 <= Z.of_nat n).
    { unfold low in Hl. destruct (lat (thr s O)).
      - pose proof (cnt_pos (fun i => ent (thr s i)) n t Hlt E3). lia.
      - pose proof (Crc p). rewrite E4, E6 in H0. cbn in H0. pose proof (Clr p). lia. }
    apply (Wr p (k + 1)); auto.
    - rewrite Hv. apply enc_inc; lia.
    - rewrite E3, E4, E5, E6. destruct (lat (thr s O)); cbn; [|lia]. split; [discriminate|]. lia. }
  destruct (thr s t) eqn:Et; destruct x; try discriminate; try (specialize (Ht0 eq_refl); subst t).
  - (* AWLock *) destruct (Nat.eqb t 0) eqn:E0; [|discriminate]. apply Nat.eqb_eq in E0. injection H as <- <-.
    apply Hkeep; auto. apply Wk; auto; subst t; rewrite Et; auto.
  - destruct (Nat.eqb t 0) eqn:E0; [|discriminate]. apply Nat.eqb_eq in E0. injection H as <- <-.
    apply Hkeep; auto. apply Wk; auto; subst t; rewrite Et; auto.
  - destruct (Nat.eqb t 0) eqn:E0; [|discriminate]. apply Nat.eqb_eq in E0. injection H as <- <-.
    apply Hkeep; auto. apply Wk; auto; subst t; rewrite Et; auto.
  - injection H as <- <-. apply Hkeep; auto; apply Wi; auto; try discriminate.
  - injection H as <- <-. apply Hkeep; auto; apply Wi; auto; try discriminate.
  - (* WL1 *) injection H as <- <-. apply Hkeep; auto. apply (Ww WL2 k); auto.
    + rewrite Hv, enc_lor by auto. rewrite Et. reflexivity.
    + specialize (Crc WL2). unfold low in *. rewrite Et in Hl. cbn in *. lia.
  - (* WL2 *) assert (Hz : tst (val s) RMASK = negb (k =? 0)).
    { Transparent tst. unfold tst. rewrite Hv, enc_rmask by auto. reflexivity. Opaque tst. }
    rewrite Hz in H. unfold low in Hl. rewrite Et in Hl. cbn in Hl.
    destruct (Z.eqb_spec k 0) as [Ek|Ek]; cbn in H; injection H as <- <-.
    + apply Hfin; [|apply abs_wacq; auto].
      * apply Wk; auto; rewrite Et; auto.
      * apply Hnoc. lia.
      * intros u. destruct (wcr (thr s u)) eqn:Eu; auto. pose proof (Hw0 u Eu). subst u. rewrite Et in Eu. discriminate.
    + apply Hkeep; auto. apply Wk; auto; rewrite Et; auto.
  - (* WT1 *) unfold low in Hl. rewrite Et in Hl, Hv. cbn in Hl, Hv.
    destruct (Z.eqb_spec (val s) 0) as [Ek|Ek]; injection H as <- <-.
    + rewrite Hv in Ek. apply enc_inj0 in Ek; auto. destruct Ek as [_ [_ Ek]].
      apply Hfin; [|apply abs_wacq; auto].
      * apply (Ww WCrit 0); auto.
        specialize (Crc WCrit). unfold low. cbn in *. lia.
      * apply Hnoc. lia.
      * apply Hnow. rewrite Et. auto.
    + apply Hfail; auto. apply Wk; auto; rewrite Et; auto.
  - (* unlock *) injection H as <- <-. unfold low in Hl. rewrite Et in Hl, Hv. cbn in Hl, Hv.
    apply Hfin; [|apply abs_wrel; auto; rewrite Et; auto].
    apply (Ww Idle k); auto.
    + rewrite Hv, enc_rmask by auto. Transparent enc. unfold enc. simpl. lia. Opaque enc.
    + specialize (Crc Idle). unfold low. cbn in *. lia.
  - (* downgrade *) injection H as <- <-. unfold low in Hl. rewrite Et in Hl, Hv. cbn in Hl, Hv.
    specialize (Crc WD). specialize (Clr WD). cbn in Crc.
    apply Hkeep; auto. apply (Ww WD (k + 1)); auto.
    + rewrite Hv. apply enc_inc; lia.
    + unfold low. cbn in *. lia.
  - (* WD *) injection H as <- <-. unfold low in Hl. rewrite Et in Hl, Hv. cbn in Hl, Hv.
    apply Hfin; [|apply abs_down; auto; rewrite Et; auto].
    apply (Ww RCrit k); auto.
    + rewrite Hv, enc_rmask by auto. Transparent enc. unfold enc. simpl. lia. Opaque enc.
    + specialize (Crc RCrit). unfold low. cbn in *. lia.
  - (* LT1 *) injection H as <- <-. apply Hkeep; auto. apply (Ww LT2 k); auto.
    + rewrite Hv, enc_lor by auto. rewrite Et. reflexivity.
    + specialize (Crc LT2). unfold low in *. rewrite Et in Hl. cbn in *. lia.
  - (* LT2 *) unfold low in Hl. rewrite Et in Hl, Hv. cbn in Hl, Hv.
    destruct (Z.eqb_spec (val s) WBIT) as [Ek|Ek]; injection H as <- <-.
    + rewrite Hv in Ek. apply enc_injw in Ek; auto. destruct Ek as [_ [_ Ek]].
      apply Hfin; [|apply abs_wacq; auto].
      * apply (Ww LCrit 0); auto.
        specialize (Crc LCrit). specialize (Cle LCrit). unfold low. cbn in *. repeat split; try lia. discriminate.
      * apply Hnoc. lia.
      * intros u. destruct (wcr (thr s u)) eqn:Eu; auto. pose proof (Hw0 u Eu). subst u. rewrite Et in Eu. discriminate.
    + apply Hkeep; auto. apply Wk; auto; rewrite Et; auto.
  - (* LT3 *) injection H as <- <-.
    apply Hkeep; try (destruct (Z.eqb _ _); reflexivity). destruct (Z.eqb _ _); apply Wk; auto; rewrite Et; auto.
  - (* unlatch *) injection H as <- <-. unfold low in Hl. rewrite Et in Hl. cbn in Hl.
    apply Hfin; [|apply abs_wrel; auto; rewrite Et; auto].
    apply (Ww Idle 0); auto. specialize (Crc Idle). unfold low. cbn in *. lia.
  - (* copy *) injection H as <- <-. unfold low in Hl. rewrite Et in Hl, Hv. cbn in Hl, Hv.
    apply Hkeep; auto. apply (Ww LCrit k); auto.
    specialize (Crc LCrit). specialize (Cen LCrit). unfold low. cbn in *. repeat split; try lia.
    intros y Hy. injection Hy as <-. exists k. split; auto; lia.
  - (* write *) destruct (copy s) as [c|] eqn:Ec; [|discriminate]. injection H as <- <-.
    unfold low in Hl. rewrite Et in Hl, Hv. cbn in Hl, Hv. destruct Hl as [L1 [L2 [L3 L4]]].
    destruct (L4 c eq_refl) as [q [Hq1 Hq2]].
    apply Hkeep; auto. apply (Ww LCrit q); auto.
    specialize (Crc LCrit). specialize (Cen LCrit). unfold low. cbn in *. repeat split; try lia.
    intros y Hy. injection Hy as <-. exists q. split; auto; lia.
  - (* RL1 *) injection H as <- <-. rewrite Hv, enc_wbit by auto. destruct (wset (thr s O)) eqn:Ew.
    + apply Hkeep; auto. rewrite <- Hv. apply Wi; auto; try discriminate.
    + apply Hkeep; auto. rewrite <- Hv. apply Wi; auto. intros _. left. destruct (thr s O); try discriminate; reflexivity.
  - (* RL2 *) rewrite Hv in H. rewrite enc_wmask, top_zero, top_wbit in H by auto. rewrite <- Hv in H.
    destruct (wset (thr s O)) eqn:Ew, (lat (thr s O)) eqn:El; cbn in H; injection H as <- <-.
    + apply Hkeep; auto.
    + apply Hkeep; auto.
    + destruct (thr s O); discriminate.
    + apply Hfin; [apply Winc; auto|]. apply abs_racq; auto. rewrite Et. reflexivity.
  - (* RL3 *) injection H as <- <-. apply Hkeep; auto.
  - (* RT1 *) rewrite Hv, enc_wbit in H by auto. destruct (wset (thr s O)) eqn:Ew; injection H as <- <-.
    + apply Hfail; auto. rewrite <- Hv. apply Wi; auto; try discriminate.
    + apply Hkeep; auto. rewrite <- Hv. apply Wi; auto. intros _. left. destruct (thr s O); try discriminate; reflexivity.
  - (* RT2 *) rewrite Hv in H. rewrite enc_wmask, top_zero, top_wbit in H by auto. rewrite <- Hv in H.
    destruct (wset (thr s O)) eqn:Ew, (lat (thr s O)) eqn:El; cbn in H; injection H as <- <-.
    + apply Hfail; auto.
    + apply Hkeep; auto.
    + destruct (thr s O); discriminate.
    + apply Hfin; [apply Winc; auto|]. apply abs_racq; auto. rewrite Et. reflexivity.
  - (* RT3 *) injection H as <- <-. apply Hfail; auto.
  - (* runlock *) injection H as <- <-. apply Hfin; auto. apply abs_rrel; auto; rewrite Et; auto.
Qed.

Lemma sw_refines : forall ls s log, run (step n) init ls = Some (s, log) -> rw_legal log.
Proof.
  intros ls s log H. destruct (sim_run _ _ _ _ (step n) rw_step R R_step _ _ _ _ _ R_init H) as [a [Ha _]].
  exists a. auto.
Qed.

Lemma sw_reach : forall s, reachable (step n) init s -> exists a, R s a.
Proof.
  intros s [ls [log H]]. destruct (sim_run _ _ _ _ (step n) rw_step R R_step _ _ _ _ _ R_init H) as [a [_ Ha]].
  exists a. auto.
Qed.

Lemma sw_count : forall s, reachable (step n) init s -> thr s O <> LCrit ->
  (Z.land (val s) RMASK = Z.of_nat (cnt (fun t => match thr s t with RCrit | RL3 | RT3 | WD => true | _ => false end) n))%Z.
Proof.
  intros s H Hn0. destruct (sw_reach s H) as [a [[_ [k [Hv Hl]]] _]].
  pose proof (low_range _ _ _ _ Hl). rewrite Hv, enc_rmask by auto. unfold low in Hl.
  destruct (thr s O); try contradiction; cbn in Hl; rewrite Hl; f_equal; apply cnt_ext; intros; destruct (thr s i); reflexivity.
Qed.

(** * Progress *)
Definition wt (p : pc) : nat :=
  match p with
  | RL3 | RT3 | RCrit | WCrit | LCrit => 1
  | WD | WL2 | LT2 => 2
  | LT3 => 3
  | _ => 0
  end%nat.
Definition waits (p : pc) : bool := match p with WL1 | WL2 | LT1 | LT2 | LT3 | RL1 | RL2 | RL3 => true | _ => false end.
Definition acqev (p : pc) (t : nat) : rwev := match p with WL1 | WL2 | LT1 | LT2 | LT3 => WAcq t | _ => RAcq t end.

Lemma sw_progress_gen : forall e t m s,
  (exists a, R s a /\ waits (thr s t) = true /\ acqev (thr s t) t = e /\ m = wsum (fun i => wt (thr s i)) n) ->
  exists ls s' log, run (step n) s ls = Some (s', log) /\ In e log.
Proof.
  intros e t. apply (run_reach_ev _ _ _ (step n) e).
  intros s m [a [HR [Hwt [He Hm]]]].
  destruct HR as [[Hp [k [Hv Hl]]] [Ha Hge]] eqn:EHR. clear EHR.
  assert (Hin : forall u, thr s u <> Idle -> (u < n)%nat).
  { intros u Hu. destruct (Nat.lt_ge_cases u n); auto. destruct Hu; auto. }
  assert (Hltb : forall u, (u < n)%nat -> negb (Nat.ltb u n) = false) by (intros; apply negb_false_iff, Nat.ltb_lt; auto).
  assert (Hltt : (t < n)%nat) by (apply Hin; intros E; rewrite E in Hwt; discriminate).
  assert (Hnt := Hltb t Hltt).
  pose proof (low_range _ _ _ _ Hl) as Hk.
  assert (Hmove : forall u x p v' c' ev, (u < n)%nat -> step n s (u, x) = Some (mk v' c' (upd (thr s) u p), ev) ->
     (u = t -> waits p = true /\ acqev p t = acqev (thr s t) t) -> (wt p < wt (thr s u))%nat ->
     exists l s' ev m', step n s l = Some (s', ev) /\ (m' < m)%nat /\
       exists a, R s' a /\ waits (thr s' t) = true /\ acqev (thr s' t) t = e /\ m' = wsum (fun i => wt (thr s' i)) n).
  { intros u x p w' k' ev Hu Hs Ht Hd. destruct (R_step _ _ _ _ _ HR Hs) as [a' [_ HR']].
    exists (u, x), (mk w' k' (upd (thr s) u p)), ev, (wsum (fun i => wt (upd (thr s) u p i)) n). split; auto. split.
    - subst m. apply wsum_drop; auto.
    - exists a'. split; auto. simpl. destruct (Nat.eq_dec t u).
      + subst u. destruct Ht as [H1 H2]; auto. rewrite upd_same. repeat split; auto. congruence.
      + rewrite upd_other by auto. auto. }
  destruct (Nat.eq_dec (cnt (fun t => rc (thr s t)) n) 0) as [Hz|Hz].
  - (* no reader left: the writer side decides *)
    assert (Hnrc : forall u, (u < n)%nat -> rc (thr s u) = false) by (intros u Hu; apply (cnt_zero _ _ Hz u Hu)).
    destruct (wpc (thr s t)) eqn:Ewt.
    + assert (t = O). { destruct (Nat.eq_dec t O); auto. rewrite Hp in Ewt; auto. discriminate. } subst t. left.
      unfold low in Hl. rewrite Hz in Hl.
      assert (Hor : Z.lor (val s) WBIT = enc true false 0 \/ lat (thr s O) = true).
      { destruct (lat (thr s O)); auto. left. rewrite Hv, enc_lor by auto. subst k. reflexivity. }
      assert (Etst : tst (enc true false 0) RMASK = false).
      { Transparent tst. unfold tst. rewrite enc_rmask by lia. reflexivity. Opaque tst. }
      assert (Eeq : (enc true false 0 =? WBIT) = true). { apply Z.eqb_eq, enc_injw; auto. lia. }
      destruct (thr s O) eqn:Et; try discriminate; simpl in He; subst e; cbn in Hl, Hv; subst k; (destruct Hor as [Hor|Hor]; [|discriminate]).
      * eexists [(O, ATick); (O, ATick)], _, [WAcq O]. split; [|simpl; auto].
        eapply run1; [unfold step; rewrite Hnt, Et, Hor; reflexivity|].
        apply run_last. unfold step. rewrite Hnt. cbn [put thr val]. rewrite upd_same, Etst. reflexivity.
      * eexists [(O, ATick)], _, [WAcq O]. split; [|simpl; auto].
        apply run_last. unfold step. rewrite Hnt, Et, Hv, Etst. reflexivity.
      * eexists [(O, ATick); (O, ATick)], _, [WAcq O]. split; [|simpl; auto].
        eapply run1; [unfold step; rewrite Hnt, Et, Hor; reflexivity|].
        apply run_last. unfold step. rewrite Hnt. cbn [put thr val]. rewrite upd_same, Eeq. reflexivity.
      * eexists [(O, ATick)], _, [WAcq O]. split; [|simpl; auto].
        apply run_last. unfold step. rewrite Hnt, Et, Hv, Eeq. reflexivity.
      * eexists [(O, ATick); (O, ATick)], _, [WAcq O]. split; [|simpl; auto].
        eapply run1; [unfold step; rewrite Hnt, Et, Hv, Eeq; reflexivity|].
        apply run_last. unfold step. rewrite Hnt. cbn [go thr val]. rewrite upd_same, Hv, Eeq. reflexivity.
    + destruct (wset (thr s O)) eqn:Ew.
      * right. assert (Hlt0 : (0 < n)%nat) by (apply Hin; intros E; rewrite E in Ew; discriminate).
        assert (Hn0 := Hltb _ Hlt0). pose proof (Hnrc _ Hlt0) as Hrc0.
        assert (Hnt0 : O <> t) by (intros E; rewrite <- E in Ewt; destruct (thr s O); discriminate).
        unfold low in Hl. rewrite Hz in Hl.
        assert (Etst : tst (enc true false 0) RMASK = false).
        { Transparent tst. unfold tst. rewrite enc_rmask by lia. reflexivity. Opaque tst. }
        assert (Eeq : (enc true false 0 =? WBIT) = true). { apply Z.eqb_eq, enc_injw; auto. lia. }
        destruct (thr s O) eqn:E0; try discriminate; cbn in Hl, Hv; try subst k.
        -- eapply (Hmove O ATick WCrit); [auto| unfold step; rewrite Hn0, E0, Hv, Etst; unfold go; rewrite Hv; reflexivity|contradiction|rewrite E0; simpl; lia].
        -- eapply (Hmove O AWUnlock Idle); [auto| unfold step; rewrite Hn0, E0; reflexivity|contradiction|rewrite E0; simpl; lia].
        -- eapply (Hmove O ATick LCrit); [auto| unfold step; rewrite Hn0, E0, Hv, Eeq; reflexivity|contradiction|rewrite E0; simpl; lia].
        -- eapply (Hmove O ATick LT2); [auto| unfold step; rewrite Hn0, E0, Hv, Eeq; unfold go; rewrite Hv; reflexivity|contradiction|rewrite E0; simpl; lia].
        -- eapply (Hmove O AUnlatch Idle); [auto| unfold step; rewrite Hn0, E0; reflexivity|contradiction|rewrite E0; simpl; lia].
      * left. pose proof (Hnrc t Hltt) as Hrt.
        assert (El : lat (thr s O) = false) by (destruct (thr s O); try discriminate; reflexivity). rewrite El in Hv.
        assert (Etw : tst (val s) WBIT = false) by (rewrite Hv; apply enc_wbit; auto).
        assert (Ez : (Z.land (val s) WMASK =? 0) = true) by (rewrite Hv, enc_wmask, top_zero by auto; reflexivity).
        destruct (thr s t) eqn:Et; try discriminate; simpl in He; subst e.
        -- eexists [(t, ATick); (t, ATick)], _, [RAcq t]. split; [|simpl; auto].
           eapply run1; [unfold step; rewrite Hnt, Et, Etw; reflexivity|].
           apply run_last. unfold step. rewrite Hnt. cbn [go thr val]. rewrite upd_same. cbv zeta. rewrite Ez. reflexivity.
        -- eexists [(t, ATick)], _, [RAcq t]. split; [|simpl; auto].
           apply run_last. unfold step. rewrite Hnt, Et. cbv zeta. rewrite Ez. reflexivity.
  - right. destruct (cnt_exists (fun t => rc (thr s t)) n) as [u [Hu Hru]]; [lia|].
    assert (Hnu := Hltb u Hu).
    destruct (thr s u) eqn:Eu; try discriminate.
    + eapply (Hmove u ATick RCrit); [auto|unfold step; rewrite Hnu, Eu; reflexivity| |rewrite Eu; simpl; lia].
      intros; subst. rewrite Eu in Hwt. discriminate.
    + eapply (Hmove u ATick RL1); [auto|unfold step; rewrite Hnu, Eu; reflexivity| |rewrite Eu; simpl; lia].
      intros; subst. rewrite Eu. auto.
    + eapply (Hmove u ATick Idle); [auto|unfold step; rewrite Hnu, Eu; reflexivity| |rewrite Eu; simpl; lia].
      intros; subst. rewrite Eu in Hwt. discriminate.
    + eapply (Hmove u ARUnlock Idle); [auto|unfold step; rewrite Hnu, Eu; reflexivity| |rewrite Eu; simpl; lia].
      intros; subst. rewrite Eu in Hwt. discriminate.
Qed.

Lemma sw_progress_w : forall s, reachable (step n) init s -> forall t, waiting_w s t = true ->
  exists ls s' log, run (step n) s ls = Some (s', log) /\ In (WAcq t) log.
Proof.
  intros s Hre t Hw. destruct (sw_reach _ Hre) as [a HR].
  apply (sw_progress_gen (WAcq t) t (wsum (fun i => wt (thr s i)) n) s). exists a. split; [eassumption|]. unfold waiting_w in Hw.
  destruct (thr s t); try discriminate; repeat split; auto.
Qed.

Lemma sw_progress_r : forall s, reachable (step n) init s -> forall t, waiting_r s t = true ->
  exists ls s' log, run (step n) s ls = Some (s', log) /\ In (RAcq t) log.
Proof.
  intros s Hre t Hw. destruct (sw_reach _ Hre) as [a HR].
  apply (sw_progress_gen (RAcq t) t (wsum (fun i => wt (thr s i)) n) s). exists a. split; [eassumption|]. unfold waiting_r in Hw.
  destruct (thr s t); try discriminate; repeat split; auto.
Qed.
End P.
