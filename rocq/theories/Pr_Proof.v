From Coq Require Import NArith ZArith Arith List Bool Lia.
From Verif Require Import Lib Lin Pr_Model Pr_Spec.
Import ListNotations.
Local Open Scope N_scope.
Local Arguments N.pow : simpl never.
Local Arguments upd : simpl never.

Lemma pos_m : forall k, 0 < 2 ^ width k. Proof. intros k. apply N.neq_0_lt_0, N.pow_nonzero. lia. Qed.
Lemma one_m : forall k, 1 < 2 ^ width k. Proof. destruct k; reflexivity. Qed.

Lemma arith_some : forall k z x v, arith k z x = Some v -> v = x.
Proof. intros k z x v. unfold arith. destruct k; try congruence. destruct (_ && _)%bool; congruence. Qed.
Lemma wrap_up : forall k x d, x < 2 ^ width k -> d < 2 ^ width k -> wrap k (x + d) = up (2 ^ width k) x d.
Proof.
  intros k x d X D. unfold wrap, up. set (m := 2 ^ width k) in *. destruct (N.ltb_spec (x + d) m).
  - apply N.mod_small; auto.
  - replace (x + d) with ((x + d - m) + 1 * m) by lia. rewrite N.mod_add by lia. rewrite N.mod_small by lia. lia.
Qed.
Lemma wrap_down : forall k x d, x < 2 ^ width k -> d < 2 ^ width k -> wrap k (x + 2 ^ width k - d) = down (2 ^ width k) x d.
Proof.
  intros k x d X D. unfold wrap, down. set (m := 2 ^ width k) in *. destruct (N.leb_spec d x).
  - replace (x + m - d) with (x - d + 1 * m) by lia. rewrite N.mod_add by lia. apply N.mod_small. lia.
  - apply N.mod_small. lia.
Qed.
Lemma up_lt : forall m x d, x < m -> d < m -> up m x d < m.
Proof. intros. unfold up. destruct (N.ltb_spec (x + d) m); lia. Qed.
Lemma down_lt : forall m x d, x < m -> d < m -> down m x d < m.
Proof. intros. unfold down. destruct (N.leb_spec d x); lia. Qed.

Lemma lt_bits : forall w x, (forall j, w <= j -> N.testbit x j = false) -> x < 2 ^ w.
Proof.
  intros w x H. destruct (N.eq_dec x 0) as [->|NZ]; [apply N.neq_0_lt_0, N.pow_nonzero; lia|].
  apply N.log2_lt_pow2; [lia|]. destruct (N.lt_ge_cases (N.log2 x) w) as [|G]; auto. specialize (H _ G). rewrite N.bit_log2 in H by auto. discriminate.
Qed.
Lemma bits_lt : forall w x, x < 2 ^ w -> forall j, w <= j -> N.testbit x j = false.
Proof.
  intros w x H j J. destruct (N.eq_dec x 0) as [->|NZ]; [apply N.bits_0|]. apply N.bits_above_log2.
  apply N.log2_lt_pow2 in H; lia.
Qed.
Lemma compl_sub : forall k x, x < 2 ^ width k -> compl k x = 2 ^ width k - 1 - x.
Proof.
  intros k x X. unfold compl. rewrite <- N.pred_sub, <- N.ones_equiv.
  destruct (N.eq_dec x 0) as [->|NZ]; [rewrite N.lxor_0_l; lia|].
  change (N.lnot x (width k) = N.ones (width k) - x). apply N.lnot_sub_low. apply N.log2_lt_pow2; lia.
Qed.
Lemma setbit_lt : forall w x i, x < 2 ^ w -> i < w -> N.setbit x i < 2 ^ w.
Proof. intros. apply lt_bits. intros j J. rewrite N.setbit_neq by lia. apply (bits_lt w); auto. Qed.
Lemma clearbit_lt : forall w x i, x < 2 ^ w -> N.clearbit x i < 2 ^ w.
Proof. intros. apply lt_bits. intros j J. rewrite N.clearbit_eqb, (bits_lt w) by auto. reflexivity. Qed.

Lemma set_eq : forall x i, N.lor x (N.shiftl 1 i) = N.setbit x i.
Proof. intros. reflexivity. Qed.
Lemma clear_eq : forall k x i, x < 2 ^ width k -> N.land x (compl k (N.shiftl 1 i)) = N.clearbit x i.
Proof.
  intros k x i X. unfold compl. apply N.bits_inj. intros j. rewrite N.land_spec, N.lxor_spec, N.clearbit_eqb.
  destruct (N.lt_ge_cases j (width k)) as [L|G].
  - rewrite N.ones_spec_low by auto. rewrite xorb_true_r. f_equal. f_equal. rewrite N.shiftl_1_l, N.pow2_bits_eqb. reflexivity.
  - rewrite (bits_lt (width k)) by auto. reflexivity.
Qed.
Lemma flip_eq : forall x i, N.lxor x (N.shiftl 1 i) = if N.testbit x i then N.clearbit x i else N.setbit x i.
Proof.
  intros x i. apply N.bits_inj. intros j. rewrite N.lxor_spec, N.shiftl_1_l, N.pow2_bits_eqb.
  destruct (N.testbit x i) eqn:B.
  - rewrite N.clearbit_eqb. destruct (N.eqb_spec i j); subst; [rewrite B|]; destruct (N.testbit x j); reflexivity.
  - rewrite N.setbit_eqb. destruct (N.eqb_spec i j); subst; [rewrite B|]; destruct (N.testbit x j); reflexivity.
Qed.
Lemma odd_bit : forall x i, N.odd (N.shiftr x i) = N.testbit x i.
Proof. intros. rewrite <- N.bit0_odd, N.shiftr_spec by lia. reflexivity. Qed.

Lemma land_lt : forall w x y, x < 2 ^ w -> N.land x y < 2 ^ w.
Proof. intros. apply lt_bits. intros j J. rewrite N.land_spec, (bits_lt w) by auto. reflexivity. Qed.
Lemma lor_lt : forall w x y, x < 2 ^ w -> y < 2 ^ w -> N.lor x y < 2 ^ w.
Proof. intros. apply lt_bits. intros j J. rewrite N.lor_spec, !(bits_lt w) by auto. reflexivity. Qed.
Lemma lxor_lt : forall w x y, x < 2 ^ w -> y < 2 ^ w -> N.lxor x y < 2 ^ w.
Proof. intros. apply lt_bits. intros j J. rewrite N.lxor_spec, !(bits_lt w) by auto. reflexivity. Qed.

Lemma zinc_ok : forall k x, k <> KPtr -> x < 2 ^ width k -> (x =? zinc k) = (up (2 ^ width k) x 1 =? 0).
Proof.
  intros k x NP X. pose proof (one_m k). assert (Z : zinc k = 2 ^ width k - 1) by (destruct k; try reflexivity; congruence).
  rewrite Z. unfold up. set (m := 2 ^ width k) in *. destruct (N.ltb_spec (x + 1) m); destruct (N.eqb_spec x (m - 1)); symmetry;
  [exfalso; lia|apply N.eqb_neq; lia|apply N.eqb_eq; lia|exfalso; lia].
Qed.
Lemma zdec_ok : forall m x, 1 < m -> x < m -> (x =? 1) = (down m x 1 =? 0).
Proof.
  intros m x M X. unfold down. destruct (N.leb_spec 1 x); destruct (N.eqb_spec x 1); symmetry;
  [apply N.eqb_eq; lia|apply N.eqb_neq; lia|exfalso; lia|apply N.eqb_neq; lia].
Qed.
Lemma zneg_ok : forall m x, x < m -> (x =? 0) = (down m 0 x =? 0).
Proof.
  intros m x X. unfold down. destruct (N.leb_spec x 0); destruct (N.eqb_spec x 0); symmetry;
  [apply N.eqb_eq; lia|exfalso; lia|exfalso; lia|apply N.eqb_neq; lia].
Qed.

(** the value computed by the loop is the effect *)
Lemma newval_effect : forall k o p v, (k = KPtr -> o <> Incz) -> p < 2 ^ width k -> okarg k o = true -> newval k o p = Some v ->
  effect (2 ^ width k) p o = (v, answer k o p) /\ v < 2 ^ width k.
Proof.
  intros k o p v NI P A V. pose proof (one_m k) as M1.
  assert (UP : forall d, d < 2 ^ width k -> bin k BAdd p d = Some v -> v = up (2 ^ width k) p d /\ v < 2 ^ width k).
  { intros d D E. cbn in E. apply arith_some in E. rewrite wrap_up in E by auto. subst v. split; auto. apply up_lt; auto. }
  assert (DN : forall d, d < 2 ^ width k -> bin k BSub p d = Some v -> v = down (2 ^ width k) p d /\ v < 2 ^ width k).
  { intros d D E. cbn in E. apply arith_some in E. rewrite wrap_down in E by auto. subst v. split; auto. apply down_lt; auto. }
  assert (NG : neg k p = Some v -> v = down (2 ^ width k) 0 p /\ v < 2 ^ width k).
  { intros E. unfold neg in E. apply arith_some in E. replace (2 ^ width k - p) with (0 + 2 ^ width k - p) in E by lia. rewrite wrap_down in E by lia.
    subst v. split; auto. apply down_lt; lia. }
  destruct o; cbn [newval effect answer okarg] in *; try discriminate.
  - apply N.ltb_lt in A. destruct b; cbn [bin] in V.
    + destruct (UP d A V) as [-> L]. auto.
    + destruct (DN d A V) as [-> L]. auto.
    + injection V as <-. split; auto. apply land_lt; auto.
    + injection V as <-. split; auto. apply lor_lt; auto.
    + injection V as <-. split; auto. apply lxor_lt; auto.
  - apply N.ltb_lt in A. unfold btx in V. destruct (bit1 k i) as [m|] eqn:B; [|discriminate].
    assert (m = N.shiftl 1 i) by (unfold bit1 in B; destruct k; try congruence; destruct (i =? 31); congruence). subst m.
    clear B. rewrite odd_bit. assert (V' : forall x y : N, Some x = Some y -> x = y) by congruence. apply V' in V. destruct b; subst v.
    + rewrite flip_eq. split; auto. destruct (N.testbit p i); [apply clearbit_lt|apply setbit_lt]; auto.
    + rewrite clear_eq by auto. split; auto. apply clearbit_lt; auto.
    + rewrite set_eq. split; auto. apply setbit_lt; auto.
  - destruct (UP 1 M1 V) as [-> L]. auto.
  - destruct (DN 1 M1 V) as [-> L]. auto.
  - destruct (UP 1 M1 V) as [-> L]. rewrite zinc_ok by (auto; intro; subst; apply NI; auto). auto.
  - destruct (DN 1 M1 V) as [-> L]. rewrite <- (zdec_ok (2 ^ width k) p M1 P). auto.
  - injection V as <-. rewrite compl_sub by auto. split; auto. lia.
  - destruct (NG V) as [-> L]. auto.
  - destruct (NG V) as [-> L]. rewrite <- (zneg_ok (2 ^ width k) p P). auto.
  - apply N.ltb_lt in A. destruct (UP d A V) as [-> L]. auto.
  - apply N.ltb_lt in A. injection V as <-. auto.
Qed.

(** what each thread is doing *)
Definition good (k : knd) (o : prop) : Prop := okarg k o = true /\ (k = KPtr -> o <> Incz).
Definition pinv (k : knd) (p : pc) (ph : phase prop pres) : Prop :=
  match p with
  | PIdle => ph = Idle
  | PLoad o => ph = Called o /\ good k o /\ prim o = false
  | PCas o v => ph = Called o /\ good k o /\ prim o = false
  | PPrim o => ph = Called o /\ good k o /\ prim o = true
  | PUb => (exists o, ph = Called o) /\ k = KInt
  end.
Definition inv (k : knd) (s : st) (a : N * (nat -> phase prop pres)) : Prop :=
  fst a = mem s /\ mem s < 2 ^ width k /\ forall t, pinv k (pcs s t) (snd a t).

Lemma pseq_ok : forall m x o y r, effect m x o = (y, r) -> pr_seq m x o r = Some y.
Proof. intros m x o y r E. unfold pr_seq. rewrite E. destruct (pres_dec r r); congruence. Qed.

Lemma ub_int : forall k o p, prim o = false -> newval k o p = None -> k = KInt.
Proof.
  intros k o p P V. assert (A : forall z x, arith k z x = None -> k = KInt) by (intros z x; destruct k; cbn; congruence).
  destruct o; try discriminate; cbn in V; eauto.
  - destruct b; cbn in V; try discriminate; eauto.
  - unfold btx in V. destruct (bit1 k i) eqn:B; [discriminate|]. unfold bit1 in B. destruct k; congruence.
Qed.

Lemma fin_ok : forall k s ph t o v r, inv k s (mem s, ph) -> ph t = Called o -> effect (2 ^ width k) (mem s) o = (v, r) -> v < 2 ^ width k ->
  exists a', accepts (lstep (pr_seq (2 ^ width k)) pres_dec) (mem s, ph) [Lin t r; Ret t r] = Some a' /\ inv k (mk v (upd (pcs s) t PIdle)) a'.
Proof.
  intros k s ph t o v r [_ [M T]] P E L. cbn. rewrite P, (pseq_ok _ _ _ _ _ E). cbn. rewrite upd_same. destruct (pres_dec r r); [|congruence].
  eexists. split; [reflexivity|]. split; [reflexivity|]. split; [exact L|]. intros u. cbn. destruct (Nat.eq_dec u t) as [->|NE].
  - rewrite !upd_same. reflexivity.
  - rewrite !upd_other by auto. apply (T u).
Qed.

Lemma step_inv : forall k s l s' ev a, (k = KPtr -> snd l <> ACall Incz) -> inv k s a -> pstep k s l = Some (s', ev) ->
  exists a', accepts (lstep (pr_seq (2 ^ width k)) pres_dec) a ev = Some a' /\ inv k s' a'.
Proof.
  intros k s [t c] s' ev [q ph] NI I H. assert (Q : q = mem s) by apply I. subst q. pose proof I as [_ [M T]]. cbn [snd] in T.
  assert (GO : forall p, pinv k p (ph t) -> inv k (go s t p) (mem s, ph)).
  { intros p X. split; [reflexivity|]. split; [exact M|]. intros u. cbn. destruct (Nat.eq_dec u t) as [->|NE]; [rewrite upd_same; auto|rewrite upd_other by auto; apply T]. }
  destruct c as [o|]; cbn in H.
  - specialize (T t). destruct (pcs s t) eqn:P; try discriminate. destruct (okarg k o) eqn:A; [|discriminate]. injection H as <- <-.
    cbn in T. cbn. rewrite T. eexists. split; [reflexivity|]. split; [reflexivity|]. split; [exact M|]. intros u. cbn.
    destruct (Nat.eq_dec u t) as [->|NE]; [rewrite !upd_same|rewrite !upd_other by auto; apply I].
    assert (good k o) by (split; auto; intros E X; apply (NI E); rewrite X; auto). destruct (prim o) eqn:B; cbn; auto.
  - unfold tick in H. specialize (T t). destruct (pcs s t) as [|o|o p|o|] eqn:P; try discriminate; cbn in T.
    + destruct T as [T1 [T2 T3]]. injection H as <- <-. exists (mem s, ph). split; [reflexivity|]. apply GO. cbn. auto.
    + destruct T as [T1 [T2 T3]]. destruct (newval k o p) as [v|] eqn:V.
      * destruct (N.eqb_spec (mem s) p) as [<-|NE].
        -- injection H as <- <-. destruct T2. destruct (newval_effect k o (mem s) v) as [E L]; auto. eapply fin_ok; eauto.
        -- injection H as <- <-. exists (mem s, ph). split; [reflexivity|]. apply GO. cbn. auto.
      * injection H as <- <-. exists (mem s, ph). split; [reflexivity|]. apply GO. cbn. split; [eauto|]. eapply ub_int; eauto.
    + destruct T as [T1 [[T2 _] T3]]. destruct o; try discriminate; cbn in T2; injection H as <- <-.
      * eapply fin_ok; eauto; reflexivity.
      * eapply fin_ok; [eauto|eauto|reflexivity|apply N.ltb_lt; auto].
      * apply andb_true_iff in T2. destruct T2 as [_ T2]. apply N.ltb_lt in T2. eapply fin_ok; eauto.
        { cbn. destruct (mem s =? c); reflexivity. } destruct (mem s =? c); auto.
      * apply andb_true_iff in T2. destruct T2 as [_ T2]. apply N.ltb_lt in T2. eapply fin_ok; eauto.
        { cbn. destruct (mem s =? c); reflexivity. } destruct (mem s =? c); auto.
Qed.

Lemma run_ok : forall k ls s s' log a, (k = KPtr -> forall t, ~ In (t, ACall Incz) ls) -> inv k s a -> run (pstep k) s ls = Some (s', log) ->
  exists a', accepts (lstep (pr_seq (2 ^ width k)) pres_dec) a log = Some a' /\ inv k s' a'.
Proof.
  intros k ls. induction ls as [|l ls IH]; intros s s' log a NI I R.
  - cbn in R. injection R as <- <-. exists a. split; auto.
  - cbn in R. destruct (pstep k s l) as [[s1 e1]|] eqn:E; [|discriminate]. destruct (run (pstep k) s1 ls) as [[s2 e2]|] eqn:E2; [|discriminate].
    injection R as <- <-. destruct (step_inv k s l s1 e1 a) as [a1 [A1 I1]]; auto.
    { intros K X. destruct l as [t c]. cbn in X. subst c. apply (NI K t). left. auto. }
    destruct (IH s1 s2 e2 a1) as [a2 [A2 I2]]; auto. { intros K t X. apply (NI K t). right. auto. }
    exists a2. split; auto. rewrite accepts_app, A1. exact A2.
Qed.
Lemma inv0 : forall k v, v < 2 ^ width k -> inv k (init v) (v, idle).
Proof. intros. split; [reflexivity|]. split; auto. intros t. reflexivity. Qed.

Lemma pr_lin : forall k v ls s log, v < 2 ^ width k -> (k = KPtr -> forall t, ~ In (t, ACall Incz) ls) ->
  run (pstep k) (init v) ls = Some (s, log) -> linearizable (pr_seq (2 ^ width k)) pres_dec v (history log).
Proof.
  intros. destruct (run_ok k ls (init v) s log (v, idle)) as [a [A _]]; auto using inv0. apply lin_legal_history. exists a. auto.
Qed.
Lemma pr_ub : forall k v ls s log, k <> KInt -> run (pstep k) (init v) ls = Some (s, log) -> forall t, pcs s t <> PUb.
Proof.
  intros k v ls s log NI R.
  assert (X : forall ls s0 s log, (forall t, pcs s0 t <> PUb /\ match pcs s0 t with PLoad o | PCas o _ => prim o = false | _ => True end) ->
    run (pstep k) s0 ls = Some (s, log) -> forall t, pcs s t <> PUb /\ match pcs s t with PLoad o | PCas o _ => prim o = false | _ => True end).
  { clear - NI. induction ls as [|l ls IH]; intros s0 s log H R.
    - cbn in R. injection R as <- <-. auto.
    - cbn in R. destruct (pstep k s0 l) as [[s1 e1]|] eqn:E; [|discriminate]. destruct (run (pstep k) s1 ls) as [[s2 e2]|] eqn:E2; [|discriminate].
      injection R as <- <-. eapply IH; [|exact E2]. clear IH E2. intros u. destruct l as [t c].
      assert (G : forall m p, p <> PUb -> match p with PLoad o | PCas o _ => prim o = false | _ => True end ->
         pcs (mk m (upd (pcs s0) t p)) u <> PUb /\ match pcs (mk m (upd (pcs s0) t p)) u with PLoad o | PCas o _ => prim o = false | _ => True end).
      { intros m p P1 P2. cbn. destruct (Nat.eq_dec u t) as [->|NE]; [rewrite upd_same; auto|rewrite upd_other by auto; apply H]. }
      destruct c as [o|]; cbn in E.
      + destruct (pcs s0 t); try discriminate. destruct (okarg k o); [|discriminate]. injection E as <- <-. apply G; destruct (prim o) eqn:B; try discriminate; auto.
      + unfold tick in E. destruct (H t) as [H1 H2]. destruct (pcs s0 t) as [|o|o p|o|] eqn:P; try discriminate.
        * injection E as <- <-. apply G; [discriminate|auto].
        * destruct (newval k o p) eqn:V; [|exfalso; apply NI; eapply ub_int; eauto].
          destruct (mem s0 =? p); injection E as <- <-; apply G; auto; discriminate.
        * destruct o; try discriminate; injection E as <- <-; apply G; auto; discriminate. }
  intros t. apply (X ls (init v) s log); auto. intros u. cbn. split; [discriminate|auto].
Qed.
(** no operation waits for another thread *)
Lemma pr_solo : forall k v ls s log, k <> KInt -> run (pstep k) (init v) ls = Some (s, log) -> forall t, pcs s t <> PIdle ->
  exists n s' log' r, (n <= 3)%nat /\ run (pstep k) s (repeat (t, ATick) n) = Some (s', log') /\ In (Ret t r) log' /\ pcs s' t = PIdle.
Proof.
  intros k v ls s log NI R t B.
  assert (X : forall ls s0 s log, (forall t, match pcs s0 t with PLoad o | PCas o _ => prim o = false | PPrim o => prim o = true | PUb => False | _ => True end) ->
    run (pstep k) s0 ls = Some (s, log) -> forall t, match pcs s t with PLoad o | PCas o _ => prim o = false | PPrim o => prim o = true | PUb => False | _ => True end).
  { clear - NI. induction ls as [|l ls IH]; intros s0 s log H R.
    - cbn in R. injection R as <- <-. auto.
    - cbn in R. destruct (pstep k s0 l) as [[s1 e1]|] eqn:E; [|discriminate]. destruct (run (pstep k) s1 ls) as [[s2 e2]|] eqn:E2; [|discriminate].
      injection R as <- <-. eapply IH; [|exact E2]. clear IH E2. intros u. destruct l as [t c].
      assert (G : forall m p, match p with PLoad o | PCas o _ => prim o = false | PPrim o => prim o = true | PUb => False | _ => True end ->
         match pcs (mk m (upd (pcs s0) t p)) u with PLoad o | PCas o _ => prim o = false | PPrim o => prim o = true | PUb => False | _ => True end).
      { intros m p P2. cbn. destruct (Nat.eq_dec u t) as [->|NE]; [rewrite upd_same; auto|rewrite upd_other by auto; apply H]. }
      destruct c as [o|]; cbn in E.
      + destruct (pcs s0 t); try discriminate. destruct (okarg k o); [|discriminate]. injection E as <- <-. apply G; destruct (prim o) eqn:B; auto.
      + unfold tick in E. pose proof (H t) as H2. destruct (pcs s0 t) as [|o|o p|o|] eqn:P; try discriminate.
        * injection E as <- <-. apply G. auto.
        * destruct (newval k o p) eqn:V; [|exfalso; apply NI; eapply ub_int; eauto].
          destruct (mem s0 =? p); injection E as <- <-; apply G; auto.
        * destruct o; try discriminate; injection E as <- <-; apply G; auto. }
  specialize (X ls (init v) s log). assert (Y := X ltac:(intros u; exact I) R t). clear X R.
  assert (C : forall s o, pcs s t = PCas o (mem s) -> prim o = false ->
    exists s' r, pstep k s (t, ATick) = Some (s', [Lin t r; Ret t r]) /\ pcs s' t = PIdle).
  { intros s0 o P Q. cbn. unfold tick. rewrite P. destruct (newval k o (mem s0)) eqn:V; [|exfalso; apply NI; eapply ub_int; eauto].
    rewrite N.eqb_refl. unfold fin. do 2 eexists. split; [reflexivity|]. cbn. apply upd_same. }
  destruct (pcs s t) as [|o|o p|o|] eqn:P; [congruence| | | |contradiction].
  - destruct (C (go s t (PCas o (mem s))) o) as [s' [r [E1 E2]]]; [cbn; apply upd_same|auto|]. exists 2%nat, s', [Lin t r; Ret t r], r.
    split; [lia|]. split; [|split; [right; left; auto|auto]]. assert (S1 : pstep k s (t, ATick) = Some (go s t (PCas o (mem s)), [])) by (cbn; unfold tick; rewrite P; reflexivity).
    cbn [repeat run]. rewrite S1, E1. reflexivity.
  - destruct (newval k o p) as [w|] eqn:V; [|exfalso; apply NI; eapply ub_int; eauto]. destruct (N.eqb_spec (mem s) p) as [E|E].
    + exists 1%nat, (mk w (upd (pcs s) t PIdle)), [Lin t (answer k o p); Ret t (answer k o p)], (answer k o p). split; [lia|]. split; [|split; [right; left; auto|cbn; apply upd_same]].
      cbn [repeat run pstep]. unfold tick. rewrite P, V. rewrite (proj2 (N.eqb_eq _ _) E). reflexivity.
    + destruct (C (go s t (PCas o (mem s))) o) as [s' [r [E1 E2]]]; [cbn; apply upd_same|auto|]. exists 2%nat, s', [Lin t r; Ret t r], r.
      split; [lia|]. split; [|split; [right; left; auto|auto]]. assert (S1 : pstep k s (t, ATick) = Some (go s t (PCas o (mem s)), [])) by (cbn; unfold tick; rewrite P, V, (proj2 (N.eqb_neq _ _) E); reflexivity).
      cbn [repeat run]. rewrite S1, E1. reflexivity.
  - exists 1%nat. cbn [repeat run pstep]. unfold tick. rewrite P. destruct o; try discriminate; cbn; do 3 eexists; (split; [lia|split; [reflexivity|split; [right; left; reflexivity|cbn; apply upd_same]]]).
Qed.

(** a history of one complete call is linearizable only if the object allows its answer *)
Lemma one_call : forall (Q op res : Type) (seq : Q -> op -> res -> option Q) req q t o r,
  linearizable seq req q [Call t o; Ret t r] -> exists q', seq q o r = Some q'.
Proof.
  intros Q op res seq req q t o r [log [[a A] H]].
  destruct log as [|e log]; [discriminate|]. destruct e as [t1 o1|t1 r1|t1 r1]; cbn in H, A; try discriminate.
  injection H as <- <- H. destruct log as [|e log]; [discriminate|]. destruct e as [t2 o2|t2 r2|t2 r2]; cbn in H, A; try discriminate.
  - destruct (Nat.eq_dec t2 t1) as [->|NE]; [|rewrite upd_other in A by auto; discriminate]. rewrite upd_same in A.
    destruct (seq q o1 r2) as [q'|] eqn:S; [|discriminate]. destruct log as [|e log]; [discriminate|]. destruct e as [t3 o3|t3 r3|t3 r3]; cbn in H, A; try discriminate.
    + exfalso. destruct (Nat.eq_dec t3 t1) as [->|NE]; [rewrite upd_same in A|rewrite !upd_other in A by auto]; discriminate.
    + injection H as -> -> H. rewrite upd_same in A. destruct (req r r2) as [->|]; [eauto|discriminate].
  - injection H as -> -> H. rewrite upd_same in A. discriminate.
Qed.
