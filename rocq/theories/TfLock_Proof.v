From Coq Require Import Arith List Bool ZArith Znumtheory Lia Permutation.
From Verif Require Import Lib LockSpec LockProg RwFairSpec TfLock_Model.
Import ListNotations.
Local Open Scope Z_scope.
Local Arguments Z.modulo : simpl never.
Local Arguments Z.mul : simpl never.
Local Arguments Z.pow : simpl never.
Local Arguments Z.land : simpl never.
Local Arguments upd : simpl never.
Local Arguments Nat.ltb : simpl never.
Local Arguments Z.eqb : simpl never.

(** * Word arithmetic *)
(** The value of a 16-bit half after [x] increments. *)
Definition f (x : Z) : Z := if Z.eqb x 0 then 0 else (x - 1) mod 2 ^ 15 + 1.
Definition pk (r w : Z) : Z := f r * 2 ^ 16 + f w.

Lemma f_range : forall x, 0 <= f x <= 2 ^ 15.
Proof. intros. unfold f. destruct (x =? 0); [lia|]. pose proof (Z.mod_pos_bound (x - 1) (2 ^ 15)). lia. Qed.

Lemma f_inj : forall a b, 0 <= a <= b -> b < a + 2 ^ 15 -> f a = f b -> a = b.
Proof.
  intros a b H1 H2 E. unfold f in E. destruct (Z.eqb_spec a 0), (Z.eqb_spec b 0); try lia.
  - pose proof (Z.mod_pos_bound (b - 1) (2 ^ 15)). lia.
  - assert (H : (b - a) mod 2 ^ 15 = 0).
    { replace (b - a) with ((b - 1) - (a - 1)) by lia. rewrite Zminus_mod. replace ((b - 1) mod 2 ^ 15) with ((a - 1) mod 2 ^ 15) by lia.
      rewrite Z.sub_diag. reflexivity. }
    rewrite Z.mod_small in H; lia.
Qed.

Lemma f_next : forall x, 0 <= x -> f (x + 1) = (if Z.eqb (f x) (2 ^ 15) then 0 else f x) + 1.
Proof.
  intros. unfold f. destruct (Z.eqb_spec (x + 1) 0); [lia|]. replace (x + 1 - 1) with x by lia.
  destruct (Z.eqb_spec x 0); [subst; reflexivity|].
  pose proof (Z.mod_pos_bound (x - 1) (2 ^ 15) ltac:(lia)) as B. pose proof (Z.div_mod (x - 1) (2 ^ 15) ltac:(lia)) as D.
  set (q := (x - 1) / 2 ^ 15) in *. set (m := (x - 1) mod 2 ^ 15) in *.
  replace x with ((m + 1) + q * 2 ^ 15) by lia. rewrite Z.mod_add by lia.
  destruct (Z.eqb_spec (m + 1) (2 ^ 15)) as [E|E]; [rewrite E, Z.mod_same by lia; lia|]. rewrite Z.mod_small; lia.
Qed.

Lemma clear_mask : forall x m, 0 <= x < 2 ^ 32 -> 0 <= m -> Z.land x (Z.lxor m (2 ^ 32 - 1)) = Z.ldiff x m.
Proof.
  intros x m Hx Hm. apply Z.bits_inj'. intros i Hi. rewrite Z.land_spec, Z.lxor_spec, Z.ldiff_spec.
  change (2 ^ 32 - 1) with (Z.ones 32). destruct (Z.lt_ge_cases i 32).
  - rewrite Z.ones_spec_low by lia. rewrite xorb_true_r. auto.
  - replace (Z.testbit x i) with false; auto. symmetry. 
    destruct (Z.eq_dec x 0); [subst; apply Z.bits_0|]. apply Z.bits_above_log2; [lia|].
    apply Z.lt_le_trans with 32; auto. apply Z.log2_lt_pow2; lia.
Qed.

Lemma ldiff_bit : forall x k, 0 <= x -> 0 <= k -> Z.ldiff x (2 ^ k) = x - (if Z.testbit x k then 2 ^ k else 0).
Proof.
  intros x k Hx Hk. destruct (Z.testbit x k) eqn:E.
  - symmetry. apply Z.sub_nocarry_ldiff. apply Z.bits_inj'. intros i Hi. rewrite Z.ldiff_spec, Z.bits_0, Z.pow2_bits_eqb by lia.
    destruct (Z.eqb_spec k i); [subst; rewrite E; auto|auto].
  - rewrite Z.sub_0_r. apply Z.bits_inj'. intros i Hi. rewrite Z.ldiff_spec, Z.pow2_bits_eqb by lia.
    destruct (Z.eqb_spec k i); [subst; rewrite E; auto|]. rewrite andb_true_r. auto.
Qed.

Lemma pk_range : forall r w, 0 <= pk r w < 2 ^ 32.
Proof. intros. unfold pk. pose proof (f_range r). pose proof (f_range w). lia. Qed.

Lemma testbit_b : forall x k, 0 <= k -> Z.testbit x k = Z.eqb ((x / 2 ^ k) mod 2) 1.
Proof. intros. pose proof (Z.testbit_spec' x k H). destruct (Z.testbit x k); cbn in H0; rewrite <- H0; reflexivity. Qed.

Lemma top_bit : forall y, 0 <= y <= 2 ^ 15 -> forall z, (y / 2 ^ 15 + z * 2) mod 2 =? 1 = Z.eqb y (2 ^ 15).
Proof.
  intros. rewrite Z.mod_add by lia. destruct (Z.eqb_spec y (2 ^ 15)); [subst; reflexivity|].
  rewrite Z.div_small by lia. reflexivity.
Qed.

Lemma goal_w : forall r w, 0 <= w -> goal (pk r w) WC_TOPMSK WC_INCR = pk r (w + 1).
Proof.
  intros. unfold goal, WC_TOPMSK, WC_INCR. pose proof (pk_range r w). rewrite clear_mask, ldiff_bit, testbit_b by lia.
  pose proof (f_range r). pose proof (f_range w).
  replace (pk r w / 2 ^ 15) with (f w / 2 ^ 15 + f r * 2).
  - rewrite top_bit by lia. pose proof (f_next w H). pose proof (pk_range r (w + 1)). unfold pk in *.
    destruct (Z.eqb (f w) (2 ^ 15)) eqn:E; [apply Z.eqb_eq in E|]; rewrite Z.mod_small; lia.
  - unfold pk. replace (f r * 2 ^ 16 + f w) with (f w + (f r * 2) * 2 ^ 15) by lia. rewrite Z.div_add; lia.
Qed.

Lemma goal_r : forall r w, 0 <= r -> goal (pk r w) RC_TOPMSK RC_INCR = pk (r + 1) w.
Proof.
  intros. unfold goal, RC_TOPMSK, RC_INCR. pose proof (pk_range r w). rewrite clear_mask, ldiff_bit, testbit_b by lia.
  pose proof (f_range r). pose proof (f_range w).
  replace (pk r w / 2 ^ 31) with (f r / 2 ^ 15 + 0 * 2).
  - rewrite top_bit by lia. pose proof (f_next r H). pose proof (pk_range (r + 1) w). unfold pk in *.
    destruct (Z.eqb (f r) (2 ^ 15)) eqn:E; [apply Z.eqb_eq in E|]; rewrite Z.mod_small; lia.
  - change (2 ^ 31) with (2 ^ 16 * 2 ^ 15). rewrite <- Z.div_div by lia. unfold pk.
    replace (f r * 2 ^ 16 + f w) with (f w + f r * 2 ^ 16) by lia. rewrite Z.div_add, (Z.div_small (f w)) by lia. 
    rewrite Z.mul_0_l, Z.add_0_r. reflexivity.
Qed.

Lemma pk_w : forall r w, Z.land (pk r w) W_MASK = f w.
Proof.
  intros. change W_MASK with (Z.ones 16). rewrite Z.land_ones by lia. unfold pk. pose proof (f_range w).
  rewrite Z.add_comm, Z.mod_add, Z.mod_small; lia.
Qed.

Lemma pk_inj : forall r w r' w', pk r w = pk r' w' -> f r = f r' /\ f w = f w'.
Proof. intros. unfold pk in H. pose proof (f_range r). pose proof (f_range w). pose proof (f_range r'). pose proof (f_range w'). lia. Qed.

Global Opaque f pk goal W_MASK.

(** * Invariant *)
Section P.
Variable n : nat.
Hypothesis Hn : Z.of_nat n < 2 ^ 15.

Fixpoint snaps (q : list (bool * nat)) (ws rs : Z) (thr : nat -> pc) : Prop :=
  match q with
  | [] => True
  | (true, t) :: q => thr t = WWait (pk rs ws) /\ snaps q (ws + 1) rs thr
  | (false, t) :: q => thr t = RWait (f ws) /\ snaps q ws (rs + 1) thr
  end.

Definition nw (q : list (bool * nat)) : Z := Z.of_nat (length (filter fst q)).
Definition nr (q : list (bool * nat)) : Z := Z.of_nat (length (filter (fun x => negb (fst x)) q)).
Definition hn (h : option nat) : list nat := match h with Some t => [t] | None => [] end.
Definition zl {A} (l : list A) : Z := Z.of_nat (length l).

Definition all (a : tfst) : list nat := hn (tf_h a) ++ tf_r a ++ map snd (tf_q a).
Definition kind (p : pc) : nat := match p with WCrit | WU _ => 1 | RCrit | RU _ => 2 | WWait _ | RWait _ => 3 | _ => 0 end.

Record R (s : state) (a : tfst) : Prop := mkR {
  i_w : exists CR CW, 0 <= CR /\ 0 <= CW /\ comp s = pk CR CW /\
    req s = pk (CR + zl (tf_r a) + nr (tf_q a)) (CW + zl (hn (tf_h a)) + nw (tf_q a)) /\
    snaps (tf_q a) (CW + zl (hn (tf_h a))) (CR + zl (tf_r a)) (thr s);
  i_nd : NoDup (all a);
  i_h : forall t, In t (hn (tf_h a)) <-> kind (thr s t) = 1%nat;
  i_r : forall t, In t (tf_r a) <-> kind (thr s t) = 2%nat;
  i_q : forall t, In t (map snd (tf_q a)) <-> kind (thr s t) = 3%nat;
  i_x : tf_h a <> None -> tf_r a = [];
  i_ge : forall t, (n <= t)%nat -> thr s t = Idle }.

Lemma R_init : R init tf_init.
Proof.
  constructor; cbn; auto; try (intros; split; [tauto|discriminate]); [|constructor].
  exists 0, 0. repeat split; auto; lia.
Qed.

Lemma len_all : forall s a, R s a -> zl (hn (tf_h a)) + zl (tf_r a) + zl (tf_q a) <= Z.of_nat n.
Proof.
  intros s a HR. pose proof (nodup_bound (all a) n (i_nd _ _ HR)) as B. unfold all in B. rewrite !app_length, map_length in B. unfold zl.
  assert (H : (length (hn (tf_h a)) + (length (tf_r a) + length (tf_q a)) <= n)%nat); [|lia]. apply B.
  intros t Ht. destruct (Nat.lt_ge_cases t n) as [|Hge]; auto. exfalso. pose proof (i_ge _ _ HR t Hge) as E.
  rewrite !in_app_iff, (i_h _ _ HR), (i_r _ _ HR), (i_q _ _ HR), E in Ht. cbn in Ht. intuition discriminate.
Qed.

Lemma qsum : forall q, nw q + nr q = zl q.
Proof. unfold nw, nr, zl. induction q as [|[[|] t] q IH]; cbn [filter fst negb length] in *; lia. Qed.
Lemma nw_nn : forall q, 0 <= nw q. Proof. unfold nw; lia. Qed.
Lemma nr_nn : forall q, 0 <= nr q. Proof. unfold nr; lia. Qed.
Lemma nw_app : forall p q, nw (p ++ q) = nw p + nw q. Proof. intros. unfold nw. rewrite filter_app, app_length. lia. Qed.
Lemma nr_app : forall p q, nr (p ++ q) = nr p + nr q. Proof. intros. unfold nr. rewrite filter_app, app_length. lia. Qed.

Lemma snaps_app : forall p q ws rs th, snaps (p ++ q) ws rs th <-> snaps p ws rs th /\ snaps q (ws + nw p) (rs + nr p) th.
Proof.
  induction p as [|[[|] t] p IH]; intros; cbn [app snaps].
  - unfold nw, nr; cbn. rewrite !Z.add_0_r. tauto.
  - rewrite IH. replace (ws + 1 + nw p) with (ws + nw ((true, t) :: p)) by (unfold nw; cbn [filter fst length]; lia).
    replace (rs + nr ((true, t) :: p)) with (rs + nr p) by (unfold nr; cbn [filter fst negb length]; lia). tauto.
  - rewrite IH. replace (rs + 1 + nr p) with (rs + nr ((false, t) :: p)) by (unfold nr; cbn [filter fst negb length]; lia).
    replace (ws + nw ((false, t) :: p)) with (ws + nw p) by (unfold nw; cbn [filter fst length]; lia). tauto.
Qed.

Lemma snaps_ext : forall q ws rs th th', (forall t, In t (map snd q) -> th' t = th t) -> snaps q ws rs th -> snaps q ws rs th'.
Proof.
  induction q as [|[[|] t] q IH]; intros ws rs th th' H Hs; cbn [snaps] in *; auto; destruct Hs as [H1 H2];
    (split; [rewrite H; auto; cbn; auto|]; eapply IH; [|eassumption]; intros u Hu; apply H; cbn; auto).
Qed.

Lemma snaps_upd : forall q ws rs th t p, ~ In t (map snd q) -> snaps q ws rs th -> snaps q ws rs (upd th t p).
Proof. intros. eapply snaps_ext; [|eassumption]. intros u Hu. apply upd_other. intros ->. auto. Qed.

Lemma snaps_in : forall q ws rs th t, snaps q ws rs th -> In t (map snd q) ->
  exists pre w post, q = pre ++ (w, t) :: post /\
   (if w : bool then thr (mk 0 0 th) t = WWait (pk (rs + nr pre) (ws + nw pre)) else th t = RWait (f (ws + nw pre))).
Proof.
  intros q ws rs th t Hs Hin. apply in_map_iff in Hin. destruct Hin as [[w u] [E Hin]]. cbn in E. subst u.
  apply in_split in Hin. destruct Hin as [pre [post ->]]. exists pre, w, post. split; auto.
  apply snaps_app in Hs. destruct Hs as [_ Hs]. destruct w; cbn [snaps] in Hs; apply Hs.
Qed.

Lemma take_reader_pre : forall pre t post, nw pre = 0 -> ~ In t (map snd pre) ->
  take_reader t (pre ++ (false, t) :: post) = Some (pre ++ post).
Proof.
  induction pre as [|[[|] u] pre IH]; intros t post H Hni; cbn.
  - rewrite Nat.eqb_refl. auto.
  - unfold nw in H; cbn [filter fst length] in H. lia.
  - destruct (Nat.eqb_spec t u); [subst; destruct Hni; cbn; auto|]. rewrite IH; auto. intros G; apply Hni; cbn; auto.
Qed.

Lemma snaps_ws : forall q ws rs rs' th, nw q = 0 -> snaps q ws rs th -> snaps q ws rs' th.
Proof.
  induction q as [|[[|] t] q IH]; intros ws rs rs' th H Hs; cbn [snaps] in *; auto.
  - unfold nw in H; cbn [filter fst length] in H. lia.
  - destruct Hs. split; auto. apply IH with (rs := rs + 1); auto.
Qed.

(** A step that changes neither words nor the class of the thread. *)
Lemma R_same : forall s a t p, R s a -> (t < n)%nat -> kind p = kind (thr s t) -> (kind p = 3%nat -> p = thr s t) ->
  R (go s t p) a.
Proof.
  intros s a t p HR Hlt Hk H3. assert (HR' := HR). destruct HR' as [[CR [CW [C1 [C2 [Hc [Hr Hs]]]]]] Hnd Hh Hre Hq Hx Hge].
  assert (Ek : forall u, kind (upd (thr s) t p u) = kind (thr s u)) by (intros u; upd_goal; subst; auto).
  constructor; cbn; auto; try (intros u; rewrite Ek; auto).
  - exists CR, CW. repeat (split; auto). eapply snaps_ext; [|eassumption]. intros u Hu. upd_goal; auto. subst. apply H3.
    apply Hq in Hu. congruence.
  - intros u Hu. rewrite upd_other by lia. auto.
Qed.

Lemma nodup_move : forall (A B C : list nat) t, NoDup (A ++ B ++ t :: C) -> NoDup (A ++ t :: B ++ C).
Proof.
  intros A B C t H. rewrite app_assoc in H. apply NoDup_remove in H. rewrite <- !app_assoc in H. destruct H as [H1 H2].
  assert (NoDup (t :: A ++ B ++ C)) by (constructor; auto).
  eapply Permutation_NoDup; [|exact H]. apply Permutation_middle.
Qed.

Lemma R_step : forall s a l s' ev, R s a -> step n s l = Some (s', ev) ->
  exists a', accepts tf_step a ev = Some a' /\ R s' a'.
Proof.
  intros s a [t x] s' ev HR H. pose proof (len_all _ _ HR) as Hlen. pose proof (qsum (tf_q a)) as Hqs.
  pose proof (nw_nn (tf_q a)). pose proof (nr_nn (tf_q a)).
  assert (HR' := HR). destruct HR' as [[CR [CW [C1 [C2 [Hc [Hr Hs]]]]]] Hnd Hh Hre Hq Hx Hge]. unfold step in H.
  destruct (Nat.ltb t n) eqn:Hlt; [|discriminate]. apply Nat.ltb_lt in Hlt. cbn [negb] in H.
  assert (Hge' : forall p u, (n <= u)%nat -> upd (thr s) t p u = Idle) by (intros; rewrite upd_other by lia; auto).
  assert (Hkeep : forall p, kind p = kind (thr s t) -> (kind p = 3%nat -> p = thr s t) -> exists a', accepts tf_step a [] = Some a' /\ R (go s t p) a').
  { intros p E1 E2. exists a. split; [reflexivity|]. apply R_same; auto. }
  assert (Hni : forall k (L : list nat), kind (thr s t) <> k -> (forall u, In u L <-> kind (thr s u) = k) -> ~ In t L).
  { intros k L E G Hin. apply G in Hin. auto. }
  assert (Hup : forall k (L : list nat) p, kind (thr s t) <> k -> kind p <> k -> (forall u, In u L <-> kind (thr s u) = k) ->
      forall u, In u L <-> kind (upd (thr s) t p u) = k).
  { intros k L p E1 E2 G u. upd_goal; auto. subst. split; [|congruence]. rewrite G. congruence. }
  unfold all in Hnd.
  destruct (thr s t) eqn:Et; destruct x; try discriminate;
    try (injection H as <- <-; apply Hkeep; cbn; auto; discriminate).
  - (* WQ *) destruct (Z.eqb_spec (req s) snap) as [E|E]; injection H as <- <-; [|apply Hkeep; cbn; auto; discriminate].
    assert (Hnit : ~ In t (map snd (tf_q a))) by (apply (Hni 3%nat); auto; discriminate).
    eexists. split; [reflexivity|]. constructor; cbn [tf_h tf_r tf_q req comp thr]; auto.
    + exists CR, CW. split; auto. split; auto. split; auto. split.
      * rewrite <- E, Hr, goal_w by (unfold zl; lia). f_equal.
        -- rewrite nr_app. unfold nr at 3. cbn. lia.
        -- rewrite nw_app. unfold nw at 3. cbn. lia.
      * apply snaps_app. split; [apply snaps_upd; auto|]. cbn [snaps]. rewrite upd_same. split; auto. rewrite <- E, Hr. reflexivity.
    + unfold all; cbn [tf_h tf_r tf_q]. rewrite map_app. cbn [map snd]. rewrite !app_assoc. apply nodup_snoc; [rewrite <- app_assoc; auto|].
      rewrite <- app_assoc, !in_app_iff, Hh, Hre, Hq, Et. cbn. intuition discriminate.
    + apply Hup; auto; cbn; discriminate.
    + apply Hup; auto; cbn; discriminate.
    + intros u. rewrite map_app, in_app_iff. cbn [map snd In]. upd_goal; [subst; cbn; tauto|]. rewrite <- Hq. split; [intros [?|[?|[]]]; auto; congruence|auto].
  - (* WWait *) destruct (Z.eqb_spec (comp s) prev) as [E|E]; injection H as <- <-; [|apply Hkeep; cbn; auto].
    assert (Hin : In t (map snd (tf_q a))) by (apply Hq; rewrite Et; auto).
    destruct (snaps_in _ _ _ _ _ Hs Hin) as [pre [w [post [Eq Hw]]]]. destruct w; [|congruence]. cbn in Hw. rewrite Et in Hw. injection Hw as Hw.
    rewrite <- E, Hc in Hw. apply pk_inj in Hw. destruct Hw as [W1 W2].
    pose proof (nw_nn pre). pose proof (nr_nn pre). pose proof (qsum pre). rewrite Eq in Hlen. unfold zl in Hlen, Hqs, H3, W1, W2. rewrite app_length in Hlen. cbn in Hlen.
    apply f_inj in W1; [|unfold zl in *; lia..]. apply f_inj in W2; [|unfold zl in *; lia..].
    assert (tf_h a = None). { destruct (tf_h a); auto. cbn in W2. lia. }
    assert (tf_r a = []). { destruct (tf_r a); auto. cbn [length] in W1. lia. }
    assert (pre = []). { destruct pre; auto. cbn [length] in H3. lia. } subst pre. cbn in Eq.
    eexists. split. { cbn. rewrite H4, H5, Eq, Nat.eqb_refl. reflexivity. }
    rewrite Eq in *. rewrite H4, H5 in *. cbn in Hnd. cbn [map snd] in *.
    assert (Hnp : ~ In t (map snd post)) by (inversion Hnd; auto).
    constructor; cbn [tf_h tf_r tf_q go req comp thr hn]; auto.
    + exists CR, CW. split; auto. split; auto. split; auto. unfold zl in *. cbn [length hn] in *. split.
      * rewrite Hr. unfold nw, nr. cbn [filter fst negb length]. f_equal; lia.
      * cbn [snaps] in Hs. destruct Hs as [_ Hs]. apply snaps_upd; auto. replace (CW + Z.of_nat 1) with (CW + Z.of_nat 0 + 1) by lia. auto.
    + intros u. upd_goal; [subst; cbn; tauto|]. cbn. rewrite <- Hh. cbn. split; [intros [?|[]]; congruence|tauto].
    + apply Hup; auto; cbn; discriminate.
    + intros u. upd_goal; [subst; cbn; split; [contradiction|discriminate]|]. rewrite <- Hq. cbn. split; [auto|intros [?|?]; [congruence|auto]].
  - (* WU *) destruct (Z.eqb_spec (comp s) snap) as [E|E]; injection H as <- <-; [|apply Hkeep; cbn; auto; discriminate].
    assert (Hin : In t (hn (tf_h a))) by (apply Hh; rewrite Et; auto).
    destruct (tf_h a) as [h|] eqn:Eh; [|destruct Hin]. destruct Hin as [->|[]].
    eexists. split. { cbn. rewrite Eh, Nat.eqb_refl. reflexivity. }
    assert (Er : tf_r a = []) by (apply Hx; discriminate). rewrite Er in *. cbn in Hnd.
    assert (Hnit : ~ In t (map snd (tf_q a))) by (inversion Hnd; auto).
    constructor; cbn [tf_h tf_r tf_q req comp thr]; auto.
    + exists CR, (CW + 1). unfold zl in *. cbn [length hn] in *. split; auto. split; [lia|]. split; [rewrite <- E, Hc; apply goal_w; auto|]. split.
      * rewrite Hr. f_equal. lia.
      * apply snaps_upd; auto. replace (CW + 1 + Z.of_nat 0) with (CW + Z.of_nat 1) by lia. auto.
    + inversion Hnd; auto.
    + cbn. intros u. split; [tauto|]. upd_goal; [cbn; discriminate|]. rewrite <- Hh. cbn. intuition congruence.
    + apply Hup; auto; cbn; discriminate.
  - (* RQ *) destruct (Z.eqb_spec (req s) snap) as [E|E]; injection H as <- <-; [|apply Hkeep; cbn; auto; discriminate].
    assert (Hnit : ~ In t (map snd (tf_q a))) by (apply (Hni 3%nat); auto; discriminate).
    eexists. split; [reflexivity|]. constructor; cbn [tf_h tf_r tf_q req comp thr]; auto.
    + exists CR, CW. split; auto. split; auto. split; auto. split.
      * rewrite <- E, Hr, goal_r by (unfold zl; lia). f_equal.
        -- rewrite nr_app. unfold nr at 3. cbn. lia.
        -- rewrite nw_app. unfold nw at 3. cbn. lia.
      * apply snaps_app. split; [apply snaps_upd; auto|]. cbn [snaps]. rewrite upd_same. split; auto. rewrite <- E, Hr, pk_w. reflexivity.
    + unfold all; cbn [tf_h tf_r tf_q]. rewrite map_app. cbn [map snd]. rewrite !app_assoc. apply nodup_snoc; [rewrite <- app_assoc; auto|].
      rewrite <- app_assoc, !in_app_iff, Hh, Hre, Hq, Et. cbn. intuition discriminate.
    + apply Hup; auto; cbn; discriminate.
    + apply Hup; auto; cbn; discriminate.
    + intros u. rewrite map_app, in_app_iff. cbn [map snd In]. upd_goal; [subst; cbn; tauto|]. rewrite <- Hq. split; [intros [?|[?|[]]]; auto; congruence|auto].
  - (* RWait *) rewrite Hc, pk_w in H. destruct (Z.eqb_spec (f CW) prev) as [E|E]; injection H as <- <-; [|apply Hkeep; cbn; auto].
    assert (Hin : In t (map snd (tf_q a))) by (apply Hq; rewrite Et; auto).
    destruct (snaps_in _ _ _ _ _ Hs Hin) as [pre [w [post [Eq Hw]]]]. destruct w; [cbn in Hw; congruence|]. rewrite Et in Hw. injection Hw as Hw.
    rewrite <- E in Hw.
    pose proof (nw_nn pre). pose proof (nr_nn pre). pose proof (qsum pre). rewrite Eq in Hlen. unfold zl in Hlen, Hqs, H3, Hw. rewrite app_length in Hlen. cbn in Hlen.
    apply f_inj in Hw; [|unfold zl in *; lia..].
    assert (Eh : tf_h a = None). { destruct (tf_h a); auto. cbn in Hw. lia. }
    assert (Hp0 : nw pre = 0) by (destruct (tf_h a); cbn in Hw; lia).
    rewrite Eh in *. rewrite Eq in *. cbn [hn app] in Hnd. rewrite map_app in Hnd. cbn [map snd] in Hnd.
    assert (Hnp : ~ In t (map snd pre ++ map snd post)). { apply nodup_app_r in Hnd. apply NoDup_remove_2 in Hnd. auto. }
    rewrite in_app_iff in Hnp.
    eexists. split. { cbn. rewrite Eh, Eq, take_reader_pre by tauto. reflexivity. }
    constructor; cbn [tf_h tf_r tf_q go req comp thr hn]; auto.
    + exists CR, CW. split; auto. split; auto. split; auto. unfold zl in *. cbn [length hn] in *. split.
      * rewrite Hr, !nr_app, !nw_app. f_equal; unfold nw, nr; cbn [filter fst negb length]; lia.
      * apply snaps_app in Hs. destruct Hs as [S1 S2]. cbn [snaps] in S2. destruct S2 as [_ S2]. apply snaps_app. split.
        -- apply snaps_upd; [tauto|]. eapply snaps_ws; eauto.
        -- apply snaps_upd; [tauto|]. replace (CR + Z.of_nat (S (length (tf_r a))) + nr pre) with (CR + Z.of_nat (length (tf_r a)) + nr pre + 1) by lia. auto.
    + unfold all. cbn. rewrite map_app. cbn. rewrite app_assoc. apply (nodup_move [] (tf_r a ++ map snd pre) (map snd post) t). cbn. rewrite <- app_assoc. auto.
    + apply Hup; auto; cbn; discriminate.
    + intros u. upd_goal; [subst; cbn; tauto|]. rewrite <- Hre. cbn. split; [intros [?|?]; congruence|auto].
    + intros u. rewrite map_app, in_app_iff. upd_goal; [subst; cbn; split; [tauto|discriminate]|]. rewrite <- Hq, map_app, in_app_iff. cbn. split; [intuition|]. intuition congruence.
    + congruence.
  - (* RU *) destruct (Z.eqb_spec (comp s) snap) as [E|E]; injection H as <- <-; [|apply Hkeep; cbn; auto; discriminate].
    assert (Hin : In t (tf_r a)) by (apply Hre; rewrite Et; auto).
    destruct (remove1_in _ _ Hin) as [r Er].
    eexists. split. { cbn. rewrite Er. reflexivity. }
    assert (NoDup (tf_r a)) as Hndr by (apply nodup_app_r, nodup_app_l in Hnd; auto).
    destruct (remove1_nodup _ _ _ Er Hndr) as [N1 N2].
    assert (Hnit : ~ In t (map snd (tf_q a))) by (apply (Hni 3%nat); auto; cbn; discriminate).
    assert (Eh : tf_h a = None). { destruct (tf_h a); auto. rewrite Hx in Hin by discriminate. destruct Hin. }
    assert (Elen : zl (tf_r a) = zl r + 1).
    { unfold zl. clear -Er. revert r Er. induction (tf_r a) as [|u l IH]; cbn; intros r Er; [discriminate|].
      destruct (Nat.eqb t u); [injection Er as <-; lia|]. destruct (remove1 t l) as [r'|]; [|discriminate]. injection Er as <-. specialize (IH _ eq_refl). cbn [length]. lia. }
    constructor; cbn [tf_h tf_r tf_q req comp thr]; auto.
    + exists (CR + 1), CW. split; [lia|]. split; auto. split; [rewrite <- E, Hc; apply goal_r; auto|]. split.
      * rewrite Hr. f_equal. lia.
      * apply snaps_upd; auto. replace (CR + 1 + zl r) with (CR + zl (tf_r a)) by lia. auto.
    + unfold all; cbn. rewrite Eh in *. cbn in *. clear -Hnd Er. revert r Er. induction (tf_r a) as [|u l IH]; cbn; intros r Er; [discriminate|].
      cbn in Hnd. destruct (Nat.eqb t u); [injection Er as <-; inversion Hnd; auto|]. destruct (remove1 t l) as [r'|] eqn:E; [|discriminate]. injection Er as <-.
      cbn. inversion Hnd; subst. constructor; [|auto]. intros Hin. apply H1. apply in_app_iff in Hin. apply in_app_iff. destruct Hin as [Hin|]; auto. left.
      pose proof (nodup_app_l _ _ _ H2) as Hl. apply (remove1_nodup _ _ _ E Hl). auto.
    + apply Hup; auto; cbn; discriminate.
    + intros u. rewrite N2. upd_goal; [subst; cbn; split; [tauto|discriminate]|]. rewrite <- Hre. tauto.
    + congruence.
Qed.

Lemma R_run : forall ls s a s' log, R s a -> run (step n) s ls = Some (s', log) ->
  exists a', accepts tf_step a log = Some a' /\ R s' a'.
Proof. intros ls s a s' log HR H. eapply (sim_run _ _ _ _ (step n) tf_step R R_step ls s a s' log); eauto. Qed.

Lemma tf_refines : forall ls s log, run (step n) init ls = Some (s, log) -> tf_legal log.
Proof. intros ls s log H. destruct (R_run _ _ _ _ _ R_init H) as [a [Ha _]]. exists a. auto. Qed.

Lemma tf_reach : forall s, reachable (step n) init s -> exists a, R s a.
Proof. intros s [ls [log H]]. destruct (R_run _ _ _ _ _ R_init H) as [a [_ Ha]]. eauto. Qed.

Lemma kind_lt : forall s a t, R s a -> kind (thr s t) <> 0%nat -> (t < n)%nat.
Proof. intros s a t HR H. destruct (Nat.lt_ge_cases t n) as [|G]; auto. rewrite (i_ge _ _ HR t G) in H. cbn in H. congruence. Qed.

Lemma rel_run : forall s u (w : bool), (u < n)%nat -> kind (thr s u) = (if w then 1 else 2)%nat ->
  exists ls s', run (step n) s ls = Some (s', [TRel w u]).
Proof.
  intros s u w Hlt Hk. apply Nat.ltb_lt in Hlt.
  assert (H1 : forall s w, thr s u = (if w : bool then WU (comp s) else RU (comp s)) -> exists ls s', run (step n) s ls = Some (s', [TRel w u])).
  { intros s0 w0 E. exists [(u, ATick)]. destruct w0; eexists; apply run_last; cbn; rewrite Hlt, E, Z.eqb_refl; reflexivity. }
  destruct (thr s u) eqn:Eu; destruct w; try discriminate.
  - destruct (H1 (go s u (WU (comp s))) true) as [ls [s' Hr]]; [cbn; apply upd_same|]. exists ((u, AWUnlock) :: ls), s'.
    eapply run1; [|exact Hr]. cbn. rewrite Hlt, Eu. reflexivity.
  - destruct (Z.eqb (comp s) snap) eqn:E.
    + apply Z.eqb_eq in E. apply (H1 s true). congruence.
    + destruct (H1 (go s u (WU (comp s))) true) as [ls [s' Hr]]; [cbn; apply upd_same|]. exists ((u, ATick) :: ls), s'.
      eapply run1; [|exact Hr]. cbn. rewrite Hlt, Eu, E. reflexivity.
  - destruct (H1 (go s u (RU (comp s))) false) as [ls [s' Hr]]; [cbn; apply upd_same|]. exists ((u, ARUnlock) :: ls), s'.
    eapply run1; [|exact Hr]. cbn. rewrite Hlt, Eu. reflexivity.
  - destruct (Z.eqb (comp s) snap) eqn:E.
    + apply Z.eqb_eq in E. apply (H1 s false). congruence.
    + destruct (H1 (go s u (RU (comp s))) false) as [ls [s' Hr]]; [cbn; apply upd_same|]. exists ((u, ATick) :: ls), s'.
      eapply run1; [|exact Hr]. cbn. rewrite Hlt, Eu, E. reflexivity.
Qed.

Lemma drain : forall m s a, R s a -> length (tf_r a) = m ->
  exists ls s' log a', run (step n) s ls = Some (s', log) /\ R s' a' /\ tf_h a' = None /\ tf_r a' = [] /\ tf_q a' = tf_q a.
Proof.
  induction m as [|m IH]; intros s a HR Hm.
  - destruct (tf_r a) eqn:Er; [|discriminate]. destruct (tf_h a) as [h|] eqn:Eh.
    + assert (Hk : kind (thr s h) = 1%nat) by (apply (i_h _ _ HR); rewrite Eh; cbn; auto).
      destruct (rel_run s h true) as [ls [s' Hr]]; [eapply kind_lt; eauto; congruence|auto|].
      destruct (R_run _ _ _ _ _ HR Hr) as [a' [Ha HR']]. cbn in Ha. rewrite Eh, Nat.eqb_refl in Ha. injection Ha as <-.
      do 4 eexists. split; [exact Hr|]. split; [exact HR'|]. cbn. auto.
    + exists [], s, [], a. split; [reflexivity|auto].
  - destruct (tf_r a) as [|u r] eqn:Er; [discriminate|].
    assert (Hk : kind (thr s u) = 2%nat) by (apply (i_r _ _ HR); rewrite Er; cbn; auto).
    destruct (rel_run s u false) as [ls [s' Hr]]; [eapply kind_lt; eauto; congruence|auto|].
    destruct (R_run _ _ _ _ _ HR Hr) as [a' [Ha HR']]. cbn in Ha. rewrite Er in Ha. cbn in Ha. rewrite Nat.eqb_refl in Ha. injection Ha as <-.
    destruct (IH _ _ HR') as [ls2 [s2 [log2 [a2 [Hr2 [G1 [G2 [G3 G4]]]]]]]]; [cbn; cbn in Hm; lia|].
    exists (ls ++ ls2), s2, ([TRel false u] ++ log2), a2. split; [eapply run_app; eauto|]. auto.
Qed.

Lemma prog_q : forall pre w t post s a, R s a -> tf_q a = pre ++ (w, t) :: post ->
  exists ls s' log, run (step n) s ls = Some (s', log) /\ In (TAcq w t) log.
Proof.
  induction pre as [|[w' u] pre IH]; intros w t post s0 a0 HR0 Hq0;
    destruct (drain _ _ _ HR0 eq_refl) as [ls [s [log [a [Hr [HR [Hh [Hre Hq]]]]]]]]; rewrite Hq0 in Hq; cbn [app] in Hq;
    destruct (i_w _ _ HR) as [CR [CW [C1 [C2 [Hc [_ Hs]]]]]]; rewrite Hq, Hh, Hre in Hs; unfold zl in Hs; cbn [hn length] in Hs;
    rewrite !Z.add_0_r in Hs; cbn [snaps] in Hs.
  - assert (Hst : exists s', step n s (t, ATick) = Some (s', [TAcq w t])).
    { assert (Hlt : Nat.ltb t n = true). { apply Nat.ltb_lt. apply (kind_lt s a); auto. destruct w; destruct Hs as [-> _]; cbn; discriminate. }
      destruct w; destruct Hs as [E _]; eexists; cbn; rewrite Hlt, E, Hc; rewrite ?pk_w, Z.eqb_refl; reflexivity. }
    destruct Hst as [s' Hst]. exists (ls ++ [(t, ATick)]), s', (log ++ [TAcq w t]). split; [eapply run_app; [eauto|apply run_last; auto]|].
    rewrite in_app_iff. cbn. auto.
  - assert (Hst : exists s', step n s (u, ATick) = Some (s', [TAcq w' u])).
    { assert (Hlt : Nat.ltb u n = true). { apply Nat.ltb_lt. apply (kind_lt s a); auto. destruct w'; destruct Hs as [-> _]; cbn; discriminate. }
      destruct w'; destruct Hs as [E _]; eexists; cbn; rewrite Hlt, E, Hc; rewrite ?pk_w, Z.eqb_refl; reflexivity. }
    destruct Hst as [s1 Hst]. destruct (R_step _ _ _ _ _ HR Hst) as [a1 [Ha HR1]].
    assert (Hq1 : tf_q a1 = pre ++ (w, t) :: post).
    { cbn in Ha. rewrite Hh, Hre, Hq in Ha. destruct w'; cbn in Ha; rewrite Nat.eqb_refl in Ha; injection Ha as <-; auto. }
    destruct (IH _ _ _ _ _ HR1 Hq1) as [ls2 [s2 [log2 [Hr2 Hin]]]].
    exists (ls ++ (u, ATick) :: ls2), s2, (log ++ [TAcq w' u] ++ log2). split; [eapply run_app; [eauto|eapply run_cons; eauto]|].
    rewrite !in_app_iff. auto.
Qed.

Lemma tf_progress : forall s, reachable (step n) init s -> forall w t, waiting w s t = true ->
  exists ls s' log, run (step n) s ls = Some (s', log) /\ In (TAcq w t) log.
Proof.
  intros s Hre w t Hw. destruct (tf_reach _ Hre) as [a HR]. unfold waiting in Hw.
  assert (Hlt : Nat.ltb t n = true).
  { apply Nat.ltb_lt. destruct (Nat.lt_ge_cases t n) as [|G]; auto. rewrite (i_ge _ _ HR t G) in Hw. discriminate. }
  assert (HQ : forall s a, R s a -> thr s t = (if w then WQ (req s) else RQ (req s)) ->
     exists ls s' log, run (step n) s ls = Some (s', log) /\ In (TAcq w t) log).
  { clear s a Hre HR Hw. intros s a HR E.
    assert (Hst : exists s', step n s (t, ATick) = Some (s', [TReq w t])).
    { destruct w; eexists; cbn; rewrite Hlt, E, Z.eqb_refl; reflexivity. }
    destruct Hst as [s1 Hst]. destruct (R_step _ _ _ _ _ HR Hst) as [a1 [Ha HR1]]. cbn in Ha. injection Ha as <-.
    destruct (prog_q (tf_q a) w t [] _ _ HR1 eq_refl) as [ls2 [s2 [log2 [Hr2 Hin]]]].
    exists ((t, ATick) :: ls2), s2, ([TReq w t] ++ log2). split; [eapply run_cons; eauto|]. rewrite in_app_iff; auto. }
  assert (HW : kind (thr s t) = 3%nat -> (forall w', In (w', t) (tf_q a) -> w' = w) ->
     exists ls s' log, run (step n) s ls = Some (s', log) /\ In (TAcq w t) log).
  { intros Hk Hu. apply (i_q _ _ HR) in Hk. apply in_map_iff in Hk. destruct Hk as [[w' v] [E Hin]]. cbn in E. subst v.
    rewrite <- (Hu w' Hin). apply in_split in Hin. destruct Hin as [pre [post Eq]]. eapply prog_q; eauto. }
  assert (Hk : forall w', In (w', t) (tf_q a) -> exists x, thr s t = if w' then WWait x else RWait x).
  { intros w' Hin. destruct (i_w _ _ HR) as [CR [CW [_ [_ [_ [_ Hs]]]]]]. apply in_split in Hin. destruct Hin as [pre [post Eq]]. rewrite Eq in Hs.
    apply snaps_app in Hs. destruct Hs as [_ Hs]. destruct w'; cbn [snaps] in Hs; destruct Hs; eauto. }
  destruct (thr s t) eqn:Et; try discriminate.
  - subst w. destruct (Z.eqb (req s) snap) eqn:E.
    + apply Z.eqb_eq in E. apply (HQ s a); auto. congruence.
    + assert (Hst : step n s (t, ATick) = Some (go s t (WQ (req s)), [])) by (cbn; rewrite Hlt, Et, E; reflexivity).
      destruct (R_step _ _ _ _ _ HR Hst) as [a1 [_ HR1]]. destruct (HQ _ _ HR1) as [ls [s' [log [Hr Hin]]]]; [cbn; apply upd_same|].
      exists ((t, ATick) :: ls), s', log. split; auto. eapply run1; eauto.
  - subst w. apply HW; auto. intros w' Hin. destruct (Hk _ Hin) as [x Hx]. destruct w'; congruence.
  - destruct w; [discriminate|]. destruct (Z.eqb (req s) snap) eqn:E.
    + apply Z.eqb_eq in E. apply (HQ s a); auto. congruence.
    + assert (Hst : step n s (t, ATick) = Some (go s t (RQ (req s)), [])) by (cbn; rewrite Hlt, Et, E; reflexivity).
      destruct (R_step _ _ _ _ _ HR Hst) as [a1 [_ HR1]]. destruct (HQ _ _ HR1) as [ls [s' [log [Hr Hin]]]]; [cbn; apply upd_same|].
      exists ((t, ATick) :: ls), s', log. split; auto. eapply run1; eauto.
  - destruct w; [discriminate|]. apply HW; auto. intros w' Hin. destruct (Hk _ Hin) as [x Hx]. destruct w'; congruence.
Qed.
End P.
