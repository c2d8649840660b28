(** Single-producer single-consumer ring on x86-TSO: invariants. *)
From Coq Require Import ZArith Arith List Bool Lia Znumtheory.
From Verif Require Import Lib Tso TsoRing_Spec TsoRing_Model.
Import ListNotations.
Local Open Scope Z_scope.
Local Arguments W : simpl never.

Section Proof.
Variable k : Z.
Variable w : nat.
Hypothesis Hk : 0 <= k <= 31.
Notation st := (tso pc).
Notation code := (code k w).
Notation mask := (mask k).
Notation cell := (cell k w).
Notation S2 := (2 ^ k).

Definition zc (n : nat) : Z := Z.of_nat n mod W.
Definition cN (n j : nat) : loc := Dat (Z.to_nat (Z.of_nat n mod S2) * w + j).
Definition cap : nat := Z.to_nat mask.

Lemma W_pow : W = 2 ^ 32.
Proof. reflexivity. Qed.
Lemma S_pos : 0 < S2.
Proof. apply Z.pow_pos_nonneg; lia. Qed.
Lemma S_W : S2 < W.
Proof. rewrite W_pow. apply Z.pow_lt_mono_r; lia. Qed.
Lemma S_div : (S2 | W).
Proof. rewrite W_pow. exists (2 ^ (32 - k)). rewrite <- Z.pow_add_r by lia. f_equal. lia. Qed.
Lemma mask_S : mask = S2 - 1.
Proof. reflexivity. Qed.
Lemma cap_mask : Z.of_nat cap = mask.
Proof. unfold cap. pose proof S_pos. rewrite Z2Nat.id; rewrite mask_S; lia. Qed.
Lemma land_mod : forall x, Z.land (x mod W) mask = x mod S2.
Proof.
  intros x. replace mask with (Z.ones k) by (rewrite Z.ones_equiv; reflexivity). rewrite Z.land_ones by lia.
  symmetry. apply Zmod_div_mod; auto using S_div; [apply S_pos|reflexivity].
Qed.
Lemma cell_zc : forall n j, cell (zc n) j = cN n j.
Proof. intros. unfold TsoRing_Model.cell, cN, zc. rewrite land_mod. auto. Qed.
Lemma mod_close : forall m x y, 0 < m -> x mod m = y mod m -> x <= y -> y - x < m -> x = y.
Proof.
  intros m x y Hm E Hle Hlt. assert (D : (y - x) mod m = 0) by (rewrite Zminus_mod, E, Z.sub_diag; apply Z.mod_0_l; lia).
  rewrite Z.mod_small in D by lia. lia.
Qed.
Lemma zc_inj : forall n m, (n <= m)%nat -> Z.of_nat m - Z.of_nat n < W -> zc n = zc m -> n = m.
Proof. intros n m H1 H2 E. apply Nat2Z.inj. apply (mod_close W); auto; [reflexivity|lia]. Qed.
Lemma cN_inj : forall n m i j, (n <= m)%nat -> Z.of_nat m - Z.of_nat n < S2 -> (i < w)%nat -> (j < w)%nat -> cN n i = cN m j -> n = m /\ i = j.
Proof.
  intros n m i j H1 H2 Hi Hj E. unfold cN in E. injection E as E. pose proof S_pos as Hp.
  pose proof (Z.mod_pos_bound (Z.of_nat n) S2 Hp). pose proof (Z.mod_pos_bound (Z.of_nat m) S2 Hp).
  set (a := Z.to_nat (Z.of_nat n mod S2)) in *. set (b := Z.to_nat (Z.of_nat m mod S2)) in *.
  assert (a = b /\ i = j) as [Ea ->].
  { assert (a = b) by nia. split; auto. subst b. rewrite H3 in E. lia. }
  split; auto. apply Nat2Z.inj. apply (mod_close S2); auto; [|lia]. subst a b. apply Z2Nat.inj in Ea; lia.
Qed.
Lemma zc_succ : forall n, (zc n + 1) mod W = zc (n + 1).
Proof. intros n. unfold zc. rewrite Zplus_mod_idemp_l. f_equal. lia. Qed.
Lemma size_zc : forall b p, (b <= p)%nat -> Z.of_nat p - Z.of_nat b <= mask -> size k (zc b) (zc p) = (p - b)%nat.
Proof.
  intros b p H1 H2. unfold size, zc. rewrite <- Zminus_mod, land_mod, Z.mod_small; rewrite mask_S in *; lia.
Qed.
Lemma full_zc : forall b p, (b <= p)%nat -> Z.of_nat p - Z.of_nat b <= mask ->
  (Z.land ((zc p + 1) mod W) mask =? Z.land (zc b) mask) = true <-> Z.of_nat p - Z.of_nat b = mask.
Proof.
  intros b p H1 H2. rewrite zc_succ. unfold zc. rewrite !land_mod, Z.eqb_eq. pose proof S_pos. rewrite mask_S in *. split; intros E.
  - destruct (Z_lt_le_dec (Z.of_nat p - Z.of_nat b) (S2 - 1)) as [L|L]; [|lia]. exfalso.
    assert (Z.of_nat b = Z.of_nat (p + 1)) by (apply (mod_close S2); lia). lia.
  - replace (Z.of_nat (p + 1)) with (Z.of_nat b + 1 * S2) by lia. apply Z.mod_add. lia.
Qed.

(** * Buffers *)
Definition isPT (e : loc * Z) : bool := match fst e with Reg 1 => true | _ => false end.
Fixpoint cnt (b : list (loc * Z)) : nat := match b with [] => 0 | e :: b => (if isPT e then 1 else 0) + cnt b end%nat.
Lemma cnt_app : forall b c, cnt (b ++ c) = (cnt b + cnt c)%nat.
Proof. induction b as [|e b IH]; intros c; simpl; auto. rewrite IH. lia. Qed.
Lemma last_PT : forall b d, (cnt b = 0%nat /\ fwd b PT d = d) \/ exists b1 x b2, b = b1 ++ (PT, x) :: b2 /\ cnt b2 = 0%nat /\ fwd b PT d = x.
Proof.
  induction b as [|[y v] b IH] using rev_ind; intros d; [left; auto|]. rewrite fwd_app, cnt_app. cbn [fwd cnt].
  destruct (loc_eqb_spec y PT) as [->|Hn].
  - right. exists b, v, []. auto.
  - assert (E : isPT (y, v) = false) by (unfold isPT; cbn; destruct y as [|[|[|]]]; auto; exfalso; apply Hn; reflexivity). rewrite E. destruct (IH d) as [[H1 H2]|[b1 [x [b2 [-> [H1 H2]]]]]].
    + left. split; [lia|auto].
    + right. exists b1, x, (b2 ++ [(y, v)]). split; [rewrite <- app_assoc; auto|]. split; [rewrite cnt_app; cbn [cnt]; rewrite E; lia|auto].
Qed.
Lemma split_push : forall (b : list (loc * Z)) e b1 y b2, b ++ [e] = b1 ++ y :: b2 -> (b = b1 /\ e = y /\ b2 = []) \/ exists b2', b2 = b2' ++ [e] /\ b = b1 ++ y :: b2'.
Proof.
  intros b e b1 y b2 H. destruct (exists_last (l := y :: b2)) as [l' [z E]]; [discriminate|]. rewrite E, app_assoc in H. apply app_inj_tail in H. destruct H as [-> ->].
  destruct l' as [|y' l']; cbn in E; injection E as -> ->; [left; rewrite app_nil_r; auto|right; exists l'; auto].
Qed.

Record J (B C A P : nat) (ent : nat -> list Z) (s : st) (a : spq) : Prop := {
  j_bc : (B <= C)%nat; j_ca : (C <= A)%nat; j_ap : (A <= P)%nat;
  j_room : Z.of_nat P - Z.of_nat B <= mask;
  j_len : forall n, (n < P)%nat -> length (ent n) = w;
  j_way : way a = map ent (seq A (P - A)); j_here : here a = map ent (seq C (A - C)); j_out : out a = (C - B)%nat;
  j_pt : mem s PT = zc A; j_ch : mem s CH = zc B;
  j_none : forall t, (2 <= t)%nat -> buf s t = [] /\ pcs s t = Idle;
  j_dat : forall b1 x v b2, buf s 0%nat = b1 ++ (Dat x, v) :: b2 -> exists j, Dat x = cN (A + cnt b1) j /\ (j < w)%nat;
  j_reg : forall r v, In (Reg r, v) (buf s 0%nat) -> r = 1%nat;
  j_split : forall b1 x b2, buf s 0%nat = b1 ++ (PT, x) :: b2 -> x = zc (A + cnt b1 + 1) /\
     forall j, (j < w)%nat -> fwd b1 (cN (A + cnt b1) j) (mem s (cN (A + cnt b1) j)) = nth j (ent (A + cnt b1)%nat) 0;
  j_cnt : cnt (buf s 0%nat) = (P - A)%nat;
  j_vis : forall n j, (C <= n < A)%nat -> (j < w)%nat -> mem s (cN n j) = nth j (ent n) 0;
  j_cb : forall x v, In (x, v) (buf s 1%nat) -> x = CH;
  j_csplit : forall b1 x v b2, buf s 1%nat = b1 ++ (x, v) :: b2 -> v = zc (B + length b1 + 1);
  j_clen : length (buf s 1%nat) = (C - B)%nat;
  j_p0 : match pcs s 0%nat with
         | Idle => True
         | E1 x => length x = w
         | E2 x c => length x = w /\ exists b, (b <= B)%nat /\ c = zc b /\ seen a = (P - b)%nat /\ Z.of_nat P - Z.of_nat b <= mask
         | E3 x c p todo => length x = w /\ (exists b, (b <= B)%nat /\ c = zc b /\ seen a = (P - b)%nat /\ Z.of_nat P - Z.of_nat b < mask) /\ p = zc P /\
             (forall j, In j todo -> (j < w)%nat) /\
             forall j, (j < w)%nat -> ~ In j todo -> fwd (buf s 0%nat) (cN P j) (mem s (cN P j)) = nth j x 0
         | _ => False
         end;
  j_p1 : match pcs s 1%nat with
         | Idle | D1 => True
         | D2 c => c = zc C
         | D3 c todo got => c = zc C /\ (C < A)%nat /\ (forall j, In j todo -> (j < w)%nat) /\ (forall j v, In (j, v) got -> v = nth j (ent C) 0) /\
             forall j, (j < w)%nat -> In j todo \/ exists v, In (j, v) got
         | _ => False
         end
}.

Lemma view_PT : forall B C A P ent s a, J B C A P ent s a -> view s 0%nat PT = zc P.
Proof.
  intros B C A P ent s a H. unfold view. rewrite (j_pt _ _ _ _ _ _ _ H). pose proof (j_cnt _ _ _ _ _ _ _ H) as E. pose proof (j_ap _ _ _ _ _ _ _ H).
  destruct (last_PT (buf s 0%nat) (zc A)) as [[H1 H2]|[b1 [x [b2 [Eb [H1 H2]]]]]]; rewrite H2.
  - f_equal. lia.
  - destruct (j_split _ _ _ _ _ _ _ H b1 x b2 Eb) as [-> _]. rewrite Eb, cnt_app in E. cbn [cnt isPT PT fst] in E. f_equal. lia.
Qed.
Lemma view_CH : forall B C A P ent s a, J B C A P ent s a -> view s 1%nat CH = zc C.
Proof.
  intros B C A P ent s a H. unfold view. rewrite (j_ch _ _ _ _ _ _ _ H). pose proof (j_clen _ _ _ _ _ _ _ H) as E. pose proof (j_bc _ _ _ _ _ _ _ H).
  destruct (buf s 1%nat) as [|e b] eqn:Eb; [cbn in *; f_equal; lia|]. destruct (exists_last (l := e :: b)) as [l' [[x v] El]]; [discriminate|]. rewrite El, fwd_app in *.
  assert (Hx : x = CH) by (apply (j_cb _ _ _ _ _ _ _ H x v); rewrite Eb; apply in_app_iff; right; left; auto). subst x.
  pose proof (j_csplit _ _ _ _ _ _ _ H l' CH v [] Eb) as Hv. cbn. rewrite Hv. rewrite app_length in E. cbn in E. f_equal. lia.
Qed.
Lemma view0_CH : forall B C A P ent s a, J B C A P ent s a -> view s 0%nat CH = zc B.
Proof.
  intros B C A P ent s a H. unfold view. rewrite <- (j_ch _ _ _ _ _ _ _ H). apply fwd_none. intros v X. apply (j_reg _ _ _ _ _ _ _ H) in X. discriminate.
Qed.
Lemma view1 : forall B C A P ent s a x, J B C A P ent s a -> x <> CH -> view s 1%nat x = mem s x.
Proof. intros B C A P ent s a x H Hx. apply fwd_none. intros v X. apply (j_cb _ _ _ _ _ _ _ H) in X. congruence. Qed.

(** a thread moves on without storing *)
Lemma J_next : forall B C A P ent s a a' t p', J B C A P ent s a -> (t < 2)%nat -> way a' = way a -> here a' = here a -> out a' = out a ->
  (match upd (pcs s) t p' 0%nat with
         | Idle => True
         | E1 x => length x = w
         | E2 x c => length x = w /\ exists b, (b <= B)%nat /\ c = zc b /\ seen a' = (P - b)%nat /\ Z.of_nat P - Z.of_nat b <= mask
         | E3 x c p todo => length x = w /\ (exists b, (b <= B)%nat /\ c = zc b /\ seen a' = (P - b)%nat /\ Z.of_nat P - Z.of_nat b < mask) /\ p = zc P /\
             (forall j, In j todo -> (j < w)%nat) /\
             forall j, (j < w)%nat -> ~ In j todo -> fwd (buf s 0%nat) (cN P j) (mem s (cN P j)) = nth j x 0
         | _ => False
         end) ->
  (match upd (pcs s) t p' 1%nat with
         | Idle | D1 => True
         | D2 c => c = zc C
         | D3 c todo got => c = zc C /\ (C < A)%nat /\ (forall j, In j todo -> (j < w)%nat) /\ (forall j v, In (j, v) got -> v = nth j (ent C) 0) /\
             forall j, (j < w)%nat -> In j todo \/ exists v, In (j, v) got
         | _ => False
         end) ->
  J B C A P ent (next s t p') a'.
Proof.
  intros B C A P ent s a a' t p' H Ht E1 E2 E3 H0 H1. destruct H. constructor; auto; unfold next; cbn [mem buf pcs]; try congruence.
  - intros u Hu. rewrite upd_other by lia. auto.
Qed.

Lemma map_seq_cons : forall (f : nat -> list Z) a n, (0 < n)%nat -> map f (seq a n) = f a :: map f (seq (a + 1) (n - 1)).
Proof. intros f a n H. destruct n as [|n]; [lia|]. cbn [seq map]. rewrite Nat.add_1_r. f_equal. f_equal. f_equal. lia. Qed.
Lemma map_seq_snoc : forall (f : nat -> list Z) a n, map f (seq a n) ++ [f (a + n)%nat] = map f (seq a (n + 1)).
Proof. intros f a n. rewrite Nat.add_1_r, seq_S, map_app. auto. Qed.

Lemma J_flush_dat : forall B C A P ent s a x v r, J B C A P ent s a -> buf s 0%nat = (Dat x, v) :: r ->
  J B C A P ent (mkT (setm (mem s) (Dat x) v) (upd (buf s) 0%nat r) (pcs s)) a.
Proof.
  intros B C A P ent s a x v r H Eb. destruct (j_dat _ _ _ _ _ _ _ H [] x v r Eb) as [j0 [Ex Hj0]]. cbn [cnt] in Ex. rewrite Nat.add_0_r in Ex.
  destruct H. constructor; auto; cbn [mem buf pcs].
  - intros u Hu. rewrite upd_other by lia. auto.
  - intros b1 y u b2. rewrite upd_same. intros ->. destruct (j_dat0 ((Dat x, v) :: b1) y u b2) as [j [K1 K2]]; [auto|]. exists j. auto.
  - intros u y X. rewrite upd_same in X. apply (j_reg0 u y). rewrite Eb. right. auto.
  - intros b1 y b2. rewrite upd_same. intros ->. destruct (j_split0 ((Dat x, v) :: b1) y b2) as [K1 K2]; [auto|]. cbn [cnt isPT fst] in *. split; auto.
  - rewrite upd_same. rewrite Eb in j_cnt0. auto.
  - intros n j Hn Hj. rewrite setm_other; auto. rewrite Ex. intros E. symmetry in E. rewrite mask_S in *. apply cN_inj in E; auto; lia.
  - destruct (pcs s 0%nat); auto. destruct j_p2 as [K1 [K2 [K3 [K4 K5]]]]. split; auto. split; auto. split; auto. split; auto.
    intros j Hj Hn. rewrite upd_same, <- fwd_flush, <- Eb. auto.
Qed.

Lemma J_flush_pt : forall B C A P ent s a v r, J B C A P ent s a -> buf s 0%nat = (PT, v) :: r ->
  exists a', q_step cap a Sent = Some a' /\ J B C (A + 1) P ent (mkT (setm (mem s) PT v) (upd (buf s) 0%nat r) (pcs s)) a'.
Proof.
  intros B C A P ent s a v r H Eb. destruct (j_split _ _ _ _ _ _ _ H [] v r Eb) as [Ev Hcell]. cbn [cnt fwd] in Ev, Hcell. rewrite Nat.add_0_r in *.
  destruct H. rewrite Eb in j_cnt0. cbn [cnt isPT fst PT] in j_cnt0.
  eexists. split; [cbn [q_step]; rewrite j_way0, map_seq_cons by lia; reflexivity|].
  constructor; auto; cbn [mem buf pcs way here out seen]; try lia.
  - f_equal. f_equal. lia.
  - rewrite j_here0. replace (ent A) with (ent (C + (A - C))%nat) by (f_equal; lia). rewrite map_seq_snoc. f_equal. f_equal. lia.
  - intros u Hu. rewrite upd_other by lia. auto.
  - intros b1 y u b2. rewrite upd_same. intros ->. destruct (j_dat0 ((PT, v) :: b1) y u b2) as [j [K1 K2]]; [auto|]. exists j. split; auto.
    rewrite K1. f_equal. cbn. lia.
  - intros u y X. rewrite upd_same in X. apply (j_reg0 u y). rewrite Eb. right. auto.
  - intros b1 y b2. rewrite upd_same. intros ->. destruct (j_split0 ((PT, v) :: b1) y b2) as [K1 K2]; [auto|].
    assert (E : (A + cnt ((PT, v) :: b1) = A + 1 + cnt b1)%nat) by (cbn; lia). rewrite E in *. split; auto.
  - rewrite upd_same. lia.
  - intros n j Hn Hj. rewrite setm_other by discriminate. destruct (Nat.eq_dec n A) as [->|]; [apply Hcell; auto|apply j_vis0; auto; lia].
  - destruct (pcs s 0%nat); auto. destruct j_p2 as [K1 [K2 [K3 [K4 K5]]]]. split; auto. split; auto. split; auto. split; auto.
    intros j Hj Hn. rewrite upd_same, <- fwd_flush, <- Eb. auto.
  - destruct (pcs s 1%nat); auto. destruct j_p3 as [K1 [K2 K3]]. split; auto. split; auto. lia.
Qed.

Lemma J_flush_ch : forall B C A P ent s a v r, J B C A P ent s a -> buf s 1%nat = (CH, v) :: r ->
  exists a', q_step cap a Freed = Some a' /\ J (B + 1) C A P ent (mkT (setm (mem s) CH v) (upd (buf s) 1%nat r) (pcs s)) a'.
Proof.
  intros B C A P ent s a v r H Eb. pose proof (j_csplit _ _ _ _ _ _ _ H [] CH v r Eb) as Ev. cbn [length] in Ev. rewrite Nat.add_0_r in *.
  destruct H. rewrite Eb in j_clen0. cbn [length] in j_clen0.
  destruct (out a) as [|o] eqn:Eo; [lia|].
  eexists. split; [cbn [q_step]; rewrite Eo; reflexivity|].
  constructor; auto; cbn [mem buf pcs way here out seen]; try lia.
  - intros u Hu. rewrite upd_other by lia. auto.
  - intros x y X. rewrite upd_same in X. apply (j_cb0 x y). rewrite Eb. right. auto.
  - intros b1 x y b2. rewrite upd_same. intros ->. rewrite (j_csplit0 ((CH, v) :: b1) x y b2) by auto. f_equal. cbn. lia.
  - rewrite upd_same. lia.
  - destruct (pcs s 0%nat); auto.
    + destruct j_p2 as [K1 [b [K2 K3]]]. split; auto. exists b. split; auto. lia.
    + destruct j_p2 as [K1 [[b [K2 K3]] K4]]. split; auto. split; auto. exists b. split; auto. lia.
Qed.

(** the producer copies a word *)
Lemma J_word : forall B C A P ent s a x c p todo j, J B C A P ent s a -> pcs s 0%nat = E3 x c p todo -> In j todo ->
  J B C A P ent (mkT (mem s) (upd (buf s) 0%nat (buf s 0%nat ++ [(cell p j, nth j x 0)])) (upd (pcs s) 0%nat (E3 x c p (remove Nat.eq_dec j todo)))) a.
Proof.
  intros B C A P ent s a x c p todo j H Ep Hj. destruct H. rewrite Ep in *. destruct j_p2 as [K1 [K2 [-> [K4 K5]]]]. rewrite cell_zc.
  constructor; auto; cbn [mem buf pcs].
  - intros u Hu. rewrite !upd_other by lia. auto.
  - intros b1 y v b2. rewrite upd_same. intros E. apply split_push in E. destruct E as [[<- [E _]]|[b2' [_ E]]]; [|eauto].
    apply (f_equal fst) in E. cbn [fst] in E. exists j. split; auto. rewrite <- E, j_cnt0. f_equal. lia.
  - intros u y X. rewrite upd_same in X. apply in_app_iff in X. destruct X as [X|[X|[]]]; [eauto|]. discriminate.
  - intros b1 y b2. rewrite upd_same. intros E. apply split_push in E. destruct E as [[_ [E _]]|[b2' [_ E]]]; [discriminate|]. eauto.
  - rewrite upd_same, cnt_app. cbn. lia.
  - rewrite upd_same. split; auto. split; auto. split; auto. split; [intros i X; apply in_remove in X; apply K4; tauto|].
    intros i Hi Hn. rewrite upd_same, fwd_app. cbn [fwd]. destruct (Nat.eq_dec i j) as [->|Hne].
    + destruct (loc_eqb_spec (cN P j) (cN P j)); congruence.
    + destruct (loc_eqb_spec (cN P j) (cN P i)) as [E|]; [apply cN_inj in E; auto; [lia|pose proof S_pos; lia]|]. apply K5; auto. intros X. apply Hn. apply in_in_remove; auto.
Qed.

(** the producer publishes the entry *)
Lemma J_enq : forall B C A P ent s a x c p, J B C A P ent s a -> pcs s 0%nat = E3 x c p [] ->
  exists a', accepts (q_step cap) a [Size (size k c p); Enq x] = Some a' /\
  J B C A (P + 1) (upd ent P x) (mkT (mem s) (upd (buf s) 0%nat (buf s 0%nat ++ [(PT, (p + 1) mod W)])) (upd (pcs s) 0%nat Idle)) a'.
Proof.
  intros B C A P ent s a x c p H Ep. destruct H. rewrite Ep in *. destruct j_p2 as [K1 [[b [Hb [-> [Hs Hr]]]] [-> [K4 K5]]]].
  assert (Hu : used a = (P - B)%nat) by (unfold used; rewrite j_way0, j_here0, !map_length, !seq_length, j_out0; lia).
  assert (He : forall f n, map (upd ent P x) (seq f n) = map ent (seq f n) \/ (P < f + n)%nat).
  { intros f n. destruct (Nat.lt_ge_cases P (f + n)) as [|L]; [auto|left]. apply map_ext_in. intros i Hi. apply in_seq in Hi. apply upd_other. lia. }
  eexists. split.
  - cbn [accepts q_step]. rewrite size_zc by lia. rewrite Hs, Nat.eqb_refl, Hu. pose proof cap_mask. destruct (Nat.ltb_spec (P - B) cap); [reflexivity|lia].
  - constructor; auto; cbn [mem buf pcs way here out seen]; try lia.
    + intros n Hn. destruct (Nat.eq_dec n P) as [->|]; [rewrite upd_same; auto|rewrite upd_other by auto; apply j_len0; lia].
    + rewrite j_way0. replace (P + 1 - A)%nat with (P - A + 1)%nat by lia. rewrite <- map_seq_snoc. destruct (He A (P - A)%nat) as [->|]; [|lia]. f_equal. f_equal.
      replace (A + (P - A))%nat with P by lia. rewrite upd_same. auto.
    + rewrite j_here0. destruct (He C (A - C)%nat) as [->|]; [auto|lia].
    + intros u Hn. rewrite !upd_other by lia. auto.
    + intros b1 y v b2. rewrite upd_same. intros E. apply split_push in E. destruct E as [[_ [E _]]|[b2' [_ E]]]; [discriminate|]. eauto.
    + intros u y X. rewrite upd_same in X. apply in_app_iff in X. destruct X as [X|[X|[]]]; [eauto|]. injection X as <- _. auto.
    + intros b1 y b2. rewrite upd_same. intros E. apply split_push in E. destruct E as [[<- [E _]]|[b2' [_ E]]].
      * apply (f_equal snd) in E. cbn [snd] in E. rewrite j_cnt0. replace (A + (P - A))%nat with P by lia. split; [rewrite <- E; apply zc_succ|].
        intros j Hj. rewrite upd_same. apply K5; auto.
      * assert (L : (A + cnt b1 < P)%nat) by (rewrite E, cnt_app in j_cnt0; cbn [cnt isPT fst PT] in j_cnt0; lia).
        rewrite upd_other by lia. eauto.
    + rewrite upd_same, cnt_app. cbn. lia.
    + intros n j Hn Hj. rewrite upd_other by lia. auto.
    + rewrite upd_same. auto.
    + rewrite upd_other by auto. destruct (pcs s 1%nat); auto. destruct j_p3 as [L1 [L2 L3]]. rewrite upd_other by lia. auto.
Qed.

Lemma lookup_in : forall got j (f : nat -> Z), (forall i v, In (i, v) got -> v = f i) -> (exists v, In (j, v) got) -> lookup j got = f j.
Proof.
  intros got j f H [v Hv]. unfold lookup. destruct (find (fun e => Nat.eqb j (fst e)) got) as [[i u]|] eqn:E.
  - apply find_some in E. destruct E as [E1 E2]. apply Nat.eqb_eq in E2. cbn in *. subst i. auto.
  - exfalso. apply (find_none _ _ E) in Hv. cbn in Hv. rewrite Nat.eqb_refl in Hv. discriminate.
Qed.
Lemma nth_words : forall (l : list Z), length l = w -> map (fun j => nth j l 0) (words w) = l.
Proof.
  intros l E. unfold words. rewrite <- E. clear E. induction l as [|x l IH]; auto. cbn [length seq map nth]. f_equal. rewrite <- seq_shift, map_map. exact IH.
Qed.

(** the consumer returns the entry *)
Lemma J_deq : forall B C A P ent s a c got, J B C A P ent s a -> pcs s 1%nat = D3 c [] got ->
  exists a', accepts (q_step cap) a [Deq (entry w got)] = Some a' /\
  J B (C + 1) A P ent (mkT (mem s) (upd (buf s) 1%nat (buf s 1%nat ++ [(CH, (c + 1) mod W)])) (upd (pcs s) 1%nat Idle)) a'.
Proof.
  intros B C A P ent s a c got H Ep. destruct H. rewrite Ep in *. destruct j_p3 as [-> [K2 [K3 [K4 K5]]]].
  assert (He : entry w got = ent C).
  { rewrite <- (nth_words (ent C)) by (apply j_len0; lia). unfold entry. apply map_ext_in. intros j Hj. apply in_seq in Hj.
    apply (lookup_in got j (fun j => nth j (ent C) 0)); auto. destruct (K5 j) as [[]|X]; auto. lia. }
  eexists. split.
  - cbn [accepts q_step]. rewrite j_here0, map_seq_cons by lia. rewrite He. destruct (list_eq_dec Z.eq_dec (ent C) (ent C)); [reflexivity|congruence].
  - constructor; auto; cbn [mem buf pcs way here out seen]; try lia.
    + f_equal. f_equal. lia.
    + intros u Hn. rewrite !upd_other by lia. auto.
    + intros n j Hn Hj. apply j_vis0; auto. lia.
    + intros x v X. rewrite upd_same in X. apply in_app_iff in X. destruct X as [X|[X|[]]]; [eauto|]. apply (f_equal fst) in X. auto.
    + intros b1 x v b2. rewrite upd_same. intros E. apply split_push in E. destruct E as [[<- [E _]]|[b2' [_ E]]]; [|eauto].
      apply (f_equal snd) in E. cbn [snd] in E. rewrite <- E, zc_succ. f_equal. lia.
    + rewrite upd_same, app_length. cbn. lia.
    + rewrite upd_same. auto.
Qed.

(** * All steps *)
Lemma memb_in : forall j l, memb j l = true -> In j l.
Proof. intros j l H. apply existsb_exists in H. destruct H as [x [H E]]. apply Nat.eqb_eq in E. subst. auto. Qed.
Lemma J_step : forall B C A P ent s a l s' e, J B C A P ent s a -> step code arr s l = Some (s', e) ->
  exists B' C' A' P' ent' a', accepts (q_step cap) a e = Some a' /\ J B' C' A' P' ent' s' a'.
Proof.
  intros B C A P ent s a l s' e H Hs. destruct l as [t ac|t]; cbn [step] in Hs.
  - assert (Ht : t = 0%nat \/ t = 1%nat \/ (2 <= t)%nat) by lia. destruct Ht as [->|[->|Ht]].
    + pose proof (j_p0 _ _ _ _ _ _ _ H) as H0. pose proof (j_p1 _ _ _ _ _ _ _ H) as H1. destruct (pcs s 0%nat) eqn:Ep; try contradiction; destruct ac; try discriminate Hs; cbn [TsoRing_Model.code Nat.eqb andb] in Hs; try discriminate Hs.
      * destruct (Nat.eqb_spec (length x) w) as [El|]; [|discriminate]. injection Hs as <- <-. exists B, C, A, P, ent, a. split; auto. eapply J_next; eauto.
      * injection Hs as <- <-. rewrite (view0_CH _ _ _ _ _ _ _ H). do 5 eexists. eexists. split; [reflexivity|]. eapply J_next; eauto. rewrite upd_same. split; auto. exists B. cbn [seen].
        split; auto. split; auto. split; [|apply (j_room _ _ _ _ _ _ _ H)]. unfold used. destruct H. rewrite j_way0, j_here0, !map_length, !seq_length, j_out0. lia.
      * rewrite (view_PT _ _ _ _ _ _ _ H) in Hs. destruct H0 as [E1 [b [Hb [-> [Hs' Hr]]]]]. assert (Hbp : (b <= P)%nat) by (destruct H; lia).
        pose proof (full_zc b P Hbp Hr) as Hf. destruct (Z.land ((zc P + 1) mod W) mask =? Z.land (zc b) mask) eqn:Ef; injection Hs as <- <-.
        -- exists B, C, A, P, ent, a. split; [|eapply J_next; eauto; rewrite upd_same; auto]. cbn [accepts q_step]. rewrite size_zc, Hs', Nat.eqb_refl by auto.
           pose proof cap_mask. destruct Hf as [Hf _]. specialize (Hf eq_refl). rewrite Hs'. destruct (Nat.eqb_spec (P - b) cap); [reflexivity|]. lia.
        -- exists B, C, A, P, ent, a. split; auto. eapply J_next; eauto. rewrite upd_same. split; auto. split; [exists b; split; auto; split; auto; split; auto|].
           { destruct (Z.eq_dec (Z.of_nat P - Z.of_nat b) mask) as [E|]; [apply Hf in E; discriminate|lia]. }
           split; auto. split; [intros j Hj; apply in_seq in Hj; lia|]. intros j Hj Hn. exfalso. apply Hn. apply in_seq. lia.
      * destruct todo; [|discriminate]. injection Hs as <- <-. destruct (J_enq _ _ _ _ _ _ _ _ _ _ H Ep) as [a' [K1 K2]]. do 6 eexists. split; [exact K1|exact K2].
      * destruct (memb j todo) eqn:Em; [|discriminate]. injection Hs as <- <-. exists B, C, A, P, ent, a. split; auto. apply J_word; auto. apply memb_in; auto.
    + pose proof (j_p0 _ _ _ _ _ _ _ H) as H0. pose proof (j_p1 _ _ _ _ _ _ _ H) as H1. destruct (pcs s 1%nat) eqn:Ep; try contradiction; destruct ac; try discriminate Hs; cbn [TsoRing_Model.code Nat.eqb andb] in Hs; try discriminate Hs.
      * injection Hs as <- <-. exists B, C, A, P, ent, a. split; auto. eapply J_next; eauto.
      * injection Hs as <- <-. rewrite (view_CH _ _ _ _ _ _ _ H). exists B, C, A, P, ent, a. split; auto. eapply J_next; eauto; reflexivity.
      * rewrite (view1 _ _ _ _ _ _ _ PT H), (j_pt _ _ _ _ _ _ _ H) in Hs by discriminate. subst c. destruct (Z.eqb_spec (zc C) (zc A)) as [E|E]; injection Hs as <- <-.
        -- exists B, C, A, P, ent, a. split; [|eapply J_next; eauto; exact I]. assert (C = A). { destruct H. apply zc_inj; auto. pose proof S_W. rewrite mask_S in *. lia. }
           subst C. cbn. rewrite (j_here _ _ _ _ _ _ _ H), Nat.sub_diag. reflexivity.
        -- exists B, C, A, P, ent, a. split; auto. eapply J_next; eauto. rewrite upd_same. split; auto. split; [|split; [intros j Hj; apply in_seq in Hj; lia|split; [intros j v []|]]].
           { pose proof (j_ca _ _ _ _ _ _ _ H). destruct (Nat.eq_dec C A); [congruence|lia]. }
           intros j Hj. left. apply in_seq. lia.
      * destruct todo; [|discriminate]. injection Hs as <- <-. destruct (J_deq _ _ _ _ _ _ _ _ _ H Ep) as [a' [K1 K2]]. do 6 eexists. split; [exact K1|exact K2].
      * destruct (memb j todo) eqn:Em; [|discriminate]. injection Hs as <- <-. apply memb_in in Em. exists B, C, A, P, ent, a. split; auto.
        destruct H1 as [-> [K2 [K3 [K4 K5]]]]. eapply J_next; eauto. rewrite upd_same. split; auto. split; auto. split; [intros i X; apply in_remove in X; apply K3; tauto|]. split.
        -- intros i v [X|X]; auto. injection X as <- <-. rewrite cell_zc, (view1 _ _ _ _ _ _ _ _ H) by discriminate. apply (j_vis _ _ _ _ _ _ _ H); auto.
        -- intros i Hi. destruct (Nat.eq_dec i j) as [->|Hn]; [right; eexists; left; reflexivity|]. destruct (K5 i Hi) as [X|[v X]]; [left; apply in_in_remove; auto|right; exists v; right; auto].
    + destruct (j_none _ _ _ _ _ _ _ H t Ht) as [_ Ep]. rewrite Ep in Hs. destruct ac; cbn [TsoRing_Model.code] in Hs; try discriminate.
      * destruct (Nat.eqb_spec t 0); [lia|discriminate].
      * destruct (Nat.eqb_spec t 1); [lia|discriminate].
  - destruct (buf s t) as [|[x v] r] eqn:Eb; [discriminate|]. injection Hs as <- <-.
    assert (Ht : t = 0%nat \/ t = 1%nat \/ (2 <= t)%nat) by lia. destruct Ht as [->|[->|Ht]].
    + destruct x as [i|i].
      * exists B, C, A, P, ent, a. split; auto. apply J_flush_dat; auto.
      * assert (i = 1%nat) as -> by (apply (j_reg _ _ _ _ _ _ _ H i v); rewrite Eb; left; auto).
        destruct (J_flush_pt _ _ _ _ _ _ _ _ _ H Eb) as [a' [K1 K2]]. exists B, C, (A + 1)%nat, P, ent, a'. split; auto. cbn [arr accepts]. rewrite K1. auto.
    + assert (x = CH) as -> by (apply (j_cb _ _ _ _ _ _ _ H x v); rewrite Eb; left; auto).
      destruct (J_flush_ch _ _ _ _ _ _ _ _ _ H Eb) as [a' [K1 K2]]. exists (B + 1)%nat, C, A, P, ent, a'. split; auto. cbn [arr CH accepts]. rewrite K1. auto.
    + destruct (j_none _ _ _ _ _ _ _ H t Ht). congruence.
Qed.

Lemma ring_J : forall ls s log, run (step code arr) init ls = Some (s, log) ->
  exists B C A P ent a, accepts (q_step cap) {| way := []; here := []; out := 0; seen := 0 |} log = Some a /\ J B C A P ent s a.
Proof.
  intros ls s log H.
  eapply (run_inv (step code arr) (fun s log => exists B C A P ent a, accepts (q_step cap) {| way := []; here := []; out := 0; seen := 0 |} log = Some a /\ J B C A P ent s a)); [| |exact H].
  - exists 0%nat, 0%nat, 0%nat, 0%nat, (fun _ => []). eexists. split; [reflexivity|]. pose proof S_pos. constructor; cbn; auto; try lia; try (rewrite mask_S; lia); try (intros [|? b1]; intros; discriminate); try (intros; contradiction).
  - intros s1 l1 l s2 e [B [C [A [P [ent [a [I1 I2]]]]]]] Hs. destruct (J_step _ _ _ _ _ _ _ _ _ _ I2 Hs) as [B' [C' [A' [P' [ent' [a' [K1 K2]]]]]]].
    exists B', C', A', P', ent', a'. split; auto. rewrite accepts_app, I1. auto.
Qed.
Lemma ring_all : forall ls s log, run (step code arr) init ls = Some (s, log) -> q_legal cap log.
Proof. intros ls s log H. destruct (ring_J ls s log H) as [B [C [A [P [ent [a [K _]]]]]]]. exists a. auto. Qed.
Lemma ring_drained : forall ls s log, run (step code arr) init ls = Some (s, log) -> (forall t, buf s t = []) ->
  exists a, accepts (q_step cap) {| way := []; here := []; out := 0; seen := 0 |} log = Some a /\ way a = [] /\ out a = 0%nat.
Proof.
  intros ls s log H Hb. destruct (ring_J ls s log H) as [B [C [A [P [ent [a [K1 K2]]]]]]]. exists a. split; auto.
  pose proof (j_cnt _ _ _ _ _ _ _ K2) as E. pose proof (j_clen _ _ _ _ _ _ _ K2) as E'. rewrite Hb in E, E'. cbn in E, E'.
  rewrite (j_way _ _ _ _ _ _ _ K2), (j_out _ _ _ _ _ _ _ K2), <- E, <- E'. auto.
Qed.
End Proof.
