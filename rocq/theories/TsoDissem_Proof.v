From Coq Require Import Arith NArith List Bool Lia.
From Verif Require Import Lib LockProg BarSpec BarProg Helpers_Model Helpers_Proof BarDissem_Model BarDissem_Proof TsoDissem_Model.
Import ListNotations.
Local Arguments upd : simpl never.
Local Arguments Nat.ltb : simpl never.
Local Arguments Nat.leb : simpl never.
Local Arguments Nat.odd : simpl never.
Local Arguments Nat.div2 : simpl never.
Local Arguments Nat.pow : simpl never.
Local Arguments Nat.modulo : simpl never.

Section P.
Variable n : nat.
Hypothesis Hn : (1 <= N.of_nat n <= 2 ^ 31)%N.
Notation size := (size n). Notation partner := (partner n).
Notation R := (R n). Notation C := BarDissem_Proof.C. Notation D := BarDissem_Proof.D.

(** the sequentially consistent state: stores are performed when issued *)
Definition sf (s : state) (F : bool -> nat -> nat -> bool) : state := mk (tid s) F (par s) (sns s) (thr s).
Definition kk (x : ent) : bool * nat := (ep x, ek x).

Record Rb (s : tst) (F : bool -> nat -> nat -> bool) (en lv : nat -> nat) : Prop := mkRb {
  b_in : forall t x, In x (bf s t) -> t < n /\ ek x < size /\ ei x = partner t (ek x) /\ ev x = F (ep x) (ei x) (ek x) /\
         flag (b s) (ep x) (ei x) (ek x) = negb (ev x) /\
         exists e, ep x = Nat.odd e /\ C lv en (thr (b s)) (ei x) (ek x) <= e /\ e < D lv en (thr (b s)) t (ek x);
  b_u : forall t, NoDup (map kk (bf s t));
  b_no : forall p i k, (forall t x, In x (bf s t) -> hit x p i k = false) -> flag (b s) p i k = F p i k }.

Lemma hit_eq : forall x p i k, hit x p i k = true -> ep x = p /\ ei x = i /\ ek x = k.
Proof.
  intros x p i k H. unfold hit in H. apply andb_prop in H. destruct H as [H H3]. apply andb_prop in H. destruct H as [H1 H2].
  apply eqb_prop in H1. apply Nat.eqb_eq in H2. apply Nat.eqb_eq in H3. auto.
Qed.
Lemma hit_self : forall x, hit x (ep x) (ei x) (ek x) = true.
Proof. intros. unfold hit. rewrite eqb_reflx, !Nat.eqb_refl. auto. Qed.
Lemma fw_none : forall l p i k d, (forall x, In x l -> hit x p i k = false) -> fw l p i k d = d.
Proof. induction l as [|x l IH]; intros p i k d H; cbn; auto. rewrite (H x) by (left; auto). apply IH. intros y Hy. apply H. right. auto. Qed.
Lemma set3_hit : forall f x p i k, set3 f (ep x) (ei x) (ek x) (ev x) p i k = if hit x p i k then ev x else f p i k.
Proof.
  intros. unfold set3, hit. rewrite (Nat.eqb_sym i), (Nat.eqb_sym k). destruct p, (ep x); reflexivity.
Qed.

Lemma pow_lt : forall k, k < size -> 2 ^ k < n.
Proof.
  intros k Hk. rewrite size_eq in Hk by auto.
  destruct (N.eq_dec (N.of_nat n) 1) as [E1|E1]; [rewrite E1 in Hk; cbn in Hk; lia|].
  destruct (N.log2_up_spec (N.of_nat n)) as [X _]; [lia|].
  assert (Y : (2 ^ N.of_nat k <= 2 ^ N.pred (N.log2_up (N.of_nat n)))%N) by (apply N.pow_le_mono_r; lia).
  rewrite pow_of_nat in Y. lia.
Qed.
Lemma partner_ne : forall t k, t < n -> k < size -> partner t k <> t.
Proof.
  intros t k Ht Hk. assert (X := pow_lt k Hk). rewrite partner_cases by auto. cbv zeta. rewrite Nat.mod_small by auto.
  assert (1 <= 2 ^ k) by (change 1 with (2 ^ 0); apply Nat.pow_le_mono_r; lia).
  destruct (Nat.ltb_spec (t + 2 ^ k) n); lia.
Qed.

(** nobody is more than two stores ahead of its partner's waits *)
Lemma ahead : forall s en lv t k, R s en lv -> t < n -> k < size -> D lv en (thr s) t k <= S (S (C lv en (thr s) (partner t k) k)).
Proof.
  intros s en lv t k H Ht Hk. assert (Hj := partner_lt n Hn t k Ht Hk). set (j := partner t k) in *.
  assert (X1 := r_el _ _ _ _ H t Ht). assert (X2 := r_el _ _ _ _ H j Hj). assert (X3 := r_sf _ _ _ _ H t j Ht Hj).
  unfold D, C. destruct (nst (thr s t) k), (nwt (thr s j) k), (inside (thr s t)), (inside (thr s j)); lia.
Qed.

(** D and C do not depend on anything but these *)
Lemma Rb_ext : forall s s' F en lv en' lv', Rb s F en lv -> bf s' = bf s -> flag (b s') = flag (b s) ->
  (forall w k, w < n -> k < size -> D lv' en' (thr (b s')) w k = D lv en (thr (b s)) w k) ->
  (forall w k, w < n -> k < size -> C lv' en' (thr (b s')) w k = C lv en (thr (b s)) w k) -> Rb s' F en' lv'.
Proof.
  intros s s' F en lv en' lv' [B1 B2 B3] E1 E2 HD HC. constructor; rewrite ?E1, ?E2; auto.
  intros t x Hx. destruct (B1 t x Hx) as [P1 [P2 [P3 [P4 [P5 [e [P6 [P7 P8]]]]]]]]. refine (conj P1 (conj P2 (conj P3 (conj P4 (conj P5 _))))).
  exists e. rewrite HD, HC; auto. rewrite P3. apply partner_lt; auto.
Qed.

Lemma sim_flush : forall s F en lv t x r, Rb s F en lv -> bf s t = x :: r ->
  Rb (mkT (mk (tid (b s)) (set3 (flag (b s)) (ep x) (ei x) (ek x) (ev x)) (par (b s)) (sns (b s)) (thr (b s))) (upd (bf s) t r)) F en lv.
Proof.
  intros s F en lv t x r [B1 B2 B3] Hb. destruct (B1 t x) as [P1 [P2 [P3 [P4 [P5 _]]]]]; [rewrite Hb; left; auto|].
  assert (Sub : forall u y, In y (upd (bf s) t r u) -> In y (bf s u)).
  { intros u y. unfold upd. destruct (Nat.eq_dec u t) as [->|]; auto. rewrite Hb. right. auto. }
  assert (Nx : forall u y, In y (upd (bf s) t r u) -> hit x (ep y) (ei y) (ek y) = false).
  { intros u y Hy. destruct (hit x (ep y) (ei y) (ek y)) eqn:Eh; auto. exfalso. apply hit_eq in Eh. destruct Eh as [H1 [H2 H3]].
    destruct (B1 u y (Sub u y Hy)) as [Q1 [Q2 [Q3 _]]].
    assert (u = t). { apply (partner_inj n Hn u t (ek y)); auto. rewrite <- Q3, <- H2, <- H3. auto. } subst u.
    rewrite upd_same in Hy. specialize (B2 t). rewrite Hb in B2. cbn in B2. inversion B2 as [|? ? Z1 Z2]. apply Z1. apply in_map_iff. exists y. split; auto. unfold kk. congruence. }
  constructor; cbn [b bf flag thr].
  - intros u y Hy. destruct (B1 u y (Sub u y Hy)) as [Q1 [Q2 [Q3 [Q4 [Q5 Q6]]]]]. rewrite set3_hit, (Nx u y Hy). auto 10.
  - intros u. unfold upd. destruct (Nat.eq_dec u t) as [->|]; auto. specialize (B2 t). rewrite Hb in B2. cbn in B2. inversion B2; auto.
  - intros p i k H. rewrite set3_hit. destruct (hit x p i k) eqn:Eh.
    + apply hit_eq in Eh. destruct Eh as [<- [<- <-]]. auto.
    + apply B3. intros u y Hy. destruct (Nat.eq_dec u t) as [->|Hne].
      * rewrite Hb in Hy. destruct Hy as [<-|Hy]; auto. apply (H t). rewrite upd_same. auto.
      * apply (H u). rewrite upd_other; auto.
Qed.

Definition R' (s : tst) (en lv : nat -> nat) : Prop := exists F, Rb s F en lv /\ R (sf (b s) F) en lv.

Lemma R'_init : R' tinit (fun _ => 0) (fun _ => 0).
Proof.
  exists (flag init). split; [|apply (R_init n Hn)]. constructor; cbn; auto; [intros t x []|intros; constructor].
Qed.

Lemma odd_ne2 : forall l e, Nat.odd e = Nat.odd l -> l <= e -> e < S (S l) -> e = l.
Proof. intros l e H1 H2 H3. assert (X : e = l \/ e = S l) by lia. destruct X as [|X]; auto. rewrite X, odd_S in H1. destruct (Nat.odd l); discriminate. Qed.

Lemma R'_step : forall s en lv l s' e, R' s en lv -> tstep n s l = Some (s', e) ->
  (e = [] /\ R' s' en lv) \/ (exists t, e = [Enter t] /\ R' s' (upd en t (S (en t))) lv) \/
  (exists t, e = [Leave t] /\ R' s' en (upd lv t (S (lv t)))).
Proof.
  intros s en lv [t a|t] s' e [F [H HR]] Hs; cbn [tstep] in Hs.
  2:{ destruct (bf s t) as [|x r] eqn:Hb; [discriminate|]. injection Hs as <- <-. left. split; auto. exists F. split; [apply sim_flush; auto|exact HR]. }
  destruct (Nat.ltb_spec t n) as [Ht|]; [|discriminate]. cbn [negb] in Hs.
  assert (Htb : negb (Nat.ltb t n) = false) by (destruct (Nat.ltb_spec t n); auto; lia).
  assert (Hst := R_step n Hn (sf (b s) F) en lv (t, a)).
  assert (Rpc := r_pc _ _ _ _ HR t Ht). assert (Rel := r_el _ _ _ _ HR t Ht).
  unfold step in Hst. rewrite Htb in Hst. cbn [sf thr par sns flag tid] in Hst, Rpc, Rel.
  assert (Sub : match thr (b s) t with Unsub => False | _ => True end -> N.eqb (N.of_nat t) (tid (b s)) = true -> False).
  { intros X Y. apply N.eqb_eq in Y. destruct (r_tid _ _ _ _ HR) as [m [M1 [M2 M3]]]. cbn in M1, M3. rewrite (M3 t Ht) in X by lia. auto. }
  destruct (thr (b s) t) eqn:Et; destruct a; unfold step in Hs; rewrite ?Htb, ?Et in Hs; try discriminate Hs;
    try (exfalso; destruct (bf s t); [|discriminate]; destruct (N.eqb _ _) eqn:Eq; [exact (Sub I eq_refl)|discriminate]).
  - (* subscribe *)
    destruct (bf s t); [|discriminate]. destruct (N.eqb (N.of_nat t) (tid (b s))) eqn:Eq; [|discriminate]. injection Hs as <- <-.
    left. split; auto. destruct (Hst _ _ HR eq_refl) as [[_ X]|[[u [X _]]|[u [X _]]]]; try discriminate.
    exists F. split; [|exact X]. eapply Rb_ext; [exact H|reflexivity|reflexivity| |]; cbn [b thr]; intros w k Hw Hk; unfold D, C, upd; destruct (Nat.eq_dec w t) as [->|]; auto; rewrite Et; auto.
  - (* enter *)
    injection Hs as <- <-. right. left. exists t. split; auto. cbn in Rel.
    destruct (Hst _ _ HR eq_refl) as [[X _]|[[u [X1 X]]|[u [X1 _]]]]; try discriminate. injection X1 as <-.
    exists F. split; [|exact X]. eapply Rb_ext; [exact H|reflexivity|reflexivity| |]; cbn [b thr go]; intros w k Hw Hk; unfold D, C, upd; destruct (Nat.eq_dec w t) as [->|]; auto; rewrite Et; cbn; destruct (Nat.leb_spec 0 k); lia.
  - (* loop head *)
    destruct (Nat.ltb_spec k size) as [Hk|Hk].
    + injection Hs as <- <-. left. split; auto. assert (Hj := partner_lt n Hn t k Ht Hk).
      destruct (Hst _ _ HR eq_refl) as [[_ X]|[[u [X1 _]]|[u [X1 _]]]]; try discriminate. cbn in Rel.
      destruct (r_ps _ _ _ _ HR t Ht) as [P1 P2]; [cbn; congruence|]. cbn in P1, P2.
      assert (Dt : D lv en (thr (b s)) t k = lv t) by (unfold D; rewrite Et; cbn; rewrite Nat.leb_refl; auto).
      assert (Fl := r_fl _ _ _ _ HR t k (par (b s) t) Ht Hk). cbn in Fl. rewrite Dt, P1, fl_before in Fl.
      assert (Cd := r_cd _ _ _ _ HR t k Ht Hk). cbn in Cd. rewrite Dt in Cd.
      exists (set3 F (par (b s) t) (partner t k) k (sns (b s) t)). split; [|exact X].
      assert (HC : forall w j, C lv en (upd (thr (b s)) t (Wt k)) w j = C lv en (thr (b s)) w j).
      { intros w j. unfold C, upd. destruct (Nat.eq_dec w t); auto. subst w. rewrite Et. auto. }
      assert (HD : forall w j, D lv en (thr (b s)) w j <= D lv en (upd (thr (b s)) t (Wt k)) w j).
      { intros w j. unfold D, upd. destruct (Nat.eq_dec w t); auto. subst w. rewrite Et. cbn. destruct (Nat.leb_spec k j), (Nat.ltb_spec k j); lia. }
      assert (HDt : D lv en (upd (thr (b s)) t (Wt k)) t k = S (lv t)) by (unfold D; rewrite upd_same; cbn; rewrite Nat.ltb_irrefl; lia).
      assert (Ah := ahead _ en lv t k X Ht Hk). cbn [thr] in Ah. rewrite HDt, HC in Ah.
      set (x := TsoDissem_Model.E (par (b s) t) (partner t k) k (sns (b s) t)).
      (* nothing is pending for this flag *)
      assert (Np : forall u y, In y (bf s u) -> hit x (ep y) (ei y) (ek y) = false).
      { intros u y Hy. destruct (hit x (ep y) (ei y) (ek y)) eqn:Eh; auto. exfalso. apply hit_eq in Eh. unfold x in Eh. cbn in Eh. destruct Eh as [H1 [H2 H3]].
        destruct (b_in _ _ _ _ H u y Hy) as [Q1 [Q2 [Q3 [_ [_ [e [Q4 [Q5 Q6]]]]]]]]. rewrite <- H3 in *. rewrite <- H2 in *.
        assert (u = t) by (apply (partner_inj n Hn u t k); auto). subst u. rewrite Dt in Q6.
        assert (lv t = S e) by lia. rewrite <- H1, P1 in Q4. rewrite H0, odd_S in Q4. destruct (Nat.odd e); discriminate. }
      assert (M : flag (b s) (par (b s) t) (partner t k) k = F (par (b s) t) (partner t k) k).
      { apply (b_no _ _ _ _ H). intros u y Hy. assert (Z := Np u y Hy). destruct (hit y _ _ _) eqn:Eh; auto. apply hit_eq in Eh. destruct Eh as [E1 [E2 E3]].
        rewrite E1, E2, E3 in Z. unfold x in Z. rewrite hit_self in Z. auto. }
      destruct H as [B1 B2 B3]. constructor; cbn [b bf go flag thr].
      * intros u y Hy.
        assert (In y (bf s u) \/ u = t /\ y = x) as [Hy'|[-> ->]].
        { unfold upd in Hy. destruct (Nat.eq_dec u t) as [->|]; auto. apply in_app_iff in Hy. destruct Hy as [Hy|[Hy|[]]]; auto. }
        -- destruct (B1 u y Hy') as [Q1 [Q2 [Q3 [Q4 [Q5 [e [Q6 [Q7 Q8]]]]]]]]. refine (conj Q1 (conj Q2 (conj Q3 (conj _ (conj Q5 _))))).
           ++ rewrite Q4. symmetry. change (set3 F (ep x) (ei x) (ek x) (ev x) (ep y) (ei y) (ek y) = F (ep y) (ei y) (ek y)). rewrite set3_hit, (Np u y Hy'). auto.
           ++ exists e. rewrite HC. assert (Z := HD u (ek y)). split; [auto|]. split; [auto|]. eapply Nat.lt_le_trans; eauto.
        -- refine (conj Ht (conj Hk (conj eq_refl (conj _ (conj _ _))))).
           ++ symmetry. change (set3 F (ep x) (ei x) (ek x) (ev x) (ep x) (ei x) (ek x) = ev x). rewrite set3_hit, hit_self. auto.
           ++ cbn [x ep ei ek ev]. rewrite M, P1, P2, Fl. auto.
           ++ exists (lv t). cbn [x ep ei ek ev]. rewrite HC, HDt. auto.
      * intros u. unfold upd. destruct (Nat.eq_dec u t) as [->|]; auto. rewrite map_app. cbn [map].
        assert (Ni : ~ In (kk x) (map kk (bf s t))).
        { intros Z. apply in_map_iff in Z. destruct Z as [y [Z1 Z2]]. assert (Z3 := Np t y Z2). destruct (B1 t y Z2) as [_ [_ [Q3 _]]].
          unfold kk, x in Z1. cbn in Z1. injection Z1 as Z4 Z5. rewrite Z5 in Q3. rewrite Z4, Z5, Q3 in Z3. unfold x in Z3. rewrite hit_self in Z3. discriminate. }
        rewrite <- (rev_involutive (map kk (bf s t) ++ [kk x])). apply NoDup_rev. rewrite rev_app_distr. cbn. constructor; [rewrite <- in_rev; auto|apply NoDup_rev; auto].
      * intros p i j Hh. change (flag (b s) p i j = set3 F (ep x) (ei x) (ek x) (ev x) p i j). rewrite set3_hit.
        assert (Hx : hit x p i j = false) by (apply (Hh t); rewrite upd_same; apply in_app_iff; right; left; auto). rewrite Hx.
        apply B3. intros u y Hy. apply (Hh u). unfold upd. destruct (Nat.eq_dec u t) as [->|]; auto. apply in_app_iff. auto.
    + destruct (Nat.ltb_spec k size); [lia|]. injection Hs as <- <-. right. right. exists t. split; auto. cbn in Rel.
      destruct (Hst _ _ HR eq_refl) as [[X _]|[[u [X1 _]]|[u [X1 X]]]]; try discriminate. injection X1 as <-.
      exists F. split; [|exact X]. eapply Rb_ext; [exact H|reflexivity|reflexivity| |]; cbn [b thr go]; intros w j Hw Hj; unfold D, C, upd; destruct (Nat.eq_dec w t) as [->|]; auto; rewrite Et; cbn; destruct (Nat.leb_spec k j); lia.
  - (* wait *)
    assert (Own : forall x, In x (bf s t) -> hit x (par (b s) t) t k = false).
    { intros x Hx. destruct (hit x _ _ _) eqn:Eh; auto. apply hit_eq in Eh. destruct Eh as [E1 [E2 E3]]. destruct (b_in _ _ _ _ H t x Hx) as [Q1 [Q2 [Q3 _]]].
      exfalso. apply (partner_ne t k); auto. congruence. }
    rewrite (fw_none _ _ _ _ _ Own) in Hs.
    destruct (r_ps _ _ _ _ HR t Ht) as [P1 P2]; [cbn; congruence|]. cbn in P1, P2, Rel.
    assert (Ct : C lv en (thr (b s)) t k = lv t) by (unfold C; rewrite Et; cbn; rewrite Nat.leb_refl; auto).
    destruct (Bool.eqb (flag (b s) (par (b s) t) t k) (sns (b s) t)) eqn:Eb; injection Hs as <- <-; left; (split; [auto|]).
    2:{ exists F. auto. }
    apply eqb_prop in Eb.
    (* the store has arrived *)
    assert (Np : forall u x, In x (bf s u) -> hit x (par (b s) t) t k = false).
    { intros u x Hx. destruct (hit x _ _ _) eqn:Eh; auto. exfalso. apply hit_eq in Eh. destruct Eh as [E1 [E2 E3]].
      destruct (b_in _ _ _ _ H u x Hx) as [Q1 [Q2 [Q3 [Q4 [Q5 [e [Q6 [Q7 Q8]]]]]]]].
      assert (Ah := ahead _ en lv u (ek x) HR Q1 Q2). cbn [sf thr] in Ah. rewrite <- Q3 in Ah. rewrite E1, E2, E3 in *. rewrite Ct in *.
      assert (e = lv t) by (apply odd_ne2; [congruence|lia|lia]). subst e.
      assert (Fl := r_fl _ _ _ _ HR u k (par (b s) t) Q1 Q2). cbn [sf flag thr] in Fl. rewrite <- Q3 in Fl. rewrite P1 in Fl, Q4, Q5, Eb.
      assert (HDc : D lv en (thr (b s)) u k = S (lv t) \/ D lv en (thr (b s)) u k = S (S (lv t))) by lia.
      assert (F1 : F (Nat.odd (lv t)) t k = sn (lv t)) by (destruct HDc as [Z|Z]; rewrite Z in Fl; [rewrite fl_at in Fl|rewrite fl_after in Fl]; auto).
      rewrite Q4, F1, Eb, P2 in Q5. destruct (sn (lv t)); discriminate. }
    assert (M := b_no _ _ _ _ H _ _ _ Np). rewrite <- M, Eb, eqb_reflx in Hst.
    destruct (Hst _ _ HR eq_refl) as [[_ X]|[[u [X1 _]]|[u [X1 _]]]]; try discriminate.
    exists F. split; [|exact X]. destruct H as [B1 B2 B3]. constructor; cbn [b bf go flag thr]; auto.
    intros u x Hx. destruct (B1 u x Hx) as [Q1 [Q2 [Q3 [Q4 [Q5 [e [Q6 [Q7 Q8]]]]]]]]. refine (conj Q1 (conj Q2 (conj Q3 (conj Q4 (conj Q5 _))))).
    exists e. split; auto. split.
    + unfold C, upd. destruct (Nat.eq_dec (ei x) t) as [Ei|]; [|exact Q7]. cbn [nwt]. unfold C in Q7. rewrite Ei, Et in Q7. cbn [nwt] in Q7.
      rewrite Ei. destruct (Nat.leb_spec k (ek x)), (Nat.leb_spec (S k) (ek x)); try lia.
      assert (Ekx : ek x = k) by lia. assert (Hh := Np u x Hx). destruct (Nat.eq_dec e (lv t)) as [->|]; [|lia].
      exfalso. rewrite <- P1 in Q6. rewrite <- Q6, <- Ei, <- Ekx, hit_self in Hh. discriminate.
    + unfold D, upd. destruct (Nat.eq_dec u t) as [->|]; [|exact Q8]. unfold D in Q8. rewrite Et in Q8. cbn [nst] in *.
      destruct (Nat.ltb_spec k (ek x)), (Nat.leb_spec (S k) (ek x)); lia.
Qed.

Lemma R'_safe : forall s en lv t u, R' s en lv -> t < n -> u < n -> lv t <= en u.
Proof. intros s en lv t u [F [_ H]] Ht Hu. eapply r_sf; eauto. Qed.

Definition w (p : pc) : nat := match p with Lp k => 3 * (size - k) + 3 | Wt k => 3 * (size - k) + 1 | _ => 0 end.
Definition wt (s : tst) (t : nat) : nat := w (thr (b s) t) + length (bf s t).
Definition mu (s : tst) : nat := wsum (wt s) n.
Lemma mu_drop : forall s s' t, t < n -> (forall u, u <> t -> wt s u = wt s' u) -> wt s' t < wt s t -> mu s' < mu s.
Proof. intros s s' t Ht H1 H2. unfold mu. assert (X := wsum_change (wt s) (wt s') n t Ht H1). lia. Qed.

Lemma R'_prog : forall s en lv K t, R' s en lv -> (forall u, u < n -> K <= en u) -> t < n -> lv t < K ->
  exists l s' e, tstep n s l = Some (s', e) /\ (forall u, ~ In (Enter u) e) /\ (e = [Leave t] \/ mu s' < mu s).
Proof.
  intros s en lv K t [F [H HR]] HK Ht Hl.
  assert (Hnone : forall u : nat, ~ In (Enter u) []) by (intros u []).
  assert (Hlv : forall v u, ~ In (Enter u) [Leave v]) by (intros v u [X|[]]; discriminate).
  destruct (ex_dec (fun u => match bf s u with [] => false | _ => true end) n) as [[u [Hu Hb]]|He].
  { destruct (bf s u) as [|x r] eqn:Eb; [discriminate|].
    exists (Flush u). eexists. exists []. cbn [tstep]. rewrite Eb. split; [reflexivity|]. split; auto. right.
    apply mu_drop with u; auto; unfold wt; cbn [b bf thr].
    - intros i Hi. rewrite upd_other by auto. auto.
    - rewrite upd_same, Eb. cbn [length]. lia. }
  assert (Emp : forall u, bf s u = []).
  { intros u. destruct (bf s u) as [|x r] eqn:Eb; auto. destruct (b_in _ _ _ _ H u x) as [X _]; [rewrite Eb; left; auto|]. specialize (He u X). rewrite Eb in He. discriminate. }
  assert (M : forall p i k, flag (b s) p i k = F p i k).
  { intros p i k. apply (b_no _ _ _ _ H). intros u x Hx. rewrite Emp in Hx. destruct Hx. }
  destruct (R_prog n Hn (sf (b s) F) en lv K t HR HK Ht Hl) as [[z a] [S' [e [Hs [E1 E2]]]]].
  unfold step in Hs. destruct (Nat.ltb_spec z n) as [Hz|]; [|discriminate]. cbn [negb sf thr par sns flag tid] in Hs.
  assert (Hzb : negb (Nat.ltb z n) = false) by (destruct (Nat.ltb_spec z n); auto; lia).
  assert (Rpc := r_pc _ _ _ _ HR z Hz). cbn in Rpc.
  destruct a.
  - (* a subscription is no progress *)
    exfalso. assert (Z : N.eqb (N.of_nat z) (tid (b s)) = true) by (destruct (N.eqb _ _) eqn:X; auto; destruct (thr (b s) z); discriminate).
    assert (Eu : thr (b s) z = Unsub). { apply N.eqb_eq in Z. destruct (r_tid _ _ _ _ HR) as [m [M1 [M2 M3]]]. cbn in M1, M3. apply M3; auto. lia. }
    assert (Y := r_un _ _ _ _ HR z Hz Eu). specialize (HK z Hz). lia.
  - destruct (thr (b s) z); try discriminate. injection Hs as <- <-. exfalso. apply (E1 z). left. auto.
  - exists (Go z ATick). cbn [tstep]. rewrite Hzb. destruct (thr (b s) z) as [| |k|k] eqn:Ez; try discriminate.
    + destruct (Nat.ltb_spec k size) as [Hk|Hk].
      * do 2 eexists. split; [reflexivity|]. split; auto. right. apply mu_drop with z; auto; unfold wt; cbn [b bf thr go].
        -- intros u Hu. rewrite !upd_other; auto.
        -- rewrite !upd_same, Ez, Emp. cbn. lia.
      * unfold step. rewrite Hzb, Ez. destruct (Nat.ltb_spec k size); [lia|]. do 2 eexists. split; [reflexivity|]. split; auto. right.
        apply mu_drop with z; auto; unfold wt; cbn [b bf thr go].
        -- intros u Hu. rewrite !upd_other; auto.
        -- rewrite !upd_same, Ez. cbn. lia.
    + rewrite Emp. cbn [fw]. rewrite M. destruct (Bool.eqb (F (par (b s) z) z k) (sns (b s) z)) eqn:Eb.
      * do 2 eexists. split; [reflexivity|]. split; auto. right. apply mu_drop with z; auto; unfold wt; cbn [b bf thr go].
        -- intros u Hu. rewrite !upd_other; auto.
        -- rewrite !upd_same, Ez. cbn [w]. lia.
      * exfalso. injection Hs as <- <-. destruct E2 as [E2|E2]; [discriminate|lia].
Qed.

Theorem sep : forall ls s log, run (tstep n) tinit ls = Some (s, log) -> separated n log /\ returns_after_all n log.
Proof. intros ls s log H. split; [apply (bar_separated (tstep n) tinit n R' R'_init R'_step R'_safe ls s)|apply (bar_returns (tstep n) tinit n R' R'_init R'_step R'_safe ls s)]; auto. Qed.

Theorem prog : forall ls s log k t, run (tstep n) tinit ls = Some (s, log) -> (forall u, u < n -> k <= enters u log) -> t < n -> leaves t log < k ->
  exists ls' s' log', run (tstep n) s ls' = Some (s', log') /\ In (Leave t) log' /\ (forall u, ~ In (Enter u) log').
Proof. exact (bar_progress (tstep n) tinit n R' R'_init R'_step mu R'_prog). Qed.
End P.
