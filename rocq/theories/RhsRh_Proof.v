(** Robin Hood hash set: making room in a slot. *)
From Coq Require Import Arith NArith List Bool Permutation Lia.
From Verif Require Import Lib Helpers_Model Rhs_Model Rhs_Spec Rhs_Proof RhsInv_Proof RhsProbe_Proof RhsGrow_Proof RhsWant_Proof RhsTr_Proof.
Import ListNotations.

Section RH.
Variables (rmode pp : bool) (hf : N -> N) (cmp : option (N -> N -> bool)) (oracle : nat -> bool).
Notation pi := (pi rmode).
Notation valid := (valid pp).
Notation marshal := (marshal pp).
Notation val := (val pp).
Notation bound_get := (bound_get rmode).
Notation bound_set := (bound_set rmode).
Notation inv := (inv rmode pp hf).
Notation Inv := (Inv rmode pp hf).
Notation Wok := (Wok rmode).
Notation bk := (bk rmode).
Notation occ := (occ rmode).
Notation cont := (cont pp).
Notation raised := (raised rmode).
Notation Tr := (Tr rmode pp hf cmp).

Lemma Wupd : forall m P s v x, (s < cap m)%N ->
  nsum (slots m) (fun t => bk m t (updN P s v t) x) + bk m s (P s) x = nsum (slots m) (fun t => bk m t (P t) x) + bk m s v x.
Proof.
  intros m P s v x Hs. pose proof (nsum_upd (slots m) (fun t => bk m t (updN P s v t) x) (fun t => bk m t (P t) x) s (nodup_slots m) (proj2 (in_slots m s) Hs)) as X.
  cbv beta in X. rewrite updN_same in X. apply X. intros t _ D. rewrite updN_other; auto.
Qed.
Lemma occ_split : forall m h s a i, a <= i -> occ m h s 0 i = occ m h s 0 a + occ m h s a (i - a).
Proof. intros m h s a i L. replace i with (a + (i - a)) at 1 by lia. rewrite occ_app. auto. Qed.
Lemma Wok_ext : forall m m' P Q, Wok m P -> cap m' = cap m -> (forall t, (t < cap m)%N -> wnt m' t = wnt m t) -> (forall t, (t < cap m)%N -> Q t = P t) -> Wok m' Q.
Proof.
  intros m m' P Q H C Hw HQ s Hs. rewrite C in Hs. rewrite Hw by auto. rewrite (H s Hs), (slots_cap m m' C). apply nsum_ext.
  intros t T. apply in_slots in T. rewrite (bk_cap rmode m m') by auto. rewrite HQ; auto.
Qed.
Lemma Wok_lt : forall m P e, Wok m P -> wf m -> used m e <= 600 -> (forall t, (t < cap m)%N -> P t <= nc m /\ (0 < P t -> e t <> 0%N)) ->
  forall t, (t < cap m)%N -> (wnt m t < 65535)%N.
Proof. intros m P e H W U HP t T. specialize (H t T). pose proof (nsum_used rmode m P e t W HP). lia. Qed.
Lemma inv_more : forall e m m' (X Y : N -> Prop), inv e m X -> raised m m' -> (forall t, (t < cap m)%N -> ~ Y t -> prb m' t = prb m t) ->
  (forall t, Y t -> e t <> 0%N) -> (forall t, X t -> Y t) -> inv e m' Y.
Proof.
  intros e m m' X Y I R HP HE HX. pose proof (raised_wf rmode m m' R (i_wf _ _ _ _ _ _ I)) as W'. destruct I as [W Z G B M]. destruct R as [R1 R2 (R3 & R3') R4 R5].
  constructor; auto.
  - intros s Hs E. rewrite R1 in Hs. rewrite HP; auto. intros y. apply (HE s y E).
  - intros s Hs E NX. rewrite R1 in Hs. destruct (G s) as (k & i & A & V & P & L & S' & N' & Bg & Pm); auto.
    exists k, i. rewrite HP by auto. rewrite (pi_cap rmode m m') by auto. unfold nc. rewrite R1. repeat (split; [auto; fail|]). split.
    + intros j J. rewrite (pi_cap rmode m m') by auto. auto.
    + specialize (R4 (hf k)). split; lia.
  - intros Rm s. rewrite R2. apply R5; auto.
  - rewrite R2. auto.
Qed.
Lemma add_first_ok : forall m h i a old o, wf m -> i < nc m -> i <= plim m -> a < nc m -> o = pi m h i -> (old = None /\ a = 0 \/ old = Some (pi m h a)) ->
  (forall t, (t < cap m)%N -> (wnt m t < 65535)%N) ->
  forall g, (g mod cap m = h mod cap m)%N ->
  exists w', add_wanted rmode m o old g = Ret (setw m w') /\
    forall s, (s < cap m)%N -> N.to_nat (wnt (setw m w') s) = N.to_nat (wnt m s) + occ m h s a (i - a).
Proof.
  intros m h i a old o W Hi Pl Ha -> Ho B g E. rewrite <- (pi_hash rmode m g h i E).
  destruct (add_wanted_ok rmode m g i a old) as (w' & E1 & E2); auto.
  - rewrite (pi_hash rmode m g h a E). auto.
  - exists w'. split; auto. intros s Hs. rewrite E2, (occ_hash rmode m g h) by auto. auto.
Qed.

Section C.
Variables (m0 : rmap) (o0 : N).
Hypothesis I0 : inv (ent m0) m0 none.
Hypothesis W0 : Wok m0 (prb m0).
Hypothesis L0 : lim rmode (used m0 (ent m0)).

Fixpoint links (m : rmap) (c : N) (prevs : list (N * nat)) : Prop :=
  match prevs with
  | [] => c = o0
  | (p, old) :: ps => old = prb m0 c /\
      (exists k a i, ent m0 p = marshal k (hf k) /\ valid k /\ prb m0 p = S a /\ p = pi m0 (hf k) a /\ a < nc m0 /\
        prb m c = S i /\ a < i /\ S i <= plim m0 /\ c = pi m0 (hf k) i /\ (forall j, j < i -> ent m0 (pi m0 (hf k) j) <> 0%N) /\
        S i <= bound_get m (hf k) /\ S i <= pmax m) /\ links m p ps
  end.
Notation ch c ps := (c :: map fst ps).
Lemma links_mono : forall m m' ps c, links m c ps -> raised m m' -> (forall t, In t (ch c ps) -> prb m' t = prb m t) -> links m' c ps.
Proof.
  intros m m' ps. induction ps as [|(p, old) ps IH]; intros c H R HP; auto. simpl in H. destruct H as (Eo & (k & a & i & X) & Lk).
  simpl. split; auto. split.
  - destruct R as [_ _ (R3 & _) R4 _]. specialize (R4 (hf k)). exists k, a, i. rewrite (HP c) by (simpl; auto).
    destruct X as (X1 & X2 & X3 & X4 & X5 & X6 & X7 & X8 & X9 & X10 & X11 & X12). repeat (split; [auto; fail|]). split; lia.
  - apply IH; auto. intros t T. apply HP. simpl. simpl in T. tauto.
Qed.
Lemma links_in : forall m ps c, links m c ps -> In o0 (ch c ps).
Proof. intros m ps. induction ps as [|(p, old) ps IH]; intros c H; simpl in *; auto. destruct H as (_ & _ & H). right. exact (IH p H). Qed.

Record st (m : rmap) (c : N) (ps : list (N * nat)) : Prop := mkst {
  s_ent : a_ent m = a_ent m0; s_wnt : a_wnt m = a_wnt m0; s_maxe : maxe m = maxe m0; s_nent : nent m = nent m0; s_ra : raised m0 m;
  s_nd : NoDup (ch c ps);
  s_in : forall t, In t (ch c ps) -> (t < cap m0)%N /\ ent m0 t <> 0%N;
  s_irh : forall t, In t (map fst ps) -> irh m t = true;
  s_irh0 : forall t, irh m0 t = true -> irh m t = true;
  s_fresh : forall t, In t (ch c ps) -> t = o0 \/ irh m0 t = false;
  s_prb : forall t, ~ In t (ch c ps) \/ t = o0 -> prb m t = prb m0 t;
  s_links : links m c ps;
  s_tr : Tr any any (cont m0 (ent m0)) m0 m }.

(** ** The way up *)
Record up (m : rmap) (c : N) (ps : list (N * nat)) : Prop := mkup {
  u_ra : raised m0 m;
  u_maxe : maxe m = maxe m0; u_nent : nent m = nent m0;
  u_ent : forall t, In t (ch c ps) -> ent m t = ent m0 t;
  u_nz : forall t, ent m0 t <> 0%N -> ent m t <> 0%N;
  u_inv : inv (ent m) m (fun t => In t (ch c ps));
  u_W : exists P, Wok m P /\ P c = 0 /\ (forall t, In t (map fst ps) -> P t = prb m0 t) /\ (forall t, (t < cap m0)%N -> ~ In t (ch c ps) -> P t = prb m t);
  u_perm : Permutation (cont m (updN (ent m) c 0%N)) (cont m0 (ent m0));
  u_links : links m c ps;
  u_tr : Tr any (nat_ c) (cont m0 (ent m0)) m0 m }.
Record made (m : rmap) : Prop := mkmade {
  d_ra : raised m0 m;
  d_maxe : maxe m = maxe m0; d_nent : nent m = nent m0;
  d_nz : forall t, ent m0 t <> 0%N -> ent m t <> 0%N;
  d_inv : inv (ent m) m (eq o0);
  d_W : Wok m (updN (prb m) o0 0);
  d_perm : Permutation (cont m (updN (ent m) o0 0%N)) (cont m0 (ent m0));
  d_tr : Tr any (nat_ o0) (cont m0 (ent m0)) m0 m }.

Lemma rh_up_ok : (exists s, (s < cap m0)%N /\ ent m0 s = 0%N) ->
  forall ps m c, NoDup (ch c ps) -> (forall t, In t (ch c ps) -> (t < cap m0)%N /\ ent m0 t <> 0%N) -> up m c ps ->
  exists m', rh_up rmode m c ps = Ret m' /\ made m' /\ (forall t, ~ In t (ch c ps) -> ent m' t = ent m t) /\ (forall t, prb m' t = prb m t).
Proof.
  intros Em. pose proof (i_wf _ _ _ _ _ _ I0) as WF0.
  induction ps as [|(p, old) ps IH]; intros m c ND Hin U; destruct U as [Ra Ue Un En Nz Iv (P & HW & Pc & Pp & Pn) Pm Lk Tu].
  - exists m. split; [reflexivity|]. simpl in Lk. subst c. split; auto. constructor; auto.
    + destruct Iv as [A B C D E]. constructor; auto. intros s Hs Hz Hn. apply C; auto. simpl. intuition congruence.
    + eapply Wok_ext; [exact HW | auto | auto|]. intros t T. rewrite (ra_cap _ _ _ Ra) in T. unfold updN. destruct (N.eqb_spec t o0) as [-> | D]; auto.
      symmetry. apply Pn; auto. simpl. intuition congruence.
  - assert (Hc : cap m = cap m0) by (apply (ra_cap _ _ _ Ra)).
    assert (WF : wf m) by (apply (raised_wf rmode m0 m); auto).
    destruct Lk as (Eo & (k & a & i & X1 & X2 & X3 & X4 & X5 & X6 & X7 & X8 & X9 & X10 & X11 & X12) & Lk).
    assert (Li : i < nc m0) by (apply (idx_lt rmode m0 (ent m0) (hf k)); auto).
    destruct (Hin c ltac:(simpl; auto)) as (Lc & Zc). destruct (Hin p ltac:(simpl; auto)) as (Lp & Zp).
    assert (Dcp : p <> c) by (intros ->; inversion_clear ND as [|? ? Q _]; apply Q; simpl; auto).
    assert (Ep : ent m p = marshal k (hf k)) by (rewrite En; [auto | simpl; auto]).
    cbn [rh_up]. rewrite Ep. set (m1 := set_ent m c (marshal k (hf k))).
    assert (Ec1 : c = pi m1 (hf k) i) by (rewrite (pi_cap rmode m0 m1) by (simpl; auto); auto).
    change (prb m1 c) with (prb m c). rewrite X6.
    pose proof (first_offset_ok rmode m1 (hf k) i WF) as Fo. rewrite <- Ec1 in Fo. rewrite Fo.
    destruct (add_first_ok m1 (hf k) i a (Some p) c) with (g := (hf k mod cap m1)%N) as (w' & A1 & A2); auto.
    { unfold nc. simpl. rewrite Hc. auto. }
    { simpl. rewrite (ra_plim _ _ _ Ra). lia. }
    { unfold nc. simpl. rewrite Hc. auto. }
    { right. rewrite (pi_cap rmode m0 m1) by (simpl; auto). congruence. }
    { apply (Wok_lt m P (updN (ent m) c 0%N)); auto.
      - rewrite <- (len_cont pp), Pm, len_cont. pose proof (lim_512 rmode _ L0). lia.
      - intros t T. rewrite Hc in T. destruct (N.eq_dec t c) as [-> | D1]; [rewrite Pc; split; lia|]. rewrite updN_other by auto.
        destruct (in_dec N.eq_dec t (map fst ((p, old) :: ps))) as [D2 | D2].
        + rewrite Pp by auto. destruct (inv_prb rmode pp hf (ent m0) m0 none t I0 T (fun x => x)) as (Y1 & _ & Y3). unfold nc. rewrite Hc. split; auto.
        + rewrite Pn by (auto; simpl in *; intuition congruence). destruct (inv_prb rmode pp hf (ent m) m _ t Iv) as (Y1 & _ & Y3); [rewrite Hc; auto | simpl in *; intuition congruence | auto]. }
    { rewrite N.mod_mod; auto. pose proof (wf_pos m WF). change (cap m1) with (cap m). lia. }
    rewrite A1.
    cbn [bind]. set (m2 := set_irh (bump (setw m1 w') (hf k mod cap m1)) c false).
    assert (Ee2 : forall t, ent m2 t = updN (ent m) c (marshal k (hf k)) t) by (intros t; exact (ent_set m c _ t)).
    assert (Ra2 : raised m m2) by (apply raised_same; auto).
    destruct (IH m2 p) as (m' & B1 & B2 & B3 & B4).
    + inversion ND; auto.
    + intros t T. apply Hin. simpl. simpl in T. tauto.
    + constructor; auto.
      * apply raised_trans with m; auto.
      * intros t T. rewrite Ee2, updN_other; [apply En; simpl; simpl in T; tauto|]. intros ->. inversion_clear ND as [|? ? Q _]. apply Q. exact T.
      * intros t T. rewrite Ee2. unfold updN. destruct (N.eqb t c); auto. apply marshal_nz; auto.
      * apply inv_ext with (e := updN (ent m) c (marshal k (hf k))); [|intros; auto].
        apply inv_store with (m := m) (X := fun t => In t (ch c ((p, old) :: ps))) (i := i); auto.
        -- unfold nc. rewrite Hc. auto.
        -- rewrite (pi_cap rmode m0 m) by auto. auto.
        -- intros j J. rewrite (pi_cap rmode m0 m) by auto. auto.
        -- intros t Y D. simpl in *. intuition congruence.
      * exists (updN (updN P c (S i)) p 0). split; [|split; [|split]].
        -- intros s Hs. change (cap m2) with (cap m) in Hs. change (wnt m2 s) with (wnt (setw m1 w') s). rewrite A2 by auto.
           change (wnt m1 s) with (wnt m s). rewrite (HW s Hs). rewrite (occ_cap rmode m m1) by auto.
           rewrite (slots_cap m m2) by auto. rewrite (nsum_ext _ (fun t => bk m2 t (updN (updN P c (S i)) p 0 t) s) (fun t => bk m t (updN (updN P c (S i)) p 0 t) s)) by (intros; apply bk_cap; auto).
           pose proof (Wupd m (updN P c (S i)) p 0 s) as Y1. pose proof (Wupd m P c (S i) s) as Y2. rewrite Hc in Y1, Y2. specialize (Y1 Lp). specialize (Y2 Lc).
           rewrite updN_other in Y1 by auto. rewrite Pp, X3 in Y1 by (simpl; auto). rewrite Pc in Y2.
           assert (Y3 : bk m p (S a) s = occ m (hf k) s 0 a) by (rewrite X4, <- (pi_cap rmode m0 m) by auto; apply bk_pi; auto).
           assert (Y4 : bk m c (S i) s = occ m (hf k) s 0 i) by (rewrite X9, <- (pi_cap rmode m0 m) by auto; apply bk_pi; auto).
           change (bk m p 0 s) with 0 in Y1. change (bk m c 0 s) with 0 in Y2.
           pose proof (occ_split m (hf k) s a i ltac:(lia)). lia.
        -- apply updN_same.
        -- intros t T. inversion_clear ND as [|? ? Q1 Q2]. inversion_clear Q2 as [|? ? Q3 _]. simpl in Q1, Q3. rewrite !updN_other by (intros ->; tauto). apply Pp. simpl. auto.
        -- intros t T NT. simpl in NT. unfold updN. destruct (N.eqb_spec t p) as [-> | D1]; [tauto|]. change (prb m2 t) with (prb m t). destruct (N.eqb_spec t c) as [-> | D2]; auto.
           apply Pn; auto. simpl. intuition congruence.
      * rewrite (cont_cap pp m m2 (updN (updN (ent m) c (marshal k (hf k))) p 0%N)) by (auto; intros t T; unfold updN at 1 2; destruct (N.eqb t p); auto).
        pose proof (cont_upd pp hf m (updN (ent m) c (marshal k (hf k))) p 0%N) as Y1. rewrite Hc in Y1. specialize (Y1 Lp). rewrite updN_other, Ep in Y1 by auto.
        pose proof (cont_upd pp hf m (updN (ent m) c 0%N) c (marshal k (hf k))) as Y2. rewrite Hc in Y2. specialize (Y2 Lc). rewrite updN_same in Y2.
        change (cv pp 0%N) with (@nil N) in Y1, Y2. cbn [app] in Y1, Y2.
        rewrite <- Pm. apply (Permutation_app_inv_l (cv pp (marshal k (hf k)))). rewrite Y1, <- Y2.
        rewrite (cont_ext pp m (updN (updN (ent m) c 0%N) c (marshal k (hf k))) (updN (ent m) c (marshal k (hf k)))); auto.
        intros t _. unfold updN. destruct (N.eqb t c); auto.
      * apply links_mono with m; auto.
      * eapply Tr_trans; [exact Tu|]. apply Tr_move with (d := k) (i := i); auto.
        -- apply (cont_in pp hf). exists p. split; auto. split; auto. rewrite X1. apply val_marshal; auto.
        -- rewrite (pi_cap rmode m0 m) by auto. auto.
        -- unfold nc. rewrite Hc. auto.
        -- intros j J. rewrite (pi_cap rmode m0 m) by auto. auto.
    + exists m'. split; [exact B1|]. split; auto. split.
      * intros t T. rewrite B3, Ee2, updN_other; auto; simpl in *; intuition congruence.
      * intros t. rewrite B4. auto.
Qed.

(** ** The way down *)
Lemma restore_fields : forall ps m c, let m' := rh_restore m c ps in
  a_ent m' = a_ent m /\ a_wnt m' = a_wnt m /\ a_bnd m' = a_bnd m /\ cap m' = cap m /\ plim m' = plim m /\ maxe m' = maxe m /\ pmax m' = pmax m /\ nent m' = nent m /\ hist m' = hist m.
Proof. induction ps as [|(p, old) ps IH]; intros m c; simpl; [tauto|]. apply (IH (set_irh (set_prb m c old) p false) p). Qed.
Lemma restore_prb : forall ps m c, NoDup (ch c ps) -> links m c ps -> (forall t, ~ In t (ch c ps) \/ t = o0 -> prb m t = prb m0 t) ->
  forall t, prb (rh_restore m c ps) t = prb m0 t.
Proof.
  induction ps as [|(p, old) ps IH]; intros m c ND Lk HP t.
  - simpl in *. subst c. apply HP. destruct (N.eq_dec t o0); auto. left. intuition congruence.
  - cbn [rh_restore]. destruct Lk as (Eo & _ & Lk). inversion_clear ND as [|? ? Q1 Q2]. apply IH; auto.
    + apply links_mono with m; auto; [apply raised_same; auto|]. intros u T. change (prb (set_prb m c old) u = prb m u). rewrite prb_set, updN_other; auto. intros ->. apply Q1. exact T.
    + intros u T. change (prb (set_prb m c old) u = prb m0 u). rewrite prb_set. unfold updN. destruct (N.eqb_spec u c) as [-> | D]; auto.
      apply HP. simpl in *. intuition congruence.
Qed.

Definition rh_post (al : nat) (x : out rh_res) : Prop :=
  match x with
  | Ret (RhOk m) => made m /\ (forall t, irh m0 t = true -> t <> o0 -> ent m0 t <> 0%N -> ent m t = ent m0 t /\ prb m t = prb m0 t)
  | Ret (RhFail m al') => failed oracle al al' /\ al <= al' /\ Inv m /\ a_ent m = a_ent m0 /\ cap m = cap m0 /\ maxe m = maxe m0 /\ nent m = nent m0 /\ Tr any any (cont m0 (ent m0)) m0 m
  | Ret (RhGrown _ u al') => al < al' /\ Inv u /\ Permutation (cont u (ent u)) (cont m0 (ent m0)) /\ nent u = N.of_nat (used u (ent u)) /\ Tr any any (cont m0 (ent m0)) m0 u
  | Loop => True
  | _ => False
  end.
Lemma chain_short : forall m c ps, st m c ps -> length ps < 512.
Proof.
  intros m c ps [_ _ _ _ _ ND Hin _ _ _ _ _ _]. pose proof (lim_512 rmode _ L0) as U.
  assert (X : length (ch c ps) <= used m0 (ent m0)).
  { rewrite <- (len_cont pp). unfold RhsInv_Proof.cont.
    assert (L : length (flat_map (fun t => if N.eqb (ent m0 t) 0 then [] else [val (ent m0 t)]) (slots m0)) = length (filter (fun t => negb (N.eqb (ent m0 t) 0)) (slots m0))).
    { induction (slots m0); simpl; auto. rewrite app_length, IHl. destruct (N.eqb (ent m0 a) 0); simpl; lia. }
    rewrite L. apply NoDup_incl_length; auto. intros t T. destruct (Hin t T) as (A & B). apply filter_In. split; [apply in_slots; auto|].
    destruct (N.eqb_spec (ent m0 t) 0); auto. }
  cbn [length] in X. rewrite map_length in X. lia.
Qed.

Lemma rh_loop_ok : forall n fuel lf m al c ps h, st m c ps -> rh_post al (rh_loop rmode pp hf cmp oracle n fuel lf m al c (prb m0 c) h ps).
Proof.
  pose proof (i_wf _ _ _ _ _ _ I0) as WF0.
  induction n; intros fuel lf m al c ps h ST; [exact I|]. cbn [rh_loop]. pose proof (chain_short m c ps ST) as Sh.
  destruct ST as [Se Sw Sm Sn Ra ND Hin Hi Hi0 Hf HP Lk Ts].
  destruct (Nat.eqb_spec (length ps) MAX_RH) as [E | _]; [unfold MAX_RH in E; lia|].
  assert (Hc : cap m = cap m0) by (apply (ra_cap _ _ _ Ra)). assert (Hp : plim m = plim m0) by (apply (ra_plim _ _ _ Ra)).
  assert (Ee : forall t, ent m t = ent m0 t) by (intros; unfold ent; rewrite Se; auto).
  destruct (Hin c ltac:(simpl; auto)) as (Lc & Zc).
  destruct (i_good _ _ _ _ _ _ I0 c Lc Zc (fun x => x)) as (k & i & A & V & P & L & EQ & Pa & Bg & Pm).
  pose proof (i_max _ _ _ _ _ _ I0) as Mx. rewrite Ee, A, P.
  set (m1 := set_irh m c true).
  assert (Ra1 : raised m0 m1) by (apply raised_trans with m; auto; apply raised_same; auto).
  assert (WF1 : wf m1) by (apply (raised_wf rmode m0 m1); auto).
  assert (T1 : Tr any any (cont m0 (ent m0)) m0 m1) by (eapply Tr_trans; [exact Ts|]; apply Tr_same; auto).
  assert (Ei1 : forall t, irh m1 t = updN (irh m) c true t) by (intros; exact (irh_set m c true t)).
  assert (Epi : forall g j, pi m1 g j = pi m0 g j) by (intros; apply pi_cap; auto).
  replace (probe_robin rmode pp cmp m1 c (S i) h (val (marshal k (hf k))) (plim m1)) with (probe_robin rmode pp cmp m1 (pi m1 (hf k) i) (S i) h (val (marshal k (hf k))) (plim m1)) by (rewrite Epi; congruence).
  destruct (probe_robin_ok rmode pp cmp m1 (hf k) i h (val (marshal k (hf k))) (plim m1)) as (r & Er & Sp); [simpl; lia|].
  rewrite Er. cbn [bind].
  assert (Cl : forall n, clear rmode pp cmp m1 (hf k) BRobin h (val (marshal k (hf k))) (S i) n -> forall j, j < n -> ent m0 (pi m0 (hf k) j) <> 0%N).
  { intros n0 Cl j J. destruct (Nat.lt_ge_cases j i) as [X | X]; [apply Pa; auto|]. destruct (Nat.eq_dec j i) as [-> | D]; [congruence|].
    destruct (Cl j ltac:(lia)) as (Z & _). change (ent m1 (pi m1 (hf k) j)) with (ent m (pi m1 (hf k) j)) in Z. rewrite Ee, Epi in Z. auto. }
  assert (Cand : forall f, r_pr r = Some f -> exists j, i < j /\ S j <= plim m0 /\ f = pi m0 (hf k) j /\ r_np r = S j /\ irh m1 f = false /\ ent m0 f <> 0%N /\
    forall x, x < j -> ent m0 (pi m0 (hf k) x) <> 0%N).
  { intros f Hr. assert (G : forall n pr np, pr = Some f -> n <= plim m0 -> clear rmode pp cmp m1 (hf k) BRobin h (val (marshal k (hf k))) (S i) n ->
      prok rmode m1 (hf k) BRobin (S i) n pr np -> exists j, i < j /\ S j <= plim m0 /\ f = pi m0 (hf k) j /\ np = S j /\ irh m1 f = false /\ ent m0 f <> 0%N /\ forall x, x < j -> ent m0 (pi m0 (hf k) x) <> 0%N).
    { intros n0 pr np -> Ln Cn (_ & j & J & J1 & J2 & J3 & J4 & J5). exists j. split; [lia|]. split; [lia|]. rewrite <- Epi. split; auto. split; auto. split; auto.
      change (ent m1 f) with (ent m f) in J5. rewrite Ee in J5. split; auto. intros x X. apply (Cl n0 Cn). lia. }
    change (plim m1) with (plim m) in Sp. rewrite Hp in Sp.
    inversion Sp as [n0 pr np Q1 Q2 Q3 Q4 Q5 Q6 | n0 pr np Q1 Q2 Q3 Q4 Q5 | n0 pr np Q1 Q2 Q3 Q4 Q5 Q6 Q7 | n0 Q1 Q2 Q3 Q4 Q5]; subst r; cbn [r_pr r_np] in *.
    - subst pr. apply (G n0 (Some f) np); auto.
    - subst pr. apply (G n0 (Some f) np); auto. lia.
    - congruence.
    - injection Hr as Hr. rewrite Hr in *. destruct Q4 as (_ & j & J & J1 & J2 & J3 & J4 & J5). assert (j = n0) by lia. subst j.
      exists n0. split; [lia|]. split; [lia|]. rewrite <- Epi. split; auto. split; auto. split; auto.
      change (ent m1 f) with (ent m f) in J5. rewrite Ee in J5. split; auto. apply (Cl n0 Q3). }
  assert (Next : forall f, r_pr r = Some f -> rh_post al (
     rh_loop rmode pp hf cmp oracle n fuel lf (bound_set (set_prb m1 f (r_np r)) (first_offset rmode (set_prb m1 f (r_np r)) f (r_np r)) (r_np r)) al f (prb m1 f)
       (first_offset rmode (set_prb m1 f (r_np r)) f (r_np r)) ((c, prb m1 f) :: ps))).
  { intros f Hr. destruct (Cand f Hr) as (j & Q1 & Q2 & Q3 & Q4 & Q5 & Q6 & Q7). rewrite Q4.
    assert (Lf : (f < cap m0)%N) by (rewrite Q3; apply pi_lt; auto).
    assert (Nf : ~ In f (ch c ps)).
    { intros X. rewrite Ei1 in Q5. unfold updN in Q5. destruct (N.eqb_spec f c); [discriminate|]. destruct X as [X | X]; [congruence|]. rewrite (Hi f X) in Q5. discriminate. }
    assert (Ef : prb m1 f = prb m0 f) by (apply HP; auto). rewrite Ef.
    set (m2 := set_prb m1 f (S j)).
    assert (Fo : first_offset rmode m2 f (S j) = (hf k mod cap m0)%N).
    { pose proof (first_offset_ok rmode m2 (hf k) j WF1) as Fo. rewrite (pi_cap rmode m0 m2), <- Q3 in Fo by auto. rewrite Fo. simpl. rewrite Hc. auto. }
    rewrite Fo. set (g := (hf k mod cap m0)%N).
    destruct (bound_set_raised rmode m2 g (S j)) as (R1 & R2 & R3).
    { simpl. lia. }
    { apply (lim_idx rmode pp m0 (ent m0) (hf k) j); auto. }
    assert (T3 : Tr any any (cont m0 (ent m0)) m0 (bound_set m2 g (S j))).
    { eapply Tr_trans; [exact T1|]. eapply Tr_trans; [apply (Tr_same _ _ _ _ _ _ m1 m2); auto|]. apply Tr_bound; [simpl; lia|]. apply (lim_idx rmode pp m0 (ent m0) (hf k) j); auto. }
    destruct (bound_set_fields rmode m2 g (S j)) as (F1 & F2 & F3 & F4 & F5 & F6 & F7 & F8).
    assert (R12 : raised m1 m2) by (apply raised_same; auto).
    set (m3 := bound_set m2 g (S j)) in *.
    assert (Ep3 : forall t, prb m3 t = updN (prb m) f (S j) t) by (intros t; unfold prb at 1; rewrite F4; exact (prb_set m1 f (S j) t)).
    assert (Ei3 : forall t, irh m3 t = updN (irh m) c true t) by (intros t; unfold irh at 1; rewrite F6; exact (irh_set m c true t)).
    assert (Bg3 : S j <= bound_get m3 (hf k)).
    { rewrite (bound_get_hash rmode m3 (hf k) g); auto. rewrite F1. change (cap m2) with (cap m). rewrite Hc. unfold g. rewrite N.mod_mod; auto. pose proof (wf_pos m0 WF0). lia. }
    apply IHn. constructor.
    - rewrite F3. exact Se.
    - rewrite F5. exact Sw.
    - rewrite F8. exact Sm.
    - rewrite F7. exact Sn.
    - apply raised_trans with m1; auto. apply raised_trans with m2; auto.
    - constructor; auto.
    - intros t [<- | T]; auto.
    - intros t [<- | T]; rewrite Ei3; [apply updN_same|]. unfold updN. destruct (N.eqb t c); auto.
    - intros t T. rewrite Ei3. unfold updN. destruct (N.eqb t c); auto.
    - intros t [<- | T]; auto. right. destruct (irh m0 f) eqn:Q; auto. apply Hi0 in Q. rewrite Ei1 in Q5. unfold updN in Q5. destruct (N.eqb f c); congruence.
    - intros t T. rewrite Ep3. assert (t <> f). { intros ->. destruct T as [T | T]; [apply T; simpl; auto|]. apply Nf. rewrite T. apply (links_in m); exact Lk. }
      rewrite updN_other by auto. apply HP. simpl in *. intuition congruence.
    - simpl. split; auto. split.
      + exists k, i, j. rewrite Ep3, updN_same. repeat (split; [auto; fail|]). auto.
      + apply links_mono with m; auto.
        * apply raised_trans with m1; [apply raised_same; auto|]. apply raised_trans with m2; auto.
        * intros t T. rewrite Ep3, updN_other; auto. intros ->. auto.
    - exact T3. }
  destruct (r_pr r) as [f|] eqn:Hr.
  { destruct (r_slot r); apply Next; auto. }
  clear Next Cand.
  destruct (r_slot r) as [s|] eqn:Hs.
  - inversion Sp as [n0 pr np Q1 Q2 Q3 Q4 Q5 Q6 | n0 pr np Q1 Q2 Q3 Q4 Q5 | n0 pr np Q1 Q2 Q3 Q4 Q5 Q6 Q7 | n0 Q1 Q2 Q3 Q4 Q5]; subst r; cbn [r_pr r_np r_slot] in *; try congruence.
    subst pr. cbn [npr]. injection Hs as Hs. rewrite Epi in Hs. change (ent m1 (pi m1 (hf k) n0)) with (ent m (pi m1 (hf k) n0)) in Q3. rewrite Epi, Ee, Hs in Q3.
    assert (Ls : (s < cap m0)%N) by (rewrite <- Hs; apply pi_lt; auto).
    assert (Em : exists s, (s < cap m0)%N /\ ent m0 s = 0%N) by eauto.
    pose proof (Cl n0 Q2) as Pn. assert (Ln : n0 < nc m0) by (apply (idx_lt rmode m0 (ent m0) (hf k)); auto).
    change (plim m1) with (plim m) in Q1. rewrite Hp in Q1.
    pose proof (first_offset_ok rmode m1 (hf k) n0 WF1) as Fo. rewrite Epi, Hs in Fo. change (cap m1) with (cap m) in Fo. rewrite Hc in Fo. rewrite Fo.
    set (g := (hf k mod cap m0)%N).
    destruct (bound_set_raised rmode m1 g (S n0)) as (R1 & R2 & R3).
    { simpl. lia. }
    { apply (lim_idx rmode pp m0 (ent m0) (hf k) n0); auto. lia. }
    assert (T3 : Tr any any (cont m0 (ent m0)) m0 (bound_set m1 g (S n0))).
    { eapply Tr_trans; [exact T1|]. apply Tr_bound; [simpl; lia|]. apply (lim_idx rmode pp m0 (ent m0) (hf k) n0); auto. lia. }
    destruct (bound_set_fields rmode m1 g (S n0)) as (F1 & F2 & F3 & F4 & F5 & F6 & F7 & F8).
    set (m4 := set_irh (set_prb (bump (set_ent (bound_set m1 g (S n0)) s (marshal k (hf k))) g) s (S n0)) c false).
    assert (C4 : cap m4 = cap m0) by (change (cap (bound_set m1 g (S n0)) = cap m0); rewrite F1; auto).
    assert (P4 : plim m4 = plim m0) by (change (plim (bound_set m1 g (S n0)) = plim m0); rewrite F2; auto).
    assert (Ra4 : raised m0 m4).
    { apply raised_trans with m1; auto. apply raised_trans with (bound_set m1 g (S n0)); auto. apply raised_same; auto. }
    assert (WF4 : wf m4) by (apply (raised_wf rmode m0 m4); auto).
    assert (Ew4 : forall t, wnt m4 t = wnt m0 t) by (intros t; change (wnt (bound_set m1 g (S n0)) t = wnt m0 t); unfold wnt; rewrite F5; unfold m1; simpl; rewrite Sw; auto).
    assert (Ee4 : forall t, ent m4 t = updN (ent m0) s (marshal k (hf k)) t).
    { intros t. change (ent (set_ent (bound_set m1 g (S n0)) s (marshal k (hf k))) t = updN (ent m0) s (marshal k (hf k)) t). rewrite ent_set. unfold updN. destruct (N.eqb t s); auto.
      unfold ent. rewrite F3. unfold m1. simpl. rewrite Se. auto. }
    assert (Ep4 : forall t, prb m4 t = updN (prb m) s (S n0) t).
    { intros t. change (prb (set_prb (bound_set m1 g (S n0)) s (S n0)) t = updN (prb m) s (S n0) t). rewrite prb_set. unfold updN. destruct (N.eqb t s); auto.
      unfold prb. rewrite F4. auto. }
    assert (Bg4 : S n0 <= bound_get m4 (hf k)).
    { rewrite (bound_get_hash rmode m4 (hf k) g); auto. rewrite C4. unfold g. rewrite N.mod_mod; auto. pose proof (wf_pos m0 WF0). lia. }
    assert (Hsc : ~ In s (ch c ps)) by (intros X; destruct (Hin s X); auto).
    assert (Hp0 : forall t, (t < cap m0)%N -> prb m0 t <= nc m0 /\ (0 < prb m0 t -> ent m0 t <> 0%N)).
    { intros t T. destruct (inv_prb rmode pp hf (ent m0) m0 none t I0 T (fun x => x)) as (Y1 & _ & Y3). auto. }
    destruct (add_first_ok m4 (hf k) n0 i (Some c) s) with (g := g) as (w' & A1 & A2); auto.
    { unfold nc. rewrite C4. auto. }
    { rewrite P4. lia. }
    { unfold nc. rewrite C4. auto. }
    { rewrite (pi_cap rmode m0 m4) by auto. auto. }
    { right. rewrite (pi_cap rmode m0 m4) by auto. congruence. }
    { intros t T. rewrite C4 in T. rewrite Ew4. apply (Wok_lt m0 (prb m0) (ent m0)); auto. pose proof (lim_512 rmode _ L0). lia. }
    { rewrite C4. unfold g. rewrite N.mod_mod; auto. pose proof (wf_pos m0 WF0). lia. }
    fold g in A1. cbn [bind]. rewrite A1. cbn [bind]. set (m5 := setw m4 w').
    assert (Ra5 : raised m4 m5) by (apply raised_same; auto).
    destruct (rh_up_ok Em ps m5 c ND Hin) as (m' & B1 & B2 & B3 & B4).
    + constructor.
      * apply raised_trans with m4; auto.
      * change (maxe (bound_set m1 g (S n0)) = maxe m0). rewrite F8. auto.
      * change (nent (bound_set m1 g (S n0)) = nent m0). rewrite F7. auto.
      * intros t T. change (ent m4 t = ent m0 t). rewrite Ee4, updN_other; auto. intros ->. auto.
      * intros t T. change (ent m4 t <> 0%N). rewrite Ee4. unfold updN. destruct (N.eqb t s); auto. apply marshal_nz; auto.
      * apply inv_ext with (e := updN (ent m0) s (marshal k (hf k))); [|intros t T; symmetry; apply Ee4].
        apply inv_store with (m := m) (X := fun t => In t (ch c ps)) (i := n0); auto.
        -- apply inv_more with (m := m0) (X := none); auto.
           ++ intros t T. apply Hin. auto.
           ++ intros t [].
        -- apply raised_trans with m1; [apply raised_same; auto|]. apply raised_trans with (bound_set m1 g (S n0)); auto. apply raised_same; auto.
        -- intros t T D. change (prb m4 t = prb m t). rewrite Ep4, updN_other; auto.
        -- change (prb m4 s = S n0). rewrite Ep4, updN_same. auto.
        -- unfold nc. rewrite Hc. auto.
        -- rewrite (pi_cap rmode m0 m) by auto. auto.
        -- intros j J. rewrite (pi_cap rmode m0 m) by auto. auto.
      * exists (updN (updN (prb m0) s (S n0)) c 0). split; [|split; [|split]].
        -- intros x Hx. change (cap m5) with (cap m4) in Hx. change (wnt m5 x) with (wnt (setw m4 w') x). rewrite A2 by auto.
           rewrite C4 in Hx. rewrite Ew4, (W0 x Hx), (occ_cap rmode m0 m4), (slots_cap m0 m5) by auto.
           rewrite (nsum_ext _ (fun t => bk m5 t (updN (updN (prb m0) s (S n0)) c 0 t) x) (fun t => bk m0 t (updN (updN (prb m0) s (S n0)) c 0 t) x)) by (intros; apply bk_cap; auto).
           pose proof (Wupd m0 (updN (prb m0) s (S n0)) c 0 x Lc) as Y1. pose proof (Wupd m0 (prb m0) s (S n0) x Ls) as Y2.
           assert (D : c <> s) by (intros ->; congruence). rewrite updN_other, P in Y1 by auto. rewrite (i_zero _ _ _ _ _ _ I0 s Ls Q3) in Y2.
           assert (Y3 : bk m0 c (S i) x = occ m0 (hf k) x 0 i) by (rewrite EQ; apply bk_pi; auto).
           assert (Y4 : bk m0 s (S n0) x = occ m0 (hf k) x 0 n0) by (rewrite <- Hs; apply bk_pi; auto).
           change (bk m0 c 0 x) with 0 in Y1. change (bk m0 s 0 x) with 0 in Y2. pose proof (occ_split m0 (hf k) x i n0 ltac:(lia)). lia.
        -- apply updN_same.
        -- intros t T. inversion_clear ND as [|? ? N1 _]. rewrite !updN_other; auto; intros ->; auto. apply Hsc. simpl. auto.
        -- intros t T NT. change (prb m5 t) with (prb m4 t). rewrite Ep4. rewrite updN_other by (intros ->; apply NT; simpl; auto). unfold updN. destruct (N.eqb t s); auto. symmetry. auto.
      * rewrite (cont_cap pp m0 m5 (updN (updN (ent m0) s (marshal k (hf k))) c 0%N)).
        2: { exact C4. }
        2: { intros t T. unfold updN at 1 2. destruct (N.eqb t c); auto. apply Ee4. }
        pose proof (cont_upd pp hf m0 (updN (ent m0) s (marshal k (hf k))) c 0%N Lc) as Y1. assert (D : c <> s) by (intros ->; congruence). rewrite updN_other, A in Y1 by auto.
        pose proof (cont_upd pp hf m0 (ent m0) s (marshal k (hf k)) Ls) as Y2. rewrite Q3 in Y2.
        change (cv pp 0%N) with (@nil N) in Y1, Y2. cbn [app] in Y1, Y2. rewrite Y2 in Y1. apply (Permutation_app_inv_l (cv pp (marshal k (hf k)))). exact Y1.
      * apply links_mono with m; auto.
        -- apply raised_trans with m1; [apply raised_same; auto|]. apply raised_trans with (bound_set m1 g (S n0)); auto. apply raised_same; auto.
        -- intros t T. change (prb m4 t = prb m t). rewrite Ep4, updN_other; auto. intros ->. auto.
      * set (mb := bound_set m1 g (S n0)) in *. assert (Cb : cap mb = cap m0) by (rewrite F1; auto).
        assert (Eb : forall t, ent mb t = ent m0 t) by (intros t; unfold ent; rewrite F3; exact (Ee t)).
        eapply Tr_trans; [exact T3|]. eapply Tr_trans; [apply (Tr_nz _ _ _ _ _ _ mb s); rewrite Eb; auto|]. apply Tr_move with (d := k) (i := n0); auto.
        -- change (SGen (g mod 1024) :: SEnt s (marshal k (hf k)) :: hist mb = SGen ((hf k mod cap mb) mod 1024) :: SEnt s (marshal k (hf k)) :: hist mb). rewrite Cb. auto.
        -- apply (cont_in pp hf). exists c. split; auto. split; auto. rewrite A. apply val_marshal; auto.
        -- rewrite Eb. auto.
        -- rewrite (pi_cap rmode m0 mb) by auto. auto.
        -- unfold nc. rewrite Cb. auto.
        -- intros j J. rewrite (pi_cap rmode m0 mb), Eb by auto. auto.
        -- intros ->. congruence.
    + rewrite B1. cbn [bind rh_post]. split; auto. intros t T D Z.
      assert (NT : ~ In t (ch c ps)) by (intros X; destruct (Hf t X); congruence).
      rewrite B3, B4 by auto. change (ent m4 t = ent m0 t /\ prb m4 t = prb m0 t). rewrite Ee4, Ep4, !updN_other by (intros ->; congruence). auto.
  - inversion Sp as [n0 pr np Q1 Q2 Q3 Q4 Q5 Q6 | n0 pr np Q1 Q2 Q3 Q4 Q5 | n0 pr np Q1 Q2 Q3 Q4 Q5 Q6 Q7 | n0 Q1 Q2 Q3 Q4 Q5]; subst r; cbn [r_pr r_np r_slot] in *; try congruence.
    assert (Wd : words pp hf m1).
    { intros t T Z. change (ent m1 t) with (ent m t) in *. rewrite Ee in *. change (cap m1) with (cap m) in T. rewrite Hc in T. destruct (Inv_words rmode pp hf m0 (conj I0 W0) t T Z) as (k' & V' & E'). eauto. }
    assert (U1 : used m1 (ent m1) = used m0 (ent m0)) by (apply used_ext; [exact Hc | exact (fun t _ => Ee t)]).
    assert (C1 : cont m1 (ent m1) = cont m0 (ent m0)) by (apply cont_cap; [exact Hc | exact (fun t _ => Ee t)]).
    pose proof (grow_ok rmode pp hf oracle fuel lf m1 al (cap m1 * 2) Wd) as G. rewrite U1 in G. specialize (G (lim_1 rmode _ L0)).
    pose proof (grow2_failed rmode pp hf oracle fuel lf m1 al) as GF. change (cap m) with (cap m1).
    destruct (grow rmode pp hf oracle fuel lf m1 al (cap m1 * 2)) as [((u & al') & []) | | |] eqn:Gr; cbn [bind]; auto.
    + destruct G as (G1 & G2 & G3 & G4 & G5). cbn [rh_post]. pose proof G3 as G6. rewrite C1 in G3. repeat (split; [auto; fail|]).
      eapply Tr_trans; [exact T1|]. apply Tr_map; auto. rewrite C1. apply incl_refl.
    + destruct G as (G1 & ->). specialize (GF _ _ WF1 eq_refl).
      cbn [rh_post]. destruct (restore_fields ps (set_irh m1 c false) c) as (F1 & F2 & F3 & F4 & F5 & F6 & F7 & F8 & F9).
      pose proof (restore_prb ps (set_irh m1 c false) c ND) as Rp.
      assert (Lk1 : links (set_irh m1 c false) c ps) by (apply links_mono with m; auto; apply raised_same; auto). specialize (Rp Lk1 HP).
      set (m2 := rh_restore (set_irh m1 c false) c ps) in *.
      assert (R2 : raised m0 m2) by (apply raised_trans with m1; auto; apply raised_same; auto).
      split; auto. split; auto. split; [|split; [|split; [|split; [|split]]]].
      * split.
        -- apply inv_ext with (e := ent m0); [|intros t T; unfold ent; rewrite F1; simpl; rewrite Se; auto]. apply inv_raised with (m := m0); auto.
        -- apply Wok_ext with (m := m0) (P := prb m0); auto; [rewrite F4; auto|]. intros t T. unfold wnt. rewrite F2. simpl. rewrite Sw. auto.
      * rewrite F1. auto.
      * rewrite F4. auto.
      * rewrite F6. auto.
      * rewrite F8. auto.
      * eapply Tr_trans; [exact T1|]. apply Tr_same; [|exact F9]. unfold view. rewrite F1, F3, F4, F7. auto.
Qed.
Lemma put_rh_ok : forall fuel lf al, (o0 < cap m0)%N -> ent m0 o0 <> 0%N -> rh_post al (put_robin_hood rmode pp hf cmp oracle fuel lf m0 al o0).
Proof.
  intros fuel lf al Lo Z. unfold put_robin_hood. apply rh_loop_ok. constructor; auto.
  - apply raised_refl.
  - constructor; [simpl; tauto | constructor].
  - intros t [<- | []]. auto.
  - intros t [<- | []]. auto.
  - reflexivity.
  - apply Tr_refl.
Qed.
End C.
End RH.
