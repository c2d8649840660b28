(** Proofs about hazard pointers, part 3: every retired object is destroyed at most once. *)
From Coq Require Import NArith Arith List Bool Lia.
From Verif Require Import Lib Obs Hp_Model Hp_Spec Hp_Proof HpPend_Proof.
Import ListNotations.

Definition acc_ok (g : gs) (e : event) : Prop := once_ok g e /\ excl_ok g e.
Notation gf := (gfold gnext).

Lemma W32_nz : W32 <> 0%N.
Proof. discriminate. Qed.
Lemma inc_mod : forall n, inc (n mod W32) = ((n + 1) mod W32)%N.
Proof. intros. unfold inc. rewrite N.add_mod_idemp_l by apply W32_nz. auto. Qed.
Lemma dec_mod : forall n, (n <> 0)%N -> dec (n mod W32) = ((n - 1) mod W32)%N.
Proof.
  intros n H. unfold dec. rewrite N.add_mod_idemp_l by apply W32_nz.
  replace (n + (W32 - 1))%N with ((n - 1) + 1 * W32)%N by (unfold W32; lia).
  apply N.mod_add. apply W32_nz.
Qed.

Lemma PR_in : forall s cd r p L, uses p = Some r -> PR s cd r p L -> PX s cd r p L.
Proof. intros s cd r p L U. unfold PR, ouse. rewrite U, Nat.eqb_refl. auto. Qed.
Lemma PR_to : forall s cd r p L, uses p = Some r -> PX s cd r p L -> PR s cd r p L.
Proof. intros s cd r p L U. unfold PR, ouse. rewrite U, Nat.eqb_refl. auto. Qed.
Lemma PR_idle : forall s cd r p L, uses p = None -> PL s r L -> PR s cd r p L.
Proof. intros s cd r p L U. unfold PR, ouse. rewrite U. auto. Qed.
Lemma adjr_in : forall p r, uses p = Some r -> adjr p r = adj p.
Proof. intros p r U. unfold adjr, ouse. rewrite U, Nat.eqb_refl. auto. Qed.
Lemma adjr_no : forall p r, uses p = None -> adjr p r = 0.
Proof. intros p r U. unfold adjr, ouse. rewrite U. auto. Qed.

Lemma fst0_nz : forall nx K R a, plist nx a (hs (K ++ R)) -> fst0 R = 0 -> R = [].
Proof.
  intros nx K R a H E. destruct R as [|x R]; auto. exfalso. cbn in E. apply (plist_nz _ _ _ (q_h x) H); auto.
  unfold hs. rewrite map_app, in_app_iff. right. left. auto.
Qed.
Lemma lst0_nil : forall nx K y R a, plist nx a (hs (K ++ y :: R)) -> lst0 K = 0 -> K = [].
Proof.
  intros nx K y R a H E. destruct (rev K) as [|k K'] eqn:F.
  - apply (f_equal (@rev ret)) in F. rewrite rev_involutive in F. auto.
  - exfalso. unfold lst0 in E. rewrite F in E. cbn in E. apply (plist_nz _ _ _ (q_h k) H); auto.
    unfold hs. rewrite map_app, in_app_iff. left. apply in_map. rewrite in_rev, F. left. auto.
Qed.
Lemma lst0_last : forall K, lst0 K <> 0 -> exists K' k, K = K' ++ [k] /\ lst0 K = q_h k.
Proof.
  intros K H. destruct (rev K) as [|k K'] eqn:F.
  - unfold lst0 in H. rewrite F in H. exfalso. apply H. auto.
  - exists (rev K'), k. apply (f_equal (@rev ret)) in F. rewrite rev_involutive in F. cbn in F. split; auto. rewrite F. apply lst0_snoc.
Qed.

Section Tick.
Variables (c : cfg) (s : st) (g : gs) (t : nat).
Hypotheses (A : IA s) (I : IB s g) (K : IK s g).

(** the owner of [r] moves and nothing of the pending lists changes *)
Lemma move : forall s' ev r p', own s r = Some t -> uses (pcs s t) = Some r \/ uses (pcs s t) = None -> (forall r', uses p' = Some r' -> r' = r) ->
  (forall r', own s' r' = own s r') -> (forall r', reg s' r' = reg s r') -> (forall u, pcs s' u = upd (pcs s) t p' u) ->
  pfirst s' = pfirst s -> pnext s' = pnext s -> hptr s' = hptr s -> hdat s' = hdat s -> npend s' = npend s -> out s' = out s ->
  g_out (gf ev g) = g_out g -> g_use (gf ev g) = g_use g -> (forall u h, u <> t -> g_cand (gf ev g) u h -> g_cand g u h) ->
  adjr (pcs s t) r = adjr p' r ->
  (PR s (g_cand g t) r (pcs s t) (pend_of g r) -> PR s (g_cand (gf ev g) t) r p' (pend_of g r)) ->
  IB s' (gf ev g).
Proof.
  intros s' ev r p' O U U' Ho Hr Hp E1 E2 E3 E4 E5 E6 Hg Hu Hc Ha HP.
  assert (GP : forall r, pend_of (gf ev g) r = pend_of g r) by (intros; unfold pend_of; rewrite Hg; auto).
  apply (IB_one s s' g _ t r p' A I O); auto.
  - intros r' X. destruct U as [U|U]; congruence.
  - intros. rewrite E1, E5. auto.
  - intros. rewrite E2, E3, E4. auto.
  - intros. rewrite Hu. auto.
  - rewrite GP. eapply PR_ext; [| | |apply HP; apply (b_rec s g I r t O)]; auto; [rewrite E1; auto|rewrite E2, E3, E4; auto].
  - rewrite GP, E5, <- Ha. apply (b_cnt s g I); auto.
  - rewrite Hg. apply (b_nd s g I).
  - rewrite Hg, E6. apply (b_out s g I).
Qed.
End Tick.

(** a step of a thread that works with its record [r] but leaves the pending list alone *)
Ltac mv P0 U0 :=
  match type of P0 with pcs _ _ = ?p0 => let u := eval cbn in (uses p0) in match u with Some ?rr =>
  match goal with |- IB (go ?s0 ?tt ?pp) (gfold _ ?evv _) =>
    eapply (move _ _ tt) with (r := rr) (p' := pp) (ev := evv);
    [eassumption|eassumption|apply U0; reflexivity|rewrite P0; left; reflexivity|cbn; congruence|intros; reflexivity|intros; reflexivity|intros; reflexivity
    |reflexivity|reflexivity|reflexivity|reflexivity|reflexivity|reflexivity|reflexivity|reflexivity|
    |rewrite P0; unfold adjr, ouse; cbn [uses adj]; auto; try (rewrite Nat.eqb_refl; reflexivity)
    |rewrite P0; let B := fresh "B" in intro B; apply PR_in in B; [|reflexivity]; first [apply PR_to; [reflexivity|] | apply PR_idle; [reflexivity|]]] end end end;
  [first [intros; assumption | cbn; intros; tauto | cbn; intros u0 h0 Nu0; match goal with |- context [Nat.eq_dec ?a ?b] => destruct (Nat.eq_dec a b); [congruence|auto] end]|..].
Lemma pend_nd : forall s g r, IB s g -> NoDup (hs (pend_of g r)).
Proof. intros s g r I. apply nd_filter. apply (b_nd s g I). Qed.
Lemma pend_other : forall s g r r' x y, IB s g -> In x (pend_of g r') -> In y (pend_of g r) -> r' <> r -> q_h x <> q_h y.
Proof.
  intros s g r r' x y I X Y N E. apply pend_in in X. apply pend_in in Y.
  assert (x = y) by (eapply nd_inj; [apply (b_nd s g I)|..]; tauto). subst. destruct X, Y. congruence.
Qed.
(** a step that changes the pending list of [r]; what the observer has is unchanged *)
Ltac io P0 U0 :=
  match type of P0 with pcs _ _ = ?p0 => let u := eval cbn in (uses p0) in match u with Some ?rr =>
  match goal with |- IB (go ?s0 ?tt ?pp) (gfold _ ?evv _) =>
    eapply (IB_one _ _ _ _ tt rr pp);
    [eassumption|eassumption|apply U0; reflexivity|intros; reflexivity|intros; reflexivity|intros; reflexivity|rewrite P0; cbn; congruence|cbn; congruence
    |intros; reflexivity|intros; sfg; rewrite ?upd_other by auto; split; reflexivity|sfg|intros; assumption|reflexivity
    |first [apply PR_to; [reflexivity|] | apply PR_idle; [reflexivity|]]|first [rewrite adjr_in by reflexivity | rewrite adjr_no by reflexivity]; sfg; cbn [adj]
    |match goal with X : IB _ _ |- _ => exact (b_nd _ _ X) end|match goal with X : IB _ _ |- _ => exact (b_out _ _ X) end] end end end.
Ltac nn P0 :=
  match goal with |- IB (go ?s0 ?t ?p) (gfold _ ?ev ?g) =>
    eapply (IB_none _ _ g _ t p); [eassumption|intros; reflexivity|intros; reflexivity|rewrite P0; reflexivity|reflexivity|reflexivity|auto|reflexivity
      |intros; split; reflexivity| |reflexivity|reflexivity|reflexivity|reflexivity] end.

Lemma tick_IB : forall c s g t s' ev, IA s -> IB s g -> IK s g -> tick c s t = Some (s', ev) -> legal_from gnext acc_ok g ev /\ IB s' (gf ev g).
Proof.
  intros c s g t s' ev A I K H. unfold tick in H.
  pose proof (a_use s A t) as U0. pose proof (a_clm s A t) as C0.
  destruct (pcs s t) eqn:P0; try discriminate H; cbn [uses claim] in U0, C0;
    try match type of H with context [if ?f then Rt6 _ else _] => destruct f end;
    try match type of H with context [match ?k with KRecl => _ | KFree => _ | KPurge => _ end] => destruct k end;
    repeat brk H; injection H as <- <-;
    try (split; [cbn; unfold acc_ok; cbn; tauto|]; mv P0 U0; cbn [PX] in *; auto; fail);
    try (split; [cbn; unfold acc_ok; cbn; tauto|]; nn P0; intros r0 O0 R0; apply (b_new s g I); auto; fail).
  - (* Reg4 *)
    destruct (C0 r eq_refl) as [C1 [C2 C3]]. split.
    + split; cbn; auto. unfold acc_ok. cbn. split; auto. destruct (g_use g r) eqn:E; auto. apply (b_use s g I) in E. congruence.
    + eapply (IB_acq s _ g _ t r Idle); auto; try (intros; reflexivity). rewrite P0; auto.
  - (* Rcy4 *)
    assert (On : own s e = None) by (destruct (own s e) eqn:O; auto; apply (a_own s A) in O; destruct O; congruence).
    assert (Nz : e <> 0) by (intros ->; apply (a_f s A) in E; rewrite (a_z s A) in E; discriminate).
    split.
    + split; cbn; auto. unfold acc_ok. cbn. split; auto. intros _. destruct (g_use g e) eqn:G; auto. apply (b_use s g I) in G. congruence.
    + eapply (IB_acq s _ g _ t e (Rcy5 e)); auto; try (intros; reflexivity); [apply (a_f s A); auto|rewrite P0; auto|].
      intros r'. cbn. unfold use'. destruct (Nat.eqb e 0) eqn:Z; auto. apply Nat.eqb_eq in Z. congruence.
  - (* Rt1 *)
    split; [exact Logic.I|].
    pose proof (b_rec s g I r t (U0 r eq_refl)) as B. rewrite P0 in B. apply PR_in in B; [|reflexivity]. cbn [PX] in B. destruct B as [L' [EL B]].
    pose proof (b_cnt s g I r t (U0 r eq_refl)) as N. rewrite P0, adjr_in in N by reflexivity. cbn [adj] in N.
    pose proof (pend_nd s g r I) as ND. rewrite EL in ND. cbn in ND. inversion ND as [|? ? N1 N2]; subst.
    io P0 U0.
    + intros r' x Nr X. assert (q_h x <> h). { change h with (q_h (r, h, d, p)). eapply pend_other; eauto. rewrite EL. left; auto. }
      rewrite upd_other by auto. auto.
    + cbn [PX gfold fold_left]. rewrite EL. exists L'. split; auto. split; [|sfg; apply upd_same].
      eapply PL_ext; [| |exact B]; auto. intros x X. sfg. rewrite upd_other; auto. intros <-. apply N1. apply in_map; auto.
    + exact N.
  - (* Rt2 *)
    split; [exact Logic.I|].
    pose proof (b_rec s g I r t (U0 r eq_refl)) as B. rewrite P0 in B. apply PR_in in B; [|reflexivity]. cbn [PX] in B. destruct B as [L' [EL [B HP]]].
    pose proof (b_cnt s g I r t (U0 r eq_refl)) as N. rewrite P0, adjr_in in N by reflexivity. cbn [adj] in N.
    pose proof (pend_nd s g r I) as ND. rewrite EL in ND. cbn in ND. inversion ND as [|? ? N1 N2]; subst.
    io P0 U0.
    + intros r' x Nr X. assert (q_h x <> h). { change h with (q_h (r, h, d, hptr s h)). eapply pend_other; eauto. rewrite EL. left; auto. }
      rewrite upd_other by auto. auto.
    + cbn [PX gfold fold_left]. rewrite EL. eexists. exists L'. split; [reflexivity|]. split; auto. split.
      * eapply PL_ext; [| |exact B]; auto. intros x X. sfg. rewrite upd_other; auto. intros <-. apply N1. apply in_map; auto.
      * intros x [<-|[]]. sfg. cbn. rewrite upd_same. auto.
    + exact N.
  - (* Rt3 *)
    split; [exact Logic.I|].
    pose proof (b_rec s g I r t (U0 r eq_refl)) as B. rewrite P0 in B. apply PR_in in B; [|reflexivity]. cbn [PX] in B. destruct B as [x [L' [EL [Eh [B D]]]]].
    pose proof (b_cnt s g I r t (U0 r eq_refl)) as N. rewrite P0, adjr_in in N by reflexivity. cbn [adj] in N.
    pose proof (pend_nd s g r I) as ND. rewrite EL in ND. cbn in ND. inversion ND as [|? ? N1 N2]; subst.
    io P0 U0.
    + intros r' z Nr X. assert (q_h z <> q_h x) by (eapply pend_other; eauto; rewrite EL; left; auto).
      rewrite upd_other by auto. auto.
    + cbn [PX gfold fold_left]. rewrite EL. exists x, L'. split; auto. split; auto. split; [|split; [exact D|sfg; apply upd_same]].
      eapply PL_ext; [| |exact B]; auto. intros z X. sfg. rewrite upd_other; auto. intros E. apply N1. rewrite <- E. apply in_map; auto.
    + exact N.
  - (* Rt4 *)
    split; [exact Logic.I|].
    pose proof (b_rec s g I r t (U0 r eq_refl)) as B. rewrite P0 in B. apply PR_in in B; [|reflexivity]. cbn [PX] in B. destruct B as [x [L' [EL [Eh [B [D Fx]]]]]].
    pose proof (b_cnt s g I r t (U0 r eq_refl)) as N. rewrite P0, adjr_in in N by reflexivity. cbn [adj] in N.
    pose proof (pend_nd s g r I) as ND. rewrite EL in ND. cbn in ND. inversion ND as [|? ? N1 N2]; subst.
    io P0 U0.
    + auto.
    + cbn [PX gfold fold_left]. rewrite EL. destruct B as [B1 B2]. split; [discriminate|]. split.
      * sfg. rewrite upd_same. cbn. split; auto. split; [|rewrite Fx; exact B1]. apply (b_out s g I). assert (X : In x (pend_of g r)) by (rewrite EL; left; auto). apply pend_in in X. tauto.
      * intros z [<-|X]; [apply D; left; auto|apply B2; auto].
    + exact N.
  - (* Rt5, free *)
    split; [exact Logic.I|].
    pose proof (b_rec s g I r t (U0 r eq_refl)) as B. rewrite P0 in B. apply PR_in in B; [|reflexivity]. cbn [PX] in B.
    pose proof (b_cnt s g I r t (U0 r eq_refl)) as N. rewrite P0, adjr_in in N by reflexivity. cbn [adj] in N.
    destruct B as [B1 B2]. io P0 U0; [auto| |].
    + exact B2.
    + rewrite upd_same, N, inc_mod. cbn [gfold fold_left]. f_equal. destruct (pend_of g r); [congruence|]. cbn [length]. lia.
  - (* Rt5, retire *)
    split; [exact Logic.I|].
    pose proof (b_rec s g I r t (U0 r eq_refl)) as B. rewrite P0 in B. apply PR_in in B; [|reflexivity]. cbn [PX] in B.
    pose proof (b_cnt s g I r t (U0 r eq_refl)) as N. rewrite P0, adjr_in in N by reflexivity. cbn [adj] in N.
    destruct B as [B1 B2]. io P0 U0; [auto| |].
    + exact B2.
    + rewrite upd_same, N, inc_mod. cbn [gfold fold_left]. f_equal. destruct (pend_of g r); [congruence|]. cbn [length]. lia.
  - (* Lp0 *)
    split; [exact Logic.I|]. mv P0 U0. cbn [PX] in *. exists [], (pend_of g (xr x)). cbn [xp xe x_ent]. repeat (split; auto).
    + destruct B as [B _]. apply plist_hd in B. auto.
    + intros y [].
  - (* Lp1, end *)
    pose proof (b_rec s g I (xr x) t (U0 (xr x) eq_refl)) as B. rewrite P0 in B. apply PR_in in B; [|reflexivity]. cbn [PX] in B.
    destruct B as [K0 [R [EL [B [B1 [B2 B3]]]]]]. apply Nat.eqb_eq in E. rewrite E in B2.
    assert (R = []) by (destruct B as [B _]; rewrite EL in B; eapply fst0_nz; eauto). subst R. rewrite app_nil_r in EL.
    split.
    + split; [|exact Logic.I]. split; [|exact Logic.I]. cbn. intros h C X. unfold hs in X. apply in_map_iff in X. destruct X as [y [<- X]].
      apply (B3 y); auto. rewrite <- EL. auto.
    + clear B. unfold after. destruct (xk x); mv P0 U0; cbn [PX] in *; destruct B as [? [? [? [B ?]]]]; auto.
  - (* Lp1, in the cache *)
    split; [exact Logic.I|].
    assert (NC : forall y, In y (pend_of g (xr x)) -> q_h y = xe x -> hptr s (xe x) = q_p y -> ~ g_cand g t (q_h y)).
    { intros y Y1 Y2 Y3 C. destruct (k_cd s g K t (xr x) (xC x) y) as [_ X]; auto; [rewrite P0; auto|]. apply X. rewrite <- Y3.
      unfold memb in E0. apply existsb_exists in E0. destruct E0 as [z [Z1 Z2]]. apply Nat.eqb_eq in Z2. cbn in Z1, Z2. congruence. }
    mv P0 U0. cbn [PX] in *. destruct B as [K0 [R [EL [B [B1 [B2 B3]]]]]]. apply Nat.eqb_neq in E.
    destruct R as [|y R]; [cbn in B2; congruence|]. cbn in B2.
    exists (K0 ++ [y]), R. cbn [xp xe xn x_ent x_nxt]. rewrite lst0_snoc. rewrite EL at 1. rewrite <- app_assoc. split; auto. split; auto. split; auto. split.
    + rewrite B2. destruct B as [B _]. rewrite EL in B. eapply plist_mid; eauto.
    + intros z Z. apply in_app_iff in Z. destruct Z as [Z|[<-|[]]]; auto. apply NC; auto.
      * rewrite EL. apply in_app_iff. right. left. auto.
      * rewrite B2. apply B. rewrite EL. apply in_app_iff. right. left. auto.
  - (* Lp1, not in the cache, no marker *)
    split; [exact Logic.I|]. mv P0 U0. cbn [PX] in *. destruct B as [K0 [R [EL [B [B1 [B2 B3]]]]]]. apply Nat.eqb_neq in E.
    destruct R as [|y R]; [cbn in B2; congruence|]. cbn in B2. exists K0, y, R. cbn [xp xe xn x_ent x_nxt]. split; auto. split; auto. split; auto. split; auto. split; auto.
    rewrite B2. destruct B as [B _]. rewrite EL in B. eapply plist_mid; eauto.
  - split; [exact Logic.I|]. mv P0 U0. cbn [PX] in *. destruct B as [K0 [R [EL [B [B1 [B2 B3]]]]]]. apply Nat.eqb_neq in E.
    destruct R as [|y R]; [cbn in B2; congruence|]. cbn in B2. exists K0, y, R. cbn [xp xe xn x_ent x_nxt]. split; auto. split; auto. split; auto. split; auto. split; auto.
    rewrite B2. destruct B as [B _]. rewrite EL in B. eapply plist_mid; eauto.
  - (* Ms2, found *)
    split; [exact Logic.I|].
    assert (NC : forall y, In y (pend_of g (xr x)) -> q_h y = xe x -> hptr s (xe x) = q_p y -> ~ g_cand g t (q_h y)).
    { intros y Y1 Y2 Y3 C. destruct (k_cd s g K t (xr x) (xC x) y) as [X _]; auto; [rewrite P0; auto|]. apply (X e i). apply Nat.eqb_eq in E0. congruence. }
    mv P0 U0. cbn [PX] in *. destruct B as [K0 [y [R [EL [B [B1 [B2 [B3 B4]]]]]]]].
    exists (K0 ++ [y]), R. cbn [xp xe xn x_ent x_nxt]. rewrite lst0_snoc. rewrite EL at 1. rewrite <- app_assoc. split; auto. split; auto. split; auto. split; auto.
    intros z Z. apply in_app_iff in Z. destruct Z as [Z|[<-|[]]]; auto. apply NC; auto.
    + rewrite EL. apply in_app_iff. right. left. auto.
    + rewrite B2. apply B. rewrite EL. apply in_app_iff. right. left. auto.
  - (* De1 *)
    split; [exact Logic.I|].
    pose proof (b_rec s g I (xr x) t (U0 (xr x) eq_refl)) as B. rewrite P0 in B. apply PR_in in B; [|reflexivity]. cbn [PX] in B.
    pose proof (b_cnt s g I (xr x) t (U0 (xr x) eq_refl)) as N. rewrite P0, adjr_in in N by reflexivity. cbn [adj] in N.
    destruct B as [K0 [y [R [EL [B [B1 [B2 [B3 B4]]]]]]]].
    io P0 U0; [auto| |].
    + cbn [PX gfold fold_left]. exists K0, y, R. auto 10.
    + rewrite upd_same, N. cbn [gfold fold_left]. rewrite dec_mod; [f_equal; lia|]. rewrite EL, app_length. cbn [length]. lia.
  - (* De2 *)
    split; [exact Logic.I|].
    pose proof (b_rec s g I (xr x) t (U0 (xr x) eq_refl)) as B. rewrite P0 in B. apply PR_in in B; [|reflexivity]. cbn [PX] in B.
    pose proof (b_cnt s g I (xr x) t (U0 (xr x) eq_refl)) as N. rewrite P0, adjr_in in N by reflexivity. cbn [adj] in N.
    destruct B as [K0 [y [R [EL [B [B1 [B2 [B3 B4]]]]]]]]. pose proof (pend_nd s g (xr x) I) as ND. rewrite EL in ND. destruct B as [BL BD]. rewrite EL in BL.
    assert (DK : forall s0, hptr s0 = hptr s -> hdat s0 = hdat s -> dm s0 (K0 ++ R)).
    { intros s0 D1 D2 z Z. rewrite D1, D2. apply BD. rewrite EL. apply in_app_iff in Z. apply in_app_iff. cbn. tauto. }
    assert (Dy : forall s0, hptr s0 = hptr s -> hdat s0 = hdat s -> dm s0 [y]).
    { intros s0 D1 D2 z [<-|[]]. rewrite D1, D2. apply BD. rewrite EL. apply in_app_iff. cbn. tauto. }
    destruct (Nat.eqb (xp x) 0) eqn:Z.
    + apply Nat.eqb_eq in Z. assert (K0 = []) by (eapply lst0_nil; eauto; congruence). subst K0.
      io P0 U0; [auto| |exact N]. cbn [PX gfold fold_left]. exists [], y, R. split; auto. split; [split; [|apply DK; auto]|split; [apply Dy; auto|auto]].
      sfg. rewrite upd_same, B2. apply plist_unlink1 in BL. auto.
    + apply Nat.eqb_neq in Z. rewrite B1 in Z. apply lst0_last in Z. destruct Z as [K1 [k [-> Ek]]].
      io P0 U0; [|cbn [PX gfold fold_left]|exact N].
      * intros r' z Nr X. rewrite upd_other; auto. rewrite B1, Ek. eapply pend_other; eauto. rewrite EL. rewrite !in_app_iff. cbn. tauto.
      * exists (K1 ++ [k]), y, R. split; auto. split; [split; [|apply DK; auto]|split; [apply Dy; auto|auto]].
        sfg. rewrite B1, Ek, B2. apply plist_unlink2; auto.
  - (* De3 *)
    pose proof (b_rec s g I (xr x) t (U0 (xr x) eq_refl)) as B. rewrite P0 in B. apply PR_in in B; [|reflexivity]. cbn [PX] in B.
    pose proof (b_cnt s g I (xr x) t (U0 (xr x) eq_refl)) as N. rewrite P0, adjr_in in N by reflexivity. cbn [adj] in N.
    destruct B as [K0 [y [R [EL [B [D [B1 [B2 [B3 B4]]]]]]]]]. pose proof (pend_nd s g (xr x) I) as ND. rewrite EL in ND.
    assert (Yin : In y (pend_of g (xr x))) by (rewrite EL; apply in_app_iff; right; left; auto).
    pose proof Yin as Yo. apply pend_in in Yo. destruct Yo as [Yo Yr].
    destruct (D y (or_introl eq_refl)) as [D1 D2].
    split.
    + split; [|exact Logic.I]. split; [|exact Logic.I]. cbn. exists (q_p y). rewrite B2, D2, <- Yr. destruct y as [[[y1 y2] y3] y4]. exact Yo.
    + assert (PE : pend_of (gf [EDes t (xr x) (xe x) (hdat s (xe x))] g) (xr x) = K0 ++ R).
      { cbn [gfold fold_left]. rewrite pend_des, EL, B2. apply filter_mid; auto. }
      eapply (IB_one s _ g _ t (xr x) (De4 x)); auto; try (intros; reflexivity); rewrite ?P0; cbn [uses]; try congruence.
      * intros r' Nr. cbn [gfold fold_left]. rewrite pend_des. apply filter_id. intros z Z. apply negb_true_iff. apply Nat.eqb_neq. rewrite B2. eapply pend_other; eauto.
      * rewrite PE. apply PR_to; [reflexivity|]. cbn [PX]. exists K0, R. auto 10.
      * rewrite PE, adjr_in by reflexivity. sfg. cbn [adj]. rewrite N, EL, !app_length. cbn [length]. f_equal. lia.
      * cbn. apply nd_filter. apply (b_nd s g I).
      * intros z Z. cbn in Z. apply filter_In in Z. destruct Z as [Z1 Z2]. apply negb_true_iff in Z2. apply Nat.eqb_neq in Z2. sfg. rewrite upd_other by auto. apply (b_out s g I); auto.
  - (* Pu1 *)
    split; [|mv P0 U0; exact B].
    split; [|exact Logic.I]. split; [|exact Logic.I]. cbn.
    pose proof (b_cnt s g I r t (U0 r eq_refl)) as N. rewrite P0, adjr_in in N by reflexivity. cbn [adj] in N. rewrite Nat.sub_0_r in N.
    apply N.eqb_eq in E. fold W32. congruence.
Qed.

Lemma call_IB : forall c s g t a s' ev, IA s -> IB s g -> pcs s t = Idle -> call c s t a = Some (s', ev) ->
  legal_from gnext acc_ok g ev /\ IB s' (gf ev g).
Proof.
  intros c s g t a s' ev A I P0 H. unfold call in H.
  destruct a; repeat brk H; try discriminate H; injection H as <- <-;
    repeat match goal with E : _ && _ = true |- _ => apply andb_prop in E; destruct E end;
    try match goal with E : mine _ _ _ = true |- _ => apply mine_own in E end.
  - (* register *)
    apply orb_false_iff in E. destruct E as [Z Rg]. apply Nat.eqb_neq in Z.
    assert (On : own s r = None) by (destruct (own s r) eqn:O; auto; apply (a_own s A) in O; destruct O; congruence).
    split; [exact Logic.I|]. eapply (IB_none s _ g _ t (Reg1 r)); auto; try (intros; reflexivity); [rewrite P0; auto| |]; sfg.
    + intros r0 N. assert (r0 <> r) by congruence. rewrite !upd_other by auto. auto.
    + intros r0 O R. unfold upd in *. destruct (Nat.eq_dec r0 r); auto. apply (b_new s g I); auto.
  - split; [exact Logic.I|]. eapply (IB_none s _ g _ t Rcy1); auto; try (intros; reflexivity); [rewrite P0; auto|]. apply (b_new s g I).
  - (* unregister *)
    split; [cbn; unfold acc_ok; cbn; tauto|].
    eapply (IB_rel s _ g _ t r (Un1 r)); auto; try (intros; reflexivity); [rewrite P0; auto|]. intros. apply pend_unr.
  - split; [exact Logic.I|]. eapply (IB_none s _ g _ t (pcs s t)); auto; try (intros; reflexivity); [intros u; sfg; pd; auto|rewrite P0; auto..|]. apply (b_new s g I).
  - split; [cbn; unfold acc_ok; cbn; tauto|].
    eapply (IB_none s _ g _ t (pcs s t)); auto; try (intros; reflexivity); [intros u; sfg; pd; auto|rewrite P0; auto..| |]. 
    + cbn. tauto.
    + apply (b_new s g I).
  - split; [exact Logic.I|].
    eapply (move s g t A I _ [] r (Clr r 0)); auto; try (intros; reflexivity); try (rewrite P0; auto); [cbn; congruence|symmetry; apply adjr_in; auto|].
    intros B. apply PR_to; [auto|exact B].
  - (* retire *)
    match goal with E : own s r = Some t |- _ => rename E into Ow end.
    repeat match goal with E : negb _ = true |- _ => apply negb_true_iff in E end.
    match goal with E : Nat.eqb h 0 = false |- _ => apply Nat.eqb_neq in E end.
    assert (NI : ~ In h (hs (g_out g))).
    { intros X. unfold hs in X. apply in_map_iff in X. destruct X as [x [E X]]. apply (b_out s g I) in X. rewrite E in X. destruct X. congruence. }
    pose proof (b_rec s g I r t Ow) as B. rewrite P0 in B.
    pose proof (b_cnt s g I r t Ow) as N. rewrite P0 in N. cbn in N. rewrite Nat.sub_0_r in N.
    split.
    + split; [|exact Logic.I]. split; [exact Logic.I|]. cbn. split; auto. apply (b_use s g I). congruence.
    + eapply (IB_one s _ g _ t r (Rt1 false r h d p)); auto; try (intros; reflexivity); rewrite ?P0; cbn [uses]; try congruence.
      * intros r' Nr. cbn [gfold fold_left]. rewrite pend_ret. destruct (Nat.eqb r r') eqn:Q; auto. apply Nat.eqb_eq in Q. congruence.
      * apply PR_to; auto. cbn [PX gfold fold_left]. rewrite pend_ret, Nat.eqb_refl. exists (pend_of g r). split; [auto|exact B].
      * rewrite adjr_in by auto. cbn [gfold fold_left]. rewrite pend_ret, Nat.eqb_refl. cbn [adj length]. rewrite Nat.sub_succ, Nat.sub_0_r. auto.
      * cbn. constructor; auto. apply (b_nd s g I).
      * cbn. intros x [<-|X]; cbn; [rewrite upd_same; auto|]. pose proof (b_out s g I x X) as [X1 X2]. split; auto. unfold upd. destruct (Nat.eq_dec (q_h x) h); auto.
  - (* free *)
    match goal with E : own s r = Some t |- _ => rename E into Ow end.
    repeat match goal with E : negb _ = true |- _ => apply negb_true_iff in E end.
    match goal with E : Nat.eqb h 0 = false |- _ => apply Nat.eqb_neq in E end.
    assert (NI : ~ In h (hs (g_out g))).
    { intros X. unfold hs in X. apply in_map_iff in X. destruct X as [x [E X]]. apply (b_out s g I) in X. rewrite E in X. destruct X. congruence. }
    pose proof (b_rec s g I r t Ow) as B. rewrite P0 in B.
    pose proof (b_cnt s g I r t Ow) as N. rewrite P0 in N. cbn in N. rewrite Nat.sub_0_r in N.
    split.
    + split; [|exact Logic.I]. split; [exact Logic.I|]. cbn. split; auto. apply (b_use s g I). congruence.
    + eapply (IB_one s _ g _ t r (Rt1 true r h d p)); auto; try (intros; reflexivity); rewrite ?P0; cbn [uses]; try congruence.
      * intros r' Nr. cbn [gfold fold_left]. rewrite pend_ret. destruct (Nat.eqb r r') eqn:Q; auto. apply Nat.eqb_eq in Q. congruence.
      * apply PR_to; auto. cbn [PX gfold fold_left]. rewrite pend_ret, Nat.eqb_refl. exists (pend_of g r). split; [auto|exact B].
      * rewrite adjr_in by auto. cbn [gfold fold_left]. rewrite pend_ret, Nat.eqb_refl. cbn [adj length]. rewrite Nat.sub_succ, Nat.sub_0_r. auto.
      * cbn. constructor; auto. apply (b_nd s g I).
      * cbn. intros x [<-|X]; cbn; [rewrite upd_same; auto|]. pose proof (b_out s g I x X) as [X1 X2]. split; auto. unfold upd. destruct (Nat.eq_dec (q_h x) h); auto.
  - (* reclaim *)
    split; [cbn; unfold acc_ok; cbn; tauto|].
    eapply (move s g t A I _ [EBeg t r] r (Mc1 r KRecl)); auto; try (intros; reflexivity); try (rewrite P0; auto); [cbn; congruence| |symmetry; apply adjr_in; auto|].
    + intros u h N. cbn. destruct (Nat.eq_dec u t); [congruence|auto].
    + intros B. apply PR_to; [auto|exact B].
  - split; [exact Logic.I|].
    eapply (move s g t A I _ [] r (Pu1 r)); auto; try (intros; reflexivity); try (rewrite P0; auto); [cbn; congruence|symmetry; apply adjr_in; auto|].
    intros B. apply PR_to; [auto|exact B].
Qed.

(** ** Candidates *)
Lemma IK_keep : forall s s' g g' t p', IK s g -> hz s' = hz s -> reg s' = reg s -> g_phys g' = g_phys g -> (forall u, pcs s' u = upd (pcs s) t p' u) ->
  (forall u r C x, u <> t -> rcl (pcs s u) = Some (r, C) -> In x (pend_of g' r) -> In x (pend_of g r)) ->
  (forall u h, u <> t -> g_cand g' u h -> g_cand g u h) ->
  (forall r C x, rcl p' = Some (r, C) -> In x (pend_of g' r) -> g_cand g' t (q_h x) -> (forall r' i, hz s r' i <> q_p x) /\ ~ In (q_p x) C) ->
  IK s' g'.
Proof.
  intros s s' g g' t p' I H1 H0 H2 Hp H3 H4 H5. constructor.
  - rewrite H1, H2. apply (k_ph s g I).
  - rewrite H1, H0. apply (k_z s g I).
  - intros u r C x R X Cd. rewrite H1. rewrite Hp in R. destruct (Nat.eq_dec u t) as [->|N].
    + rewrite upd_same in R. eapply H5; eauto.
    + rewrite upd_other in R by auto. eapply (k_cd s g I); eauto.
Qed.
Lemma IK_set : forall s s' g t r i p q, IK s g -> reg s r = true -> reg s' = reg s -> hz s' = upd2 (hz s) r i p -> (forall u, rcl (pcs s' u) = rcl (pcs s u)) -> q = ESet t r i p ->
  IK s' (gnext g q).
Proof.
  intros s s' g t r i p q I R0 R1 H1 Hp ->. constructor.
  - intros r' i'. rewrite H1. cbn. unfold upd2, upd. destruct (Nat.eq_dec r' r) as [->|]; [|apply (k_ph s g I)]. destruct (Nat.eq_dec i' i); auto. apply (k_ph s g I).
  - intros r' i'. rewrite H1, R1. unfold upd2, upd. intros Q. destruct (Nat.eq_dec r' r) as [->|]; [congruence|apply (k_z s g I); auto].
  - intros u r' C x R X [Cd Ne]. rewrite Hp in R. change (In x (pend_of g r')) in X. destruct (k_cd s g I u r' C x R X Cd) as [A B]. split; auto.
    intros r1 i1. rewrite H1. unfold upd2, upd. destruct (Nat.eq_dec r1 r) as [->|]; [|apply A]. destruct (Nat.eq_dec i1 i); [|apply A].
    intros E. apply (Ne x); auto. apply pend_in in X. tauto.
Qed.

(** nobody else's reclaim sees [r] *)
Lemma rcl_other : forall s t r u r' C, IA s -> own s r = Some t -> u <> t -> rcl (pcs s u) = Some (r', C) -> r' <> r.
Proof. intros s t r u r' C A O N R ->. apply rcl_uses in R. apply (a_use s A) in R. congruence. Qed.
Lemma pend_des_in : forall g t r h d r' x, In x (pend_of (gnext g (EDes t r h d)) r') -> In x (pend_of g r').
Proof. intros. rewrite pend_des in H. apply filter_In in H. tauto. Qed.
Lemma beg_cand : forall s g t r x, IB s g -> IK s g -> In x (pend_of g r) -> g_cand (gnext g (EBeg t r)) t (q_h x) -> forall r' i, hz s r' i <> q_p x.
Proof.
  intros s g t r x I K X C r' i. cbn in C. destruct (Nat.eq_dec t t); [|congruence]. destruct C as [d [p [C1 C2]]].
  apply pend_in in X. destruct X as [X Xr].
  assert (x = (r, q_h x, d, p)) by (eapply nd_inj; eauto; apply (b_nd s g I)). rewrite H. cbn. rewrite <- (k_ph s g K). apply C2.
Qed.

Ltac kk P0 :=
  match goal with |- IK (go ?s0 ?tt ?pp) (gfold _ ?evv ?g) =>
    eapply (IK_keep _ _ g _ tt pp); [eassumption|reflexivity|reflexivity|reflexivity|intros; reflexivity| | | ] end;
  cbn [rcl xr xC x_ent x_nxt ctx].
Lemma tick_IK : forall c s g t s' ev, IA s -> IB s g -> IK s g -> tick c s t = Some (s', ev) -> IK s' (gf ev g).
Proof.
  intros c s g t s' ev A I K H. unfold tick in H.
  pose proof (k_cd s g K t) as K0. pose proof (a_use s A t) as U0.
  destruct (pcs s t) eqn:P0; try discriminate H; cbn [rcl uses] in K0, U0;
    try match type of H with context [if ?f then Rt6 _ else _] => destruct f end;
    repeat brk H; injection H as <- <-;
    try (kk P0; [intros; assumption|intros; assumption|first [discriminate | intros ? ? ? [= <- <-]; apply (K0 _ _ _ eq_refl) | exact K0]]; fail).
  - apply (IK_set s _ g t r i 0 _ K); auto; [apply (a_own s A r t); apply U0; auto|]. intros u. cbn. unfold upd. destruct (Nat.eq_dec u t) as [->|]; auto. rewrite P0. reflexivity.
  - kk P0; [intros; assumption| |].
    + intros u h N X. cbn in X. destruct (Nat.eq_dec u t); [congruence|exact X].
    + intros r0 C x [= <- <-] X Cd. split; [|intros []]. eapply beg_cand; eauto.
  - kk P0; [intros; assumption|intros; assumption|]. intros r0 C0 x [= <- <-] X Cd. destruct (K0 _ _ x eq_refl X Cd) as [H1 H2]. split; auto.
    intros H. apply in_app_or in H. destruct H as [H|[H|[]]]; [tauto|]. exact (H1 _ _ H).
  - match goal with |- IK (go ?s0 ?tt ?pp) (gfold _ ?evv ?g) =>
      eapply (IK_keep _ _ g _ tt pp); [eassumption|reflexivity|reflexivity|reflexivity|intros; reflexivity| | | ] end.
    + intros; assumption.
    + intros u h N X. cbn in X. destruct (Nat.eq_dec u t); [congruence|exact X].
    + unfold after. destruct (xk x); cbn; discriminate.
  - destruct (xp x =? 0); (kk P0; [intros; assumption|intros; assumption|exact K0]).
  - kk P0; [intros until x0; intros _ _; apply pend_des_in|intros; assumption|].
    intros r C y [= <- <-] X. apply pend_des_in in X. exact (K0 _ _ y eq_refl X).
  - kk P0; [intros; assumption| |].
    + intros u h N X. cbn in X. destruct (Nat.eq_dec u t); [congruence|exact X].
    + intros r0 C x [= <- <-] X Cd. split; [|intros []]. eapply beg_cand; eauto.
Qed.

Lemma call_IK : forall c s g t a s' ev, IA s -> IB s g -> IK s g -> call c s t a = Some (s', ev) -> IK s' (gf ev g).
Proof.
  intros c s g t a s' ev A I K H. unfold call in H.
  destruct a; try discriminate H; repeat brk H; injection H as <- <-;
    try (kk P0; [intros; assumption|intros; assumption|discriminate]; fail).
  all: try match goal with E : _ && _ = true |- _ => rewrite ?andb_true_iff in E end.
  - apply orb_false_iff in E. constructor.
    + intros r' i. cbn. rewrite (k_ph s g K r' i). unfold upd. destruct (Nat.eq_dec r' r) as [->|]; auto. apply (k_z s g K). tauto.
    + intros r' i. cbn. unfold upd. destruct (Nat.eq_dec r' r) as [->|]; auto. apply (k_z s g K).
    + intros u r' C x. cbn. unfold upd. destruct (Nat.eq_dec u t) as [->|]; [discriminate|]. intros R X Cd. destruct (k_cd s g K u r' C x R X Cd) as [Y Z]. split; auto.
      intros r1 i. destruct (Nat.eq_dec r1 r) as [->|]; auto. rewrite <- (k_z s g K r i) by tauto. apply Y.
  - kk P0; [ |intros; assumption|discriminate]. intros u r' C x N R X. cbn [gfold fold_left] in X. rewrite pend_unr in X. apply mine_own in E. pose proof (rcl_other _ _ _ _ _ _ A E N R).
    destruct (Nat.eqb r r') eqn:Q; [apply Nat.eqb_eq in Q; congruence|exact X].
  - constructor; [apply (k_ph s g K)|apply (k_z s g K)|apply (k_cd s g K)].
  - apply (IK_set s _ g t r i p _ K); auto. destruct E as [E _]. apply mine_own in E. apply (a_own s A r t); auto.
  - kk P0; [ |intros; assumption|discriminate]. intros u r' C x N R X. cbn [gfold fold_left] in X. rewrite pend_ret in X. destruct E as [[E _] _]. apply mine_own in E. pose proof (rcl_other _ _ _ _ _ _ A E N R).
    destruct (Nat.eqb r r') eqn:Q; [apply Nat.eqb_eq in Q; congruence|exact X].
  - kk P0; [ |intros; assumption|discriminate]. intros u r' C x N R X. cbn [gfold fold_left] in X. rewrite pend_ret in X. destruct E as [[E _] _]. apply mine_own in E. pose proof (rcl_other _ _ _ _ _ _ A E N R).
    destruct (Nat.eqb r r') eqn:Q; [apply Nat.eqb_eq in Q; congruence|exact X].
  - kk P0; [intros; assumption| |].
    + intros u h N X. cbn in X. destruct (Nat.eq_dec u t); [congruence|exact X].
    + intros r0 C x [= <- <-] X Cd. split; [|intros []]. eapply beg_cand; eauto.
Qed.
