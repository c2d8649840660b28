(** Robin Hood hash set: growing. *)
From Coq Require Import Arith NArith List Bool Permutation Lia FMapPositive.
From Verif Require Import Lib Helpers_Model Helpers_Proof Rhs_Model Rhs_Spec Rhs_Proof RhsInv_Proof.
Import ListNotations.

Lemma wf_create : forall lf e, wf (create lf e).
Proof.
  intros lf e. unfold wf, create. cbn [cap plim].
  assert (B : (e mod 2 ^ 32 < 2 ^ 32)%N) by (apply N.mod_lt; discriminate).
  generalize dependent (e mod 2 ^ 32)%N. intros x B.
  assert (G : exists k, (3 <= k <= 31)%N /\ (if N.ltb (ck_internal_power_2 x) 8 then 8%N else ck_internal_power_2 x) = (2 ^ k)%N).
  { destruct (N.eq_dec x 0) as [Z | NZ].
    { rewrite (power_2_zero x) by auto. exists 3%N. split; [lia | reflexivity]. }
    destruct (N.le_gt_cases x (2 ^ 31)) as [L | G].
    2: { rewrite (power_2_zero x) by auto. exists 3%N. split; [lia | reflexivity]. }
    rewrite power_2_eq by (split; [lia | auto]).
    destruct (N.ltb_spec (2 ^ N.log2_up x) 8) as [A | A].
    { exists 3%N. split; [lia | reflexivity]. }
    exists (N.log2_up x). split; auto. split.
    - change 8%N with (2 ^ 3)%N in A. apply N.pow_le_mono_r_iff in A; [auto | lia].
    - apply N.log2_up_le_pow2; auto. lia. }
  destruct G as (k & K & ->). split; [eauto|]. rewrite N.shiftr_div_pow2. change (2 ^ 5)%N with 32%N.
  assert (C : (2 ^ k <= 2 ^ 31)%N) by (apply N.pow_le_mono_r; lia). change (2 ^ 31)%N with 2147483648%N in C. change (2 ^ 32 - 1)%N with 4294967295%N.
  assert (D : (2 ^ k / 32 <= 2 ^ k)%N) by (apply N.div_le_upper_bound; lia).
  destruct (N.ltb_spec 4294967295 (N.max (2 ^ k / 32) 64)); [lia|]. auto.
Qed.

Section G.
Variables (rmode pp : bool) (hf : N -> N) (oracle : nat -> bool).
Notation pi := (pi rmode).
Notation valid := (valid pp).
Notation marshal := (marshal pp).
Notation val := (val pp).
Notation bound_get := (bound_get rmode).
Notation bound_set := (bound_set rmode).
Notation inv := (inv rmode pp hf).
Notation Wok := (Wok rmode).
Notation bk := (bk rmode).
Notation occ := (occ rmode).
Notation cont := (cont pp).

Lemma nsum_used : forall m P e s, wf m -> (forall t, (t < cap m)%N -> P t <= nc m /\ (0 < P t -> e t <> 0%N)) ->
  nsum (slots m) (fun t => bk m t (P t) s) <= used m e.
Proof.
  intros m P e s W H. unfold used. apply nsum_le. intros t T. apply in_slots in T. destruct (H t T) as (L & Z).
  destruct (N.eqb_spec (e t) 0) as [E | E].
  - destruct (P t) as [|i] eqn:Q; [simpl; auto|]. destruct Z; auto. lia.
  - apply bk_1; auto.
Qed.
Lemma inv_prb : forall e m X t, inv e m X -> (t < cap m)%N -> ~ X t -> prb m t <= nc m /\ prb m t <= plim m /\ (0 < prb m t -> e t <> 0%N).
Proof.
  intros e m X t I T NX. destruct (N.eq_dec (e t) 0) as [E | E].
  - rewrite (i_zero _ _ _ _ _ _ I t T E). split; [lia|]. split; lia.
  - destruct (i_good _ _ _ _ _ _ I t T E NX) as (k & i & A & V & P & L & S' & N' & Bg & Pm). pose proof (i_max _ _ _ _ _ _ I). rewrite P. split; [lia|]. split; auto. lia.
Qed.
Lemma empty_dec : forall m (e : N -> N), (exists s, (s < cap m)%N /\ e s = 0%N) \/ (forall s, (s < cap m)%N -> e s <> 0%N).
Proof.
  intros m e. destruct (existsb (fun s => N.eqb (e s) 0) (slots m)) eqn:E.
  - left. apply existsb_exists in E. destruct E as (s & S' & E). exists s. apply in_slots in S'. split; auto. apply N.eqb_eq; auto.
  - right. intros s S' Z. apply in_slots in S'. assert (X : existsb (fun s => N.eqb (e s) 0) (slots m) = true); [|congruence].
    apply existsb_exists. exists s. split; auto. apply N.eqb_eq; auto.
Qed.
Lemma idx_lt : forall m e h i, wf m -> (exists s, (s < cap m)%N /\ e s = 0%N) -> (forall j, j < i -> e (pi m h j) <> 0%N) -> i < nc m.
Proof.
  intros m e h i W (s & S' & Z) H. destruct (Nat.lt_ge_cases i (nc m)) as [L | L]; auto.
  exfalso. apply (path_full rmode m e h s W); auto. intros j J. apply H. lia.
Qed.
Lemma used_upd_nz : forall m e s w, (s < cap m)%N -> e s <> 0%N -> w <> 0%N -> used m (updN e s w) = used m e.
Proof.
  intros m e s w S' E W. unfold used. apply nsum_ext. intros t T. unfold updN. destruct (N.eqb_spec t s) as [-> | D]; auto.
  destruct (N.eqb_spec w 0); [congruence|]. destruct (N.eqb_spec (e s) 0); congruence.
Qed.
Lemma used_ext : forall m m' e e', cap m' = cap m -> (forall t, (t < cap m)%N -> e' t = e t) -> used m' e' = used m e.
Proof. intros m m' e e' C H. unfold used. rewrite (slots_cap m m' C). apply nsum_ext. intros t T. apply in_slots in T. rewrite H; auto. Qed.
Lemma cont_cap : forall m m' e e', cap m' = cap m -> (forall t, (t < cap m)%N -> e' t = e t) -> cont m' e' = cont m e.
Proof. intros m m' e e' C H. unfold RhsInv_Proof.cont at 1. rewrite (slots_cap m m' C). apply (cont_ext pp m). auto. Qed.

Definition lim (n : nat) : Prop := n <= if rmode then 512 else 253.
Lemma lim_idx : forall m e h i, wf m -> lim (used m e) -> S i <= plim m -> (forall j, j < i -> e (pi m h j) <> 0%N) -> rmode = false -> S i < 255.
Proof. intros m e h i W L PL H Rm. unfold lim in L. rewrite Rm in L. eapply small_idx; eauto. Qed.
(** and one more *)
Definition lim1 (n : nat) : Prop := n <= if rmode then 513 else 254.
Lemma lim_1 : forall n, lim n -> lim1 n.
Proof. unfold lim, lim1. intros n. destruct rmode; lia. Qed.
Lemma lim1_S : forall n, lim n -> lim1 (S n).
Proof. unfold lim, lim1. intros n. destruct rmode; lia. Qed.
Lemma lim1_513 : forall n, lim1 n -> n <= 513.
Proof. unfold lim1. intros n. destruct rmode; lia. Qed.
Lemma lim_512 : forall n, lim n -> n <= 512.
Proof. unfold lim. intros n. destruct rmode; lia. Qed.

Definition Wh (u : rmap) (h : N) (p : nat) : Prop :=
  forall s, (s < cap u)%N -> N.to_nat (wnt u s) = nsum (slots u) (fun t => bk u t (prb u t) s) + occ u h s 0 p.

Lemma place_ok : forall f u off p k, inv (ent u) u none -> valid k -> p <= plim u -> off = pi u (hf k) p ->
  (forall j, j < p -> ent u (pi u (hf k) j) <> 0%N) -> Wh u (hf k) p -> lim (used u (ent u)) ->
  (exists s, (s < cap u)%N /\ ent u s = 0%N) ->
  match place rmode pp hf f u off p (hf k) (marshal k (hf k)) with
  | Ret (Some u') => inv (ent u') u' none /\ Wok u' (prb u') /\ Permutation (cont u' (ent u')) (k :: cont u (ent u)) /\
      cap u' = cap u /\ maxe u' = maxe u /\ nent u' = ((nent u + 1) mod 2 ^ 64)%N /\ a_irh u' = a_irh u
  | Ret None | Loop => True
  | _ => False
  end.
Proof.
  induction f; intros u off p k I V PL Eo Pa Wt Lm Em; simpl; auto.
  destruct (Nat.eqb_spec p (plim u)) as [Ep | Ep]; auto.
  pose proof (i_wf _ _ _ _ _ _ I) as W. pose proof (idx_lt u (ent u) (hf k) p W Em Pa) as Lp.
  assert (Lo : (off < cap u)%N) by (rewrite Eo; apply pi_lt; auto).
  assert (Sm : rmode = false -> S p < 255) by (apply (lim_idx u (ent u) (hf k) p); auto; lia).
  destruct (N.eqb_spec (ent u off) 0) as [Z | NZ].
  - set (u1 := set_prb (set_nent (set_ent u off (marshal k (hf k))) ((nent u + 1) mod 2 ^ 64)) off (S p)).
    destruct (bound_set_raised rmode u1 (hf k) (S p)) as (R1 & R2 & R3); [simpl; lia | auto|].
    assert (R0 : raised rmode u u1) by (apply raised_same; auto).
    pose proof (raised_trans _ _ _ _ R0 R1) as R. destruct (bound_set_fields rmode u1 (hf k) (S p)) as (F1 & F2 & F3 & F4 & F5 & F6 & F7 & F8).
    match goal with |- context [Rhs_Model.bound_set rmode ?x (hf k) (S p)] => change x with u1 end.
    set (u' := bound_set u1 (hf k) (S p)) in *.
    assert (Ee : forall t, ent u' t = updN (ent u) off (marshal k (hf k)) t) by (intros t; unfold ent at 1; rewrite F3; exact (ent_set u off _ t)).
    assert (Epb : forall t, prb u' t = updN (prb u) off (S p) t) by (intros t; unfold prb at 1; rewrite F4; exact (prb_set u off _ t)).
    assert (Ew : forall t, wnt u' t = wnt u t) by (intros t; unfold wnt; rewrite F5; auto).
    assert (Ec : cap u' = cap u) by (rewrite F1; auto).
    split; [|split; [|split; [|split; [|split; [|split]]]]]; auto.
    + apply inv_ext with (e := updN (ent u) off (marshal k (hf k))); [|intros; auto].
      apply inv_store with (m := u) (X := none) (i := p); auto; try (intros t Ht D; rewrite Epb, updN_other; auto).
      rewrite Epb, updN_same. auto.
    + intros s Hs. rewrite Ec in Hs. rewrite Ew, (Wt s Hs). rewrite (slots_cap u u' Ec).
      rewrite (nsum_ext (slots u) (fun t => bk u' t (prb u' t) s) (fun t => bk u t (updN (prb u) off (S p) t) s)).
      2: { intros t T. rewrite (bk_cap rmode u u') by auto. rewrite Epb. auto. }
      pose proof (nsum_upd (slots u) (fun t => bk u t (updN (prb u) off (S p) t) s) (fun t => bk u t (prb u t) s) off (nodup_slots u) (proj2 (in_slots u off) Lo)) as X.
      cbv beta in X. lapply X; [clear X; intros X | intros t _ D; rewrite updN_other; auto].
      rewrite updN_same, (i_zero _ _ _ _ _ _ I off Lo Z) in X. simpl in X. rewrite <- (bk_pi rmode u (hf k) p s W), <- Eo. simpl. lia.
    + rewrite (cont_cap u u' (updN (ent u) off (marshal k (hf k)))) by auto.
      pose proof (cont_upd pp hf u (ent u) off (marshal k (hf k)) Lo) as X. unfold cv in X. rewrite Z in X. simpl in X.
      destruct (N.eqb_spec (marshal k (hf k)) 0) as [E | _]; [destruct (marshal_nz pp k (hf k) V E)|]. rewrite (val_marshal pp k (hf k) V) in X. exact X.
  - destruct (Nat.ltb_spec (prb u off) (S p)) as [Lt | Ge].
    + destruct (i_good _ _ _ _ _ _ I off Lo NZ (fun x => x)) as (k' & i & A & V' & P & L & S' & N' & Bg & Pm).
      pose proof (i_max _ _ _ _ _ _ I) as PM.
      set (u1 := set_ent u off (marshal k (hf k))).
      destruct (bound_set_raised rmode u1 (hf k) (S p)) as (R1 & R2 & R3); [simpl; lia | auto|].
      destruct (bound_set_fields rmode u1 (hf k) (S p)) as (F1 & F2 & F3 & F4 & F5 & F6 & F7 & F8).
      assert (R : raised rmode u (set_prb (bound_set u1 (hf k) (S p)) off (S p))).
      { apply raised_trans with u1; [apply raised_same; auto|]. apply raised_trans with (bound_set u1 (hf k) (S p)); auto. apply raised_same; auto. }
      set (u' := set_prb (bound_set u1 (hf k) (S p)) off (S p)) in *.
      assert (Ee : forall t, ent u' t = updN (ent u) off (marshal k (hf k)) t) by (intros t; change (ent u' t) with (ent (bound_set u1 (hf k) (S p)) t); unfold ent at 1; rewrite F3; exact (ent_set u off _ t)).
      assert (Epb : forall t, prb u' t = updN (prb u) off (S p) t) by (intros t; unfold u'; rewrite prb_set; unfold updN; destruct (N.eqb t off); auto; unfold prb; rewrite F4; auto).
      assert (Ew : forall t, wnt u' t = wnt u t) by (intros t; change (wnt u' t) with (wnt (bound_set u1 (hf k) (S p)) t); unfold wnt; rewrite F5; auto).
      assert (Ec : cap u' = cap u) by (exact F1).
      assert (En : forall t, ent u t <> 0%N -> ent u' t <> 0%N).
      { intros t H. rewrite Ee. unfold updN. destruct (N.eqb t off); auto. apply marshal_nz; auto. }
      assert (I' : inv (ent u') u' none).
      { apply inv_ext with (e := updN (ent u) off (marshal k (hf k))); [|intros; auto].
        apply inv_store with (m := u) (X := none) (i := p); auto; try (intros t Ht D; rewrite Epb, updN_other; auto).
        rewrite Epb, updN_same. auto. }
      assert (Lm' : used u' (ent u') = used u (ent u)).
      { rewrite (used_ext u u' (updN (ent u) off (marshal k (hf k)))) by auto. apply used_upd_nz; auto. apply marshal_nz; auto. }
      rewrite A, val_marshal by auto. rewrite P. replace (S i - 1) with i by lia.
      assert (Hp : i <= plim u') by (change (i <= plim (bound_set u1 (hf k) (S p))); rewrite F2; simpl; lia).
      assert (Ho : off = pi u' (hf k') i) by (rewrite (pi_cap rmode u u') by auto; auto).
      assert (Ha : forall j, j < i -> ent u' (pi u' (hf k') j) <> 0%N) by (intros j J; rewrite (pi_cap rmode u u') by auto; auto).
      assert (Hw : Wh u' (hf k') i).
      { intros s Hs. rewrite Ec in Hs. rewrite Ew, (Wt s Hs), (slots_cap u u' Ec), (occ_cap rmode u u') by auto.
        rewrite (nsum_ext (slots u) (fun t => bk u' t (prb u' t) s) (fun t => bk u t (updN (prb u) off (S p) t) s)).
        2: { intros t T. rewrite (bk_cap rmode u u') by auto. rewrite Epb. auto. }
        pose proof (nsum_upd (slots u) (fun t => bk u t (updN (prb u) off (S p) t) s) (fun t => bk u t (prb u t) s) off (nodup_slots u) (proj2 (in_slots u off) Lo)) as X.
        cbv beta in X. lapply X; [clear X; intros X | intros t _ D; rewrite updN_other; auto].
        rewrite updN_same, P in X.
        assert (Y1 : bk u off (S p) s = occ u (hf k) s 0 p) by (rewrite Eo; apply bk_pi; auto).
        assert (Y2 : bk u off (S i) s = occ u (hf k') s 0 i) by (rewrite S'; apply bk_pi; auto). lia. }
      assert (He : exists s, (s < cap u')%N /\ ent u' s = 0%N).
      { destruct Em as (s & Hs & Z). exists s. rewrite Ec. split; auto. rewrite Ee, updN_other; auto. intros ->. congruence. }
      rewrite <- Lm' in Lm. specialize (IHf u' off i k' I' V' Hp Ho Ha Hw Lm He).
      destruct (place rmode pp hf f u' off i (hf k') (marshal k' (hf k'))) as [[u''|] | | |]; auto.
      destruct IHf as (Q1 & Q2 & Q3 & Q4 & Q5 & Q6 & Q7). do 2 (split; auto). split; [|split; [congruence|]].
      * rewrite Q3. rewrite (cont_cap u u' (updN (ent u) off (marshal k (hf k)))) by auto.
        pose proof (cont_upd pp hf u (ent u) off (marshal k (hf k)) Lo) as X. rewrite A in X. unfold cv in X.
        destruct (N.eqb_spec (marshal k (hf k)) 0) as [E | _]; [destruct (marshal_nz pp k (hf k) V E)|].
        destruct (N.eqb_spec (marshal k' (hf k')) 0) as [E | _]; [destruct (marshal_nz pp k' (hf k') V' E)|].
        rewrite !val_marshal in X by auto. exact X.
      * split; [rewrite Q5; exact F8|]. split; [rewrite Q6; change (nent u') with (nent (bound_set u1 (hf k) (S p))); rewrite F7; auto|].
        rewrite Q7. exact F6.
    + set (u' := wanted_inc u off).
      assert (I' : inv (ent u') u' none) by (apply inv_raised with (m := u); auto; apply raised_same; auto).
      assert (Ew : N.to_nat (wnt u off) <= 513).
      { rewrite (Wt off Lo). pose proof (nsum_used u (prb u) (ent u) off W) as X. lapply X; [clear X; intros X|].
        - pose proof (occ_1 rmode u (hf k) off p 0 W ltac:(lia)). pose proof (lim_512 _ Lm). lia.
        - intros t T. destruct (inv_prb _ _ _ t I T (fun x => x)) as (A & _ & B). auto. }
      specialize (IHf u' (next rmode u off (S p)) (S p) k I' V).
      lapply IHf; [clear IHf; intros IHf | simpl; lia].
      lapply IHf; [clear IHf; intros IHf | rewrite (pi_cap rmode u u') by auto; rewrite Eo; reflexivity].
      lapply IHf; [clear IHf; intros IHf |].
      2: { intros j J. rewrite (pi_cap rmode u u') by auto. change (ent u (pi u (hf k) j) <> 0%N). destruct (Nat.eq_dec j p); [subst; auto | apply Pa; lia]. }
      lapply IHf; [clear IHf; intros IHf |].
      2: { intros s Hs. rewrite (occ_cap rmode u u') by auto. rewrite (nsum_ext _ _ (fun t => bk u t (prb u t) s)) by (intros; apply bk_cap; auto). rewrite (slots_cap u u') by auto.
           rewrite occ_S, Nat.add_0_l, <- Eo. unfold u', wanted_inc. rewrite wnt_set. unfold updN. rewrite (N.eqb_sym off s). change (cap u') with (cap u) in Hs.
           destruct (N.eqb_spec s off) as [-> | D]; [|rewrite (Wt s Hs); lia].
           specialize (Wt off Lo). rewrite N.mod_small by lia. lia. }
      apply IHf; auto.
Qed.
Lemma place_full : forall f u off p h w u', wf u -> (off < cap u)%N -> (forall s, (s < cap u)%N -> ent u s <> 0%N) -> w <> 0%N ->
  place rmode pp hf f u off p h w <> Ret (Some u').
Proof.
  induction f; intros u off p h w u' W Lo H Hw; simpl; [discriminate|].
  destruct (Nat.eqb p (plim u)); [discriminate|].
  destruct (N.eqb_spec (ent u off) 0) as [Z | NZ]; [destruct (H off Lo Z)|].
  destruct (Nat.ltb (prb u off) (S p)).
  - destruct (bound_set_fields rmode (set_ent u off w) h (S p)) as (F1 & F2 & F3 & F4 & F5 & F6 & F7 & F8).
    apply IHf; auto.
    + split; [destruct W as ((k & K & E) & _); exists k; split; auto; simpl; rewrite F1; auto|]. destruct W as (_ & E). simpl. rewrite F1, F2. auto.
    + simpl. rewrite F1. auto.
    + simpl. rewrite F1. intros s Hs. change (ent (bound_set (set_ent u off w) h (S p)) s <> 0%N). unfold ent. rewrite F3. fold (ent (set_ent u off w) s). rewrite ent_set.
      unfold updN. destruct (N.eqb s off); auto.
  - apply IHf; auto. change (cap (wanted_inc u off)) with (cap u). apply next_lt; auto.
Qed.
Lemma place_bad : forall f u off p h w, match place rmode pp hf f u off p h w with Ret _ | Loop => True | _ => False end.
Proof.
  induction f; intros u off p h w; simpl; auto. destruct (Nat.eqb p (plim u)); auto. destruct (N.eqb (ent u off) 0); auto.
  destruct (Nat.ltb (prb u off) (S p)); apply IHf.
Qed.

Definition Inv (m : rmap) : Prop := inv (ent m) m none /\ Wok m (prb m).
Definition words (m : rmap) : Prop := forall s, (s < cap m)%N -> ent m s <> 0%N -> exists k, valid k /\ ent m s = marshal k (hf k).
Lemma Inv_words : forall m, Inv m -> words m.
Proof. intros m (I & _) s Hs E. destruct (i_good _ _ _ _ _ _ I s Hs E (fun x => x)) as (k & i & A & V & _). eauto. Qed.

Lemma rehash_ok : forall f m ks u, words m -> (forall s, In s ks -> (s < cap m)%N) -> Inv u ->
  lim1 (length (flat_map (fun t => cv pp (ent m t)) ks) + used u (ent u)) -> nent u = N.of_nat (used u (ent u)) ->
  match rehash rmode pp hf f m u ks with
  | Ret (Some u') => Inv u' /\ Permutation (cont u' (ent u')) (flat_map (fun t => cv pp (ent m t)) ks ++ cont u (ent u)) /\
      cap u' = cap u /\ maxe u' = maxe u /\ nent u' = N.of_nat (used u' (ent u'))
  | Ret None | Loop => True
  | _ => False
  end.
Proof.
  induction ks as [|s ks IH]; intros u Wd Hk Iu Lm Ne; cbn [rehash flat_map]; auto.
  cbn [flat_map] in Lm. unfold cv at 1 in Lm. unfold cv at 1. destruct (N.eqb_spec (ent m s) 0) as [Z | NZ].
  { apply IH; auto. intros; apply Hk; simpl; auto. }
  destruct (Wd s (Hk s (or_introl eq_refl)) NZ) as (k & V & E). rewrite E, val_marshal by auto. rewrite E, val_marshal in Lm by auto.
  cbn [app length] in Lm.
  pose proof (place_bad f u (hf k mod cap u) 0 (hf k) (marshal k (hf k))) as PB.
  destruct (empty_dec u (ent u)) as [Em | Fu].
  - pose proof (place_ok f u (hf k mod cap u)%N 0 k (proj1 Iu) V ltac:(lia) eq_refl ltac:(intros; lia)) as X.
    lapply X; [clear X; intros X | intros t Ht; simpl; rewrite Nat.add_0_r; apply Iu; auto].
    lapply X; [clear X; intros X | unfold lim, lim1 in *; destruct rmode; lia].
    specialize (X Em). destruct (place rmode pp hf f u _ 0 (hf k) _) as [[u1|] | | |]; simpl; auto.
    destruct X as (Q1 & Q2 & Q3 & Q4 & Q5 & Q6 & Q7).
    assert (U1 : used u1 (ent u1) = S (used u (ent u))).
    { rewrite <- !(len_cont pp). rewrite Q3. auto. }
    specialize (IH u1 Wd). lapply IH; [clear IH; intros IH | intros; apply Hk; simpl; auto].
    specialize (IH (conj Q1 Q2)). lapply IH; [clear IH; intros IH | rewrite U1; unfold lim1 in *; destruct rmode; lia].
    lapply IH; [clear IH; intros IH|].
    2: { rewrite Q6, Ne, U1. pose proof (lim1_513 _ Lm). rewrite N.mod_small; [lia|]. change (2 ^ 64)%N with 18446744073709551616%N. lia. }
    destruct (rehash rmode pp hf f m u1 ks) as [[u2|] | | |]; auto. destruct IH as (I1 & I2 & I3 & I4 & I5).
    split; auto. split; [|split; [congruence|split; [congruence | auto]]]. rewrite I2, Q3. cbn [app]. rewrite <- Permutation_middle. auto.
  - pose proof (place_full f u (hf k mod cap u)%N 0 (hf k) (marshal k (hf k))) as X.
    destruct (place rmode pp hf f u _ 0 (hf k) _) as [[u1|] | | |]; simpl; auto.
    exfalso. pose proof (i_wf _ _ _ _ _ _ (proj1 Iu)) as W. apply (X u1 W); auto; [|apply marshal_nz; auto].
    pose proof (wf_pos u W). apply N.mod_lt. lia.
Qed.

Lemma aget_empty : forall A (d : A) i, aget d (PositiveMap.empty A) i = d.
Proof. intros. unfold aget. rewrite PositiveMap.gempty. auto. Qed.
Lemma create_inv : forall lf c, Inv (create lf c) /\ cont (create lf c) (ent (create lf c)) = [] /\ used (create lf c) (ent (create lf c)) = 0.
Proof.
  intros lf c. pose proof (wf_create lf c) as W. remember (create lf c) as m.
  assert (E1 : forall s, ent m s = 0%N) by (subst m; intros; apply aget_empty).
  assert (E2 : forall s, prb m s = 0) by (subst m; intros; apply aget_empty).
  assert (E3 : forall s, wnt m s = 0%N) by (subst m; intros; apply aget_empty).
  assert (E4 : forall s, bnd m s = 0) by (subst m; intros; apply aget_empty).
  assert (E5 : pmax m = 0) by (subst m; auto). clear Heqm.
  assert (U : used m (ent m) = 0).
  { unfold used. clear - E1. induction (slots m); simpl; auto. rewrite E1, IHl. auto. }
  split; [split|split; auto].
  - constructor; auto; try (intros; rewrite ?E1, ?E2, ?E4 in *; auto; congruence); try lia.
    intros _ s. rewrite E4. lia.
  - intros s Hs. rewrite E3. rewrite (nsum_ext (slots m) _ (fun _ => 0)); [|intros t _; rewrite E2; auto].
    clear. induction (slots m); simpl; auto.
  - rewrite <- (len_cont pp) in U. destruct (cont m (ent m)); auto. discriminate.
Qed.

Lemma Inv_same : forall m m', Inv m -> a_ent m' = a_ent m -> a_prb m' = a_prb m -> a_wnt m' = a_wnt m -> a_bnd m' = a_bnd m -> cap m' = cap m -> plim m' = plim m -> pmax m' = pmax m -> Inv m'.
Proof.
  intros m m' (I & K) E1 E2 E3 E4 E5 E6 E7.
  assert (X1 : ent m' = ent m) by (unfold ent; rewrite E1; auto). assert (X2 : prb m' = prb m) by (unfold prb; rewrite E2; auto). split.
  - rewrite X1. apply inv_raised with (m := m); auto; [apply raised_same; auto|]. intros. rewrite X2. auto.
  - intros s Hs. rewrite E5 in Hs. unfold wnt. rewrite E3, X2, (slots_cap m m') by auto. change (aget 0%N (a_wnt m) s) with (wnt m s). rewrite (K s Hs).
    apply nsum_ext. intros. symmetry. apply bk_cap; auto.
Qed.
Lemma grow_loop_ok : forall n f lf m al c, words m -> lim1 (used m (ent m)) ->
  match grow_loop rmode pp hf oracle n f lf m al c with
  | Ret (u, al', true) => al < al' /\ Inv u /\ Permutation (cont u (ent u)) (cont m (ent m)) /\ nent u = N.of_nat (used u (ent u)) /\ hist u = SMap (view u) :: hist m
  | Ret (u, al', false) => al <= al' /\ u = m
  | Loop => True
  | _ => False
  end.
Proof.
  induction n; intros f lf m al c Wd Lm; simpl; auto. destruct (N.ltb c (cap m)); [split; auto|].
  destruct (oracle al); [|split; auto]. destruct (create_inv lf c) as (C1 & C2 & C3).
  pose proof (rehash_ok f m (slots m) (create lf c) Wd (fun s => proj1 (in_slots m s)) C1) as X. rewrite C2, C3, app_nil_r, Nat.add_0_r in X.
  change (flat_map (fun t => cv pp (ent m t)) (slots m)) with (cont m (ent m)) in X. rewrite len_cont in X. specialize (X Lm eq_refl).
  destruct (rehash rmode pp hf f m (create lf c) (slots m)) as [[u|] | | |]; simpl; auto.
  - destruct X as (X1 & X2 & _ & _ & X3). split; auto. split; [apply Inv_same with (m := u); auto|]. auto.
  - specialize (IHn f lf m (S al) (c * 2 mod 2 ^ 64)%N Wd Lm). destruct (grow_loop rmode pp hf oracle n f lf m (S al) _) as [((u & al') & []) | | |]; auto.
    + destruct IHn as (L & R). split; auto. lia.
    + destruct IHn as (L & R). split; auto. lia.
Qed.
Lemma grow_ok : forall f lf m al c, words m -> lim1 (used m (ent m)) ->
  match grow rmode pp hf oracle f lf m al c with
  | Ret (u, al', true) => al < al' /\ Inv u /\ Permutation (cont u (ent u)) (cont m (ent m)) /\ nent u = N.of_nat (used u (ent u)) /\ hist u = SMap (view u) :: hist m
  | Ret (u, al', false) => al <= al' /\ u = m
  | Loop => True
  | _ => False
  end.
Proof. intros. apply grow_loop_ok; auto. Qed.

Lemma grow_loop_S : forall n f lf m al c, grow_loop rmode pp hf oracle (S n) f lf m al c =
  if N.ltb c (cap m) then Ret (m, al, false)
  else if oracle al then
    bind (rehash rmode pp hf f m (create lf c) (slots m)) (fun r =>
    match r with Some u => Ret (publish m u, S al, true) | None => grow_loop rmode pp hf oracle n f lf m (S al) (c * 2 mod 2 ^ 64)%N end)
  else Ret (m, S al, false).
Proof. reflexivity. Qed.
Lemma grow_loop_mono : forall n f lf m al c u al' b, grow_loop rmode pp hf oracle n f lf m al c = Ret (u, al', b) -> al <= al'.
Proof.
  induction n; intros f lf m al c u al' b H; [discriminate|]. rewrite grow_loop_S in H. destruct (N.ltb c (cap m)); [inversion H; auto|].
  destruct (oracle al); [|inversion H; auto]. destruct (rehash rmode pp hf f m (create lf c) (slots m)) as [[u1|] | | |]; cbn [bind] in H; try discriminate.
  - inversion H; auto.
  - apply IHn in H. lia.
Qed.
Lemma grow_loop_failed : forall n f lf m al e u al', (e < 64)%N -> (cap m <= 2 ^ e)%N ->
  grow_loop rmode pp hf oracle n f lf m al (2 ^ e) = Ret (u, al', false) -> (exists j, al <= j < al' /\ oracle j = false) \/ al + (64 - N.to_nat e) <= al'.
Proof.
  induction n; intros f lf m al e u al' E C H; [discriminate|]. rewrite grow_loop_S in H.
  rewrite (proj2 (N.ltb_ge _ _) C) in H. destruct (oracle al) eqn:O.
  2: { inversion H; subst. left. exists al. split; auto. }
  destruct (rehash rmode pp hf f m (create lf (2 ^ e)) (slots m)) as [[u1|] | | |]; cbn [bind] in H; try discriminate.
  destruct (N.eq_dec e 63) as [X | X].
  - right. apply grow_loop_mono in H. subst e. change (N.to_nat 63) with 63. lia.
  - replace ((2 ^ e * 2) mod 2 ^ 64)%N with (2 ^ (e + 1))%N in H.
    + apply IHn in H; [|lia|].
      * destruct H as [(j & J & OJ) | H]; [left; exists j; split; auto; lia | right; lia].
      * rewrite N.pow_add_r. change (2 ^ 1)%N with 2%N. lia.
    + rewrite N.pow_add_r. change (2 ^ 1)%N with 2%N. rewrite N.mod_small; auto.
      replace (2 ^ e * 2)%N with (2 ^ (N.succ e))%N by (rewrite N.pow_succ_r'; lia). apply N.pow_lt_mono_r; lia.
Qed.
Lemma grow2_failed : forall f lf m al u al', wf m -> grow rmode pp hf oracle f lf m al (cap m * 2) = Ret (u, al', false) -> failed oracle al al'.
Proof.
  intros f lf m al u al' ((k & K & E) & _) H. unfold grow in H. rewrite E in H.
  replace (2 ^ k * 2)%N with (2 ^ (k + 1))%N in H by (rewrite N.pow_add_r; reflexivity).
  apply grow_loop_failed in H; [|lia|].
  - destruct H as [H | H]; [left; auto | right; lia].
  - rewrite E. apply N.pow_le_mono_r; lia.
Qed.
End G.
