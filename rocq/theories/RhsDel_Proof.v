(** Robin Hood hash set: deletion by shifting backwards. *)
From Coq Require Import Arith NArith List Bool Permutation Lia.
From Verif Require Import Lib Helpers_Model Rhs_Model Rhs_Spec Rhs_Proof RhsInv_Proof RhsProbe_Proof RhsGrow_Proof RhsWant_Proof RhsTr_Proof RhsRh_Proof.
Import ListNotations.

Section D.
Variables (rmode pp : bool) (hf : N -> N) (cmp : option (N -> N -> bool)).
Notation pi := (pi rmode).
Notation home := (home rmode).
Notation valid := (valid pp).
Notation marshal := (marshal pp).
Notation val := (val pp).
Notation bound_get := (bound_get rmode).
Notation inv := (inv rmode pp hf).
Notation Inv := (Inv rmode pp hf).
Notation Wok := (Wok rmode).
Notation bk := (bk rmode).
Notation occ := (occ rmode).
Notation cont := (cont pp).
Notation raised := (raised rmode).
Notation good := (good rmode pp hf).
Notation Tr := (Tr rmode pp hf cmp).

(** ** The search for an entry that would rather be in a slot *)
Lemma succ_in_sound : forall f m g p off p', succ_in rmode f m (pi m g p) p = Some (off, p') -> off = pi m g p' /\ p <= p' < pmax m /\ prb m off = S p'.
Proof.
  induction f; intros m g p off p' H; [discriminate|]. cbn [succ_in] in H. destruct (Nat.ltb_spec p (pmax m)); [|discriminate].
  destruct (Nat.eqb_spec (prb m (pi m g p)) (S p)) as [E | E].
  - inversion H; subst. auto.
  - change (next rmode m (pi m g p) (S p)) with (pi m g (S p)) in H. apply IHf in H. intuition lia.
Qed.
Lemma succ_in_complete : forall f m g p q, p <= q < pmax m -> prb m (pi m g q) = S q -> q - p < f -> succ_in rmode f m (pi m g p) p <> None.
Proof.
  induction f; intros m g p q Q E F; [lia|]. cbn [succ_in]. destruct (Nat.ltb_spec p (pmax m)); [|lia].
  destruct (Nat.eqb_spec (prb m (pi m g p)) (S p)) as [E2 | E2]; [discriminate|].
  change (next rmode m (pi m g p) (S p)) with (pi m g (S p)). apply (IHf m g (S p) q); auto; try lia.
  - destruct (Nat.eq_dec p q); [subst; congruence | lia].
  - destruct (Nat.eq_dec p q); [subst; congruence | lia].
Qed.
Lemma succ_out_sound : forall f m slot wp w off p, wf m -> (slot < cap m)%N -> 1 <= wp -> succ_out rmode f m slot wp = Some (w, off, p) ->
  exists a g, w = S a /\ slot = pi m g a /\ off = pi m g p /\ a < p < pmax m /\ prb m off = S p.
Proof.
  induction f; intros m slot wp w off p W Hs H1 H; [discriminate|]. cbn [succ_out] in H. destruct (Nat.ltb_spec wp (pmax m)); [|discriminate].
  destruct wp as [|a]; [lia|]. set (g := home m slot a).
  assert (Eg : pi m g a = slot) by (apply pi_home; auto).
  assert (En : next rmode m slot (S a) = pi m g (S a)) by (rewrite <- Eg; reflexivity). rewrite En in H.
  destruct (succ_in rmode (S (pmax m)) m (pi m g (S a)) (S a)) as [(off', p')|] eqn:E.
  - injection H as <- <- <-. apply succ_in_sound in E. destruct E as (E1 & E2 & E3). exists a, g. repeat (split; auto); lia.
  - apply IHf in H; auto.
Qed.
Lemma succ_out_complete : forall f m slot wp a q g, wf m -> slot = pi m g a -> a < q < pmax m -> prb m (pi m g q) = S q -> 1 <= wp <= S a -> S a - wp < f ->
  succ_out rmode f m slot wp <> None.
Proof.
  induction f; intros m slot wp a q g W Hs Q E Hw F; [lia|]. cbn [succ_out]. destruct (Nat.ltb_spec wp (pmax m)); [|lia].
  destruct (Nat.eq_dec wp (S a)) as [-> | D].
  - assert (En : next rmode m slot (S a) = pi m g (S a)) by (rewrite Hs; reflexivity). rewrite En.
    pose proof (succ_in_complete (S (pmax m)) m g (S a) q ltac:(lia) E ltac:(lia)) as X.
    destruct (succ_in rmode (S (pmax m)) m (pi m g (S a)) (S a)) as [(o, p)|]; [discriminate | congruence].
  - destruct (succ_in rmode (S (pmax m)) m (next rmode m slot wp) wp) as [(o, p)|]; [discriminate|]. apply (IHf m slot (S wp) a q g); auto; lia.
Qed.

(** ** Lowering a bound *)
Lemma inv_lower : forall e m X h v, inv e m X -> v <= plim m -> v < 255 ->
  (rmode = false -> forall t k i, (t < cap m)%N -> e t <> 0%N -> ~ X t -> prb m t = S i -> t = pi m (hf k) i -> (hf k mod cap m = h)%N -> i < nc m -> S i <= v) ->
  inv e (set_bnd m h v) X.
Proof.
  intros e m X h v I Pl V H. destruct I as [W Z G B M]. constructor; auto.
  - intros s Hs E NX. destruct (G s Hs E NX) as (k & i & A & Vk & P & L & EQ & Pa & Bg & Pm). exists k, i. 
    assert (C : forall j, pi (set_bnd m h v) (hf k) j = pi m (hf k) j) by (intros; apply pi_cap; auto).
    change (prb (set_bnd m h v) s) with (prb m s). change (nc (set_bnd m h v)) with (nc m). rewrite C. repeat (split; [auto; fail|]). split; [intros j J; rewrite C; auto|]. split; [|auto].
    unfold Rhs_Model.bound_get in *. destruct rmode eqn:Rm; [exact Pm|]. change (cap (set_bnd m h v)) with (cap m). rewrite bnd_set. unfold updN.
    destruct (N.eqb_spec (hf k mod cap m) h) as [Eh | Eh]; [|exact Bg]. unfold WORD_MAX. destruct (Nat.eqb_spec v 255); [lia|]. apply (H eq_refl s k i); auto.
  - intros Rm s. rewrite bnd_set. unfold updN. destruct (N.eqb s h); auto.
Qed.

Lemma occ_first : forall m h i, wf m -> 0 < i -> 1 <= occ m h (h mod cap m) 0 i.
Proof. intros m h i W L. destruct i; [lia|]. simpl. rewrite N.eqb_refl. lia. Qed.

(** a deletion that began in slot [s0] of [ms] *)
Section E.
Variables (ms : rmap) (s0 : N).
Record del (A : list N) (m : rmap) (slot h : N) : Prop := mkdel {
  l_lt : (slot < cap m)%N; l_nz : ent m slot <> 0%N;
  l_idx : exists g i, prb m slot = S i /\ i < nc m /\ slot = pi m g i /\ h = (g mod cap m)%N /\ S i <= plim m;
  l_inv : inv (ent m) m (eq slot);
  l_W : Wok m (updN (prb m) slot 0);
  l_perm : Permutation (cont m (updN (ent m) slot 0%N)) A;
  l_tr : Tr (nat_ s0) (nat_ slot) A ms m }.

Lemma del_prb : forall A m slot h t, del A m slot h -> (t < cap m)%N -> updN (prb m) slot 0 t <= nc m /\ (0 < updN (prb m) slot 0 t -> updN (ent m) slot 0%N t <> 0%N).
Proof.
  intros A m slot h t D T. unfold updN. destruct (N.eqb_spec t slot) as [-> | Ne]; [lia|].
  destruct (inv_prb rmode pp hf (ent m) m _ t (l_inv _ _ _ _ D) T) as (X & _ & Y); auto.
Qed.
Definition fields (m m' : rmap) : Prop := cap m' = cap m /\ plim m' = plim m /\ maxe m' = maxe m /\ nent m' = nent m.

Lemma bsd_end_ok : forall A m slot h, del A m slot h -> wnt m slot = 0%N ->
  Inv (bsd_end m slot h) /\ Permutation (cont (bsd_end m slot h) (ent (bsd_end m slot h))) A /\ fields m (bsd_end m slot h) /\ Tr (nat_ s0) any A ms (bsd_end m slot h).
Proof.
  intros A m slot h D Wz. destruct D as [Lt Nz (g & i & P & L & EQ & Eh & Pl) Iv HW Pm Td]. pose proof (i_wf _ _ _ _ _ _ Iv) as W.
  (* nobody passes the slot *)
  assert (NP : forall t k q, (t < cap m)%N -> t <> slot -> prb m t = S q -> t = pi m (hf k) q -> q < nc m -> forall j, j < q -> pi m (hf k) j <> slot).
  { intros t k q T Ne Pt Et Lq j J E. specialize (HW slot Lt). rewrite Wz in HW. pose proof (nsum_ge (slots m) (fun t => bk m t (updN (prb m) slot 0 t) slot) t (proj2 (in_slots m t) T)) as X.
    cbv beta in X. rewrite updN_other, Pt in X by auto. rewrite Et, bk_pi in X by auto. pose proof (occ_at rmode m (hf k) slot q 0 j ltac:(lia) E). lia. }
  (* storing the empty word *)
  set (m1 := set_prb (set_ent m slot 0) slot 0).
  assert (Ee : forall t, ent m1 t = updN (ent m) slot 0%N t) by (intros; exact (ent_set m slot 0%N t)).
  assert (Ep : forall t, prb m1 t = updN (prb m) slot 0 t) by (intros; exact (prb_set m slot 0 t)).
  assert (Epi : forall g j, pi m1 g j = pi m g j) by (intros; apply pi_cap; auto).
  assert (I1 : inv (ent m1) m1 none).
  { constructor; auto.
    - intros s Hs E. rewrite Ee in E. rewrite Ep. unfold updN in *. destruct (N.eqb_spec s slot); auto. apply (i_zero _ _ _ _ _ _ Iv); auto.
    - intros s Hs E _. rewrite Ee in E. change (cap m1) with (cap m) in Hs. assert (Ne : s <> slot) by (intros ->; rewrite updN_same in E; congruence).
      rewrite updN_other in E by auto. destruct (i_good _ _ _ _ _ _ Iv s Hs E) as (k & q & A1 & V & P1 & L1 & EQ1 & Pa & Bg & Pm1); auto.
      exists k, q. rewrite Ee, Ep, !updN_other by auto. rewrite Epi. repeat (split; [auto; fail|]). split; [|auto].
      intros j J. rewrite Ee, Epi, updN_other; auto. apply (NP s k q); auto.
    - exact (i_bnd _ _ _ _ _ _ Iv).
    - exact (i_max _ _ _ _ _ _ Iv). }
  assert (W1 : Wok m1 (prb m1)) by (apply Wok_ext with (m := m) (P := updN (prb m) slot 0); auto).
  assert (C1 : cont m1 (ent m1) = cont m (updN (ent m) slot 0%N)) by (apply cont_cap; auto).
  assert (E : bsd_end m slot h = m1 \/ bsd_end m slot h = set_bnd m1 h i /\ i < 255).
  { unfold bsd_end. change (prb (set_ent m slot 0) slot) with (prb m slot). rewrite P. destruct (Nat.ltb_spec i WORD_MAX) as [X | X]; unfold WORD_MAX in X; auto. }
  assert (T1 : Tr (nat_ s0) (nat_ slot) A ms m1).
  { eapply Tr_trans; [exact Td|]. apply Tr_inv with (Z := none) (u := m1) (s := SEnt slot 0%N); auto.
    - left. auto.
    - intros z t Nt. rewrite Ee, updN_other by auto. split; auto. }
  destruct E as [-> | (-> & Li)].
  - split; [split; auto|]. rewrite C1. split; auto. split; [repeat split|]. eapply Tr_weak; [exact T1 | auto | exact (fun _ _ _ => I) | apply incl_refl].
  - assert (I2 : inv (ent (set_bnd m1 h i)) (set_bnd m1 h i) none).
    { apply inv_lower; auto; [simpl; lia|]. intros Rm t k q T E _ P1 E1 Eh1 L1. change (cap m1) with (cap m) in *. change (nc m1) with (nc m) in *. rewrite Epi in E1.
      rewrite Ep in P1. assert (Ne : t <> slot) by (intros ->; rewrite updN_same in P1; discriminate). rewrite updN_other in P1 by auto.
      assert (Eg : forall j, pi m (hf k) j = pi m g j) by (intros; apply pi_hash; congruence).
      destruct (Nat.lt_trichotomy q i) as [X | [X | X]]; [lia | |].
      * exfalso. subst q. apply Ne. rewrite E1, Eg. auto.
      * exfalso. apply (NP t k q T Ne P1 E1 L1 i X). rewrite Eg. auto. }
    split; [split; auto; apply Wok_ext with (m := m1) (P := prb m1); auto|].
    change (cont (set_bnd m1 h i) (ent (set_bnd m1 h i))) with (cont m1 (ent m1)). rewrite C1. split; auto. split; [repeat split|].
    eapply Tr_trans; [exact T1|]. apply Tr_weak with (X := nat_ slot) (Y := nat_ slot) (B := A); auto using incl_refl; [|exact (fun _ _ _ => I)].
    apply Tr_inv with (Z := none) (u := set_bnd m1 h i) (s := SBnd h i); auto. exact I.
Qed.

Lemma new_bound_cases : forall m h off wp p, prb m off = S p -> (rmode = false -> bnd m h < 255) ->
  new_bound rmode m h off wp p = m \/ new_bound rmode m h off wp p = set_bnd m h wp /\ wp < 255 /\ (rmode = false -> wnt m h = 1%N).
Proof.
  intros m h off wp p P B. unfold new_bound, WORD_MAX. destruct (Nat.ltb_spec wp 255) as [X | X]; auto.
  destruct (N.eqb_spec (wnt m h) 1) as [Y | Y]; [auto|]. destruct rmode eqn:Rm.
  - destruct (Nat.eqb (bnd m h) 255 || _); auto. cbv zeta. destruct (Nat.eqb _ _); auto. right. split; auto. split; auto. discriminate.
  - specialize (B eq_refl). destruct (Nat.eqb_spec (bnd m h) 255); [lia|]. cbn [orb]. rewrite P. destruct (Nat.eqb_spec (bnd m h) (S p)) as [E | E]; auto.
    cbv zeta. rewrite E. replace (S p - 1) with p by lia. cbn [bound_scan]. destruct (Nat.ltb_spec (S p) p); [lia|]. destruct (Nat.eqb_spec (S p) p); [lia|]. auto.
Qed.

Lemma bsd_step : forall A m slot h wp off p, del A m slot h -> length A <= 600 -> succ_out rmode (pmax m) m slot 1 = Some (wp, off, p) ->
  let m1 := set_prb m slot wp in
  exists m2 h', remove_wanted rmode m1 off (Some slot) = (m2, h') /\
    let m3 := new_bound rmode (bump (set_ent m2 slot (ent m2 off)) h') h' off wp p in
    let m4 := if N.ltb (wnt m3 slot) MAX_WANTED then set_wnt m3 slot (wnt m3 slot - 1) else m3 in
    del A m4 off h' /\ fields m m4.
Proof.
  intros A m slot h wp off p D LA Sc m1. pose proof (fun t => del_prb A m slot h t D) as DP.
  destruct D as [Lt Nz (g & i & P & L & EQ & Eh & Pl) Iv HW Pm Td]. pose proof (i_wf _ _ _ _ _ _ Iv) as W.
  apply succ_out_sound in Sc; auto. destruct Sc as (a & g1 & -> & Sa & So & Sp & Pp).
  pose proof (i_max _ _ _ _ _ _ Iv) as Mx.
  assert (Lo : (off < cap m)%N) by (rewrite So; apply pi_lt; auto).
  assert (Ne : off <> slot).
  { intros E. assert (p = i) by congruence. subst i. rewrite So, Sa in E. apply pi_inj in E; auto; lia. }
  assert (Zo : ent m off <> 0%N) by (intros E; rewrite (i_zero _ _ _ _ _ _ Iv off Lo E) in Pp; discriminate).
  destruct (i_good _ _ _ _ _ _ Iv off Lo Zo) as (k & q & A1 & V & P1 & Lq & EQ1 & Pa & Bg & Pm1); auto.
  assert (q = p) by congruence. subst q. clear P1.
  assert (Ek : pi m (hf k) a = slot). { rewrite Sa. apply (pi_meet rmode m (hf k) g1 p a); auto; [lia | congruence]. }
  assert (Epi : forall mm, cap mm = cap m -> forall g j, pi mm g j = pi m g j) by (intros; apply pi_cap; auto).
  assert (Wlt : forall t, (t < cap m)%N -> (wnt m t < 65535)%N).
  { apply (Wok_lt rmode m (updN (prb m) slot 0) (updN (ent m) slot 0%N)); auto. rewrite <- (len_cont pp), Pm. auto. }
  assert (Ep1 : forall t, prb m1 t = updN (prb m) slot (S a) t) by (intros; exact (prb_set m slot (S a) t)).
  destruct (remove_wanted_ok rmode m1 (hf k) (S a) (Some slot) p) as (w' & E1 & E2); auto.
  { rewrite (Epi m1) by auto. rewrite <- EQ1, Ep1, updN_other; auto. }
  { right. exists a. rewrite (Epi m1) by auto. rewrite Ek. repeat split; auto. lia. }
  { intros j J. rewrite (Epi m1) by auto. change (wnt m1) with (wnt m). assert (Lj : (pi m (hf k) j < cap m)%N) by (apply pi_lt; auto). split; [|apply Wlt; auto].
    specialize (HW _ Lj). pose proof (nsum_ge (slots m) (fun t => bk m t (updN (prb m) slot 0 t) (pi m (hf k) j)) off (proj2 (in_slots m off) Lo)) as X.
    cbv beta in X. rewrite updN_other, Pp in X by auto. rewrite EQ1, bk_pi in X at 1 by auto. pose proof (occ_at rmode m (hf k) (pi m (hf k) j) p 0 j ltac:(lia) eq_refl). lia. }
  rewrite (Epi m1), <- EQ1 in E1 by auto. exists (setw m1 w'), (hf k mod cap m)%N. split; [exact E1|]. cbv zeta.
  set (h' := (hf k mod cap m)%N). set (m2 := bump (set_ent (setw m1 w') slot (ent (setw m1 w') off)) h').
  assert (Ee2 : forall t, ent m2 t = updN (ent m) slot (marshal k (hf k)) t) by (intros t; rewrite <- A1; exact (ent_set m slot (ent m off) t)).
  assert (Ra2 : raised m m2) by (apply raised_same; auto).
  assert (I2 : inv (ent m2) m2 (eq off)).
  { apply inv_ext with (e := updN (ent m) slot (marshal k (hf k))); [|intros; auto].
    apply inv_store with (m := m) (X := eq slot) (i := a); auto; try (rewrite ?Ek; auto).
    - intros t T Dt. change (prb m1 t = prb m t). rewrite Ep1, updN_other; auto.
    - change (prb m1 slot = S a). rewrite Ep1, updN_same. auto.
    - lia.
    - intros j J. apply Pa. lia.
    - change (bound_get m2 (hf k)) with (bound_get m (hf k)). lia.
    - change (pmax m2) with (pmax m). lia. }
  assert (Ba : S a <= bound_get m (hf k) /\ S a <= pmax m) by lia.
  assert (T2 : Tr (nat_ s0) (nat_ off) A ms m2).
  { eapply Tr_trans; [exact Td|]. apply Tr_move with (d := k) (i := a); auto; try (intuition fail).
    - unfold m2. change (ent (setw m1 w') off) with (ent m off). rewrite A1. reflexivity.
    - unfold m2. change (ent (setw m1 w') off) with (ent m off). rewrite A1. reflexivity.
    - rewrite <- Pm. apply (cont_in pp hf). exists off. rewrite updN_other by auto. split; auto. split; auto. rewrite A1. apply val_marshal; auto.
    - lia.
    - intros j J. apply Pa. lia. }
  (* the counters *)
  set (P' := updN (updN (prb m) slot (S a)) off 0).
  assert (Y : forall s, (s < cap m)%N -> N.to_nat (wnt m2 s) = nsum (slots m) (fun t => bk m t (P' t) s) + (if N.eqb slot s then 1 else 0)).
  { intros s Hs. specialize (E2 s Hs). change (wnt m2 s) with (wnt (setw m1 w') s). change (wnt m1 s) with (wnt m s) in E2. rewrite (HW s Hs) in E2.
    rewrite (occ_cap rmode m m1) in E2 by auto.
    pose proof (Wupd rmode m (updN (prb m) slot (S a)) off 0 s Lo) as Y1. rewrite updN_other, Pp in Y1 by auto. change (bk m off 0 s) with 0 in Y1. fold P' in Y1.
    pose proof (Wupd rmode m (updN (prb m) slot 0) slot (S a) s Lt) as Y2. rewrite updN_same in Y2. change (bk m slot 0 s) with 0 in Y2.
    rewrite (nsum_ext (slots m) (fun t => bk m t (updN (updN (prb m) slot 0) slot (S a) t) s) (fun t => bk m t (updN (prb m) slot (S a) t) s)) in Y2 by (intros t _; unfold updN; destruct (N.eqb t slot); auto).
    assert (Y3 : bk m off (S p) s = occ m (hf k) s 0 p) by (rewrite EQ1; apply bk_pi; auto).
    assert (Y4 : bk m slot (S a) s = occ m (hf k) s 0 a) by (rewrite <- Ek; apply bk_pi; auto).
    pose proof (occ_split rmode m (hf k) s a p ltac:(lia)) as Y5. 
    assert (Y6 : occ m (hf k) s a (p - a) = (if N.eqb slot s then 1 else 0) + occ m (hf k) s (S a) (p - S a)).
    { replace (p - a) with (S (p - S a)) by lia. simpl. rewrite Ek. auto. }
    lia. }
  (* the bound *)
  set (m3 := new_bound rmode m2 h' off (S a) p).
  assert (Pp2 : prb m2 off = S p) by (change (prb m1 off = S p); rewrite Ep1, updN_other; auto).
  assert (N3 : (m3 = m2 \/ exists v, m3 = set_bnd m2 h' v) /\ inv (ent m3) m3 (eq off) /\ Tr (nat_ s0) (nat_ off) A ms m3).
  { unfold m3. destruct (new_bound_cases m2 h' off (S a) p Pp2) as [-> | (-> & La & W1)]; auto.
    { intros Rm. apply (i_bnd _ _ _ _ _ _ Iv Rm). }
    assert (I3 : inv (ent (set_bnd m2 h' (S a))) (set_bnd m2 h' (S a)) (eq off)).
    2: { split; [right; eauto|]. split; auto. eapply Tr_trans; [exact T2|]. apply Tr_inv with (Z := eq off) (u := set_bnd m2 h' (S a)) (s := SBnd h' (S a)); auto; exact I. }
    apply inv_lower; auto; [change (plim m2) with (plim m); lia|].
    intros Rm t k' q' T Zt Xt Pt Et Eh' Lq'. change (cap m2) with (cap m) in *. change (nc m2) with (nc m) in *. rewrite (Epi m2) in Et by auto.
    destruct (N.eq_dec t slot) as [-> | Nt].
    { change (prb m2 slot) with (prb m1 slot) in Pt. rewrite Ep1, updN_same in Pt. lia. }
    change (prb m2 t) with (prb m1 t) in Pt. rewrite Ep1, updN_other in Pt by auto.
    destruct q' as [|q']; [lia|]. exfalso.
    assert (Lh : (h' < cap m)%N) by (apply N.mod_lt; pose proof (wf_pos m W); lia).
    specialize (W1 Rm). specialize (Y h' Lh). rewrite W1 in Y. change (N.to_nat 1) with 1 in Y.
    assert (B1 : 1 <= bk m t (P' t) h').
    { unfold P'. rewrite !updN_other by auto. rewrite Pt, Et, bk_pi by auto. rewrite <- Eh'. apply occ_first; auto. lia. }
    destruct a as [|a].
    - simpl in Ek. unfold h' in Y at 2. rewrite Ek in Y. rewrite N.eqb_refl in Y.
      pose proof (nsum_ge (slots m) (fun t => bk m t (P' t) h') t (proj2 (in_slots m t) T)) as X. cbv beta in X. lia.
    - assert (B2 : 1 <= bk m slot (P' slot) h').
      { unfold P'. rewrite updN_other, updN_same by auto. rewrite <- Ek, bk_pi by auto. apply occ_first; auto. lia. }
      pose proof (nsum_ge2 (slots m) (fun t => bk m t (P' t) h') t slot (nodup_slots m) (proj2 (in_slots m t) T) (proj2 (in_slots m slot) Lt) Nt) as X. cbv beta in X.
      destruct (N.eqb slot h'); lia. }
  fold m3. destruct N3 as (N3 & I3 & T3).
  assert (F3 : cap m3 = cap m /\ plim m3 = plim m /\ maxe m3 = maxe m /\ nent m3 = nent m /\ a_ent m3 = a_ent m2 /\ a_prb m3 = a_prb m2 /\ a_wnt m3 = a_wnt m2).
  { destruct N3 as [-> | (v & ->)]; repeat split. }
  destruct F3 as (F1 & F2 & F3 & F4 & F5 & F6 & F7).
  assert (Ee3 : forall t, ent m3 t = ent m2 t) by (intros; unfold ent; rewrite F5; auto).
  assert (Ep3 : forall t, prb m3 t = prb m1 t) by (intros; unfold prb; rewrite F6; auto).
  assert (Ew3 : forall t, wnt m3 t = wnt m2 t) by (intros; unfold wnt; rewrite F7; auto).
  assert (Y3 : N.to_nat (wnt m3 slot) = S (nsum (slots m) (fun t => bk m t (P' t) slot))) by (rewrite Ew3, (Y slot Lt), N.eqb_refl; lia).
  assert (Wm : (wnt m3 slot <= wnt m slot)%N).
  { specialize (E2 slot Lt). rewrite Ew3. change (wnt m2 slot) with (wnt (setw m1 w') slot). change (wnt m1 slot) with (wnt m slot) in E2. lia. }
  destruct (N.ltb_spec (wnt m3 slot) MAX_WANTED) as [_ | X]; [|specialize (Wlt slot Lt); unfold MAX_WANTED in X; lia].
  set (m4 := set_wnt m3 slot (wnt m3 slot - 1)).
  assert (Ew4 : forall t, wnt m4 t = updN (wnt m3) slot (wnt m3 slot - 1)%N t) by (intros; apply wnt_set).
  split; [|repeat split; auto].
  constructor.
  - change (cap m4) with (cap m3). rewrite F1. auto.
  - change (ent m4 off) with (ent m3 off). rewrite Ee3, Ee2, updN_other by auto. auto.
  - exists (hf k), p. change (prb m4 off) with (prb m3 off). rewrite Ep3, Ep1, updN_other by auto. unfold nc. change (cap m4) with (cap m3). change (plim m4) with (plim m3).
    rewrite F1, F2, (Epi m4) by auto. repeat (split; auto). lia.
  - apply inv_raised with (m := m3); auto. apply raised_same; auto.
  - intros s Hs. change (cap m4) with (cap m3) in Hs. rewrite F1 in Hs. rewrite (slots_cap m m4) by auto.
    rewrite (nsum_ext _ (fun t => bk m4 t (updN (prb m4) off 0 t) s) (fun t => bk m t (P' t) s)).
    2: { intros t _. rewrite (bk_cap rmode m m4) by auto. unfold P'. unfold updN at 1 2. destruct (N.eqb t off); auto. change (prb m4 t) with (prb m3 t). rewrite Ep3, Ep1. auto. }
    rewrite Ew4. unfold updN. rewrite (N.eqb_sym s slot). specialize (Y s Hs). rewrite <- Ew3 in Y. destruct (N.eqb_spec slot s) as [<- | Ds]; lia.
  - rewrite <- Pm. rewrite (cont_cap pp m m4 (updN (updN (ent m) slot (marshal k (hf k))) off 0%N)); auto.
    2: { intros t T. unfold updN at 1 2. destruct (N.eqb t off); auto. change (ent m4 t) with (ent m3 t). rewrite Ee3. apply Ee2. }
    pose proof (cont_upd pp hf m (updN (ent m) slot (marshal k (hf k))) off 0%N Lo) as Y1. rewrite updN_other, A1 in Y1 by auto.
    pose proof (cont_upd pp hf m (updN (ent m) slot 0%N) slot (marshal k (hf k)) Lt) as Y2. rewrite updN_same in Y2.
    change (cv pp 0%N) with (@nil N) in Y1, Y2. cbn [app] in Y1, Y2.
    apply (Permutation_app_inv_l (cv pp (marshal k (hf k)))). rewrite Y1, <- Y2.
    rewrite (cont_ext pp m (updN (updN (ent m) slot 0%N) slot (marshal k (hf k))) (updN (ent m) slot (marshal k (hf k)))); auto.
    intros t _. unfold updN. destruct (N.eqb t slot); auto.
  - eapply Tr_trans; [exact T3|]. apply Tr_same; auto.
Qed.

Definition del_post (A : list N) (m : rmap) (x : out rmap) : Prop :=
  match x with Ret m' => Inv m' /\ Permutation (cont m' (ent m')) A /\ fields m m' /\ Tr (nat_ s0) any A ms m' | Loop => True | _ => False end.
Lemma bsd_loop_ok : forall f A m slot h, del A m slot h -> length A <= 600 -> del_post A m (bsd_loop rmode f m slot h).
Proof.
  induction f; intros A m slot h D LA; [exact I|]. cbn [bsd_loop]. destruct (N.eqb_spec (wnt m slot) 0) as [Z | Z].
  { apply bsd_end_ok; auto. }
  destruct (succ_out rmode (pmax m) m slot 1) as [((wp, off), p)|] eqn:Sc.
  - destruct (bsd_step A m slot h wp off p D LA Sc) as (m2 & h' & E & D' & F'). rewrite E. cbv zeta in D'.
    specialize (IHf A _ off h' D' LA). cbv zeta. revert IHf. unfold del_post. destruct (bsd_loop rmode f _ off h'); auto. intros (X1 & X2 & X3 & X4). split; auto. split; auto. split; auto.
    destruct F' as (A1 & A2 & A3 & A4). destruct X3 as (B1 & B2 & B3 & B4). repeat split; congruence.
  - exfalso. destruct D as [Lt Nz (g & i & P & L & EQ & Eh & Pl) Iv HW Pm Td]. pose proof (i_wf _ _ _ _ _ _ Iv) as W.
    specialize (HW slot Lt). assert (X : 0 < nsum (slots m) (fun t => bk m t (updN (prb m) slot 0 t) slot)) by lia.
    apply nsum_pos in X. destruct X as (t & T & X). apply in_slots in T.
    assert (Ne : t <> slot) by (intros ->; rewrite updN_same in X; simpl in X; lia). rewrite updN_other in X by auto.
    assert (Zt : ent m t <> 0%N) by (intros E; rewrite (i_zero _ _ _ _ _ _ Iv t T E) in X; simpl in X; lia).
    destruct (i_good _ _ _ _ _ _ Iv t T Zt) as (k & q & A1 & V & P1 & Lq & EQ1 & Pa & Bg & Pm1); auto.
    rewrite P1, EQ1, bk_pi in X by auto. apply occ_pos in X. destruct X as (a & La & Ea).
    apply (succ_out_complete (pmax m) m slot 1 a q (hf k)); auto; try lia. congruence.
Qed.
End E.
Lemma shift_delete_ok : forall f m slot, Inv m -> used m (ent m) <= 600 -> (slot < cap m)%N -> ent m slot <> 0%N ->
  del_post m slot (cont m (updN (ent m) slot 0%N)) m (shift_delete rmode f m slot).
Proof.
  intros f m slot (Iv & HW) U Lt Nz. pose proof (i_wf _ _ _ _ _ _ Iv) as W. pose proof (i_max _ _ _ _ _ _ Iv) as Mx.
  destruct (i_good _ _ _ _ _ _ Iv slot Lt Nz (fun x => x)) as (k & i & A1 & V & P & L & EQ & Pa & Bg & Pm). unfold shift_delete.
  assert (HP : forall t, (t < cap m)%N -> prb m t <= nc m /\ (0 < prb m t -> ent m t <> 0%N)).
  { intros t T. destruct (inv_prb rmode pp hf (ent m) m none t Iv T (fun x => x)) as (X1 & _ & X3). auto. }
  destruct (remove_wanted_ok rmode m (hf k) 0 None i) as (w' & E1 & E2); auto.
  { rewrite <- EQ. auto. }
  { intros j J. assert (Lj : (pi m (hf k) j < cap m)%N) by (apply pi_lt; auto). split; [|apply (Wok_lt rmode m (prb m) (ent m)); auto].
    specialize (HW _ Lj). pose proof (nsum_ge (slots m) (fun t => bk m t (prb m t) (pi m (hf k) j)) slot (proj2 (in_slots m slot) Lt)) as X.
    cbv beta in X. rewrite P in X. rewrite EQ, bk_pi in X at 1 by auto. pose proof (occ_at rmode m (hf k) (pi m (hf k) j) i 0 j ltac:(lia) eq_refl). lia. }
  rewrite <- EQ in E1. rewrite E1. set (m1 := setw m w').
  assert (D : del m slot (cont m (updN (ent m) slot 0%N)) m1 slot (hf k mod cap m)%N).
  { constructor; auto.
    - exists (hf k), i. rewrite (pi_cap rmode m m1) by auto. repeat (split; auto). change (plim m1) with (plim m). lia.
    - apply inv_more with (m := m) (X := none); auto; [apply raised_same; auto | intros t <-; auto | intros t []].
    - intros s Hs. change (cap m1) with (cap m) in Hs. specialize (E2 s Hs). specialize (HW s Hs). rewrite Nat.sub_0_r in E2. rewrite (slots_cap m m1) by auto. change (wnt m1 s) with (wnt (setw m w') s).
      rewrite (nsum_ext _ (fun t => bk m1 t (updN (prb m1) slot 0 t) s) (fun t => bk m t (updN (prb m) slot 0 t) s)) by (intros; apply bk_cap; auto).
      pose proof (Wupd rmode m (prb m) slot 0 s Lt) as Y1. rewrite P in Y1. change (bk m slot 0 s) with 0 in Y1.
      assert (Y4 : bk m slot (S i) s = occ m (hf k) s 0 i) by (rewrite EQ; apply bk_pi; auto). lia.
    - apply Tr_same; auto. }
  pose proof (bsd_loop_ok m slot f _ m1 slot _ D) as X. lapply X; [auto|].
  rewrite len_cont. unfold used in *. etransitivity; [|exact U]. apply nsum_le. intros t _. unfold updN. destruct (N.eqb t slot); auto. simpl. lia.
Qed.
End D.
