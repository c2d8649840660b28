(** Hash set: lookups concurrent with the writer. *)
From Coq Require Import Arith NArith List Bool Lia Permutation.
From Verif Require Import Lib Obs Helpers_Model Hs_Model Hs_Spec Hs_Proof HsInv_Proof HsOps_Proof HsSet_Proof HsGc_Proof HsConc_Model HsConc_Spec.
Import ListNotations.

Section C.
Variables (dl pp : bool) (hf : N -> N) (cmp : option (N -> N -> bool)) (ub : N -> N -> N) (oracle : nat -> option N).
Notation pi := (pi ub). Notation val := (val pp). Notation valid := (valid pp hf). Notation same := (same cmp).
Notation marshal := (marshal pp). Notation contents := (contents pp). Notation mem := (mem cmp).
Notation Core := (Core dl pp hf ub). Notation wtr := (wtr dl pp hf cmp ub). Notation Inv := (Inv dl pp hf cmp ub).
Notation noempty := (noempty ub). Notation step := (step dl pp hf cmp ub oracle).

Lemma validb_ok : forall k, validb pp hf k = true -> valid k.
Proof.
  intros k H. unfold validb in H. apply andb_prop in H. destruct H as (H & H3). apply andb_prop in H. destruct H as (H1 & H2).
  apply negb_true_iff in H1. apply N.eqb_neq in H1. apply negb_true_iff in H3. apply N.eqb_neq in H3.
  split; [exact H1|split; [|exact H3]].
  intros E. apply orb_prop in H2. rewrite E in H2. destruct H2 as [H2 | H2]; [discriminate H2 | apply N.ltb_lt; exact H2].
Qed.
Lemma preb_ok : forall A o, preb pp hf cmp A o = true -> pre pp hf cmp A o.
Proof.
  intros A o H. destruct o; cbn [preb pre] in *; try exact Logic.I; try (apply validb_ok; exact H).
  - apply andb_prop in H. destruct H as (H1 & H2). split; [apply validb_ok; auto|]. destruct (mem k A); auto; discriminate.
  - apply andb_prop in H. destruct H as (H1 & H2). split; [apply validb_ok; auto|].
    apply orb_prop in H2. destruct H2 as [H2 | H2]; [left; apply N.eqb_eq; auto|].
    apply andb_prop in H2. destruct H2. right. split; auto. apply validb_ok; auto.
Qed.

Variable CT : contract pp hf cmp.

(** ** Keys that a lookup must find *)
(** the key is in a slot other than the doomed one *)
Definition Pres (m : hmap) (k : N) (d : option nat) : Prop :=
  exists s, s < ncap m /\ live (ents m s) = true /\ same (val (ents m s)) k = true /\ d <> Some s.
(** a scan that has passed [n] of [lim] slots will find it *)
Definition Wit (m : hmap) (k : N) (n lim : nat) (d : option nat) : Prop :=
  exists q, n <= q < lim /\ live (ents m (pi m (hf k) q)) = true /\ same (val (ents m (pi m (hf k) q))) k = true /\
            noempty m (hf k) q /\ d <> Some (pi m (hf k) q).
Definition keeps (m m' : hmap) (k : N) (d d' : option nat) : Prop :=
  cap m' = cap m /\ (forall s, ents m s <> 0%N -> ents m' s <> 0%N) /\
  forall s, s < ncap m -> live (ents m s) = true -> same (val (ents m s)) k = true -> d <> Some s ->
    live (ents m' s) = true /\ same (val (ents m' s)) k = true /\ d' <> Some s.
Lemma keeps_wit : forall m m' k n lim d d', wf m -> keeps m m' k d d' -> Wit m k n lim d -> Wit m' k n lim d'.
Proof.
  intros m m' k n lim d d' W (K1 & K2 & K3) (q & Q1 & Q2 & Q3 & Q4 & Q5).
  destruct (K3 _ (pi_lt ub m (hf k) q W) Q2 Q3 Q5) as (A & B & C).
  exists q. rewrite (pi_cap ub m m') by auto. split; auto. split; auto. split; auto. split; auto.
  intros r R. rewrite (pi_cap ub m m') by auto. apply K2, Q4; auto.
Qed.
Lemma keeps_pres : forall m m' k d d', keeps m m' k d d' -> Pres m k d -> Pres m' k d'.
Proof.
  intros m m' k d d' (K1 & K2 & K3) (s & S1 & S2 & S3 & S4). destruct (K3 _ S1 S2 S3 S4) as (A & B & C).
  exists s. unfold ncap. rewrite K1. auto.
Qed.
(** a present key is within the bounds *)
Lemma pres_wit : forall m k d, Core m -> valid k -> Pres m k d ->
  (dl = false -> Wit m k 0 (pmax m) d) /\
  (dl = true -> bnd m (bidx m (hf k)) <> 255 -> Wit m k 0 (bnd m (bidx m (hf k))) d) /\
  (dl = true -> Wit m k 0 (pmax m) d).
Proof.
  intros m k d (W & L & C) V (s & S1 & S2 & S3 & S4). destruct (C s S1 S2) as (V1 & E & q & Q1 & (Q2 & Q2') & Q3).
  assert (EH : hf (val (ents m s)) = hf k) by (apply (c_hash _ _ _ CT); auto). rewrite EH in *.
  assert (G : forall lim, q < lim -> Wit m k 0 lim d).
  { intros lim QL. exists q. rewrite Q1. split; [lia | auto]. }
  split; [|split]; intros; apply G; auto. destruct Q2'; auto. contradiction.
Qed.
Lemma mem_pres : forall m k, mem k (contents m) = true -> Pres m k None.
Proof.
  intros m k M. unfold Hs_Spec.mem in M. apply existsb_exists in M. destruct M as (x & X & S).
  apply in_contents in X. destruct X as (s & S1 & S2 & S3). subst. exists s. split; auto. split; auto. split; auto. discriminate.
Qed.
Lemma mem_perm : forall k A B, Permutation A B -> mem k A = mem k B.
Proof.
  intros k A B P. unfold Hs_Spec.mem. destruct (existsb (fun x => same x k) A) eqn:E; symmetry.
  - apply existsb_exists in E. destruct E as (x & X & S). apply existsb_exists. exists x. rewrite <- P. auto.
  - destruct (existsb (fun x => same x k) B) eqn:F; auto. apply existsb_exists in F. destruct F as (x & X & S).
    rewrite <- E. symmetry. apply existsb_exists. exists x. rewrite P. auto.
Qed.

(** ** The writer in the middle of an operation *)
Inductive ws (A0 A1 : list N) : hmap -> list store -> option nat -> Prop :=
| ws_tr m tr : Core m -> wtr A0 A1 m tr -> ws A0 A1 m tr None
| ws_gen m f s tr : f < ncap m -> s < ncap m -> f <> s -> live (ents m f) = true -> live (ents m s) = true ->
    same (val (ents m s)) (val (ents m f)) = true -> Core m ->
    let p := N.odd (hf (val (ents m f))) in let m2 := app1 (app1 m (SGen p)) (SEnt s TOMB) in
    Core m2 -> wtr A0 A1 m2 tr -> ws A0 A1 m (SGen p :: SEnt s TOMB :: tr) None
| ws_kill m s tr : s < ncap m -> live (ents m s) = true -> Core m -> Core (app1 m (SEnt s TOMB)) -> wtr A0 A1 (app1 m (SEnt s TOMB)) tr ->
    ws A0 A1 m (SEnt s TOMB :: tr) (Some s).
Definition PP (A0 A1 : list N) (m : hmap) (d : option nat) : Prop :=
  forall k, valid k -> mem k A0 = true -> mem k A1 = true -> Pres m k d.
Definition Sub (A0 A1 : list N) (m : hmap) : Prop := forall x, In x (contents m) -> In x (A0 ++ A1).

Lemma ws_core : forall A0 A1 m tr d, ws A0 A1 m tr d -> Core m.
Proof. intros A0 A1 m tr d H. destruct H; auto. Qed.

Lemma sub_ent : forall A0 A1 m s w, s < ncap m -> Sub A0 A1 m -> (live w = true -> In (val w) (A0 ++ A1)) -> Sub A0 A1 (app1 m (SEnt s w)).
Proof.
  intros A0 A1 m s w L S H x X. apply in_contents in X. destruct X as (t & T1 & T2 & T3). simpl in *. unfold upd in *.
  destruct (Nat.eq_dec t s); [subst; auto|]. apply S. apply in_contents. exists t. auto.
Qed.
Lemma core_vs : forall m s, Core m -> s < ncap m -> live (ents m s) = true -> valid (val (ents m s)).
Proof. intros m s (_ & _ & C) L V. apply (C s L V). Qed.

Definition not_map (x : store) : Prop := match x with SMap _ => False | _ => True end.

Lemma keeps_quiet : forall m x k, quiet x -> keeps m (app1 m x) k None None.
Proof.
  intros m x k Q. destruct x; simpl in Q; try contradiction; (split; [reflexivity|split; [auto|]]); intros; simpl; auto.
Qed.
Lemma keeps_ent : forall m s w k d, w <> 0%N ->
  (live (ents m s) = true -> same (val (ents m s)) k = true -> d <> Some s -> live w = true /\ same (val w) k = true) ->
  forall d', (forall t, d <> Some t -> live (ents m t) = true -> same (val (ents m t)) k = true -> d' <> Some t) -> keeps m (app1 m (SEnt s w)) k d d'.
Proof.
  intros m s w k d NZ H d' HD. split; [reflexivity|]. split.
  - intros t T. simpl. upd_goal; auto.
  - intros t T1 T2 T3 T4. simpl. unfold upd. destruct (Nat.eq_dec t s); [subst t|split; auto; split; auto].
    destruct (H T2 T3 T4). auto.
Qed.

Lemma ws_step : forall A0 A1 m x tr d, (forall y, In y A1 -> valid y) -> ws A0 A1 m (x :: tr) d -> PP A0 A1 m d -> Sub A0 A1 m -> not_map x ->
  exists d', let m' := app1 m x in ws A0 A1 m' tr d' /\ PP A0 A1 m' d' /\ Sub A0 A1 m' /\
  forall k, valid k -> mem k A0 = true -> mem k A1 = true -> x = SGen (N.odd (hf k)) \/ keeps m m' k d d'.
Proof.
  intros A0 A1 m x tr d VA H HP HS NM.
  assert (FIN : forall d', (forall k, valid k -> mem k A0 = true -> mem k A1 = true -> keeps m (app1 m x) k d d') -> PP A0 A1 (app1 m x) d').
  { intros d' K k V M0 M1. apply (keeps_pres m _ k d d'); auto. }
  inversion H as [m0 tr0 C W|m0 f s tr0 F1 S1 NE F2 S2 SM C p m2 C2 W|m0 s tr0 S1 S2 C C2 W]; subst.
  - inversion W; subst; simpl in NM; try contradiction.
    + (* quiet *) exists None. intros m'.
      assert (K : forall k, keeps m m' k None None) by (intros; apply keeps_quiet; auto).
      split; [constructor; auto|]. split; [apply FIN; auto|]. split; [|auto].
      intros y Y. apply HS. unfold m' in Y. rewrite (contents_ents pp m (app1 m x)) in Y; auto; destruct x; simpl in *; try contradiction; auto.
    + (* put *) exists None. intros m'.
      assert (K : forall k, keeps m m' k None None).
      { intros k. apply keeps_ent; [|congruence|auto]. apply (live_iff w); auto. }
      split; [constructor; auto|]. split; [apply FIN; auto|]. split; [|auto].
      apply sub_ent; auto. intros _. apply in_or_app; auto.
    + (* replace *) exists None. intros m'.
      assert (VW : valid (val w)).
      { replace w with (ents m' s) by (simpl; apply upd_same). apply core_vs; auto. simpl. rewrite upd_same. auto. }
      assert (K : forall k, valid k -> keeps m m' k None None).
      { intros k V. apply keeps_ent; [apply (live_iff w); auto| |auto]. intros L SK _. split; auto.
        rewrite <- (same_trans_f pp hf cmp CT (val (ents m s)) (val w) k); auto. apply core_vs; auto. }
      split; [constructor; auto|]. split; [apply FIN; auto|]. split; [|auto].
      apply sub_ent; auto. intros _. apply in_or_app; auto.
    + (* delete *) exists None. intros m'.
      assert (K : forall k, valid k -> mem k A1 = true -> keeps m m' k None None).
      { intros k V M. apply keeps_ent; [discriminate| |auto]. intros L SK _. exfalso.
        unfold Hs_Spec.mem in M. apply existsb_exists in M. destruct M as (y & Y & SY).
        match goal with Q : fresh _ _ _ |- _ => specialize (Q y Y); rename Q into QF end.
        rewrite (same_trans_r pp hf cmp CT (val (ents m s)) k y) in QF; auto; [congruence|]. apply core_vs; auto. }
      split; [constructor; auto|]. split; [apply FIN; auto|]. split; [|auto].
      apply sub_ent; auto. intros L. rewrite live_T in L. discriminate.
    + (* move *) exists None. intros m'.
      assert (NF : f <> s) by (intros E; subst; assert (X : live TOMB = true) by congruence; discriminate X).
      assert (K : forall k, keeps m m' k None None).
      { intros k. apply keeps_ent; [apply (live_iff w); auto| |auto]. intros L. match goal with Q : ents m f = TOMB |- _ => rewrite Q in L end. discriminate. }
      assert (EF : ents m' f = w) by (simpl; apply upd_same).
      assert (ES : ents m' s = ents m s) by (simpl; apply upd_other; auto).
      split; [|split; [apply FIN; auto|]; split; [|auto]].
      * pose proof (ws_gen A0 A1 m' f s tr0) as WG. cbv zeta in WG. rewrite EF, ES in WG. apply WG; auto.
      * apply sub_ent; auto.
  - (* signal *) exists (Some s). intros m'.
    assert (VF : valid (val (ents m f))) by (apply core_vs; auto).
    assert (VS : valid (val (ents m s))) by (apply core_vs; auto).
    split; [apply ws_kill; auto; apply core_gen; auto|]. split; [|split].
    + intros k V M0 M1. destruct (HP k V M0 M1) as (t & T1 & T2 & T3 & _). destruct (Nat.eq_dec t s) as [E | E].
      * subst t. exists f. split; [exact F1|]. split; [exact F2|]. split; [|congruence].
        change (ents m' f) with (ents m f). rewrite <- (same_trans_f pp hf cmp CT (val (ents m s)) (val (ents m f)) k); auto.
      * exists t. split; [exact T1|]. split; [exact T2|]. split; [exact T3|congruence].
    + intros y Y. apply HS. exact Y.
    + intros k V M0 M1. destruct (Bool.bool_dec (N.odd (hf k)) p) as [E | E]; [left; rewrite E; reflexivity|right].
      split; [reflexivity|]. split; [auto|]. intros t T1 T2 T3 _. split; [exact T2|]. split; [exact T3|].
      intros X. injection X as X. subst t. apply E. unfold p.
      rewrite <- (c_hash _ _ _ CT (val (ents m s)) (val (ents m f))); auto. rewrite (c_hash _ _ _ CT (val (ents m s)) k); auto.
  - (* second store of a move *) exists None. intros m'.
    assert (K : forall k, keeps m m' k (Some s) None).
    { intros k. apply keeps_ent; [discriminate|congruence|discriminate]. }
    split; [constructor; auto|]. split; [apply FIN; auto|]. split; [|auto].
    apply sub_ent; auto. intros L. rewrite live_T in L. discriminate.
Qed.
Lemma ws_map : forall A0 A1 m u tr d, ws A0 A1 m (SMap u :: tr) d ->
  d = None /\ ws A0 A1 u tr None /\ PP A0 A1 u None /\ Sub A0 A1 u.
Proof.
  intros A0 A1 m u tr d H. inversion H as [m0 tr0 C W| |]; subst. inversion W; subst; [simpl in *; contradiction|].
  split; auto. split; [constructor; auto|]. split; auto. intros k V M0 M1. apply mem_pres. auto.
Qed.

(** ** Readers *)
(** [dd] signals since the generation was read *)
Definition G (m : hmap) (k g : N) (dd : N) : Prop :=
  (dd = 0%N /\ gen m (N.odd (hf k)) = g) \/ ((0 < dd)%N /\ gen m (N.odd (hf k)) = ((g + dd) mod 2 ^ 32)%N).
Lemma G_sig : forall m k g dd, G m k g dd -> G (app1 m (SGen (N.odd (hf k)))) k g (dd + 1).
Proof.
  intros m k g dd H. right. split; [lia|]. simpl. rewrite Bool.eqb_reflx. destruct H as [(E & H) | (E & H)]; rewrite H.
  - subst dd. reflexivity.
  - rewrite N.add_mod_idemp_l by discriminate. rewrite N.add_assoc. reflexivity.
Qed.
Lemma G_gen : forall m m' k g dd, gen m' (N.odd (hf k)) = gen m (N.odd (hf k)) -> G m k g dd -> G m' k g dd.
Proof. unfold G. intros m m' k g dd E. rewrite E. auto. Qed.
Lemma G_eq : forall m k g dd, G m k g dd -> gen m (N.odd (hf k)) = g -> dd = 0%N \/ (2 ^ 32 <= dd)%N.
Proof.
  intros m k g dd [(E & H) | (E & H)] EG; auto. right. rewrite EG in H.
  assert (L : (g < 2 ^ 32)%N) by (rewrite H; apply N.mod_lt; discriminate).
  destruct (N.lt_ge_cases dd (2 ^ 32)) as [D | D]; auto. exfalso.
  remember (2 ^ 32)%N as M. assert (MZ : M <> 0%N) by (subst; discriminate). clear HeqM.
  destruct (N.lt_ge_cases (g + dd) M) as [X | X].
  - rewrite N.mod_small in H by auto. lia.
  - replace (g + dd)%N with (g + dd - M + 1 * M)%N in H by lia. rewrite N.mod_add in H by auto. rewrite N.mod_small in H by lia. lia.
Qed.

(** [must], [may], [sg]: the fields of the pending lookup; [d]: the doomed slot of the map *)
Definition rinv (m : hmap) (d : option nat) (r : rst) (must : bool) (may : list N) (sg : N) : Prop :=
  let sub := forall x, In x (contents m) -> In x may in
  match r with
  | RIdle | RMap _ => True
  | RGen k _ => sub /\ (must = true -> Pres m k d)
  | RBnd k _ g | RMax k _ g => sub /\ (must = true -> Pres m k d) /\ exists dd, (dd <= sg)%N /\ G m k g dd
  | RScan k _ g lim st => sub /\ stok ub m (hf k) st /\ q_lim st = lim /\
      exists dd, (dd <= sg)%N /\ G m k g dd /\ (must = true -> dd = 0%N -> Wit m k (q_n st) lim d)
  | RChk k _ g v => (v <> 0%N -> same v k = true /\ In v may) /\
      exists dd, (dd <= sg)%N /\ G m k g dd /\ (must = true -> dd = 0%N -> v <> 0%N)
  end.
Definition rkey (r : rst) : option N :=
  match r with RIdle => None | RMap k | RGen k _ | RBnd k _ _ | RMax k _ _ | RScan k _ _ _ _ | RChk k _ _ _ => Some k end.
Definition rmap (r : rst) : option nat :=
  match r with RIdle | RMap _ => None | RGen _ i | RBnd _ i _ | RMax _ i _ | RScan _ i _ _ _ | RChk _ i _ _ => Some i end.

(** the lookup's demands only become weaker *)
Lemma rinv_weak : forall m d r must may sg must' may' sg', rinv m d r must may sg -> (must' = true -> must = true) ->
  (forall x, In x may -> In x may') -> (sg <= sg')%N -> rinv m d r must' may' sg'.
Proof.
  intros m d r must may sg must' may' sg' H HM HA HS. destruct r; simpl in *; auto.
  - destruct H as (A & B). auto.
  - destruct H as (A & B & dd & L & D). split; auto. split; auto. exists dd. split; auto. lia.
  - destruct H as (A & B & dd & L & D). split; auto. split; auto. exists dd. split; auto. lia.
  - destruct H as (A & B & E & dd & L & D & W). split; auto. split; auto. split; auto. exists dd. split; [lia|]. auto.
  - destruct H as (A & dd & L & D & W). split; [intros NZ; destruct (A NZ); auto|]. exists dd. split; [lia|]. auto.
Qed.
(** a store of the writer in the map the reader is in *)
Lemma stok_cap : forall m m' h st, cap m' = cap m -> stok ub m h st -> stok ub m' h st.
Proof. intros m m' h st E (J & i & I & O & N). split; auto. exists i. rewrite (offs_cap ub m m') by auto. auto. Qed.
Lemma rinv_store : forall m x d d' r k must may sg, rkey r = Some k -> rinv m d r must may sg -> wf m -> not_map x ->
  (forall y, In y (contents (app1 m x)) -> In y may) -> (must = true -> Pres (app1 m x) k d') ->
  (must = true -> x = SGen (N.odd (hf k)) \/ keeps m (app1 m x) k d d') ->
  rinv (app1 m x) d' r must may (match x with SGen _ => sg + 1 | _ => sg end)%N.
Proof.
  intros m x d d' r k must may sg RK H W NM SUB PR KP.
  assert (GG : forall g dd, (dd <= sg)%N -> G m k g dd -> exists dd', (dd' <= match x with SGen _ => sg + 1 | _ => sg end)%N /\ G (app1 m x) k g dd' /\
     (dd' = 0%N -> dd = 0%N /\ x <> SGen (N.odd (hf k)))).
  { intros g dd L D. destruct x as [s w|p|v|o v|n|n|u]; try (exists dd; split; [exact L|]; split; [exact D|]; intros; split; [auto|discriminate]).
    - destruct (Bool.bool_dec p (N.odd (hf k))) as [E | E].
      + subst p. exists (dd + 1)%N. split; [lia|]. split; [apply G_sig; auto|]. lia.
      + exists dd. split; [lia|]. split; [|intros; split; auto; congruence]. apply (G_gen m); auto. simpl.
        destruct (Bool.eqb (N.odd (hf k)) p) eqn:EB; auto. apply Bool.eqb_prop in EB. congruence.
    - destruct NM. }
  assert (EC : cap (app1 m x) = cap m) by (destruct x; simpl in *; auto; contradiction).
  destruct r; simpl in RK; try discriminate; injection RK as RK; subst k0; simpl in *; auto.
  - destruct H as (A & B & dd & L & D). split; auto. split; auto. destruct (GG _ _ L D) as (dd' & X1 & X2 & _). exists dd'. auto.
  - destruct H as (A & B & dd & L & D). split; auto. split; auto. destruct (GG _ _ L D) as (dd' & X1 & X2 & _). exists dd'. auto.
  - destruct H as (A & B & E & dd & L & D & WI). split; auto. split; [apply (stok_cap m); auto|]. split; auto.
    destruct (GG _ _ L D) as (dd' & X1 & X2 & X3). exists dd'. split; auto. split; auto. intros M Z. destruct (X3 Z) as (Z1 & Z2).
    destruct (KP M) as [K | K]; [contradiction|]. apply (keeps_wit m _ k _ _ d d'); auto.
  - destruct H as (A & dd & L & D & WI). split; auto.
    destruct (GG _ _ L D) as (dd' & X1 & X2 & X3). exists dd'. split; auto. split; auto. intros M Z. destruct (X3 Z) as (Z1 & Z2). auto.
Qed.

(** ** One slot *)
Lemma scan_ok : forall m k lim st d must may, Core m -> valid k -> stok ub m (hf k) st -> q_lim st = lim -> (forall x, In x (contents m) -> In x may) ->
  (must = true -> Wit m k (q_n st) lim d) ->
  match piter pp cmp ub m lim BProbe (hf k) k st with
  | inl st' => stok ub m (hf k) st' /\ q_lim st' = lim /\ (must = true -> Wit m k (q_n st') lim d)
  | inr r => (r_obj r <> 0%N -> same (r_obj r) k = true /\ In (r_obj r) may) /\ (must = true -> r_obj r <> 0%N)
  end.
Proof.
  intros m k lim st d must may C V SO EL SUB WI. pose proof C as (W & _ & CE). unfold piter. rewrite (stok_cur _ _ _ _ SO), EL, Nat.eqb_refl.
  set (n := q_n st) in *. set (s := pi m (hf k) n).
  destruct (Nat.eqb_spec n lim) as [HE | HE].
  - change (true && (true || match q_pr st with Some _ => true | None => false end)) with true. cbv iota. unfold leave.
    split; [|intros M; destruct (WI M) as (q & Q & _); lia].
    simpl. destruct (Nat.ltb lim (S n)); intros X; exfalso; apply X; reflexivity.
  - change (false && (true || match q_pr st with Some _ => true | None => false end)) with false. cbv iota.
    assert (NXT : (must = true -> ents m s <> 0%N /\ (live (ents m s) = true -> same (val (ents m s)) k = true \/ Wit m k (S n) lim d) /\ (live (ents m s) = false -> Wit m k (S n) lim d))).
    { intros M. destruct (WI M) as (q & Q1 & Q2 & Q3 & Q4 & Q5). destruct (Nat.eq_dec q n) as [E | E].
      - subst q. fold s in Q2, Q3. split; [apply live_iff in Q2; tauto|]. split; [auto|congruence].
      - assert (X : Wit m k (S n) lim d) by (exists q; split; [lia|auto]). split; [apply Q4; lia|]. auto. }
    assert (ADV : forall pr np, (must = true -> Wit m k (S n) lim d) ->
      stok ub m (hf k) (adv ub m (hf k) st lim pr np) /\ q_lim (adv ub m (hf k) st lim pr np) = lim /\
      (must = true -> Wit m k (q_n (adv ub m (hf k) st lim pr np)) lim d)).
    { intros pr np X. destruct (adv_fields ub m (hf k) st lim pr np) as (A1 & A2 & _). split; [apply stok_adv; auto|]. split; auto. rewrite A1. auto. }
    destruct (N.eqb_spec (ents m s) 0) as [E0 | E0].
    { unfold leave. simpl. split; [|intros M; exfalso; destruct (NXT M); auto]. destruct (Nat.ltb lim (S n)); intros X; exfalso; apply X; reflexivity. }
    destruct (N.eqb_spec (ents m s) TOMB) as [E1 | E1].
    { assert (X : must = true -> Wit m k (S n) lim d) by (intros M; apply (NXT M); rewrite E1; reflexivity).
      destruct (q_pr st); apply ADV; auto. }
    assert (L : live (ents m s) = true) by (apply live_iff; auto).
    assert (SL : s < ncap m) by (apply pi_lt; auto).
    pose proof (core_word dl pp hf ub m s C SL L) as EW. pose proof (core_vs m s C SL L) as VS.
    assert (EM : match_word pp cmp (ents m s) k (hf k) = same (val (ents m s)) k).
    { transitivity (match_word pp cmp (marshal (val (ents m s)) (hf (val (ents m s)))) k (hf k)); [congruence|]. apply (match_same pp hf cmp CT); auto. }
    rewrite EM. destruct (same (val (ents m s)) k) eqn:ES.
    + unfold leave. simpl. destruct (Nat.ltb_spec lim (S n)) as [X | X].
      * split; [intros Y; exfalso; apply Y; reflexivity|]. intros M. destruct (WI M) as (q & Q & _). lia.
      * split; [|intros _; apply VS]. intros _. split; auto. apply SUB. apply in_contents. exists s. auto.
    + apply ADV. intros M. destruct (NXT M) as (_ & [X | X] & _); auto. discriminate.
Qed.

(** ** The whole system *)
Definition tl_of (s : cst) : list store := match todo s with Some tr => tr | None => [] end.
Record R (s : cst) (g : obs) : Prop := {
  R_cl : cl s = o_new g;
  R_idle : todo s = None -> o_old g = o_new g;
  R_w : exists d, ws (o_old g) (o_new g) (maps s (cur s)) (tl_of s) d /\ PP (o_old g) (o_new g) (maps s (cur s)) d /\
    forall t l, o_rd g t = Some l -> forall i, rmap (rd s t) = Some i ->
      i < nxt s /\ rinv (maps s i) (if Nat.eq_dec i (cur s) then d else None) (rd s t) (l_must l) (l_may l) (l_sig l);
  R_sub : Sub (o_old g) (o_new g) (maps s (cur s));
  R_end : Inv (app (maps s (cur s)) (tl_of s)) /\ Permutation (contents (app (maps s (cur s)) (tl_of s))) (o_new g);
  R_cur : cur s < nxt s;
  R_core : forall i, i < nxt s -> Core (maps s i);
  R_key : forall t, rkey (rd s t) = option_map l_key (o_rd g t);
  R_look : forall t l, o_rd g t = Some l -> valid (l_key l) /\ (forall x, In x (o_old g ++ o_new g) -> In x (l_may l)) /\
    (l_must l = true -> mem (l_key l) (o_old g) = true /\ mem (l_key l) (o_new g) = true) }.

Lemma ws_nil : forall A0 A1 m d, ws A0 A1 m [] d -> d = None /\ Core m.
Proof. intros A0 A1 m d H. inversion H; subst; auto. Qed.
Lemma legal_True : forall A o r P, legal cmp A o r P -> legal cmp A o r True.
Proof. intros A o r P. destruct o; simpl; auto; destruct (fst r); intros H; tauto. Qed.
Lemma init_R : forall g n, R (cinit g n) obs0.
Proof.
  intros g n. pose proof (create_inv dl pp hf cmp ub g n) as I. pose proof (create_contents pp g n) as EC.
  split; simpl; auto.
  - exists None. split; [constructor; [apply I|constructor]|]. split; [intros k V M; discriminate|]. intros; discriminate.
  - intros x X. simpl in X. rewrite EC in X. destruct X.
  - split; auto. rewrite EC. auto.
  - intros. apply I.
  - intros; discriminate.
Qed.

Lemma pp_perm : forall A0 A1 m, Permutation (contents m) A1 -> PP A0 A1 m None.
Proof. intros A0 A1 m P k V _ M. apply mem_pres. rewrite (mem_perm k _ _ P). auto. Qed.
Lemma pp_perm0 : forall A0 A1 m, Permutation (contents m) A0 -> PP A0 A1 m None.
Proof. intros A0 A1 m P k V M _. apply mem_pres. rewrite (mem_perm k _ _ P). auto. Qed.

(** a step of a reader: the other threads and the writer are untouched *)
Lemma reader_R : forall s g t r, R s g -> rkey r = rkey (rd s t) ->
  (forall d l i, o_rd g t = Some l -> ws (o_old g) (o_new g) (maps s (cur s)) (tl_of s) d -> PP (o_old g) (o_new g) (maps s (cur s)) d -> rmap r = Some i ->
     (forall j, rmap (rd s t) = Some j -> j < nxt s /\ rinv (maps s j) (if Nat.eq_dec j (cur s) then d else None) (rd s t) (l_must l) (l_may l) (l_sig l)) ->
     i < nxt s /\ rinv (maps s i) (if Nat.eq_dec i (cur s) then d else None) r (l_must l) (l_may l) (l_sig l)) ->
  R (set_rd s t r) g.
Proof.
  intros s g t r HR RK H. destruct HR as [R1 R2 R3 R4 R5 R6 R7 R8 R9]. split; auto.
  - destruct R3 as (d & D1 & D2 & D3). exists d. split; [exact D1|]. split; [exact D2|]. intros t' l L i. simpl. unfold upd.
    destruct (Nat.eq_dec t' t) as [->|NE]; intros E; [|apply (D3 t'); auto]. apply (H d l i); auto.
  - intros t'. simpl. unfold upd. destruct (Nat.eq_dec t' t) as [->|NE]; auto. rewrite RK. auto.
Qed.
Lemma rd_key : forall s g t k, R s g -> rkey (rd s t) = Some k -> exists l, o_rd g t = Some l /\ l_key l = k /\ valid k.
Proof.
  intros s g t k HR E. rewrite (R_key _ _ HR) in E. destruct (o_rd g t) as [l|] eqn:EL; [|discriminate]. injection E as E. subst.
  exists l. split; auto. split; auto. apply (R_look _ _ HR t l EL).
Qed.

Lemma rstep_R : forall s g t s' ev, R s g -> rstep dl pp hf cmp ub s t = Some (s', ev) -> legal_from (onext cmp) (ook cmp) g ev /\ R s' (gfold (onext cmp) ev g).
Proof.
  intros s g t s' ev HR H. unfold rstep in H. destruct (rd s t) as [|k|k i|k i gg|k i gg|k i gg lim st|k i gg v] eqn:ER; [discriminate| | | | | |].
  - (* load hs->map *) injection H as <- <-. split; [exact Logic.I|]. simpl. apply reader_R; [auto|rewrite ER; auto|].
    intros d l i L W P E HJ. injection E as <-. destruct (R_look _ _ HR t l L) as (V & MAY & MUST).
    assert (EK : l_key l = k). { pose proof (R_key _ _ HR t) as X. rewrite ER, L in X. simpl in X. congruence. }
    split; [apply (R_cur _ _ HR)|]. simpl. destruct (Nat.eq_dec (cur s) (cur s)); [|contradiction]. split.
    + intros x X. apply MAY. apply (R_sub _ _ HR); auto.
    + intros M. destruct (MUST M). subst k. apply P; auto.
  - (* load the generation *) injection H as <- <-. split; [exact Logic.I|]. simpl. apply reader_R; [auto|rewrite ER; auto|].
    intros d l j L W P E HJ. injection E as <-. destruct (HJ i) as (J1 & J2); [rewrite ER; auto|]. rewrite ER in J2. split; auto. simpl in *.
    destruct J2 as (S1 & S2). split; auto. split; auto. exists 0%N. split; [lia|]. left. auto.
  - (* load the bound *)
    assert (SC : forall lim, (forall d l, o_rd g t = Some l -> l_must l = true -> Pres (maps s i) k d -> Wit (maps s i) k 0 lim d) ->
       R (set_rd s t (RScan k i gg lim (pinit (maps s i) (hf k) lim))) g).
    { intros lim HW. apply reader_R; [auto|rewrite ER; auto|].
      intros d l j L W P E HJ. injection E as <-. destruct (HJ i) as (J1 & J2); [rewrite ER; auto|]. rewrite ER in J2. split; auto. simpl in *.
      destruct J2 as (S1 & S2 & dd & D1 & D2). split; auto. split; [apply stok_init|]. split; auto. exists dd. split; auto. split; auto.
      intros M Z. apply (HW _ l); auto. }
    assert (CI : forall l, o_rd g t = Some l -> Core (maps s i) /\ valid k).
    { intros l L. destruct (rd_key s g t k HR) as (l' & L' & K & V); [rewrite ER; auto|]. split; auto.
      destruct (R_w _ _ HR) as (d & _ & _ & D). destruct (D t l L i) as (J & _); [rewrite ER; auto|]. apply (R_core _ _ HR); auto. }
    destruct dl eqn:ED.
    + destruct (Nat.eqb_spec (bnd (maps s i) (N.to_nat (hidx (maps s i) (hf k)))) 255) as [E255 | E255]; injection H as <- <-; (split; [exact Logic.I|]); simpl.
      * apply reader_R; [auto|rewrite ER; auto|]. intros d l j L W P E HJ. injection E as <-.
        destruct (HJ i) as (J1 & J2); [rewrite ER; auto|]. rewrite ER in J2. split; auto.
      * apply SC. intros d l L M PR. destruct (CI l L) as (C & V). rewrite <- ED in C. destruct (pres_wit _ _ d C V PR) as (_ & X & _). apply X; auto.
    + injection H as <- <-. split; [exact Logic.I|]. simpl. apply SC.
      intros d l L M PR. destruct (CI l L) as (C & V). rewrite <- ED in C. destruct (pres_wit _ _ d C V PR) as (X & _). auto.
  - (* load the maximum *) injection H as <- <-. split; [exact Logic.I|]. simpl. apply reader_R; [auto|rewrite ER; auto|].
    intros d l j L W P E HJ. injection E as <-. destruct (HJ i) as (J1 & J2); [rewrite ER; auto|]. rewrite ER in J2. split; auto. simpl in *.
    destruct (rd_key s g t k HR) as (l' & L' & K & V); [rewrite ER; auto|].
    destruct J2 as (S1 & S2 & dd & D1 & D2). split; auto. split; [apply stok_init|]. split; auto. exists dd. split; auto. split; auto.
    intros M Z. destruct (pres_wit _ _ _ (R_core _ _ HR i J1) V (S2 M)) as (X & _ & Y). destruct dl; auto.
  - (* one slot *)
    destruct (rd_key s g t k HR) as (l' & L' & K & V); [rewrite ER; auto|].
    assert (G1 : forall d l, o_rd g t = Some l -> (forall j, rmap (rd s t) = Some j -> j < nxt s /\ rinv (maps s j) (if Nat.eq_dec j (cur s) then d else None) (rd s t) (l_must l) (l_may l) (l_sig l)) ->
       i < nxt s /\ (forall x, In x (contents (maps s i)) -> In x (l_may l)) /\ exists dd, (dd <= l_sig l)%N /\ G (maps s i) k gg dd /\
       match piter pp cmp ub (maps s i) lim BProbe (hf k) k st with
       | inl st' => stok ub (maps s i) (hf k) st' /\ q_lim st' = lim /\ (l_must l = true -> dd = 0%N -> Wit (maps s i) k (q_n st') lim (if Nat.eq_dec i (cur s) then d else None))
       | inr r => (r_obj r <> 0%N -> same (r_obj r) k = true /\ In (r_obj r) (l_may l)) /\ (l_must l = true -> dd = 0%N -> r_obj r <> 0%N)
       end).
    { intros d l L HJ. destruct (HJ i) as (J1 & J2); [rewrite ER; auto|]. rewrite ER in J2. simpl in J2.
      destruct J2 as (S1 & S2 & S3 & dd & D1 & D2 & D3). split; auto. split; auto. exists dd. split; auto. split; auto.
      pose proof (scan_ok (maps s i) k lim st (if Nat.eq_dec i (cur s) then d else None) (l_must l && N.eqb dd 0) (l_may l) (R_core _ _ HR i J1) V S2 S3 S1) as SC.
      destruct (piter pp cmp ub (maps s i) lim BProbe (hf k) k st) as [st' | r].
      - destruct SC as (A & B & C). { intros X. apply andb_prop in X. destruct X as (X & Y). apply N.eqb_eq in Y. auto. }
        split; auto. split; auto. intros M Z. apply C. rewrite M, Z. reflexivity.
      - destruct SC as (A & B). { intros X. apply andb_prop in X. destruct X as (X & Y). apply N.eqb_eq in Y. auto. }
        split; auto. intros M Z. apply B. rewrite M, Z. reflexivity. }
    destruct (piter pp cmp ub (maps s i) lim BProbe (hf k) k st) as [st' | r]; injection H as <- <-; (split; [exact Logic.I|]); simpl; (apply reader_R; [auto|rewrite ER; auto|]);
      intros d l j L W P E HJ; injection E as <-; destruct (G1 d l L HJ) as (J1 & S1 & dd & D1 & D2 & D3); (split; [auto|]); simpl.
    + destruct D3 as (A & B & C). split; auto. split; auto. split; auto. exists dd. auto.
    + destruct D3 as (A & B). split; auto. exists dd. auto.
  - (* check *)
    destruct (rd_key s g t k HR) as (l & L & K & V); [rewrite ER; auto|].
    destruct (N.eqb_spec (gen_of hf s i k) gg) as [EG | EG]; injection H as <- <-.
    + split.
      * split; [|exact Logic.I]. exists l. split; auto. destruct (R_w _ _ HR) as (d & _ & _ & D). destruct (D t l L i) as (J1 & J2); [rewrite ER; auto|].
        rewrite ER in J2. simpl in J2. destruct J2 as (S1 & dd & D1 & D2 & D3). destruct (N.eqb_spec v 0) as [Z | Z].
        -- destruct (l_must l); auto. right. destruct (G_eq _ _ _ _ D2 EG) as [X | X]; [|lia]. exfalso. apply (D3 eq_refl X); auto.
        -- destruct (S1 Z). rewrite K. auto.
      * simpl. destruct HR as [R1 R2 R3 R4 R5 R6 R7 R8 R9]. split; auto.
        -- destruct R3 as (d & D1 & D2 & D3). exists d. split; [exact D1|]. split; [exact D2|]. intros t' l' L'. simpl in *. unfold upd in *.
           destruct (Nat.eq_dec t' t) as [->|NE]; [discriminate|]. apply (D3 t' l' L').
        -- intros t'. simpl. unfold upd. destruct (Nat.eq_dec t' t) as [->|NE]; auto.
        -- intros t' l' L'. simpl in *. unfold upd in *. destruct (Nat.eq_dec t' t) as [->|NE]; [discriminate|]. apply (R9 t'); auto.
    + split; [exact Logic.I|]. simpl. apply reader_R; [auto|rewrite ER; auto|]. intros d l0 j L0 W P E. discriminate.
Qed.

Lemma step_R : forall s g l s' ev, R s g -> step s l = Some (s', ev) -> legal_from (onext cmp) (ook cmp) g ev /\ R s' (gfold (onext cmp) ev g).
Proof.
  intros s g l s' ev HR H. destruct l as [o fuel| | |t k|t]; simpl in H.
  - (* call *)
    destruct (todo s) eqn:ET; [discriminate|]. destruct (preb pp hf cmp (cl s) o) eqn:EP; [|discriminate]. apply preb_ok in EP.
    destruct (R_end _ _ HR) as (I & P). unfold tl_of in I, P. rewrite ET in I, P. simpl in I, P.
    pose proof (op_ok dl pp hf cmp ub oracle CT fuel (maps s (cur s)) (al s) o (cl s) I) as K. rewrite (R_cl _ _ HR) in K. rewrite (R_cl _ _ HR) in EP.
    specialize (K P EP). rewrite (R_cl _ _ HR) in H.
    destruct (run1 dl pp hf cmp ub oracle fuel (maps s (cur s)) (al s) o) as [tr a r| |]; [|discriminate|destruct K].
    injection H as <- <-. destruct K as (K1 & K2 & K3 & K4 & _). split; [split; [eapply legal_True; eauto|exact Logic.I]|].
    simpl. set (B := aop cmp (o_new g) o r) in *. destruct (R_w _ _ HR) as (d & D1 & D2 & D3).
    unfold tl_of in D1. rewrite ET in D1. destruct (ws_nil _ _ _ _ D1) as (-> & C).
    split; simpl; auto; try (intros; discriminate).
    + exists None. split; [constructor; auto|]. split; [apply pp_perm0; auto|]. intros t l L i E.
      destruct (o_rd g t) as [l0|] eqn:EL; [|discriminate]. injection L as <-. destruct (D3 t l0 EL i E) as (J1 & J2). split; auto.
      simpl. apply (rinv_weak _ _ _ _ _ _ _ _ _ J2); [|intros; apply in_or_app; auto|lia]. intros X. apply andb_prop in X. tauto.
    + intros x X. apply in_or_app. left. simpl in X. rewrite <- P. auto.
    + apply (R_cur _ _ HR).
    + apply (R_core _ _ HR).
    + intros t. rewrite (R_key _ _ HR t). destruct (o_rd g t); auto.
    + intros t l L. destruct (o_rd g t) as [l0|] eqn:EL; [|discriminate]. injection L as <-. destruct (R_look _ _ HR t l0 EL) as (V & MAY & MUST).
      simpl. split; auto. split.
      * intros x X. apply in_or_app. apply in_app_or in X. destruct X as [X | X]; auto. left. apply MAY. apply in_or_app; auto.
      * intros X. apply andb_prop in X. destruct X as (X & Y). destruct (MUST X). auto.
  - (* store *)
    destruct (todo s) as [[|x tr]|] eqn:ET; try discriminate.
    destruct (R_w _ _ HR) as (d & D1 & D2 & D3). pose proof (R_end _ _ HR) as RE. unfold tl_of in D1, RE. rewrite ET in D1, RE.
    assert (VA : forall y, In y (o_new g) -> valid y).
    { intros y Y. destruct RE as ((C & _) & P). apply (core_valid dl pp hf ub _ y C). rewrite P. auto. }
    assert (CASE : (exists u, x = SMap u) \/ not_map x) by (destruct x; simpl; eauto).
    destruct CASE as [(u & ->) | NM].
    + injection H as <- <-. split; [exact Logic.I|]. simpl. destruct (ws_map _ _ _ _ _ _ D1) as (-> & W & PQ & SU).
      pose proof (R_cur _ _ HR) as RC.
      split; simpl; auto; try (intros; discriminate).
      * apply (R_cl _ _ HR).
      * exists None. unfold tl_of. simpl. rewrite upd_same. split; auto. split; auto. intros t l L i E. destruct (D3 t l L i E) as (J1 & J2). split; [lia|].
        rewrite upd_other by lia. destruct (Nat.eq_dec i (nxt s)); destruct (Nat.eq_dec i (cur s)); auto.
      * rewrite upd_same. auto.
      * unfold tl_of. simpl. rewrite upd_same. exact RE.
      * intros i I. unfold upd. destruct (Nat.eq_dec i (nxt s)); [apply (ws_core _ _ _ _ _ W)|apply (R_core _ _ HR); lia].
      * apply (R_key _ _ HR).
      * apply (R_look _ _ HR).
    + assert (EQ : s' = mkcs (upd (maps s) (cur s) (app1 (maps s (cur s)) x)) (cur s) (nxt s) (Some tr) (al s) (cl s) (rd s) /\ ev = match x with SGen _ => [ESig] | _ => [] end)
        by (destruct x; simpl in NM; try contradiction; injection H as <- <-; auto).
      destruct EQ as (-> & ->). clear H.
      destruct (ws_step _ _ _ _ _ _ VA D1 D2 (R_sub _ _ HR) NM) as (d' & W & PQ & SU & KP). cbv zeta in W, PQ, SU, KP.
      set (m' := app1 (maps s (cur s)) x) in *.
      assert (RI : forall t l i, o_rd g t = Some l -> rmap (rd s t) = Some i ->
        i < nxt s /\ rinv (upd (maps s) (cur s) m' i) (if Nat.eq_dec i (cur s) then d' else None) (rd s t) (l_must l) (l_may l) (match x with SGen _ => l_sig l + 1 | _ => l_sig l end)%N).
      { intros t l i L E. destruct (D3 t l L i E) as (J1 & J2). split; auto. destruct (R_look _ _ HR t l L) as (V & MAY & MUST).
        pose proof (R_key _ _ HR t) as RK. rewrite L in RK. simpl in RK. unfold upd.
        destruct (Nat.eq_dec i (cur s)) as [->|NE].
        - apply (rinv_store _ x d d' (rd s t) (l_key l)); auto.
          + apply (ws_core _ _ _ _ _ D1).
          + intros M. destruct (MUST M). apply PQ; auto.
          + intros M. destruct (MUST M). apply KP; auto.
        - apply (rinv_weak _ _ _ _ _ _ _ _ _ J2); auto. destruct x; lia. }
      assert (LG : legal_from (onext cmp) (ook cmp) g match x with SGen _ => [ESig] | _ => [] end) by (destruct x; simpl; auto).
      split; [exact LG|].
      assert (GO : o_old (gfold (onext cmp) match x with SGen _ => [ESig] | _ => [] end g) = o_old g /\
                   o_new (gfold (onext cmp) match x with SGen _ => [ESig] | _ => [] end g) = o_new g /\
                   forall t l, o_rd (gfold (onext cmp) match x with SGen _ => [ESig] | _ => [] end g) t = Some l ->
                     exists l0, o_rd g t = Some l0 /\ l_key l = l_key l0 /\ l_must l = l_must l0 /\ l_may l = l_may l0 /\ l_sig l = (match x with SGen _ => l_sig l0 + 1 | _ => l_sig l0 end)%N).
      { destruct x; simpl; (split; [auto|]; split; [auto|]); intros t l L; try (exists l; auto; fail).
        destruct (o_rd g t) as [l0|]; [|discriminate]. injection L as <-. exists l0. auto. }
      assert (GK : forall t, option_map l_key (o_rd (gfold (onext cmp) match x with SGen _ => [ESig] | _ => [] end g) t) = option_map l_key (o_rd g t)).
      { intros t. destruct x; simpl; auto. destruct (o_rd g t); auto. }
      destruct GO as (GO1 & GO2 & GO3). set (g' := gfold (onext cmp) match x with SGen _ => [ESig] | _ => [] end g) in *. clearbody g'.
      split; rewrite ?GO1, ?GO2; simpl; auto; try (intros; discriminate).
      * apply (R_cl _ _ HR).
      * exists d'. unfold tl_of. simpl. rewrite upd_same. split; auto. split; auto. intros t l L i E. destruct (GO3 t l L) as (l0 & L0 & _ & -> & -> & ->). auto.
      * rewrite upd_same. auto.
      * unfold tl_of. simpl. rewrite upd_same. exact RE.
      * apply (R_cur _ _ HR).
      * intros i I. unfold upd. destruct (Nat.eq_dec i (cur s)); [apply (ws_core _ _ _ _ _ W)|apply (R_core _ _ HR); auto].
      * intros t. rewrite GK. apply (R_key _ _ HR).
      * intros t l L. destruct (GO3 t l L) as (l0 & L0 & -> & -> & -> & _). apply (R_look _ _ HR t l0 L0).
  - (* return *)
    destruct (todo s) as [[|x tr]|] eqn:ET; try discriminate. injection H as <- <-. split; [split; exact Logic.I|]. simpl.
    destruct (R_w _ _ HR) as (d & D1 & D2 & D3). destruct (R_end _ _ HR) as (I & P). unfold tl_of in D1, I, P. rewrite ET in D1, I, P. simpl in I, P.
    destruct (ws_nil _ _ _ _ D1) as (-> & C). split; simpl; auto.
    + apply (R_cl _ _ HR).
    + exists None. split; [constructor; [auto|constructor]|]. split; [apply pp_perm; auto|]. auto.
    + intros x X. apply in_or_app. left. simpl in X. rewrite <- P. auto.
    + apply (R_cur _ _ HR).
    + apply (R_core _ _ HR).
    + apply (R_key _ _ HR).
    + intros t l L. destruct (R_look _ _ HR t l L) as (V & MAY & MUST). split; auto. split.
      * intros x X. apply MAY. apply in_app_or in X. apply in_or_app. tauto.
      * intros M. destruct (MUST M). auto.
  - (* a reader calls *)
    destruct (rd s t) eqn:ER; try discriminate. destruct (validb pp hf k) eqn:EV; [|discriminate]. injection H as <- <-. split; [split; exact Logic.I|]. simpl.
    destruct HR as [R1 R2 R3 R4 R5 R6 R7 R8 R9]. split; auto.
    + destruct R3 as (d & D1 & D2 & D3). exists d. split; [exact D1|]. split; [exact D2|]. intros t' l L i. simpl in *. unfold upd in *.
      destruct (Nat.eq_dec t' t) as [->|NE]; [discriminate|]. apply (D3 t' l L).
    + intros t'. simpl. unfold upd. destruct (Nat.eq_dec t' t) as [->|NE]; auto.
    + intros t' l L. simpl in *. unfold upd in *. destruct (Nat.eq_dec t' t) as [->|NE]; [|apply (R9 t'); auto]. injection L as <-. simpl.
      split; [apply validb_ok; auto|]. split; auto. intros M. apply andb_prop in M. auto.
  - apply (rstep_R s g t); auto.
Qed.

Lemma t_lookup : forall g n ls s log, run step (cinit g n) ls = Some (s, log) -> legal_from (onext cmp) (ook cmp) obs0 log.
Proof. intros g n ls s log H. exact (proj1 (obs_run step (onext cmp) (ook cmp) R step_R ls _ _ s log (init_R g n) H)). Qed.
End C.
