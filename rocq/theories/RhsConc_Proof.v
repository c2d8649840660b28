(** Robin Hood hash set: lookups concurrent with the writer. *)
From Coq Require Import Arith NArith List Bool Lia Permutation.
From Verif Require Import Lib Obs Helpers_Model Rhs_Model Rhs_Spec Rhs_Proof RhsInv_Proof RhsGrow_Proof RhsTr_Proof RhsSet_Proof RhsOps_Proof RhsConc_Model RhsConc_Spec.
Import ListNotations.

Section C.
Variables (rmode pp : bool) (hf : N -> N) (cmp : option (N -> N -> bool)) (oracle : nat -> bool).
Notation pi := (pi rmode). Notation val := (val pp). Notation valid := (valid pp). Notation same := (same cmp).
Notation marshal := (marshal pp). Notation mem := (mem cmp). Notation fnd := (fnd rmode pp hf cmp).
Notation wok := (wok pp hf). Notation sok := (sok pp hf). Notation move := (move hf). Notation tr := (tr rmode pp hf cmp).
Notation st := (st rmode pp hf cmp). Notation step := (step rmode pp hf cmp oracle).

Lemma validb_ok : forall k, validb pp k = true -> valid k.
Proof.
  intros k H. unfold validb in H. apply andb_prop in H. destruct H as (H1 & H2).
  apply negb_true_iff in H1. apply N.eqb_neq in H1. split; [exact H1|].
  intros E. apply orb_prop in H2. rewrite E in H2. destruct H2 as [H2 | H2]; [discriminate H2 | apply N.ltb_lt; exact H2].
Qed.
Lemma preb_ok : forall A o, preb pp cmp A o = true -> pre pp cmp A o.
Proof.
  intros A o H. destruct o; cbn [preb pre] in *; try exact Logic.I; try (apply validb_ok; exact H).
  - apply andb_prop in H. destruct H as (H1 & H2). split; [apply validb_ok; auto|]. destruct (mem k A); auto; discriminate.
  - apply andb_prop in H. destruct H as (H1 & H2). split; [apply validb_ok; auto|].
    apply orb_prop in H2. destruct H2 as [H2 | H2]; [left; apply N.eqb_eq; auto|].
    apply andb_prop in H2. destruct H2. right. split; auto. apply validb_ok; auto.
Qed.

(** ** The stores of an operation *)
(** where the key is while the stores are made *)
Inductive loc (k : N) : vmap -> nat -> list store -> vmap -> nat -> Prop :=
| loc_nil v w : loc k v w [] v w
| loc_cons v w s L w' v1 w1 : move k (asmap v) s w w' -> fnd k w' (asmap (vapp v s)) -> loc k (vapp v s) w' L v1 w1 -> loc k v w (s :: L) v1 w1.
Lemma loc_snoc : forall k v w L v1 w1 s w2, loc k v w L v1 w1 -> move k (asmap v1) s w1 w2 -> fnd k w2 (asmap (vapp v1 s)) -> loc k v w (L ++ [s]) (vapp v1 s) w2.
Proof. intros k v w L v1 w1 s w2 H M F. induction H; simpl; econstructor; eauto. constructor. Qed.

Lemma tr_list : forall on k B m0 w0 m w, tr on k B m0 w0 m w -> exists new, hist m = new ++ hist m0 /\
  view m = fold_left vapp (rev new) (view m0) /\ Forall (sok B) (rev new) /\ (on = true -> loc k (view m0) w0 (rev new) (view m) w).
Proof.
  intros on k B m0 w0 m w H. induction H as [|m w m' H IH Ev Eh|m w m' w' s H IH Ev Eh So Mv F].
  - exists []. split; auto. split; auto. split; [constructor|]. intros _. constructor.
  - destruct IH as (new & I1 & I2 & I3 & I4). exists new. rewrite Ev, Eh. auto.
  - destruct IH as (new & I1 & I2 & I3 & I4). exists (s :: new). rewrite Eh, I1. split; auto. simpl. split; [|split].
    + rewrite fold_left_app. simpl. rewrite <- I2. auto.
    + apply Forall_app. auto.
    + intros O. rewrite Ev. apply loc_snoc with (w1 := w); auto. apply (fnd_view rmode pp hf cmp) with (m := m'); auto. rewrite <- Ev. reflexivity.
Qed.
Lemma stores_eq : forall m m' new, hist m' = new ++ hist m -> stores m m' = rev new.
Proof.
  intros m m' new E. unfold stores. rewrite E, app_length. replace (length new + length (hist m) - length (hist m)) with (length new) by lia.
  rewrite firstn_app, Nat.sub_diag, firstn_all. simpl. rewrite app_nil_r. auto.
Qed.

Variable CT : contract pp hf cmp.

Lemma vapp_vstore : forall v s, match s with SMap _ => False | _ => True end -> vapp v s = vstore v s.
Proof. intros v s H. destruct s; auto. contradiction. Qed.
Lemma vstore_cap : forall v s, v_cap (vstore v s) = v_cap v.
Proof. intros v s. destruct s; auto. Qed.
Definition VW (v : vmap) : Prop := exists e, (3 <= e <= 31)%N /\ v_cap v = (2 ^ e)%N.
Lemma VW_wf : forall v, VW v -> wf (asmap v).
Proof. intros v H. split; [exact H | reflexivity]. Qed.

(** ** Keys that a lookup must find *)
Definition Pres (v : vmap) (L : list store) (k : N) : Prop := exists w v1 w1, fnd k w (asmap v) /\ loc k v w L v1 w1.
(** a scan that has passed [n] of [lim] slots will find it *)
Definition Wit (v : vmap) (L : list store) (k : N) (n lim : nat) : Prop := exists w v1 w1, n <= w < lim /\ fnd k w (asmap v) /\ loc k v w L v1 w1.
Lemma pres_step : forall v s L k, Pres v (s :: L) k -> Pres (vapp v s) L k.
Proof. intros v s L k (w & v1 & w1 & F & H). inversion H; subst. red. eauto. Qed.
Lemma pres_nil : forall v L k, Pres v L k -> Pres v [] k.
Proof. intros v L k (w & v1 & w1 & F & H). exists w, v, w. split; auto. constructor. Qed.
Lemma wit_nil : forall v L k n lim, Wit v L k n lim -> Wit v [] k n lim.
Proof. intros v L k n lim (w & v1 & w1 & W & F & H). exists w, v, w. split; auto. split; auto. constructor. Qed.
(** with at least 1024 slots the writer signals with the reader's counter *)
Lemma idx_big : forall v h, VW v -> (1024 <= v_cap v)%N -> ((h mod v_cap v) mod 1024 = h mod 1024)%N.
Proof.
  intros v h (e & E & Ec) L. rewrite Ec in *. assert (10 <= e)%N.
  { destruct (N.le_gt_cases 10 e); auto. exfalso. assert (2 ^ e <= 2 ^ 9)%N by (apply N.pow_le_mono_r; lia). change (2 ^ 9)%N with 512%N in *. lia. }
  replace (2 ^ e)%N with (1024 * 2 ^ (e - 10))%N by (change 1024%N with (2 ^ 10)%N; rewrite <- N.pow_add_r; f_equal; lia).
  assert (2 ^ (e - 10) <> 0)%N by (apply N.pow_nonzero; lia).
  rewrite N.mod_mul_r by lia. rewrite (N.mul_comm 1024 ((h / 1024) mod _)), N.mod_add by lia. apply N.mod_mod. lia.
Qed.
Lemma wit_step : forall v s L k n lim, VW v -> (1024 <= v_cap v)%N /\ s <> SGen (hf k mod 1024) \/ match s with SGen _ => False | _ => True end -> match s with SMap _ => False | _ => True end ->
  Wit v (s :: L) k n lim -> Wit (vapp v s) L k n lim.
Proof.
  intros v s L k n lim V C NM (w & v1 & w1 & W & F & H). inversion H as [|v0 w0 s0 L0 w' v2 w2 M F' H']; subst.
  destruct M as [-> | M]; [red; eauto 10|]. exfalso. destruct C as [[C NS] | C]; destruct s; try contradiction. change (cap (asmap v)) with (v_cap v) in M. rewrite idx_big in M by auto.
  destruct M as [-> | ->]; apply NS; auto.
Qed.
(** a present key is within the bounds *)
Lemma fnd_bound : forall k w v, fnd k w (asmap v) -> w < v_max v /\ (rmode = false -> aget 0 (v_bnd v) (hf k mod v_cap v)%N <> WORD_MAX -> w < aget 0 (v_bnd v) (hf k mod v_cap v)%N).
Proof.
  intros k w v (_ & _ & _ & F4 & F5). split; [exact F5|]. intros E N. unfold bound_get in F4. rewrite E in F4. unfold bnd in F4.
  change (a_bnd (asmap v)) with (v_bnd v) in F4. change (cap (asmap v)) with (v_cap v) in F4.
  destruct (Nat.eqb_spec (aget 0 (v_bnd v) (hf k mod v_cap v)%N) WORD_MAX); [contradiction | lia].
Qed.
Lemma st_pres : forall m A x k v, st m A x -> valid k -> mem k A = true -> view m = v -> Pres v [] k.
Proof.
  intros m A x k v S V M E. pose proof S as [I P _ _]. unfold Rhs_Spec.mem in M. apply existsb_exists in M. destruct M as (z & Z & SZ).
  pose proof (st_valid rmode pp hf cmp m A x z S Z) as Vz.
  destruct (cont_fnd rmode pp hf cmp m k z I) as (w & F); auto; [rewrite P; auto | apply (c_hash _ _ _ CT); auto|].
  exists w, v, w. split; [|constructor]. eapply fnd_view; [|exact F]. rewrite E. destruct v; reflexivity.
Qed.

(** ** Contents *)
Definition Sub (B : list N) (v : vmap) : Prop := forall t, (t < v_cap v)%N -> wok B (aget 0%N (v_ent v) t).
Lemma Sub_incl : forall B B' v, (forall x, In x B -> In x B') -> Sub B v -> Sub B' v.
Proof. intros B B' v I H t T. eapply wok_incl; [|apply H; auto]. exact I. Qed.
Lemma Sub_store : forall B v s, sok B s -> Sub B v -> Sub B (vstore v s).
Proof.
  intros B v s So H. destruct s as [i w|i n|n|i|u]; auto. intros t T. simpl in *.
  destruct (N.eq_dec t i) as [->|NE]; [rewrite aget_aset; unfold updN; rewrite N.eqb_refl; auto|].
  rewrite aget_aset. unfold updN. destruct (N.eqb_spec t i); [contradiction|]. apply H; auto.
Qed.
Lemma st_sub : forall m A x v, st m A x -> view m = v -> Sub A v.
Proof.
  intros m A x v [I P _ _] <- t T. apply (cont_wok rmode pp hf m t A I); auto. intros y Y. rewrite <- P. auto.
Qed.

(** ** Readers *)
(** [dd] signals since the generation was read *)
Definition G (x g dd : N) : Prop := (dd = 0%N /\ x = g) \/ ((0 < dd)%N /\ x = ((g + dd) mod 2 ^ 32)%N).
Lemma G_sig : forall x g dd, G x g dd -> G ((x + 1) mod 2 ^ 32) g (dd + 1).
Proof.
  intros x g dd H. right. split; [lia|]. destruct H as [(E & H) | (E & H)]; rewrite H.
  - subst dd. reflexivity.
  - rewrite N.add_mod_idemp_l by discriminate. rewrite N.add_assoc. reflexivity.
Qed.
Lemma G_eq : forall x g dd, G x g dd -> x = g -> dd = 0%N \/ (2 ^ 32 <= dd)%N.
Proof.
  intros x g dd [(E & H) | (E & H)] EG; auto. right. rewrite EG in H.
  assert (L : (g < 2 ^ 32)%N) by (rewrite H; apply N.mod_lt; discriminate).
  destruct (N.lt_ge_cases dd (2 ^ 32)) as [D | D]; auto. exfalso.
  remember (2 ^ 32)%N as M. assert (MZ : M <> 0%N) by (subst; discriminate). clear HeqM.
  destruct (N.lt_ge_cases (g + dd) M) as [X | X].
  - rewrite N.mod_small in H by auto. lia.
  - replace (g + dd)%N with (g + dd - M + 1 * M)%N in H by lia. rewrite N.mod_add in H by auto. rewrite N.mod_small in H by lia. lia.
Qed.

Definition stok (v : vmap) (h : N) (lim : nat) (q : pst) : Prop := q_off q = pi (asmap v) h (q_n q) /\ q_lim q = lim.
(** [f]: the generations of the map; [L]: the stores still to be made there; [must], [may],
    [sg], [bg]: the fields of the pending lookup *)
Definition rinv (v : vmap) (f : N -> N) (L : list store) (r : rst) (must : bool) (may : list N) (sg : N) (bg : bool) : Prop :=
  (bg = true -> (1024 <= v_cap v)%N) /\
  match r with
  | RIdle | RMap _ => True
  | RGen k _ => Sub may v /\ (must = true -> Pres v L k)
  | RBnd k _ g | RMax k _ g => Sub may v /\ (must = true -> Pres v L k) /\ exists dd, (dd <= sg)%N /\ G (f (hf k mod 1024)%N) g dd
  | RScan k _ g lim q => Sub may v /\ stok v (hf k) lim q /\
      exists dd, (dd <= sg)%N /\ G (f (hf k mod 1024)%N) g dd /\ (must = true -> bg = true \/ sg = 0%N -> dd = 0%N -> Wit v L k (q_n q) lim)
  | RChk k _ g x => (x <> 0%N -> same x k = true /\ In x may) /\
      exists dd, (dd <= sg)%N /\ G (f (hf k mod 1024)%N) g dd /\ (must = true -> bg = true \/ sg = 0%N -> dd = 0%N -> x <> 0%N)
  end.
Definition rkey (r : rst) : option N :=
  match r with RIdle => None | RMap k | RGen k _ | RBnd k _ _ | RMax k _ _ | RScan k _ _ _ _ | RChk k _ _ _ => Some k end.
Definition rmapi (r : rst) : option nat :=
  match r with RIdle | RMap _ => None | RGen _ i | RBnd _ i _ | RMax _ i _ | RScan _ i _ _ _ | RChk _ i _ _ => Some i end.

(** the lookup's demands only become weaker *)
Lemma rinv_weak : forall v f L r k must may sg bg L' must' may' sg' bg', rkey r = Some k -> rinv v f L r must may sg bg -> (must' = true -> must = true) ->
  (forall x, In x may -> In x may') -> (sg <= sg')%N -> (bg' = true -> bg = true) ->
  (must' = true -> forall w v1 w1, fnd k w (asmap v) -> loc k v w L v1 w1 -> exists v2 w2, loc k v w L' v2 w2) -> rinv v f L' r must' may' sg' bg'.
Proof.
  intros v f L r k must may sg bg L' must' may' sg' bg' RK (HB & H) HM HA HS HG HL. split; [auto|].
  assert (HP : must' = true -> Pres v L k -> Pres v L' k).
  { intros M (w & v1 & w1 & F & Q). destruct (HL M w v1 w1 F Q) as (v2 & w2 & Q2). red. eauto. }
  assert (HW : forall n lim, must' = true -> Wit v L k n lim -> Wit v L' k n lim).
  { intros n lim M (w & v1 & w1 & W & F & Q). destruct (HL M w v1 w1 F Q) as (v2 & w2 & Q2). red. eauto 10. }
  assert (HSub : Sub may v -> Sub may' v) by (apply Sub_incl; auto).
  assert (HO : bg' = true \/ sg' = 0%N -> bg = true \/ sg = 0%N) by (intros [X | X]; [auto | right; lia]).
  destruct r; simpl in *; auto; injection RK as ->.
  - destruct H as (A & B). auto.
  - destruct H as (A & B & dd & D1 & D). split; auto. split; auto. exists dd. split; auto. lia.
  - destruct H as (A & B & dd & D1 & D). split; auto. split; auto. exists dd. split; auto. lia.
  - destruct H as (A & B & dd & D1 & D & W). split; auto. split; auto. exists dd. split; [lia|]. auto.
  - destruct H as (A & dd & D1 & D & W). split; [intros NZ; destruct (A NZ); auto|]. exists dd. split; [lia|]. auto 10.
Qed.
(** a store of the writer in the map the reader is in *)
Definition fapp (f : N -> N) (s : store) : N -> N := match s with SGen i => bump1 f i | _ => f end.
Lemma rinv_store : forall v f s L r k must may sg bg, rkey r = Some k -> VW v -> match s with SMap _ => False | _ => True end -> sok may s ->
  rinv v f (s :: L) r must may sg bg -> rinv (vstore v s) (fapp f s) L r must may (match s with SGen _ => sg + 1 | _ => sg end)%N bg.
Proof.
  intros v f s L r k must may sg bg RK V NM So (HB & H). split; [rewrite vstore_cap; auto|].
  assert (GG : forall g dd, (dd <= sg)%N -> G (f (hf k mod 1024)%N) g dd -> exists dd', (dd' <= match s with SGen _ => sg + 1 | _ => sg end)%N /\ G (fapp f s (hf k mod 1024)%N) g dd' /\
     (dd' = 0%N -> dd = 0%N /\ s <> SGen (hf k mod 1024))).
  { intros g dd D1 D. destruct s as [i w|i n|n|i|u]; try (exists dd; split; [exact D1|]; split; [exact D|]; intros; split; [auto|discriminate]).
    simpl. unfold bump1. destruct (N.eqb_spec (hf k mod 1024) i) as [E | E].
    - subst i. exists (dd + 1)%N. split; [lia|]. split; [apply G_sig; auto|]. lia.
    - exists dd. split; [lia|]. split; [auto|]. intros; split; auto; congruence. }
  assert (HP : Pres v (s :: L) k -> Pres (vstore v s) L k) by (rewrite <- vapp_vstore by auto; apply pres_step).
  assert (HS : Sub may v -> Sub may (vstore v s)) by (apply Sub_store; auto).
  destruct r; simpl in RK; try discriminate; injection RK as RK; subst k0; simpl in *; auto.
  - destruct H as (A & B). auto.
  - destruct H as (A & B & dd & D1 & D). split; auto. split; auto. destruct (GG _ _ D1 D) as (dd' & X1 & X2 & _). exists dd'. auto.
  - destruct H as (A & B & dd & D1 & D). split; auto. split; auto. destruct (GG _ _ D1 D) as (dd' & X1 & X2 & _). exists dd'. auto.
  - destruct H as (A & (B1 & B2) & dd & D1 & D & WI). split; auto. split; [split; auto; rewrite B1; symmetry; apply pi_cap; apply vstore_cap|].
    destruct (GG _ _ D1 D) as (dd' & X1 & X2 & X3). exists dd'. split; auto. split; auto. intros M B Z. destruct (X3 Z) as (Z1 & Z2).
    rewrite <- vapp_vstore by auto. apply wit_step; auto.
    + destruct B as [B | B]; [left; auto|]. right. destruct s; auto. lia.
    + apply WI; auto. destruct B as [B | B]; auto. right. destruct s; auto. lia.
  - destruct H as (A & dd & D1 & D & WI). split; auto.
    destruct (GG _ _ D1 D) as (dd' & X1 & X2 & X3). exists dd'. split; auto. split; auto. intros M B Z. destruct (X3 Z) as (Z1 & Z2). apply WI; auto.
    destruct B as [B | B]; auto. right. destruct s; auto. lia.
Qed.

(** ** One slot *)
Lemma scan_ok : forall v L k lim q must may, VW v -> valid k -> stok v (hf k) lim q -> Sub may v ->
  (must = true -> Wit v L k (q_n q) lim) ->
  match piter rmode pp cmp (asmap v) lim BNoRh (hf k) k q with
  | inl q' => stok v (hf k) lim q' /\ (must = true -> Wit v L k (q_n q') lim)
  | inr r => (r_obj r <> 0%N -> same (r_obj r) k = true /\ In (r_obj r) may) /\ (must = true -> r_obj r <> 0%N)
  end.
Proof.
  intros v L k lim [off n l pr np] must may V Vk (EO & EL) SUB WI. cbn [q_off q_n q_lim] in *. subst off l. unfold piter. cbn [q_off q_n q_lim q_pr q_np].
  rewrite Nat.eqb_refl. cbn [orb andb]. rewrite andb_true_r.
  set (s := pi (asmap v) (hf k) n) in *.
  destruct (Nat.eqb_spec n lim) as [HE | HE].
  - unfold leave. split; [|intros M; destruct (WI M) as (w & v1 & w1 & W & _); lia].
    simpl. destruct (Nat.ltb lim (S n)); intros X; exfalso; apply X; reflexivity.
  - assert (NXT : must = true -> ent (asmap v) s <> 0%N /\ ((exists z, valid z /\ same z k = true /\ ent (asmap v) s = marshal z (hf z)) \/ Wit v L k (S n) lim)).
    { intros M. destruct (WI M) as (w & v1 & w1 & W & F & Lo). destruct (Nat.eq_dec w n) as [E | E].
      - subst w. split; [apply (fnd_word rmode pp hf cmp _ _ _ F)|]. left. destruct F as (_ & (z & Z1 & Z2 & _ & Z3) & _). exists z. auto.
      - split; [apply F; lia|]. right. exists w, v1, w1. split; [lia|]. auto. }
    destruct (N.eqb_spec (ent (asmap v) s) 0) as [E0 | E0].
    { unfold leave. simpl. split; [|intros M; exfalso; destruct (NXT M); auto]. destruct (Nat.ltb lim (S n)); intros X; exfalso; apply X; reflexivity. }
    assert (SL : (s < v_cap v)%N) by (apply (pi_lt rmode (asmap v)); apply VW_wf; auto).
    destruct (SUB s SL) as [X | (z & Vz & Iz & Ez)]; [contradiction|]. change (aget 0%N (v_ent v) s) with (ent (asmap v) s) in Ez.
    rewrite Ez, (match_same pp hf cmp CT z k Vz Vk). destruct (same z k) eqn:ES.
    + unfold leave. simpl. destruct (Nat.ltb_spec lim (S n)) as [X | X].
      * split; [intros Y; exfalso; apply Y; reflexivity|]. intros M. destruct (WI M) as (w & v1 & w1 & W & _). lia.
      * rewrite (val_marshal pp) by auto. split; auto. intros _. apply Vz.
    + split.
      * split; auto.
      * intros M. destruct (NXT M) as (_ & [(z' & V' & S' & E') | X]); auto. exfalso. rewrite Ez in E'. apply (marshal_inj pp hf) in E'; auto. congruence.
Qed.

(** ** The whole system *)
Definition tl_of (s : cst) : list store := match todo s with Some tr => tr | None => [] end.
Definition pend (s : cst) (i : nat) : list store := if Nat.eq_dec i (cur s) then tl_of s else [].
Record R (s : cst) (g : obs) : Prop := {
  R_cl : cl s = o_new g;
  R_idle : todo s = None -> o_old g = o_new g;
  R_st : exists x, st (mp (whs s)) (o_new g) x;
  R_view : fold_left vapp (tl_of s) (maps s (cur s)) = view (mp (whs s));
  R_pp : forall k, valid k -> mem k (o_old g) = true -> mem k (o_new g) = true -> Pres (maps s (cur s)) (tl_of s) k;
  R_sok : Forall (sok (o_old g ++ o_new g)) (tl_of s);
  R_sub : Sub (o_old g ++ o_new g) (maps s (cur s));
  R_cur : cur s < nxt s;
  R_vw : forall i, i < nxt s -> VW (maps s i);
  R_cap : v_cap (maps s (cur s)) = o_cap g;
  R_key : forall t, rkey (rd s t) = option_map l_key (o_rd g t);
  R_look : forall t l, o_rd g t = Some l -> valid (l_key l) /\ (forall x, In x (o_old g ++ o_new g) -> In x (l_may l)) /\
    (l_must l = true -> mem (l_key l) (o_old g) = true /\ mem (l_key l) (o_new g) = true) /\ (l_big l = true -> (1024 <= o_cap g)%N);
  R_rd : forall t l, o_rd g t = Some l -> forall i, rmapi (rd s t) = Some i ->
      i < nxt s /\ rinv (maps s i) (gens s i) (pend s i) (rd s t) (l_must l) (l_may l) (l_sig l) (l_big l) }.

Lemma legal_True : forall A o r P, legal cmp A o r P -> legal cmp A o r True.
Proof. intros A o r P. destruct o; simpl; auto; destruct (fst r); intros H; tauto. Qed.
Definition g0 (n : N) : obs := obs0 (v_cap (maps (cinit n) 0)).
Lemma init_R : forall n, R (cinit n) (g0 n).
Proof.
  intros n. pose proof (create_st rmode pp hf cmp 50 n false) as S. pose proof (create_inv rmode pp hf 50 n) as (I & EC & _).
  unfold g0. remember (create 50 n) as c eqn:Ec. split; simpl; unfold tl_of, pend; simpl; rewrite <- ?Ec; auto; try (intros; discriminate).
  - eauto.
  - intros t T. left. rewrite Ec. apply aget_empty.
  - intros _ _. exact (proj1 (i_wf _ _ _ _ _ _ (proj1 I))).
Qed.

(** a step of a reader: the other threads and the writer are untouched *)
Lemma reader_R : forall s g t r, R s g -> rkey r = rkey (rd s t) ->
  (forall l i, o_rd g t = Some l -> rmapi r = Some i ->
     (forall j, rmapi (rd s t) = Some j -> j < nxt s /\ rinv (maps s j) (gens s j) (pend s j) (rd s t) (l_must l) (l_may l) (l_sig l) (l_big l)) ->
     i < nxt s /\ rinv (maps s i) (gens s i) (pend s i) r (l_must l) (l_may l) (l_sig l) (l_big l)) ->
  R (set_rd s t r) g.
Proof.
  intros s g t r HR RK H. destruct HR as [R1 R2 R3 R4 R5 R6 R7 R8 R9 R10 R11 R12 R13]. split; auto.
  - intros t'. simpl. unfold upd. destruct (Nat.eq_dec t' t) as [->|NE]; auto. rewrite RK. auto.
  - intros t' l E i. simpl. unfold upd. destruct (Nat.eq_dec t' t) as [->|NE]; intros E'; [|apply (R13 t'); auto]. apply (H l i); auto.
Qed.
Lemma rd_key : forall s g t k, R s g -> rkey (rd s t) = Some k -> exists l, o_rd g t = Some l /\ l_key l = k /\ valid k.
Proof.
  intros s g t k HR E. rewrite (R_key _ _ HR) in E. destruct (o_rd g t) as [l|] eqn:EL; [|discriminate]. injection E as E. subst.
  exists l. split; auto. split; auto. apply (R_look _ _ HR t l EL).
Qed.
Lemma scan_start : forall s g t k i gg lim, R s g -> (rd s t = RBnd k i gg \/ rd s t = RMax k i gg) ->
  (forall w, fnd k w (asmap (maps s i)) -> w < lim) -> R (set_rd s t (RScan k i gg lim (scan0 (maps s i) (hf k) lim))) g.
Proof.
  intros s g t k i gg lim HR ER HL. apply reader_R; [auto|destruct ER as [-> | ->]; auto|].
  intros l j L E HJ. injection E as <-. destruct (HJ i) as (J1 & J0 & J2); [destruct ER as [-> | ->]; auto|]. split; auto. split; auto.
  assert (Q : Sub (l_may l) (maps s i) /\ (l_must l = true -> Pres (maps s i) (pend s i) k) /\ exists dd, (dd <= l_sig l)%N /\ G (gens s i (hf k mod 1024)%N) gg dd)
    by (destruct ER as [E | E]; rewrite E in J2; exact J2).
  destruct Q as (S1 & S2 & dd & D1 & D2). split; auto. split; [split; reflexivity|]. exists dd. split; auto. split; auto.
  intros M _ _. destruct (S2 M) as (w & v1 & w1 & F & Lo). exists w, v1, w1. split; auto. split; [simpl; lia|]. apply HL; auto.
Qed.

Lemma rstep_R : forall s g t s' ev, R s g -> rstep rmode pp hf cmp s t = Some (s', ev) -> legal_from (onext cmp) (ook cmp) g ev /\ R s' (gfold (onext cmp) ev g).
Proof.
  intros s g t s' ev HR H. unfold rstep in H. destruct (rd s t) as [|k|k i|k i gg|k i gg|k i gg lim q|k i gg v] eqn:ER; [discriminate| | | | | |].
  - (* load hs->map *) injection H as <- <-. split; [exact Logic.I|]. simpl. apply reader_R; [auto|rewrite ER; auto|].
    intros l i L E HJ. injection E as <-. destruct (R_look _ _ HR t l L) as (V & MAY & MUST & BIG).
    assert (EK : l_key l = k). { pose proof (R_key _ _ HR t) as X. rewrite ER, L in X. simpl in X. congruence. }
    split; [apply (R_cur _ _ HR)|]. split; [rewrite (R_cap _ _ HR); auto|]. split.
    + eapply Sub_incl; [|apply (R_sub _ _ HR)]. auto.
    + intros M. destruct (MUST M). subst k. unfold pend. destruct (Nat.eq_dec (cur s) (cur s)); [|contradiction]. apply (R_pp _ _ HR); auto.
  - (* load the generation *) injection H as <- <-. split; [exact Logic.I|]. simpl. apply reader_R; [auto|rewrite ER; auto|].
    intros l j L E HJ. injection E as <-. destruct (HJ i) as (J1 & J0 & J2); [rewrite ER; auto|]. rewrite ER in J2. split; auto. split; auto.
    destruct J2 as (S1 & S2). split; auto. split; auto. exists 0%N. split; [lia|]. left. auto.
  - (* load the bound *)
    destruct rmode eqn:ED.
    + injection H as <- <-. split; [exact Logic.I|]. apply scan_start; auto. intros w F. apply (fnd_bound _ _ _ F).
    + destruct (Nat.eqb_spec (aget 0 (v_bnd (maps s i)) (hf k mod v_cap (maps s i))%N) WORD_MAX) as [E255 | E255]; injection H as <- <-; (split; [exact Logic.I|]).
      * apply reader_R; [auto|rewrite ER; auto|]. intros l j L E HJ. injection E as <-.
        destruct (HJ i) as (J1 & J2); [rewrite ER; auto|]. rewrite ER in J2. split; auto.
      * apply scan_start; auto. intros w F. apply (fnd_bound _ _ _ F); auto.
  - (* load the maximum *) injection H as <- <-. split; [exact Logic.I|]. apply scan_start; auto. intros w F. apply (fnd_bound _ _ _ F).
  - (* one slot *)
    destruct (rd_key s g t k HR) as (l' & L' & K & V); [rewrite ER; auto|].
    assert (G1 : forall l, o_rd g t = Some l -> (forall j, rmapi (rd s t) = Some j -> j < nxt s /\ rinv (maps s j) (gens s j) (pend s j) (rd s t) (l_must l) (l_may l) (l_sig l) (l_big l)) ->
       i < nxt s /\ (l_big l = true -> (1024 <= v_cap (maps s i))%N) /\ Sub (l_may l) (maps s i) /\ exists dd, (dd <= l_sig l)%N /\ G (gens s i (hf k mod 1024)%N) gg dd /\
       match piter rmode pp cmp (asmap (maps s i)) lim BNoRh (hf k) k q with
       | inl q' => stok (maps s i) (hf k) lim q' /\ (l_must l = true -> l_big l = true \/ l_sig l = 0%N -> dd = 0%N -> Wit (maps s i) (pend s i) k (q_n q') lim)
       | inr r => (r_obj r <> 0%N -> same (r_obj r) k = true /\ In (r_obj r) (l_may l)) /\ (l_must l = true -> l_big l = true \/ l_sig l = 0%N -> dd = 0%N -> r_obj r <> 0%N)
       end).
    { intros l L HJ. destruct (HJ i) as (J1 & J0 & J2); [rewrite ER; auto|]. rewrite ER in J2.
      destruct J2 as (S1 & S2 & dd & D1 & D2 & D3). split; auto. split; auto. split; auto. exists dd. split; auto. split; auto.
      pose proof (scan_ok (maps s i) (pend s i) k lim q (l_must l && (l_big l || N.eqb (l_sig l) 0) && N.eqb dd 0) (l_may l) (R_vw _ _ HR i J1) V S2 S1) as SC.
      assert (X : l_must l && (l_big l || N.eqb (l_sig l) 0) && N.eqb dd 0 = true -> l_must l = true /\ (l_big l = true \/ l_sig l = 0%N) /\ dd = 0%N).
      { intros X. apply andb_prop in X. destruct X as (X & Y). apply N.eqb_eq in Y. apply andb_prop in X. destruct X as (X & X').
        apply orb_prop in X'. rewrite N.eqb_eq in X'. auto. }
      assert (X0 : l_big l = true \/ l_sig l = 0%N -> l_big l || N.eqb (l_sig l) 0 = true) by (intros Y; apply orb_true_iff; rewrite N.eqb_eq; auto).
      destruct (piter rmode pp cmp (asmap (maps s i)) lim BNoRh (hf k) k q) as [q' | r].
      - destruct SC as (A & B). { intros Y. destruct (X Y) as (Y1 & Y2 & Y3). auto. }
        split; auto. intros M Bg Z. apply B. rewrite M, (X0 Bg), Z. reflexivity.
      - destruct SC as (A & B). { intros Y. destruct (X Y) as (Y1 & Y2 & Y3). auto. }
        split; auto. intros M Bg Z. apply B. rewrite M, (X0 Bg), Z. reflexivity. }
    destruct (piter rmode pp cmp (asmap (maps s i)) lim BNoRh (hf k) k q) as [q' | r]; injection H as <- <-; (split; [exact Logic.I|]); (apply reader_R; [auto|rewrite ER; auto|]);
      intros l j L E HJ; injection E as <-; destruct (G1 l L HJ) as (J1 & J0 & S1 & dd & D1 & D2 & D3); (split; [auto|]); (split; [auto|]); simpl.
    + destruct D3 as (A & B). split; auto. split; auto. exists dd. auto.
    + destruct D3 as (A & B). split; auto. exists dd. auto.
  - (* check *)
    destruct (rd_key s g t k HR) as (l & L & K & V); [rewrite ER; auto|].
    destruct (N.eqb_spec (gen_of hf s i k) gg) as [EG | EG]; injection H as <- <-.
    + split.
      * split; [|exact Logic.I]. exists l. split; auto. destruct (R_rd _ _ HR t l L i) as (J1 & J0 & J2); [rewrite ER; auto|].
        rewrite ER in J2. destruct J2 as (S1 & dd & D1 & D2 & D3). destruct (N.eqb_spec v 0) as [Z | Z].
        -- destruct (l_must l); auto. right. destruct (G_eq _ _ _ D2 EG) as [X | X]; [|right; lia]. left.
           destruct (l_big l); [exfalso; apply (D3 eq_refl (or_introl eq_refl) X); auto|]. split; auto. intros Y. apply (D3 eq_refl (or_intror Y) X); auto.
        -- destruct (S1 Z). rewrite K. auto.
      * simpl. destruct HR as [R1 R2 R3 R4 R5 R6 R7 R8 R9 R10 R11 R12 R13]. split; auto.
        -- intros t'. simpl. unfold upd. destruct (Nat.eq_dec t' t) as [->|NE]; auto.
        -- intros t' l' L'. simpl in *. unfold upd in *. destruct (Nat.eq_dec t' t) as [->|NE]; [discriminate|]. apply (R12 t'); auto.
        -- intros t' l' L'. simpl in *. unfold upd in *. destruct (Nat.eq_dec t' t) as [->|NE]; [discriminate|]. apply (R13 t' l' L').
    + split; [exact Logic.I|]. apply reader_R; [auto|rewrite ER; auto|]. intros l0 j L0 E. discriminate.
Qed.

(** the operation that the writer starts *)
Lemma call_facts : forall hs A x A' x' hs', st (mp hs) A x -> st (mp hs') A' x' -> TA rmode pp hf cmp A' A (mp hs) (mp hs') ->
  let L := stores (mp hs) (mp hs') in
  fold_left vapp L (view (mp hs)) = view (mp hs') /\ Forall (sok (A ++ A')) L /\
  forall k w, valid k -> mem k A' = true -> fnd k w (asmap (view (mp hs))) -> exists v1 w1, loc k (view (mp hs)) w L v1 w1.
Proof.
  intros hs A x A' x' hs' S S' T L. unfold L. clear L.
  destruct (T false 0%N 0) as (w' & H & _); [discriminate|]. destruct (tr_list _ _ _ _ _ _ _ H) as (new & I1 & I2 & I3 & _).
  rewrite (stores_eq _ _ new I1). split; auto. split; auto. intros k w V M F.
  destruct (T true k w) as (w2 & H2 & _).
  - intros _. split; auto. split; auto. eapply fnd_view; [|exact F]. destruct (mp hs); reflexivity.
  - destruct (tr_list _ _ _ _ _ _ _ H2) as (new2 & J1 & _ & _ & J4). rewrite J1 in I1. apply app_inv_tail in I1. subst new2. eauto.
Qed.

Lemma step_R : forall s g l s' ev, R s g -> step s l = Some (s', ev) -> legal_from (onext cmp) (ook cmp) g ev /\ R s' (gfold (onext cmp) ev g).
Proof.
  intros s g l s' ev HR H. destruct l as [o fuel| | |t k|t]; simpl in H.
  - (* call *)
    destruct (todo s) eqn:ET; [discriminate|]. destruct (preb pp cmp (cl s) o && roomb rmode (cl s)) eqn:EP; [|discriminate].
    apply andb_prop in EP. destruct EP as (EP & ERm). apply preb_ok in EP. apply Nat.leb_le in ERm.
    destruct (R_st _ _ HR) as (x & S). pose proof (R_view _ _ HR) as EV. unfold tl_of in EV. rewrite ET in EV. simpl in EV.
    pose proof (R_cl _ _ HR) as Ecl. rewrite Ecl in *.
    pose proof (op_ok rmode pp hf cmp oracle CT fuel (whs s) o (o_new g) x S ERm EP) as K.
    destruct (run1 rmode pp hf cmp oracle fuel (whs s) o) as [(hs & r)| | |]; [|discriminate|destruct K|discriminate].
    destruct (quietb o (whs s) hs) eqn:EQ; [|discriminate]. injection H as <- <-.
    assert (Q : quiet o (whs s) hs) by (destruct o; simpl in *; auto; apply Nat.eqb_eq; auto).
    destruct (K Q) as (K1 & K2 & K3). split; [split; [eapply legal_True; eauto|exact Logic.I]|].
    simpl. set (B := aop cmp (o_new g) o r) in *. destruct (call_facts _ _ _ _ _ _ S K1 K3) as (C1 & C2 & C3). cbv zeta in C1, C2, C3.
    set (L := stores (mp (whs s)) (mp hs)) in *. rewrite <- EV in C1, C3.
    assert (LP : forall k, valid k -> mem k (o_new g) = true -> mem k B = true -> Pres (maps s (cur s)) L k).
    { intros k V M M'. destruct (st_pres _ _ _ k (maps s (cur s)) S V M) as (w & v1 & w1 & F & _); [auto|].
      destruct (C3 k w V M' F) as (v2 & w2 & Lo). red. eauto. }
    split; simpl; auto; try (intros; discriminate).
    + eauto.
    + eapply Sub_incl; [|apply (st_sub _ _ _ _ S); auto]. intros y Y. apply in_or_app. auto.
    + apply (R_cur _ _ HR).
    + apply (R_vw _ _ HR).
    + apply (R_cap _ _ HR).
    + intros t. rewrite (R_key _ _ HR t). destruct (o_rd g t); auto.
    + intros t l El. destruct (o_rd g t) as [l0|] eqn:EL; [|discriminate]. injection El as <-. destruct (R_look _ _ HR t l0 EL) as (V & MAY & MUST & BIG).
      simpl. split; auto. split; [|split; auto].
      * intros y Y. apply in_or_app. apply in_app_or in Y. destruct Y as [Y | Y]; auto. left. apply MAY. apply in_or_app; auto.
      * intros X. apply andb_prop in X. destruct X as (X & Y). destruct (MUST X). auto.
    + intros t l El i E. destruct (o_rd g t) as [l0|] eqn:EL; [|discriminate]. injection El as <-. destruct (R_rd _ _ HR t l0 EL i E) as (J1 & J2). split; auto.
      simpl. pose proof (R_key _ _ HR t) as RK. rewrite EL in RK. simpl in RK. destruct (R_look _ _ HR t l0 EL) as (V & _).
      apply (rinv_weak _ _ _ _ _ _ _ _ _ _ _ _ _ _ RK J2); auto; [intros X; apply andb_prop in X; tauto | intros; apply in_or_app; auto | lia|].
      intros X w v1 w1 F _. apply andb_prop in X. destruct X as (_ & X). unfold pend. simpl. destruct (Nat.eq_dec i (cur s)) as [->|NE].
      * apply C3; auto.
      * eexists _, _. constructor.
  - (* store *)
    destruct (todo s) as [[|x tr]|] eqn:ET; try discriminate.
    assert (TL : tl_of s = x :: tr) by (unfold tl_of; rewrite ET; auto).
    pose proof (R_sok _ _ HR) as RS. pose proof (R_view _ _ HR) as RV. pose proof (R_pp _ _ HR) as RP. rewrite TL in RS, RV, RP. inversion RS as [|x0 tr0 So RS']; subst. simpl in RV.
    pose proof (R_cur _ _ HR) as RC.
    assert (CASE : (exists u, x = SMap u) \/ match x with SMap _ => False | _ => True end) by (destruct x; eauto).
    destruct CASE as [(u & ->) | NM].
    + injection H as <- <-. split; [split; exact Logic.I|]. destruct So as (So1 & So2). simpl in RV.
      split; simpl; unfold tl_of; simpl; rewrite ?upd_same; auto; try (intros; discriminate).
      * apply (R_cl _ _ HR).
      * apply (R_st _ _ HR).
      * intros k V M0 M1. exact (pres_step _ _ _ _ (RP k V M0 M1)).
      * intros i I. unfold upd. destruct (Nat.eq_dec i (nxt s)); [exact So1|apply (R_vw _ _ HR); lia].
      * intros t. rewrite (R_key _ _ HR t). destruct (o_rd g t); auto.
      * intros t l El. destruct (o_rd g t) as [l0|] eqn:EL; [|discriminate]. injection El as <-. destruct (R_look _ _ HR t l0 EL) as (V & MAY & MUST & BIG).
        simpl. split; auto. split; auto. split; auto. intros X. apply andb_prop in X. destruct X as (_ & X). apply N.leb_le. exact X.
      * intros t l El i E. destruct (o_rd g t) as [l0|] eqn:EL; [|discriminate]. injection El as <-. destruct (R_rd _ _ HR t l0 EL i E) as (J1 & J2). split; [lia|].
        unfold pend. simpl. rewrite !upd_other by lia. destruct (Nat.eq_dec i (nxt s)); [lia|].
        pose proof (R_key _ _ HR t) as RK. rewrite EL in RK. simpl in RK.
        apply (rinv_weak _ _ _ _ _ _ _ _ _ _ _ _ _ _ RK J2); auto; [lia | intros X; apply andb_prop in X; tauto|]. intros. eexists _, _. constructor.
    + set (v' := vstore (maps s (cur s)) x). set (f' := fapp (gens s (cur s)) x).
      assert (EQ : rd s' = rd s /\ cl s' = cl s /\ whs s' = whs s /\ cur s' = cur s /\ nxt s' = nxt s /\ todo s' = Some tr /\
        (forall i, maps s' i = upd (maps s) (cur s) v' i) /\ (forall i j, gens s' i j = upd (gens s) (cur s) f' i j) /\ ev = match x with SGen _ => [ESig] | _ => [] end).
      { destruct x; try contradiction; injection H as <- <-; simpl; do 6 (split; [reflexivity|]); (split; [intros i1|split; [intros i1 j1|reflexivity]]); unfold upd, v', f';
          destruct (Nat.eq_dec i1 (cur s)) as [E|]; try rewrite E; auto. }
      destruct EQ as (E1 & E2 & E3 & E4 & E5 & E6 & E7 & E8 & ->). clear H.
      assert (TL' : tl_of s' = tr) by (unfold tl_of; rewrite E6; auto).
      rewrite vapp_vstore in RV by auto. fold v' in RV.
      assert (RI : forall t l i, o_rd g t = Some l -> rmapi (rd s t) = Some i ->
        i < nxt s /\ rinv (maps s' i) (gens s' i) (pend s' i) (rd s t) (l_must l) (l_may l) (match x with SGen _ => l_sig l + 1 | _ => l_sig l end)%N (l_big l)).
      { intros t l i L E. destruct (R_rd _ _ HR t l L i E) as (J1 & J2). split; auto. destruct (R_look _ _ HR t l L) as (V & MAY & MUST & BIG).
        pose proof (R_key _ _ HR t) as RK. rewrite L in RK. simpl in RK. rewrite E7.
        assert (X : rinv (upd (maps s) (cur s) v' i) (upd (gens s) (cur s) f' i) (pend s' i) (rd s t) (l_must l) (l_may l) (match x with SGen _ => l_sig l + 1 | _ => l_sig l end)%N (l_big l)).
        { unfold pend in *. rewrite E4, TL'. unfold upd. destruct (Nat.eq_dec i (cur s)) as [->|NE].
          - rewrite TL in J2. apply (rinv_store _ _ _ _ _ _ _ _ _ _ RK); auto; [apply (R_vw _ _ HR); auto|]. eapply sok_incl; [|exact So]. exact MAY.
          - apply (rinv_weak _ _ _ _ _ _ _ _ _ _ _ _ _ _ RK J2); auto; [destruct x; lia|]. intros. eexists _, _. constructor. }
        (* the generations are equal pointwise *)
        destruct X as (X0 & X). split; auto. destruct (rd s t); auto; rewrite ?E8; auto. }
      set (ev := match x with SGen _ => [ESig] | _ => [] end).
      assert (LG : legal_from (onext cmp) (ook cmp) g ev) by (unfold ev; destruct x; simpl; auto).
      split; [exact LG|].
      assert (GO : o_old (gfold (onext cmp) ev g) = o_old g /\ o_new (gfold (onext cmp) ev g) = o_new g /\ o_cap (gfold (onext cmp) ev g) = o_cap g /\
                   forall t l, o_rd (gfold (onext cmp) ev g) t = Some l ->
                     exists l0, o_rd g t = Some l0 /\ l_key l = l_key l0 /\ l_must l = l_must l0 /\ l_may l = l_may l0 /\ l_sig l = (match x with SGen _ => l_sig l0 + 1 | _ => l_sig l0 end)%N /\ l_big l = l_big l0).
      { unfold ev. destruct x; simpl; (split; [auto|]; split; [auto|]; split; [auto|]); intros t l L; try (exists l; auto 10; fail).
        destruct (o_rd g t) as [l0|]; [|discriminate]. injection L as <-. exists l0. auto 10. }
      assert (GK : forall t, option_map l_key (o_rd (gfold (onext cmp) ev g) t) = option_map l_key (o_rd g t)).
      { intros t. unfold ev. destruct x; simpl; auto. destruct (o_rd g t); auto. }
      destruct GO as (GO1 & GO2 & GO3 & GO4). set (g' := gfold (onext cmp) ev g) in *. clearbody g'.
      split; rewrite ?GO1, ?GO2, ?GO3, ?E1, ?E2, ?E3, ?E4, ?E5, ?TL', ?E7, ?upd_same; auto.
      * apply (R_cl _ _ HR).
      * rewrite E6. discriminate.
      * apply (R_st _ _ HR).
      * intros k V M0 M1. pose proof (pres_step _ _ _ _ (RP k V M0 M1)) as X. rewrite vapp_vstore in X by auto. exact X.
      * apply Sub_store; auto. apply (R_sub _ _ HR).
      * intros i I. rewrite E7. unfold upd. destruct (Nat.eq_dec i (cur s)); [|apply (R_vw _ _ HR); auto]. subst i. destruct (R_vw _ _ HR _ RC) as (e & Q). exists e. unfold v'. rewrite vstore_cap. exact Q.
      * unfold v'. rewrite vstore_cap. apply (R_cap _ _ HR).
      * intros t. rewrite GK. apply (R_key _ _ HR).
      * intros t l L. destruct (GO4 t l L) as (l0 & L0 & -> & -> & -> & _ & ->). apply (R_look _ _ HR t l0 L0).
      * intros t l L i E. destruct (GO4 t l L) as (l0 & L0 & _ & -> & -> & -> & ->). apply RI; auto.
  - (* return *)
    destruct (todo s) as [[|x tr]|] eqn:ET; try discriminate. injection H as <- <-. split; [split; exact Logic.I|]. simpl.
    assert (TL : tl_of s = []) by (unfold tl_of; rewrite ET; auto).
    pose proof (R_view _ _ HR) as RV. rewrite TL in RV. simpl in RV. destruct (R_st _ _ HR) as (x & S).
    split; simpl; unfold tl_of; simpl; auto.
    + apply (R_cl _ _ HR).
    + eauto.
    + intros k V M _. apply (st_pres _ _ _ k _ S); auto.
    + eapply Sub_incl; [|apply (st_sub _ _ _ _ S); auto]. intros y Y. apply in_or_app. auto.
    + apply (R_cur _ _ HR).
    + apply (R_vw _ _ HR).
    + apply (R_cap _ _ HR).
    + apply (R_key _ _ HR).
    + intros t l L. destruct (R_look _ _ HR t l L) as (V & MAY & MUST & BIG). split; auto. split; [|split; auto].
      * intros y Y. apply MAY. apply in_app_or in Y. apply in_or_app. tauto.
      * intros M. destruct (MUST M). auto.
    + intros t l L i E. destruct (R_rd _ _ HR t l L i E) as (J1 & J2). split; auto. unfold pend in *. simpl. rewrite TL in J2. unfold tl_of. simpl. exact J2.
  - (* a reader calls *)
    destruct (rd s t) eqn:ER; try discriminate. destruct (validb pp k) eqn:EV; [|discriminate]. injection H as <- <-. split; [split; exact Logic.I|]. simpl.
    destruct HR as [R1 R2 R3 R4 R5 R6 R7 R8 R9 R10 R11 R12 R13]. split; auto.
    + intros t'. simpl. unfold upd. destruct (Nat.eq_dec t' t) as [->|NE]; auto.
    + intros t' l L. simpl in *. unfold upd in *. destruct (Nat.eq_dec t' t) as [->|NE]; [|apply (R12 t'); auto]. injection L as <-. simpl.
      split; [apply validb_ok; auto|]. split; auto. split; [intros M; apply andb_prop in M; auto|]. intros X. apply N.leb_le. exact X.
    + intros t' l L i. simpl in *. unfold upd in *. destruct (Nat.eq_dec t' t) as [->|NE]; [discriminate|]. apply (R13 t' l L).
  - apply (rstep_R s g t); auto.
Qed.

Lemma t_lookup : forall n ls s log, run step (cinit n) ls = Some (s, log) -> legal_from (onext cmp) (ook cmp) (obs0 (v_cap (maps (cinit n) 0))) log.
Proof. intros n ls s log H. exact (proj1 (obs_run step (onext cmp) (ook cmp) R step_R ls _ _ s log (init_R n) H)). Qed.

Lemma t_present : forall n ls s a t v b, run step (cinit n) ls = Some (s, a ++ ERet t v :: b) ->
  exists l, o_rd (gfold (onext cmp) a (obs0 (v_cap (maps (cinit n) 0)))) t = Some l /\
  (l_must l = true -> l_big l = true \/ l_sig l = 0%N -> (l_sig l < 2 ^ 32)%N -> v <> 0%N /\ same v (l_key l) = true).
Proof.
  intros n ls s a t v b H. apply t_lookup in H; auto. apply legal_at in H. destruct H as (l & L & H). exists l. split; auto.
  intros M B S. destruct (N.eqb_spec v 0) as [Z | Z].
  - destruct H as [H | [[H H'] | H]]; [congruence| destruct B; [congruence|contradiction] |]. exfalso. apply (N.lt_irrefl (l_sig l)). eapply N.lt_le_trans; eauto.
  - destruct H. auto.
Qed.
Lemma t_absent : forall n ls s a t v b, run step (cinit n) ls = Some (s, a ++ ERet t v :: b) ->
  exists l, o_rd (gfold (onext cmp) a (obs0 (v_cap (maps (cinit n) 0)))) t = Some l /\ (v <> 0%N -> same v (l_key l) = true /\ In v (l_may l)) /\
  (mem (l_key l) (l_may l) = false -> v = 0%N).
Proof.
  intros n ls s a t v b H. apply t_lookup in H; auto. apply legal_at in H. destruct H as (l & L & H). exists l. split; auto.
  destruct (N.eqb_spec v 0) as [Z | Z]; [split; [contradiction | auto]|]. destruct H as (SV & IV). split; auto. intros M. exfalso.
  assert (X : mem (l_key l) (l_may l) = true) by (unfold Rhs_Spec.mem; apply existsb_exists; exists v; auto). congruence.
Qed.
End C.

(** two keys of one home slot in a map with 8 slots; a reader that looks for the second one has
    passed the first when the writer removes that and moves the second one there *)
Definition idh (k : N) : N := k.
Definition ref_calls : list label :=
  [LCall (OPut 11) 10] ++ repeat LStore 3 ++ [LDone; LCall (OPut 19) 10] ++ repeat LStore 3 ++
  [LDone; LGet 0 19; LRead 0; LRead 0; LRead 0; LRead 0; LCall (ORemove 11) 10] ++ repeat LStore 4 ++ [LRead 0; LRead 0].
Definition ref_log : list ev :=
  [ECall (OPut 11) (true, 0%N); EDone; ECall (OPut 19) (true, 0%N); EDone; EGet 0 19; ECall (ORemove 11) (true, 11%N); ESig].
Lemma idh_contract : contract false idh None.
Proof.
  assert (E : forall a b, same None a b = true -> a = b) by (unfold same; intros a b H; rewrite orb_false_r in H; apply N.eqb_eq; auto).
  split; intros; repeat match goal with H : same None _ _ = true |- _ => apply E in H; subst end; unfold same; rewrite ?N.eqb_refl; auto.
Qed.
Lemma t_ref : exists hf n ls s a t l, contract false hf None /\
  run (step false false hf None (fun _ => true)) (cinit n) ls = Some (s, a ++ [ERet t 0%N]) /\
  o_rd (gfold (onext None) a (obs0 (v_cap (maps (cinit n) 0)))) t = Some l /\ l_must l = true /\ l_sig l = 1%N.
Proof.
  exists idh, 8%N, ref_calls. eexists. exists ref_log, 0. eexists. split; [apply idh_contract|].
  split; [vm_compute; reflexivity|]. split; [vm_compute; reflexivity|]. split; reflexivity.
Qed.
