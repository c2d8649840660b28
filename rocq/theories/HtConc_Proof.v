(** Hash table: lookups concurrent with the writer. *)
From Coq Require Import Arith NArith List Bool Lia Permutation.
From Verif Require Import Lib Obs Helpers_Model Ht_Model Ht_Spec Ht_Proof HtInv_Proof HtOps_Proof HtSet_Proof HtGc_Proof HtConc_Model HtConc_Spec.
Import ListNotations.

Section C.
Variables (dl bs : bool) (len : N -> N) (memeq : N -> N -> N -> bool) (hf : N -> N) (ub : N -> N -> N) (oracle : nat -> bool).
Variable CT : contract bs len memeq hf.
Notation valid := (valid len). Notation same := (same bs len memeq). Notation wtr := (wtr bs len memeq).
Notation assoc := (assoc bs len memeq). Notation Inv := (Inv dl bs len memeq hf ub).
Notation step := (step dl bs len memeq hf ub oracle). Notation onext := (onext bs len memeq). Notation ook := (ook bs len memeq).

Lemma validb_ok : forall k l, validb bs len k l = true -> valid k /\ lok bs len k l.
Proof.
  intros k l H. unfold validb in H. apply andb_prop in H. destruct H as (H & H4). apply andb_prop in H. destruct H as (H & H3). apply andb_prop in H. destruct H as (H1 & H2).
  apply negb_true_iff in H1. apply N.eqb_neq in H1. apply negb_true_iff in H2. apply N.eqb_neq in H2. apply N.ltb_lt in H3.
  split; [split; auto|]. intros B. rewrite B in H4. simpl in H4. apply N.eqb_eq. auto.
Qed.
Lemma preb_ok : forall o, preb bs len o = true -> pre bs len o.
Proof. intros o H. destruct o; cbn [preb pre] in *; try exact Logic.I; apply validb_ok; auto. Qed.

(** ** The writer's stores *)
Lemma assoc_inc : forall A B k v, (forall x, In x A -> In x B) -> assoc A k v -> assoc B k v.
Proof. intros A B k v H (k0 & I & S). exists k0. auto. Qed.
(** the values of the pairs of the abstract maps go with valid keys *)
Definition vals (A : list (N * N)) : Prop := forall x, In x A -> valid (fst x).
Lemma assoc_same : forall A k k' v, vals A -> valid k -> valid k' -> same k k' = true -> assoc A k v -> assoc A k' v.
Proof.
  intros A k k' v VA V V' S (k0 & I & S0). exists k0. split; auto. apply (c_trans _ _ _ _ CT k0 k k'); auto. exact (VA _ I).
Qed.
Definition dead (p : option nat) (m : tmap) : Prop := forall f, p = Some f -> live (key m f) = false.
(** live entries are pairs of [A] *)
Definition LV (A : list (N * N)) (m : tmap) : Prop := forall s, live (key m s) = true ->
  assoc A (key m s) (ev (ents m s)) /\ valid (key m s) /\ (bs = true -> el (ents m s) = len (key m s)).
(** slot [s] held the key [K], and still holds what belongs to it *)
Definition held (p : option nat) (m : tmap) (s : nat) (K : N) (A : list (N * N)) : Prop :=
  p <> Some s /\ valid K /\ (key m s = TOMB \/ live (key m s) = true /\ same (key m s) K = true) /\
  assoc A K (ev (ents m s)) /\ (bs = true -> el (ents m s) = len K).
Lemma held_none : forall p m s K A, held p m s K A -> held None m s K A.
Proof. intros p m s K A (H & T). split; auto. discriminate. Qed.
Lemma held_inc : forall p m s K A B, (forall x, In x A -> In x B) -> held p m s K A -> held p m s K B.
Proof. intros p m s K A B I (H1 & H2 & H3 & H4 & H5). repeat (split; auto). eapply assoc_inc; eauto. Qed.
Lemma LV_inc : forall A B m, (forall x, In x A -> In x B) -> LV A m -> LV B m.
Proof. intros A B m I H s L. destruct (H s L) as (H1 & H2 & H3). split; auto. eapply assoc_inc; eauto. Qed.
Lemma held_live : forall p m s A, dead p m -> LV A m -> live (key m s) = true -> held p m s (key m s) A.
Proof.
  intros p m s A D L V. destruct (L s V) as (L1 & L2 & L3). split; [intros E; rewrite (D s E) in V; discriminate|].
  split; auto. split; [|auto]. right. split; auto. apply same_refl.
Qed.
Definition not_map (x : store) : Prop := match x with SMap _ => False | _ => True end.
Lemma same_len' : bs = true -> forall a b, valid a -> valid b -> same a b = true -> len a = len b.
Proof.
  intros B a b _ _ E. unfold Ht_Spec.same in E. apply orb_prop in E. destruct E as [E | E]; [apply N.eqb_eq in E; congruence|].
  apply andb_prop in E. destruct E as (E & _). apply andb_prop in E. destruct E as (_ & E). apply N.eqb_eq. auto.
Qed.

Lemma ws_step : forall A0 A1 p m l, wtr A0 A1 p m l -> vals (A0 ++ A1) -> dead p m -> LV (A0 ++ A1) m ->
  forall x tr, l = x :: tr -> not_map x -> exists p', let m' := app1 m x in
  wtr A0 A1 p' m' tr /\ dead p' m' /\ LV (A0 ++ A1) m' /\
  (x = SDel \/ forall s K A, vals A -> (forall y, In y (A0 ++ A1) -> In y A) -> held p m s K A -> held p' m' s K A).
Proof.
  intros A0 A1 p m l W VA. induction W; intros D L x0 tr0 E NM; try discriminate; try (injection E as <- <-).
  - (* quiet *) exists p. intros m'. destruct x; simpl in H; try contradiction; (split; [exact W|]; split; [exact D|]; split; [exact L|]; right; intros s0 K A _ _ H0; exact H0).
  - exists None. intros m'. split; [exact W|]. split; [intros f X; discriminate|]. split; [exact L|]. left; auto.
  - exists (Some s). intros m'. split; [exact W|]. split; [intros f X; injection X as <-; simpl; rewrite H; reflexivity|]. split; [exact L|]. left; auto.
  - destruct (IHW) with (x := x0) (tr := tr0) as (p' & W' & D' & L' & K'); auto.
    { intros f X. injection X as <-. rewrite H. reflexivity. }
    exists p'. intros m'. split; [exact W'|]. split; [exact D'|]. split; [exact L'|]. destruct K' as [K' | K']; [left; auto | right].
    intros s0 K A VV I HH. apply K'; auto. destruct HH as (H1 & H2 & H3 & H4 & H5). split; [|split; [exact H2|split; [exact H3|split; [exact H4|exact H5]]]].
    intros X. injection X as X. subst s0. rewrite H in H3. destruct H3 as [H3 | (H3 & _)]; discriminate.
  - (* field *) exists (Some s). intros m'.
    assert (EK : forall t, key m' t = key m t /\ (t <> s -> ents m' t = ents m t)).
    { intros t. unfold m'. destruct x; simpl in H; try contradiction; subst s0; simpl; unfold upd; destruct (Nat.eq_dec t s); subst; auto; split; auto; congruence. }
    split; [exact W|]. split; [intros f X; destruct (EK f) as (E1 & _); rewrite E1; apply D; auto|]. split.
    + intros t LT. destruct (EK t) as (E1 & E2). destruct (Nat.eq_dec t s) as [X | X].
      * subst t. rewrite E1, (D s eq_refl) in LT. discriminate.
      * rewrite E2 by auto. rewrite E2 in LT by auto. apply L; auto.
    + right. intros t K A VV I HH. unfold held in *. destruct (EK t) as (E1 & E2). rewrite E2; auto. intros X. subst t. destruct HH as (HH & _). apply HH; auto.
  - (* publish *) exists None. intros m'.
    assert (EK : forall t, t <> s -> ents m' t = ents m t) by (intros t T; simpl; apply upd_other; auto).
    split; [exact W|]. split; [intros f X; discriminate|]. split.
    + intros t LT. destruct (Nat.eq_dec t s) as [X | X]; [subst t; exact H0|]. rewrite EK in * by auto. apply L; auto.
    + right. intros t K A VV I HH. unfold held in *. rewrite EK; [destruct HH as (_ & HH); split; [discriminate | exact HH]|]. intros X. subst t. destruct HH as (HH & _). apply HH; auto.
  - (* in place *) exists p. intros m'.
    assert (EK : forall t, t <> s -> ents m' t = ents m t).
    { intros t T. unfold m'. destruct x; simpl in H0; try contradiction; try (destruct H0 as (-> & _)); try subst s0; simpl; apply upd_other; auto. }
    destruct (L s H) as (L1 & L2 & L3).
    assert (EP : p <> Some s) by (intros X; rewrite (D s X) in H; discriminate).
    assert (ES : live (key m' s) = true /\ valid (key m' s) /\ same (key m s) (key m' s) = true /\ (bs = true -> el (ents m' s) = len (key m s)) /\ assoc (A0 ++ A1) (key m s) (ev (ents m' s))).
    { unfold m'. destruct x; simpl in H0; try contradiction; try (destruct H0 as (-> & H0)); try subst s0; simpl; rewrite upd_same; simpl.
      - destruct H0 as (S1 & S2). split; [apply (valid_live len); auto|]. auto.
      - split; auto. split; auto. split; [apply same_refl | auto].
      - split; auto. split; auto. split; [apply same_refl | auto].
      - split; auto. split; auto. split; [apply same_refl | auto]. }
    destruct ES as (S1 & S2 & S3 & S4 & S5).
    split; [exact W|]. split; [intros f X; rewrite EK by congruence; apply D; auto|]. split.
    + intros t LT. destruct (Nat.eq_dec t s) as [X | X].
      * subst t. split; [apply (assoc_same _ (key m s)); auto|]. split; auto. intros B. rewrite S4 by auto. apply same_len'; auto.
      * rewrite EK in * by auto. apply L; auto.
    + right. intros t K A VV I (H1 & H2 & H3 & H4 & H5). split; auto. split; auto. destruct (Nat.eq_dec t s) as [X | X].
      * subst t. destruct H3 as [H3 | (_ & H3)]; [rewrite H3 in H; discriminate|]. split; [right; split; auto|].
        { apply (c_trans _ _ _ _ CT _ (key m s)); auto. apply (c_sym _ _ _ _ CT); auto. }
        split; [|intros B; rewrite S4 by auto; apply same_len'; auto]. apply (assoc_same _ (key m s)); auto. eapply assoc_inc; eauto.
      * rewrite EK by auto. auto.
  - (* kill *) exists p. intros m'.
    assert (EK : forall t, (t <> s -> key m' t = key m t) /\ ev (ents m' t) = ev (ents m t) /\ el (ents m' t) = el (ents m t)).
    { intros t. simpl. unfold upd. destruct (Nat.eq_dec t s); subst; simpl; auto; split; auto; congruence. }
    assert (ES : key m' s = TOMB) by (simpl; rewrite upd_same; auto).
    split; [exact W|]. split; [intros f X; destruct (Nat.eq_dec f s) as [Y | Y]; [subst; rewrite ES; reflexivity | destruct (EK f) as (E1 & _); rewrite E1 by auto; apply D; auto]|].
    split.
    + intros t LT. destruct (EK t) as (E1 & E2 & E3). destruct (Nat.eq_dec t s) as [Y | Y]; [subst; rewrite ES in LT; discriminate|].
      rewrite E1 in * by auto. rewrite E2, E3. apply L; auto.
    + right. intros t K A VV I (H1 & H2 & H3 & H4 & H5). destruct (EK t) as (E1 & E2 & E3). unfold held. rewrite E2, E3. split; auto. split; auto. split; auto.
      destruct (Nat.eq_dec t s) as [Y | Y]; [subst; auto|]. rewrite E1 by auto. auto.
  - destruct NM.
Qed.
Lemma ws_map : forall A0 A1 p m l, wtr A0 A1 p m l -> forall u tr, l = SMap u :: tr -> wtr A0 A1 None u tr /\ LV (A0 ++ A1) u.
Proof.
  intros A0 A1 p m l W. induction W; intros u0 tr0 E; try discriminate; auto.
  - injection E as E1 E2. subst. destruct H.
  - injection E as E1 E2. subst. destruct H.
  - injection E as E1 E2. subst. destruct H0.
  - injection E as E1 E2. subst. auto.
Qed.

(** ** Readers *)
(** [dd] increments since deletions was read *)
Definition G (m : tmap) (g dd : N) : Prop := (dd = 0%N /\ dlt m = g) \/ ((0 < dd)%N /\ dlt m = ((g + dd) mod 2 ^ 64)%N).
Lemma G_sig : forall m g dd, G m g dd -> G (app1 m SDel) g (dd + 1).
Proof.
  intros m g dd H. right. split; [lia|]. cbn [app1 dlt]. destruct H as [(E & H) | (E & H)]; rewrite H.
  - subst dd. reflexivity.
  - rewrite N.add_mod_idemp_l by discriminate. rewrite N.add_assoc. reflexivity.
Qed.
Lemma G_eq : forall m g dd, G m g dd -> dlt m = g -> dd = 0%N \/ (2 ^ 64 <= dd)%N.
Proof.
  intros m g dd [(E & H) | (E & H)] EG; auto. right. rewrite EG in H.
  remember (2 ^ 64)%N as M. assert (MZ : M <> 0%N) by (subst; discriminate). clear HeqM.
  assert (L : (g < M)%N) by (rewrite H; apply N.mod_lt; auto).
  destruct (N.lt_ge_cases dd M) as [D | D]; auto. exfalso.
  destruct (N.lt_ge_cases (g + dd) M) as [X | X].
  - rewrite N.mod_small in H by auto. lia.
  - replace (g + dd)%N with (g + dd - M + 1 * M)%N in H by lia. rewrite N.mod_add in H by auto. rewrite N.mod_small in H by lia. lia.
Qed.

Definition slot_of (y : sx) : nat := cursor (q_off (x_st y)) (q_j (x_st y)).
Definition got (K : N) (P : Prop) : Prop := K <> 0%N -> K <> TOMB -> P.
(** what a reader that has seen [deletions] unchanged ([z]) knows *)
Definition know (p : option nat) (m : tmap) (may : list (N * N)) (r : rst) : Prop :=
  match r with
  | RLen x y K => got K (held p m (slot_of y) K may)
  | RHash x y K kl | RVal x y K kl _ => got K (held p m (slot_of y) K may /\ (bs = true -> kl = len K))
  | RRe x y K V => got K (valid K /\ assoc may K V /\ (len K mod 2 ^ 16 = x_l x mod 2 ^ 16)%N) /\ bs = true /\ K <> 0%N /\ K <> TOMB
  | RChk x (Some (K, V)) => K <> 0%N -> same K (x_k x) = true /\ valid K /\ assoc may K V
  | _ => True
  end.
Definition rxo (r : rst) : option rx :=
  match r with
  | RIdle | RMap _ _ | RDel _ _ _ => None
  | RBnd x _ | RMax x _ | RSlot x _ _ | RKey x _ | RLen x _ _ | RHash x _ _ _ | RVal x _ _ _ _ | RRe x _ _ _ | RChk x _ => Some x
  end.
Definition rinv (p : option nat) (m : tmap) (r : rst) (may : list (N * N)) (calm : bool) (del : N) : Prop :=
  LV may m /\
  match rxo r with
  | None => True
  | Some x => exists dd, (dd <= del)%N /\ G m (x_d x) dd /\ (calm = true -> dd = 0%N -> know p m may r)
  end.
Definition rkey (r : rst) : option (N * N) :=
  match r with RIdle => None | RMap k l | RDel k l _ => Some (k, l) | _ => match rxo r with Some x => Some (x_k x, x_l x) | None => None end end.
Definition rmap (r : rst) : option nat :=
  match r with RIdle | RMap _ _ => None | RDel _ _ i => Some i | _ => match rxo r with Some x => Some (x_i x) | None => None end end.

Lemma know_held : forall p m p' m' may may' r, (forall x, In x may -> In x may') ->
  (forall s K, held p m s K may -> held p' m' s K may') -> know p m may r -> know p' m' may' r.
Proof.
  intros p m p' m' may may' r I H KN.
  destruct r as [ | | | | | | | | | | |x [(K, V)|]]; simpl in *; auto; unfold got in *.
  - intros A B. auto.
  - intros A B. destruct (KN A B). auto.
  - intros A B. destruct (KN A B). auto.
  - destruct KN as (KN & R). split; auto. intros A B. destruct (KN A B) as (H1 & H2 & H3). split; auto. split; auto. eapply assoc_inc; eauto.
  - intros A. destruct (KN A) as (H1 & H2 & H3). split; auto. split; auto. eapply assoc_inc; eauto.
Qed.
Lemma rinv_weak : forall p m r may calm del may' calm' del' p', rinv p m r may calm del -> (forall x, In x may -> In x may') ->
  (calm' = true -> calm = true /\ (p' = p \/ p' = None)) -> (del <= del')%N -> rinv p' m r may' calm' del'.
Proof.
  intros p m r may calm del may' calm' del' p' (L & H) I C D. split; [eapply LV_inc; eauto|]. destruct (rxo r); auto.
  destruct H as (dd & H1 & H2 & H3). exists dd. split; [lia|]. split; auto. intros X Z. destruct (C X) as (Y1 & Y2).
  apply (know_held p m p' m may may'); auto. intros s K HH. apply (held_inc p' m s K may); auto. destruct Y2; subst; auto. eapply held_none; eauto.
Qed.
Lemma rinv_store : forall p m x p' r may calm del, rinv p m r may calm del -> not_map x -> LV may (app1 m x) ->
  (x = SDel \/ forall s K, held p m s K may -> held p' (app1 m x) s K may) ->
  rinv p' (app1 m x) r may calm (match x with SDel => del + 1 | _ => del end)%N.
Proof.
  intros p m x p' r may calm del (L & H) NM LV' HH. split; auto. destruct (rxo r); auto.
  destruct H as (dd & H1 & H2 & H3).
  assert (CASE : x = SDel \/ (x <> SDel /\ dlt (app1 m x) = dlt m)) by (destruct x; simpl in *; auto; try contradiction; right; split; auto; discriminate).
  destruct CASE as [-> | (X & E)].
  - exists (dd + 1)%N. split; [lia|]. split; [apply G_sig; auto|]. lia.
  - exists dd. split; [destruct x; lia|]. split; [unfold G in *; rewrite E; auto|]. intros C Z. destruct HH as [HH | HH]; [contradiction|].
    apply (know_held p m p' _ may may); auto.
Qed.

(** ** The whole system *)
Definition tl_of (s : cst) : list store := match todo s with Some tr => tr | None => [] end.
Record R1 (s : cst) (g : obs) : Prop := {
  R_idle : todo s = None -> o_old g = o_new g;
  R_w : exists p, wtr (o_old g) (o_new g) p (maps s (cur s)) (tl_of s) /\ dead p (maps s (cur s)) /\
    forall t l, o_rd g t = Some l -> forall i, rmap (rd s t) = Some i ->
      i < nxt s /\ rinv (if Nat.eq_dec i (cur s) then p else None) (maps s i) (rd s t) (l_may l) (l_calm l) (l_del l);
  R_lv : LV (o_old g ++ o_new g) (maps s (cur s));
  R_end : Inv (app (maps s (cur s)) (tl_of s)) /\ Permutation (contents (app (maps s (cur s)) (tl_of s))) (o_new g);
  R_cur : cur s < nxt s;
  R_val : vals (o_old g ++ o_new g);
  R_key : forall t, match rkey (rd s t), o_rd g t with
                    | Some (k, l), Some lk => k = l_key lk /\ valid k /\ lok bs len k l
                    | None, None => True
                    | _, _ => False
                    end;
  R_look : forall t l, o_rd g t = Some l -> (forall x, In x (o_old g ++ o_new g) -> In x (l_may l)) /\ vals (l_may l) }.
Definition R (s : cst) (g : obs) : Prop := o_sane g = true -> R1 s g.

Lemma legal_True : forall A o r P, legal bs len memeq A o r P -> legal bs len memeq A o r True.
Proof. intros A o r P. destruct r as ((b & k) & v). destruct o; simpl; auto; destruct b; intros H; tauto. Qed.
Lemma moves_pend : forall m o, moves dl bs memeq hf ub m o = false -> pend_of dl bs memeq hf ub m o = None.
Proof.
  intros m o H. destruct o; auto. simpl in *. unfold pend0. destruct (probe_wr dl bs memeq ub m k l (hf k) false); auto.
  destruct (r_pr p); auto. destruct (r_cur p); auto. apply negb_false_iff in H. rewrite H. auto.
Qed.
Lemma pend_dead : forall m o, dead (pend_of dl bs memeq hf ub m o) m.
Proof.
  intros m o f E. destruct o; simpl in E; try discriminate. apply (pend0_dead dl bs memeq hf ub) in E. rewrite E. reflexivity.
Qed.
Lemma inv_LV : forall m A, Inv m -> Permutation (contents m) A -> LV A m.
Proof.
  intros m A (C & _) P s L. destruct (proj2 (proj2 C) s L) as ((V & EH & EL) & SL & _). split; [|auto].
  exists (key m s). split; [|apply same_refl]. rewrite <- P. apply (in_contents m (kv (ents m s))). exists s. auto.
Qed.
Lemma inv_vals : forall m A, Inv m -> Permutation (contents m) A -> vals A.
Proof. intros m A (C & _) P x X. apply (core_valid dl bs len hf ub m); auto. rewrite P. auto. Qed.
Lemma vals_app : forall A B, vals A -> vals B -> vals (A ++ B).
Proof. intros A B HA HB x X. apply in_app_or in X. destruct X; auto. Qed.
Lemma init_R : forall n, R (cinit n) obs0.
Proof.
  intros n _. pose proof (create_inv dl bs len memeq hf ub n) as I. pose proof (create_contents n) as EC.
  split; simpl; auto.
  - exists None. split; [constructor|]. split; [intros f X; discriminate|]. intros; discriminate.
  - apply inv_LV; auto. rewrite EC. auto.
  - split; auto. rewrite EC. auto.
  - intros x [].
  - intros; discriminate.
Qed.
(** a step of a reader: the other threads and the writer are untouched *)
Lemma reader_R : forall s g t r, R1 s g -> rkey r = rkey (rd s t) ->
  (forall p l i, o_rd g t = Some l -> dead p (maps s (cur s)) -> rmap r = Some i ->
     (forall j, rmap (rd s t) = Some j -> j < nxt s /\ rinv (if Nat.eq_dec j (cur s) then p else None) (maps s j) (rd s t) (l_may l) (l_calm l) (l_del l)) ->
     i < nxt s /\ rinv (if Nat.eq_dec i (cur s) then p else None) (maps s i) r (l_may l) (l_calm l) (l_del l)) ->
  R1 (set_rd s t r) g.
Proof.
  intros s g t r HR RK H. destruct HR as [Q1 Q2 Q3 Q4 Q5 Q6 Q7 Q8]. split; auto.
  - destruct Q2 as (p & D1 & D2 & D3). exists p. split; [exact D1|]. split; [exact D2|]. intros t' l L i. simpl. unfold upd.
    destruct (Nat.eq_dec t' t) as [->|NE]; intros E; [|apply (D3 t'); auto]. apply (H p l i); auto.
  - intros t'. simpl. unfold upd. destruct (Nat.eq_dec t' t) as [->|NE]; [rewrite RK; apply Q7 | apply Q7].
Qed.
Lemma dead_if : forall s p i, dead p (maps s (cur s)) -> dead (if Nat.eq_dec i (cur s) then p else None) (maps s i).
Proof. intros s p i D f E. destruct (Nat.eq_dec i (cur s)); [subst; auto | discriminate]. Qed.

(** reader steps that stay in the same attempt *)
Lemma local_R : forall s g t x r, R1 s g -> rxo (rd s t) = Some x -> rxo r = Some x ->
  (forall p may, dead p (maps s (x_i x)) -> LV may (maps s (x_i x)) -> vals may -> valid (x_k x) -> lok bs len (x_k x) (x_l x) ->
     know p (maps s (x_i x)) may (rd s t) -> know p (maps s (x_i x)) may r) -> R1 (set_rd s t r) g.
Proof.
  intros s g t x r HR X0 X1 H.
  assert (KE : rkey (rd s t) = Some (x_k x, x_l x)) by (destruct (rd s t); simpl in *; try discriminate; congruence).
  assert (ME : rmap (rd s t) = Some (x_i x)) by (destruct (rd s t); simpl in *; try discriminate; congruence).
  assert (KE1 : rkey r = Some (x_k x, x_l x)) by (destruct r; simpl in *; try discriminate; congruence).
  assert (ME1 : rmap r = Some (x_i x)) by (destruct r; simpl in *; try discriminate; congruence).
  apply reader_R; auto; [congruence|]. intros p l i L D E HJ. rewrite ME1 in E. injection E as <-.
  destruct (HJ _ ME) as (J1 & J2). split; auto. destruct J2 as (J2 & J3). rewrite X0 in J3. split; auto. rewrite X1.
  destruct J3 as (dd & E1 & E2 & E3). exists dd. split; auto. split; auto. intros C Z.
  pose proof (R_key _ _ HR t) as RK. rewrite KE, L in RK. destruct RK as (_ & V & LK). destruct (R_look _ _ HR t l L) as (_ & VM).
  apply H; auto. apply dead_if; auto.
Qed.
Lemma same_by : forall K k l, bs = true -> valid K -> valid k -> lok bs len k l -> (len K mod 2 ^ 16 = l mod 2 ^ 16)%N -> memeq (l mod 2 ^ 16) K k = true -> same K k = true.
Proof.
  intros K k l B (_ & _ & V) (_ & _ & V') LK E M. rewrite (LK B) in *. rewrite !N.mod_small in * by auto.
  unfold Ht_Spec.same. rewrite B, E, N.eqb_refl, M. apply orb_true_r.
Qed.

Lemma rstep_R : forall s g t s' ev, R1 s g -> rstep dl bs memeq hf ub s t = Some (s', ev) -> legal_from onext ook g ev /\ R1 s' (gfold onext ev g).
Proof.
  intros s g t s' ev HR H. unfold rstep in H.
  assert (LOC : forall x r, rxo (rd s t) = Some x -> rxo r = Some x -> Some (set_rd s t r, []) = Some (s', ev) ->
    (forall p may, dead p (maps s (x_i x)) -> LV may (maps s (x_i x)) -> vals may -> valid (x_k x) -> lok bs len (x_k x) (x_l x) ->
     know p (maps s (x_i x)) may (rd s t) -> know p (maps s (x_i x)) may r) -> legal_from onext ook g ev /\ R1 s' (gfold onext ev g)).
  { intros x r X0 X1 E HK. injection E as <- <-. split; [exact Logic.I|]. apply (local_R s g t x r); auto. }
  destruct (rd s t) as [|k l|k l i|x n|x n|x lim st|x y|x y K|x y K kl|x y K kl hh|x y K V|x r] eqn:ER; [discriminate| | | | | | | | | | | ].
  - (* load the map *) injection H as <- <-. split; [exact Logic.I|]. simpl. apply reader_R; [auto|rewrite ER; auto|].
    intros p l0 i L D E HJ. injection E as <-. split; [apply (R_cur _ _ HR)|]. split; [|exact Logic.I].
    destruct (R_look _ _ HR t l0 L) as (MAY & _). apply (LV_inc (o_old g ++ o_new g)); auto. apply (R_lv _ _ HR).
  - (* load deletions *) injection H as <- <-. split; [exact Logic.I|]. simpl. apply reader_R; [auto|rewrite ER; auto|].
    intros p l0 j L D E HJ. injection E as <-. destruct (HJ i) as (J1 & (J2 & _)); [rewrite ER; auto|]. split; auto. split; auto.
    simpl. exists 0%N. split; [lia|]. split; [left; auto|]. intros _ _. exact Logic.I.
  - destruct dl.
    + destruct (Nat.eqb (bnd (maps s (x_i x)) (N.to_nat (hidx (maps s (x_i x)) (hf (x_k x))))) 255); eapply (LOC x); try exact H; auto; intros; exact Logic.I.
    + eapply (LOC x); try exact H; auto; intros; exact Logic.I.
  - eapply (LOC x); try exact H; auto; intros; exact Logic.I.
  - destruct (Nat.eqb (q_i st) (plim (maps s (x_i x))) || Nat.ltb lim (q_n st)); eapply (LOC x); try exact H; auto; intros; exact Logic.I.
  - (* key *) eapply (LOC x); try exact H; auto. intros p may D L VM VK LK _. simpl. intros A B. apply held_live; auto. apply live_iff; auto.
  - (* length *) eapply (LOC x); try exact H; auto. intros p may D L VM VK LK KN. simpl in *. intros A B. destruct (KN A B) as (H1 & H2 & H3 & H4 & H5).
    split; [split; auto | exact H5].
  - (* hash *) eapply (LOC x); try exact H; auto.
  - (* value *)
    destruct (N.eqb_spec K TOMB) as [E1 | E1]; [eapply (LOC x); try exact H; auto; intros; exact Logic.I|].
    destruct (N.eqb_spec K 0) as [E2 | E2].
    { eapply (LOC x); try exact H; auto. intros. simpl. intros X. contradiction. }
    destruct (N.eqb_spec K (x_k x)) as [E3 | E3].
    { eapply (LOC x); try exact H; auto. intros p may D L VM VK LK KN. simpl in *. intros _. destruct (KN E2 E1) as ((H1 & H2 & H3 & H4 & H5) & _).
      split; [rewrite E3; apply same_refl|]. split; auto. }
    simpl orb in H. cbv iota in H.
    destruct (bs && N.eqb (kl mod 2 ^ 16) (x_l x mod 2 ^ 16) && N.eqb hh (hf (x_k x))) eqn:E4.
    + apply andb_prop in E4. destruct E4 as (E4 & _). apply andb_prop in E4. destruct E4 as (E4 & E5). apply N.eqb_eq in E5.
      eapply (LOC x); try exact H; auto. intros p may D L VM VK LK KN. cbn [know] in *. split; [|auto]. intros _ _. destruct (KN E2 E1) as ((H1 & H2 & H3 & H4 & H5) & H6).
      split; auto. split; [exact H4|]. rewrite <- (H6 E4). auto.
    + eapply (LOC x); try exact H; auto; intros; exact Logic.I.
  - (* deletions again *)
    destruct (N.eqb (dlt (maps s (x_i x))) (x_din y)).
    + destruct (memeq (x_l x mod 2 ^ 16) K (x_k x)) eqn:EM.
      * eapply (LOC x); try exact H; auto. intros p may D L VM VK LK KN. cbn [know] in *. destruct KN as (KN & B & N1 & N2). intros _.
        destruct (KN N1 N2) as (H1 & H2 & H3). split; [apply (same_by K (x_k x) (x_l x)); auto | auto].
      * eapply (LOC x); try exact H; auto; intros; exact Logic.I.
    + eapply (LOC x); try exact H; auto; intros; exact Logic.I.
  - (* check *)
    destruct (N.eqb_spec (dlt (maps s (x_i x))) (x_d x)) as [EG | EG]; injection H as <- <-.
    + split.
      * split; [|exact Logic.I]. destruct r as [(K, V)|]; [|exact Logic.I]. destruct (N.eqb_spec K 0) as [Z | Z]; [exact Logic.I|]. intros _.
        pose proof (R_key _ _ HR t) as RK. rewrite ER in RK. cbn [rkey rxo] in RK. destruct (o_rd g t) as [l|] eqn:L; [|contradiction].
        destruct RK as (EK & VK & LK). exists l. split; auto. intros C DL. destruct (R_w _ _ HR) as (p & _ & _ & D).
        destruct (D t l L (x_i x)) as (J1 & J2); [rewrite ER; auto|]. rewrite ER in J2. destruct J2 as (_ & dd & E1 & E2 & E3).
        destruct (G_eq _ _ _ E2 EG) as [X | X]; [|exfalso; apply (N.lt_irrefl (l_del l)); eapply N.lt_le_trans; [exact DL|]; eapply N.le_trans; eauto].
        pose proof (E3 C X Z) as (H1 & H2 & H3). split; [rewrite <- EK; auto|]. rewrite <- EK. destruct (R_look _ _ HR t l L) as (_ & VM).
        exact (assoc_same _ _ _ _ VM H2 VK H1 H3).
      * simpl. destruct HR as [Q1 Q2 Q3 Q4 Q5 Q6 Q7 Q8]. split; auto.
        -- destruct Q2 as (p & D1 & D2 & D3). exists p. split; [exact D1|]. split; [exact D2|]. intros t' l' L'. simpl in *. unfold upd in *.
           destruct (Nat.eq_dec t' t) as [->|NE]; [discriminate|]. apply (D3 t' l' L').
        -- intros t'. simpl. unfold upd. destruct (Nat.eq_dec t' t) as [->|NE]; [exact Logic.I | apply Q7].
        -- intros t' l' L'. simpl in *. unfold upd in *. destruct (Nat.eq_dec t' t) as [->|NE]; [discriminate|]. apply (Q8 t'); auto.
    + split; [exact Logic.I|]. simpl. apply reader_R; [auto|rewrite ER; auto|]. intros; discriminate.
Qed.

Lemma sane_legal : forall ev g, o_sane g = false -> legal_from onext ook g ev /\ o_sane (gfold onext ev g) = false.
Proof.
  induction ev as [|e ev IH]; intros g S; [split; simpl; auto|]. simpl.
  assert (S' : o_sane (onext g e) = false) by (destruct e; simpl; auto; rewrite S; auto).
  destruct (IH _ S') as (H1 & H2). split; auto. split; auto. destruct e as [o r mv| | |t k|t [(K, V)|]|]; simpl; auto; rewrite S; discriminate.
Qed.
Lemma saneb_ok : forall A o r, saneb bs len memeq A o r = true -> sane bs len memeq A o r.
Proof.
  intros A o r H. destruct o; simpl in *; auto. intros E. rewrite E in H. simpl in H. apply negb_true_iff in H. auto.
Qed.

Lemma step_R : forall s g l s' ev, R s g -> step s l = Some (s', ev) -> legal_from onext ook g ev /\ R s' (gfold onext ev g).
Proof.
  intros s g l s' ev HR H. destruct (o_sane g) eqn:SA.
  2: { destruct (sane_legal ev g SA) as (H1 & H2). split; auto. intros X. congruence. }
  specialize (HR SA). destruct l as [o fuel| | |t k lk|t]; simpl in H.
  - (* call *)
    destruct (todo s) eqn:ET; [discriminate|]. destruct (preb bs len o) eqn:EP; [|discriminate]. apply preb_ok in EP.
    destruct (R_end _ _ HR) as (I & P). unfold tl_of in I, P. rewrite ET in I, P. simpl in I, P.
    destruct (run1 dl bs memeq hf ub oracle fuel (maps s (cur s)) (al s) o) as [tr a r| |] eqn:ER; [|discriminate|].
    2: { exfalso. exact (no_bad dl bs len memeq hf ub oracle CT _ _ _ _ _ I P EP ER). }
    injection H as <- <-. set (m := maps s (cur s)) in *. set (mv := moves dl bs memeq hf ub m o).
    destruct (saneb bs len memeq (o_new g) o r) eqn:SB.
    2: { split; [split; [|exact Logic.I]; simpl; rewrite SA, SB; discriminate|]. intros X. simpl in X. rewrite SA, SB in X. discriminate. }
    destruct (op_ok dl bs len memeq hf ub oracle CT fuel m (al s) o (o_new g) tr a r I P EP ER (saneb_ok _ _ _ SB)) as (K1 & K2 & K3 & K4).
    split; [split; [intros _; eapply legal_True; eauto|exact Logic.I]|]. intros _.
    simpl. set (B := aop bs len memeq (o_new g) o r) in *. destruct (R_w _ _ HR) as (p & D1 & D2 & D3).
    assert (VO : vals (o_new g)) by (apply (inv_vals m); auto). assert (VB : vals B) by (apply (inv_vals (app m tr)); auto).
    split; simpl; auto; try (intros; discriminate).
    + exists (pend_of dl bs memeq hf ub m o). split; [exact K2|]. split; [apply pend_dead|]. intros t l L i E. unfold each in L.
      destruct (o_rd g t) as [l0|] eqn:EL; [|discriminate]. injection L as <-. destruct (D3 t l0 EL i E) as (J1 & J2). split; auto.
      simpl. apply (rinv_weak _ _ _ _ _ _ _ _ _ _ J2); [intros; apply in_or_app; auto| |lia].
      intros X. apply andb_prop in X. destruct X as (X & Y). split; auto. apply negb_true_iff in Y. apply moves_pend in Y.
      destruct (Nat.eq_dec i (cur s)); auto.
    + apply (LV_inc (o_new g)); [intros; apply in_or_app; auto|]. apply inv_LV; auto.
    + apply (R_cur _ _ HR).
    + apply vals_app; auto.
    + intros t. pose proof (R_key _ _ HR t) as RK. unfold each. destruct (rkey (rd s t)) as [(k & l)|], (o_rd g t); simpl; auto.
    + intros t l L. unfold each in L. destruct (o_rd g t) as [l0|] eqn:EL; [|discriminate]. injection L as <-. destruct (R_look _ _ HR t l0 EL) as (MAY & VM).
      simpl. split; [|apply vals_app; auto]. intros x X. apply in_or_app. apply in_app_or in X. destruct X as [X | X]; auto. left. apply MAY. apply in_or_app; auto.
  - (* store *)
    destruct (todo s) as [[|x tr]|] eqn:ET; try discriminate.
    destruct (R_w _ _ HR) as (p & D1 & D2 & D3). pose proof (R_end _ _ HR) as RE. unfold tl_of in D1, RE. rewrite ET in D1, RE.
    assert (CASE : (exists u, x = SMap u) \/ not_map x) by (destruct x; simpl; eauto).
    destruct CASE as [(u & ->) | NM].
    + injection H as <- <-. split; [exact Logic.I|]. intros _. simpl. destruct (ws_map _ _ _ _ _ D1 u tr eq_refl) as (W & LU).
      pose proof (R_cur _ _ HR) as RC.
      split; simpl; auto; try (intros; discriminate).
      * exists None. unfold tl_of. simpl. rewrite upd_same. split; auto. split; [intros f X; discriminate|]. intros t l L i E. destruct (D3 t l L i E) as (J1 & J2). split; [lia|].
        rewrite upd_other by lia. apply (rinv_weak _ _ _ _ _ _ _ _ _ _ J2); auto; [|lia]. intros X. split; auto. right. destruct (Nat.eq_dec i (nxt s)); [lia | auto].
      * rewrite upd_same. auto.
      * unfold tl_of. simpl. rewrite upd_same. exact RE.
      * apply (R_val _ _ HR).
      * apply (R_key _ _ HR).
      * apply (R_look _ _ HR).
    + assert (EQ : s' = mkcs (upd (maps s) (cur s) (app1 (maps s (cur s)) x)) (cur s) (nxt s) (Some tr) (al s) (rd s) /\ ev = match x with SDel => [EDel] | _ => [] end)
        by (destruct x; simpl in NM; try contradiction; injection H as <- <-; auto).
      destruct EQ as (-> & ->). clear H.
      destruct (ws_step _ _ _ _ _ D1 (R_val _ _ HR) D2 (R_lv _ _ HR) x tr eq_refl NM) as (p' & W & DP & LU & KP). cbv zeta in W, DP, LU, KP.
      set (m' := app1 (maps s (cur s)) x) in *.
      assert (RI : forall t l i, o_rd g t = Some l -> rmap (rd s t) = Some i ->
        i < nxt s /\ rinv (if Nat.eq_dec i (cur s) then p' else None) (upd (maps s) (cur s) m' i) (rd s t) (l_may l) (l_calm l) (match x with SDel => l_del l + 1 | _ => l_del l end)%N).
      { intros t l i L E. destruct (D3 t l L i E) as (J1 & J2). split; auto. destruct (R_look _ _ HR t l L) as (MAY & VM). unfold upd.
        destruct (Nat.eq_dec i (cur s)) as [->|NE].
        - apply (rinv_store p); auto. + apply (LV_inc (o_old g ++ o_new g)); auto. + destruct KP as [KP | KP]; auto.
        - apply (rinv_weak _ _ _ _ _ _ _ _ _ _ J2); auto. destruct x; lia. }
      assert (LG : legal_from onext ook g match x with SDel => [EDel] | _ => [] end) by (destruct x; simpl; auto).
      split; [exact LG|]. intros _.
      assert (GO : o_old (gfold onext match x with SDel => [EDel] | _ => [] end g) = o_old g /\
                   o_new (gfold onext match x with SDel => [EDel] | _ => [] end g) = o_new g /\
                   (forall t l, o_rd (gfold onext match x with SDel => [EDel] | _ => [] end g) t = Some l ->
                     exists l0, o_rd g t = Some l0 /\ l_key l = l_key l0 /\ l_calm l = l_calm l0 /\ l_may l = l_may l0 /\ l_del l = (match x with SDel => l_del l0 + 1 | _ => l_del l0 end)%N) /\
                   forall t, o_rd (gfold onext match x with SDel => [EDel] | _ => [] end g) t = None <-> o_rd g t = None).
      { destruct x; simpl; (split; [auto|]; split; [auto|]; split; [|unfold each; intros t; destruct (o_rd g t); simpl; split; congruence]); intros t l1 L; try (exists l1; auto; fail).
        unfold each in L. destruct (o_rd g t) as [l0|]; [|discriminate]. injection L as <-. exists l0. auto. }
      destruct GO as (GO1 & GO2 & GO3 & GO4). set (g' := gfold onext match x with SDel => [EDel] | _ => [] end g) in *. clearbody g'.
      split; rewrite ?GO1, ?GO2; simpl; auto; try (intros; discriminate).
      * exists p'. unfold tl_of. simpl. rewrite upd_same. split; auto. split; auto. intros t l L i E. destruct (GO3 t l L) as (l0 & L0 & _ & -> & -> & ->). auto.
      * rewrite upd_same. auto.
      * unfold tl_of. simpl. rewrite upd_same. exact RE.
      * apply (R_cur _ _ HR).
      * apply (R_val _ _ HR).
      * intros t. pose proof (R_key _ _ HR t) as RK. destruct (o_rd g' t) as [l|] eqn:EL.
        -- destruct (GO3 t l EL) as (l0 & L0 & -> & _). rewrite L0 in RK. exact RK.
        -- apply GO4 in EL. rewrite EL in RK. exact RK.
      * intros t l L. destruct (GO3 t l L) as (l0 & L0 & _ & _ & -> & _). apply (R_look _ _ HR t l0 L0).
  - (* return *)
    destruct (todo s) as [[|x tr]|] eqn:ET; try discriminate. injection H as <- <-. split; [split; exact Logic.I|]. intros _. simpl.
    destruct (R_w _ _ HR) as (p & D1 & D2 & D3). destruct (R_end _ _ HR) as (I & P). unfold tl_of in D1, I, P. rewrite ET in D1, I, P. simpl in I, P.
    split; simpl; auto.
    + exists None. split; [constructor|]. split; [intros f X; discriminate|]. intros t l L i E. destruct (D3 t l L i E) as (J1 & J2). split; auto.
      apply (rinv_weak _ _ _ _ _ _ _ _ _ _ J2); auto; [|lia]. intros X. split; auto. right. destruct (Nat.eq_dec i (cur s)); auto.
    + apply (LV_inc (o_new g)); [intros; apply in_or_app; auto|]. apply inv_LV; auto.
    + apply (R_cur _ _ HR).
    + apply vals_app; apply (inv_vals (maps s (cur s))); auto.
    + apply (R_key _ _ HR).
    + intros t l L. destruct (R_look _ _ HR t l L) as (MAY & VM). split; auto.
      intros x X. apply MAY. apply in_app_or in X. apply in_or_app. tauto.
  - (* a reader calls *)
    destruct (rd s t) eqn:ER; try discriminate. destruct (validb bs len k lk) eqn:EV; [|discriminate]. injection H as <- <-. split; [split; exact Logic.I|]. intros _. simpl.
    apply validb_ok in EV. destruct EV as (V & LK).
    destruct HR as [Q1 Q2 Q3 Q4 Q5 Q6 Q7 Q8]. split; auto.
    + destruct Q2 as (p & D1 & D2 & D3). exists p. split; [exact D1|]. split; [exact D2|]. intros t' l L i. simpl in *. unfold upd in *.
      destruct (Nat.eq_dec t' t) as [->|NE]; [discriminate|]. apply (D3 t' l L).
    + intros t'. simpl. unfold upd. destruct (Nat.eq_dec t' t) as [->|NE]; [simpl; auto | apply Q7].
    + intros t' l L. simpl in *. unfold upd in *. destruct (Nat.eq_dec t' t) as [->|NE]; [|apply (Q8 t'); auto]. injection L as <-. simpl. auto.
  - destruct (rstep_R s g t s' ev HR H) as (H1 & H2). split; auto. intros _. auto.
Qed.

Lemma t_lookup : forall n ls s log, run step (cinit n) ls = Some (s, log) -> legal_from onext ook obs0 log.
Proof. intros n ls s log H. exact (proj1 (obs_run step onext ook R step_R ls _ _ s log (init_R n) H)). Qed.
End C.
