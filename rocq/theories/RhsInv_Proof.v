(** Robin Hood hash set: the invariant of a map, sums over its slots, probing. *)
From Coq Require Import Arith NArith List Bool Permutation Lia FMapPositive.
From Verif Require Import Lib Helpers_Model Rhs_Model Rhs_Spec Rhs_Proof.
Import ListNotations.

Definition updN {A} (f : N -> A) (s : N) (v : A) (t : N) : A := if N.eqb t s then v else f t.
Lemma updN_same : forall A (f : N -> A) s v, updN f s v s = v.
Proof. intros. unfold updN. rewrite N.eqb_refl. auto. Qed.
Lemma updN_other : forall A (f : N -> A) s v t, t <> s -> updN f s v t = f t.
Proof. intros. unfold updN. destruct (N.eqb_spec t s); congruence. Qed.
Lemma aget_aset : forall A (d : A) a i v j, aget d (aset a i v) j = updN (aget d a) i v j.
Proof.
  intros. unfold aget, aset, updN. destruct (N.eqb_spec j i) as [-> | Hn].
  - rewrite PositiveMap.gss. auto.
  - rewrite PositiveMap.gso; auto. intros E. apply Hn. rewrite <- (N.pred_succ j), <- (N.pred_succ i), <- !N.succ_pos_spec, E. auto.
Qed.
Lemma ent_set : forall m s v t, ent (set_ent m s v) t = updN (ent m) s v t. Proof. intros. apply aget_aset. Qed.
Lemma prb_set : forall m s v t, prb (set_prb m s v) t = updN (prb m) s v t. Proof. intros. apply aget_aset. Qed.
Lemma wnt_set : forall m s v t, wnt (set_wnt m s v) t = updN (wnt m) s v t. Proof. intros. apply aget_aset. Qed.
Lemma bnd_set : forall m s v t, bnd (set_bnd m s v) t = updN (bnd m) s v t. Proof. intros. apply aget_aset. Qed.
Lemma irh_set : forall m s v t, irh (set_irh m s v) t = updN (irh m) s v t. Proof. intros. apply aget_aset. Qed.

(** ** Sums over slots *)
Fixpoint nsum (l : list N) (f : N -> nat) : nat := match l with [] => 0 | t :: l => f t + nsum l f end.
Lemma nsum_ext : forall l f g, (forall t, In t l -> f t = g t) -> nsum l f = nsum l g.
Proof. induction l; simpl; intros f g H; auto. Qed.
Lemma nsum_le : forall l f g, (forall t, In t l -> f t <= g t) -> nsum l f <= nsum l g.
Proof. induction l; simpl; intros f g H; auto. pose proof (H a). pose proof (IHl f g). firstorder lia. Qed.
Lemma nsum_upd : forall l f g s, NoDup l -> In s l -> (forall t, In t l -> t <> s -> f t = g t) -> nsum l f + g s = nsum l g + f s.
Proof.
  induction l; simpl; intros f g s ND I H; [tauto|]. inversion_clear ND as [|? ? Na ND']. destruct I as [-> | I].
  - rewrite (nsum_ext l f g); [lia|]. intros t T. apply H; auto. intros ->. auto.
  - assert (a <> s) by (intros ->; auto). rewrite (H a); auto. pose proof (IHl f g s ND' I). lapply H1; [lia|]. auto.
Qed.
Lemma nsum_pos : forall l f, 0 < nsum l f -> exists t, In t l /\ 0 < f t.
Proof.
  induction l; simpl; intros f H; [lia|]. destruct (Nat.eq_dec (f a) 0).
  - destruct (IHl f) as (t & T & T2); [lia|]. eauto.
  - exists a. split; auto. lia.
Qed.
Lemma nsum_ge : forall l f s, In s l -> f s <= nsum l f.
Proof. induction l; simpl; intros f s I; [tauto|]. destruct I as [-> | I]; [lia|]. specialize (IHl f s I). lia. Qed.
Lemma nsum_ge2 : forall l f s t, NoDup l -> In s l -> In t l -> s <> t -> f s + f t <= nsum l f.
Proof.
  induction l; simpl; intros f s t ND I J D; [tauto|]. inversion_clear ND as [|? ? Na ND'].
  destruct I as [-> | I]; destruct J as [-> | J]; try congruence.
  - pose proof (nsum_ge l f t J). lia.
  - pose proof (nsum_ge l f s I). lia.
  - specialize (IHl f s t ND' I J D). lia.
Qed.

Lemma in_slots : forall m s, In s (slots m) <-> (s < cap m)%N.
Proof.
  intros. unfold slots. rewrite in_map_iff. split.
  - intros (x & E & I). apply in_seq in I. lia.
  - intros L. exists (N.to_nat s). split; [lia|]. apply in_seq. lia.
Qed.
Lemma nodup_slots : forall m, NoDup (slots m).
Proof. intros. unfold slots. apply FinFun.Injective_map_NoDup; [|apply seq_NoDup]. intros a b E. lia. Qed.
Lemma len_slots : forall m, length (slots m) = nc m.
Proof. intros. unfold slots. rewrite map_length, seq_length. auto. Qed.
Lemma slots_cap : forall m m', cap m' = cap m -> slots m' = slots m.
Proof. intros m m' E. unfold slots. rewrite E. auto. Qed.

Section I.
Variables (rmode pp : bool) (hf : N -> N) (cmp : option (N -> N -> bool)).
Notation pi := (pi rmode).
Notation home := (home rmode).
Notation valid := (valid pp).
Notation marshal := (marshal pp).
Notation val := (val pp).
Notation bound_get := (bound_get rmode).
Notation bound_set := (bound_set rmode).

(** how often slot [s] occurs among the [n] slots of the sequence of [h] from the [a]-th on *)
Fixpoint occ (m : rmap) (h s : N) (a n : nat) : nat :=
  match n with O => 0 | S n => (if N.eqb (pi m h a) s then 1 else 0) + occ m h s (S a) n end.
Lemma occ_app : forall m h s n k a, occ m h s a (n + k) = occ m h s a n + occ m h s (a + n) k.
Proof. intros m h s n k. induction n; intros a; simpl; [rewrite Nat.add_0_r; auto|]. rewrite IHn. rewrite <- Nat.add_succ_comm. lia. Qed.
Lemma occ_S : forall m h s a n, occ m h s a (S n) = occ m h s a n + (if N.eqb (pi m h (a + n)) s then 1 else 0).
Proof. intros. rewrite <- Nat.add_1_r, occ_app. simpl. lia. Qed.
Lemma occ_cap : forall m m' h s n a, cap m' = cap m -> occ m' h s a n = occ m h s a n.
Proof. intros m m' h s n. induction n; intros a E; simpl; auto. rewrite (pi_cap rmode m m' h a E), IHn; auto. Qed.
Lemma occ_hash : forall m h g s n a, (h mod cap m = g mod cap m)%N -> occ m h s a n = occ m g s a n.
Proof. intros m h g s n. induction n; intros a E; simpl; auto. rewrite (pi_hash rmode m h g a E), IHn; auto. Qed.
Lemma occ_0 : forall m h s n a, (forall j, a <= j < a + n -> pi m h j <> s) -> occ m h s a n = 0.
Proof. intros m h s n. induction n; intros a H; simpl; auto. destruct (N.eqb_spec (pi m h a) s) as [E | E]; [destruct (H a); auto; lia|]. apply IHn. intros. apply H. lia. Qed.
Lemma occ_pos : forall m h s n a, 0 < occ m h s a n -> exists j, a <= j < a + n /\ pi m h j = s.
Proof.
  intros m h s n. induction n; intros a H; simpl in H; [lia|]. destruct (N.eqb_spec (pi m h a) s).
  - exists a. split; auto. lia.
  - destruct (IHn (S a)) as (j & J & E); [lia|]. exists j. split; auto. lia.
Qed.
Lemma occ_at : forall m h s n a j, a <= j < a + n -> pi m h j = s -> 0 < occ m h s a n.
Proof.
  intros m h s n. induction n; intros a j J E; simpl; [lia|]. destruct (N.eqb_spec (pi m h a) s); [lia|].
  destruct (Nat.eq_dec a j); [subst; congruence|]. pose proof (IHn (S a) j). lia.
Qed.
Lemma occ_1 : forall m h s n a, wf m -> a + n <= nc m -> occ m h s a n <= 1.
Proof.
  intros m h s n. induction n; intros a W H; simpl; [lia|]. destruct (N.eqb_spec (pi m h a) s) as [E | E].
  - rewrite occ_0; [lia|]. intros j J E2. assert (a = j); [|lia]. apply (pi_inj rmode m h a j); auto; try lia; congruence.
  - apply IHn; auto. lia.
Qed.

(** the slots before slot [t] when it is the [p]-th (counting from 1) of its sequence *)
Definition bk (m : rmap) (t : N) (p : nat) (s : N) : nat := match p with O => 0 | S i => occ m (home m t i) s 0 i end.
Lemma bk_pi : forall m h i s, wf m -> bk m (pi m h i) (S i) s = occ m h s 0 i.
Proof.
  intros m h i s W. unfold bk. rewrite home_pi by auto. apply occ_hash.
  pose proof (wf_pos m W). rewrite N.mod_mod by lia. auto.
Qed.
Lemma home_cap : forall m m' i o, cap m' = cap m -> home m' o i = home m o i.
Proof. intros m m' i. induction i; intros o E; simpl; auto. rewrite (prev_cap rmode m m') by auto. apply IHi; auto. Qed.
Lemma bk_cap : forall m m' t p s, cap m' = cap m -> bk m' t p s = bk m t p s.
Proof. intros. unfold bk. destruct p; auto. rewrite (home_cap m m') by auto. apply occ_cap; auto. Qed.
Lemma bk_1 : forall m t p s, wf m -> p <= nc m -> bk m t p s <= 1.
Proof. intros m t p s W H. unfold bk. destruct p; [lia|]. apply occ_1; auto. lia. Qed.
Lemma bk_pos : forall m t p s, wf m -> (t < cap m)%N -> 0 < bk m t p s ->
  exists g i a, p = S i /\ a < i /\ pi m g i = t /\ pi m g a = s.
Proof.
  intros m t p s W Ht H. unfold bk in H. destruct p as [|i]; [lia|]. apply occ_pos in H. destruct H as (a & A & E).
  exists (home m t i), i, a. split; auto. split; [lia|]. split; auto. apply pi_home; auto.
Qed.

Definition Wok (m : rmap) (P : N -> nat) : Prop :=
  forall s, (s < cap m)%N -> N.to_nat (wnt m s) = nsum (slots m) (fun t => bk m t (P t) s).
Definition used (m : rmap) (e : N -> N) : nat := nsum (slots m) (fun t => if N.eqb (e t) 0 then 0 else 1).
Definition cont (m : rmap) (e : N -> N) : list N := flat_map (fun t => if N.eqb (e t) 0 then [] else [val (e t)]) (slots m).
Lemma len_cont : forall m e, length (cont m e) = used m e.
Proof. intros. unfold cont, used. induction (slots m); simpl; auto. rewrite app_length, IHl. destruct (N.eqb (e a) 0); auto. Qed.
Lemma cont_ext : forall m e f, (forall t, (t < cap m)%N -> e t = f t) -> cont m e = cont m f.
Proof.
  intros m e f H. unfold cont. assert (G : forall l, (forall t, In t l -> e t = f t) -> flat_map (fun t => if N.eqb (e t) 0 then [] else [val (e t)]) l = flat_map (fun t => if N.eqb (f t) 0 then [] else [val (f t)]) l).
  { induction l; simpl; intros X; auto. rewrite (X a), IHl; auto. }
  apply G. intros t T. apply H. apply in_slots; auto.
Qed.
Definition cv (w : N) : list N := if N.eqb w 0 then [] else [val w].
Lemma flat_upd : forall l e s w, NoDup l -> In s l ->
  Permutation (cv (e s) ++ flat_map (fun t => cv (updN e s w t)) l) (cv w ++ flat_map (fun t => cv (e t)) l).
Proof.
  induction l; simpl; intros e s w ND I; [tauto|]. inversion_clear ND as [|? ? Na ND']. destruct I as [-> | I].
  - rewrite updN_same. assert (X : flat_map (fun t => cv (updN e s w t)) l = flat_map (fun t => cv (e t)) l).
    { clear - Na. induction l; simpl; auto. simpl in Na. rewrite updN_other by intuition congruence. rewrite IHl; auto. }
    rewrite X. rewrite !app_assoc. apply Permutation_app_tail. apply Permutation_app_comm.
  - assert (a <> s) by (intros ->; auto). rewrite updN_other by auto. specialize (IHl e s w ND' I).
    rewrite (Permutation_app_swap_app (cv (e s))). rewrite IHl. rewrite (Permutation_app_swap_app (cv w)). reflexivity.
Qed.
Lemma cont_upd : forall m e s w, (s < cap m)%N -> Permutation (cv (e s) ++ cont m (updN e s w)) (cv w ++ cont m e).
Proof. intros m e s w H. apply flat_upd; [apply nodup_slots | apply in_slots; auto]. Qed.
Lemma cont_in : forall m e x, In x (cont m e) <-> exists t, (t < cap m)%N /\ e t <> 0%N /\ val (e t) = x.
Proof.
  intros m e x. unfold cont. rewrite in_flat_map. split.
  - intros (t & T & I). exists t. apply in_slots in T. destruct (N.eqb_spec (e t) 0); simpl in I; intuition.
  - intros (t & T & Z & E). exists t. rewrite in_slots. split; auto. destruct (N.eqb_spec (e t) 0); [congruence|]. simpl. auto.
Qed.

(** the words of the path *)
Lemma used_path : forall m e h i, wf m -> i <= nc m -> (forall j, j < i -> e (pi m h j) <> 0%N) -> i <= used m e.
Proof.
  intros m e h i W Hi H. rewrite <- len_cont. unfold cont.
  assert (L : length (flat_map (fun t => if N.eqb (e t) 0 then [] else [val (e t)]) (slots m)) = length (filter (fun t => negb (N.eqb (e t) 0)) (slots m))).
  { induction (slots m); simpl; auto. rewrite app_length. rewrite IHl. destruct (N.eqb (e a) 0); simpl; lia. }
  assert (G : forall l, NoDup l -> (forall t, In t l -> In t (slots m) /\ e t <> 0%N) -> length l <= length (filter (fun t => negb (N.eqb (e t) 0)) (slots m))).
  { intros l ND X. apply NoDup_incl_length; auto. intros t T. apply filter_In. destruct (X t T) as (A & B). split; auto. destruct (N.eqb_spec (e t) 0); auto. }
  rewrite L. specialize (G (map (pi m h) (seq 0 i))). rewrite map_length, seq_length in G. apply G.
  - assert (GG : forall n a, a + n <= nc m -> NoDup (map (pi m h) (seq a n))).
    { induction n; intros a A; simpl; constructor.
      - intros I. apply in_map_iff in I. destruct I as (j & E & J). apply in_seq in J. assert (j = a); [|lia]. apply (pi_inj rmode m h); auto; lia.
      - apply IHn. lia. }
    apply GG. lia.
  - intros t T. apply in_map_iff in T. destruct T as (j & <- & J). apply in_seq in J. split; [apply in_slots; apply pi_lt; auto | apply H; lia].
Qed.
Lemma path_full : forall m e h s, wf m -> (forall j, j < nc m -> e (pi m h j) <> 0%N) -> (s < cap m)%N -> e s <> 0%N.
Proof.
  intros m e h s W H Hs.
  assert (GG : forall n a, a + n <= nc m -> NoDup (map (pi m h) (seq a n))).
  { induction n; intros a A; simpl; constructor.
    - intros I. apply in_map_iff in I. destruct I as (j & E & J). apply in_seq in J. assert (j = a); [|lia]. apply (pi_inj rmode m h); auto; lia.
    - apply IHn. lia. }
  assert (I : incl (slots m) (map (pi m h) (seq 0 (nc m)))).
  { apply NoDup_length_incl.
    - apply GG. lia.
    - rewrite map_length, seq_length, len_slots. lia.
    - intros t T. apply in_map_iff in T. destruct T as (j & <- & J). apply in_slots. apply pi_lt; auto. }
  specialize (I s). rewrite in_slots in I. apply I in Hs. apply in_map_iff in Hs. destruct Hs as (j & <- & J). apply in_seq in J. apply H. lia.
Qed.
Lemma used_ge : forall m e, used m e <= nc m.
Proof.
  intros. rewrite <- len_slots. unfold used. induction (slots m); simpl; auto. destruct (N.eqb (e a) 0); lia.
Qed.

(** ** The invariant.  [e] is what the slots hold (in the course of an operation not always
    what is stored in them), the slots [X] are exempt. *)
Definition good (e : N -> N) (m : rmap) (s : N) : Prop :=
  exists k i, e s = marshal k (hf k) /\ valid k /\ prb m s = S i /\ i < nc m /\ s = pi m (hf k) i /\
    (forall j, j < i -> e (pi m (hf k) j) <> 0%N) /\ S i <= bound_get m (hf k) /\ S i <= pmax m.
Record inv (e : N -> N) (m : rmap) (X : N -> Prop) : Prop := mkinv {
  i_wf : wf m;
  i_zero : forall s, (s < cap m)%N -> e s = 0%N -> prb m s = 0;
  i_good : forall s, (s < cap m)%N -> e s <> 0%N -> ~ X s -> good e m s;
  i_bnd : rmode = false -> forall s, bnd m s < 255 /\ bnd m s <= plim m;
  i_max : pmax m <= plim m }.
Definition none (s : N) : Prop := False.

Lemma val_marshal : forall k h, valid k -> val (marshal k h) = k.
Proof.
  intros k h (_ & V). unfold Rhs_Model.val, Rhs_Model.marshal. destruct pp; auto.
  rewrite N.mod_add by (apply N.pow_nonzero; lia). rewrite N.mod_mod by (apply N.pow_nonzero; lia). apply N.mod_small. auto.
Qed.
Lemma marshal_nz : forall k h, valid k -> marshal k h <> 0%N.
Proof. intros k h V E. pose proof (val_marshal k h V) as X. rewrite E in X. destruct V as (V & _). apply V. rewrite <- X. unfold Rhs_Model.val. destruct pp; auto. Qed.
Lemma hv_lt : forall h, (hv h < 2 ^ 16)%N.
Proof. intros. unfold hv. apply N.mod_lt. apply N.pow_nonzero. lia. Qed.
Lemma same_refl : forall x, same cmp x x = true.
Proof. intros. unfold same. rewrite N.eqb_refl. auto. Qed.
Lemma match_same : contract pp hf cmp -> forall x k, valid x -> valid k -> match_word pp cmp (marshal x (hf x)) k (hf k) = same cmp x k.
Proof.
  intros CT x k Vx Vk. unfold match_word. rewrite val_marshal by auto.
  assert (E : val k = k). { unfold Rhs_Model.val. destruct pp eqn:P; auto. apply N.mod_small. apply Vk; auto. }
  rewrite E. fold (same cmp x k). unfold Rhs_Model.marshal. destruct pp eqn:P; auto.
  destruct (same cmp x k) eqn:S; [|apply andb_false_r]. rewrite (c_hash _ _ _ CT x k Vx Vk S).
  rewrite N.mod_small by (apply Vx; auto). rewrite N.div_add by (apply N.pow_nonzero; lia).
  rewrite N.div_small by (apply Vx; auto). rewrite N.add_0_l, N.eqb_refl. auto.
Qed.

Lemma inv_ext : forall e f m X, inv e m X -> (forall t, (t < cap m)%N -> e t = f t) -> inv f m X.
Proof.
  intros e f m X I H. destruct I as [W Z G B M]. constructor; auto.
  - intros s Hs E. apply Z; auto. rewrite H; auto.
  - intros s Hs E NX. destruct (G s) as (k & i & A & V & P & L & S' & N' & Bg & Pm); auto; [rewrite H; auto|].
    exists k, i. rewrite <- (H s) by auto. repeat (split; [auto; fail|]). split.
    + intros j J. rewrite <- H by (apply pi_lt; auto). auto.
    + auto.
Qed.

(** maps that differ in bounds, which may be higher, in_rh, wanted, and perhaps prb *)
Record raised (m m' : rmap) : Prop := mkra {
  ra_cap : cap m' = cap m; ra_plim : plim m' = plim m; ra_max : pmax m <= pmax m' /\ (pmax m <= plim m -> pmax m' <= plim m);
  ra_get : forall h, bound_get m h <= bound_get m' h;
  ra_bnd : rmode = false -> (forall s, bnd m s < 255 /\ bnd m s <= plim m) -> forall s, bnd m' s < 255 /\ bnd m' s <= plim m }.
Lemma raised_wf : forall m m', raised m m' -> wf m -> wf m'.
Proof. intros m m' R (A & B). destruct R. split; [destruct A as (k & K & E); exists k; split; auto; congruence|]. congruence. Qed.
Lemma raised_refl : forall m, raised m m.
Proof. intros. constructor; auto. Qed.
Lemma raised_trans : forall a b c, raised a b -> raised b c -> raised a c.
Proof.
  intros a b c [A1 A2 (A3 & A3') A4 A5] [B1 B2 (B3 & B3') B4 B5]. constructor; try congruence.
  - split; [lia|]. intros H. rewrite A2 in *. auto.
  - intros h. specialize (A4 h). specialize (B4 h). lia.
  - intros Rm H. specialize (A5 Rm H). rewrite A2 in B5. apply B5; auto.
Qed.
(** the same map as far as [inv] goes *)
Lemma raised_same : forall m m', cap m' = cap m -> plim m' = plim m -> pmax m' = pmax m -> a_bnd m' = a_bnd m -> raised m m'.
Proof.
  intros m m' E1 E2 E3 E4.
  assert (EB : forall s, bnd m' s = bnd m s) by (intros; unfold bnd; rewrite E4; auto). constructor; auto.
  - lia.
  - intros h. unfold Rhs_Model.bound_get. rewrite E3, E1, EB. auto.
  - intros _ H s. rewrite EB. auto.
Qed.
Lemma inv_raised : forall e m m' X, inv e m X -> raised m m' -> (forall t, (t < cap m)%N -> prb m' t = prb m t) -> inv e m' X.
Proof.
  intros e m m' X I R HP. pose proof (raised_wf m m' R (i_wf _ _ _ I)) as W'. destruct I as [W Z G B M]. destruct R as [R1 R2 (R3 & R3') R4 R5].
  constructor; auto.
  - intros s Hs E. rewrite R1 in Hs. rewrite HP; auto.
  - intros s Hs E NX. rewrite R1 in Hs. destruct (G s) as (k & i & A & V & P & L & S' & N' & Bg & Pm); auto.
    exists k, i. rewrite HP by auto. rewrite (pi_cap rmode m m') by auto. unfold nc. rewrite R1. repeat (split; [auto; fail|]). split.
    + intros j J. rewrite (pi_cap rmode m m') by auto. auto.
    + specialize (R4 (hf k)). split; lia.
  - intros Rm s. rewrite R2. apply R5; auto.
  - rewrite R2. auto.
Qed.

(** storing a word where it belongs *)
Lemma inv_store : forall e m m' X s k i, inv e m X -> raised m m' ->
  (forall t, (t < cap m)%N -> t <> s -> prb m' t = prb m t) -> prb m' s = S i ->
  valid k -> i < nc m -> s = pi m (hf k) i -> (forall j, j < i -> e (pi m (hf k) j) <> 0%N) ->
  S i <= bound_get m' (hf k) -> S i <= pmax m' ->
  forall Y : N -> Prop, (forall t, ~ Y t -> t <> s -> ~ X t) -> inv (updN e s (marshal k (hf k))) m' Y.
Proof.
  intros e m m' X s k i I R HP HS V L ES N' Bg Pm Y HY. pose proof (raised_wf m m' R (i_wf _ _ _ I)) as W'.
  destruct I as [W Z G B M]. destruct R as [R1 R2 (R3 & R3') R4 R5].
  assert (NZ : forall t, e t <> 0%N -> updN e s (marshal k (hf k)) t <> 0%N).
  { intros t E. unfold updN. destruct (N.eqb t s); auto. apply marshal_nz; auto. }
  constructor; auto.
  - intros t Ht E. rewrite R1 in Ht. unfold updN in E. destruct (N.eqb_spec t s); [destruct (marshal_nz k (hf k) V E)|]. rewrite HP; auto.
  - intros t Ht E NX. rewrite R1 in Ht. destruct (N.eq_dec t s) as [-> | D].
    + exists k, i. rewrite updN_same, (pi_cap rmode m m') by auto. unfold nc. rewrite R1. repeat (split; [auto; fail|]). split; auto.
      intros j J. rewrite (pi_cap rmode m m') by auto. auto.
    + rewrite updN_other in E by auto. destruct (G t) as (k' & i' & A' & V' & P' & L' & S' & N'' & Bg' & Pm'); auto.
      exists k', i'. rewrite updN_other by auto. rewrite HP by auto. rewrite (pi_cap rmode m m') by auto. unfold nc. rewrite R1. repeat (split; [auto; fail|]). split.
      * intros j J. rewrite (pi_cap rmode m m') by auto. auto.
      * specialize (R4 (hf k')). split; lia.
  - intros Rm t. rewrite R2. apply R5; auto.
  - rewrite R2. auto.
Qed.

Lemma bound_set_raised : forall m h n, n <= plim m -> (rmode = false -> n < 255) -> raised m (bound_set m h n) /\ n <= pmax (bound_set m h n) /\ n <= bound_get (bound_set m h n) h.
Proof.
  intros m h n Hn Hs. unfold Rhs_Model.bound_set.
  set (m1 := if Nat.ltb (pmax m) n then set_pmax m n else m).
  assert (A1 : cap m1 = cap m) by (unfold m1; destruct (Nat.ltb (pmax m) n); auto).
  assert (A2 : plim m1 = plim m) by (unfold m1; destruct (Nat.ltb (pmax m) n); auto).
  assert (A3 : pmax m1 = max (pmax m) n) by (unfold m1; destruct (Nat.ltb_spec (pmax m) n); simpl; lia).
  assert (A4 : forall s, bnd m1 s = bnd m s) by (unfold m1; destruct (Nat.ltb (pmax m) n); auto).
  unfold Rhs_Model.bound_get. destruct rmode eqn:Rm; cbn [negb andb].
  - rewrite A3. split; [|lia]. constructor; auto; try lia; try congruence.
    intros h'. unfold Rhs_Model.bound_get. rewrite Rm. rewrite A3. lia.
  - specialize (Hs eq_refl). rewrite A1, !A4. unfold WORD_MAX. destruct (Nat.ltb_spec 255 n); [lia|].
    destruct (Nat.ltb_spec (bnd m (h mod cap m)) n) as [Lt | Ge].
    + assert (EB : forall t, bnd (set_bnd m1 (h mod cap m) n) t = updN (bnd m) (h mod cap m) n t).
      { intros t. rewrite bnd_set. unfold updN. destruct (N.eqb t _); auto. }
      change (cap (set_bnd m1 (h mod cap m)%N n)) with (cap m1). rewrite A1, EB, updN_same.
      destruct (Nat.eqb_spec n 255); [lia|]. split; [|simpl; lia].
      constructor; auto; try (simpl; lia).
      * intros h'. unfold Rhs_Model.bound_get. rewrite Rm. change (cap (set_bnd m1 (h mod cap m)%N n)) with (cap m1). rewrite A1, EB. unfold updN.
        destruct (N.eqb_spec (h' mod cap m) (h mod cap m)) as [E | E].
        -- rewrite E. change (pmax (set_bnd m1 (h mod cap m)%N n)) with (pmax m1). unfold WORD_MAX. destruct (Nat.eqb_spec (bnd m (h mod cap m)) 255); [lia|].
           destruct (Nat.eqb_spec n 255); lia.
        -- change (pmax (set_bnd m1 (h mod cap m)%N n)) with (pmax m1). unfold WORD_MAX. destruct (Nat.eqb (bnd m (h' mod cap m)) 255); lia.
      * intros _ H0 t. rewrite EB. unfold updN. destruct (N.eqb t (h mod cap m)); auto.
    + rewrite A1, A4. destruct (Nat.eqb_spec (bnd m (h mod cap m)) 255).
      * split; [|lia]. constructor; auto; try lia.
        -- intros h'. unfold Rhs_Model.bound_get. rewrite Rm. rewrite A1, A4, A3. unfold WORD_MAX. destruct (Nat.eqb (bnd m (h' mod cap m)) 255); lia.
        -- intros _ H0 s. rewrite A4. auto.
      * split; [|lia]. constructor; auto; try lia.
        -- intros h'. unfold Rhs_Model.bound_get. rewrite Rm. rewrite A1, A4, A3. unfold WORD_MAX. destruct (Nat.eqb (bnd m (h' mod cap m)) 255); lia.
        -- intros _ H0 s. rewrite A4. auto.
Qed.
Lemma bound_get_hash : forall m g h, (g mod cap m = h mod cap m)%N -> bound_get m g = bound_get m h.
Proof. intros. unfold Rhs_Model.bound_get. rewrite H. auto. Qed.
Lemma bound_get_plim : forall e m X h, inv e m X -> bound_get m h <= plim m.
Proof.
  intros e m X h I. destruct I as [_ _ _ B M]. unfold Rhs_Model.bound_get. destruct rmode; auto.
  destruct (Nat.eqb (bnd m (h mod cap m)) WORD_MAX); auto. apply B; auto.
Qed.
(** other fields of [bound_set] *)
Lemma bound_set_fields : forall m h n, let m' := bound_set m h n in
  cap m' = cap m /\ plim m' = plim m /\ a_ent m' = a_ent m /\ a_prb m' = a_prb m /\ a_wnt m' = a_wnt m /\ a_irh m' = a_irh m /\ nent m' = nent m /\ maxe m' = maxe m.
Proof.
  intros m h n. cbv zeta. unfold Rhs_Model.bound_set. destruct (Nat.ltb (pmax m) n); destruct (negb rmode && _); simpl; repeat split; auto.
Qed.

(** the index of a slot before which nothing is empty *)
Definition roomy (m : rmap) (e : N -> N) : Prop := used m e <= if rmode then 513 else 254.
Lemma small_idx : forall e m h i, wf m -> rmode = false -> used m e <= 253 -> S i <= plim m -> (forall j, j < i -> e (pi m h j) <> 0%N) -> S i < 255.
Proof.
  intros e m h i W Rm U L H. destruct (Nat.le_gt_cases i (nc m)) as [Le | Gt].
  - pose proof (used_path m e h i W Le H). lia.
  - pose proof (used_path m e h (nc m) W (le_n _)) as X. lapply X; [clear X; intros X | intros; apply H; lia].
    destruct W as ((k & K & E) & PL). rewrite PL in L. assert (C : (cap m <= 253)%N) by (unfold nc in X; lia).
    assert (D : (cap m / 32 < 64)%N) by (apply N.div_lt_upper_bound; lia). lia.
Qed.
End I.
