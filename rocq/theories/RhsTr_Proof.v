(** Robin Hood hash set: what the stores of the writer mean for concurrent lookups. *)
From Coq Require Import Arith NArith List Bool Permutation Lia.
From Verif Require Import Lib Helpers_Model Rhs_Model Rhs_Spec Rhs_Proof RhsInv_Proof RhsGrow_Proof.
Import ListNotations.

(** a store, seen by readers of the current map *)
Definition vapp (v : vmap) (s : store) : vmap :=
  match s with
  | SEnt i w => mkv (v_cap v) (aset (v_ent v) i w) (v_bnd v) (v_max v)
  | SBnd i n => mkv (v_cap v) (v_ent v) (aset (v_bnd v) i n) (v_max v)
  | SMax n => mkv (v_cap v) (v_ent v) (v_bnd v) n
  | SGen _ => v
  | SMap u => u
  end.

Section T.
Variables (rmode pp : bool) (hf : N -> N) (cmp : option (N -> N -> bool)).
Notation pi := (pi rmode).
Notation valid := (valid pp).
Notation marshal := (marshal pp).
Notation val := (val pp).
Notation bound_get := (bound_get rmode).
Notation bound_set := (bound_set rmode).
Notation inv := (inv rmode pp hf).
Notation Inv := (Inv rmode pp hf).
Notation cont := (cont pp).
Notation raised := (raised rmode).
Notation same := (same cmp).

(** the key [k] can be found at the [w]-th slot of its sequence *)
Definition fnd (k : N) (w : nat) (m : rmap) : Prop :=
  w < nc m /\ (exists z, valid z /\ same z k = true /\ hf z = hf k /\ ent m (pi m (hf k) w) = marshal z (hf z)) /\
  (forall j, j < w -> ent m (pi m (hf k) j) <> 0%N) /\ S w <= bound_get m (hf k) /\ S w <= pmax m.
Lemma fnd_view : forall k w m m', view m' = view m -> fnd k w m -> fnd k w m'.
Proof.
  intros k w m m' E F. assert (E1 : cap m' = cap m) by (change (v_cap (view m') = v_cap (view m)); rewrite E; auto).
  assert (E2 : a_ent m' = a_ent m) by (change (v_ent (view m') = v_ent (view m)); rewrite E; auto).
  assert (E3 : a_bnd m' = a_bnd m) by (change (v_bnd (view m') = v_bnd (view m)); rewrite E; auto).
  assert (E4 : pmax m' = pmax m) by (change (v_max (view m') = v_max (view m)); rewrite E; auto).
  assert (Ee : ent m' = ent m) by (unfold ent; rewrite E2; auto).
  destruct F as (F1 & (z & F2) & F3 & F4 & F5). unfold fnd, nc in *. rewrite E1, E4, Ee.
  assert (Bg : bound_get m' (hf k) = bound_get m (hf k)) by (unfold Rhs_Model.bound_get, bnd; rewrite E1, E3, E4; auto).
  rewrite Bg. split; auto. split; [exists z; rewrite (pi_cap rmode m m'); auto|]. split; [|auto].
  intros j J. rewrite (pi_cap rmode m m'); auto.
Qed.

(** the words of a store are keys in [B] *)
Definition wok (B : list N) (w : N) : Prop := w = 0%N \/ exists z, valid z /\ In z B /\ w = marshal z (hf z).
Definition sok (B : list N) (s : store) : Prop :=
  match s with SEnt _ w => wok B w | SMap v => (exists e, (3 <= e <= 31)%N /\ v_cap v = (2 ^ e)%N) /\ forall t, (t < v_cap v)%N -> wok B (aget 0%N (v_ent v) t) | _ => True end.
(** the place of [k] may change *)
Definition move (k : N) (m : rmap) (s : store) (w w' : nat) : Prop :=
  w' = w \/ match s with SGen i => (i = hf k mod 1024 \/ i = (hf k mod cap m) mod 1024)%N | SMap _ => True | _ => False end.

(** from [m], with [k] at [w], to [m'], with [k] at [w'], if [on] *)
Inductive tr (on : bool) (k : N) (B : list N) (m0 : rmap) (w0 : nat) : rmap -> nat -> Prop :=
| tr_nil : tr on k B m0 w0 m0 w0
| tr_eq m w m' : tr on k B m0 w0 m w -> view m' = view m -> hist m' = hist m -> tr on k B m0 w0 m' w
| tr_st m w m' w' s : tr on k B m0 w0 m w -> view m' = vapp (view m) s -> hist m' = s :: hist m -> sok B s ->
    move k m s w w' -> (on = true -> fnd k w' m') -> tr on k B m0 w0 m' w'.

Lemma tr_trans : forall on k B a x b y c z, tr on k B a x b y -> tr on k B b y c z -> tr on k B a x c z.
Proof. intros on k B a x b y c z H1 H2. induction H2; auto; [eapply tr_eq | eapply tr_st]; eauto. Qed.
Lemma tr_fnd : forall on k B a x b y, tr on k B a x b y -> (on = true -> fnd k x a) -> on = true -> fnd k y b.
Proof. intros on k B a x b y H F O. induction H; auto. eapply fnd_view; eauto. Qed.
Lemma wok_incl : forall B B' w, incl B B' -> wok B w -> wok B' w.
Proof. intros B B' w I [H | (z & V & Z & E)]; [left; auto | right; exists z; auto]. Qed.
Lemma sok_incl : forall B B' s, incl B B' -> sok B s -> sok B' s.
Proof. intros B B' s I H. destruct s; simpl in *; eauto using wok_incl. destruct H. eauto using wok_incl. Qed.
Lemma tr_incl : forall on k B B' a x b y, incl B B' -> tr on k B a x b y -> tr on k B' a x b y.
Proof. intros on k B B' a x b y I H. induction H; [constructor | eapply tr_eq; eauto | eapply tr_st; eauto using sok_incl]. Qed.

(** the same for all keys; [X] and [Y] say where the key may be *)
Definition Tr (X Y : N -> N -> Prop) (B : list N) (m m' : rmap) : Prop :=
  forall on k w, (on = true -> valid k /\ fnd k w m /\ X k (pi m (hf k) w)) ->
  exists w', tr on k B m w m' w' /\ (on = true -> Y k (pi m' (hf k) w')).
Definition any (k s : N) : Prop := True.
Definition nat_ (o : N) (k s : N) : Prop := s <> o.

Lemma Tr_refl : forall X B m, Tr X X B m m.
Proof. intros X B m on k w H. exists w. split; [constructor|]. intros O. apply H; auto. Qed.
Lemma Tr_trans : forall X Y Z B a b c, Tr X Y B a b -> Tr Y Z B b c -> Tr X Z B a c.
Proof.
  intros X Y Z B a b c H1 H2 on k w H. destruct (H1 on k w H) as (w1 & T1 & Y1).
  destruct (H2 on k w1) as (w2 & T2 & Y2).
  - intros O. destruct (H O) as (V & F & _). split; auto. split; [eapply tr_fnd; eauto; intros; apply H; auto | auto].
  - exists w2. split; auto. eapply tr_trans; eauto.
Qed.
Lemma Tr_weak : forall (X X' Y Y' : N -> N -> Prop) B B' a b, Tr X Y B a b -> (forall k s, valid k -> X' k s -> X k s) -> (forall k s, Y k s -> Y' k s) -> incl B B' -> Tr X' Y' B' a b.
Proof.
  intros X X' Y Y' B B' a b H HX HY I on k w H0. destruct (H on k w) as (w' & T & Q).
  - intros O. destruct (H0 O) as (V & F & x). auto.
  - exists w'. split; [eapply tr_incl; eauto | auto].
Qed.
Lemma Tr_incl : forall X Y B B' a b, Tr X Y B a b -> incl B B' -> Tr X Y B' a b.
Proof. intros. eapply Tr_weak; eauto. Qed.
Lemma Tr_same : forall X B m m', view m' = view m -> hist m' = hist m -> Tr X X B m m'.
Proof.
  intros X B m m' V H on k w F. exists w. split; [eapply tr_eq; [constructor | auto | auto]|]. intros O.
  rewrite (pi_cap rmode m m') by (change (v_cap (view m') = v_cap (view m)); rewrite V; auto). apply F; auto.
Qed.
Lemma fnd_word : forall k w m, fnd k w m -> ent m (pi m (hf k) w) <> 0%N.
Proof. intros k w m (_ & (z & V & _ & _ & E) & _). rewrite E. apply marshal_nz; auto. Qed.
Lemma Tr_nz : forall X B m s, ent m s = 0%N -> Tr X (nat_ s) B m m.
Proof. intros X B m s E on k w H. exists w. split; [constructor|]. intros O. destruct (H O) as (_ & F & _). intros C. apply (fnd_word _ _ _ F). rewrite C. auto. Qed.

(** storing a word that is not the one found *)
Lemma Tr_set : forall B m c d, valid d -> In d B -> Tr (nat_ c) (nat_ c) B m (set_ent m c (marshal d (hf d))).
Proof.
  intros B m c d V I on k w H. set (m' := set_ent m c (marshal d (hf d))).
  assert (Ep : forall g j, pi m' g j = pi m g j) by (intros; apply pi_cap; auto).
  assert (Ee : forall t, ent m' t = updN (ent m) c (marshal d (hf d)) t) by (intros; apply ent_set).
  exists w. split.
  - eapply tr_st with (s := SEnt c (marshal d (hf d))); [constructor | reflexivity | reflexivity | right; eauto | left; auto|].
    intros O. destruct (H O) as (_ & (F1 & (z & F2) & F3 & F4 & F5) & D). split; [exact F1|]. split; [|split; [|split; [exact F4 | exact F5]]].
    + exists z. fold m'. rewrite Ep, Ee, updN_other; auto.
    + intros j J. fold m'. rewrite Ep, Ee. unfold updN. destruct (N.eqb _ c); [apply marshal_nz; auto | apply F3; auto].
  - intros O. rewrite Ep. apply H; auto.
Qed.
(** storing another representative of the same key *)
Lemma Tr_repl : forall B m c d, valid d -> In d B ->
  (forall z, valid z -> ent m c = marshal z (hf z) -> hf z = hf d /\ forall k, valid k -> same z k = true -> same d k = true) ->
  Tr any any B m (set_ent m c (marshal d (hf d))).
Proof.
  intros B m c d V I W on k w H. set (m' := set_ent m c (marshal d (hf d))).
  assert (Ep : forall g j, pi m' g j = pi m g j) by (intros; apply pi_cap; auto).
  assert (Ee : forall t, ent m' t = updN (ent m) c (marshal d (hf d)) t) by (intros; apply ent_set).
  exists w. split; [|intros; exact Logic.I].
  eapply tr_st with (s := SEnt c (marshal d (hf d))); [constructor | reflexivity | reflexivity | right; eauto | left; auto|].
  intros O. destruct (H O) as (Vk & (F1 & (z & Vz & Sz & Hz & Ez) & F3 & F4 & F5) & _). split; [exact F1|]. split; [|split; [|split; [exact F4 | exact F5]]].
  - fold m'. rewrite Ep. destruct (N.eq_dec (pi m (hf k) w) c) as [E | E].
    + rewrite E in *. destruct (W z Vz Ez) as (W1 & W2). exists d. rewrite Ee, updN_same. split; auto. split; [auto|]. split; [congruence | auto].
    + exists z. rewrite Ee, updN_other; auto.
  - intros j J. fold m'. rewrite Ep, Ee. unfold updN. destruct (N.eqb _ c); [apply marshal_nz; auto | apply F3; auto].
Qed.
(** an increment of a generation when the word at [p] has been copied to [c] *)
Lemma Tr_bump : forall X B m m' p c d i g, view m' = view m -> hist m' = SGen g :: hist m -> valid d -> ent m c = marshal d (hf d) -> c = pi m (hf d) i -> i < nc m ->
  (forall j, j < i -> ent m (pi m (hf d) j) <> 0%N) -> S i <= bound_get m (hf d) -> S i <= pmax m -> p <> c ->
  (g = hf d mod 1024 \/ g = (hf d mod cap m) mod 1024)%N ->
  (forall z, valid z -> ent m p = marshal z (hf z) -> hf z = hf d /\ forall k, valid k -> same z k = true -> same d k = true) ->
  Tr X (nat_ p) B m m'.
Proof.
  intros X B m m' p c d i g Ev Eh Vd Ec EQ L Pa Bg Pm D G W on k w H.
  assert (Ep : forall h j, pi m' h j = pi m h j) by (intros; apply pi_cap; change (v_cap (view m') = v_cap (view m)); rewrite Ev; auto).
  destruct on; [|exists w; split; [eapply tr_st with (s := SGen g); [constructor | rewrite Ev; reflexivity | exact Eh | exact I | left; auto | discriminate] | discriminate]].
  destruct (H eq_refl) as (Vk & F & _). destruct (N.eq_dec (pi m (hf k) w) p) as [E | E].
  - pose proof F as (F1 & (z & Vz & Sz & Hz & Ez) & F3 & F4 & F5). rewrite E in Ez. destruct (W z Vz Ez) as (W1 & W2).
    assert (Hk : hf d = hf k) by congruence.
    exists i. split.
    + eapply tr_st with (s := SGen g); [constructor | rewrite Ev; reflexivity | exact Eh | exact I | right; simpl; rewrite <- Hk; exact G|].
      intros _. eapply fnd_view; [exact Ev|]. rewrite Hk in *. split; auto. split; [|auto]. exists d. rewrite <- EQ, Hk. auto.
    + intros _. rewrite Ep. unfold nat_. rewrite <- Hk, <- EQ. auto.
  - exists w. split.
    + eapply tr_st with (s := SGen g); [constructor | rewrite Ev; reflexivity | exact Eh | exact I | left; auto|]. intros _. eapply fnd_view; eauto.
    + intros _. rewrite Ep. exact E.
Qed.
(** the two together *)
Lemma marshal_inj : forall y z, valid y -> valid z -> marshal y (hf y) = marshal z (hf z) -> y = z.
Proof. intros y z Vy Vz E. rewrite <- (val_marshal pp y (hf y)), E by auto. apply val_marshal; auto. Qed.
Lemma Tr_move : forall B m m' p c d i, view m' = view (set_ent m c (marshal d (hf d))) -> hist m' = SGen ((hf d mod cap m) mod 1024) :: SEnt c (marshal d (hf d)) :: hist m ->
  valid d -> In d B -> ent m p = marshal d (hf d) -> c = pi m (hf d) i -> i < nc m ->
  (forall j, j < i -> ent m (pi m (hf d) j) <> 0%N) -> S i <= bound_get m (hf d) -> S i <= pmax m -> p <> c ->
  Tr (nat_ c) (nat_ p) B m m'.
Proof.
  intros B m m' p c d i Ev Eh Vd Id Ewp EQ L Pa Bg Pm D.
  apply Tr_trans with (Y := nat_ c) (b := set_ent m c (marshal d (hf d))); [apply Tr_set; auto|].
  assert (Epi : forall h j, pi (set_ent m c (marshal d (hf d))) h j = pi m h j) by (intros; apply pi_cap; auto).
  apply Tr_bump with (c := c) (d := d) (i := i) (g := ((hf d mod cap m) mod 1024)%N); auto.
  - rewrite ent_set. apply updN_same.
  - rewrite Epi. auto.
  - intros j J. rewrite Epi, ent_set. unfold updN. destruct (N.eqb _ c); [apply marshal_nz; auto | apply Pa; auto].
  - intros z Vz. rewrite ent_set, updN_other, Ewp by auto. intros E. rewrite (marshal_inj d z); auto.
Qed.

Lemma fnd_raised : forall k w m m', raised m m' -> a_ent m' = a_ent m -> fnd k w m -> fnd k w m'.
Proof.
  intros k w m m' R E (F1 & (z & F2) & F3 & F4 & F5). destruct R as [R1 R2 (R3 & _) R4 _]. specialize (R4 (hf k)).
  assert (Ee : ent m' = ent m) by (unfold ent; rewrite E; auto). unfold fnd, nc. rewrite R1, Ee. split; auto.
  split; [exists z; rewrite (pi_cap rmode m m'); auto|]. split; [|lia]. intros j J. rewrite (pi_cap rmode m m'); auto.
Qed.
Lemma Tr_bound : forall X B m h n, n <= plim m -> (rmode = false -> n < 255) -> Tr X X B m (bound_set m h n).
Proof.
  intros X B m h n Pl Sm. destruct (bound_set_raised rmode m h n Pl Sm) as (Ra & _ & _). unfold Rhs_Model.bound_set in *. cbv zeta in *.
  set (m1 := if Nat.ltb (pmax m) n then set_pmax m n else m) in *.
  assert (T1 : Tr X X B m m1).
  { unfold m1. destruct (Nat.ltb_spec (pmax m) n) as [Lt | _]; [|apply Tr_refl]. intros on k w H. exists w. split; [|intros O; rewrite (pi_cap rmode m) by auto; apply H; auto].
    eapply tr_st with (s := SMax n); [constructor | reflexivity | reflexivity | exact I | left; auto|]. intros O. destruct (H O) as (_ & (F1 & (z & F2) & F3 & F4 & F5) & _).
    assert (Ep : forall g j, pi (set_pmax m n) g j = pi m g j) by (intros; apply pi_cap; auto).
    split; [exact F1|]. split; [exists z; rewrite Ep; exact F2|]. split; [intros j J; rewrite Ep; apply F3; auto|].
    split; [|simpl; lia]. unfold Rhs_Model.bound_get in *. change (cap (set_pmax m n)) with (cap m). change (bnd (set_pmax m n)) with (bnd m). change (pmax (set_pmax m n)) with n.
    destruct rmode; [lia|]. destruct (Nat.eqb _ WORD_MAX); lia. }
  destruct (negb rmode && Nat.ltb (bnd m1 (h mod cap m1)) n); [|exact T1].
  eapply Tr_trans; [exact T1|]. match goal with |- Tr _ _ _ _ ?x => set (m2 := x) in * end.
  intros on k w H. exists w. split; [|intros O; rewrite (pi_cap rmode m1) by auto; apply H; auto].
  eapply tr_st with (s := SBnd (h mod cap m1) (if Nat.ltb WORD_MAX n then WORD_MAX else n)); [constructor | reflexivity | reflexivity | exact I | left; auto|].
  intros O. destruct (H O) as (_ & F & _).
  (* the bound does not fall *)
  assert (Ep : forall g j, pi m2 g j = pi m1 g j) by (intros; apply pi_cap; auto).
  destruct F as (F1 & (z & F2) & F3 & F4 & F5). split; [exact F1|]. split; [exists z; rewrite Ep; exact F2|]. split; [intros j J; rewrite Ep; apply F3; auto|].
  split; [|exact F5]. unfold Rhs_Model.bound_get in *. destruct rmode eqn:Rm; [exact F4|]. specialize (Sm eq_refl).
  change (cap m2) with (cap m1). change (pmax m2) with (pmax m1). unfold m2. rewrite bnd_set. unfold updN. destruct (N.eqb_spec (hf k mod cap m1) (h mod cap m1)) as [E | E]; auto.
  unfold WORD_MAX in *. destruct (Nat.ltb_spec 255 n); [lia|]. destruct (Nat.eqb_spec n 255); [lia|].
  rewrite E in F4. destruct (Nat.eqb_spec (bnd m1 (h mod cap m1)) 255).
  - destruct Ra as [_ _ _ R4 _]. specialize (R4 h). unfold Rhs_Model.bound_get in R4. cbv iota in R4. change (cap m2) with (cap m1) in R4. unfold m2 in R4. rewrite bnd_set in R4. 
    assert (C1 : cap m1 = cap m) by (unfold m1; destruct (Nat.ltb (pmax m) n); auto). assert (B1 : bnd m1 = bnd m) by (unfold m1; destruct (Nat.ltb (pmax m) n); auto).
    rewrite C1, B1 in *. rewrite updN_same in R4. rewrite e in R4. unfold WORD_MAX in R4. simpl Nat.eqb in R4. destruct (Nat.ltb_spec 255 n); [lia|]. destruct (Nat.eqb_spec n 255); [lia|].
    assert (P1 : pmax m1 = max (pmax m) n) by (unfold m1; destruct (Nat.ltb_spec (pmax m) n); simpl; lia). lia.
  - assert (C1 : cap m1 = cap m) by (unfold m1; destruct (Nat.ltb (pmax m) n); auto). assert (B1 : bnd m1 = bnd m) by (unfold m1; destruct (Nat.ltb (pmax m) n); auto).
    destruct Ra as [_ _ _ R4 _]. specialize (R4 h). unfold Rhs_Model.bound_get in R4. cbv iota in R4. change (cap m2) with (cap m1) in R4. unfold m2 in R4. rewrite bnd_set in R4. 
    rewrite C1, B1 in *. rewrite updN_same in R4. unfold WORD_MAX in R4. destruct (Nat.ltb_spec 255 n); [lia|]. destruct (Nat.eqb_spec n 255); [lia|]. destruct (Nat.eqb_spec (bnd m (h mod cap m)) 255); lia.
Qed.

(** where the invariant holds again *)
Lemma fnd_inv : forall m Z k w z, inv (ent m) m Z -> ~ Z (pi m (hf k) w) -> w < nc m -> valid z -> same z k = true -> hf z = hf k -> ent m (pi m (hf k) w) = marshal z (hf z) -> fnd k w m.
Proof.
  intros m Z k w z I NZ L Vz Sz Hz E. pose proof (i_wf _ _ _ _ _ _ I) as Wf.
  destruct (i_good _ _ _ _ _ _ I (pi m (hf k) w)) as (x & i & A & Vx & P & Li & EQ & Pa & Bg & Pm); auto; [apply pi_lt; auto | rewrite E; apply marshal_nz; auto|].
  rewrite E in A. apply marshal_inj in A; auto. subst x. rewrite Hz in *.
  apply pi_inj in EQ; auto. subst i. split; auto. split; [exists z; rewrite Hz; auto|]. auto.
Qed.
Lemma Tr_inv : forall (X : N -> N -> Prop) (Z : N -> Prop) B m m' u s, (match s with SMap _ => False | _ => True end) -> view m' = vapp (view m) s -> hist m' = s :: hist m -> sok B s -> view u = view m' -> inv (ent u) u Z ->
  (forall k t, X k t -> ent m' t = ent m t /\ ~ Z t) -> Tr X X B m m'.
Proof.
  intros X Z B m m' u s Ns Ev Eh So Eu Iv HX on k w H.
  assert (Ec : cap m' = cap m) by (change (v_cap (view m') = cap m); rewrite Ev; destruct s; auto; contradiction).
  assert (Ep : forall g j, pi m' g j = pi m g j) by (intros; apply pi_cap; auto).
  exists w. split; [|intros O; rewrite Ep; apply H; auto].
  eapply tr_st; eauto; [constructor | left; auto|]. intros O. destruct (H O) as (_ & (F1 & (z & Vz & Sz & Hz & Ez) & _) & HXX). destruct (HX _ _ HXX) as (E1 & E2).
  assert (Cu : cap u = cap m) by (change (v_cap (view u) = cap m); rewrite Eu; auto).
  assert (Wu : ent u = ent m') by (unfold ent; change (a_ent u) with (v_ent (view u)); rewrite Eu; auto).
  assert (Pu : forall g j, pi u g j = pi m g j) by (intros; apply pi_cap; auto).
  apply fnd_view with (m := u); auto. apply fnd_inv with (Z := Z) (z := z); auto.
  - rewrite Pu. auto.
  - unfold nc in *. rewrite Cu. auto.
  - rewrite Pu, Wu, E1. auto.
Qed.
(** a new map *)
Lemma fnd_cont : forall m k w, wf m -> fnd k w m -> exists z, In z (cont m (ent m)) /\ valid z /\ same z k = true /\ hf z = hf k.
Proof.
  intros m k w W F. pose proof (fnd_word _ _ _ F) as NZ. destruct F as (_ & (z & V & Sz & Hz & E) & _). exists z. split; auto.
  apply (cont_in pp hf). exists (pi m (hf k) w). split; [apply pi_lt; auto|]. split; auto. rewrite E. apply val_marshal; auto.
Qed.
Lemma cont_fnd : forall m k z, Inv m -> In z (cont m (ent m)) -> valid z -> same z k = true -> hf z = hf k -> exists w, fnd k w m.
Proof.
  intros m k z I C V Sz Hz. apply (cont_in pp hf) in C. destruct C as (t & T & NZ & E).
  destruct (i_good _ _ _ _ _ _ (proj1 I) t T NZ (fun x => x)) as (x & i & A & Vx & P & Li & EQ & Pa & Bg & Pm).
  rewrite A, val_marshal in E by auto. subst x. exists i. rewrite Hz in *. split; auto. split; [exists z; rewrite <- EQ, Hz; auto|]. auto.
Qed.
Lemma cont_wok : forall m t B, Inv m -> incl (cont m (ent m)) B -> (t < cap m)%N -> wok B (ent m t).
Proof.
  intros m t B I H T. destruct (N.eq_dec (ent m t) 0) as [Z | NZ]; [left; auto|]. right.
  destruct (Inv_words rmode pp hf m I t T NZ) as (z & V & E). exists z. split; auto. split; auto. apply H. apply (cont_in pp hf). exists t. split; auto. split; auto.
  rewrite E. apply val_marshal; auto.
Qed.
Lemma Tr_map : forall X B m u, wf m -> Inv u -> Permutation (cont u (ent u)) (cont m (ent m)) -> incl (cont m (ent m)) B -> hist u = SMap (view u) :: hist m -> Tr X any B m u.
Proof.
  intros X B m u W I P IB Eh on k w H.
  assert (G : exists w', on = true -> fnd k w' u).
  { destruct on; [|exists 0; discriminate]. destruct (H eq_refl) as (_ & F & _). destruct (fnd_cont m k w W F) as (z & Z & V & S & Hz).
    destruct (cont_fnd u k z I) as (w' & F'); auto. rewrite P. auto. eauto. }
  destruct G as (w' & G). exists w'. split; [|intros; exact Logic.I].
  eapply tr_st with (s := SMap (view u)); [constructor | reflexivity | exact Eh | | right; exact Logic.I | auto].
  split; [exact (proj1 (i_wf _ _ _ _ _ _ (proj1 I)))|]. intros t T. apply cont_wok; auto. intros z Z. apply IB. rewrite <- P. auto.
Qed.
End T.
