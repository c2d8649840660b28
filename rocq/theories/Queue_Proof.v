(** Proofs about Queue_Model.v: pointer structure lemmas and the effect of each macro. *)
From Coq Require Import Arith List Bool Lia.
From Verif Require Import Lib Queue_Model Queue_Spec.
Import ListNotations.

Lemma loc_eqb_spec : forall a b, reflect (a = b) (loc_eqb a b).
Proof.
  intros [x|x] [y|y]; simpl; try (constructor; discriminate);
  destruct (Nat.eqb_spec x y); constructor; congruence.
Qed.
Lemma loc_eqb_refl : forall a, loc_eqb a a = true.
Proof. intros a. destruct (loc_eqb_spec a a); congruence. Qed.
Lemma loc_eqb_neq : forall a b, a <> b -> loc_eqb a b = false.
Proof. intros a b H. destruct (loc_eqb_spec a b); congruence. Qed.

(** * Segments *)
Lemma lastloc_app : forall a b l, lastloc l (a ++ b) = lastloc (lastloc l a) b.
Proof. induction a as [|x a IH]; intros b l; simpl; auto. Qed.
Lemma lastloc_snoc : forall a x l, lastloc l (a ++ [x]) = LE x.
Proof. intros. rewrite lastloc_app. reflexivity. Qed.
Lemma lastloc_in : forall a l, lastloc l a = l \/ exists x, In x a /\ lastloc l a = LE x.
Proof.
  induction a as [|x a IH]; intros l; simpl; auto. right.
  destruct (IH (LE x)) as [->|[y [Hy ->]]]; [exists x|exists y]; auto.
Qed.
Lemma seg_app : forall k m a b l, seg k m l (a ++ b) <-> seg k m l a /\ seg k m (lastloc l a) b.
Proof.
  induction a as [|x a IH]; intros b l; simpl; [tauto|]. rewrite IH. tauto.
Qed.
Lemma seg_weak : forall k m xs l, seg k m l xs -> seg Sl m l xs.
Proof.
  induction xs as [|x xs IH]; intros l; simpl; auto. intros [A [B [C D]]]. repeat split; auto. discriminate.
Qed.
Lemma seg_nz : forall k m xs l x, seg k m l xs -> In x xs -> x <> 0.
Proof.
  induction xs as [|y xs IH]; simpl; intros l x H K; [tauto|]. destruct H as [A [B [C D]]].
  destruct K as [<-|K]; eauto.
Qed.
Lemma seg_ext : forall k m m' xs l, seg k m l xs ->
  (forall y, (y = l \/ exists x, In x xs /\ y = LE x) -> y <> lastloc l xs -> nx m' y = nx m y) ->
  (k = Li -> forall x, In x xs -> pv m' x = pv m x) -> NoDup xs -> (forall x, In x xs -> l <> LE x) -> seg k m' l xs.
Proof.
  induction xs as [|x xs IH]; simpl; intros l H N P D F; auto.
  destruct H as [A [B [C E]]]. inversion D as [|? ? D1 D2]; subst.
  assert (NL : l <> lastloc (LE (nx m l)) xs).
  { destruct (lastloc_in xs (LE (nx m l))) as [->|[y [Hy ->]]]; apply F; auto. }
  repeat split; auto.
  - intros K. rewrite P; auto.
  - apply IH; auto.
    + intros y Y Q; apply N; auto; right. destruct Y as [->|[z [Hz ->]]]; [exists (nx m l)|exists z]; auto.
    + intros z Hz Q. injection Q as Q. congruence.
Qed.
Lemma seg_eq : forall k m m' xs l, seg k m l xs ->
  nx m' l = nx m l -> (forall x, In x xs -> nx m' (LE x) = nx m (LE x)) ->
  (k = Li -> forall x, In x xs -> pv m' x = pv m x) -> seg k m' l xs.
Proof.
  induction xs as [|x xs IH]; simpl; intros l H L N P; auto.
  destruct H as [A [B [C E]]]. repeat split; auto; try congruence.
  intros K. rewrite P; auto.
Qed.
Lemma seg_hd : forall k m l q, seg k m l q -> nx m (lastloc l q) = 0 -> nx m l = hd 0 q.
Proof. intros k m l [|x q]; simpl; intuition. Qed.

Lemma rep_weak : forall k m h xs, rep k m h xs -> rep Sl m h xs.
Proof. intros k m h xs [A [B [C D]]]. repeat split; auto. eapply seg_weak; eauto. discriminate. Qed.
Lemma abs_weak : forall k m A, Abs k m A -> Abs Sl m A.
Proof. intros k m A [H D]. split; auto. intros. eapply rep_weak; eauto. Qed.

Lemma lastloc_eq_nx : forall m m' xs l, nx m' l = nx m l -> (forall x, In x xs -> nx m' (LE x) = nx m (LE x)) ->
  nx m' (lastloc l xs) = nx m (lastloc l xs).
Proof. intros m m' xs l A B. destruct (lastloc_in xs l) as [->|[x [Hx ->]]]; auto. Qed.

Lemma rep_eq : forall k m m' h xs, rep k m h xs -> nx m' (LH h) = nx m (LH h) ->
  (forall x, In x xs -> nx m' (LE x) = nx m (LE x)) -> (k = Li -> forall x, In x xs -> pv m' x = pv m x) ->
  (k = St -> lst m' h = lst m h) -> rep k m' h xs.
Proof.
  intros k m m' h xs [A [B [C D]]] N1 N2 P T. repeat split; auto.
  - eapply seg_eq; eauto.
  - rewrite (lastloc_eq_nx m m'); auto.
  - intros K. rewrite T; auto.
Qed.
Lemma abs_eq : forall k m m' A, Abs k m A -> (forall h, A h <> None -> nx m' (LH h) = nx m (LH h)) ->
  (forall x, ~ out A x -> nx m' (LE x) = nx m (LE x)) -> (k = Li -> forall x, ~ out A x -> pv m' x = pv m x) ->
  (k = St -> forall h, A h <> None -> lst m' h = lst m h) -> Abs k m' A.
Proof.
  intros k m m' A [H D] N1 N2 P T. split; auto. intros h xs E.
  assert (I : forall x, In x xs -> ~ out A x) by (intros x Hx O; exact (O _ _ E Hx)).
  eapply rep_eq; eauto.
  - apply N1. congruence.
  - intros K. apply T; auto. congruence.
Qed.

(** * Insertion and removal of one element, at the level of the pointers *)

(** [m'] differs from [m] by the insertion of [e] between [p] and [q] in list [h] *)
Record insd (k : kind) (h : nat) (p q : list nat) (e : nat) (m m' : mem) : Prop := mki {
  i_l : nx m' (lastloc (LH h) p) = e;
  i_e : nx m' (LE e) = hd 0 q;
  i_n : forall l, l <> lastloc (LH h) p -> l <> LE e -> nx m' l = nx m l;
  i_pe : k = Li -> pv m' e = lastloc (LH h) p;
  i_pq : k = Li -> forall x r, q = x :: r -> pv m' x = LE e;
  i_po : k = Li -> forall x, x <> e -> x <> hd 0 q -> pv m' x = pv m x;
  i_t : k = St -> lst m' h = match q with [] => LE e | _ => lst m h end;
  i_to : k = St -> forall h', h' <> h -> lst m' h' = lst m h' }.

Lemma nodup_app_in : forall (a b : list nat) x, NoDup (a ++ b) -> In x a -> In x b -> False.
Proof.
  induction a as [|y a IH]; simpl; intros b x D I J; [tauto|]. inversion D; subst.
  destruct I as [->|I]; eauto. apply H1. apply in_or_app. auto.
Qed.
Lemma nodup_l : forall (a b : list nat), NoDup (a ++ b) -> NoDup a.
Proof.
  induction a as [|y a IH]; simpl; intros b D; constructor; inversion D; subst; eauto.
  intros I. apply H1. apply in_or_app. auto.
Qed.
Lemma in_mid : forall (e : nat) p q, NoDup (p ++ q) -> ~ In e (p ++ q) -> NoDup (p ++ e :: q).
Proof. intros. apply NoDup_Add with (a := e) (l := p ++ q); auto. apply Add_app. Qed.

Lemma abs_ins : forall k m m' A A' h p q e, Abs k m A -> A h = Some (p ++ q) -> out A e -> e <> 0 -> insd k h p q e m m' ->
  A' h = Some (p ++ e :: q) -> (forall h', h' <> h -> A' h' = A h') -> Abs k m' A'.
Proof.
  intros k m m' A A' h p q e [H D] E O NZ [I1 I2 I3 I4 I5 I6 I7 I8] E' EO.
  assert (Oe : ~ In e (p ++ q)) by (eapply O; eauto).
  split.
  - intros h' xs F. destruct (Nat.eq_dec h' h) as [->|NE].
    + rewrite E' in F. injection F as <-. destruct (H _ _ E) as [S1 [S2 [S3 S4]]].
      rewrite seg_app in S1. destruct S1 as [Sp Sq]. rewrite lastloc_app in S2.
      assert (LL : forall x, In x q -> lastloc (LH h) p <> LE x).
      { intros x Hx Q. destruct (lastloc_in p (LH h)) as [R|[y [Hy R]]]; rewrite R in Q; try discriminate.
        injection Q as ->. eapply nodup_app_in; eauto. }
      assert (Le : lastloc (LH h) p <> LE e).
      { intros Q. destruct (lastloc_in p (LH h)) as [R|[y [Hy R]]]; rewrite R in Q; try discriminate.
        injection Q as ->. apply Oe. apply in_or_app. auto. }
      assert (Nq : forall x, In x q -> nx m' (LE x) = nx m (LE x)).
      { intros x Hx. apply I3. intros Q. apply (LL x Hx). auto. intros Q. injection Q as ->. apply Oe. apply in_or_app. auto. }
      assert (Sq' : seg k m' (LE e) q /\ nx m' (lastloc (LE e) q) = 0).
      { destruct q as [|x r]; simpl in *.
        - split; auto.
        - destruct Sq as [Q1 [Q2 [Q3 Q4]]]. split.
          + repeat split; auto. intros K. eauto.
            assert (Nx : ~ In x r) by (apply NoDup_remove_2 in S3; intros W; apply S3; apply in_or_app; auto).
            eapply seg_eq; eauto. intros K y Hy. apply I6; auto.
            * intros ->. apply Oe. apply in_or_app. simpl. auto.
            * simpl. intros ->. auto.
          + rewrite <- S2. apply lastloc_eq_nx; auto. }
      destruct Sq' as [Sq1 Sq2]. split; [|split; [|split]].
      * apply seg_app. split.
        -- eapply seg_ext; eauto.
           ++ intros y Y1 Y2. apply I3; auto. intros ->. destruct Y1 as [Y1|[x [Hx Y1]]]; try discriminate.
              injection Y1 as ->. apply Oe. apply in_or_app. auto.
           ++ intros K x Hx. apply I6; auto.
              ** intros ->. apply Oe. apply in_or_app. auto.
              ** destruct q as [|y r]; simpl.
                 --- apply (seg_nz _ _ _ _ _ Sp Hx).
                 --- intros ->. eapply nodup_app_in; eauto. left; auto.
           ++ apply nodup_l in S3. auto.
           ++ intros; discriminate.
        -- simpl. repeat split; auto.
      * rewrite lastloc_app. simpl. auto.
      * apply in_mid; auto.
      * intros K. rewrite I7; auto. rewrite lastloc_app. simpl. destruct q; simpl; auto.
        rewrite S4; auto. rewrite lastloc_app. auto.
    + rewrite EO in F by auto.
      assert (Nin : forall x, In x xs -> ~ In x (p ++ q)) by (intros x Hx Hx'; apply NE; eapply D; eauto).
      assert (Ne : ~ In e xs) by (eapply O; eauto).
      eapply rep_eq; eauto.
      * apply I3; try discriminate. destruct (lastloc_in p (LH h)) as [R|[y [Hy R]]]; rewrite R; congruence.
      * intros x Hx. apply I3. 2: congruence.
        destruct (lastloc_in p (LH h)) as [R|[y [Hy R]]]; rewrite R; try congruence.
        intros Q. injection Q as ->. eapply Nin; eauto. apply in_or_app. auto.
      * intros K x Hx. apply I6; auto. congruence.
        destruct q as [|y r]; simpl; auto.
        -- eapply seg_nz; eauto. apply (H _ _ F).
        -- intros ->. eapply Nin; eauto. apply in_or_app. simpl. auto.
  - intros h1 h2 xs xs' x F1 F2 G1 G2.
    assert (B : forall h' ys, A' h' = Some ys -> In x ys -> x = e /\ h' = h \/ exists ys', A h' = Some ys' /\ In x ys').
    { intros h' ys Y1 Y2. destruct (Nat.eq_dec h' h) as [->|NE].
      - rewrite E' in Y1. injection Y1 as <-. apply in_app_or in Y2. destruct Y2 as [Y2|[Y2|Y2]]; auto;
        right; eexists; split; eauto; apply in_or_app; auto.
      - rewrite EO in Y1 by auto. eauto. }
    destruct (B _ _ F1 G1) as [[-> ->]|[ys1 [Z1 Z2]]], (B _ _ F2 G2) as [[X1 X2]|[ys2 [Z3 Z4]]]; subst; auto.
    + exfalso. eapply O; eauto.
    + exfalso. eapply O; eauto.
    + eapply D; eauto.
Qed.

(** [m'] differs from [m] by the removal of [f] between [p] and [q] in list [h] *)
Record remd (k : kind) (h : nat) (p q : list nat) (f : nat) (m m' : mem) : Prop := mkr {
  r_l : nx m' (lastloc (LH h) p) = hd 0 q;
  r_n : forall l, l <> lastloc (LH h) p -> nx m' l = nx m l;
  r_pq : k = Li -> forall x r, q = x :: r -> pv m' x = lastloc (LH h) p;
  r_po : k = Li -> forall x, x <> 0 -> x <> hd 0 q -> pv m' x = pv m x;
  r_t : k = St -> lst m' h = match q with [] => lastloc (LH h) p | _ => lst m h end;
  r_to : k = St -> forall h', h' <> h -> lst m' h' = lst m h' }.

Lemma abs_rem : forall k m m' A A' h p q f, Abs k m A -> A h = Some (p ++ f :: q) -> remd k h p q f m m' ->
  A' h = Some (p ++ q) -> (forall h', h' <> h -> A' h' = A h') -> Abs k m' A'.
Proof.
  intros k m m' A A' h p q f [H D] E [I1 I3 I5 I6 I7 I8] E' EO.
  split.
  - intros h' xs F. destruct (Nat.eq_dec h' h) as [->|NE].
    + rewrite E' in F. injection F as <-. destruct (H _ _ E) as [S1 [S2 [S3 S4]]].
      assert (S3' := NoDup_remove_1 _ _ _ S3).
      rewrite seg_app in S1. destruct S1 as [Sp [_ [Nf [_ Sq]]]]. rewrite lastloc_app in S2. simpl in S2.
      assert (LL : forall x, In x q -> lastloc (LH h) p <> LE x).
      { intros x Hx Q. destruct (lastloc_in p (LH h)) as [R|[y [Hy R]]]; rewrite R in Q; try discriminate.
        injection Q as ->. eapply nodup_app_in; eauto. }
      assert (Nq : forall x, In x q -> nx m' (LE x) = nx m (LE x)).
      { intros x Hx. apply I3. intros Q. apply (LL x Hx). auto. }
      assert (Sq' : seg k m' (lastloc (LH h) p) q /\ nx m' (lastloc (lastloc (LH h) p) q) = 0).
      { destruct q as [|x r]; simpl in *.
        - split; auto.
        - destruct Sq as [Q1 [Q2 [Q3 Q4]]]. split.
          + repeat split; auto. intros K. eauto.
            assert (Nx : ~ In x r) by (apply NoDup_remove_2 in S3'; intros W; apply S3'; apply in_or_app; auto).
            eapply seg_eq; eauto. intros K y Hy. apply I6; auto.
            * apply (seg_nz _ _ _ _ _ Q4 Hy).
            * simpl. intros ->. auto.
          + rewrite <- S2. apply lastloc_eq_nx; auto. }
      destruct Sq' as [Sq1 Sq2]. split; [|split; [|split]].
      * apply seg_app. split; auto.
        eapply seg_ext; eauto.
        -- intros K x Hx. apply I6; auto.
           ** apply (seg_nz _ _ _ _ _ Sp Hx).
           ** destruct q as [|y r]; simpl.
              --- apply (seg_nz _ _ _ _ _ Sp Hx).
              --- intros ->. eapply nodup_app_in; eauto. left; auto.
        -- apply nodup_l in S3. auto.
        -- intros; discriminate.
      * rewrite lastloc_app. simpl. auto.
      * auto.
      * intros K. rewrite I7; auto. rewrite lastloc_app. destruct q; simpl; auto.
        rewrite S4; auto. rewrite lastloc_app. auto.
    + rewrite EO in F by auto.
      assert (Nin : forall x, In x xs -> ~ In x (p ++ f :: q)) by (intros x Hx Hx'; apply NE; eapply D; eauto).
      eapply rep_eq; eauto.
      * apply I3; try discriminate. destruct (lastloc_in p (LH h)) as [R|[y [Hy R]]]; rewrite R; congruence.
      * intros x Hx. apply I3.
        destruct (lastloc_in p (LH h)) as [R|[y [Hy R]]]; rewrite R; try congruence.
        intros Q. injection Q as ->. eapply Nin; eauto. apply in_or_app. auto.
      * intros K x Hx. assert (x <> 0) by (eapply seg_nz; eauto; apply (H _ _ F)). apply I6; auto.
        destruct q as [|y r]; simpl; auto.
        intros ->. eapply Nin; eauto. apply in_or_app. simpl. auto.
  - intros h1 h2 xs xs' x F1 F2 G1 G2.
    assert (B : forall h' ys, A' h' = Some ys -> In x ys -> exists ys', A h' = Some ys' /\ In x ys').
    { intros h' ys Y1 Y2. destruct (Nat.eq_dec h' h) as [->|NE].
      - rewrite E' in Y1. injection Y1 as <-. eexists. split; eauto.
        apply in_app_or in Y2. apply in_or_app. simpl. tauto.
      - rewrite EO in Y1 by auto. eauto. }
    destruct (B _ _ F1 G1) as [ys1 [Z1 Z2]], (B _ _ F2 G2) as [ys2 [Z3 Z4]]. eapply D; eauto.
Qed.

(** * The effect of one instruction on the next pointers *)
Definition mem_of (A : nat -> option (list nat)) (h x : nat) : Prop := exists xs, A h = Some xs /\ In x xs.

(** the store that inserts [e] after location [L] of list [h] *)
Definition pubi (A A' : nat -> option (list nat)) (e : nat) (m m1 : mem) : Prop :=
  exists h L, A h <> None /\ (L = LH h \/ exists a, L = LE a /\ mem_of A h a) /\ L <> LE e /\
    nx m (LE e) = nx m L /\ nx m1 L = e /\ (forall l, l <> L -> nx m1 l = nx m l) /\
    (forall h' x, mem_of A' h' x <-> mem_of A h' x \/ h' = h /\ x = e).
(** the store that removes [f], stored at location [L] *)
Definition pubr (A A' : nat -> option (list nat)) (m m1 : mem) : Prop :=
  exists h L f, (L = LH h \/ exists a, L = LE a /\ mem_of A h a) /\ L <> LE f /\ mem_of A h f /\ nx m L = f /\
    nx m1 L = nx m (LE f) /\ (forall l, l <> L -> nx m1 l = nx m l) /\
    (forall h' x, mem_of A' h' x <-> mem_of A h' x /\ x <> f).
Definition effect (A A' : nat -> option (list nat)) (o : op) (pub b : bool) (m m1 : mem) : Prop :=
  if b then match new_elt o with Some e => pubi A A' e m m1 | None => pubr A A' m m1 end
  else forall l, (pub = true \/ forall e, new_elt o = Some e -> l <> LE e) -> nx m1 l = nx m l.

Inductive wok (k : kind) (A A' : nat -> option (list nat)) (o : op) : bool -> mem -> list micro -> mem -> Prop :=
| wk_nil : forall m, wok k A A' o true m [] m
| wk_step : forall pub m p m1 p1 b mf, mstep k m p = Some (m1, p1, b) -> (pub = true -> b = false) ->
    effect A A' o pub b m m1 -> untouched A o m m1 -> Abs Sl m1 (if orb pub b then A' else A) ->
    wok k A A' o (orb pub b) m1 p1 mf -> wok k A A' o pub m p mf.

Lemma untouched_refl : forall A o m, untouched A o m m.
Proof. intros. split; auto. Qed.
Lemma untouched_trans : forall A o m1 m2 m3, untouched A o m1 m2 -> untouched A o m2 m3 -> untouched A o m1 m3.
Proof.
  intros A o m1 m2 m3 [A1 B1] [A2 B2]. split.
  - intros x X1 X2. destruct (A1 x X1 X2), (A2 x X1 X2). split; congruence.
  - intros h X. destruct (B1 h X), (B2 h X). split; congruence.
Qed.
Lemma wok_run : forall k A A' o pub m p mf, wok k A A' o pub m p mf ->
  untouched A o m mf /\ exists n, mrun k n m p = Some (mf, []).
Proof.
  intros k A A' o pub m p mf H. induction H as [m|pub m p m1 p1 b mf E1 E2 E3 E4 E5 E6 [IH1 [n IH2]]].
  - split. apply untouched_refl. exists 0. reflexivity.
  - split. eapply untouched_trans; eauto. exists (S n). simpl. rewrite E1. simpl. auto.
Qed.
