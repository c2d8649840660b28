(** The macros on whole lists, histories, and the FOREACH loop when nobody writes. *)
From Coq Require Import Arith List Bool Lia.
From Verif Require Import Lib Queue_Model Queue_Spec Queue_Proof QueueOp_Proof.
Import ListNotations.
Local Arguments loc_eqb : simpl never.

(** the list of head [h] is now the list of head [h'] *)
Lemma rep_rehead : forall k m m' h h' xs, rep k m h xs -> nx m' (LH h') = hd 0 xs ->
  (forall x, In x xs -> nx m' (LE x) = nx m (LE x)) ->
  (k = Li -> forall x r, xs = x :: r -> pv m' x = LH h' /\ forall y, In y r -> pv m' y = pv m y) ->
  (k = St -> lst m' h' = match xs with [] => LH h' | _ => lst m h end) -> rep k m' h' xs.
Proof.
  intros k m m' h h' xs [S1 [S2 [S3 S4]]] N1 N2 P T. destruct xs as [|x r]; simpl in *.
  - repeat split; auto.
  - destruct S1 as [X1 [X2 [X3 X4]]]. split; [|split; [|split]]; auto.
    + simpl. repeat split; auto.
      * intros K. apply (P K x r eq_refl).
      * eapply seg_eq; eauto. intros K. apply (P K x r eq_refl).
    + simpl. rewrite <- S2. apply lastloc_eq_nx; auto.
    + intros K. simpl. rewrite T, S4; auto.
Qed.

Definition seq_ok (k : kind) (A : nat -> option (list nat)) (o : op) (m : mem) : Prop :=
  exists n mf, mrun k n m (prog k o) = Some (mf, []) /\ Abs k mf (aop A o) /\ untouched A o m mf.

Lemma wok_seq : forall k A o m, (exists mf, wok k A (aop A o) o false m (prog k o) mf /\ Abs k mf (aop A o)) -> seq_ok k A o m.
Proof. intros k A o m [mf [W B]]. destruct (wok_run _ _ _ _ _ _ _ _ W) as [U [n R]]. exists n, mf. auto. Qed.

Ltac uni := apply untouched_intro; simpl;
  [ intros l; repeat match goal with |- context [loc_eqb ?a ?b] => destruct (loc_eqb_spec a b); subst; eauto 8 end; auto
  | intros y; upd_goal; subst; auto
  | intros h'; upd_goal; subst; auto ].

Lemma seq_init : forall k m A h, Abs k m A -> seq_ok k A (OInit h) m.
Proof.
  intros k m A h [H D].
  assert (DD : forall h1 h' xs xs' x, upd A h (Some []) h1 = Some xs -> upd A h (Some []) h' = Some xs' -> In x xs -> In x xs' -> h1 = h').
  { intros h1 h' xs xs' x. upd_goal; subst; auto; intros Q1 Q2 I1 I2.
    - injection Q1 as <-. destruct I1.
    - injection Q2 as <-. destruct I2.
    - eapply D; eauto. }
  assert (R : forall m', nx m' (LH h) = 0 -> (forall l, l <> LH h -> nx m' l = nx m l) -> (forall x, pv m' x = pv m x) ->
     (k = St -> lst m' h = LH h) -> (k = St -> forall h', h' <> h -> lst m' h' = lst m h') -> Abs k m' (upd A h (Some []))).
  { intros m' N1 N2 P T1 T2. split; auto. intros h' xs. upd_goal; subst; intros Q.
    - injection Q as <-. repeat split; simpl; auto. constructor.
    - eapply rep_eq; eauto; intros; apply N2; congruence. }
  destruct k.
  - exists 1. eexists. split; [simpl; reflexivity|]. split; [apply R; try discriminate; nxs|uni].
  - exists 2. eexists. split; [simpl; reflexivity|]. split; [apply R; nxs; pvs|uni].
  - exists 1. eexists. split; [simpl; reflexivity|]. split; [apply R; try discriminate; nxs|uni].
Qed.

Lemma disj_in : forall k m A h1 h2 xs1 xs2 x, Abs k m A -> h1 <> h2 -> A h1 = Some xs1 -> A h2 = Some xs2 -> In x xs1 -> In x xs2 -> False.
Proof. intros k m A h1 h2 xs1 xs2 x [_ D] N E1 E2 I1 I2. apply N. eapply D; eauto. Qed.

Lemma seq_concat : forall m A h1 h2, Abs St m A -> pre A (OConcat h1 h2) -> seq_ok St A (OConcat h1 h2) m.
Proof.
  intros m A h1 h2 B [NE [[xs1 E1] [xs2 E2]]].
  assert (DJ : forall x, In x xs1 -> In x xs2 -> False) by (intros x; eapply disj_in; eauto).
  assert (EA1 : aop A (OConcat h1 h2) h1 = Some (xs1 ++ xs2)) by (simpl; rewrite upd_other, upd_same, E1, E2; auto).
  assert (EA2 : aop A (OConcat h1 h2) h2 = Some []) by (simpl; rewrite upd_same; auto).
  assert (EAO : forall h, h <> h1 -> h <> h2 -> aop A (OConcat h1 h2) h = A h) by (intros; simpl; rewrite !upd_other; auto).
  destruct B as [H D]. destruct (H _ _ E1) as [S1 [S2 [S3 S4]]]. destruct (H _ _ E2) as [T1 [T2 [T3 T4]]].
  specialize (S4 eq_refl). specialize (T4 eq_refl).
  assert (DD : forall h h' xs xs' x, aop A (OConcat h1 h2) h = Some xs -> aop A (OConcat h1 h2) h' = Some xs' -> In x xs -> In x xs' -> h = h').
  { assert (W : forall h xs x, aop A (OConcat h1 h2) h = Some xs -> In x xs -> h <> h2 /\ (h = h1 \/ A h = Some xs) /\ (h = h1 -> In x xs1 \/ In x xs2)).
    { intros h xs x Q I. destruct (Nat.eq_dec h h2) as [->|N2]; [rewrite EA2 in Q; injection Q as <-; destruct I|].
      split; auto. destruct (Nat.eq_dec h h1) as [->|N1].
      - split; auto. intros _. rewrite EA1 in Q. injection Q as <-. apply in_app_or. auto.
      - rewrite EAO in Q by auto. split; auto. intros; congruence. }
    intros h h' xs xs' x Q1 Q2 I1 I2. destruct (W _ _ _ Q1 I1) as [A1 [A2 A3]], (W _ _ _ Q2 I2) as [A4 [A5 A6]].
    destruct A2 as [->|A2], A5 as [->|A5]; auto.
    - destruct (A3 eq_refl) as [X|X]; [eapply D; eauto|]. exfalso. apply A4. eapply D; eauto.
    - destruct (A6 eq_refl) as [X|X]; [eapply D; eauto|]. exfalso. apply A1. eapply D; eauto.
    - eapply D; eauto. }
  destruct xs2 as [|x xs2].
  - exists 1, m. simpl in T2, T1. split; [simpl; rewrite T2; reflexivity|]. split; [|apply untouched_refl].
    split; auto. intros h xs Q. destruct (Nat.eq_dec h h2) as [->|N2]; [rewrite EA2 in Q; injection Q as <-; auto|].
    destruct (Nat.eq_dec h h1) as [->|N1]; [rewrite EA1 in Q; injection Q as <-; rewrite app_nil_r; auto|].
    rewrite EAO in Q by auto. auto.
  - simpl in T1. destruct T1 as [X1 [X2 [X3 X4]]].
    assert (L1 := lastloc_nz _ _ _ _ S1).
    assert (L2 : lastloc (LH h1) xs1 <> LH h2).
    { destruct (lastloc_in xs1 (LH h1)) as [->|[y [Hy ->]]]; congruence. }
    assert (L3 : forall y, In y (x :: xs2) -> lastloc (LH h1) xs1 <> LE y).
    { intros y Hy. apply lastloc_ne. intros W. eapply DJ; eauto. }
    remember (lastloc (LH h1) xs1) as L eqn:LL. 
    exists 5. eexists. split.
    { cbn [prog p_concat p_init mrun mstep bind fst snd app]. rewrite X1.
      destruct (Nat.eqb_spec x 0); [congruence|]. simpl. rewrite S4. rewrite setn_ok by auto. simpl.
      rewrite X1, T4. reflexivity. }
    split.
    + split; auto. intros h xs Q. destruct (Nat.eq_dec h h2) as [->|N2].
      { rewrite EA2 in Q; injection Q as <-. repeat split; simpl; auto; try constructor.
        - rewrite loc_eqb_refl. auto.
        - intros _. rewrite upd_same. auto. }
      destruct (Nat.eq_dec h h1) as [->|N1].
      * rewrite EA1 in Q; injection Q as <-. split; [|split; [|split]].
        -- apply seg_app. split.
           ++ eapply seg_ext; eauto; try discriminate.
              intros l W1 W2. simpl. rewrite <- LL in W2. rewrite (loc_eqb_neq l L), (loc_eqb_neq l (LH h2)); auto.
              destruct W1 as [->|[y [_ ->]]]; congruence.
           ++ rewrite <- LL. simpl. rewrite loc_eqb_refl, (loc_eqb_neq L (LH h2)); auto. repeat split; auto; try discriminate.
              eapply seg_eq; eauto; try discriminate; simpl.
              ** rewrite (loc_eqb_neq (LE x) L). reflexivity. apply not_eq_sym. apply L3. left; auto.
              ** intros y Hy. rewrite (loc_eqb_neq (LE y) L). reflexivity. apply not_eq_sym. apply L3. right; auto.
        -- rewrite lastloc_app. rewrite <- LL. simpl. rewrite <- T2. simpl.
           destruct (lastloc_in xs2 (LE x)) as [->|[y [Hy ->]]].
           ++ rewrite (loc_eqb_neq (LE x) L). reflexivity. apply not_eq_sym. apply L3. left; auto.
           ++ rewrite (loc_eqb_neq (LE y) L). reflexivity. apply not_eq_sym. apply L3. right; auto.
        -- clear - DJ S3 T3. induction xs1 as [|y l IH]; simpl; auto. inversion S3; subst. constructor.
           ++ intros W. apply in_app_or in W. destruct W; auto. eapply DJ; eauto. left; auto.
           ++ apply IH; auto. intros z I1 I2. eapply DJ; eauto. right; auto.
        -- intros _. simpl. rewrite upd_other, upd_same by auto. rewrite lastloc_app. reflexivity.
      * rewrite EAO in Q by auto. eapply rep_eq; eauto; simpl; try discriminate.
        -- rewrite (loc_eqb_neq (LH h) (LH h2)), (loc_eqb_neq (LH h) L); auto; try congruence.
           rewrite LL. destruct (lastloc_in xs1 (LH h1)) as [->|[y [Hy ->]]]; congruence.
        -- intros y Hy. rewrite ?LEH, (loc_eqb_neq (LE y) L); auto; try congruence.
           rewrite LL. destruct (lastloc_in xs1 (LH h1)) as [->|[z [Hz ->]]]; try congruence.
           intros W. injection W as ->. apply N1. eapply D; eauto.
        -- intros _. rewrite !upd_other; auto.
    + apply untouched_intro; simpl; auto.
      * intros l. destruct (loc_eqb_spec l (LH h2)) as [->|]; [right; right; left; eauto|].
        destruct (loc_eqb_spec l L) as [->|]; auto. right. right. rewrite LL.
        destruct (lastloc_in xs1 (LH h1)) as [->|[z [Hz ->]]]; [left; eauto|right].
        exists z. split; auto. intros O. exact (O _ _ E1 Hz).
      * intros h. upd_goal; subst; auto.
Qed.

Lemma seq_move : forall k m A h1 h2, Abs k m A -> pre A (OMove h1 h2) -> seq_ok k A (OMove h1 h2) m.
Proof.
  intros k m A h1 h2 [H D] [NE [xs E2]].
  assert (EA1 : aop A (OMove h1 h2) h1 = Some xs) by (simpl; rewrite upd_other, upd_same; auto).
  assert (EA2 : aop A (OMove h1 h2) h2 = None) by (simpl; rewrite upd_same; auto).
  assert (EAO : forall h, h <> h1 -> h <> h2 -> aop A (OMove h1 h2) h = A h) by (intros; simpl; rewrite !upd_other; auto).
  assert (DD : forall h h' xs xs' x, aop A (OMove h1 h2) h = Some xs -> aop A (OMove h1 h2) h' = Some xs' -> In x xs -> In x xs' -> h = h').
  { assert (W : forall h ys, aop A (OMove h1 h2) h = Some ys -> exists h0, A h0 = Some ys /\ (h = h1 /\ h0 = h2 \/ h = h0 /\ h <> h2 /\ h <> h1)).
    { intros h ys Q. destruct (Nat.eq_dec h h2) as [->|N2]; [congruence|]. destruct (Nat.eq_dec h h1) as [->|N1].
      - exists h2. split; auto. congruence.
      - rewrite EAO in Q by auto. exists h. auto. }
    intros h h' ys ys' x Q1 Q2 I1 I2. destruct (W _ _ Q1) as [a [A1 A2]], (W _ _ Q2) as [b [B1 B2]].
    assert (a = b) by (eapply D; eauto). intuition congruence. }
  destruct (H _ _ E2) as [T1 [T2 [T3 T4]]].
  assert (F1 : nx m (LH h2) = hd 0 xs) by (eapply seg_hd; eauto).
  assert (R : forall m', nx m' (LH h1) = hd 0 xs -> (forall l, l <> LH h1 -> nx m' l = nx m l) ->
     (k = Li -> forall x r, xs = x :: r -> pv m' x = LH h1) -> (k = Li -> forall x, x <> hd 0 xs -> x <> 0 -> pv m' x = pv m x) ->
     (k = St -> lst m' h1 = match xs with [] => LH h1 | _ => lst m h2 end) -> (k = St -> forall h', h' <> h1 -> lst m' h' = lst m h') -> Abs k m' (aop A (OMove h1 h2))).
  { intros m' N1 N2 P1 P2 L1 L2. split; auto. intros h ys Q.
    destruct (Nat.eq_dec h h2) as [->|Nh2]; [congruence|]. destruct (Nat.eq_dec h h1) as [->|Nh1].
    - rewrite EA1 in Q. injection Q as <-. eapply rep_rehead; eauto.
      + intros. apply N2. discriminate.
      + intros K x r ->. split; eauto. intros y Hy. apply P2; auto. simpl. inversion T3; subst; congruence.
        eapply seg_nz; eauto. right; auto.
    - rewrite EAO in Q by auto. eapply rep_eq; eauto.
      + apply N2. congruence.
      + intros. apply N2. discriminate.
      + intros K x Hx. assert (NZ : x <> 0) by (apply (seg_nz _ _ _ _ _ (proj1 (H _ _ Q)) Hx)). apply P2; auto.
        destruct xs as [|y r]; simpl; auto. intros ->. apply Nh2. eapply D; eauto. left; auto. }
  destruct k.
  - exists 1. eexists. split; [simpl; reflexivity|]. split; [apply R; try discriminate; nxs|uni].
  - specialize (T4 eq_refl). destruct xs as [|x r]; simpl in T4.
    + exists 3. eexists. split; [simpl; rewrite upd_other, T4, loc_eqb_refl by auto; reflexivity|].
      split; [apply R; try discriminate; nxs; pvs|uni].
    + exists 3. eexists. split.
      { simpl. rewrite upd_other, T4 by auto. rewrite (loc_eqb_neq (lastloc (LE x) r) (LH h2)). reflexivity.
        destruct (lastloc_in r (LE x)) as [->|[z [Hz ->]]]; discriminate. }
      split; [apply R; try discriminate; nxs; pvs|uni].
  - destruct xs as [|x r]; simpl in F1.
    + exists 2. eexists. split; [simpl; rewrite loc_eqb_refl, F1; reflexivity|].
      split; [apply R; try discriminate; nxs; pvs|uni].
    + assert (x <> 0) by (eapply seg_nz; eauto; left; auto).
      assert (~ out A x) by (intros O; eapply O; eauto; left; auto).
      exists 2. eexists. split.
      { simpl. rewrite loc_eqb_refl, F1. destruct (Nat.eqb_spec x 0); [congruence|]. rewrite setp_ok by auto. reflexivity. }
      split; [apply R; try discriminate; nxs; try solve [pvs]|uni].
Qed.

Lemma seq_swap : forall k m A h1 h2, Abs k m A -> pre A (OSwap h1 h2) -> seq_ok k A (OSwap h1 h2) m.
Proof.
  intros k m A h1 h2 [H D] [NE [[xs1 E1] [xs2 E2]]].
  assert (EA1 : aop A (OSwap h1 h2) h1 = Some xs2) by (simpl; rewrite upd_other, upd_same; auto).
  assert (EA2 : aop A (OSwap h1 h2) h2 = Some xs1) by (simpl; rewrite upd_same; auto).
  assert (EAO : forall h, h <> h1 -> h <> h2 -> aop A (OSwap h1 h2) h = A h) by (intros; simpl; rewrite !upd_other; auto).
  assert (DD : forall h h' xs xs' x, aop A (OSwap h1 h2) h = Some xs -> aop A (OSwap h1 h2) h' = Some xs' -> In x xs -> In x xs' -> h = h').
  { assert (W : forall h ys, aop A (OSwap h1 h2) h = Some ys -> exists h0, A h0 = Some ys /\
       (h = h1 /\ h0 = h2 \/ h = h2 /\ h0 = h1 \/ h = h0 /\ h <> h2 /\ h <> h1)).
    { intros h ys Q. destruct (Nat.eq_dec h h2) as [->|N2].
      - exists h1. split; [congruence|tauto].
      - destruct (Nat.eq_dec h h1) as [->|N1].
        + exists h2. split; [congruence|tauto].
        + rewrite EAO in Q by auto. exists h. tauto. }
    intros h h' ys ys' x Q1 Q2 I1 I2. destruct (W _ _ Q1) as [a [A1 A2]], (W _ _ Q2) as [b [B1 B2]].
    assert (a = b) by (eapply D; eauto). clear - A2 B2 H0 NE. destruct A2 as [[A2 A3]|[[A2 A3]|[A2 [A3 A4]]]], B2 as [[B2 B3]|[[B2 B3]|[B2 [B3 B4]]]]; congruence. }
  destruct (H _ _ E1) as [S1 [S2 [S3 S4]]]. destruct (H _ _ E2) as [T1 [T2 [T3 T4]]].
  assert (F1 : nx m (LH h1) = hd 0 xs1) by (eapply seg_hd; eauto).
  assert (F2 : nx m (LH h2) = hd 0 xs2) by (eapply seg_hd; eauto).
  assert (NZ1 := fun x => seg_nz _ _ _ _ x S1). assert (NZ2 := fun x => seg_nz _ _ _ _ x T1).
  assert (R : forall m', nx m' (LH h1) = hd 0 xs2 -> nx m' (LH h2) = hd 0 xs1 -> (forall l, l <> LH h1 -> l <> LH h2 -> nx m' l = nx m l) ->
     (k = Li -> (forall x r, xs2 = x :: r -> pv m' x = LH h1) /\ (forall x r, xs1 = x :: r -> pv m' x = LH h2) /\
        forall x, x <> hd 0 xs1 -> x <> hd 0 xs2 -> x <> 0 -> pv m' x = pv m x) ->
     (k = St -> lst m' h1 = match xs2 with [] => LH h1 | _ => lst m h2 end /\ lst m' h2 = match xs1 with [] => LH h2 | _ => lst m h1 end /\
        forall h', h' <> h1 -> h' <> h2 -> lst m' h' = lst m h') -> Abs k m' (aop A (OSwap h1 h2))).
  { intros m' N1 N2 N3 P L. split; auto. intros h ys Q.
    assert (H12 : forall y, In y xs1 -> y <> hd 0 xs2).
    { intros y Hy. destruct xs2 as [|z r]; simpl; [apply NZ1; auto|]. intros ->. apply NE. eapply D; eauto. left; auto. }
    assert (H21 : forall y, In y xs2 -> y <> hd 0 xs1).
    { intros y Hy. destruct xs1 as [|z r]; simpl; [apply NZ2; auto|]. intros ->. apply NE. eapply D; eauto. left; auto. }
    destruct (Nat.eq_dec h h1) as [->|Nh1]; [|destruct (Nat.eq_dec h h2) as [->|Nh2]].
    - rewrite EA1 in Q. injection Q as <-. eapply rep_rehead; eauto.
      + intros. apply N3; discriminate.
      + intros K x r ->. destruct (P K) as [P1 [P2 P3]]. split; eauto. intros y Hy. apply P3; auto.
        * apply H21. right; auto.
        * simpl. inversion T3; subst; congruence.
        * apply NZ2. right; auto.
      + intros K. apply (L K).
    - rewrite EA2 in Q. injection Q as <-. eapply rep_rehead; eauto.
      + intros. apply N3; discriminate.
      + intros K x r ->. destruct (P K) as [P1 [P2 P3]]. split; eauto. intros y Hy. apply P3; auto.
        * simpl. inversion S3; subst; congruence.
        * apply H12. right; auto.
        * apply NZ1. right; auto.
      + intros K. apply (L K).
    - rewrite EAO in Q by auto. eapply rep_eq; eauto.
      + apply N3; congruence.
      + intros. apply N3; discriminate.
      + intros K x Hx. assert (NZ : x <> 0) by (apply (seg_nz _ _ _ _ _ (proj1 (H _ _ Q)) Hx)). apply (P K); auto.
        * destruct xs1 as [|z r]; simpl; auto. intros ->. apply Nh1. eapply D; eauto. left; auto.
        * destruct xs2 as [|z r]; simpl; auto. intros ->. apply Nh2. eapply D; eauto. left; auto.
      + intros K. apply (L K); auto. }
  assert (h2 <> h1) by auto.
  assert (LH h1 <> LH h2) by congruence. assert (LH h2 <> LH h1) by congruence.
  destruct k.
  - exists 3. eexists. split; [simpl; reflexivity|]. split; [apply R; try discriminate; nxs|uni].
  - exists 7. specialize (T4 eq_refl). specialize (S4 eq_refl).
    destruct xs1 as [|x1 r1], xs2 as [|x2 r2]; simpl in F1, F2, S4, T4;
    try (assert (x1 <> 0) by (apply NZ1; left; auto)); try (assert (x2 <> 0) by (apply NZ2; left; auto));
    (eexists; split; [cbn [prog p_swap mrun mstep bind fst snd app]; ev; reflexivity|]);
    (split; [apply R; try discriminate; [solve [nxs]|solve [nxs]|solve [nxs]|intros _; simpl; repeat split; solve [pvs]]|uni]).
  - exists 5.
    destruct xs1 as [|x1 r1], xs2 as [|x2 r2]; simpl in F1, F2;
    try (assert (x1 <> 0) by (apply NZ1; left; auto); assert (~ out A x1) by (intros O; exact (O _ _ E1 (or_introl eq_refl))));
    try (assert (x2 <> 0) by (apply NZ2; left; auto); assert (~ out A x2) by (intros O; exact (O _ _ E2 (or_introl eq_refl)))).
    + eexists; split; [cbn [prog p_swap mrun mstep bind fst snd app]; ev; reflexivity|].
      split; [apply R; try discriminate; [solve [nxs]|solve [nxs]|solve [nxs]|]|uni].
      intros _; simpl; repeat split; intros; try discriminate; auto.
    + eexists; split; [cbn [prog p_swap mrun mstep bind fst snd app]; ev; reflexivity|].
      split; [apply R; try discriminate; [solve [nxs]|solve [nxs]|solve [nxs]|]|uni].
      intros _; simpl; repeat split; intros; try discriminate.
      * match goal with Q : _ :: _ = _ :: _ |- _ => injection Q as <- <- end. apply upd_same.
      * apply upd_other; auto.
    + eexists; split; [cbn [prog p_swap mrun mstep bind fst snd app]; ev; reflexivity|].
      split; [apply R; try discriminate; [solve [nxs]|solve [nxs]|solve [nxs]|]|uni].
      intros _; simpl; repeat split; intros; try discriminate.
      * match goal with Q : _ :: _ = _ :: _ |- _ => injection Q as <- <- end. apply upd_same.
      * apply upd_other; auto.
    + assert (x1 <> x2) by (intros ->; apply NE; eapply D; eauto; left; auto).
      eexists; split; [cbn [prog p_swap mrun mstep bind fst snd app]; ev; reflexivity|].
      split; [apply R; try discriminate; [solve [nxs]|solve [nxs]|solve [nxs]|]|uni].
      intros _; simpl; repeat split; intros.
      * match goal with Q : _ :: _ = _ :: _ |- _ => injection Q as <- <- end. rewrite upd_other by auto. apply upd_same.
      * match goal with Q : _ :: _ = _ :: _ |- _ => injection Q as <- <- end. apply upd_same.
      * rewrite !upd_other; auto.
Qed.

(** * All macros *)
Definition good_prev (o : op) : Prop := match o with ORemPrev _ p q _ => p = q | _ => True end.

Lemma op_wok : forall k m A o, has k o = true -> Abs k m A -> pre A o -> good_prev o ->
  match o with OInit _ | OConcat _ _ | OMove _ _ | OSwap _ _ => True
  | _ => exists mf, wok k A (aop A o) o false m (prog k o) mf /\ Abs k mf (aop A o) end.
Proof.
  intros k m A o Hk B P G. destruct o; auto.
  - apply ok_ins_head; auto.
  - destruct k; try discriminate. apply ok_ins_tail; auto.
  - apply ok_ins_after; auto.
  - destruct k; try discriminate. apply ok_ins_before; auto.
  - destruct k; try discriminate. apply ok_ins_prev; auto.
  - apply ok_rem_head; auto. intros ->; discriminate.
  - apply ok_rem_after; auto. intros ->; discriminate.
  - apply ok_remove; auto.
  - destruct k; try discriminate. simpl in G. subst q. apply ok_rem_prev; auto.
Qed.
Lemma op_seq : forall k m A o, has k o = true -> Abs k m A -> pre A o -> good_prev o -> seq_ok k A o m.
Proof.
  intros k m A o Hk B P G. assert (W := op_wok k m A o Hk B P G).
  destruct o; try (apply wok_seq; exact W).
  - apply seq_init; auto.
  - destruct k; try discriminate. apply seq_concat; auto.
  - apply seq_move; auto.
  - apply seq_swap; auto.
Qed.

(** the result of running a macro does not depend on how many instructions one allows *)
Lemma mrun_nil : forall k n m r, mrun k n m [] = Some r -> r = (m, []).
Proof. intros k [|n] m r; simpl; intros H; congruence. Qed.
Lemma mrun_det : forall k n1 n2 m p m1 m2, mrun k n1 m p = Some (m1, []) -> mrun k n2 m p = Some (m2, []) -> m1 = m2.
Proof.
  induction n1 as [|n1 IH]; intros n2 m p m1 m2 H1 H2; simpl in H1.
  - injection H1 as -> ->. apply mrun_nil in H2. congruence.
  - destruct (mstep k m p) as [[[m' p'] b]|] eqn:E; [|discriminate]. simpl in H1.
    destruct n2 as [|n2]; simpl in H2.
    + injection H2 as -> ->. discriminate.
    + rewrite E in H2. simpl in H2. eauto.
Qed.

Lemma hist_ok : forall k os m A, Abs k m A -> pres k A os -> Forall good_prev os ->
  (exists m', hist k m os m') /\ forall m', hist k m os m' -> Abs k m' (fold_left aop os A).
Proof.
  intros k. induction os as [|o os IH]; intros m A B P G; simpl in *.
  - split; [exists m; constructor|]. intros m' H. inversion H; subst. auto.
  - destruct P as [P1 [P2 P3]]. inversion G; subst.
    destruct (op_seq k m A o P1 B P2 H1) as [n [mf [R [B' U]]]].
    destruct (IH mf (aop A o) B' P3 H2) as [[m' Hm'] IH2]. split.
    + exists m'. econstructor; eauto.
    + intros m2 H. inversion H; subst. assert (m1 = mf) by (eapply mrun_det; eauto). subst. auto.
Qed.

Lemma foreach_seg : forall m xs l n, seg Sl m l xs -> nx m (lastloc l xs) = 0 -> length xs <= n -> foreach n m (nx m l) = Some xs.
Proof.
  induction xs as [|x xs IH]; intros l n S T L; simpl in *.
  - rewrite T. destruct n; reflexivity.
  - destruct S as [-> [NZ [_ S]]]. destruct n as [|n]; [lia|]. simpl.
    destruct (Nat.eqb_spec x 0); [congruence|].
    rewrite (IH _ n S T) by lia. reflexivity.
Qed.
Lemma foreach_ok : forall k m A h xs n, Abs k m A -> A h = Some xs -> length xs <= n -> foreach n m (nx m (LH h)) = Some xs.
Proof.
  intros k m A h xs n [H _] E L. destruct (H _ _ E) as [S [T _]]. apply foreach_seg; auto. eapply seg_weak; eauto.
Qed.

Lemma foreach_from_ok : forall k m A h a v b n, Abs k m A -> A h = Some (a ++ v :: b) -> length (v :: b) <= n -> foreach_from n m h v = Some (v :: b).
Proof.
  intros k m A h a v b n [H _] E L. destruct (H _ _ E) as [S [T _]]. apply seg_weak in S. apply seg_app in S. destruct S as [_ S].
  pose proof S as [V [NZ _]]. unfold foreach_from. destruct (Nat.eqb_spec v 0) as [|_]; [congruence|].
  transitivity (foreach n m (nx m (lastloc (LH h) a))); [rewrite V; reflexivity|].
  apply foreach_seg; auto. rewrite lastloc_app in T. auto.
Qed.
Lemma foreach_from_null : forall k m A h xs n, Abs k m A -> A h = Some xs -> length xs <= n -> foreach_from n m h 0 = Some xs.
Proof. intros. unfold foreach_from. simpl. eapply foreach_ok; eauto. Qed.
Lemma prevptr_seg : forall m xs l n, seg Sl m l xs -> nx m (lastloc l xs) = 0 -> length xs <= n ->
  exists r, foreach_prevptr n m l = Some r /\ map fst r = xs /\ forall a x p b, r = a ++ (x, p) :: b -> p = lastloc l (map fst a).
Proof.
  induction xs as [|x xs IH]; intros l n S T L; simpl in *.
  - exists []. destruct n; simpl; rewrite T; (split; [reflexivity|]; split; [reflexivity|]; intros [|] ? ? ? E; discriminate).
  - destruct S as [V [NZ [_ S]]]. destruct n as [|n]; [lia|]. simpl. rewrite V.
    destruct (Nat.eqb_spec x 0); [congruence|].
    destruct (IH _ n S T ltac:(lia)) as [r [R1 [R2 R3]]]. rewrite R1. exists ((x, l) :: r). split; [reflexivity|].
    split; [simpl; congruence|]. intros [|[y q] a] z p b E; simpl in *.
    + congruence.
    + injection E as E1 E2 E3. subst y q. simpl. eapply R3. eauto.
Qed.
Lemma prevptr_ok : forall m A h xs n, Abs Sl m A -> A h = Some xs -> length xs <= n ->
  exists r, foreach_prevptr n m (LH h) = Some r /\ map fst r = xs /\ forall x p, In (x, p) r -> points h xs p x.
Proof.
  intros m A h xs n [H _] E L. destruct (H _ _ E) as [S [T _]]. destruct (prevptr_seg m xs (LH h) n S T L) as [r [R1 [R2 R3]]].
  exists r. split; auto. split; auto. intros x p I. apply in_split in I. destruct I as [a [b ->]]. rewrite map_app in R2. simpl in R2.
  exists (map fst a), (x :: map fst b). split; [auto|]. split; [eapply R3; reflexivity|reflexivity].
Qed.
Lemma empty_ok : forall k m A h xs, Abs k m A -> A h = Some xs -> (q_empty m h = true <-> xs = []).
Proof.
  intros k m A h xs [H _] E. destruct (H _ _ E) as [S [T _]]. unfold q_empty. rewrite (seg_hd _ _ _ _ S T). rewrite Nat.eqb_eq.
  destruct xs as [|x xs]; simpl in *; [tauto|]. destruct S as [_ [NZ _]]. split; intros; [contradiction|discriminate].
Qed.

(** * SLIST_REMOVE_PREVPTR as written *)
Definition w_A : nat -> option (list nat) := fun h => match h with 0 => Some [1; 2] | _ => None end.
Definition w_m : mem := mkm (fun l => match l with LH 0 => 1 | LE 1 => 2 | _ => 0 end) (fun h => LH h) (fun _ => LE 0).
Lemma w_abs : Abs Sl w_m w_A.
Proof.
  split.
  - intros [|h] xs E; simpl in E; [|discriminate]. injection E as <-.
    repeat split; simpl; auto; try discriminate. repeat constructor; simpl; intuition discriminate.
  - intros [|h] [|h'] xs xs' x E E' _ _; simpl in *; congruence.
Qed.
(** the client passes the address of the pointer to element 2, its variable prevptr is the head *)
Lemma prevptr_bad : exists m A h p q e, Abs Sl m A /\ pre A (ORemPrev h p q e) /\ ~ seq_ok Sl A (ORemPrev h p q e) m.
Proof.
  exists w_m, w_A, 0, (LE 1), (LH 0), 2. split; [apply w_abs|]. split.
  - exists [1; 2]. split; auto. split; [|simpl; auto]. exists [1], [2]. auto.
  - intros [n [mf [R [[B _] _]]]].
    assert (W : mrun Sl 1 w_m (prog Sl (ORemPrev 0 (LE 1) (LH 0) 2)) = Some (mkm (fun x => if loc_eqb x (LH 0) then nx w_m (LE 2) else nx w_m x) (lst w_m) (pv w_m), [])) by reflexivity.
    assert (M := mrun_det _ _ _ _ _ _ _ R W). subst mf.
    destruct (B 0 [1] eq_refl) as [[S _] _]. discriminate.
Qed.
