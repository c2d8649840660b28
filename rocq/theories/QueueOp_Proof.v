(** Each macro of Queue_Model.v, instruction by instruction. *)
From Coq Require Import Arith List Bool Lia.
From Verif Require Import Lib Queue_Model Queue_Spec Queue_Proof.
Import ListNotations.

Local Arguments loc_eqb : simpl never.

Lemma untouched_intro : forall (A : nat -> option (list nat)) o m m1,
  (forall l, nx m1 l = nx m l \/ (exists e, new_elt o = Some e /\ l = LE e) \/ (exists h, In h (heads o) /\ l = LH h) \/
             exists a, ~ out A a /\ l = LE a) ->
  (forall x, pv m1 x = pv m x \/ new_elt o = Some x \/ ~ out A x) ->
  (forall h, lst m1 h = lst m h \/ In h (heads o)) -> untouched A o m m1.
Proof.
  intros A o m m1 N P T. split.
  - intros x X1 X2. split.
    + destruct (N (LE x)) as [N1|[[e [E1 E2]]|[[h [E1 E2]]|[a [E1 E2]]]]]; auto; try congruence.
    + destruct (P x) as [P1|[P1|P1]]; tauto.
  - intros h X. split.
    + destruct (N (LH h)) as [N1|[[e [E1 E2]]|[[h' [E1 E2]]|[a [E1 E2]]]]]; auto; try congruence.
    + destruct (T h); tauto.
Qed.

Section Op.
Variables (k : kind) (A A' : nat -> option (list nat)) (o : op).

Lemma in_not_out : forall h xs x, A h = Some xs -> In x xs -> ~ out A x.
Proof. intros h xs x E I O. exact (O _ _ E I). Qed.

Lemma wk_priv : forall e m p m1 p1 mf, mstep k m p = Some (m1, p1, false) -> new_elt o = Some e -> out A e -> Abs Sl m A ->
  (forall l, l <> LE e -> nx m1 l = nx m l) -> (forall x, x = e \/ pv m1 x = pv m x \/ ~ out A x) ->
  (forall h, lst m1 h = lst m h) -> (Abs Sl m1 A -> wok k A A' o false m1 p1 mf) -> wok k A A' o false m p mf.
Proof.
  intros e m p m1 p1 mf E1 E2 O B N P T K.
  assert (B1 : Abs Sl m1 A).
  { eapply abs_eq; eauto; try discriminate.
    - intros h _. apply N. discriminate.
    - intros x X. apply N. intros Q. injection Q as ->. auto. }
  eapply wk_step with (b := false); eauto.
  - intros l [F|F]; [discriminate|]. auto.
  - apply untouched_intro.
    + intros l. destruct (loc_eqb_spec l (LE e)); eauto.
    + intros x. destruct (P x) as [->|[?|?]]; auto.
    + auto.
Qed.

Lemma wk_post : forall m p m1 p1 mf, mstep k m p = Some (m1, p1, false) -> Abs Sl m A' ->
  (forall l, nx m1 l = nx m l) -> (forall x, new_elt o = Some x \/ pv m1 x = pv m x \/ ~ out A x) ->
  (forall h, In h (heads o) \/ lst m1 h = lst m h) -> (Abs Sl m1 A' -> wok k A A' o true m1 p1 mf) -> wok k A A' o true m p mf.
Proof.
  intros m p m1 p1 mf E1 B N P T K.
  assert (B1 : Abs Sl m1 A') by (eapply abs_eq; eauto; discriminate).
  eapply wk_step with (b := false); eauto.
  - intros l _. auto.
  - apply untouched_intro; auto.
    + intros x. destruct (P x) as [?|[?|?]]; auto.
    + intros h. destruct (T h); auto.
Qed.

Lemma lastloc_of : forall h p q, A h = Some (p ++ q) -> lastloc (LH h) p = LH h \/ exists a, lastloc (LH h) p = LE a /\ mem_of A h a.
Proof.
  intros h p q E. destruct (lastloc_in p (LH h)) as [R|[a [Ha R]]]; [left; auto|right].
  exists a. split; auto. eexists. split; eauto. apply in_or_app. auto.
Qed.

Lemma wk_pub_i : forall e h p q m pr m1 p1 mf, mstep k m pr = Some (m1, p1, true) -> new_elt o = Some e -> In h (heads o) ->
  out A e -> e <> 0 -> Abs Sl m A -> A h = Some (p ++ q) -> A' h = Some (p ++ e :: q) -> (forall h', h' <> h -> A' h' = A h') ->
  nx m (LE e) = hd 0 q -> nx m1 (lastloc (LH h) p) = e -> (forall l, l <> lastloc (LH h) p -> nx m1 l = nx m l) ->
  (forall x, pv m1 x = pv m x) -> (forall h, lst m1 h = lst m h) ->
  (Abs Sl m1 A' -> wok k A A' o true m1 p1 mf) -> wok k A A' o false m pr mf.
Proof.
  intros e h p q m pr m1 p1 mf E1 E2 Hh O NZ B Eh E' EO Ne N1 N2 P T K.
  assert (LO := lastloc_of _ _ _ Eh).
  assert (Le : lastloc (LH h) p <> LE e).
  { intros Q. rewrite Q in LO. destruct LO as [R|[a [R [xs [X1 X2]]]]]; [discriminate|]. injection R as <-. eapply O; eauto. }
  assert (B1 : Abs Sl m1 A').
  { eapply abs_ins with (p := p) (q := q); eauto. constructor; auto; try discriminate.
    rewrite N2; auto. }
  assert (Hl : nx m (lastloc (LH h) p) = hd 0 q).
  { destruct B as [B _]. destruct (B _ _ Eh) as [S1 [S2 _]]. apply seg_app in S1. destruct S1 as [_ S1].
    rewrite lastloc_app in S2. eapply seg_hd; eauto. }
  eapply wk_step with (b := true); eauto; try discriminate.
  - unfold effect. rewrite E2. exists h, (lastloc (LH h) p).
    split; [congruence|]. split; [auto|]. split; [auto|]. split; [congruence|]. split; [auto|]. split; [auto|].
    intros h' x. unfold mem_of. destruct (Nat.eq_dec h' h) as [->|NE].
    + rewrite E', Eh. split.
      * intros [xs [Q I]]. injection Q as <-. apply in_app_or in I. destruct I as [I|[I|I]]; auto;
        left; eexists; split; eauto; apply in_or_app; auto.
      * intros [[xs [Q I]]|[_ ->]].
        -- injection Q as <-. eexists. split; eauto. apply in_app_or in I. apply in_or_app. simpl. tauto.
        -- eexists. split; eauto. apply in_or_app. simpl. auto.
    + rewrite EO by auto. split; auto. intros [?|[? ?]]; [auto|congruence].
  - apply untouched_intro; auto. intros l. destruct (loc_eqb_spec l (lastloc (LH h) p)) as [->|]; auto.
    right. right. destruct LO as [->|[a [-> [xs [X1 X2]]]]]; eauto.
    right. exists a. split; auto. eapply in_not_out; eauto.
Qed.

Lemma wk_pub_r : forall f h p q m pr m1 p1 mf, mstep k m pr = Some (m1, p1, true) -> new_elt o = None -> In h (heads o) ->
  Abs Sl m A -> A h = Some (p ++ f :: q) -> A' h = Some (p ++ q) -> (forall h', h' <> h -> A' h' = A h') ->
  nx m1 (lastloc (LH h) p) = hd 0 q -> (forall l, l <> lastloc (LH h) p -> nx m1 l = nx m l) ->
  (forall x, pv m1 x = pv m x) -> (forall h, lst m1 h = lst m h) ->
  (Abs Sl m1 A' -> wok k A A' o true m1 p1 mf) -> wok k A A' o false m pr mf.
Proof.
  intros f h p q m pr m1 p1 mf E1 E2 Hh B Eh E' EO N1 N2 P T K.
  assert (LO := lastloc_of _ _ _ Eh).
  assert (B1 : Abs Sl m1 A').
  { eapply abs_rem with (p := p) (q := q); eauto. constructor; auto; discriminate. }
  destruct B as [B D]. destruct (B _ _ Eh) as [S1 [S2 [S3 _]]]. apply seg_app in S1. destruct S1 as [Sp S1].
  rewrite lastloc_app in S2. simpl in S1, S2. destruct S1 as [Hl [NZ [_ Sq]]].
  assert (Nf := NoDup_remove_2 _ _ _ S3).
  assert (Le : lastloc (LH h) p <> LE f).
  { destruct (lastloc_in p (LH h)) as [R|[a [Ha R]]]; rewrite R; [discriminate|]. intros Q. injection Q as ->.
    apply Nf. apply in_or_app. auto. }
  eapply wk_step with (b := true); eauto; try discriminate.
  - unfold effect. rewrite E2. exists h, (lastloc (LH h) p), f.
    split; [auto|]. split; [auto|]. split; [eexists; split; eauto; apply in_or_app; simpl; auto|]. split; [auto|].
    split; [rewrite N1; symmetry; eapply seg_hd; eauto|]. split; [auto|].
    intros h' x. unfold mem_of. destruct (Nat.eq_dec h' h) as [->|NE].
    + rewrite E', Eh. split.
      * intros [xs [Q I]]. injection Q as <-. split; [|congruence].
        eexists. split; eauto. apply in_app_or in I. apply in_or_app. simpl. tauto.
      * intros [[xs [Q I]] NX]. injection Q as <-. eexists. split; eauto. apply in_app_or in I. apply in_or_app.
        destruct I as [I|[I|I]]; auto; congruence.
    + rewrite EO by auto. split; [|tauto]. intros [xs [X1 X2]]. split; eauto. intros ->. apply NE. eapply D; eauto.
      apply in_or_app. simpl. auto.
  - apply untouched_intro; auto. intros l. destruct (loc_eqb_spec l (lastloc (LH h) p)) as [->|]; auto.
    right. right. destruct LO as [->|[a [-> [xs [X1 X2]]]]]; eauto.
    right. exists a. split; auto. eapply in_not_out; eauto.
Qed.
End Op.

(** * Sequences *)
Lemma in_split_first : forall (a : nat) xs, In a xs -> exists l1 l2, xs = l1 ++ a :: l2 /\ ~ In a l1.
Proof.
  induction xs as [|x xs IH]; simpl; [tauto|]. intros H. destruct (Nat.eq_dec x a) as [->|NE].
  - exists [], xs. auto.
  - destruct H as [H|H]; [congruence|]. destruct (IH H) as [l1 [l2 [-> Q]]]. exists (x :: l1), l2. simpl. intuition.
Qed.
Lemma ins_after_at : forall l1 a e l2, ~ In a l1 -> ins_after a e (l1 ++ a :: l2) = (l1 ++ [a]) ++ e :: l2.
Proof.
  induction l1 as [|x l1 IH]; simpl; intros a e l2 H.
  - rewrite Nat.eqb_refl. reflexivity.
  - destruct (Nat.eqb_spec x a); [tauto|]. rewrite IH; tauto.
Qed.
Lemma ins_before_at : forall l1 a e l2, ~ In a l1 -> ins_before a e (l1 ++ a :: l2) = l1 ++ e :: a :: l2.
Proof.
  induction l1 as [|x l1 IH]; simpl; intros a e l2 H.
  - rewrite Nat.eqb_refl. reflexivity.
  - destruct (Nat.eqb_spec x a); [tauto|]. rewrite IH; tauto.
Qed.
Lemma rem_at : forall l1 a l2, ~ In a l1 -> rem a (l1 ++ a :: l2) = l1 ++ l2.
Proof.
  induction l1 as [|x l1 IH]; simpl; intros a l2 H.
  - rewrite Nat.eqb_refl. reflexivity.
  - destruct (Nat.eqb_spec x a); [tauto|]. rewrite IH; tauto.
Qed.
Lemma rem_after_at : forall l1 a b l2, ~ In a l1 -> rem_after a (l1 ++ a :: b :: l2) = (l1 ++ [a]) ++ l2.
Proof.
  induction l1 as [|x l1 IH]; simpl; intros a b l2 H.
  - rewrite Nat.eqb_refl. reflexivity.
  - destruct (Nat.eqb_spec x a); [tauto|]. rewrite IH; tauto.
Qed.
Lemma succ_at : forall a xs b, succ a xs = Some b -> exists l1 l2, xs = l1 ++ a :: b :: l2 /\ ~ In a l1.
Proof.
  induction xs as [|x xs IH]; simpl; intros b H; [discriminate|]. destruct (Nat.eqb_spec x a) as [->|NE].
  - destruct xs as [|y xs]; [discriminate|]. injection H as ->. exists [], xs. auto.
  - destruct (IH _ H) as [l1 [l2 [-> Q]]]. exists (x :: l1), l2. simpl. intuition.
Qed.

(** * Macros *)
Lemma getn_ok : forall m l, l <> LE 0 -> getn m l = Some (nx m l).
Proof. intros m l H. unfold getn, null. rewrite loc_eqb_neq; auto. Qed.
Lemma setn_ok : forall m l v, l <> LE 0 -> setn m l v = Some (mkm (fun x => if loc_eqb x l then v else nx m x) (lst m) (pv m)).
Proof. intros m l v H. unfold setn, null. rewrite loc_eqb_neq; auto. Qed.
Lemma getp_ok : forall m e, e <> 0 -> getp m e = Some (pv m e).
Proof. intros m e H. unfold getp. destruct (Nat.eqb_spec e 0); congruence. Qed.
Lemma setp_ok : forall m e l, e <> 0 -> setp m e l = Some (mkm (nx m) (lst m) (upd (pv m) e l)).
Proof. intros m e l H. unfold setp. destruct (Nat.eqb_spec e 0); congruence. Qed.
Lemma LH_nz : forall h, LH h <> LE 0.
Proof. discriminate. Qed.
Lemma LE_nz : forall e, e <> 0 -> LE e <> LE 0.
Proof. congruence. Qed.
Lemma LHE : forall h e, loc_eqb (LH h) (LE e) = false. Proof. reflexivity. Qed.
Lemma LEH : forall h e, loc_eqb (LE e) (LH h) = false. Proof. reflexivity. Qed.
Lemma LEE : forall a e, a <> e -> loc_eqb (LE a) (LE e) = false.
Proof. intros. apply loc_eqb_neq. congruence. Qed.

#[export] Hint Resolve LH_nz LE_nz : qu.

(** facts about a list split at a position *)
Lemma rep_split : forall k m A h p q, Abs k m A -> A h = Some (p ++ q) ->
  nx m (lastloc (LH h) p) = hd 0 q /\ seg k m (LH h) p /\ seg k m (lastloc (LH h) p) q /\
  nx m (lastloc (lastloc (LH h) p) q) = 0 /\ NoDup (p ++ q) /\ (k = St -> lst m h = lastloc (LH h) (p ++ q)) /\
  (forall x, In x (p ++ q) -> x <> 0) /\ (forall x, In x (p ++ q) -> ~ out A x).
Proof.
  intros k m A h p q [H D] E. destruct (H _ _ E) as [S1 [S2 [S3 S4]]].
  assert (NZ : forall x, In x (p ++ q) -> x <> 0) by (intros x; eapply seg_nz; eauto).
  apply seg_app in S1. destruct S1 as [Sp Sq]. rewrite lastloc_app in S2.
  split; [eapply seg_hd; eauto|]. repeat split; auto. intros x I O. exact (O _ _ E I).
Qed.

Ltac ev := repeat (simpl; match goal with
  | |- context [getn _ _] => rewrite getn_ok by (auto with qu)
  | |- context [setn _ _ _] => rewrite setn_ok by (auto with qu)
  | |- context [getp _ _] => rewrite getp_ok by auto
  | |- context [setp _ _ _] => rewrite setp_ok by auto
  | |- context [loc_eqb ?a ?a] => rewrite (loc_eqb_refl a)
  | |- context [loc_eqb (LE _) (LH _)] => rewrite LEH
  | |- context [loc_eqb (LH _) (LE _)] => rewrite LHE
  | H : ?a <> ?b |- context [loc_eqb (LE ?a) (LE ?b)] => rewrite (LEE a b H)
  | H : ?b <> ?a |- context [loc_eqb (LE ?a) (LE ?b)] => rewrite (LEE a b (not_eq_sym H))
  | H : ?a <> ?b |- context [loc_eqb ?a ?b] => rewrite (loc_eqb_neq a b H)
  | H : ?b <> ?a |- context [loc_eqb ?a ?b] => rewrite (loc_eqb_neq a b (not_eq_sym H))
  | H : nx ?m ?l = ?v |- context [nx ?m ?l] => rewrite H
  | H : pv ?m ?l = ?v |- context [pv ?m ?l] => rewrite H
  | H : lst ?m ?l = ?v |- context [lst ?m ?l] => rewrite H
  | H : ?a <> 0 |- context [Nat.eqb ?a 0] => rewrite (proj2 (Nat.eqb_neq a 0) H)
  | |- context [upd ?f ?x ?v ?x] => rewrite (upd_same _ f x v)
  | H : ?a <> ?b |- context [upd ?f ?b ?v ?a] => rewrite (upd_other _ f b v a H)
  | H : ?b <> ?a |- context [upd ?f ?b ?v ?a] => rewrite (upd_other _ f b v a (not_eq_sym H))
  end); simpl.
Ltac lls := repeat match goal with
  | H : lastloc ?l ?p = ?v |- context [lastloc ?l ?p] => rewrite H
  | H : lastloc ?l ?p = ?v, K : context [lastloc ?l ?p] |- _ => rewrite H in K
  end.
Ltac nxs := intros; simpl in *; lls; repeat match goal with |- context [loc_eqb ?a ?b] => destruct (loc_eqb_spec a b); subst; simpl; auto; try congruence end; auto.
Ltac pvs := intros; simpl; upd_goal; subst; auto; try congruence.

Ltac tpriv e0 := eapply wk_priv with (e := e0);
  [ev; reflexivity | reflexivity | eassumption | eassumption | solve [nxs] | solve [pvs] | solve [pvs] | let B := fresh "BW" in intros B].
Ltac tpubi e0 h0 p0 q0 := eapply wk_pub_i with (e := e0) (h := h0) (p := p0) (q := q0);
  [ev; reflexivity | reflexivity | solve [simpl; auto] | eassumption | eassumption | eassumption | eassumption | eassumption | eassumption
  | solve [nxs] | solve [nxs] | solve [nxs] | reflexivity | reflexivity | let B := fresh "BW" in intros B].
Ltac tpubr f0 h0 p0 q0 := eapply wk_pub_r with (f := f0) (h := h0) (p := p0) (q := q0);
  [ev; reflexivity | first [reflexivity | eassumption] | solve [simpl; auto] | eassumption | eassumption | eassumption | eassumption
  | solve [nxs] | solve [nxs] | reflexivity | reflexivity | let B := fresh "BW" in intros B].
Ltac tpost := eapply wk_post;
  [ev; reflexivity | eassumption | reflexivity | solve [pvs] | solve [pvs] | let B := fresh "BW" in intros B].

Ltac fin_i := eapply abs_ins; eauto; constructor; simpl; try discriminate; try (intros; discriminate); solve [nxs; pvs].

Lemma ok_ins_head : forall k m A h e, Abs k m A -> pre A (OInsHead h e) ->
  exists mf, wok k A (aop A (OInsHead h e)) (OInsHead h e) false m (prog k (OInsHead h e)) mf /\ Abs k mf (aop A (OInsHead h e)).
Proof.
  intros k m A h e B [NZ [O [xs E]]].
  destruct (rep_split k m A h [] xs B E) as [F1 [F2 [F3 [F4 [F5 [F6 [F7 F8]]]]]]]. simpl in F1.
  assert (E' : aop A (OInsHead h e) h = Some ([] ++ e :: xs)) by (simpl; rewrite upd_same, E; reflexivity).
  change (A h = Some ([] ++ xs)) in E.
  assert (EO : forall h', h' <> h -> aop A (OInsHead h e) h' = A h') by (intros; simpl; rewrite upd_other; auto).
  remember (aop A (OInsHead h e)) as A'. assert (Ne : ~ In e xs) by (eapply (O _ _ E)).
  assert (BW := abs_weak _ _ _ B).
  destruct k; simpl.
  - eexists. split.
    + tpriv e. tpubi e h (@nil nat) xs. apply wk_nil.
    + fin_i.
  - destruct xs as [|x xs]; simpl in F1; [|assert (x <> 0) by (apply F7; simpl; auto)].
    + eexists. split.
      * tpriv e. tpubi e h (@nil nat) (@nil nat). tpost. apply wk_nil.
      * fin_i.
    + eexists. split.
      * tpriv e. tpubi e h (@nil nat) (x :: xs). tpost. apply wk_nil.
      * fin_i.
  - destruct xs as [|x xs]; simpl in F1; [|assert (x <> 0) by (apply F7; simpl; auto); assert (~ out A x) by (apply F8; simpl; auto)].
    + eexists. split.
      * tpriv e. tpriv e. tpubi e h (@nil nat) (@nil nat). tpost. apply wk_nil.
      * fin_i.
    + assert (x <> e) by (intros ->; apply Ne; simpl; auto). eexists. split.
      * tpriv e. tpriv e. tpubi e h (@nil nat) (x :: xs). tpost. apply wk_nil.
      * fin_i.
Qed.

Lemma lastloc_nz : forall k m h p, seg k m (LH h) p -> lastloc (LH h) p <> LE 0.
Proof.
  intros k m h p H. destruct (lastloc_in p (LH h)) as [->|[x [Hx ->]]]; [discriminate|].
  intros Q. injection Q as ->. eapply seg_nz; eauto.
Qed.
Lemma lastloc_ne : forall h p x, ~ In x p -> lastloc (LH h) p <> LE x.
Proof.
  intros h p x H. destruct (lastloc_in p (LH h)) as [->|[y [Hy ->]]]; [discriminate|]. congruence.
Qed.

Lemma ok_ins_after : forall k m A h a e, Abs k m A -> pre A (OInsAfter h a e) ->
  exists mf, wok k A (aop A (OInsAfter h a e)) (OInsAfter h a e) false m (prog k (OInsAfter h a e)) mf /\ Abs k mf (aop A (OInsAfter h a e)).
Proof.
  intros k m A h a e B [NZ [O [xs [E I]]]].
  destruct (in_split_first _ _ I) as [l1 [xs2 [-> N1]]].
  assert (E' : aop A (OInsAfter h a e) h = Some ((l1 ++ [a]) ++ e :: xs2)).
  { simpl; rewrite upd_same, E; simpl. rewrite ins_after_at; auto. }
  replace (l1 ++ a :: xs2) with ((l1 ++ [a]) ++ xs2) in * by (rewrite <- app_assoc; reflexivity). clear I.
  destruct (rep_split k m A h _ _ B E) as [F1 [F2 [F3 [F4 [F5 [F6 [F7 F8]]]]]]].
  assert (EO : forall h', h' <> h -> aop A (OInsAfter h a e) h' = A h') by (intros; simpl; rewrite upd_other; auto).
  remember (aop A (OInsAfter h a e)) as A'. assert (Ne := O _ _ E).
  assert (LL : lastloc (LH h) (l1 ++ [a]) = LE a) by apply lastloc_snoc. rewrite LL in F1.
  assert (a <> e) by (intros ->; apply Ne; rewrite !in_app_iff; simpl; auto).
  assert (a <> 0) by (apply F7; rewrite !in_app_iff; simpl; auto).
  remember (l1 ++ [a]) as p.
  assert (BW := abs_weak _ _ _ B).
  destruct k; simpl.
  - eexists. split.
    + tpriv e. tpubi e h p xs2. apply wk_nil.
    + fin_i.
  - destruct xs2 as [|x xs]; simpl in F1; [|assert (x <> 0) by (apply F7; rewrite in_app_iff; simpl; auto)].
    + eexists. split.
      * tpriv e. tpubi e h p (@nil nat). tpost. apply wk_nil.
      * fin_i.
    + eexists. split.
      * tpriv e. tpubi e h p (x :: xs). tpost. apply wk_nil.
      * fin_i.
  - destruct xs2 as [|x xs]; simpl in F1; [|assert (x <> 0) by (apply F7; rewrite in_app_iff; simpl; auto); assert (~ out A x) by (apply F8; rewrite in_app_iff; simpl; auto)].
    + eexists. split.
      * tpriv e. tpriv e. tpriv e. tpubi e h p (@nil nat). apply wk_nil.
      * fin_i.
    + assert (x <> e) by (intros ->; apply Ne; rewrite in_app_iff; simpl; auto). eexists. split.
      * tpriv e. tpriv e. tpriv e. tpubi e h p (x :: xs). apply wk_nil.
      * fin_i.
Qed.

Lemma ok_ins_tail : forall m A h e, Abs St m A -> pre A (OInsTail h e) ->
  exists mf, wok St A (aop A (OInsTail h e)) (OInsTail h e) false m (prog St (OInsTail h e)) mf /\ Abs St mf (aop A (OInsTail h e)).
Proof.
  intros m A h e B [NZ [O [xs E]]].
  assert (E' : aop A (OInsTail h e) h = Some (xs ++ [e])) by (simpl; rewrite upd_same, E; reflexivity).
  assert (EO : forall h', h' <> h -> aop A (OInsTail h e) h' = A h') by (intros; simpl; rewrite upd_other; auto).
  rewrite <- (app_nil_r xs) in E.
  destruct (rep_split St m A h _ _ B E) as [F1 [F2 [F3 [F4 [F5 [F6 [F7 F8]]]]]]].
  remember (aop A (OInsTail h e)) as A'. assert (Ne := O _ _ E).
  specialize (F6 eq_refl). rewrite app_nil_r in F6, Ne.
  assert (L1 := lastloc_nz _ _ _ _ F2). assert (L2 := lastloc_ne h _ _ Ne).
  remember (lastloc (LH h) xs) as L eqn:LL. symmetry in LL. simpl in F1.
  assert (BW := abs_weak _ _ _ B).
  simpl. eexists. split.
  - tpriv e. tpubi e h xs (@nil nat). tpost. apply wk_nil.
  - fin_i.
Qed.

Lemma ok_ins_before : forall m A h x e, Abs Li m A -> pre A (OInsBefore h x e) ->
  exists mf, wok Li A (aop A (OInsBefore h x e)) (OInsBefore h x e) false m (prog Li (OInsBefore h x e)) mf /\ Abs Li mf (aop A (OInsBefore h x e)).
Proof.
  intros m A h x e B [NZ [O [xs [E I]]]].
  destruct (in_split_first _ _ I) as [l1 [xs2 [-> N1]]].
  assert (E' : aop A (OInsBefore h x e) h = Some (l1 ++ e :: x :: xs2)).
  { simpl; rewrite upd_same, E; simpl. rewrite ins_before_at; auto. }
  assert (EO : forall h', h' <> h -> aop A (OInsBefore h x e) h' = A h') by (intros; simpl; rewrite upd_other; auto).
  destruct (rep_split Li m A h _ _ B E) as [F1 [F2 [F3 [F4 [F5 [F6 [F7 F8]]]]]]].
  remember (aop A (OInsBefore h x e)) as A'. assert (Ne := O _ _ E).
  destruct F3 as [_ [X1 [X2 X3]]]. specialize (X2 eq_refl).
  assert (x <> e) by (intros ->; auto).
  assert (~ out A x) by auto.
  assert (L1 := lastloc_nz _ _ _ _ F2).
  assert (L2 : lastloc (LH h) l1 <> LE e) by (apply lastloc_ne; intros Q; apply Ne; apply in_or_app; auto).
  assert (L3 := lastloc_ne h _ _ N1).
  remember (lastloc (LH h) l1) as L eqn:LL. symmetry in LL. simpl in F1.
  assert (BW := abs_weak _ _ _ B).
  simpl. eexists. split.
  - tpriv e. tpriv e. tpubi e h l1 (x :: xs2). tpost. apply wk_nil.
  - fin_i.
Qed.

Lemma ok_ins_prev : forall m A h p x e, Abs Sl m A -> pre A (OInsPrev h p x e) ->
  exists mf, wok Sl A (aop A (OInsPrev h p x e)) (OInsPrev h p x e) false m (prog Sl (OInsPrev h p x e)) mf /\ Abs Sl mf (aop A (OInsPrev h p x e)).
Proof.
  intros m A h p x e B [NZ [O [xs [E [l1 [l2 [-> [-> ->]]]]]]]].
  destruct (rep_split Sl m A h _ _ B E) as [F1 [F2 [F3 [F4 [F5 [F6 [F7 F8]]]]]]].
  assert (E' : aop A (OInsPrev h (lastloc (LH h) l1) (hd 0 l2) e) h = Some (l1 ++ e :: l2)).
  { simpl; rewrite upd_same, E; simpl. destruct (rev l1) as [|y r] eqn:Q.
    - apply (f_equal (@rev nat)) in Q. rewrite rev_involutive in Q. subst l1. reflexivity.
    - apply (f_equal (@rev nat)) in Q. rewrite rev_involutive in Q. simpl in Q. subst l1.
      rewrite lastloc_snoc. rewrite <- !app_assoc. simpl. rewrite ins_after_at.
      + rewrite <- app_assoc. reflexivity.
      + rewrite <- app_assoc in F5. apply NoDup_remove_2 in F5. intros Q. apply F5. apply in_or_app. auto. }
  assert (EO : forall h', h' <> h -> aop A (OInsPrev h (lastloc (LH h) l1) (hd 0 l2) e) h' = A h') by (intros; simpl; rewrite upd_other; auto).
  remember (aop A (OInsPrev h (lastloc (LH h) l1) (hd 0 l2) e)) as A'. assert (Ne := O _ _ E).
  assert (L1 := lastloc_nz _ _ _ _ F2).
  assert (L2 : lastloc (LH h) l1 <> LE e) by (apply lastloc_ne; intros Q; apply Ne; apply in_or_app; auto).
  clear HeqA'. remember (lastloc (LH h) l1) as L eqn:LL. symmetry in LL. simpl in F1.
  simpl. eexists. split.
  - tpriv e. tpubi e h l1 l2. apply wk_nil.
  - fin_i.
Qed.

Ltac fin_r := eapply abs_rem; eauto; constructor; simpl; try discriminate; try (intros; discriminate); solve [nxs; pvs].

(** removal of the element after [a]: REMOVE_AFTER, and the end of REMOVE *)
Lemma wok_rem_after : forall k o A A' m h l1 a f q, k <> Li -> Abs k m A -> new_elt o = None -> In h (heads o) ->
  A h = Some (l1 ++ a :: f :: q) -> A' h = Some ((l1 ++ [a]) ++ q) -> (forall h', h' <> h -> A' h' = A h') ->
  exists mf, wok k A A' o false m (p_rem_after k h a) mf /\ Abs k mf A'.
Proof.
  intros k o A A' m h l1 a f q K B NE Hh E E' EO.
  replace (l1 ++ a :: f :: q) with ((l1 ++ [a]) ++ f :: q) in * by (rewrite <- app_assoc; reflexivity).
  destruct (rep_split k m A h _ _ B E) as [F1 [F2 [F3 [F4 [F5 [F6 [F7 F8]]]]]]].
  assert (LL : lastloc (LH h) (l1 ++ [a]) = LE a) by apply lastloc_snoc. rewrite LL in *.
  assert (a <> 0) by (apply F7; rewrite !in_app_iff; simpl; auto).
  assert (f <> 0) by (apply F7; rewrite !in_app_iff; simpl; auto).
  assert (F9 : nx m (LE f) = hd 0 q).
  { destruct F3 as [_ [_ [_ F3]]]. simpl in F4. eapply seg_hd; eauto. }
  remember (l1 ++ [a]) as p. simpl in F1.
  assert (BW := abs_weak _ _ _ B).
  destruct k; [| |congruence].
  - eexists. split.
    + tpubr f h p q. apply wk_nil.
    + fin_r.
  - assert (T : forall h, lst m h = lst m h) by auto.
    destruct q as [|x q]; [|assert (x <> 0) by (apply F7; rewrite !in_app_iff; simpl; auto)]; simpl in F9.
    + eexists. split.
      * tpubr f h p (@nil nat).
        tpost. apply wk_nil.
      * fin_r.
    + eexists. split.
      * tpubr f h p (x :: q).
        tpost. apply wk_nil.
      * fin_r.
Qed.
Lemma wok_rem_head : forall k o A A' m h f q, k <> Li -> Abs k m A -> new_elt o = None -> In h (heads o) ->
  A h = Some (f :: q) -> A' h = Some q -> (forall h', h' <> h -> A' h' = A h') ->
  exists mf, wok k A A' o false m (p_rem_head k h) mf /\ Abs k mf A'.
Proof.
  intros k o A A' m h f q K B NE Hh E E' EO. change (A h = Some ([] ++ f :: q)) in E. change (A' h = Some ([] ++ q)) in E'.
  destruct (rep_split k m A h _ _ B E) as [F1 [F2 [F3 [F4 [F5 [F6 [F7 F8]]]]]]].
  assert (f <> 0) by (apply F7; simpl; auto). simpl in F1.
  assert (F9 : nx m (LE f) = hd 0 q).
  { destruct F3 as [_ [_ [_ F3]]]. simpl in F4. eapply seg_hd; eauto. }
  assert (BW := abs_weak _ _ _ B).
  destruct k; [| |congruence].
  - eexists. split.
    + tpubr f h (@nil nat) q. apply wk_nil.
    + fin_r.
  - destruct q as [|x q]; [|assert (x <> 0) by (apply F7; simpl; auto)]; simpl in F9.
    + eexists. split.
      * tpubr f h (@nil nat) (@nil nat).
        tpost. apply wk_nil.
      * fin_r.
    + eexists. split.
      * tpubr f h (@nil nat) (x :: q).
        tpost. apply wk_nil.
      * fin_r.
Qed.

(** an instruction that only loads *)
Lemma wk_load : forall k A A' o m p p1 mf, mstep k m p = Some (m, p1, false) -> Abs Sl m A -> wok k A A' o false m p1 mf ->
  wok k A A' o false m p mf.
Proof.
  intros k A A' o m p p1 mf E B W. eapply wk_step with (b := false); eauto.
  - intros l _. reflexivity.
  - apply untouched_refl.
Qed.

Lemma wok_find : forall k o A A' m h f q, k <> Li -> Abs k m A -> new_elt o = None -> In h (heads o) ->
  forall l3 l1 c, A h = Some (l1 ++ c :: l3 ++ f :: q) -> ~ In f l3 -> A' h = Some ((l1 ++ c :: l3) ++ q) ->
  (forall h', h' <> h -> A' h' = A h') -> exists mf, wok k A A' o false m [Find h c f] mf /\ Abs k mf A'.
Proof.
  intros k o A A' m h f q K B NE Hh. induction l3 as [|y l3 IH]; intros l1 c E Nf E' EO.
  - simpl in *. destruct (wok_rem_after k o A A' m h l1 c f q) as [mf [W1 W2]]; auto.
    exists mf. split; auto. assert (BW := abs_weak _ _ _ B).
    replace (l1 ++ c :: f :: q) with ((l1 ++ [c]) ++ f :: q) in E by (rewrite <- app_assoc; reflexivity).
    destruct (rep_split k m A h _ _ B E) as [F1 [F2 [F3 [F4 [F5 [F6 [F7 F8]]]]]]]. rewrite lastloc_snoc in F1. simpl in F1.
    assert (c <> 0) by (apply F7; rewrite !in_app_iff; simpl; auto).
    eapply wk_load; eauto. simpl. rewrite getn_ok by auto with qu. simpl. rewrite F1, Nat.eqb_refl, app_nil_r. reflexivity.
  - destruct (IH (l1 ++ [c]) y) as [mf [W1 W2]]; auto.
    { rewrite <- app_assoc. exact E. } { simpl in Nf. tauto. } { rewrite E'. rewrite <- !app_assoc. reflexivity. }
    exists mf. split; auto. assert (BW := abs_weak _ _ _ B).
    replace (l1 ++ c :: (y :: l3) ++ f :: q) with ((l1 ++ [c]) ++ y :: l3 ++ f :: q) in E by (rewrite <- app_assoc; reflexivity).
    destruct (rep_split k m A h _ _ B E) as [F1 [F2 [F3 [F4 [F5 [F6 [F7 F8]]]]]]]. rewrite lastloc_snoc in F1. simpl in F1.
    assert (c <> 0) by (apply F7; rewrite !in_app_iff; simpl; auto).
    eapply wk_load; eauto. simpl. rewrite getn_ok by auto with qu. simpl. rewrite F1.
    destruct (Nat.eqb_spec y f) as [->|]; [simpl in Nf; tauto|]. reflexivity.
Qed.

Lemma ok_rem_head : forall k m A h, k <> Li -> Abs k m A -> pre A (ORemHead h) ->
  exists mf, wok k A (aop A (ORemHead h)) (ORemHead h) false m (prog k (ORemHead h)) mf /\ Abs k mf (aop A (ORemHead h)).
Proof.
  intros k m A h K B [xs [E N]]. destruct xs as [|f q]; [congruence|].
  eapply wok_rem_head; eauto; simpl; auto.
  - rewrite upd_same, E. reflexivity.
  - intros. rewrite upd_other; auto.
Qed.
Lemma ok_rem_after : forall k m A h a, k <> Li -> Abs k m A -> pre A (ORemAfter h a) ->
  exists mf, wok k A (aop A (ORemAfter h a)) (ORemAfter h a) false m (prog k (ORemAfter h a)) mf /\ Abs k mf (aop A (ORemAfter h a)).
Proof.
  intros k m A h a K B [xs [E [b N]]]. destruct (succ_at _ _ _ N) as [l1 [l2 [-> Q]]].
  eapply wok_rem_after; eauto; simpl; auto.
  - rewrite upd_same, E. simpl. rewrite rem_after_at; auto.
  - intros. rewrite upd_other; auto.
Qed.
Lemma ok_remove : forall k m A h e, Abs k m A -> pre A (ORemove h e) ->
  exists mf, wok k A (aop A (ORemove h e)) (ORemove h e) false m (prog k (ORemove h e)) mf /\ Abs k mf (aop A (ORemove h e)).
Proof.
  intros k m A h e B [xs [E I]]. destruct (in_split_first _ _ I) as [l1 [q [-> N1]]].
  assert (E' : aop A (ORemove h e) h = Some (l1 ++ q)) by (simpl; rewrite upd_same, E; simpl; rewrite rem_at; auto).
  assert (EO : forall h', h' <> h -> aop A (ORemove h e) h' = A h') by (intros; simpl; rewrite upd_other; auto).
  assert (BW := abs_weak _ _ _ B).
  assert (NL : k <> Li -> exists mf, wok k A (aop A (ORemove h e)) (ORemove h e) false m
     [Let (fun m => Some (if Nat.eqb (nx m (LH h)) e then p_rem_head k h else [Find h (nx m (LH h)) e]))] mf /\ Abs k mf (aop A (ORemove h e))).
  { intros K. destruct l1 as [|c l1].
    - destruct (wok_rem_head k (ORemove h e) A (aop A (ORemove h e)) m h e q) as [mf [W1 W2]]; simpl; auto.
      exists mf. split; auto.
      destruct (rep_split k m A h [] _ B E) as [F1 _]. simpl in F1.
      eapply wk_load; eauto. simpl. rewrite F1, Nat.eqb_refl, app_nil_r. reflexivity.
    - destruct (wok_find k (ORemove h e) A (aop A (ORemove h e)) m h e q K B eq_refl) with (l3 := l1) (l1 := @nil nat) (c := c) as [mf [W1 W2]]; simpl in *; auto.
      exists mf. split; auto.
      destruct (rep_split k m A h [] _ B E) as [F1 _]. simpl in F1.
      eapply wk_load; eauto. simpl. rewrite F1. destruct (Nat.eqb_spec c e); [tauto|]. reflexivity. }
  destruct k; [apply NL; discriminate|apply NL; discriminate|]. clear NL.
  destruct (rep_split Li m A h _ _ B E) as [F1 [F2 [F3 [F4 [F5 [F6 [F7 F8]]]]]]].
  destruct F3 as [_ [X1 [X2 X3]]]. specialize (X2 eq_refl). simpl in F4.
  assert (L1 := lastloc_nz _ _ _ _ F2). assert (L3 := lastloc_ne h _ _ N1).
  assert (F9 := seg_hd _ _ _ _ X3 F4).
  remember (aop A (ORemove h e)) as A'. remember (lastloc (LH h) l1) as L eqn:LL. symmetry in LL. simpl in F1.
  destruct q as [|x q]; simpl in F9.
  - eexists. split.
    + simpl. tpubr e h l1 (@nil nat). tpost. apply wk_nil.
    + fin_r.
  - assert (x <> 0) by (apply F7; rewrite in_app_iff; simpl; auto). assert (~ out A x) by (apply F8; rewrite in_app_iff; simpl; auto).
    assert (x <> e).
    { intros ->. apply NoDup_remove_2 in F5. apply F5. apply in_or_app. simpl. auto. }
    eexists. split.
    + simpl. tpubr e h l1 (x :: q). tpost. apply wk_nil.
    + fin_r.
Qed.
(** SLIST_REMOVE_PREVPTR where the variable its body names is the argument *)
Lemma ok_rem_prev : forall m A h p e, Abs Sl m A -> pre A (ORemPrev h p p e) ->
  exists mf, wok Sl A (aop A (ORemPrev h p p e)) (ORemPrev h p p e) false m (prog Sl (ORemPrev h p p e)) mf /\ Abs Sl mf (aop A (ORemPrev h p p e)).
Proof.
  intros m A h p e B [xs [E [[l1 [l2 [-> [-> ->]]]] I]]].
  destruct (rep_split Sl m A h _ _ B E) as [F1 [F2 [F3 [F4 [F5 [F6 [F7 F8]]]]]]].
  destruct l2 as [|e q]; simpl in I; [exfalso; exact (F7 _ I eq_refl)|]. simpl hd in *. clear I.
  assert (N1 : ~ In e l1) by (apply NoDup_remove_2 in F5; intros Q; apply F5; apply in_or_app; auto).
  destruct F3 as [_ [X1 [X2 X3]]]. simpl in F4.
  assert (L1 := lastloc_nz _ _ _ _ F2). assert (L3 := lastloc_ne h _ _ N1).
  assert (F9 := seg_hd _ _ _ _ X3 F4).
  assert (E' : aop A (ORemPrev h (lastloc (LH h) l1) (lastloc (LH h) l1) e) h = Some (l1 ++ q)) by (simpl; rewrite upd_same, E; simpl; rewrite rem_at; auto).
  assert (EO : forall h', h' <> h -> aop A (ORemPrev h (lastloc (LH h) l1) (lastloc (LH h) l1) e) h' = A h') by (intros; simpl; rewrite upd_other; auto).
  remember (aop A (ORemPrev h (lastloc (LH h) l1) (lastloc (LH h) l1) e)) as A'. clear HeqA'.
  remember (lastloc (LH h) l1) as L eqn:LL. symmetry in LL. simpl in F1.
  eexists. split.
  - simpl. tpubr e h l1 q. apply wk_nil.
  - fin_r.
Qed.
