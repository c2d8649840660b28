(** Readers concurrent with one writer. *)
From Coq Require Import Arith List Bool Lia.
From Verif Require Import Lib Obs Queue_Model Queue_Spec Queue_Proof QueueOp_Proof QueueSeq_Proof.
Import ListNotations.
Local Arguments loc_eqb : simpl never.

(** [x] is at or behind [v] *)
Inductive from (m : mem) : nat -> nat -> Prop :=
| f_here : forall v, v <> 0 -> from m v v
| f_next : forall v x, v <> 0 -> from m (nx m (LE v)) x -> from m v x.
(** the walk from [v] reaches NULL *)
Inductive fin (m : mem) : nat -> Prop :=
| n_here : fin m 0
| n_next : forall v, v <> 0 -> fin m (nx m (LE v)) -> fin m v.

Definition closed (m : mem) (P : nat -> Prop) : Prop := forall x, P x -> nx m (LE x) = 0 \/ P (nx m (LE x)).

Lemma from_0 : forall m x, ~ from m 0 x.
Proof. intros m x H. inversion H; congruence. Qed.
Lemma from_inv : forall m v x, from m v x -> x <> v -> from m (nx m (LE v)) x.
Proof. intros m v x H N. inversion H; subst; auto. congruence. Qed.
Lemma from_ext : forall m m1 P, closed m P -> (forall x, P x -> nx m1 (LE x) = nx m (LE x)) ->
  forall v x, from m v x -> v = 0 \/ P v -> from m1 v x.
Proof.
  intros m m1 P C N v x H. induction H as [v NZ|v x NZ H IH]; intros Pv; [constructor; auto|].
  destruct Pv as [?|Pv]; [congruence|]. apply f_next; auto. rewrite N; auto.
Qed.
Lemma fin_ext : forall m m1 P, closed m P -> (forall x, P x -> nx m1 (LE x) = nx m (LE x)) ->
  forall v, fin m v -> v = 0 \/ P v -> fin m1 v.
Proof.
  intros m m1 P C N v H. induction H as [|v NZ H IH]; intros Pv; [constructor; auto|].
  destruct Pv as [?|Pv]; [congruence|]. apply n_next; auto. rewrite N; auto.
Qed.

(** insertion of [e] at [L] *)
Section Ins.
Variables (m m1 : mem) (L : loc) (e : nat).
Hypotheses (NZ : e <> 0) (Le : L <> LE e) (Ne : nx m (LE e) = nx m L) (N1 : nx m1 L = e) (N2 : forall l, l <> L -> nx m1 l = nx m l).
Lemma from_ins : forall v x, from m v x -> from m1 v x.
Proof.
  intros v x H. induction H as [v Nv|v x Nv H IH]; [constructor; auto|]. apply f_next; auto.
  destruct (loc_eqb_spec (LE v) L) as [<-|Q].
  - rewrite N1. apply f_next; auto. rewrite N2 by auto. rewrite Ne. auto.
  - rewrite N2; auto.
Qed.
Lemma fin_ins : forall v, fin m v -> fin m1 v.
Proof.
  intros v H. induction H as [|v Nv H IH]; [constructor|]. apply n_next; auto.
  destruct (loc_eqb_spec (LE v) L) as [<-|Q].
  - rewrite N1. apply n_next; auto. rewrite N2 by auto. rewrite Ne. auto.
  - rewrite N2; auto.
Qed.
End Ins.

(** removal of [f] at [L] *)
Section Rem.
Variables (m m1 : mem) (L : loc) (f : nat).
Hypotheses (Nf : f <> 0) (Le : L <> LE f) (Ne : nx m L = f) (N1 : nx m1 L = nx m (LE f)) (N2 : forall l, l <> L -> nx m1 l = nx m l).
Lemma from_rem : forall v x, from m v x -> x <> f -> from m1 v x.
Proof.
  intros v x H Nx. induction H as [v Nv|v x Nv H IH]; [constructor; auto|]. apply f_next; auto.
  destruct (loc_eqb_spec (LE v) L) as [<-|Q].
  - rewrite N1. specialize (IH Nx). rewrite Ne in IH. apply from_inv in IH; auto. rewrite N2 in IH; auto.
  - rewrite N2; auto.
Qed.
Lemma fin_rem : forall v, fin m v -> fin m1 v.
Proof.
  intros v H. induction H as [|v Nv H IH]; [constructor|]. apply n_next; auto.
  destruct (loc_eqb_spec (LE v) L) as [Q|Q].
  - rewrite Q in *. rewrite N1. rewrite Ne in IH. inversion IH as [Q1|w Nw Q1 Q2]; [congruence|].
    rewrite N2 in Q1; auto.
  - rewrite N2; auto.
Qed.
End Rem.

(** * What a representation says about walks *)
Lemma seg_from : forall m xs l x, seg Sl m l xs -> In x xs -> from m (nx m l) x.
Proof.
  induction xs as [|y xs IH]; simpl; intros l x S I; [tauto|]. destruct S as [E [NZ [_ S]]]. rewrite E.
  destruct I as [->|I]; [constructor; auto|]. apply f_next; auto.
Qed.
Lemma abs_first : forall m A h xs, Abs Sl m A -> A h = Some xs -> nx m (LH h) = 0 \/ mem_of A h (nx m (LH h)).
Proof.
  intros m A h xs [H _] E. destruct (H _ _ E) as [S [T _]]. destruct xs as [|x xs]; simpl in *; auto.
  right. exists (x :: xs). destruct S as [-> _]. simpl. auto.
Qed.
Lemma abs_closed : forall m A h a, Abs Sl m A -> mem_of A h a -> nx m (LE a) = 0 \/ mem_of A h (nx m (LE a)).
Proof.
  intros m A h a B [xs [E I]]. destruct (in_split _ _ I) as [l1 [l2 ->]].
  replace (l1 ++ a :: l2) with ((l1 ++ [a]) ++ l2) in E by (rewrite <- app_assoc; reflexivity).
  destruct (rep_split _ _ _ _ _ _ B E) as [F _]. rewrite lastloc_snoc in F. rewrite F.
  destruct l2 as [|y l2]; simpl; auto. right. exists ((l1 ++ [a]) ++ y :: l2). split; auto. apply in_or_app. simpl. auto.
Qed.
Lemma abs_from : forall m A h xs x, Abs Sl m A -> A h = Some xs -> In x xs -> from m (nx m (LH h)) x.
Proof. intros m A h xs x [H _] E I. destruct (H _ _ E) as [S _]. eapply seg_from; eauto. Qed.
Lemma mem_nz : forall m A h x, Abs Sl m A -> mem_of A h x -> x <> 0.
Proof. intros m A h x [H _] [xs [E I]]. destruct (H _ _ E) as [S _]. eapply seg_nz; eauto. Qed.
Lemma mem_disj : forall m A h h' x, Abs Sl m A -> mem_of A h x -> mem_of A h' x -> h = h'.
Proof. intros m A h h' x [_ D] [xs [E I]] [xs' [E' I']]. eapply D; eauto. Qed.
Lemma mem_elts : forall A h x, In x (elts A h) <-> mem_of A h x.
Proof.
  intros A h x. unfold elts, mem_of. destruct (A h) as [l|].
  - split; [intros; exists l; auto|]. intros [xs [Q I]]. injection Q as <-. auto.
  - split; [intros []|]. intros [xs [Q I]]. discriminate.
Qed.
Lemma inb_in : forall x l, inb x l = true <-> In x l.
Proof.
  intros x l. unfold inb. rewrite existsb_exists. split.
  - intros [y [I Q]]. apply Nat.eqb_eq in Q. congruence.
  - intros I. exists x. split; auto. apply Nat.eqb_refl.
Qed.

(** * The invariant *)
Definition MC (m : mem) (A : nat -> option (list nat)) (P : nat -> bool) (r : trav) : Prop :=
  (forall x, mem_of A (t_h r) x -> In x (may r)) /\
  (forall u, In u (may r) -> P u = true /\ (nx m (LE u) = 0 \/ In (nx m (LE u)) (may r))) /\
  (forall u h, In u (may r) -> mem_of A h u -> h = t_h r) /\
  (forall x, In x (must r) -> mem_of A (t_h r) x).
Definition RI (m : mem) (A : nat -> option (list nat)) (P : nat -> bool) (q : reader) (g : option trav) : Prop :=
  match q with
  | RIdle => g = None
  | RAt h e => exists r, g = Some r /\ t_h r = h /\ MC m A P r /\ In e (may r) /\ forall x, In x (must r) -> from m (nx m (LE e)) x
  | RS h e => exists r, g = Some r /\ t_h r = h /\ MC m A P r /\ In e (may r) /\ forall x, In x (must r) -> from m e x
  | RB h e n => exists r, g = Some r /\ t_h r = h /\ MC m A P r /\ (n = 0 \/ In n (may r)) /\ forall x, In x (must r) -> from m n x
  end.

Definition newly (o : op) (x : nat) : bool := match new_elt o with Some e => Nat.eqb x e | None => false end.
Definition WI (k : kind) (s : state) (P : nat -> bool) : Prop :=
  todo s = [] /\ Abs k (sm s) (cl s) /\ (forall x, P x = used s x) \/
  exists A pub mf, wok k A (aop A (cur s)) (cur s) pub (sm s) (todo s) mf /\ Abs k mf (aop A (cur s)) /\
    cl s = (if pub then aop A (cur s) else A) /\ (forall e, new_elt (cur s) = Some e -> e <> 0 /\ used s e = true) /\
    (forall x, P x = used s x && negb (negb pub && newly (cur s) x)).

Record Inv (k : kind) (s : state) (g : gst) (P : nat -> bool) : Prop := mkI {
  v_ga : ga g = cl s;
  v_abs : Abs Sl (sm s) (cl s);
  v_wi : WI k s P;
  v_mem : forall h x, mem_of (cl s) h x -> P x = true;
  v_0 : P 0 = false;
  v_cl : closed (sm s) (fun x => P x = true);
  v_fin : forall x, P x = true -> fin (sm s) x;
  v_rd : forall t, RI (sm s) (cl s) P (rd s t) (gt g t) }.

Lemma init_inv : forall k n g gp, Inv k (init n g gp) (gs0 n) (fun _ => false).
Proof.
  intros k n g gp.
  assert (E : forall h xs, empty_lists n h = Some xs -> xs = []).
  { intros h xs. unfold empty_lists. destruct (Nat.ltb h n); congruence. }
  assert (B : forall k, Abs k (sm (init n g gp)) (empty_lists n)).
  { intros k'. split.
    - intros h xs Q. apply E in Q. subst. repeat split; simpl; auto. constructor.
    - intros h h' xs xs' x Q _ I _. apply E in Q. subst. destruct I. }
  constructor; simpl; auto; try discriminate.
  - left. simpl. auto.
  - intros h x [xs [Q I]]. apply E in Q. subst. destruct I.
Qed.

Lemma wi_quiet : forall k s P, WI k s P -> todo s = [] -> Abs k (sm s) (cl s) /\ forall x, P x = used s x.
Proof.
  intros k s P W T. destruct W as [[_ [B U]]|[A [pub [mf [W [B [C [_ U]]]]]]]]; auto.
  rewrite T in W. inversion W as [m E1 E2 E3 E4|pub' m p m1 p1 b mf' W1]; subst; [|discriminate].
  rewrite C. split; auto. intros x. rewrite U. simpl. destruct (used s x); reflexivity.
Qed.
Lemma preb_pre : forall k s g P o, Inv k s g P -> todo s = [] -> preb (cl s) (used s) o = true -> pre (cl s) o /\ good_prev o.
Proof.
  intros k s g P o I T H.
  destruct (wi_quiet _ _ _ (v_wi _ _ _ _ I) T) as [_ U].
  assert (O : forall e, used s e = false -> out (cl s) e).
  { intros e Q h xs E1 E2. assert (P e = true) by (eapply (v_mem _ _ _ _ I); exists xs; eauto). rewrite U in H0. congruence. }
  assert (FR : forall e b, (negb (e =? 0) && negb (used s e) && b)%bool = true -> e <> 0 /\ out (cl s) e /\ b = true).
  { intros e b Q. apply andb_prop in Q. destruct Q as [Q Qb]. apply andb_prop in Q. destruct Q as [Q1 Q2].
    destruct (Nat.eqb_spec e 0); [discriminate|]. destruct (used s e) eqn:Ue; [discriminate|]. auto. }
  destruct o; simpl in H |- *; try discriminate; split; auto.
  - destruct (FR _ _ H) as [F1 [F2 F3]]. destruct (cl s h); [eauto|discriminate].
  - destruct (FR _ _ H) as [F1 [F2 F3]]. destruct (cl s h); [eauto|discriminate].
  - destruct (FR _ _ H) as [F1 [F2 F3]]. destruct (cl s h); [|discriminate]. apply inb_in in F3. eauto.
  - destruct (FR _ _ H) as [F1 [F2 F3]]. destruct (cl s h); [|discriminate]. apply inb_in in F3. eauto.
  - destruct (cl s h) as [[|x l]|]; try discriminate. exists (x :: l). split; auto. discriminate.
  - destruct (cl s h) as [l|]; try discriminate. exists l. split; auto. destruct (succ a l); [eauto|discriminate].
  - destruct (cl s h) as [l|]; try discriminate. apply inb_in in H. eauto.
Qed.

(** * The writer's steps *)
Lemma call_inv : forall k s g P o, Inv k s g P -> todo s = [] -> has k o = true -> preb (cl s) (used s) o = true ->
  exists P', Inv k (mks (sm s) (prog k o) o (cl s) (mark (used s) o) (rd s)) g P'.
Proof.
  intros k s g P o I T Hk Hp. destruct (preb_pre _ _ _ _ _ I T Hp) as [Pr Gp].
  destruct (wi_quiet _ _ _ (v_wi _ _ _ _ I) T) as [B U].
  assert (W := op_wok k (sm s) (cl s) o Hk B Pr Gp).
  assert (F : forall e, new_elt o = Some e -> e <> 0 /\ used s e = false).
  { destruct o; simpl in *; intros e' Q; try discriminate; injection Q as <-;
    apply andb_prop in Hp; destruct Hp as [Hp _]; apply andb_prop in Hp; destruct Hp as [H1 H2];
    destruct (Nat.eqb_spec e 0); try discriminate; destruct (used s e); try discriminate; auto. }
  exists P. destruct I as [I1 I2 I3 I4 I5 I6 I7 I8]. constructor; simpl; auto.
  right. assert (W' : exists mf, wok k (cl s) (aop (cl s) o) o false (sm s) (prog k o) mf /\ Abs k mf (aop (cl s) o)) by (destruct o; auto; discriminate).
  destruct W' as [mf [W1 W2]]. exists (cl s), false, mf. simpl. split; [exact W1|]. split; [exact W2|]. split; [reflexivity|]. split.
  - intros e Q. destruct (F _ Q). split; auto. unfold mark. rewrite Q. apply upd_same.
  - intros x. rewrite U. unfold mark, newly. destruct (new_elt o) as [e|] eqn:Q; simpl.
    + destruct (F _ eq_refl) as [_ Ue]. unfold upd. destruct (Nat.eq_dec x e) as [->|N].
      * rewrite Nat.eqb_refl, Ue. reflexivity.
      * destruct (Nat.eqb_spec x e); [congruence|]. simpl. rewrite andb_true_r. reflexivity.
    + rewrite andb_true_r. reflexivity.
Qed.

Lemma ri_quiet : forall m m1 A P q g, (forall x, P x = true -> nx m1 (LE x) = nx m (LE x)) -> closed m (fun x => P x = true) ->
  RI m A P q g -> RI m1 A P q g.
Proof.
  intros m m1 A P q g N C.
  assert (M : forall r, MC m A P r -> MC m1 A P r).
  { intros r [M1 [M2 [M3 M4]]]. split; [auto|]. split; [|auto]. intros u Hu. destruct (M2 u Hu) as [Q1 Q2]. rewrite N; auto. }
  assert (F := from_ext m m1 _ C N).
  destruct q; simpl; auto; intros [r [R1 [R2 [R3 [R4 R5]]]]]; exists r; (split; [auto|]); (split; [auto|]); (split; [auto|]); (split; [auto|]); intros x Hx; specialize (R5 x Hx).
  - destruct R3 as [_ [M2 _]]. destruct (M2 _ R4) as [Pe Q]. rewrite N; auto.
  - destruct R3 as [_ [M2 _]]. destruct (M2 _ R4) as [Pe Q]. auto.
  - destruct R3 as [_ [M2 _]]. apply F; auto. destruct R4 as [->|R4]; auto. destruct (M2 _ R4) as [Pe Q]. auto.
Qed.

Lemma tnext_must : forall A r x, In x (must (tnext A r)) <-> In x (must r) /\ mem_of A (t_h r) x.
Proof. intros A r x. simpl. rewrite filter_In, inb_in, mem_elts. tauto. Qed.
Lemma tnext_may : forall A r x, In x (may (tnext A r)) <-> mem_of A (t_h r) x \/ In x (may r).
Proof. intros A r x. simpl. rewrite in_app_iff, mem_elts. tauto. Qed.

Lemma ri_pub : forall m m1 A A' P P' q g,
  (forall r, MC m A P r -> MC m1 A' P' (tnext A' r)) ->
  (forall v h x, from m v x -> mem_of A' h x -> from m1 v x) ->
  (forall e r x, In e (may r) -> MC m A P r -> mem_of A' (t_h r) x -> from m (nx m (LE e)) x -> from m1 (nx m1 (LE e)) x) ->
  RI m A P q g -> RI m1 A' P' q (option_map (tnext A') g).
Proof.
  intros m m1 A A' P P' q g HM HF HN.
  destruct q; simpl; [intros ->; auto| | |]; intros [r [-> [R2 [R3 [R4 R5]]]]]; exists (tnext A' r);
  (split; [auto|]); (split; [auto|]); (split; [auto|]); (split; [rewrite tnext_may; tauto|]);
  intros x Hx; rewrite tnext_must in Hx; destruct Hx as [Hx Mx]; specialize (R5 x Hx); eauto.
Qed.

(** the successor of an element the reader stands on *)
Lemma nx_from_ins : forall m m1 L e, e <> 0 -> L <> LE e -> nx m (LE e) = nx m L -> nx m1 L = e -> (forall l, l <> L -> nx m1 l = nx m l) ->
  forall u x, from m (nx m (LE u)) x -> from m1 (nx m1 (LE u)) x.
Proof.
  intros m m1 L e NZ Le Ne N1 N2 u x H. assert (F := from_ins m m1 L e NZ Le Ne N1 N2 _ _ H).
  destruct (loc_eqb_spec (LE u) L) as [Q|Q].
  - rewrite Q in *. rewrite N1. apply f_next; auto. rewrite N2 by auto. rewrite Ne. auto.
  - rewrite N2; auto.
Qed.
Lemma nx_from_rem : forall m m1 L f, f <> 0 -> L <> LE f -> nx m L = f -> nx m1 L = nx m (LE f) -> (forall l, l <> L -> nx m1 l = nx m l) ->
  forall u x, from m (nx m (LE u)) x -> x <> f -> from m1 (nx m1 (LE u)) x.
Proof.
  intros m m1 L f Nf Le Ne N1 N2 u x H Nx.
  assert (F := from_rem m m1 L f Le Ne N1 N2 _ _ H Nx).
  destruct (loc_eqb_spec (LE u) L) as [Q|Q].
  - rewrite Q in *. rewrite N1. rewrite Ne in F. apply from_inv in F; auto. rewrite N2 in F; auto.
  - rewrite N2; auto.
Qed.

Lemma tick_inv : forall k s g P m p b, Inv k s g P -> mstep k (sm s) (todo s) = Some (m, p, b) ->
  exists P', Inv k (mks m p (cur s) (if b then aop (cl s) (cur s) else cl s) (used s) (rd s))
                 (if b then gnext g (EDo (cur s)) else g) P'.
Proof.
  intros k s g P m p b [I1 I2 I3 I4 I5 I6 I7 I8] E.
  destruct I3 as [[T _]|[A [pub [mf [W [B [C [NE U]]]]]]]]; [rewrite T in E; discriminate|].
  inversion W as [m0 E1 E2 E3 E4|pub' m0 p0 m1 p1 b' mf' W1 W2 W3 W4 W5 W6]; subst; [rewrite <- E3 in E; discriminate|].
  rewrite E in W1. injection W1 as <- <- <-.
  destruct b.
  - assert (pub = false) by (destruct pub; auto; specialize (W2 eq_refl); discriminate). subst pub. simpl in *.
    rewrite C in *. unfold effect in W3. exists (used s).
    assert (PU : forall x, P x = true -> used s x = true) by (intros x Q; rewrite U in Q; apply andb_prop in Q; tauto).
    assert (WI' : WI k (mks m p (cur s) (aop A (cur s)) (used s) (rd s)) (used s)).
    { right. exists A, true, mf. simpl. split; [exact W6|]. split; [exact B|]. split; [reflexivity|]. split; [exact NE|]. intros x. rewrite andb_true_r. auto. }
    assert (U0 : used s 0 = false).
    { destruct (used s 0) eqn:Q; auto. rewrite U, Q in I5. simpl in I5. unfold newly in I5.
      destruct (new_elt (cur s)) as [e|]; simpl in I5; [|discriminate]. destruct (NE e eq_refl) as [NZ _].
      destruct e; [congruence|]. discriminate. }
    assert (KEY : (forall h x, mem_of (aop A (cur s)) h x -> used s x = true) /\ closed m (fun x => used s x = true) /\
       (forall x, used s x = true -> fin m x) /\
       forall t, RI m (aop A (cur s)) (used s) (rd s t) (option_map (tnext (aop A (cur s))) (gt g t))).
    { destruct (new_elt (cur s)) as [e|] eqn:Q.
      - destruct (NE e eq_refl) as [NZ Ue].
        assert (Pe : P e = false) by (rewrite U, Ue; unfold newly; rewrite Q, Nat.eqb_refl; reflexivity).
        assert (PX : forall x, used s x = true -> x = e \/ P x = true).
        { intros x Q1. destruct (Nat.eq_dec x e); auto. right. rewrite U, Q1. unfold newly. rewrite Q.
          destruct (Nat.eqb_spec x e); [congruence|]. reflexivity. }
        destruct W3 as [h [L [HA [HL [Le [Ne [N1 [N2 HM]]]]]]]].
        assert (NL : nx (sm s) L = 0 \/ mem_of A h (nx (sm s) L)).
        { destruct HL as [->|[a [-> Ha]]]; [|eapply abs_closed; eauto].
          destruct (A h) as [xs|] eqn:Eh; [|congruence]. eapply abs_first; eauto. }
        assert (CL : closed m (fun x => used s x = true)).
        { intros x Q1. destruct (loc_eqb_spec (LE x) L) as [QL|QL].
          - rewrite QL, N1. auto.
          - rewrite N2 by auto. destruct (PX _ Q1) as [->|Px].
            + rewrite Ne. destruct NL as [NL|NL]; auto. right. eauto.
            + destruct (I6 x Px) as [Z|Z]; auto. }
        assert (FN : forall x, used s x = true -> fin m x).
        { intros x Q1. apply (fin_ins (sm s) m L e); auto. destruct (PX _ Q1) as [->|Px]; auto.
          apply n_next; auto. rewrite Ne. destruct NL as [->|NL]; [constructor|]. eauto. }
        split; [|split; [|split]]; auto.
        + intros h' x Q1. apply HM in Q1. destruct Q1 as [Q1|[_ ->]]; eauto.
        + intros t. eapply ri_pub; [| | |apply I8].
          * intros r [M1 [M2 [M3 M4]]].
            assert (HE : forall u, In u (may r) -> u <> e) by (intros u Hu ->; destruct (M2 e Hu); congruence).
            split; [intros x Hx; rewrite tnext_may; auto|]. split; [|split].
            -- intros u Hu. rewrite tnext_may in Hu. rewrite tnext_may.
               assert (Hu' : In u (may r) \/ u = e /\ t_h r = h).
               { destruct Hu as [Hu|Hu]; auto. apply HM in Hu. destruct Hu as [Hu|[Hu1 Hu2]]; auto. }
               assert (Uu : used s u = true) by (destruct Hu' as [Hu'|[-> _]]; auto; destruct (M2 u Hu'); auto).
               split; auto. destruct (loc_eqb_spec (LE u) L) as [QL|QL].
               ++ rewrite QL, N1. right. left. apply HM. right. split; auto.
                  destruct HL as [HL|[a [HL Ha]]]; [congruence|]. assert (a = u) by congruence. subst a.
                  destruct Hu' as [Hu'|[-> Hh]]; auto. symmetry. eapply M3; eauto.
               ++ rewrite N2 by auto. destruct Hu' as [Hu'|[-> Hh]].
                  ** destruct (M2 u Hu') as [_ [Z|Z]]; auto.
                  ** rewrite Ne. destruct NL as [NL|NL]; auto. right. right. apply M1. rewrite Hh. auto.
            -- intros u h' Hu Hm. rewrite tnext_may in Hu. simpl. destruct Hu as [Hu|Hu].
               ++ eapply mem_disj; eauto.
               ++ apply HM in Hm. destruct Hm as [Hm|[_ Hm]]; [eauto|]. exfalso. eapply HE; eauto.
            -- intros x Hx. rewrite tnext_must in Hx. simpl. tauto.
          * intros v h' x F _. eapply (from_ins (sm s) m L e); eauto.
          * intros u r x Hu _ _ F. eapply (nx_from_ins (sm s) m L e); eauto.
      - assert (PX : forall x, P x = used s x) by (intros x; rewrite U; unfold newly; rewrite Q; simpl; apply andb_true_r).
        destruct W3 as [h [L [f [HL [Le [Hf [Ne [N1 [N2 HM]]]]]]]]].
        assert (NZ : f <> 0) by (exact (mem_nz _ _ _ _ I2 Hf)).
        assert (Pf : P f = true) by eauto.
        assert (CL : closed m (fun x => used s x = true)).
        { intros x Q1. rewrite <- PX in Q1. destruct (loc_eqb_spec (LE x) L) as [QL|QL].
          - rewrite QL, N1. destruct (I6 f Pf) as [Z|Z]; auto.
          - rewrite N2 by auto. destruct (I6 x Q1) as [Z|Z]; auto. }
        split; [|split; [|split]]; auto.
        + intros h' x Q1. apply HM in Q1. destruct Q1 as [Q1 _]; eauto.
        + intros x Q1. apply (fin_rem (sm s) m L f); auto. apply I7. rewrite PX; auto.
        + intros t. eapply ri_pub; [| | |apply I8].
          * intros r [M1 [M2 [M3 M4]]].
            split; [intros x Hx; rewrite tnext_may; auto|]. split; [|split].
            -- intros u Hu. rewrite tnext_may in Hu. rewrite tnext_may.
               assert (Hu' : In u (may r)).
               { destruct Hu as [Hu|Hu]; auto. apply HM in Hu. destruct Hu as [Hu _]; auto. }
               destruct (M2 u Hu') as [Pu Z]. split; auto.
               destruct (loc_eqb_spec (LE u) L) as [QL|QL].
               ++ rewrite QL, N1. rewrite QL, Ne in Z. destruct Z as [Z|Z]; [congruence|].
                  destruct (M2 f Z) as [_ [Z'|Z']]; auto.
               ++ rewrite N2 by auto. destruct Z; auto.
            -- intros u h' Hu Hm. rewrite tnext_may in Hu. simpl. destruct Hu as [Hu|Hu].
               ++ eapply mem_disj; eauto.
               ++ apply HM in Hm. destruct Hm as [Hm _]; eauto.
            -- intros x Hx. rewrite tnext_must in Hx. simpl. tauto.
          * intros v h' x F Hx. apply HM in Hx. eapply (from_rem (sm s) m L f); eauto. tauto.
          * intros u r x Hu _ Hx F. apply HM in Hx. eapply (nx_from_rem (sm s) m L f); eauto. tauto. }
    destruct KEY as [K1 [K2 [K3 K4]]].
    constructor; simpl; auto.
    + rewrite I1. auto.
    + rewrite I1. auto.
  - simpl in W3. rewrite orb_false_r in *. exists P.
    assert (N : forall l, (pub = true \/ forall e, new_elt (cur s) = Some e -> l <> LE e) -> nx m l = nx (sm s) l) by exact W3.
    assert (NP : forall x, P x = true -> nx m (LE x) = nx (sm s) (LE x)).
    { intros x Px. apply N. destruct pub; auto. right. intros e Q Q1. injection Q1 as ->. rewrite U in Px.
      unfold newly in Px. rewrite Q, Nat.eqb_refl in Px. simpl in Px. rewrite andb_false_r in Px. discriminate. }
    constructor; simpl; auto.
    + rewrite C. auto.
    + right. exists A, pub, mf. simpl. auto 10.
    + intros x Px. rewrite NP by auto. apply I6. auto.
    + intros x Px. eapply fin_ext; eauto.
    + intros t. eapply ri_quiet; eauto.
Qed.

(** * Reader steps *)
Lemma upd_rd : forall k s g P f t, Inv k s g P -> RI (sm s) (cl s) P f (gt g t) ->
  Inv k (mks (sm s) (todo s) (cur s) (cl s) (used s) (upd (rd s) t f)) g P.
Proof.
  intros k s g P f t [I1 I2 I3 I4 I5 I6 I7 I8] R. constructor; simpl; auto.
  intros t'. unfold upd. destruct (Nat.eq_dec t' t) as [->|]; auto.
Qed.

Lemma gt_upd : forall k s g P t f x, Inv k s g P -> RI (sm s) (cl s) P f x ->
  Inv k (mks (sm s) (todo s) (cur s) (cl s) (used s) (upd (rd s) t f)) (mkg (ga g) (upd (gt g) t x)) P.
Proof.
  intros k s g P t f x [I1 I2 I3 I4 I5 I6 I7 I8] R. constructor; simpl; auto.
  intros t'. unfold upd. destruct (Nat.eq_dec t' t) as [->|]; auto.
Qed.
Lemma mc_remove : forall m A P r e, MC m A P r -> MC m A P (mkt (t_h r) (remove Nat.eq_dec e (must r)) (may r)).
Proof.
  intros m A P r e [M1 [M2 [M3 M4]]]. split; [auto|]. split; [auto|]. split; [auto|].
  simpl. intros x Hx. apply M4. eapply in_remove; eauto.
Qed.
Lemma all_from_nil : forall m l, (forall x, In x l -> from m 0 x) -> l = [].
Proof. intros m [|x l] H; auto. exfalso. apply (from_0 m x). apply H. left; auto. Qed.

(** the load of [v], the next element of a FOREACH loop *)
Lemma enter_inv : forall k s g P t h r v s' ev, Inv k s g P -> gt g t = Some r -> t_h r = h -> MC (sm s) (cl s) P r ->
  (v = 0 \/ In v (may r)) -> (forall x, In x (must r) -> from (sm s) v x) -> enter s t h v = (s', ev) ->
  legal_from gnext ok g ev /\ Inv k s' (gfold gnext ev g) P.
Proof.
  intros k s g P t h r v s' ev I G T M V F E. unfold enter in E. destruct (Nat.eqb_spec v 0) as [->|NZ]; injection E as <- <-; simpl.
  - split.
    + split; auto. exists r. split; auto. eapply all_from_nil; eauto.
    + eapply gt_upd; eauto. simpl. auto.
  - destruct V as [?|V]; [congruence|]. split.
    + split; auto. split; auto. exists r. auto.
    + rewrite G. simpl. eapply gt_upd; eauto. simpl. eexists. split; eauto. split; auto.
      split; [apply mc_remove; auto|]. split; auto. simpl. intros x Hx.
      apply from_inv; [apply F; eapply in_remove; eauto|]. apply in_remove in Hx. tauto.
Qed.
Lemma enter_safe_inv : forall k s g P t h r v s' ev, Inv k s g P -> gt g t = Some r -> t_h r = h -> MC (sm s) (cl s) P r ->
  (v = 0 \/ In v (may r)) -> (forall x, In x (must r) -> from (sm s) v x) -> enter_safe s t h v = (s', ev) ->
  legal_from gnext ok g ev /\ Inv k s' (gfold gnext ev g) P.
Proof.
  intros k s g P t h r v s' ev I G T M V F E. unfold enter_safe in E. destruct (Nat.eqb_spec v 0) as [->|NZ]; injection E as <- <-; simpl.
  - split.
    + split; auto. exists r. split; auto. eapply all_from_nil; eauto.
    + eapply gt_upd; eauto. simpl. auto.
  - destruct V as [?|V]; [congruence|]. split; auto. eapply upd_rd; eauto. simpl. exists r. auto.
Qed.
Lemma begin_mc : forall k s g P h xs, Inv k s g P -> cl s h = Some xs ->
  MC (sm s) (cl s) P (mkt h xs xs) /\ (nx (sm s) (LH h) = 0 \/ In (nx (sm s) (LH h)) xs) /\
  forall x, In x xs -> from (sm s) (nx (sm s) (LH h)) x.
Proof.
  intros k s g P h xs I E. assert (B := v_abs _ _ _ _ I).
  assert (X : forall x, In x xs <-> mem_of (cl s) h x).
  { intros x. rewrite <- mem_elts. unfold elts. rewrite E. tauto. }
  split; [|split].
  - split; [simpl; intros x; apply X|]. split; [|split]; simpl.
    + intros u Hu. apply X in Hu. split; [eapply (v_mem _ _ _ _ I); eauto|]. destruct (abs_closed _ _ _ _ B Hu) as [Z|Z]; auto.
      right. apply X. auto.
    + intros u h' Hu Hm. apply X in Hu. eapply mem_disj; eauto.
    + intros x. apply X.
  - destruct (abs_first _ _ _ _ B E) as [Z|Z]; auto. right. apply X. auto.
  - intros x Hx. eapply abs_from; eauto.
Qed.

Lemma step_inv : forall k s g P l s' ev, Inv k s g P -> step k s l = Some (s', ev) ->
  legal_from gnext ok g ev /\ exists P', Inv k s' (gfold gnext ev g) P'.
Proof.
  intros k s g P l s' ev I H. destruct l as [o| |t h|t h|t]; simpl in H.
  - destruct (todo s) eqn:T; [|discriminate]. destruct (has k o) eqn:Hk; [|discriminate]. simpl in H.
    destruct (preb (cl s) (used s) o) eqn:Hp; [|discriminate]. injection H as <- <-. simpl. split; auto.
    eapply call_inv; eauto.
  - destruct (mstep k (sm s) (todo s)) as [[[m p] b]|] eqn:E; [|discriminate]. simpl in H. injection H as <- <-.
    destruct (tick_inv _ _ _ _ _ _ _ I E) as [P' I']. destruct b; simpl in *; split; auto; exists P'; auto.
  - destruct (rd s t) eqn:R; try discriminate. destruct (cl s h) as [xs|] eqn:C; [|discriminate].
    destruct (enter s t h (nx (sm s) (LH h))) as [s1 ev1] eqn:E. injection H as <- <-.
    assert (G : gt g t = None) by (generalize (v_rd _ _ _ _ I t); rewrite R; auto).
    destruct (begin_mc _ _ _ _ _ _ I C) as [M [V F]].
    assert (I1 : Inv k (mks (sm s) (todo s) (cur s) (cl s) (used s) (upd (rd s) t (RB h 0 (nx (sm s) (LH h))))) (gnext g (EBegin t h)) P).
    { simpl. eapply gt_upd; eauto. simpl. unfold elts. rewrite (v_ga _ _ _ _ I), C. exists (mkt h xs xs). auto. }
    set (s0 := mks (sm s) (todo s) (cur s) (cl s) (used s) (upd (rd s) t (RB h 0 (nx (sm s) (LH h))))) in *.
    destruct (enter_inv k s0 (gnext g (EBegin t h)) P t h (mkt h xs xs) (nx (sm s) (LH h)) (fst (enter s0 t h (nx (sm s) (LH h)))) ev1) as [L1 I2]; auto.
    + simpl. rewrite upd_same. unfold elts. rewrite (v_ga _ _ _ _ I), C. auto.
    + unfold enter in *. destruct (nx (sm s) (LH h) =? 0); injection E as <- <-; reflexivity.
    + split; [split; auto|]. exists P. simpl. simpl in I2.
      assert (EQ : forall t', rd (fst (enter s0 t h (nx (sm s) (LH h)))) t' = rd s1 t').
      { intros t'. unfold enter in *. destruct (nx (sm s) (LH h) =? 0); injection E as <- _; simpl; unfold upd; destruct (Nat.eq_dec t' t); auto. }
      assert (EQ2 : sm (fst (enter s0 t h (nx (sm s) (LH h)))) = sm s1 /\ todo (fst (enter s0 t h (nx (sm s) (LH h)))) = todo s1 /\
        cur (fst (enter s0 t h (nx (sm s) (LH h)))) = cur s1 /\ cl (fst (enter s0 t h (nx (sm s) (LH h)))) = cl s1 /\ used (fst (enter s0 t h (nx (sm s) (LH h)))) = used s1).
      { unfold enter in *. destruct (nx (sm s) (LH h) =? 0); injection E as <- _; simpl; auto. }
      destruct EQ2 as [Q1 [Q2 [Q3 [Q4 Q5]]]]. destruct I2 as [J1 J2 J3 J4 J5 J6 J7 J8].
      constructor; try (rewrite <- ?Q1, <- ?Q4; auto; fail).
      * unfold WI in *. rewrite Q1, Q2, Q3, Q4, Q5 in J3. exact J3.
      * intros t'. rewrite <- EQ, <- Q1, <- Q4. auto.
  - destruct (rd s t) eqn:R; try discriminate. destruct (cl s h) as [xs|] eqn:C; [|discriminate].
    destruct (enter_safe s t h (nx (sm s) (LH h))) as [s1 ev1] eqn:E. injection H as <- <-.
    assert (G : gt g t = None) by (generalize (v_rd _ _ _ _ I t); rewrite R; auto).
    destruct (begin_mc _ _ _ _ _ _ I C) as [M [V F]].
    assert (GE : elts (ga g) h = xs) by (unfold elts; rewrite (v_ga _ _ _ _ I), C; auto).
    unfold enter_safe in E. destruct (Nat.eqb_spec (nx (sm s) (LH h)) 0) as [Z|Z]; injection E as <- <-; simpl; rewrite GE.
    + split.
      * split; auto. split; auto. exists (mkt h xs xs). rewrite upd_same. split; auto. simpl. rewrite Z in F. eapply all_from_nil; eauto.
      * exists P. assert (J := gt_upd k s g P t RIdle None I eq_refl). destruct J as [J1 J2 J3 J4 J5 J6 J7 J8].
        constructor; simpl; auto. intros t'. specialize (J8 t'). simpl in J8. unfold upd in *. destruct (Nat.eq_dec t' t); auto.
    + split; [auto|]. exists P. eapply gt_upd; eauto. simpl. exists (mkt h xs xs). destruct V as [?|V]; [congruence|]. auto.
  - assert (RR := v_rd _ _ _ _ I t). destruct (rd s t) as [|h e|h e|h e n] eqn:R; try discriminate; simpl in RR;
    destruct RR as [r [G [T [M [V F]]]]]; injection H as H.
    + destruct (enter_inv k s g P t h r (nx (sm s) (LE e)) s' ev) as [L1 I1]; eauto.
      destruct M as [_ [M2 _]]. destruct (M2 _ V); auto.
    + subst s' ev. simpl. split.
      * split; auto. split; [|eauto]. intros ->. destruct M as [_ [M2 _]]. destruct (M2 _ V) as [Q _].
        rewrite (v_0 _ _ _ _ I) in Q. discriminate.
      * exists P. rewrite G. simpl. eapply gt_upd; eauto. simpl. eexists. split; eauto. split; auto.
        split; [apply mc_remove; auto|]. simpl. destruct M as [_ [M2 _]]. destruct (M2 _ V) as [_ Q]. split; auto.
        intros x Hx. apply from_inv; [apply F; eapply in_remove; eauto|]. apply in_remove in Hx. tauto.
    + destruct (enter_safe_inv k s g P t h r n s' ev) as [L1 I1]; eauto.
Qed.
