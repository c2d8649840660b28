(** Proofs about the client of hazard pointers: what a validated slot is good for. *)
From Coq Require Import Arith List Bool Lia.
From Verif Require Import Lib Obs Hp_Model Hp_Spec Hp_Proof HpPend_Proof HpOnce_Proof HpSafe_Proof HpEnd_Proof HpClient_Model.
Import ListNotations.
Local Arguments upd : simpl never.
Local Arguments Nat.eqb : simpl never.

(** ** Steps of one thread and the records of another *)
Lemma step_keep : forall c s t a s' ev, IA s -> step c s (t, a) = Some (s', ev) -> reent c = false ->
  forall r u, own s r = Some u -> u <> t -> own s' r = Some u /\ forall i, forallb (fun e => keeps e r i) ev = true.
Proof.
  intros c s t a s' ev A H Hr r u O NE.
  assert (R0 : r <> 0) by (intros ->; destruct (a_own s A _ _ O) as [X _]; rewrite (a_z s A) in X; discriminate).
  assert (K0 : forall x, own s x = Some t \/ own s x = None \/ rfree s x = true -> Nat.eqb x r = false).
  { intros x X. apply Nat.eqb_neq. intros ->. rewrite O in X. destruct X as [X|[X|X]]; try congruence. destruct (a_own s A _ _ O). congruence. }
  assert (K1 : forall x, own s x = Some t \/ own s x = None \/ rfree s x = true -> forall v, upd (own s) x v r = Some u).
  { intros x X v. apply K0 in X. apply Nat.eqb_neq in X. rewrite upd_other; auto. }
  assert (K2 : forall x y, own s x = Some t -> Nat.eqb x r && y = false) by (intros x y X; rewrite K0; auto).
  unfold step in H. destruct a.
  1: { unfold tick in H. pose proof (a_use s A t) as U. pose proof (a_clm s A t) as CL.
       destruct (pcs s t) eqn:P; try discriminate; cbn [uses claim] in U, CL; try specialize (U _ eq_refl); try specialize (CL _ eq_refl);
       repeat match type of H with context [if ?b then _ else _] => destruct b eqn:? end;
       injection H as <- <-; cbn; (split; [auto|]); intros; cbn; rewrite ?K0, ?K2 by tauto; auto;
       try (apply K1; tauto);
       (destruct (Nat.eqb 0 r) eqn:Z; [apply Nat.eqb_eq in Z; congruence|reflexivity]). }
  11: { unfold nest in H. rewrite Hr in H. destruct (pcs s t); discriminate. }
  all: destruct (pcs s t) eqn:P; try discriminate; cbn [call] in H;
    repeat match type of H with (if ?b then _ else _) = _ => destruct b eqn:? end; try discriminate;
    injection H as <- <-; cbn; repeat match goal with X : (_ && _) = true |- _ => apply andb_true_iff in X; destruct X end;
    try match goal with X : mine _ _ _ = true |- _ => apply mine_own in X end;
    (split; [try (apply K1; tauto); auto|]); intros; cbn; rewrite ?K0, ?K2 by tauto; auto.
Qed.

(** ** The invariant *)
Definition pts (g : gs) : list nat := map q_p (g_out g).
Record CI (c : cfg) (s : cst) (g : gs) : Prop := {
  i_hi : HI c (hps s) g;
  i_out : forall x, In x (g_out g) -> obj s (q_h x) = q_p x /\ lf s (q_p x) = Retd /\ q_p x <> 0;
  i_nd : NoDup (pts g);
  i_pr : forall r i p, g_slot g r i = Some p -> g_prot g r i = true \/ In p (pts g) }.
(** slot [i] of record [r] of thread [t] holds [p] *)
Definition pub (s : cst) (g : gs) (t r i p : nat) : Prop := own (hps s) r = Some t /\ g_slot g r i = Some p.
(** and protects it *)
Definition hold (s : cst) (g : gs) (t r i p : nat) : Prop := pub s g t r i p /\ g_prot g r i = true.

Lemma CI_init : forall c, CI c cinit gs0.
Proof. intros. constructor; cbn; try tauto; try discriminate; [apply HI_init|constructor]. Qed.

Lemma hold_live : forall c s g t r i p, CI c s g -> pub s g t r i p -> lf s p <> Retd -> hold s g t r i p.
Proof.
  intros c s g t r i p I [O S] L. split; [split; auto|]. destruct (i_pr c s g I _ _ _ S) as [P|P]; auto.
  exfalso. apply in_map_iff in P. destruct P as [x [X1 X2]]. subst p. destruct (i_out c s g I x X2). tauto.
Qed.

Lemma pts_prot : forall g e r i p, g_slot (gnext g e) r i = Some p -> g_prot (gnext g e) r i = true \/ In p (pts (gnext g e)).
Proof.
  intros g e r i p S. destruct (retired (g_out (gnext g e)) p) eqn:R.
  - right. unfold retired in R. apply existsb_exists in R. destruct R as [x [X1 X2]]. apply Nat.eqb_eq in X2. apply in_map_iff. eauto.
  - left. eapply prot_now; eauto.
Qed.

(** steps emit at most one event *)
Lemma step_ev1 : forall c s l s' ev, step c s l = Some (s', ev) -> ev = [] \/ exists e, ev = [e].
Proof.
  intros c s [t a] s' ev H. unfold step in H. destruct a; unfold tick, nest, call in H; destruct (pcs s t); try discriminate;
    repeat match type of H with context [if ?b then _ else _] => destruct b end; try discriminate; injection H as <- <-; eauto.
Qed.

(** only a call of retire or free logs a retirement *)
Lemma step_ret : forall c s t a s' ev u r h d p, reent c = false -> step c s (t, a) = Some (s', ev) -> In (ERet u r h d p) ev -> u = t /\ (a = ARetire r h d p \/ a = AFree r h d p) /\ ev = [ERet t r h d p].
Proof.
  intros c s t a s' ev u r h d p Hr H E. unfold step in H. destruct a; unfold tick, nest, call in H; destruct (pcs s t); try discriminate;
    repeat match type of H with context [if ?b then _ else _] => destruct b eqn:? end; try discriminate; injection H as <- <-; cbn in E; try tauto;
    try (destruct E as [E|[]]; try discriminate; injection E as <- <- <- <- <-; auto).
  all: exfalso; rewrite Hr in *; discriminate.
Qed.
Lemma step_ret2 : forall c s t a s' ev r h d p, a = ARetire r h d p \/ a = AFree r h d p -> step c s (t, a) = Some (s', ev) -> ev = [ERet t r h d p].
Proof.
  intros c s t a s' ev r h d p [->| ->] H; unfold step, call in H; destruct (pcs s t); try discriminate;
    match type of H with context [if ?b then _ else _] => destruct b end; try discriminate; injection H as <- <-; auto.
Qed.

Lemma sub_out : forall g e, (forall t r h d p, e <> ERet t r h d p) -> forall x, In x (g_out (gnext g e)) -> In x (g_out g).
Proof. intros g e N x X. destruct e; cbn in X; auto; try (apply filter_In in X; tauto). exfalso. eapply N; eauto. Qed.
Lemma sub_nd : forall g e, (forall t r h d p, e <> ERet t r h d p) -> NoDup (pts g) -> NoDup (pts (gnext g e)).
Proof.
  intros g e N H. unfold pts in *. destruct e; cbn; auto; try (exfalso; eapply N; eauto; fail);
  revert H; induction (g_out g) as [|y l IH]; cbn; intros H; auto; inversion H; subst;
    (match goal with |- context [if ?b then _ else _] => destruct b end; cbn; auto; constructor; auto;
     intros X; apply in_map_iff in X; destruct X as [z [Z1 Z2]]; apply filter_In in Z2; destruct Z2; match goal with Y : ~ In _ _ |- _ => apply Y end; apply in_map_iff; eauto).
Qed.

(** what a step of the client may do to the lives *)
Definition lives (s s' : cst) (g : gs) : Prop :=
  forall p, lf s' p = lf s p \/
            (retirable (lf s p) = true /\ lf s' p = Retd) \/
            (lf s p = Retd /\ lf s' p = Own /\ p <> 0 /\ forall u r i, ~ hold s g u r i p).

Lemma nd_pts : forall (l : list ret) x y, NoDup (map q_p l) -> In x l -> In y l -> q_p x = q_p y -> x = y.
Proof.
  induction l as [|z l IH]; cbn; intros x y N X Y E; [tauto|]. inversion N; subst.
  destruct X as [->|X], Y as [->|Y]; auto; exfalso; match goal with Z : ~ In _ _ |- _ => apply Z end; apply in_map_iff; eauto.
Qed.

Lemma client_ok : forall c, reent c = false -> forall s g t a s' ev, CI c s g -> client c s t a = Some (s', ev) ->
  CI c s' (gf ev g) /\ lives s s' g /\
  (forall u r i p, u <> t -> pub s g u r i p -> pub s' (gf ev g) u r i p) /\
  (forall u r i p, u <> t -> hold s g u r i p -> hold s' (gf ev g) u r i p).
Proof.
  intros c Hr s g t a s' ev I H.
  assert (E : exists L ob h, s' = mkc h (landed ob L ev) ob /\ step c (hps s) (t, a) = Some (h, ev) /\
    ((L = lf s /\ ob = obj s /\ (forall r k d p, a <> ARetire r k d p /\ a <> AFree r k d p)) \/
     (exists r k d p, (a = ARetire r k d p \/ a = AFree r k d p) /\ p <> 0 /\ retirable (lf s p) = true /\ L = upd (lf s) p Retd /\ ob = upd (obj s) k p))).
  { unfold client in H. destruct a; try discriminate;
      try (destruct (step c (hps s) (t, _)) as [[h e]|] eqn:E; try discriminate; injection H as <- <-; do 3 eexists; split; [reflexivity|]; split; [reflexivity|];
           left; repeat split; auto; discriminate);
      (destruct (negb (p =? 0) && retirable (lf s p)) eqn:G; try discriminate; destruct (step c (hps s) (t, _)) as [[h' e]|] eqn:E; try discriminate; injection H as <- <-;
       do 3 eexists; split; [reflexivity|]; split; [reflexivity|]; right; apply andb_true_iff in G; destruct G as [G1 G2]; apply negb_true_iff, Nat.eqb_neq in G1;
       do 4 eexists; repeat split; eauto). }
  clear H. destruct E as [L [ob [h [-> [H D]]]]]. destruct I as [HI0 IO ND IP].
  destruct (HI_step c Hr _ _ _ _ _ HI0 H) as [LG HI1].
  assert (KP : forall r u, own (hps s) r = Some u -> u <> t -> own h r = Some u /\ forall i, forallb (fun e => keeps e r i) ev = true)
    by (intros; eapply step_keep; eauto; apply HI0).
  assert (PB : forall u r i p, u <> t -> pub s g u r i p -> pub (mkc h (landed ob L ev) ob) (gf ev g) u r i p).
  { intros u r i p N [O S]. destruct (KP _ _ O N) as [O' K]. split; auto. apply keeps_slots; auto. }
  assert (HB : forall u r i p, u <> t -> hold s g u r i p -> hold (mkc h (landed ob L ev) ob) (gf ev g) u r i p).
  { intros u r i p N [P Q]. split; [apply PB; auto|]. destruct P as [O S]. destruct (KP _ _ O N) as [O' K]. eapply keeps_prot; eauto. }
  assert (PR : forall r i p, g_slot (gf ev g) r i = Some p -> g_prot (gf ev g) r i = true \/ In p (pts (gf ev g))).
  { destruct (step_ev1 _ _ _ _ _ H) as [->|[e ->]]; [apply IP|]. intros r i p. apply pts_prot. }
  split; [|split; [|split; [exact PB|exact HB]]].
  - constructor; auto; cbn [hps lf obj].
    + destruct D as [[-> [-> DN]]|[r [k [d [p [DA [P0 [RT [-> ->]]]]]]]]].
      * destruct (step_ev1 _ _ _ _ _ H) as [->|[e ->]]; [exact IO|].
        assert (NR : forall u r k d p, e <> ERet u r k d p).
        { intros u r k d p ->. destruct (step_ret c (hps s) t a h _ u r k d p Hr H (or_introl eq_refl)) as [_ [[->| ->] _]]; destruct (DN r k d p); congruence. }
        intros x X. change (gf [e] g) with (gnext g e) in X. pose proof (sub_out g e NR x X) as X0. destruct (IO x X0) as [A [B C]]. split; auto. split; auto.
        destruct e; cbn [landed fold_left]; auto.
        assert (q_p x <> obj s h0); [|rewrite upd_other; auto].
        destruct LG as [[_ [[y0 Y] _]] _]. destruct (IO _ Y) as [Y1 _]. intros Q.
        assert (x = (r, h0, d, y0)) as ->. { apply (nd_pts (g_out g)); auto. rewrite Q. exact Y1. }
        cbn in X. apply filter_In in X. destruct X as [_ X]. cbn in X. rewrite Nat.eqb_refl in X. discriminate.
      * pose proof (step_ret2 _ _ _ _ _ _ _ _ _ _ DA H) as ->. cbn [landed fold_left gf gfold]. destruct LG as [[_ [_ [_ NK]]] _].
        intros x [<-|X]; [cbn; rewrite !upd_same; auto|]. destruct (IO x X) as [A [B C]].
        assert (q_h x <> k) by (intros <-; apply NK; apply in_map; auto).
        assert (q_p x <> p) by (intros <-; rewrite B in RT; discriminate). rewrite !upd_other; auto.
    + destruct D as [[-> [-> DN]]|[r [k [d [p [DA [P0 [RT [-> ->]]]]]]]]].
      * destruct (step_ev1 _ _ _ _ _ H) as [->|[e ->]]; [exact ND|]. apply sub_nd; auto.
        intros u r k d p ->. destruct (step_ret c (hps s) t a h _ u r k d p Hr H (or_introl eq_refl)) as [_ [[->| ->] _]]; destruct (DN r k d p); congruence.
      * pose proof (step_ret2 _ _ _ _ _ _ _ _ _ _ DA H) as ->. constructor; auto. cbn. intros X. apply in_map_iff in X. destruct X as [x [X1 X2]].
        destruct (IO x X2) as [A [B C]]. rewrite X1 in B. rewrite B in RT. discriminate.
  - intros p. cbn [lf]. destruct D as [[-> [-> DN]]|[r [k [d [p0 [DA [P0 [RT [-> ->]]]]]]]]].
    + destruct (step_ev1 _ _ _ _ _ H) as [->|[e ->]]; [auto|]. destruct e; cbn [landed fold_left]; auto.
      unfold upd. destruct (Nat.eq_dec p (obj s h0)) as [->|]; auto. right. right.
      destruct LG as [[SF [[y0 Y] _]] _]. destruct (IO _ Y) as [Y1 [Y2 Y3]]. cbn in Y1, Y2, Y3. rewrite Y1. repeat split; auto.
      intros u r' i [[O S] P]. apply (SF r' i y0); auto.
    + pose proof (step_ret2 _ _ _ _ _ _ _ _ _ _ DA H) as ->. cbn [landed fold_left]. unfold upd. destruct (Nat.eq_dec p p0) as [->|]; auto.
Qed.

(** ** Slots *)
Lemma set_ok : forall c, reent c = false -> forall s g t r i p s' ev, CI c s g -> client c s t (ASet r i p) = Some (s', ev) ->
  CI c s' (gf ev g) /\ lf s' = lf s /\ ev = [ESet t r i p] /\ pub s' (gf ev g) t r i p /\ pcs (hps s') = pcs (hps s) /\
  (forall u r' j q, (u <> t \/ r' <> r \/ j <> i) -> pub s g u r' j q -> pub s' (gf ev g) u r' j q) /\
  (forall u r' j q, (u <> t \/ r' <> r \/ j <> i) -> hold s g u r' j q -> hold s' (gf ev g) u r' j q).
Proof.
  intros c Hr s g t r i p s' ev I H. destruct (client_ok c Hr _ _ _ _ _ _ I H) as [I' _]. split; auto. clear I'.
  cbn [client] in H. destruct (step c (hps s) (t, ASet r i p)) as [[h e]|] eqn:E; try discriminate. injection H as <- <-.
  unfold step, call in E. destruct (pcs (hps s) t); try discriminate. destruct (mine (hps s) t r && (i <? deg c)) eqn:M; try discriminate.
  injection E as <- <-. apply andb_true_iff in M. destruct M as [M _]. apply mine_own in M.
  assert (KP : forall u r' j, (u <> t \/ r' <> r \/ j <> i) -> own (hps s) r' = Some u -> forallb (fun e => keeps e r' j) [ESet t r i p] = true).
  { intros u r' j N O. cbn. destruct (Nat.eqb r r') eqn:A; cbn; auto. apply Nat.eqb_eq in A. subst r'. destruct (Nat.eqb i j) eqn:B; auto. apply Nat.eqb_eq in B. subst j. exfalso. intuition congruence. }
  split; [reflexivity|]. split; [reflexivity|]. split; [|split; [reflexivity|]].
  { split; [exact M|]. cbn. rewrite !upd_same. auto. }
  split.
  - intros u r' j q N [O S]. split; [exact O|]. apply keeps_slots; auto. eapply KP; eauto.
  - intros u r' j q N [[O S] P]. split; [split; [exact O|]|]. { apply keeps_slots; auto. eapply KP; eauto. } eapply keeps_prot; eauto.
Qed.

(** ** The structure takes entries and hands them back *)
Lemma life_ok : forall c s g e l, CI c s g -> lf s e <> Retd -> CI c (set_lf s e l) g.
Proof.
  intros c s g e l [A B C D] N. constructor; auto. cbn [set_lf lf obj hps]. intros x X. destruct (B x X) as [X1 [X2 X3]]. split; auto. split; auto.
  rewrite upd_other; auto. intros <-. tauto.
Qed.
Lemma lives_keep : forall s s' g p u r i, lives s s' g -> hold s g u r i p -> lf s p <> Own -> lf s' p <> Own.
Proof.
  intros s s' g p u r i L H N. destruct (L p) as [E|[[E1 E2]|[E1 [E2 [_ E3]]]]]; try congruence. exfalso. eapply E3; eauto.
Qed.
Lemma lives_lib : forall s s' g p, lives s s' g -> lf s p = Lib -> lf s' p = Lib.
Proof. intros s s' g p L E. destruct (L p) as [X|[[X Y]|[X Y]]]; try congruence. rewrite E in X. discriminate. Qed.
Lemma lives_tolib : forall s s' g p, lives s s' g -> lf s' p = Lib -> lf s p = Lib.
Proof. intros s s' g p L E. destruct (L p) as [X|[[X Y]|[X [Y _]]]]; congruence. Qed.
