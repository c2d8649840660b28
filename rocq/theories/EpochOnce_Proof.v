(** * Epoch model: no deferred callback is lost, barrier, pending counter *)
From Coq Require Import List Arith NArith Bool Lia.
From Verif Require Import Lib RingMp_Proof Epoch_Model Epoch_Spec Epoch_Proof EpochSync_Proof EpochOwn_Proof EpochPlace_Proof.
Import ListNotations.
Local Open Scope nat_scope.
Local Arguments N.add : simpl never. Local Arguments N.sub : simpl never. Local Arguments N.modulo : simpl never.
Local Arguments N.eqb : simpl never. Local Arguments N.leb : simpl never. Local Arguments N.ltb : simpl never.
Local Arguments Nat.modulo : simpl never. Local Arguments Nat.ltb : simpl never.
Local Arguments upd : simpl never. Local Arguments N.to_nat : simpl never.

Definition isN (p : pc) : Prop := p = N1 \/ p = N2.

Lemma isN_sn : forall k d af rest, ~ isN (snext k d af rest).
Proof. intros. unfold isN, snext, sdone. destruct rest; [destruct k, af|]; intuition discriminate. Qed.
Lemma isN_sf : forall k d rest, ~ isN (sfound k d rest).
Proof. intros. unfold isN. destruct k; intuition discriminate. Qed.
Lemma isN_dn : forall r n bs k, ~ isN (dnext r n bs k).
Proof. intros. unfold isN, dnext. destruct bs, k; intuition discriminate. Qed.
Lemma isN_dc : forall r n bs k, ~ isN (dcount r n bs k).
Proof. intros. unfold dcount. destruct n; [apply isN_dn|unfold isN; intuition discriminate]. Qed.

Lemma step_own_other : forall c s l s' ev u, step c s l = Some (s', ev) -> u <> lthr l -> own s' u = own s u.
Proof.
  intros c s l s' ev u H N. destruct l as [t o|t]; cbn [step lthr] in *.
  - destruct (thr s t) eqn:Et; try discriminate. destruct o; cbn [call] in H; cbv zeta in H;
      break H; injection H as <- <-; fc; rewrite ?upd_other by auto; auto.
  - unfold tick, entered in H. cbv zeta in H. destruct (thr s t) eqn:Et; try discriminate H; break H; injection H as <- <-; fc; rewrite ?upd_other by auto; auto.
Qed.
Lemma step_recs : forall c s l s' ev, step c s l = Some (s', ev) -> recs s' = recs s \/ recs s' = length (recs s) :: recs s.
Proof.
  intros c s l s' ev H. destruct l as [t o|t]; cbn [step lthr] in *.
  - destruct (thr s t) eqn:Et; try discriminate. destruct o; cbn [call] in H; cbv zeta in H;
      break H; injection H as <- <-; fc; auto.
  - unfold tick, entered in H. cbv zeta in H. destruct (thr s t) eqn:Et; try discriminate H; break H; injection H as <- <-; fc; auto.
Qed.
(** how a thread comes to be unregistering *)
Lemma step_n : forall c s l s' ev r, step c s l = Some (s', ev) -> isN (thr s' (lthr l)) -> own s' (lthr l) = Some r ->
  (may_unregister s (lthr l) r = true /\ forall q b, rp s' q b = rp s q b) \/ (thr s (lthr l) = N1 /\ own s (lthr l) = Some r /\ forall b, rp s' r b = []).
Proof.
  intros c s l s' ev r H X Y. destruct l as [t o|t]; cbn [step lthr] in *.
  - destruct (thr s t) eqn:Et; try discriminate. destruct o; cbn [call] in H; cbv zeta in H;
      break H; injection H as <- <-; fc; rewrite ?upd_same in X; try (rewrite ?Et in X; destruct X; discriminate).
    left. split; auto. congruence.
  - unfold tick, entered in H. cbv zeta in H. destruct (thr s t) eqn:Et; try discriminate H; break H; injection H as <- <-; fc; rewrite ?upd_same in X;
      try (destruct X; discriminate);
      try (repeat match goal with X : context [if ?b then _ else _] |- _ => destruct b end; destruct X; discriminate);
      try (exfalso; apply isN_sn in X; auto; fail); try (exfalso; apply isN_sf in X; auto; fail); try (exfalso; apply isN_dn in X; auto; fail); try (exfalso; apply isN_dc in X; auto; fail).
    + right. split; auto. assert (Z : n = r) by congruence. subst n. split; auto. intros b. unfold rp. fc. rewrite upd_same. auto.
    + exfalso. destruct (rfree (rc s n)); [apply isN_sn in X; auto|destruct X; discriminate].
    + exfalso. destruct (ract (rc s n)); [apply isN_sn in X; auto|destruct X; discriminate].
    + exfalso. destruct (_ =? _)%N; [apply isN_sn in X; auto|apply isN_sf in X; auto].
Qed.

(** ** No callback is lost *)
Record IL (s : st) (g : gs) : Prop := {
  l_at : forall x r, In (x, r) (g_pend g) -> exists p, at_ s x r p;
  l_em : forall t r b, isN (thr s t) -> own s t = Some r -> rp s r b = [];
  l_4 : forall r b, 4 <= b -> rp s r b = [];
  l_fr : forall x r, In (x, r) (g_pend g) -> In r (recs s) }.

Lemma IL_init : IL init gs0.
Proof. constructor; cbn; intros; try contradiction; auto. Qed.

Lemma slot_lt : forall e, slot e < 4.
Proof. intros e. unfold slot. pose proof (N.mod_lt e 4 ltac:(lia)). lia. Qed.

Lemma usable_in : forall s r, usable s r = true -> In r (recs s).
Proof. intros s r H. unfold usable in H. apply andb_true_iff in H. apply existsb_in. tauto. Qed.

Lemma rp_fresh : forall s g b, IW s -> IP s g -> IL s g -> rp s (length (recs s)) b = [].
Proof.
  intros s g b Wf P L. destruct (rp s (length (recs s)) b) as [|x l] eqn:E; auto. exfalso.
  assert (X : at_ s x (length (recs s)) (PPend (length (recs s)) b)) by (cbn; split; auto; rewrite E; left; auto).
  apply (p_in _ _ P) in X. apply (l_fr _ _ L) in X. apply (w_len _ Wf) in X. lia.
Qed.

Lemma pol_N : forall s t r, isN (thr s t) -> own s t = Some r -> pol s t = Some r.
Proof. intros s t r [E|E] O; unfold pol; rewrite E; auto. Qed.

Lemma IL_step : forall c s l s' ev g, c_excl c = true -> IW s -> IE s -> IP s g -> IL s g -> step c s l = Some (s', ev) -> IL s' (gfold ev g).
Proof.
  intros c s l s' ev g Hx Wf E P L H.
  assert (M : moves s s' (lthr l)) by (intros u N; eapply step_thr; eauto).
  pose proof (step_recs _ _ _ _ _ H) as HR.
  assert (HI : forall r, In r (recs s) -> In r (recs s')) by (intros r X; destruct HR as [->| ->]; auto; right; auto).
  pose proof (step_pd _ _ _ _ _ H) as D.
  assert (NC : forall t r u x, isN (thr s t) -> own s t = Some r -> callp (thr s u) <> Some (r, x)).
  { intros t r u x X Y Z. pose proof (e_p _ E _ _ (pol_N _ _ _ X Y)) as B. apply (e_x _ E) in B. apply (e_c _ E) in Z. rewrite B in Z. contradiction. }
  assert (EM : forall t r b, isN (thr s' t) -> own s' t = Some r -> rp s' r b = []).
  { intros t r b X Y. destruct (Nat.eq_dec t (lthr l)) as [->|N].
    - destruct (step_n _ _ _ _ _ _ H X Y) as [[Z Q]|[_ [_ Z]]]; auto. rewrite Q. apply may_unreg in Z. destruct (Nat.lt_ge_cases b 4); [apply Z; auto|apply (l_4 _ _ L); auto].
    - rewrite (M t N) in X. rewrite (step_own_other _ _ _ _ _ _ H N) in Y. pose proof (l_em _ _ L _ _ b X Y) as Z.
      destruct D as [Dr _ _ _ _|b' q _ _ _ Dr _ _|b' q x e Dt _ Dr _ _|q b' bs k _ _ Dr _ _|q x l' n bs k _ _ Dr _ _|q _ Dr _ _ _ _ _ _]; rewrite Dr; auto.
      + destruct (Nat.eq_dec r q) as [->|]; auto. exfalso. apply (NC t q (lthr l) x); auto. rewrite Dt. auto.
      + destruct (Nat.eq_dec r q) as [->|]; auto. destruct (Nat.eq_dec b b'); auto.
      + destruct (Nat.eq_dec r q) as [->|]; auto. }
  assert (R4 : forall r b, 4 <= b -> rp s' r b = []).
  { intros r b X. pose proof (l_4 _ _ L r b X) as Z.
    destruct D as [Dr _ _ _ _|b' q _ _ _ Dr _ _|b' q x e Dt _ Dr _ _|q b' bs k _ _ Dr _ _|q x l' n bs k _ _ Dr _ _|q _ Dr _ _ _ _ _ _]; rewrite Dr; auto.
    + destruct (Nat.eq_dec r q) as [->|]; auto. destruct (Nat.eq_dec b (slot e)) as [->|]; auto. pose proof (slot_lt e). lia.
    + destruct (Nat.eq_dec r q) as [->|]; auto. destruct (Nat.eq_dec b b'); auto.
    + destruct (Nat.eq_dec r q) as [->|]; auto. }
  constructor; auto.
  - (* l_at *)
    intros x r X. destruct D as [Dr Dc Dd Dn De|b q Dt Dt' Dn Dr Dm De|b q y e Dt Dt' Dr Dn De|q b bs k Dt Dt' Dr Dn De|q y l' n bs k Dt Dt' Dr Dn De|q Dw Dr Dc Dc' Dd Dd' Dn De].
    + rewrite gpend_keep in X by auto. destruct (l_at _ _ L _ _ X) as [p Q]. exists p. destruct p as [u|q b|u]; cbn in *; rewrite ?Dr; auto;
        destruct (Nat.eq_dec u (lthr l)) as [->|N]; rewrite ?Dc, ?Dd, ?(M u N); auto.
    + subst ev. cbn in X. destruct X as [X|X]; [injection X as <- <-; exists (PCall (lthr l)); cbn; rewrite Dt'; auto|].
      destruct (l_at _ _ L _ _ X) as [p Q]. exists p. destruct p as [u|q' b'|u]; cbn in *; rewrite ?Dr; auto;
        destruct (Nat.eq_dec u (lthr l)) as [->|N]; rewrite ?(M u N); auto; rewrite Dt in Q; cbn in Q; [discriminate|contradiction].
    + subst ev. cbn in X. destruct (l_at _ _ L _ _ X) as [p Q]. destruct p as [u|q' b'|u].
      * destruct (Nat.eq_dec u (lthr l)) as [->|N]; [|exists (PCall u); cbn in *; rewrite (M u N); auto].
        cbn in Q. rewrite Dt in Q. cbn in Q. injection Q as <- <-. exists (PPend q (slot e)). cbn. split; auto. rewrite Dr.
        destruct (Nat.eq_dec q q); [|congruence]. destruct (Nat.eq_dec (slot e) (slot e)); [|congruence]. left; auto.
      * exists (PPend q' b'). cbn in *. destruct Q as [-> Q]. split; auto. rewrite Dr. destruct (Nat.eq_dec q' q) as [->|]; auto. destruct (Nat.eq_dec b' (slot e)) as [->|]; auto. right; auto.
      * exists (PDisp u). cbn in *. destruct (Nat.eq_dec u (lthr l)) as [->|N]; rewrite ?(M u N); auto. rewrite Dt in Q. contradiction.
    + subst ev. cbn in X. destruct (l_at _ _ L _ _ X) as [p Q]. destruct p as [u|q' b'|u].
      * exists (PCall u). cbn in *. destruct (Nat.eq_dec u (lthr l)) as [->|N]; rewrite ?(M u N); auto. rewrite Dt in Q. discriminate.
      * cbn in Q. destruct Q as [-> Q]. destruct (Nat.eq_dec q' q) as [->|N]; [destruct (Nat.eq_dec b' b) as [->|N]|].
        -- exists (PDisp (lthr l)). cbn. rewrite Dt'. cbn. apply in_map_iff. eauto.
        -- exists (PPend q b'). cbn. split; auto. rewrite Dr. destruct (Nat.eq_dec q q); [|congruence]. destruct (Nat.eq_dec b' b); [congruence|auto].
        -- exists (PPend q' b'). cbn. split; auto. rewrite Dr. destruct (Nat.eq_dec q' q); [congruence|auto].
      * exists (PDisp u). cbn in *. destruct (Nat.eq_dec u (lthr l)) as [->|N]; rewrite ?(M u N); auto. rewrite Dt in Q. contradiction.
    + subst ev. cbn in X. apply filter_In in X. destruct X as [X Y]. cbn in Y. apply negb_true_iff in Y. apply Nat.eqb_neq in Y.
      destruct (l_at _ _ L _ _ X) as [p Q]. exists p. destruct p as [u|q' b'|u]; cbn in *; rewrite ?Dr; auto;
        destruct (Nat.eq_dec u (lthr l)) as [->|N]; rewrite ?(M u N); auto; rewrite Dt in Q; rewrite Dt'; cbn in *; auto.
      destruct Q as [Q|Q]; auto. congruence.
    + subst ev. cbn in X. destruct (l_at _ _ L _ _ X) as [p Q].
      assert (Z : forall b, rp s q b = []). { destruct Dw as [[Dw Do]| ->]; intros b; [apply (l_em _ _ L (lthr l)); [left; auto|auto]|eapply rp_fresh; eauto]. }
      exists p. destruct p as [u|q' b'|u]; cbn in *; rewrite ?Dr.
      * destruct (Nat.eq_dec u (lthr l)) as [->|N]; rewrite ?(M u N); auto; congruence.
      * destruct (Nat.eq_dec q' q) as [->|]; auto. rewrite Z in Q. auto.
      * destruct (Nat.eq_dec u (lthr l)) as [->|N]; rewrite ?(M u N); auto. rewrite Dd in Q. contradiction.
  - (* l_fr *)
    intros x r X. apply HI. destruct D as [Dr Dc Dd Dn De|b q Dt Dt' Dn Dr Dm De|b q y e Dt Dt' Dr Dn De|q b bs k Dt Dt' Dr Dn De|q y l' n bs k Dt Dt' Dr Dn De|q Dw Dr Dc Dc' Dd Dd' Dn De];
      try (subst ev; cbn in X; eapply (l_fr _ _ L); eauto; fail).
    + rewrite gpend_keep in X by auto. eapply (l_fr _ _ L); eauto.
    + subst ev. cbn in X. destruct X as [X|X]; [|eapply (l_fr _ _ L); eauto]. injection X as <- <-. apply may_call_excl in Dm; auto. apply usable_in. tauto.
    + subst ev. cbn in X. apply filter_In in X. eapply (l_fr _ _ L); apply X.
Qed.

(** ** Barrier *)
(** record, buckets still to be dispatched, callbacks popped and not yet run *)
Definition kbset (k : skd) : option (nat * list nat * list nat) := match k with KS (Some r) _ _ => Some (r, [0; 1; 2; 3], []) | _ => None end.
Definition bset (p : pc) : option (nat * list nat * list nat) :=
  match p with
  | Y1 (Some r) | Y4 (Some r) _ _ _ _ | YC (Some r) _ _ _ | YL (Some r) => Some (r, [0; 1; 2; 3], [])
  | S0 k _ | Sc k _ _ _ | Sa k _ _ _ | Sr k _ _ => kbset k
  | D0 r bs KBar | DN r _ _ bs KBar | DP r _ _ _ bs KBar | DA r _ bs KBar | DS r _ bs KBar => Some (r, bs, [])
  | DR r l _ bs KBar => Some (r, bs, l)
  | PB r => Some (r, [], [])
  | _ => None
  end.
Definition bar_ok (g : gs) (e : event) : bool :=
  match e with EBarred t r => forallb (fun x => negb (pending g x)) (g_bar g t) | _ => true end.

Lemma bset_sn : forall k d af rest, bset (snext k d af rest) = kbset k.
Proof. intros. unfold snext, sdone. destruct rest; [destruct k as [|[|] ]; destruct af|]; auto. Qed.
Lemma bset_sf : forall k d rest, bset (sfound k d rest) = kbset k.
Proof. intros. destruct k as [|[|] ]; auto. Qed.
Lemma bset_dn : forall r n bs k, bset (dnext r n bs k) = match k with KBar => Some (r, bs, []) | _ => None end.
Proof. intros. unfold dnext. destruct bs, k; auto. Qed.
Lemma bset_dc : forall r n bs k, bset (dcount r n bs k) = match k with KBar => Some (r, bs, []) | _ => None end.
Proof. intros. unfold dcount. destruct n; [apply bset_dn|]. destruct k; auto. Qed.

Lemma bset_pol : forall s t r bs l, bset (thr s t) = Some (r, bs, l) -> pol s t = Some r.
Proof.
  intros s t r bs l H. unfold pol. destruct (thr s t); cbn in *; try discriminate; try (destruct k as [|[|] ]); try (destruct k); try (destruct b); cbn in *; try discriminate; congruence.
Qed.

(** how the barrier of the stepping thread goes on *)
Lemma step_bset : forall c s l s' ev r bs m, step c s l = Some (s', ev) -> bset (thr s' (lthr l)) = Some (r, bs, m) ->
  (bset (thr s (lthr l)) = Some (r, bs, m) /\ (forall q b, rp s' q b = rp s q b) /\ forallb nopend ev = true) \/
  (exists b k, thr s (lthr l) = D0 r (b :: bs) k /\ m = rp s r b /\ k = KBar /\ forall j, j <> b -> rp s' r j = rp s r j) \/
  (exists x n k, thr s (lthr l) = DR r (x :: m) n bs k /\ ev = [ERun x] /\ k = KBar /\ forall j, rp s' r j = rp s r j) \/
  (may_poll c s r = true /\ ev = [EBar (lthr l) r; ESync (lthr l)] /\ bs = [0; 1; 2; 3] /\ m = [] /\ forall q b, rp s' q b = rp s q b).
Proof.
  intros c s l s' ev r bs m H X. pose proof (step_pd _ _ _ _ _ H) as D. destruct l as [t o|t]; cbn [step lthr] in *.
  - destruct (thr s t) eqn:Et; try discriminate. destruct o; cbn [call] in H; cbv zeta in H;
      break H; injection H as <- <-; fc; rewrite ?upd_same, ?Et in X; try discriminate X.
    cbn in X. injection X as <- <- <-. do 3 right. auto.
  - unfold tick, entered in H. cbv zeta in H. destruct (thr s t) eqn:Et; try discriminate H; break H; injection H as <- <-; fc; rewrite ?upd_same in X;
      rewrite ?bset_sn, ?bset_sf, ?bset_dn, ?bset_dc in X; try discriminate X.
    all: try (destruct (rfree (rc s _)); rewrite ?bset_sn, ?bset_sf in X; try discriminate X).
    all: try (destruct (ract (rc s _)); rewrite ?bset_sn, ?bset_sf in X; try discriminate X).
    all: try (destruct (rrep _ =? _)%N; rewrite ?bset_sn, ?bset_sf in X; try discriminate X).
    all: try (destruct (S i <? 2); try discriminate X).
    all: try (left; split; [first [exact X|destruct b; [exact X|discriminate X]|destruct k; first [exact X|discriminate X] ]|split; [intros q j; unfold rp; fc; rewrite ?updE; try (destruct (Nat.eq_dec q _) as [->|]; fc; auto); auto|auto] ]; fail).
    + right. left. destruct k; try discriminate. cbn in X. injection X as <- <- <-. do 2 eexists. repeat (split; eauto). intros j N. unfold rp. fc. rewrite upd_same. fc. rewrite upd_other; auto.
    + right. right. left. destruct k; try discriminate. cbn in X. injection X as <- <- <-. eauto 8.
Qed.
Record IB (s : st) (g : gs) : Prop := {
  b_in : forall t r bs l x, bset (thr s t) = Some (r, bs, l) -> In x (g_bar g t) -> (exists q, In (x, q) (g_pend g)) ->
         In x l \/ exists b, In b bs /\ In x (rp s r b);
  b_lt : forall t x, In x (g_bar g t) -> x < nent s }.
Lemma IB_init : IB init gs0.
Proof. constructor; cbn; intros; try contradiction; discriminate. Qed.

Lemma gbar_step : forall c s l s' ev g u, step c s l = Some (s', ev) -> u <> lthr l -> g_bar (gfold ev g) u = g_bar g u.
Proof.
  intros c s l s' ev g u H N. destruct l as [t o|t]; cbn [step lthr] in *.
  - destruct (thr s t) eqn:Et; try discriminate. destruct o; cbn [call] in H; cbv zeta in H;
      try discriminate H; break H; injection H as <- <-; cbn; rewrite ?upd_other by auto; auto.
  - unfold tick, entered in H. cbv zeta in H. destruct (thr s t) eqn:Et; try discriminate H; break H; injection H as <- <-; cbn; auto.
Qed.
Lemma gbar_tick : forall c s l s' ev g, step c s l = Some (s', ev) -> thr s (lthr l) <> Idle -> g_bar (gfold ev g) = g_bar g.
Proof.
  intros c s l s' ev g H X. destruct l as [t o|t]; cbn [step lthr] in *.
  - destruct (thr s t) eqn:Et; try discriminate. congruence.
  - unfold tick, entered in H. cbv zeta in H. destruct (thr s t) eqn:Et; try discriminate H; break H; injection H as <- <-; cbn; auto.
Qed.
Lemma gbar_new : forall c s l s' ev g x, step c s l = Some (s', ev) -> In x (g_bar (gfold ev g) (lthr l)) -> In x (g_bar g (lthr l)) \/ In x (map fst (g_pend g)).
Proof.
  intros c s l s' ev g x H. destruct l as [t o|t]; cbn [step lthr] in *.
  - destruct (thr s t) eqn:Et; try discriminate. destruct o; cbn [call] in H; cbv zeta in H;
      try discriminate H; break H; injection H as <- <-; cbn; auto.
    rewrite upd_same. intros X. right. apply in_map_iff in X. destruct X as [z [X Y]]. apply filter_In in Y. apply in_map_iff. exists z. tauto.
  - unfold tick, entered in H. cbv zeta in H. destruct (thr s t) eqn:Et; try discriminate H; break H; injection H as <- <-; cbn; auto.
Qed.

(** pending entries of the new log that are not brand new were pending before *)
Lemma pend_old : forall c t s s' ev g x q, pdelta c t s s' ev -> In (x, q) (g_pend (gfold ev g)) -> x < nent s -> In (x, q) (g_pend g).
Proof.
  intros c t s s' ev g x q D X L. destruct D as [Dr Dc Dd Dn De|b r Dt Dt' Dn Dr Dm De|b r y e Dt Dt' Dr Dn De|r b bs k Dt Dt' Dr Dn De|r y l' n bs k Dt Dt' Dr Dn De|r Dw Dr Dc Dc' Dd Dd' Dn De].
  - rewrite gpend_keep in X; auto.
  - subst ev. cbn in X. destruct X as [X|X]; auto. injection X as <- <-. lia.
  - subst ev. auto.
  - subst ev. auto.
  - subst ev. cbn in X. apply filter_In in X. tauto.
  - subst ev. auto.
Qed.
Lemma nent_mono : forall c t s s' ev, pdelta c t s s' ev -> nent s <= nent s'.
Proof. intros c t s s' ev D. destruct D; lia. Qed.

(** entries of a record another thread works on stay where they are *)
Lemma rp_other : forall c s l s' ev g u r b x, IW s -> IE s -> IP s g -> IL s g -> step c s l = Some (s', ev) -> u <> lthr l -> pol s u = Some r ->
  In x (rp s r b) -> In x (rp s' r b).
Proof.
  intros c s l s' ev g u r b x Wf E P L H N U X. pose proof (step_pd _ _ _ _ _ H) as D.
  destruct D as [Dr Dc Dd Dn De|b' q Dt Dt' Dn Dr Dm De|b' q y e Dt Dt' Dr Dn De|q b' bs k Dt Dt' Dr Dn De|q y l' n bs k Dt Dt' Dr Dn De|q Dw Dr Dc Dc' Dd Dd' Dn De]; rewrite Dr; auto.
  - destruct (Nat.eq_dec r q) as [->|]; auto. destruct (Nat.eq_dec b (slot e)) as [->|]; auto. right; auto.
  - destruct (Nat.eq_dec r q) as [->|]; auto. exfalso. apply N. eapply (e_u _ E); eauto. unfold pol. rewrite Dt. auto.
  - destruct (Nat.eq_dec r q) as [->|]; auto. exfalso. destruct Dw as [[Dw Do]| ->].
    + apply N. apply (e_u _ E _ _ q); auto. apply pol_N; auto. left; auto.
    + rewrite (rp_fresh s g b) in X; auto.
Qed.

Lemma IB_step : forall c s l s' ev g, c_excl c = true -> IW s -> IE s -> IP s g -> IL s g -> IB s g -> step c s l = Some (s', ev) ->
  legal_from bar_ok g ev /\ IB s' (gfold ev g).
Proof.
  intros c s l s' ev g Hx Wf E P L B H. pose proof (step_pd _ _ _ _ _ H) as D.
  assert (M : moves s s' (lthr l)) by (intros u N; eapply step_thr; eauto). split.
  - destruct l as [t o|t]; cbn [step lthr] in *.
    + destruct (thr s t) eqn:Et; try discriminate. destruct o; cbn [call] in H; cbv zeta in H;
      break H; injection H as <- <-; cbn; auto.
    + unfold tick, entered in H. cbv zeta in H. destruct (thr s t) eqn:Et; try discriminate H; break H; injection H as <- <-; cbn [legal_from bar_ok]; auto.
      split; auto. apply forallb_forall. intros x X. apply negb_true_iff. destruct (pending g x) eqn:Y; auto. apply pending_in in Y. exfalso.
      destruct (b_in _ _ B t r [] [] x) as [Z|[b [[] _]]]; auto. rewrite Et. auto.
  - constructor.
    + intros t r bs m x X Y [q Z]. destruct (Nat.eq_dec t (lthr l)) as [->|N].
      * destruct (step_bset _ _ _ _ _ _ _ _ H X) as [[A [A2 A3]]|[[b [k [A [A2 A3]]]]|[[y [n [k [A [A2 A3]]]]]|[A [A2 [A3 [A4 A5]]]]]]].
        -- rewrite (gbar_tick _ _ _ _ _ _ H) in Y by (intros W; rewrite W in A; discriminate). rewrite gpend_keep in Z by auto.
           destruct (b_in _ _ B _ _ _ _ x A Y) as [W|[b [W W2]]]; eauto. right. exists b. rewrite A2. auto.
        -- rewrite (gbar_tick _ _ _ _ _ _ H) in Y by (rewrite A; discriminate). apply (pend_old c (lthr l) s s' ev) in Z; [|exact D|eapply (b_lt _ _ B); eauto].
           destruct A3 as [-> A3]. destruct (b_in _ _ B (lthr l) r (b :: bs) [] x) as [W|[j [W W2]]]; auto; [rewrite A; auto|eauto|contradiction|].
           destruct (Nat.eq_dec j b) as [->|N]; [left; congruence|]. destruct W as [W|W]; [congruence|]. right. exists j. rewrite A3; auto.
        -- rewrite (gbar_tick _ _ _ _ _ _ H) in Y by (rewrite A; discriminate). destruct A3 as [-> A3]. subst ev.
           cbn in Z. apply filter_In in Z. destruct Z as [Z Z2]. cbn in Z2. apply negb_true_iff in Z2. apply Nat.eqb_neq in Z2.
           destruct (b_in _ _ B (lthr l) r bs (y :: m) x) as [[W|W]|[j [W W2]]]; auto; [rewrite A; auto|eauto|congruence|]. right. exists j. rewrite A3; auto.
        -- subst ev bs m. cbn in Y, Z. rewrite upd_same in Y. apply in_map_iff in Y. destruct Y as [[y k] [Y1 Y2]]. cbn in Y1. subst y.
           apply filter_In in Y2. destruct Y2 as [Y2 Y3]. cbn in Y3. apply Nat.eqb_eq in Y3. subst k.
           apply may_poll_excl in A; auto. destruct A as [A6 [A7 _]]. right. destruct (l_at _ _ L _ _ Y2) as [[u|q' b|u] K]; cbn in K.
           ++ apply (e_c _ E) in K. rewrite A7 in K. contradiction.
           ++ destruct K as [<- K]. exists b. rewrite A5. split; auto. destruct (Nat.lt_ge_cases b 4); [cbn; lia|]. rewrite (l_4 _ _ L) in K by auto. contradiction.
           ++ assert (U : pol s u = Some r).
              { unfold pol. destruct (thr s u); cbn in K; try contradiction. apply in_map_iff in K. destruct K as [w [K _]]. cbn. congruence. }
              apply (e_p _ E) in U. congruence.
      * rewrite (gbar_step _ _ _ _ _ _ _ H N) in Y. rewrite (M t N) in X. apply (pend_old c (lthr l) s s' ev) in Z; [|exact D|eapply (b_lt _ _ B); eauto].
        destruct (b_in _ _ B _ _ _ _ x X Y) as [W|[b [W W2]]]; eauto. right. exists b. split; auto.
        eapply rp_other; eauto. eapply bset_pol; eauto.
    + intros t x X. apply Nat.lt_le_trans with (nent s); [|eapply nent_mono; eauto]. destruct (Nat.eq_dec t (lthr l)) as [->|N].
      * destruct (gbar_new _ _ _ _ _ _ _ H X) as [Y|Y]; [eapply (b_lt _ _ B); eauto|].
        apply in_map_iff in Y. destruct Y as [[y q] [Y Z]]. cbn in Y. subst y. eapply (p_lt _ _ P); eauto.
      * rewrite (gbar_step _ _ _ _ _ _ _ H N) in X. eapply (b_lt _ _ B); eauto.
Qed.

(** ** The pending counter *)
Definition wt (g : gs) (r : nat) : nat := length (filter (fun p => Nat.eqb (snd p) r) (g_pend g)).
(** calls that have not yet counted their entry *)
Definition prep (p : pc) : bool := match p with C1 _ _ _ | C2 _ _ _ _ | C3 _ _ _ _ => true | _ => false end.
Definition pre (s : st) (r : nat) : nat := length (filter (fun u => prep (thr s u)) (cls s r)).
(** callbacks run by a dispatch and not yet subtracted *)
Definition ncnt (p : pc) : nat :=
  match p with DR _ _ n _ _ | DN _ _ n _ _ | DP _ _ _ n _ _ | DA _ n _ _ | DS _ n _ _ => n | _ => 0 end.

Record IN (s : st) (g : gs) : Prop := {
  n_p : forall r, bpl s r = false -> rnpend (rc s r) + pre s r = wt g r;
  n_q : forall t r, pol s t = Some r -> rnpend (rc s r) = wt g r + ncnt (thr s t);
  n_3 : forall t r x e n, thr s t = C3 r x e n -> rnpend (rc s r) = n;
  n_b : forall r, bpl s r = true -> In r (recs s) }.

Lemma IN_init : IN init gs0.
Proof. constructor; cbn; intros; auto; discriminate. Qed.

Lemma IN_frame : forall s s' g g', IN s g -> (forall r, rnpend (rc s' r) = rnpend (rc s r)) -> (forall r, pre s' r = pre s r) ->
  (forall r, wt g' r = wt g r) -> (forall r, bpl s' r = bpl s r) ->
  (forall u r, pol s' u = Some r -> pol s u = Some r /\ ncnt (thr s' u) = ncnt (thr s u)) ->
  (forall u r x e n, thr s' u = C3 r x e n -> thr s u = C3 r x e n) -> incl (recs s) (recs s') -> IN s' g'.
Proof.
  intros s s' g g' I F1 F2 F3 F4 F5 F6 F7. constructor.
  - intros r. rewrite F4, F1, F2, F3. apply I.
  - intros u r X. destruct (F5 _ _ X) as [Y Z]. rewrite F1, F3, Z. apply (n_q _ _ I); auto.
  - intros u r x e n X. rewrite F1. eapply (n_3 _ _ I); eauto.
  - intros r. rewrite F4. intros X. apply F7. apply (n_b _ _ I); auto.
Qed.

Lemma pre_same : forall s s' t r, cls s' r = cls s r -> moves s s' t -> prep (thr s' t) = prep (thr s t) -> pre s' r = pre s r.
Proof.
  intros s s' t r C M P. unfold pre. rewrite C. f_equal. apply filter_ext. intros u. destruct (Nat.eq_dec u t) as [->|N]; auto. rewrite (M u N). auto.
Qed.
Lemma prep_drop : forall (f f' : nat -> bool) t l, NoDup l -> In t l -> f t = true -> f' t = false -> (forall u, u <> t -> f' u = f u) ->
  S (length (filter f' l)) = length (filter f l).
Proof.
  intros f f' t. induction l as [|u l IH]; intros N I A B C; [contradiction|]. apply NoDup_cons_iff in N. destruct N as [N1 N2].
  destruct (Nat.eq_dec u t) as [->|NE].
  - cbn. rewrite A, B. cbn. do 2 f_equal. apply filter_ext_in. intros v V. apply C. intros ->. contradiction.
  - destruct I as [I|I]; [contradiction|]. cbn. rewrite C by auto. specialize (IH N2 I A B C). destruct (f u); cbn; lia.
Qed.
Lemma prep_rm : forall (f : nat -> bool) t l, f t = false -> length (filter f (remove Nat.eq_dec t l)) = length (filter f l).
Proof.
  intros f t. induction l as [|u l IH]; intros A; auto. cbn. destruct (Nat.eq_dec t u) as [<-|N]; [rewrite A; auto|]. cbn. destruct (f u); cbn; rewrite IH; auto.
Qed.
Lemma wt_keep : forall ev g r, forallb nopend ev = true -> wt (gfold ev g) r = wt g r.
Proof. intros. unfold wt. rewrite gpend_keep; auto. Qed.
Lemma wt_run : forall g x r q, NoDup (map fst (g_pend g)) -> In (x, r) (g_pend g) -> wt g q = wt (gnext g (ERun x)) q + if Nat.eq_dec q r then 1 else 0.
Proof.
  intros g x r q. unfold wt. cbn [gnext g_pend]. induction (g_pend g) as [|[y k] l IH]; intros N I; [contradiction|].
  cbn [map] in N. apply NoDup_cons_iff in N. destruct N as [N1 N2]. destruct I as [I|I].
  - injection I as -> ->. cbn [filter snd fst]. rewrite Nat.eqb_refl. cbn [negb].
    assert (E : filter (fun p : nat * nat => negb (fst p =? x)) l = l).
    { clear - N1. induction l as [|[z k] l IH]; auto. cbn. destruct (Nat.eqb_spec z x) as [->|]; [exfalso; apply N1; left; auto|]. cbn. f_equal. apply IH. intros X. apply N1. right; auto. }
    rewrite E. destruct (Nat.eqb_spec r q), (Nat.eq_dec q r); cbn; try congruence; lia.
  - assert (NE : y <> x). { intros ->. apply N1. apply in_map_iff. exists (x, r). auto. }
    cbn [filter snd fst]. destruct (Nat.eqb_spec y x); [contradiction|]. cbn [negb filter snd]. specialize (IH N2 I). destruct (Nat.eqb k q); cbn [length]; lia.
Qed.
Lemma ncnt_sn : forall k d af rest, ncnt (snext k d af rest) = 0.
Proof. intros. unfold snext, sdone. destruct rest; [destruct k, af|]; auto. Qed.
Lemma ncnt_sf : forall k d rest, ncnt (sfound k d rest) = 0.
Proof. intros. destruct k; auto. Qed.
Lemma ncnt_dn : forall r n bs k, ncnt (dnext r n bs k) = 0.
Proof. intros. unfold dnext. destruct bs, k; auto. Qed.
Lemma ncnt_dc : forall r n bs k, ncnt (dcount r n bs k) = n.
Proof. intros. unfold dcount. destruct n; [apply ncnt_dn|auto]. Qed.
Definition isC3 (p : pc) : bool := match p with C3 _ _ _ _ => true | _ => false end.
Lemma isC3_callp : forall p, callp p = None -> isC3 p = false /\ prep p = false.
Proof. destruct p; cbn; intros; auto; discriminate. Qed.

(** a record nobody calls or polls has nothing pending on it but what is in its lists *)
Lemma wt_zero : forall s g r, IE s -> IL s g -> cls s r = [] -> (forall u, displ (thr s u) = [] \/ pol s u <> Some r) -> (forall b, rp s r b = []) -> wt g r = 0.
Proof.
  intros s g r E L C D Z. unfold wt. destruct (filter _ (g_pend g)) as [|[x q] l] eqn:F; auto. exfalso.
  assert (X : In (x, q) (filter (fun p => Nat.eqb (snd p) r) (g_pend g))) by (rewrite F; left; auto). apply filter_In in X. destruct X as [X Y].
  cbn in Y. apply Nat.eqb_eq in Y. subst q. destruct (l_at _ _ L _ _ X) as [[u|q b|u] K]; cbn in K.
  - apply (e_c _ E) in K. rewrite C in K. contradiction.
  - destruct K as [<- K]. rewrite Z in K. contradiction.
  - destruct (D u) as [W|W]; [rewrite W in K; contradiction|]. apply W. unfold pol. destruct (thr s u); cbn in K; try contradiction.
    apply in_map_iff in K. destruct K as [w [K _]]. cbn. congruence.
Qed.
Lemma wt_fresh : forall s g, IW s -> IL s g -> wt g (length (recs s)) = 0.
Proof.
  intros s g Wf L. unfold wt. destruct (filter _ (g_pend g)) as [|[x q] l] eqn:F; auto. exfalso.
  assert (X : In (x, q) (filter (fun p => Nat.eqb (snd p) (length (recs s))) (g_pend g))) by (rewrite F; left; auto). apply filter_In in X. destruct X as [X Y].
  cbn in Y. apply Nat.eqb_eq in Y. subst q. apply (l_fr _ _ L) in X. apply (w_len _ Wf) in X. lia.
Qed.

Lemma IN_quiet : forall s s' t ev g, IN s g -> moves s s' t -> (forall u, u <> t -> own s' u = own s u) ->
  (forall r, rnpend (rc s' r) = rnpend (rc s r)) -> (forall r, cls s' r = cls s r) -> (forall r, bpl s' r = bpl s r) ->
  forallb nopend ev = true -> callp (thr s t) = None -> callp (thr s' t) = None ->
  (forall r, pol s' t = Some r -> pol s t = Some r /\ ncnt (thr s' t) = ncnt (thr s t)) -> incl (recs s) (recs s') -> IN s' (gfold ev g).
Proof.
  intros s s' t ev g I M O F1 F2 F3 F4 C C' F5 F6. destruct (isC3_callp _ C) as [A1 A2]. destruct (isC3_callp _ C') as [B1 B2].
  apply (IN_frame s s' g); auto.
  - intros r. apply (pre_same s s' t); auto. congruence.
  - intros r. apply wt_keep. auto.
  - intros u r. destruct (Nat.eq_dec u t) as [->|N]; auto. unfold pol. rewrite (M u N), (O u N). auto.
  - intros u r x e n X. destruct (Nat.eq_dec u t) as [->|N]; [rewrite X in B1; discriminate|]. rewrite <- (M u N). auto.
Qed.

(** the thread starts to work on record [r] *)
Lemma IN_start : forall s s' t r ev g, IN s g -> moves s s' t -> (forall u, u <> t -> own s' u = own s u) ->
  (forall r, rnpend (rc s' r) = rnpend (rc s r)) -> (forall r, cls s' r = cls s r) -> (forall q, bpl s' q = upd (bpl s) r true q) ->
  forallb nopend ev = true -> callp (thr s t) = None -> callp (thr s' t) = None -> bpl s r = false -> cls s r = [] ->
  pol s' t = Some r -> ncnt (thr s' t) = 0 -> incl (recs s) (recs s') -> In r (recs s) -> IN s' (gfold ev g).
Proof.
  intros s s' t r ev g I M O F1 F2 F3 F4 C C' Hb Hc F5 F5' F6 Hr. destruct (isC3_callp _ C) as [A1 A2]. destruct (isC3_callp _ C') as [B1 B2].
  pose proof (n_p _ _ I r Hb) as NP. unfold pre in NP. rewrite Hc in NP. cbn in NP.
  constructor.
  - intros q. rewrite F3, F1, wt_keep by auto. rewrite (pre_same s s' t); auto; [|congruence]. rewrite updE. destruct (Nat.eq_dec q r); [discriminate|]. apply I.
  - intros u q X. rewrite F1, wt_keep by auto. destruct (Nat.eq_dec u t) as [->|N].
    + rewrite F5'. rewrite F5 in X. injection X as <-. lia.
    + unfold pol in X. rewrite (M u N), (O u N) in X. rewrite (M u N). apply (n_q _ _ I). auto.
  - intros u q x e n X. rewrite F1. destruct (Nat.eq_dec u t) as [->|N]; [rewrite X in B1; discriminate|]. rewrite (M u N) in X. eapply (n_3 _ _ I); eauto.
  - intros q. rewrite F3, updE. intros X. apply F6. destruct (Nat.eq_dec q r) as [->|]; auto. apply (n_b _ _ I). auto.
Qed.

(** the thread is done with record [r] *)
Lemma IN_stop : forall s s' t r ev g, IN s g -> IE s -> moves s s' t -> (forall u, u <> t -> own s' u = own s u) ->
  (forall r, rnpend (rc s' r) = rnpend (rc s r)) -> (forall r, cls s' r = cls s r) -> (forall q, bpl s' q = upd (bpl s) r false q) ->
  forallb nopend ev = true -> callp (thr s t) = None -> callp (thr s' t) = None ->
  pol s t = Some r -> ncnt (thr s t) = 0 -> pol s' t = None -> incl (recs s) (recs s') -> IN s' (gfold ev g).
Proof.
  intros s s' t r ev g I E M O F1 F2 F3 F4 C C' Hp Hn F5 F6. destruct (isC3_callp _ C) as [A1 A2]. destruct (isC3_callp _ C') as [B1 B2].
  pose proof (n_q _ _ I t r Hp) as NP. pose proof (e_x _ E r (e_p _ E _ _ Hp)) as Hc.
  constructor.
  - intros q. rewrite F3, F1, wt_keep by auto. rewrite (pre_same s s' t); auto; [|congruence]. rewrite updE. destruct (Nat.eq_dec q r) as [->|]; [|apply I].
    intros _. unfold pre. rewrite Hc. cbn. lia.
  - intros u q X. rewrite F1, wt_keep by auto. destruct (Nat.eq_dec u t) as [->|N]; [congruence|].
    unfold pol in X. rewrite (M u N), (O u N) in X. rewrite (M u N). apply (n_q _ _ I). auto.
  - intros u q x e n X. rewrite F1. destruct (Nat.eq_dec u t) as [->|N]; [rewrite X in B1; discriminate|]. rewrite (M u N) in X. eapply (n_3 _ _ I); eauto.
  - intros q. rewrite F3, updE. intros X. apply F6. destruct (Nat.eq_dec q r) as [->|]; [discriminate|]. apply (n_b _ _ I). auto.
Qed.

Ltac rcs := let q := fresh "q" in intros q; fc; rewrite ?updE; try (destruct (Nat.eq_dec q _) as [->|]; fc); auto.
Ltac plt E := let q := fresh "q" in intros q; unfold pol; fc; rewrite ?upd_same, ?E, ?polp_snext, ?polp_sfound, ?polp_dnext, ?polp_dcount, ?ncnt_sn, ?ncnt_sf, ?ncnt_dn, ?ncnt_dc; cbn; auto.

Lemma IN_step : forall c s l s' ev g, c_excl c = true -> IW s -> IE s -> IP s g -> IL s g -> IN s g -> step c s l = Some (s', ev) -> IN s' (gfold ev g).
Proof.
  intros c s l s' ev g Hx Wf E P L I H.
  assert (M : moves s s' (lthr l)) by (intros u N; eapply step_thr; eauto).
  assert (O : forall u, u <> lthr l -> own s' u = own s u) by (intros; eapply step_own_other; eauto).
  assert (HI : incl (recs s) (recs s')) by (intros r X; destruct (step_recs _ _ _ _ _ H) as [->| ->]; auto; right; auto).
  destruct l as [t o|t]; cbn [step lthr] in *.
  - destruct (thr s t) eqn:Et; try discriminate. destruct o; cbn [call] in H; cbv zeta in H.
    + destruct (own s t) eqn:Eo; try discriminate. injection H as <- <-. apply (IN_quiet s _ t); auto; try (rcs; fail).
      * assert (B : bpl s (length (recs s)) = false).
        { destruct (bpl s (length (recs s))) eqn:B; auto. apply (n_b _ _ I) in B. apply (w_len _ Wf) in B. lia. }
        pose proof (n_p _ _ I _ B) as Z. rewrite (wt_fresh s) in Z by auto. intros q. fc. rewrite updE. destruct (Nat.eq_dec q (length (recs s))) as [->|]; auto. cbn. lia.
      * rewrite Et. auto.
      * fc. rewrite Et. auto.
      * intros q. unfold pol. fc. rewrite Et. discriminate.
    + break H; injection H as <- <-. apply (IN_quiet s _ t); auto; try (rcs; fail); try (fc; rewrite ?upd_same, ?Et; auto; fail). plt Et; discriminate.
    + destruct (own s t) eqn:Eo; try discriminate. destruct (may_unregister s t n) eqn:U; try discriminate. injection H as <- <-.
      apply may_unreg in U. destruct U as [U1 [U2 [U3 _]]]. apply (IN_start s _ t n); auto; try (rcs; fail); try (fc; rewrite ?upd_same, ?Et; auto; fail).
      * unfold pol. fc. rewrite upd_same. auto.
      * eapply (w_rec _ Wf); eauto.
    + break H; injection H as <- <-. apply (IN_quiet s _ t); auto; try (rcs; fail); try (fc; rewrite ?upd_same, ?Et; auto; fail). plt Et; discriminate.
    + break H; injection H as <- <-. apply (IN_quiet s _ t); auto; try (rcs; fail); try (fc; rewrite ?upd_same, ?Et; auto; fail). plt Et; discriminate.
    + (* call *) destruct (may_call c s strict r) eqn:MC; [|discriminate]. injection H as <- <-. apply may_call_excl in MC; auto. destruct MC as [M1 [_ M2]].
      assert (NI : forall q, ~ In t (cls s q)). { intros q X. destruct (e_cc _ E _ _ X) as [x Y]. rewrite Et in Y. discriminate. }
      assert (WT : forall q, wt (gfold [EDefer (nent s) r] g) q = wt g q + if Nat.eq_dec q r then 1 else 0).
      { intros q. unfold wt. cbn. destruct (Nat.eqb_spec r q), (Nat.eq_dec q r); cbn; try congruence; lia. }
      assert (PR : forall q, pre (go (u_cls (u_nent s (S (nent s))) r (t :: cls s r)) t (C1 strict r (nent s))) q = pre s q + if Nat.eq_dec q r then 1 else 0).
      { intros q. unfold pre. fc. rewrite !updE.
        assert (F : filter (fun u => prep (upd (thr s) t (C1 strict r (nent s)) u)) (cls s q) = filter (fun u => prep (thr s u)) (cls s q)).
        { apply filter_ext_in. intros u U. rewrite upd_other; auto. intros ->. eapply NI; eauto. }
        destruct (Nat.eq_dec q r) as [->|]; [|rewrite F; lia]. cbn [filter]. rewrite upd_same. cbn [prep length]. rewrite F. lia. }
      constructor.
      * intros q B. rewrite PR, WT. cbn in B. pose proof (n_p _ _ I q B). fc. lia.
      * intros u q X. unfold pol in X. fc. destruct (Nat.eq_dec u t) as [->|N]; [rewrite upd_same in X; discriminate|]. rewrite upd_other in * by auto.
        rewrite WT. destruct (Nat.eq_dec q r) as [->|]; [apply (e_p _ E) in X; congruence|]. rewrite (n_q _ _ I _ _ X). lia.
      * intros u q x e n X. fc. destruct (Nat.eq_dec u t) as [->|N]; [rewrite upd_same in X; discriminate|]. rewrite upd_other in X by auto. eapply (n_3 _ _ I); eauto.
      * apply (n_b _ _ I).
    + destruct (may_poll c s r) eqn:U; try discriminate. injection H as <- <-. apply may_poll_excl in U; auto. destruct U as [U1 [U2 U3]].
      apply (IN_start s _ t r); auto; try (rcs; fail); try (fc; rewrite ?upd_same, ?Et; auto; fail).
      * unfold pol. fc. rewrite upd_same. auto.
      * apply usable_in; auto.
    + injection H as <- <-. apply (IN_quiet s _ t); auto; try (rcs; fail); try (fc; rewrite ?upd_same, ?Et; auto; fail). plt Et; discriminate.
    + destruct (may_poll c s r) eqn:U; try discriminate. injection H as <- <-. apply may_poll_excl in U; auto. destruct U as [U1 [U2 U3]].
      apply (IN_start s _ t r); auto; try (rcs; fail); try (fc; rewrite ?upd_same, ?Et; auto; fail).
      * unfold pol. fc. rewrite upd_same. auto.
      * apply usable_in; auto.
  - unfold tick, entered in H. cbv zeta in H. destruct (thr s t) eqn:Et; try discriminate H.
    all: try (break H; injection H as <- <-; apply (IN_quiet s _ t); auto; try (rcs; fail); try (fc; rewrite ?upd_same, ?Et, ?callp_snext, ?callp_sfound, ?callp_dnext, ?callp_dcount; auto; fail); try (plt Et; try discriminate; auto; fail); fail).
    + (* X1 *) injection H as <- <-. apply (IN_quiet s _ t); auto; try (fc; rewrite ?upd_same, ?Et; auto; destruct (rfree _); auto; fail).
      intros q. unfold pol. fc. rewrite upd_same. destruct (rfree _); discriminate.
    + (* N1 *) destruct (own s t) as [r|] eqn:Eo; [|discriminate]. injection H as <- <-.
      assert (PT : pol s t = Some r) by (unfold pol; rewrite Et; auto).
      apply (IN_quiet s _ t); auto; try (rcs; fail); try (fc; rewrite ?upd_same, ?Et; auto; fail).
      * intros q. fc. rewrite updE. destruct (Nat.eq_dec q r) as [->|]; auto. cbn. rewrite (n_q _ _ I _ _ PT), Et. cbn.
        rewrite (wt_zero s); auto.
        -- apply (e_x _ E). apply (e_p _ E _ _ PT).
        -- intros u. destruct (Nat.eq_dec u t) as [->|N]; [left; rewrite Et; auto|]. right. intros X. apply N. eapply (e_u _ E); eauto.
        -- intros b. eapply (l_em _ _ L t); eauto. left; auto.
      * intros q. unfold pol. fc. rewrite upd_same, Et. auto.
    + (* N2 *) destruct (own s t) as [r|] eqn:Eo; [|discriminate]. injection H as <- <-.
      assert (PT : pol s t = Some r) by (unfold pol; rewrite Et; auto).
      apply (IN_stop s _ t r); auto; try (rcs; fail); try (fc; rewrite ?upd_same, ?Et; auto; fail).
      unfold pol. fc. rewrite !upd_same. auto.
    + (* E2 *) destruct (own s t) as [r|] eqn:Eo; [|discriminate]. break H; injection H as <- <-; (apply (IN_quiet s _ t); auto; try (rcs; fail); try (fc; rewrite ?upd_same, ?Et; auto; fail)).
      * intros q. fc. rewrite updE. destruct (Nat.eq_dec q r) as [->|]; auto. destruct (_ && _); auto.
      * plt Et; discriminate.
      * plt Et; discriminate.
    + (* C1 *) injection H as <- <-. apply (IN_frame s _ g); auto.
      * intros q. apply (pre_same s _ t); auto. fc. rewrite upd_same, Et. auto.
      * intros u q. unfold pol. fc. destruct (Nat.eq_dec u t) as [->|N]; [rewrite upd_same|rewrite upd_other by auto]; auto; discriminate.
      * intros u q y e n. fc. destruct (Nat.eq_dec u t) as [->|N]; [rewrite upd_same|rewrite upd_other by auto]; auto; discriminate.
    + (* C2 *) assert (IC : In t (cls s r)) by (eapply (e_c _ E); rewrite Et; reflexivity).
      assert (BF : bpl s r = false). { destruct (bpl s r) eqn:B; auto. apply (e_x _ E) in B. rewrite B in IC. contradiction. }
      destruct st; injection H as <- <-.
      * set (s1 := go _ _ _) in *. assert (PR : S (pre s1 r) = pre s r).
        { unfold pre. subst s1. fc. eapply (prep_drop _ _ t); auto; [apply (e_nd _ E)|rewrite Et; auto|rewrite upd_same; auto|]. intros u N. rewrite upd_other; auto. }
        assert (RN : forall q, rnpend (rc s1 q) = rnpend (rc s q) + if Nat.eq_dec q r then 1 else 0).
        { intros q. subst s1. fc. rewrite updE. destruct (Nat.eq_dec q r) as [->|]; fc; lia. }
        assert (PO : forall q, q <> r -> pre s1 q = pre s q).
        { intros q N. unfold pre. subst s1. fc. f_equal. apply filter_ext_in. intros u U. rewrite updE. destruct (Nat.eq_dec u t) as [->|]; auto.
          exfalso. apply N. destruct (e_cc _ E _ _ U) as [y Y]. rewrite Et in Y. cbn in Y. congruence. }
        constructor.
        -- intros q B. rewrite RN. change (wt (gfold [] g) q) with (wt g q). pose proof (n_p _ _ I q B) as Z. destruct (Nat.eq_dec q r) as [->|N]; [lia|]. rewrite PO by auto. lia.
        -- intros u q X. rewrite RN. unfold pol in X. destruct (Nat.eq_dec u t) as [->|N]; [subst s1; fc; rewrite upd_same in X; discriminate|].
           rewrite (M u N), (O u N) in X. rewrite (M u N). destruct (Nat.eq_dec q r) as [->|]; [apply (e_p _ E) in X; congruence|]. rewrite (n_q _ _ I _ _ X). auto.
        -- intros u q y e' n X. rewrite RN. destruct (Nat.eq_dec u t) as [->|N]; [subst s1; fc; rewrite upd_same in X; discriminate|].
           rewrite (M u N) in X. destruct (Nat.eq_dec q r) as [->|]; [|rewrite (n_3 _ _ I _ _ _ _ _ X); auto].
           assert (IU : In u (cls s r)) by (eapply (e_c _ E); rewrite X; reflexivity). pose proof (e_ns _ E u r IU) as Z. rewrite X in Z. specialize (Z eq_refl).
           rewrite Z in IC. destruct IC as [IC|[]]. congruence.
        -- apply (n_b _ _ I).
      * constructor.
        -- intros q B. rewrite (pre_same s _ t); auto; [apply (n_p _ _ I); auto|]. fc. rewrite upd_same, Et. auto.
        -- intros u q. unfold pol. fc. destruct (Nat.eq_dec u t) as [->|N]; [rewrite upd_same; discriminate|rewrite upd_other by auto]. apply (n_q _ _ I).
        -- intros u q y e' n. fc. destruct (Nat.eq_dec u t) as [->|N]; [rewrite upd_same|rewrite upd_other by auto]; [intros X; injection X as <- <- <- <-; auto|]. apply (n_3 _ _ I).
        -- apply (n_b _ _ I).
    + (* C3 *) assert (IC : In t (cls s r)) by (eapply (e_c _ E); rewrite Et; reflexivity).
      assert (BF : bpl s r = false). { destruct (bpl s r) eqn:B; auto. apply (e_x _ E) in B. rewrite B in IC. contradiction. }
      injection H as <- <-. pose proof (n_3 _ _ I _ _ _ _ _ Et) as N3.
      set (s1 := go _ _ _) in *. assert (PR : S (pre s1 r) = pre s r).
        { unfold pre. subst s1. fc. eapply (prep_drop _ _ t); auto; [apply (e_nd _ E)|rewrite Et; auto|rewrite upd_same; auto|]. intros u N. rewrite upd_other; auto. }
        assert (RN : forall q, rnpend (rc s1 q) = rnpend (rc s q) + if Nat.eq_dec q r then 1 else 0).
        { intros q. subst s1. fc. rewrite updE. destruct (Nat.eq_dec q r) as [->|]; fc; lia. }
        assert (PO : forall q, q <> r -> pre s1 q = pre s q).
        { intros q N. unfold pre. subst s1. fc. f_equal. apply filter_ext_in. intros u U. rewrite updE. destruct (Nat.eq_dec u t) as [->|]; auto.
          exfalso. apply N. destruct (e_cc _ E _ _ U) as [y Y]. rewrite Et in Y. cbn in Y. congruence. }
        constructor.
        -- intros q B. rewrite RN. change (wt (gfold [] g) q) with (wt g q). pose proof (n_p _ _ I q B) as Z. destruct (Nat.eq_dec q r) as [->|N]; [lia|]. rewrite PO by auto. lia.
        -- intros u q X. rewrite RN. unfold pol in X. destruct (Nat.eq_dec u t) as [->|N]; [subst s1; fc; rewrite upd_same in X; discriminate|].
           rewrite (M u N), (O u N) in X. rewrite (M u N). destruct (Nat.eq_dec q r) as [->|]; [apply (e_p _ E) in X; congruence|]. rewrite (n_q _ _ I _ _ X). auto.
        -- intros u q y e' n' X. rewrite RN. destruct (Nat.eq_dec u t) as [->|N]; [subst s1; fc; rewrite upd_same in X; discriminate|].
           rewrite (M u N) in X. destruct (Nat.eq_dec q r) as [->|]; [|rewrite (n_3 _ _ I _ _ _ _ _ X); auto].
           assert (IU : In u (cls s r)) by (eapply (e_c _ E); rewrite X; reflexivity). pose proof (e_ns _ E u r IU) as Z. rewrite X in Z. specialize (Z eq_refl).
           rewrite Z in IC. destruct IC as [IC|[]]. congruence.
        -- apply (n_b _ _ I).
    + (* C4 *) injection H as <- <-. apply (IN_frame s _ g); auto; try (rcs; fail).
      * intros q. unfold pre. fc. rewrite updE.
        assert (F : forall l, filter (fun u => prep (upd (thr s) t Idle u)) l = filter (fun u => prep (thr s u)) l).
        { intros l. apply filter_ext. intros u. rewrite updE. destruct (Nat.eq_dec u t) as [->|]; auto. rewrite Et. auto. }
        rewrite F. destruct (Nat.eq_dec q r) as [->|]; auto. apply prep_rm. rewrite Et. auto.
      * intros u q. unfold pol. fc. destruct (Nat.eq_dec u t) as [->|N]; [rewrite upd_same|rewrite upd_other by auto]; auto; discriminate.
      * intros u q y e' n. fc. destruct (Nat.eq_dec u t) as [->|N]; [rewrite upd_same|rewrite upd_other by auto]; auto; discriminate.
    + (* PR *) injection H as <- <-.
      assert (PT : pol s t = Some r) by (unfold pol; rewrite Et; auto).
      apply (IN_stop s _ t r); auto; try (rcs; fail); try (fc; rewrite ?upd_same, ?Et; auto; fail).
      unfold pol. fc. rewrite !upd_same. auto.
    + (* YC *) break H; injection H as <- <-; (apply (IN_quiet s _ t); auto; try (rcs; fail); try (fc; rewrite ?upd_same, ?Et; auto; destruct (S i <? 2); auto; fail);
        intros q; unfold pol; fc; rewrite ?upd_same, ?Et; destruct (S i <? 2); auto).
    + (* PB *) injection H as <- <-.
      assert (PT : pol s t = Some r) by (unfold pol; rewrite Et; auto).
      apply (IN_stop s _ t r); auto; try (rcs; fail); try (fc; rewrite ?upd_same, ?Et; auto; fail).
      unfold pol. fc. rewrite !upd_same. auto.
    + (* Sc *) destruct rest as [|v rest]; [discriminate|]. injection H as <- <-. destruct (rfree (rc s v)); (apply (IN_quiet s _ t); auto; try (fc; rewrite ?upd_same, ?Et, ?callp_snext; auto; fail); plt Et).
    + (* Sa *) destruct rest as [|v rest]; [discriminate|]. injection H as <- <-. destruct (ract (rc s v)); (apply (IN_quiet s _ t); auto; try (fc; rewrite ?upd_same, ?Et, ?callp_snext; auto; fail); plt Et).
    + (* Sr *) destruct rest as [|v rest]; [discriminate|]. injection H as <- <-. destruct (_ =? _)%N; (apply (IN_quiet s _ t); auto; try (fc; rewrite ?upd_same, ?Et, ?callp_snext, ?callp_sfound; auto; fail); plt Et).
    + (* DR *) destruct l as [|x l]; injection H as <- <-; [apply (IN_quiet s _ t); auto; try (fc; rewrite ?upd_same, ?Et; auto; fail); plt Et|].
      assert (PT : pol s t = Some r) by (unfold pol; rewrite Et; auto).
      assert (XI : In (x, r) (g_pend g)). { apply (p_in _ _ P x r (PDisp t)). cbn. rewrite Et. left; auto. }
      pose proof (fun q => wt_run g x r q (p_nx _ _ P) XI) as WR.
      change (gfold [ERun x] g) with (gnext g (ERun x)).
      constructor.
      * intros q B. rewrite (pre_same s _ t); auto; [|fc; rewrite upd_same, Et; auto]. fc. rewrite (n_p _ _ I q B), WR.
        destruct (Nat.eq_dec q r) as [->|]; [apply (e_p _ E) in PT; congruence|lia].
      * intros u q X. unfold pol in X. fc. destruct (Nat.eq_dec u t) as [->|N].
        -- rewrite upd_same in *. cbn in X. injection X as <-. cbn. rewrite (n_q _ _ I _ _ PT), Et, WR. cbn. destruct (Nat.eq_dec r r); [lia|congruence].
        -- rewrite upd_other in * by auto. rewrite (n_q _ _ I _ _ X), WR. destruct (Nat.eq_dec q r) as [->|]; [|lia]. exfalso. apply N. eapply (e_u _ E); eauto.
      * intros u q y e' n'. fc. destruct (Nat.eq_dec u t) as [->|N]; [rewrite upd_same|rewrite upd_other by auto]; [discriminate|]. apply (n_3 _ _ I).
      * apply (n_b _ _ I).
    + (* DS *) injection H as <- <-.
      assert (PT : pol s t = Some r) by (unfold pol; rewrite Et; auto).
      pose proof (n_q _ _ I _ _ PT) as NQ. rewrite Et in NQ. cbn in NQ.
      assert (BT := e_p _ E _ _ PT).
      constructor.
      * intros q B. rewrite (pre_same s _ t); auto; [|fc; rewrite upd_same, Et; apply isC3_callp, callp_dnext]. fc. rewrite updE. destruct (Nat.eq_dec q r) as [->|]; [congruence|]. apply (n_p _ _ I). auto.
      * intros u q X. unfold pol in X. fc. destruct (Nat.eq_dec u t) as [->|N].
        -- rewrite upd_same in *. rewrite polp_dnext in X. injection X as <-. rewrite upd_same. rewrite ncnt_dn. cbn. unfold gfold. cbn. lia.
        -- rewrite upd_other in X by auto. rewrite !updE. destruct (Nat.eq_dec u t); [contradiction|]. destruct (Nat.eq_dec q r) as [->|]; [exfalso; apply N; eapply (e_u _ E); eauto|]. apply (n_q _ _ I). auto.
      * intros u q y e' n'. fc. destruct (Nat.eq_dec u t) as [->|N]; [rewrite upd_same; intros X; pose proof (callp_dnext r n bs k) as Y; rewrite X in Y; discriminate|rewrite upd_other by auto].
        intros X. rewrite updE. destruct (Nat.eq_dec q r) as [->|]; [|eapply (n_3 _ _ I); eauto]. exfalso.
        assert (IU : In u (cls s r)) by (eapply (e_c _ E); rewrite X; reflexivity). rewrite (e_x _ E _ BT) in IU. contradiction.
      * apply (n_b _ _ I).
Qed.
