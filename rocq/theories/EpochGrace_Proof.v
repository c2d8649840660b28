(** * Epoch model: deferred callbacks run after a grace period *)
From Coq Require Import List Arith NArith Bool Lia.
From Verif Require Import Lib RingMp_Proof Epoch_Model Epoch_Spec Epoch_Proof EpochSync_Proof EpochOwn_Proof EpochPlace_Proof EpochOnce_Proof.
Import ListNotations.
Local Open Scope N_scope.
Local Arguments N.add : simpl never. Local Arguments N.sub : simpl never. Local Arguments N.modulo : simpl never.
Local Arguments N.eqb : simpl never. Local Arguments N.leb : simpl never. Local Arguments N.ltb : simpl never.
Local Arguments Nat.modulo : simpl never. Local Arguments Nat.ltb : simpl never.
Local Arguments upd : simpl never. Local Arguments N.to_nat : simpl never.

Lemma slot_esub : forall e k, k <= 4 -> (esub e k) mod 4 = (e + 4 - k) mod 4.
Proof.
  intros e k H. unfold esub, W. set (a := e + 4294967296 - k).
  assert (E : a = e + 4 - k + 1073741823 * 4) by (subst a; lia).
  pose proof (N.div_mod a 4294967296 ltac:(lia)) as D. generalize dependent (a mod 4294967296). generalize (a / 4294967296). intros q r D.
  assert (Q : r + (1073741824 * q) * 4 = e + 4 - k + 1073741823 * 4) by (rewrite <- E, D; ring).
  rewrite <- (N.mod_add r (1073741824 * q) 4) by lia. rewrite Q. apply N.mod_add. lia.
Qed.
Lemma slot_eq : forall a b, slot a = slot b -> a mod 4 = b mod 4.
Proof. intros a b H. unfold slot in H. apply N2Nat.inj. auto. Qed.
Lemma slot_2 : forall m e, slot m = slot (esub e 2) -> m <= e -> m + 2 <= e.
Proof.
  intros m e H L. apply slot_eq in H. rewrite slot_esub in H by lia.
  pose proof (N.div_mod m 4 ltac:(lia)). pose proof (N.div_mod (e + 4 - 2) 4 ltac:(lia)). pose proof (N.mod_lt m 4 ltac:(lia)). lia.
Qed.
Lemma slot_1 : forall m e, slot m = slot (esub e 1) -> m <= e -> m < e.
Proof.
  intros m e H L. apply slot_eq in H. rewrite slot_esub in H by lia.
  pose proof (N.div_mod m 4 ltac:(lia)). pose proof (N.div_mod (e + 4 - 1) 4 ltac:(lia)). pose proof (N.mod_lt m 4 ltac:(lia)). lia.
Qed.

(** every entry [x] in bucket [b] of record [r] satisfies [Q b x] *)
Definition allp (s : st) (r : nat) (Q : nat -> nat -> Prop) : Prop := forall b x, In x (rp s r b) -> Q b x.
(** the callback [x] was deferred in epoch [m] at the latest, and its bucket is that of [m] *)
Definition due (s : st) (g : gs) (b x : nat) (m : N) : Prop := slot m = b /\ Bd s (g_set g x) m.
Definition DK (s : st) (g : gs) (r : nat) (bs : list nat) (k : dkd) : Prop :=
  allp s r (fun b x => In b bs -> Clv s (g_set g x) []) /\
  match k with KScan e => allp s r (fun b x => exists m, due s g b x m /\ m <= e) | _ => True end.
(** a synchronize inside a barrier *)
Definition kbary (k : skd) : option nat := match k with KS b _ _ => b | KP _ _ => None end.
Definition bary (p : pc) : option nat :=
  match p with
  | Y1 b | Y4 b _ _ _ _ | YC b _ _ _ | YL b => b
  | S0 k _ | Sc k _ _ _ | Sa k _ _ _ | Sr k _ _ => kbary k
  | _ => None
  end.
Definition T2 (s : st) (g : gs) (t : nat) (p : pc) : Prop :=
  match p with
  | C2 _ _ x e | C3 _ x e _ | C4 _ _ x e => Bd s (g_set g x) e /\ e <= ep s
  | D0 r bs k | DN r _ _ bs k | DP r _ _ _ bs k | DA r _ bs k | DS r _ bs k => DK s g r bs k
  | DR r l _ bs k => (forall x, In x l -> Clv s (g_set g x) []) /\ DK s g r bs k
  | S0 (KP r _) d => allp s r (fun b x => exists m, due s g b x m /\ m <= d)
  | Sc (KP r _) d af rest | Sa (KP r _) d af rest =>
      allp s r (fun b x => exists m, due s g b x m /\ m <= d /\ (af = false \/ m < d -> Clv s (g_set g x) rest))
  | Sr (KP r _) d rest => allp s r (fun b x => exists m, due s g b x m /\ m <= d /\ (m < d -> Clv s (g_set g x) rest))
  | PC r e => allp s r (fun b x => exists m, due s g b x m /\ m <= e /\ (m < e -> Clv s (g_set g x) []))
  | PW r _ => allp s r (fun b x => Clv s (g_set g x) [])
  | _ => match bary p with
         | Some r => allp s r (fun b x => forall u y, In y (opn s u) -> In (sid y) (g_set g x) -> In (sid y) (g_wait g t))
         | None => True
         end
  end.

Section Mono.
Variables (s s' : st) (g g' : gs) (t : nat) (p : pc).
Hypothesis Hm : forall x, mono s s' (g_set g x).
Hypothesis He : ep s <= ep s'.
Hypothesis Hr : forall r b x, polp None p = Some r -> In x (rp s' r b) -> In x (rp s r b).
Hypothesis Hs : forall x, (x < nent s)%nat -> g_set g' x = g_set g x.
Hypothesis Hw : g_wait g' t = g_wait g t.
Hypothesis Hn : forall r b x, In x (rp s r b) -> (x < nent s)%nat.
Hypothesis Hc : forall r x, callp p = Some (r, x) -> (x < nent s)%nat.
Hypothesis Hd : forall r x, In (x, r) (displ p) -> (x < nent s)%nat.

Lemma allp_mono : forall r (Q Q' : nat -> nat -> Prop), polp None p = Some r -> (forall b x, (x < nent s)%nat -> Q b x -> Q' b x) -> allp s r Q -> allp s' r Q'.
Proof. intros r Q Q' P HQ A b x X. apply Hr in X; auto. apply HQ; eauto. Qed.
Lemma clv_mono : forall x rest, (x < nent s)%nat -> Clv s (g_set g x) rest -> Clv s' (g_set g' x) rest.
Proof. intros x rest L. rewrite Hs by auto. apply Clv_mono. apply Hm. Qed.
Lemma due_mono : forall b x m, (x < nent s)%nat -> due s g b x m -> due s' g' b x m.
Proof. intros b x m L [A B]. split; auto. rewrite Hs by auto. apply (Bd_mono s); auto. Qed.
Lemma DK_mono : forall r bs k, polp None p = Some r -> DK s g r bs k -> DK s' g' r bs k.
Proof.
  intros r bs k P [A B]. split.
  - revert A. apply allp_mono; auto. intros b x L Q I. apply clv_mono; auto.
  - destruct k; auto. revert B. apply allp_mono; auto. intros b x L [m [Q1 Q2]]. exists m. split; auto. apply due_mono; auto.
Qed.
Lemma T2_mono : T2 s g t p -> T2 s' g' t p.
Proof.
  assert (AM : forall r (Q Q' : nat -> nat -> Prop), polp None p = Some r -> (forall b x, (x < nent s)%nat -> Q b x -> Q' b x) -> allp s r Q -> allp s' r Q') by apply allp_mono.
  assert (DM : forall r bs k, polp None p = Some r -> DK s g r bs k -> DK s' g' r bs k) by apply DK_mono.
  assert (BM : forall r, polp None p = Some r -> allp s r (fun b x => forall u y, In y (opn s u) -> In (sid y) (g_set g x) -> In (sid y) (g_wait g t)) ->
     allp s' r (fun b x => forall u y, In y (opn s' u) -> In (sid y) (g_set g' x) -> In (sid y) (g_wait g' t))).
  { intros r P. apply AM; auto. intros b x L Q u y Y. rewrite Hs by auto. intros Z. rewrite Hw. destruct (Hm x u y Y Z) as [Y' _]. eauto. }
  assert (CM : forall x e, (exists r, callp p = Some (r, x)) -> Bd s (g_set g x) e /\ e <= ep s -> Bd s' (g_set g' x) e /\ e <= ep s').
  { intros x e [r C] [A B]. rewrite Hs by eauto. split; [apply (Bd_mono s); auto|lia]. }
  destruct p; cbn [T2 bary]; auto; try (destruct k); cbn [kbary]; auto; try (destruct b; auto); try apply DM; auto;
    try (apply CM; cbn; eauto; fail); try (apply BM; auto; fail).
  - apply AM; auto. intros b x L [m [Q1 [Q2 Q3]]]. exists m. split; [apply due_mono; auto|]. split; auto. intros. apply clv_mono; auto.
  - apply AM; auto. intros b x L Q. apply clv_mono; auto.
  - apply AM; auto. intros b x L [m [Q1 Q2]]. exists m. split; auto. apply due_mono; auto.
  - apply AM; auto. intros b x L [m [Q1 [Q2 Q3]]]. exists m. split; [apply due_mono; auto|]. split; auto. intros. apply clv_mono; auto.
  - apply AM; auto. intros b x L [m [Q1 [Q2 Q3]]]. exists m. split; [apply due_mono; auto|]. split; auto. intros. apply clv_mono; auto.
  - apply AM; auto. intros b x L [m [Q1 [Q2 Q3]]]. exists m. split; [apply due_mono; auto|]. split; auto. intros. apply clv_mono; auto.
  - intros [A B]. split; [|apply DM; auto]. intros x X. apply clv_mono; auto. apply (Hd r). cbn. apply in_map_iff. eauto.
  - intros [A B]. split; [|apply DM; auto]. intros x X. apply clv_mono; auto. apply (Hd r). cbn. apply in_map_iff. eauto.
  - intros [A B]. split; [|apply DM; auto]. intros x X. apply clv_mono; auto. apply (Hd r). cbn. apply in_map_iff. eauto.
Qed.
End Mono.

Record IG (s : st) (g : gs) : Prop := {
  g_all : forall r, allp s r (fun b x => exists m, due s g b x m /\ m <= ep s);
  g_ids : forall x i, In i (g_set g x) -> (i < nsec s)%nat;
  g_t : forall t, T2 s g t (thr s t) }.

Lemma IG_init : IG init gs0.
Proof. constructor; cbn; intros; auto; try contradiction. intros b x []. Qed.

Lemma T2_sn_kp : forall s g t r f d af rest, allp s r (fun b x => exists m, due s g b x m /\ m <= d /\ (af = false \/ m < d -> Clv s (g_set g x) rest)) ->
  T2 s g t (snext (KP r f) d af rest).
Proof.
  intros s g t r f d af rest A. unfold snext. destruct rest; [|exact A]. cbn. destruct af; cbn; intros b x X; destruct (A b x X) as [m [Q1 [Q2 Q3]]]; eauto.
  exists m. auto.
Qed.
Lemma T2_sn_ks : forall s g t k d af rest, (forall r f, k <> KP r f) ->
  match kbary k with Some r => allp s r (fun b x => forall u y, In y (opn s u) -> In (sid y) (g_set g x) -> In (sid y) (g_wait g t)) | None => True end ->
  T2 s g t (snext k d af rest).
Proof.
  intros s g t k d af rest N A. destruct k as [r f|b e0 i]; [exfalso; eapply N; eauto|]. unfold snext. destruct rest; cbn; auto. destruct af; cbn; auto.
Qed.
Lemma T2_dn : forall s g t r n bs k, DK s g r bs k -> T2 s g t (dnext r n bs k) /\ T2 s g t (dcount r n bs k).
Proof.
  intros s g t r n bs k [A B]. assert (X : T2 s g t (dnext r n bs k)).
  { unfold dnext. destruct bs; [destruct k; cbn; auto|]. cbn. split; auto. }
  split; auto. unfold dcount. destruct n; auto. cbn. split; auto.
Qed.

Lemma T2_self : forall s lo t s' ev g, I0 s lo -> ep s + 8 < W -> R1 s g -> IG s g -> tick s t = Some (s', ev) -> T2 s g t (thr s' t).
Proof.
  intros s lo t s' ev g I Hg R G H. pose proof (g_t _ _ G t) as T. pose proof (a_t _ _ R t) as TY. pose proof (i_v _ _ I t) as Vt.
  unfold tick, entered in H. cbv zeta in H. destruct (thr s t) eqn:Et; try discriminate H; cbn [T2 bary kbary] in T; unfold V in Vt; cbn [view] in Vt.
  all: try (break H; injection H as <- <-; fc; rewrite ?upd_same; cbn [T2 bary kbary]; auto; fail).
  - (* X1 *) injection H as <- <-. fc. rewrite upd_same. destruct (rfree (rc s r)); cbn; auto.
  - (* C1 *) injection H as <- <-. fc. rewrite upd_same. cbn. split; [|lia].
    intros u y X Y. destruct (own s u) as [v|] eqn:E; [pose proof (I0_open _ _ _ _ _ I E X); lia|].
    destruct (i_none _ _ I _ E) as [Z _]. rewrite Z in X. contradiction.
  - (* P1 *) injection H as <- <-. fc. rewrite upd_same. cbn. split; [|apply (g_all _ _ G)].
    intros b x X [E|[]]. destruct (g_all _ _ G r b x X) as [m [[Q1 Q2] Q3]]. apply (Bd_done s lo _ m); auto. apply slot_2; auto. congruence.
  - (* PC *) assert (Z : DK s g r [slot (esub e 1)] KPoll).
    { split; auto. intros b x X [E|[]]. destruct (T b x X) as [m [[Q1 Q2] [Q3 Q4]]]. apply Q4. apply slot_1; auto. congruence. }
    break H; injection H as <- <-; fc; rewrite upd_same; exact Z.
  - (* PW *) injection H as <- <-. fc. rewrite upd_same. cbn. split; auto. intros b x X _. apply (T b x X).
  - (* Y4 *) break H; injection H as <- <-; fc; rewrite upd_same; [apply T2_sn_ks; [intros; discriminate|exact T]|exact T|exact T].
  - (* YC *) break H; injection H as <- <-; fc; rewrite upd_same; destruct (Nat.ltb (S i) 2); exact T.
  - (* YL *) destruct b as [r|]; injection H as <- <-; fc; rewrite upd_same; cbn; auto. split; auto. intros b x X _ u v y O N Y Z.
    apply (TY u v y O N Y). apply (T b x X u y); auto.
  - (* S0 *) injection H as <- <-. fc. rewrite upd_same. destruct k as [r f|b e0 i]; [|apply T2_sn_ks; [intros; discriminate|exact T]].
    apply T2_sn_kp. intros b x X. destruct (T b x X) as [m [Q1 Q2]]. exists m. repeat (split; auto). intros _ u v y O N. exfalso. apply N. apply (i_rec _ _ I _ _ O).
  - (* Sc *) destruct rest as [|v rest]; [discriminate|]. injection H as <- <-. fc. rewrite upd_same. destruct k as [r f|b e0 i].
    + destruct (rfree (rc s v)) eqn:F; [|exact T]. apply T2_sn_kp. intros b x X. destruct (T b x X) as [m [Q1 [Q2 Q3]]]. exists m. repeat (split; auto).
      intros Y. apply (Clv_cons _ _ v); auto. intros u y. apply (rfree_zero s lo v); auto.
    + destruct (rfree (rc s v)); [apply T2_sn_ks; [intros; discriminate|exact T]|exact T].
  - (* Sa *) destruct rest as [|v rest]; [discriminate|]. injection H as <- <-. fc. rewrite upd_same. destruct k as [r f|b e0 i].
    + destruct (ract (rc s v)) eqn:F.
      * apply T2_sn_kp. intros b x X. destruct (T b x X) as [m [Q1 [Q2 Q3]]]. exists m. repeat (split; auto).
        intros Y. apply (Clv_cons _ _ v); auto. intros u y. apply (ract_zero s lo v); auto.
      * cbn. intros b x X. destruct (T b x X) as [m [Q1 [Q2 Q3]]]. exists m. auto.
    + destruct (ract (rc s v)); [apply T2_sn_ks; [intros; discriminate|exact T]|exact T].
  - (* Sr *) destruct rest as [|v rest]; [discriminate|]. injection H as <- <-. fc. rewrite upd_same. destruct k as [r f|b e0 i].
    + destruct (N.eqb_spec (rrep (rc s v)) d) as [F|F]; [|cbn; auto]. apply T2_sn_kp. intros b x X. destruct (T b x X) as [m [Q1 [Q2 Q3]]]. exists m. repeat (split; auto).
      intros [Y|Y]; [discriminate|]. apply (Clv_cons _ _ v); auto. intros u y. apply (Bd_rep s lo _ m v); auto; [apply Q1|lia].
    + destruct (_ =? _); [apply T2_sn_ks; [intros; discriminate|exact T]|exact T].
  - (* D0 *) destruct bs as [|b bs]; [discriminate|]. injection H as <- <-. fc. rewrite upd_same. destruct T as [T1 T2]. cbn. split.
    + intros x X. apply (T1 b x X). left; auto.
    + split; auto. intros b' x X Y. apply (T1 b' x X). right; auto.
  - (* DR *) destruct l as [|x l]; injection H as <- <-; fc; rewrite upd_same; [apply T|]. destruct T as [T1 T2]. split; auto. intros y Y. apply T1. right; auto.
  - (* DN *) break H; injection H as <- <-; fc; rewrite upd_same; [exact T|]. apply T2_dn. auto.
  - injection H as <- <-. fc. rewrite upd_same. apply T2_dn. auto.
  - injection H as <- <-. fc. rewrite upd_same. apply T2_dn. auto.
Qed.

Lemma gset_step : forall c s l s' ev g x, step c s l = Some (s', ev) -> (x < nent s)%nat -> g_set (gfold ev g) x = g_set g x.
Proof.
  intros c s l s' ev g x H N. destruct l as [t o|t]; cbn [step lthr] in *.
  - destruct (thr s t) eqn:Et; try discriminate. destruct o; cbn [call] in H; cbv zeta in H;
      try discriminate H; break H; injection H as <- <-; cbn; rewrite ?upd_other by lia; auto.
  - unfold tick, entered in H. cbv zeta in H. destruct (thr s t) eqn:Et; try discriminate H; break H; injection H as <- <-; cbn; auto.
Qed.
Lemma gset_new : forall c s l s' ev g x i, step c s l = Some (s', ev) -> In i (g_set (gfold ev g) x) -> In i (g_set g x) \/ In i (map snd (g_act g)).
Proof.
  intros c s l s' ev g x i H. destruct l as [t o|t]; cbn [step lthr] in *.
  - destruct (thr s t) eqn:Et; try discriminate. destruct o; cbn [call] in H; cbv zeta in H;
      try discriminate H; break H; injection H as <- <-; cbn; auto. rewrite updE. destruct (Nat.eq_dec x (nent s)); auto.
  - unfold tick, entered in H. cbv zeta in H. destruct (thr s t) eqn:Et; try discriminate H; break H; injection H as <- <-; cbn; auto.
Qed.
Lemma grace_nb : forall g e, grace_ok g e = true \/ exists x, e = ERun x.
Proof. intros g e. destruct e; cbn; eauto. Qed.

Lemma polp_pol : forall o p r, polp None p = Some r -> polp o p = Some r.
Proof. intros o p r H. destruct p; cbn in *; auto; discriminate. Qed.

Lemma grace_step : forall c s lo l s' ev g, c_excl c = true -> I0 s lo -> ep s + 8 < W -> R1 s g -> IW s -> IE s -> IP s g -> IL s g -> IG s g ->
  step c s l = Some (s', ev) -> legal_from grace_ok g ev /\ IG s' (gfold ev g).
Proof.
  intros c s lo l s' ev g Hx I Hg R Wf E P L G H.
  pose proof (step_pd _ _ _ _ _ H) as D.
  assert (M : moves s s' (lthr l)) by (intros u N; eapply step_thr; eauto).
  assert (LT : forall x r p, at_ s x r p -> (x < nent s)%nat). { intros x r p X. apply (p_in _ _ P) in X. eapply (p_lt _ _ P); eauto. }
  assert (MO : forall x, mono s s' (g_set g x)). { intros x. eapply step_mono; eauto. intros i. apply (g_ids _ _ G). }
  assert (EP : ep s <= ep s') by (rewrite (ep_step c s lo l s' ev I Hg H); lia).
  assert (GS : forall x, (x < nent s)%nat -> g_set (gfold ev g) x = g_set g x) by (intros; eapply gset_step; eauto).
  assert (NS : (nsec s <= nsec s')%nat).
  { destruct (step_opn _ _ _ _ _ H) as [X Y Z|k e X Y Z|j y X Y Z W V]; lia. }
  split.
  - destruct D as [Dr Dc Dd Dn De|b r Dt Dt' Dn Dr Dm De|b r y e Dt Dt' Dr Dn De|r b bs k Dt Dt' Dr Dn De|r y l' n bs k Dt Dt' Dr Dn De|r Dw Dr Dc Dc' Dd Dd' Dn De].
    + clear - De. revert g. induction ev as [|e ev IH]; intros g; cbn; auto. cbn in De. apply andb_true_iff in De. destruct De as [A B].
      split; auto. destruct e; auto; discriminate.
    + subst ev. cbn. auto.
    + subst ev. cbn. auto.
    + subst ev. cbn. auto.
    + subst ev. cbn. split; auto. apply (over_clv s lo); auto; [apply (a_act _ _ R)|]. pose proof (g_t _ _ G (lthr l)) as T. rewrite Dt in T. apply T. left; auto.
    + subst ev. cbn. auto.
  - constructor.
    + (* g_all *)
      intros r b x X.
      assert (OLD : In x (rp s r b) -> exists m, due s' (gfold ev g) b x m /\ m <= ep s').
      { intros Y. destruct (g_all _ _ G r b x Y) as [m [[Q1 Q2] Q3]]. exists m. split; [|lia]. split; auto.
        rewrite GS by (apply (LT x r (PPend r b)); cbn; auto). apply (Bd_mono s); auto. }
      destruct D as [Dr Dc Dd Dn De|b' q Dt Dt' Dn Dr Dm De|b' q y e Dt Dt' Dr Dn De|q b' bs k Dt Dt' Dr Dn De|q y l' n bs k Dt Dt' Dr Dn De|q Dw Dr Dc Dc' Dd Dd' Dn De]; rewrite Dr in X; auto.
      * destruct (Nat.eq_dec r q) as [->|]; auto. destruct (Nat.eq_dec b (slot e)) as [->|]; auto. destruct X as [<-|X]; auto.
        pose proof (g_t _ _ G (lthr l)) as T. rewrite Dt in T. cbn in T. destruct T as [T1 T2]. exists e. split; [|lia]. split; auto.
        rewrite GS by (apply (LT y q (PCall (lthr l))); cbn; rewrite Dt; auto). apply (Bd_mono s); auto.
      * destruct (Nat.eq_dec r q) as [->|]; auto. destruct (Nat.eq_dec b b') as [->|]; auto. contradiction.
      * destruct (Nat.eq_dec r q) as [->|]; auto. contradiction.
    + intros x i X. destruct (gset_new _ _ _ _ _ _ _ _ H X) as [Y|Y].
      * apply (g_ids _ _ G) in Y. lia.
      * apply in_map_iff in Y. destruct Y as [[u j] [Y1 Y2]]. cbn in Y1. subst j. apply (a_act _ _ R) in Y2. destruct Y2 as [y [Y2 Y3]]. subst i. apply (i_ns _ _ I) in Y2. lia.
    + intros u. destruct (Nat.eq_dec u (lthr l)) as [->|N].
      * destruct l as [t o|t]; cbn [step lthr] in *.
        -- destruct (thr s t) eqn:Et; try discriminate.
           assert (K : T2 s' (gfold ev g) t (thr s' t)); [|exact K].
           destruct o; cbn [call] in H; cbv zeta in H; break H; injection H as <- <-; fc; rewrite ?upd_same, ?Et; cbn [T2 bary]; auto.
           intros b x X v y Y _. cbn. rewrite upd_same. apply in_map_iff. exists (v, sid y). split; auto. apply (a_act _ _ R). fc. eauto.
        -- pose proof (T2_self s lo t s' ev g I Hg R G H) as T.
           apply (T2_mono s s' g); auto.
           ++ intros r b x PP X. destruct D as [Dr Dc Dd Dn De|b' q Dt Dt' Dn Dr Dm De|b' q y e Dt Dt' Dr Dn De|q b' bs k Dt Dt' Dr Dn De|q y l' n bs k Dt Dt' Dr Dn De|q Dw Dr Dc Dc' Dd Dd' Dn De]; rewrite Dr in X; auto.
              ** rewrite Dt' in PP. discriminate.
              ** destruct (Nat.eq_dec r q) as [->|]; auto. destruct (Nat.eq_dec b b') as [->|]; auto. contradiction.
              ** destruct (Nat.eq_dec r q) as [->|]; auto. contradiction.
           ++ rewrite (wait_tick _ _ _ _ _ H). auto.
           ++ intros r b x X. apply (LT x r (PPend r b)). cbn; auto.
           ++ intros r x X. destruct D as [Dr Dc Dd Dn De|b' q Dt Dt' Dn Dr Dm De|b' q y e Dt Dt' Dr Dn De|q b' bs k Dt Dt' Dr Dn De|q y l' n bs k Dt Dt' Dr Dn De|q Dw Dr Dc Dc' Dd Dd' Dn De]; try (rewrite ?Dt' in X; discriminate X); try congruence.
              ** apply (LT x r (PCall t)). cbn. congruence.
              ** unfold tick in H. rewrite Dt in H. discriminate.
           ++ intros r x X. destruct D as [Dr Dc Dd Dn De|b' q Dt Dt' Dn Dr Dm De|b' q y e Dt Dt' Dr Dn De|q b' bs k Dt Dt' Dr Dn De|q y l' n bs k Dt Dt' Dr Dn De|q Dw Dr Dc Dc' Dd Dd' Dn De]; try (rewrite ?Dt' in X; contradiction X).
              ** apply (LT x r (PDisp t)). cbn. congruence.
              ** rewrite Dt' in X. cbn in X. apply in_map_iff in X. destruct X as [z [X Y]]. injection X as <- <-. apply (LT z q (PPend q b')). cbn; auto.
              ** apply (LT x r (PDisp t)). cbn. rewrite Dt. right. rewrite Dt' in X. auto.
              ** rewrite Dd' in X. contradiction.
      * rewrite (M u N). apply (T2_mono s s' g); auto.
        -- intros r b x PP X. pose proof (polp_pol (own s u) _ _ PP) as PU.
           destruct D as [Dr Dc Dd Dn De|b' q Dt Dt' Dn Dr Dm De|b' q y e Dt Dt' Dr Dn De|q b' bs k Dt Dt' Dr Dn De|q y l' n bs k Dt Dt' Dr Dn De|q Dw Dr Dc Dc' Dd Dd' Dn De]; rewrite Dr in X; auto.
           ++ destruct (Nat.eq_dec r q) as [->|]; auto. exfalso. apply (e_p _ E) in PU. apply (e_x _ E) in PU.
              assert (IC : In (lthr l) (cls s q)) by (eapply (e_c _ E); rewrite Dt; reflexivity). rewrite PU in IC. contradiction.
           ++ destruct (Nat.eq_dec r q) as [->|]; auto. destruct (Nat.eq_dec b b') as [->|]; auto. contradiction.
           ++ destruct (Nat.eq_dec r q) as [->|]; auto. contradiction.
        -- apply (wait_step c s l s' ev g u H N).
        -- intros r b x X. apply (LT x r (PPend r b)). cbn; auto.
        -- intros r x X. apply (LT x r (PCall u)). cbn. auto.
        -- intros r x X. apply (LT x r (PDisp u)). cbn. auto.
        -- apply (g_t _ _ G).
Qed.

(** ** Runs *)
Lemma legal_chk : forall ok ev g, legal_from ok g ev -> accepts (chk ok) g ev = Some (gfold ev g).
Proof. induction ev as [|e ev IH]; intros g L; auto. cbn in L |- *. destruct L as [A B]. unfold chk at 1. rewrite A. apply IH. auto. Qed.
Lemma legal_and : forall ok1 ok2 ok ev g, (forall g e, ok1 g e = true -> ok2 g e = true -> ok g e = true) -> legal_from ok1 g ev -> legal_from ok2 g ev -> legal_from ok g ev.
Proof. intros ok1 ok2 ok ev g H. revert g. induction ev as [|e ev IH]; intros g; cbn; auto. intros [A B] [C D]. auto. Qed.
Lemma once_and : forall g e, run_ok g e = true -> bar_ok g e = true -> once_ok g e = true.
Proof. intros g e. destruct e; cbn; auto. Qed.
Lemma step_moves : forall c s l s' ev, step c s l = Some (s', ev) -> moves s s' (lthr l).
Proof. intros c s l s' ev H u N. eapply step_thr; eauto. Qed.

(** a relation between state, observer state and log that is kept by all steps, with a legality condition *)
Lemma obs_run : forall c ok (R : st -> gs -> list event -> Prop) (Gd : list event -> Prop), (forall a b, Gd (a ++ b) -> Gd a) ->
  (forall s g log l s' ev, R s g log -> Gd log -> step c s l = Some (s', ev) -> legal_from ok g ev /\ R s' (gfold ev g) (log ++ ev)) ->
  R init gs0 [] -> forall ls s log, run (step c) init ls = Some (s, log) -> Gd log -> legal ok log /\ R s (gfold log gs0) log.
Proof.
  intros c ok R Gd HG HS HI ls s log H G.
  destruct (sim_run_guard st label event gs (step c) (chk ok) R Gd HG) with (ls := ls) (s := init) (a := gs0) (s' := s) (log := log) (log0 := @nil event) as [g [A B]]; auto.
  - intros s0 g log0 l s' ev R0 G0 St. destruct (HS _ _ _ _ _ _ R0 G0 St) as [L R']. exists (gfold ev g). split; auto. apply legal_chk. auto.
  - destruct (chk_ok ok log gs0) as [L E]; eauto. split; auto. rewrite E in A. injection A as <-. auto.
Qed.

Theorem run_run : forall c ls s log, run (step c) init ls = Some (s, log) -> legal run_ok log.
Proof.
  intros c ls s log H. apply (obs_run c run_ok (fun s g _ => IP s g) (fun _ => True)) with (ls := ls) (s := s); auto.
  - intros s0 g log0 l s' ev I _ St. apply (IP_step c s0 (lthr l) s' ev g); auto; [eapply step_moves; eauto|apply step_pd; auto].
  - apply IP_init.
Qed.

Definition RX (s : st) (g : gs) : Prop := IW s /\ IE s /\ IP s g /\ IL s g /\ IB s g /\ IN s g.
Lemma RX_init : RX init gs0.
Proof. unfold RX. auto 10 using IW_init, IE_init, IP_init, IL_init, IB_init, IN_init. Qed.
Lemma RX_step : forall c s g l s' ev, c_excl c = true -> RX s g -> step c s l = Some (s', ev) -> legal_from once_ok g ev /\ RX s' (gfold ev g).
Proof.
  intros c s g l s' ev Hx [A [B [C [D [E F]]]]] H.
  destruct (IP_step c s (lthr l) s' ev g) as [L1 C']; auto; [eapply step_moves; eauto|apply step_pd; auto|].
  destruct (IB_step c s l s' ev g) as [L2 E']; auto.
  split; [apply (legal_and _ _ _ _ _ once_and L1 L2)|].
  split; [eapply IW_step; eauto|]. split; [eapply IE_step; eauto|]. split; auto. split; [eapply IL_step; eauto|]. split; auto. eapply IN_step; eauto.
Qed.
Theorem once_run : forall c ls s log, c_excl c = true -> run (step c) init ls = Some (s, log) -> legal once_ok log /\ RX s (gfold log gs0).
Proof.
  intros c ls s log Hx H. apply (obs_run c once_ok (fun s g _ => RX s g) (fun _ => True)) with (ls := ls); auto.
  - intros s0 g log0 l s' ev I _ St. apply (RX_step c s0 g l); auto.
  - apply RX_init.
Qed.

Theorem grace_run : forall c ls s log, c_mix c = false -> c_excl c = true -> run (step c) init ls = Some (s, log) -> room log -> legal grace_ok log.
Proof.
  intros c ls s log Hm Hx H G. apply (obs_run c grace_ok (fun s g log => RB s log /\ R1 s g /\ RX s g /\ IG s g) room) with (ls := ls) (s := s); auto.
  - apply room_app.
  - intros s0 g log0 l s' ev [A [B [C D]]] G0 St. pose proof (RB_room _ _ A G0) as E. pose proof A as [[lo I] _].
    pose proof C as [X1 [X2 [X3 [X4 _]]]].
    destruct (grace_step c s0 lo l s' ev g) as [L D']; auto. split; auto.
    destruct (sync_step s0 lo l c s' ev g I E B St) as [_ B'].
    split; [eapply RB_step; eauto|]. split; auto. split; auto. apply (RX_step c s0 g l); auto.
  - split; [apply RB_init|]. split; [apply R1_init|]. split; [apply RX_init|apply IG_init].
Qed.

(** the pending counter, when nobody is working with the record *)
Theorem count_run : forall c ls s log, c_excl c = true -> run (step c) init ls = Some (s, log) ->
  (forall t, thr s t = Idle) -> forall r, rnpend (rc s r) = waiting r log.
Proof.
  intros c ls s log Hx H Hi r. destruct (once_run c ls s log Hx H) as [_ [A [E [_ [_ [_ F]]]]]].
  assert (C : cls s r = []). { destruct (cls s r) as [|u l] eqn:C; auto. destruct (e_cc _ E u r) as [x Y]; [rewrite C; left; auto|]. rewrite Hi in Y. discriminate. }
  assert (B : bpl s r = false). { destruct (bpl s r) eqn:B; auto. destruct (e_b _ E _ B) as [t T]. unfold pol in T. rewrite Hi in T. discriminate. }
  pose proof (n_p _ _ F r B) as Z. unfold pre in Z. rewrite C in Z. cbn in Z. unfold waiting. unfold wt, gfold in Z. lia.
Qed.
