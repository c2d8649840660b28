(** * Epoch model: synchronize waits for the read sections open when it is called *)
From Coq Require Import List Arith NArith Bool Lia.
From Verif Require Import Lib RingMp_Proof Epoch_Model Epoch_Spec Epoch_Proof.
Import ListNotations.
Local Open Scope N_scope.
Local Arguments N.add : simpl never. Local Arguments N.sub : simpl never. Local Arguments N.modulo : simpl never.
Local Arguments N.eqb : simpl never. Local Arguments N.leb : simpl never. Local Arguments N.ltb : simpl never.
Local Arguments Nat.modulo : simpl never. Local Arguments Nat.ltb : simpl never.
Local Arguments upd : simpl never.

Definition gfold := fold_left gnext.
Lemma gfold_app : forall a b g, gfold (a ++ b) g = gfold b (gfold a g).
Proof. intros. apply fold_left_app. Qed.

(** ** Steps, sorted by what they do to the open sections *)
Definition lthr (l : label) : nat := match l with LCall t _ | LStep t => t end.

Definition nosec (e : event) : bool := match e with EBegin _ _ | EEnd _ _ => false | _ => true end.

Ltac break H := repeat match type of H with
  | (match ?x with _ => _ end) = Some _ => destruct x eqn:?; try discriminate H
  | Some (if ?b then _ else _, _) = Some _ => destruct b eqn:?
  end.

Inductive opnd (t : nat) (s s' : st) (ev : list event) : Prop :=
| od_same : (forall u, opn s' u = opn s u) -> nsec s' = nsec s -> forallb nosec ev = true -> opnd t s s' ev
| od_new : forall k e, ev = [EBegin t (nsec s)] -> (forall u, opn s' u = upd (opn s) t (mkS (nsec s) k e :: opn s t) u) ->
    nsec s' = S (nsec s) -> opnd t s s' ev
| od_end : forall i x, ev = [EEnd t i] -> In x (opn s t) -> sid x = i ->
    (forall u, opn s' u = upd (opn s) t (drop_sec i (opn s t)) u) -> nsec s' = nsec s -> opnd t s s' ev.

Lemma step_opn : forall c s l s' ev, step c s l = Some (s', ev) -> opnd (lthr l) s s' ev.
Proof.
  intros c s l s' ev H. destruct l as [t o|t]; cbn [step lthr] in *.
  - destruct (thr s t) eqn:Et; try discriminate. destruct o; cbn [call] in H; cbv zeta in H.
    5: { destruct (own s t); [|discriminate]. destruct (find_sec s0 (opn s t)) as [x|] eqn:F; [|discriminate].
         injection H as <- <-. destruct (find_sec_in _ _ _ F). eapply od_end; fc; eauto. }
    all: try discriminate H; break H; injection H as <- <-; apply od_same; fc; auto.
  - unfold tick, entered in H. cbv zeta in H. destruct (thr s t) eqn:Et; try discriminate H; break H; injection H as <- <-;
      try (apply od_same; fc; auto; fail); eapply od_new; fc; eauto.
Qed.

Lemma step_thr : forall c s l s' ev u, step c s l = Some (s', ev) -> u <> lthr l -> thr s' u = thr s u.
Proof.
  intros c s l s' ev u H N. destruct l as [t o|t]; cbn [step lthr] in *.
  - destruct (thr s t) eqn:Et; try discriminate. destruct o; cbn [call] in H; cbv zeta in H;
      try discriminate H; break H; injection H as <- <-; fc; rewrite ?upd_other by auto; auto.
  - unfold tick, entered in H. cbv zeta in H. destruct (thr s t) eqn:Et; try discriminate H; break H; injection H as <- <-; fc; rewrite ?upd_other by auto; auto.
Qed.

(** a thread with open sections keeps its record *)
Lemma step_own : forall c s lo l s' ev u v x, I0 s lo -> step c s l = Some (s', ev) ->
  own s' u = Some v -> In x (opn s u) -> own s u = Some v.
Proof.
  intros c s lo l s' ev u v x I H O X.
  assert (N : own s u = None -> False).
  { intros E. destruct (i_none _ _ I _ E) as [Z _]. rewrite Z in X. contradiction. }
  destruct l as [t o|t]; cbn [step lthr] in H.
  - destruct (thr s t) eqn:Et; try discriminate. destruct o; cbn [call] in H; cbv zeta in H;
      try discriminate H; break H; injection H as <- <-; fc; auto.
    rewrite updE in O. destruct (Nat.eq_dec u t) as [->|]; auto. exfalso; auto.
  - unfold tick, entered in H. cbv zeta in H. destruct (thr s t) eqn:Et; try discriminate H; break H; injection H as <- <-; fc; auto;
      rewrite updE in O; destruct (Nat.eq_dec u t) as [->|]; auto; try discriminate.
    destruct (i_xn _ _ I t r ltac:(rewrite Et; auto)) as [Z _]. exfalso; auto.
Qed.

(** ** The invariant of synchronize *)
(** sections of [P] that are still open were entered in epoch [m] or earlier *)
Definition Bd (s : st) (P : list nat) (m : N) : Prop :=
  forall u x, In x (opn s u) -> In (sid x) P -> sep x <= m.
(** no section of [P] is open on a record outside [rest] *)
Definition Clv (s : st) (P rest : list nat) : Prop :=
  forall u v x, own s u = Some v -> ~ In v rest -> In x (opn s u) -> ~ In (sid x) P.
Definition sc1 (e0 : N) (i : nat) (d : N) : Prop := e0 <= d /\ ((1 <= i)%nat -> e0 < d).
Definition T1 (s : st) (P : list nat) (p : pc) : Prop :=
  match p with
  | S0 (KS _ e0 i) d => Bd s P e0 /\ sc1 e0 i d
  | Sc (KS _ e0 i) d af rest | Sa (KS _ e0 i) d af rest => (Bd s P e0 /\ sc1 e0 i d) /\ (af = false \/ e0 < d -> Clv s P rest)
  | Sr (KS _ e0 i) d rest | Y4 _ e0 i d rest => (Bd s P e0 /\ sc1 e0 i d) /\ (e0 < d -> Clv s P rest)
  | YC _ e0 i d => (Bd s P e0 /\ sc1 e0 i d) /\ (e0 < d -> Clv s P [])
  | YL _ => Clv s P []
  | _ => True
  end.

Definition mono (s s' : st) (P : list nat) : Prop :=
  forall u x, In x (opn s' u) -> In (sid x) P -> In x (opn s u) /\ forall v, own s' u = Some v -> own s u = Some v.

Lemma Bd_mono : forall s s' P m, mono s s' P -> Bd s P m -> Bd s' P m.
Proof. intros s s' P m M B u x X Y. apply (B u x); auto. apply (M u x X Y). Qed.
Lemma Clv_mono : forall s s' P rest, mono s s' P -> Clv s P rest -> Clv s' P rest.
Proof. intros s s' P m M B u v x X Y Z W. destruct (M u x Z W) as [A C]. apply (B u v x); auto. Qed.
Lemma T1_mono : forall s s' P p, mono s s' P -> T1 s P p -> T1 s' P p.
Proof.
  intros s s' P p M. pose proof (Bd_mono s s' P) as B. pose proof (Clv_mono s s' P) as C.
  destruct p; cbn [T1]; auto; try destruct k; auto; intros;
    repeat match goal with H : _ /\ _ |- _ => destruct H end; repeat (split; auto).
Qed.

Lemma step_mono : forall c s lo l s' ev P, I0 s lo -> step c s l = Some (s', ev) -> (forall i, In i P -> (i < nsec s)%nat) -> mono s s' P.
Proof.
  intros c s lo l s' ev P I H N u x X Y.
  assert (Z : In x (opn s u)).
  { destruct (step_opn _ _ _ _ _ H) as [A B C|k e A B C|i y A B C D E].
    - rewrite A in X. auto.
    - rewrite B, updE in X. destruct (Nat.eq_dec u (lthr l)) as [->|]; auto. destruct X as [<-|X]; auto. specialize (N _ Y). cbn in N. lia.
    - rewrite D, updE in X. destruct (Nat.eq_dec u (lthr l)) as [->|]; auto. apply drop_in in X. tauto. }
  split; auto. intros v O. apply (step_own c s lo l s' ev u v x); auto.
Qed.

Record R1 (s : st) (g : gs) : Prop := {
  a_act : forall t i, In (t, i) (g_act g) <-> exists x, In x (opn s t) /\ sid x = i;
  a_w : forall t i, In i (g_wait g t) -> (i < nsec s)%nat;
  a_t : forall t, T1 s (g_wait g t) (thr s t) }.

Lemma R1_init : R1 init gs0.
Proof. constructor; cbn; intros; auto; try contradiction. split; [contradiction|]. intros [x [[] _]]. Qed.

Definition is_sync (e : event) : bool := match e with ESync _ => true | _ => false end.

Lemma gact_fold : forall ev g, forallb nosec ev = true -> g_act (gfold ev g) = g_act g.
Proof. induction ev as [|e ev IH]; intros g H; auto. cbn in H. apply andb_true_iff in H. destruct H as [A B]. cbn. rewrite IH; auto. destruct e; auto; discriminate. Qed.

Lemma act_step : forall c s lo l s' ev g, I0 s lo -> step c s l = Some (s', ev) ->
  (forall t i, In (t, i) (g_act g) <-> exists x, In x (opn s t) /\ sid x = i) ->
  forall t i, In (t, i) (g_act (gfold ev g)) <-> exists x, In x (opn s' t) /\ sid x = i.
Proof.
  intros c s lo l s' ev g I H A t i. destruct (step_opn _ _ _ _ _ H) as [X Y Z|k e X Y Z|j y X Y Z W V].
  - rewrite gact_fold by auto. rewrite X. auto.
  - subst ev. cbn [gfold fold_left gnext g_act]. rewrite Y, updE. cbn [In]. rewrite A. destruct (Nat.eq_dec t (lthr l)) as [->|N].
    + split.
      * intros [E|[x [B C]]]; [injection E as <-; eexists; split; [left; reflexivity|auto]|exists x; split; [right|]; auto].
      * intros [x [[<-|B] C]]; [left; cbn in C; congruence|right; exists x; auto].
    + split; [intros [E|E]; auto; congruence|auto].
  - subst ev. cbn [gfold fold_left gnext g_act]. rewrite filter_In, A, W, updE. cbn [snd].
    destruct (Nat.eq_dec t (lthr l)) as [->|N].
    + split.
      * intros [[x [B C]] D]. exists x. split; auto. apply drop_in. split; auto. intros E. rewrite <- C, E, Nat.eqb_refl in D. discriminate.
      * intros [x [B C]]. apply drop_in in B. destruct B as [B D]. split; [exists x; auto|]. destruct (Nat.eqb_spec i j); auto. congruence.
    + split; [tauto|]. intros [x [B C]]. split; [exists x; auto|]. destruct (Nat.eqb_spec i j); auto. subst j i.
      exfalso. apply N. apply (i_id _ _ I _ _ _ _ B Y). auto.
Qed.

(** who changes [g_wait] *)
Lemma wait_step : forall c s l s' ev g u, step c s l = Some (s', ev) -> u <> lthr l -> g_wait (gfold ev g) u = g_wait g u.
Proof.
  intros c s l s' ev g u H N. destruct l as [t o|t]; cbn [step lthr] in *.
  - destruct (thr s t) eqn:Et; try discriminate. destruct o; cbn [call] in H; cbv zeta in H;
      try discriminate H; break H; injection H as <- <-; cbn; rewrite ?upd_other by auto; auto.
  - unfold tick, entered in H. cbv zeta in H. destruct (thr s t) eqn:Et; try discriminate H; break H; injection H as <- <-; cbn; auto.
Qed.
Lemma wait_tick : forall s t s' ev g, tick s t = Some (s', ev) -> g_wait (gfold ev g) = g_wait g.
Proof.
  intros s t s' ev g H. unfold tick, entered in H. cbv zeta in H. destruct (thr s t) eqn:Et; try discriminate H; break H; injection H as <- <-; cbn; auto.
Qed.

Lemma over_spec : forall s g P, (forall t i, In (t, i) (g_act g) <-> exists x, In x (opn s t) /\ sid x = i) ->
  (over g P = true <-> forall u x, In x (opn s u) -> ~ In (sid x) P).
Proof.
  intros s g P A. unfold over. rewrite forallb_forall. split.
  - intros H u x X Y. specialize (H _ Y). apply negb_true_iff in H.
    assert (C : existsb (fun p => Nat.eqb (snd p) (sid x)) (g_act g) = true); [|congruence].
    apply existsb_exists. exists (u, sid x). split; [apply A; exists x; auto|apply Nat.eqb_refl].
  - intros H i Hi. apply negb_true_iff. destruct (existsb _ _) eqn:E; auto. apply existsb_exists in E. destruct E as [[u j] [B C]].
    cbn in C. apply Nat.eqb_eq in C. subst j. apply A in B. destruct B as [x [X Y]]. exfalso. apply (H u x X). congruence.
Qed.
Lemma over_clv : forall s lo g P, I0 s lo -> (forall t i, In (t, i) (g_act g) <-> exists x, In x (opn s t) /\ sid x = i) ->
  (over g P = true <-> Clv s P []).
Proof.
  intros s lo g P I A. rewrite (over_spec s g P A). split.
  - intros H u v x _ _. apply H.
  - intros H u x X. destruct (own s u) as [v|] eqn:E; [apply (H u v x); auto|]. destruct (i_none _ _ I _ E) as [Z _]. rewrite Z in X. contradiction.
Qed.

Lemma T1_snext : forall s P b e0 i d af rest, Bd s P e0 -> sc1 e0 i d -> (af = false \/ e0 < d -> Clv s P rest) -> T1 s P (snext (KS b e0 i) d af rest).
Proof. intros. unfold snext. destruct rest; [|cbn; auto]. cbn. destruct af; cbn; auto. Qed.
Lemma T1_kp : forall s P r f d af rest, T1 s P (snext (KP r f) d af rest).
Proof. intros. unfold snext. destruct rest; cbn; auto. destruct af; cbn; auto. Qed.
Lemma T1_dnext : forall s P r n bs k, T1 s P (dnext r n bs k) /\ T1 s P (dcount r n bs k).
Proof.
  intros. assert (A : T1 s P (dnext r n bs k)) by (unfold dnext; destruct bs, k; cbn; auto). split; auto. unfold dcount. destruct n; cbn; auto.
Qed.
(** the scan passes over a record *)
Lemma Clv_cons : forall s P v rest, Clv s P (v :: rest) -> (forall u x, own s u = Some v -> In x (opn s u) -> ~ In (sid x) P) -> Clv s P rest.
Proof.
  intros s P v rest A B u w x X Y Z. destruct (Nat.eq_dec w v) as [->|N]; [apply (B u x); auto|].
  apply (A u w x); auto. intros [C|C]; auto.
Qed.
(** a section entered two epochs ago is over *)
Lemma Bd_done : forall s lo P m, I0 s lo -> Bd s P m -> m + 2 <= ep s -> Clv s P [].
Proof. intros s lo P m I B L u v x X _ Y Z. pose proof (I0_open _ _ _ _ _ I X Y). specialize (B u x Y Z). lia. Qed.
(** a record that advertises an epoch after [m] has no section of [P] *)
Lemma Bd_rep : forall s lo P m v u x, I0 s lo -> Bd s P m -> m < rrep (rc s v) -> own s u = Some v -> In x (opn s u) -> ~ In (sid x) P.
Proof. intros s lo P m v u x I B L X Y Z. pose proof (I0_open _ _ _ _ _ I X Y). specialize (B u x Y Z). lia. Qed.
Lemma ract_zero : forall s lo v u x P, I0 s lo -> ract (rc s v) = 0%nat -> own s u = Some v -> In x (opn s u) -> ~ In (sid x) P.
Proof. intros s lo v u x P I B X Y. pose proof (I0_open _ _ _ _ _ I X Y). tauto. Qed.
Lemma rfree_zero : forall s lo v u x P, I0 s lo -> rfree (rc s v) = true -> own s u = Some v -> In x (opn s u) -> ~ In (sid x) P.
Proof. intros s lo v u x P I B X Y. pose proof (I0_open _ _ _ _ _ I X Y) as [_ [_ [_ [_ Z]]]]. congruence. Qed.

(** the synchronizing thread itself *)
Lemma T1_self : forall s lo t s' ev g, I0 s lo -> ep s + 8 < W -> R1 s g -> tick s t = Some (s', ev) ->
  T1 s (g_wait g t) (thr s' t).
Proof.
  intros s lo t s' ev g I Hg R H. pose proof (a_t _ _ R t) as T. pose proof (i_v _ _ I t) as Vt.
  unfold tick, entered in H. cbv zeta in H. destruct (thr s t) eqn:Et; try discriminate H; cbn [T1] in T; unfold V in Vt; cbn [view] in Vt.
  all: try (break H; injection H as <- <-; fc; rewrite ?upd_same; cbn [T1]; auto; fail).
  - (* X1 *) injection H as <- <-. fc. rewrite upd_same. destruct (rfree (rc s r)); cbn; auto.
  - (* Y1 *) injection H as <- <-. fc. rewrite upd_same. cbn. split; [|split; lia].
    intros u x X Y. destruct (own s u) as [v|] eqn:E; [pose proof (I0_open _ _ _ _ _ I E X); lia|].
    destruct (i_none _ _ I _ E) as [Z _]. rewrite Z in X. contradiction.
  - (* Y4 *)
    destruct T as [[T1 T2] T3]. destruct Vt as [Vt _].
    destruct (N.eqb_spec (ep s) d) as [E|E]; [|destruct ((e0 <? eadd e0 3) && (eadd e0 3 <=? ep s)) eqn:G]; injection H as <- <-; fc; rewrite upd_same.
    + apply T1_snext; auto. intros [X|X]; auto. discriminate.
    + cbn. apply andb_true_iff in G. destruct G as [G1 G2]. apply N.leb_le in G2. destruct T2. rewrite eadd_small in G2 by lia.
      apply (Bd_done s lo _ e0); auto. lia.
    + cbn. split; auto. destruct T2. split; [lia|]. intros. lia.
  - (* YC *)
    destruct T as [[T1 T2] T3]. destruct Vt as [Vt _]. destruct T2 as [T4 T5].
    destruct (N.eqb_spec (ep s) d) as [E|E]; injection H as <- <-; fc; rewrite upd_same.
    + rewrite eadd_small by lia. destruct (Nat.ltb_spec (S i) 2); cbn; auto.
      * split; auto. split; lia.
      * apply T3. apply T5. lia.
    + destruct (Nat.ltb_spec (S i) 2); cbn; auto.
      * split; auto. split; lia.
      * apply T3. apply T5. lia.
  - (* S0 *)
    injection H as <- <-. fc. rewrite upd_same. destruct k; [apply T1_kp|]. destruct T as [T1 T2]. apply T1_snext; auto.
    intros _ u v x X Y. exfalso. apply Y. apply (i_rec _ _ I _ _ X).
  - (* Sc *)
    destruct rest as [|v rest]; [discriminate|]. injection H as <- <-. fc. rewrite upd_same.
    destruct k; [destruct (rfree (rc s v)); [apply T1_kp|cbn; auto]|]. destruct T as [[T1 T2] T3].
    destruct (rfree (rc s v)) eqn:F; [|cbn; auto]. apply T1_snext; auto. intros X. apply (Clv_cons _ _ v); auto.
    intros u x. apply (rfree_zero s lo v); auto.
  - (* Sa *)
    destruct rest as [|v rest]; [discriminate|]. injection H as <- <-. fc. rewrite upd_same.
    destruct k; [destruct (ract (rc s v)); [apply T1_kp|cbn; auto]|]. destruct T as [[T1 T2] T3].
    destruct (ract (rc s v)) eqn:F; [|cbn; auto]. apply T1_snext; auto. intros X. apply (Clv_cons _ _ v); auto.
    intros u x. apply (ract_zero s lo v); auto.
  - (* Sr *)
    destruct rest as [|v rest]; [discriminate|]. injection H as <- <-. fc. rewrite upd_same.
    destruct k; [destruct (rrep (rc s v) =? d); [apply T1_kp|cbn; auto]|]. destruct T as [[T1 T2] T3].
    destruct (N.eqb_spec (rrep (rc s v)) d) as [F|F]; [|cbn; auto]. apply T1_snext; auto.
    intros [X|X]; [discriminate|]. apply (Clv_cons _ _ v); auto.
    intros u x. apply (Bd_rep s lo _ e0 v); auto. lia.
  - (* DN *)
    destruct (Nat.ltb pk (rnpend (rc s r))); injection H as <- <-; fc; rewrite upd_same; cbn; auto. apply T1_dnext.
  - injection H as <- <-; fc; rewrite upd_same; apply T1_dnext.
  - injection H as <- <-; fc; rewrite upd_same; apply T1_dnext.
Qed.

(** ** The simulation *)
Definition chk (ok : gs -> event -> bool) (g : gs) (e : event) : option gs := if ok g e then Some (gnext g e) else None.
Lemma chk_ok : forall ok log g, (exists g', accepts (chk ok) g log = Some g') -> legal_from ok g log /\ accepts (chk ok) g log = Some (gfold log g).
Proof.
  induction log as [|e log IH]; intros g [g' H]; cbn; auto. cbn in H. unfold chk in H at 1 |- * at 1.
  destruct (ok g e) eqn:E; [|discriminate]. destruct (IH (gnext g e)) as [A B]; eauto.
Qed.

Lemma sync_step : forall s lo l c s' ev g, I0 s lo -> ep s + 8 < W -> R1 s g -> step c s l = Some (s', ev) ->
  legal_from sync_ok g ev /\ R1 s' (gfold ev g).
Proof.
  intros s lo l c s' ev g I Hg R H.
  pose proof (act_step c s lo l s' ev g I H (a_act _ _ R)) as A.
  assert (NS : (nsec s <= nsec s')%nat).
  { destruct (step_opn _ _ _ _ _ H) as [X Y Z|k e X Y Z|j y X Y Z W V]; lia. }
  assert (OT : forall u, u <> lthr l -> T1 s' (g_wait (gfold ev g) u) (thr s' u)).
  { intros u N. rewrite (wait_step c s l s' ev g u H N), (step_thr c s l s' ev u H N).
    apply (T1_mono s); [|apply (a_t _ _ R)]. apply (step_mono c s lo l s' ev); auto. apply (a_w _ _ R). }
  destruct l as [t o|t]; cbn [step lthr] in *.
  - (* a call *)
    destruct (thr s t) eqn:Et; try discriminate.
    assert (TS : T1 s' (g_wait (gfold ev g) t) (thr s' t)).
    { destruct o; cbn [call] in H; cbv zeta in H; break H; injection H as <- <-; fc; rewrite ?upd_same, ?Et; cbn; auto. }
    split.
    + destruct o; cbn [call] in H; cbv zeta in H; break H; injection H as <- <-; cbn; auto.
    + constructor; auto.
      * intros u i. destruct (Nat.eq_dec u t) as [->|N].
        -- assert (W : forall j, In j (map snd (g_act g)) -> (j < nsec s)%nat).
           { intros j Hj. apply in_map_iff in Hj. destruct Hj as [[w k] [B C]]. cbn in B. subst k.
             apply (a_act _ _ R) in C. destruct C as [x [C D]]. subst j. apply (i_ns _ _ I _ _ C). }
           pose proof (a_w _ _ R t) as W2.
           destruct o; cbn [call] in H; cbv zeta in H; break H; injection H as <- <-; cbn; rewrite ?upd_same; fc; auto.
        -- rewrite (wait_step c s (LCall t o) s' ev g u); auto; [|cbn [step]; rewrite Et; auto]. intros X.
           apply (a_w _ _ R) in X. lia.
      * intros u. destruct (Nat.eq_dec u t) as [->|N]; auto.
  - (* a step *)
    assert (TS : T1 s' (g_wait (gfold ev g) t) (thr s' t)).
    { rewrite (wait_tick _ _ _ _ _ H). apply (T1_mono s).
      - apply (step_mono c s lo (LStep t) s' ev); auto. apply (a_w _ _ R).
      - apply (T1_self s lo t s' ev g); auto. }
    split.
    + pose proof (a_t _ _ R t) as T. unfold tick, entered in H. cbv zeta in H. destruct (thr s t) eqn:Et; try discriminate H; break H; injection H as <- <-; cbn; auto;
      (split; auto; apply (over_clv s lo); [auto|apply (a_act _ _ R)|exact T]).
    + constructor; auto.
      * intros u i. rewrite (wait_tick _ _ _ _ _ H). intros X. apply (a_w _ _ R) in X. lia.
      * intros u. destruct (Nat.eq_dec u t) as [->|N]; auto.
Qed.

(** ** Runs *)
Lemma ep_step : forall c s lo l s' ev, I0 s lo -> ep s + 8 < W -> step c s l = Some (s', ev) -> ep s' = ep s + N.of_nat (ticks ev).
Proof.
  intros c s lo l s' ev I Hg H. destruct l as [t o|t]; cbn [step] in H.
  - destruct (thr s t) eqn:Et; try discriminate. destruct o; cbn [call] in H; cbv zeta in H; break H; injection H as <- <-; cbn [ticks]; fc; lia.
  - pose proof (i_v _ _ I t) as Vt. unfold tick, entered in H. cbv zeta in H. unfold V in Vt.
    destruct (thr s t) eqn:Et; try discriminate H; break H; injection H as <- <-; fc; cbn [view] in Vt; cbn [ticks];
      try lia;
      repeat match goal with H : (_ =? _) = true |- _ => apply N.eqb_eq in H end; subst; rewrite eadd_small by lia; lia.
Qed.

Definition room (log : list event) : Prop := N.of_nat (ticks log) + 16 < W.
Lemma ticks_app : forall a b, ticks (a ++ b) = (ticks a + ticks b)%nat.
Proof. induction a as [|e a IH]; intros b; auto. destruct e; cbn; auto. Qed.
Lemma room_app : forall a b, room (a ++ b) -> room a.
Proof. unfold room. intros a b. rewrite ticks_app. lia. Qed.

(** the base relation: invariant 0 and the epoch is the number of advances *)
Definition RB (s : st) (log : list event) : Prop := (exists lo, I0 s lo) /\ ep s = 1 + N.of_nat (ticks log).
Lemma RB_init : RB init [].
Proof. split; [eexists; apply I0_init|reflexivity]. Qed.
Lemma RB_room : forall s log, RB s log -> room log -> ep s + 8 < W.
Proof. unfold RB, room. intros s log [_ H]. rewrite H. lia. Qed.
Lemma RB_step : forall c s log l s' ev, c_mix c = false -> RB s log -> room log -> step c s l = Some (s', ev) -> RB s' (log ++ ev).
Proof.
  intros c s log l s' ev Hm R G H. pose proof (RB_room _ _ R G) as E. destruct R as [[lo I] F]. split.
  - destruct l as [t o|t]; cbn [step] in H.
    + destruct (thr s t) eqn:Et; try discriminate. eapply I0_call; eauto.
    + eapply I0_step; eauto.
  - rewrite (ep_step c s lo l s' ev I E H), ticks_app, F. lia.
Qed.

Theorem sync_run : forall c ls s log, c_mix c = false -> run (step c) init ls = Some (s, log) -> room log -> legal sync_ok log.
Proof.
  intros c ls s log Hm H G.
  destruct (sim_run_guard st label event gs (step c) (chk sync_ok) (fun s g log => RB s log /\ R1 s g) room room_app) with (ls := ls) (s := init) (a := gs0) (s' := s) (log := log) (log0 := @nil event) as [g [A _]]; auto.
  - intros s0 g log0 l s' ev [B R] G0 St. pose proof (RB_room _ _ B G0) as E. destruct (B) as [[lo I] _].
    destruct (sync_step s0 lo l c s' ev g I E R St) as [L R']. exists (gfold ev g). split; [|split; auto; eapply RB_step; eauto].
    clear - L. revert g L. induction ev as [|e ev IH]; intros g L; cbn; auto. cbn in L. destruct L as [L1 L2]. unfold chk at 1. rewrite L1. apply IH. auto.
  - split; [apply RB_init|apply R1_init].
  - destruct (chk_ok sync_ok log gs0) as [L _]; eauto.
Qed.
