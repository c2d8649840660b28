(** C61 read off the log, and the end of traversals. *)
From Coq Require Import Arith List Bool Lia.
From Verif Require Import Lib Obs Queue_Model Queue_Spec Queue_Proof QueueOp_Proof QueueSeq_Proof QueueRd_Proof.
Import ListNotations.
Local Arguments loc_eqb : simpl never.

Lemma rd_run : forall k n g gp ls s log, run (step k) (init n g gp) ls = Some (s, log) ->
  legal_from gnext ok (gs0 n) log /\ exists P, Inv k s (gfold gnext log (gs0 n)) P.
Proof.
  intros k n g gp ls s log H.
  apply (obs_run (step k) gnext ok (fun s g => exists P, Inv k s g P)) with (ls := ls) (s := init n g gp); auto.
  - intros s0 g0 l s' ev [P I] E. eapply step_inv; eauto.
  - exists (fun _ => false). apply init_inv.
Qed.
Lemma rd_legal : forall k n g gp ls s log, run (step k) (init n g gp) ls = Some (s, log) -> legal_from gnext ok (gs0 n) log.
Proof. intros. eapply rd_run; eauto. Qed.

(** the lists, computed from the log alone *)
Definition lists (n : nat) (log : list event) : nat -> option (list nat) :=
  fold_left (fun A e => match e with EDo o => aop A o | _ => A end) log (empty_lists n).
Lemma lists_ga : forall log n, ga (gfold gnext log (gs0 n)) = lists n log.
Proof.
  induction log as [|e log IH] using rev_ind; intros n; auto.
  rewrite gfold_app. unfold lists. rewrite fold_left_app. fold (lists n log). simpl.
  destruct e; simpl; rewrite IH; auto.
Qed.
(** between its begin and its end the reader does not begin or end another traversal *)
Definition one_trav (t : nat) (b : list event) : Prop := forall e, In e b -> match e with EBegin u _ | EEnd u => u <> t | _ => True end.

Lemma trav_obs : forall n t h a b, one_trav t b ->
  exists r, gt (gfold gnext (a ++ EBegin t h :: b) (gs0 n)) t = Some r /\ t_h r = h /\
    (forall x, (forall b1 b2, b = b1 ++ b2 -> In x (elts (lists n (a ++ EBegin t h :: b1)) h)) -> In x (must r) \/ In (EVisit t x) b) /\
    (forall x, In x (may r) -> exists b1 b2, b = b1 ++ b2 /\ In x (elts (lists n (a ++ EBegin t h :: b1)) h)).
Proof.
  intros n t h a. induction b as [|e b IH] using rev_ind; intros O.
  - rewrite gfold_app. simpl. rewrite upd_same. eexists. split; [reflexivity|]. split; [reflexivity|]. simpl. rewrite lists_ga.
    assert (Q : lists n (a ++ [EBegin t h]) = lists n a) by (unfold lists; rewrite fold_left_app; reflexivity).
    split; intros x Hx.
    + left. specialize (Hx [] [] eq_refl). rewrite Q in Hx. auto.
    + exists [], []. rewrite Q. auto.
  - destruct IH as [r [G [T [M1 M2]]]]. { intros e' He. apply O. apply in_or_app. auto. }
    replace (a ++ EBegin t h :: b ++ [e]) with ((a ++ EBegin t h :: b) ++ [e]) by (rewrite <- app_assoc; reflexivity).
    rewrite gfold_app. assert (GA := lists_ga (a ++ EBegin t h :: b) n).
    remember (gfold gnext (a ++ EBegin t h :: b) (gs0 n)) as g eqn:Hg.
    assert (M1' : forall x, (forall b1 b2, b ++ [e] = b1 ++ b2 -> In x (elts (lists n (a ++ EBegin t h :: b1)) h)) -> In x (must r) \/ In (EVisit t x) b).
    { intros x Hx. apply M1. intros b1 b2 ->. apply (Hx b1 (b2 ++ [e])). rewrite <- app_assoc. auto. }
    assert (M2' : forall x, In x (may r) -> exists b1 b2, b ++ [e] = b1 ++ b2 /\ In x (elts (lists n (a ++ EBegin t h :: b1)) h)).
    { intros x Hx. destruct (M2 x Hx) as [b1 [b2 [-> Q]]]. exists b1, (b2 ++ [e]). rewrite <- app_assoc. auto. }
    assert (Oe : match e with EBegin u _ | EEnd u => u <> t | _ => True end) by (apply O; apply in_or_app; simpl; auto).
    assert (KEEP : forall r', r' = r -> exists r0, Some r' = Some r0 /\ t_h r0 = h /\
      (forall x, (forall b1 b2, b ++ [e] = b1 ++ b2 -> In x (elts (lists n (a ++ EBegin t h :: b1)) h)) -> In x (must r0) \/ In (EVisit t x) (b ++ [e])) /\
      (forall x, In x (may r0) -> exists b1 b2, b ++ [e] = b1 ++ b2 /\ In x (elts (lists n (a ++ EBegin t h :: b1)) h))).
    { intros r' ->. exists r. split; auto. split; auto. split; auto. intros x Hx. destruct (M1' x Hx); auto. right. apply in_or_app. auto. }
    destruct e as [o|u h'|u e|u]; simpl.
    + rewrite G. simpl. eexists. split; [reflexivity|]. split; [simpl; auto|].
      assert (Q : aop (ga g) o = lists n (a ++ EBegin t h :: b ++ [EDo o])).
      { rewrite GA. replace (a ++ EBegin t h :: b ++ [EDo o]) with ((a ++ EBegin t h :: b) ++ [EDo o]) by (rewrite <- app_assoc; reflexivity).
        unfold lists at 2. rewrite fold_left_app. reflexivity. }
      split; intros x Hx.
      * rewrite tnext_must. destruct (M1' x Hx) as [W|W]; [left; split; auto|right; apply in_or_app; auto].
        rewrite <- mem_elts, T, Q. apply (Hx (b ++ [EDo o]) []). rewrite app_nil_r. auto.
      * rewrite tnext_may in Hx. destruct Hx as [Hx|Hx]; auto. rewrite <- mem_elts, T, Q in Hx.
        exists (b ++ [EDo o]), []. rewrite app_nil_r. auto.
    + rewrite upd_other by auto. rewrite G. apply KEEP. auto.
    + unfold upd. destruct (Nat.eq_dec t u) as [<-|N].
      * rewrite G. simpl. eexists. split; [reflexivity|]. simpl. split; auto. split; auto.
        intros x Hx. destruct (M1' x Hx) as [W|W]; [|right; apply in_or_app; auto].
        destruct (Nat.eq_dec x e) as [->|NE]; [right; apply in_or_app; simpl; auto|left; apply in_in_remove; auto].
      * rewrite G. apply KEEP. auto.
    + rewrite upd_other by auto. rewrite G. apply KEEP. auto.
Qed.

(** an element that is in the list from the beginning to the end of a traversal is visited *)
Lemma rd_visits_all : forall k n g gp ls s log, run (step k) (init n g gp) ls = Some (s, log) ->
  forall a t h b c x, log = a ++ EBegin t h :: b ++ EEnd t :: c -> one_trav t b ->
  (forall b1 b2, b = b1 ++ b2 -> In x (elts (lists n (a ++ EBegin t h :: b1)) h)) -> In (EVisit t x) b.
Proof.
  intros k n g gp ls s log H a t h b c x -> O Hx. apply rd_legal in H.
  replace (a ++ EBegin t h :: b ++ EEnd t :: c) with ((a ++ EBegin t h :: b) ++ EEnd t :: c) in H by (rewrite <- app_assoc; reflexivity).
  apply legal_at in H. destruct H as [r [G M]]. destruct (trav_obs n t h a b O) as [r' [G' [_ [M1 _]]]].
  rewrite G in G'. injection G' as <-. destruct (M1 x Hx) as [Q|Q]; auto. rewrite M in Q. destruct Q.
Qed.
(** an element that is visited was in the list at some moment of the traversal *)
Lemma rd_visits_only : forall k n g gp ls s log, run (step k) (init n g gp) ls = Some (s, log) ->
  forall a t h b c x, log = a ++ EBegin t h :: b ++ EVisit t x :: c -> one_trav t b ->
  exists b1 b2, b = b1 ++ b2 /\ In x (elts (lists n (a ++ EBegin t h :: b1)) h).
Proof.
  intros k n g gp ls s log H a t h b c x -> O. apply rd_legal in H.
  replace (a ++ EBegin t h :: b ++ EVisit t x :: c) with ((a ++ EBegin t h :: b) ++ EVisit t x :: c) in H by (rewrite <- app_assoc; reflexivity).
  apply legal_at in H. destruct H as [_ [r [G M]]]. destruct (trav_obs n t h a b O) as [r' [G' [_ [_ M2]]]].
  rewrite G in G'. injection G' as <-. auto.
Qed.

(** * Traversals end *)
Lemma ends_at : forall k t m v, QueueRd_Proof.fin m v -> forall s h e, sm s = m -> rd s t = RAt h e -> nx m (LE e) = v ->
  exists n s' ev, run (step k) s (repeat (RTick t) n) = Some (s', ev) /\ rd s' t = RIdle.
Proof.
  intros k t m v F. induction F as [|v NZ F IH]; intros s h e E1 E2 E3.
  - exists 1. do 2 eexists. simpl. rewrite E2, E1, E3. unfold enter. simpl. split; [reflexivity|]. simpl. apply upd_same.
  - destruct (IH (mks (sm s) (todo s) (cur s) (cl s) (used s) (upd (rd s) t (RAt h v))) h v) as [n [s' [ev [R Q]]]]; simpl; auto.
    { apply upd_same. }
    exists (S n), s', ([EVisit t v] ++ ev). split; auto. simpl repeat. eapply run_cons; eauto. simpl. rewrite E2, E1, E3. unfold enter.
    destruct (Nat.eqb_spec v 0); [congruence|]. rewrite E1. reflexivity.
Qed.
Lemma ends_rb : forall k t m v, QueueRd_Proof.fin m v -> forall s h e, sm s = m -> rd s t = RB h e v ->
  exists n s' ev, run (step k) s (repeat (RTick t) n) = Some (s', ev) /\ rd s' t = RIdle.
Proof.
  intros k t m v F. induction F as [|v NZ F IH]; intros s h e E1 E2.
  - exists 1. do 2 eexists. simpl. rewrite E2. unfold enter_safe. simpl. split; [reflexivity|]. simpl. apply upd_same.
  - set (s1 := mks (sm s) (todo s) (cur s) (cl s) (used s) (upd (rd s) t (RS h v))).
    set (s2 := mks (sm s1) (todo s1) (cur s1) (cl s1) (used s1) (upd (rd s1) t (RB h v (nx m (LE v))))).
    destruct (IH s2 h v) as [n [s' [ev [R Q]]]]; simpl; auto. { apply upd_same. }
    exists (S (S n)), s', ([] ++ [EVisit t v] ++ ev). split; auto. simpl repeat.
    eapply run_cons with (s1 := s1). { simpl. rewrite E2. unfold enter_safe. destruct (Nat.eqb_spec v 0); [congruence|]. reflexivity. }
    eapply run_cons; eauto. simpl. rewrite upd_same. unfold s2. simpl. rewrite E1. reflexivity.
Qed.
Lemma rd_ends : forall k n g gp ls s log, run (step k) (init n g gp) ls = Some (s, log) ->
  forall t, exists n s' ev, run (step k) s (repeat (RTick t) n) = Some (s', ev) /\ rd s' t = RIdle.
Proof.
  intros k n g gp ls s log H t. destruct (rd_run _ _ _ _ _ _ _ H) as [_ [P I]].
  assert (RR := v_rd _ _ _ _ I t). assert (FN := v_fin _ _ _ _ I).
  assert (FC : forall v, v = 0 \/ P v = true -> QueueRd_Proof.fin (sm s) v) by (intros v [->|Q]; [constructor|auto]).
  assert (CL := v_cl _ _ _ _ I).
  destruct (rd s t) as [|h e|h e|h e v] eqn:R; simpl in RR.
  - exists 0, s, []. auto.
  - destruct RR as [r [G [T [[_ [M2 _]] [V F]]]]]. destruct (M2 _ V) as [Pe _].
    apply (ends_at k t (sm s) (nx (sm s) (LE e)) (FC _ (CL _ Pe)) s h e); auto.
  - destruct RR as [r [G [T [[_ [M2 _]] [V F]]]]]. destruct (M2 _ V) as [Pe _].
    set (s1 := mks (sm s) (todo s) (cur s) (cl s) (used s) (upd (rd s) t (RB h e (nx (sm s) (LE e))))).
    destruct (ends_rb k t (sm s) (nx (sm s) (LE e)) (FC _ (CL _ Pe)) s1 h e) as [m [s' [ev [Q1 Q2]]]]; simpl; auto.
    { apply upd_same. }
    exists (S m), s', ([EVisit t e] ++ ev). split; auto. simpl repeat. eapply run_cons; eauto. simpl. rewrite R. reflexivity.
  - destruct RR as [r [G [T [[_ [M2 _]] [V F]]]]]. assert (FV : v = 0 \/ P v = true) by (destruct V as [V|V]; auto; destruct (M2 _ V); auto).
    apply (ends_rb k t (sm s) v (FC _ FV) s h e); auto.
Qed.

(** the writer never dereferences NULL: it can always take its next step, and its operation ends *)
Lemma wr_steps : forall k n g gp ls s log, run (step k) (init n g gp) ls = Some (s, log) -> todo s <> [] ->
  exists s' ev, step k s WTick = Some (s', ev).
Proof.
  intros k n g gp ls s log H T. destruct (rd_run _ _ _ _ _ _ _ H) as [_ [P I]].
  destruct (v_wi _ _ _ _ I) as [[Q _]|[A [pub [mf [W _]]]]]; [congruence|].
  inversion W as [m0 E1 E2 E3 E4|pub' m0 p0 m1 p1 b' mf' W1 W2 W3 W4 W5 W6]; subst; [congruence|].
  simpl. rewrite W1. simpl. eauto.
Qed.
Lemma wr_ends : forall k n g gp ls s log, run (step k) (init n g gp) ls = Some (s, log) ->
  exists m s' ev, run (step k) s (repeat WTick m) = Some (s', ev) /\ todo s' = [].
Proof.
  intros k n g gp ls s log H. destruct (rd_run _ _ _ _ _ _ _ H) as [_ [P I]].
  destruct (v_wi _ _ _ _ I) as [[Q _]|[A [pub [mf [W _]]]]]; [exists 0, s, []; auto|].
  destruct (wok_run _ _ _ _ _ _ _ _ W) as [_ [m R]]. clear - R. exists m.
  remember (sm s) as x eqn:E1. remember (todo s) as p eqn:E2. revert s x p E1 E2 R.
  induction m as [|m IH]; intros s x p -> -> R; simpl in R.
  - injection R as _ R. exists s, []. auto.
  - destruct (mstep k (sm s) (todo s)) as [[[m1 p1] b]|] eqn:E; [|discriminate]. simpl in R.
    destruct (IH (mks m1 p1 (cur s) (if b then aop (cl s) (cur s) else cl s) (used s) (rd s)) m1 p1 eq_refl eq_refl R) as [s' [ev [Q1 Q2]]].
    exists s'. eexists. split; eauto. simpl repeat. eapply run_cons; eauto. simpl. rewrite E. reflexivity.
Qed.
(** and between operations memory represents the lists *)
Lemma wr_abs : forall k n g gp ls s log, run (step k) (init n g gp) ls = Some (s, log) -> todo s = [] -> Abs k (sm s) (lists n log).
Proof.
  intros k n g gp ls s log H T. destruct (rd_run _ _ _ _ _ _ _ H) as [_ [P I]].
  destruct (wi_quiet _ _ _ (v_wi _ _ _ _ I) T) as [B _]. rewrite <- lists_ga. rewrite (v_ga _ _ _ _ I). auto.
Qed.

(** * Restatements and witnesses for Queue_Props.v *)
Lemma op_seq_prev : forall k m A o, has k o = true -> Abs k m A -> pre A o ->
  (forall h p q e, o = ORemPrev h p q e -> p = q) -> seq_ok k A o m.
Proof. intros k m A o H1 H2 H3 H4. apply op_seq; auto. destruct o; simpl; auto. eapply H4; eauto. Qed.
Lemma hist_ok_prev : forall k os m A, Abs k m A -> pres k A os ->
  Forall (fun o => forall h p q e, o = ORemPrev h p q e -> p = q) os ->
  (exists m', hist k m os m') /\ forall m', hist k m os m' -> Abs k m' (fold_left aop os A).
Proof.
  intros k os m A H1 H2 H3. apply hist_ok; auto. eapply Forall_impl; [|exact H3].
  intros o H. destruct o; simpl; auto. eapply H; eauto.
Qed.
Definition w_lm : mem := mkm (fun l => match l with LH 0 => 1 | LE 1 => 2 | LE 2 => 0 | _ => 7 end) (fun h => LH h) (fun e => match e with 1 => LH 0 | 2 => LE 1 | _ => LE 9 end).
Lemma w_lpre : Abs Li w_lm w_A /\ pre w_A (OInsBefore 0 2 5).
Proof.
  split; [split|].
  - intros [|h] xs E; [|discriminate]. injection E as <-. repeat split; auto; try discriminate.
    repeat constructor; simpl; intuition discriminate.
  - intros [|h] [|h'] xs xs' x E E' _ _; auto; discriminate.
  - simpl. split; [discriminate|]. split.
    + intros [|h] xs E; [|discriminate]. injection E as <-. simpl. intuition discriminate.
    + exists [1; 2]. simpl. auto.
Qed.
Lemma hist_example : pres St (empty_lists 2)
    [OInsTail 0 1; OInsTail 0 2; OInsHead 1 3; OConcat 0 1; ORemAfter 0 1; OInit 7; OSwap 0 7]
  /\ fold_left aop [OInsTail 0 1; OInsTail 0 2; OInsHead 1 3; OConcat 0 1; ORemAfter 0 1; OInit 7; OSwap 0 7] (empty_lists 2) 7 = Some [1; 3].
Proof.
  assert (E : forall h, empty_lists 2 h = match h with 0 | 1 => Some [] | _ => None end).
  { intros [|[|h]]; reflexivity. }
  split; [|reflexivity].
  simpl pres. unfold out, aop, upd.
  repeat split; try discriminate; auto;
    try (eexists; reflexivity);
    try (eexists; split; [reflexivity|]; try discriminate; eexists; reflexivity);
    try (intros [|[|h]] xs Q; vm_compute in Q; try discriminate; injection Q as <-; simpl; intuition discriminate).
Qed.
