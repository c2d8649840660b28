From Coq Require Import Arith List ZArith Bool Lia.
From Verif Require Import Lib LockSpec SpinAnderson_Model.
Import ListNotations.
Local Open Scope Z_scope.

Definition hl (a : fcfs) : list nat := match f_holder a with Some h => [h] | None => [] end.
Definition base (a : fcfs) : Z := match f_holder a with Some _ => 1 | None => 0 end.

Lemma base_hl : forall a, base a = Z.of_nat (length (hl a)).
Proof. intros. unfold base, hl. destruct (f_holder a); auto. Qed.

(** [x land (x-1) = 0] characterises powers of two. *)
Lemma land_pred_pow2 : forall x, 0 < x -> Z.land x (x - 1) = 0 -> exists m, 0 <= m /\ x = 2 ^ m.
Proof.
  intros x Hx H. exists (Z.log2 x). split; [apply Z.log2_nonneg|].
  destruct (Z.log2_spec x Hx) as [Hl Hu].
  destruct (Z.eq_dec x (2 ^ Z.log2 x)); auto. exfalso.
  assert (Hm : 0 <= Z.log2 x) by apply Z.log2_nonneg.
  assert (B1 : Z.testbit x (Z.log2 x) = true) by (apply Z.bit_log2; auto).
  assert (E : Z.log2 (x - 1) = Z.log2 x).
  { apply Z.log2_unique; auto. rewrite Z.pow_succ_r in * by auto. lia. }
  assert (B2 : Z.testbit (x - 1) (Z.log2 x) = true).
  { rewrite <- E. apply Z.bit_log2.
    assert (0 < 2 ^ Z.log2 x) by (apply Z.pow_pos_nonneg; lia). lia. }
  assert (Z.testbit (Z.land x (x - 1)) (Z.log2 x) = true) by (rewrite Z.land_spec, B1, B2; auto).
  rewrite H, Z.bits_0 in H0. discriminate.
Qed.

Section P.
Variable count : Z.
Variable n : nat.
Hypothesis Hc : 0 < count.
Hypothesis HcW : count <= UINT_MAX.
Hypothesis Hn : Z.of_nat n <= count.

Lemma wrap_zero_pow2 : wrap count = 0 -> exists m, 0 <= m /\ m <= 32 /\ count = 2 ^ m.
Proof.
  unfold wrap. destruct (Z.eqb_spec (Z.land count (count - 1)) 0).
  - intros _. destruct (land_pred_pow2 _ Hc e) as [m [? ?]]. exists m. repeat split; auto.
    destruct (Z.le_gt_cases m 32); auto.
    assert (2 ^ 32 < 2 ^ m) by (apply Z.pow_lt_mono_r; lia).
    change (2 ^ 32) with 4294967296 in *. unfold UINT_MAX in *. lia.
  - intros. pose proof (Z.mod_pos_bound UINT_MAX count Hc). lia.
Qed.

Lemma land_mask : forall x, wrap count = 0 -> Z.land x (mask count) = x mod count.
Proof.
  intros x Hw. destruct (wrap_zero_pow2 Hw) as [m [? [? Hm]]]. unfold mask. rewrite Hm.
  replace (2 ^ m - 1) with (Z.ones m) by (rewrite Z.ones_equiv; lia).
  apply Z.land_ones; auto.
Qed.

Lemma next_mod_faa : forall x, wrap count = 0 -> ((x + 1) mod W) mod count = (x + 1) mod count.
Proof.
  intros x Hw. destruct (wrap_zero_pow2 Hw) as [m [? [? Hm]]]. rewrite Hm.
  replace W with (2 ^ m * 2 ^ (32 - m)).
  - rewrite Z.rem_mul_r; [|apply Z.pow_nonzero; lia|apply Z.pow_pos_nonneg; lia].
    rewrite (Z.mul_comm (2 ^ m)), Z.mod_add by (apply Z.pow_nonzero; lia). apply Z.mod_mod. apply Z.pow_nonzero; lia.
  - rewrite <- Z.pow_add_r by lia. replace (m + (32 - m)) with 32 by lia. reflexivity.
Qed.

Lemma next_mod_cas : forall x, wrap count <> 0 -> 
  (if Z.eqb x UINT_MAX then wrap count else x + 1) mod count = (x + 1) mod count.
Proof.
  intros x Hw. destruct (Z.eqb_spec x UINT_MAX); auto. subst. unfold wrap in *.
  destruct (Z.eqb (Z.land count (count - 1)) 0); [congruence|].
  rewrite Zplus_mod_idemp_l. auto.
Qed.

Lemma unlock_slot : forall j, (if Z.eqb (wrap count) 0 then Z.land (j + 1) (mask count) else (j + 1) mod count)
  = (j + 1) mod count.
Proof. intros. destruct (Z.eqb_spec (wrap count) 0); auto. apply land_mask; auto. Qed.

Definition R (s : state) (a : fcfs) : Prop :=
  exists H : Z,
    next s mod count = (H + base a + Z.of_nat (length (f_queue a))) mod count /\
    (forall j, 0 <= j < count ->
       slot_locked s j = negb (Z.eqb j (H mod count)) || match f_holder a with Some _ => true | None => false end) /\
    NoDup (hl a ++ f_queue a) /\
    (forall t, In t (hl a ++ f_queue a) -> (t < n)%nat) /\
    (forall h, f_holder a = Some h -> thr s h = Crit (H mod count)) /\
    (forall i t, nth_error (f_queue a) i = Some t ->
       thr s t = LkWait ((H + base a + Z.of_nat i) mod count) \/
       (i = O /\ f_holder a = None /\ thr s t = LkMark (H mod count))) /\
    (forall t, ~ In t (hl a ++ f_queue a) ->
       thr s t = Idle \/ (wrap count = 0 /\ thr s t = LkFaa) \/
       (wrap count <> 0 /\ (thr s t = LkLoad \/ exists p, thr s t = LkCas p))).

Lemma R_init : R init fcfs_init.
Proof.
  exists 0. unfold fcfs_init, base, hl. simpl. repeat split; auto; try constructor; intros; try tauto; try discriminate.
  - rewrite Z.mod_0_l by lia. rewrite orb_false_r. auto.
  - destruct i; discriminate.
Qed.

Lemma in_hq_cases : forall a t, In t (hl a ++ f_queue a) ->
  f_holder a = Some t \/ exists i, nth_error (f_queue a) i = Some t.
Proof.
  intros. apply in_app_or in H. destruct H.
  - unfold hl in H. destruct (f_holder a); simpl in H; intuition congruence.
  - right. apply In_nth_error. auto.
Qed.

Ltac mb := apply Z.mod_pos_bound; exact Hc.

Lemma modsmall : forall P b i, 0 <= b -> 0 <= i -> b + i < count ->
  (P + b + i) mod count = P mod count -> b + i = 0.
Proof.
  intros. replace (P mod count) with ((P + 0) mod count) in H2 by (f_equal; lia).
  rewrite <- Z.add_assoc in H2. apply mod_eq_small in H2; lia.
Qed.

Lemma R_step : forall s a l s' ev, R s a -> step count n s l = Some (s', ev) ->
  exists a', accepts fcfs_step a ev = Some a' /\ R s' a'.
Proof.
  intros s a [t x] s' ev [P [Hnx [Hsl [Hnd [Hlt [Hh [Hq Hid]]]]]]] H.
  unfold step in H.
  destruct (Nat.ltb t n) eqn:Hltn; simpl in H; [|discriminate]. apply Nat.ltb_lt in Hltn.
  destruct (in_dec Nat.eq_dec t (hl a ++ f_queue a)) as [Hin|Hin].
  - destruct (in_hq_cases _ _ Hin) as [He|[i Hi]].
    + (* holder unlocks *)
      pose proof (Hh _ He) as Ht. rewrite Ht in H. destruct x; try discriminate.
      rewrite unlock_slot in H. inversion H; subst; clear H.
      exists {| f_holder := None; f_queue := f_queue a |}.
      simpl. rewrite He, Nat.eqb_refl. split; auto.
      unfold hl, base in *. rewrite He in *. simpl in *.
      exists (P + 1). simpl. unfold hl, base; simpl. repeat split.
      * rewrite Hnx. f_equal. lia.
      * intros j Hj. unfold setslot. rewrite orb_false_r. rewrite Zplus_mod_idemp_l.
        destruct (Z.eqb j ((P + 1) mod count)); auto. rewrite Hsl by auto. apply orb_true_r.
      * inversion Hnd; auto.
      * intros; apply Hlt; auto.
      * discriminate.
      * intros i u Hu. rewrite upd_other.
        -- left. destruct (Hq _ _ Hu) as [Q|[_ [Q _]]]; [|discriminate]. rewrite Q. do 2 f_equal; lia.
        -- intro; subst. destruct (Hq _ _ Hu) as [Q|[_ [Q _]]]; congruence.
      * intros u Hu. upd_goal; auto. apply Hid. intros [?|?]; auto.
    + (* waiter *)
      assert (Hilen : (i < length (f_queue a))%nat) by (apply nth_error_Some; congruence).
      pose proof (nodup_bound _ _ Hnd Hlt) as Hlen. rewrite app_length in Hlen.
      destruct (Hq _ _ Hi) as [Ht|[Hi0 [He Ht]]]; rewrite Ht in H; destruct x; try discriminate.
      * rewrite Hsl in H by mb.
        destruct (Z.eqb_spec ((P + base a + Z.of_nat i) mod count) (P mod count)) as [E|E]; simpl in H.
        -- destruct (f_holder a) as [h|] eqn:He.
           ++ (* slot locked while held: keep waiting (cannot be slot H anyway) *)
              exfalso. assert (base a = 1) by (unfold base; rewrite He; auto).
              pose proof (base_hl a). apply modsmall in E; lia.
           ++ inversion H; subst; clear H.
              assert (Hi0 : base a + Z.of_nat i = 0).
              { pose proof (base_hl a). apply modsmall with (P := P); auto; lia. }
              unfold base in Hi0. rewrite He in Hi0. assert (i = O) by lia. subst i.
              exists a. split; [reflexivity|]. exists P. unfold goto; simpl. rewrite He in *. repeat split; auto.
              ** discriminate.
              ** intros j u Hu. destruct (Nat.eq_dec u t).
                 --- subst u. right. rewrite upd_same. split.
                     { apply (NoDup_nth_error (f_queue a)).
                       - apply nodup_app_r in Hnd. auto.
                       - apply nth_error_Some. congruence.
                       - congruence. }
                     split; auto. f_equal. exact E.
                 --- rewrite upd_other by auto. auto.
              ** intros u Hu. rewrite upd_other; auto. intro; subst; auto.
        -- inversion H; subst; clear H. exists a. split; [reflexivity|]. exists P. unfold goto; simpl. repeat split; auto.
           ++ intros h Hhe. rewrite upd_other; auto. intro; subst. rewrite (Hh _ Hhe) in Ht. discriminate.
           ++ intros j u Hu. upd_goal; auto. subst. left. rewrite <- Ht. destruct (Hq _ _ Hu) as [Q|[_ [_ Q]]]; auto. congruence.
           ++ intros u Hu. rewrite upd_other; auto. intro; subst; auto.
      * (* mark *)
        inversion H; subst; clear H. 
        destruct (f_queue a) as [|u q] eqn:Hqa; simpl in Hi; [discriminate|]. inversion Hi; subst u.
        exists {| f_holder := Some t; f_queue := q |}. simpl. rewrite He, Hqa, Nat.eqb_refl. split; auto.
        exists P. unfold hl, base in *; simpl. rewrite He in *. simpl in *. repeat split; auto.
        -- rewrite Hnx. f_equal. lia.
        -- intros j Hj. unfold setslot. rewrite orb_true_r. destruct (Z.eqb_spec j (P mod count)); auto.
           rewrite Hsl by auto. rewrite orb_false_r. apply negb_true_iff. apply Z.eqb_neq. auto.
        -- intros h Hh'. inversion Hh'; subst. rewrite upd_same. auto.
        -- intros j u Hu. rewrite upd_other.
           ++ left. destruct (Hq (S j) u Hu) as [Q|[Q _]]; [|discriminate]. rewrite Q. do 2 f_equal; lia.
           ++ intro; subst. inversion Hnd; subst. apply H1. eapply nth_error_In; eauto.
        -- intros u Hu. rewrite upd_other; auto.
  - (* outside *)
    assert (Ho : forall p, (forall h, f_holder a = Some h -> upd (thr s) t p h = thr s h) /\
               (forall j u, nth_error (f_queue a) j = Some u -> upd (thr s) t p u = thr s u)).
    { intros p. split; intros; rewrite upd_other; auto; intro; subst; apply Hin; apply in_or_app.
      - left. unfold hl. rewrite H0. simpl; auto.
      - right. eapply nth_error_In; eauto. }
    assert (Hmove : forall p, (p = Idle \/ (wrap count = 0 /\ p = LkFaa) \/
         (wrap count <> 0 /\ (p = LkLoad \/ exists q, p = LkCas q))) -> R (goto s t p) a).
    { intros p Hp. destruct (Ho p) as [Ho1 Ho2]. exists P. unfold goto; simpl. repeat split; auto.
      - intros h Hhe. rewrite Ho1; auto.
      - intros j u Hu. rewrite (Ho2 j u); auto.
      - intros u Hu. upd_goal; auto. }
    assert (Henq : forall nx, nx mod count = (next s + 1) mod count ->
       exists a', accepts fcfs_step a [FReq t] = Some a' /\
         R (mk nx (slot_locked s) (upd (thr s) t (LkWait (next s mod count)))) a').
    { intros nx Hx. set (a' := {| f_holder := f_holder a; f_queue := f_queue a ++ [t] |}).
      exists a'. split; [reflexivity|].
      assert (Hhl : hl a' = hl a) by reflexivity. assert (Hb : base a' = base a) by reflexivity.
      destruct (Ho (LkWait (next s mod count))) as [Ho1 Ho2].
      exists P. rewrite Hhl, Hb. simpl. repeat split; auto.
      - rewrite Hx. rewrite Zplus_mod, Hnx, <- Zplus_mod. f_equal. rewrite app_length. simpl. lia.
      - rewrite app_assoc. apply nodup_snoc; auto.
      - rewrite app_assoc. intros u Hu. apply in_app_or in Hu. destruct Hu as [Hu|[Hu|[]]]; auto. subst; auto.
      - intros h Hhe. rewrite Ho1; auto.
      - intros j u Hu. destruct (Nat.lt_ge_cases j (length (f_queue a))) as [Hj|Hj].
        + rewrite nth_error_app1 in Hu by auto. rewrite (Ho2 j u); auto.
        + rewrite nth_error_app2 in Hu by auto.
          destruct (j - length (f_queue a))%nat as [|m] eqn:Em; simpl in Hu;
            [|destruct m; discriminate].
          inversion Hu; subst u. rewrite upd_same. left. f_equal. rewrite Hnx. f_equal. lia.
      - intros u Hu. rewrite app_assoc in Hu. rewrite upd_other. apply Hid. intro; apply Hu; apply in_or_app; auto.
        intro; subst. apply Hu. apply in_or_app. right; simpl; auto. }
    destruct (Hid _ Hin) as [Ht|[[Hw Ht]|[Hw [Ht|[p Ht]]]]]; rewrite Ht in H; destruct x; try discriminate.
    + inversion H; subst; clear H. exists a. split; [reflexivity|]. apply Hmove.
      destruct (Z.eqb_spec (wrap count) 0); auto.
    + inversion H; subst; clear H. rewrite land_mask by auto. apply Henq. apply next_mod_faa; auto.
    + inversion H; subst; clear H. exists a. split; [reflexivity|]. apply Hmove. right; right. eauto.
    + cbv zeta in H. destruct (Z.eqb_spec (next s) p); inversion H; subst; clear H.
      * apply Henq. apply next_mod_cas; auto.
      * exists a. split; [reflexivity|]. apply Hmove. right; right. eauto.
Qed.

Lemma anderson_refines : forall ls s log, run (step count n) init ls = Some (s, log) -> fcfs_legal log.
Proof.
  intros. destruct (run_refines _ fcfs_step R init fcfs_init R_init R_step _ _ _ H) as [a [? _]].
  exists a; auto.
Qed.

Lemma anderson_reach : forall s, reachable (step count n) init s -> exists a, R s a.
Proof.
  intros s [ls [log H]].
  destruct (run_refines _ fcfs_step R init fcfs_init R_init R_step _ _ _ H) as [a [_ ?]]. eauto.
Qed.

Lemma anderson_progress : forall s, reachable (step count n) init s ->
  forall t, waiting s t = true ->
  exists ls s' log, run (step count n) s ls = Some (s', log) /\ In (FAcq t) log.
Proof.
  intros s Hre t Hw. destruct (anderson_reach _ Hre) as [a HR]. clear Hre.
  assert (Hpos : exists i, nth_error (f_queue a) i = Some t).
  { destruct HR as [P [_ [_ [_ [_ [Hh [_ Hid]]]]]]]. unfold waiting in Hw.
    destruct (in_dec Nat.eq_dec t (hl a ++ f_queue a)) as [Hin|Hin].
    - destruct (in_hq_cases _ _ Hin) as [He|]; auto. rewrite (Hh _ He) in Hw; discriminate.
    - destruct (Hid _ Hin) as [E|[[_ E]|[_ [E|[v E]]]]]; rewrite E in Hw; discriminate. }
  destruct Hpos as [i Hi]. clear Hw. revert s a HR Hi.
  induction i as [i IH] using lt_wf_ind. intros.
  assert (Hfree : exists ls s1 log a1, run (step count n) s ls = Some (s1, log) /\ R s1 a1 /\
             f_holder a1 = None /\ f_queue a1 = f_queue a).
  { destruct (f_holder a) as [h|] eqn:He.
    - pose proof HR as [P [_ [_ [_ [Hlt [Hh _]]]]]].
      assert (Hlth : Nat.ltb h n = true).
      { apply Nat.ltb_lt. apply Hlt. unfold hl. rewrite He. simpl; auto. }
      assert (Hs : exists s1, step count n s (h, AUnlock) = Some (s1, [FRel h])).
      { unfold step. rewrite Hlth, (Hh _ He). simpl. eauto. }
      destruct Hs as [s1 Hs]. destruct (R_step _ _ _ _ _ HR Hs) as [a1 [Ha1 HR1]].
      exists [(h, AUnlock)], s1, ([FRel h] ++ []), a1. split; [eapply run_cons; [eassumption|reflexivity]|].
      split; auto. simpl in Ha1. rewrite He, Nat.eqb_refl in Ha1. inversion Ha1; subst. auto.
    - exists [], s, [], a. simpl. auto. }
  destruct Hfree as [ls [s1 [log [a1 [Hr [HR1 [Hn1 Hq1]]]]]]].
  destruct (f_queue a) as [|u q] eqn:Hqa; [destruct i; discriminate|].
  (* front acquires in at most two of its own steps *)
  assert (Hs : exists lsx s2 logx a2, run (step count n) s1 lsx = Some (s2, logx) /\ In (FAcq u) logx /\
             R s2 a2 /\ f_queue a2 = q).
  { assert (Hmark : forall sx ax, R sx ax -> f_holder ax = None -> f_queue ax = u :: q ->
        (exists j, thr sx u = LkMark j) ->
        exists lsx s2 logx a2, run (step count n) sx lsx = Some (s2, logx) /\ In (FAcq u) logx /\
             R s2 a2 /\ f_queue a2 = q).
    { intros sx ax HRx Hnx Hqx [j Hj].
      assert (Hlu : Nat.ltb u n = true).
      { apply Nat.ltb_lt. destruct HRx as [P [_ [_ [_ [Hlt _]]]]]. apply Hlt. apply in_or_app. right. rewrite Hqx. simpl; auto. }
      assert (Hst : exists s2, step count n sx (u, ATick) = Some (s2, [FAcq u])).
      { unfold step. rewrite Hlu, Hj. simpl. eauto. }
      destruct Hst as [s2 Hst]. destruct (R_step _ _ _ _ _ HRx Hst) as [a2 [Ha2 HR2]].
      exists [(u, ATick)], s2, ([FAcq u] ++ []), a2. split; [eapply run_cons; [eassumption|reflexivity]|].
      split; [simpl; auto|]. split; auto. simpl in Ha2. rewrite Hnx, Hqx, Nat.eqb_refl in Ha2. inversion Ha2; auto. }
    pose proof HR1 as [P [_ [Hsl [_ [Hlt [_ [Hq _]]]]]]].
    assert (Hu : nth_error (f_queue a1) 0 = Some u) by (rewrite Hq1; auto).
    destruct (Hq _ _ Hu) as [Ht|[_ [_ Ht]]].
    - assert (Hlu : Nat.ltb u n = true).
      { apply Nat.ltb_lt. apply Hlt. apply in_or_app. right. rewrite Hq1. simpl; auto. }
      assert (Hst : exists j, step count n s1 (u, ATick) = Some (goto s1 u (LkMark j), [])).
      { unfold step. rewrite Hlu, Ht. simpl. rewrite Hsl by mb. unfold base. rewrite Hn1.
        replace (P + 0 + 0) with P by lia. rewrite Z.eqb_refl. simpl. eauto. }
      destruct Hst as [j Hst]. destruct (R_step _ _ _ _ _ HR1 Hst) as [a2 [Ha2 HR2]].
      simpl in Ha2. inversion Ha2; subst a2.
      destruct (Hmark _ _ HR2 Hn1 Hq1) as [lsx [s2 [logx [a2 [Hrx [Hinx [HRx Hqx]]]]]]].
      { exists j. unfold goto; simpl. apply upd_same. }
      exists ((u, ATick) :: lsx), s2, ([] ++ logx), a2. split; [eapply run_cons; eauto|]. auto.
    - eapply Hmark; eauto. }
  destruct Hs as [lsx [s2 [logx [a2 [Hrx [Hinx [HR2 Hq2]]]]]]].
  destruct i as [|i].
  - simpl in Hi. inversion Hi; subst u.
    exists (ls ++ lsx), s2, (log ++ logx).
    split; [eapply run_app; eauto|]. apply in_or_app. right. auto.
  - simpl in Hi. rewrite <- Hq2 in Hi.
    destruct (IH i (Nat.lt_succ_diag_r i) s2 _ HR2 Hi) as [ls3 [s3 [log3 [Hr3 Hin3]]]].
    exists (ls ++ lsx ++ ls3), s3, (log ++ logx ++ log3).
    split; [eapply run_app; eauto; eapply run_app; eauto|].
    apply in_or_app. right. apply in_or_app. auto.
Qed.

(** [locked] is exact for power-of-two slot counts, asked by a thread that is
    not itself waiting. *)
Lemma anderson_locked_pow2 : forall s q, reachable (step count n) init s ->
  wrap count = 0 -> (q < n)%nat -> waiting s q = false ->
  locked count s = true <-> (exists t, holding s t = true \/ waiting s t = true).
Proof.
  intros s qt Hre Hw Hqn Hqt. destruct (anderson_reach _ Hre) as [a [P [Hnx [Hsl [Hnd [Hlt [Hh [Hq Hid]]]]]]]].
  unfold locked. rewrite land_mask by auto. rewrite Hsl by mb. rewrite Hnx.
  pose proof (nodup_bound _ _ Hnd Hlt) as Hlen. rewrite app_length in Hlen.
  destruct (f_holder a) as [h|] eqn:He.
  - rewrite orb_true_r. split; auto. intros _. exists h. left. unfold holding. rewrite (Hh _ eq_refl). auto.
  - rewrite orb_false_r. unfold base, hl in *. rewrite He in *. simpl in *.
    destruct (f_queue a) as [|u q] eqn:Hqa.
    + simpl. replace (P + 0 + 0) with P by lia. rewrite Z.eqb_refl. simpl. split; [discriminate|].
      intros [t Ht]. exfalso. unfold holding, waiting in Ht.
      destruct (Hid t) as [E|[[_ E]|[_ [E|[v E]]]]]; auto; rewrite E in Ht; destruct Ht; discriminate.
    + split; intros _.
      * exists u. right. unfold waiting. destruct (Hq O u eq_refl) as [E|[_ [_ E]]]; rewrite E; auto.
      * apply negb_true_iff. apply Z.eqb_neq. intros E.
        assert (Hqout : ~ In qt (u :: q)).
        { intros Hx. destruct (In_nth_error _ _ Hx) as [i Hi]. unfold waiting in Hqt.
          destruct (Hq _ _ Hi) as [E'|[_ [_ E']]]; rewrite E' in Hqt; discriminate. }
        pose proof (nodup_bound_strict _ _ _ Hnd Hlt Hqn Hqout).
        apply modsmall in E; simpl length in *; lia.
Qed.
End P.

(** Three slots, one thread: after lock and unlock the lock is free, yet locked
    answers true. *)
Lemma anderson_locked_bad :
  exists ls s log, run (step 3 1) init ls = Some (s, log) /\
    locked 3 s = true /\ (forall t, holding s t = false /\ waiting s t = false).
Proof.
  exists [(0%nat, ALock); (0%nat, ATick); (0%nat, ATick); (0%nat, ATick); (0%nat, ATick); (0%nat, AUnlock)].
  eexists _, _. split; [reflexivity|]. split; [vm_compute; reflexivity|].
  intros t. destruct (Nat.eq_dec t 0).
  - subst. split; vm_compute; reflexivity.
  - unfold holding, waiting. cbn -[upd]. rewrite !upd_other by auto. auto.
Qed.
