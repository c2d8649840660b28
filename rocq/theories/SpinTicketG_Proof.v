From Coq Require Import Arith List ZArith Bool Lia ZifyBool ZifyNat.
From Verif Require Import Lib LockSpec SpinTicketG_Model.
Import ListNotations.
Local Open Scope Z_scope.

Definition hl (a : fcfs) : list nat := match f_holder a with Some h => [h] | None => [] end.
Definition base (a : fcfs) : Z := match f_holder a with Some _ => 1 | None => 0 end.

Section P.
Variable W : Z.
Variable n : nat.
Hypothesis HW : Z.of_nat n <= W.

Definition R (s : state) (a : fcfs) : Prop :=
  exists P : Z,
    position s = P mod W /\
    next s = (P + base a + Z.of_nat (length (f_queue a))) mod W /\
    NoDup (hl a ++ f_queue a) /\
    (forall t, In t (hl a ++ f_queue a) -> (t < n)%nat) /\
    (forall h, f_holder a = Some h -> thr s h = Crit \/ thr s h = UnStore (position s)) /\
    (forall i t, nth_error (f_queue a) i = Some t ->
       thr s t = LkWait ((P + base a + Z.of_nat i) mod W)) /\
    (forall t, ~ In t (hl a ++ f_queue a) -> thr s t = Idle \/ thr s t = LkFaa).

Lemma R_init : R init fcfs_init.
Proof.
  exists 0. simpl. repeat split; auto; try constructor; intros; try tauto; try discriminate.
  destruct i; discriminate.
Qed.

Lemma in_hq_cases : forall a t, In t (hl a ++ f_queue a) ->
  f_holder a = Some t \/ exists i, nth_error (f_queue a) i = Some t.
Proof.
  intros. apply in_app_or in H. destruct H.
  - unfold hl in H. destruct (f_holder a); simpl in H; intuition congruence.
  - right. apply In_nth_error. auto.
Qed.

Lemma R_step : forall s a l s' ev, R s a -> step W n s l = Some (s', ev) ->
  exists a', accepts fcfs_step a ev = Some a' /\ R s' a'.
Proof.
  intros s a [t x] s' ev [P [Hp [Hn [Hnd [Hlt [Hh [Hq Hid]]]]]]] H.
  unfold step in H.
  destruct (Nat.ltb t n) eqn:Hltn; simpl in H; [|discriminate]. apply Nat.ltb_lt in Hltn.
  (* where is t? *)
  assert (Hcase : (f_holder a = Some t /\ (thr s t = Crit \/ thr s t = UnStore (position s))) \/
     (exists i, nth_error (f_queue a) i = Some t /\ thr s t = LkWait ((P + base a + Z.of_nat i) mod W)) \/
     (~ In t (hl a ++ f_queue a) /\ (thr s t = Idle \/ thr s t = LkFaa))).
  { destruct (in_dec Nat.eq_dec t (hl a ++ f_queue a)) as [Hin|Hin].
    - destruct (in_hq_cases _ _ Hin) as [He|[i Hi]]; [left; auto|right; left; eauto].
    - right; right; auto. }
  destruct Hcase as [[He Ht]|[[i [Hi Ht]]|[Hin Ht]]].
  - (* holder *)
    destruct Ht as [Ht|Ht]; rewrite Ht in H; destruct x; try discriminate; inversion H; subst; clear H.
    + exists a. split; auto. exists P. unfold goto; simpl.
      repeat split; auto.
      * intros h Hhe. assert (h = t) by congruence. subst. rewrite upd_same. auto.
      * intros i u Hu. rewrite upd_other; auto. intro; subst.
        rewrite (Hq _ _ Hu) in Ht. discriminate.
      * intros u Hu. rewrite upd_other; auto. intro; subst. apply Hu. unfold hl. rewrite He. simpl; auto.
    + exists {| f_holder := None; f_queue := f_queue a |}.
      simpl. rewrite He, Nat.eqb_refl. split; auto.
      unfold hl, base in *. rewrite He in *. simpl in *.
      exists (P + 1). simpl. unfold hl, base; simpl. repeat split.
      * rewrite Hp. rewrite Zplus_mod_idemp_l. auto.
      * rewrite Hn. f_equal. lia.
      * inversion Hnd; auto.
      * intros; apply Hlt; auto.
      * discriminate.
      * intros i u Hu. rewrite upd_other. rewrite (Hq _ _ Hu). do 2 f_equal; lia.
        intro; subst. rewrite (Hq _ _ Hu) in Ht. discriminate.
      * intros u Hu. upd_goal; auto. apply Hid. intros [?|?]; auto.
  - (* waiter *)
    rewrite Ht in H. destruct x; try discriminate.
    assert (Hilen : (i < length (f_queue a))%nat) by (apply nth_error_Some; congruence).
    assert (Hlen : (length (hl a ++ f_queue a) <= n)%nat) by (apply nodup_bound; auto).
    rewrite app_length in Hlen.
    destruct (Z.eqb (position s) ((P + base a + Z.of_nat i) mod W)) eqn:E.
    + inversion H; subst; clear H. apply Z.eqb_eq in E. rewrite Hp in E.
      (* base + i = 0 *)
      assert (base a + Z.of_nat i = 0).
      { replace (P mod W) with ((P + 0) mod W) in E by (f_equal; lia).
        rewrite <- Z.add_assoc in E.
        unfold base, hl in *. destruct (f_holder a); simpl in Hlen.
        - apply mod_eq_small in E; clear -Hlen Hilen HW E; lia.
        - apply mod_eq_small in E; clear -Hlen Hilen HW E; lia. }
      unfold base in *. destruct (f_holder a) eqn:He; [lia|].
      assert (i = 0)%nat by lia. subst i.
      destruct (f_queue a) as [|u q] eqn:Hqa; simpl in Hi; [discriminate|]. inversion Hi; subst u.
      exists {| f_holder := Some t; f_queue := q |}. simpl. rewrite He, Hqa, Nat.eqb_refl. split; auto.
      exists P. unfold hl, base in *; simpl. rewrite He in *. simpl in *. repeat split; auto.
      * rewrite Hn. f_equal. lia.
      * intros h Hh'. inversion Hh'; subst. rewrite upd_same. auto.
      * intros j u Hu. rewrite upd_other. rewrite (Hq (S j) u Hu). do 2 f_equal; lia.
        intro; subst. inversion Hnd; subst. apply H2. eapply nth_error_In; eauto.
      * intros u Hu. rewrite upd_other; auto.
    + inversion H; subst; clear H. exists a. split; auto. exists P. unfold goto; simpl. repeat split; auto.
      * intros h Hhe. rewrite upd_other; auto. intro; subst. destruct (Hh _ Hhe); congruence.
      * intros j u Hu. upd_goal; auto. subst. rewrite <- Ht. auto.
      * intros u Hu. rewrite upd_other; auto. intro; subst. apply Hu. apply in_or_app. right.
        eapply nth_error_In; eauto.
  - (* outside *)
    assert (Ho : forall p, (forall h, f_holder a = Some h -> upd (thr s) t p h = thr s h) /\
               (forall j u, nth_error (f_queue a) j = Some u -> upd (thr s) t p u = thr s u)).
    { intros p. split; intros; rewrite upd_other; auto; intro; subst; apply Hin; apply in_or_app.
      - left. unfold hl. rewrite H0. simpl; auto.
      - right. eapply nth_error_In; eauto. }
    destruct Ht as [Ht|Ht]; rewrite Ht in H; destruct x; try discriminate; inversion H; subst; clear H.
    + exists a. split; auto. exists P. unfold goto; simpl. destruct (Ho LkFaa) as [Ho1 Ho2].
      repeat split; auto.
      * intros h Hhe. rewrite Ho1; auto.
      * intros j u Hu. rewrite (Ho2 j u); auto.
      * intros u Hu. upd_goal; auto.
    + set (a' := {| f_holder := f_holder a; f_queue := f_queue a ++ [t] |}).
      exists a'. split; auto.
      assert (Hhl : hl a' = hl a) by reflexivity. assert (Hb : base a' = base a) by reflexivity.
      destruct (Ho (LkWait (next s))) as [Ho1 Ho2].
      exists P. rewrite Hhl, Hb. simpl. repeat split; auto.
      * rewrite Hn, Zplus_mod_idemp_l. f_equal. rewrite app_length. simpl. lia.
      * rewrite app_assoc. apply nodup_snoc; auto.
      * rewrite app_assoc. intros u Hu. apply in_app_or in Hu. destruct Hu as [Hu|[Hu|[]]]; auto. subst; auto.
      * intros h Hhe. rewrite Ho1; auto.
      * intros j u Hu. destruct (Nat.lt_ge_cases j (length (f_queue a))) as [Hj|Hj].
        -- rewrite nth_error_app1 in Hu by auto. rewrite (Ho2 j u); auto.
        -- rewrite nth_error_app2 in Hu by auto.
           destruct (j - length (f_queue a))%nat as [|m] eqn:Em; simpl in Hu;
             [|destruct m; discriminate].
           inversion Hu; subst u. rewrite upd_same. rewrite Hn. do 2 f_equal; lia.
      * intros u Hu. rewrite app_assoc in Hu. rewrite upd_other. apply Hid. intro; apply Hu; apply in_or_app; auto.
        intro; subst. apply Hu. apply in_or_app. right; simpl; auto.
Qed.

Lemma ticketg_refines : forall ls s log, run (step W n) init ls = Some (s, log) -> fcfs_legal log.
Proof.
  intros. destruct (run_refines _ fcfs_step R init fcfs_init R_init R_step _ _ _ H) as [a [? _]].
  exists a; auto.
Qed.

(** Progress: the front of the queue of a free lock acquires by its own next
    step. *)
Lemma ticketg_front : forall s, reachable (step W n) init s ->
  forall t, waiting s t = true ->
  exists ls s' log, run (step W n) s ls = Some (s', log) /\ In (FAcq t) log.
Proof.
  intros s [ls [log H]] t Hw.
  destruct (run_refines _ fcfs_step R init fcfs_init R_init R_step _ _ _ H) as [a [_ HR]].
  clear H ls log.
  (* position of t in the queue *)
  assert (Hpos : exists i, nth_error (f_queue a) i = Some t).
  { destruct HR as [P [_ [_ [_ [_ [Hh [_ Hid]]]]]]]. unfold waiting in Hw.
    destruct (in_dec Nat.eq_dec t (hl a ++ f_queue a)) as [Hin|Hin].
    - destruct (in_hq_cases _ _ Hin) as [He|]; auto. destruct (Hh _ He) as [E|E]; rewrite E in Hw; discriminate.
    - destruct (Hid _ Hin) as [E|E]; rewrite E in Hw; discriminate. }
  destruct Hpos as [i Hi]. clear Hw. revert s a HR Hi.
  induction i as [i IH] using lt_wf_ind. intros.
  (* make the lock free *)
  assert (Hfree : exists ls s1 log a1, run (step W n) s ls = Some (s1, log) /\ R s1 a1 /\
             f_holder a1 = None /\ f_queue a1 = f_queue a).
  { destruct (f_holder a) as [h|] eqn:He.
    - assert (Hlth : Nat.ltb h n = true).
      { apply Nat.ltb_lt. destruct HR as [P [_ [_ [_ [Hlt _]]]]]. apply Hlt. unfold hl. rewrite He. simpl; auto. }
      assert (Hun : forall s0 a0, R s0 a0 -> f_holder a0 = Some h -> f_queue a0 = f_queue a -> thr s0 h = UnStore (position s0) ->
        exists ls s1 log a1, run (step W n) s0 ls = Some (s1, log) /\ R s1 a1 /\
             f_holder a1 = None /\ f_queue a1 = f_queue a).
      { intros s0 a0 HR0 He0 Hq0 Hu.
        assert (Hs : exists s1, step W n s0 (h, ATick) = Some (s1, [FRel h])).
        { unfold step. rewrite Hlth, Hu. simpl. eauto. }
        destruct Hs as [s1 Hs]. destruct (R_step _ _ _ _ _ HR0 Hs) as [a1 [Ha1 HR1]].
        exists [(h, ATick)], s1, ([FRel h] ++ []), a1. split; [eapply run_cons; eauto; reflexivity|].
        split; auto. simpl in Ha1. rewrite He0, Nat.eqb_refl in Ha1. inversion Ha1; subst. auto. }
      destruct HR as [P HR0]. pose proof HR0 as [_ [_ [_ [_ [Hh _]]]]].
      assert (HR : R s a) by (exists P; auto). clear HR0. destruct (Hh _ He) as [Hc|Hc]; [|eapply Hun; eauto].
      assert (Hs : step W n s (h, AUnlock) = Some (goto s h (UnStore (position s)), [])).
      { unfold step. rewrite Hlth, Hc. auto. }
      destruct (R_step _ _ _ _ _ HR Hs) as [a1 [Ha1 HR1]]. simpl in Ha1. inversion Ha1; subst a1.
      destruct (Hun _ _ HR1 He eq_refl) as [ls [s2 [log [a2 [? [? [? ?]]]]]]].
      { unfold goto; simpl. apply upd_same. }
      exists ((h, AUnlock) :: ls), s2, ([] ++ log), a2. split; [eapply run_cons; eauto|]. auto.
    - exists [], s, [], a. simpl. auto. }
  destruct Hfree as [ls [s1 [log [a1 [Hr [HR1 [Hn1 Hq1]]]]]]].
  destruct (f_queue a) as [|u q] eqn:Hqa; [destruct i; discriminate|].
  (* front acquires *)
  assert (Hs : exists s2, step W n s1 (u, ATick) = Some (s2, [FAcq u])).
  { destruct HR1 as [P [Hp [_ [_ [Hlt [_ [Hq _]]]]]]].
    assert (Hu : nth_error (f_queue a1) 0 = Some u) by (rewrite Hq1; auto).
    pose proof (Hq _ _ Hu) as Ht. unfold step.
    assert (Hlu : Nat.ltb u n = true).
    { apply Nat.ltb_lt. apply Hlt. apply in_or_app. right. rewrite Hq1. simpl; auto. }
    rewrite Hlu, Ht. simpl. unfold base. rewrite Hn1, Hp. simpl.
    replace (P + 0 + 0) with P by lia. rewrite ?Z.eqb_refl; eauto. }
  destruct Hs as [s2 Hs]. destruct (R_step _ _ _ _ _ HR1 Hs) as [a2 [Ha2 HR2]].
  assert (Hrun2 : run (step W n) s1 [(u, ATick)] = Some (s2, [FAcq u] ++ [])).
  { eapply run_cons; [eassumption|reflexivity]. }
  destruct i as [|i].
  - simpl in Hi. inversion Hi; subst u.
    exists (ls ++ [(t, ATick)]), s2, (log ++ [FAcq t] ++ []).
    split; [eapply run_app; eauto|]. apply in_or_app. right. simpl; auto.
  - simpl in Hi. simpl in Ha2. rewrite Hn1, Hq1, Nat.eqb_refl in Ha2. inversion Ha2; subst a2.
    destruct (IH i (Nat.lt_succ_diag_r i) s2 _ HR2 Hi) as [ls3 [s3 [log3 [Hr3 Hin3]]]].
    exists (ls ++ [(u, ATick)] ++ ls3), s3, (log ++ ([FAcq u] ++ []) ++ log3).
    split; [eapply run_app; eauto; eapply run_app; eauto|].
    apply in_or_app. right. apply in_or_app. auto.
Qed.
End P.
