From Coq Require Import Arith List ZArith Bool Lia ZifyBool ZifyNat.
From Verif Require Import Lib LockSpec SpinTicket_Model.
Import ListNotations.
Local Open Scope Z_scope.

Definition hl (a : fcfs) : list nat := match f_holder a with Some h => [h] | None => [] end.
Definition base (a : fcfs) : Z := match f_holder a with Some _ => 1 | None => 0 end.

Lemma base_hl : forall a, base a = Z.of_nat (length (hl a)).
Proof. intros. unfold base, hl. destruct (f_holder a); auto. Qed.

Section P.
Variable k : Z.
Variable n : nat.
Hypothesis Hk : 0 <= k.
Hypothesis HB : Z.of_nat n < 2 ^ k.

Notation B := (2 ^ k).

Definition word (r p : Z) : Z := r * B + p.

Lemma Bpos : 0 < B. Proof. apply Z.pow_pos_nonneg; lia. Qed.

Lemma pos_word : forall r p, 0 <= p < B -> position_of k (word r p) = p.
Proof.
  intros. unfold position_of, MASK, word. rewrite Z.land_ones by auto.
  rewrite Z.add_comm, Z.mod_add by lia. apply Z.mod_small; auto.
Qed.

Lemma req_word : forall r p, 0 <= p < B -> request_of k (word r p) = r.
Proof.
  intros. unfold request_of, word. rewrite Z.shiftr_div_pow2 by auto.
  rewrite Z.div_add_l by lia. rewrite Z.div_small; lia.
Qed.

Lemma faa_word : forall r p, 0 <= p < B -> 0 <= r ->
  (word r p + INCREMENT k) mod WORD k = word ((r + 1) mod B) p.
Proof.
  intros. unfold word, INCREMENT, WORD. rewrite Z.shiftl_mul_pow2 by auto.
  replace (2 * k) with (k + k) by lia. rewrite Z.pow_add_r by auto.
  pose proof Bpos.
  replace (r * B + p + 1 * B) with (p + B * (r + 1)) by ring.
  rewrite Z.rem_mul_r by lia.
  replace (p + B * (r + 1)) with (p + (r + 1) * B) by ring.
  rewrite Z.mod_add by lia. rewrite Z.mod_small by lia.
  rewrite Z.div_add by lia. rewrite Z.div_small by lia. simpl. lia.
Qed.

Lemma inc_word : forall r p, 0 <= p < B -> 0 <= r -> inc_low k (word r p) = word r ((p + 1) mod B).
Proof.
  intros. unfold inc_low.
  change (Z.land (word r p) (MASK k)) with (position_of k (word r p)).
  change (Z.shiftr (word r p) k) with (request_of k (word r p)).
  rewrite pos_word, req_word by auto. unfold word, BASE.
  pose proof Bpos. pose proof (Z.mod_pos_bound (p + 1) B H1).
  rewrite Z.shiftl_mul_pow2 by auto.
  assert (HL : Z.land (r * B) ((p + 1) mod B) = 0).
  { apply Z.bits_inj'. intros m Hm. rewrite Z.land_spec, Z.bits_0.
    destruct (Z.lt_ge_cases m k).
    - rewrite Z.mul_pow2_bits_low by auto. auto.
    - rewrite Z.mod_pow2_bits_high by lia. apply andb_false_r. }
  rewrite <- Z.lxor_lor by auto. rewrite <- Z.add_nocarry_lxor by auto. auto.
Qed.

Definition R (s : state) (a : fcfs) : Prop :=
  exists P : Z,
    value s = word ((P + base a + Z.of_nat (length (f_queue a))) mod B) (P mod B) /\
    NoDup (hl a ++ f_queue a) /\
    (forall t, In t (hl a ++ f_queue a) -> (t < n)%nat) /\
    (forall h, f_holder a = Some h -> thr s h = Crit) /\
    (forall i t, nth_error (f_queue a) i = Some t ->
       thr s t = LkWait ((P + base a + Z.of_nat i) mod B)) /\
    (forall t, ~ In t (hl a ++ f_queue a) -> thr s t = Idle \/ thr s t = LkFaa \/
        exists v, thr s t = TryCas v /\ position_of k v = request_of k v).

Lemma R_init : R init fcfs_init.
Proof.
  exists 0. unfold fcfs_init. simpl. unfold base, hl; simpl.
  repeat split; auto; try constructor; intros; try tauto; try discriminate.
  destruct i; discriminate.
Qed.

Lemma in_hq_cases : forall a t, In t (hl a ++ f_queue a) ->
  f_holder a = Some t \/ exists i, nth_error (f_queue a) i = Some t.
Proof.
  intros. apply in_app_or in H. destruct H.
  - unfold hl in H. destruct (f_holder a); simpl in H; intuition congruence.
  - right. apply In_nth_error. auto.
Qed.

Ltac mb := repeat match goal with
  | |- 0 <= _ mod _ < _ => apply Z.mod_pos_bound; apply Bpos
  | |- 0 <= _ mod _ => apply Z.mod_pos_bound; apply Bpos
  end.

(** the two halves agree exactly when nobody holds or waits *)
Lemma halves_eq : forall s a P,
  value s = word ((P + base a + Z.of_nat (length (f_queue a))) mod B) (P mod B) ->
  NoDup (hl a ++ f_queue a) -> (forall t, In t (hl a ++ f_queue a) -> (t < n)%nat) ->
  (request_of k (value s) = position_of k (value s) <-> (f_holder a = None /\ f_queue a = [])).
Proof.
  intros s a P Hv Hnd Hlt. rewrite Hv. rewrite pos_word, req_word by mb.
  pose proof (nodup_bound _ _ Hnd Hlt) as Hlen. rewrite app_length in Hlen.
  pose proof (base_hl a). pose proof Bpos. split.
  - intros E. replace (P mod B) with ((P + 0) mod B) in E by (f_equal; lia).
    rewrite <- Z.add_assoc in E. apply mod_eq_small in E; try lia.
    unfold hl in *. destruct (f_holder a); simpl in *; [lia|]. split; auto.
    destruct (f_queue a); simpl in *; auto; lia.
  - intros [E1 E2]. unfold base. rewrite E1, E2. simpl. f_equal. lia.
Qed.

Lemma R_step : forall s a l s' ev, R s a -> step k n s l = Some (s', ev) ->
  exists a', accepts fcfs_step a ev = Some a' /\ R s' a'.
Proof.
  intros s a [t x] s' ev [P [Hv [Hnd [Hlt [Hh [Hq Hid]]]]]] H.
  pose proof (halves_eq _ _ _ Hv Hnd Hlt) as Hhalf.
  pose proof Bpos as HBp.
  unfold step in H.
  destruct (Nat.ltb t n) eqn:Hltn; simpl in H; [|discriminate]. apply Nat.ltb_lt in Hltn.
  assert (Hfaa : (value s + INCREMENT k) mod WORD k =
     word ((P + base a + Z.of_nat (length (f_queue a)) + 1) mod B) (P mod B)).
  { rewrite Hv. rewrite faa_word by mb. f_equal. rewrite Zplus_mod_idemp_l. auto. }
  assert (HlockedR : forall b, b = negb (request_of k (value s) =? position_of k (value s)) ->
     accepts fcfs_step a [FLocked t b] = Some a).
  { intros b ->. simpl. destruct (Z.eqb_spec (request_of k (value s)) (position_of k (value s))) as [E|E]; simpl.
    - apply Hhalf in E. destruct E as [-> ->]. auto.
    - destruct (f_holder a) eqn:E1; auto. destruct (f_queue a) eqn:E2; auto.
      exfalso. apply E. apply Hhalf. auto. }
  assert (Rs : R s a) by (exists P; repeat split; auto).
  destruct (in_dec Nat.eq_dec t (hl a ++ f_queue a)) as [Hin|Hin].
  - destruct (in_hq_cases _ _ Hin) as [He|[i Hi]].
    + (* holder *)
      pose proof (Hh _ He) as Ht. rewrite Ht in H. destruct x; try discriminate; inversion H; subst; clear H.
      * exists {| f_holder := None; f_queue := f_queue a |}.
        simpl. rewrite He, Nat.eqb_refl. split; auto.
        unfold hl, base in *. rewrite He in *. simpl in *.
        exists (P + 1). simpl. unfold hl, base; simpl. repeat split.
        -- rewrite Hv. rewrite inc_word by mb. f_equal; [f_equal; lia|]. rewrite Zplus_mod_idemp_l. auto.
        -- inversion Hnd; auto.
        -- intros; apply Hlt; auto.
        -- discriminate.
        -- intros i u Hu. rewrite upd_other. rewrite (Hq _ _ Hu). do 2 f_equal; lia.
           intro; subst. rewrite (Hq _ _ Hu) in Ht. discriminate.
        -- intros u Hu. upd_goal; auto. apply Hid. intros [?|?]; auto.
      * exists a. split; auto.
    + (* waiter *)
      pose proof (Hq _ _ Hi) as Ht.
      rewrite Ht in H. destruct x; try discriminate.
      assert (Hilen : (i < length (f_queue a))%nat) by (apply nth_error_Some; congruence).
      pose proof (nodup_bound _ _ Hnd Hlt) as Hlen.
      rewrite app_length in Hlen.
      assert (Hpv : position_of k (value s) = P mod B) by (rewrite Hv; apply pos_word; mb).
      rewrite Hpv in H.
      destruct (Z.eqb ((P + base a + Z.of_nat i) mod B) (P mod B)) eqn:E.
      * inversion H; subst; clear H. apply Z.eqb_eq in E.
        assert (base a + Z.of_nat i = 0).
        { replace (P mod B) with ((P + 0) mod B) in E by (f_equal; lia).
          rewrite <- Z.add_assoc in E. rewrite base_hl in *.
          apply mod_eq_small in E; clear -Hlen Hilen HB HBp E; lia. }
        unfold base in *. destruct (f_holder a) eqn:He; [lia|].
        assert (i = 0)%nat by lia. subst i.
        destruct (f_queue a) as [|u q] eqn:Hqa; simpl in Hi; [discriminate|]. inversion Hi; subst u.
        exists {| f_holder := Some t; f_queue := q |}. simpl. rewrite He, Hqa, Nat.eqb_refl. split; auto.
        exists P. unfold hl, base in *; simpl. rewrite He in *. simpl in *. repeat split; auto.
        -- rewrite Hv. f_equal. f_equal. lia.
        -- intros h Hh'. inversion Hh'; subst. rewrite upd_same. auto.
        -- intros j u Hu. rewrite upd_other. rewrite (Hq (S j) u Hu). do 2 f_equal; lia.
           intro; subst. inversion Hnd; subst. apply H2. eapply nth_error_In; eauto.
        -- intros u Hu. rewrite upd_other; auto.
      * inversion H; subst; clear H. exists a. split; auto. exists P. unfold goto; simpl. repeat split; auto.
        -- intros h Hhe. rewrite upd_other; auto. intro; subst. specialize (Hh _ Hhe); congruence.
        -- intros j u Hu. upd_goal; auto. subst. rewrite <- Ht. auto.
        -- intros u Hu. rewrite upd_other; auto. intro; subst. apply Hu. apply in_or_app. right.
           eapply nth_error_In; eauto.
  - (* outside *)
    assert (Ho : forall p, (forall h, f_holder a = Some h -> upd (thr s) t p h = thr s h) /\
               (forall j u, nth_error (f_queue a) j = Some u -> upd (thr s) t p u = thr s u)).
    { intros p. split; intros; rewrite upd_other; auto; intro; subst; apply Hin; apply in_or_app.
      - left. unfold hl. rewrite H0. simpl; auto.
      - right. eapply nth_error_In; eauto. }
    (* moving t between outside states *)
    assert (Hmove : forall p, (p = Idle \/ p = LkFaa \/
        exists v, p = TryCas v /\ position_of k v = request_of k v) -> R (goto s t p) a).
    { intros p Hp. destruct (Ho p) as [Ho1 Ho2]. exists P. unfold goto; simpl. repeat split; auto.
      - intros h Hhe. rewrite Ho1; auto.
      - intros j u Hu. rewrite (Ho2 j u); auto.
      - intros u Hu. upd_goal; auto. }
    (* taking a ticket on a free lock *)
    assert (Hgrab : f_holder a = None /\ f_queue a = [] ->
       exists a', accepts fcfs_step a [FReq t; FAcq t] = Some a' /\
                  R (mk ((value s + INCREMENT k) mod WORD k) (upd (thr s) t Crit)) a').
    { intros [E1 E2]. simpl. rewrite E1, E2. simpl. rewrite Nat.eqb_refl. eexists. split; [reflexivity|].
      exists P. unfold hl, base in *. rewrite E1, E2 in *. simpl in *. repeat split; auto.
      - rewrite Hfaa. f_equal. f_equal. lia.
      - constructor; simpl; auto using NoDup_nil.
      - intros u [Hu|[]]. subst; auto.
      - intros h Hh'. inversion Hh'; subst. apply upd_same.
      - intros [|i] u Hu; discriminate.
      - intros u Hu. rewrite upd_other; auto. }
    destruct (Hid _ Hin) as [Ht|[Ht|[v [Ht Hsnap]]]]; rewrite Ht in H; destruct x; try discriminate.
    + inversion H; subst; clear H. exists a. split; auto. 
    + destruct (Z.eqb_spec (position_of k (value s)) (request_of k (value s))) as [E|E];
        inversion H; subst; clear H.
      * exists a. split; [reflexivity|]. apply Hmove. right; right. exists (value s). auto.
      * exists a. split; auto.
    + inversion H; subst; clear H. exists a. split; auto.
    + (* faa *)
      cbv zeta in H. destruct (Z.eqb_spec (request_of k (value s)) (position_of k (value s))) as [E|E];
        inversion H; subst; clear H.
      * apply Hgrab. apply Hhalf; auto.
      * set (a' := {| f_holder := f_holder a; f_queue := f_queue a ++ [t] |}).
        exists a'. split; auto.
        assert (Hhl : hl a' = hl a) by reflexivity. assert (Hb : base a' = base a) by reflexivity.
        assert (Hrv : request_of k (value s) = (P + base a + Z.of_nat (length (f_queue a))) mod B).
        { rewrite Hv. apply req_word. mb. }
        destruct (Ho (LkWait (request_of k (value s)))) as [Ho1 Ho2].
        exists P. rewrite Hhl, Hb. simpl. repeat split; auto.
        -- rewrite Hfaa. f_equal. f_equal. rewrite app_length. simpl. lia.
        -- rewrite app_assoc. apply nodup_snoc; auto.
        -- rewrite app_assoc. intros u Hu. apply in_app_or in Hu. destruct Hu as [Hu|[Hu|[]]]; auto. subst; auto.
        -- intros h Hhe. rewrite Ho1; auto.
        -- intros j u Hu. destruct (Nat.lt_ge_cases j (length (f_queue a))) as [Hj|Hj].
           ++ rewrite nth_error_app1 in Hu by auto. rewrite (Ho2 j u); auto.
           ++ rewrite nth_error_app2 in Hu by auto.
              destruct (j - length (f_queue a))%nat as [|m] eqn:Em; simpl in Hu;
                [|destruct m; discriminate].
              inversion Hu; subst u. rewrite upd_same. rewrite Hrv. do 2 f_equal; lia.
        -- intros u Hu. rewrite app_assoc in Hu. rewrite upd_other. apply Hid. intro; apply Hu; apply in_or_app; auto.
           intro; subst. apply Hu. apply in_or_app. right; simpl; auto.
    + (* cas *)
      destruct (Z.eqb_spec (value s) v) as [E|E]; inversion H; subst; clear H.
      * apply Hgrab. apply Hhalf. auto.
      * exists a. split; auto.
Qed.

Lemma ticket_refines : forall ls s log, run (step k n) init ls = Some (s, log) -> fcfs_legal log.
Proof.
  intros. destruct (run_refines _ fcfs_step R init fcfs_init R_init R_step _ _ _ H) as [a [? _]].
  exists a; auto.
Qed.

Lemma ticket_progress : forall s, reachable (step k n) init s ->
  forall t, waiting s t = true ->
  exists ls s' log, run (step k n) s ls = Some (s', log) /\ In (FAcq t) log.
Proof.
  intros s [ls [log H]] t Hw.
  destruct (run_refines _ fcfs_step R init fcfs_init R_init R_step _ _ _ H) as [a [_ HR]].
  clear H ls log.
  assert (Hpos : exists i, nth_error (f_queue a) i = Some t).
  { destruct HR as [P [_ [_ [_ [Hh [_ Hid]]]]]]. unfold waiting in Hw.
    destruct (in_dec Nat.eq_dec t (hl a ++ f_queue a)) as [Hin|Hin].
    - destruct (in_hq_cases _ _ Hin) as [He|]; auto. rewrite (Hh _ He) in Hw; discriminate.
    - destruct (Hid _ Hin) as [E|[E|[v [E _]]]]; rewrite E in Hw; discriminate. }
  destruct Hpos as [i Hi]. clear Hw. revert s a HR Hi.
  induction i as [i IH] using lt_wf_ind. intros.
  assert (Hfree : exists ls s1 log a1, run (step k n) s ls = Some (s1, log) /\ R s1 a1 /\
             f_holder a1 = None /\ f_queue a1 = f_queue a).
  { destruct (f_holder a) as [h|] eqn:He.
    - pose proof HR as [P [_ [_ [Hlt [Hh _]]]]].
      assert (Hlth : Nat.ltb h n = true).
      { apply Nat.ltb_lt. apply Hlt. unfold hl. rewrite He. simpl; auto. }
      assert (Hs : exists s1, step k n s (h, AUnlock) = Some (s1, [FRel h])).
      { unfold step. rewrite Hlth, (Hh _ He). simpl. eauto. }
      destruct Hs as [s1 Hs]. destruct (R_step _ _ _ _ _ HR Hs) as [a1 [Ha1 HR1]].
      exists [(h, AUnlock)], s1, ([FRel h] ++ []), a1. split; [eapply run_cons; eauto; reflexivity|].
      split; auto. simpl in Ha1. rewrite He, Nat.eqb_refl in Ha1. inversion Ha1; subst. auto.
    - exists [], s, [], a. simpl. auto. }
  destruct Hfree as [ls [s1 [log [a1 [Hr [HR1 [Hn1 Hq1]]]]]]].
  destruct (f_queue a) as [|u q] eqn:Hqa; [destruct i; discriminate|].
  assert (Hs : exists s2, step k n s1 (u, ATick) = Some (s2, [FAcq u])).
  { destruct HR1 as [P [Hv [_ [Hlt [_ [Hq _]]]]]].
    assert (Hu : nth_error (f_queue a1) 0 = Some u) by (rewrite Hq1; auto).
    pose proof (Hq _ _ Hu) as Ht. unfold step.
    assert (Hlu : Nat.ltb u n = true).
    { apply Nat.ltb_lt. apply Hlt. apply in_or_app. right. rewrite Hq1. simpl; auto. }
    rewrite Hlu, Ht. simpl. rewrite Hv, pos_word by mb. unfold base. rewrite Hn1.
    replace (P + 0 + 0) with P by lia. rewrite Z.eqb_refl. eauto. }
  destruct Hs as [s2 Hs]. destruct (R_step _ _ _ _ _ HR1 Hs) as [a2 [Ha2 HR2]].
  assert (Hrun2 : run (step k n) s1 [(u, ATick)] = Some (s2, [FAcq u] ++ [])).
  { eapply run_cons; [eassumption|reflexivity]. }
  destruct i as [|i].
  - simpl in Hi. inversion Hi; subst u.
    exists (ls ++ [(t, ATick)]), s2, (log ++ [FAcq t] ++ []).
    split; [eapply run_app; eauto|]. apply in_or_app. right. simpl; auto.
  - simpl in Hi. simpl in Ha2. rewrite Hn1, Hq1, Nat.eqb_refl in Ha2. inversion Ha2; subst a2.
    destruct (IH i (Nat.lt_succ_diag_r i) s2 _ HR2 Hi) as [ls3 [s3 [log3 [Hr3 Hin3]]]].
    exists (ls ++ [(u, ATick)] ++ ls3), s3, (log ++ ([FAcq u] ++ []) ++ log3).
    split; [eapply run_app; eauto; eapply run_app; eauto|].
    apply in_or_app. right. apply in_or_app. auto.
Qed.
End P.
