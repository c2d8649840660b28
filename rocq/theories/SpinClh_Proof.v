From Coq Require Import Arith List Bool Lia.
From Verif Require Import Lib LockSpec LockProg SpinClh_Model.
Import ListNotations.


(** Node watched by the i-th member: the dummy for the first, the node of the
    preceding member otherwise. *)
Definition chain (s : state) (d : nat) (q : list nat) : list nat := d :: map (node s) q.

Record Inv (s : state) (a : fcfs) (d : nat) : Prop := {
  i_tail : tail s = last (chain s d (hq a)) 0;
  i_wd : wait s d = false;
  i_wq : forall t, In t (hq a) -> wait s (node s t) = true;
  i_inj : forall t u, node s t = node s u -> t = u;
  i_nd : forall t, node s t <> d;
  i_nodup : NoDup (hq a);
  i_holder : forall h, f_holder a = Some h ->
     prev s (node s h) = d /\ (thr s h = Crit \/ thr s h = U1 \/ thr s h = U2 d);
  i_queue : forall i t, nth_error (hq a) i = Some t -> f_holder a <> Some t ->
     exists p, nth_error (chain s d (hq a)) i = Some p /\
       (thr s t = L3 p \/ (thr s t = L4 p /\ prev s (node s t) = p));
  i_out : forall t, ~ In t (hq a) ->
     thr s t = Idle \/ thr s t = L1 \/ (thr s t = L2 /\ wait s (node s t) = true)
}.

Definition R (s : state) (a : fcfs) : Prop := exists d, Inv s a d.

Lemma R_init : R init fcfs_init.
Proof.
  exists 0. constructor; simpl; auto; try constructor; try discriminate; try tauto.
  intros [|i]; discriminate.
Qed.

Lemma chain_ext : forall s s' d q, (forall t, In t q -> node s' t = node s t) ->
  chain s' d q = chain s d q.
Proof. intros. unfold chain. f_equal. apply map_ext_in. auto. Qed.

Lemma chain_nth : forall s d q i t, nth_error q i = Some t -> nth_error (chain s d q) (S i) = Some (node s t).
Proof. intros. simpl. rewrite nth_error_map, H. auto. Qed.

Lemma chain_0 : forall s d q p, nth_error (chain s d q) 0 = Some p -> p = d.
Proof. simpl. intros. congruence. Qed.

Lemma last_snoc : forall A (l : list A) x d, last (l ++ [x]) d = x.
Proof. intros. apply last_last. Qed.

Lemma R_step : forall s a l s' ev, R s a -> step s l = Some (s', ev) ->
  exists a', accepts fcfs_step a ev = Some a' /\ R s' a'.
Proof.
  intros s a [t x] s' ev [d I] H. destruct I.
  unfold step in H.
  destruct (in_dec Nat.eq_dec t (hq a)) as [Hin|Hout].
  - destruct (holder_dec (f_holder a) t) as [He|He].
    + (* holder *)
      destruct (i_holder0 _ He) as [Hpv [Ht|[Ht|Ht]]]; rewrite Ht in H; destruct x; try discriminate;
        injection H as <- <-.
      * exists a. split; [reflexivity|]. exists d. constructor; simpl; auto.
        -- intros h Hh. assert (h = t) by congruence. subst h. rewrite upd_same. auto.
        -- intros i u Hu Hne. rewrite upd_other by congruence. eauto.
        -- intros u Hu. rewrite upd_other; auto. intro; subst; auto.
      * exists a. split; [reflexivity|]. exists d. constructor; simpl; auto.
        -- intros h Hh. assert (h = t) by congruence. subst h. rewrite upd_same. rewrite Hpv. auto.
        -- intros i u Hu Hne. rewrite upd_other by congruence. eauto.
        -- intros u Hu. rewrite upd_other; auto. intro; subst; auto.
      * (* release *)
        exists {| f_holder := None; f_queue := f_queue a |}. simpl. rewrite He, Nat.eqb_refl. split; auto.
        unfold hq, hl in *. rewrite He in *. simpl in *.
        assert (Hnt : ~ In t (f_queue a)) by (inversion i_nodup0; auto).
        exists (node s t).
        set (s' := mk (tail s) (upd (wait s) (node s t) false) (prev s) (upd (node s) t d) (upd (thr s) t Idle)).
        assert (Hmap : map (node s') (f_queue a) = map (node s) (f_queue a)).
        { apply map_ext_in. intros u Hu. simpl. rewrite upd_other; auto. intro; subst; auto. }
        constructor; unfold hq, hl; simpl; auto.
        -- rewrite i_tail0. simpl. unfold s' in Hmap. simpl in Hmap. rewrite Hmap. auto.
        -- rewrite upd_same. auto.
        -- intros u Hu. rewrite (upd_other _ (node s)) by (intro; subst; auto).
           rewrite upd_other by (intro E; apply i_inj0 in E; subst; auto). auto.
        -- intros u v. unfold upd. destruct (Nat.eq_dec u t), (Nat.eq_dec v t); subst; auto; intros E.
           ++ symmetry in E. apply i_nd0 in E. tauto.
           ++ apply i_nd0 in E. tauto.
        -- intros u. unfold upd. destruct (Nat.eq_dec u t); subst.
           ++ intro E. symmetry in E. apply i_nd0 in E. auto.
           ++ intro E. apply i_inj0 in E. auto.
        -- inversion i_nodup0; auto.
        -- discriminate.
        -- intros i u Hu _.
           assert (Hut : u <> t) by (intro; subst; apply Hnt; eapply nth_error_In; eauto).
           destruct (i_queue0 (S i) u Hu) as [p [Hp Hpc]]; [congruence|].
           exists p. split.
           ++ change (nth_error (node s t :: map (node s') (f_queue a)) i = Some p). rewrite Hmap. exact Hp.
           ++ rewrite !(upd_other _ _ t) by auto. auto.
        -- intros u Hu. unfold upd. destruct (Nat.eq_dec u t); auto.
           assert (Hu2 : ~ (t = u \/ In u (f_queue a))) by (intros [?|?]; auto).
           destruct (i_out0 u Hu2) as [?|[?|[? ?]]]; auto.
           right; right. split; auto. destruct (Nat.eq_dec (node s u) (node s t)) as [E|E]; auto.
    + (* waiter *)
      destruct (In_nth_error _ _ Hin) as [i Hi].
      destruct (i_queue0 _ _ Hi He) as [p [Hp [Ht|[Ht Hpv]]]]; rewrite Ht in H; destruct x; try discriminate.
      * (* store previous *)
        injection H as <- <-. exists a. split; [reflexivity|]. exists d. constructor; simpl; auto.
        -- intros h Hh. assert (h <> t) by congruence. rewrite !(upd_other _ _ t) by auto.
           rewrite upd_other by (intro E; apply i_inj0 in E; auto). auto.
        -- intros j u Hu Hne. destruct (i_queue0 _ _ Hu Hne) as [p' [Hp' Hpc]]. exists p'. split; auto.
           unfold upd. destruct (Nat.eq_dec u t).
           ++ subst. right. split.
              { assert (j = i).
                { apply (NoDup_nth_error (hq a)); auto; [apply nth_error_Some; congruence|congruence]. }
                subst. congruence. }
              assert (j = i).
              { apply (NoDup_nth_error (hq a)); auto; [apply nth_error_Some; congruence|congruence]. }
              subst. destruct (Nat.eq_dec (node s t) (node s t)); congruence.
           ++ destruct Hpc as [?|[? ?]]; auto. right; split; auto.
              destruct (Nat.eq_dec (node s u) (node s t)) as [E|E]; auto. apply i_inj0 in E. contradiction.
        -- intros u Hu. rewrite upd_other; auto. intro; subst; auto.
      * (* spin *)
        destruct (wait s p) eqn:Ew; injection H as <- <-.
        -- exists a. split; [reflexivity|]. exists d. constructor; simpl; auto.
           ++ intros h Hh. assert (h <> t) by congruence. rewrite upd_other by auto. auto.
           ++ intros j u Hu Hne. destruct (i_queue0 _ _ Hu Hne) as [p' [Hp' Hpc]]. exists p'. split; auto.
              upd_goal; auto. subst. right. destruct Hpc as [?|[? ?]]; split; congruence.
           ++ intros u Hu. rewrite upd_other; auto. intro; subst; auto.
        -- (* acquire: p must be the dummy *)
           assert (Hi0 : i = 0).
           { destruct i; auto. exfalso.
             destruct (nth_error (hq a) i) as [u|] eqn:Eu.
             - rewrite (chain_nth s d _ _ _ Eu) in Hp. assert (Hpn : p = node s u) by congruence. rewrite Hpn in Ew.
               rewrite i_wq0 in Ew; [discriminate|]. eapply nth_error_In; eauto.
             - apply nth_error_None in Eu. assert (S i < length (hq a)) by (apply nth_error_Some; congruence). lia. }
           subst i. apply chain_0 in Hp. rewrite Hp in *.
           assert (HhN : f_holder a = None).
           { destruct (f_holder a) eqn:Eh; auto. exfalso. unfold hq, hl in Hi. rewrite Eh in Hi. simpl in Hi. congruence. }
           unfold hq, hl in *. rewrite HhN in *. simpl in *.
           destruct (f_queue a) as [|u q] eqn:Eq; [discriminate|]. simpl in Hi. inversion Hi; subst u.
           exists {| f_holder := Some t; f_queue := q |}. simpl. rewrite ?HhN, ?Eq, Nat.eqb_refl. split; [reflexivity|].
           exists d. constructor; unfold hq, hl; simpl; auto.
           ++ intros h Hh. inversion Hh; subst. rewrite upd_same. auto.
           ++ intros j u Hu Hne. assert (u <> t) by congruence. rewrite upd_other by auto.
              apply (i_queue0 j u); auto. congruence.
           ++ intros u Hu. rewrite upd_other; auto.
  - (* outside *)
    assert (Hnh : forall h, f_holder a = Some h -> h <> t).
    { intros h Hh E. subst. apply Hout. unfold hq, hl. rewrite Hh. simpl; auto. }
    assert (Hnq : forall i u, nth_error (hq a) i = Some u -> u <> t).
    { intros i u Hu E. subst. apply Hout. eapply nth_error_In; eauto. }
    destruct (i_out0 _ Hout) as [Ht|[Ht|[Ht Hwt]]]; rewrite Ht in H; destruct x; try discriminate;
      injection H as <- <-.
    + exists a. split; [reflexivity|]. exists d. constructor; simpl; auto.
      * intros h Hh. rewrite upd_other by auto. auto.
      * intros j u Hu Hne. rewrite upd_other by eauto. auto.
      * intros u Hu. upd_goal; auto.
    + exists a. split; [reflexivity|]. exists d. constructor; simpl; auto.
      * rewrite upd_other; auto.
      * intros u Hu. upd_goal; auto.
      * intros h Hh. rewrite upd_other by auto. auto.
      * intros j u Hu Hne. rewrite upd_other by eauto. auto.
      * intros u Hu. unfold upd at 1. destruct (Nat.eq_dec u t).
        -- subst. right; right. split; [apply upd_same|]. apply upd_same.
        -- rewrite upd_other by auto. destruct (i_out0 _ Hu) as [?|[?|[? ?]]]; auto. right; right. split; auto. upd_goal; auto.
    + (* swap *)
      set (a' := {| f_holder := f_holder a; f_queue := f_queue a ++ [t] |}).
      exists a'. split; [reflexivity|].
      assert (Hhq : hq a' = hq a ++ [t]) by (unfold hq, hl; simpl; apply app_assoc).
      assert (Hch : forall s0, chain s0 d (hq a ++ [t]) = chain s0 d (hq a) ++ [node s0 t]).
      { intros. unfold chain. rewrite map_app. auto. }
      exists d. constructor; rewrite ?Hhq; change (f_holder a') with (f_holder a); cbn [tail wait prev node thr]; auto.
      * match goal with |- _ = last ?l 0 => replace l with (chain s d (hq a) ++ [node s t]) end.
        -- rewrite last_last. auto.
        -- rewrite <- Hch. reflexivity.
      * intros u Hu. apply in_app_or in Hu. destruct Hu as [Hu|[Hu|[]]]; subst; auto.
      * apply nodup_snoc; auto.
      * intros h Hh. rewrite upd_other by auto. auto.
      * intros j u Hu Hne.
        assert (Hlenc : length (chain s d (hq a)) = S (length (hq a))) by (unfold chain; simpl; rewrite map_length; auto).
        destruct (Nat.lt_ge_cases j (length (hq a))) as [Hj|Hj].
        -- rewrite nth_error_app1 in Hu by auto. rewrite upd_other by eauto.
           destruct (i_queue0 _ _ Hu Hne) as [p [Hp Hpc]]. exists p. split; auto.
           match goal with |- nth_error ?l j = _ => replace l with (chain s d (hq a) ++ [node s t]) by (rewrite <- Hch; reflexivity) end.
           rewrite nth_error_app1 by lia. auto.
        -- rewrite nth_error_app2 in Hu by auto.
           destruct (j - length (hq a)) as [|m] eqn:Em; simpl in Hu; [|destruct m; discriminate].
           inversion Hu; subst u. assert (j = length (hq a)) by lia. subst j.
           exists (tail s). split; [|left; apply upd_same].
           match goal with |- nth_error ?l _ = _ => replace l with (chain s d (hq a) ++ [node s t]) by (rewrite <- Hch; reflexivity) end.
           rewrite nth_error_app1 by lia. rewrite i_tail0.
           clear - Hlenc.
           destruct (exists_last (l := chain s d (hq a))) as [l' [z Hz]]; [discriminate|].
           rewrite Hz in *. rewrite last_last. rewrite app_length in Hlenc. simpl in Hlenc.
           rewrite nth_error_app2 by lia. replace (length (hq a) - length l') with 0 by lia. auto.
      * intros u Hu. rewrite upd_other; auto.
        -- apply i_out0. intro; apply Hu; apply in_or_app; auto.
        -- intro; subst. apply Hu. apply in_or_app. simpl; auto.
Qed.

Lemma clh_refines : forall ls s log, run step init ls = Some (s, log) -> fcfs_legal log.
Proof.
  intros ls s log H. destruct (sim_run _ _ _ _ step fcfs_step R R_step _ _ _ _ _ R_init H) as [a [Ha _]].
  exists a. auto.
Qed.

Lemma clh_reach : forall s, reachable step init s -> exists a, R s a.
Proof.
  intros s [ls [log H]]. destruct (sim_run _ _ _ _ step fcfs_step R R_step _ _ _ _ _ R_init H) as [a [_ Ha]].
  exists a. auto.
Qed.

Lemma free_ : forall s a h, R s a -> f_holder a = Some h ->
  exists ls s1 log a1, run step s ls = Some (s1, log) /\ R s1 a1 /\ f_holder a1 = None /\ f_queue a1 = f_queue a.
Proof.
  intros s a h HR He.
  assert (Hr : exists ls s1, run step s ls = Some (s1, [FRel h])).
  { destruct HR as [d I]. destruct (i_holder _ _ _ I _ He) as [_ [E|[E|E]]].
    - eexists [(h, AUnlock); (h, ATick); (h, ATick)], _.
      eapply run_cons with (e1 := []); [simpl; rewrite E; reflexivity|].
      eapply run_cons with (e1 := []); [simpl; rewrite upd_same; reflexivity|].
      eapply run_cons with (e1 := [FRel h]) (e2 := []); [simpl; rewrite upd_same; reflexivity|reflexivity].
    - eexists [(h, ATick); (h, ATick)], _.
      eapply run_cons with (e1 := []); [simpl; rewrite E; reflexivity|].
      eapply run_cons with (e1 := [FRel h]) (e2 := []); [simpl; rewrite upd_same; reflexivity|reflexivity].
    - eexists [(h, ATick)], _.
      eapply run_cons with (e1 := [FRel h]) (e2 := []); [simpl; rewrite E; reflexivity|reflexivity]. }
  destruct Hr as [ls [s1 Hr]].
  destruct (sim_run _ _ _ _ step fcfs_step R R_step _ _ _ _ _ HR Hr) as [a1 [Ha1 HR1]].
  exists ls, s1, [FRel h], a1. simpl in Ha1. rewrite He, Nat.eqb_refl in Ha1. inversion Ha1; subst. auto.
Qed.

Lemma grab_ : forall s a u q, R s a -> f_holder a = None -> f_queue a = u :: q ->
  exists ls s1 log a1, run step s ls = Some (s1, log) /\ R s1 a1 /\ In (FAcq u) log /\ f_queue a1 = q.
Proof.
  intros s a u q HR Hn Hq.
  assert (Hr : exists ls s1, run step s ls = Some (s1, [FAcq u])).
  { destruct HR as [d I]. destruct (i_queue _ _ _ I 0 u) as [p [Hp Hpc]].
    - unfold hq, hl. rewrite Hn, Hq. auto.
    - congruence.
    - simpl in Hp. inversion Hp; subst p. pose proof (i_wd _ _ _ I) as Hw.
      destruct Hpc as [E|[E _]].
      + eexists [(u, ATick); (u, ATick)], _.
        eapply run_cons with (e1 := []); [simpl; rewrite E; reflexivity|].
        eapply run_cons with (e1 := [FAcq u]) (e2 := []); [simpl; rewrite upd_same, Hw; reflexivity|reflexivity].
      + eexists [(u, ATick)], _.
        eapply run_cons with (e1 := [FAcq u]) (e2 := []); [simpl; rewrite E, Hw; reflexivity|reflexivity]. }
  destruct Hr as [ls [s1 Hr]].
  destruct (sim_run _ _ _ _ step fcfs_step R R_step _ _ _ _ _ HR Hr) as [a1 [Ha1 HR1]].
  exists ls, s1, [FAcq u], a1. simpl in Ha1. rewrite Hn, Hq, Nat.eqb_refl in Ha1. inversion Ha1; subst. simpl. auto.
Qed.

Lemma clh_progress : forall s, reachable step init s -> forall t, waiting s t = true ->
  exists ls s' log, run step s ls = Some (s', log) /\ In (FAcq t) log.
Proof.
  intros s Hre t Hw. destruct (clh_reach _ Hre) as [a HR].
  apply (fcfs_progress _ _ step R free_ grab_ s a t HR).
  destruct HR as [d I]. destruct (in_dec Nat.eq_dec t (hq a)) as [Hin|Hin].
  - unfold hq, hl in Hin. destruct (f_holder a) as [h|] eqn:He; auto. destruct Hin as [E|]; auto. subst h.
    unfold waiting in Hw. destruct (i_holder _ _ _ I _ He) as [_ [E|[E|E]]]; rewrite E in Hw; discriminate.
  - unfold waiting in Hw. destruct (i_out _ _ _ I _ Hin) as [E|[E|[E _]]]; rewrite E in Hw; discriminate.
Qed.

(** [locked] answers true exactly when somebody holds or has queued. *)
Lemma clh_locked_exact : forall s, reachable step init s ->
  locked s = true <-> exists t, holding s t = true \/ waiting s t = true.
Proof.
  intros s Hre. destruct (clh_reach _ Hre) as [a [d I]]. unfold locked. rewrite (i_tail _ _ _ I).
  destruct (hq a) as [|u q] eqn:Eq.
  - simpl. rewrite (i_wd _ _ _ I). split; [discriminate|]. intros [t Ht]. exfalso.
    assert (Hin : ~ In t (hq a)) by (rewrite Eq; auto).
    unfold holding, waiting in Ht. destruct (i_out _ _ _ I _ Hin) as [E|[E|[E _]]]; rewrite E in Ht; destruct Ht; discriminate.
  - split; intros _.
    + exists u. assert (Hu : nth_error (hq a) 0 = Some u) by (rewrite Eq; auto).
      destruct (holder_dec (f_holder a) u) as [E|E].
      * left. unfold holding. destruct (i_holder _ _ _ I _ E) as [_ [H|[H|H]]]; rewrite H; auto.
      * right. unfold waiting. destruct (i_queue _ _ _ I _ _ Hu E) as [p [_ [H|[H _]]]]; rewrite H; auto.
    + destruct (exists_last (l := u :: q)) as [l' [z Hz]]; [discriminate|]. rewrite Hz.
      unfold chain. rewrite map_app. simpl map. rewrite app_comm_cons, last_last.
      apply (i_wq _ _ _ I). rewrite Eq, Hz. apply in_or_app. simpl; auto.
Qed.

(** The node a thread owns while idle is referenced by nobody else. *)
Lemma clh_recycle : forall s, reachable step init s ->
  (forall t u, node s t = node s u -> t = u) /\
  (forall t, thr s t = Idle -> node s t <> tail s /\
     forall u p, (thr s u = L3 p \/ thr s u = L4 p \/ thr s u = U2 p) -> node s t <> p).
Proof.
  intros s Hre. destruct (clh_reach _ Hre) as [a [d I]]. split; [apply (i_inj _ _ _ I)|].
  intros t Ht.
  assert (Hout : ~ In t (hq a)).
  { intros Hin. destruct (holder_dec (f_holder a) t) as [E|E].
    - destruct (i_holder _ _ _ I _ E) as [_ [H|[H|H]]]; congruence.
    - destruct (In_nth_error _ _ Hin) as [i Hi]. destruct (i_queue _ _ _ I _ _ Hi E) as [p [_ [H|[H _]]]]; congruence. }
  assert (Hch : ~ In (node s t) (chain s d (hq a))).
  { intros [H|H]; [symmetry in H; apply (i_nd _ _ _ I) in H; auto|].
    apply in_map_iff in H. destruct H as [u [Hu Hin]]. apply (i_inj _ _ _ I) in Hu. subst; auto. }
  split.
  - intros E. apply Hch. rewrite E, (i_tail _ _ _ I).
    destruct (exists_last (l := chain s d (hq a))) as [l' [z Hz]]; [discriminate|]. rewrite Hz, last_last.
    apply in_or_app. simpl; auto.
  - intros u p Hu E. apply Hch. rewrite E.
    destruct (in_dec Nat.eq_dec u (hq a)) as [Hin|Hin].
    + destruct (holder_dec (f_holder a) u) as [Eh|Eh].
      * destruct (i_holder _ _ _ I _ Eh) as [_ [H|[H|H]]]; rewrite H in Hu;
          destruct Hu as [Hu|[Hu|Hu]]; try discriminate. inversion Hu; subst. left; auto.
      * destruct (In_nth_error _ _ Hin) as [i Hi]. destruct (i_queue _ _ _ I _ _ Hi Eh) as [p' [Hp [H|[H _]]]];
          rewrite H in Hu; destruct Hu as [Hu|[Hu|Hu]]; try discriminate; inversion Hu; subst; eapply nth_error_In; eauto.
    + destruct (i_out _ _ _ I _ Hin) as [H|[H|[H _]]]; rewrite H in Hu; destruct Hu as [Hu|[Hu|Hu]]; discriminate.
Qed.
