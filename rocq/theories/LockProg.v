(** Generic progress arguments (proof infrastructure, no model). *)
From Coq Require Import Arith List Lia Bool.
From Verif Require Import Lib LockSpec.
Import ListNotations.

(** Reach an event along a decreasing measure. *)
Lemma run_reach : forall (S L E : Type) (step : S -> L -> option (S * list E))
  (I : S -> nat -> Prop) (P : list E -> Prop),
  (forall s m, I s m -> exists l s' ev, step s l = Some (s', ev) /\
      (P ev \/ exists m', m' < m /\ I s' m')) ->
  forall m s, I s m -> exists ls s' log ev, run step s ls = Some (s', log) /\ P ev /\ incl ev log.
Proof.
  intros S L E step I P Hs. induction m as [m IH] using lt_wf_ind. intros s HI.
  destruct (Hs _ _ HI) as [l [s' [ev [Hst [HP|[m' [Hm HI']]]]]]].
  - exists [l], s', (ev ++ []), ev. split; [eapply run_cons; [eassumption|reflexivity]|].
    split; auto. rewrite app_nil_r. apply incl_refl.
  - destruct (IH _ Hm _ HI') as [ls [s2 [log [ev2 [Hr [HP Hi]]]]]].
    exists (l :: ls), s2, (ev ++ log), ev2. split; [eapply run_cons; eauto|].
    split; auto. apply incl_appr. auto.
Qed.

(** Reach a state along a decreasing measure. *)
Lemma run_reach_state : forall (S L E : Type) (step : S -> L -> option (S * list E))
  (I : S -> nat -> Prop) (G : S -> Prop),
  (forall s m, I s m -> G s \/ exists l s' ev m', step s l = Some (s', ev) /\ m' < m /\ I s' m') ->
  forall m s, I s m -> exists ls s' log, run step s ls = Some (s', log) /\ G s'.
Proof.
  intros S L E step I G Hs. induction m as [m IH] using lt_wf_ind. intros s HI.
  destruct (Hs _ _ HI) as [HG|[l [s' [ev [m' [Hst [Hm HI']]]]]]].
  - exists [], s, []. auto.
  - destruct (IH _ Hm _ HI') as [ls [s2 [log [Hr HG]]]].
    exists (l :: ls), s2, (ev ++ log). split; auto. eapply run_cons; eauto.
Qed.

Definition hl (a : fcfs) : list nat := match f_holder a with Some h => [h] | None => [] end.
Definition hq (a : fcfs) : list nat := hl a ++ f_queue a.

(** First-come-first-served locks: if the holder can always release and the
    front request can then acquire, every queued request can acquire. *)
Lemma fcfs_progress : forall (S L : Type) (step : S -> L -> option (S * list fev)) (R : S -> fcfs -> Prop),
  (forall s a h, R s a -> f_holder a = Some h ->
     exists ls s1 log a1, run step s ls = Some (s1, log) /\ R s1 a1 /\ f_holder a1 = None /\ f_queue a1 = f_queue a) ->
  (forall s a u q, R s a -> f_holder a = None -> f_queue a = u :: q ->
     exists ls s1 log a1, run step s ls = Some (s1, log) /\ R s1 a1 /\ In (FAcq u) log /\ f_queue a1 = q) ->
  forall s a t, R s a -> In t (f_queue a) ->
  exists ls s' log, run step s ls = Some (s', log) /\ In (FAcq t) log.
Proof.
  intros S L step R Hf Hg s a t HR Hin.
  destruct (In_nth_error _ _ Hin) as [i Hi]. clear Hin. revert s a HR Hi.
  induction i as [i IH] using lt_wf_ind. intros.
  assert (Hfree : exists ls s1 log a1, run step s ls = Some (s1, log) /\ R s1 a1 /\
             f_holder a1 = None /\ f_queue a1 = f_queue a).
  { destruct (f_holder a) as [h|] eqn:He; [eapply Hf; eauto|]. exists [], s, [], a. simpl. auto. }
  destruct Hfree as [ls [s1 [log [a1 [Hr [HR1 [Hn1 Hq1]]]]]]].
  destruct (f_queue a) as [|u q] eqn:Hqa; [destruct i; discriminate|].
  destruct (Hg _ _ _ _ HR1 Hn1 Hq1) as [lsx [s2 [logx [a2 [Hrx [HR2 [Hinx Hq2]]]]]]].
  destruct i as [|i].
  - simpl in Hi. inversion Hi; subst u.
    exists (ls ++ lsx), s2, (log ++ logx).
    split; [eapply run_app; eauto|]. apply in_or_app. right. auto.
  - simpl in Hi. rewrite <- Hq2 in Hi.
    destruct (IH i (Nat.lt_succ_diag_r i) s2 _ HR2 Hi) as [ls3 [s3 [log3 [Hr3 Hin3]]]].
    exists (ls ++ lsx ++ ls3), s3, (log ++ logx ++ log3).
    split; [eapply run_app; eauto; eapply run_app; eauto|].
    apply in_or_app. right. apply in_or_app. auto.
Qed.

(** One simulated step, packaged for building runs. *)
Lemma sim_run : forall (S L E A : Type) (step : S -> L -> option (S * list E)) (as_ : A -> E -> option A)
  (R : S -> A -> Prop),
  (forall s a l s' ev, R s a -> step s l = Some (s', ev) -> exists a', accepts as_ a ev = Some a' /\ R s' a') ->
  forall ls s a s' log, R s a -> run step s ls = Some (s', log) ->
  exists a', accepts as_ a log = Some a' /\ R s' a'.
Proof.
  intros S L E A step as_ R Hs. induction ls as [|l ls IH]; intros s a s' log HR Hr.
  - simpl in Hr. inversion Hr; subst. exists a. auto.
  - simpl in Hr. destruct (step s l) as [[s1 ev]|] eqn:Es; [|discriminate].
    destruct (run step s1 ls) as [[s2 log2]|] eqn:Er; [|discriminate]. inversion Hr; subst.
    destruct (Hs _ _ _ _ _ HR Es) as [a1 [Ha1 HR1]].
    destruct (IH _ _ _ _ HR1 Er) as [a2 [Ha2 HR2]].
    exists a2. split; auto. rewrite accepts_app, Ha1. auto.
Qed.

(** Reach an event by a decreasing measure, finishing with an explicit run. *)
Lemma run_reach_ev : forall (S L E : Type) (step : S -> L -> option (S * list E)) (e : E)
  (I : S -> nat -> Prop),
  (forall s m, I s m ->
     (exists ls s' log, run step s ls = Some (s', log) /\ In e log) \/
     (exists l s' ev m', step s l = Some (s', ev) /\ m' < m /\ I s' m')) ->
  forall m s, I s m -> exists ls s' log, run step s ls = Some (s', log) /\ In e log.
Proof.
  intros S L E step e I Hs. induction m as [m IH] using lt_wf_ind. intros s HI.
  destruct (Hs _ _ HI) as [H|[l [s' [ev [m' [Hst [Hm HI']]]]]]]; auto.
  destruct (IH _ Hm _ HI') as [ls [s2 [log [Hr Hin]]]].
  exists (l :: ls), s2, (ev ++ log). split; [eapply run_cons; eauto|]. apply in_or_app; auto.
Qed.

Lemma run1 : forall (S L E : Type) (step : S -> L -> option (S * list E)) s s1 s2 l ls log,
  step s l = Some (s1, []) -> run step s1 ls = Some (s2, log) -> run step s (l :: ls) = Some (s2, log).
Proof. intros. change log with ([] ++ log). eapply run_cons; eauto. Qed.

Lemma run_last : forall (S L E : Type) (step : S -> L -> option (S * list E)) s s1 l ev,
  step s l = Some (s1, ev) -> run step s [l] = Some (s1, ev).
Proof. intros. rewrite <- (app_nil_r ev). eapply run_cons; [eassumption|reflexivity]. Qed.

(** Sum of a weight over the indices below [n]. *)
Fixpoint wsum (f : nat -> nat) (n : nat) : nat :=
  match n with O => 0 | S k => f k + wsum f k end.

Lemma wsum_ext : forall f g n, (forall i, i < n -> f i = g i) -> wsum f n = wsum g n.
Proof. induction n; simpl; intros; auto. rewrite H by lia. rewrite IHn; auto. Qed.

Lemma wsum_change : forall f g n k, k < n -> (forall i, i <> k -> f i = g i) ->
  wsum g n + f k = wsum f n + g k.
Proof.
  induction n; intros; [lia|]. simpl. destruct (Nat.eq_dec k n).
  - subst. rewrite (wsum_ext f g n) by (intros; apply H0; lia). lia.
  - rewrite (H0 n) by lia. specialize (IHn k). assert (k < n) by lia. specialize (IHn H1 H0). lia.
Qed.

Lemma wsum_le : forall f g n, (forall i, i < n -> f i <= g i) -> wsum f n <= wsum g n.
Proof. induction n; simpl; intros; auto. specialize (H n (Nat.lt_succ_diag_r n)) as H1. assert (wsum f n <= wsum g n) by auto. lia. Qed.

(** Weight of the program counters drops when one thread moves to a lighter one. *)
Lemma wsum_drop : forall (P : Type) (w : P -> nat) (thr : nat -> P) n t p,
  t < n -> w p < w (thr t) -> wsum (fun i => w (upd thr t p i)) n < wsum (fun i => w (thr i)) n.
Proof.
  intros. pose proof (wsum_change (fun i => w (thr i)) (fun i => w (upd thr t p i)) n t H) as C.
  simpl in C. rewrite upd_same in C.
  assert (forall i, i <> t -> w (thr i) = w (upd thr t p i)) by (intros; rewrite upd_other; auto).
  specialize (C H1). lia.
Qed.

Lemma cnt_upd : forall (P : Type) (f : P -> bool) (thr : nat -> P) n t p, t < n ->
  cnt (fun i => f (upd thr t p i)) n + (if f (thr t) then 1 else 0)
  = cnt (fun i => f (thr i)) n + (if f p then 1 else 0).
Proof.
  intros. pose proof (cnt_change (fun i => f (thr i)) (fun i => f (upd thr t p i)) n t H) as C.
  simpl in C. rewrite upd_same in C. apply C. intros. rewrite upd_other; auto.
Qed.

(** Multiset removal used by the reader-writer automaton. *)
Lemma remove1_in : forall t l, In t l -> exists l', remove1 t l = Some l'.
Proof.
  induction l as [|u l IH]; simpl; intros H; [tauto|].
  destruct (Nat.eqb t u) eqn:E; eauto. destruct H as [H|H].
  - subst. rewrite Nat.eqb_refl in E. discriminate.
  - destruct (IH H) as [l' ->]. eauto.
Qed.

Lemma remove1_nodup : forall t l l', remove1 t l = Some l' -> NoDup l ->
  NoDup l' /\ (forall u, In u l' <-> In u l /\ u <> t).
Proof.
  induction l as [|u l IH]; simpl; intros l' H Hnd; [discriminate|]. inversion Hnd; subst.
  destruct (Nat.eqb t u) eqn:E.
  - apply Nat.eqb_eq in E. inversion H; subst. split; auto. intros v. split.
    + intros Hv. split; auto. intro; subst; auto.
    + intros [[?|?] ?]; auto. congruence.
  - apply Nat.eqb_neq in E. destruct (remove1 t l) as [r|] eqn:Er; [|discriminate]. inversion H; subst.
    destruct (IH _ eq_refl H3) as [Hn Hi]. split.
    + constructor; auto. intro Hx. apply Hi in Hx. tauto.
    + intros v. simpl. rewrite Hi. split; [intros [?|[? ?]]; subst; auto|intros [[?|?] ?]; auto].
Qed.
