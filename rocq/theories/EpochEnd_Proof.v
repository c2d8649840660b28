(** * Epoch model: advertised epoch and results of ck_epoch_end; counterexamples *)
From Coq Require Import List Arith NArith Bool Lia.
From Verif Require Import Lib RingMp_Proof Epoch_Model Epoch_Spec Epoch_Proof EpochSync_Proof EpochOwn_Proof EpochPlace_Proof EpochOnce_Proof EpochGrace_Proof.
Import ListNotations.
Local Open Scope N_scope.
Local Arguments N.add : simpl never. Local Arguments N.sub : simpl never. Local Arguments N.modulo : simpl never.
Local Arguments N.eqb : simpl never. Local Arguments N.leb : simpl never. Local Arguments N.ltb : simpl never.
Local Arguments Nat.modulo : simpl never. Local Arguments Nat.ltb : simpl never.
Local Arguments upd : simpl never. Local Arguments N.to_nat : simpl never.

Lemma base_run : forall c ls s log, c_mix c = false -> run (step c) init ls = Some (s, log) -> room log -> exists lo, I0 s lo.
Proof.
  intros c ls s log Hm H G.
  destruct (obs_run c (fun _ _ => true) (fun s g log => RB s log) room room_app) with (ls := ls) (s := s) (log := log) as [_ [A _]]; auto.
  - intros s0 g log0 l s' ev A G0 St. split; [|eapply RB_step; eauto]. clear. revert g. induction ev; cbn; auto.
  - apply RB_init.
Qed.
Lemma advertise_run : forall c ls s log, c_mix c = false -> run (step c) init ls = Some (s, log) -> room log ->
  forall t r x, own s t = Some r -> In x (opn s t) -> rrep (rc s r) <= sep x.
Proof. intros c ls s log Hm H G t r x O X. destruct (base_run c ls s log Hm H G) as [lo I]. apply (I0_open _ _ _ _ _ I O X). Qed.

(** ** The result of end *)
Lemma cntk_zero : forall i l, cntk i l = 0%nat <-> forall x, In x l -> skind x <> Some i.
Proof.
  intros i l. unfold cntk. split.
  - intros H x X E. destruct (filter _ l) eqn:F; [|discriminate]. assert (In x []); [rewrite <- F; apply filter_In; rewrite E, Nat.eqb_refl; auto|contradiction].
  - intros H. destruct (filter _ l) as [|x m] eqn:F; auto. exfalso. assert (X : In x (filter (fun x => match skind x with Some j => Nat.eqb j i | None => false end) l)) by (rewrite F; left; auto).
    apply filter_In in X. destruct X as [X Y]. destruct (skind x) eqn:K; [|discriminate]. apply Nat.eqb_eq in Y. subst. eapply H; eauto.
Qed.
(** with a section object the result is about the sections of the same bucket *)
Lemma end_bucket_run : forall c ls s log t i s' ev, c_mix c = false -> run (step c) init ls = Some (s, log) -> room log ->
  thr s t = E2 i -> tick s t = Some (s', ev) ->
  exists b, ev = [EEndRet t b] /\ (b = true <-> forall x, In x (opn s t) -> skind x <> Some i).
Proof.
  intros c ls s log t i s' ev Hm H G Et St. destruct (base_run c ls s log Hm H G) as [lo I]. unfold tick in St. rewrite Et in St.
  destruct (own s t) as [r|] eqn:Eo; [|discriminate]. pose proof (i_bc _ _ I t r i Eo) as B. rewrite Et in B. cbn in B. rewrite Nat.eqb_refl in B.
  cbv zeta in St. rewrite B in St. replace (Nat.pred (cntk i (opn s t) + 1)) with (cntk i (opn s t)) in St by lia.
  pose proof (cntk_zero i (opn s t)) as Z. destruct (cntk i (opn s t)) eqn:C; injection St as <- <-; eexists; (split; [reflexivity|]); rewrite <- Z; intuition congruence.
Qed.

(** clients that use plain sections only *)
Definition plain (l : label) : bool := match l with LCall _ (OBegin true) => false | _ => true end.
Definition NS (s : st) : Prop := forall t, pkind (thr s t) <> Some true /\ forall x, In x (opn s t) -> skind x = None.
Lemma NS_step : forall c s l s' ev, NS s -> plain l = true -> step c s l = Some (s', ev) -> NS s'.
Proof.
  intros c s l s' ev I P H u. destruct (I u) as [A B].
  assert (NX : forall k d af rest, pkind (snext k d af rest) = None). { intros. unfold snext, sdone. destruct rest; [destruct k, af|]; auto. }
  assert (NF : forall k d rest, pkind (sfound k d rest) = None). { intros. destruct k; auto. }
  assert (ND : forall r n bs k, pkind (dnext r n bs k) = None). { intros. unfold dnext. destruct bs, k; auto. }
  assert (NC : forall r n bs k, pkind (dcount r n bs k) = None). { intros. unfold dcount. destruct n; auto. }
  destruct l as [t o|t]; cbn [step] in H.
  - destruct (thr s t) eqn:Et; try discriminate. destruct (I t) as [At Bt]. destruct o; cbn [call plain] in H, P; cbv zeta in H;
      break H; injection H as <- <-; fc; rewrite ?updE; try (destruct (Nat.eq_dec u t) as [->|]; auto; split; auto; discriminate); auto.
    { destruct sc; [discriminate P|]. destruct (Nat.eq_dec u t) as [->|]; auto; split; auto; discriminate. }
    split.
    + destruct (Nat.eq_dec u t) as [->|]; auto. match goal with F : find_sec _ _ = Some _ |- _ => apply find_sec_in in F; destruct F as [F _]; cbn; rewrite (Bt _ F) end. discriminate.
    + destruct (Nat.eq_dec u t) as [->|]; auto. intros x X. apply drop_in in X. apply Bt. tauto.
  - destruct (I t) as [At Bt]. unfold tick, entered in H. cbv zeta in H.
    destruct (thr s t) eqn:Et; try discriminate H; break H; injection H as <- <-; fc; rewrite ?updE.
    all: try (cbn in At; congruence).
    all: destruct (Nat.eq_dec u t) as [->|]; auto.
    all: split; auto; try (rewrite ?NX, ?NF, ?ND, ?NC; cbn; try discriminate; auto; fail).
    all: try (intros x [<-|X]; cbn; auto; fail).
    all: repeat match goal with |- context [match ?b with _ => _ end] => destruct b end; rewrite ?NX, ?NF, ?ND, ?NC; cbn; try discriminate.
Qed.

Lemma end_plain : forall s lo t s' ev g, I0 s lo -> R1 s g -> pkind (thr s t) <> Some true -> tick s t = Some (s', ev) -> legal_from end_ok g ev.
Proof.
  intros s lo t s' ev g I R K H. unfold tick, entered in H. cbv zeta in H.
  destruct (thr s t) eqn:Et; try discriminate H; break H; injection H as <- <-; cbn [legal_from end_ok]; auto; try (cbn in K; congruence).
  split; auto. match goal with O : own s t = Some ?n |- _ => pose proof (i_act _ _ I t n O) as A end. rewrite Et in A. cbn in A. rewrite A.
  replace (Nat.pred (length (opn s t) + 1)) with (length (opn s t)) by lia. apply eqb_true_iff.
  destruct (opn s t) as [|x l] eqn:Eo; cbn.
  - symmetry. apply negb_true_iff. destruct (existsb _ _) eqn:F; auto. apply existsb_exists in F. destruct F as [[u i] [F1 F2]]. cbn in F2. apply Nat.eqb_eq in F2. subst u.
    apply (a_act _ _ R) in F1. destruct F1 as [y [F1 _]]. rewrite Eo in F1. contradiction.
  - symmetry. apply negb_false_iff. apply existsb_exists. exists (t, sid x). split; [|apply Nat.eqb_refl]. apply (a_act _ _ R). exists x. rewrite Eo. split; auto. left; auto.
Qed.

Lemma run_filter : forall (S L E : Type) (st0 : S -> L -> option (S * list E)) (f : L -> bool) ls s s' log,
  forallb f ls = true -> run st0 s ls = Some (s', log) -> run (fun s l => if f l then st0 s l else None) s ls = Some (s', log).
Proof.
  induction ls as [|l ls IH]; intros s s' log F H; cbn in *; auto. apply andb_true_iff in F. destruct F as [A B]. rewrite A.
  destruct (st0 s l) as [[s1 e1]|]; [|discriminate]. destruct (run st0 s1 ls) as [[s2 e2]|] eqn:Q; [|discriminate]. rewrite (IH _ _ _ B Q). auto.
Qed.

Theorem end_run : forall c ls s log, c_mix c = false -> forallb plain ls = true -> run (step c) init ls = Some (s, log) -> room log -> legal end_ok log.
Proof.
  intros c ls s log Hm F H G. apply (run_filter _ _ _ _ plain) in H; auto.
  destruct (sim_run_guard st label event gs (fun s l => if plain l then step c s l else None) (chk end_ok) (fun s g log => RB s log /\ R1 s g /\ NS s) room room_app) with (ls := ls) (s := init) (a := gs0) (s' := s) (log := log) (log0 := @nil event) as [g [A _]]; auto.
  - intros s0 g log0 l s' ev [B [R N]] G0 St. destruct (plain l) eqn:P; [|discriminate]. pose proof (RB_room _ _ B G0) as E. destruct (B) as [[lo I] _].
    destruct (sync_step s0 lo l c s' ev g I E R St) as [_ R']. exists (gfold ev g). split; [|split; [eapply RB_step; eauto|split; auto; eapply NS_step; eauto]].
    apply legal_chk. destruct l as [t o|t]; cbn [step] in St.
    + destruct (thr s0 t) eqn:Et; try discriminate. destruct o; cbn [call] in St; cbv zeta in St; break St; injection St as <- <-; cbn; auto.
    + eapply end_plain; eauto. apply N.
  - split; [apply RB_init|split; [apply R1_init|]]. intros t. cbn. split; [discriminate|contradiction].
  - destruct (chk_ok end_ok log gs0) as [L _]; eauto.
Qed.

(** ** Counterexamples *)
Definition go_ (t n : nat) : list label := repeat (LStep t) n.
Fixpoint legalb (ok : gs -> event -> bool) (g : gs) (log : list event) : bool :=
  match log with [] => true | e :: log => ok g e && legalb ok (gnext g e) log end.
Lemma legalb_spec : forall ok log g, legal_from ok g log -> legalb ok g log = true.
Proof. induction log as [|e log IH]; intros g H; auto. cbn in *. destruct H as [A B]. rewrite A, IH; auto. Qed.
Lemma illegal : forall ok log, legalb ok gs0 log = false -> ~ legal ok log.
Proof. intros ok log H L. apply legalb_spec in L. congruence. Qed.

(** two section objects of one thread in different epochs: the end of the first reports that none is left *)
Definition end_bad : list label :=
  [LCall 0 ORegister; LCall 1 ORegister; LCall 0 (OBegin true)] ++ go_ 0 4 ++ [LCall 1 (OPoll 1)] ++ go_ 1 15 ++
  [LCall 0 (OBegin true)] ++ go_ 0 2 ++ [LCall 0 (OEnd 0)] ++ go_ 0 2.
(** a plain section, then two section objects: the record advertises the epoch of the younger object *)
Definition mix_bad : list label :=
  [LCall 0 ORegister; LCall 1 ORegister; LCall 0 (OBegin false)] ++ go_ 0 3 ++ [LCall 0 (OBegin true)] ++ go_ 0 2 ++
  [LCall 1 (OPoll 1)] ++ go_ 1 15 ++ [LCall 0 (OBegin true)] ++ go_ 0 2 ++ [LCall 0 (OEnd 1)] ++ go_ 0 2.
(** ... and synchronize returns while the plain section is still open *)
Definition sync_bad : list label :=
  mix_bad ++ [LCall 1 OSync] ++ go_ 1 8 ++ [LCall 0 (OBegin true)] ++ go_ 0 2 ++ [LCall 0 (OEnd 2)] ++ go_ 0 2 ++ go_ 1 8.
(** ... and barrier runs a callback that was deferred in that section *)
Definition grace_bad : list label :=
  mix_bad ++ [LCall 1 (OCall false 1)] ++ go_ 1 4 ++ [LCall 1 (OBarrier 1)] ++ go_ 1 10 ++ [LCall 0 (OBegin true)] ++ go_ 0 2 ++ [LCall 0 (OEnd 2)] ++ go_ 0 2 ++ go_ 1 16.
(** one callback, one barrier: n_peak stays 0 although one callback was pending *)
Definition peak_bad : list label := [LCall 0 ORegister; LCall 0 (OCall false 0)] ++ go_ 0 4 ++ [LCall 0 (OBarrier 0)] ++ go_ 0 23.
(** a poll that found no active record runs a callback pushed afterwards, while a reader is active *)
Definition strict_bad : list label :=
  [LCall 0 ORegister; LCall 1 ORegister; LCall 0 (OPoll 0)] ++ go_ 0 9 ++ [LCall 1 (OBegin false)] ++ go_ 1 3 ++
  [LCall 2 (OCall true 0)] ++ go_ 2 3 ++ go_ 0 8.

Lemma sync_mix_bad : exists s log, run (step (mkC true true)) init sync_bad = Some (s, log) /\ room log /\ ~ legal sync_ok log.
Proof. eexists. eexists. split; [vm_compute; reflexivity|]. split; [vm_compute; reflexivity|]. apply illegal. vm_compute. reflexivity. Qed.
Lemma grace_mix_bad : exists s log, run (step (mkC true true)) init grace_bad = Some (s, log) /\ room log /\ ~ legal grace_ok log.
Proof. eexists. eexists. split; [vm_compute; reflexivity|]. split; [vm_compute; reflexivity|]. apply illegal. vm_compute. reflexivity. Qed.
Lemma end_bad_run : exists s log, run (step (mkC false true)) init end_bad = Some (s, log) /\ room log /\ ~ legal end_ok log.
Proof. eexists. eexists. split; [vm_compute; reflexivity|]. split; [vm_compute; reflexivity|]. apply illegal. vm_compute. reflexivity. Qed.
Lemma peak_bad_run : exists s log, run (step (mkC false true)) init peak_bad = Some (s, log) /\ room log /\ ~ legal peak_ok log.
Proof. eexists. eexists. split; [vm_compute; reflexivity|]. split; [vm_compute; reflexivity|]. apply illegal. vm_compute. reflexivity. Qed.
Lemma strict_bad_run : exists s log, run (step (mkC false false)) init strict_bad = Some (s, log) /\ room log /\ ~ legal grace_ok log.
Proof. eexists. eexists. split; [vm_compute; reflexivity|]. split; [vm_compute; reflexivity|]. apply illegal. vm_compute. reflexivity. Qed.
Lemma mix_bad_run : exists s log, run (step (mkC true true)) init mix_bad = Some (s, log) /\ room log /\
  exists x, own s 0%nat = Some 0%nat /\ In x (opn s 0%nat) /\ sep x < rrep (rc s 0%nat).
Proof.
  eexists. eexists. split; [vm_compute; reflexivity|]. split; [vm_compute; reflexivity|]. exists (mkS 0 None 1).
  split; [vm_compute; reflexivity|]. split; [vm_compute; auto|vm_compute; reflexivity].
Qed.
