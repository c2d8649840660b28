(** Proofs: lookups in the Robin Hood hash set concurrent with a writer, on TSO. *)
From Coq Require Import Arith NArith List Bool.
From Verif Require Import Lib Obs Helpers_Model Rhs_Model Rhs_Spec RhsConc_Model RhsConc_Spec RhsConc_Proof TsoSpmc_Model TsoSpmc_Proof TsoRhs_Model TsoRhs_Spec.
Import ListNotations.

Definition isdone (e : ev) : bool := match e with EDone => true | _ => false end.

Section H.
Variables (rmode pp : bool) (hf : N -> N) (cmp : option (N -> N -> bool)) (oracle : nat -> bool).
Notation step := (step rmode pp hf cmp oracle).
Notation gst := (@gst hmem hpriv store (nat -> rst)).

Definition conv (g : gst) : cst := hst (g_mem g) (g_todo g) (g_c g) (g_rd g).
Definition convl (l : @glab (op * nat) hrl) : label :=
  match l with GCall o => LCall (fst o) (snd o) | GStore => LStore | GDone => LDone | GRd (Get t k) => LGet t k | GRd (Read t) => LRead t end.

Ltac brk H := repeat match type of H with
  | context [if ?b then _ else _] => destruct b
  | context [match ?x with inl _ => _ | inr _ => _ end] => destruct x
  end.

Lemma hrstep_frame : forall m r l td c r' e, hrstep rmode pp hf cmp oracle m r l = Some (r', e) ->
  step (hst m td c r) (match l with Get t k => LGet t k | Read t => LRead t end) = Some (hst m td c r', e).
Proof.
  intros m r l td c r' e H. unfold hrstep in H. destruct l as [t k|t]; cbn [RhsConc_Model.step] in *.
  - cbn [rd hst] in *. destruct (r t); try discriminate. destruct (validb pp k); try discriminate. injection H as <- <-. reflexivity.
  - unfold rstep, gen_of in *. cbn [rd maps gens cur hst] in *. destruct (r t); try discriminate; brk H; injection H as <- <-; reflexivity.
Qed.

Lemma conv_step : forall g l g' e, gstep happ (hexec rmode pp hf cmp oracle) EDone (hrstep rmode pp hf cmp oracle) g l = Some (g', e) ->
  step (conv g) (convl l) = Some (conv g', e).
Proof.
  intros [m td c r] l g' e H. unfold conv. cbn [g_mem g_todo g_c g_rd]. destruct l as [[o f]| | |l]; cbn [gstep g_mem g_todo g_c g_rd] in H.
  - cbn [RhsConc_Model.step convl fst snd todo hst]. destruct td as [td|]; try discriminate. unfold hexec in H. cbn [fst snd cl whs hst] in *.
    destruct (preb pp cmp (snd c) o && roomb rmode (snd c)); try discriminate.
    destruct (run1 _ _ _ _ _ _ _ _) as [[hs res]| | |]; try discriminate; try (destruct (quietb _ _ _); try discriminate); injection H as <- <-; reflexivity.
  - cbn [RhsConc_Model.step convl todo hst]. destruct td as [[|x td]|]; try discriminate. destruct x; cbn [happ] in H; injection H as <- <-; reflexivity.
  - cbn [RhsConc_Model.step convl todo hst]. destruct td as [[|x td]|]; try discriminate. injection H as <- <-. reflexivity.
  - destruct (hrstep rmode pp hf cmp oracle m r l) as [[r' e']|] eqn:Er; try discriminate. injection H as <- <-.
    destruct l; exact (hrstep_frame _ _ _ _ _ _ _ Er).
Qed.

Lemma conv_run : forall ls g g' e, run (gstep happ (hexec rmode pp hf cmp oracle) EDone (hrstep rmode pp hf cmp oracle)) g ls = Some (g', e) ->
  run step (conv g) (map convl ls) = Some (conv g', e).
Proof.
  induction ls as [|l ls IH]; intros g g' e H; cbn [run map] in *.
  - injection H as <- <-. reflexivity.
  - destruct (gstep _ _ _ _ g l) as [[g1 e1]|] eqn:E1; try discriminate. apply conv_step in E1. rewrite E1.
    destruct (run _ g1 ls) as [[g2 e2]|] eqn:E2; try discriminate. injection H as <- <-. rewrite (IH _ _ _ E2). reflexivity.
Qed.

Lemma h_sc : forall n ls s log, run (htstep rmode pp hf cmp oracle) (htinit n) ls = Some (s, log) ->
  exists ls' s', run step (cinit n) ls' = Some (s', vis log).
Proof.
  intros n ls s log H. apply rel_run in H. destruct H as (gls & g' & H & _). apply conv_run in H.
  exists (map convl gls), (conv g'). exact H.
Qed.

Lemma h_app : forall m x, filter iscall (snd (happ m x)) = [] /\ filter isdone (snd (happ m x)) = [].
Proof. intros m []; split; reflexivity. Qed.
Lemma h_rd : forall m r l r' e, hrstep rmode pp hf cmp oracle m r l = Some (r', e) -> filter iscall e = [] /\ filter isdone e = [].
Proof.
  intros m r l r' e H. unfold hrstep in H. destruct l as [t k|t]; cbn [RhsConc_Model.step] in *.
  - cbn [rd hst] in *. destruct (r t); try discriminate. destruct (validb pp k); try discriminate. injection H as <- <-. split; reflexivity.
  - unfold rstep, gen_of in *. cbn [rd maps gens cur hst] in *. destruct (r t); try discriminate; brk H; injection H as <- <-; split; reflexivity.
Qed.
Lemma h_done : forall m c o tr c' e, hexec rmode pp hf cmp oracle m c o = Some (Done tr c' e) -> iscall e = true /\ isdone e = false.
Proof.
  intros m c o tr c' e H. unfold hexec in H. destruct (preb _ _ _ _ && roomb _ _); try discriminate. destruct (run1 _ _ _ _ _ _ _ _) as [[hs res]| | |]; try discriminate; try (destruct (quietb _ _ _); try discriminate). injection H as _ _ <-. split; reflexivity.
Qed.
Lemma h_crash : forall m c o e, hexec rmode pp hf cmp oracle m c o = Some (Crash e) -> iscall e = false /\ isdone e = false.
Proof.
  intros m c o e H. unfold hexec in H. destruct (preb _ _ _ _ && roomb _ _); try discriminate. destruct (run1 _ _ _ _ _ _ _ _) as [[hs res]| | |]; try discriminate; try (destruct (quietb _ _ _); try discriminate). injection H as <-. split; reflexivity.
Qed.

Lemma h_order : forall n ls s log, run (htstep rmode pp hf cmp oracle) (htinit n) ls = Some (s, log) ->
  exists rest, filter iscall (issued log) = filter iscall (vis log) ++ rest.
Proof.
  intros n ls s log H. eapply (calls_prefix happ (hexec rmode pp hf cmp oracle) EDone (hrstep rmode pp hf cmp oracle) iscall isdone h_app h_rd h_done h_crash (conj eq_refl eq_refl)); eauto.
Qed.

Lemma after_calls : forall l A, after cmp l A = after cmp (filter iscall l) A.
Proof. induction l as [|e l IH]; intros A; auto. destruct e; cbn; apply IH. Qed.
Lemma new_after : forall l g, o_new (gfold (onext cmp) l g) = after cmp l (o_new g).
Proof. induction l as [|e l IH]; intros g; auto. change (gfold (onext cmp) (e :: l) g) with (gfold (onext cmp) l (onext cmp g e)). rewrite IH. destruct e; reflexivity. Qed.

(** between operations the writer has nothing in progress *)
Lemma quiet_step : forall s g l s' e, (todo s = None -> o_old g = o_new g) -> step s l = Some (s', e) ->
  todo s' = None -> o_old (gfold (onext cmp) e g) = o_new (gfold (onext cmp) e g).
Proof.
  intros s g l s' e Hq H Ht. destruct l as [o f| | |t k|t]; cbn [RhsConc_Model.step] in H.
  - destruct (todo s) eqn:Et; try discriminate. destruct (preb _ _ _ _ && roomb _ _); try discriminate.
    destruct (run1 _ _ _ _ _ _ _ _) as [[hs res]| | |]; try discriminate; try (destruct (quietb _ _ _); try discriminate); injection H as <- <-; [discriminate|]. cbn. auto.
  - destruct (todo s) as [[|x tr]|] eqn:Et; try discriminate; destruct x; injection H as <- <-; discriminate.
  - destruct (todo s) as [[|x tr]|] eqn:Et; try discriminate. injection H as <- <-. reflexivity.
  - destruct (rd s t); try discriminate. destruct (validb pp k); try discriminate. injection H as <- <-. cbn in *. auto.
  - unfold rstep in H. destruct (rd s t); try discriminate; brk H; injection H as <- <-; cbn in *; auto.
Qed.
Lemma quiet_run : forall ls s g s' e, (todo s = None -> o_old g = o_new g) -> run step s ls = Some (s', e) ->
  todo s' = None -> o_old (gfold (onext cmp) e g) = o_new (gfold (onext cmp) e g).
Proof.
  induction ls as [|l ls IH]; intros s g s' e Hq H Ht; cbn [run] in H.
  - injection H as <- <-. cbn. auto.
  - destruct (step s l) as [[s1 e1]|] eqn:E1; try discriminate. destruct (run step s1 ls) as [[s2 e2]|] eqn:E2; try discriminate.
    injection H as <- <-. rewrite gfold_app. eapply IH; [|exact E2|exact Ht]. intros. eapply quiet_step; eauto.
Qed.

Lemma h_fence : forall n ls s a b, run (htstep rmode pp hf cmp oracle) (htinit n) ls = Some (s, a ++ Fenced :: b) ->
  let A := after cmp (issued a) [] in let G := gfold (onext cmp) (vis a) (obs0 (v_cap (maps (cinit n) 0))) in o_old G = A /\ o_new G = A.
Proof.
  intros n ls s a b H A G.
  assert (E2 : o_new G = A).
  { unfold G, A. rewrite new_after, after_calls. rewrite (after_calls (issued a)). cbn [o_new obs0].
    pose proof (fence_run happ (hexec rmode pp hf cmp oracle) EDone (hrstep rmode pp hf cmp oracle) iscall isdone h_app h_rd h_done h_crash (conj eq_refl eq_refl) _ _ _ _ _ _ _ H) as [E _].
    rewrite E. reflexivity. }
  split; auto. rewrite <- E2. apply fence_quiet in H. destruct H as (gls & g' & Hg & Ht). apply conv_run in Hg.
  eapply (quiet_run _ _ (obs0 (v_cap (maps (cinit n) 0)))); [|exact Hg|exact Ht]. reflexivity.
Qed.
End H.

Lemma h_legal : forall rmode pp hf cmp oracle, contract pp hf cmp ->
  forall n ls s log, run (htstep rmode pp hf cmp oracle) (htinit n) ls = Some (s, log) ->
  legal_from (onext cmp) (ook cmp) (obs0 (v_cap (maps (cinit n) 0))) (vis log) /\ ~ In (Issue EBad) log.
Proof.
  intros rmode pp hf cmp oracle Hc n ls s log H. split.
  - apply h_sc in H. destruct H as (ls' & s' & H). eapply t_lookup; eauto.
  - intros Hin. destruct (issued_visible _ _ _ _ _ _ _ _ _ _ _ H Hin) as (ls' & s' & log' & H1 & H2).
    apply h_sc in H1. destruct H1 as (ls2 & s2 & H1). eapply legal_in in H2; [|eapply t_lookup; eauto]. destruct H2 as (g' & H2). exact H2.
Qed.

(** * A lookup after a fence *)
Definition rev (e : ev) : Prop := match e with EGet _ _ | ERet _ _ => True | _ => False end.
Lemma h_rev : forall rmode pp hf cmp oracle m r l r' e, hrstep rmode pp hf cmp oracle m r l = Some (r', e) -> Forall rev e.
Proof.
  intros rmode pp hf cmp oracle m r l r' e H. unfold hrstep in H. destruct l as [t k|t]; cbn [RhsConc_Model.step] in *.
  - cbn [rd hst] in *. destruct (r t); try discriminate. destruct (validb pp k); try discriminate. injection H as <- <-. repeat constructor.
  - unfold rstep, gen_of in *. cbn [rd maps gens cur hst] in *. destruct (r t); try discriminate;
    repeat match type of H with
    | context [if ?b then _ else _] => destruct b
    | context [match ?x with inl _ => _ | inr _ => _ end] => destruct x
    end; injection H as <- <-; repeat constructor.
Qed.
Lemma rev_sets : forall cmp l g, Forall rev l -> o_old (gfold (onext cmp) l g) = o_old g /\ o_new (gfold (onext cmp) l g) = o_new g /\ o_cap (gfold (onext cmp) l g) = o_cap g.
Proof.
  induction l as [|e l IH]; intros g H; [split; [|split]; auto|]. inversion H; subst.
  change (gfold (onext cmp) (e :: l) g) with (gfold (onext cmp) l (onext cmp g e)). destruct (IH (onext cmp g e)) as (A & B & D); auto.
  rewrite A, B, D. destruct e; try contradiction; repeat split; reflexivity.
Qed.
Lemma rev_look : forall cmp t l g, Forall rev l -> (forall k, ~ In (EGet t k) l) -> (forall v, ~ In (ERet t v) l) ->
  o_rd (gfold (onext cmp) l g) t = o_rd g t.
Proof.
  induction l as [|e l IH]; intros g H H1 H2; auto. inversion H; subst.
  change (gfold (onext cmp) (e :: l) g) with (gfold (onext cmp) l (onext cmp g e)). rewrite IH; auto.
  - destruct e; try contradiction; cbn; rewrite upd_other; auto; intros ->; [eapply H1|eapply H2]; left; reflexivity.
  - intros k Hk. apply (H1 k). right. auto.
  - intros v Hv. apply (H2 v). right. auto.
Qed.
Lemma vis_in : forall E (l : list (tev E)) e, In e (vis l) -> In (Vis e) l.
Proof.
  intros E l e H. apply in_flat_map in H. destruct H as (x & H1 & H2). destruct x; cbn in H2; try contradiction. destruct H2 as [->|[]]. auto.
Qed.

Lemma h_fenced_lookup : forall rmode pp hf cmp oracle, contract pp hf cmp ->
  forall n ls s a b t k b' v c,
  run (htstep rmode pp hf cmp oracle) (htinit n) ls = Some (s, a ++ Fenced :: b ++ Vis (EGet t k) :: b' ++ Vis (ERet t v) :: c) ->
  issued b = [] -> issued b' = [] -> (forall k, ~ In (Vis (EGet t k)) b') -> (forall v, ~ In (Vis (ERet t v)) b') ->
  if mem cmp k (after cmp (issued a) []) then v <> 0%N /\ same cmp v k = true else v = 0%N.
Proof.
  intros rmode pp hf cmp oracle Hc n ls s a b t k b' v c H I1 I2 N1 N2.
  set (G := gfold (onext cmp) (vis a) (obs0 (v_cap (maps (cinit n) 0)))). destruct (h_fence _ _ _ _ _ _ _ _ _ _ H) as [F1 F2]. fold G in F1, F2.
  assert (R : Forall rev (vis (b ++ Vis (EGet t k) :: b'))).
  { apply (fence_calm happ (hexec rmode pp hf cmp oracle) EDone (hrstep rmode pp hf cmp oracle) rev (h_rev rmode pp hf cmp oracle) (mkhm (fun _ => view (create 50 n)) (fun _ _ => 0%N) 0 1) (whs0 n, []) (fun _ => RIdle) ls s a _ (Vis (ERet t v) :: c)).
    - rewrite <- app_assoc. exact H.
    - rewrite issued_app. cbn. fold (issued b'). rewrite I1, I2. reflexivity. }
  rewrite vis_app in R. apply Forall_app in R. destruct R as [R1 R2]. change (vis (Vis (EGet t k) :: b')) with (EGet t k :: vis b') in R2.
  inversion R2 as [|? ? _ R3]; subst.
  destruct (h_legal _ _ _ _ _ Hc _ _ _ _ H) as [L _].
  assert (V : vis (a ++ Fenced :: b ++ Vis (EGet t k) :: b' ++ Vis (ERet t v) :: c) = (vis a ++ vis b ++ EGet t k :: vis b') ++ ERet t v :: vis c).
  { rewrite vis_app. cbn. fold (vis (b ++ Vis (EGet t k) :: b' ++ Vis (ERet t v) :: c)). rewrite vis_app. cbn. fold (vis (b' ++ Vis (ERet t v) :: c)). rewrite vis_app. cbn.
    fold (vis c). rewrite <- !app_assoc. cbn. reflexivity. }
  rewrite V in L. apply legal_at in L. destruct L as (l & L1 & L2).
  rewrite !gfold_app in L1. fold G in L1. change (gfold (onext cmp) (EGet t k :: vis b') (gfold (onext cmp) (vis b) G)) with (gfold (onext cmp) (vis b') (onext cmp (gfold (onext cmp) (vis b) G) (EGet t k))) in L1.
  rewrite rev_look in L1; auto; [|intros k' Hk; apply (N1 k'); apply vis_in; auto|intros v' Hv; apply (N2 v'); apply vis_in; auto].
  destruct (rev_sets cmp (vis b) G R1) as (S1 & S2 & S3). cbn [onext o_rd] in L1. rewrite upd_same, S1, S2, S3, F1, F2 in L1. injection L1 as <-.
  cbn [l_must l_sig l_key l_may l_big] in L2. fold G. destruct (mem cmp k (after cmp (issued a) [])) eqn:M.
  - destruct (N.eqb_spec v 0) as [Z|Z]; [|tauto]. exfalso. destruct L2 as [L2|[[_ L2]|L2]]; [discriminate|contradiction|apply L2; reflexivity].
  - destruct (N.eqb_spec v 0) as [Z|Z]; auto. exfalso. destruct L2 as [Hs Hi].
    assert (X : mem cmp k (after cmp (issued a) []) = true).
    { unfold mem. apply existsb_exists. exists v. split; auto. apply in_app_iff in Hi. tauto. }
    congruence.
Qed.
