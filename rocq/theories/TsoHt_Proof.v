(** Proofs: lookups in the hash table concurrent with a writer, on TSO. *)
From Coq Require Import Arith NArith List Bool.
From Verif Require Import Lib Obs Helpers_Model Ht_Model Ht_Spec HtConc_Model HtConc_Spec HtConc_Proof HtConcT_Proof TsoSpmc_Model TsoSpmc_Proof TsoHt_Model TsoHt_Spec.
Import ListNotations.

Definition isdone (e : event) : bool := match e with EDone => true | _ => false end.

Section H.
Variables (dl bs : bool) (len : N -> N) (memeq : N -> N -> N -> bool) (hf : N -> N) (ub : N -> N -> N) (oracle : nat -> bool).
Notation step := (step dl bs len memeq hf ub oracle).
Notation gst := (@gst hmem hpriv store (nat -> rst)).

Definition conv (g : gst) : cst := hst (g_mem g) (g_todo g) (g_c g) (g_rd g).
Definition convl (l : @glab (op * nat) hrl) : label :=
  match l with GCall o => LCall (fst o) (snd o) | GStore => LStore | GDone => LDone | GRd (Get t k n) => LGet t k n | GRd (Read t) => LRead t end.

Ltac brk H := repeat match type of H with
  | context [if ?b then _ else _] => destruct b
  | context [match ?x with inl _ => _ | inr _ => _ end] => destruct x
  end.

Lemma hrstep_frame : forall m r l td c r' e, hrstep dl bs len memeq hf ub oracle m r l = Some (r', e) ->
  step (hst m td c r) (match l with Get t k n => LGet t k n | Read t => LRead t end) = Some (hst m td c r', e).
Proof.
  intros m r l td c r' e H. unfold hrstep in H. destruct l as [t k n|t]; cbn [HtConc_Model.step] in *.
  - cbn [rd hst] in *. destruct (r t); try discriminate. destruct (validb bs len k n); try discriminate. injection H as <- <-. reflexivity.
  - unfold rstep in *. cbn [rd maps cur hst] in *. destruct (r t); try discriminate; brk H; injection H as <- <-; reflexivity.
Qed.

Lemma conv_step : forall g l g' e, gstep happ (hexec dl bs len memeq hf ub oracle) EDone (hrstep dl bs len memeq hf ub oracle) g l = Some (g', e) ->
  step (conv g) (convl l) = Some (conv g', e).
Proof.
  intros [m td c r] l g' e H. unfold conv. cbn [g_mem g_todo g_c g_rd]. destruct l as [[o f]| | |l]; cbn [gstep g_mem g_todo g_c g_rd] in H.
  - cbn [HtConc_Model.step convl fst snd todo hst]. destruct td as [td|]; try discriminate. unfold hexec in H. cbn [fst snd maps cur al hst] in *.
    destruct (preb bs len o); try discriminate.
    destruct (run1 _ _ _ _ _ _ _ _ _ _); try discriminate; injection H as <- <-; reflexivity.
  - cbn [HtConc_Model.step convl todo hst]. destruct td as [[|x td]|]; try discriminate. destruct x; cbn [happ] in H; injection H as <- <-; reflexivity.
  - cbn [HtConc_Model.step convl todo hst]. destruct td as [[|x td]|]; try discriminate. injection H as <- <-. reflexivity.
  - destruct (hrstep dl bs len memeq hf ub oracle m r l) as [[r' e']|] eqn:Er; try discriminate. injection H as <- <-.
    destruct l; exact (hrstep_frame _ _ _ _ _ _ _ Er).
Qed.

Lemma conv_run : forall ls g g' e, run (gstep happ (hexec dl bs len memeq hf ub oracle) EDone (hrstep dl bs len memeq hf ub oracle)) g ls = Some (g', e) ->
  run step (conv g) (map convl ls) = Some (conv g', e).
Proof.
  induction ls as [|l ls IH]; intros g g' e H; cbn [run map] in *.
  - injection H as <- <-. reflexivity.
  - destruct (gstep _ _ _ _ g l) as [[g1 e1]|] eqn:E1; try discriminate. apply conv_step in E1. rewrite E1.
    destruct (run _ g1 ls) as [[g2 e2]|] eqn:E2; try discriminate. injection H as <- <-. rewrite (IH _ _ _ E2). reflexivity.
Qed.

Lemma h_sc : forall n ls s log, run (htstep dl bs len memeq hf ub oracle) (htinit n) ls = Some (s, log) ->
  exists ls' s', run step (cinit n) ls' = Some (s', vis log).
Proof.
  intros n ls s log H. apply rel_run in H. destruct H as (gls & g' & H & _). apply conv_run in H.
  exists (map convl gls), (conv g'). exact H.
Qed.

Lemma h_app : forall m x, filter iscall (snd (happ m x)) = [] /\ filter isdone (snd (happ m x)) = [].
Proof. intros m []; split; reflexivity. Qed.
Lemma h_rd : forall m r l r' e, hrstep dl bs len memeq hf ub oracle m r l = Some (r', e) -> filter iscall e = [] /\ filter isdone e = [].
Proof.
  intros m r l r' e H. unfold hrstep in H. destruct l as [t k n|t]; cbn [HtConc_Model.step] in *.
  - cbn [rd hst] in *. destruct (r t); try discriminate. destruct (validb bs len k n); try discriminate. injection H as <- <-. split; reflexivity.
  - unfold rstep in *. cbn [rd maps cur hst] in *. destruct (r t); try discriminate; brk H; injection H as <- <-; split; reflexivity.
Qed.
Lemma h_done : forall m c o tr c' e, hexec dl bs len memeq hf ub oracle m c o = Some (Done tr c' e) -> iscall e = true /\ isdone e = false.
Proof.
  intros m c o tr c' e H. unfold hexec in H. destruct (preb _ _ _); try discriminate. destruct (run1 _ _ _ _ _ _ _ _ _ _); try discriminate. injection H as _ _ <-. split; reflexivity.
Qed.
Lemma h_crash : forall m c o e, hexec dl bs len memeq hf ub oracle m c o = Some (Crash e) -> iscall e = false /\ isdone e = false.
Proof.
  intros m c o e H. unfold hexec in H. destruct (preb _ _ _); try discriminate. destruct (run1 _ _ _ _ _ _ _ _ _ _); try discriminate. injection H as <-. split; reflexivity.
Qed.

Lemma h_order : forall n ls s log, run (htstep dl bs len memeq hf ub oracle) (htinit n) ls = Some (s, log) ->
  exists rest, filter iscall (issued log) = filter iscall (vis log) ++ rest.
Proof.
  intros n ls s log H. eapply (calls_prefix happ (hexec dl bs len memeq hf ub oracle) EDone (hrstep dl bs len memeq hf ub oracle) iscall isdone h_app h_rd h_done h_crash (conj eq_refl eq_refl)); eauto.
Qed.

Lemma after_calls : forall l A, after bs len memeq l A = after bs len memeq (filter iscall l) A.
Proof. induction l as [|e l IH]; intros A; auto. destruct e; cbn; apply IH. Qed.
Lemma new_after : forall l g, o_new (gfold (onext bs len memeq) l g) = after bs len memeq l (o_new g).
Proof. induction l as [|e l IH]; intros g; auto. change (gfold (onext bs len memeq) (e :: l) g) with (gfold (onext bs len memeq) l (onext bs len memeq g e)). rewrite IH. destruct e; reflexivity. Qed.

(** between operations the writer has nothing in progress *)
Lemma quiet_step : forall s g l s' e, (todo s = None -> o_old g = o_new g) -> step s l = Some (s', e) ->
  todo s' = None -> o_old (gfold (onext bs len memeq) e g) = o_new (gfold (onext bs len memeq) e g).
Proof.
  intros s g l s' e Hq H Ht. destruct l as [o f| | |t k n|t]; cbn [HtConc_Model.step] in H.
  - destruct (todo s) eqn:Et; try discriminate. destruct (preb _ _ _); try discriminate.
    destruct (run1 _ _ _ _ _ _ _ _ _ _); try discriminate; injection H as <- <-; [discriminate|]. cbn. auto.
  - destruct (todo s) as [[|x tr]|] eqn:Et; try discriminate; destruct x; injection H as <- <-; discriminate.
  - destruct (todo s) as [[|x tr]|] eqn:Et; try discriminate. injection H as <- <-. reflexivity.
  - destruct (rd s t); try discriminate. destruct (validb bs len k n); try discriminate. injection H as <- <-. cbn in *. auto.
  - unfold rstep in H. destruct (rd s t); try discriminate; brk H; injection H as <- <-; cbn in *; auto.
Qed.
Lemma quiet_run : forall ls s g s' e, (todo s = None -> o_old g = o_new g) -> run step s ls = Some (s', e) ->
  todo s' = None -> o_old (gfold (onext bs len memeq) e g) = o_new (gfold (onext bs len memeq) e g).
Proof.
  induction ls as [|l ls IH]; intros s g s' e Hq H Ht; cbn [run] in H.
  - injection H as <- <-. cbn. auto.
  - destruct (step s l) as [[s1 e1]|] eqn:E1; try discriminate. destruct (run step s1 ls) as [[s2 e2]|] eqn:E2; try discriminate.
    injection H as <- <-. rewrite gfold_app. eapply IH; [|exact E2|exact Ht]. intros. eapply quiet_step; eauto.
Qed.

Lemma h_fence : forall n ls s a b, run (htstep dl bs len memeq hf ub oracle) (htinit n) ls = Some (s, a ++ Fenced :: b) ->
  let A := after bs len memeq (issued a) [] in let G := gfold (onext bs len memeq) (vis a) obs0 in o_old G = A /\ o_new G = A.
Proof.
  intros n ls s a b H A G.
  assert (E2 : o_new G = A).
  { unfold G, A. rewrite new_after, after_calls. rewrite (after_calls (issued a)). cbn [o_new obs0].
    pose proof (fence_run happ (hexec dl bs len memeq hf ub oracle) EDone (hrstep dl bs len memeq hf ub oracle) iscall isdone h_app h_rd h_done h_crash (conj eq_refl eq_refl) _ _ _ _ _ _ _ H) as [E _].
    rewrite E. reflexivity. }
  split; auto. rewrite <- E2. apply fence_quiet in H. destruct H as (gls & g' & Hg & Ht). apply conv_run in Hg.
  eapply (quiet_run _ _ obs0); [|exact Hg|exact Ht]. reflexivity.
Qed.
End H.

Lemma h_legal : forall dl bs len memeq hf ub oracle, contract bs len memeq hf ->
  forall n ls s log, run (htstep dl bs len memeq hf ub oracle) (htinit n) ls = Some (s, log) ->
  legal_from (onext bs len memeq) (ook bs len memeq) obs0 (vis log).
Proof.
  intros dl bs len memeq hf ub oracle Hc n ls s log H. apply h_sc in H. destruct H as (ls' & s' & H). eapply t_lookup; eauto.
Qed.
