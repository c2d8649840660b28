(** ck_pflock on x86-TSO. *)
From Coq Require Import ZArith Arith List Bool Lia.
From Verif Require Import Lib LockSpec RwFairSpec Tso TsoRw_Spec TsoRwf_Spec TsoRwf_Model TsoRwf_Proof PfLock_Model PfLock_Proof.
Import ListNotations.
Local Open Scope Z_scope.

Definition Rl (s : tso pc) (S : state) : Prop :=
  rin S = mem s (Reg 0) /\ rout S = mem s (Reg 1) /\ win S = mem s (Reg 2) /\ wout S = mem s (Reg 3) /\ forall t, thr S t = pcs s t.

Lemma pf_ok : forall n t p a i, pf_code n t p a = Some i -> okI pf_wr pf_rd pev_rw t p i.
Proof.
  intros n t p a i H. unfold pf_code in H. destruct (negb (t <? n)%nat); [discriminate|].
  destruct p; destruct a; try discriminate H; injection H as <-; cbn [okI]; intros; unfold mvs;
    repeat match goal with |- context [if ?b then _ else _] => destruct b end; cbn;
    repeat split; try discriminate;
    first [apply mv0; reflexivity|apply mvW; reflexivity|apply mvw; reflexivity|apply mvR; reflexivity|apply mvr; reflexivity].
Qed.


Lemma pf_rel : forall n s S t a s' e, clean s -> Rl s S -> pf_tso n s (Go t (AL a)) = Some (s', e) ->
  exists S2, step n S (t, a) = Some (S2, lock_log e) /\ Rl s' S2.
Proof.
  intros n s S t a s' e Hc (R1 & R2 & R3 & R4 & R5) H. unfold pf_tso in H. cbn [Tso.step client] in H.
  unfold pf_code in H. unfold step. rewrite (R5 t). destruct (negb (t <? n)%nat); [discriminate|].
  destruct (pcs s t) eqn:Ep; destruct a; try discriminate H; cbn [imap] in H;
    rewrite ?(clean_view s t _ Hc) in H; rewrite ?R1, ?R2, ?R3, ?R4;
    try (destruct (buf s t); [|discriminate H]);
    repeat match goal with |- context [if ?b then _ else _] => destruct b end;
    cbn in H; injection H as <- <-; eexists; (split; [reflexivity|]);
    unfold Rl; cbn [rin rout win wout thr mem buf pcs next go];
    (repeat split; try assumption; try reflexivity; intros u; upd_cases; auto).
Qed.

Lemma pf_back : forall n s S t a S2 e, clean s -> Rl s S -> buf s t = [] -> step n S (t, a) = Some (S2, e) ->
  exists s', pf_tso n s (Go t (AL a)) = Some (s', map Lk e) /\ Rl s' S2.
Proof.
  intros n s S t a S2 e Hc (R1 & R2 & R3 & R4 & R5) Hb H. unfold pf_tso. cbn [Tso.step client].
  unfold step in H. rewrite (R5 t) in H. unfold pf_code. destruct (negb (t <? n)%nat); [discriminate|].
  destruct (pcs s t) eqn:Ep; destruct a; try discriminate H; cbn [imap];
    rewrite ?(clean_view s t _ Hc), ?Hb; rewrite ?R1, ?R2, ?R3, ?R4 in H;
    repeat match goal with |- context [if ?b then _ else _] => destruct b end;
    cbn; injection H as <- <-; eexists; (split; [reflexivity|]);
    unfold Rl; cbn [rin rout win wout thr mem buf pcs next go];
    (repeat split; try assumption; try reflexivity; intros u; upd_cases; auto).
Qed.

Lemma pf_rel0 : forall D, Rl (pf_init D) init.
Proof. intros D. repeat split. Qed.
Lemma pf_dat : forall s S s', Rl s S -> (forall x, mem s' (Reg x) = mem s (Reg x)) -> (forall t, pcs s' t = pcs s t) -> Rl s' S.
Proof. intros s S s' (R1 & R2 & R3 & R4 & R5) H1 H2. unfold Rl. rewrite !H1. repeat split; auto. intros t. rewrite H2. auto. Qed.

Lemma pf_sc : forall n D ls s log, run (pf_tso n) (pf_init D) ls = Some (s, log) ->
  exists ls' S, run (step n) init ls' = Some (S, lock_log log) /\ Rl s S.
Proof.
  intros n D. apply (sc_all (pf_code n) pf_wr pf_rd pf_wr pf_rd pev_rw (pf_ok n) Idle D (step n) init Rl); [apply pf_rel0|intros; eapply pf_rel; eauto|exact pf_dat].
Qed.

Lemma pf_fair : forall n, Z.of_nat n < 2 ^ 24 -> forall D ls s log, run (pf_tso n) (pf_init D) ls = Some (s, log) -> pf_legal (lock_log log).
Proof. intros n Hn D ls s log H. destruct (pf_sc _ _ _ _ _ H) as (ls' & S & R & _). exact (pf_refines n Hn ls' S _ R). Qed.

Lemma pf_data : forall n, Z.of_nat n < 2 ^ 24 -> forall D ls s log, run (pf_tso n) (pf_init D) ls = Some (s, log) ->
  TsoRw_Spec.rw_legal D (data_log pev_rw log).
Proof.
  intros n Hn D ls s log H.
  apply (data_all (pf_code n) pf_wr pf_rd pf_wr pf_rd pev_rw (pf_ok n)) with (p0 := Idle) (ls := ls) (s := s); auto.
  apply pf_legal_rw. eapply pf_fair; eauto.
Qed.

Lemma pf_gets_w : forall n, Z.of_nat n < 2 ^ 24 -> forall D s, reachable (pf_tso n) (pf_init D) s -> forall t,
  (exists k, pcs s t = W1 k \/ pcs s t = W2 k \/ pcs s t = W3 k) ->
  exists ls s' log, run (pf_tso n) s ls = Some (s', log) /\ In (Lk (PWAcq t)) log.
Proof.
  intros n Hn D s Hr t Ht.
  apply (progress_all (pf_code n) pf_wr pf_rd pf_wr pf_rd pev_rw (pf_ok n) Idle D (step n) init Rl); auto.
  - apply pf_rel0.
  - intros. eapply pf_rel; eauto.
  - exact pf_dat.
  - intros. eapply pf_back; eauto.
  - intros S HS (_ & _ & _ & _ & R5). apply (pf_progress_w n Hn S HS t). unfold waiting_w. rewrite R5. destruct Ht as (k & [->| [->| ->]]); reflexivity.
Qed.

Lemma pf_gets_r : forall n, Z.of_nat n < 2 ^ 24 -> forall D s, reachable (pf_tso n) (pf_init D) s -> forall t,
  (exists k, pcs s t = RWait k) -> exists ls s' log, run (pf_tso n) s ls = Some (s', log) /\ In (Lk (PRAcq t)) log.
Proof.
  intros n Hn D s Hr t Ht.
  apply (progress_all (pf_code n) pf_wr pf_rd pf_wr pf_rd pev_rw (pf_ok n) Idle D (step n) init Rl); auto.
  - apply pf_rel0.
  - intros. eapply pf_rel; eauto.
  - exact pf_dat.
  - intros. eapply pf_back; eauto.
  - intros S HS (_ & _ & _ & _ & R5). apply (pf_progress_r n Hn S HS t). unfold waiting_r. rewrite R5. destruct Ht as (k & ->); reflexivity.
Qed.
