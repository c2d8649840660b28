(** ck_tflock on x86-TSO. *)
From Coq Require Import ZArith Arith List Bool Lia.
From Verif Require Import Lib LockSpec RwFairSpec Tso TsoRw_Spec TsoRwf_Spec TsoRwf_Model TsoRwf_Proof TfLock_Model TfLock_Proof.
Import ListNotations.
Local Open Scope Z_scope.

Definition Rl (s : tso pc) (S : state) : Prop := req S = mem s (Reg 0) /\ comp S = mem s (Reg 1) /\ forall t, thr S t = pcs s t.
(** holding the lock, unlocking included *)
Definition tW (p : pc) : bool := match p with WCrit | WU _ => true | _ => false end.
Definition tR (p : pc) : bool := match p with RCrit | RU _ => true | _ => false end.

Lemma tf_ok : forall n t p a i, tf_code n t p a = Some i -> okI tW tR tev_rw t p i.
Proof.
  intros n t p a i H. unfold tf_code, fca in H. destruct (negb (t <? n)%nat); [discriminate|].
  destruct p; destruct a; try discriminate H; injection H as <-; cbn [okI]; intros; unfold mvs;
    repeat match goal with |- context [if ?b then _ else _] => destruct b end; cbn;
    repeat split; try discriminate;
    first [apply mv0; reflexivity|apply mvW; reflexivity|apply mvw; reflexivity|apply mvR; reflexivity|apply mvr; reflexivity].
Qed.

Lemma tf_rel : forall n s S t a s' e, clean s -> Rl s S -> tf_tso n s (Go t (AL a)) = Some (s', e) ->
  exists S2, step n S (t, a) = Some (S2, lock_log e) /\ Rl s' S2.
Proof.
  intros n s S t a s' e Hc (R1 & R2 & R5) H. unfold tf_tso in H. cbn [Tso.step client] in H.
  unfold tf_code, fca in H. unfold step. rewrite (R5 t). destruct (negb (t <? n)%nat); [discriminate|].
  destruct (pcs s t) eqn:Ep; destruct a; try discriminate H; cbn [imap] in H;
    rewrite ?(clean_view s t _ Hc) in H; rewrite ?R1, ?R2;
    try (destruct (buf s t); [|discriminate H]);
    repeat match goal with |- context [if ?b then _ else _] => destruct b eqn:?; rewrite ?Heqb in H end;
    cbn in H; injection H as <- <-; eexists; (split; [reflexivity|]);
    unfold Rl; cbn [req comp thr mem buf pcs next go];
    (repeat split; try assumption; try reflexivity; try (intros u; upd_cases; auto; fail)).
Qed.

Lemma tf_back : forall n s S t a S2 e, clean s -> Rl s S -> buf s t = [] -> step n S (t, a) = Some (S2, e) ->
  exists s', tf_tso n s (Go t (AL a)) = Some (s', map Lk e) /\ Rl s' S2.
Proof.
  intros n s S t a S2 e Hc (R1 & R2 & R5) Hb H. unfold tf_tso. cbn [Tso.step client].
  unfold step in H. rewrite (R5 t) in H. unfold tf_code, fca. destruct (negb (t <? n)%nat); [discriminate|].
  destruct (pcs s t) eqn:Ep; destruct a; try discriminate H; cbn [imap];
    rewrite ?(clean_view s t _ Hc), ?Hb; rewrite ?R1, ?R2 in H;
    repeat match goal with |- context [if ?b then _ else _] => destruct b end;
    cbn; injection H as <- <-; eexists; (split; [reflexivity|]);
    unfold Rl; cbn [req comp thr mem buf pcs next go];
    (repeat split; try assumption; try reflexivity; try (intros u; upd_cases; auto; fail)).
Qed.

Lemma tf_rel0 : forall D, Rl (tf_init D) init.
Proof. intros D. repeat split. Qed.
Lemma tf_dat : forall s S s', Rl s S -> (forall x, mem s' (Reg x) = mem s (Reg x)) -> (forall t, pcs s' t = pcs s t) -> Rl s' S.
Proof. intros s S s' (R1 & R2 & R5) H1 H2. unfold Rl. rewrite !H1. repeat split; auto. intros t. rewrite H2. auto. Qed.
Lemma tf_wW : forall p, tf_wr p = true -> tW p = true.
Proof. intros []; auto. Qed.
Lemma tf_rR : forall p, tf_rd p = true -> tR p = true.
Proof. intros []; auto. Qed.

Lemma tf_sc : forall n D ls s log, run (tf_tso n) (tf_init D) ls = Some (s, log) ->
  exists ls' S, run (step n) init ls' = Some (S, lock_log log) /\ Rl s S.
Proof.
  intros n D. apply (sc_all (tf_code n) tf_wr tf_rd tW tR tev_rw (tf_ok n) Idle D (step n) init Rl); [apply tf_rel0|intros; eapply tf_rel; eauto|exact tf_dat].
Qed.

Lemma tf_fair : forall n, Z.of_nat n < 2 ^ 15 -> forall D ls s log, run (tf_tso n) (tf_init D) ls = Some (s, log) -> tf_legal (lock_log log).
Proof. intros n Hn D ls s log H. destruct (tf_sc _ _ _ _ _ H) as (ls' & S & R & _). exact (tf_refines n Hn ls' S _ R). Qed.

Lemma tf_data : forall n, Z.of_nat n < 2 ^ 15 -> forall D ls s log, run (tf_tso n) (tf_init D) ls = Some (s, log) ->
  TsoRw_Spec.rw_legal D (data_log tev_rw log).
Proof.
  intros n Hn D ls s log H.
  apply (data_all (tf_code n) tf_wr tf_rd tW tR tev_rw (tf_ok n) tf_wW tf_rR) with (p0 := Idle) (ls := ls) (s := s); auto.
  apply tf_legal_rw. eapply tf_fair; eauto.
Qed.

Lemma tf_gets : forall n, Z.of_nat n < 2 ^ 15 -> forall D s, reachable (tf_tso n) (tf_init D) s -> forall (w : bool) t,
  (exists k, pcs s t = (if w then WQ k else RQ k) \/ pcs s t = (if w then WWait k else RWait k)) ->
  exists ls s' log, run (tf_tso n) s ls = Some (s', log) /\ In (Lk (TAcq w t)) log.
Proof.
  intros n Hn D s Hr w t Ht.
  apply (progress_all (tf_code n) tf_wr tf_rd tW tR tev_rw (tf_ok n) Idle D (step n) init Rl); auto.
  - apply tf_rel0.
  - intros. eapply tf_rel; eauto.
  - exact tf_dat.
  - intros. eapply tf_back; eauto.
  - intros S HS (_ & _ & R5). apply (tf_progress n Hn S HS w t). unfold waiting. rewrite R5. destruct w; destruct Ht as (k & [->| ->]); reflexivity.
Qed.
