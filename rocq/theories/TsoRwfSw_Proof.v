(** ck_swlock without the latch on x86-TSO. *)
From Coq Require Import ZArith Arith List Bool Lia.
From Verif Require Import Lib LockSpec Tso TsoRw_Spec TsoRwf_Spec TsoRwf_Model TsoRwf_Proof SwLock_Model SwLock_Proof.
Import ListNotations.
Local Open Scope Z_scope.

Definition Rl (s : tso pc) (S : state) : Prop := val S = mem s (Reg 0) /\ forall t, thr S t = pcs s t.
Definition sW (p : pc) : bool := match p with WCrit | WD | LCrit => true | _ => false end.
Definition cv (e : rwev) : list rwev := [e].

Lemma sw_ok : forall n t p a i, sw_code n t p a = Some i -> okI sW sw_rd cv t p i.
Proof.
  intros n t p a i H. unfold sw_code in H. destruct (negb (t <? n)%nat); [discriminate|].
  destruct p; destruct a; try discriminate H; try (destruct (Nat.eqb t 0); [|discriminate H]); injection H as <-; cbn [okI]; intros; unfold mvs;
    repeat match goal with |- context [if ?b then _ else _] => destruct b end; cbn;
    repeat split; try discriminate;
    first [apply mv0; reflexivity|apply mvW; reflexivity|apply mvw; reflexivity|apply mvR; reflexivity|apply mvr; reflexivity|apply mvd; reflexivity].
Qed.

Lemma sw_rel : forall n s S t a s' e, clean s -> Rl s S -> sw_tso n s (Go t (AL a)) = Some (s', e) ->
  exists S2, step n S (t, a) = Some (S2, lock_log e) /\ Rl s' S2.
Proof.
  intros n s S t a s' e Hc (R1 & R5) H. unfold sw_tso in H. cbn [Tso.step client] in H.
  unfold sw_code in H. unfold step. rewrite (R5 t). destruct (negb (t <? n)%nat); [discriminate|].
  destruct (pcs s t) eqn:Ep; destruct a; try discriminate H; try (destruct (Nat.eqb t 0); [|discriminate H]); cbn [imap] in H;
    rewrite ?(clean_view s t _ Hc) in H; rewrite ?R1; cbv zeta;
    try (destruct (buf s t); [|discriminate H]);
    repeat match goal with |- context [if ?b then _ else _] => destruct b eqn:?; rewrite ?Heqb in H end;
    cbn in H; injection H as <- <-; eexists; (split; [reflexivity|]);
    unfold Rl; cbn [val thr mem buf pcs next go put];
    (repeat split; try assumption; try reflexivity; try (intros u; upd_cases; auto; fail)).
Qed.

Lemma sw_rel0 : forall D, Rl (sw_init D) init.
Proof. intros D. repeat split. Qed.
Lemma sw_dat : forall s S s', Rl s S -> (forall x, mem s' (Reg x) = mem s (Reg x)) -> (forall t, pcs s' t = pcs s t) -> Rl s' S.
Proof. intros s S s' (R1 & R5) H1 H2. unfold Rl. rewrite !H1. repeat split; auto. intros t. rewrite H2. auto. Qed.
Lemma sw_wW : forall p, sw_wr p = true -> sW p = true.
Proof. intros []; auto. Qed.

Lemma sw_sc : forall n D ls s log, run (sw_tso n) (sw_init D) ls = Some (s, log) ->
  exists ls' S, run (step n) init ls' = Some (S, lock_log log) /\ Rl s S.
Proof.
  intros n D. apply (sc_all (sw_code n) sw_wr sw_rd sW sw_rd cv (sw_ok n) Idle D (step n) init Rl); [apply sw_rel0|intros; eapply sw_rel; eauto|exact sw_dat].
Qed.

Lemma sw_fair : forall n, Z.of_nat n < 2 ^ 30 -> forall D ls s log, run (sw_tso n) (sw_init D) ls = Some (s, log) -> LockSpec.rw_legal (lock_log log).
Proof. intros n Hn D ls s log H. destruct (sw_sc _ _ _ _ _ H) as (ls' & S & R & _). exact (sw_refines n Hn ls' S _ R). Qed.

Lemma cv_id : forall l, flat_map cv l = l.
Proof. induction l as [|x l IH]; simpl; congruence. Qed.

Lemma sw_data : forall n, Z.of_nat n < 2 ^ 30 -> forall D ls s log, run (sw_tso n) (sw_init D) ls = Some (s, log) ->
  TsoRw_Spec.rw_legal D (data_log cv log).
Proof.
  intros n Hn D ls s log H.
  apply (data_all (sw_code n) sw_wr sw_rd sW sw_rd cv (sw_ok n) sw_wW (fun p H => H)) with (p0 := Idle) (ls := ls) (s := s); auto.
  rewrite cv_id. eapply sw_fair; eauto.
Qed.
