(** Proof infrastructure shared by the first-come-first-served locks on TSO (no model). *)
From Coq Require Import ZArith Arith List Bool Lia.
From Verif Require Import Lib Tso TsoQueue_Spec.
Import ListNotations.
Local Open Scope Z_scope.

Definition alldat (b : list (loc * Z)) : Prop := forall x v, In (x, v) b -> isdat x.
Definition owner (h : own) : option nat := match h with Free => None | Held t | Left t => Some t end.
Definition hl (a : qlock) : list nat := match hold a with Free => [] | Held t | Left t => [t] end.
Definition hq (a : qlock) : list nat := hl a ++ queue a.

Lemma alldat_reg : forall b j d, alldat b -> fwd b (Reg j) d = d.
Proof. intros b j d H. apply fwd_none. intros v Hv. apply (H _ _ Hv). Qed.
Lemma alldat_app : forall b i v, alldat b -> alldat (b ++ [(Dat i, v)]).
Proof.
  intros b i v H y w Hy. apply in_app_iff in Hy. destruct Hy as [Hy|[Hy|[]]]; [eapply H; eauto|]. injection Hy as <- <-. exact I.
Qed.
Lemma alldat_tl : forall x b, alldat (x :: b) -> alldat b.
Proof. intros x b H y w Hy. apply (H y w). right. auto. Qed.

Section M.
Context {L A : Type}.
Variable code : nat -> L -> A -> option (instr L qev).
Variable arr : nat -> loc -> Z -> list qev.
Notation stp := (step code arr).

Hypothesis Harr : forall t x v e, In e (arr t x v) -> exists u, e = Visible u.

Lemma drain : forall s t, exists s' log, run stp s (repeat (Flush t) (length (buf s t))) = Some (s', log) /\
  buf s' t = [] /\ pcs s' = pcs s /\ (forall u, u <> t -> buf s' u = buf s u) /\ forall e, In e log -> exists u, e = Visible u.
Proof.
  intros s t. remember (length (buf s t)) as n eqn:Hn. revert s Hn. induction n as [|n IH]; intros s Hn.
  - exists s, []. split; [reflexivity|]. destruct (buf s t); [|discriminate]. repeat split; auto. intros e [].
  - destruct (buf s t) as [|[x v] r] eqn:Eb; [discriminate|].
    destruct (IH (mkT (setm (mem s) x v) (upd (buf s) t r) (pcs s))) as [s' [log [H1 [H2 [H3 [H4 H5]]]]]].
    { cbn [buf]. rewrite upd_same. simpl in Hn. lia. }
    exists s'. eexists. split; [|split; [exact H2|split; [exact H3|split]]].
    + cbn [repeat]. eapply run_cons; [|exact H1]. cbn [step]. rewrite Eb. reflexivity.
    + intros u Hu. rewrite H4 by auto. cbn [buf]. apply upd_other. auto.
    + intros e He. apply in_app_iff in He. destruct He; eauto.
Qed.

Lemma vis_accepts : forall log a a', accepts q_step a log = Some a' -> (forall e, In e log -> exists u, e = Visible u) ->
  queue a' = queue a /\ (hold a' = hold a \/ hold a' = Free).
Proof.
  induction log as [|e log IH]; intros a a' H Hv; cbn [accepts] in H.
  - injection H as <-. auto.
  - destruct (Hv e) as [u ->]; [left; auto|]. cbn [q_step] in H. destruct (hold a) eqn:Eh; try discriminate.
    destruct (Nat.eqb u t); [|discriminate]. destruct (IH _ _ H) as [E1 E2]; [intros; apply Hv; right; auto|]. simpl in E1, E2. split; [auto|]. destruct E2; auto.
Qed.

Variable R : tso L -> qlock -> Prop.
Hypothesis R_step : forall s a l s' e, R s a -> stp s l = Some (s', e) -> exists a', accepts q_step a e = Some a' /\ R s' a'.

Lemma R_run : forall ls s a s' log, R s a -> run stp s ls = Some (s', log) -> exists a', accepts q_step a log = Some a' /\ R s' a'.
Proof.
  induction ls as [|l ls IH]; intros s a s' log HR Hr; cbn [run] in Hr.
  - injection Hr as <- <-. exists a. auto.
  - destruct (stp s l) as [[s1 e]|] eqn:Es; [|discriminate]. destruct (run stp s1 ls) as [[s2 log2]|] eqn:Er; [|discriminate].
    injection Hr as <- <-. destruct (R_step _ _ _ _ _ HR Es) as [a1 [A1 R1]]. destruct (IH _ _ _ _ R1 Er) as [a2 [A2 R2]].
    exists a2. split; auto. rewrite accepts_app, A1. auto.
Qed.

(** [ok]: the labels that may be needed to make progress *)
Variable ok : lab A -> Prop.
Definition can (s : tso L) (P : tso L -> list qev -> Prop) : Prop :=
  exists ls s' log, run stp s ls = Some (s', log) /\ (forall l, In l ls -> ok l) /\ P s' log.

Lemma can_step : forall s l s1 e P, stp s l = Some (s1, e) -> ok l -> can s1 (fun s' log => P s' (e ++ log)) -> can s P.
Proof.
  intros s l s1 e P H Ho [ls [s' [log [Hr [Hl HP]]]]]. exists (l :: ls), s', (e ++ log). split; [eapply run_cons; eauto|].
  split; auto. intros x [<-|Hx]; auto.
Qed.
Lemma can_done : forall s (P : tso L -> list qev -> Prop), P s [] -> can s P.
Proof. intros s P H. exists [], s, []. split; [reflexivity|]. split; auto. intros l []. Qed.
Lemma can_app : forall s (P : tso L -> list qev -> Prop) Q, can s P -> (forall s1 log1, P s1 log1 -> can s1 (fun s2 log2 => Q s2 (log1 ++ log2))) -> can s Q.
Proof.
  intros s P Q [ls [s1 [log1 [H1 [H2 H3]]]]] H. destruct (H _ _ H3) as [ls2 [s2 [log2 [K1 [K2 K3]]]]].
  exists (ls ++ ls2), s2, (log1 ++ log2). split; [eapply run_app; eauto|]. split; auto.
  intros l Hl. apply in_app_iff in Hl. destruct Hl; auto.
Qed.
Lemma can_drain : (forall t, ok (Flush t)) -> forall s t,
  can s (fun s' log => buf s' t = [] /\ pcs s' = pcs s /\ (forall u, u <> t -> buf s' u = buf s u) /\ forall e, In e log -> exists u, e = Visible u).
Proof.
  intros Ho s t. destruct (drain s t) as [s' [log [H1 H2]]]. exists (repeat (Flush t) (length (buf s t))), s', log.
  split; auto. split; auto. intros l Hl. apply repeat_spec in Hl. subst. auto.
Qed.

Lemma can_R : forall s a (P : tso L -> list qev -> Prop), R s a -> can s P ->
  can s (fun s' log => P s' log /\ exists a', accepts q_step a log = Some a' /\ R s' a').
Proof.
  intros s a P HR [ls [s' [log [H1 [H2 H3]]]]]. exists ls, s', log. split; auto. split; auto. split; auto. eapply R_run; eauto.
Qed.

Definition freed (a : qlock) (s' : tso L) (log : list qev) : Prop :=
  exists a', accepts q_step a log = Some a' /\ R s' a' /\ hold a' = Free /\ queue a' = queue a.
Lemma left_freed : (forall t, ok (Flush t)) -> (forall s a h, R s a -> hold a = Left h -> buf s h <> []) ->
  forall s a h, R s a -> hold a = Left h -> can s (freed a).
Proof.
  intros Ho Hb s a h HR Eh. destruct (can_R s a _ HR (can_drain Ho s h)) as [ls [s1 [log1 [C1 [C2 [[K1 [K2 [K3 K4]]] [a1 [A1 R1]]]]]]]].
  destruct (vis_accepts _ _ _ A1 K4) as [E1 E2]. exists ls, s1, log1. split; auto. split; auto. exists a1. split; auto. split; auto. split; auto.
  destruct E2 as [E2|E2]; auto. exfalso. rewrite Eh in E2. apply (Hb _ _ _ R1 E2). auto.
Qed.
Lemma freed_step : forall s a l s1 e a1, R s a -> stp s l = Some (s1, e) -> ok l -> accepts q_step a e = Some a1 -> queue a1 = queue a ->
  (R s1 a1 -> can s1 (freed a1)) -> can s (freed a).
Proof.
  intros s a l s1 e a1 HR Hs Ho Ha Eq Hc. destruct (R_step _ _ _ _ _ HR Hs) as [a2 [A2 R2]]. rewrite Ha in A2. injection A2 as <-.
  eapply can_step; [exact Hs|exact Ho|]. destruct (Hc R2) as [ls [s' [log [C1 [C2 [a' [C3 [C4 [C5 C6]]]]]]]]].
  exists ls, s', log. split; auto. split; auto. exists a'. rewrite accepts_app, Ha. split; auto. split; auto. split; auto. congruence.
Qed.

Hypothesis Hfree : forall s a h, R s a -> hold a = Held h \/ hold a = Left h ->
  can s (fun s' log => exists a', accepts q_step a log = Some a' /\ R s' a' /\ hold a' = Free /\ queue a' = queue a).
Hypothesis Hgrab : forall s a u q, R s a -> hold a = Free -> queue a = u :: q ->
  can s (fun s' log => exists a', R s' a' /\ In (Enter u) log /\ queue a' = q).

Lemma q_progress : forall s a t, R s a -> In t (queue a) -> can s (fun _ log => In (Enter t) log).
Proof.
  intros s a t HR Hin. destruct (In_nth_error _ _ Hin) as [i Hi]. clear Hin. revert s a HR Hi.
  induction i as [|i IH]; intros s a HR Hi.
  all: assert (F : can s (fun s' log => exists a', R s' a' /\ hold a' = Free /\ queue a' = queue a)).
  1,3: destruct (hold a) as [|h|h] eqn:E; [apply can_done; eauto| |];
    (destruct (Hfree s a h HR) as [ls [s' [log [K1 [K2 [a' [K3 K4]]]]]]]; [auto|exists ls, s', log; eauto]).
  all: eapply can_app; [exact F|]; cbn beta; intros s1 log1 [a1 [R1 [E1 E2]]].
  all: destruct (queue a) as [|u q] eqn:Eq; [discriminate|]; simpl in Hi.
  - injection Hi as ->. destruct (Hgrab _ _ _ _ R1 E1 E2) as [ls [s' [log [K1 [K2 [a' [K3 [K4 K5]]]]]]]].
    exists ls, s', log. split; auto. split; auto. apply in_app_iff. auto.
  - eapply can_app; [apply (Hgrab _ _ _ _ R1 E1 E2)|]; cbn beta. intros s2 log2 [a2 [R2 [_ E3]]].
    destruct (IH s2 a2 R2) as [ls [s' [log [K1 [K2 K3]]]]]; [congruence|].
    exists ls, s', log. split; auto. split; auto. rewrite !in_app_iff. auto.
Qed.
End M.
