(** Proof infrastructure for the barriers (no model). *)
From Coq Require Import Arith List Bool Lia.
From Verif Require Import Lib BarSpec LockProg.
Import ListNotations.

Lemma enters_app : forall t l1 l2, enters t (l1 ++ l2) = enters t l1 + enters t l2.
Proof. induction l1 as [|[u|u] l1 IH]; intros; cbn; auto. rewrite IH. lia. Qed.
Lemma leaves_app : forall t l1 l2, leaves t (l1 ++ l2) = leaves t l1 + leaves t l2.
Proof. induction l1 as [|[u|u] l1 IH]; intros; cbn; auto. rewrite IH. lia. Qed.

Lemma ex_dec : forall (P : nat -> bool) n,
  {k : nat | k < n /\ P k = true} + {forall k, k < n -> P k = false}.
Proof.
  induction n; [right; intros; lia|]. destruct IHn as [[k [? ?]]|H]; [left; exists k; auto|].
  destruct (P n) eqn:E; [left; exists n; auto|]. right. intros k Hk. destruct (Nat.eq_dec k n); [subst; auto|apply H; lia].
Qed.

Lemma ex_min : forall n (Q : nat -> bool) (f : nat -> nat) t, t < n -> Q t = true ->
  exists u, u < n /\ Q u = true /\ forall v, v < n -> Q v = true -> f u <= f v.
Proof.
  intros n Q f. assert (G : forall m t, f t < m -> t < n -> Q t = true -> exists u, u < n /\ Q u = true /\ forall v, v < n -> Q v = true -> f u <= f v).
  { induction m as [|m IH]; intros t Hm Ht Hp; [lia|].
    destruct (ex_dec (fun v => Q v && Nat.ltb (f v) (f t)) n) as [[v [Hv Hv2]]|Hno].
    - apply andb_prop in Hv2. destruct Hv2 as [Hv2 Hv3]. apply Nat.ltb_lt in Hv3. apply (IH v); auto. lia.
    - exists t. repeat split; auto. intros v Hv Hv2. specialize (Hno v Hv). rewrite Hv2 in Hno. cbn in Hno. apply Nat.ltb_ge in Hno. auto. }
  intros t. apply (G (S (f t))). lia.
Qed.

Section B.
Context {S L : Type}.
Variables (step : S -> L -> option (S * list bev)) (init : S) (n : nat).
Variable R : S -> (nat -> nat) -> (nat -> nat) -> Prop.
Hypothesis Hinit : R init (fun _ => 0) (fun _ => 0).
Hypothesis Hstep : forall s en lv l s' e, R s en lv -> step s l = Some (s', e) ->
  (e = [] /\ R s' en lv) \/ (exists t, e = [Enter t] /\ R s' (upd en t (Datatypes.S (en t))) lv) \/
  (exists t, e = [Leave t] /\ R s' en (upd lv t (Datatypes.S (lv t)))).
Hypothesis Hsafe : forall s en lv t u, R s en lv -> t < n -> u < n -> lv t <= en u.

Lemma bar_reach_gen : forall ls s0 s log en lv, R s0 en lv -> run step s0 ls = Some (s, log) ->
  exists en' lv', R s en' lv' /\ forall u, en' u = en u + enters u log /\ lv' u = lv u + leaves u log.
Proof.
  induction ls as [|l ls IH]; intros s0 s log en lv H Hr; cbn in Hr.
  - injection Hr as <- <-. exists en, lv. split; [auto|intros; cbn; lia].
  - destruct (step s0 l) as [[s1 e]|] eqn:E; [|discriminate].
    destruct (run step s1 ls) as [[s2 log2]|] eqn:E2; [|discriminate]. injection Hr as <- <-.
    destruct (Hstep _ _ _ _ _ _ H E) as [[-> H1]|[[t [-> H1]]|[t [-> H1]]]];
    destruct (IH _ _ _ _ _ H1 E2) as [en' [lv' [Ha Hb]]]; exists en', lv'; (split; [exact Ha|]); intros u; destruct (Hb u) as [X Y]; rewrite X, Y; cbn; auto.
    + unfold upd. destruct (Nat.eq_dec u t), (Nat.eqb_spec t u); subst; try congruence; lia.
    + unfold upd. destruct (Nat.eq_dec u t), (Nat.eqb_spec t u); subst; try congruence; lia.
Qed.

Lemma bar_reach : forall ls s log, run step init ls = Some (s, log) ->
  exists en lv, R s en lv /\ forall u, en u = enters u log /\ lv u = leaves u log.
Proof. intros. destruct (bar_reach_gen _ _ _ _ _ _ Hinit H) as [en [lv [A B]]]. exists en, lv. split; auto. Qed.

Lemma bar_separated : forall ls s log, run step init ls = Some (s, log) -> separated n log.
Proof.
  intros ls s log H t u Ht Hu. destruct (bar_reach _ _ _ H) as [en [lv [A B]]].
  destruct (B t) as [_ <-]. destruct (B u) as [<- _]. eauto.
Qed.

Lemma bar_returns : forall ls s log, run step init ls = Some (s, log) -> returns_after_all n log.
Proof.
  intros ls s log H l1 t l2 Ht E u Hu.
  (* the prefix up to and including this return is itself an execution *)
  assert (X : forall ls0 s0 s log en lv, R s0 en lv -> run step s0 ls0 = Some (s, log) -> forall l1 l2, log = l1 ++ Leave t :: l2 ->
              lv t + leaves t l1 < en u + enters u l1).
  { clear - Hstep Hsafe Ht Hu. induction ls0 as [|l ls0 IH]; intros s0 s log en lv HR Hr l1 l2 E; cbn in Hr.
    - injection Hr as <- <-. destruct l1; discriminate.
    - destruct (step s0 l) as [[s1 e]|] eqn:Es; [|discriminate].
      destruct (run step s1 ls0) as [[s2 log2]|] eqn:E2; [|discriminate]. injection Hr as <- <-.
      destruct (Hstep _ _ _ _ _ _ HR Es) as [[-> H1]|[[v [-> H1]]|[v [-> H1]]]]; cbn in E.
      + eapply IH; eauto.
      + destruct l1 as [|z l1]; [discriminate|]. cbn in E. injection E as <- E. assert (Y := IH _ _ _ _ _ H1 E2 _ _ E). cbn.
        unfold upd in Y. destruct (Nat.eq_dec u v), (Nat.eqb_spec v u); subst; try congruence; lia.
      + destruct l1 as [|z l1]; cbn in E.
        * injection E as -> _. assert (Y := Hsafe _ _ _ t u H1 Ht Hu). rewrite upd_same in Y. cbn. lia.
        * injection E as <- E. assert (Y := IH _ _ _ _ _ H1 E2 _ _ E). cbn.
          unfold upd in Y. destruct (Nat.eq_dec t v), (Nat.eqb_spec v t); subst; try congruence; lia. }
  assert (Y := X ls init s log _ _ Hinit H l1 l2 E). cbn in Y. lia.
Qed.

(** Progress. *)
Variable mu : S -> nat.
Hypothesis Hprog : forall s en lv k t, R s en lv -> (forall u, u < n -> k <= en u) -> t < n -> lv t < k ->
  exists l s' e, step s l = Some (s', e) /\ (forall u, ~ In (Enter u) e) /\ (e = [Leave t] \/ mu s' < mu s).

Lemma bar_progress_gen : forall m s en lv k t, mu s < m -> R s en lv -> (forall u, u < n -> k <= en u) -> t < n -> lv t < k ->
  exists ls s' log, run step s ls = Some (s', log) /\ In (Leave t) log /\ (forall u, ~ In (Enter u) log).
Proof.
  induction m as [|m IH]; intros s en lv k t Hm HR Hk Ht Hlv; [lia|].
  destruct (Hprog _ _ _ _ _ HR Hk Ht Hlv) as [l [s1 [e [Es [Hne Hd]]]]].
  assert (Hcase : e = [Leave t] \/ exists en' lv', R s1 en' lv' /\ (forall u, u < n -> k <= en' u) /\ lv' t < k /\ mu s1 < mu s).
  { destruct (Hstep _ _ _ _ _ _ HR Es) as [[-> H1]|[[v [-> H1]]|[v [-> H1]]]].
    - right. exists en, lv. destruct Hd as [Hd|Hd]; [discriminate|]. auto.
    - exfalso. apply (Hne v). left; auto.
    - destruct (Nat.eq_dec v t) as [->|Hv]; auto. right. exists en, (upd lv v (Datatypes.S (lv v))). rewrite upd_other by auto.
      destruct Hd as [Hd|Hd]; [congruence|auto]. }
  destruct Hcase as [->|[en' [lv' [H1 [H2 [H3 H4]]]]]].
  - exists [l], s1, [Leave t]. split; [apply run_last; auto|]. split; [left; auto|]. intros u [X|[]]; discriminate.
  - destruct (IH s1 en' lv' k t) as [ls [s2 [log [A [B C]]]]]; auto; [lia|].
    exists (l :: ls), s2, (e ++ log). split; [eapply run_cons; eauto|]. split; [apply in_or_app; auto|].
    intros u X. apply in_app_or in X. destruct X as [X|X]; [eapply Hne|eapply C]; eauto.
Qed.

Lemma bar_progress : forall ls s log k t, run step init ls = Some (s, log) -> (forall u, u < n -> k <= enters u log) -> t < n -> leaves t log < k ->
  exists ls' s' log', run step s ls' = Some (s', log') /\ In (Leave t) log' /\ (forall u, ~ In (Enter u) log').
Proof.
  intros ls s log k t H Hk Ht Hl. destruct (bar_reach _ _ _ H) as [en [lv [A B]]].
  eapply (bar_progress_gen _ s en lv k t (Nat.lt_succ_diag_r _) A); auto.
  - intros u Hu. destruct (B u) as [-> _]. auto.
  - destruct (B t) as [_ ->]. auto.
Qed.
End B.
