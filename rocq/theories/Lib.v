(** Shared infrastructure: functional maps, counting over thread ids, runs of
    labelled transition systems, acceptance by specification automata.
    Nothing in this file models code of /repo. *)
From Coq Require Import Arith List Lia ZArith Bool.
Import ListNotations.

(** * Functional maps over [nat] *)

Definition upd {A} (f : nat -> A) (k : nat) (v : A) : nat -> A :=
  fun x => if Nat.eq_dec x k then v else f x.

Lemma upd_same : forall A (f : nat -> A) k v, upd f k v k = v.
Proof. intros. unfold upd. destruct (Nat.eq_dec k k); congruence. Qed.

Lemma upd_other : forall A (f : nat -> A) k v x, x <> k -> upd f k v x = f x.
Proof. intros. unfold upd. destruct (Nat.eq_dec x k); congruence. Qed.

Ltac upd_cases :=
  unfold upd in *;
  repeat match goal with
         | |- context [Nat.eq_dec ?x ?y] => destruct (Nat.eq_dec x y); subst
         | H : context [Nat.eq_dec ?x ?y] |- _ => destruct (Nat.eq_dec x y); subst
         end.

Ltac upd_goal :=
  unfold upd;
  repeat match goal with
         | |- context [Nat.eq_dec ?x ?y] => destruct (Nat.eq_dec x y)
         end.

(** * Counting the indices below [n] that satisfy a predicate *)

Fixpoint cnt (P : nat -> bool) (n : nat) : nat :=
  match n with
  | O => 0
  | S k => (if P k then 1 else 0) + cnt P k
  end.

Lemma cnt_ext : forall P Q n, (forall i, i < n -> P i = Q i) -> cnt P n = cnt Q n.
Proof.
  induction n; simpl; intros; auto.
  rewrite H by lia. rewrite IHn; auto.
Qed.

Lemma cnt_le : forall P n, cnt P n <= n.
Proof. induction n; simpl; auto. destruct (P n); lia. Qed.

(** One index changes its status. *)
Lemma cnt_change : forall P Q n k,
  k < n -> (forall i, i <> k -> P i = Q i) ->
  cnt Q n + (if P k then 1 else 0) = cnt P n + (if Q k then 1 else 0).
Proof.
  induction n; intros; [lia|].
  simpl. destruct (Nat.eq_dec k n).
  - subst. rewrite (cnt_ext P Q n) by (intros; apply H0; lia).
    destruct (P n), (Q n); lia.
  - rewrite (H0 n) by lia. specialize (IHn k).
    assert (k < n) by lia. specialize (IHn H1 H0).
    destruct (Q n); lia.
Qed.

Lemma cnt_pos : forall P n k, k < n -> P k = true -> 0 < cnt P n.
Proof.
  induction n; intros; [lia|]. simpl.
  destruct (Nat.eq_dec k n); [subst; rewrite H0; lia|].
  specialize (IHn k). destruct (P n); [lia|]. apply IHn; auto; lia.
Qed.

Lemma cnt_zero : forall P n, cnt P n = 0 -> forall k, k < n -> P k = false.
Proof.
  intros. destruct (P k) eqn:E; auto.
  pose proof (cnt_pos P n k H0 E). lia.
Qed.

Lemma cnt_all_false : forall P n, (forall k, k < n -> P k = false) -> cnt P n = 0.
Proof. induction n; intros; simpl; auto. rewrite H by lia. apply IHn. auto. Qed.

Lemma cnt_exists : forall P n, 0 < cnt P n -> exists k, k < n /\ P k = true.
Proof.
  induction n; simpl; intros; [lia|].
  destruct (P n) eqn:E; [exists n; auto|].
  destruct IHn as [k [? ?]]; [lia|]. exists k; auto.
Qed.

Lemma cnt_one : forall P n, cnt P n <= 1 -> forall i j, i < n -> j < n ->
  P i = true -> P j = true -> i = j.
Proof.
  induction n; intros; [lia|]. simpl in H.
  destruct (Nat.eq_dec i n), (Nat.eq_dec j n); subst; auto.
  - rewrite H2 in H. pose proof (cnt_pos P n j). assert (j < n) by lia.
    specialize (H4 H5 H3). lia.
  - rewrite H3 in H. pose proof (cnt_pos P n i). assert (i < n) by lia.
    specialize (H4 H5 H2). lia.
  - apply IHn; auto; try lia.
Qed.

Lemma cnt_strict : forall P n k, k < n -> P k = false -> cnt P n < n.
Proof.
  induction n; intros; [lia|]. simpl.
  destruct (Nat.eq_dec k n).
  - subst. rewrite H0. pose proof (cnt_le P n). lia.
  - assert (k < n) by lia. specialize (IHn k H1 H0). destruct (P n); lia.
Qed.

Lemma cnt_full : forall P n, cnt P n = n -> forall k, k < n -> P k = true.
Proof.
  intros. destruct (P k) eqn:E; auto. pose proof (cnt_strict P n k H0 E). lia.
Qed.

Lemma cnt_all_true : forall P n, (forall k, k < n -> P k = true) -> cnt P n = n.
Proof. induction n; intros; simpl; auto. rewrite H by lia. rewrite IHn; auto. Qed.

Lemma cnt_mono : forall P Q n, (forall i, i < n -> P i = true -> Q i = true) ->
  cnt P n <= cnt Q n.
Proof.
  induction n; intros; simpl; auto.
  assert (cnt P n <= cnt Q n) by (apply IHn; auto).
  destruct (P n) eqn:E; [rewrite (H n) by auto; lia|]. destruct (Q n); lia.
Qed.

(** * Runs of a labelled transition system with events *)

Section Runs.
  Context {S L E : Type}.
  Variable step : S -> L -> option (S * list E).

  Fixpoint run (s : S) (ls : list L) : option (S * list E) :=
    match ls with
    | [] => Some (s, [])
    | l :: rest =>
        match step s l with
        | None => None
        | Some (s1, e1) =>
            match run s1 rest with
            | None => None
            | Some (s2, e2) => Some (s2, e1 ++ e2)
            end
        end
    end.

  Lemma run_cons : forall s l s1 e1 ls s2 e2,
    step s l = Some (s1, e1) -> run s1 ls = Some (s2, e2) ->
    run s (l :: ls) = Some (s2, e1 ++ e2).
  Proof. intros. simpl. rewrite H, H0. auto. Qed.

  Lemma run_app : forall l1 l2 s s1 e1 s2 e2,
    run s l1 = Some (s1, e1) -> run s1 l2 = Some (s2, e2) ->
    run s (l1 ++ l2) = Some (s2, e1 ++ e2).
  Proof.
    induction l1; simpl; intros.
    - inversion H; subst. simpl. auto.
    - destruct (step s a) as [[sx ex]|]; [|discriminate].
      destruct (run sx l1) as [[sy ey]|] eqn:Hr; [|discriminate].
      inversion H; subst. rewrite (IHl1 _ _ _ _ _ _ Hr H0).
      rewrite app_assoc. auto.
  Qed.

  (** Invariants relating the state and the event log so far. *)
  Lemma run_inv_gen : forall (I : S -> list E -> Prop),
    (forall s log l s' ev, I s log -> step s l = Some (s', ev) -> I s' (log ++ ev)) ->
    forall ls s log s' ev, I s log -> run s ls = Some (s', ev) -> I s' (log ++ ev).
  Proof.
    induction ls; simpl; intros.
    - inversion H1; subst. rewrite app_nil_r. auto.
    - destruct (step s a) as [[sx ex]|] eqn:Hs; [|discriminate].
      destruct (run sx ls) as [[sy ey]|] eqn:Hr; [|discriminate].
      inversion H1; subst. rewrite app_assoc. eapply IHls; eauto.
  Qed.

  Lemma run_inv : forall (I : S -> list E -> Prop) s0,
    I s0 [] ->
    (forall s log l s' ev, I s log -> step s l = Some (s', ev) -> I s' (log ++ ev)) ->
    forall ls s' log, run s0 ls = Some (s', log) -> I s' log.
  Proof.
    intros. change log with ([] ++ log). eapply run_inv_gen; eauto.
  Qed.

  (** Invariants of the state alone. *)
  Lemma run_inv_state : forall (I : S -> Prop) s0,
    I s0 ->
    (forall s l s' ev, I s -> step s l = Some (s', ev) -> I s') ->
    forall ls s' log, run s0 ls = Some (s', log) -> I s'.
  Proof.
    intros I s0 H0 Hs ls s' log Hr.
    apply (run_inv (fun s _ => I s) s0 H0) with (ls := ls) (log := log); eauto.
  Qed.

  Definition reachable (s0 s : S) : Prop := exists ls log, run s0 ls = Some (s, log).

  Lemma reachable_inv : forall (I : S -> Prop) s0,
    I s0 ->
    (forall s l s' ev, I s -> step s l = Some (s', ev) -> I s') ->
    forall s, reachable s0 s -> I s.
  Proof. intros I s0 H0 Hs s [ls [log Hr]]. eapply run_inv_state; eauto. Qed.
End Runs.

(** * Specification automata over event logs *)

Section Automata.
  Context {A E : Type}.
  Variable astep : A -> E -> option A.

  Fixpoint accepts (a : A) (log : list E) : option A :=
    match log with
    | [] => Some a
    | e :: rest => match astep a e with None => None | Some a' => accepts a' rest end
    end.

  Lemma accepts_app : forall l1 l2 a,
    accepts a (l1 ++ l2) =
    match accepts a l1 with None => None | Some a' => accepts a' l2 end.
  Proof.
    induction l1; simpl; intros; auto.
    destruct (astep a0 a); auto.
  Qed.

  Lemma accepts_snoc : forall l a a1 a2 e,
    accepts a l = Some a1 -> astep a1 e = Some a2 -> accepts a (l ++ [e]) = Some a2.
  Proof. intros. rewrite accepts_app, H. simpl. rewrite H0. auto. Qed.
End Automata.

(** * Refinement of an automaton by a transition system *)

Lemma run_refines :
  forall {S L E A} (step : S -> L -> option (S * list E)) (astep : A -> E -> option A)
         (R : S -> A -> Prop) s0 a0,
  R s0 a0 ->
  (forall s a l s' ev, R s a -> step s l = Some (s', ev) ->
     exists a', accepts astep a ev = Some a' /\ R s' a') ->
  forall ls s log, run step s0 ls = Some (s, log) ->
  exists a, accepts astep a0 log = Some a /\ R s a.
Proof.
  intros S L E A step astep R s0 a0 H0 Hs ls s log Hr.
  apply (run_inv step (fun s log => exists a, accepts astep a0 log = Some a /\ R s a) s0)
    with (ls := ls); auto.
  - exists a0. split; auto.
  - intros s1 log1 l s2 ev [a [Ha HR]] Hst.
    destruct (Hs _ _ _ _ _ HR Hst) as [a' [? ?]].
    exists a'. rewrite accepts_app, Ha. auto.
Qed.

(** Case analysis on an equation [step ... = Some ...]. *)
Ltac inv_some :=
  match goal with
  | H : Some _ = Some _ |- _ => inversion H; subst; clear H
  | H : None = Some _ |- _ => discriminate H
  | H : (_, _) = (_, _) |- _ => inversion H; subst; clear H
  end.

(** A duplicate-free list of thread ids below [n] has at most [n] elements;
    strictly fewer when some id below [n] is missing. *)
Lemma nodup_bound : forall (q : list nat) n,
  NoDup q -> (forall t, In t q -> t < n) -> length q <= n.
Proof.
  intros. rewrite <- (seq_length n 0). apply NoDup_incl_length; auto.
  intros x Hx. apply in_seq. apply H0 in Hx. lia.
Qed.

Lemma nodup_bound_strict : forall (q : list nat) n u,
  NoDup q -> (forall t, In t q -> t < n) -> u < n -> ~ In u q -> length q < n.
Proof.
  intros. assert (length (u :: q) <= n).
  { apply nodup_bound. constructor; auto. intros t [Hx|Hx]; subst; auto. }
  simpl in *. lia.
Qed.

Lemma nodup_snoc : forall (q : list nat) u, NoDup q -> ~ In u q -> NoDup (q ++ [u]).
Proof.
  intros. apply NoDup_rev in H. rewrite <- (rev_involutive q).
  change [u] with (rev [u]). rewrite <- rev_app_distr. apply NoDup_rev.
  constructor; auto. rewrite <- in_rev. auto.
Qed.

Lemma mod_eq_small : forall a i j B : Z, (0 < B -> 0 <= i < B -> 0 <= j < B ->
  (a + i) mod B = (a + j) mod B -> i = j)%Z.
Proof.
  intros a i j B HB Hi Hj E.
  assert (Hd : (((a + i) - (a + j)) mod B = 0)%Z).
  { rewrite Zminus_mod, E, Z.sub_diag. apply Z.mod_0_l. lia. }
  apply Z.mod_divide in Hd; [|lia]. destruct Hd as [q Hq].
  assert (q = 0%Z) by nia. subst. lia.
Qed.

Lemma nodup_app_r : forall A (l1 l2 : list A), NoDup (l1 ++ l2) -> NoDup l2.
Proof. induction l1; simpl; intros; auto. inversion H; auto. Qed.

Lemma nodup_app_l : forall A (l1 l2 : list A), NoDup (l1 ++ l2) -> NoDup l1.
Proof.
  induction l1; simpl; intros; [constructor|]. inversion H; subst. constructor; eauto.
  intro. apply H2. apply in_or_app. auto.
Qed.

Lemma holder_dec : forall (o : option nat) t, {o = Some t} + {o <> Some t}.
Proof. intros [u|] t; [destruct (Nat.eq_dec u t); [left; congruence|right; congruence]|right; discriminate]. Qed.
