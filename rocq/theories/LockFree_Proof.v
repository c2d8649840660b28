(** Proofs of lock-freedom and wait-freedom: each thread has a potential that every step of its own lowers, that a call
    raises by a constant, and that other threads' steps raise only when an operation takes effect. *)
From Coq Require Import Arith List Bool Lia.
From Verif Require Import Lib Lin LockFree_Spec.
Import ListNotations.

Lemma count_app : forall A (p : A -> bool) a b, count p (a ++ b) = count p a + count p b.
Proof. intros. unfold count. rewrite filter_app, app_length. auto. Qed.
Lemma count_cons : forall A (p : A -> bool) x l, count p (x :: l) = (if p x then 1 else 0) + count p l.
Proof. intros. unfold count. simpl. destruct (p x); auto. Qed.

Lemma potential : forall S L E (step : S -> L -> option (S * list E)) (Inv : S -> Prop) (ok : L -> Prop) (P : S -> nat) (cost : L -> bool) (gain : list E -> nat),
  gain [] = 0 -> (forall a b, gain (a ++ b) = gain a + gain b) ->
  (forall s l s' e, Inv s -> ok l -> step s l = Some (s', e) -> Inv s' /\ P s' + (if cost l then 1 else 0) <= P s + gain e) ->
  forall ls s s' log, Inv s -> Forall ok ls -> run step s ls = Some (s', log) -> P s' + count cost ls <= P s + gain log.
Proof.
  intros S L E step Inv ok P cost gain G0 G H. induction ls as [|l ls IH]; intros s s' log HI HO HR.
  - injection HR as <- <-. unfold count. simpl. lia.
  - inversion HO as [|? ? O1 O2]; subst. cbn [run] in HR. destruct (step s l) as [[s1 e1]|] eqn:E1; [|discriminate].
    destruct (run step s1 ls) as [[s2 e2]|] eqn:E2; [|discriminate]. injection HR as <- <-.
    destruct (H _ _ _ _ HI O1 E1) as [I1 K]. specialize (IH _ _ _ I1 O2 E2). rewrite count_cons, G. lia.
Qed.
Lemma Forall_true : forall A (l : list A), Forall (fun _ => True) l.
Proof. induction l; auto. Qed.

(** the same with a potential that is a relation, for schedules that satisfy [Good] *)
Lemma potential_rel : forall S L E (step : S -> L -> option (S * list E)) (s0 : S) (Good : list L -> Prop) (Inv : S -> Prop) (R : S -> nat -> Prop)
    (cost : L -> bool) (gain : list E -> nat),
  gain [] = 0 -> (forall a b, gain (a ++ b) = gain a + gain b) ->
  (forall a b, Good (a ++ b) -> Good a) ->
  (forall ls s log, Good ls -> run step s0 ls = Some (s, log) -> Inv s) ->
  R s0 0 ->
  (forall s l s' e k, Inv s -> Inv s' -> R s k -> step s l = Some (s', e) -> exists k', R s' k' /\ k' + (if cost l then 1 else 0) <= k + gain e) ->
  forall ls s log, Good ls -> run step s0 ls = Some (s, log) -> exists k, R s k /\ k + count cost ls <= gain log.
Proof.
  intros S L E step s0 Good Inv R cost gain G0 G Gp GI R0 H. induction ls as [|l ls IH] using rev_ind; intros s log HG HR.
  - injection HR as <- <-. exists 0. rewrite G0. split; [auto|unfold count; simpl; lia].
  - destruct (run step s0 ls) as [[s1 e1]|] eqn:E1.
    + assert (X : exists e2, step s1 l = Some (s, e2) /\ log = e1 ++ e2).
      { clear - E1 HR. revert s0 s1 e1 log E1 HR. induction ls as [|x ls IH]; intros s0 s1 e1 log E1 HR; cbn [app run] in *.
        - injection E1 as <- <-. destruct (step s0 l) as [[s2 e2]|]; [|discriminate]. injection HR as <- <-. exists e2. rewrite app_nil_r. auto.
        - destruct (step s0 x) as [[s2 e2]|]; [|discriminate]. destruct (run step s2 ls) as [[s3 e3]|] eqn:E3; [|discriminate]. injection E1 as <- <-.
          destruct (run step s2 (ls ++ [l])) as [[s4 e4]|] eqn:E4; [|discriminate]. injection HR as <- <-.
          destruct (IH _ _ _ _ E3 E4) as [e5 [X1 X2]]. exists e5. split; auto. rewrite X2, app_assoc. auto. }
      destruct X as [e2 [X ->]]. destruct (IH s1 e1 (Gp _ _ HG) eq_refl) as [k [K1 K2]].
      destruct (H s1 l s e2 k (GI _ _ _ (Gp _ _ HG) E1) (GI _ _ _ HG HR) K1 X) as [k' [K3 K4]]. exists k'. split; auto.
      rewrite count_app, G, count_cons. change (count cost []) with 0. lia.
    + exfalso. clear - E1 HR. revert s0 log E1 HR. induction ls as [|x ls IH]; intros s0 log E1 HR; cbn [app run] in *; [discriminate|].
      destruct (step s0 x) as [[s2 e2]|]; [|discriminate]. destruct (run step s2 ls) as [[s3 e3]|] eqn:E3; [discriminate|].
      destruct (run step s2 (ls ++ [l])) as [[s4 e4]|] eqn:E4; [|discriminate]. injection HR as -> <-. eauto.
Qed.

(** ... and with a cost that depends on the state *)
Lemma potential_work : forall S L E (step : S -> L -> option (S * list E)) (Inv : S -> Prop) (ok : L -> Prop) (P : S -> nat) (cost : S -> L -> bool) (gain : list E -> nat),
  gain [] = 0 -> (forall a b, gain (a ++ b) = gain a + gain b) ->
  (forall s l s' e, Inv s -> ok l -> step s l = Some (s', e) -> Inv s' /\ P s' + (if cost s l then 1 else 0) <= P s + gain e) ->
  forall ls s s' log, Inv s -> Forall ok ls -> run step s ls = Some (s', log) -> P s' + work step cost s ls <= P s + gain log.
Proof.
  intros S L E step Inv ok P cost gain G0 G H. induction ls as [|l ls IH]; intros s s' log HI HO HR.
  - injection HR as <- <-. simpl. lia.
  - inversion HO as [|? ? O1 O2]; subst. cbn [run work] in *. destruct (step s l) as [[s1 e1]|] eqn:E1; [|discriminate].
    destruct (run step s1 ls) as [[s2 e2]|] eqn:E2; [|discriminate]. injection HR as <- <-.
    destruct (H _ _ _ _ HI O1 E1) as [I1 K]. specialize (IH _ _ _ I1 O2 E2). rewrite G. lia.
Qed.

Lemma inv_run : forall S L E (step : S -> L -> option (S * list E)) (Inv : S -> Prop) (ok : L -> Prop),
  (forall s l s' e, Inv s -> ok l -> step s l = Some (s', e) -> Inv s') ->
  forall ls s s' log, Inv s -> Forall ok ls -> run step s ls = Some (s', log) -> Inv s'.
Proof.
  intros S L E step Inv ok H. induction ls as [|l ls IH]; intros s s' log HI HO HR.
  - injection HR as <- <-. auto.
  - inversion HO as [|? ? O1 O2]; subst. cbn [run] in HR. destruct (step s l) as [[s1 e1]|] eqn:E1; [|discriminate].
    destruct (run step s1 ls) as [[s2 e2]|] eqn:E2; [|discriminate]. injection HR as <- <-. eauto.
Qed.
