(** Observers: a specification may be a state [gs] computed from the log alone and a
    condition [ok] on the next event.  Nothing in this file models code of /repo. *)
From Coq Require Import List.
From Verif Require Import Lib.
Import ListNotations.

Section Obs.
Context {S L E G : Type}.
Variable step : S -> L -> option (S * list E).
Variable gnext : G -> E -> G.
Variable ok : G -> E -> Prop.

Definition gfold (log : list E) (g : G) : G := fold_left gnext log g.
(** every event of the log is allowed by the state the events before it lead to *)
Fixpoint legal_from (g : G) (log : list E) : Prop :=
  match log with [] => True | e :: log => ok g e /\ legal_from (gnext g e) log end.

Lemma gfold_app : forall a b g, gfold (a ++ b) g = gfold b (gfold a g).
Proof. intros. apply fold_left_app. Qed.
Lemma legal_app : forall a b g, legal_from g (a ++ b) <-> legal_from g a /\ legal_from (gfold a g) b.
Proof.
  induction a as [|e a IH]; intros b g; simpl; [tauto|]. rewrite IH. tauto.
Qed.
(** legality read off any split of the log *)
Lemma legal_at : forall pre e suf g, legal_from g (pre ++ e :: suf) -> ok (gfold pre g) e.
Proof. intros pre e suf g H. apply legal_app in H. destruct H as [_ [H _]]. exact H. Qed.

Lemma obs_run : forall (R : S -> G -> Prop),
  (forall s g l s' ev, R s g -> step s l = Some (s', ev) -> legal_from g ev /\ R s' (gfold ev g)) ->
  forall ls s g s' log, R s g -> run step s ls = Some (s', log) -> legal_from g log /\ R s' (gfold log g).
Proof.
  intros R HS. induction ls as [|l ls IH]; intros s g s' log HR H; simpl in H.
  - injection H as <- <-. simpl. auto.
  - destruct (step s l) as [[s1 e1]|] eqn:E1; try discriminate.
    destruct (run step s1 ls) as [[s2 e2]|] eqn:E2; try discriminate. injection H as <- <-.
    destruct (HS _ _ _ _ _ HR E1) as [A B]. destruct (IH _ _ _ _ B E2) as [C D].
    rewrite gfold_app. split; auto. apply legal_app. auto.
Qed.
End Obs.

(** a weaker condition is legal where a stronger one is *)
Lemma legal_imp : forall E G (gnext : G -> E -> G) (ok ok' : G -> E -> Prop), (forall g e, ok g e -> ok' g e) ->
  forall log g, legal_from gnext ok g log -> legal_from gnext ok' g log.
Proof. intros E G gn ok ok' H. induction log as [|e log IH]; simpl; intros g; auto. intros [A B]. auto. Qed.
