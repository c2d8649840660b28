(** Facts about the machine of Rtm.v. *)
From Coq Require Import ZArith Arith List Bool Lia.
From Verif Require Import Lib Tso Rtm.
Import ListNotations.

Lemma hits_false : forall xs ys x, hits xs ys = false -> In x xs -> ~ In x ys.
Proof.
  intros xs ys x H Hx Hy. unfold hits in H. assert (existsb (fun x => existsb (loc_eqb x) ys) xs = true); [|congruence].
  apply existsb_exists. exists x. split; auto. apply existsb_exists. exists x. split; auto.
  destruct (loc_eqb_spec x x); congruence.
Qed.
Lemma hits_in : forall x ys, In x ys -> hits [x] ys = true.
Proof.
  intros x ys H. unfold hits. simpl. rewrite orb_false_r. apply existsb_exists. exists x. split; auto.
  destruct (loc_eqb_spec x x); congruence.
Qed.

Section Facts.
Context {L E : Type}.
Implicit Types T : nat -> option (txr L E).

Lemma kill_none : forall T t xs u, kill T t xs u = None <-> T u = None.
Proof. intros. unfold kill. destruct (Nat.eqb u t); [tauto|]. destruct (T u); simpl; split; congruence. Qed.
Lemma kill_self : forall T t xs, kill T t xs t = T t.
Proof. intros. unfold kill. rewrite Nat.eqb_refl. auto. Qed.
Lemma kill_some : forall T t xs u r, kill T t xs u = Some r ->
  exists r0, T u = Some r0 /\ abt r = abt r0 /\ (dead r = false -> r = r0 /\ dead r0 = false /\ (u <> t -> hits xs (tch r) = false)).
Proof.
  intros T t xs u r H. unfold kill in H. destruct (Nat.eqb_spec u t) as [Hn|Hn].
  - exists r. split; auto. split; auto. intros; repeat split; auto. tauto.
  - destruct (T u) as [r0|]; [|discriminate]. simpl in H. injection H as <-. exists r0. split; auto.
    unfold doom. destruct (hits xs (tch r0)) eqn:Eh; simpl; split; auto; intros X; try discriminate X; auto.
Qed.
End Facts.
