(** Linearization points in the past.  Some operations can answer without an effect if the object
    was in the right state at some moment since the call, and the code only finds out later.
    [pstep] accepts such a [Lin] event late; [past_lin] shows that the history is linearizable.
    Nothing in this file models code of /repo. *)
From Coq Require Import Arith List Bool.
From Verif Require Import Lib Lin.
Import ListNotations.
Local Arguments upd : simpl never.

Section Past.
Context {Q op res : Type}.
Variable seq : Q -> op -> res -> option Q.
Variable req : forall a b : res, {a = b} + {a <> b}.
(** the answer without an effect, and the states in which the operation may give it *)
Variable lz : op -> option res.
Variable okb : Q -> op -> bool.

(** [p_can t]: since the call of [t] there was a moment at which it could have given that answer *)
Record past := { p_lin : Q * (nat -> phase op res); p_can : nat -> bool }.
Definition could (q : Q) (p : phase op res) : bool := match p with Called o => okb q o | _ => false end.
Definition islz (o : op) (r : res) : bool := match lz o with Some r' => if req r r' then true else false | None => false end.
Definition pstep (a : past) (e : lev op res) : option past :=
  match e with
  | Lin t r =>
      match snd (p_lin a) t with
      | Called o =>
          if islz o r
          then if p_can a t then Some {| p_lin := (fst (p_lin a), upd (snd (p_lin a)) t (Done r)); p_can := p_can a |} else None
          else match lstep seq req (p_lin a) e with
               | Some l => Some {| p_lin := l; p_can := fun u => p_can a u || could (fst l) (snd l u) |}
               | None => None
               end
      | _ => None
      end
  | Call t o =>
      match lstep seq req (p_lin a) e with
      | Some l => Some {| p_lin := l; p_can := upd (p_can a) t (okb (fst l) o) |}
      | None => None
      end
  | Ret _ _ => match lstep seq req (p_lin a) e with Some l => Some {| p_lin := l; p_can := p_can a |} | None => None end
  end.
Definition past0 (q : Q) : past := {| p_lin := (q, idle); p_can := fun _ => false |}.

Hypothesis lz_ok : forall q o, okb q o = true -> exists r, lz o = Some r /\ seq q o r = Some q.

(** the phases when the threads of [P] have already answered *)
Definition early (ph : nat -> phase op res) (P : list nat) (u : nat) : phase op res :=
  if in_dec Nat.eq_dec u P then match ph u with Called o => match lz o with Some r => Done r | None => ph u end | _ => ph u end else ph u.
Definition sound (a : past) (log : list (lev op res)) (q0 : Q) : Prop :=
  forall P, NoDup P -> (forall t, In t P -> exists o r, snd (p_lin a) t = Called o /\ lz o = Some r /\ p_can a t = true) ->
  exists log' ph', accepts (lstep seq req) (q0, idle) log' = Some (fst (p_lin a), ph') /\ (forall u, ph' u = early (snd (p_lin a)) P u) /\ history log' = history log.

(** threads that could answer now do *)
Lemma answer : forall P0 N log' q0 q ph ph', NoDup (N ++ P0) ->
  accepts (lstep seq req) (q0, idle) log' = Some (q, ph') -> (forall u, ph' u = early ph P0 u) ->
  (forall t, In t N -> exists o, ph t = Called o /\ okb q o = true) ->
  exists log2 ph2, accepts (lstep seq req) (q0, idle) log2 = Some (q, ph2) /\ (forall u, ph2 u = early ph (N ++ P0) u) /\ history log2 = history log'.
Proof.
  intros P0. induction N as [|t N IH]; intros log' q0 q ph ph' ND A E H; [exists log', ph'; auto|].
  inversion ND; subst. destruct (IH log' q0 q ph ph' H3 A E ltac:(intros; apply H; right; auto)) as [l2 [p2 [A2 [E2 H2']]]].
  destruct (H t (or_introl eq_refl)) as [o [Po Ko]]. destruct (lz_ok _ _ Ko) as [r [Lr Sr]].
  exists (l2 ++ [Lin t r]), (upd p2 t (Done r)). split; [|split].
  - rewrite accepts_app, A2. cbn. rewrite E2. unfold early. destruct (in_dec Nat.eq_dec t (N ++ P0)); [tauto|]. rewrite Po, Sr. reflexivity.
  - intros u. unfold upd. destruct (Nat.eq_dec u t) as [->|NE].
    + unfold early. destruct (in_dec Nat.eq_dec t ((t :: N) ++ P0)) as [|X]; [|exfalso; apply X; left; auto]. rewrite Po, Lr. auto.
    + rewrite E2. unfold early. destruct (in_dec Nat.eq_dec u (N ++ P0)) as [I|I], (in_dec Nat.eq_dec u ((t :: N) ++ P0)) as [J|J]; auto; exfalso; cbn in I, J; intuition congruence.
  - unfold history in *. rewrite filter_app. cbn. rewrite app_nil_r. auto.
Qed.

Lemma hist_app : forall (a b : list (lev op res)), history (a ++ b) = history a ++ history b.
Proof. intros. apply filter_app. Qed.
Lemma partition_nd : forall (f : nat -> bool) P, NoDup P -> NoDup (filter (fun x => negb (f x)) P ++ filter f P).
Proof.
  intros f P. induction P as [|x P IH]; cbn; intros N; auto. inversion N; subst. specialize (IH H2).
  assert (NI : ~ In x (filter (fun x => negb (f x)) P ++ filter f P)).
  { intros X. apply in_app_or in X. destruct X as [X|X]; apply filter_In in X; tauto. }
  destruct (f x); cbn.
  - apply NoDup_Add with (a := x) (l := filter (fun x => negb (f x)) P ++ filter f P); [apply Add_app|]. auto.
  - constructor; auto.
Qed.
Lemma partition_in : forall (f : nat -> bool) P u, In u (filter (fun x => negb (f x)) P ++ filter f P) <-> In u P.
Proof.
  intros f P u. rewrite in_app_iff, !filter_In. destruct (f u) eqn:E; cbn; intuition congruence.
Qed.
Lemma early_in : forall ph P P' u, (In u P <-> In u P') -> early ph P u = early ph P' u.
Proof. intros ph P P' u H. unfold early. destruct (in_dec Nat.eq_dec u P), (in_dec Nat.eq_dec u P'); auto; tauto. Qed.

Lemma sound_step : forall a e a' log q0, sound a log q0 -> pstep a e = Some a' -> sound a' (log ++ [e]) q0.
Proof.
  intros [[q ph] can] e a' log q0 S H P ND HP. unfold pstep in H. destruct e as [t o|t r|t r]; cbn [p_lin p_can fst snd] in *.
  - (* Call *)
    cbn in H. destruct (ph t) eqn:Pt; try discriminate. injection H as <-. cbn [p_lin p_can fst snd] in *.
    set (P0 := filter (fun u => negb (Nat.eqb u t)) P).
    assert (N0 : NoDup P0) by (apply NoDup_filter; auto).
    destruct (S P0 N0) as [l [ph' [A [E Hh]]]].
    { intros u U. apply filter_In in U. destruct U as [U1 U2]. apply negb_true_iff, Nat.eqb_neq in U2. destruct (HP u U1) as [o' [r' [X [Y Z]]]].
      rewrite upd_other in X, Z by auto. eauto. }
    cbn [p_lin fst snd] in *.
    assert (Tn : ~ In t P0) by (intros X; apply filter_In in X; rewrite Nat.eqb_refl in X; destruct X; discriminate).
    assert (A1 : accepts (lstep seq req) (q0, idle) (l ++ [Call t o]) = Some (q, upd ph' t (Called o))).
    { rewrite accepts_app, A. cbn. rewrite E. unfold early. destruct (in_dec Nat.eq_dec t P0); [tauto|]. rewrite Pt. reflexivity. }
    assert (E1 : forall u, upd ph' t (Called o) u = early (upd ph t (Called o)) P0 u).
    { intros u. unfold upd at 1. destruct (Nat.eq_dec u t) as [->|NE].
      - unfold early. destruct (in_dec Nat.eq_dec t P0); [tauto|]. rewrite upd_same. auto.
      - rewrite E. unfold early. rewrite upd_other by auto. auto. }
    destruct (in_dec Nat.eq_dec t P) as [I|I].
    + destruct (HP t I) as [o' [r [X [Y Z]]]]. rewrite upd_same in X, Z. injection X as <-.
      destruct (answer P0 [t] _ _ _ (upd ph t (Called o)) _ ltac:(cbn; constructor; auto) A1 E1) as [l2 [p2 [A2 [E2 H2]]]].
      { intros u [<-|[]]. exists o. rewrite upd_same. auto. }
      exists l2, p2. split; auto. split.
      * intros u. rewrite E2. apply early_in. cbn. unfold P0. rewrite filter_In. destruct (Nat.eqb u t) eqn:B; [apply Nat.eqb_eq in B; subst; tauto|]. apply Nat.eqb_neq in B. split; [intros [->|[]]; tauto|]. intros; right; auto.
      * rewrite H2, hist_app, hist_app, Hh. auto.
    + exists (l ++ [Call t o]), (upd ph' t (Called o)). split; auto. split.
      * intros u. rewrite E1. apply early_in. unfold P0. rewrite filter_In. split; [tauto|]. intros U. split; auto. apply negb_true_iff, Nat.eqb_neq. intros ->. tauto.
      * rewrite !hist_app, Hh. auto.
  - (* Lin *)
    destruct (ph t) eqn:Pt; try discriminate. destruct (islz o r) eqn:Lz.
    + destruct (can t) eqn:Ct; try discriminate. injection H as <-. cbn [p_lin p_can fst snd] in *.
      unfold islz in Lz. destruct (lz o) as [r'|] eqn:Lo; try discriminate. destruct (req r r') as [<-|]; try discriminate.
      assert (Tn : ~ In t P) by (intros X; destruct (HP t X) as [? [? [Y _]]]; rewrite upd_same in Y; discriminate).
      destruct (S (t :: P)) as [l [ph' [A [E Hh]]]].
      { constructor; auto. }
      { intros u [<-|U]; [cbn; exists o, r; auto|]. destruct (HP u U) as [o' [r' [X [Y Z]]]]. exists o', r'. cbn. rewrite upd_other in X; auto. intros ->. tauto. }
      exists l, ph'. split; auto. split; [|rewrite hist_app; cbn; rewrite app_nil_r; auto].
      intros u. rewrite E. cbn [p_lin snd]. unfold early. destruct (in_dec Nat.eq_dec u (t :: P)) as [I|I], (in_dec Nat.eq_dec u P) as [J|J]; try (exfalso; apply I; right; auto; fail).
      * assert (u <> t) by (intros ->; tauto). rewrite upd_other by auto. auto.
      * destruct I as [<-|I]; [|tauto]. rewrite upd_same, Pt, Lo. auto.
      * rewrite upd_other; auto. intros ->. apply I. left; auto.
    + cbn in H. rewrite Pt in H. destruct (seq q o r) as [q'|] eqn:Sq; try discriminate. injection H as <-. cbn [p_lin p_can fst snd] in *.
      set (f := fun u => can u). set (P0 := filter f P). set (N := filter (fun u => negb (f u)) P).
      assert (Tn : ~ In t P) by (intros X; destruct (HP t X) as [? [? [Y _]]]; rewrite upd_same in Y; discriminate).
      destruct (S P0) as [l [ph' [A [E Hh]]]]; [apply NoDup_filter; auto| |].
      { intros u U. apply filter_In in U. destruct U as [U1 U2]. destruct (HP u U1) as [o' [r' [X [Y Z]]]]. exists o', r'. cbn. rewrite upd_other in X by (intros ->; tauto). auto. }
      cbn [p_lin fst snd] in *.
      assert (A1 : accepts (lstep seq req) (q0, idle) (l ++ [Lin t r]) = Some (q', upd ph' t (Done r))).
      { rewrite accepts_app, A. cbn. rewrite E. unfold early. destruct (in_dec Nat.eq_dec t P0) as [X|]; [apply filter_In in X; tauto|]. rewrite Pt, Sq. reflexivity. }
      assert (E1 : forall u, upd ph' t (Done r) u = early (upd ph t (Done r)) P0 u).
      { intros u. unfold upd at 1. destruct (Nat.eq_dec u t) as [->|NE].
        - unfold early. rewrite upd_same. destruct (in_dec Nat.eq_dec t P0); auto.
        - rewrite E. unfold early. rewrite upd_other by auto. auto. }
      destruct (answer P0 N _ _ _ (upd ph t (Done r)) _ (partition_nd f P ND) A1 E1) as [l2 [p2 [A2 [E2 H2]]]].
      { intros u U. apply filter_In in U. destruct U as [U1 U2]. destruct (HP u U1) as [o' [r' [X [Y Z]]]]. exists o'. split; auto.
        unfold f in U2. apply negb_true_iff in U2. rewrite U2 in Z. cbn in Z. rewrite X in Z. exact Z. }
      exists l2, p2. split; auto. split; [|rewrite H2, !hist_app, Hh; auto].
      intros u. rewrite E2. apply early_in. apply partition_in.
  - (* Ret *)
    cbn in H. destruct (ph t) eqn:Pt; try discriminate. destruct (req r r0) as [<-|]; try discriminate. injection H as <-. cbn [p_lin p_can fst snd] in *.
    assert (Tn : ~ In t P) by (intros X; destruct (HP t X) as [? [? [Y _]]]; rewrite upd_same in Y; discriminate).
    destruct (S P ND) as [l [ph' [A [E Hh]]]].
    { intros u U. destruct (HP u U) as [o' [r' [X [Y Z]]]]. exists o', r'. cbn. rewrite upd_other in X by (intros ->; tauto). auto. }
    cbn [p_lin fst snd] in *. exists (l ++ [Ret t r]), (upd ph' t Idle). split; [|split; [|rewrite !hist_app, Hh; auto]].
    + rewrite accepts_app, A. cbn. rewrite E. unfold early. destruct (in_dec Nat.eq_dec t P); [tauto|]. rewrite Pt. destruct (req r r); [reflexivity|tauto].
    + intros u. unfold upd at 1. destruct (Nat.eq_dec u t) as [->|NE].
      * unfold early. rewrite upd_same. destruct (in_dec Nat.eq_dec t P); auto.
      * rewrite E. unfold early. rewrite upd_other by auto. auto.
Qed.

Theorem past_lin : forall q0 log a, accepts pstep (past0 q0) log = Some a -> linearizable seq req q0 (history log).
Proof.
  intros q0 log a H.
  assert (G : forall log2 a1 log1, sound a1 log1 q0 -> accepts pstep a1 log2 = Some a -> sound a (log1 ++ log2) q0).
  { induction log2 as [|e log2 IH]; intros a1 log1 S A; cbn in A; [injection A as <-; rewrite app_nil_r; auto|].
    destruct (pstep a1 e) as [a2|] eqn:E; try discriminate. replace (log1 ++ e :: log2) with ((log1 ++ [e]) ++ log2) by (rewrite <- app_assoc; auto).
    eapply IH; eauto. eapply sound_step; eauto. }
  assert (S0 : sound (past0 q0) [] q0).
  { intros P ND HP. exists [], idle. split; auto. split; auto. intros u. unfold early. destruct (in_dec Nat.eq_dec u P); auto. }
  specialize (G log (past0 q0) [] S0 H). cbn [app] in G. destruct (G [] ltac:(constructor) ltac:(intros ? [])) as [l [ph [A [_ Hh]]]].
  exists l. split; auto. eexists. exact A.
Qed.
End Past.
