From Coq Require Import Arith NArith List Bool Lia.
From Verif Require Import Lib LockSpec LockProg Cohort_Model Cohort_Proof CohortPass_Spec.
Import ListNotations.
Local Arguments upd : simpl never.
Local Arguments Nat.ltb : simpl never.
Local Arguments Nat.eqb : simpl never.
Local Arguments N.max : simpl never.
Local Arguments N.of_nat : simpl never.

Section P.
Variables (n : nat) (coh : nat -> nat) (lim : nat -> N).
Hypothesis Hn : (N.of_nat n < 2 ^ 32)%N.
Hypothesis Hlim : forall c, (lim c < 2 ^ 32)%N.

Definition good (c : nat) (q : list nat) (a : N) : Prop := a = N.of_nat (length q) /\ Forall (fun u => coh u = c) q.
Definition cok (c : nat) (p : pc) (q : list nat) (a : N) (r : bool) : Prop :=
  match p with
  | Crit | U1 | U3 => good c q a /\ (a <= N.max 1 (lim c))%N
  | U2 | U6 false => good c q a /\ (a < lim c)%N
  | L3 | L4 | T3 true | T4 => if r then good c q a /\ (a < lim c)%N else a = 0%N
  | L5 | T5 | T6 | U6 true => a = 0%N
  | _ => True
  end.
Record J (s : state) (q : list nat) : Prop := mkJ {
  j_t : forall t, cok (coh t) (thr s t) q (acq s (coh t)) (rel s (coh t));
  j_f : forall c, loc s c = false -> cok c L4 q (acq s c) (rel s c);
  j_0 : glob s = false -> q = [] }.

Lemma cok_q : forall c p q q' a o r, cok c p q a r -> (hasl p = true -> lst p o r) -> o = false -> cok c p q' a r.
Proof.
  intros c p q q' a o r H L ->. destruct p as [| | | | | | | | | | | |[]| | |[]| | |]; simpl in *; auto;
    try (specialize (L eq_refl); try discriminate; try (destruct L; discriminate); rewrite <- L in *; auto).
Qed.
Lemma cok_hasl : forall c p q a r, hasl p = false -> cok c p q a r.
Proof. intros c p q a r H. destruct p as [| | | | | | | | | | | |[]| | |[]| | |]; simpl in *; auto; discriminate. Qed.

Lemma J_step : forall s g q t p s' q', I n coh s g -> J s q -> thr s' = upd (thr s) t p ->
  (forall d, d <> coh t -> loc s' d = loc s d /\ rel s' d = rel s d /\ acq s' d = acq s d) ->
  (q' = q \/ forall d, d <> coh t -> own g d = false) ->
  (hasl (thr s t) = true \/ rel s' (coh t) = rel s (coh t) /\ acq s' (coh t) = acq s (coh t) /\ q' = q) ->
  cok (coh t) p q' (acq s' (coh t)) (rel s' (coh t)) ->
  (loc s' (coh t) = false -> cok (coh t) L4 q' (acq s' (coh t)) (rel s' (coh t))) ->
  (glob s' = false -> q' = []) ->
  J s' q'.
Proof.
  intros s g q t p s' q' HI HJ E1 E2 E3 E4 E5 E6 E7. constructor; auto.
  - intros u. rewrite E1. destruct (Nat.eq_dec u t) as [->|N]; [rewrite upd_same; auto|]. rewrite upd_other by auto.
    destruct (hasl (thr s u)) eqn:Hu; [|apply cok_hasl; auto].
    destruct (i_l _ _ _ _ HI u Hu) as [_ [L U]].
    destruct (Nat.eq_dec (coh u) (coh t)) as [Ec|Ec].
    + destruct E4 as [E4|[R1 [R2 ->]]].
      * exfalso. apply N. symmetry. apply U; auto.
      * assert (X := j_t _ _ HJ u). rewrite Ec in *. rewrite R1, R2. auto.
    + destruct (E2 _ Ec) as [_ [-> ->]]. assert (X := j_t _ _ HJ u). destruct E3 as [->|E3]; auto.
      eapply cok_q; eauto.
  - intros c Hc. destruct (Nat.eq_dec c (coh t)) as [->|Ec]; auto. destruct (E2 _ Ec) as [Q1 [-> ->]]. rewrite Q1 in Hc.
    assert (X := j_f _ _ HJ c Hc). destruct E3 as [->|E3]; auto. apply (cok_q c L4 q q' _ (own g c) _); auto.
    intros _. simpl. apply (i_f _ _ _ _ HI c Hc).
Qed.

Lemma J_init : J init [].
Proof. constructor; simpl; auto; intros; reflexivity. Qed.

Lemma own_other : forall g c d, own g c = true -> d <> c -> own g d = false.
Proof. intros [x|] c d; simpl; try discriminate. intros E N. apply Nat.eqb_eq in E. subst. apply Nat.eqb_neq. auto. Qed.

Lemma uinc_lt : forall a, (a < 4294967295)%N -> uinc a = (a + 1)%N.
Proof. intros. rewrite uinc_val, N.mod_small; lia. Qed.

Lemma good_cons : forall t q a, good (coh t) q a -> (a < lim (coh t))%N -> good (coh t) (t :: q) (uinc a) /\ (uinc a <= N.max 1 (lim (coh t)))%N.
Proof.
  intros t q a [-> F] L. assert (X := Hlim (coh t)). change (2 ^ 32)%N with 4294967296%N in X. rewrite uinc_lt by lia.
  split; [split; [simpl length; lia|constructor; auto]|lia].
Qed.

Lemma J_tstep : forall s g q l s' q' ev, I n coh s g -> J s q -> tstep n coh lim (s, q) l = Some ((s', q'), ev) -> J s' q'.
Proof.
  intros s g q [t a] s' q' ev HI HJ Hs. unfold tstep in Hs. simpl fst in Hs. simpl snd in Hs.
  destruct (step n coh lim s (t, a)) as [[s1 ev1]|] eqn:E; [|discriminate]. injection Hs as <- <- <-.
  unfold step in E. destruct (Nat.ltb_spec t n) as [Hlt|]; [|discriminate]. cbn [negb] in E.
  assert (HL := i_l _ _ _ _ HI t). assert (HG := i_g _ _ _ _ HI). assert (Jt := j_t _ _ HJ t). assert (Jf := j_f _ _ HJ (coh t)). assert (J0 := j_0 _ _ HJ).
  assert (LIM := Hlim (coh t)). change (2 ^ 32)%N with 4294967296%N in LIM.
  assert (G0 : glob s = false -> forall d, d <> coh t -> own g d = false) by (intros X d _; rewrite X in HG; destruct g; [discriminate|auto]).
  assert (Q0 : (if glob s then q else []) = q) by (destruct (glob s) eqn:X; auto; symmetry; auto).
  destruct (thr s t) as [| | | | | | | | | | | |gf| | |r| | |] eqn:Et; destruct a; try discriminate;
  cbn iota in E;
  repeat match type of E with Some (if ?b then _ else _) = _ => destruct b eqn:? | (if ?b then _ else _) = _ => destruct b eqn:? end;
  try destruct gf; try destruct r;
  injection E as <- <-; simpl glob; simpl acquirers; simpl app.
  all: try (assert (HL' := HL eq_refl); destruct HL' as [H1 [H2 H3]]; cbn in H2).
  all: try match goal with H : glob ?x = true |- _ => rewrite H in * | H : glob ?x = false |- _ => rewrite H in * end.
  all: try rewrite Q0.
  all: match goal with HI : I _ _ _ _, HJ : J _ _, Et : thr _ ?u = _ |- _ => eapply (J_step _ _ _ u); [exact HI|exact HJ|reflexivity|cbn; intros d Hd; rewrite ?upd_other by auto; auto|..]; cbn; rewrite ?upd_same, ?Et end.
  all: try (left; reflexivity). all: try (right; repeat split; reflexivity). all: auto.
  all: try discriminate.
  all: try match goal with Jf : loc _ _ = false -> _ |- _ = false -> _ => let X := fresh in intros X; first [exact (Jf X)|congruence|exact I|rewrite X in *; discriminate] end.
  - intros X. congruence.
  - apply Jf. auto.
  - right. intros d Hd. simpl in Jt. apply (own_other g (coh t)); auto; congruence.
  - simpl in Jt. try rewrite Heqb in *. replace (glob s) with true by (rewrite HG; destruct g; auto; discriminate). destruct Jt. apply good_cons; auto.
  - try rewrite Heqb in *. destruct g; [congruence|discriminate].
  - simpl in Jt. rewrite Jt, J0 by auto. split; [split; [reflexivity|auto]|]. rewrite uinc_lt by lia. lia.
  - simpl in Jt. destruct Jt as [Jt1 Jt2]. destruct (N.ltb_spec 0 (wait s (coh t))), (N.ltb_spec (acq s (coh t)) (lim (coh t))); simpl; auto.
  - right. intros d Hd. apply (own_other g (coh t)); auto.
  - intros _. simpl in Jt. destruct H2 as [_ ->]. auto.
  - intros _. simpl in Jt. destruct H2 as [_ ->]. auto.
  - intros X. congruence.
  - apply Jf. auto.
  - right. intros d Hd. simpl in Jt. apply (own_other g (coh t)); auto; congruence.
  - simpl in Jt. try rewrite Heqb in *. replace (glob s) with true by (rewrite HG; destruct g; auto; discriminate). destruct Jt. apply good_cons; auto.
  - try rewrite Heqb in *. destruct g; [congruence|discriminate].
  - simpl in Jt. rewrite Jt, J0 by auto. split; [split; [reflexivity|auto]|]. rewrite uinc_lt by lia. lia.
  - intros _. simpl in Jt. destruct H2 as [_ ->]. auto.
Qed.

Lemma J_run : forall ls s q log, run (tstep n coh lim) (init, []) ls = Some ((s, q), log) -> J s q.
Proof.
  intros ls s q log H.
  assert (G : forall ls x y log h, R n coh (fst x) h -> J (fst x) (snd x) -> run (tstep n coh lim) x ls = Some (y, log) -> J (fst y) (snd y)).
  { induction ls0 as [|l ls0 IH]; intros x y lg h HR HJ E; simpl in E.
    - injection E as <- <-. auto.
    - destruct (tstep n coh lim x l) as [[x1 ev]|] eqn:E1; [|discriminate].
      destruct (run (tstep n coh lim) x1 ls0) as [[x2 lg2]|] eqn:E2; [|discriminate]. injection E as <- <-.
      assert (E1' := E1). unfold tstep in E1'. destruct (step n coh lim (fst x) l) as [[s1 ev1]|] eqn:E3; [|discriminate]. injection E1' as E4 E5.
      destruct (R_step n coh lim Hn _ _ _ _ _ HR E3) as [a' [_ HR']].
      destruct HR as [g [HI _]]. destruct x as [sx qx], x1 as [sy qy]. injection E4 as <- E6.
      apply (IH (s1, qy) x2 lg2 a'); auto. simpl. simpl in HI, HJ. apply (J_tstep sx g qx l s1 qy ev); auto. }
  apply (G ls (init, []) (s, q) log None); auto. apply R_init. apply J_init.
Qed.

(** a cohort keeps the global lock for at most max 1 limit acquisitions, all its own *)
Lemma pass_bounded : forall ls s q log, run (tstep n coh lim) (init, []) ls = Some ((s, q), log) ->
  forall t, thr s t = Crit -> Forall (fun u => coh u = coh t) q /\ (N.of_nat (length q) <= N.max 1 (lim (coh t)))%N.
Proof.
  intros ls s q log H t E. assert (X := j_t _ _ (J_run _ _ _ _ H) t). rewrite E in X. destruct X as [[X1 X2] X3]. split; auto. congruence.
Qed.
(** the decision in unlock: pass on within the cohort exactly if somebody is counted as
    waiting and the cohort acquired the lock fewer than limit times *)
Lemma pass_decides : forall ls s q log, run (tstep n coh lim) (init, []) ls = Some ((s, q), log) ->
  forall t, t < n -> thr s t = U1 -> exists s', step n coh lim s (t, ATick) = Some (s', []) /\ (thr s' t = U2 <-> (0 < wait s (coh t))%N /\ (N.of_nat (length q) < lim (coh t))%N) /\ (thr s' t = U2 \/ thr s' t = U3).
Proof.
  intros ls s q log H t Ht E. assert (X := j_t _ _ (J_run _ _ _ _ H) t). rewrite E in X. destruct X as [[X1 X2] X3].
  eexists. unfold step. destruct (Nat.ltb_spec t n); [|lia]. cbn [negb]. rewrite E. split; [reflexivity|]. simpl. rewrite upd_same, X1.
  destruct (N.ltb_spec 0 (wait s (coh t))), (N.ltb_spec (N.of_nat (length q)) (lim (coh t))); simpl; split; auto; split; auto; try discriminate; intros [A B]; lia.
Qed.
End P.
