(** Lock-freedom of ck_hp_fifo. *)
From Coq Require Import Arith List Bool Lia.
From Verif Require Import Lib Lin LockFree_Spec LockFree_Proof LfHpFifo_Spec Obs LinPast Hp_Model Hp_Spec HpClient_Model HpFifo_Model HpFifo_Spec HpFifo_Proof Stack_Spec.
From Verif Require FifoMp_Model.
Import ListNotations.


Section Pot.
Variable s : fstt.
Definition pot (p : fpc) : nat :=
  match p with
  | FIdle => 0
  | Q1 _ _ _ _ => 9 | Q2 _ _ _ _ => 8 | Q3 _ _ _ _ => 7
  | Q4 _ _ _ _ p => if Nat.eqb (ft s) p then 6 else 9
  | Q5 _ _ _ _ p => if Nat.eqb (ft s) p then 5 else 8
  | Q6 _ _ _ _ p => if Nat.eqb (ft s) p then 4 else 10
  | Q7 _ _ _ p x => if Nat.eqb (ft s) p && Nat.eqb (nx s p) x then 3 else 9
  | Q8 _ _ _ _ p x => if Nat.eqb (ft s) p then 2 else 8
  | Q9 _ _ _ _ p => if Nat.eqb (nx s p) 0 then 2 else 8
  | Q10 _ _ _ _ => 1
  | K1 _ _ => 9
  | K2 _ h => if Nat.eqb (fh s) h then 8 else 11
  | K3 _ h => if Nat.eqb (fh s) h then 7 else 10
  | K4 _ h => if Nat.eqb (fh s) h then 6 else 14
  | J2 _ _ => 8 | J3 _ _ _ => 7 | J4 _ _ _ => 6
  | K5 b _ h tl => if b || (Nat.eqb (fh s) h && (negb (Nat.eqb h tl) || Nat.eqb (ft s) h)) then 5 else 13
  | K6 b _ h tl _ => if b || (Nat.eqb (fh s) h && (negb (Nat.eqb h tl) || Nat.eqb (ft s) h)) then 4 else 12
  | K7 b _ h tl _ => if b || (Nat.eqb (fh s) h && (negb (Nat.eqb h tl) || Nat.eqb (ft s) h)) then 3 else 11
  | K8 b _ h _ => if b || Nat.eqb (ft s) h then 2 else 10
  | K9 b _ h _ => if b || Nat.eqb (fh s) h then 2 else 10
  | KA _ _ _ => 1
  | Ke1 _ => 2 | Ke2 _ => 1
  end.
End Pot.
Lemma pot_max : forall s p, pot s p <= 14.
Proof. intros. unfold pot. destruct p; try lia; repeat match goal with |- context [if ?b then _ else _] => destruct b end; lia. Qed.
Lemma pot_min : forall s p, p <> FIdle -> 1 <= pot s p.
Proof. intros. unfold pot. destruct p; try congruence; try lia; repeat match goal with |- context [if ?b then _ else _] => destruct b end; lia. Qed.
Definition looks (p : fpc) (x : nat) : Prop := match p with Q7 _ _ _ p _ | Q9 _ _ _ _ p => p = x | _ => False end.
Lemma pot_same : forall s s' p, fh s' = fh s -> ft s' = ft s -> (forall x, looks p x -> nx s' x = nx s x) -> pot s' p = pot s p.
Proof. intros s s' p H1 H2 H5. unfold pot. rewrite H1, H2. destruct p; auto; rewrite (H5 _ eq_refl); auto. Qed.

Lemma chain_uni : forall nx q h q', chainp nx h q -> chainp nx h q' -> q = q'.
Proof.
  induction q as [|x q IH]; intros h [|y q'] C D; auto.
  - cbn in C, D. destruct D as [E [N _]]. congruence.
  - cbn in C, D. destruct C as [E [N _]]. congruence.
  - cbn in C, D. destruct C as [-> [N C]]. destruct D as [<- [_ D]]. f_equal. eauto.
Qed.

Section Lf.
Variable c : fcfg.
Variable t : nat.
Definition Inv (s : fstt) : Prop := exists g a w q, SI c s g a w q.
(** the entries behind the tail *)
Definition behind (s : fstt) (m : list nat) : Prop := exists l, chainp (nx s) (fh s) (l ++ ft s :: m).
Definition R (s : fstt) (k : nat) : Prop := exists m, behind s m /\ k = pot s (fp s t) + 15 * length m.
Definition gain (log : list fevt) : nat := 10 * calls t (lin_of log) + 30 * effects chg (lin_of log).
Lemma gain_app : forall a b, gain (a ++ b) = gain a + gain b.
Proof. intros. unfold gain, calls, effects. rewrite lin_app, !count_app. lia. Qed.

Definition quiet (s s' : fstt) (u : nat) : Prop :=
  fh s' = fh s /\ ft s' = ft s /\ forall x, nx s' x = nx s x \/ pushing (fp s u) = Some x.
Definition swung (s s' : fstt) : Prop := fh s' = fh s /\ nx s' = nx s /\ ft s' = nx s (ft s) /\ ft s' <> 0.
Definition linked (s s' : fstt) (q : list nat) : Prop :=
  fh s' = fh s /\ ft s' = ft s /\ exists p e, nx s' = upd (nx s) p e /\ nx s p = 0 /\ In p (fh s :: q) /\ ~ In e (fh s :: q) /\ e <> 0 /\ nx s e = 0.
Definition popped (s s' : fstt) : Prop := ft s <> fh s /\ fh s' = nx s (fh s) /\ ft s' = ft s /\ nx s' = nx s.

Lemma swing : forall s p x, nx s p = x -> x <> 0 -> if Nat.eqb (ft s) p then swung s (cas_tail s p x) else cas_tail s p x = s.
Proof.
  intros s p x H N. unfold cas_tail. destruct (Nat.eqb_spec (ft s) p) as [E|]; auto. subst p. repeat split; auto.
Qed.
Lemma lin_HE' : forall ev r, lin_of (map HE ev ++ r) = lin_of r.
Proof. induction ev; simpl; auto. Qed.

Ltac split_if H :=
  repeat match type of H with
         | context [client ?a ?b ?d ?e] => destruct (client a b d e) as [[? ?]|] eqn:?
         | context [if ?b then _ else _] => destruct b eqn:?
         | context [match ?b with Some _ => _ | None => _ end] => destruct b as [[? ?]|] eqn:?
         end.
Lemma own_step : forall s g a w q u x s' e, SI c s g a w q -> fstep c s (u, x) = Some (s', e) ->
  (swung s s' /\ fp s u <> FIdle) \/
  (1 <= effects chg (lin_of e) /\ fp s u <> FIdle /\ (linked s s' q \/ popped s s')) \/
  (quiet s s' u /\ (opact x = true -> pot s' (fp s' u) + 1 <= pot s (fp s u) + 10 * calls u (lin_of e)) /\ (opact x = false -> fp s' u = fp s u)).
Proof.
  intros s g a w q u x s' e HS H. unfold fstep in H. destruct x as [x|b r e0 v|b r|].
  - destruct (fp s u) eqn:Eu; try discriminate. split_if H; try discriminate. injection H as <- <-. right; right. split; [repeat split; auto|]. split; [discriminate|]. simpl. auto.
  - destruct (fp s u) eqn:Eu; try discriminate. unfold call in H. split_if H; try discriminate; injection H as <- <-; right; right; (split; [repeat split; auto|]); (split; [|discriminate]);
      intros _; simpl; rewrite upd_same; unfold calls, count; simpl; rewrite Nat.eqb_refl; simpl; lia.
  - destruct (fp s u) eqn:Eu; try discriminate. unfold call in H. split_if H; try discriminate; injection H as <- <-; right; right; (split; [repeat split; auto|]); (split; [|discriminate]);
      intros _; simpl; rewrite upd_same; unfold calls, count; simpl; rewrite Nat.eqb_refl; simpl; lia.
  - pose proof (s_th _ _ _ _ _ _ HS u) as T. unfold TI in T. unfold tick, slot, again, dagain in H.
    assert (QQ : forall q, quiet s (go s u q) u) by (intros; repeat split; auto).
    assert (Q2' : forall q e, quiet s (give (go s u q) e Own) u) by (intros; repeat split; auto).
    assert (Q3' : forall q x, quiet s (go (set_cs s x) u q) u) by (intros; repeat split; auto).
    destruct (fp s u) as [|b r e0 v|b r e0 v|b r e0 v|b r e0 v p|b r e0 v p|b r e0 v p|r e0 v p x|b r e0 v p x|b r e0 v p|b r e0 p|b r|r h|r h|r h|r h|r h tl|r h tl|b r h tl|b r h tl x|b r h tl x|b r h x|b r h x|r h x|r|r] eqn:Eu; [discriminate|..].
    all: try (split_if H; try discriminate; injection H as <- <-; right; right; (split; [first [apply QQ|apply Q2'|apply Q3']|]); (split; [|discriminate]); intros _;
      cbn [go give set_cs fp]; rewrite upd_same; cbn [pot]; cbn [go give set_cs fh ft nx fp]; rewrite ?Nat.eqb_refl, ?orb_true_r; simpl;
      repeat match goal with |- context [if ?z then _ else _] => destruct z eqn:? end; simpl in *; try discriminate; try lia; fail).
    + injection H as <- <-. right; right. split; [repeat split; auto|]. split; [|discriminate]. intros _. cbn [go fp]. rewrite upd_same. simpl. lia.
    + injection H as <- <-. right; right. split; [|split; [|discriminate]; intros _; cbn [go fp]; rewrite upd_same; simpl; lia].
      refine (conj _ (conj _ _)); auto. intros x. cbn [go set_nx nx]. destruct (Nat.eq_dec x e0) as [->|Hx]; [right; rewrite Eu; auto|left; rewrite upd_other; auto].
    + destruct (Nat.eqb (ft s) p) eqn:Ep; injection H as <- <-; right; right; (split; [apply QQ|]); (split; [|discriminate]); intros _; cbn [go fp]; rewrite upd_same.
      * cbn [pot]. rewrite Ep. simpl. destruct (Nat.eqb x 0) eqn:Ex; cbn [pot go nx ft]; rewrite ?Ep; [apply Nat.eqb_eq in Ex; subst x|]; destruct (Nat.eqb (nx s p) _); simpl; lia.
      * cbn [pot]. rewrite Ep. simpl. lia.
    + destruct T as [_ [_ [_ [_ [T1 T2]]]]]. pose proof (swing s p x T1 T2) as W. cbn [pot]. destruct (Nat.eqb (ft s) p).
      * left. split; [|congruence]. destruct b; injection H as <- <-; exact W.
      * rewrite W in H. destruct b; injection H as <- <-; right; right; (split; [first [apply QQ|apply Q2']|]); (split; [|discriminate]); intros _; cbn [go give set_cs fp]; rewrite upd_same; simpl; lia.
    + destruct (Nat.eqb (nx s p) 0) eqn:Ex.
      * injection H as <- <-. right; left. split; [unfold effects, count; destruct b; simpl; lia|]. split; [congruence|]. left.
        destruct T as [[[F1 [F2 [F3 F4]]] _] [_ [T2 [_ [_ [_ [_ [_ T3]]]]]]]]. apply Nat.eqb_eq in Ex. destruct T3 as [T3|T3]; [|congruence].
        split; [auto|]. split; [auto|]. exists p, e0. repeat split; auto.
      * destruct b; injection H as <- <-; right; right; (split; [first [apply QQ|apply Q2']|]); (split; [|discriminate]); intros _; cbn [go give set_cs fp]; rewrite upd_same; cbn [pot]; rewrite Ex; simpl; lia.
    + destruct T as [_ [T1 T2]]. pose proof (swing s p e0 T1 T2) as W. injection H as <- <-. cbn [pot]. destruct (Nat.eqb (ft s) p).
      * left. split; [exact W|congruence].
      * rewrite W. right; right; (split; [apply QQ|]); (split; [|discriminate]); intros _; cbn [go give set_cs fp]; rewrite upd_same; simpl; lia.
    + injection H as <- <-. right; right. (split; [apply QQ|]); (split; [|discriminate]); intros _; cbn [go fp]; rewrite upd_same. cbn [pot go fh ft]. simpl.
      destruct (Nat.eqb (fh s) h); simpl; [|lia]. rewrite (Nat.eqb_sym (ft s) h). destruct (Nat.eqb h (ft s)); simpl; lia.
    + cbn [pot]. destruct b, (Nat.eqb (fh s) h) eqn:Eh, (Nat.eqb h tl) eqn:El, (Nat.eqb x 0), (Nat.eqb (ft s) h) eqn:Ef; injection H as <- <-;
        right; right; (split; [apply QQ|]); (split; [|discriminate]); intros _; cbn [go fp]; rewrite upd_same; cbn [pot go ft fh]; rewrite ?Eh, ?Ef; simpl; lia.
    + destruct T as [_ [T1 T2]]. pose proof (swing s h x T1 T2) as W. cbn [pot]. destruct (Nat.eqb (ft s) h).
      * left. split; [|congruence]. destruct b; injection H as <- <-; exact W.
      * rewrite W in H. destruct b; injection H as <- <-; right; right; (split; [first [apply QQ|apply Q2']|]); (split; [|discriminate]); intros _; cbn [go give set_cs fp]; rewrite upd_same; simpl; lia.
    + destruct (Nat.eqb (fh s) h) eqn:Eh.
      * injection H as <- <-. right; left. split; [unfold effects, count; simpl; lia|]. split; [congruence|]. right. apply Nat.eqb_eq in Eh. destruct T as [_ [_ [T1 [T2 _]]]].
        subst h. repeat split; auto.
      * destruct b; injection H as <- <-; right; right; (split; [first [apply QQ|apply Q2']|]); (split; [|discriminate]); intros _; cbn [go give set_cs fp]; rewrite upd_same; cbn [pot]; rewrite Eh; simpl; lia.
Qed.

Lemma others : forall s u x s' e, fstep c s (u, x) = Some (s', e) -> t <> u -> fp s' t = fp s t.
Proof.
  intros s u x s' e H Hn. unfold fstep in H. destruct x as [x|b r e0 v|b r|].
  - destruct (fp s u); try discriminate. split_if H; try discriminate. injection H as <- <-. auto.
  - destruct (fp s u); try discriminate. unfold call in H. split_if H; try discriminate; injection H as <- <-; simpl; apply upd_other; auto.
  - destruct (fp s u); try discriminate. unfold call in H. split_if H; try discriminate; injection H as <- <-; simpl; apply upd_other; auto.
  - unfold tick, slot, again, dagain, cas_tail in H. destruct (fp s u); split_if H; try discriminate; injection H as <- <-; simpl; apply upd_other; auto.
Qed.

Lemma R_step : forall s l s' e k, Inv s -> Inv s' -> R s k -> fstep c s l = Some (s', e) ->
  exists k', R s' k' /\ k' + (if Nat.eqb (fst l) t && opact (snd l) then 1 else 0) <= k + gain e.
Proof.
  intros s [u x] s' e k [g [a [w [q HS]]]] _ [m [[l0 HC] ->]] H. cbn [fst snd].
  assert (EQ : l0 ++ ft s :: m = fh s :: q) by (eapply chain_uni; [exact HC|apply HS]).
  pose proof (own_step _ _ _ _ _ _ _ _ _ HS H) as K. pose proof (pot_max s' (fp s' t)) as M1. unfold gain.
  assert (X : u = t -> fp s u <> FIdle -> 1 <= pot s (fp s t)) by (intros -> X; apply pot_min; auto).
  destruct K as [[[K1 [K2 [K3 K4]]] K5]|[[K0 [K5 K]]|[[K1 [K2 K3]] [K4 K5]]]].
  - destruct m as [|y m].
    + exfalso. pose proof HC as HC'. clear - HC' K3 K4. assert (Z : forall l h, chainp (nx s) h (l ++ [ft s]) -> nx s (ft s) = 0).
      { induction l as [|y l IH]; intros h C; cbn in C; [apply C|destruct C as [_ [_ C]]; eauto]. }
      rewrite (Z _ _ HC') in K3. auto.
    + assert (Y : ft s' = y).
      { rewrite K3. clear - HC. revert HC. generalize (fh s). induction l0 as [|z l0 IH]; intros h C; cbn in C; [apply C|destruct C as [_ [_ C]]; eauto]. }
      exists (pot s' (fp s' t) + 15 * length m). split.
      * exists m. split; auto. exists (l0 ++ [ft s]). rewrite K1, K2, Y, <- app_assoc. exact HC.
      * cbn [length]. destruct (Nat.eqb_spec u t) as [E|E]; simpl; [|lia]. specialize (X E K5). destruct (opact x); lia.
  - assert (B : exists m', behind s' m' /\ length m' <= length m + 1).
    { destruct K as [[K1 [K2 [p [e1 [K3 [K4 [K6 [K7 [K8 K9]]]]]]]]]|[K1 [K2 [K3 K4]]]].
      - exists (m ++ [e1]). rewrite app_length. simpl. split; [|lia]. exists l0. rewrite K1, K2, K3.
        destruct (chain_last _ _ _ _ (s_ch _ _ _ _ _ _ HS) K6 K4) as [l1 E1].
        assert (Z : l0 ++ ft s :: m ++ [e1] = l1 ++ [p; e1]).
        { change (l0 ++ (ft s :: m) ++ [e1] = l1 ++ [p] ++ [e1]). rewrite !app_assoc, EQ, E1. auto. }
        rewrite Z. apply chain_snoc; auto; rewrite <- E1; auto; apply HS.
      - exists m. split; [|lia]. destruct l0 as [|z l0].
        + simpl in EQ. injection EQ as EQ _. congruence.
        + simpl in EQ. injection EQ as -> EQ. exists l0. rewrite K2, K3, K4. cbn in HC. apply HC. }
    destruct B as [m' [B1 B2]]. exists (pot s' (fp s' t) + 15 * length m'). split; [exists m'; auto|].
    destruct (Nat.eqb_spec u t) as [E|E]; simpl; [|lia]. specialize (X E K5). destruct (opact x); lia.
  - assert (B : behind s' m).
    { exists l0. rewrite K1, K2. apply chainp_ext with (nx := nx s); auto. intros y Hy. destruct (K3 y) as [Z|Z]; auto. exfalso.
      destruct (TI_fresh _ _ _ _ _ _ _ _ (s_th _ _ _ _ _ _ HS u) Z) as [_ [_ [_ F]]]. rewrite EQ in Hy. auto. }
    exists (pot s' (fp s' t) + 15 * length m). split; [exists m; auto|].
    assert (PS : fp s' t = fp s t -> pot s' (fp s' t) = pot s (fp s t)).
    { intros ->. apply pot_same; auto. intros y Hy. destruct (K3 y) as [Z|Z]; auto. exfalso. pose proof (s_th _ _ _ _ _ _ HS t) as T. unfold TI in T.
      destruct (fp s t); cbn in Hy; try contradiction; subst; destruct T as [_ [_ [_ T]]].
      - destruct T as [T _]. apply T in Z. auto.
      - apply T in Z. auto. }
    destruct (Nat.eqb_spec u t) as [->|E]; simpl.
    + destruct (opact x); [specialize (K4 eq_refl); lia|]. rewrite (PS (K5 eq_refl)). lia.
    + rewrite PS; [lia|]. eapply others; eauto.
Qed.
Lemma lockfree : forall z, reent (hpc c) = false -> z <> 0 -> forall ls s log, strict c = true \/ nt c = 0 \/ NoDup (z :: given ls) ->
  run (fstep c) (finit z) ls = Some (s, log) -> steps_of opact t ls <= 10 * calls t (lin_of log) + 30 * effects chg (lin_of log).
Proof.
  intros z Hr Hz ls s log HD H.
  destruct (potential_rel _ _ _ (fstep c) (finit z) (fun ls => strict c = true \/ nt c = 0 \/ NoDup (z :: given ls)) Inv R (fun l => Nat.eqb (fst l) t && opact (snd l)) gain) with (ls := ls) (s := s) (log := log) as [k [_ K]]; auto.
  - apply gain_app.
  - intros a b [D|[D|D]]; auto. right; right. rewrite given_app, app_comm_cons in D. clear - D. induction (z :: given a) as [|x l IH]; [constructor|].
    simpl in D. inversion D; subst. constructor; auto. intros I. apply H1. apply in_or_app. auto.
  - intros ls' s' log' D H'. destruct (hf_run c z Hr Hz ls' s' log' D H') as [a [q [_ [_ [_ I]]]]]. unfold Inv. eauto.
  - exists []. split; [exists []; cbn; auto|reflexivity].
  - intros. exact (R_step _ _ _ _ _ H0 H1 H2 H3).
  - unfold steps_of, gain in *. lia.
Qed.
End Lf.
