(** Lock-freedom of ck_fifo_mpmc. *)
From Coq Require Import NArith Arith List Bool Lia.
From Verif Require Import Lib Lin LockFree_Spec LockFree_Proof LfFifo_Spec Stack_Proof FifoSp_Proof FifoMp_Model FifoMp_Proof.
Import ListNotations.


Definition oeqb (a b : option nat) : bool := match a, b with Some x, Some y => Nat.eqb x y | None, None => true | _, _ => false end.
Definition isn (a : option nat) : bool := match a with None => true | _ => false end.
Section Pot.
Variable s : mst.
Definition tf (p : nat) (g : N) : bool := Nat.eqb (tp s) p && N.eqb (tg s) g.
Definition hf (h : nat) (g : N) : bool := Nat.eqb (hp s) h && N.eqb (hg s) g.
(** how many steps a thread needs before it ends or changes the queue *)
Definition pot (p : mpc) : nat :=
  match p with
  | PIdle => 0
  | Q1 _ _ _ => 10 | Q2 _ _ _ => 9 | Q3 _ _ _ => 8 | Q4 _ _ _ => 7
  | Q5 _ _ _ g => if N.eqb (tg s) g then 6 else 12
  | Q6 _ _ _ g p => if tf p g then 5 else 11
  | Q7 _ _ _ g p n => if tf p g && N.eqb (ng s p) n then 4 else 10
  | Q8 _ _ _ g p n x => if tf p g && N.eqb (ng s p) n && oeqb (nx s p) x then 3 else 9
  | Q9 _ _ _ g p x => if tf p g then 2 else 8
  | Q10 _ _ _ g p n => if isn (nx s p) && N.eqb (ng s p) n then 2 else 8
  | Q11 _ _ _ _ => 1
  | K1 _ => 8
  | K2 _ g => if N.eqb (hg s) g then 7 else 15
  | K3 _ g h => if hf h g then 6 else 14
  | K4 _ g h tg0 => if hf h g && N.eqb (tg s) tg0 then 5 else 13
  | K5 _ g h tg0 tp0 => if hf h g && tf tp0 tg0 then 4 else 12
  | K6 _ g h tg0 tp0 => if hf h g && tf tp0 tg0 then 3 else 11
  | K7 _ h x tg0 => if tf h tg0 then 2 else 9
  | K8 _ g h x => if hf h g then 2 else 10
  | K9 _ g h x v => if hf h g then 1 else 9
  end.
Definition lag : nat := match nx s (tp s) with Some _ => 15 | None => 0 end.
End Pot.
Lemma pot_max : forall s p, pot s p <= 15.
Proof. intros. unfold pot. destruct p; try lia; repeat match goal with |- context [if ?b then _ else _] => destruct b end; lia. Qed.
Lemma pot_min : forall s p, p <> PIdle -> 1 <= pot s p.
Proof. intros. unfold pot. destruct p; try congruence; try lia; repeat match goal with |- context [if ?b then _ else _] => destruct b end; lia. Qed.
Lemma lag_max : forall s, lag s <= 15.
Proof. intros. unfold lag. destruct (nx s (tp s)); lia. Qed.

(** what a thread looks at *)
Definition looks (p : mpc) (x : nat) : Prop :=
  match p with Q7 _ _ _ _ p _ | Q8 _ _ _ _ p _ _ | Q10 _ _ _ _ p _ => p = x | _ => False end.
Lemma pot_same : forall s s' p, hp s' = hp s -> hg s' = hg s -> tp s' = tp s -> tg s' = tg s ->
  (forall x, looks p x -> nx s' x = nx s x /\ ng s' x = ng s x) -> pot s' p = pot s p.
Proof.
  intros s s' p H1 H2 H3 H4 H5. unfold pot, tf, hf. rewrite H1, H2, H3, H4.
  destruct p; auto; destruct (H5 _ eq_refl) as [E1 E2]; rewrite ?E1, ?E2; auto.
Qed.

Section Lf.
Variable n t : nat.
Definition gain (log : list mev) : nat := 11 * calls t log + 30 * effects chg log.
Lemma gain_app : forall a b, gain (a ++ b) = gain a + gain b.
Proof. intros. unfold gain, calls, effects. rewrite !count_app. lia. Qed.
Definition P (s : mst) : nat := pot s (thr s t) + lag s.

Lemma swing : forall s b p g x, MR n s b -> nx s p = Some x ->
  if tf s p g then lag s = 15 /\ lag (cas_tail s p g x) = 0 else cas_tail s p g x = s.
Proof.
  intros s b p g x H Hx. unfold cas_tail, tf. destruct (Nat.eqb_spec (tp s) p) as [Ep|]; [|reflexivity]. destruct (N.eqb (tg s) g); [|reflexivity]. simpl.
  unfold lag. simpl. rewrite Ep, Hx. split; auto. subst p. destruct (tl_next _ _ _ _ H Hx) as [l El].
  pose proof (MR_chain _ _ _ H) as C. rewrite El in C. change ([tp s; x]) with ([tp s] ++ [x]) in C. rewrite app_assoc in C.
  rewrite (chain_last _ _ _ _ C). auto.
Qed.
Definition quiet (s s' : mst) (u : nat) : Prop :=
  hp s' = hp s /\ hg s' = hg s /\ tp s' = tp s /\ tg s' = tg s /\
  forall x, (nx s' x = nx s x /\ ng s' x = ng s x) \/ prep (thr s u) = Some x.
Lemma oeqb_refl : forall a, oeqb a a = true.
Proof. destruct a; simpl; auto. apply Nat.eqb_refl. Qed.
(** unless the queue changes, a step lowers the potential of its thread *)
Lemma own_step : forall s b u a s' e, MR n s b -> mstep n s (u, a) = Some (s', e) ->
  (lag s = 15 /\ lag s' = 0) \/ 1 <= effects chg e \/
  (quiet s s' u /\ pot s' (thr s' u) + 1 <= pot s (thr s u) + 11 * calls u e).
Proof.
  intros s b u a s' e HR H. unfold mstep in H. destruct (negb (Nat.ltb u n)); [discriminate|]. destruct a as [o|].
  - destruct (thr s u) eqn:Et; try discriminate. right; right. unfold mcall in H. unfold calls, count.
    destruct o; repeat match type of H with context [if ?b then _ else _] => destruct b end; try discriminate; injection H as <- <-;
      cbn [set_own go thr filter length]; rewrite upd_same, ?Nat.eqb_refl; (split; [repeat split; auto|simpl; lia]).
  - pose proof (MR_ti _ _ _ HR u) as T. unfold mtick, again, dagain in H.
    assert (QQ : forall q, quiet s (go s u q) u) by (intros; repeat split; auto).
    assert (Q2' : forall q x, quiet s (set_own (go s u q) x true) u) by (intros; repeat split; auto).
    destruct (thr s u) as [|c e0 v|c e0 v|c e0 v|c e0 v|c e0 v g|c e0 v g p|c e0 v g p m|c e0 v g p m x|c e0 v g p x|c e0 v g p m|c e0 g p|c|c g|c g h|c g h g'|c g h g' p|c g h g' p|c h x g'|c g h x|c g h x v] eqn:Et;
      cbn [TI] in T; [discriminate|..].
    all: try (injection H as <- <-; right; right; split; [apply QQ|cbn [go thr]; rewrite upd_same; cbn [pot]; unfold tf, hf; cbn [go tp tg hp hg nx ng];
      rewrite ?Nat.eqb_refl, ?N.eqb_refl, ?oeqb_refl; repeat match goal with |- context [if ?z then _ else _] => destruct z eqn:? end; simpl in *; try discriminate; lia]; fail).
    + injection H as <- <-. right; right. split; [repeat split; auto|]. cbn [go thr]. rewrite upd_same. simpl. lia.
    + injection H as <- <-. right; right. split; [|cbn [go thr]; rewrite upd_same; simpl; lia]. refine (conj _ (conj _ (conj _ (conj _ _)))); auto.
      intros x. cbn [go set_nx nx ng]. destruct (Nat.eq_dec x e0) as [->|Hx]; [right; rewrite Et; auto|left; rewrite upd_other; auto].
    + injection H as <- <-. right; right. split; [|cbn [go thr]; rewrite upd_same; simpl; lia]. refine (conj _ (conj _ (conj _ (conj _ _)))); auto.
      intros x. cbn [go set_ng nx ng]. destruct (Nat.eq_dec x e0) as [->|Hx]; [right; rewrite Et; auto|left; rewrite upd_other; auto].
    + cbn [pot]. unfold tf. destruct (N.eqb (tg s) g) eqn:Eg.
      * destruct x as [y|]; injection H as <- <-; right; right; (split; [apply QQ|]); cbn [go thr]; rewrite upd_same; cbn [pot]; unfold tf; cbn [go tp tg nx ng]; rewrite ?Eg.
        -- destruct (Nat.eqb (tp s) p), (N.eqb (ng s p) m), (oeqb (nx s p) (Some y)); simpl; lia.
        -- destruct (nx s p); destruct (Nat.eqb (tp s) p), (N.eqb (ng s p) m); simpl; lia.
      * rewrite andb_false_r. simpl. destruct c; injection H as <- <-; right; right; (split; [first [apply QQ|apply Q2']|]); cbn [go set_own thr]; rewrite upd_same; simpl; lia.
    + destruct T as [_ [_ [_ T]]]. pose proof (swing s b p g x HR T) as W. cbn [pot]. destruct (tf s p g).
      * left. destruct c; injection H as <- <-; exact W.
      * rewrite W in H. destruct c; injection H as <- <-; right; right; (split; [first [apply QQ|apply Q2']|]); cbn [go set_own thr]; rewrite upd_same; simpl; lia.
    + destruct (nx s p) as [y|] eqn:Ex; [|destruct (N.eqb (ng s p) m) eqn:Em].
      * destruct c; injection H as <- <-; right; right; (split; [first [apply QQ|apply Q2']|]); cbn [go set_own thr]; rewrite upd_same; cbn [pot]; rewrite Ex; simpl; lia.
      * injection H as <- <-. right; left. unfold effects, count. destruct c; simpl; lia.
      * destruct c; injection H as <- <-; right; right; (split; [first [apply QQ|apply Q2']|]); cbn [go set_own thr]; rewrite upd_same; cbn [pot]; rewrite Ex, Em; simpl; lia.
    + destruct T as [_ T]. pose proof (swing s b p g e0 HR T) as W. injection H as <- <-. destruct (tf s p g); [left; exact W|].
      rewrite W. right; right. split; [apply QQ|]. cbn [go thr]. rewrite upd_same. simpl. lia.
    + injection H as <- <-. right; right. split; [apply QQ|]. cbn [go thr]. rewrite upd_same. cbn [pot]. unfold tf, hf. cbn [go tp tg hp hg]. rewrite Nat.eqb_refl. simpl.
      destruct (Nat.eqb (hp s) h && N.eqb (hg s) g), (N.eqb (tg s) g'); simpl; lia.
    + destruct (Nat.eqb_spec h p) as [->|Hp]; destruct (nx s _) as [x|] eqn:Ex.
      * injection H as <- <-. right; right. split; [apply QQ|]. cbn [go thr]. rewrite upd_same. cbn [pot]. unfold tf, hf. cbn [go tp tg hp hg].
        destruct (Nat.eqb (hp s) p && N.eqb (hg s) g), (Nat.eqb (tp s) p && N.eqb (tg s) g'); simpl; lia.
      * injection H as <- <-. right; right. split; [apply QQ|]. cbn [go thr]. rewrite upd_same. cbn [pot]. destruct (hf s p g && tf s p g'); simpl; lia.
      * injection H as <- <-. right; right. split; [apply QQ|]. cbn [go thr]. rewrite upd_same. cbn [pot]. unfold tf, hf. cbn [go tp tg hp hg].
        destruct (Nat.eqb (hp s) h && N.eqb (hg s) g), (Nat.eqb (tp s) p && N.eqb (tg s) g'); simpl; lia.
      * exfalso. destruct T as [[_ [T1 T2]] T3]. destruct T1 as [T1|T1]; [|auto]. specialize (T2 T1). specialize (T3 ltac:(auto)).
        destruct (chain_none _ _ _ _ (MR_chain _ _ _ HR) T1 Ex) as [r Er]. pose proof (MR_nd _ _ _ HR) as ND.
        destruct (MR_tl _ _ _ HR) as [l [El|[y El]]]; rewrite Er in El.
        -- apply app_inj_tail in El. destruct El. congruence.
        -- change [tp s; y] with ([tp s] ++ [y]) in El. rewrite app_assoc in El. apply app_inj_tail in El. destruct El as [El _].
           pose proof (MR_chain _ _ _ HR) as C. rewrite Er, El, T2 in C. rewrite Er, El in ND.
           destruct l as [|z l]; cbn [app chain] in C; destruct C as [C _]; injection C as C.
           ++ congruence.
           ++ subst z. cbn [app] in ND. inversion ND as [|? ? N1 _]; subst. apply N1. rewrite !in_app_iff. right. left. auto.
    + destruct T as [_ T]. pose proof (swing s b h g' x HR T) as W. cbn [pot]. destruct (tf s h g').
      * left. destruct c; injection H as <- <-; exact W.
      * rewrite W in H. destruct c; injection H as <- <-; right; right; (split; [first [apply QQ|apply Q2']|]); cbn [go set_own thr]; rewrite upd_same; simpl; lia.
    + cbn [pot]. unfold hf. destruct (Nat.eqb (hp s) h && N.eqb (hg s) g).
      * injection H as <- <-. right; left. unfold effects, count. simpl. lia.
      * destruct c; injection H as <- <-; right; right; (split; [first [apply QQ|apply Q2']|]); cbn [go set_own thr]; rewrite upd_same; simpl; lia.
Qed.

Lemma others : forall s u a s' e, mstep n s (u, a) = Some (s', e) -> t <> u -> thr s' t = thr s t.
Proof.
  intros s u a s' e H Hn. unfold mstep in H. destruct (negb (Nat.ltb u n)); [discriminate|]. destruct a as [o|].
  - destruct (thr s u); try discriminate. unfold mcall in H.
    destruct o; repeat match type of H with context [if ?b then _ else _] => destruct b end; try discriminate; injection H as <- <-; simpl; apply upd_other; auto.
  - unfold mtick, again, dagain, cas_tail in H. destruct (thr s u);
      repeat match type of H with
             | context [if ?b then _ else _] => destruct b
             | context [match ?b with Some _ => _ | None => _ end] => destruct b
             end; try discriminate; injection H as <- <-; simpl; apply upd_other; auto.
Qed.
Lemma busy : forall s u s' e, mstep n s (u, ATick) = Some (s', e) -> thr s u <> PIdle.
Proof. intros s u s' e H E. unfold mstep in H. destruct (negb (Nat.ltb u n)); [discriminate|]. unfold mtick in H. rewrite E in H. discriminate. Qed.
Lemma call_quiet : forall s u o s' e, mstep n s (u, ACall o) = Some (s', e) -> effects chg e = 0 /\ lag s' = lag s.
Proof.
  intros s u o s' e H. unfold mstep in H. destruct (negb (Nat.ltb u n)); [discriminate|]. destruct (thr s u); try discriminate. unfold mcall in H.
  destruct o; repeat match type of H with context [if ?b then _ else _] => destruct b end; try discriminate; injection H as <- <-; split; reflexivity.
Qed.
Lemma P_step : forall s l s' e, (exists b, MR n s b) -> mstep n s l = Some (s', e) ->
  (exists b, MR n s' b) /\ P s' + (if Nat.eqb (fst l) t then 1 else 0) <= P s + gain e.
Proof.
  intros s [u a] s' e [b HR] H. destruct (MR_step n _ _ _ _ _ HR H) as [b' [_ HR']]. split; [eauto|]. cbn [fst].
  pose proof (own_step _ _ _ _ _ _ HR H) as K. pose proof (pot_max s' (thr s' t)) as M1. pose proof (lag_max s') as M2. unfold P, gain.
  assert (X : u = t -> (lag s = 15 /\ lag s' = 0) \/ 1 <= effects chg e -> 1 <= pot s (thr s t)).
  { intros -> X. apply pot_min. destruct a as [o|]; [|eapply busy; eauto]. destruct (call_quiet _ _ _ _ _ H) as [X1 X2]. destruct X; lia. }
  destruct K as [K|[K|[[K1 [K2 [K3 [K4 K5]]]] K]]].
  - destruct (Nat.eqb_spec u t) as [E|E]; [specialize (X E (or_introl K)); lia|lia].
  - destruct (Nat.eqb_spec u t) as [E|E]; [specialize (X E (or_intror K)); lia|lia].
  - assert (L : lag s' = lag s).
    { unfold lag. rewrite K3. destruct (K5 (tp s)) as [[-> _]|Y]; auto. exfalso. apply (MR_pre _ _ _ HR _ _ Y). apply (tp_in _ _ _ HR). }
    rewrite L. destruct (Nat.eqb_spec u t) as [->|E]; [lia|]. rewrite (others _ _ _ _ _ H) by auto.
    rewrite (pot_same s s'); auto; [lia|]. intros x Hx. destruct (K5 x) as [Y|Y]; auto. exfalso.
    pose proof (MR_ti _ _ _ HR t) as T. destruct (thr s t); cbn in Hx; try contradiction; subst; cbn [TI] in T;
      destruct T as [_ [_ T]]; [destruct T as [T _]|destruct T as [[T _] _]|destruct T as [T _]]; apply (T u Y).
Qed.
Lemma lockfree : forall e0 pre s0 l0 ls s log, run (mstep n) (minit e0) pre = Some (s0, l0) -> run (mstep n) s0 ls = Some (s, log) ->
  steps t ls <= 30 + 11 * calls t log + 30 * effects chg log.
Proof.
  intros e0 pre s0 l0 ls s log H0 H.
  assert (I : exists b, MR n s0 b).
  { apply (inv_run _ _ _ (mstep n) (fun s => exists b, MR n s b) (fun _ => True)) with (3 := Forall_true _ pre) (4 := H0).
    - intros. eapply P_step; eauto.
    - exists (mabs0 e0, idle). apply MR_init. }
  pose proof (potential _ _ _ (mstep n) (fun s => exists b, MR n s b) (fun _ => True) P (fun l => Nat.eqb (fst l) t) gain eq_refl gain_app
    (fun s l s' e HI _ => P_step s l s' e HI) ls s0 s log I (Forall_true _ ls) H) as K.
  pose proof (pot_max s0 (thr s0 t)). pose proof (lag_max s0). unfold steps, gain, P in *. lia.
Qed.

Definition trypc (p : mpc) : bool :=
  match p with
  | PIdle => true
  | Q1 b _ _ | Q2 b _ _ | Q3 b _ _ | Q4 b _ _ | Q5 b _ _ _ | Q6 b _ _ _ _ | Q7 b _ _ _ _ _ | Q8 b _ _ _ _ _ _ | Q9 b _ _ _ _ _ | Q10 b _ _ _ _ _ | Q11 b _ _ _
  | K1 b | K2 b _ | K3 b _ _ | K4 b _ _ _ | K5 b _ _ _ _ | K6 b _ _ _ _ | K7 b _ _ _ | K8 b _ _ _ | K9 b _ _ _ _ => b
  end.
Definition tpot (p : mpc) : nat :=
  match p with
  | PIdle => 0
  | Q1 _ _ _ => 10 | Q2 _ _ _ => 9 | Q3 _ _ _ | K1 _ => 8 | Q4 _ _ _ | K2 _ _ => 7 | Q5 _ _ _ _ | K3 _ _ _ => 6 | Q6 _ _ _ _ _ | K4 _ _ _ _ => 5
  | Q7 _ _ _ _ _ _ | K5 _ _ _ _ _ => 4 | Q8 _ _ _ _ _ _ _ | K6 _ _ _ _ _ => 3 | Q9 _ _ _ _ _ _ | Q10 _ _ _ _ _ _ | K7 _ _ _ _ | K8 _ _ _ _ => 2
  | Q11 _ _ _ _ | K9 _ _ _ _ _ => 1
  end.
Definition tgain (log : list mev) : nat := 11 * calls t log.
Lemma tgain_app : forall a b, tgain (a ++ b) = tgain a + tgain b.
Proof. intros. unfold tgain, calls. rewrite count_app. lia. Qed.
Lemma try_step : forall s a s' e, trypc (thr s t) = true -> tryact a -> mstep n s (t, a) = Some (s', e) ->
  trypc (thr s' t) = true /\ tpot (thr s' t) + 1 <= tpot (thr s t) + tgain e.
Proof.
  intros s a s' e Hp Ha H. unfold mstep in H. destruct (negb (Nat.ltb t n)); [discriminate|]. destruct a as [o|].
  - destruct (thr s t) eqn:Et; try discriminate. unfold mcall in H. unfold tgain, calls, count.
    destruct o; try contradiction Ha; repeat match type of H with context [if ?b then _ else _] => destruct b end; try discriminate; injection H as <- <-;
      cbn [set_own go thr filter length]; rewrite upd_same, ?Nat.eqb_refl; simpl; (split; [auto|lia]).
  - unfold mtick, again, dagain in H. destruct (thr s t) eqn:Et; try discriminate; simpl in Hp; try subst b.
    all: repeat match type of H with
             | context [if ?b then _ else _] => destruct b eqn:?
             | context [match ?b with Some _ => _ | None => _ end] => destruct b eqn:?
             end; try discriminate; injection H as <- <-; cbn [set_own set_head set_nx set_ng set_vl go thr]; rewrite upd_same; cbn [tpot trypc]; split; auto; lia.
Qed.
Lemma tpot_max : forall p, tpot p <= 10.
Proof. destruct p; simpl; lia. Qed.
Lemma waitfree : forall e0 pre s0 l0 ls s log, only tryact t (pre ++ ls) -> run (mstep n) (minit e0) pre = Some (s0, l0) -> run (mstep n) s0 ls = Some (s, log) ->
  steps t ls <= 10 + 11 * calls t log.
Proof.
  intros e0 pre s0 l0 ls s log HO H0 H. apply Forall_app in HO. destruct HO as [O1 O2].
  assert (S : forall s l s' e, trypc (thr s t) = true -> (fst l = t -> tryact (snd l)) -> mstep n s l = Some (s', e) ->
    trypc (thr s' t) = true /\ tpot (thr s' t) + (if Nat.eqb (fst l) t then 1 else 0) <= tpot (thr s t) + tgain e).
  { clear. intros s [u a] s' e HT HO H. cbn [fst snd] in *. destruct (Nat.eqb_spec u t) as [->|Hn].
    - apply try_step with (3 := H); auto.
    - rewrite (others _ _ _ _ _ H) by auto. split; [auto|lia]. }
  assert (I : trypc (thr s0 t) = true).
  { apply (inv_run _ _ _ (mstep n) (fun s => trypc (thr s t) = true) (fun l => fst l = t -> tryact (snd l))) with (3 := O1) (4 := H0); [|reflexivity]. intros; eapply S; eauto. }
  pose proof (potential _ _ _ (mstep n) (fun s => trypc (thr s t) = true) (fun l => fst l = t -> tryact (snd l)) (fun s => tpot (thr s t)) (fun l => Nat.eqb (fst l) t) tgain eq_refl tgain_app S ls s0 s log I O2 H) as K.
  unfold steps, tgain in *. pose proof (tpot_max (thr s0 t)). lia.
Qed.
End Lf.
