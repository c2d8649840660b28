From Coq Require Import Arith NArith List Bool Lia.
From Verif Require Import Lib LockSpec LockProg BrLock_Model.
Import ListNotations.
Local Arguments upd : simpl never.
Local Arguments Nat.ltb : simpl never.
Local Arguments N.eqb : simpl never.
Local Arguments N.leb : simpl never.
Local Arguments N.add : simpl never.
Local Arguments N.modulo : simpl never.
Local Arguments N.pow : simpl never.

(** * Counting automaton state *)
Section Abs.
Context {P : Type}.
Variables (wcr : P -> bool) (dep : P -> nat).

Definition cabs (a : rwst) (thr : nat -> P) : Prop :=
  (forall t, rw_w a = Some t <-> wcr (thr t) = true) /\
  (forall t, countn t (rw_r a) = dep (thr t)) /\ (forall t, rw_w a = Some t -> rw_r a = []).

Lemma countn_nil : forall l, (forall t, countn t l = 0) -> l = [].
Proof.
  intros [|x l] H; auto. specialize (H x). unfold countn in H. simpl in H. rewrite Nat.eqb_refl in H. discriminate.
Qed.

Lemma cabs_same : forall a thr t p, cabs a thr -> wcr p = wcr (thr t) -> dep p = dep (thr t) -> cabs a (upd thr t p).
Proof.
  intros a thr t p [H1 [H2 H3]] E1 E2. split; [|split; auto].
  - intros u. rewrite H1. upd_goal; subst; [rewrite E1|]; tauto.
  - intros u. rewrite H2. upd_goal; subst; auto.
Qed.

Lemma cabs_wacq : forall a thr t p, cabs a thr -> (forall x, dep (thr x) = 0) -> (forall x, wcr (thr x) = false) ->
  wcr p = true -> dep p = 0 -> exists a', accepts rw_step a [WAcq t] = Some a' /\ cabs a' (upd thr t p).
Proof.
  intros a thr t p [H1 [H2 H3]] Hd Hw E1 E2.
  assert (N1 : rw_w a = None). { destruct (rw_w a) as [u|] eqn:E; auto. assert (wcr (thr u) = true) by (apply H1; auto). rewrite Hw in H. discriminate. }
  assert (N2 : rw_r a = []). { apply countn_nil. intros. rewrite H2; auto. }
  exists {| rw_w := Some t; rw_r := [] |}. split; [simpl; rewrite N1, N2; reflexivity|].
  split; [|split; [|auto]]; simpl.
  - intros x. upd_goal; subst; [split; auto|]. rewrite Hw. split; [congruence|discriminate].
  - intros x. unfold countn; simpl. upd_goal; [|rewrite Hd]; auto.
Qed.

Lemma cabs_wrel : forall a thr t p, cabs a thr -> (forall u, wcr (thr u) = true -> u = t) -> wcr (thr t) = true ->
  wcr p = false -> dep p = 0 -> exists a', accepts rw_step a [WRel t] = Some a' /\ cabs a' (upd thr t p).
Proof.
  intros a thr t p [H1 [H2 H3]] Hu Ht E1 E2.
  assert (Hw : rw_w a = Some t) by (apply H1; auto). assert (Hr : rw_r a = []) by eauto.
  exists {| rw_w := None; rw_r := rw_r a |}. split; [simpl; rewrite Hw, Nat.eqb_refl; reflexivity|].
  rewrite Hr in *. split; [|split; [|auto]]; simpl; try discriminate.
  - intros x. upd_goal; subst; [rewrite E1; split; discriminate|]. split; [discriminate|]. intros Hx. exfalso; auto.
  - intros x. upd_goal; subst; auto.
Qed.

Lemma cabs_racq : forall a thr t p, cabs a thr -> (forall u, wcr (thr u) = false) -> wcr p = false -> dep p = S (dep (thr t)) ->
  exists a', accepts rw_step a [RAcq t] = Some a' /\ cabs a' (upd thr t p).
Proof.
  intros a thr t p [H1 [H2 H3]] Hw E1 E2.
  assert (N1 : rw_w a = None). { destruct (rw_w a) as [u|] eqn:E; auto. assert (wcr (thr u) = true) by (apply H1; auto). rewrite Hw in H. discriminate. }
  exists {| rw_w := None; rw_r := t :: rw_r a |}. split; [simpl; rewrite N1; reflexivity|].
  split; [|split; [|discriminate]]; simpl.
  - intros x. upd_goal; subst; [rewrite E1|rewrite Hw]; split; discriminate.
  - intros x. specialize (H2 x). unfold countn in *. simpl. destruct (Nat.eqb_spec x t).
    + subst. rewrite upd_same. simpl. lia.
    + rewrite upd_other by auto. auto.
Qed.

Lemma cabs_rrel : forall a thr t p, cabs a thr -> wcr (thr t) = false -> wcr p = false -> dep (thr t) = S (dep p) ->
  exists a', accepts rw_step a [RRel t] = Some a' /\ cabs a' (upd thr t p).
Proof.
  intros a thr t p [H1 [H2 H3]] Hw E1 E2.
  assert (Hin : In t (rw_r a)).
  { specialize (H2 t). rewrite E2 in H2. unfold countn in H2. destruct (filter (Nat.eqb t) (rw_r a)) as [|y l] eqn:E; [discriminate|].
    assert (Hy : In y (filter (Nat.eqb t) (rw_r a))) by (rewrite E; simpl; auto). apply filter_In in Hy. destruct Hy as [Hy Hy2]. apply Nat.eqb_eq in Hy2. subst; auto. }
  destruct (remove1_in _ _ Hin) as [l' Hl'].
  exists {| rw_w := rw_w a; rw_r := l' |}. split; [simpl; rewrite Hl'; reflexivity|].
  split; [|split]; simpl.
  - intros x. rewrite H1. upd_goal; subst; [rewrite E1, Hw|]; tauto.
  - intros x. specialize (H2 x). rewrite (remove1_countn _ _ _ x Hl') in H2. destruct (Nat.eqb_spec x t).
    + subst. rewrite upd_same. lia.
    + rewrite upd_other by auto. lia.
  - intros x Hx. rewrite (H3 x Hx) in Hl'. discriminate.
Qed.
End Abs.

(** * The reader list *)
Fixpoint chain (next : nat -> option nat) (h : option nat) (l : list nat) : Prop :=
  match l with [] => h = None | x :: r => h = Some x /\ chain next (next x) r end.
Fixpoint back (prev : nat -> option nat) (p : option nat) (l : list nat) : Prop :=
  match l with [] => True | x :: r => prev x = p /\ back prev (Some x) r end.
Fixpoint lastp (p : option nat) (l : list nat) : option nat := match l with [] => p | x :: r => lastp (Some x) r end.

Lemma chain_ext : forall next next' l h, (forall x, In x l -> next' x = next x) -> chain next h l -> chain next' h l.
Proof.
  induction l as [|x l IH]; simpl; intros h H Hc; auto. destruct Hc as [-> Hc]. split; auto. rewrite H by auto. apply IH; auto.
Qed.
Lemma back_ext : forall prev prev' l p, (forall x, In x l -> prev' x = prev x) -> back prev p l -> back prev' p l.
Proof.
  induction l as [|x l IH]; simpl; intros p H Hc; auto. destruct Hc as [E Hc]. split; [rewrite H; auto|]. apply IH; auto.
Qed.
Lemma chain_split : forall next l1 h t l2, chain next h (l1 ++ t :: l2) -> chain next (next t) l2.
Proof. induction l1 as [|x l1 IH]; simpl; intros h t l2 [H1 H2]; eauto. Qed.
Lemma back_split : forall prev l1 p t l2, back prev p (l1 ++ t :: l2) -> prev t = lastp p l1 /\ back prev (Some t) l2.
Proof. induction l1 as [|x l1 IH]; simpl; intros p t l2 [H1 H2]; auto. Qed.

Lemma lastp_snoc : forall l1 p x, lastp p (l1 ++ [x]) = Some x.
Proof. induction l1; simpl; auto. Qed.

Lemma chain_cut : forall next l1 h t l2 x, NoDup (l1 ++ t :: l2) -> lastp None l1 = Some x -> chain next h (l1 ++ t :: l2) ->
  chain (upd next x (next t)) h (l1 ++ l2).
Proof.
  intros next l1 h t l2 x Hnd Hl Hc. destruct (exists_last (l := l1)) as [l1' [y ->]]; [intros ->; discriminate|].
  rewrite lastp_snoc in Hl. injection Hl as ->. rewrite <- app_assoc in *. simpl in *.
  assert (Hxt : x <> t). { intros ->. apply NoDup_remove_2 in Hnd. apply Hnd. apply in_or_app. right. simpl. auto. }
  assert (Hx1 : ~ In x l1'). { intros Hin. apply NoDup_remove_2 in Hnd. apply Hnd. apply in_or_app. auto. }
  assert (Hx2 : ~ In x l2). { intros Hin. apply NoDup_remove_2 in Hnd. apply Hnd. apply in_or_app. right. simpl. auto. }
  clear Hnd. revert h Hc. induction l1' as [|z l1 IH]; simpl; intros h Hc.
  - destruct Hc as [-> [H1 H2]]. split; auto. rewrite upd_same. apply chain_ext with (next := next); auto. intros u Hu. apply upd_other. intros ->; auto.
  - destruct Hc as [-> Hc]. split; auto. rewrite upd_other by (intros ->; apply Hx1; simpl; auto). apply IH; auto. intros Hin. apply Hx1; simpl; auto.
Qed.

Lemma back_cut : forall prev l1 t l2 p, NoDup (l1 ++ t :: l2) -> back prev p (l1 ++ t :: l2) ->
  back (match l2 with x :: _ => upd prev x (prev t) | [] => prev end) p (l1 ++ l2).
Proof.
  intros prev l1 t l2 p Hnd Hb. destruct (back_split _ _ _ _ _ Hb) as [Hp _]. revert p Hp Hb. induction l1 as [|z l1 IH]; simpl; intros p Hp Hb.
  - destruct l2 as [|x l2]; simpl in *; auto. destruct Hb as [H1 [H2 H3]]. rewrite upd_same. split; auto.
    apply back_ext with (prev := prev); auto. intros u Hu. apply upd_other. intros ->. inversion Hnd as [|? ? ? Hnd2]; subst. inversion Hnd2; auto.
  - destruct Hb as [H1 H2]. inversion Hnd; subst. split; [|apply IH; auto].
    destruct l2 as [|x l2]; auto. apply upd_other. intros <-. apply H3. apply in_or_app. right. simpl. auto.
Qed.

Lemma chain_head : forall next h l, chain next h l -> h = hd_error l.
Proof. destruct l; simpl; intros; tauto. Qed.

(** * Invariant *)
Definition isown (p : pc) : bool := match p with W2 _ | W3 _ _ | W4 _ _ | WF _ | WCrit _ | G1 | G2 | G3 | G4 | U1 | U2 | U3 => true | _ => false end.
Definition wcr (p : pc) : bool := match p with WCrit _ | G1 | G2 | G3 | G4 | U1 | U2 | U3 => true | _ => false end.
Definition dep (p : pc) : nat := match p with RCrit d => S d | R1 _ d | R2 _ d | R3 _ d | R4 _ d => d | _ => 0 end.
Definition isin (p : pc) : bool := match p with RCrit _ => true | _ => false end.
Definition kreg (k : kind) : bool := match k with KWr r | KTr r _ _ => r | KReg => false | KUn => true end.
(** The reader object is on the list. *)
Definition listed (p : pc) : bool :=
  match p with
  | Rdy | G4 | U1 | U2 | R1 _ _ | R2 _ _ | R3 _ _ | R4 _ _ | RCrit _ => true
  | W1 k | W2 k | W3 k _ | W4 k _ => kreg k
  | WF r | WCrit r => r
  | _ => false
  end.
Definition nval (p : pc) : N := match p with RCrit d => N.of_nat (S d) | R3 _ _ | R4 _ _ => 1%N | _ => 0%N end.
Lemma umax_val : umax = 4294967295%N. Proof. reflexivity. Qed.
Lemma uinc_val : forall x, uinc x = ((x + 1) mod 4294967296)%N. Proof. reflexivity. Qed.
Lemma udec_val : forall x, udec x = ((x + 4294967295) mod 4294967296)%N. Proof. reflexivity. Qed.
Global Opaque umax uinc udec.
Definition shallow (d : nat) : bool := N.leb (N.of_nat (S d)) umax.
Lemma shallow_0 : shallow 0 = true. Proof. reflexivity. Qed.
Lemma shallow_inc : forall d, deep d = false -> uinc (N.of_nat (S d)) = N.of_nat (S (S d)) /\ shallow (S d) = true.
Proof.
  intros d H. unfold deep in H. apply N.leb_gt in H. unfold shallow. rewrite N.leb_le. rewrite uinc_val. rewrite umax_val in *.
  rewrite N.mod_small by lia. lia.
Qed.
Lemma shallow_dec : forall d, shallow d = true -> udec (N.of_nat (S d)) = N.of_nat d.
Proof.
  intros d H. unfold shallow in H. apply N.leb_le in H. rewrite udec_val, umax_val in *.
  replace (N.of_nat (S d) + 4294967295)%N with (N.of_nat d + 1 * 4294967296)%N by lia. rewrite N.mod_add by lia. rewrite N.mod_small; lia.
Qed.
Lemma shallow_pred : forall d, shallow (S d) = true -> shallow d = true.
Proof. intros d H. unfold shallow in *. apply N.leb_le in H. apply N.leb_le. lia. Qed.
Global Opaque shallow deep.

Definition wfp (p : pc) : bool :=
  match p with
  | R1 _ d | R2 _ d | R3 _ d | R4 _ d => Nat.eqb d 0
  | RCrit d => shallow d
  | _ => true
  end.

Section P.
Variable n : nat.
Variables (g : nat -> N) (nx pv : nat -> option nat).

Definition drain (next : nat -> option nat) (thr : nat -> pc) (t : nat) : Prop :=
  match thr t with
  | W3 _ c => exists l, chain next (Some c) l /\ forall u, isin (thr u) = true -> In u l
  | W4 _ c => exists l, chain next (next c) l /\ forall u, isin (thr u) = true -> In u l
  | WCrit _ | G1 | G2 | G3 | G4 | U1 | U2 | U3 => forall u, isin (thr u) = false
  | _ => True
  end.

(** Registering threads whose object is not linked yet. *)
Definition pn (p : pc) : bool := match p with W1 KReg | W2 KReg | W3 KReg _ | W4 KReg _ | G1 | G2 | G3 => true | _ => false end.
Definition mid (p : pc) : bool := match p with G3 | U2 => true | _ => false end.

Definition lists (h : option nat) (next prev : nat -> option nat) (thr : nat -> pc) : Prop :=
  exists l lb, chain next h l /\ back prev None lb /\ NoDup l /\ (forall t, In t l <-> listed (thr t) = true) /\
    (forall t, pn (thr t) = true -> prev t = None) /\
    ((lb = l /\ (forall t, mid (thr t) = false) /\ (forall t, thr t = G2 -> next t = hd_error l)) \/
     (exists t, thr t = G3 /\ lb = t :: l /\ next t = hd_error l) \/
     (exists t l1 l2, thr t = U2 /\ l = l1 ++ t :: l2 /\ lb = l1 ++ l2 /\ prev t = lastp None l1)).

Record I (s : state) : Prop := mkI {
  i_own : (writer s = false /\ forall u, isown (thr s u) = false) \/
          (writer s = true /\ exists t, isown (thr s t) = true /\ forall u, isown (thr s u) = true -> u = t);
  i_nrd : forall t, listed (thr s t) || pn (thr s t) = true -> nrd s t = nval (thr s t);
  i_wf : forall t, wfp (thr s t) = true;
  i_dr : forall t, drain (next s) (thr s) t;
  i_l : lists (head s) (next s) (prev s) (thr s);
  i_ge : forall t, n <= t -> thr s t = Out }.

Definition R (s : state) (a : rwst) : Prop := I s /\ cabs wcr dep a (thr s).

Lemma R_init : R (init g nx pv) rw_init.
Proof.
  split.
  - constructor; cbn; auto; try discriminate.
    exists [], []. cbn. split; auto. split; auto. split; [constructor|]. split; [intros; split; [tauto|discriminate]|].
    split; [discriminate|]. left. split; auto. split; [auto|discriminate].
  - split; [|split]; cbn; try discriminate; auto. split; discriminate.
Qed.

Lemma own_excl : forall s t, I s -> isown (thr s t) = true -> writer s = true /\ forall u, isown (thr s u) = true -> u = t.
Proof.
  intros s t HI E. destruct (i_own _ HI) as [[_ G]|[G [v [_ G2]]]]; [rewrite G in E; discriminate|].
  split; auto. intros u Hu. rewrite (G2 u Hu), (G2 t E). auto.
Qed.

Lemma own_free : forall s, I s -> writer s = false -> forall u, isown (thr s u) = false.
Proof. intros s HI E. destruct (i_own _ HI) as [[_ G]|[G _]]; auto. congruence. Qed.

Lemma lists_keep : forall h next prev thr t p, lists h next prev thr -> listed p = listed (thr t) ->
  (pn p = true -> pn (thr t) = true) -> mid p = false -> p <> G2 -> mid (thr t) = false -> lists h next prev (upd thr t p).
Proof.
  intros h next prev thr t p [l [lb [H1 [H2 [H3 [H4 [H5 H6]]]]]]] E1 E2 E3 E4 E5. exists l, lb. do 3 (split; auto).
  split; [intros u; rewrite H4; upd_goal; subst; [rewrite E1|]; tauto|].
  split; [intros u; upd_goal; subst; auto|].
  destruct H6 as [[A1 [A2 A3]]|[[u [A1 [A2 A3]]]|[u [l1 [l2 [A1 [A2 [A3 A4]]]]]]]].
  - left. split; auto. split; intros u; upd_goal; subst; auto; congruence.
  - right. left. exists u. rewrite upd_other; auto. intros ->. rewrite A1 in E5. discriminate.
  - right. right. exists u, l1, l2. rewrite upd_other; auto. intros ->. rewrite A1 in E5. discriminate.
Qed.

(** With [t] the owner of the writer flag the list is in the state described by [t]'s pc alone. *)
Lemma lists_own : forall s t, I s -> isown (thr s t) = true -> mid (thr s t) = false ->
  exists l, chain (next s) (head s) l /\ back (prev s) None l /\ NoDup l /\ (forall t, In t l <-> listed (thr s t) = true) /\
    (forall t, pn (thr s t) = true -> prev s t = None) /\ (thr s t = G2 -> next s t = hd_error l).
Proof.
  intros s t HI E Em. destruct (own_excl _ _ HI E) as [_ Hu]. destruct (i_l _ HI) as [l [lb [H1 [H2 [H3 [H4 [H5 H6]]]]]]].
  exists l. destruct H6 as [[A1 [A2 A3]]|[[u [A1 [A2 A3]]]|[u [l1 [l2 [A1 [A2 [A3 A4]]]]]]]].
  - subst lb. repeat (split; auto).
  - rewrite (Hu u) in A1 by (rewrite A1; auto). rewrite A1 in Em. discriminate.
  - rewrite (Hu u) in A1 by (rewrite A1; auto). rewrite A1 in Em. discriminate.
Qed.

Lemma I_upd : forall s t p w' h' n' nx' pv', I s -> t < n ->
  (isown p = isown (thr s t) /\ w' = writer s \/ isown p = true /\ writer s = false /\ w' = true \/ isown p = false /\ isown (thr s t) = true /\ w' = false) ->
  (forall u, u <> t -> n' u = nrd s u) -> (listed p || pn p = true -> n' t = nval p) -> wfp p = true ->
  (nx' = next s \/ isown (thr s t) = true) ->
  (isin p = true -> isin (thr s t) = true \/ forall v, isown (thr s v) = false) ->
  drain nx' (upd (thr s) t p) t -> lists h' nx' pv' (upd (thr s) t p) ->
  I (mk w' h' n' nx' pv' (upd (thr s) t p)).
Proof.
  intros s t p w' h' n' nx' pv' HI Hlt O1 O2 O3 O4 O5 O6 O7 O8. assert (HI' := HI). destruct HI' as [Hown Hnrd Hwf Hdr Hl Hge]. constructor; cbn; auto.
  - destruct O1 as [[E1 E2]|[[E1 [E2 E3]]|[E1 [E2 E3]]]].
    + assert (E : forall u, isown (upd (thr s) t p u) = isown (thr s u)) by (intros; upd_goal; subst; auto).
      subst w'. destruct Hown as [[G1 G2]|[G1 [v [G3 G4]]]]; [left; split; auto; intros; rewrite E; auto|].
      right. split; auto. exists v. rewrite E. split; auto. intros u; rewrite E; auto.
    + right. split; auto. exists t. rewrite upd_same. split; auto. intros u. upd_goal; auto. rewrite (own_free _ HI E2). discriminate.
    + left. split; auto. intros u. upd_goal; auto. destruct (isown (thr s u)) eqn:Eu; auto. apply (own_excl _ _ HI E2) in Eu. congruence.
  - intros u. upd_goal; [subst; auto|]. intros Hu. rewrite O2; auto.
  - intros u. upd_goal; auto.
  - intros v. destruct (Nat.eq_dec v t) as [->|Hvt]; auto. specialize (Hdr v). unfold drain in *. rewrite upd_other by auto.
    destruct (isown (thr s v)) eqn:Ev; [|destruct (thr s v); auto; discriminate].
    assert (Et : isown (thr s t) = false). { destruct (isown (thr s t)) eqn:Et; auto. apply (own_excl _ _ HI Et) in Ev. contradiction. }
    destruct O5 as [->|O5]; [|congruence].
    assert (Hin : forall u, isin (upd (thr s) t p u) = true -> isin (thr s u) = true).
    { intros u. upd_goal; auto. intros Hi. subst. destruct (O6 Hi) as [|G]; auto. rewrite G in Ev. discriminate. }
    assert (Hnin : (forall u, isin (thr s u) = false) -> forall u, isin (upd (thr s) t p u) = false).
    { intros G u. destruct (isin (upd (thr s) t p u)) eqn:Eu; auto. apply Hin in Eu. rewrite G in Eu. discriminate. }
    destruct (thr s v); auto.
    + destruct Hdr as [l [L1 L2]]. exists l. split; auto.
    + destruct Hdr as [l [L1 L2]]. exists l. split; auto.
  - intros u Hu. rewrite upd_other by lia. auto.
Qed.

Lemma drain_triv : forall nx thr t p, match p with W3 _ _ | W4 _ _ | WCrit _ | G1 | G2 | G3 | G4 | U1 | U2 | U3 => false | _ => true end = true ->
  drain nx (upd thr t p) t.
Proof. intros. unfold drain. rewrite upd_same. destruct p; auto; discriminate. Qed.

Lemma drain_crit : forall nx thr t p, isin p = false -> (forall u, isin (thr u) = false) ->
  match p with W3 _ _ | W4 _ _ => false | _ => true end = true -> drain nx (upd thr t p) t.
Proof.
  intros nx' th t p E H Ep. unfold drain. rewrite upd_same.
  assert (G : forall u, isin (upd th t p u) = false) by (intros; upd_goal; auto).
  destruct p; auto; discriminate.
Qed.

Lemma isin_dep : forall s, I s -> (forall u, isin (thr s u) = false) -> forall u, dep (thr s u) = 0.
Proof.
  intros s HI H u. specialize (H u). pose proof (i_wf _ HI u) as Hw. destruct (thr s u); cbn in *; auto; try discriminate; apply Nat.eqb_eq in Hw; auto.
Qed.

Lemma lists_reg : forall h nx' pv' thr t, lists h nx' pv' thr -> thr t = Out -> lists h nx' (upd pv' t None) (upd thr t (W1 KReg)).
Proof.
  intros h nx' pv' th t [l [lb [H1 [H2 [H3 [H4 [H5 H6]]]]]]] E. exists l, lb. 
  assert (Hnl : ~ In t l) by (rewrite H4, E; discriminate).
  assert (Hlb : ~ In t lb).
  { destruct H6 as [[-> _]|[[u [A1 [-> _]]]|[u [l1 [l2 [A1 [-> [-> A4]]]]]]]]; auto.
    - intros [->|G]; [congruence|auto].
    - intros G. apply Hnl. apply in_app_iff in G. apply in_app_iff. cbn. tauto. }
  split; auto. split; [apply back_ext with (prev := pv'); auto; intros x Hx; apply upd_other; intros ->; auto|]. split; auto.
  split; [intros u; rewrite H4; upd_goal; subst; [rewrite E; cbn|]; tauto|].
  split; [intros u; upd_goal; subst; auto|].
  destruct H6 as [[A1 [A2 A3]]|[[u [A1 [A2 A3]]]|[u [l1 [l2 [A1 [A2 [A3 A4]]]]]]]].
  - left. split; auto. split; intros u; upd_goal; subst; auto; try discriminate.
  - right. left. exists u. rewrite upd_other; auto. intros ->. congruence.
  - right. right. exists u, l1, l2. rewrite !upd_other; auto; intros ->; congruence.
Qed.

Lemma lists_g1 : forall s t, I s -> thr s t = G1 -> lists (head s) (upd (next s) t (head s)) (prev s) (upd (thr s) t G2).
Proof.
  intros s t HI E. destruct (lists_own _ t HI) as [l [L1 [L2 [L3 [L4 [L5 L6]]]]]]; [rewrite E; auto..|].
  assert (Hnl : ~ In t l) by (rewrite L4, E; discriminate).
  assert (Hmid : forall u, u <> t -> isown (thr s u) = false).
  { intros u Hu. destruct (isown (thr s u)) eqn:Eu; auto. apply (own_excl _ t HI) in Eu; [contradiction|rewrite E; auto]. }
  exists l, l. split; [apply chain_ext with (next := next s); auto; intros x Hx; apply upd_other; intros ->; auto|]. do 2 (split; auto).
  split; [intros u; rewrite L4; upd_goal; subst; [rewrite E; cbn|]; tauto|].
  split; [intros u; upd_goal; subst; auto; intros _; apply L5; rewrite E; auto|].
  left. split; auto. split; intros u; upd_goal; subst; auto.
  - specialize (Hmid u n0). destruct (thr s u); auto; discriminate.
  - intros _. rewrite ?upd_same. apply chain_head in L1. auto.
  - intros Eu. specialize (Hmid u n0). rewrite Eu in Hmid. discriminate.
Qed.

Lemma lists_g2 : forall s t, I s -> thr s t = G2 ->
  lists (head s) (next s) (match next s t with Some x => upd (prev s) x (Some t) | None => prev s end) (upd (thr s) t G3).
Proof.
  intros s t HI E. destruct (lists_own _ t HI) as [l [L1 [L2 [L3 [L4 [L5 L6]]]]]]; [rewrite E; auto..|]. specialize (L6 E).
  assert (Hnl : ~ In t l) by (rewrite L4, E; discriminate).
  assert (Hpt : prev s t = None) by (apply L5; rewrite E; auto).
  exists l, (t :: l). split; auto. rewrite L6. split.
  { destruct l as [|x l]; cbn [hd_error back].
    - auto.
    - rewrite upd_other by (intros ->; apply Hnl; cbn; auto). rewrite upd_same. split; auto. split; auto.
      cbn in L2. destruct L2 as [_ L2]. apply back_ext with (prev := prev s); auto. intros u Hu. apply upd_other. intros ->. inversion L3; auto. }
  split; auto. split; [intros u; rewrite L4; upd_goal; subst; [rewrite E; cbn|]; tauto|]. split.
  { intros u Hu. assert (Hpn : pn (thr s u) = true). { revert Hu. upd_goal; auto. subst. rewrite E. auto. }
    assert (~ In u l). { rewrite L4. destruct (thr s u) as [| |[]|[]|[] ?|[] ?| | | | | | | | | | | | | | ]; discriminate. }
    destruct l as [|x l]; cbn [hd_error]; auto. rewrite upd_other by (intros ->; apply H; cbn; auto). auto. }
  right. left. exists t. rewrite upd_same. auto.
Qed.

Lemma lists_g3 : forall s t, I s -> thr s t = G3 -> lists (Some t) (next s) (prev s) (upd (thr s) t G4).
Proof.
  intros s t HI E. destruct (own_excl _ t HI) as [_ Hu]; [rewrite E; auto|].
  destruct (i_l _ HI) as [l [lb [H1 [H2 [H3 [H4 [H5 H6]]]]]]].
  destruct H6 as [[A1 [A2 A3]]|[[u [A1 [A2 A3]]]|[u [l1 [l2 [A1 [A2 [A3 A4]]]]]]]].
  - specialize (A2 t). rewrite E in A2. discriminate.
  - assert (u = t) by (apply Hu; rewrite A1; auto). subst u.
    assert (Hnl : ~ In t l) by (rewrite H4, E; discriminate).
    exists (t :: l), lb. split; [cbn; split; auto; rewrite A3; rewrite <- (chain_head _ _ _ H1); auto|]. split; auto.
    split; [constructor; auto|]. split; [intros u; cbn; rewrite H4; upd_goal; subst; cbn; [tauto|]; split; [intros [?|?]; congruence|auto]|].
    split; [intros u; upd_goal; subst; auto; discriminate|]. left. split; auto. split; intros u; upd_goal; subst; auto; try discriminate.
    + destruct (mid (thr s u)) eqn:Em; auto. assert (u = t); [|contradiction]. apply Hu. destruct (thr s u); auto; discriminate.
    + intros Eu. assert (u = t); [|contradiction]. apply Hu. rewrite Eu; auto.
  - assert (u = t) by (apply Hu; rewrite A1; auto). congruence.
Qed.

Lemma lists_u1 : forall s t, I s -> thr s t = U1 ->
  lists (head s) (next s) (match next s t with Some x => upd (prev s) x (prev s t) | None => prev s end) (upd (thr s) t U2).
Proof.
  intros s t HI E. destruct (lists_own _ t HI) as [l [L1 [L2 [L3 [L4 [L5 L6]]]]]]; [rewrite E; auto..|].
  assert (Hnl : In t l) by (rewrite L4, E; auto). apply in_split in Hnl. destruct Hnl as [l1 [l2 ->]].
  exists (l1 ++ t :: l2), (l1 ++ l2). split; auto.
  pose proof (chain_split _ _ _ _ _ L1) as Hn. apply chain_head in Hn. rewrite Hn.
  pose proof (back_split _ _ _ _ _ L2) as [Hp _]. pose proof (back_cut _ _ _ _ _ L3 L2) as Hb.
  split; [destruct l2; auto|]. split; auto.
  split; [intros u; rewrite L4; upd_goal; subst; [rewrite E; cbn|]; tauto|]. split.
  { intros u Hu. assert (Hpn : pn (thr s u) = true). { revert Hu. upd_goal; auto. discriminate. }
    destruct l2 as [|x l2]; cbn [hd_error]; auto. rewrite upd_other; auto. intros ->.
    assert (Hx : listed (thr s x) = true) by (apply L4; apply in_app_iff; cbn; auto).
    destruct (thr s x) as [| |[]|[]|[] ?|[] ?| | | | | | | | | | | | | | ]; discriminate. }
  right. right. exists t, l1, l2. rewrite upd_same. split; auto. split; auto. split; auto.
  destruct l2 as [|x l2]; cbn [hd_error]; auto. rewrite upd_other; auto. intros ->.
  apply NoDup_remove_2 in L3. apply L3. apply in_app_iff. cbn. auto.
Qed.

Lemma lists_u2 : forall s t, I s -> thr s t = U2 ->
  lists (match prev s t with Some _ => head s | None => next s t end)
        (match prev s t with Some x => upd (next s) x (next s t) | None => next s end) (prev s) (upd (thr s) t U3).
Proof.
  intros s t HI E. destruct (own_excl _ t HI) as [_ Hu]; [rewrite E; auto|].
  destruct (i_l _ HI) as [l [lb [H1 [H2 [H3 [H4 [H5 H6]]]]]]].
  destruct H6 as [[A1 [A2 A3]]|[[u [A1 [A2 A3]]]|[u [l1 [l2 [A1 [A2 [A3 A4]]]]]]]].
  - specialize (A2 t). rewrite E in A2. discriminate.
  - assert (u = t) by (apply Hu; rewrite A1; auto). congruence.
  - assert (u = t) by (apply Hu; rewrite A1; auto). subst u l lb.
    exists (l1 ++ l2), (l1 ++ l2). split.
    { destruct (prev s t) as [x|] eqn:Ep; [eapply chain_cut; eauto|].
      destruct l1 as [|y l1]; [cbn in *; apply H1|]. exfalso. clear -A4. cbn in A4. revert y A4. induction l1; cbn; intros; [discriminate|eauto]. }
    split; auto. split; [apply NoDup_remove_1 in H3; auto|]. split.
    { intros u. upd_goal; [subst; cbn; split; [|discriminate]; intros G; apply NoDup_remove_2 in H3; contradiction|].
      rewrite <- H4, !in_app_iff. cbn. split; [tauto|]. intros [?|[?|?]]; auto. congruence. }
    split; [intros u; upd_goal; subst; auto; discriminate|]. left. split; auto. split; intros u; upd_goal; subst; auto; try discriminate.
    + destruct (mid (thr s u)) eqn:Em; auto. assert (u = t); [|contradiction]. apply Hu. destruct (thr s u); auto; discriminate.
    + intros Eu. assert (u = t); [|contradiction]. apply Hu. rewrite Eu; auto.
Qed.

Ltac iu := apply I_upd; match goal with Et : thr _ _ = _ |- _ => rewrite ?Et end; auto; try discriminate; try (apply drain_triv; reflexivity);
  try (apply lists_keep; match goal with Et : thr _ _ = _ |- _ => rewrite ?Et end; auto; discriminate);
  try (apply drain_crit; auto; fail).

Lemma R_step : forall s a l s' ev, R s a -> step n s l = Some (s', ev) ->
  exists a', accepts rw_step a ev = Some a' /\ R s' a'.
Proof.
  intros s a [t x] s' ev [HI Ha] H. unfold step in H.
  destruct (Nat.ltb t n) eqn:Hlt; [|discriminate]. apply Nat.ltb_lt in Hlt. cbn [negb] in H.
  assert (Hkeep : forall w' h' n' nx' pv' p, I (mk w' h' n' nx' pv' (upd (thr s) t p)) -> wcr p = wcr (thr s t) -> dep p = dep (thr s t) ->
            exists a', accepts rw_step a [] = Some a' /\ R (mk w' h' n' nx' pv' (upd (thr s) t p)) a').
  { intros w' h' n' nx' pv' p Hws E1 E2. exists a. split; [reflexivity|]. split; [exact Hws|]. apply cabs_same; auto. }
  assert (Hfail : forall w' h' n' nx' pv' p e, I (mk w' h' n' nx' pv' (upd (thr s) t p)) -> wcr p = wcr (thr s t) -> dep p = dep (thr s t) ->
            (e = WTryFail t \/ e = RTryFail t) ->
            exists a', accepts rw_step a [e] = Some a' /\ R (mk w' h' n' nx' pv' (upd (thr s) t p)) a').
  { intros w' h' n' nx' pv' p e Hws E1 E2 He. exists a. split; [destruct He; subst; reflexivity|]. split; [exact Hws|]. apply cabs_same; auto. }
  assert (Hfin : forall w' h' n' nx' pv' p e, I (mk w' h' n' nx' pv' (upd (thr s) t p)) ->
      (exists a', accepts rw_step a e = Some a' /\ cabs wcr dep a' (upd (thr s) t p)) ->
      exists a', accepts rw_step a e = Some a' /\ R (mk w' h' n' nx' pv' (upd (thr s) t p)) a').
  { intros w' h' n' nx' pv' p e Hws [a' [H1 H2]]. exists a'. split; auto. split; [exact Hws|exact H2]. }
  pose proof (i_wf _ HI t) as Hwf. pose proof (i_nrd _ HI t) as Hnr. pose proof (i_dr _ HI t) as Hdr.
  pose proof (i_l _ HI) as Hl. pose proof (own_excl _ t HI) as Hoe. pose proof (own_free _ HI) as Hof.
  pose proof (lists_own _ t HI) as Hlo. unfold drain in Hdr.
  assert (Hwc0 : isown (thr s t) = true -> wcr (thr s t) = false -> forall u, wcr (thr s u) = false).
  { intros E1 E2 u. destruct (wcr (thr s u)) eqn:Eu; auto. assert (u = t); [|congruence]. apply Hoe; auto. destruct (thr s u); auto; discriminate. }
  assert (Hwc1 : isown (thr s t) = true -> forall u, wcr (thr s u) = true -> u = t).
  { intros E1 u Eu. apply Hoe; auto. destruct (thr s u); auto; discriminate. }
  assert (Hwcf : writer s = false -> forall u, wcr (thr s u) = false).
  { intros E u. pose proof (Hof E u). destruct (thr s u); auto; discriminate. }
  assert (Hwci : isin (thr s t) = true -> forall u, wcr (thr s u) = false).
  { intros E u. destruct (wcr (thr s u)) eqn:Eu; auto. pose proof (i_dr _ HI u) as D. unfold drain in D.
    assert (isin (thr s t) = false) by (destruct (thr s u); try discriminate; auto). congruence. }
  (* the scan step, from a cursor whose chain holds all the readers inside *)
  assert (Hscan : forall k c l, isown (thr s t) = true -> wcr (thr s t) = false -> chain (next s) c l -> (forall u, isin (thr s u) = true -> In u l) ->
     listed (thr s t) = kreg k -> mid (thr s t) = false -> dep (thr s t) = 0 -> isin (thr s t) = false ->
     (k = KReg -> pn (thr s t) = true) -> (kreg k || match k with KReg => true | _ => false end = true -> nrd s t = 0%N) ->
     exists a', accepts rw_step a (snd (scan k t c)) = Some a' /\ R (go s t (fst (scan k t c))) a').
  { intros k c l E1 E2 E3 E4 E5 E6 E7 E8 E9 E10. unfold go. destruct c as [c|]; cbn [scan fst snd].
    - apply Hkeep; auto. apply I_upd; auto.
      + discriminate.
      + unfold drain. rewrite upd_same. exists l. split; auto. intros u. upd_goal; auto. discriminate.
      + apply lists_keep; auto; try discriminate. destruct k; cbn; auto; discriminate.
    - assert (l = []) by (destruct l; cbn in E3; [auto|destruct E3; discriminate]). subst l.
      assert (Hno : forall u, isin (thr s u) = false). { intros u. destruct (isin (thr s u)) eqn:Eu; auto. destruct (E4 u Eu). }
      apply Hfin; [|apply cabs_wacq; auto; [apply isin_dep; auto|destruct k; auto|destruct k; auto]].
      apply I_upd; auto.
      + left. split; auto. rewrite E1. destruct k; auto.
      + intros Hli. destruct k; cbn in *; auto; discriminate.
      + destruct k; auto.
      + destruct k; discriminate.
      + apply drain_crit; auto; destruct k; auto.
      + apply lists_keep; auto; try (destruct k; auto; discriminate). }
  unfold go, gow, gon in H.
  destruct (thr s t) eqn:Et; destruct x; try discriminate.
  all: cbn [isown wcr dep isin listed nval wfp pn mid] in *.
  - (* Out AWLock *) injection H as <- <-. apply Hkeep; rewrite ?Et; auto. iu.
  - injection H as <- <-. apply Hkeep; rewrite ?Et; auto. iu.
  - (* AReg *) injection H as <- <-. apply Hkeep; rewrite ?Et; auto. iu.
    + intros u Hu. apply upd_other; auto.
    + intros _. apply upd_same.
    + apply lists_reg; auto.
  - injection H as <- <-. apply Hkeep; rewrite ?Et; auto. iu.
  - injection H as <- <-. apply Hkeep; rewrite ?Et; auto. iu.
  - injection H as <- <-. apply Hkeep; rewrite ?Et; auto. iu.
  - (* read_lock *) rewrite Hnr in H by auto. cbn in H. injection H as <- <-. apply Hkeep; rewrite ?Et; auto. iu.
  - rewrite Hnr in H by auto. cbn in H. injection H as <- <-. apply Hkeep; rewrite ?Et; auto. iu.
  - (* W1 *) destruct (writer s) eqn:Ew.
    + destruct k as [r|r st f| |]; try (injection H as <- <-; apply Hkeep; rewrite ?Et; auto; iu).
      destruct (N.leb f (st + 1)); injection H as <- <-; [|apply Hkeep; rewrite ?Et; auto; iu].
      apply Hfail; rewrite ?Et; auto; try (destruct r; reflexivity). destruct r; iu.
    + injection H as <- <-. apply Hkeep; rewrite ?Et; auto; iu.
  - (* W2 *) destruct (Hlo eq_refl eq_refl) as [l [L1 [L2 [L3 [L4 [L5 L6]]]]]].
    destruct (Hscan k (head s) l) as [a' [A1 A2]]; auto.
    + intros u Hu. apply L4. destruct (thr s u); auto; discriminate.
    + intros ->; auto.
    + destruct (scan k t (head s)) as [p ev0]. injection H as <- <-. exists a'. auto.
  - (* W3 *) destruct (N.eqb_spec (nrd s c) 0) as [E|E].
    + injection H as <- <-. apply Hkeep; rewrite ?Et; auto. iu.
      unfold drain. rewrite upd_same. destruct Hdr as [l [D1 D2]]. destruct l as [|c' l]; [discriminate|]. destruct D1 as [D0 D1]. injection D0 as <-.
      exists l. split; auto. intros u. upd_goal; [discriminate|]. intros Hu. destruct (D2 u Hu) as [<-|]; auto.
      exfalso. rewrite (i_nrd _ HI c) in E by (destruct (thr s c); auto; discriminate). destruct (thr s c); discriminate.
    + destruct Hdr as [l [D1 D2]].
      assert (Hd3 : forall k', drain (next s) (upd (thr s) t (W3 k' c)) t).
      { intros k'. unfold drain. rewrite upd_same. exists l. split; auto. intros u. upd_goal; auto. discriminate. }
      destruct k as [r|r st f| |]; try (injection H as <- <-; apply Hkeep; rewrite ?Et; auto; iu).
      destruct (N.leb f (st + 1)); injection H as <- <-; apply Hkeep; rewrite ?Et; auto; iu.
  - (* W4 *) destruct Hdr as [l [D1 D2]]. destruct (Hscan k (next s c) l) as [a' [A1 A2]]; auto.
    + intros ->; auto.
    + destruct (scan k t (next s c)) as [p ev0]. injection H as <- <-. exists a'. auto.
  - (* WF *) injection H as <- <-. apply Hfail; rewrite ?Et; auto; try (destruct r; reflexivity). destruct r; iu.
  - (* write_unlock *) injection H as <- <-. apply Hfin; [|apply cabs_wrel; rewrite ?Et; auto; try (destruct r; reflexivity)]. destruct r; iu.
  - (* G1 *) injection H as <- <-. apply Hkeep; rewrite ?Et; auto. iu. apply lists_g1; auto.
  - (* G2 *) injection H as <- <-. apply Hkeep; rewrite ?Et; auto. iu. apply lists_g2; auto.
  - (* G3 *) injection H as <- <-. apply Hkeep; rewrite ?Et; auto. iu.
    apply lists_g3; auto.
  - (* G4 *) injection H as <- <-. apply Hfin; [|apply cabs_wrel; rewrite ?Et; auto; try (destruct r; reflexivity)]. iu.
  - (* U1 *) injection H as <- <-. apply Hkeep; rewrite ?Et; auto. iu. apply lists_u1; auto.
  - (* U2 *) pose proof (lists_u2 _ _ HI Et) as Hl2.
    destruct (prev s t); injection H as <- <-; apply Hkeep; rewrite ?Et; auto; iu.
  - (* U3 *) injection H as <- <-. apply Hfin; [|apply cabs_wrel; rewrite ?Et; auto; try (destruct r; reflexivity)]. iu.
  - (* R1 *) apply Nat.eqb_eq in Hwf. subst d. destruct (writer s) eqn:Ew.
    + destruct f as [[st fa]|].
      * destruct (N.leb fa (st + 1)); injection H as <- <-; [apply Hfail|apply Hkeep]; rewrite ?Et; auto; iu.
      * injection H as <- <-. apply Hkeep; rewrite ?Et; auto; iu.
    + injection H as <- <-. apply Hkeep; rewrite ?Et; auto; iu.
  - (* R2 *) apply Nat.eqb_eq in Hwf. subst d. injection H as <- <-. apply Hkeep; rewrite ?Et; auto; iu.
    + intros u Hu. apply upd_other; auto.
    + intros _. apply upd_same.
  - (* R3 *) apply Nat.eqb_eq in Hwf. subst d. destruct (writer s) eqn:Ew; injection H as <- <-.
    + apply Hkeep; rewrite ?Et; auto; iu.
    + apply Hfin; [|apply cabs_racq; rewrite ?Et; auto]. iu.
  - (* R4 *) apply Nat.eqb_eq in Hwf. subst d. 
    assert (Hu : forall u, u <> t -> upd (nrd s) t 0%N u = nrd s u) by (intros; apply upd_other; auto).
    assert (Hs : upd (nrd s) t 0%N t = 0%N) by apply upd_same.
    destruct f as [[st fa]|].
    + destruct (N.leb fa (st + 1)); injection H as <- <-; [apply Hfail|apply Hkeep]; rewrite ?Et; auto; iu.
    + injection H as <- <-. apply Hkeep; rewrite ?Et; auto; iu.
  - (* nested *) assert (Hn0 : nrd s t = N.of_nat (S d)) by auto. rewrite Hn0 in H. destruct (deep d) eqn:Ed; [discriminate|].
    destruct (shallow_inc d Ed) as [E1 E2]. rewrite E1 in H.
    destruct (N.eqb_spec (N.of_nat (S d)) 0); [discriminate|]. injection H as <- <-.
    apply Hfin; [|apply cabs_racq; rewrite ?Et; auto]. iu.
    + intros u Hu. apply upd_other; auto.
    + intros _. apply upd_same.
  - (* nested trylock *) assert (Hn0 : nrd s t = N.of_nat (S d)) by auto. rewrite Hn0 in H. destruct (deep d) eqn:Ed; [discriminate|].
    destruct (shallow_inc d Ed) as [E1 E2]. rewrite E1 in H.
    destruct (N.eqb_spec (N.of_nat (S d)) 0); [discriminate|]. injection H as <- <-.
    apply Hfin; [|apply cabs_racq; rewrite ?Et; auto]. iu.
    + intros u Hu. apply upd_other; auto.
    + intros _. apply upd_same.
  - (* read_unlock *) assert (Hn0 : nrd s t = N.of_nat (S d)) by auto. rewrite Hn0 in H.
    rewrite (shallow_dec d Hwf) in H. injection H as <- <-.
    assert (Hu : forall u, u <> t -> upd (nrd s) t (N.of_nat d) u = nrd s u) by (intros; apply upd_other; auto).
    apply Hfin; [|apply cabs_rrel; rewrite ?Et; auto; destruct d; auto]. destruct d as [|d]; iu.
    + intros _. apply upd_same.
    + intros _. apply upd_same.
    + apply shallow_pred; auto.
Qed.

Lemma br_refines : forall ls s log, run (step n) (init g nx pv) ls = Some (s, log) -> rw_legal log.
Proof.
  intros ls s log H. destruct (sim_run _ _ _ _ (step n) rw_step R R_step _ _ _ _ _ R_init H) as [a [Ha _]]. exists a. auto.
Qed.

Lemma br_list : forall s, reachable (step n) (init g nx pv) s -> writer s = false ->
  exists l, chain (next s) (head s) l /\ NoDup l /\ forall t, In t l <-> registered s t = true.
Proof.
  intros s [ls [log H]] Hw. destruct (sim_run _ _ _ _ (step n) rw_step R R_step _ _ _ _ _ R_init H) as [a [_ [HI _]]].
  destruct (i_l _ HI) as [l [lb [H1 [_ [H3 [H4 _]]]]]]. exists l. split; [auto|]. split; [auto|]. intros t. rewrite H4. unfold registered.
  destruct (thr s t) as [| |[]|[]|[] ?|[] ?| | | | | | | | | | | | | | ]; reflexivity.
Qed.
End P.
