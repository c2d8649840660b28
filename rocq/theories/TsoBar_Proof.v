From Coq Require Import ZArith NArith Arith List Bool Lia.
From Verif Require Import Lib Tso LockProg BarSpec BarProg TsoBar_Spec TsoBar_Model.
From Verif Require BarCentral_Model BarCentral_Proof.
Import ListNotations.
Local Arguments upd : simpl never.
Local Arguments Nat.odd : simpl never.
Local Arguments b2z : simpl never.
Local Opaque Z.modulo.

Notation cstate := BarCentral_Model.state.
Notation cthr := BarCentral_Model.thr.
Notation cls := BarCentral_Model.lsense.
Notation csense := BarCentral_Model.sense.
Notation cval := BarCentral_Model.value.
Notation cstep := BarCentral_Model.step.
Notation cmk := BarCentral_Model.mk.

Section P.
Variable n : nat.
Hypothesis Hn : (N.of_nat n < 2 ^ 32)%N.
Notation T := (tso (pc * bool)).
Notation R := (BarCentral_Proof.R n).

(** the sequentially consistent machine performs stores when they are issued *)
Definition ab (p : pc) : BarCentral_Model.pc :=
  match p with
  | Out => BarCentral_Model.Out | A => BarCentral_Model.A | Zr => BarCentral_Model.Z
  | Fe | G => BarCentral_Model.G | Sp => BarCentral_Model.Sp
  end.
Definition pend (s : T) (t : nat) (x : loc) : Prop := exists v, In (x, v) (buf s t).
Definition is1 (e : loc * Z) : bool := match fst e with Reg 1 => true | _ => false end.
Definition cnt1 (b : list (loc * Z)) : nat := length (filter is1 b).

Record Rb (s : T) (S : cstate) : Prop := mkRb {
  b_thr : forall t, cthr S t = ab (fst (pcs s t));
  b_ls : forall t, cls S t = snd (pcs s t);
  b_nt : forall t, n <= t -> buf s t = [];
  b_0 : forall t v, In (Reg 0, v) (buf s t) -> fst (pcs s t) = Fe /\ v = 0%Z;
  b_v : (forall t, ~ pend s t (Reg 0)) -> mem s (Reg 0) = Z.of_N (cval S);
  b_1 : forall t v, In (Reg 1, v) (buf s t) -> (fst (pcs s t) = Out \/ fst (pcs s t) = A) /\ v = b2z (csense S) /\
        mem s (Reg 1) = b2z (negb (csense S)) /\
        forall u, u < n -> u <> t -> fst (pcs s u) = Sp /\ snd (pcs s u) = csense S;
  b_s : (forall t, ~ pend s t (Reg 1)) -> mem s (Reg 1) = b2z (csense S);
  b_u : forall t, cnt1 (buf s t) <= 1 }.

Lemma cnt1_0 : forall b, (forall v, ~ In (Reg 1, v) b) -> cnt1 b = 0.
Proof.
  induction b as [|[[i|[|[|i]]] v] b IH]; intros H; cbn; auto; try (apply IH; intros w Hw; apply (H w); right; auto).
  exfalso. apply (H v). left. auto.
Qed.
Lemma cnt1_in : forall b v, In (Reg 1, v) b -> 1 <= cnt1 b.
Proof.
  induction b as [|[x w] b IH]; intros v H; [destruct H|]. destruct H as [H|H].
  - injection H as -> ->. cbn. lia.
  - specialize (IH v H). unfold cnt1 in *. cbn [filter]. destruct (is1 (x, w)); cbn [length]; lia.
Qed.
Lemma b2z_inj : forall a b, Z.eqb (b2z a) (b2z b) = Bool.eqb a b.
Proof. intros [] []; reflexivity. Qed.

(** what the invariant of the sequentially consistent machine says here *)
Lemma zg_all : forall S en lv z, R S en lv -> z < n -> BarCentral_Proof.zg (cthr S z) = true ->
  (cthr S z = BarCentral_Model.G -> cval S = 0%N) /\ cls S z = negb (csense S) /\
  forall u, u < n -> u <> z -> cthr S u = BarCentral_Model.Sp /\ cls S u = cls S z.
Proof.
  intros S en lv z [E [S1 S2 S3 [_ S4]]] Hz Hg.
  destruct S4 as [[H1 _]|[H1|[y [Hy [H1 [H2 H3]]]]]]; [rewrite H1 in Hg by auto; discriminate|lia|].
  assert (y = z). { destruct (Nat.eq_dec y z); auto. rewrite H3 in Hg by auto. discriminate. } subst y.
  assert (Hall : forall u, u < n -> BarCentral_Proof.spz (cthr S u) = true /\ en u = Datatypes.S E).
  { intros u Hu. assert (X := cnt_full _ _ H2 u Hu). unfold BarCentral_Proof.arr in X. apply andb_prop in X.
    destruct X as [X Y]. apply Nat.eqb_eq in Y. auto. }
  destruct (Hall z Hz) as [_ Ez]. split; [|split].
  - intros X. destruct H1 as [[H1 _]|[_ H1]]; [congruence|auto].
  - rewrite S1, S2, Ez, Nat.odd_succ, <- Nat.negb_odd. auto.
  - intros u Hu Hne. destruct (Hall u Hu) as [X Eu]. rewrite !S2, Ez, Eu. split; auto.
    specialize (H3 u Hu Hne). destruct (cthr S u); try discriminate; auto.
Qed.

Lemma pend_nt : forall s S t x, Rb s S -> pend s t x -> t < n.
Proof.
  intros s S t x H [v Hp]. destruct (Nat.lt_ge_cases t n) as [X|X]; auto.
  rewrite (b_nt _ _ H) in Hp by auto. destruct Hp.
Qed.

Lemma no_pend0 : forall s S en lv t, Rb s S -> R S en lv -> t < n -> cthr S t <> BarCentral_Model.Sp -> buf s t = [] ->
  forall u, ~ pend s u (Reg 0).
Proof.
  intros s S en lv t H HR Ht Hp Hb u [v Hu]. assert (Hun := pend_nt s S u (Reg 0) H (ex_intro _ v Hu)).
  destruct (b_0 _ _ H _ _ Hu) as [X _]. destruct (Nat.eq_dec t u) as [->|Hne]; [rewrite Hb in Hu; destruct Hu|].
  destruct (zg_all S en lv u HR Hun) as [_ [_ Y]]; [rewrite (b_thr _ _ H), X; auto|].
  destruct (Y t Ht Hne) as [Y1 _]. auto.
Qed.

Lemma loc_dec : forall x, x = Reg 0 \/ x = Reg 1 \/ (x <> Reg 0 /\ x <> Reg 1).
Proof. intros [i|[|[|i]]]; auto; right; right; split; discriminate. Qed.

Lemma sim_flush : forall s S en lv t x v r, Rb s S -> R S en lv -> buf s t = (x, v) :: r ->
  Rb (mkT (setm (mem s) x v) (upd (buf s) t r) (pcs s)) S.
Proof.
  intros s S en lv t x v r H HR Hb.
  assert (Ht : t < n) by (apply (pend_nt s S t x H); exists v; rewrite Hb; left; auto).
  assert (Sub : forall u e, In e (upd (buf s) t r u) -> In e (buf s u)).
  { intros u e. unfold upd. destruct (Nat.eq_dec u t) as [->|]; auto. rewrite Hb. right. auto. }
  assert (Cn : forall u, cnt1 (upd (buf s) t r u) <= cnt1 (buf s u)).
  { intros u. unfold upd. destruct (Nat.eq_dec u t) as [->|]; auto. rewrite Hb. unfold cnt1. cbn [filter]. destruct (is1 (x, v)); cbn [length]; lia. }
  assert (Nt : forall u, n <= u -> upd (buf s) t r u = []).
  { intros u Hu. rewrite upd_other by lia. apply (b_nt _ _ H); auto. }
  assert (K : forall y, y <> x -> forall u, pend s u y -> pend (mkT (setm (mem s) x v) (upd (buf s) t r) (pcs s)) u y).
  { intros y Hy u [w Hw]. exists w. cbn. unfold upd. destruct (Nat.eq_dec u t) as [->|]; auto. rewrite Hb in Hw. destruct Hw as [Hw|Hw]; auto. congruence. }
  destruct H as [B1 B2 B3 B4 B5 B6 B7 B8].
  destruct (loc_dec x) as [->|[->|[X0 X1]]].
  - destruct (B4 t v) as [P ->]; [rewrite Hb; left; auto|].
    destruct (zg_all S en lv t HR Ht) as [Y [Y2 Y3]]; [rewrite B1, P; auto|].
    constructor; cbn [mem buf pcs]; try assumption.
    + intros u w Hw. apply B4. auto.
    + intros _. rewrite setm_same, Y; auto. rewrite B1, P. auto.
    + intros u w Hw. rewrite setm_other by discriminate. apply B6 with (v := w). auto.
    + intros Hp. rewrite setm_other by discriminate. apply B7. intros u Hu. apply (Hp u). apply K; auto. discriminate.
    + intros u. specialize (Cn u). specialize (B8 u). lia.
  - destruct (B6 t v) as [P [-> [M O]]]; [rewrite Hb; left; auto|].
    assert (Np : forall u w, ~ In (Reg 1, w) (upd (buf s) t r u)).
    { intros u w Hw. unfold upd in Hw. destruct (Nat.eq_dec u t) as [->|Hne].
      - specialize (B8 t). rewrite Hb in B8. unfold cnt1 in B8. cbn in B8. apply cnt1_in in Hw. unfold cnt1 in Hw. lia.
      - assert (Hu := pend_nt s S u (Reg 1) (mkRb s S B1 B2 B3 B4 B5 B6 B7 B8) (ex_intro _ w Hw)).
        destruct (O u Hu Hne) as [O1 _]. destruct (B6 u w Hw) as [[?|?] _]; congruence. }
    constructor; cbn [mem buf pcs]; try assumption.
    + intros u w Hw. apply B4. auto.
    + intros Hp. rewrite setm_other by discriminate. apply B5. intros u Hu. apply (Hp u). apply K; auto. discriminate.
    + intros u w Hw. destruct (Np u w Hw).
    + intros _. rewrite setm_same. auto.
    + intros u. specialize (Cn u). specialize (B8 u). lia.
  - constructor; cbn [mem buf pcs]; try assumption.
    + intros u w Hw. apply B4. auto.
    + intros Hp. rewrite setm_other by auto. apply B5. intros u Hu. apply (Hp u). apply K; auto.
    + intros u w Hw. rewrite setm_other by auto. apply B6 with (v := w). auto.
    + intros Hp. rewrite setm_other by auto. apply B7. intros u Hu. apply (Hp u). apply K; auto.
    + intros u. specialize (Cn u). specialize (B8 u). lia.
Qed.

Lemma val_succ : forall v, ((Z.of_N v + 1) mod W)%Z = Z.of_N ((v + 1) mod 2 ^ 32)%N.
Proof. intros. rewrite N2Z.inj_mod by discriminate. rewrite N2Z.inj_add. reflexivity. Qed.
Lemma val_last : forall v, 0 < n -> Z.eqb (Z.of_N v) ((Z.of_nat n - 1) mod W) = N.eqb v (BarCentral_Model.last n).
Proof.
  intros v H. rewrite BarCentral_Proof.last_val by auto. unfold W. change (2 ^ 32)%N with 4294967296%N in Hn.
  change (2 ^ 32)%Z with 4294967296%Z. rewrite Z.mod_small by lia.
  destruct (Z.eqb_spec (Z.of_N v) (Z.of_nat n - 1)), (N.eqb_spec v (N.of_nat (n - 1))); auto; lia.
Qed.

(** a step of the store-buffer machine is a step of the other one, or leaves it unchanged *)
Lemma sim : forall s S en lv l s' e, Rb s S -> R S en lv -> step (code n) arr s l = Some (s', e) ->
  exists S', Rb s' S' /\ (bars e = [] /\ S' = S \/ exists l', cstep n S l' = Some (S', bars e)).
Proof.
  intros s S en lv [t a|t] s' e H HR Hs; cbn in Hs.
  2:{ destruct (buf s t) as [|[x v] r] eqn:Hb; [discriminate|]. injection Hs as <- <-. exists S. split; [|auto]. eapply sim_flush; eauto. }
  unfold code in Hs. destruct (Nat.ltb_spec t n) as [Ht|]; [|discriminate]. cbn [negb] in Hs.
  assert (Htb : negb (Nat.ltb t n) = false) by (destruct (Nat.ltb_spec t n); auto; lia).
  assert (Q := b_thr _ _ H t). assert (Ql := b_ls _ _ H t).
  assert (P1 : forall u v, In (Reg 1, v) (buf s u) -> u <> t -> fst (pcs s t) = Sp /\ snd (pcs s t) = csense S).
  { intros u v Hu Hne. destruct (b_1 _ _ H u v Hu) as [_ [_ [_ X]]]. apply X; auto. }
  assert (NP := no_pend0 s S en lv t H HR Ht).
  assert (NF := fun (X : BarCentral_Proof.zg (cthr S t) = true) => zg_all S en lv t HR Ht X).
  destruct H as [B1 B2 B3 B4 B5 B6 B7 B8].
  destruct (pcs s t) as [p ls] eqn:Ep. cbn [fst snd] in *.
  assert (Pcs : forall q m u, fst (upd (pcs s) t (q, m) u) = upd (fun u => fst (pcs s u)) t q u) by (intros; unfold upd; destruct (Nat.eq_dec u t); auto).
  assert (Pls : forall q m u, snd (upd (pcs s) t (q, m) u) = upd (fun u => snd (pcs s u)) t m u) by (intros; unfold upd; destruct (Nat.eq_dec u t); auto).
  assert (Thr : forall q m, ab q = ab p -> forall u, cthr S u = ab (fst (upd (pcs s) t (q, m) u))).
  { intros q m Hq u. rewrite Pcs. unfold upd. destruct (Nat.eq_dec u t) as [->|]; auto. congruence. }
  assert (Thr' : forall q m u, upd (cthr S) t (ab q) u = ab (fst (upd (pcs s) t (q, m) u))).
  { intros q m u. rewrite Pcs. unfold upd. destruct (Nat.eq_dec u t) as [->|]; auto. }
  assert (Ls : forall q u, cls S u = snd (upd (pcs s) t (q, ls) u)).
  { intros q u. rewrite Pls. unfold upd. destruct (Nat.eq_dec u t) as [->|]; auto. }
  (* the two stores nobody else has pending while [t] does not spin *)
  assert (NP1 : p <> Sp -> (forall v, ~ In (Reg 1, v) (buf s t)) -> forall u, ~ pend s u (Reg 1)).
  { intros Hp Hown u [v Hu]. destruct (Nat.eq_dec u t) as [->|Hne]; [eapply Hown; eauto|]. destruct (P1 u v Hu Hne). auto. }
  destruct p, a; try discriminate Hs; cbn [step] in Hs.
  - (* enter *)
    injection Hs as <- <-.
    exists (cmk (cval S) (csense S) (upd (cls S) t (negb (cls S t))) (upd (cthr S) t BarCentral_Model.A)). split.
    + constructor; cbn [mem buf pcs next BarCentral_Model.thr BarCentral_Model.lsense BarCentral_Model.sense BarCentral_Model.value]; auto.
      * exact (Thr' A (negb ls)).
      * intros u. rewrite Pls, Ql. unfold upd. destruct (Nat.eq_dec u t); auto.
      * intros u v Hu. destruct (B4 u v Hu) as [X Y]. split; auto. rewrite Pcs. unfold upd. destruct (Nat.eq_dec u t) as [->|]; auto. rewrite Ep in X. discriminate.
      * intros u v Hu. destruct (B6 u v Hu) as [X [Y [Z1 O]]]. rewrite Pcs. split; [unfold upd; destruct (Nat.eq_dec u t); auto|]. split; auto. split; auto.
        intros w Hw Hwu. destruct (O w Hw Hwu) as [O1 O2]. rewrite Pcs, Pls. unfold upd. destruct (Nat.eq_dec w t) as [->|]; auto. rewrite Ep in O1. discriminate.
    + right. exists (t, BarCentral_Model.AEnter). cbn [bars]. unfold BarCentral_Model.step. rewrite Htb, Q. cbn. auto.
  - (* read *)
    injection Hs as <- <-. exists S. split; [|auto].
    assert (X : forall u, upd (pcs s) t (Out, ls) u = pcs s u) by (intros u; unfold upd; destruct (Nat.eq_dec u t) as [->|]; auto).
    constructor; cbn [mem buf pcs next]; auto.
    + intros u v Hu. rewrite X. auto.
    + intros u v Hu. rewrite X. destruct (B6 u v Hu) as [Y1 [Y2 [Y3 O]]]. split; auto. split; auto. split; auto. intros w Hw Hwu. rewrite X. auto.
  - (* write *)
    injection Hs as <- <-. exists S. split; [|auto].
    assert (X : forall u, upd (pcs s) t (Out, ls) u = pcs s u) by (intros u; unfold upd; destruct (Nat.eq_dec u t) as [->|]; auto).
    assert (In1 : forall u k w, In (Reg k, w) (upd (buf s) t (buf s t ++ [(Dat i, v)]) u) <-> In (Reg k, w) (buf s u)).
    { intros u k w. unfold upd. destruct (Nat.eq_dec u t) as [->|]; [|tauto]. rewrite in_app_iff. split; [intros [Y|[Y|[]]]; [auto|discriminate]|auto]. }
    constructor; cbn [mem buf pcs].
    + intros u. rewrite X. auto.
    + auto.
    + intros u Hu. rewrite upd_other by lia. auto.
    + intros u w Hu. rewrite X. apply B4. apply In1 in Hu. auto.
    + intros Hp. apply B5. intros u [w Hu]. apply (Hp u). exists w. apply In1. auto.
    + intros u w Hu. apply In1 in Hu. rewrite X. destruct (B6 u w Hu) as [Y1 [Y2 [Y3 O]]]. split; auto. split; auto. split; auto. intros z Hz Hzu. rewrite X. auto.
    + intros Hp. apply B7. intros u [w Hu]. apply (Hp u). exists w. apply In1. auto.
    + intros u. unfold upd. destruct (Nat.eq_dec u t) as [->|]; auto. unfold cnt1. rewrite filter_app, app_length. cbn. specialize (B8 t). unfold cnt1 in B8. lia.
  - (* faa *)
    destruct (buf s t) eqn:Hb; [|discriminate]. injection Hs as <- <-.
    assert (V : mem s (Reg 0) = Z.of_N (cval S)). { apply B5. apply NP; auto. rewrite Q. discriminate. }
    rewrite V, val_succ, val_last by lia.
    assert (N1 : forall u v, ~ In (Reg 1, v) (buf s u)).
    { intros u v Hu. apply (NP1 ltac:(discriminate) ltac:(intros w Hw; try rewrite Hb in Hw; destruct Hw) u). exists v. auto. }
    set (q := if N.eqb (cval S) (BarCentral_Model.last n) then Zr else Sp).
    exists (cmk ((cval S + 1) mod 2 ^ 32)%N (csense S) (cls S) (upd (cthr S) t (ab q))). split.
    + constructor; cbn [mem buf pcs BarCentral_Model.thr BarCentral_Model.lsense BarCentral_Model.sense BarCentral_Model.value]; auto.
      * intros u v Hu. destruct (B4 u v Hu) as [X Y]. split; auto. rewrite Pcs. unfold upd. destruct (Nat.eq_dec u t) as [->|]; auto. rewrite Hb in Hu. destruct Hu.
      * intros u v Hu. destruct (N1 u v Hu).
    + right. exists (t, BarCentral_Model.ATick). cbn [bars]. unfold BarCentral_Model.step. rewrite Htb, Q. cbn [ab]. unfold q.
      destruct (N.eqb (cval S) (BarCentral_Model.last n)); reflexivity.
  - (* store value *)
    injection Hs as <- <-.
    assert (N1 : forall u v, ~ In (Reg 1, v) (buf s u)).
    { intros u v Hu. apply (NP1 ltac:(discriminate)) with (u := u); [|exists v; auto]. intros w Hw. destruct (B6 t w Hw) as [[X|X] _]; rewrite Ep in X; discriminate. }
    exists (cmk 0 (csense S) (cls S) (upd (cthr S) t BarCentral_Model.G)). split.
    + constructor; cbn [mem buf pcs BarCentral_Model.thr BarCentral_Model.lsense BarCentral_Model.sense BarCentral_Model.value]; auto.
      * exact (Thr' Fe ls).
      * intros u Hu. rewrite upd_other by lia. auto.
      * intros u v Hu. rewrite Pcs. unfold upd in *. destruct (Nat.eq_dec u t) as [->|]; auto. apply in_app_iff in Hu. destruct Hu as [Hu|[Hu|[]]]; [|injection Hu as <-; auto].
        destruct (B4 t v Hu) as [X _]. rewrite Ep in X. discriminate.
      * intros Hp. exfalso. apply (Hp t). exists 0%Z. cbn [buf]. rewrite upd_same. apply in_app_iff. right. left. auto.
      * intros u v Hu. exfalso. unfold upd in Hu. destruct (Nat.eq_dec u t) as [->|]; [|eapply N1; eauto].
        apply in_app_iff in Hu. destruct Hu as [Hu|[Hu|[]]]; [eapply N1; eauto|discriminate].
      * intros Hp. apply B7. intros u [w Hu]. eapply N1; eauto.
      * intros u. rewrite cnt1_0; auto. intros v Hu. unfold upd in Hu. destruct (Nat.eq_dec u t) as [->|]; [|eapply N1; eauto].
        apply in_app_iff in Hu. destruct Hu as [Hu|[Hu|[]]]; [eapply N1; eauto|discriminate].
    + right. exists (t, BarCentral_Model.ATick). cbn [bars]. unfold BarCentral_Model.step. rewrite Htb, Q. reflexivity.
  - (* fence *)
    destruct (buf s t) eqn:Hb; [|discriminate]. injection Hs as <- <-. exists S. split; [|auto].
    assert (N1 : forall u v, ~ In (Reg 1, v) (buf s u)).
    { intros u v Hu. apply (NP1 ltac:(discriminate) ltac:(intros w Hw; try rewrite Hb in Hw; destruct Hw) u). exists v. auto. }
    constructor; cbn [mem buf pcs next]; auto.
    + intros u v Hu. destruct (B4 u v Hu) as [X Y]. split; auto. rewrite Pcs. unfold upd. destruct (Nat.eq_dec u t) as [->|]; auto. rewrite Hb in Hu. destruct Hu.
    + intros u v Hu. destruct (N1 u v Hu).
  - (* store sense *)
    injection Hs as <- <-.
    assert (N1 : forall u v, ~ In (Reg 1, v) (buf s u)).
    { intros u v Hu. apply (NP1 ltac:(discriminate)) with (u := u); [|exists v; auto]. intros w Hw. destruct (B6 t w Hw) as [[X|X] _]; rewrite Ep in X; discriminate. }
    destruct NF as [_ [Y2 Y3]]; [rewrite Q; auto|].
    exists (cmk (cval S) (cls S t) (cls S) (upd (cthr S) t BarCentral_Model.Out)). split.
    + constructor; cbn [mem buf pcs BarCentral_Model.thr BarCentral_Model.lsense BarCentral_Model.sense BarCentral_Model.value]; auto.
      * exact (Thr' Out ls).
      * intros u Hu. rewrite upd_other by lia. auto.
      * intros u v Hu. rewrite Pcs. unfold upd in *. destruct (Nat.eq_dec u t) as [->|]; auto. apply in_app_iff in Hu. destruct Hu as [Hu|[Hu|[]]]; [|discriminate].
        destruct (B4 t v Hu) as [X _]. rewrite Ep in X. discriminate.
      * intros Hp. apply B5. intros u [w Hu]. apply (Hp u). exists w. cbn [buf]. unfold upd. destruct (Nat.eq_dec u t) as [->|]; auto. apply in_app_iff. auto.
      * intros u v Hu. unfold upd in Hu. destruct (Nat.eq_dec u t) as [->|]; [|exfalso; eapply N1; eauto].
        apply in_app_iff in Hu. destruct Hu as [Hu|[Hu|[]]]; [exfalso; eapply N1; eauto|]. injection Hu as <-. rewrite upd_same.
        split; [auto|]. split; [rewrite Ql; auto|]. split; [rewrite Y2, negb_involutive; apply B7; intros u [w Hu]; eapply N1; eauto|].
        intros w Hw Hwt. destruct (Y3 w Hw Hwt) as [Z1 Z2]. rewrite upd_other by auto. rewrite B1 in Z1. rewrite <- B2. split; auto.
        destruct (fst (pcs s w)); auto; discriminate.
      * intros Hp. exfalso. apply (Hp t). exists (b2z ls). cbn [buf]. rewrite upd_same. apply in_app_iff. right. left. auto.
      * intros u. unfold upd. destruct (Nat.eq_dec u t) as [->|]; auto. unfold cnt1. rewrite filter_app, app_length.
        assert (X := cnt1_0 (buf s t) (N1 t)). unfold cnt1 in X. rewrite X. cbn. auto.
    + right. exists (t, BarCentral_Model.ATick). cbn [bars]. unfold BarCentral_Model.step. rewrite Htb, Q. reflexivity.
  - (* spin *)
    assert (Own : forall k v, ~ In (Reg k, v) (buf s t) \/ k <> 1) by (intros k v; destruct (Nat.eq_dec k 1) as [->|]; auto; left; intros X; destruct (B6 t v X) as [[Y|Y] _]; rewrite Ep in Y; discriminate).
    assert (Vw : view s t (Reg 1) = mem s (Reg 1)). { unfold view. apply fwd_none. intros v. destruct (Own 1 v); auto. }
    rewrite Vw in Hs.
    assert (D : mem s (Reg 1) = b2z (csense S) \/ mem s (Reg 1) = b2z (negb (csense S)) /\ ls = csense S).
    { destruct (Z.eq_dec (mem s (Reg 1)) (b2z (csense S))) as [X|X]; auto. right.
      destruct (ex_dec (fun u => negb (Nat.eqb (cnt1 (buf s u)) 0)) n) as [[u [Hu X1]]|X1].
      - assert (X2 : exists v, In (Reg 1, v) (buf s u)).
        { clear - X1. destruct (Nat.eqb_spec (cnt1 (buf s u)) 0) as [|C]; [discriminate|]. clear X1. revert C.
          generalize (buf s u). induction l as [|[[i|[|[|i]]] w] l IH]; intros C; [destruct (C eq_refl)| | | |];
          try (destruct (IH C) as [v Hv]; exists v; right; exact Hv). exists w. left. auto. }
        destruct X2 as [v Hv]. destruct (B6 u v Hv) as [_ [_ [M _]]]. split; auto.
        destruct (Nat.eq_dec u t) as [->|Hne]; [destruct (Own 1 v); tauto|]. destruct (P1 u v Hv Hne). auto.
      - exfalso. apply X. apply B7. intros u [v Hv].
        assert (Hu := pend_nt s S u (Reg 1) (mkRb s S B1 B2 B3 B4 B5 B6 B7 B8) (ex_intro _ v Hv)).
        specialize (X1 u Hu). apply cnt1_in in Hv. destruct (Nat.eqb_spec (cnt1 (buf s u)) 0); [lia|discriminate]. }
    assert (Sk : forall e0, bars e0 = [] -> Rb (next s t (Sp, ls)) S).
    { intros _ _. assert (X : forall u, upd (pcs s) t (Sp, ls) u = pcs s u) by (intros u; unfold upd; destruct (Nat.eq_dec u t) as [->|]; auto).
      constructor; cbn [mem buf pcs next]; auto.
      + intros u v Hu. rewrite X. auto.
      + intros u v Hu. rewrite X. destruct (B6 u v Hu) as [Z1 [Z2 [Z3 O]]]. split; auto. split; auto. split; auto. intros w Hw Hwu. rewrite X. auto. }
    destruct (Z.eqb_spec (b2z ls) (mem s (Reg 1))) as [Eq|Ne]; injection Hs as <- <-.
    2:{ exists S. split; [apply (Sk []); auto|auto]. }
    destruct D as [D|[D ->]].
    2:{ exfalso. rewrite D in Eq. apply Z.eqb_eq in Eq. rewrite b2z_inj in Eq. destruct (csense S); discriminate. }
    rewrite D in Eq. apply Z.eqb_eq in Eq. rewrite b2z_inj in Eq. apply eqb_prop in Eq.
    assert (N1 : forall u v, ~ In (Reg 1, v) (buf s u)).
    { intros u v Hu. destruct (B6 u v Hu) as [_ [_ [M _]]]. rewrite D in M. assert (M' := proj2 (Z.eqb_eq _ _) M). rewrite b2z_inj in M'. destruct (csense S); discriminate. }
    exists (BarCentral_Model.go S t BarCentral_Model.Out). split.
    + constructor; cbn [mem buf pcs next BarCentral_Model.go BarCentral_Model.thr BarCentral_Model.lsense BarCentral_Model.sense BarCentral_Model.value]; auto.
      * exact (Thr' Out ls).
      * intros u v Hu. destruct (B4 u v Hu) as [X Y]. split; auto. rewrite Pcs. unfold upd. destruct (Nat.eq_dec u t) as [->|]; auto. rewrite Ep in X. discriminate.
      * intros u v Hu. destruct (N1 u v Hu).
    + right. exists (t, BarCentral_Model.ATick). cbn [bars]. unfold BarCentral_Model.step. rewrite Htb, Q. cbn [ab]. rewrite Ql, Eq, eqb_reflx. reflexivity.
Qed.

(** * Separation and progress *)
Definition R' (s : T) (en lv : nat -> nat) : Prop := exists S, Rb s S /\ R S en lv.
Definition bstep (s : T) (l : lab act) : option (T * list bev) :=
  match step (code n) arr s l with Some (s', e) => Some (s', bars e) | None => None end.

Lemma bars_app : forall l1 l2, bars (l1 ++ l2) = bars l1 ++ bars l2.
Proof. induction l1 as [|[e| |] l1 IH]; intros; cbn; auto. rewrite IH. auto. Qed.
Lemma run_bars : forall ls s s' log, run (step (code n) arr) s ls = Some (s', log) -> run bstep s ls = Some (s', bars log).
Proof.
  induction ls as [|l ls IH]; intros s s' log H; cbn [run] in *; [injection H as <- <-; auto|]. unfold bstep at 1.
  destruct (step (code n) arr s l) as [[s1 e]|]; [|discriminate]. destruct (run (step (code n) arr) s1 ls) as [[s2 lg]|] eqn:Er; [|discriminate].
  injection H as <- <-. rewrite (IH _ _ _ Er), bars_app. auto.
Qed.
Lemma run_bars' : forall ls s s' l, run bstep s ls = Some (s', l) -> exists log, run (step (code n) arr) s ls = Some (s', log) /\ bars log = l.
Proof.
  induction ls as [|l ls IH]; intros s s' lg H; cbn [run] in *; [injection H as <- <-; exists []; auto|]. unfold bstep at 1 in H.
  destruct (step (code n) arr s l) as [[s1 e]|]; [|discriminate]. destruct (run bstep s1 ls) as [[s2 l2]|] eqn:Er; [|discriminate].
  injection H as <- <-. destruct (IH _ _ _ Er) as [log [A1 <-]]. exists (e ++ log). rewrite A1, bars_app. auto.
Qed.

Lemma R'_init : forall D, R' (init D) (fun _ => 0) (fun _ => 0).
Proof.
  intros D. exists BarCentral_Model.init. split; [|apply BarCentral_Proof.R_init; auto].
  constructor; cbn; auto; intros; tauto.
Qed.

Lemma R'_step0 : forall s en lv l s' e, R' s en lv -> step (code n) arr s l = Some (s', e) ->
  (bars e = [] /\ R' s' en lv) \/ (exists t, bars e = [Enter t] /\ R' s' (upd en t (Datatypes.S (en t))) lv) \/
  (exists t, bars e = [Leave t] /\ R' s' en (upd lv t (Datatypes.S (lv t)))).
Proof.
  intros s en lv l s' e [S [H HR]] Hs. destruct (sim s S en lv l s' e H HR Hs) as [S' [H' [[E ->]|[l' Hl]]]].
  - left. split; auto. exists S. auto.
  - destruct (BarCentral_Proof.R_step n Hn S en lv l' S' _ HR Hl) as [[E X]|[[t [E X]]|[t [E X]]]].
    + left. split; auto. exists S'. auto.
    + right. left. exists t. split; auto. exists S'. auto.
    + right. right. exists t. split; auto. exists S'. auto.
Qed.
Lemma R'_step : forall s en lv l s' e, R' s en lv -> bstep s l = Some (s', e) ->
  (e = [] /\ R' s' en lv) \/ (exists t, e = [Enter t] /\ R' s' (upd en t (Datatypes.S (en t))) lv) \/
  (exists t, e = [Leave t] /\ R' s' en (upd lv t (Datatypes.S (lv t)))).
Proof.
  intros s en lv l s' e H Hs. unfold bstep in Hs. destruct (step (code n) arr s l) as [[s1 e1]|] eqn:E; [|discriminate].
  injection Hs as <- <-. eapply R'_step0; eauto.
Qed.
Lemma R'_safe : forall s en lv t u, R' s en lv -> t < n -> u < n -> lv t <= en u.
Proof. intros s en lv t u [S [_ H]]. eapply BarCentral_Proof.R_safe; eauto. Qed.

Definition w (p : pc) : nat := match p with Out => 0 | Sp => 1 | G => 3 | Fe => 4 | Zr => 6 | A => 7 end.
Definition wt (s : T) (t : nat) : nat := w (fst (pcs s t)) + length (buf s t).
Definition mu (s : T) : nat := wsum (wt s) n.
Lemma mu_drop : forall s s' t, t < n -> (forall u, u <> t -> wt s u = wt s' u) -> wt s' t < wt s t -> mu s' < mu s.
Proof. intros s s' t Ht H1 H2. unfold mu. assert (X := wsum_change (wt s) (wt s') n t Ht H1). lia. Qed.

Lemma R'_prog : forall s en lv k t, R' s en lv -> (forall u, u < n -> k <= en u) -> t < n -> lv t < k ->
  exists l s' e, bstep s l = Some (s', e) /\ (forall u, ~ In (Enter u) e) /\ (e = [Leave t] \/ mu s' < mu s).
Proof.
  intros s en lv k t [S [H HR]] Hk Ht Hl.
  assert (Hnone : forall u : nat, ~ In (Enter u) []) by (intros u []).
  assert (Hlv : forall v u, ~ In (Enter u) [Leave v]) by (intros v u [X|[]]; discriminate).
  destruct (ex_dec (fun u => match buf s u with [] => false | _ => true end) n) as [[u [Hu Hb]]|He].
  { destruct (buf s u) as [|[x v] r] eqn:Eb; [discriminate|].
    exists (Flush u). eexists. exists []. unfold bstep. cbn [step]. rewrite Eb. split; [reflexivity|]. split; auto. right.
    apply mu_drop with u; auto; unfold wt; cbn [pcs buf].
    - intros i Hi. rewrite upd_other by auto. auto.
    - rewrite upd_same, Eb. cbn [length]. lia. }
  assert (Emp : forall u, buf s u = []).
  { intros u. destruct (Nat.lt_ge_cases u n) as [X|X]; [|apply (b_nt _ _ H); auto]. specialize (He u X). destruct (buf s u); auto. discriminate. }
  assert (Np : forall x u, ~ pend s u x) by (intros x u [v Hv]; rewrite Emp in Hv; destruct Hv).
  destruct (BarCentral_Proof.R_prog n Hn S en lv k t HR Hk Ht Hl) as [[z a] [S' [e [Hs [E1 E2]]]]].
  unfold BarCentral_Model.step in Hs. destruct (Nat.ltb_spec z n) as [Hz|]; [|discriminate]. cbn [negb] in Hs.
  assert (Hzb : negb (Nat.ltb z n) = false) by (destruct (Nat.ltb_spec z n); auto; lia).
  assert (Q := b_thr _ _ H z). assert (Ql := b_ls _ _ H z). rewrite Q in Hs.
  destruct (pcs s z) as [p ls] eqn:Ep. cbn [fst snd] in *.
  assert (Go' : forall s' e0, step (code n) arr s (Go z ATick) = Some (s', e0) -> (forall u, ~ In (Enter u) (bars e0)) ->
     (forall u, u <> z -> wt s u = wt s' u) -> wt s' z < wt s z ->
     exists l s' e, bstep s l = Some (s', e) /\ (forall u, ~ In (Enter u) e) /\ (e = [Leave t] \/ mu s' < mu s)).
  { intros s' e0 Hst Hne H1 H2. exists (Go z ATick), s', (bars e0). unfold bstep. rewrite Hst. split; auto. split; auto. right. apply mu_drop with z; auto. }
  cbn [step] in Go'. rewrite Ep in Go'. unfold code in Go'. rewrite Hzb in Go'.
  destruct p, a; try discriminate Hs; cbn [ab] in Hs.
  - injection Hs as <- <-. exfalso. apply (E1 z). left. auto.
  - rewrite Emp in Go'. cbn beta iota zeta in Go'. eapply Go'; [reflexivity|auto| |]; unfold wt; cbn [pcs buf].
    + intros u Hu. rewrite upd_other; auto.
    + rewrite upd_same, Ep, Emp. cbn [fst]. destruct (Z.eqb _ _); cbn; lia.
  - eapply Go'; [reflexivity|auto| |]; unfold wt; cbn [pcs buf].
    + intros u Hu. rewrite !upd_other; auto.
    + rewrite !upd_same, Ep, Emp. cbn. lia.
  - rewrite Emp in Go'. eapply Go'; [reflexivity|auto| |]; unfold wt; cbn [pcs buf next].
    + intros u Hu. rewrite !upd_other; auto.
    + rewrite !upd_same, Ep, Emp. cbn. lia.
  - eapply Go'; [reflexivity|cbn [bars]; apply Hlv| |]; unfold wt; cbn [pcs buf].
    + intros u Hu. rewrite !upd_other; auto.
    + rewrite !upd_same, Ep, Emp. cbn. lia.
  - destruct (Bool.eqb (cls S z) (csense S)) eqn:Eq.
    2:{ exfalso. injection Hs as <- <-. destruct E2 as [E2|E2]; [discriminate|lia]. }
    apply eqb_prop in Eq. unfold view in Go'. rewrite Emp in Go'. cbn [fwd] in Go'. rewrite (b_s _ _ H (Np (Reg 1))), b2z_inj, <- Ql, Eq, eqb_reflx in Go'.
    eapply Go'; [reflexivity|cbn [bars]; apply Hlv| |]; unfold wt; cbn [pcs buf next].
    + intros u Hu. rewrite !upd_other; auto.
    + rewrite !upd_same, Ep. cbn. lia.
Qed.

Theorem sep : forall D ls s log, run (step (code n) arr) (init D) ls = Some (s, log) ->
  separated n (bars log) /\ returns_after_all n (bars log).
Proof.
  intros D ls s log H. apply run_bars in H. split.
  - eapply (bar_separated bstep (init D) n R' (R'_init D) R'_step R'_safe); eauto.
  - eapply (bar_returns bstep (init D) n R' (R'_init D) R'_step R'_safe); eauto.
Qed.

Theorem prog : forall D ls s log k t, run (step (code n) arr) (init D) ls = Some (s, log) ->
  (forall u, u < n -> k <= enters u (bars log)) -> t < n -> leaves t (bars log) < k ->
  exists ls' s' log', run (step (code n) arr) s ls' = Some (s', log') /\ In (Leave t) (bars log') /\ (forall u, ~ In (Enter u) (bars log')).
Proof.
  intros D ls s log k t H Hk Ht Hl. apply run_bars in H.
  destruct (bar_progress bstep (init D) n R' (R'_init D) R'_step mu R'_prog ls s _ k t H Hk Ht Hl) as [ls' [s' [l [A1 [A2 A3]]]]].
  destruct (run_bars' _ _ _ _ A1) as [log' [B1 <-]]. exists ls', s', log'. auto.
Qed.

(** * The client's data *)
Definition okp (s : T) (a : dst) (u q : nat) : Prop :=
  fst (pcs s u) = Out /\ ph a u = q \/ fst (pcs s u) = A /\ ph a u = Datatypes.S q.
Definition DI (s : T) (a : dst) (i : nat) : Prop :=
  match lw a i with
  | None => (forall u, view s u (Dat i) = dv a i) /\ forall u, ~ pend s u (Dat i)
  | Some (u, q) => view s u (Dat i) = dv a i /\ (forall v, v <> u -> ~ pend s v (Dat i)) /\ (pend s u (Dat i) -> okp s a u q)
  end.

Lemma DI_gen : forall s a s' a' i, DI s a i -> dv a' i = dv a i -> lw a' i = lw a i ->
  (forall u, pend s' u (Dat i) -> pend s u (Dat i)) ->
  (forall u, lw a i = None \/ (exists q, lw a i = Some (u, q)) -> view s' u (Dat i) = view s u (Dat i)) ->
  (forall u q, pend s' u (Dat i) -> okp s a u q -> okp s' a' u q) -> DI s' a' i.
Proof.
  intros s a s' a' i H E1 E2 Hp Hv Ho. unfold DI in *. rewrite E1, E2. destruct (lw a i) as [[u q]|] eqn:El.
  - destruct H as [H1 [H2 H3]]. split; [rewrite Hv; eauto|]. split; [|auto]. intros v Hne X. apply (H2 v Hne). auto.
  - destruct H as [H1 H2]. split; [intros u; rewrite Hv; auto|]. intros u X. apply (H2 u). auto.
Qed.

Lemma DI_acc : forall s S a lv t i, Rb s S -> R S (ph a) lv -> DI s a i -> t < n -> fst (pcs s t) = Out -> ordered a t i = true ->
  (forall u, u <> t -> ~ pend s u (Dat i)) /\ view s t (Dat i) = dv a i.
Proof.
  intros s S a lv t i H [E HR] Hd Ht Ho Hor. unfold DI, ordered in *. destruct (lw a i) as [[u q]|]; [|destruct Hd; auto].
  destruct Hd as [H1 [H2 H3]]. destruct (Nat.eqb_spec u t) as [->|Hne]; auto. cbn [orb] in Hor. apply Nat.ltb_lt in Hor.
  assert (X : ~ pend s u (Dat i)).
  { intros Hp. assert (Hu := pend_nt s S u (Dat i) H Hp). specialize (H3 Hp).
    assert (Xt := BarCentral_Proof.r_t _ _ _ _ _ HR t Ht). assert (Xu := BarCentral_Proof.r_t _ _ _ _ _ HR u Hu).
    rewrite (b_thr _ _ H), Ho in Xt. rewrite (b_thr _ _ H) in Xu. cbn [ab] in Xt.
    destruct H3 as [[Y1 Y2]|[Y1 Y2]]; rewrite Y1 in Xu; cbn [ab] in Xu; lia. }
  split.
  - intros v _. destruct (Nat.eq_dec v u) as [->|]; auto.
  - rewrite <- H1. unfold view. rewrite !fwd_none; auto.
    + intros v Hv. apply X. exists v. auto.
    + intros v Hv. apply (H2 t); [auto|]. exists v. auto.
Qed.

Definition nph (a : dst) (e : list dbev) : nat -> nat :=
  match e with [Bar (Enter t)] => upd (ph a) t (Datatypes.S (ph a t)) | _ => ph a end.

Lemma DI_step : forall s S a lv l s' e, Rb s S -> R S (ph a) lv -> (forall i, DI s a i) -> step (code n) arr s l = Some (s', e) ->
  exists x, accepts d_step (Some a) e = Some x /\ match x with None => True | Some a' => ph a' = nph a e /\ forall i, DI s' a' i end.
Proof.
  intros s S a lv [t ac|t] s' e H HR Hd Hs; cbn [step] in Hs.
  2:{ destruct (buf s t) as [|[x v] r] eqn:Hb; [discriminate|]. injection Hs as <- <-. exists (Some a). split; auto. split; auto. intros i.
      apply DI_gen with (s := s) (a := a); auto.
      - intros u [z Hz]. exists z. cbn [buf] in Hz. unfold upd in Hz. destruct (Nat.eq_dec u t) as [->|]; auto. rewrite Hb. right. auto.
      - intros u Hl. unfold view. cbn [mem buf]. unfold upd. destruct (Nat.eq_dec u t) as [->|Hne]; [rewrite Hb, fwd_flush; auto|].
        f_equal. apply setm_other. intros ->. assert (Hp : pend s t (Dat i)) by (exists v; rewrite Hb; left; auto).
        specialize (Hd i). unfold DI in Hd. destruct Hl as [Hl|[q Hl]]; rewrite Hl in Hd.
        + destruct Hd as [_ Hd]. apply (Hd t). auto.
        + destruct Hd as [_ [Hd _]]. apply (Hd t); auto. }
  unfold code in Hs. destruct (Nat.ltb_spec t n) as [Ht|]; [|discriminate]. cbn [negb] in Hs.
  destruct (pcs s t) as [p ls] eqn:Ep.
  assert (Acc := fun i X => DI_acc s S a lv t i H HR (Hd i) Ht X). rewrite Ep in Acc. cbn [fst] in Acc.
  (* a participant inside the call has no data pending *)
  assert (Ins : p <> Out -> p <> A -> forall i, ~ pend s t (Dat i)).
  { intros P1 P2 i Hp. specialize (Hd i). unfold DI in Hd. destruct (lw a i) as [[u q]|].
    - destruct Hd as [_ [D2 D3]]. destruct (Nat.eq_dec t u) as [->|Hne]; [|apply (D2 t Hne Hp)].
      destruct (D3 Hp) as [[X _]|[X _]]; rewrite Ep in X; cbn in X; auto.
    - destruct Hd as [_ Hd]. apply (Hd t Hp). }
  (* the program counter moves, the data does not *)
  assert (Mv : forall m b q, (forall i, m (Dat i) = mem s (Dat i)) -> (forall i, ~ pend s t (Dat i)) ->
     (forall u, u <> t -> b u = buf s u) -> (forall i z, In (Dat i, z) (b t) -> In (Dat i, z) (buf s t)) ->
     forall i, DI (mkT m b (upd (pcs s) t q)) a i).
  { intros m b q Hm Hp Hb Hbt i. apply DI_gen with (s := s) (a := a); auto.
    - intros u [z Hz]. exists z. cbn [buf] in Hz. destruct (Nat.eq_dec u t) as [->|Hne]; auto. rewrite Hb in Hz; auto.
    - intros u _. unfold view. cbn [mem buf]. rewrite Hm. destruct (Nat.eq_dec u t) as [->|Hne]; [|rewrite Hb; auto].
      rewrite !fwd_none; auto; intros z Hz; apply (Hp i); exists z; auto.
    - intros u k [z Hz] Ho. cbn [buf] in Hz. destruct (Nat.eq_dec u t) as [->|Hne]; [exfalso; apply (Hp i); exists z; auto|].
      unfold okp in *. cbn [pcs]. rewrite upd_other by auto. auto. }
  assert (Np : buf s t = [] -> forall i, ~ pend s t (Dat i)) by (intros X i [z Hz]; rewrite X in Hz; destruct Hz).
  assert (Ap : forall k v i z, In (Dat i, z) (upd (buf s) t (buf s t ++ [(Reg k, v)]) t) -> In (Dat i, z) (buf s t)).
  { intros k v i z X. rewrite upd_same in X. apply in_app_iff in X. destruct X as [X|[X|[]]]; auto. discriminate. }
  destruct p, ac; try discriminate Hs.
  - (* enter *)
    injection Hs as <- <-. exists (Some {| ph := upd (ph a) t (Datatypes.S (ph a t)); dv := dv a; lw := lw a |}). split; [reflexivity|]. split; [reflexivity|].
    intros i. apply DI_gen with (s := s) (a := a); auto.
    intros u q _ Ho. unfold okp in *. cbn [pcs next ph]. unfold upd. destruct (Nat.eq_dec u t) as [->|]; auto. cbn [fst]. right. split; auto.
    rewrite Ep in Ho. cbn [fst] in Ho. destruct Ho as [[_ Ho]|[Ho _]]; [lia|discriminate].
  - (* read *)
    injection Hs as <- <-. cbn [accepts d_step]. destruct (ordered a t i) eqn:Eo; [|exists None; auto].
    destruct (Acc i eq_refl Eo) as [_ ->]. rewrite Z.eqb_refl. exists (Some a). split; auto. split; auto. intros j. apply DI_gen with (s := s) (a := a); auto.
    intros u q _ Ho. unfold okp in *. cbn [pcs next]. unfold upd. destruct (Nat.eq_dec u t) as [->|]; auto. rewrite Ep in Ho. auto.
  - (* write *)
    injection Hs as <- <-. cbn [accepts d_step]. destruct (ordered a t i) eqn:Eo; [|exists None; auto].
    destruct (Acc i eq_refl Eo) as [A1 _]. eexists. split; [reflexivity|]. split; auto. intros j.
    assert (Ok : forall a' u q, ph a' = ph a -> okp s a u q -> okp (mkT (mem s) (upd (buf s) t (buf s t ++ [(Dat i, v)])) (upd (pcs s) t (Out, ls))) a' u q).
    { intros a' u q Ha Ho. unfold okp in *. cbn [pcs]. rewrite Ha. unfold upd. destruct (Nat.eq_dec u t) as [->|]; auto. rewrite Ep in Ho. auto. }
    destruct (Nat.eq_dec j i) as [->|Hj].
    + unfold DI. cbn [lw dv]. rewrite !upd_same. split; [|split].
      * unfold view. cbn [mem buf]. rewrite upd_same, fwd_app. cbn. rewrite Nat.eqb_refl. auto.
      * intros u Hne [z Hz]. cbn [buf] in Hz. rewrite upd_other in Hz by auto. apply (A1 u Hne). exists z. auto.
      * intros _. left. cbn [pcs ph]. rewrite upd_same. auto.
    + apply DI_gen with (s := s) (a := a); auto; cbn [dv lw]; try (rewrite upd_other; auto).
      * intros u [z Hz]. exists z. cbn [buf] in Hz. unfold upd in Hz. destruct (Nat.eq_dec u t) as [->|]; auto.
        apply in_app_iff in Hz. destruct Hz as [Hz|[Hz|[]]]; auto. congruence.
      * intros u _. unfold view. cbn [mem buf]. unfold upd. destruct (Nat.eq_dec u t) as [->|]; auto. rewrite fwd_app. cbn.
        destruct (Nat.eqb_spec i j); congruence.
  - (* faa *)
    destruct (buf s t) eqn:Hb; [|discriminate]. injection Hs as <- <-. exists (Some a). split; [auto|]. split; [auto|]. apply Mv; auto.
    intros i z. rewrite Hb. auto.
  - (* store value *)
    injection Hs as <- <-. exists (Some a). split; [auto|]. split; [auto|]. apply Mv; auto; try (apply Ins; discriminate).
    + intros u Hu. rewrite upd_other; auto.
    + apply Ap.
  - (* fence *)
    destruct (buf s t) eqn:Hb; [|discriminate]. injection Hs as <- <-. exists (Some a). split; [auto|]. split; [auto|]. apply Mv; auto.
    intros i z. rewrite Hb. auto.
  - (* store sense *)
    injection Hs as <- <-. exists (Some a). split; [auto|]. split; [auto|]. apply Mv; auto; try (apply Ins; discriminate).
    + intros u Hu. rewrite upd_other; auto.
    + apply Ap.
  - (* spin *)
    destruct (Z.eqb _ _) in Hs; injection Hs as <- <-; exists (Some a); (split; [auto|]); (split; [auto|]); apply Mv; auto; apply Ins; discriminate.
Qed.

Lemma accepts_none : forall e, accepts d_step None e = Some None.
Proof. induction e; cbn; auto. Qed.

Theorem data_ok : forall D ls s log, run (step (code n) arr) (init D) ls = Some (s, log) -> data_legal D log.
Proof.
  intros D ls s log Hr. unfold data_legal.
  destruct (run_refines (step (code n) arr) d_step
    (fun s x => exists en lv, R' s en lv /\ match x with None => True | Some a => ph a = en /\ forall i, DI s a i end)
    (init D) (Some {| ph := fun _ => 0; dv := D; lw := fun _ => None |})) with (ls := ls) (s := s) (log := log) as [x [X _]]; auto; [| |exists x; auto].
  - exists (fun _ => 0), (fun _ => 0). split; [apply R'_init|]. split; auto. intros i. unfold DI. cbn. split; auto. intros u [v []].
  - intros s1 x l s2 ev [en [lv [HR Hx]]] Hs. assert (HR2 := R'_step0 _ _ _ _ _ _ HR Hs). destruct x as [a|].
    + destruct Hx as [<- Hd]. destruct HR as [S [Hb HR]]. destruct (DI_step s1 S a lv l s2 ev Hb HR Hd Hs) as [x [Hx Hy]]. exists x. split; auto.
      destruct x as [a'|].
      * destruct Hy as [Y1 Y2]. destruct HR2 as [[E X]|[[t [E X]]|[t [E X]]]].
        -- exists (ph a), lv. split; auto. split; auto. rewrite Y1. destruct ev as [|[[t|t]| |] [|? ?]]; auto; discriminate.
        -- exists (upd (ph a) t (Datatypes.S (ph a t))), lv. split; auto. split; auto. rewrite Y1. clear - E Hs.
           assert (L1 : length ev <= 1).
           { destruct l as [u b|u]; cbn [step] in Hs; [|destruct (buf s1 u) as [|[? ?] ?]; [discriminate|]; injection Hs as <- <-; auto].
             unfold code in Hs. destruct (negb _); [discriminate|]. destruct (pcs s1 u) as [[| | | | |] ?], b; try discriminate; 
             cbv beta iota in Hs; repeat match type of Hs with context [Z.eqb ?x ?y] => destruct (Z.eqb x y) end;
             try (destruct (buf s1 u); [|discriminate]); injection Hs as <- <-; cbn; lia. }
           destruct ev as [|[[u|u]| |] [|? ?]]; cbn in *; try discriminate; try lia. injection E as ->. auto.
        -- exists (ph a), (upd lv t (Datatypes.S (lv t))). split; auto. split; auto. rewrite Y1. destruct ev as [|[[u|u]| |] [|? ?]]; auto; discriminate.
      * destruct HR2 as [[E X]|[[t [E X]]|[t [E X]]]]; eauto.
    + exists None. rewrite accepts_none. split; auto. destruct HR2 as [[E X]|[[t [E X]]|[t [E X]]]]; eauto.
Qed.
End P.
