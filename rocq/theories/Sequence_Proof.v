From Coq Require Import Arith NArith ZArith List Bool Lia.
From Verif Require Import Lib Sequence_Model SeqSpec.
Import ListNotations.
Local Arguments upd : simpl never.
Local Arguments N.modulo : simpl never.
Local Arguments N.eqb : simpl never.
Local Arguments N.add : simpl never.
Local Arguments N.odd : simpl never.
Local Arguments N.even : simpl never.
Local Arguments N.testbit : simpl never.

Definition WW : N := W.
Lemma WW_val : WW = 4294967296%N. Proof. reflexivity. Qed.
Global Opaque WW.

(** Acceptor: [c] counts counter stores without bound. *)
Record ast := { c : N; am : nat -> Z; rb : nat -> option N; ack : nat -> bool }.
Definition astep (a : ast) (e : ev) : option ast :=
  match e with
  | WBeg _ => if N.even (c a) then Some {| c := c a + 1; am := am a; rb := rb a; ack := ack a |} else None
  | WEnd _ => if N.even (c a) then None else Some {| c := c a + 1; am := am a; rb := rb a; ack := ack a |}
  | WSet _ i v => if N.even (c a) then None else Some {| c := c a; am := (fun j => if Nat.eqb j i then v else am a j); rb := rb a; ack := ack a |}
  | RBeg t => if N.even (c a) then Some {| c := c a; am := am a; rb := upd (rb a) t (Some (c a)); ack := upd (ack a) t false |} else None
  | RRead t i v => if Z.eqb v (am a i) then Some a else None
  | REnd t ok => match rb a t with
                 | Some k => if Bool.eqb ok (N.eqb (c a mod WW) (k mod WW)) then Some {| c := c a; am := am a; rb := upd (rb a) t None; ack := upd (ack a) t ok |} else None
                 | None => None end
  | Done t => if ack a t then Some a else None
  end.
Definition ainit (m : nat -> Z) : ast := {| c := 0; am := m; rb := fun _ => None; ack := fun _ => false |}.

Definition wpc (p : pc) : bool := match p with Own | B1 | B2 _ | Upd | E1 | E2 _ => true | _ => false end.
Definition odd_pc (p : pc) : bool := match p with Upd | E1 | E2 _ => true | _ => false end.

Record R (s : state) (a : ast) : Prop := mkR {
  r_s : seq s = (c a mod WW)%N;
  r_m : forall i, mem s i = am a i;
  r_w : forall t, wr s = Some t <-> wpc (thr s t) = true;
  r_o : N.even (c a) = match wr s with Some t => negb (odd_pc (thr s t)) | None => true end;
  r_v : forall t v, thr s t = B2 v \/ thr s t = E2 v -> v = seq s;
  r_r : forall t m v, thr s t = Sec m v \/ thr s t = Rt m v -> exists k, rb a t = Some k /\ v = (k mod WW)%N;
  r_k : forall t, thr s t = Ck 0 -> ack a t = true }.

Lemma R_init : forall m, R (init m) (ainit m).
Proof.
  intros m. constructor; cbn; auto; try discriminate.
  - intros t. split; discriminate.
  - intros t v [X|X]; discriminate.
  - intros t m' v [X|X]; discriminate.
Qed.

Lemma even_bit : forall x, N.testbit (x mod WW) 0 = negb (N.even x).
Proof.
  intros x. rewrite N.bit0_odd. change WW with (2 ^ 32)%N. rewrite <- N.bit0_odd, N.mod_pow2_bits_low by lia.
  rewrite N.bit0_odd, <- N.negb_even. reflexivity.
Qed.

Lemma succ_mod : forall x, succ (x mod WW) = ((x + 1) mod WW)%N.
Proof. intros. unfold succ. change W with WW. rewrite N.add_mod_idemp_l; auto. rewrite WW_val. discriminate. Qed.

Lemma R_step : forall s a l s' e, R s a -> step s l = Some (s', e) -> exists a', accepts astep a e = Some a' /\ R s' a'.
Proof.
  intros s a [t x] s' e HR Hs. unfold step in Hs. assert (HR' := HR). destruct HR' as [S1 S2 S3 S4 S5 S6 S7].
  (* a step that changes only the pc of t, and keeps its role *)
  assert (Hpc : forall p, wpc p = wpc (thr s t) -> odd_pc p = odd_pc (thr s t) ->
     (forall v, p = B2 v \/ p = E2 v -> v = seq s) ->
     (forall m v, p = Sec m v \/ p = Rt m v -> exists k, rb a t = Some k /\ v = (k mod WW)%N) -> (p = Ck 0 -> ack a t = true) -> R (go s t p) a).
  { intros p P1 P2 P3 P4 P5. constructor; cbn; auto.
    - intros u. upd_goal; subst; auto. rewrite P1. auto.
    - rewrite S4. destruct (wr s) as [u|]; auto. upd_goal; subst; auto. rewrite P2. auto.
    - intros u v. upd_goal; subst; eauto.
    - intros u m v. upd_goal; subst; eauto.
    - intros u. upd_goal; subst; auto. }
  assert (Hq : forall t', wpc (thr s t') = true -> wr s = Some t') by (intros; apply S3; auto).
  destruct (thr s t) as [| | |v| | |v|m|m v|m v|v] eqn:Et; destruct x; try discriminate.
  - destruct (wr s) eqn:Ew; [discriminate|]. injection Hs as <- <-. exists a. split; auto.
    assert (Hno : forall u, wpc (thr s u) = false) by (intros u; destruct (wpc (thr s u)) eqn:E; auto; apply S3 in E; discriminate).
    constructor; cbn; auto.
    + intros u. upd_goal; subst; [split; auto|]. rewrite Hno. split; congruence.
    + rewrite upd_same. auto.
    + intros u v. upd_goal; subst; eauto. intros [X|X]; discriminate.
    + intros u m v. upd_goal; subst; eauto. intros [X|X]; discriminate.
    + intros u. upd_goal; subst; auto. discriminate.
  - injection Hs as <- <-. exists a. split; auto. apply Hpc; cbn; auto; try discriminate; intros; destruct H; discriminate.
  - injection Hs as <- <-. exists a. split; auto. apply Hpc; cbn; auto; try discriminate; intros; destruct H; discriminate.
  - injection Hs as <- <-. exists a. split; auto.
    assert (Hw : wr s = Some t) by (apply Hq; rewrite Et; auto). rewrite Hw, Et in S4. cbn in S4.
    constructor; cbn; auto.
    + intros u. split; [discriminate|]. upd_goal; [subst; discriminate|]. intros X. apply Hq in X. congruence.
    + intros u v. upd_goal; subst; eauto. intros [X|X]; discriminate.
    + intros u m v. upd_goal; subst; eauto. intros [X|X]; discriminate.
    + intros u. upd_goal; subst; auto. discriminate.
  - injection Hs as <- <-. exists a. split; auto. apply Hpc; cbn; auto; try discriminate; intros; destruct H; discriminate.
  - injection Hs as <- <-. exists a. split; auto. apply Hpc; cbn; auto; try discriminate; intros; destruct H; congruence.
  - injection Hs as <- <-. assert (Hw : wr s = Some t) by (apply Hq; rewrite Et; auto). rewrite Hw, Et in S4. cbn in S4.
    eexists. split; [cbn; rewrite S4; reflexivity|]. constructor; cbn; auto.
    + rewrite (S5 t v), S1 by auto. apply succ_mod.
    + intros u. upd_goal; subst; auto. rewrite S3, Et. reflexivity.
    + rewrite Hw, upd_same. cbn. rewrite N.add_1_r, N.even_succ, <- N.negb_even, S4. auto.
    + intros u w. upd_goal; [subst; intros [X|X]; discriminate|]. intros Hu. assert (wr s = Some u) by (apply Hq; destruct Hu as [-> | ->]; auto). congruence.
    + intros u m w. upd_goal; subst; eauto. intros [X|X]; discriminate.
    + intros u. upd_goal; subst; auto. discriminate.
  - injection Hs as <- <-. exists a. split; auto. apply Hpc; cbn; auto; try discriminate; intros; destruct H; discriminate.
  - injection Hs as <- <-. assert (Hw : wr s = Some t) by (apply Hq; rewrite Et; auto). rewrite Hw, Et in S4. cbn in S4.
    eexists. split; [cbn; rewrite S4; reflexivity|]. constructor; cbn; auto.
    + intros j. unfold upd. destruct (Nat.eq_dec j i), (Nat.eqb_spec j i); auto; congruence.
    + rewrite Hw, Et. auto.
  - injection Hs as <- <-. exists a. split; auto. apply Hpc; cbn; auto; try discriminate; intros; destruct H; congruence.
  - injection Hs as <- <-. assert (Hw : wr s = Some t) by (apply Hq; rewrite Et; auto). rewrite Hw, Et in S4. cbn in S4.
    eexists. split; [cbn; rewrite S4; reflexivity|]. constructor; cbn; auto.
    + rewrite (S5 t v), S1 by auto. apply succ_mod.
    + intros u. upd_goal; subst; auto. rewrite S3, Et. reflexivity.
    + rewrite Hw, upd_same. cbn. rewrite N.add_1_r, N.even_succ, <- N.negb_even, S4. auto.
    + intros u w. upd_goal; [subst; intros [X|X]; discriminate|]. intros Hu. assert (wr s = Some u) by (apply Hq; destruct Hu as [-> | ->]; auto). congruence.
    + intros u m w. upd_goal; subst; eauto. intros [X|X]; discriminate.
    + intros u. upd_goal; subst; auto. discriminate.
  - rewrite S1, even_bit in Hs. destruct (N.even (c a)) eqn:Ev; cbn in Hs; injection Hs as <- <-; [|exists a; auto].
    eexists. split; [cbn; rewrite Ev; reflexivity|]. constructor; cbn; auto.
    + intros u. upd_goal; subst; auto. rewrite S3, Et. reflexivity.
    + rewrite Ev, S4. destruct (wr s) as [u|]; auto. upd_goal; subst; auto; try (rewrite Et; auto).
    + intros u w. upd_goal; subst; eauto. intros [X|X]; discriminate.
    + intros u m' w. upd_goal; subst; eauto. intros [X|X]; try discriminate. injection X as <- <-. eauto.
    + intros u. upd_goal; subst; [discriminate|auto].
  - injection Hs as <- <-. exists a. split; auto. cbn. rewrite S2, Z.eqb_refl. auto.
  - injection Hs as <- <-. exists a. split; auto. apply Hpc; cbn; auto; try discriminate; intros; destruct H; try discriminate.
    injection H as <- <-. eauto.
  - injection Hs as <- <-. destruct (S6 t m v) as [k [K1 K2]]; auto. rewrite negb_involutive.
    eexists. split; [cbn; rewrite K1, S1, K2, Bool.eqb_reflx; reflexivity|]. constructor; cbn; auto.
    + intros u. upd_goal; subst; auto. rewrite S3, Et. destruct m; reflexivity.
    + rewrite S4. destruct (wr s) as [u|]; auto. upd_goal; subst; auto. rewrite Et. destruct m; auto.
    + intros u w. upd_goal; subst; eauto. destruct m; intros [X|X]; discriminate.
    + intros u m' w. upd_goal; subst; [destruct m; intros [X|X]; discriminate|eauto].
    + intros u. upd_goal; subst; auto. rewrite S1. destruct m; [|discriminate]. 
      destruct (N.eqb (c a mod WW) (k mod WW)); cbn; congruence.
  - destruct (N.eqb_spec v 0); injection Hs as <- <-.
    + subst. exists a. split; [cbn; rewrite S7; auto|]. apply Hpc; cbn; auto; try discriminate; intros; destruct H; discriminate.
    + exists a. split; auto. apply Hpc; cbn; auto; try discriminate; intros; destruct H; discriminate.
Qed.

(** * Consequences for logs *)
Definition od (a : ast) : N := if N.even (c a) then 0%N else 1%N.

Lemma wb_cons : forall e l, writes_begun (e :: l) = ((if is_wbeg e then 1 else 0) + writes_begun l)%N.
Proof. intros. unfold writes_begun. cbn [filter]. destruct (is_wbeg e); cbn [length]; lia. Qed.

Lemma astep_c : forall a e a', astep a e = Some a' -> (c a' + od a' = c a + od a + 2 * (if is_wbeg e then 1 else 0))%N /\ (c a <= c a')%N.
Proof.
  intros a e a' H. unfold od. destruct e; cbn in *.
  - destruct (N.even (c a)) eqn:E; [|discriminate]. injection H as <-. cbn. rewrite N.add_1_r, N.even_succ, <- N.negb_even, E. cbn. lia.
  - destruct (N.even (c a)) eqn:E; [discriminate|]. injection H as <-. cbn. rewrite E. lia.
  - destruct (N.even (c a)) eqn:E; [discriminate|]. injection H as <-. cbn. rewrite N.add_1_r, N.even_succ, <- N.negb_even, E. cbn. lia.
  - destruct (N.even (c a)) eqn:E; [|discriminate]. injection H as <-. cbn. rewrite E. lia.
  - destruct (Z.eqb v (am a i)); [|discriminate]. injection H as <-. lia.
  - destruct (rb a t); [|discriminate]. destruct (Bool.eqb ok (c a mod WW =? n mod WW)%N); [|discriminate]. injection H as <-. cbn. lia.
  - destruct (ack a t); [|discriminate]. injection H as <-. lia.
Qed.

Lemma acc_c : forall l a a', accepts astep a l = Some a' -> (c a' + od a' = c a + od a + 2 * writes_begun l)%N /\ (c a <= c a')%N.
Proof.
  induction l as [|e l IH]; intros a a' H; cbn in H.
  - injection H as <-. change (writes_begun []) with 0%N. lia.
  - destruct (astep a e) as [a1|] eqn:E; [|discriminate]. apply IH in H. apply astep_c in E. rewrite wb_cons. lia.
Qed.

Lemma acc_am : forall l a a', accepts astep a l = Some a' -> am a' = replay (am a) l.
Proof.
  induction l as [|e l IH]; intros a a' H; cbn in H; [injection H as <-; auto|].
  destruct (astep a e) as [a1|] eqn:E; [|discriminate]. rewrite (IH _ _ H).
  destruct e; cbn in *; repeat match type of E with (if ?b then _ else _) = _ => destruct b | match ?b with _ => _ end = _ => destruct b end; try discriminate; injection E as <-; reflexivity.
Qed.

Lemma acc_open : forall l a a', accepts astep a l = Some a' ->
  negb (N.even (c a')) = fold_left (fun b e => match e with WBeg _ => true | WEnd _ => false | _ => b end) l (negb (N.even (c a))).
Proof.
  induction l as [|e l IH]; intros a a' H; cbn in H; [injection H as <-; auto|].
  destruct (astep a e) as [a1|] eqn:E; [|discriminate]. rewrite (IH _ _ H). cbn [fold_left]. f_equal.
  destruct e; cbn in *; repeat match type of E with (if ?b then _ else _) = _ => destruct b eqn:? | match ?b with _ => _ end = _ => destruct b end; try discriminate; injection E as <-; cbn;
  rewrite ?N.add_1_r, ?N.even_succ, <- ?N.negb_even, ?Heqb; auto.
Qed.

Lemma acc_rb : forall l a a' t k, accepts astep a l = Some a' -> rb a' t = Some k -> ~ In (RBeg t) l -> rb a t = Some k.
Proof.
  induction l as [|e l IH]; intros a a' t k H Hk Hn; cbn in H; [injection H as <-; auto|].
  destruct (astep a e) as [a1|] eqn:E; [|discriminate]. assert (Hn1 : ~ In (RBeg t) l) by (intros X; apply Hn; right; auto).
  specialize (IH _ _ _ _ H Hk Hn1).
  destruct e; cbn in E; repeat match type of E with (if ?b then _ else _) = _ => destruct b eqn:? | match ?b with _ => _ end = _ => destruct b eqn:? end; try discriminate; injection E as <-; cbn in IH; auto.
  - unfold upd in IH. destruct (Nat.eq_dec t t0) as [->|]; auto. exfalso. apply Hn. left; auto.
  - unfold upd in IH. destruct (Nat.eq_dec t t0) as [->|]; auto. discriminate.
Qed.

Lemma acc_quiet : forall l a a', accepts astep a l = Some a' -> c a' = c a -> N.even (c a) = true ->
  (forall e, In e l -> is_write e = false) /\ (forall t i v, In (RRead t i v) l -> v = am a i).
Proof.
  induction l as [|e l IH]; intros a a' H Hc Hv; [split; intros; destruct H0|]. cbn in H.
  destruct (astep a e) as [a1|] eqn:E; [|discriminate]. destruct (acc_c _ _ _ H) as [_ C1]. destruct (astep_c _ _ _ E) as [_ C2].
  assert (C3 : c a1 = c a) by lia. destruct (IH a1 a' H) as [I1 I2]; [congruence|rewrite C3; auto|].
  assert (D : is_write e = false /\ am a1 = am a /\ forall t i v, e = RRead t i v -> v = am a i).
  { destruct e; cbn in E; rewrite ?Hv in E; try discriminate; repeat match type of E with (if ?b then _ else _) = _ => destruct b eqn:? | match ?b with _ => _ end = _ => destruct b eqn:? end; try discriminate;
    injection E as <-; cbn in *; try (exfalso; lia); split; auto; split; auto; intros t' i' v' X; inversion X. subst. apply Z.eqb_eq. auto. }
  destruct D as [D1 [D2 D3]]. split.
  - intros x [<-|X]; auto.
  - intros t i v [X|X]; [eapply D3; eauto|]. rewrite <- D2. eauto.
Qed.

Theorem consistent : forall m ls s log, run step (init m) ls = Some (s, log) ->
  forall l1 t l2 l3, log = l1 ++ RBeg t :: l2 ++ REnd t true :: l3 -> ~ In (RBeg t) l2 -> (writes_begun l2 < 2 ^ 31)%N ->
  open_write l1 = false /\ (forall e, In e l2 -> is_write e = false) /\ (forall i v, In (RRead t i v) l2 -> v = replay m l1 i).
Proof.
  intros m ls s log H l1 t l2 l3 -> Hn Hw.
  destruct (run_refines _ astep R (init m) (ainit m) (R_init m) R_step ls s _ H) as [a [E _]].
  rewrite accepts_app in E. destruct (accepts astep (ainit m) l1) as [a1|] eqn:E1; [|discriminate].
  cbn [accepts] in E. destruct (astep a1 (RBeg t)) as [a2|] eqn:E2; [|discriminate].
  rewrite accepts_app in E. destruct (accepts astep a2 l2) as [a3|] eqn:E3; [|discriminate].
  cbn [accepts] in E. destruct (astep a3 (REnd t true)) as [a4|] eqn:E4; [|discriminate]. clear E.
  cbn in E2. destruct (N.even (c a1)) eqn:Ev; [|discriminate]. injection E2 as <-.
  cbn in E4. destruct (rb a3 t) as [k|] eqn:Ek; [|discriminate]. assert (Ek2 := acc_rb _ _ _ _ _ E3 Ek Hn). cbn in Ek2. rewrite upd_same in Ek2. injection Ek2 as <-.
  destruct (c a3 mod WW =? c a1 mod WW)%N eqn:Em; [|discriminate]. apply N.eqb_eq in Em.
  destruct (acc_c _ _ _ E3) as [C1 C2]. cbn [c] in C1, C2. unfold od in C1. cbn [c] in C1. rewrite Ev in C1.
  assert (Hc : c a3 = c a1).
  { change (2 ^ 31)%N with 2147483648%N in Hw. assert (c a3 < c a1 + WW)%N. { rewrite WW_val. destruct (N.even (c a3)); lia. }
    assert (Hz : (WW <> 0)%N) by (rewrite WW_val; discriminate).
    assert (X1 := N.div_mod (c a3) WW Hz). assert (X2 := N.div_mod (c a1) WW Hz). rewrite Em in X1.
    assert (c a3 / WW = c a1 / WW)%N; [|congruence]. generalize dependent (c a3 / WW)%N. generalize dependent (c a1 / WW)%N. intros q1 X2 q3 X1. rewrite WW_val in *.
    assert (4294967296 * q1 <= 4294967296 * q3)%N by lia. assert (4294967296 * q3 < 4294967296 * q1 + 4294967296)%N by lia. lia. }
  destruct (acc_quiet _ _ _ E3 Hc Ev) as [Q1 Q2]. cbn in Q2. split; [|split; auto].
  - assert (X := acc_open _ _ _ E1). rewrite Ev in X. unfold open_write. change (N.even (c (ainit m))) with true in X. symmetry. exact X.
  - intros i v X. rewrite (Q2 _ _ _ X). rewrite (acc_am _ _ _ E1). reflexivity.
Qed.

(** A read section that is refused had a write section in or across it. *)
Theorem refused : forall m ls s log, run step (init m) ls = Some (s, log) ->
  forall l1 t l2 l3, log = l1 ++ RBeg t :: l2 ++ REnd t false :: l3 -> ~ In (RBeg t) l2 -> (0 < writes_begun l2)%N.
Proof.
  intros m ls s log H l1 t l2 l3 -> Hn.
  destruct (run_refines _ astep R (init m) (ainit m) (R_init m) R_step ls s _ H) as [a [E _]].
  rewrite accepts_app in E. destruct (accepts astep (ainit m) l1) as [a1|] eqn:E1; [|discriminate].
  cbn [accepts] in E. destruct (astep a1 (RBeg t)) as [a2|] eqn:E2; [|discriminate].
  rewrite accepts_app in E. destruct (accepts astep a2 l2) as [a3|] eqn:E3; [|discriminate].
  cbn [accepts] in E. destruct (astep a3 (REnd t false)) as [a4|] eqn:E4; [|discriminate]. clear E.
  cbn in E2. destruct (N.even (c a1)) eqn:Ev; [|discriminate]. injection E2 as <-.
  cbn in E4. destruct (rb a3 t) as [k|] eqn:Ek; [|discriminate]. assert (Ek2 := acc_rb _ _ _ _ _ E3 Ek Hn). cbn in Ek2. rewrite upd_same in Ek2. injection Ek2 as <-.
  destruct (c a3 mod WW =? c a1 mod WW)%N eqn:Em; [discriminate|]. apply N.eqb_neq in Em.
  destruct (acc_c _ _ _ E3) as [C1 C2]. cbn [c] in C1, C2. unfold od in C1. cbn [c] in C1. rewrite Ev in C1.
  destruct (N.eq_dec (writes_begun l2) 0) as [Z|Z]; [|lia]. exfalso. apply Em. f_equal. rewrite Z in C1. destruct (N.even (c a3)); lia.
Qed.

(** The macro's loop ends only right after an accepted section. *)
Theorem loop_done : forall m ls s log, run step (init m) ls = Some (s, log) ->
  forall l1 t l2, log = l1 ++ Done t :: l2 -> exists k1 k2, l1 = k1 ++ REnd t true :: k2 /\ ~ In (RBeg t) k2 /\ ~ In (REnd t false) k2.
Proof.
  intros m ls s log H l1 t l2 ->.
  destruct (run_refines _ astep R (init m) (ainit m) (R_init m) R_step ls s _ H) as [a [E _]].
  rewrite accepts_app in E. destruct (accepts astep (ainit m) l1) as [a1|] eqn:E1; [|discriminate].
  cbn in E. destruct (ack a1 t) eqn:Ea; [|discriminate]. clear E H.
  revert a1 E1 Ea. induction l1 as [|e l1 IH] using rev_ind; intros a1 E1 Ea.
  - cbn in E1. injection E1 as <-. discriminate.
  - rewrite accepts_app in E1. destruct (accepts astep (ainit m) l1) as [a0|] eqn:E0; [|discriminate]. cbn in E1.
    destruct (astep a0 e) as [a1'|] eqn:E2; [|discriminate]. injection E1 as ->.
    assert (Hd : e = REnd t true \/ (ack a0 t = true /\ e <> RBeg t /\ e <> REnd t false)).
    { destruct e; cbn in E2; repeat match type of E2 with (if ?b then _ else _) = _ => destruct b eqn:? | match ?b with _ => _ end = _ => destruct b eqn:? end; try discriminate; injection E2 as <-; cbn in Ea;
      try (right; split; [assumption|split; discriminate]).
      - unfold upd in Ea. destruct (Nat.eq_dec t t0); [discriminate|]. right. split; auto. split; congruence.
      - unfold upd in Ea. destruct (Nat.eq_dec t t0); [subst; auto|]. right. split; auto. split; congruence. }
    destruct Hd as [->|[D1 [D2 D3]]].
    + exists l1, []. split; auto.
    + destruct (IH _ eq_refl D1) as [k1 [k2 [-> [K2 K3]]]]. exists k1, (k2 ++ [e]). rewrite <- app_assoc. split; auto.
      rewrite !in_app_iff. cbn. split; intros [?|[?|[]]]; auto.
Qed.
