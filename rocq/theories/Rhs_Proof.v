(** The probe sequence of the Robin Hood hash set: it is given by a closed formula, the first
    [cap] slots are all different, and it can be followed backwards. *)
From Coq Require Import Arith NArith ZArith Znumtheory Zpow_facts List Bool Lia.
From Verif Require Import Lib Helpers_Model Rhs_Model.
Import ListNotations.
Local Open Scope nat_scope.

Definition nc (m : rmap) : nat := N.to_nat (cap m).
Definition wf (m : rmap) : Prop := (exists k, (3 <= k <= 31)%N /\ cap m = (2 ^ k)%N) /\ plim m = N.to_nat (N.max (cap m / 32) 64).

Lemma mod_line : forall L a b c, (0 < L)%N -> (0 < c)%N -> (b < L)%N -> ((L * a + b) mod (L * c) = L * (a mod c) + b)%N.
Proof.
  intros L a b c HL Hc Hb. rewrite N.mod_mul_r by lia.
  assert (A1 : ((L * a + b) mod L = b)%N). { rewrite N.mul_comm, N.add_comm, N.mod_add by lia. apply N.mod_small; auto. }
  assert (A2 : ((L * a + b) / L = a)%N). { rewrite N.mul_comm, N.add_comm, N.div_add by lia. rewrite N.div_small by auto. lia. }
  rewrite A1, A2. lia.
Qed.

Fixpoint tri (j : nat) : nat := match j with O => O | S j => tri j + S j end.
Lemma tri_2 : forall j, 2 * tri j = j * (j + 1).
Proof. induction j; simpl tri; lia. Qed.
(** triangular numbers are different modulo a power of two *)
Lemma tri_mod : forall k a b, a < b -> (Z.of_nat b < 2 ^ Z.of_nat k)%Z ->
  ((Z.of_nat (tri b) - Z.of_nat (tri a)) mod 2 ^ Z.of_nat k = 0)%Z -> False.
Proof.
  intros k a b Hab Hb E. assert (K : (0 < 2 ^ Z.of_nat k)%Z) by (apply Z.pow_pos_nonneg; lia).
  apply Z.mod_divide in E; [|lia]. destruct E as (q & E).
  pose proof (tri_2 a) as Ta. pose proof (tri_2 b) as Tb.
  assert (D : ((Z.of_nat b - Z.of_nat a) * (Z.of_nat a + Z.of_nat b + 1) = q * 2 ^ (Z.of_nat k + 1))%Z).
  { rewrite Z.pow_add_r by lia. nia. }
  destruct (Z.Even_or_Odd (Z.of_nat b - Z.of_nat a)) as [Ev | Od].
  - assert (R : rel_prime (2 ^ (Z.of_nat k + 1)) (Z.of_nat a + Z.of_nat b + 1)).
    { apply rel_prime_sym. apply rel_prime_Zpower_r; [lia|].
      destruct Ev as (z & Ev). apply bezout_rel_prime.
      apply (Bezout_intro _ _ _ 1 (- (Z.of_nat a + z)))%Z. lia. }
    assert (Dv : (2 ^ (Z.of_nat k + 1) | Z.of_nat b - Z.of_nat a)%Z).
    { apply (Gauss _ (Z.of_nat a + Z.of_nat b + 1)); auto. exists q. lia. }
    apply Z.divide_pos_le in Dv; [|lia]. rewrite Z.pow_add_r in Dv by lia. lia.
  - assert (R : rel_prime (2 ^ (Z.of_nat k + 1)) (Z.of_nat b - Z.of_nat a)).
    { apply rel_prime_sym. apply rel_prime_Zpower_r; [lia|].
      destruct Od as (z & Od). apply bezout_rel_prime. apply (Bezout_intro _ _ _ 1 (- z))%Z. lia. }
    assert (Dv : (2 ^ (Z.of_nat k + 1) | Z.of_nat a + Z.of_nat b + 1)%Z).
    { apply (Gauss _ (Z.of_nat b - Z.of_nat a)); auto. exists q. lia. }
    apply Z.divide_pos_le in Dv; [|lia]. rewrite Z.pow_add_r in Dv by lia. lia.
Qed.

Section P.
Variable rmode : bool.
Notation LN := (LN rmode).
Notation next := (next rmode).
Notation prev := (prev rmode).

Lemma LN_48 : LN = 4%N \/ LN = 8%N.
Proof. unfold Rhs_Model.LN. destruct rmode; auto. Qed.
Lemma wf_cap : forall m, wf m -> exists j, (j <= 29)%N /\ cap m = (LN * 2 ^ j)%N.
Proof.
  intros m ((k & K & E) & _). rewrite E. destruct LN_48 as [-> | ->].
  - exists (k - 2)%N. split; [lia|]. change 4%N with (2 ^ 2)%N. rewrite <- N.pow_add_r. f_equal. lia.
  - exists (k - 3)%N. split; [lia|]. change 8%N with (2 ^ 3)%N. rewrite <- N.pow_add_r. f_equal. lia.
Qed.
Lemma wf_pos : forall m, wf m -> (8 <= cap m)%N.
Proof. intros m ((k & K & E) & _). rewrite E. change 8%N with (2 ^ 3)%N. apply N.pow_le_mono_r; lia. Qed.
Lemma wf_le : forall m, wf m -> (cap m <= 2 ^ 31)%N.
Proof. intros m ((k & K & E) & _). rewrite E. apply N.pow_le_mono_r; lia. Qed.

(** [pi m h i]: the slot looked at after [i] others *)
Fixpoint pi (m : rmap) (h : N) (i : nat) : N :=
  match i with O => (h mod cap m)%N | S i => next m (pi m h i) (S i) end.

Lemma next_cap : forall m m' o p, cap m' = cap m -> next m' o p = next m o p.
Proof. intros m m' o p E. unfold Rhs_Model.next. rewrite E. auto. Qed.
Lemma prev_cap : forall m m' o p, cap m' = cap m -> prev m' o p = prev m o p.
Proof. intros m m' o p E. unfold Rhs_Model.prev. rewrite E. auto. Qed.
Lemma pi_cap : forall m m' h i, cap m' = cap m -> pi m' h i = pi m h i.
Proof. intros m m' h i E. induction i; simpl; [rewrite E; auto|]. rewrite IHi. apply next_cap; auto. Qed.
Lemma pi_hash : forall m h g i, (h mod cap m = g mod cap m)%N -> pi m h i = pi m g i.
Proof. intros m h g i E. induction i; simpl; auto. rewrite IHi. auto. Qed.

Lemma next_lt : forall m o p, wf m -> (o < cap m)%N -> (next m o p < cap m)%N.
Proof.
  intros m o p W Ho. pose proof (wf_pos m W). unfold Rhs_Model.next. destruct (N.eqb_spec (N.of_nat p mod LN) 0).
  - apply N.mod_lt. lia.
  - destruct (wf_cap m W) as (j & _ & E). rewrite E in *. remember (2 ^ j)%N as c.
    destruct LN_48 as [R | R]; rewrite R in *.
    + clear Heqc E n W. pose proof (N.div_mod o 4 ltac:(lia)). pose proof (N.mod_lt o 4 ltac:(lia)). pose proof (N.mod_lt (o + 1) 4 ltac:(lia)). remember (o / 4)%N; remember (o / 8)%N; remember (o mod 4)%N; remember (o mod 8)%N; repeat match goal with |- context [((?a + ?b) mod ?c)%N] => remember ((a + b) mod c)%N end; lia.
    + clear Heqc E n W. pose proof (N.div_mod o 8 ltac:(lia)). pose proof (N.mod_lt o 8 ltac:(lia)). pose proof (N.mod_lt (o + 1) 8 ltac:(lia)). remember (o / 4)%N; remember (o / 8)%N; remember (o mod 4)%N; remember (o mod 8)%N; repeat match goal with |- context [((?a + ?b) mod ?c)%N] => remember ((a + b) mod c)%N end; lia.
Qed.
Lemma pi_lt : forall m h i, wf m -> (pi m h i < cap m)%N.
Proof.
  intros m h i W. induction i; simpl.
  - apply N.mod_lt. pose proof (wf_pos m W). lia.
  - apply next_lt; auto.
Qed.
Lemma prev_lt : forall m o p, wf m -> (o < cap m)%N -> (prev m o p < cap m)%N.
Proof.
  intros m o p W Ho. pose proof (wf_pos m W). unfold Rhs_Model.prev. destruct (N.eqb_spec (N.of_nat p mod LN) 0).
  - apply N.mod_lt. lia.
  - destruct (wf_cap m W) as (j & _ & E). rewrite E in *. remember (2 ^ j)%N as c.
    destruct LN_48 as [R | R]; rewrite R in *.
    + clear Heqc E n W. pose proof (N.div_mod o 4 ltac:(lia)). pose proof (N.mod_lt o 4 ltac:(lia)). pose proof (N.mod_lt (o + (4 - 1)) 4 ltac:(lia)). remember (o / 4)%N; remember (o / 8)%N; remember (o mod 4)%N; remember (o mod 8)%N; repeat match goal with |- context [((?a + ?b) mod ?c)%N] => remember ((a + b) mod c)%N end; lia.
    + clear Heqc E n W. pose proof (N.div_mod o 8 ltac:(lia)). pose proof (N.mod_lt o 8 ltac:(lia)). pose proof (N.mod_lt (o + (8 - 1)) 8 ltac:(lia)). remember (o / 4)%N; remember (o / 8)%N; remember (o mod 4)%N; remember (o mod 8)%N; repeat match goal with |- context [((?a + ?b) mod ?c)%N] => remember ((a + b) mod c)%N end; lia.
Qed.

Lemma sub_add : forall o p c, (0 < c)%N -> (o < c)%N -> (((o + p) mod c + (c - p mod c)) mod c = o)%N.
Proof.
  intros o p c Hc Ho. pose proof (N.mod_lt p c ltac:(lia)). rewrite N.add_mod_idemp_l by lia.
  rewrite (N.div_mod p c) at 1 by lia. replace (o + (c * (p / c) + p mod c) + (c - p mod c))%N with (o + (p / c + 1) * c)%N by nia.
  rewrite N.mod_add by lia. apply N.mod_small; auto.
Qed.
Lemma add_sub : forall o p c, (0 < c)%N -> (o < c)%N -> (((o + (c - p mod c)) mod c + p) mod c = o)%N.
Proof.
  intros o p c Hc Ho. pose proof (N.mod_lt p c ltac:(lia)). rewrite N.add_mod_idemp_l by lia.
  rewrite (N.div_mod p c) at 2 by lia. replace (o + (c - p mod c) + (c * (p / c) + p mod c))%N with (o + (p / c + 1) * c)%N by nia.
  rewrite N.mod_add by lia. apply N.mod_small; auto.
Qed.
Ltac dm o c := let H := fresh in let H2 := fresh in pose proof (N.div_mod o c ltac:(lia)) as H; pose proof (N.mod_lt o c ltac:(lia)) as H2.
Lemma line4 : forall a b, (b < 4)%N -> ((4 * a + b) / 4 = a /\ (4 * a + b) mod 4 = b)%N.
Proof. intros. split; [symmetry; apply N.div_unique with b; lia | symmetry; apply N.mod_unique with a; lia]. Qed.
Lemma line8 : forall a b, (b < 8)%N -> ((8 * a + b) / 8 = a /\ (8 * a + b) mod 8 = b)%N.
Proof. intros. split; [symmetry; apply N.div_unique with b; lia | symmetry; apply N.mod_unique with a; lia]. Qed.
Lemma lineL : forall a b, (b < LN)%N -> ((LN * a + b) / LN = a /\ (LN * a + b) mod LN = b)%N.
Proof. intros a b. destruct LN_48 as [-> | ->]; [apply line4 | apply line8]. Qed.
Lemma LN_pos : (4 <= LN)%N. Proof. destruct LN_48; lia. Qed.

Lemma rotate : forall o d e, (d + e = LN)%N -> let o' := (o / LN * LN + (o + d) mod LN)%N in (o' / LN * LN + (o' + e) mod LN = o)%N.
Proof.
  intros o d e D o'. pose proof LN_pos as LP. unfold o'. rewrite (N.mul_comm (o / LN)).
  pose proof (N.mod_lt (o + d) LN ltac:(lia)) as B.
  destruct (lineL (o / LN) ((o + d) mod LN) B) as (-> & _). rewrite (N.div_mod o LN) at 4 by lia. f_equal; [lia|].
  rewrite <- N.add_assoc. rewrite <- (N.add_mod_idemp_l (LN * _)) by lia.
  rewrite (N.mul_comm LN), N.mod_mul by lia. rewrite N.add_0_l, N.add_mod_idemp_l by lia.
  rewrite <- N.add_assoc, D. replace (o + LN)%N with (o + 1 * LN)%N by lia. apply N.mod_add. lia.
Qed.
Lemma prev_next : forall m o p, wf m -> (o < cap m)%N -> prev m (next m o p) p = o.
Proof.
  intros m o p W Ho. pose proof (wf_pos m W). unfold Rhs_Model.next, Rhs_Model.prev. destruct (N.eqb_spec (N.of_nat p mod LN) 0).
  - apply sub_add; lia.
  - apply rotate. pose proof LN_pos. lia.
Qed.
Lemma next_prev : forall m o p, wf m -> (o < cap m)%N -> next m (prev m o p) p = o.
Proof.
  intros m o p W Ho. pose proof (wf_pos m W). unfold Rhs_Model.next, Rhs_Model.prev. destruct (N.eqb_spec (N.of_nat p mod LN) 0).
  - apply add_sub; lia.
  - apply rotate. pose proof LN_pos. lia.
Qed.

(** closed form *)
Definition Ln : nat := N.to_nat LN.
Definition lineno (m : rmap) (h : N) (i : nat) : N := ((h mod cap m) / LN + N.of_nat (tri (i / Ln)))%N.
Definition posno (m : rmap) (h : N) (i : nat) : N := ((h mod cap m) + N.of_nat (i mod Ln) + N.of_nat (i / Ln) * (LN - 1))%N.
Lemma Ln_pos : 4 <= Ln. Proof. pose proof LN_pos. unfold Ln. lia. Qed.
Lemma S_div : forall i, (S i mod Ln = 0 /\ S i / Ln = S (i / Ln) /\ i mod Ln = Ln - 1) \/ (S i mod Ln <> 0 /\ S i / Ln = i / Ln /\ S i mod Ln = S (i mod Ln)).
Proof.
  intros i. pose proof Ln_pos. pose proof (Nat.div_mod i Ln ltac:(lia)) as D. pose proof (Nat.mod_upper_bound i Ln ltac:(lia)) as B.
  destruct (Nat.eq_dec (i mod Ln) (Ln - 1)) as [E | E].
  - left. assert (X : S i = Ln * S (i / Ln) + 0) by nia.
    assert (M : S i mod Ln = 0) by (symmetry; apply (Nat.mod_unique (S i) Ln (S (i / Ln)) 0); lia).
    assert (V : S i / Ln = S (i / Ln)) by (symmetry; apply (Nat.div_unique (S i) Ln (S (i / Ln)) 0); lia). auto.
  - right. assert (X : S i = Ln * (i / Ln) + S (i mod Ln)) by nia.
    assert (M : S i mod Ln = S (i mod Ln)) by (symmetry; apply (Nat.mod_unique (S i) Ln (i / Ln)); lia).
    assert (V : S i / Ln = i / Ln) by (symmetry; apply (Nat.div_unique (S i) Ln (i / Ln) (S (i mod Ln))); lia). split; [lia | auto].
Qed.
Lemma of_nat_mod : forall p, (N.of_nat p mod LN)%N = N.of_nat (p mod Ln).
Proof. intros p. unfold Ln. rewrite Nat2N.inj_mod, N2Nat.id. auto. Qed.
Lemma pi_closed : forall m h i c, wf m -> (0 < c)%N -> cap m = (LN * c)%N ->
  pi m h i = (LN * (lineno m h i mod c) + posno m h i mod LN)%N.
Proof.
  intros m h i c W Hc E. pose proof LN_pos as LP. pose proof Ln_pos as LP2. induction i.
  - unfold lineno, posno. rewrite Nat.div_0_l, Nat.mod_0_l by lia. simpl. rewrite !N.add_0_r.
    pose proof (N.mod_lt h (cap m) ltac:(lia)) as B. rewrite (N.mod_small (h mod cap m / LN)).
    + rewrite <- N.div_mod by lia. auto.
    + apply N.div_lt_upper_bound; lia.
  - simpl pi. rewrite IHi. unfold Rhs_Model.next. rewrite of_nat_mod.
    destruct (S_div i) as [(M & D & R) | (M & D & R)].
    + rewrite M. change (N.eqb (N.of_nat 0) 0) with true. cbv iota.
      assert (X : N.of_nat (S i) = (LN * N.of_nat (S (i / Ln)))%N).
      { rewrite (Nat.div_mod (S i) Ln) at 1 by lia. rewrite M, D, Nat.add_0_r, Nat2N.inj_mul. unfold Ln. rewrite N2Nat.id. auto. }
      rewrite X, E.
      replace (LN * (lineno m h i mod c) + posno m h i mod LN + LN * N.of_nat (S (i / Ln)))%N
        with (LN * (lineno m h i mod c + N.of_nat (S (i / Ln))) + posno m h i mod LN)%N by lia.
      rewrite mod_line by (try lia; apply N.mod_lt; lia). rewrite N.add_mod_idemp_l by lia. f_equal.
      * f_equal. f_equal. unfold lineno. rewrite D. simpl tri. lia.
      * f_equal. unfold posno. rewrite D, M, R. rewrite <- N.add_assoc. rewrite <- N.add_assoc. f_equal.
        unfold Ln. rewrite Nat2N.inj_sub, N2Nat.id. simpl N.of_nat at 1. lia.
    + destruct (N.eqb_spec (N.of_nat (S i mod Ln)) 0); [lia|].
      destruct (lineL (lineno m h i mod c) (posno m h i mod LN) ltac:(apply N.mod_lt; lia)) as (-> & _).
      rewrite N.mul_comm. f_equal.
      * f_equal. f_equal. unfold lineno. rewrite D. auto.
      * rewrite <- N.add_assoc. rewrite <- (N.add_mod_idemp_l (LN * _)) by lia.
        rewrite (N.mul_comm LN), N.mod_mul by lia. rewrite N.add_0_l, N.add_mod_idemp_l by lia. f_equal.
        unfold posno. rewrite D, R. lia.
Qed.

(** the first [cap] slots differ *)
Lemma pi_inj : forall m h i j, wf m -> i < nc m -> j < nc m -> pi m h i = pi m h j -> i = j.
Proof.
  intros m h i j W Hi Hj E. pose proof LN_pos as LP. pose proof Ln_pos as LP2.
  destruct (wf_cap m W) as (k & _ & C). assert (K : (0 < 2 ^ k)%N) by (apply N.neq_0_lt_0; apply N.pow_nonzero; lia).
  rewrite (pi_closed m h i _ W K C), (pi_closed m h j _ W K C) in E.
  destruct (lineL (lineno m h i mod 2 ^ k) (posno m h i mod LN) ltac:(apply N.mod_lt; lia)) as (D1 & M1).
  destruct (lineL (lineno m h j mod 2 ^ k) (posno m h j mod LN) ltac:(apply N.mod_lt; lia)) as (D2 & M2).
  rewrite E in D1, M1. rewrite D1 in D2. rewrite M1 in M2. clear E D1 M1.
  assert (Q : i / Ln = j / Ln).
  { assert (G : forall a b, a < nc m -> b < nc m -> (lineno m h a mod 2 ^ k = lineno m h b mod 2 ^ k)%N -> a / Ln < b / Ln -> False).
    { intros a b Ha Hb EQ LT. unfold lineno in EQ. set (x := (h mod cap m / LN)%N) in *.
      assert (Bb : b / Ln < N.to_nat (2 ^ k)).
      { apply Nat.div_lt_upper_bound; [lia|]. unfold nc in Hb. rewrite C in Hb. rewrite N2Nat.inj_mul in Hb. exact Hb. }
      apply (tri_mod (N.to_nat k) (a / Ln) (b / Ln) LT).
      - rewrite N_nat_Z. rewrite <- N2Z.inj_pow with (n := 2%N). lia.
      - rewrite N_nat_Z. change 2%Z with (Z.of_N 2). rewrite <- N2Z.inj_pow.
        apply Z.mod_divide; [lia|]. remember (2 ^ k)%N as c.
        pose proof (N.div_mod (x + N.of_nat (tri (a / Ln))) c ltac:(lia)) as E1.
        pose proof (N.div_mod (x + N.of_nat (tri (b / Ln))) c ltac:(lia)) as E2.
        exists (Z.of_N ((x + N.of_nat (tri (b / Ln))) / c) - Z.of_N ((x + N.of_nat (tri (a / Ln))) / c))%Z. rewrite EQ in E1. nia. }
    destruct (Nat.lt_trichotomy (i / Ln) (j / Ln)) as [L | [L | L]]; auto.
    - destruct (G i j); auto.
    - destruct (G j i); auto. }
  unfold posno in M2. rewrite Q in M2.
  assert (R : i mod Ln = j mod Ln).
  { pose proof (Nat.mod_upper_bound i Ln ltac:(lia)). pose proof (Nat.mod_upper_bound j Ln ltac:(lia)).
    assert (Lx : N.of_nat Ln = LN) by (unfold Ln; apply N2Nat.id).
    remember (i mod Ln) as a. remember (j mod Ln) as b. remember (h mod cap m)%N as x. remember (N.of_nat (j / Ln) * (LN - 1))%N as y.
    pose proof (N.div_mod (x + N.of_nat a + y) LN ltac:(lia)) as E1. pose proof (N.div_mod (x + N.of_nat b + y) LN ltac:(lia)) as E2.
    rewrite M2 in E1. remember ((x + N.of_nat a + y) / LN)%N as q1. remember ((x + N.of_nat b + y) / LN)%N as q2.
    assert (q1 = q2) by nia. nia. }
  rewrite (Nat.div_mod i Ln), (Nat.div_mod j Ln) by lia. rewrite Q, R. auto.
Qed.

(** going back *)
Fixpoint home (m : rmap) (off : N) (i : nat) : N := match i with O => off | S i => home m (prev m off (S i)) i end.
Lemma home_pi : forall m h i, wf m -> home m (pi m h i) i = (h mod cap m)%N.
Proof. intros m h i W. induction i; simpl; auto. rewrite prev_next by (auto; apply pi_lt; auto). apply IHi. Qed.
Lemma home_lt : forall m i o, wf m -> (o < cap m)%N -> (home m o i < cap m)%N.
Proof. intros m i. induction i; intros o W Ho; simpl; auto. apply IHi; auto. apply prev_lt; auto. Qed.
Lemma pi_home : forall m i o, wf m -> (o < cap m)%N -> pi m (home m o i) i = o.
Proof.
  intros m i. induction i; intros o W Ho; simpl.
  - apply N.mod_small; auto.
  - rewrite IHi; auto; [apply next_prev; auto | apply prev_lt; auto].
Qed.
Lemma pi_prev : forall m h i, wf m -> prev m (pi m h (S i)) (S i) = pi m h i.
Proof. intros m h i W. simpl. apply prev_next; auto. apply pi_lt; auto. Qed.
(** two sequences that meet at the same place have the same beginning *)
Lemma pi_meet : forall m g h i j, wf m -> j <= i -> pi m g i = pi m h i -> pi m g j = pi m h j.
Proof.
  intros m g h i j W L E. induction i.
  - replace j with 0 by lia. auto.
  - destruct (Nat.eq_dec j (S i)); [subst; auto|]. apply IHi; [lia|].
    rewrite <- (pi_prev m g i W), <- (pi_prev m h i W), E. auto.
Qed.
Lemma pi_meet_up : forall m g h i j, i <= j -> pi m g i = pi m h i -> pi m g j = pi m h j.
Proof.
  intros m g h i j L E. induction j.
  - replace i with 0 in E by lia. auto.
  - destruct (Nat.eq_dec i (S j)); [subst; auto|]. simpl. rewrite IHj by lia. auto.
Qed.

Lemma first_offset_ok : forall m h i, wf m -> first_offset rmode m (pi m h i) (S i) = (h mod cap m)%N.
Proof.
  intros m h i W. unfold first_offset. pose proof LN_pos as LP. pose proof Ln_pos as LP2.
  destruct (wf_cap m W) as (k & _ & C). assert (K : (0 < 2 ^ k)%N) by (apply N.neq_0_lt_0; apply N.pow_nonzero; lia).
  assert (G : forall f i, i < f -> first_offset_loop rmode f m (pi m h i) (S i) = (h mod cap m)%N).
  { induction f; intros i0 Hf; [lia|]. simpl. fold Ln. destruct (Nat.ltb_spec Ln (S i0)) as [Lt | Ge].
    - rewrite Nat.sub_0_r.
      pose proof (Nat.div_mod i0 Ln ltac:(lia)) as D. pose proof (Nat.mod_upper_bound i0 Ln ltac:(lia)) as B.
      assert (Q : 1 <= i0 / Ln) by (apply Nat.div_le_lower_bound; lia).
      assert (J : i0 - i0 mod Ln = Ln * (i0 / Ln)) by lia. rewrite J.
      assert (Jn : N.of_nat (Ln * (i0 / Ln)) = (LN * N.of_nat (i0 / Ln))%N) by (rewrite Nat2N.inj_mul; unfold Ln; rewrite N2Nat.id; auto).
      rewrite Jn. set (j := i0 / Ln) in *.
      assert (X1 : (i0 - Ln) / Ln = j - 1) by (symmetry; apply (Nat.div_unique (i0 - Ln) Ln (j - 1) (i0 mod Ln)); nia).
      assert (X2 : (i0 - Ln) mod Ln = i0 mod Ln) by (symmetry; apply (Nat.mod_unique (i0 - Ln) Ln (j - 1)); nia).
      (* the slot [j] lines back is on line [lineno (i0 - Ln)] *)
      set (y := (LN * (lineno m h (i0 - Ln) mod 2 ^ k) + posno m h i0 mod LN)%N).
      assert (Y : pi m h i0 = ((y + LN * N.of_nat j) mod cap m)%N).
      { rewrite (pi_closed m h i0 _ W K C). unfold y. rewrite C.
        replace (LN * (lineno m h (i0 - Ln) mod 2 ^ k) + posno m h i0 mod LN + LN * N.of_nat j)%N
          with (LN * (lineno m h (i0 - Ln) mod 2 ^ k + N.of_nat j) + posno m h i0 mod LN)%N by lia.
        rewrite mod_line by (try lia; apply N.mod_lt; lia). rewrite N.add_mod_idemp_l by lia. do 3 f_equal.
        unfold lineno. rewrite X1. fold j. replace (tri j) with (tri (j - 1) + j); [lia|].
        destruct j; [lia|]. simpl. rewrite Nat.sub_0_r. lia. }
      assert (Yl : (y < cap m)%N).
      { unfold y. rewrite C. pose proof (N.mod_lt (lineno m h (i0 - Ln)) (2 ^ k) ltac:(lia)). pose proof (N.mod_lt (posno m h i0) LN ltac:(lia)). nia. }
      rewrite Y, sub_add by lia. unfold y.
      destruct (lineL (lineno m h (i0 - Ln) mod 2 ^ k) (posno m h i0 mod LN) ltac:(apply N.mod_lt; lia)) as (-> & _).
      rewrite <- (IHf (i0 - Ln)) by lia. f_equal; [|destruct Ln; lia].
      rewrite (pi_closed m h (i0 - Ln) _ W K C). rewrite N.mul_comm. f_equal.
      rewrite <- N.add_assoc. rewrite <- (N.add_mod_idemp_l (LN * _)) by lia.
      rewrite (N.mul_comm LN), N.mod_mul by lia. rewrite N.add_0_l, N.add_mod_idemp_l by lia.
      unfold posno. rewrite X1, X2. fold j. replace (N.of_nat j) with (N.of_nat (j - 1) + 1)%N by lia.
      replace (h mod cap m + N.of_nat (i0 mod Ln) + (N.of_nat (j - 1) + 1) * (LN - 1) + 1)%N
        with (h mod cap m + N.of_nat (i0 mod Ln) + N.of_nat (j - 1) * (LN - 1) + 1 * LN)%N by nia.
      apply N.mod_add. lia.
    - rewrite Nat.sub_0_r. rewrite (pi_closed m h i0 _ W K C). pose proof (N.mod_lt h (cap m) ltac:(lia)) as HB.
      assert (I : i0 / Ln = 0) by (apply Nat.div_small; lia). assert (I2 : i0 mod Ln = i0) by (apply Nat.mod_small; lia).
      unfold lineno, posno. rewrite I, I2. cbn [tri]. change (N.of_nat 0) with 0%N. rewrite N.mul_0_l, !N.add_0_r.
      rewrite (N.mod_small (h mod cap m / LN)) by (apply N.div_lt_upper_bound; lia).
      destruct (lineL (h mod cap m / LN) ((h mod cap m + N.of_nat i0) mod LN) ltac:(apply N.mod_lt; lia)) as (-> & _).
      rewrite N.mul_comm. rewrite (N.div_mod (h mod cap m) LN) at 4 by lia. f_equal.
      rewrite <- N.add_assoc. rewrite <- (N.add_mod_idemp_l (LN * _)) by lia.
      rewrite (N.mul_comm LN (_ / _)), N.mod_mul by lia. rewrite N.add_0_l.
      rewrite (N.mod_small (N.of_nat i0)) by (unfold Ln in Ge; lia).
      rewrite N.add_mod_idemp_l by lia. replace (h mod cap m + N.of_nat i0 + (LN - N.of_nat i0))%N with (h mod cap m + 1 * LN)%N by (unfold Ln in Ge; lia).
      apply N.mod_add. lia. }
  apply G. lia.
Qed.
End P.
