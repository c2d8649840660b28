From Coq Require Import Arith NArith List Bool Lia.
From Verif Require Import Lib LockProg BarSpec BarProg Helpers_Model Helpers_Proof BarTourn_Model.
Import ListNotations.
Local Arguments upd : simpl never.
Local Arguments Nat.ltb : simpl never.
Local Arguments Nat.leb : simpl never.
Local Arguments Nat.odd : simpl never.
Local Arguments Nat.mul : simpl never.
Local Arguments Nat.pow : simpl never.
Local Arguments Nat.sub : simpl never.
Local Arguments N.mul : simpl never.
Local Arguments N.modulo : simpl never.

Lemma odd_S : forall m, Nat.odd (S m) = negb (Nat.odd m).
Proof. intros. rewrite Nat.odd_succ, <- Nat.negb_odd. auto. Qed.
Lemma pow_of_nat : forall k, (2 ^ N.of_nat k)%N = N.of_nat (2 ^ k).
Proof.
  induction k; [reflexivity|]. rewrite Nat2N.inj_succ, N.pow_succ_r', IHk. change (2 ^ S k) with (2 * 2 ^ k). lia.
Qed.
Lemma pow_S : forall k, 2 ^ S k = 2 * 2 ^ k.
Proof. reflexivity. Qed.
Lemma pow_pos : forall k, 0 < 2 ^ k.
Proof. intros. apply Nat.neq_0_lt_0, Nat.pow_nonzero. lia. Qed.

(* ---------- the round in which a positive index loses ---------- *)
Fixpoint tz (f i : nat) : nat := match f with O => O | S g => if Nat.odd i then 0 else S (tz g (Nat.div2 i)) end.
Lemma tz_spec : forall f i, 0 < i -> i < f -> exists q, i = 2 ^ tz f i * (2 * q + 1).
Proof.
  induction f as [|f IH]; intros i Hi Hf; [lia|]. cbn [tz]. destruct (Nat.odd i) eqn:E.
  - apply Nat.odd_spec in E. destruct E as [q E]. exists q. change (2 ^ 0) with 1. lia.
  - assert (Ev : Nat.even i = true) by (rewrite <- Nat.negb_odd, E; auto). apply Nat.even_spec in Ev. destruct Ev as [h Eh].
    assert (Nat.div2 i = h) by (rewrite Eh; apply Nat.div2_double). rewrite H. destruct (IH h) as [q Hq]; [lia|lia|]. exists q. rewrite pow_S.
    set (p := 2 ^ tz f h) in *. clearbody p. nia.
Qed.
Lemma odd_unique : forall a b q r, 2 ^ a * (2 * q + 1) = 2 ^ b * (2 * r + 1) -> a = b /\ q = r.
Proof.
  induction a as [|a IH]; intros [|b] q r H.
  - change (2 ^ 0) with 1 in H. lia.
  - rewrite pow_S in H. change (2 ^ 0) with 1 in H. lia.
  - rewrite pow_S in H. change (2 ^ 0) with 1 in H. lia.
  - rewrite !pow_S in H. destruct (IH b q r); [nia|]. auto.
Qed.

Section Pf.
Variable n : nat.
Hypothesis Hn : (1 <= N.of_nat n <= 2 ^ 31)%N.
Variable m0 : nat -> nat -> option role.
Notation size := (size n). Notation tab := (tab n m0). Notation step := (step n m0).

Lemma log2up_le : (N.log2_up (N.of_nat n) <= 31)%N.
Proof. change 31%N with (N.log2_up (2 ^ 31)). apply N.log2_up_le_mono. lia. Qed.
Lemma size_eq : size = S (N.to_nat (N.log2_up (N.of_nat n))).
Proof. unfold BarTourn_Model.size. rewrite power_2_eq, log_pow2; auto; [lia|]. assert (X := log2up_le). lia. Qed.
Lemma size_bd : 1 <= size <= 32.
Proof. rewrite size_eq. assert (X := log2up_le). lia. Qed.
Lemma size_cover : n <= 2 ^ (size - 1).
Proof.
  assert (N.of_nat n <= 2 ^ N.log2_up (N.of_nat n))%N.
  { destruct (N.eq_dec (N.of_nat n) 1) as [E|E]; [rewrite E; cbn; lia|]. apply N.log2_up_spec. lia. }
  rewrite size_eq. replace (S (N.to_nat (N.log2_up (N.of_nat n))) - 1) with (N.to_nat (N.log2_up (N.of_nat n))) by lia.
  assert (X := pow_of_nat (N.to_nat (N.log2_up (N.of_nat n)))). rewrite N2Nat.id in X. lia.
Qed.
Lemma size_least : forall k, k < size - 1 -> 2 ^ k < n.
Proof.
  intros k. rewrite size_eq. intros Hk. assert (X : (N.of_nat k < N.log2_up (N.of_nat n))%N) by lia.
  apply N.log2_up_lt_pow2 in X; [|lia]. rewrite pow_of_nat in X. lia.
Qed.
Lemma size_one : size = 1 <-> n = 1.
Proof.
  split; intros H.
  - assert (X := size_cover). rewrite H in X. change (2 ^ (1 - 1)) with 1 in X. lia.
  - rewrite size_eq, H. reflexivity.
Qed.

Definition T (i : nat) : nat := if Nat.eqb i 0 then size - 1 else S (tz (S i) i).
Definition par (i : nat) : nat := i - 2 ^ (T i - 1).

Lemma T_pos : forall i, 0 < i -> exists q, i = 2 ^ (T i - 1) * (2 * q + 1) /\ 1 <= T i /\ par i = 2 ^ T i * q.
Proof.
  intros i Hi. unfold par. assert (E : T i = S (tz (S i) i)) by (unfold T; destruct (Nat.eqb_spec i 0); auto; lia).
  destruct (tz_spec (S i) i Hi ltac:(lia)) as [q Hq]. exists q. rewrite E. replace (S (tz (S i) i) - 1) with (tz (S i) i) by lia. rewrite pow_S.
  set (p := 2 ^ tz (S i) i) in *. clearbody p. clear E. split; auto. split; [lia|]. nia.
Qed.
Lemma par_lt : forall i, 0 < i -> par i < i.
Proof. intros i Hi. unfold par. assert (X := pow_pos (T i - 1)). lia. Qed.
Lemma T_mult : forall a q, 2 ^ a * q <> 0 -> a < T (2 ^ a * q).
Proof.
  intros a q H. destruct (T_pos (2 ^ a * q) ltac:(lia)) as [r [E [E1 _]]]. set (m := T (2 ^ a * q)) in *. clearbody m.
  destruct (Nat.le_gt_cases m a) as [Hc|]; auto. exfalso.
  assert (Ea : 2 ^ a = 2 ^ (m - 1) * (2 * 2 ^ (a - m))).
  { rewrite <- pow_S, <- Nat.pow_add_r. f_equal. lia. }
  rewrite Ea in E. assert (P := pow_pos (m - 1)). assert (2 * (2 ^ (a - m) * q) = 2 * r + 1) by nia. lia.
Qed.
Lemma T_le : forall i, i < n -> T i <= size - 1.
Proof.
  intros i Hi. destruct (Nat.eq_dec i 0) as [->|H0]; [unfold T; cbn; auto|]. destruct (T_pos i ltac:(lia)) as [q [E [E1 _]]].
  assert (X := size_cover). assert (2 ^ (T i - 1) < 2 ^ (size - 1)) by nia. apply Nat.pow_lt_mono_r_iff in H; lia.
Qed.
Lemma T_par : forall i, 0 < i -> i < n -> par i <> 0 -> T i < T (par i).
Proof. intros i Hi Hn' Hp. destruct (T_pos i Hi) as [q [_ [_ E]]]. rewrite E in *. apply T_mult. auto. Qed.
Lemma T_par_le : forall i, 0 < i -> i < n -> T i <= T (par i).
Proof.
  intros i Hi Hn'. destruct (Nat.eq_dec (par i) 0) as [E|E]; [|assert (X := T_par i Hi Hn' E); lia].
  rewrite E. assert (X := T_le i Hn'). unfold T at 2. cbn. auto.
Qed.
(* w beats l = w + 2^(k-1) in round k *)
Lemma T_child : forall w k, w < n -> 1 <= k -> (w = 0 /\ k <= size - 1 \/ k < T w) -> T (w + 2 ^ (k - 1)) = k /\ par (w + 2 ^ (k - 1)) = w.
Proof.
  intros w k Hw Hk H. assert (Hw2 : exists q, w = 2 ^ k * q).
  { destruct (Nat.eq_dec w 0) as [->|H0]; [exists 0; lia|]. destruct H as [[? _]|H]; [lia|]. destruct (T_pos w ltac:(lia)) as [q [E _]].
    exists (2 ^ (T w - 1 - k) * (2 * q + 1)). rewrite E at 1. rewrite Nat.mul_assoc, <- Nat.pow_add_r. f_equal. f_equal. lia. }
  destruct Hw2 as [q Hq]. assert (P := pow_pos (k - 1)).
  assert (Ek : 2 ^ k = 2 * 2 ^ (k - 1)) by (rewrite <- pow_S; f_equal; lia).
  assert (E : w + 2 ^ (k - 1) = 2 ^ (k - 1) * (2 * q + 1)) by (rewrite Hq, Ek; nia).
  destruct (T_pos (w + 2 ^ (k - 1)) ltac:(lia)) as [r [E2 [E3 _]]]. rewrite E in E2 at 1. apply odd_unique in E2. destruct E2 as [E2 _].
  assert (ET : T (w + 2 ^ (k - 1)) = k) by lia. split; auto. unfold par. rewrite ET. lia.
Qed.

(* ---------- the roles ---------- *)
Lemma twok_eq : forall k, k < 32 -> twok k = N.of_nat (2 ^ k).
Proof.
  intros k Hk. unfold twok, w32. rewrite N.mod_small; [apply pow_of_nat|]. apply N.pow_lt_mono_r; lia.
Qed.
Lemma twokm1_eq : forall k, k < 32 -> twokm1 k = N.of_nat (2 ^ (k - 1)).
Proof. intros k Hk. unfold twokm1. change (w32 (2 ^ N.of_nat (k - 1))) with (twok (k - 1)). apply twok_eq. lia. Qed.
Lemma imod_eq : forall i k, k < 32 -> N.land (N.of_nat i) (w32 (twok k + (2 ^ 32 - 1))) = N.of_nat (i mod 2 ^ k).
Proof.
  intros i k Hk. rewrite twok_eq by auto. assert (P := pow_pos k). assert (B : (N.of_nat (2 ^ k) <= 2 ^ 31)%N) by (rewrite <- pow_of_nat; apply N.pow_le_mono_r; lia).
  assert (E : w32 (N.of_nat (2 ^ k) + (2 ^ 32 - 1)) = N.ones (N.of_nat k)).
  { rewrite N.ones_equiv, <- N.sub_1_r, pow_of_nat. unfold w32. set (p := N.of_nat (2 ^ k)) in *. assert (1 <= p)%N by lia. clearbody p. change (2 ^ 32)%N with 4294967296%N. change (2 ^ 31)%N with 2147483648%N in B.
    replace (p + (4294967296 - 1))%N with ((p - 1) + 1 * 4294967296)%N by lia. rewrite N.mod_add, N.mod_small; lia. }
  rewrite E, N.land_ones, pow_of_nat, <- Nat2N.inj_mod. auto.
Qed.
Lemma tm1_le : forall k, 1 <= k -> k < size -> 2 ^ (k - 1) < n /\ (N.of_nat (2 ^ (k - 1)) <= 2 ^ 30)%N.
Proof.
  intros k H1 Hk. assert (S1 := size_bd). split.
  - apply size_least. lia.
  - rewrite <- pow_of_nat. apply N.pow_le_mono_r; lia.
Qed.
Lemma add_w32 : forall i k, i < n -> 1 <= k -> k < size -> w32 (N.of_nat i + twokm1 k) = N.of_nat (i + 2 ^ (k - 1)).
Proof.
  intros i k Hi H1 Hk. assert (S1 := size_bd). destruct (tm1_le k H1 Hk) as [A B]. rewrite twokm1_eq by lia. unfold w32.
  set (p := 2 ^ (k - 1)) in *. clearbody p. change (2 ^ 32)%N with 4294967296%N. change (2 ^ 31)%N with 2147483648%N in Hn. change (2 ^ 30)%N with 1073741824%N in B. rewrite N.mod_small; lia.
Qed.

Lemma assigned_eq : forall i k, i < n -> 1 <= k -> k < size ->
  assigned n i k =
    if Nat.eqb (i mod 2 ^ k) (2 ^ (k - 1)) then Some Loser
    else if Nat.eqb i 0 && Nat.leb n (2 ^ k) then Some Champion
    else if Nat.eqb (i mod 2 ^ k) 0 then
      if Nat.ltb (i + 2 ^ (k - 1)) n && Nat.ltb (2 ^ k) n then Some Winner else if Nat.leb n (i + 2 ^ (k - 1)) then Some Bye else None
    else None.
Proof.
  intros i k Hi H1 Hk. assert (S1 := size_bd). unfold assigned. rewrite imod_eq, add_w32, twokm1_eq, twok_eq by (auto; lia).
  assert (Eb : forall a b, N.eqb (N.of_nat a) (N.of_nat b) = Nat.eqb a b).
  { intros. destruct (N.eqb_spec (N.of_nat a) (N.of_nat b)), (Nat.eqb_spec a b); auto; lia. }
  assert (Lb : forall a b, N.ltb (N.of_nat a) (N.of_nat b) = Nat.ltb a b).
  { intros. destruct (N.ltb_spec (N.of_nat a) (N.of_nat b)), (Nat.ltb_spec a b); auto; lia. }
  assert (Gb : forall a b, N.leb (N.of_nat a) (N.of_nat b) = Nat.leb a b).
  { intros. destruct (N.leb_spec (N.of_nat a) (N.of_nat b)), (Nat.leb_spec a b); auto; lia. }
  change 0%N with (N.of_nat 0). rewrite !Eb, !Lb, !Gb. auto.
Qed.

Lemma mod_low : forall i k, (i = 0 \/ k < T i) -> i mod 2 ^ k = 0.
Proof.
  intros i k H. assert (P := pow_pos k). destruct (Nat.eq_dec i 0) as [->|H0]; [apply Nat.mod_0_l; lia|]. destruct H as [|H]; [lia|].
  destruct (T_pos i ltac:(lia)) as [q [E _]]. assert (E2 : i = 2 ^ (T i - 1 - k) * (2 * q + 1) * 2 ^ k).
  { rewrite E at 1. rewrite Nat.mul_comm, (Nat.mul_comm (2 ^ (T i - 1 - k))), <- Nat.mul_assoc, <- Nat.pow_add_r. f_equal. f_equal. lia. }
  rewrite E2. apply Nat.mod_mul. lia.
Qed.
Lemma mod_at : forall i, 0 < i -> i mod 2 ^ T i = 2 ^ (T i - 1).
Proof.
  intros i Hi. destruct (T_pos i Hi) as [q [E [E1 _]]]. assert (P := pow_pos (T i - 1)).
  assert (Ek : 2 ^ T i = 2 * 2 ^ (T i - 1)) by (rewrite <- pow_S; f_equal; lia).
  assert (E2 : i = 2 ^ (T i - 1) + q * 2 ^ T i) by nia. rewrite E2 at 1. rewrite Nat.mod_add by lia. apply Nat.mod_small. lia.
Qed.

(* the loser, the winner or champion, and the bye *)
Lemma tab_loser : forall i, 0 < i -> i < n -> tab i (T i) = Some (Loser, par i).
Proof.
  intros i Hi Hl. assert (HT := T_le i Hl). destruct (T_pos i Hi) as [q [E [E1 _]]]. assert (S1 := size_bd). unfold BarTourn_Model.tab.
  destruct (Nat.eqb_spec (T i) 0); [lia|]. destruct (Nat.ltb_spec (T i) size); [|lia].
  unfold slot. rewrite assigned_eq, mod_at, Nat.eqb_refl by auto. rewrite twokm1_eq by lia. destruct (tm1_le (T i) E1 H) as [A B].
  unfold par. assert (2 ^ (T i - 1) <= i) by nia. set (p := 2 ^ (T i - 1)) in *. clearbody p.
  assert (X : w32 (N.of_nat i + (2 ^ 32 - N.of_nat p)) = N.of_nat (i - p)).
  { unfold w32. change (2 ^ 32)%N with 4294967296%N. change (2 ^ 31)%N with 2147483648%N in Hn. change (2 ^ 30)%N with 1073741824%N in B.
    replace (N.of_nat i + (4294967296 - N.of_nat p))%N with (N.of_nat (i - p) + 1 * 4294967296)%N by lia. rewrite N.mod_add, N.mod_small; lia. }
  rewrite X. destruct (N.ltb_spec (N.of_nat (i - p)) (N.of_nat n)); [|lia]. rewrite Nat2N.id. auto.
Qed.
Lemma tab_up : forall i k, i < n -> 1 <= k -> k < size -> (i = 0 \/ k < T i) ->
  tab i k = if Nat.ltb (i + 2 ^ (k - 1)) n then Some (if Nat.eqb i 0 && Nat.leb n (2 ^ k) then Champion else Winner, i + 2 ^ (k - 1)) else Some (Bye, 0).
Proof.
  intros i k Hi H1 Hk H. assert (S1 := size_bd). unfold BarTourn_Model.tab. destruct (Nat.eqb_spec k 0); [lia|]. destruct (Nat.ltb_spec k size); [|lia].
  unfold slot. rewrite assigned_eq, mod_low by auto. rewrite add_w32 by auto. assert (P := pow_pos (k - 1)).
  destruct (Nat.eqb_spec 0 (2 ^ (k - 1))); [lia|]. destruct (tm1_le k H1 Hk) as [A _].
  assert (Hj : forall r, (if (N.of_nat (i + 2 ^ (k - 1)) <? N.of_nat n)%N then inr (r, N.to_nat (N.of_nat (i + 2 ^ (k - 1)))) else inl (Oob i k)) =
                if Nat.ltb (i + 2 ^ (k - 1)) n then inr (r, i + 2 ^ (k - 1)) else @inl fault (role * nat) (Oob i k)).
  { intros r. rewrite Nat2N.id. destruct (N.ltb_spec (N.of_nat (i + 2 ^ (k - 1))) (N.of_nat n)), (Nat.ltb_spec (i + 2 ^ (k - 1)) n); auto; lia. }
  destruct (Nat.eqb_spec i 0) as [E0|E0]; cbn [andb].
  - subst i. destruct (Nat.leb_spec n (2 ^ k)).
    + rewrite Hj. destruct (Nat.ltb_spec (0 + 2 ^ (k - 1)) n); [auto|lia].
    + rewrite Nat.eqb_refl. destruct (Nat.ltb_spec (0 + 2 ^ (k - 1)) n); [|lia]. destruct (Nat.ltb_spec (2 ^ k) n); [|lia]. cbn [andb]. rewrite Hj.
      destruct (Nat.ltb_spec (0 + 2 ^ (k - 1)) n); [auto|lia].
  - rewrite Nat.eqb_refl. destruct H as [|H]; [lia|]. destruct (T_pos i ltac:(lia)) as [q [E _]].
    assert (2 ^ k <= 2 ^ (T i - 1)) by (apply Nat.pow_le_mono_r; lia). assert (2 ^ k < n) by nia.
    destruct (Nat.ltb_spec (2 ^ k) n); [|lia]. rewrite andb_true_r. destruct (Nat.ltb_spec (i + 2 ^ (k - 1)) n) as [Hc|Hc].
    + rewrite Hj. destruct (Nat.ltb_spec (i + 2 ^ (k - 1)) n); [auto|lia].
    + destruct (Nat.leb_spec n (i + 2 ^ (k - 1))); auto. lia.
Qed.

(* init without indeterminate roles never faults *)
Lemma slot_ok : forall i k, i < n -> 1 <= k -> k < size -> (assigned n i k = None -> m0 i k = Some Bye \/ m0 i k = Some Dropout) ->
  exists x, slot n m0 i k = inr x.
Proof.
  intros i k Hi H1 Hk H. destruct (Nat.eq_dec i 0) as [->|H0].
  - assert (X := tab_up 0 k Hi H1 Hk (or_introl eq_refl)). unfold BarTourn_Model.tab in X. destruct (Nat.eqb_spec k 0); [lia|]. destruct (Nat.ltb_spec k size); [|lia].
    destruct (slot n m0 0 k); eauto. destruct (Nat.ltb _ _); discriminate.
  - destruct (Nat.lt_trichotomy k (T i)) as [C|[C|C]].
    + assert (X := tab_up i k Hi H1 Hk (or_intror C)). unfold BarTourn_Model.tab in X. destruct (Nat.eqb_spec k 0); [lia|]. destruct (Nat.ltb_spec k size); [|lia].
      destruct (slot n m0 i k); eauto. destruct (Nat.ltb _ _); discriminate.
    + subst k. assert (X := tab_loser i ltac:(lia) Hi). unfold BarTourn_Model.tab in X. destruct (Nat.eqb_spec (T i) 0); [lia|]. destruct (Nat.ltb_spec (T i) size); [|lia].
      destruct (slot n m0 i (T i)); eauto. discriminate.
    + assert (HA : assigned n i k = None).
      { rewrite assigned_eq by auto. destruct (T_pos i ltac:(lia)) as [q [E [E1 _]]].
        assert (Ek : 2 ^ k = 2 ^ (T i - 1) * (2 * 2 ^ (k - T i))) by (rewrite <- pow_S, <- Nat.pow_add_r; f_equal; lia).
        assert (Em : i mod 2 ^ k = 2 ^ (T i - 1) * ((2 * q + 1) mod (2 * 2 ^ (k - T i)))).
        { rewrite E at 1. rewrite Ek. assert (A1 := pow_pos (T i - 1)). assert (A2 := pow_pos (k - T i)). rewrite Nat.mul_mod_distr_l; lia. }
        assert (Ho : exists r, (2 * q + 1) mod (2 * 2 ^ (k - T i)) = 2 * r + 1).
        { assert (A2 := pow_pos (k - T i)). assert (Dm := Nat.div_mod (2 * q + 1) (2 * 2 ^ (k - T i)) ltac:(lia)).
          set (m := (2 * q + 1) mod (2 * 2 ^ (k - T i))) in *. set (d := (2 * q + 1) / (2 * 2 ^ (k - T i))) in *. clearbody m d.
          exists (q - 2 ^ (k - T i) * d). nia. }
        destruct Ho as [r Hr]. rewrite Hr in Em. rewrite Em.
        assert (A1 := pow_pos (T i - 1)).
        assert (Ek1 : 2 ^ (k - 1) = 2 ^ (T i - 1) * (2 * 2 ^ (k - T i - 1))) by (rewrite <- pow_S, <- Nat.pow_add_r; f_equal; lia).
        destruct (Nat.eqb_spec (2 ^ (T i - 1) * (2 * r + 1)) (2 ^ (k - 1))) as [X|_]; [rewrite Ek1 in X; apply Nat.mul_cancel_l in X; lia|].
        destruct (Nat.eqb_spec i 0); [lia|]. cbn [andb]. destruct (Nat.eqb_spec (2 ^ (T i - 1) * (2 * r + 1)) 0); [nia|auto]. }
      specialize (H HA). unfold slot. rewrite HA. destruct H as [-> | ->]; eauto.
Qed.
Lemma init_ok : (forall i k, i < n -> m0 i k = Some Bye \/ m0 i k = Some Dropout) -> init_fault n m0 = None.
Proof.
  intros H. unfold init_fault.
  assert (G1 : forall i cnt k, i < n -> 1 <= k -> k + cnt <= size -> init_rounds n m0 i k cnt = None).
  { intros i. induction cnt as [|c IH]; intros k Hi Hk Hc; cbn [init_rounds]; auto. destruct (slot_ok i k Hi Hk ltac:(lia)) as [x ->]; auto. apply IH; auto; lia. }
  assert (G2 : forall cnt i, i + cnt <= n -> init_threads n m0 i cnt = None).
  { induction cnt as [|c IH]; intros i Hc; cbn [init_threads]; auto. assert (S1 := size_bd). rewrite G1 by lia. apply IH. lia. }
  apply G2. lia.
Qed.

(* ---------- the barrier ---------- *)
Local Opaque BarTourn_Model.size.
Lemma T0 : T 0 = size - 1.
Proof. reflexivity. Qed.
Definition ord (i : nat) (p : pc) : nat :=
  match p with U r => r | ChS _ | LoW _ => S (T i) | D r => 2 * T i + 1 - r | Ret1 => 2 * T i + 1 | _ => 2 * T i + 2 end.
Definition inside (p : pc) : bool := match p with Unsub | Out => false | _ => true end.
Definition Nt (en lv : nat -> nat) (thr : nat -> pc) (t x : nat) : nat := if Nat.leb x (ord t (thr t)) then en t else lv t.
(* arrival of a loser at its winner, and release of the loser of round [T l] by it *)
Definition ar (l : nat) : nat := S (T l).
Definition wk (l : nat) : nat := 2 * T (par l) + 2 - T l.
Definition pcok (t : nat) (p : pc) : Prop :=
  match p with
  | U r => 1 <= r <= T t | ChS r => t = 0 /\ r = T t /\ 1 <= r | LoW r => t <> 0 /\ r = T t
  | D r => r < T t | Ret1 => n = 1 | Bad => False | _ => True end.

Record R (s : state) (en lv : nat -> nat) : Prop := mkR {
  r_tid : exists m, tid s = N.of_nat m /\ m <= n /\ forall t, t < n -> m <= t -> thr s t = Unsub;
  r_un : forall t, t < n -> thr s t = Unsub -> en t = 0;
  r_pc : forall t, t < n -> pcok t (thr s t);
  r_el : forall t, t < n -> en t = if inside (thr s t) then S (lv t) else lv t;
  r_sn : forall t, t < n -> thr s t <> Unsub -> n <> 1 -> sns s t = Nat.odd (S (lv t));
  r_fw : forall l, 0 < l -> l < n -> flag s (par l) (T l) = Nat.odd (Nt en lv (thr s) l (ar l));
  r_fl : forall l, 0 < l -> l < n -> flag s l (T l) = Nat.odd (Nt en lv (thr s) (par l) (wk l));
  r_ck : forall l, 0 < l -> l < n -> Nt en lv (thr s) (par l) (S (T l)) <= Nt en lv (thr s) l (ar l);
  r_wk : forall l, 0 < l -> l < n -> Nt en lv (thr s) l (T l + 2) <= Nt en lv (thr s) (par l) (wk l) }.

Lemma R_init : R init (fun _ => 0) (fun _ => 0).
Proof.
  assert (HZ : forall t x, Nt (fun _ => 0) (fun _ => 0) (fun _ => Unsub) t x = 0) by (intros t x; unfold Nt; destruct (Nat.leb x _); auto).
  constructor; cbn [tid flag sns thr init]; auto; try (intros; congruence).
  - exists 0. repeat split; auto; lia.
  - intros. cbn. auto.
  - intros. rewrite HZ. auto.
  - intros. rewrite HZ. auto.
  - intros. rewrite !HZ. auto.
  - intros. rewrite !HZ. auto.
Qed.

Section Facts.
Variables (s : state) (en lv : nat -> nat).
Hypothesis HR : R s en lv.
Notation NN := (Nt en lv (thr s)).
Lemma Nt_bd : forall t x, t < n -> lv t <= NN t x <= en t.
Proof. intros t x Ht. assert (X := r_el _ _ _ HR t Ht). unfold Nt. destruct (inside (thr s t)), (Nat.leb _ _); lia. Qed.
Lemma Nt_mono : forall t x y, t < n -> x <= y -> NN t y <= NN t x.
Proof. intros t x y Ht Hx. assert (X := r_el _ _ _ HR t Ht). unfold Nt. destruct (Nat.leb_spec x (ord t (thr s t))), (Nat.leb_spec y (ord t (thr s t))), (inside (thr s t)); lia. Qed.
Lemma arr0 : forall t, t < n -> NN 0 (S (T 0)) <= NN t (S (T t)).
Proof.
  intros t. induction t as [t IH] using lt_wf_ind. intros Ht. destruct (Nat.eq_dec t 0) as [->|H0]; auto.
  assert (Hp := par_lt t ltac:(lia)). assert (X := r_ck _ _ _ HR t ltac:(lia) Ht). specialize (IH (par t) Hp ltac:(lia)).
  assert (Y := Nt_mono (par t) (S (T t)) (S (T (par t))) ltac:(lia)). assert (Z := T_par_le t ltac:(lia) Ht). unfold ar in X. lia.
Qed.
Lemma wake0 : forall t, t < n -> NN t (T t + 2) <= NN 0 (T 0 + 2).
Proof.
  intros t. induction t as [t IH] using lt_wf_ind. intros Ht. destruct (Nat.eq_dec t 0) as [->|H0]; auto.
  assert (Hp := par_lt t ltac:(lia)). assert (X := r_wk _ _ _ HR t ltac:(lia) Ht). specialize (IH (par t) Hp ltac:(lia)).
  assert (Z := T_par_le t ltac:(lia) Ht). assert (Y := Nt_mono (par t) (T (par t) + 2) (wk t) ltac:(lia) ltac:(unfold wk; lia)). lia.
Qed.
Lemma wake_arr : forall t u, t < n -> u < n -> NN t (T t + 2) <= NN u (S (T u)).
Proof. intros t u Ht Hu. assert (A := wake0 t Ht). assert (B := arr0 u Hu). assert (X := Nt_mono 0 (S (T 0)) (T 0 + 2) ltac:(lia) ltac:(lia)). lia. Qed.
(* a winner still waiting in round T l is at most one episode behind the loser *)
Lemma win_bd : forall l, 0 < l -> l < n -> NN (par l) (S (T l)) <= NN l (ar l) <= S (NN (par l) (S (T (par l)))).
Proof.
  intros l Hl Hln. assert (X := r_ck _ _ _ HR l Hl Hln). split; [lia|]. assert (Hp := par_lt l Hl).
  assert (Z1 := Nt_bd l (ar l) Hln). assert (Z2 := Nt_bd l (T l + 2) Hln). assert (Z3 := r_el _ _ _ HR l Hln). assert (Z4 := wake_arr l (par l) Hln ltac:(lia)).
  destruct (inside (thr s l)); lia.
Qed.
Lemma lose_bd : forall l, 0 < l -> l < n -> lv l <= NN (par l) (wk l) <= en l.
Proof.
  intros l Hl Hln. assert (X := r_wk _ _ _ HR l Hl Hln). assert (Hp := par_lt l Hl). assert (Y := Nt_bd l (T l + 2) Hln). assert (Y2 := Nt_bd l (S (T l)) Hln).
  assert (Z0 := T_par_le l Hl Hln). assert (Z := Nt_mono (par l) (T (par l) + 2) (wk l) ltac:(lia) ltac:(unfold wk; lia)). assert (Z2 := wake_arr (par l) l ltac:(lia) Hln). lia.
Qed.
End Facts.

Lemma R_safe : forall s en lv t u, R s en lv -> t < n -> u < n -> lv t <= en u.
Proof.
  intros s en lv t u HR Ht Hu. assert (X := wake_arr _ _ _ HR t u Ht Hu). assert (Y := Nt_bd _ _ _ HR t (T t + 2) Ht). assert (Z := Nt_bd _ _ _ HR u (S (T u)) Hu). lia.
Qed.

Lemma Nt_upd : forall en lv thr t p' u x, Nt en lv (upd thr t p') u x = if Nat.eq_dec u t then (if Nat.leb x (ord t p') then en t else lv t) else Nt en lv thr u x.
Proof. intros. unfold Nt, upd. destruct (Nat.eq_dec u t); subst; auto. Qed.

Lemma R_move : forall s en lv t p' f', R s en lv -> t < n -> inside (thr s t) = true -> inside p' = true -> pcok t p' ->
  (forall l, 0 < l -> l < n -> f' (par l) (T l) = Nat.odd (Nt en lv (upd (thr s) t p') l (ar l))) ->
  (forall l, 0 < l -> l < n -> f' l (T l) = Nat.odd (Nt en lv (upd (thr s) t p') (par l) (wk l))) ->
  (forall l, 0 < l -> l < n -> Nt en lv (upd (thr s) t p') (par l) (S (T l)) <= Nt en lv (upd (thr s) t p') l (ar l)) ->
  (forall l, 0 < l -> l < n -> Nt en lv (upd (thr s) t p') l (T l + 2) <= Nt en lv (upd (thr s) t p') (par l) (wk l)) ->
  R (mk (tid s) f' (sns s) (upd (thr s) t p')) en lv.
Proof.
  intros s en lv t p' f' HR Ht Hi Hi' Hp H1 H2 H3 H4. constructor; cbn [tid flag sns thr]; auto.
  - destruct (r_tid _ _ _ HR) as [m [M1 [M2 M3]]]. exists m. repeat split; auto. intros u Hu Hu2. rewrite upd_other; auto. intros ->. rewrite M3 in Hi by auto. discriminate.
  - intros u Hu. unfold upd. destruct (Nat.eq_dec u t); [intros ->; discriminate|apply (r_un _ _ _ HR); auto].
  - intros u Hu. unfold upd. destruct (Nat.eq_dec u t); [subst; auto|apply (r_pc _ _ _ HR); auto].
  - intros u Hu. assert (X := r_el _ _ _ HR u Hu). unfold upd. destruct (Nat.eq_dec u t); [subst; rewrite Hi'; rewrite Hi in X|]; auto.
  - intros u Hu. unfold upd. destruct (Nat.eq_dec u t); [subst; intros _|]; apply (r_sn _ _ _ HR); auto. intros X. rewrite X in Hi. discriminate.
Qed.

(* which flags are distinct *)
Lemma slots : forall l l', 0 < l -> l < n -> 0 < l' -> l' < n -> par l = par l' -> T l = T l' -> l = l'.
Proof.
  intros l l' H1 H2 H3 H4 E1 E2. destruct (T_pos l H1) as [q [A [B C]]]. destruct (T_pos l' H3) as [q' [A' [B' C']]].
  rewrite E1, E2 in C. rewrite C in C'. apply Nat.mul_cancel_l in C'; [|assert (X := pow_pos (T l')); lia]. subst q'. rewrite E2 in A. congruence.
Qed.
Lemma slots2 : forall l l', 0 < l -> l < n -> 0 < l' -> l' < n -> par l = l' -> T l <> T l'.
Proof. intros l l' H1 H2 H3 H4 E. assert (X := T_par l H1 H2). rewrite E in X. lia. Qed.

(* moving t forward in the round numbering *)
Ltac leb_all := repeat match goal with |- context [Nat.leb ?a ?b] => destruct (Nat.leb_spec a b) end.

Lemma R_step : forall s en lv l s' e, R s en lv -> step s l = Some (s', e) ->
  (e = [] /\ R s' en lv) \/ (exists t, e = [Enter t] /\ R s' (upd en t (S (en t))) lv) \/
  (exists t, e = [Leave t] /\ R s' en (upd lv t (S (lv t)))).
Proof.
  intros s en lv [t a] s' e HR Hs. unfold BarTourn_Model.step in Hs. destruct (Nat.ltb_spec t n) as [Ht|]; [|discriminate]. cbn [negb] in Hs.
  assert (Hsub : match thr s t, a with Unsub, ASub => False | _, ASub => True | _, _ => False end -> False).
  { destruct (r_tid _ _ _ HR) as [m [M1 [M2 M3]]]. intros X. destruct a; destruct (thr s t) eqn:Et; auto; destruct (N.eqb_spec (N.of_nat t) (tid s)) as [Eq|]; try discriminate;
    assert (thr s t = Unsub) by (apply M3; lia); congruence. }
  assert (RPt := r_pc _ _ _ HR t Ht). assert (REt := r_el _ _ _ HR t Ht). assert (HTt := T_le t Ht). assert (Hsz := size_bd).
  (* a step that changes no flag and crosses no counted point *)
  assert (Hquiet : forall p', inside (thr s t) = true -> inside p' = true -> pcok t p' ->
     (forall l, 0 < l -> l < n -> (l = t -> (ar l <= ord t p' <-> ar l <= ord t (thr s t)) /\ (T l + 2 <= ord t p' <-> T l + 2 <= ord t (thr s t))) /\
                                  (par l = t -> (S (T l) <= ord t p' <-> S (T l) <= ord t (thr s t)) /\ (wk l <= ord t p' <-> wk l <= ord t (thr s t)))) ->
     R (go s t p') en lv).
  { intros p' Hi Hi' Hp Hq. unfold go.
    assert (Q : forall x, (x <= ord t p' <-> x <= ord t (thr s t)) -> Nt en lv (upd (thr s) t p') t x = Nt en lv (thr s) t x).
    { intros x Hx. rewrite Nt_upd. destruct (Nat.eq_dec t t); [|lia]. unfold Nt. leb_all; auto; lia. }
    assert (Q2 : forall u x, u <> t -> Nt en lv (upd (thr s) t p') u x = Nt en lv (thr s) u x) by (intros; rewrite Nt_upd; destruct (Nat.eq_dec u t); auto; lia).
    assert (HQ : forall l, 0 < l -> l < n -> Nt en lv (upd (thr s) t p') l (ar l) = Nt en lv (thr s) l (ar l) /\ Nt en lv (upd (thr s) t p') l (T l + 2) = Nt en lv (thr s) l (T l + 2) /\
       Nt en lv (upd (thr s) t p') (par l) (S (T l)) = Nt en lv (thr s) (par l) (S (T l)) /\ Nt en lv (upd (thr s) t p') (par l) (wk l) = Nt en lv (thr s) (par l) (wk l)).
    { intros l H1 H2. destruct (Hq l H1 H2) as [A B]. repeat split.
      - destruct (Nat.eq_dec l t); [subst; apply Q; apply A; auto|apply Q2; auto].
      - destruct (Nat.eq_dec l t); [subst; apply Q; apply A; auto|apply Q2; auto].
      - destruct (Nat.eq_dec (par l) t) as [E|]; [rewrite E; apply Q; apply B; auto|apply Q2; auto].
      - destruct (Nat.eq_dec (par l) t) as [E|]; [rewrite E; apply Q; apply B; auto|apply Q2; auto]. }
    apply R_move; auto; intros l H1 H2; destruct (HQ l H1 H2) as [A [B [C C2]]]; rewrite ?A, ?B, ?C, ?C2; [apply (r_fw _ _ _ HR)|apply (r_fl _ _ _ HR)|apply (r_ck _ _ _ HR)|apply (r_wk _ _ _ HR)]; auto. }
  (* passing the wait in a won round k against loser x *)
  assert (Hwin : forall x p', 0 < x -> x < n -> par x = t -> thr s t = U (T x) -> flag s t (T x) = sns s t -> inside p' = true -> pcok t p' -> ord t p' = S (T x) ->
     R (go s t p') en lv).
  { intros x p' Hx Hxn Hpx Et Hf Hi' Hp Ho. assert (HTx := T_par_le x Hx Hxn). rewrite Hpx in HTx. rewrite Et in REt; cbn in REt.
    assert (Hn1 : n <> 1) by lia. assert (Hsn := r_sn _ _ _ HR t Ht ltac:(congruence) Hn1).
    assert (B := win_bd _ _ _ HR x Hx Hxn). rewrite Hpx in B.
    assert (V1 : Nt en lv (thr s) t (S (T x)) = lv t) by (unfold Nt; rewrite Et; cbn [ord]; leb_all; lia).
    assert (V2 : Nt en lv (thr s) t (S (T t)) = lv t) by (unfold Nt; rewrite Et; cbn [ord]; leb_all; lia).
    assert (Hv : Nt en lv (thr s) x (ar x) = S (lv t)).
    { assert (F := r_fw _ _ _ HR x Hx Hxn). rewrite Hpx, Hf, Hsn in F. set (v := Nt en lv (thr s) x (ar x)) in *. clearbody v.
      assert (HC : v = lv t \/ v = S (lv t)) by lia. destruct HC as [HC|]; auto. rewrite HC, odd_S in F. destruct (Nat.odd (lv t)); discriminate. }
    unfold go. assert (Q : forall u y, (u = t -> y <> S (T x)) -> Nt en lv (upd (thr s) t p') u y = Nt en lv (thr s) u y).
    { intros u y Hy. rewrite Nt_upd. destruct (Nat.eq_dec u t); auto. subst u. unfold Nt. rewrite Et, Ho. cbn [ord]. leb_all; auto; lia. }
    assert (Qa : forall u, 0 < u -> u < n -> Nt en lv (upd (thr s) t p') u (ar u) = Nt en lv (thr s) u (ar u)).
    { intros u Hu Hun. apply Q. intros ->. unfold ar. assert (X := T_par x Hx Hxn ltac:(lia)). rewrite Hpx in X. lia. }
    assert (Qw : forall u, 0 < u -> u < n -> Nt en lv (upd (thr s) t p') (par u) (wk u) = Nt en lv (thr s) (par u) (wk u)).
    { intros u Hu Hun. apply Q. intros E. unfold wk. rewrite E. assert (X := T_par_le u Hu Hun). rewrite E in X. lia. }
    apply R_move; auto; try (rewrite Et; reflexivity).
    - intros u Hu Hun. rewrite Qa by auto. apply (r_fw _ _ _ HR); auto.
    - intros u Hu Hun. rewrite Qw by auto. apply (r_fl _ _ _ HR); auto.
    - intros u Hu Hun. rewrite Qa by auto. assert (X := r_ck _ _ _ HR u Hu Hun). destruct (Nat.eq_dec u x).
      + subst u. rewrite Hv. rewrite Hpx, Nt_upd, Ho. destruct (Nat.eq_dec t t); [|lia]. leb_all; lia.
      + rewrite Q; auto. intros E EE. apply n0. apply slots; auto; lia.
    - intros u Hu Hun. rewrite Qw by auto. assert (X := r_wk _ _ _ HR u Hu Hun). rewrite Q; auto. intros ->. assert (Y := T_par x Hx Hxn ltac:(lia)). rewrite Hpx in Y. lia. }
  (* waking the loser x of round k *)
  assert (Hwake : forall x p', 0 < x -> x < n -> par x = t -> inside (thr s t) = true -> ord t (thr s t) = wk x - 1 -> inside p' = true -> pcok t p' -> ord t p' = wk x ->
     R (go (setf s x (T x) (sns s t)) t p') en lv).
  { intros x p' Hx Hxn Hpx Hi Ho Hi' Hp Ho'. assert (HTx := T_par_le x Hx Hxn). rewrite Hpx in HTx. rewrite Hi in REt.
    assert (Hwx : wk x = 2 * T t + 2 - T x) by (unfold wk; rewrite Hpx; auto).
    assert (Hn1 : n <> 1) by lia. assert (Hsn := r_sn _ _ _ HR t Ht ltac:(intros X; rewrite X in Hi; discriminate) Hn1).
    unfold go, setf. cbn [tid flag sns thr]. assert (Q : forall u y, (u = t -> y <> wk x) -> Nt en lv (upd (thr s) t p') u y = Nt en lv (thr s) u y).
    { intros u y Hy. rewrite Nt_upd. destruct (Nat.eq_dec u t); auto. subst u. unfold Nt. rewrite Ho, Ho'. leb_all; auto; lia. }
    assert (Qa : forall u, 0 < u -> u < n -> Nt en lv (upd (thr s) t p') u (ar u) = Nt en lv (thr s) u (ar u)).
    { intros u Hu Hun. apply Q. intros ->. unfold ar. lia. }
    assert (Hlt : t <> 0 -> T x < T t). { intros H0. assert (X := T_par x Hx Hxn). rewrite Hpx in X. auto. }
    apply R_move; auto.
    - intros u Hu Hun. rewrite Qa by auto. assert (X := r_fw _ _ _ HR u Hu Hun). unfold upd. destruct (Nat.eq_dec (par u) x) as [E|]; auto.
      destruct (Nat.eq_dec (T u) (T x)) as [E2|]; [|rewrite <- E in *; auto]. exfalso. apply (slots2 u x); auto.
    - intros u Hu Hun. assert (X := r_fl _ _ _ HR u Hu Hun). unfold upd at 1. destruct (Nat.eq_dec u x).
      + subst u. rewrite upd_same, Hpx, Hsn, Nt_upd, Ho'. destruct (Nat.eq_dec t t); [|lia]. leb_all; [|lia]. rewrite REt. auto.
      + rewrite Q; auto. intros E E2. apply n0. apply slots; auto; [congruence|]. assert (Y := T_par_le u Hu Hun). rewrite E in Y. unfold wk in E2 at 1. rewrite E in E2. lia.
    - intros u Hu Hun. rewrite Qa by auto. rewrite Q; [apply (r_ck _ _ _ HR); auto|]. intros E. assert (Y := T_par_le u Hu Hun). rewrite E in Y. lia.
    - intros u Hu Hun. assert (X := r_wk _ _ _ HR u Hu Hun). rewrite (Q u) by (intros ->; lia).
      destruct (Nat.eq_dec u x).
      + subst u. rewrite Hpx, Nt_upd, Ho'. destruct (Nat.eq_dec t t); [|lia]. leb_all; [|lia]. rewrite Hpx in X. assert (Y := Nt_bd _ _ _ HR t (wk x) Ht). lia.
      + rewrite Q; auto. intros E E2. apply n0. apply slots; auto; [congruence|]. assert (Y := T_par_le u Hu Hun). rewrite E in Y. unfold wk in E2 at 1. rewrite E in E2. lia. }
  destruct (thr s t) eqn:Et; destruct a; try discriminate; try (exfalso; exact (Hsub I)); cbn [inside] in REt; cbn [pcok] in RPt.
  - (* subscribe *)
    destruct (N.eqb_spec (N.of_nat t) (tid s)) as [Eq|]; [|discriminate]. injection Hs as <- <-. left. split; auto.
    destruct (r_tid _ _ _ HR) as [m [M1 [M2 M3]]]. assert (m = t) by lia. subst m. assert (E0 : en t = 0) by (apply (r_un _ _ _ HR); auto).
    assert (HN : forall u x, Nt en lv (upd (thr s) t Out) u x = Nt en lv (thr s) u x).
    { intros u x. rewrite Nt_upd. destruct (Nat.eq_dec u t); auto. subst. unfold Nt. rewrite Et. auto. }
    constructor; cbn [thr tid sns flag].
    + exists (S t). split; [|split; [lia|]].
      * rewrite M1. unfold w32. rewrite N.mod_small; [lia|]. change (2 ^ 31)%N with 2147483648%N in Hn. change (2 ^ 32)%N with 4294967296%N. lia.
      * intros u Hu Hu2. rewrite upd_other by lia. apply M3; lia.
    + intros u Hu. upd_goal; [congruence|apply (r_un _ _ _ HR); auto].
    + intros u Hu. upd_goal; [cbn; auto|apply (r_pc _ _ _ HR); auto].
    + intros u Hu. unfold upd. destruct (Nat.eq_dec u t); [subst u; cbn; lia|apply (r_el _ _ _ HR); auto].
    + intros u Hu. unfold upd. destruct (Nat.eq_dec u t); [subst u; intros _ _|apply (r_sn _ _ _ HR); auto]. rewrite <- REt, E0. auto.
    + intros u Hu Hu2. rewrite !HN. apply (r_fw _ _ _ HR); auto.
    + intros u Hu Hu2. rewrite !HN. apply (r_fl _ _ _ HR); auto.
    + intros u Hu Hu2. rewrite !HN. apply (r_ck _ _ _ HR); auto.
    + intros u Hu Hu2. rewrite !HN. apply (r_wk _ _ _ HR); auto.
  - (* enter *)
    injection Hs as <- <-. right. left. exists t. split; auto. set (p' := if Nat.eqb size 1 then Ret1 else U 1).
    assert (Hp' : inside p' = true /\ pcok t p' /\ (n <> 1 -> ord t p' = 1)).
    { unfold p'. destruct (Nat.eqb_spec size 1) as [E|E]; cbn [inside pcok ord].
      - apply size_one in E. repeat split; auto; lia.
      - assert (n <> 1) by (intros X; apply size_one in X; lia). repeat split; auto.
        destruct (Nat.eq_dec t 0) as [->|]; [unfold T; cbn; lia|]. destruct (T_pos t ltac:(lia)) as [q [_ [X _]]]. auto. }
    destruct Hp' as [Hp1 [Hp2 Hp3]].
    assert (HN : forall u x, n <> 1 -> (u = t -> 2 <= x <= 2 * T t + 2) -> Nt (upd en t (S (en t))) lv (upd (thr s) t p') u x = Nt en lv (thr s) u x).
    { intros u x Hn1 Hx. rewrite Nt_upd. destruct (Nat.eq_dec u t); [subst u; unfold Nt; rewrite Et, Hp3 by auto; cbn [ord]|].
      - specialize (Hx eq_refl). leb_all; auto; lia.
      - unfold Nt, upd. destruct (Nat.eq_dec u t); auto. lia. }
    assert (HTp : forall u, 0 < u -> u < n -> 1 <= T u) by (intros u Hu Hun; destruct (T_pos u Hu) as [q [_ [X _]]]; auto).
    constructor; cbn [thr tid sns flag go].
    + destruct (r_tid _ _ _ HR) as [m [M1 [M2 M3]]]. exists m. repeat split; auto. intros u Hu Hu2. rewrite upd_other; auto. intros ->. rewrite M3 in Et by auto. discriminate.
    + intros u Hu. unfold upd. destruct (Nat.eq_dec u t); [unfold p'; destruct (Nat.eqb size 1); discriminate|apply (r_un _ _ _ HR); auto].
    + intros u Hu. unfold upd. destruct (Nat.eq_dec u t); [subst; auto|apply (r_pc _ _ _ HR); auto].
    + intros u Hu. unfold upd. destruct (Nat.eq_dec u t); [subst u; rewrite Hp1; lia|apply (r_el _ _ _ HR); auto].
    + intros u Hu. unfold upd. destruct (Nat.eq_dec u t); [subst u; intros _|]; apply (r_sn _ _ _ HR); auto. congruence.
    + intros u Hu Hu2. assert (X := HTp u Hu Hu2). rewrite HN; [apply (r_fw _ _ _ HR); auto|lia|intros ->; unfold ar; lia].
    + intros u Hu Hu2. assert (X := HTp u Hu Hu2). assert (Y := T_par_le u Hu Hu2). rewrite HN; [apply (r_fl _ _ _ HR); auto|lia|intros <-; unfold wk; lia].
    + intros u Hu Hu2. assert (X := HTp u Hu Hu2). assert (Y := T_par_le u Hu Hu2). rewrite !HN; [apply (r_ck _ _ _ HR); auto|lia|intros ->; unfold ar; lia|lia|intros <-; lia].
    + intros u Hu Hu2. assert (X := HTp u Hu Hu2). assert (Y := T_par_le u Hu Hu2). rewrite !HN; [apply (r_wk _ _ _ HR); auto|lia|intros <-; unfold wk; lia|lia|intros ->; lia].
  - (* the lone participant returns *)
    injection Hs as <- <-. right. right. exists t. split; auto. assert (t = 0) by lia. subst t.
    constructor; cbn [thr tid sns flag go]; try (intros; lia).
    + destruct (r_tid _ _ _ HR) as [m [M1 [M2 M3]]]. exists m. repeat split; auto. intros u Hu Hu2. rewrite upd_other; auto. intros ->. rewrite M3 in Et by auto. discriminate.
    + intros u Hu. unfold upd. destruct (Nat.eq_dec u 0); [discriminate|apply (r_un _ _ _ HR); auto].
    + intros u Hu. upd_goal; [cbn; auto|apply (r_pc _ _ _ HR); auto].
    + intros u Hu. unfold upd. destruct (Nat.eq_dec u 0); [subst u; cbn; lia|apply (r_el _ _ _ HR); auto].
  - (* arrival round *)
    destruct (Nat.eq_dec t 0) as [H0|H0]; [|destruct (Nat.eq_dec r (T t)) as [Hr|Hr]].
    2: { (* loser *)
      subst r. rewrite tab_loser in Hs by (auto; lia). injection Hs as <- <-. left. split; auto.
      assert (Hn1 : n <> 1) by lia. assert (Hsn := r_sn _ _ _ HR t Ht ltac:(congruence) Hn1). assert (Hpt := par_lt t ltac:(lia)).
      unfold go, setf. cbn [tid flag sns thr]. assert (Q : forall u y, (u = t -> y <> ar t) -> Nt en lv (upd (thr s) t (LoW (T t))) u y = Nt en lv (thr s) u y).
      { intros u y Hy. rewrite Nt_upd. destruct (Nat.eq_dec u t); auto. subst u. unfold Nt. rewrite Et. cbn [ord]. unfold ar in Hy. leb_all; auto; lia. }
      assert (Qp : forall u, 0 < u -> u < n -> Nt en lv (upd (thr s) t (LoW (T t))) (par u) (S (T u)) = Nt en lv (thr s) (par u) (S (T u))).
      { intros u Hu Hun. apply Q. intros E. unfold ar. assert (X := T_par u Hu Hun ltac:(lia)). rewrite E in X. lia. }
      assert (Qw : forall u, 0 < u -> u < n -> Nt en lv (upd (thr s) t (LoW (T t))) (par u) (wk u) = Nt en lv (thr s) (par u) (wk u)).
      { intros u Hu Hun. apply Q. intros E. unfold wk, ar. rewrite E. assert (X := T_par_le u Hu Hun). rewrite E in X. lia. }
      apply R_move; auto; try (rewrite Et; reflexivity); try (cbn; auto; fail).
      + intros u Hu Hun. assert (X := r_fw _ _ _ HR u Hu Hun). unfold upd at 1. destruct (Nat.eq_dec u t).
        * subst u. destruct (Nat.eq_dec (par t) (par t)); [|lia]. rewrite upd_same, Nt_upd, Hsn. destruct (Nat.eq_dec t t); [|lia]. cbn [ord]. unfold ar. leb_all; [|lia]. rewrite REt. auto.
        * rewrite Q by congruence. destruct (Nat.eq_dec (par u) (par t)) as [E|]; auto. unfold upd. destruct (Nat.eq_dec (T u) (T t)) as [E2|]; [|rewrite <- E; auto].
          exfalso. apply n0. apply slots; auto; lia.
      + intros u Hu Hun. rewrite Qw by auto. assert (X := r_fl _ _ _ HR u Hu Hun). unfold upd. destruct (Nat.eq_dec u (par t)) as [E|]; auto.
        destruct (Nat.eq_dec (T u) (T t)) as [E2|]; [|rewrite <- E; auto]. exfalso. apply (slots2 t u); auto; lia.
      + intros u Hu Hun. rewrite Qp by auto. assert (X := r_ck _ _ _ HR u Hu Hun). destruct (Nat.eq_dec u t).
        * subst u. rewrite Nt_upd. destruct (Nat.eq_dec t t); [|lia]. cbn [ord]. unfold ar in *. leb_all; [|lia]. unfold Nt at 2 in X. rewrite Et in X. cbn [ord] in X. destruct (Nat.leb (S (T t)) (T t)); lia.
        * rewrite (Q u) by congruence. auto.
      + intros u Hu Hun. rewrite Qw by auto. rewrite Q; [apply (r_wk _ _ _ HR); auto|]. intros ->. unfold ar. lia. }
    all: (assert (Hup : t = 0 \/ r < T t) by lia; rewrite (tab_up t r Ht ltac:(lia) ltac:(lia) Hup) in Hs;
          destruct (Nat.ltb_spec (t + 2 ^ (r - 1)) n) as [Hc|Hc];
          [ destruct (T_child t r Ht ltac:(lia) ltac:(lia)) as [C1 C2]; set (x := t + 2 ^ (r - 1)) in *; assert (Hx0 : 0 < x) by (assert (X := pow_pos (r - 1)); unfold x; lia); clearbody x
          | injection Hs as <- <-; left; split; auto ]).
    + (* 0 wins round r *)
      subst t. cbn [Nat.eqb andb] in Hs. destruct (Nat.leb_spec n (2 ^ r)) as [Hl|Hl];
      (destruct (Bool.eqb (flag s 0 r) (sns s 0)) eqn:Eb; injection Hs as <- <-; left; (split; [auto|]); [|exact HR]); apply eqb_prop in Eb.
      * assert (r = T 0). { rewrite T0 in *. destruct (Nat.lt_ge_cases r (size - 1)) as [G|G]; [apply size_least in G; lia|lia]. }
        apply (Hwin x); cbn [inside pcok ord]; try rewrite C1; auto; try lia.
      * assert (r < T 0). { rewrite T0 in *. assert (G := size_cover). destruct (Nat.eq_dec r (size - 1)) as [Er|]; [rewrite <- Er in G; lia|lia]. }
        apply (Hwin x); cbn [inside pcok ord]; try rewrite C1; auto; try lia.
    + (* 0 has a bye: impossible *)
      exfalso. subst t. destruct (tm1_le r) as [A _]; lia.
    + (* t wins round r *)
      destruct (Nat.eqb_spec t 0); [lia|]. cbn [andb] in Hs. destruct (Bool.eqb (flag s t r) (sns s t)) eqn:Eb; injection Hs as <- <-; left; (split; [auto|]); [|exact HR]; apply eqb_prop in Eb.
      apply (Hwin x); cbn [inside pcok ord]; try rewrite C1; auto; try lia.
    + (* bye *)
      apply Hquiet; cbn [inside pcok ord]; auto; try lia. intros u Hu Hun. unfold ar, wk. split.
      * intros ->. lia.
      * intros E. assert (X := T_par_le u Hu Hun). rewrite E in *. assert (T u <> r).
        { intros E2. apply (Nat.lt_irrefl n). destruct (T_pos u Hu) as [q [A [B _]]]. unfold par in E. rewrite E2 in E. assert (2 ^ (T u - 1) <= u) by nia. rewrite E2 in H. lia. }
        lia.
  - (* champion's store *)
    destruct RPt as [H0 [Hr H1]]. subst t r. assert (Hsm : T 0 = size - 1) by (unfold T; auto). rewrite (tab_up 0 (T 0) Ht H1 ltac:(lia) (or_introl eq_refl)) in Hs.
    destruct (tm1_le (T 0) H1 ltac:(lia)) as [A _]. destruct (Nat.ltb_spec (0 + 2 ^ (T 0 - 1)) n) as [Hc|]; [|lia].
    destruct (T_child 0 (T 0) Ht H1 ltac:(lia)) as [C1 C2]. injection Hs as <- <-. left. split; auto.
    change (0 + 2 ^ (T 0 - 1)) with (2 ^ (T 0 - 1)) in *. set (x := 2 ^ (T 0 - 1)) in *. assert (Hx0 : 0 < x) by (assert (X := pow_pos (T 0 - 1)); unfold x; lia). clearbody x.
    replace (setf s x (T 0) (sns s 0)) with (setf s x (T x) (sns s 0)) by (rewrite C1; auto). apply Hwake; auto; try rewrite Et; cbn [inside pcok ord]; unfold wk; rewrite ?C1, ?C2; lia.
  - (* loser waits *)
    destruct RPt as [H0 Hr]. subst r. injection Hs as <- <-. left. split; auto. destruct (Bool.eqb (flag s t (T t)) (sns s t)) eqn:Eb; [|exact HR]. apply eqb_prop in Eb.
    assert (Hn1 : n <> 1) by lia. assert (Hsn := r_sn _ _ _ HR t Ht ltac:(congruence) Hn1).
    assert (B := lose_bd _ _ _ HR t ltac:(lia) Ht). assert (F := r_fl _ _ _ HR t ltac:(lia) Ht). destruct (T_pos t ltac:(lia)) as [q [_ [HT1 _]]].
    assert (Hv : Nt en lv (thr s) (par t) (wk t) = en t).
    { set (v := Nt en lv (thr s) (par t) (wk t)) in *. clearbody v. assert (HC : v = lv t \/ v = en t) by lia. destruct HC as [HC|]; auto.
      rewrite Eb, Hsn, HC, odd_S in F. destruct (Nat.odd (lv t)); discriminate. }
    unfold go. assert (Q : forall u y, (u = t -> y <> T t + 2) -> Nt en lv (upd (thr s) t (D (T t - 1))) u y = Nt en lv (thr s) u y).
    { intros u y Hy. rewrite Nt_upd. destruct (Nat.eq_dec u t); auto. subst u. unfold Nt. rewrite Et. cbn [ord]. leb_all; auto; lia. }
    assert (Qw : forall u, 0 < u -> u < n -> Nt en lv (upd (thr s) t (D (T t - 1))) (par u) (wk u) = Nt en lv (thr s) (par u) (wk u)).
    { intros u Hu Hun. apply Q. intros E. unfold wk. assert (X := T_par u Hu Hun ltac:(lia)). rewrite E in *. lia. }
    assert (Qp : forall u, 0 < u -> u < n -> Nt en lv (upd (thr s) t (D (T t - 1))) (par u) (S (T u)) = Nt en lv (thr s) (par u) (S (T u))).
    { intros u Hu Hun. apply Q. intros E. assert (X := T_par u Hu Hun ltac:(lia)). rewrite E in X. lia. }
    assert (Qa : forall u, 0 < u -> u < n -> Nt en lv (upd (thr s) t (D (T t - 1))) u (ar u) = Nt en lv (thr s) u (ar u)).
    { intros u Hu Hun. apply Q. intros ->. unfold ar. lia. }
    apply R_move; auto; try (rewrite Et; reflexivity); try (cbn; lia).
    + intros u Hu Hun. rewrite Qa by auto. apply (r_fw _ _ _ HR); auto.
    + intros u Hu Hun. rewrite Qw by auto. apply (r_fl _ _ _ HR); auto.
    + intros u Hu Hun. rewrite Qa, Qp by auto. apply (r_ck _ _ _ HR); auto.
    + intros u Hu Hun. rewrite Qw by auto. assert (X := r_wk _ _ _ HR u Hu Hun). rewrite Nt_upd. destruct (Nat.eq_dec u t); auto. subst u. leb_all; lia.
  - (* wakeup round *)
    destruct (Nat.eq_dec r 0) as [->|Hr0].
    + (* return *)
      replace (tab t 0) with (Some (Dropout, 0)) in Hs by reflexivity. injection Hs as <- <-. right. right. exists t. split; auto.
      assert (HN : forall u x, (u = t -> x <= 2 * T t + 1) -> Nt en (upd lv t (S (lv t))) (upd (thr s) t Out) u x = Nt en lv (thr s) u x).
      { intros u x Hx. rewrite Nt_upd. destruct (Nat.eq_dec u t); [subst u; unfold Nt; rewrite Et; cbn [ord]|].
        - specialize (Hx eq_refl). leb_all; auto; lia.
        - unfold Nt, upd. destruct (Nat.eq_dec u t); auto. lia. }
      assert (HTp : forall u, 0 < u -> u < n -> 1 <= T u) by (intros u Hu Hun; destruct (T_pos u Hu) as [q [_ [X _]]]; auto).
      constructor; cbn [thr tid sns flag go].
      * destruct (r_tid _ _ _ HR) as [m [M1 [M2 M3]]]. exists m. repeat split; auto. intros u Hu Hu2. rewrite upd_other; auto. intros ->. rewrite M3 in Et by auto. discriminate.
      * intros u Hu. unfold upd. destruct (Nat.eq_dec u t); [discriminate|apply (r_un _ _ _ HR); auto].
      * intros u Hu. upd_goal; [cbn; auto|apply (r_pc _ _ _ HR); auto].
      * intros u Hu. unfold upd. destruct (Nat.eq_dec u t); [subst u; cbn; lia|apply (r_el _ _ _ HR); auto].
      * intros u Hu Hu2 Hn1. revert Hu2. unfold upd. destruct (Nat.eq_dec u t); [subst u; intros _|intros; apply (r_sn _ _ _ HR); auto].
        rewrite (r_sn _ _ _ HR t Ht ltac:(congruence) Hn1), !odd_S. auto.
      * intros u Hu Hu2. rewrite HN; [apply (r_fw _ _ _ HR); auto|intros ->; unfold ar; lia].
      * intros u Hu Hu2. assert (X := HTp u Hu Hu2). rewrite HN; [apply (r_fl _ _ _ HR); auto|intros <-; unfold wk; lia].
      * intros u Hu Hu2. assert (Y := T_par_le u Hu Hu2). rewrite !HN; [apply (r_ck _ _ _ HR); auto|intros ->; unfold ar; lia|intros <-; lia].
      * intros u Hu Hu2. assert (X := HTp u Hu Hu2). rewrite !HN; [apply (r_wk _ _ _ HR); auto|intros <-; unfold wk; lia|intros ->; lia].
    + (* a won round or a bye *)
      assert (Hup : t = 0 \/ r < T t) by lia. rewrite (tab_up t r Ht ltac:(lia) ltac:(lia) Hup) in Hs.
      destruct (Nat.ltb_spec (t + 2 ^ (r - 1)) n) as [Hc|Hc].
      * destruct (T_child t r Ht ltac:(lia) ltac:(lia)) as [C1 C2]. set (x := t + 2 ^ (r - 1)) in *. assert (Hx0 : 0 < x) by (assert (X := pow_pos (r - 1)); unfold x; lia). clearbody x.
        assert (Hch : Nat.eqb t 0 && Nat.leb n (2 ^ r) = false).
        { destruct (Nat.eqb_spec t 0); auto. subst t. cbn [andb]. assert (T 0 = size - 1) by (unfold T; auto). assert (X := size_least r ltac:(lia)). destruct (Nat.leb_spec n (2 ^ r)); auto. lia. }
        rewrite Hch in Hs. injection Hs as <- <-. left. split; auto.
        replace (setf s x r (sns s t)) with (setf s x (T x) (sns s t)) by (rewrite C1; auto). apply Hwake; auto; try rewrite Et; cbn [inside pcok ord]; unfold wk; rewrite ?C1, ?C2; lia.
      * destruct (Nat.eqb_spec r 0); [lia|]. injection Hs as <- <-. left. split; auto.
        apply Hquiet; cbn [inside pcok ord]; auto; try lia. intros u Hu Hun. unfold ar, wk. split.
        -- intros ->. lia.
        -- intros E. assert (X := T_par_le u Hu Hun). rewrite E in *. assert (T u <> r).
           { intros E2. apply (Nat.lt_irrefl n). destruct (T_pos u Hu) as [q [A [B _]]]. unfold par in E. rewrite E2 in E. assert (2 ^ (T u - 1) <= u) by nia. rewrite E2 in H. lia. }
           lia.
Qed.

Definition w (t : nat) (p : pc) : nat := if inside p then 2 * T t + 3 - ord t p else 0.
Definition mu (s : state) : nat := wsum (fun t => w t (thr s t)) n.
Lemma mu_drop : forall (thr : nat -> pc) t p, t < n -> w t p < w t (thr t) -> wsum (fun i => w i (upd thr t p i)) n < wsum (fun i => w i (thr i)) n.
Proof.
  intros thr t p Ht H. assert (X := wsum_change (fun i => w i (thr i)) (fun i => w i (upd thr t p i)) n t Ht). cbn beta in X. rewrite upd_same in X.
  assert (Y : forall i, i <> t -> w i (thr i) = w i (upd thr t p i)) by (intros; rewrite upd_other; auto). specialize (X Y). lia.
Qed.

Lemma R_prog : forall s en lv k t, R s en lv -> (forall u, u < n -> k <= en u) -> t < n -> lv t < k ->
  exists l s' e, step s l = Some (s', e) /\ (forall u, ~ In (Enter u) e) /\ (e = [Leave t] \/ mu s' < mu s).
Proof.
  intros s en lv k t HR HK Ht Hl.
  assert (Hb : forall u, u < n -> negb (Nat.ltb u n) = false) by (intros u Hu; destruct (Nat.ltb_spec u n); auto; lia).
  assert (Hnone : forall u : nat, ~ In (Enter u) []) by (intros u []).
  assert (Hlv : forall v u, ~ In (Enter u) [Leave v]) by (intros v u [X|[]]; discriminate).
  assert (Hsz := size_bd).
  (* who can move at once *)
  set (mv := fun u => match thr s u with Ret1 | ChS _ | D _ => true
                      | U r => match tab u r with Some (Loser, _) | Some (Bye, _) => true | _ => false end | _ => false end).
  destruct (ex_dec mv n) as [[x [Hx Hx2]]|Hno].
  { assert (Hpx := r_pc _ _ _ HR x Hx). assert (HTx := T_le x Hx). exists (x, ATick). unfold BarTourn_Model.step. rewrite Hb by auto. unfold mv in Hx2. destruct (thr s x) eqn:Ex; try discriminate; cbn [pcok] in Hpx.
    - do 2 eexists. split; [reflexivity|]. split; [auto|]. right. unfold mu. cbn [thr go]. apply mu_drop; auto. rewrite Ex. unfold w; cbn [inside ord]; lia.
    - destruct (tab x r) as [[[] o]|] eqn:Etb; try discriminate; do 2 eexists; (split; [reflexivity|]); (split; [auto|]); right; unfold mu; cbn [thr go setf]; (apply mu_drop; [auto|]); rewrite Ex; unfold w; cbn [inside ord]; lia.
    - destruct Hpx as [H0 [Hr H1]]. subst x r. rewrite (tab_up 0 (T 0) Hx H1 ltac:(rewrite T0; lia) (or_introl eq_refl)).
      destruct (Nat.ltb (0 + 2 ^ (T 0 - 1)) n); do 2 eexists; (split; [reflexivity|]); (split; [auto|]); right; unfold mu; cbn [thr go setf]; (apply mu_drop; [auto|]); rewrite Ex; unfold w; cbn [inside ord]; lia.
    - destruct (Nat.eq_dec r 0) as [->|Hr0].
      + replace (tab x 0) with (Some (Dropout, 0)) by reflexivity. do 2 eexists. split; [reflexivity|]. split; [auto|]. right. unfold mu. cbn [thr]. apply mu_drop; auto. rewrite Ex. unfold w; cbn [inside ord]; lia.
      + assert (Hup : x = 0 \/ r < T x) by lia. rewrite (tab_up x r Hx ltac:(lia) ltac:(lia) Hup). destruct (Nat.eqb_spec r 0); [lia|].
        destruct (Nat.ltb (x + 2 ^ (r - 1)) n); [destruct (Nat.eqb x 0 && Nat.leb n (2 ^ r))|]; do 2 eexists; (split; [reflexivity|]); (split; [auto|]); right; unfold mu; cbn [thr go setf]; (apply mu_drop; [auto|]); rewrite Ex; unfold w; cbn [inside ord]; lia. }
  assert (Et := r_el _ _ _ HR t Ht). assert (HKt := HK t Ht).
  destruct (ex_dec (fun u => match thr s u with U _ => Nat.eqb (en u) k | _ => false end) n) as [[x0 [Hx0 Hx02]]|HnoC].
  - destruct (ex_min n (fun u => match thr s u with U _ => Nat.eqb (en u) k | _ => false end) (fun u => n - u) x0 Hx0 Hx02) as [x [Hx [Hx2 Hmax]]].
    destruct (thr s x) eqn:Ex; try discriminate. apply Nat.eqb_eq in Hx2. assert (Hr := r_pc _ _ _ HR x Hx). rewrite Ex in Hr. cbn [pcok] in Hr. assert (HTx := T_le x Hx).
    assert (Elx := r_el _ _ _ HR x Hx). rewrite Ex in Elx. cbn [inside] in Elx. assert (Hnx := Hno x Hx). unfold mv in Hnx. rewrite Ex in Hnx.
    assert (Hup : x = 0 \/ r < T x). { destruct (Nat.eq_dec x 0); auto. right. destruct (Nat.eq_dec r (T x)); [|lia]. subst r. rewrite tab_loser in Hnx by (auto; lia). discriminate. }
    assert (Htab := tab_up x r Hx ltac:(lia) ltac:(lia) Hup). rewrite Htab in Hnx. destruct (Nat.ltb_spec (x + 2 ^ (r - 1)) n) as [Hc|Hc]; [|discriminate].
    destruct (T_child x r Hx ltac:(lia) ltac:(lia)) as [C1 C2]. set (l := x + 2 ^ (r - 1)) in *. assert (Hlx : x < l) by (assert (X := pow_pos (r - 1)); unfold l; lia). clearbody l.
    assert (Hz : flag s x r = sns s x).
    { assert (F := r_fw _ _ _ HR l ltac:(lia) Hc). rewrite C1, C2 in F. rewrite F. rewrite (r_sn _ _ _ HR x Hx ltac:(congruence) ltac:(lia)). f_equal.
      assert (B := win_bd _ _ _ HR l ltac:(lia) Hc). rewrite C1, C2 in B. assert (V2 : Nt en lv (thr s) x (S (T x)) = lv x) by (unfold Nt; rewrite Ex; cbn [ord]; leb_all; lia).
      assert (Bd := Nt_bd _ _ _ HR l (ar l) Hc). assert (Ec := r_el _ _ _ HR l Hc). assert (Kc := HK l Hc). assert (Nc := Hno l Hc). specialize (Hmax l Hc). unfold mv in Nc. assert (Pl := r_pc _ _ _ HR l Hc).
      destruct (thr s l) eqn:Ell; cbn [inside] in Ec; cbn [pcok] in Pl; try discriminate; try lia.
      - destruct (Nat.eqb_spec (en l) k); [specialize (Hmax eq_refl); lia|lia].
      - assert (Z : Nt en lv (thr s) l (ar l) = en l) by (unfold Nt, ar; rewrite Ell; cbn [ord]; destruct (Nat.leb_spec (S (T l)) (S (T l))); lia). lia. }
    exists (x, ATick). unfold BarTourn_Model.step. rewrite Hb, Ex, Htab by auto. destruct (Nat.eqb x 0 && Nat.leb n (2 ^ r)); rewrite Hz, eqb_reflx; do 2 eexists; (split; [reflexivity|]); (split; [auto|]);
    right; unfold mu; cbn [thr go]; (apply mu_drop; [auto|]); rewrite Ex; unfold w; cbn [inside ord]; lia.
  - assert (Hw0 : match thr s t with LoW _ => Nat.eqb (en t) k | _ => false end = true).
    { assert (A := Hno t Ht). assert (B := HnoC t Ht). assert (Pt := r_pc _ _ _ HR t Ht). unfold mv in A. destruct (thr s t); cbn [inside] in Et; try discriminate; try lia.
      - apply Nat.eqb_neq in B. lia.
      - apply Nat.eqb_eq. lia.
      - destruct Pt. }
    destruct (ex_min n (fun u => match thr s u with LoW _ => Nat.eqb (en u) k | _ => false end) (fun u => u) t Ht Hw0) as [x [Hx [Hx2 Hmin]]].
    destruct (thr s x) eqn:Ex; try discriminate. apply Nat.eqb_eq in Hx2. assert (Hx0 := r_pc _ _ _ HR x Hx). rewrite Ex in Hx0. cbn [pcok] in Hx0. destruct Hx0 as [Hx0 Hr]. subst r.
    assert (Elx := r_el _ _ _ HR x Hx). rewrite Ex in Elx. cbn [inside] in Elx. assert (Hp := par_lt x ltac:(lia)). assert (Hpn : par x < n) by lia.
    assert (X1 := r_fl _ _ _ HR x ltac:(lia) Hx). assert (X2 := lose_bd _ _ _ HR x ltac:(lia) Hx). assert (X3 := r_sn _ _ _ HR x Hx ltac:(congruence) ltac:(lia)).
    assert (X4 : Nt en lv (thr s) (par x) (wk x) = en x).
    { assert (Ep := r_el _ _ _ HR _ Hpn). assert (Kp := HK _ Hpn). assert (Np := Hno _ Hpn). assert (Cp := HnoC _ Hpn). assert (Bp := Nt_bd _ _ _ HR _ (wk x) Hpn). specialize (Hmin _ Hpn).
      assert (Pp := r_pc _ _ _ HR _ Hpn). unfold mv in Np.
      destruct (thr s (par x)) eqn:Epc; cbn [inside] in Ep; try discriminate; try lia.
      - apply Nat.eqb_neq in Cp. lia.
      - destruct (Nat.eqb_spec (en (par x)) k); [specialize (Hmin eq_refl); lia|lia].
      - destruct Pp. }
    assert (Heq : flag s x (T x) = sns s x) by (rewrite X1, X3, X4, Elx; auto).
    exists (x, ATick). unfold BarTourn_Model.step. rewrite Hb, Ex, Heq, eqb_reflx by auto. do 2 eexists. split; [reflexivity|]. split; [auto|]. assert (T x >= 1) by (destruct (T_pos x ltac:(lia)) as [q [_ [X _]]]; lia).
    right. unfold mu. cbn [thr go]. apply mu_drop; auto. rewrite Ex. unfold w; cbn [inside ord]; lia.
Qed.

Theorem sep : forall ls s log, run step init ls = Some (s, log) -> separated n log /\ returns_after_all n log.
Proof. intros ls s log H. split; [apply (bar_separated step init n R R_init R_step R_safe ls s)|apply (bar_returns step init n R R_init R_step R_safe ls s)]; auto. Qed.

Theorem prog : forall ls s log k t, run step init ls = Some (s, log) -> (forall u, u < n -> k <= enters u log) -> t < n -> leaves t log < k ->
  exists ls' s' log', run step s ls' = Some (s', log') /\ In (Leave t) log' /\ (forall u, ~ In (Enter u) log').
Proof. exact (bar_progress step init n R R_init R_step mu R_prog). Qed.

Theorem nofault : forall ls s log t, run step init ls = Some (s, log) -> t < n -> thr s t <> Bad.
Proof.
  intros ls s log t H Ht E. destruct (bar_reach step init R R_init R_step ls s log H) as [en [lv [HR _]]]. assert (X := r_pc _ _ _ HR t Ht). rewrite E in X. destruct X.
Qed.
End Pf.

(* ck_internal_power_2 wraps to 0 above 2^31: a single round *)
Lemma big_size : forall n, N.of_nat n = (2 ^ 31 + 1)%N -> size n = 1.
Proof. intros n H. unfold size. rewrite H. reflexivity. Qed.
Lemma big : forall n m0, N.of_nat n = (2 ^ 31 + 1)%N -> exists ls s log, run (step n m0) init ls = Some (s, log) /\ ~ separated n log.
Proof.
  intros n m0 H. assert (Hs := big_size n H). assert (H0 : Nat.ltb 0 n = true) by (apply Nat.ltb_lt; lia). assert (H1 : 1 < n) by (change (2 ^ 31 + 1)%N with 2147483649%N in H; lia).
  eexists [(0, ASub); (0, AEnter); (0, ATick)], _, _. split.
  - eapply run_cons; [unfold step; rewrite H0; cbn; reflexivity|].
    eapply run_cons; [unfold step; rewrite H0, Hs; cbn; reflexivity|].
    eapply run_last. unfold step. rewrite H0. cbn. reflexivity.
  - cbn. intros X. specialize (X 0 1 ltac:(lia) H1). cbn in X. lia.
Qed.
