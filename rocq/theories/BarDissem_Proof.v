From Coq Require Import Arith NArith List Bool Lia.
From Verif Require Import Lib LockProg BarSpec BarProg Helpers_Model Helpers_Proof BarDissem_Model.
Import ListNotations.
Local Arguments upd : simpl never.
Local Arguments Nat.ltb : simpl never.
Local Arguments Nat.leb : simpl never.
Local Arguments Nat.odd : simpl never.
Local Arguments Nat.div2 : simpl never.
Local Arguments Nat.pow : simpl never.
Local Arguments Nat.modulo : simpl never.
Local Arguments N.modulo : simpl never.

(* ---------- number of episodes of parity p among the first D, and senses ---------- *)
Definition cntp (p : bool) (D : nat) : nat := Nat.div2 (D + if p then 0 else 1).
Definition sn (l : nat) : bool := negb (Nat.odd (Nat.div2 l)).
Lemma split2 : forall l, exists q, l = 2 * q \/ l = 2 * q + 1.
Proof. intros. destruct (Nat.Even_or_Odd l) as [[q H]|[q H]]; eauto. Qed.
Lemma odd_2q : forall q, Nat.odd (2 * q) = false.
Proof. intros. rewrite Nat.odd_mul. reflexivity. Qed.
Lemma odd_2q1 : forall q, Nat.odd (2 * q + 1) = true.
Proof. intros. apply Nat.odd_spec. exists q. auto. Qed.
Lemma odd_S : forall m, Nat.odd (S m) = negb (Nat.odd m).
Proof. intros. rewrite Nat.odd_succ, <- Nat.negb_odd. auto. Qed.
Lemma div2_2q : forall q, Nat.div2 (2 * q) = q.
Proof. intros. apply Nat.div2_double. Qed.
Lemma div2_2q1 : forall q, Nat.div2 (2 * q + 1) = q.
Proof. intros. rewrite Nat.add_1_r. apply Nat.div2_succ_double. Qed.

Ltac par2 l := let q := fresh "q" in let H := fresh in destruct (split2 l) as [q [H|H]]; subst l;
  unfold cntp, sn; rewrite ?odd_2q, ?odd_2q1.
Ltac norm2 := repeat match goal with |- context [Nat.div2 ?e] =>
  first [ match e with 2 * _ => rewrite div2_2q | 2 * _ + 1 => rewrite div2_2q1 end
        | match goal with q : nat |- _ => first [
            replace e with (2 * q) by lia; rewrite div2_2q | replace e with (2 * q + 1) by lia; rewrite div2_2q1
          | replace e with (2 * (S q)) by lia; rewrite div2_2q | replace e with (2 * (S q) + 1) by lia; rewrite div2_2q1 ] end ] end.
Lemma fl_before : forall l, Nat.odd (cntp (Nat.odd l) l) = negb (sn l).
Proof. intros. par2 l; norm2; rewrite ?odd_S, ?negb_involutive; auto. Qed.
Lemma fl_at : forall l, Nat.odd (cntp (Nat.odd l) (S l)) = sn l.
Proof. intros. par2 l; norm2; rewrite ?odd_S; auto. Qed.
Lemma fl_after : forall l, Nat.odd (cntp (Nat.odd l) (S (S l))) = sn l.
Proof. intros. par2 l; norm2; rewrite ?odd_S; auto. Qed.
Lemma fl_other : forall l, cntp (negb (Nat.odd l)) (S l) = cntp (negb (Nat.odd l)) l.
Proof. intros. par2 l; cbn [negb]; norm2; auto. Qed.
Lemma sn_next : forall l, sn (S l) = if Nat.odd l then negb (sn l) else sn l.
Proof. intros. par2 l; norm2; rewrite ?odd_S; auto. Qed.

(* ---------- the initialisation ---------- *)
Lemma pow_of_nat : forall k, (2 ^ N.of_nat k)%N = N.of_nat (2 ^ k).
Proof.
  induction k; [reflexivity|]. rewrite Nat2N.inj_succ, N.pow_succ_r', IHk. change (2 ^ S k) with (2 * 2 ^ k). lia.
Qed.

Section P.
Variable n : nat.
Hypothesis Hn : (1 <= N.of_nat n <= 2 ^ 31)%N.
Notation size := (size n). Notation partner := (partner n).

Lemma log2up_le : (N.log2_up (N.of_nat n) <= 31)%N.
Proof. change 31%N with (N.log2_up (2 ^ 31)). apply N.log2_up_le_mono. lia. Qed.

Lemma size_eq : size = N.to_nat (N.log2_up (N.of_nat n)).
Proof.
  unfold BarDissem_Model.size. rewrite power_2_eq, log_pow2; auto. assert (X := log2up_le). lia.
Qed.
Lemma size_cover : n <= 2 ^ size.
Proof.
  assert (N.of_nat n <= 2 ^ N.log2_up (N.of_nat n))%N.
  { destruct (N.eq_dec (N.of_nat n) 1) as [E|E]; [rewrite E; cbn; lia|]. apply N.log2_up_spec. lia. }
  rewrite size_eq. assert (X := pow_of_nat (N.to_nat (N.log2_up (N.of_nat n)))). rewrite N2Nat.id in X. lia.
Qed.
Lemma size_le : size <= 31.
Proof. rewrite size_eq. assert (X := log2up_le). lia. Qed.

Lemma land_pow2 : forall a, N.land (N.of_nat n) (w32 (N.of_nat n + (2 ^ 32 - 1))) = 0%N ->
  N.land a (w32 (N.of_nat n + (2 ^ 32 - 1))) = (a mod N.of_nat n)%N.
Proof.
  intros a. assert (E : w32 (N.of_nat n + (2 ^ 32 - 1)) = (N.of_nat n - 1)%N).
  { unfold w32. change (2 ^ 32)%N with 4294967296%N. change (2 ^ 31)%N with 2147483648%N in Hn.
    replace (N.of_nat n + (4294967296 - 1))%N with ((N.of_nat n - 1) + 1 * 4294967296)%N by lia. rewrite N.mod_add, N.mod_small; lia. }
  rewrite E. set (m := N.of_nat n) in *. clearbody m. clear E. intros H.
  (* m is a power of two *)
  assert (Hp : m = (2 ^ N.log2 m)%N).
  { destruct (N.log2_spec m ltac:(lia)) as [L1 L2]. destruct (N.eq_dec m (2 ^ N.log2 m)) as [|Ne]; auto. exfalso.
    assert (Hb : N.testbit m (N.log2 m) = true) by (apply N.bit_log2; lia).
    assert (Hb' : N.testbit (m - 1) (N.log2 m) = true).
    { assert (N.log2 (m - 1) = N.log2 m). { apply N.log2_unique; lia. } rewrite <- H0. apply N.bit_log2. intros X. rewrite X in H0. cbn in H0. rewrite <- H0 in L1, L2, Ne. cbn in *. lia. }
    assert (X : N.testbit (N.land m (m - 1)) (N.log2 m) = true) by (rewrite N.land_spec, Hb, Hb'; auto). rewrite H in X. rewrite N.bits_0 in X. discriminate. }
  rewrite Hp at 2. rewrite <- N.land_ones. f_equal. rewrite N.ones_equiv, <- N.sub_1_r. rewrite <- Hp. auto.
Qed.

Lemma partner_eq : forall i k, i < n -> k < size -> partner i k = (i + 2 ^ k) mod n.
Proof.
  intros i k Hi Hk. unfold BarDissem_Model.partner. assert (Hs := size_le).
  assert (Hpk : (2 ^ N.of_nat k <= 2 ^ 30)%N) by (apply N.pow_le_mono_r; lia).
  assert (E : w32 (N.of_nat i + offset k) = N.of_nat (i + 2 ^ k)).
  { unfold w32 at 1, offset, w32. change (2 ^ 32)%N with 4294967296%N. change (2 ^ 30)%N with 1073741824%N in Hpk. change (2 ^ 31)%N with 2147483648%N in Hn.
    rewrite (N.mod_small (2 ^ N.of_nat k)) by lia. rewrite N.mod_small by lia. rewrite pow_of_nat. lia. }
  rewrite E. assert (E2 : N.to_nat (N.of_nat (i + 2 ^ k) mod N.of_nat n) = (i + 2 ^ k) mod n).
  { rewrite <- Nat2N.inj_mod, Nat2N.id. auto. }
  unfold pflag_odd. destruct (N.eqb_spec (N.land (N.of_nat n) (w32 (N.of_nat n + (2 ^ 32 - 1)))) 0); cbn [negb]; auto.
  rewrite land_pow2; auto.
Qed.
Lemma partner_lt : forall i k, i < n -> k < size -> partner i k < n.
Proof. intros. rewrite partner_eq by auto. apply Nat.mod_upper_bound. lia. Qed.

(* distance backwards from t to u round the ring *)
Definition dist (u t : nat) : nat := if Nat.leb u t then t - u else t + n - u.
Lemma mod_add_cases : forall i a, i < n -> a < n -> (i + a) mod n = if Nat.ltb (i + a) n then i + a else i + a - n.
Proof.
  intros i a Hi Ha. destruct (Nat.ltb_spec (i + a) n); [apply Nat.mod_small; auto|].
  replace (i + a) with (i + a - n + 1 * n) at 1 by lia. rewrite Nat.mod_add, Nat.mod_small; lia.
Qed.
Lemma partner_cases : forall i k, i < n -> k < size ->
  partner i k = let a := (2 ^ k) mod n in if Nat.ltb (i + a) n then i + a else i + a - n.
Proof.
  intros i k Hi Hk. rewrite partner_eq by auto. cbv zeta. assert (n <> 0) by lia.
  rewrite <- Nat.add_mod_idemp_r by auto. apply mod_add_cases; auto. apply Nat.mod_upper_bound; auto.
Qed.
Lemma partner_inj : forall i j k, i < n -> j < n -> k < size -> partner i k = partner j k -> i = j.
Proof.
  intros i j k Hi Hj Hk. rewrite !partner_cases by auto. cbv zeta. assert (X := Nat.mod_upper_bound (2 ^ k) n ltac:(lia)).
  set (a := 2 ^ k mod n) in *. clearbody a. destruct (Nat.ltb_spec (i + a) n), (Nat.ltb_spec (j + a) n); lia.
Qed.
Lemma partner_surj : forall t k, t < n -> k < size -> exists w, w < n /\ partner w k = t.
Proof.
  intros t k Ht Hk. assert (X := Nat.mod_upper_bound (2 ^ k) n ltac:(lia)).
  exists (if Nat.leb (2 ^ k mod n) t then t - 2 ^ k mod n else t + n - 2 ^ k mod n).
  destruct (Nat.leb_spec (2 ^ k mod n) t); (split; [lia|]); rewrite partner_cases by lia; cbv zeta; set (a := 2 ^ k mod n) in *; clearbody a;
  match goal with |- context [Nat.ltb ?x ?y] => destruct (Nat.ltb_spec x y) end; lia.
Qed.
Lemma dist_partner : forall u w k, u < n -> w < n -> k < size -> dist u (partner w k) < 2 ^ S k -> 2 ^ k <= dist u (partner w k) -> dist u w < 2 ^ k.
Proof.
  intros u w k Hu Hw Hk. assert (P := partner_lt w k Hw Hk). rewrite partner_cases in * by auto. cbv zeta in *.
  change (2 ^ S k) with (2 * 2 ^ k).
  set (pw := 2 ^ k) in *. clearbody pw. unfold dist. intros H1 H2.
  assert (pw < n). { revert H2. match goal with |- context [Nat.leb ?x ?y] => destruct (Nat.leb_spec x y) end; lia. }
  rewrite Nat.mod_small in * by auto.
  revert P H1 H2. destruct (Nat.ltb_spec (w + pw) n); repeat match goal with |- context [Nat.leb ?x ?y] => destruct (Nat.leb_spec x y) end; lia.
Qed.

(* ---------- the invariant ---------- *)
Definition inside (p : pc) : bool := match p with Lp _ | Wt _ => true | _ => false end.
Definition prg (p : pc) : nat := match p with Lp k | Wt k => k | _ => size end.
(* stores of round k still pending in the current episode *)
Definition nst (p : pc) (k : nat) : bool := match p with Lp j => Nat.leb j k | Wt j => Nat.ltb j k | _ => false end.
(* waits of round k still pending *)
Definition nwt (p : pc) (k : nat) : bool := match p with Lp j => Nat.leb j k | Wt j => Nat.leb j k | _ => false end.
(* completed stores/waits of round k *)
Definition D (lv en : nat -> nat) (thr : nat -> pc) (t k : nat) : nat := if nst (thr t) k then lv t else en t.
Definition C (lv en : nat -> nat) (thr : nat -> pc) (t k : nat) : nat := if nwt (thr t) k then lv t else en t.

Record R (s : state) (en lv : nat -> nat) : Prop := mkR {
  r_tid : exists m, tid s = N.of_nat m /\ m <= n /\ forall t, t < n -> m <= t -> thr s t = Unsub;
  r_un : forall t, t < n -> thr s t = Unsub -> en t = 0 ;
  r_pc : forall t, t < n -> match thr s t with Lp k => k <= size | Wt k => k < size | _ => True end;
  r_el : forall t, t < n -> en t = if inside (thr s t) then S (lv t) else lv t;
  r_ps : forall t, t < n -> thr s t <> Unsub -> par s t = Nat.odd (lv t) /\ sns s t = sn (lv t);
  r_fl : forall w k p, w < n -> k < size -> flag s p (partner w k) k = Nat.odd (cntp p (D lv en (thr s) w k));
  r_cd : forall w k, w < n -> k < size -> C lv en (thr s) (partner w k) k <= D lv en (thr s) w k;
  r_kn : forall t u, t < n -> u < n -> dist u t < 2 ^ prg (thr s t) -> en t <= en u;
  r_sf : forall t u, t < n -> u < n -> lv t <= en u }.

Lemma R_init : R init (fun _ => 0) (fun _ => 0).
Proof.
  constructor; cbn; auto; try (intros; congruence); try lia.
  - exists 0. repeat split; auto; lia.
  - intros w k p _ _. destruct p; reflexivity.
Qed.

Lemma D_le : forall s en lv t k, R s en lv -> t < n -> lv t <= D lv en (thr s) t k <= en t.
Proof. intros s en lv t k H Ht. assert (X := r_el _ _ _ H t Ht). unfold D. destruct (inside (thr s t)), (nst (thr s t) k); lia. Qed.

(* what a waiter knows when it sees its flag set *)
Lemma see : forall s en lv t w k, R s en lv -> t < n -> w < n -> k < size -> partner w k = t -> thr s t = Wt k ->
  let d := D lv en (thr s) w k in lv t <= d <= S (S (lv t)) /\ (flag s (par s t) t k = sns s t <-> S (lv t) <= d).
Proof.
  intros s en lv t w k H Ht Hw Hk Hp Et. cbv zeta.
  assert (E := r_el _ _ _ H t Ht). rewrite Et in E. cbn in E.
  assert (F := r_fl _ _ _ H w k (par s t) Hw Hk). rewrite Hp in F.
  destruct (r_ps _ _ _ H t Ht) as [P1 P2]; [congruence|].
  assert (X1 := r_cd _ _ _ H w k Hw Hk). rewrite Hp in X1. unfold C in X1. rewrite Et in X1. cbn in X1. rewrite Nat.leb_refl in X1.
  assert (X2 := D_le _ _ _ w k H Hw). assert (X3 := r_sf _ _ _ H w t Hw Ht). assert (X4 := r_el _ _ _ H w Hw).
  assert (X5 : D lv en (thr s) w k <= S (S (lv t))) by (destruct (inside (thr s w)); lia).
  split; [lia|]. rewrite F, P1, P2. set (d := D lv en (thr s) w k) in *. clearbody d.
  assert (HC : d = lv t \/ d = S (lv t) \/ d = S (S (lv t))) by lia. destruct HC as [HC|[HC|HC]]; rewrite HC.
  - rewrite fl_before. split; [destruct (sn (lv t)); discriminate|lia].
  - rewrite fl_at. split; auto; lia.
  - rewrite fl_after. split; auto; lia.
Qed.

Lemma R_step : forall s en lv l s' e, R s en lv -> step n s l = Some (s', e) ->
  (e = [] /\ R s' en lv) \/ (exists t, e = [Enter t] /\ R s' (upd en t (S (en t))) lv) \/
  (exists t, e = [Leave t] /\ R s' en (upd lv t (S (lv t)))).
Proof.
  intros s en lv [t a] s' e HR Hs. unfold step in Hs. destruct (Nat.ltb_spec t n) as [Ht|]; [|discriminate]. cbn [negb] in Hs.
  assert (HR0 := HR). destruct HR as [[m [M1 [M2 M3]]] RU RP RE RS RF RC RK RZ].
  assert (RPt := RP t Ht). assert (REt := RE t Ht). 
  assert (Hsub : match thr s t, a with Unsub, ASub => False | _, ASub => True | _, _ => False end -> False).
  { intros X. destruct a; destruct (thr s t) eqn:Et; auto; destruct (N.eqb_spec (N.of_nat t) (tid s)) as [Eq|]; try discriminate;
    assert (thr s t = Unsub) by (apply M3; lia); congruence. }
  destruct (thr s t) eqn:Et; destruct a; try discriminate; try (exfalso; exact (Hsub I)).
  - (* subscribe *)
    destruct (N.eqb_spec (N.of_nat t) (tid s)) as [Eq|]; [|discriminate]. injection Hs as <- <-. left. split; auto.
    assert (m = t) by lia. subst m. assert (en t = 0) by auto. cbn in REt.
    constructor; cbn [thr tid par sns flag].
    + exists (S t). split; [|split; [lia|]].
      * rewrite M1. unfold w32. rewrite N.mod_small; [lia|]. change (2 ^ 31)%N with 2147483648%N in Hn. change (2 ^ 32)%N with 4294967296%N. lia.
      * intros u Hu Hu2. rewrite upd_other by lia. apply M3; lia.
    + intros u Hu. upd_goal; [congruence|auto].
    + intros u Hu. upd_goal; [auto|apply RP; auto].
    + intros u Hu. unfold upd. destruct (Nat.eq_dec u t); [subst u; cbn; lia|apply RE; auto].
    + intros u Hu. unfold upd. destruct (Nat.eq_dec u t); [subst u; intros _|intros; apply RS; auto]. rewrite <- REt, H. auto.
    + intros w k p Hw Hk. rewrite RF by auto. f_equal. f_equal. unfold D, upd. destruct (Nat.eq_dec w t); auto. subst w. rewrite Et. auto.
    + intros w k Hw Hk. assert (X := RC w k Hw Hk). revert X. unfold C, D, upd. destruct (Nat.eq_dec w t), (Nat.eq_dec (partner w k) t) as [Eq2|]; try subst w; rewrite ?Eq2, ?Et; auto.
    + intros u v Hu Hv. unfold upd. destruct (Nat.eq_dec u t); [subst u; lia|apply RK; auto].
    + auto.
  - (* enter *)
    injection Hs as <- <-. right. left. exists t. split; auto. cbn in REt.
    assert (HA : forall u, u < n -> en t <= en u).
    { intros u Hu. apply RK; auto. rewrite Et. cbn. assert (dist u t < n) by (unfold dist; destruct (Nat.leb_spec u t); lia). assert (X := size_cover). lia. }
    assert (HD : forall w k, D lv (upd en t (S (en t))) (upd (thr s) t (Lp 0)) w k = D lv en (thr s) w k).
    { intros w k. unfold D, upd. destruct (Nat.eq_dec w t); auto. subst w. rewrite Et. cbn. destruct (Nat.leb_spec 0 k); lia. }
    constructor; cbn [thr tid par sns flag go].
    + exists m. split; auto. split; auto. intros u Hu Hu2. rewrite upd_other; auto. intros ->. rewrite M3 in Et by auto. discriminate.
    + intros u Hu. unfold upd. destruct (Nat.eq_dec u t); [discriminate|apply RU; auto].
    + intros u Hu. upd_goal; [lia|apply RP; auto].
    + intros u Hu. unfold upd. destruct (Nat.eq_dec u t); [subst u; cbn; lia|apply RE; auto].
    + intros u Hu. unfold upd. destruct (Nat.eq_dec u t); [subst u; intros _|intros; apply RS; auto]. apply RS; auto. congruence.
    + intros w k p Hw Hk. rewrite HD. apply RF; auto.
    + intros w k Hw Hk. rewrite HD. assert (X := RC w k Hw Hk). revert X. unfold C, upd. destruct (Nat.eq_dec (partner w k) t) as [e|]; auto.
      rewrite e, Et. cbn. destruct (Nat.leb_spec 0 k); lia.
    + intros u v Hu Hv. unfold upd. destruct (Nat.eq_dec u t).
      * subst u. cbn. intros Hd. assert (v = t). { change (2 ^ 0) with 1 in Hd. unfold dist in Hd. destruct (Nat.leb_spec v t); lia. } subst v. destruct (Nat.eq_dec t t); lia.
      * intros Hd. assert (X := RK u v Hu Hv Hd). destruct (Nat.eq_dec v t); [subst v|]; lia.
    + intros u v Hu Hv. assert (X := RZ u v Hu Hv). unfold upd. destruct (Nat.eq_dec v t); [subst v|]; lia.
  - (* loop head *)
    cbn in REt. destruct (RS t Ht ltac:(congruence)) as [P1 P2]. destruct (Nat.ltb_spec k size) as [Hk|Hk].
    + (* store *)
      injection Hs as <- <-. left. split; auto.
      assert (HD : forall w j, D lv en (upd (thr s) t (Wt k)) w j = if Nat.eq_dec w t then (if Nat.eq_dec j k then S (lv t) else D lv en (thr s) w j) else D lv en (thr s) w j).
      { intros w j. unfold D, upd. destruct (Nat.eq_dec w t); auto. subst w. rewrite Et. cbn.
        destruct (Nat.eq_dec j k); [subst; rewrite Nat.ltb_irrefl; lia|]. destruct (Nat.ltb_spec k j), (Nat.leb_spec k j); auto; lia. }
      assert (HC : forall w j, C lv en (upd (thr s) t (Wt k)) w j = C lv en (thr s) w j).
      { intros w j. unfold C, upd. destruct (Nat.eq_dec w t); auto. subst w. rewrite Et. auto. }
      assert (HDt : D lv en (thr s) t k = lv t) by (unfold D; rewrite Et; cbn; rewrite Nat.leb_refl; auto).
      constructor; cbn [thr tid par sns flag go]; auto.
      * exists m. split; auto. split; auto. intros u Hu Hu2. rewrite upd_other; auto. intros ->. rewrite M3 in Et by auto. discriminate.
      * intros u Hu. unfold upd. destruct (Nat.eq_dec u t); [discriminate|apply RU; auto].
      * intros u Hu. upd_goal; [lia|apply RP; auto].
      * intros u Hu. unfold upd. destruct (Nat.eq_dec u t); [subst u; cbn; lia|apply RE; auto].
      * intros u Hu. unfold upd. destruct (Nat.eq_dec u t); [subst u; intros _|intros; apply RS; auto]. apply RS; auto. congruence.
      * intros w j p Hw Hj. rewrite HD. unfold set3. destruct (Nat.eq_dec w t).
        -- subst w. destruct (Nat.eq_dec j k).
           ++ subst j. rewrite !Nat.eqb_refl, !andb_true_r. destruct (Bool.eqb p (par s t)) eqn:Eb.
              ** apply eqb_prop in Eb. subst p. rewrite P1, fl_at. auto.
              ** assert (p = negb (par s t)) by (destruct p, (par s t); auto; discriminate). subst p. rewrite P1, fl_other. rewrite RF, HDt by auto. auto.
           ++ rewrite (proj2 (Nat.eqb_neq j k)), andb_false_r by auto. auto.
        -- assert (X : Nat.eqb (partner w j) (partner t k) && Nat.eqb j k = false).
           { destruct (Nat.eqb_spec j k); [subst j|apply andb_false_r]. rewrite andb_true_r. apply Nat.eqb_neq. intros X. apply n0. eapply partner_inj; eauto. }
           rewrite <- andb_assoc, X, andb_false_r. auto.
      * intros w j Hw Hj. rewrite HC, HD. assert (X := RC w j Hw Hj). destruct (Nat.eq_dec w t); auto. destruct (Nat.eq_dec j k); auto. subst. lia.
      * intros u v Hu Hv. unfold upd. destruct (Nat.eq_dec u t); [subst u; cbn; intros; apply RK; auto; rewrite Et; auto|apply RK; auto].
    + (* return *)
      injection Hs as <- <-. right. right. exists t. split; auto. assert (k = size) by lia. subst k.
      assert (HA : forall u, u < n -> en t <= en u).
      { intros u Hu. apply RK; auto. rewrite Et. cbn. assert (dist u t < n) by (unfold dist; destruct (Nat.leb_spec u t); lia). assert (X := size_cover). lia. }
      constructor; cbn [thr tid par sns flag go]; auto.
      * exists m. split; auto. split; auto. intros u Hu Hu2. rewrite upd_other; auto. intros ->. rewrite M3 in Et by auto. discriminate.
      * intros u Hu. unfold upd. destruct (Nat.eq_dec u t); [discriminate|apply RU; auto].
      * intros u Hu. upd_goal; [auto|apply RP; auto].
      * intros u Hu. unfold upd. destruct (Nat.eq_dec u t); [subst u; cbn; lia|apply RE; auto].
      * intros u Hu. unfold upd. destruct (Nat.eq_dec u t); [subst u; intros _|intros; apply RS; auto]. rewrite P1, P2, odd_S, sn_next. auto.
      * intros w j p Hw Hj. rewrite RF by auto. f_equal. f_equal. unfold D, upd. destruct (Nat.eq_dec w t); auto. subst w. rewrite Et. cbn. destruct (Nat.leb_spec size j); auto. lia.
      * intros w j Hw Hj. assert (X := RC w j Hw Hj).
        assert (Y1 : C (upd lv t (S (lv t))) en (upd (thr s) t Out) (partner w j) j = C lv en (thr s) (partner w j) j).
        { unfold C, upd. destruct (Nat.eq_dec (partner w j) t) as [e0|]; auto. rewrite e0, Et. cbn. destruct (Nat.leb_spec size j); auto. lia. }
        assert (Y2 : D (upd lv t (S (lv t))) en (upd (thr s) t Out) w j = D lv en (thr s) w j).
        { unfold D, upd. destruct (Nat.eq_dec w t) as [e|]; auto. subst w. rewrite Et. cbn. destruct (Nat.leb_spec size j); auto. lia. }
        rewrite Y1, Y2. auto.
      * intros u v Hu Hv. unfold upd. destruct (Nat.eq_dec u t); [subst u; auto|apply RK; auto].
      * intros u v Hu Hv. unfold upd. destruct (Nat.eq_dec u t); [subst u|auto]. specialize (HA v Hv). lia.
  - (* wait *)
    cbn in REt. destruct (partner_surj t k Ht RPt) as [w [Hw Hp]]. destruct (see _ _ _ t w k HR0 Ht Hw RPt Hp Et) as [S1 S2].
    destruct (Bool.eqb (flag s (par s t) t k) (sns s t)) eqn:Eb; injection Hs as <- <-; left; (split; [auto|]); [|exact HR0].
    apply eqb_prop in Eb. apply S2 in Eb.
    assert (HD : forall w j, D lv en (upd (thr s) t (Lp (S k))) w j = D lv en (thr s) w j).
    { intros v j. unfold D, upd. destruct (Nat.eq_dec v t); auto. subst v. rewrite Et. cbn [nst]. destruct (Nat.ltb_spec k j), (Nat.leb_spec (S k) j); auto; lia. }
    constructor; cbn [thr tid par sns flag go]; auto.
    + exists m. split; auto. split; auto. intros u Hu Hu2. rewrite upd_other; auto. intros ->. rewrite M3 in Et by auto. discriminate.
    + intros u Hu. unfold upd. destruct (Nat.eq_dec u t); [discriminate|apply RU; auto].
    + intros u Hu. upd_goal; [lia|apply RP; auto].
    + intros u Hu. unfold upd. destruct (Nat.eq_dec u t); [subst u; cbn; lia|apply RE; auto].
    + intros u Hu. unfold upd. destruct (Nat.eq_dec u t); [subst u; intros _|intros; apply RS; auto]. apply RS; auto. congruence.
    + intros v j p Hv Hj. rewrite HD. auto.
    + intros v j Hv Hj. rewrite HD. assert (X := RC v j Hv Hj). revert X. unfold C at 2. unfold upd. destruct (Nat.eq_dec (partner v j) t) as [e|]; auto.
      rewrite e. unfold C. rewrite Et. cbn [nwt]. destruct (Nat.leb_spec k j), (Nat.leb_spec (S k) j); auto; try lia.
      assert (j = k) by lia. subst j. assert (v = w) by (eapply partner_inj; eauto; congruence). subst v. lia.
    + intros u v Hu Hv. unfold upd. destruct (Nat.eq_dec u t); [subst u|apply RK; auto]. cbn [prg]. intros Hd.
      destruct (Nat.lt_ge_cases (dist v t) (2 ^ k)) as [Hc|Hc]; [apply RK; auto; rewrite Et; auto|].
      assert (Hdw : dist v w < 2 ^ k) by (apply dist_partner; rewrite ?Hp; auto).
      assert (Ew := RE w Hw). unfold D in Eb. destruct (inside (thr s w)) eqn:Ei.
      * destruct (Nat.eq_dec (lv w) (lv t)) as [Hl|Hl].
        -- (* same episode: w has done its k rounds *)
           assert (X := RK w v Hw Hv). assert (prg (thr s w) >= k).
           { destruct (thr s w) as [| |j|j] eqn:Ew2; cbn in *; try discriminate.
             - destruct (Nat.leb_spec j k); lia.
             - destruct (Nat.ltb_spec j k); lia. }
           assert (2 ^ k <= 2 ^ prg (thr s w)) by (apply Nat.pow_le_mono_r; lia). lia.
        -- assert (X := RZ w v Hw Hv). destruct (nst (thr s w) k); lia.
      * assert (X := RK w v Hw Hv). assert (Y := RP w Hw). assert (en w <= en v).
        { apply X. assert (2 ^ k <= 2 ^ size) by (apply Nat.pow_le_mono_r; lia). destruct (thr s w); cbn in *; try discriminate; lia. }
        destruct (nst (thr s w) k); lia.
Qed.

Lemma R_safe : forall s en lv t u, R s en lv -> t < n -> u < n -> lv t <= en u.
Proof. intros. eapply r_sf; eauto. Qed.

Definition w (p : pc) : nat := match p with Lp k => 2 * (size - k) + 2 | Wt k => 2 * (size - k) + 1 | _ => 0 end.
Definition mu (s : state) : nat := wsum (fun t => w (thr s t)) n.

Lemma R_prog : forall s en lv K t, R s en lv -> (forall u, u < n -> K <= en u) -> t < n -> lv t < K ->
  exists l s' e, step n s l = Some (s', e) /\ (forall u, ~ In (Enter u) e) /\ (e = [Leave t] \/ mu s' < mu s).
Proof.
  intros s en lv K t HR HK Ht Hl.
  assert (Hb : forall u, u < n -> negb (Nat.ltb u n) = false) by (intros u Hu; destruct (Nat.ltb_spec u n); auto; lia).
  assert (Hnone : forall u : nat, ~ In (Enter u) []) by (intros u []).
  assert (Hlv : forall v u, ~ In (Enter u) [Leave v]) by (intros v u [X|[]]; discriminate).
  destruct (ex_dec (fun u => match thr s u with Lp _ => true | _ => false end) n) as [[a [Ha1 Ha2]]|HnoL].
  { destruct (thr s a) eqn:Ea; try discriminate. exists (a, ATick). unfold step. rewrite Hb, Ea by auto.
    destruct (Nat.ltb_spec k size); do 2 eexists; (split; [reflexivity|]); (split; [auto|]); right; unfold mu; cbn [thr]; (apply wsum_drop; [auto|]); rewrite Ea; cbn; lia. }
  assert (Et := r_el _ _ _ HR t Ht). assert (HKt := HK t Ht).
  destruct (ex_min n (fun u => inside (thr s u) && Nat.eqb (en u) K) (fun u => prg (thr s u)) t Ht) as [x [Hx [Hx2 Hmin]]].
  { destruct (inside (thr s t)); [cbn; apply Nat.eqb_eq|]; lia. }
  apply andb_prop in Hx2. destruct Hx2 as [Hx2 Hx3]. apply Nat.eqb_eq in Hx3.
  assert (Nx := HnoL x Hx). destruct (thr s x) as [| |k|k] eqn:Ex; try discriminate.
  assert (Hk := r_pc _ _ _ HR x Hx). rewrite Ex in Hk. assert (Elx := r_el _ _ _ HR x Hx). rewrite Ex in Elx. cbn in Elx.
  destruct (partner_surj x k Hx Hk) as [v [Hv Hp]]. destruct (see _ _ _ x v k HR Hx Hv Hk Hp Ex) as [_ S2].
  assert (Hset : S (lv x) <= D lv en (thr s) v k).
  { assert (X1 := HK v Hv). assert (X2 := D_le _ _ _ v k HR Hv). assert (X3 := r_el _ _ _ HR v Hv). assert (X4 := HnoL v Hv).
    destruct (Nat.eq_dec (en v) K) as [E1|E1]; [|destruct (inside (thr s v)); lia].
    unfold D. destruct (thr s v) as [| |j|j] eqn:Ev; cbn; try discriminate; try lia.
    specialize (Hmin v Hv). rewrite Ev in Hmin. cbn in Hmin. rewrite (proj2 (Nat.eqb_eq _ _) E1) in Hmin. specialize (Hmin eq_refl).
    destruct (Nat.ltb_spec j k); lia. }
  apply S2 in Hset. exists (x, ATick). unfold step. rewrite Hb, Ex, Hset, eqb_reflx by auto. do 2 eexists. split; [reflexivity|]. split; [auto|].
  right. unfold mu. cbn [thr go]. apply wsum_drop; auto. rewrite Ex. cbn [w]. lia.
Qed.

Theorem sep : forall ls s log, run (step n) init ls = Some (s, log) -> separated n log /\ returns_after_all n log.
Proof. intros ls s log H. split; [apply (bar_separated (step n) init n R R_init R_step R_safe ls s)|apply (bar_returns (step n) init n R R_init R_step R_safe ls s)]; auto. Qed.

Theorem prog : forall ls s log k t, run (step n) init ls = Some (s, log) -> (forall u, u < n -> k <= enters u log) -> t < n -> leaves t log < k ->
  exists ls' s' log', run (step n) s ls' = Some (s', log') /\ In (Leave t) log' /\ (forall u, ~ In (Enter u) log').
Proof. exact (bar_progress (step n) init n R R_init R_step mu R_prog). Qed.
End P.

(* ck_internal_power_2 wraps to 0 above 2^31: no rounds at all *)
Lemma big_size : forall n, N.of_nat n = (2 ^ 31 + 1)%N -> size n = 0.
Proof. intros n H. unfold size. rewrite H. reflexivity. Qed.
Lemma big : forall n, N.of_nat n = (2 ^ 31 + 1)%N -> exists ls s log, run (step n) init ls = Some (s, log) /\ ~ separated n log.
Proof.
  intros n H. assert (Hs := big_size n H). assert (H0 : Nat.ltb 0 n = true) by (apply Nat.ltb_lt; lia). assert (H1 : 1 < n) by (change (2 ^ 31 + 1)%N with 2147483649%N in H; lia).
  eexists [(0, ASub); (0, AEnter); (0, ATick)], _, _. split.
  - eapply run_cons; [unfold step; rewrite H0; cbn; reflexivity|].
    eapply run_cons; [unfold step; rewrite H0; cbn; reflexivity|].
    eapply run_last. unfold step. rewrite H0, Hs. cbn. reflexivity.
  - cbn. intros X. specialize (X 0 1 ltac:(lia) H1). cbn in X. lia.
Qed.
