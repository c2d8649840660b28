From Coq Require Import Arith NArith List Bool Lia.
From Verif Require Import Lib LockProg BarSpec BarProg Helpers_Model BarMcs_Model.
Import ListNotations.
Local Arguments upd : simpl never.
Local Arguments Nat.ltb : simpl never.
Local Arguments Nat.leb : simpl never.
Local Arguments Nat.odd : simpl never.
Local Arguments Nat.mul : simpl never.
Local Arguments N.mul : simpl never.
Local Arguments N.modulo : simpl never.

Lemma odd_S : forall m, Nat.odd (S m) = negb (Nat.odd m).
Proof. intros. rewrite Nat.odd_succ, <- Nat.negb_odd. auto. Qed.

Section Pf.
Variable n : nat.
Hypothesis Hn : (1 <= N.of_nat n <= 2 ^ 30)%N.
Notation step := (step n). Notation init := (init n).

Lemma havechild_eq : forall i j, i < n -> j < 4 -> havechild n i j = Nat.ltb (4 * i + j + 1) n.
Proof.
  intros i j Hi Hj. unfold havechild, nthr1, w32. change (2 ^ 32)%N with 4294967296%N. change (2 ^ 30)%N with 1073741824%N in Hn.
  rewrite N.shiftl_mul_pow2. change (2 ^ 2)%N with 4%N. rewrite N.mod_small by lia.
  replace (N.of_nat n + (4294967296 - 1))%N with ((N.of_nat n - 1) + 1 * 4294967296)%N by lia. rewrite N.mod_add, (N.mod_small (N.of_nat n - 1)) by lia.
  destruct (N.ltb_spec (N.of_nat i * 4 + N.of_nat j) (N.of_nat n - 1)), (Nat.ltb_spec (4 * i + j + 1) n); auto; lia.
Qed.
Lemma children_eq : forall i j, i < n -> j < 2 -> children n i j = if Nat.ltb (2 * i + j + 1) n then PSense (2 * i + j + 1) else Dummy i.
Proof.
  intros i j Hi Hj. unfold children, w32. change (2 ^ 32)%N with 4294967296%N. change (2 ^ 30)%N with 1073741824%N in Hn.
  rewrite N.shiftl_mul_pow2. change (2 ^ 1)%N with 2%N. rewrite N.mod_small by lia.
  destruct (N.leb_spec (N.of_nat n) (N.of_nat i * 2 + N.of_nat (S j))), (Nat.ltb_spec (2 * i + j + 1) n); auto; try lia.
  f_equal. lia.
Qed.
Lemma parent_eq : forall i, i < n -> (i = 0 /\ parent i = Dummy i) \/ exists t j, t < n /\ j < 4 /\ i = 4 * t + j + 1 /\ parent i = Slot t j.
Proof.
  intros i Hi. unfold parent. destruct (Nat.eqb_spec i 0); auto. right.
  rewrite N.shiftr_div_pow2. change (2 ^ 2)%N with 4%N. change 3%N with (N.ones 2). rewrite N.land_ones. change (2 ^ 2)%N with 4%N.
  set (a := (N.of_nat i - 1)%N). assert (X := N.div_mod a 4 ltac:(lia)). assert (Y := N.mod_lt a 4 ltac:(lia)).
  set (q := (a / 4)%N) in *. set (r := (a mod 4)%N) in *. clearbody q r.
  exists (N.to_nat q), (N.to_nat r). unfold a in *. repeat split; lia.
Qed.
Lemma slot_inj : forall t j t' j', j < 4 -> j' < 4 -> 4 * t + j + 1 = 4 * t' + j' + 1 -> t = t' /\ j = j'.
Proof. intros. lia. Qed.
Lemma wake_inj : forall t j t' j', j < 2 -> j' < 2 -> 2 * t + j + 1 = 2 * t' + j' + 1 -> t = t' /\ j = j'.
Proof. intros. lia. Qed.
Lemma wake_parent : forall c, c < n -> c <> 0 -> exists p j, p < c /\ j < 2 /\ c = 2 * p + j + 1.
Proof.
  intros c Hc H0. assert (X := Nat.div_mod (c - 1) 2 ltac:(lia)). assert (Y := Nat.mod_upper_bound (c - 1) 2 ltac:(lia)).
  exists ((c - 1) / 2), ((c - 1) mod 2). lia.
Qed.
Lemma arr_parent : forall c, c < n -> c <> 0 -> exists p j, p < c /\ j < 4 /\ c = 4 * p + j + 1.
Proof.
  intros c Hc H0. assert (X := Nat.div_mod (c - 1) 4 ltac:(lia)). assert (Y := Nat.mod_upper_bound (c - 1) 4 ltac:(lia)).
  exists ((c - 1) / 4), ((c - 1) mod 4). lia.
Qed.

(* how far a participant is in its current call *)
Definition ord (p : pc) : nat :=
  match p with C j => j | Ri j => 4 + j | P => 8 | W => 9 | K j => 10 + j | _ => 12 end.
Definition inside (p : pc) : bool := match p with Unsub | Out => false | _ => true end.
(* how many times it has passed point x in all its calls *)
Definition Nt (en lv : nat -> nat) (thr : nat -> pc) (t x : nat) : nat := if Nat.leb x (ord (thr t)) then en t else lv t.

Record R (s : state) (en lv : nat -> nat) : Prop := mkR {
  r_tid : exists m, tid s = N.of_nat m /\ m <= n /\ forall t, t < n -> m <= t -> thr s t = Unsub;
  r_un : forall t, t < n -> thr s t = Unsub -> en t = 0;
  r_pc : forall t, t < n -> match thr s t with C j | Ri j => j < 4 | K j => j < 2 | W => t <> 0 | _ => True end;
  r_el : forall t, t < n -> en t = if inside (thr s t) then S (lv t) else lv t;
  r_sn : forall t, t < n -> thr s t <> Unsub -> sns s t = Nat.odd (S (lv t));
  r_sl : forall t j, t < n -> j < 4 -> nr s t j =
         if Nat.ltb (4 * t + j + 1) n then Nat.eqb (Nt en lv (thr s) (4 * t + j + 1) 9) (Nt en lv (thr s) t (5 + j)) else false;
  r_ps : forall p j, p < n -> j < 2 -> 2 * p + j + 1 < n -> psense s (2 * p + j + 1) = Nat.odd (Nt en lv (thr s) p (11 + j));
  r_ck : forall t j, t < n -> j < 4 -> 4 * t + j + 1 < n -> Nt en lv (thr s) t (j + 1) <= Nt en lv (thr s) (4 * t + j + 1) 9;
  r_wk : forall p j, p < n -> j < 2 -> 2 * p + j + 1 < n -> Nt en lv (thr s) (2 * p + j + 1) 10 <= Nt en lv (thr s) p (11 + j) }.

Lemma R_init : R init (fun _ => 0) (fun _ => 0).
Proof.
  assert (HZ : forall t x, Nt (fun _ => 0) (fun _ => 0) (fun _ => Unsub) t x = 0) by (intros t x; unfold Nt; destruct (Nat.leb x _); auto).
  constructor; cbn; auto; try (intros; congruence); try lia.
  - exists 0. repeat split; auto; lia.
  - intros t j Ht Hj. rewrite havechild_eq, !HZ by auto. destruct (Nat.ltb _ _); auto.
  - intros. rewrite HZ. auto.
  - intros. rewrite !HZ. auto.
  - intros. rewrite !HZ. auto.
Qed.

Section Facts.
Variables (s : state) (en lv : nat -> nat).
Hypothesis HR : R s en lv.
Notation NN := (Nt en lv (thr s)).
Lemma Nt_bd : forall t x, t < n -> lv t <= NN t x <= en t.
Proof. intros t x Ht. assert (X := r_el _ _ _ HR t Ht). unfold Nt. destruct (inside (thr s t)), (Nat.leb _ _); lia. Qed.
Lemma Nt_mono : forall t x y, t < n -> x <= y -> NN t y <= NN t x.
Proof. intros t x y Ht Hx. assert (X := r_el _ _ _ HR t Ht). unfold Nt. destruct (Nat.leb_spec x (ord (thr s t))), (Nat.leb_spec y (ord (thr s t))), (inside (thr s t)); lia. Qed.
(* the root's arrival comes after everybody's *)
Lemma arr0 : forall t, t < n -> NN 0 9 <= NN t 9.
Proof.
  intros t. induction t as [t IH] using lt_wf_ind. intros Ht. destruct (Nat.eq_dec t 0) as [->|H0]; auto.
  destruct (arr_parent t Ht H0) as [p [j [Hp [Hj E]]]]. assert (X := r_ck _ _ _ HR p j ltac:(lia) Hj ltac:(lia)). rewrite <- E in X.
  specialize (IH p Hp ltac:(lia)). assert (Y := Nt_mono p (j + 1) 9 ltac:(lia) ltac:(lia)). lia.
Qed.
(* nobody is released before the root *)
Lemma wake0 : forall t, t < n -> NN t 10 <= NN 0 10.
Proof.
  intros t. induction t as [t IH] using lt_wf_ind. intros Ht. destruct (Nat.eq_dec t 0) as [->|H0]; auto.
  destruct (wake_parent t Ht H0) as [p [j [Hp [Hj E]]]]. assert (X := r_wk _ _ _ HR p j ltac:(lia) Hj ltac:(lia)). rewrite <- E in X.
  specialize (IH p Hp ltac:(lia)). assert (Y := Nt_mono p 10 (11 + j) ltac:(lia) ltac:(lia)). lia.
Qed.
Lemma wake_arr : forall t u, t < n -> u < n -> NN t 10 <= NN u 9.
Proof. intros t u Ht Hu. assert (A := wake0 t Ht). assert (B := arr0 u Hu). assert (X := Nt_mono 0 9 10 ltac:(lia) ltac:(lia)). lia. Qed.
Lemma slot_bd : forall t j, t < n -> j < 4 -> 4 * t + j + 1 < n -> NN t (5 + j) <= NN (4 * t + j + 1) 9 <= S (NN t (5 + j)).
Proof.
  intros t j Ht Hj Hc. assert (X := r_ck _ _ _ HR t j Ht Hj Hc). assert (Y := Nt_mono t (j + 1) (5 + j) Ht ltac:(lia)). split; [lia|].
  assert (Z1 := Nt_bd (4 * t + j + 1) 9 Hc). assert (Z2 := Nt_bd (4 * t + j + 1) 10 Hc). assert (Z3 := r_el _ _ _ HR _ Hc).
  assert (Z4 := wake_arr _ t Hc Ht). assert (Z5 := Nt_mono t (5 + j) 9 Ht ltac:(lia)). destruct (inside (thr s (4 * t + j + 1))); lia.
Qed.
Lemma sense_bd : forall p j, p < n -> j < 2 -> 2 * p + j + 1 < n -> lv (2 * p + j + 1) <= NN p (11 + j) <= en (2 * p + j + 1).
Proof.
  intros p j Hp Hj Hc. assert (X := r_wk _ _ _ HR p j Hp Hj Hc). assert (Y := Nt_bd (2 * p + j + 1) 10 Hc). assert (Y2 := Nt_bd (2 * p + j + 1) 9 Hc).
  assert (Z := Nt_mono p 10 (11 + j) Hp ltac:(lia)). assert (Z2 := wake_arr p _ Hp Hc). lia.
Qed.
End Facts.

Lemma R_safe : forall s en lv t u, R s en lv -> t < n -> u < n -> lv t <= en u.
Proof.
  intros s en lv t u HR Ht Hu. assert (X := wake_arr _ _ _ HR t u Ht Hu). assert (Y := Nt_bd _ _ _ HR t 10 Ht). assert (Z := Nt_bd _ _ _ HR u 9 Hu). lia.
Qed.

(* a step of t inside its call, moving it from p to p' *)
Lemma Nt_upd : forall en lv thr t p' u x, Nt en lv (upd thr t p') u x = if Nat.eq_dec u t then (if Nat.leb x (ord p') then en t else lv t) else Nt en lv thr u x.
Proof. intros. unfold Nt, upd. destruct (Nat.eq_dec u t); subst; auto. Qed.

Lemma R_move : forall s en lv t p' nr' dm' ps', R s en lv -> t < n -> inside (thr s t) = true -> inside p' = true ->
  match p' with C j | Ri j => j < 4 | K j => j < 2 | W => t <> 0 | _ => True end ->
  (forall u j, u < n -> j < 4 -> nr' u j =
     if Nat.ltb (4 * u + j + 1) n then Nat.eqb (Nt en lv (upd (thr s) t p') (4 * u + j + 1) 9) (Nt en lv (upd (thr s) t p') u (5 + j)) else false) ->
  (forall p j, p < n -> j < 2 -> 2 * p + j + 1 < n -> ps' (2 * p + j + 1) = Nat.odd (Nt en lv (upd (thr s) t p') p (11 + j))) ->
  (forall u j, u < n -> j < 4 -> 4 * u + j + 1 < n -> Nt en lv (upd (thr s) t p') u (j + 1) <= Nt en lv (upd (thr s) t p') (4 * u + j + 1) 9) ->
  (forall p j, p < n -> j < 2 -> 2 * p + j + 1 < n -> Nt en lv (upd (thr s) t p') (2 * p + j + 1) 10 <= Nt en lv (upd (thr s) t p') p (11 + j)) ->
  R (mk (tid s) nr' dm' ps' (sns s) (upd (thr s) t p')) en lv.
Proof.
  intros s en lv t p' nr' dm' ps' HR Ht Hi Hi' Hp H1 H2 H3 H4. constructor; cbn; auto.
  - destruct (r_tid _ _ _ HR) as [m [M1 [M2 M3]]]. exists m. repeat split; auto. intros u Hu Hu2. rewrite upd_other; auto. intros ->. rewrite M3 in Hi by auto. discriminate.
  - intros u Hu. unfold upd. destruct (Nat.eq_dec u t); [intros ->; discriminate|apply (r_un _ _ _ HR); auto].
  - intros u Hu. unfold upd. destruct (Nat.eq_dec u t); [subst; auto|apply (r_pc _ _ _ HR); auto].
  - intros u Hu. assert (X := r_el _ _ _ HR u Hu). unfold upd. destruct (Nat.eq_dec u t); [subst; rewrite Hi'; rewrite Hi in X|]; auto.
  - intros u Hu. unfold upd. destruct (Nat.eq_dec u t); [subst; intros _|]; apply (r_sn _ _ _ HR); auto. intros X. rewrite X in Hi. discriminate.
Qed.

Lemma R_step : forall s en lv l s' e, R s en lv -> step s l = Some (s', e) ->
  (e = [] /\ R s' en lv) \/ (exists t, e = [Enter t] /\ R s' (upd en t (S (en t))) lv) \/
  (exists t, e = [Leave t] /\ R s' en (upd lv t (S (lv t)))).
Proof.
  intros s en lv [t a] s' e HR Hs. unfold BarMcs_Model.step in Hs. destruct (Nat.ltb_spec t n) as [Ht|]; [|discriminate]. cbn [negb] in Hs.
  assert (Hsub : match thr s t, a with Unsub, ASub => False | _, ASub => True | _, _ => False end -> False).
  { destruct (r_tid _ _ _ HR) as [m [M1 [M2 M3]]]. intros X. destruct a; destruct (thr s t) eqn:Et; auto; destruct (N.eqb_spec (N.of_nat t) (tid s)) as [Eq|]; try discriminate;
    assert (thr s t = Unsub) by (apply M3; lia); congruence. }
  assert (RPt := r_pc _ _ _ HR t Ht). assert (REt := r_el _ _ _ HR t Ht). 
  destruct (thr s t) eqn:Et; destruct a; try discriminate; try (exfalso; exact (Hsub I)); cbn in REt.
  - (* subscribe *)
    destruct (N.eqb_spec (N.of_nat t) (tid s)) as [Eq|]; [|discriminate]. injection Hs as <- <-. left. split; auto.
    destruct (r_tid _ _ _ HR) as [m [M1 [M2 M3]]]. assert (m = t) by lia. subst m. assert (E0 : en t = 0) by (apply (r_un _ _ _ HR); auto).
    assert (HN : forall u x, Nt en lv (upd (thr s) t Out) u x = Nt en lv (thr s) u x).
    { intros u x. rewrite Nt_upd. destruct (Nat.eq_dec u t); auto. subst. unfold Nt. rewrite Et. auto. }
    constructor; cbn [thr tid sns nr psense].
    + exists (S t). split; [|split; [lia|]].
      * rewrite M1. unfold w32. rewrite N.mod_small; [lia|]. change (2 ^ 30)%N with 1073741824%N in Hn. change (2 ^ 32)%N with 4294967296%N. lia.
      * intros u Hu Hu2. rewrite upd_other by lia. apply M3; lia.
    + intros u Hu. upd_goal; [congruence|apply (r_un _ _ _ HR); auto].
    + intros u Hu. upd_goal; [auto|apply (r_pc _ _ _ HR); auto].
    + intros u Hu. unfold upd. destruct (Nat.eq_dec u t); [subst u; cbn; lia|apply (r_el _ _ _ HR); auto].
    + intros u Hu. unfold upd. destruct (Nat.eq_dec u t); [subst u; intros _|apply (r_sn _ _ _ HR); auto]. rewrite <- REt, E0. auto.
    + intros u j Hu Hj. rewrite !HN. apply (r_sl _ _ _ HR); auto.
    + intros p j Hp Hj Hc. rewrite !HN. apply (r_ps _ _ _ HR); auto.
    + intros u j Hu Hj Hc. rewrite !HN. apply (r_ck _ _ _ HR); auto.
    + intros p j Hp Hj Hc. rewrite !HN. apply (r_wk _ _ _ HR); auto.
  - (* enter *)
    injection Hs as <- <-. right. left. exists t. split; auto.
    assert (HN : forall u x, 1 <= x -> Nt (upd en t (S (en t))) lv (upd (thr s) t (C 0)) u x = Nt en lv (thr s) u x).
    { intros u x Hx. rewrite Nt_upd. destruct (Nat.eq_dec u t); [subst u; unfold Nt; rewrite Et; cbn|].
      - destruct (Nat.leb_spec x 0), (Nat.leb_spec x 12); lia.
      - unfold Nt. rewrite upd_other; auto. }
    constructor; cbn [thr tid sns nr psense go].
    + destruct (r_tid _ _ _ HR) as [m [M1 [M2 M3]]]. exists m. repeat split; auto. intros u Hu Hu2. rewrite upd_other; auto. intros ->. rewrite M3 in Et by auto. discriminate.
    + intros u Hu. unfold upd. destruct (Nat.eq_dec u t); [discriminate|apply (r_un _ _ _ HR); auto].
    + intros u Hu. upd_goal; [lia|apply (r_pc _ _ _ HR); auto].
    + intros u Hu. unfold upd. destruct (Nat.eq_dec u t); [subst u; cbn; lia|apply (r_el _ _ _ HR); auto].
    + intros u Hu. unfold upd. destruct (Nat.eq_dec u t); [subst u; intros _|]; apply (r_sn _ _ _ HR); auto. congruence.
    + intros u j Hu Hj. rewrite !HN by lia. apply (r_sl _ _ _ HR); auto.
    + intros p j Hp Hj Hc. rewrite !HN by lia. apply (r_ps _ _ _ HR); auto.
    + intros u j Hu Hj Hc. rewrite !HN by lia. apply (r_ck _ _ _ HR); auto.
    + intros p j Hp Hj Hc. rewrite !HN by lia. apply (r_wk _ _ _ HR); auto.
  - (* check *)
    injection Hs as <- <-. left. split; auto. set (p' := if nr s t j then C 0 else if Nat.ltb j 3 then C (S j) else Ri 0).
    assert (Hp' : inside p' = true /\ ord p' <= 4 /\ (ord p' = 0 \/ nr s t j = false /\ ord p' = S j)).
    { unfold p'. destruct (nr s t j); cbn; [repeat split; auto; lia|]. destruct (Nat.ltb_spec j 3); cbn; repeat split; auto; lia. }
    destruct Hp' as [Hp1 [Hp2 Hp3]].
    assert (HN : forall u x, 5 <= x -> Nt en lv (upd (thr s) t p') u x = Nt en lv (thr s) u x).
    { intros u x Hx. rewrite Nt_upd. destruct (Nat.eq_dec u t); [subst u; unfold Nt; rewrite Et; cbn|auto].
      destruct (Nat.leb_spec x (ord p')), (Nat.leb_spec x j); lia. }
    apply R_move; auto.
    + rewrite Et. auto.
    + unfold p'. destruct (nr s t j); [lia|]. destruct (Nat.ltb_spec j 3); lia.
    + intros u k Hu Hk. rewrite !HN by lia. apply (r_sl _ _ _ HR); auto.
    + intros p k Hp Hk Hc. rewrite !HN by lia. apply (r_ps _ _ _ HR); auto.
    + intros u k Hu Hk Hc. rewrite (HN _ 9) by lia. assert (X := r_ck _ _ _ HR u k Hu Hk Hc). rewrite Nt_upd. destruct (Nat.eq_dec u t); auto. subst u.
      unfold Nt at 1 in X. rewrite Et in X. cbn in X. assert (Y := Nt_bd _ _ _ HR t (5 + k) Ht).
      destruct (Nat.leb_spec (k + 1) (ord p')); [|destruct (Nat.leb_spec (k + 1) j); lia].
      destruct (Nat.leb_spec (k + 1) j); auto. destruct Hp3 as [Hp3|[Hp3 Hp4]]; [lia|]. assert (k = j) by lia. subst k.
      assert (Z := r_sl _ _ _ HR t j Ht RPt). rewrite Hp3 in Z. destruct (Nat.ltb_spec (4 * t + j + 1) n); [|lia].
      symmetry in Z. apply Nat.eqb_neq in Z. assert (V : Nt en lv (thr s) t (5 + j) = lv t) by (unfold Nt; rewrite Et; cbn [ord]; destruct (Nat.leb_spec (5 + j) j); lia). lia.
    + intros p k Hp Hk Hc. rewrite !HN by lia. apply (r_wk _ _ _ HR); auto.
  - (* reinitialise *)
    injection Hs as <- <-. left. split; auto. unfold go, setnr. cbn [tid nr dummy psense sns thr]. set (p' := if Nat.ltb j 3 then Ri (S j) else P).
    assert (Hp' : inside p' = true /\ ord p' = 5 + j) by (unfold p'; destruct (Nat.ltb_spec j 3); cbn; split; auto; lia). destruct Hp' as [Hp1 Hp2].
    assert (HN : forall u x, Nt en lv (upd (thr s) t p') u x = if Nat.eq_dec u t then (if Nat.eq_dec x (5 + j) then en t else Nt en lv (thr s) u x) else Nt en lv (thr s) u x).
    { intros u x. rewrite Nt_upd, Hp2. destruct (Nat.eq_dec u t); auto. subst u. unfold Nt. rewrite Et. cbn [ord].
      destruct (Nat.eq_dec x (5 + j)), (Nat.leb_spec x (5 + j)), (Nat.leb_spec x (4 + j)); auto; lia. }
    assert (H9 : forall u, Nt en lv (upd (thr s) t p') u 9 = Nt en lv (thr s) u 9).
    { intros u. rewrite HN. destruct (Nat.eq_dec u t); auto. destruct (Nat.eq_dec 9 (5 + j)); auto. lia. }
    assert (Hhi : forall u x, 9 <= x -> Nt en lv (upd (thr s) t p') u x = Nt en lv (thr s) u x).
    { intros u x Hx. rewrite HN. destruct (Nat.eq_dec u t); auto. destruct (Nat.eq_dec x (5 + j)); auto. lia. }
    assert (Hlo : forall u x, x <= 4 -> Nt en lv (upd (thr s) t p') u x = Nt en lv (thr s) u x).
    { intros u x Hx. rewrite HN. destruct (Nat.eq_dec u t); auto. destruct (Nat.eq_dec x (5 + j)); auto. lia. }
    apply R_move; auto.
    + rewrite Et. auto.
    + unfold p'. destruct (Nat.ltb_spec j 3); lia.
    + intros u k Hu Hk. rewrite H9, HN. assert (X := r_sl _ _ _ HR u k Hu Hk). unfold upd at 1. destruct (Nat.eq_dec u t); auto. subst u.
      unfold upd. destruct (Nat.eq_dec k j); [subst k|destruct (Nat.eq_dec (5 + k) (5 + j)); auto; lia].
      rewrite havechild_eq by auto. destruct (Nat.ltb_spec (4 * t + j + 1) n); auto. destruct (Nat.eq_dec (5 + j) (5 + j)); [|lia].
      symmetry. apply Nat.eqb_eq. assert (Y := r_ck _ _ _ HR t j Ht RPt H). assert (Z := slot_bd _ _ _ HR t j Ht RPt H).
      unfold Nt at 1 in Y. rewrite Et in Y. cbn [ord] in Y. destruct (Nat.leb_spec (j + 1) (4 + j)); [|lia].
      assert (V : Nt en lv (thr s) t (5 + j) = lv t) by (unfold Nt; rewrite Et; cbn [ord]; destruct (Nat.leb_spec (5 + j) (4 + j)); lia). lia.
    + intros p k Hp Hk Hc. rewrite Hhi by lia. apply (r_ps _ _ _ HR); auto.
    + intros u k Hu Hk Hc. rewrite H9, Hlo by lia. apply (r_ck _ _ _ HR); auto.
    + intros p k Hp Hk Hc. rewrite !Hhi by lia. apply (r_wk _ _ _ HR); auto.
  - (* arrive *)
    injection Hs as <- <-. left. split; auto. set (p' := if Nat.eqb t 0 then K 0 else W).
    (* at the root the wait is skipped: it passes 10 as well *)
    assert (HN : forall u x, x <> 9 -> (x = 10 -> u = t -> t <> 0) -> Nt en lv (upd (thr s) t p') u x = Nt en lv (thr s) u x).
    { intros u x Hx Hx2. rewrite Nt_upd. destruct (Nat.eq_dec u t); auto. subst u. unfold Nt, p'. rewrite Et. cbn [ord].
      destruct (Nat.eqb_spec t 0); cbn [ord]; destruct (Nat.leb_spec x 8); repeat match goal with |- context [Nat.leb ?a ?b] => destruct (Nat.leb_spec a b) end; auto; try lia. }
    assert (H9 : forall u, u <> t -> Nt en lv (upd (thr s) t p') u 9 = Nt en lv (thr s) u 9).
    { intros u Hu. rewrite Nt_upd. destruct (Nat.eq_dec u t); auto. lia. }
    assert (H9t : Nt en lv (upd (thr s) t p') t 9 = en t).
    { rewrite Nt_upd. destruct (Nat.eq_dec t t); [|lia]. unfold p'. destruct (Nat.eqb_spec t 0); cbn [ord]; destruct (Nat.leb_spec 9 9), (Nat.leb_spec 9 (10 + 0)); auto; lia. }
    assert (H9o : Nt en lv (thr s) t 9 = lv t) by (unfold Nt; rewrite Et; auto).
    assert (Hcore : forall nr', (forall u j, u < n -> j < 4 -> nr' u j = if Nat.eq_dec (4 * u + j + 1) t then false else nr s u j) ->
      forall dm', R (mk (tid s) nr' dm' (psense s) (sns s) (upd (thr s) t p')) en lv).
    { intros nr' Hnr dm'. apply R_move; auto.
      - rewrite Et. auto.
      - unfold p'. destruct (Nat.eqb t 0); auto.
      - unfold p'. destruct (Nat.eqb_spec t 0); auto; lia.
      - intros u k Hu Hk. rewrite Hnr by auto. rewrite (HN u (5 + k)) by lia. assert (X := r_sl _ _ _ HR u k Hu Hk). destruct (Nat.eq_dec (4 * u + k + 1) t) as [e|].
        + rewrite e in *. rewrite H9t. destruct (Nat.ltb_spec t n); auto. symmetry. apply Nat.eqb_neq. rewrite <- e in H.
          assert (Y := slot_bd _ _ _ HR u k Hu Hk H). rewrite e in Y. lia.
        + rewrite H9 by auto. auto.
      - intros p k Hp Hk Hc. rewrite HN by lia. apply (r_ps _ _ _ HR); auto.
      - intros u k Hu Hk Hc. rewrite (HN u) by lia. assert (X := r_ck _ _ _ HR u k Hu Hk Hc). destruct (Nat.eq_dec (4 * u + k + 1) t) as [e|].
        + rewrite e in *. lia.
        + rewrite H9 by auto. auto.
      - intros p k Hp Hk Hc. rewrite !HN by lia. apply (r_wk _ _ _ HR); auto. }
    destruct (parent_eq t Ht) as [[E0 ->]|[u [j [Hu [Hj [E ->]]]]]]; unfold go, store, setnr; cbn [tid nr dummy psense sns thr]; apply Hcore.
    + intros v j Hv Hj. destruct (Nat.eq_dec (4 * v + j + 1) t); auto. lia.
    + intros v k Hv Hk. unfold upd at 1. destruct (Nat.eq_dec v u).
      * subst v. unfold upd. destruct (Nat.eq_dec k j), (Nat.eq_dec (4 * u + k + 1) t); auto; lia.
      * destruct (Nat.eq_dec (4 * v + k + 1) t); auto. lia.
  - (* wait *)
    injection Hs as <- <-. left. split; auto. destruct (Bool.eqb (psense s t) (sns s t)) eqn:Eb; [|exact HR]. apply eqb_prop in Eb.
    destruct (wake_parent t Ht RPt) as [p [j [Hp [Hj E]]]]. 
    assert (Hcc : 2 * p + j + 1 < n) by lia. assert (X1 := r_ps _ _ _ HR p j ltac:(lia) Hj Hcc). assert (X2 := sense_bd _ _ _ HR p j ltac:(lia) Hj Hcc).
    rewrite <- E in X1, X2. assert (X3 := r_sn _ _ _ HR t Ht ltac:(congruence)).
    assert (X4 : Nt en lv (thr s) p (11 + j) = en t).
    { set (v := Nt en lv (thr s) p (11 + j)) in *. clearbody v. assert (v = lv t \/ v = en t) by lia. destruct H; auto.
      rewrite X1, X3, H, odd_S in Eb. destruct (Nat.odd (lv t)); discriminate. }
    assert (HN : forall u x, x <> 10 -> Nt en lv (upd (thr s) t (K 0)) u x = Nt en lv (thr s) u x).
    { intros u x Hx. rewrite Nt_upd. destruct (Nat.eq_dec u t); auto. subst u. unfold Nt. rewrite Et. cbn [ord].
      destruct (Nat.leb_spec x (10 + 0)), (Nat.leb_spec x 9); auto; lia. }
    apply R_move; auto.
    + rewrite Et. auto.
    + intros u k Hu Hk. rewrite !HN by lia. apply (r_sl _ _ _ HR); auto.
    + intros q k Hq Hk Hc. rewrite !HN by lia. apply (r_ps _ _ _ HR); auto.
    + intros u k Hu Hk Hc. rewrite !HN by lia. apply (r_ck _ _ _ HR); auto.
    + intros q k Hq Hk Hc. rewrite (HN q) by lia. rewrite Nt_upd. destruct (Nat.eq_dec (2 * q + k + 1) t) as [e|]; [|apply (r_wk _ _ _ HR); auto].
      change (Nat.leb 10 (ord (K 0))) with true. rewrite E in e. apply wake_inj in e; auto. destruct e as [-> ->]. lia.
  - (* wake the children *)
    assert (X3 := r_sn _ _ _ HR t Ht ltac:(congruence)).
    assert (Hst : exists dm' ps', store s (children n t j) (sns s t) = mk (tid s) (nr s) dm' ps' (sns s) (thr s) /\
       forall p k, p < n -> k < 2 -> 2 * p + k + 1 < n -> ps' (2 * p + k + 1) = if Nat.eq_dec p t then (if Nat.eq_dec k j then sns s t else psense s (2 * p + k + 1)) else psense s (2 * p + k + 1)).
    { rewrite children_eq by auto. destruct (Nat.ltb_spec (2 * t + j + 1) n) as [Hc|Hc]; cbn [store]; do 2 eexists; (split; [reflexivity|]).
      - intros p k Hp Hk Hc2. unfold upd. destruct (Nat.eq_dec (2 * p + k + 1) (2 * t + j + 1)), (Nat.eq_dec p t), (Nat.eq_dec k j); auto; lia.
      - intros p k Hp Hk Hc2. destruct (Nat.eq_dec p t), (Nat.eq_dec k j); auto; subst; lia. }
    destruct Hst as [dm' [ps' [Est Hps]]]. rewrite Est in Hs. cbn [tid nr dummy psense sns thr] in Hs. unfold go in Hs; cbn [tid nr dummy psense sns thr] in Hs.
    assert (Hold : forall p k, p < n -> k < 2 -> 2 * p + k + 1 < n -> psense s (2 * p + k + 1) = Nat.odd (Nt en lv (thr s) p (11 + k))) by apply (r_ps _ _ _ HR).
    destruct (Nat.ltb_spec j 1) as [H1|H1]; injection Hs as <- <-.
    + left. split; auto. assert (j = 0) by lia. subst j.
      assert (HN : forall u x, x <> 11 -> Nt en lv (upd (thr s) t (K 1)) u x = Nt en lv (thr s) u x).
      { intros u x Hx. rewrite Nt_upd. destruct (Nat.eq_dec u t); auto. subst u. unfold Nt. rewrite Et. cbn [ord].
        destruct (Nat.leb_spec x (10 + 0)), (Nat.leb_spec x (10 + 1)); auto; lia. }
      apply R_move; auto.
      * rewrite Et. auto.
      * intros u k Hu Hk. rewrite !HN by lia. apply (r_sl _ _ _ HR); auto.
      * intros q k Hq Hk Hc. rewrite Hps by auto. rewrite Nt_upd. destruct (Nat.eq_dec q t); [|apply Hold; auto]. subst q.
        destruct (Nat.eq_dec k 0); [subst k; cbn; rewrite X3, REt; auto|]. assert (k = 1) by lia. subst k. rewrite Hold by auto. unfold Nt. rewrite Et. auto.
      * intros u k Hu Hk Hc. rewrite !HN by lia. apply (r_ck _ _ _ HR); auto.
      * intros q k Hq Hk Hc. rewrite (HN _ 10) by lia. assert (Y := r_wk _ _ _ HR q k Hq Hk Hc). rewrite Nt_upd. destruct (Nat.eq_dec q t); auto. subst q.
        assert (V : Nt en lv (thr s) t (11 + k) <= lv t) by (unfold Nt; rewrite Et; cbn [ord]; destruct (Nat.leb_spec (11 + k) (10 + 0)); lia).
        destruct (Nat.leb (11 + k) (ord (K 1))); lia.
    + right. right. exists t. split; auto. assert (j = 1) by lia. subst j.
      assert (HN : forall u x, x <= 11 -> Nt en (upd lv t (S (lv t))) (upd (thr s) t Out) u x = Nt en lv (thr s) u x).
      { intros u x Hx. rewrite Nt_upd. destruct (Nat.eq_dec u t); [subst u; unfold Nt; rewrite Et; cbn [ord]|].
        - destruct (Nat.leb_spec x 12), (Nat.leb_spec x (10 + 1)); auto; lia.
        - unfold Nt, upd. destruct (Nat.eq_dec u t); auto. lia. }
      assert (HN12 : forall u, Nt en (upd lv t (S (lv t))) (upd (thr s) t Out) u 12 = if Nat.eq_dec u t then en t else Nt en lv (thr s) u 12).
      { intros u. rewrite Nt_upd. destruct (Nat.eq_dec u t); auto. unfold Nt, upd. destruct (Nat.eq_dec u t); auto. lia. }
      constructor; cbn [thr tid sns nr psense].
      * destruct (r_tid _ _ _ HR) as [m [M1 [M2 M3]]]. exists m. repeat split; auto. intros u Hu Hu2. rewrite upd_other; auto. intros ->. rewrite M3 in Et by auto. discriminate.
      * intros u Hu. unfold upd. destruct (Nat.eq_dec u t); [discriminate|apply (r_un _ _ _ HR); auto].
      * intros u Hu. upd_goal; [auto|apply (r_pc _ _ _ HR); auto].
      * intros u Hu. unfold upd. destruct (Nat.eq_dec u t); [subst u; cbn; lia|apply (r_el _ _ _ HR); auto].
      * intros u Hu. unfold upd. destruct (Nat.eq_dec u t); [subst u; intros _|apply (r_sn _ _ _ HR); auto]. rewrite X3, !odd_S. auto.
      * intros u k Hu Hk. rewrite !HN by lia. apply (r_sl _ _ _ HR); auto.
      * intros q k Hq Hk Hc. rewrite Hps by auto. assert (HC : k = 0 \/ k = 1) by lia. destruct HC; subst k.
        -- rewrite HN by lia. destruct (Nat.eq_dec q t); auto; cbn; apply Hold; auto.
        -- change (11 + 1) with 12. rewrite HN12. destruct (Nat.eq_dec q t); [cbn; rewrite X3, REt; auto|apply Hold; auto].
      * intros u k Hu Hk Hc. rewrite !HN by lia. apply (r_ck _ _ _ HR); auto.
      * intros q k Hq Hk Hc. rewrite (HN _ 10) by lia. assert (Y := r_wk _ _ _ HR q k Hq Hk Hc). assert (HC : k = 0 \/ k = 1) by lia. destruct HC; subst k.
        -- rewrite HN by lia. auto.
        -- change (11 + 1) with 12 in *. rewrite HN12. destruct (Nat.eq_dec q t); auto. subst q.
           assert (V := Nt_bd _ _ _ HR t 12 Ht). lia.
Qed.

Definition w (p : pc) : nat := if inside p then 13 - ord p else 0.
Definition mu (s : state) : nat := wsum (fun t => w (thr s t)) n.

Lemma R_prog : forall s en lv k t, R s en lv -> (forall u, u < n -> k <= en u) -> t < n -> lv t < k ->
  exists l s' e, step s l = Some (s', e) /\ (forall u, ~ In (Enter u) e) /\ (e = [Leave t] \/ mu s' < mu s).
Proof.
  intros s en lv k t HR HK Ht Hl.
  assert (Hb : forall u, u < n -> negb (Nat.ltb u n) = false) by (intros u Hu; destruct (Nat.ltb_spec u n); auto; lia).
  assert (Hnone : forall u : nat, ~ In (Enter u) []) by (intros u []).
  assert (Hlv : forall v u, ~ In (Enter u) [Leave v]) by (intros v u [X|[]]; discriminate).
  assert (Hthr : forall d v, thr (store s d v) = thr s) by (intros [ | | ] v; reflexivity).
  destruct (ex_dec (fun u => match thr s u with Ri _ | P | K _ => true | _ => false end) n) as [[x [Hx Hx2]]|HnoE].
  { assert (Hpx := r_pc _ _ _ HR x Hx). exists (x, ATick). unfold BarMcs_Model.step. rewrite Hb by auto. destruct (thr s x) eqn:Ex; try discriminate.
    - do 2 eexists. split; [reflexivity|]. split; [auto|]. right. unfold mu. cbn [thr go setnr]. apply wsum_drop; auto. rewrite Ex.
      destruct (Nat.ltb_spec j 3); unfold w; cbn [inside ord]; lia.
    - do 2 eexists. split; [reflexivity|]. split; [auto|]. right. unfold mu, go. cbn [thr]. rewrite Hthr. apply wsum_drop; auto. rewrite Ex.
      destruct (Nat.eqb x 0); unfold w; cbn [inside ord]; lia.
    - destruct (Nat.ltb_spec j 1); do 2 eexists; (split; [reflexivity|]); (split; [auto|]); right; unfold mu, go; cbn [thr]; rewrite Hthr; (apply wsum_drop; [auto|]); rewrite Ex; unfold w; cbn [inside ord]; lia. }
  assert (Et := r_el _ _ _ HR t Ht). assert (HKt := HK t Ht).
  destruct (ex_dec (fun u => match thr s u with C _ => Nat.eqb (en u) k | _ => false end) n) as [[x0 [Hx0 Hx02]]|HnoC].
  - destruct (ex_min n (fun u => match thr s u with C _ => Nat.eqb (en u) k | _ => false end) (fun u => n - u) x0 Hx0 Hx02) as [x [Hx [Hx2 Hmax]]].
    destruct (thr s x) eqn:Ex; try discriminate. apply Nat.eqb_eq in Hx2. assert (Hj := r_pc _ _ _ HR x Hx). rewrite Ex in Hj.
    assert (Elx := r_el _ _ _ HR x Hx). rewrite Ex in Elx. cbn in Elx.
    assert (Hz : nr s x j = false).
    { rewrite (r_sl _ _ _ HR x j Hx Hj). destruct (Nat.ltb_spec (4 * x + j + 1) n) as [Hc|]; auto. apply Nat.eqb_neq.
      assert (V : Nt en lv (thr s) x (5 + j) = lv x) by (unfold Nt; rewrite Ex; cbn [ord]; destruct (Nat.leb_spec (5 + j) j); lia).
      assert (Bd := Nt_bd _ _ _ HR _ 9 Hc). assert (Ec := r_el _ _ _ HR _ Hc). assert (Kc := HK _ Hc). assert (Nc := HnoE _ Hc). specialize (Hmax _ Hc).
      destruct (thr s (4 * x + j + 1)) eqn:Ecc; cbn in Ec; try discriminate; try lia.
      - destruct (Nat.eqb_spec (en (4 * x + j + 1)) k); [specialize (Hmax eq_refl); lia|lia].
      - unfold Nt at 1. rewrite Ecc. change (Nat.leb 9 (ord W)) with true. cbn iota. lia. }
    exists (x, ATick). unfold BarMcs_Model.step. rewrite Hb, Ex, Hz by auto. do 2 eexists. split; [reflexivity|]. split; [auto|].
    right. unfold mu. cbn [thr go]. apply wsum_drop; auto. rewrite Ex. destruct (Nat.ltb_spec j 3); unfold w; cbn [inside ord]; lia.
  - assert (Hw0 : match thr s t with W => Nat.eqb (en t) k | _ => false end = true).
    { assert (A := HnoE t Ht). assert (B := HnoC t Ht). destruct (thr s t); cbn in Et; try discriminate; try lia.
      - apply Nat.eqb_neq in B. lia.
      - apply Nat.eqb_eq. lia. }
    destruct (ex_min n (fun u => match thr s u with W => Nat.eqb (en u) k | _ => false end) (fun u => u) t Ht Hw0) as [x [Hx [Hx2 Hmin]]].
    destruct (thr s x) eqn:Ex; try discriminate. apply Nat.eqb_eq in Hx2. assert (Hx0 := r_pc _ _ _ HR x Hx). rewrite Ex in Hx0.
    assert (Elx := r_el _ _ _ HR x Hx). rewrite Ex in Elx. cbn in Elx.
    destruct (wake_parent x Hx Hx0) as [p [j [Hp [Hj E]]]]. assert (Hcc : 2 * p + j + 1 < n) by lia. assert (Hpn : p < n) by lia.
    assert (X1 := r_ps _ _ _ HR p j Hpn Hj Hcc). assert (X2 := sense_bd _ _ _ HR p j Hpn Hj Hcc). rewrite <- E in X1, X2.
    assert (X3 := r_sn _ _ _ HR x Hx ltac:(congruence)).
    assert (X4 : Nt en lv (thr s) p (11 + j) = en x).
    { assert (Ep := r_el _ _ _ HR p Hpn). assert (Kp := HK p Hpn). assert (Np := HnoE p Hpn). assert (Cp := HnoC p Hpn). assert (Bp := Nt_bd _ _ _ HR p (11 + j) Hpn). specialize (Hmin p Hpn).
      destruct (thr s p) eqn:Epc; cbn in Ep; try discriminate; try lia.
      - apply Nat.eqb_neq in Cp. lia.
      - destruct (Nat.eqb_spec (en p) k); [specialize (Hmin eq_refl); lia|lia]. }
    assert (Heq : psense s x = sns s x) by (rewrite X1, X3, X4, Elx; auto).
    exists (x, ATick). unfold BarMcs_Model.step. rewrite Hb, Ex, Heq, eqb_reflx by auto. do 2 eexists. split; [reflexivity|]. split; [auto|].
    right. unfold mu. cbn [thr go]. apply wsum_drop; auto. rewrite Ex. unfold w; cbn [inside ord]; lia.
Qed.

Theorem sep : forall ls s log, run step init ls = Some (s, log) -> separated n log /\ returns_after_all n log.
Proof. intros ls s log H. split; [apply (bar_separated step init n R R_init R_step R_safe ls s)|apply (bar_returns step init n R R_init R_step R_safe ls s)]; auto. Qed.

Theorem prog : forall ls s log k t, run step init ls = Some (s, log) -> (forall u, u < n -> k <= enters u log) -> t < n -> leaves t log < k ->
  exists ls' s' log', run step s ls' = Some (s', log') /\ In (Leave t) log' /\ (forall u, ~ In (Enter u) log').
Proof. exact (bar_progress step init n R R_init R_step mu R_prog). Qed.
End Pf.

(* with 2^30 + 1 participants [i << 2] wraps: the last one waits for a child it does not have *)
Section Big.
Variable n : nat.
Hypothesis Hn : N.of_nat n = (2 ^ 30 + 1)%N.
Let i := n - 1.

Definition stuck (s : state) : Prop := nr s i 0 = true /\ (thr s i = Unsub \/ thr s i = Out \/ thr s i = C 0).

Lemma stuck_init : stuck (init n).
Proof.
  split; cbn; auto. unfold havechild, nthr1. assert (E : N.of_nat i = (2 ^ 30)%N) by (unfold i; change (2 ^ 30)%N with 1073741824%N in *; lia).
  rewrite Hn, E. reflexivity.
Qed.

Lemma stuck_step : forall s l s' e, stuck s -> step n s l = Some (s', e) -> stuck s' /\ ~ In (Leave i) e.
Proof.
  intros s [t a] s' e [S1 S2] Hs. unfold step in Hs. destruct (Nat.ltb_spec t n) as [Ht|]; [|discriminate]. cbn [negb] in Hs.
  assert (Hpar : forall s', stuck s' -> stuck (store s' (parent t) false)).
  { intros s1 [A B]. unfold parent. destruct (Nat.eqb_spec t 0); cbn [store]; [split; auto|]. split; auto. cbn [nr setnr store].
    unfold upd. destruct (Nat.eq_dec i _) as [E|]; auto. exfalso. rewrite N.shiftr_div_pow2 in E. change (2 ^ 2)%N with 4%N in E.
    assert (X := N.mul_div_le (N.of_nat t - 1) 4 ltac:(lia)). set (q := ((N.of_nat t - 1) / 4)%N) in *. clearbody q. unfold i in E. change (2 ^ 30)%N with 1073741824%N in *. lia. }
  assert (Hch : forall j v s', stuck s' -> stuck (store s' (children n t j) v)).
  { intros j v s1 [A B]. unfold children. destruct (N.leb _ _); cbn; split; auto. }
  assert (Hgo : forall s' p, stuck s' -> (t = i -> p = Unsub \/ p = Out \/ p = C 0) -> stuck (go s' t p)).
  { intros s1 p [A B] Hp. split; auto. cbn. unfold upd. destruct (Nat.eq_dec i t); auto. }
  destruct (Nat.eq_dec t i) as [->|Hti].
  - assert (G : e = [] \/ e = [Enter i] -> ~ In (Leave i) e) by (intros [->| ->] X; [destruct X|destruct X as [X|[]]; discriminate]).
    destruct S2 as [S2|[S2|S2]]; rewrite S2 in Hs; destruct a; try discriminate;
    try (destruct (N.eqb _ _); [|discriminate]; injection Hs as <- <-; split; [split; cbn; auto; rewrite upd_same; auto|apply G; auto]);
    injection Hs as <- <-; (split; [|apply G; auto]).
    + apply Hgo; auto. split; auto.
    + rewrite S1. apply Hgo; auto. split; auto.
  - assert (St : stuck s) by (split; auto).
    assert (G : e = [] \/ e = [Enter t] \/ e = [Leave t] -> ~ In (Leave i) e).
    { intros [-> | [->| ->]] X; [destruct X|destruct X as [X|[]]; discriminate|destruct X as [X|[]]; congruence]. }
    destruct (thr s t) eqn:Et; destruct a; try discriminate;
    try (destruct (N.eqb _ _); [|discriminate]; injection Hs as <- <-; split; [split; cbn; auto; rewrite upd_other; auto|apply G; auto]).
    + injection Hs as <- <-. split; [apply Hgo; auto; tauto|apply G; auto].
    + injection Hs as <- <-. split; [apply Hgo; auto; tauto|apply G; auto].
    + injection Hs as <- <-. split; [|apply G; auto]. apply Hgo; [|tauto]. split; auto. cbn. unfold upd. destruct (Nat.eq_dec i t); auto; congruence.
    + injection Hs as <- <-. split; [|apply G; auto]. apply Hgo; [|tauto]. auto.
    + destruct (Bool.eqb _ _); injection Hs as <- <-; (split; [|apply G; auto]); auto. apply Hgo; auto; tauto.
    + destruct (Nat.ltb j 1); injection Hs as <- <-; (split; [|apply G; auto]).
      * apply Hgo; [|tauto]. auto.
      * destruct (Hch j (sns s t) s St) as [A B]. split; cbn; auto. rewrite upd_other; auto.
Qed.

Lemma stuck_run : forall ls s s' log, stuck s -> run (step n) s ls = Some (s', log) -> stuck s' /\ ~ In (Leave i) log.
Proof.
  induction ls as [|l ls IH]; intros s s' log H Hr; cbn [run] in Hr.
  - injection Hr as <- <-. auto.
  - destruct (step n s l) as [[s1 e1]|] eqn:E; [|discriminate]. destruct (run (step n) s1 ls) as [[s2 e2]|] eqn:E2; [|discriminate]. injection Hr as <- <-.
    destruct (stuck_step _ _ _ _ H E) as [A B]. destruct (IH _ _ _ A E2) as [A2 B2]. split; auto. rewrite in_app_iff. tauto.
Qed.

Lemma all_enter : forall m, m <= n -> exists ls s log, run (step n) (init n) ls = Some (s, log) /\ tid s = N.of_nat m /\
  (forall t, m <= t -> thr s t = Unsub) /\ (forall t, t < m -> enters t log = 1) /\ (forall t, leaves t log = 0).
Proof.
  induction m as [|m IH]; intros Hm.
  - exists [], (init n), []. cbn. repeat split; auto. intros; lia.
  - destruct IH as [ls [s [log [Hr [H1 [H2 [H3 H4]]]]]]]; [lia|].
    assert (Hb : negb (Nat.ltb m n) = false) by (destruct (Nat.ltb_spec m n); auto; lia).
    assert (E1 : step n s (m, ASub) = Some (mk (w32 (tid s + 1)) (nr s) (dummy s) (psense s) (upd (sns s) m true) (upd (thr s) m Out), [])).
    { unfold step. rewrite Hb, H2 by auto. rewrite H1, N.eqb_refl. auto. }
    match type of E1 with _ = Some (?x, _) => set (s1 := x) in * end.
    assert (E2 : step n s1 (m, AEnter) = Some (go s1 m (C 0), [Enter m])).
    { unfold step. rewrite Hb. unfold s1. cbn [thr]. rewrite upd_same. auto. }
    assert (Hr2 : run (step n) (init n) (ls ++ [(m, ASub); (m, AEnter)]) = Some (go s1 m (C 0), log ++ [Enter m])).
    { eapply run_app; [exact Hr|]. eapply (run_cons (step n) s (m, ASub) s1 []); [exact E1|]. apply run_last. exact E2. }
    exists (ls ++ [(m, ASub); (m, AEnter)]), (go s1 m (C 0)), (log ++ [Enter m]). split; [exact Hr2|]. split; [|split; [|split]].
    + cbn. rewrite H1. unfold w32. change (2 ^ 32)%N with 4294967296%N. change (2 ^ 30)%N with 1073741824%N in Hn. rewrite N.mod_small; lia.
    + intros t Ht. cbn. unfold upd. destruct (Nat.eq_dec t m); [lia|]. apply H2. lia.
    + intros t Ht. rewrite enters_app. cbn. destruct (Nat.eqb_spec m t).
      * subst. destruct (Nat.eq_dec (enters t log) 0); [lia|]. exfalso.
        assert (G : forall ls0 s0 sx lx, run (step n) s0 ls0 = Some (sx, lx) -> thr sx t = Unsub -> enters t lx = 0).
        { induction ls0 as [|l ls0 IH0]; intros s0 sx lx Hrx Hu; cbn [run] in Hrx.
          - injection Hrx as <- <-. auto.
          - destruct (step n s0 l) as [[sa ea]|] eqn:Ea; [|discriminate]. destruct (run (step n) sa ls0) as [[sb eb]|] eqn:Eb; [|discriminate]. injection Hrx as <- <-.
            rewrite enters_app, (IH0 _ _ _ Eb Hu).
            assert (Hk : forall ls1 s2 s3 l3, run (step n) s2 ls1 = Some (s3, l3) -> thr s2 t <> Unsub -> thr s3 t <> Unsub).
            { induction ls1 as [|l1 ls1 IH1]; intros s2 s3 l3 Hr3 Hn3; cbn [run] in Hr3; [injection Hr3 as <- <-; auto|].
              destruct (step n s2 l1) as [[sc ec]|] eqn:Ec; [|discriminate]. destruct (run (step n) sc ls1) as [[sd ed]|] eqn:Ed; [|discriminate]. injection Hr3 as <- <-.
              apply (IH1 _ _ _ Ed). clear -Ec Hn3. destruct l1 as [v b]. unfold step in Ec. destruct (negb _); [discriminate|].
              assert (Hst : forall d x, thr (store s2 d x) = thr s2) by (intros [] x; reflexivity).
              destruct (thr s2 v) eqn:Ev; destruct b; try discriminate; repeat match goal with H : context [if ?c then _ else _] |- _ => destruct c end; try discriminate;
              injection Ec as <- <-; cbn [thr go setnr]; rewrite ?Hst; auto; unfold upd; try (destruct (Nat.eq_dec t v); [discriminate|auto]). }
            destruct l as [v b]. unfold step in Ea. destruct (negb (Nat.ltb v n)); [discriminate|].
            destruct (thr s0 v) eqn:Ev; destruct b; try discriminate; repeat match goal with H : context [if ?c then _ else _] |- _ => destruct c end; try discriminate; injection Ea as <- <-; cbn; auto.
            destruct (Nat.eqb_spec v t); auto. subst v. exfalso. apply (Hk _ _ _ _ Eb); auto. cbn. rewrite upd_same. discriminate. }
        apply n0. apply (G _ _ _ _ Hr). apply H2. lia.
      * rewrite H3 by lia. lia.
    + intros t. rewrite leaves_app, H4. auto.
Qed.

Lemma big_stuck : exists ls s log, run (step n) (init n) ls = Some (s, log) /\ (forall u, u < n -> 1 <= enters u log) /\ i < n /\ leaves i log < 1 /\
  forall ls' s' log', run (step n) s ls' = Some (s', log') -> ~ In (Leave i) log'.
Proof.
  destruct (all_enter n (le_n _)) as [ls [s [log [Hr [_ [_ [H3 H4]]]]]]]. exists ls, s, log. split; auto.
  split; [intros u Hu; rewrite H3 by auto; auto|]. split; [unfold i; change (2 ^ 30)%N with 1073741824%N in Hn; lia|]. split; [rewrite H4; auto|].
  intros ls' s' log' Hr'. apply (stuck_run ls' s s'); auto. apply (stuck_run ls (init n) s log); auto. apply stuck_init.
Qed.
End Big.
