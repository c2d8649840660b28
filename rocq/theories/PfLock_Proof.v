From Coq Require Import Arith List Bool ZArith Znumtheory Lia.
From Verif Require Import Lib LockSpec LockProg RwFairSpec PfLock_Model.
Import ListNotations.
Local Open Scope Z_scope.
Local Arguments Z.modulo : simpl never.
Local Arguments Z.mul : simpl never.
Local Arguments Z.pow : simpl never.
Local Arguments Z.land : simpl never.
Local Arguments Z.lor : simpl never.
Local Arguments upd : simpl never.

Definition W : Z := 2 ^ 32.
Lemma W_val : W = 4294967296. Proof. reflexivity. Qed.

(** * Word arithmetic *)
Definition cur (k : Z) : Z := 2 + k mod 2.

Lemma cur_range : forall k, cur k = 2 \/ cur k = 3.
Proof. intros. unfold cur. pose proof (Z.mod_pos_bound k 2). lia. Qed.
Lemma cur_next : forall k, cur (k + 1) <> cur k.
Proof. intros. unfold cur. intros E. assert (H : (k + 1) mod 2 = k mod 2) by lia. rewrite (Z.div_mod k 2) in H at 1 by lia. 
  replace (2 * (k / 2) + k mod 2 + 1) with ((k mod 2 + 1) + (k / 2) * 2) in H by lia. rewrite Z.mod_add in H by lia.
  pose proof (Z.mod_pos_bound k 2 ltac:(lia)). assert (k mod 2 = 0 \/ k mod 2 = 1) as [G|G] by lia; rewrite G in H; discriminate. Qed.
Lemma cur_next2 : forall k, cur (k + 1 + 1) = cur k.
Proof. intros. unfold cur. replace (k + 1 + 1) with (k + 1 * 2) by lia. rewrite Z.mod_add; lia. Qed.

Lemma bits_of : forall N b, 0 <= b < 4 -> Z.land ((256 * N + b) mod W) WBITS = b.
Proof.
  intros. unfold WBITS. change 3 with (Z.ones 2). rewrite Z.land_ones by lia.
  rewrite <- Zmod_div_mod; [|lia|rewrite W_val; lia|exists (2 ^ 30); reflexivity].
  change (2 ^ 2) with 4. replace (256 * N + b) with (b + (64 * N) * 4) by lia. rewrite Z.mod_add, Z.mod_small; lia.
Qed.

Lemma clear_bits : forall N b, 0 <= b < 4 -> Z.land ((256 * N + b) mod W) LSB = (256 * N) mod W.
Proof.
  intros. set (M := N mod 2 ^ 24).
  assert (E1 : (256 * N + b) mod W = 256 * M + b).
  { unfold M. rewrite (Z.div_mod N (2 ^ 24)) at 1 by lia. replace (256 * (2 ^ 24 * (N / 2 ^ 24) + N mod 2 ^ 24) + b) with ((256 * (N mod 2 ^ 24) + b) + (N / 2 ^ 24) * W) by (rewrite W_val; lia).
    rewrite Z.mod_add by (rewrite W_val; lia). apply Z.mod_small. pose proof (Z.mod_pos_bound N (2 ^ 24) ltac:(lia)). rewrite W_val. lia. }
  assert (E2 : (256 * N) mod W = 256 * M).
  { unfold M. rewrite (Z.div_mod N (2 ^ 24)) at 1 by lia. replace (256 * (2 ^ 24 * (N / 2 ^ 24) + N mod 2 ^ 24)) with ((256 * (N mod 2 ^ 24)) + (N / 2 ^ 24) * W) by (rewrite W_val; lia).
    rewrite Z.mod_add by (rewrite W_val; lia). apply Z.mod_small. pose proof (Z.mod_pos_bound N (2 ^ 24) ltac:(lia)). rewrite W_val. lia. }
  rewrite E1, E2. pose proof (Z.mod_pos_bound N (2 ^ 24) ltac:(lia)) as B. fold M in B. clearbody M.
  change LSB with (Z.shiftl (Z.ones 28) 4).
  assert (land_shl : forall v m k, 0 <= k -> Z.land v (Z.shiftl m k) = Z.shiftl (Z.land (Z.shiftr v k) m) k).
  { intros v m k Hk. apply Z.bits_inj'. intros i Hi.
    rewrite Z.land_spec, !Z.shiftl_spec, Z.land_spec by lia.
    destruct (Z.lt_ge_cases i k).
    - rewrite !(Z.testbit_neg_r _ (i - k)) by lia. simpl. apply andb_false_r.
    - rewrite Z.shiftr_spec by lia. f_equal. f_equal. lia. }
  rewrite land_shl by lia. rewrite Z.shiftr_div_pow2, Z.shiftl_mul_pow2 by lia. change (2 ^ 4) with 16.
  replace (256 * M + b) with (b + (16 * M) * 16) by lia. rewrite Z.div_add, Z.div_small by lia.
  rewrite Z.land_ones, Z.mod_small by lia. lia.
Qed.

Lemma ph_of : forall k, Z.lor (Z.land (k mod W) PHID) PRES = cur k.
Proof.
  intros. unfold PHID, PRES, cur. change 1 with (Z.ones 1). rewrite Z.land_ones by lia.
  rewrite <- Zmod_div_mod; [|lia|rewrite W_val; lia|exists (2 ^ 31); reflexivity]. change (2 ^ 1) with 2.
  pose proof (Z.mod_pos_bound k 2 ltac:(lia)). assert (k mod 2 = 0 \/ k mod 2 = 1) as [G|G] by lia; rewrite G; reflexivity.
Qed.

Lemma add_mod : forall x d, add32 (x mod W) d = (x + d) mod W.
Proof. intros. unfold add32. fold W. rewrite Zplus_mod_idemp_l. auto. Qed.

Lemma mod_inj : forall a b, a <= b < a + W -> a mod W = b mod W -> a = b.
Proof.
  intros a b H E. pose proof W_val. assert (H1 : (b - a) mod W = 0). { rewrite Zminus_mod, E, Z.sub_diag. reflexivity. }
  rewrite Z.mod_small in H1; lia.
Qed.

Lemma mod256_inj : forall a b, a <= b < a + 2 ^ 24 -> (256 * a) mod W = (256 * b) mod W -> a = b.
Proof. intros. assert (256 * a = 256 * b); [|lia]. apply mod_inj; auto. rewrite W_val. lia. Qed.

Global Opaque cur.

(** * Invariant *)
Definition wpc (p : pc) : bool := match p with W1 _ | W2 _ | W3 _ | WCrit | WU => true | _ => false end.
Definition rdr (p : pc) : bool := match p with RWait _ | RCrit => true | _ => false end.
Definition new (c : Z) (p : pc) : bool := match p with RWait w => Z.eqb w c | _ => false end.

Definition hp (thr : nat -> pc) (Q : list nat) : option pc := option_map thr (hd_error Q).
Definition bits (h : option pc) (k : Z) : Z := match h with Some (W3 _) | Some WCrit => cur k | _ => 0 end.

Section P.
Variable n : nat.
Hypothesis Hn : Z.of_nat n < 2 ^ 24.

Definition qinv (thr : nat -> pc) (WO : Z) (Q : list nat) : Prop :=
  NoDup Q /\ (forall t, In t Q <-> wpc (thr t) = true) /\
  (forall i t, nth_error Q (S i) = Some t -> thr t = W1 ((WO + Z.of_nat (S i)) mod W)) /\
  (forall t tk, nth_error Q 0 = Some t -> thr t = W1 tk \/ thr t = W2 tk -> tk = WO mod W).

Definition ph (h : option pc) (NI NO WO : Z) (thr : nat -> pc) : Prop :=
  match h with
  | Some (W3 tk) => exists NIt, tk = (256 * NIt) mod W /\ NI - NIt = Z.of_nat (cnt (fun t => new (cur WO) (thr t)) n)
  | Some WCrit => forall t, rdr (thr t) = true -> thr t = RWait (cur WO)
  | Some WU => forall t w, thr t = RWait w -> w = cur WO
  | _ => forall t w, thr t = RWait w -> w = cur (WO + 1)
  end.

Definition ainv (a : pfst) (thr : nat -> pc) (Q : list nat) (WO : Z) : Prop :=
  (forall t, pf_h a = Some t <-> thr t = WCrit) /\
  pf_q a = (match hp thr Q with Some WCrit | Some WU => tl Q | _ => Q end) /\
  NoDup (pf_r a) /\ (forall t, In t (pf_r a) <-> thr t = RCrit) /\
  (forall t b, In (t, b) (pf_w a) -> exists w, thr t = RWait w) /\
  (forall t w, thr t = RWait w -> exists b, In (t, b) (pf_w a)) /\
  (forall tk t b, hp thr Q = Some (W3 tk) -> thr t = RWait (cur WO) -> In (t, b) (pf_w a) -> b = false).

Record R (s : state) (a : pfst) : Prop := mkR {
  g : exists NI NO WO Q,
    qinv (thr s) WO Q /\ ph (hp (thr s) Q) NI NO WO (thr s) /\ ainv a (thr s) Q WO /\
    win s = (WO + Z.of_nat (length Q)) mod W /\ wout s = WO mod W /\
    rout s = (256 * NO) mod W /\ rin s = (256 * NI + bits (hp (thr s) Q) WO) mod W /\
    NI - NO = Z.of_nat (cnt (fun t => rdr (thr s t)) n);
  i_ge : forall t, (n <= t)%nat -> thr s t = Idle }.

Lemma R_init : R init pf_init.
Proof.
  constructor; [|auto]. exists 0, 0, 0, []. cbn.
  assert (cnt (fun _ => false) n = O) by (apply cnt_all_false; auto). rewrite H.
  split; [|split; [|split; [|auto 10]]].
  - split; [constructor|]. split; [intros t; split; intros G; [destruct G|discriminate]|]. split; [intros i t G|intros t tk G]; discriminate.
  - intros; discriminate.
  - split; [split; discriminate|]. split; auto. split; [constructor|]. split; [intros t; split; intros G; [destruct G|discriminate]|].
    split; [intros ? ? []|]. split; intros; discriminate.
Qed.

(** Steps of a thread that is not a writer, to a non-writer pc. *)
Lemma hp_other : forall thr t p Q, ~ In t Q -> hp (upd thr t p) Q = hp thr Q.
Proof. intros. destruct Q as [|u Q]; auto. unfold hp; cbn. rewrite upd_other; auto. intros ->. apply H. simpl; auto. Qed.

Lemma qinv_other : forall thr t p Q WO, qinv thr WO Q -> wpc (thr t) = false -> wpc p = false -> qinv (upd thr t p) WO Q.
Proof.
  intros thr t p Q WO [H1 [H2 [H3 H4]]] E1 E2.
  assert (Hni : ~ In t Q) by (rewrite H2; congruence).
  split; auto. split; [|split].
  - intros u. upd_goal; [subst; rewrite E2; split; [contradiction|discriminate]|apply H2].
  - intros i u Hu. rewrite upd_other; auto. intros ->. apply Hni. eapply nth_error_In; eauto.
  - intros u tk Hu. rewrite upd_other; eauto. intros ->. apply Hni. eapply nth_error_In; eauto.
Qed.

Lemma Q_len : forall thr WO Q, qinv thr WO Q -> (forall t, (n <= t)%nat -> thr t = Idle) -> (length Q <= n)%nat.
Proof.
  intros thr WO Q [H1 [H2 _]] Hge. apply nodup_bound; auto.
  intros t Ht. apply H2 in Ht. destruct (Nat.lt_ge_cases t n); auto. rewrite Hge in Ht by auto. discriminate.
Qed.

Lemma new_lt : forall (thr : nat -> pc) c t, new c (thr t) = true -> rdr (thr t) = true.
Proof. intros. destruct (thr t); try discriminate; auto. Qed.

(** Reader steps: the queue, ticket counters and head pc are unchanged. *)
Lemma reader_frame : forall s t p rin' rout' a a' NI NO WO Q NI' NO',
  (t < n)%nat -> wpc (thr s t) = false -> wpc p = false ->
  qinv (thr s) WO Q -> win s = (WO + Z.of_nat (length Q)) mod W -> wout s = WO mod W ->
  (forall t, (n <= t)%nat -> thr s t = Idle) ->
  ph (hp (thr s) Q) NI' NO' WO (upd (thr s) t p) ->
  rout' = (256 * NO') mod W -> rin' = (256 * NI' + bits (hp (thr s) Q) WO) mod W ->
  NI' - NO' = NI - NO + (if rdr p then 1 else 0) - (if rdr (thr s t) then 1 else 0) ->
  NI - NO = Z.of_nat (cnt (fun t => rdr (thr s t)) n) ->
  pf_h a' = pf_h a -> pf_q a' = pf_q a ->
  (forall x, pf_h a = Some x <-> thr s x = WCrit) ->
  pf_q a = (match hp (thr s) Q with Some WCrit | Some WU => tl Q | _ => Q end) ->
  NoDup (pf_r a') -> (forall x, In x (pf_r a') <-> upd (thr s) t p x = RCrit) ->
  (forall x b, In (x, b) (pf_w a') -> exists w, upd (thr s) t p x = RWait w) ->
  (forall x w, upd (thr s) t p x = RWait w -> exists b, In (x, b) (pf_w a')) ->
  (forall tk x b, hp (thr s) Q = Some (W3 tk) -> upd (thr s) t p x = RWait (cur WO) -> In (x, b) (pf_w a') -> b = false) ->
  R (mk rin' rout' (win s) (wout s) (upd (thr s) t p)) a'.
Proof.
  intros s t p rin' rout' a a' NI NO WO Q NI' NO' Hlt E1 E2 Hq Hwi Hwo Hge Hph Hro Hri Hc Hc0 Hh Hqa A1 A2 B1 B2 B3 B4 B5.
  assert (Hni : ~ In t Q). { destruct Hq as [_ [H2 _]]. rewrite H2. congruence. }
  constructor; cbn.
  - exists NI', NO', WO, Q. rewrite hp_other by auto. split; [apply qinv_other; auto|]. split; [auto|]. split.
    + split; [|split; [|auto 6]].
      * intros x. rewrite Hh, A1. upd_goal; [subst|tauto]. split; intros G; [rewrite G in E1|rewrite G in E2]; discriminate.
      * rewrite hp_other by auto. congruence.
      * rewrite hp_other by auto. auto.
    + split; auto. split; auto. split; auto. split; auto. pose proof (cnt_upd _ rdr (thr s) n t p Hlt).
      destruct (rdr p), (rdr (thr s t)); lia.
  - intros u Hu. rewrite upd_other by lia. auto.
Qed.

Lemma in_head : forall thr WO Q t, qinv thr WO Q -> In t Q -> (forall tk, thr t <> W1 tk) -> exists Q', Q = t :: Q'.
Proof.
  intros th WO Q t [_ [_ [H3 _]]] Hin Hne. destruct (In_nth_error _ _ Hin) as [[|i] Hi].
  - destruct Q; [discriminate|]. injection Hi as ->. eauto.
  - destruct (Hne _ (H3 _ _ Hi)).
Qed.

Lemma R_ext : forall s s' a, R s a -> rin s' = rin s -> rout s' = rout s -> win s' = win s -> wout s' = wout s ->
  (forall u, thr s' u = thr s u) -> R s' a.
Proof.
  intros s s' a [[NI [NO [WO [Q [[Q1 [Q2 [Q3 Q4]]] [Hph [[A1 [A2 [A3 [A4 [A5 [A6 A7]]]]]] [Hwi [Hwo [Hro [Hri Hc]]]]]]]]]]] Hge] E1 E2 E3 E4 E.
  assert (Hhp : hp (thr s') Q = hp (thr s) Q) by (unfold hp; destruct Q; cbn; auto; rewrite E; auto).
  constructor; [|intros u Hu; rewrite E; auto].
  exists NI, NO, WO, Q. rewrite Hhp, E1, E2, E3, E4.
  split; [|split; [|split; [|split; [auto|split; [auto|split; [auto|split; [auto|]]]]]]].
  - split; auto. split; [|split].
    + intros u. rewrite E. auto.
    + intros i u. rewrite E. auto.
    + intros u tk. rewrite E. eauto.
  - unfold ph in *. destruct (hp (thr s) Q) as [[]|]; try (intros ? ?; rewrite E; solve [apply Hph]).
    + destruct Hph as [NIt [P1 P2]]. exists NIt. split; auto. rewrite P2. f_equal. apply cnt_ext. intros. rewrite E. auto.
    + intros u. rewrite E. apply Hph.
  - unfold ainv. rewrite Hhp. split; [|split; [auto|split; [auto|split; [|split; [|split]]]]].
    + intros u. rewrite E. auto.
    + intros u. rewrite E. auto.
    + intros u b. rewrite E. eauto.
    + intros u w. rewrite E. eauto.
    + intros tk u b Hh. rewrite E. eauto.
  - rewrite Hc. f_equal. apply cnt_ext. intros. rewrite E. auto.
Qed.

(** Steps of the head writer that keep it at the head. *)
Lemma writer_frame : forall s t p rin' a a' NI NO WO Q',
  (t < n)%nat -> wpc (thr s t) = true -> wpc p = true ->
  qinv (thr s) WO (t :: Q') -> win s = (WO + Z.of_nat (length (t :: Q'))) mod W -> wout s = WO mod W ->
  (forall t, (n <= t)%nat -> thr s t = Idle) ->
  (forall tk, p = W1 tk \/ p = W2 tk -> tk = WO mod W) ->
  ph (Some p) NI NO WO (upd (thr s) t p) ->
  rout s = (256 * NO) mod W -> rin' = (256 * NI + bits (Some p) WO) mod W ->
  NI - NO = Z.of_nat (cnt (fun t => rdr (thr s t)) n) ->
  (forall x, pf_h a' = Some x <-> upd (thr s) t p x = WCrit) ->
  pf_q a' = (match p with WCrit | WU => Q' | _ => t :: Q' end) ->
  pf_r a' = pf_r a -> NoDup (pf_r a) -> (forall x, In x (pf_r a) <-> thr s x = RCrit) ->
  (forall x b, In (x, b) (pf_w a') -> exists w, thr s x = RWait w) ->
  (forall x w, thr s x = RWait w -> exists b, In (x, b) (pf_w a')) ->
  (forall tk x b, p = W3 tk -> thr s x = RWait (cur WO) -> In (x, b) (pf_w a') -> b = false) ->
  R (mk rin' (rout s) (win s) (wout s) (upd (thr s) t p)) a'.
Proof.
  intros s t p rin' a a' NI NO WO Q' Hlt E1 E2 [Q1 [Q2 [Q3 Q4]]] Hwi Hwo Hge Hp Hph Hro Hri Hc A1 A2 Hr A3 A4 A5 A6 A7.
  assert (Hhp : hp (upd (thr s) t p) (t :: Q') = Some p) by (unfold hp; cbn; rewrite upd_same; auto).
  assert (Hnt : ~ In t Q') by (inversion Q1; auto).
  assert (Hrw : forall x w, upd (thr s) t p x = RWait w <-> thr s x = RWait w).
  { intros x w. upd_goal; [|tauto]. subst. split; intros G; [rewrite G in E2|rewrite G in E1]; discriminate. }
  constructor; cbn.
  - exists NI, NO, WO, (t :: Q'). rewrite Hhp. split; [|split; [auto|split; [|split; [auto|split; [auto|split; [auto|split; [auto|]]]]]]].
    + split; auto. split; [|split].
      * intros u. upd_goal; [subst; rewrite E2; simpl; tauto|apply Q2].
      * intros i u Hu. rewrite upd_other; auto. intros ->. apply Hnt. eapply nth_error_In; eauto.
      * intros u tk Hu. injection Hu as <-. rewrite upd_same. apply Hp.
    + split; auto. rewrite Hhp. split; [rewrite A2; destruct p; reflexivity|]. rewrite Hr. split; auto. split; [|split; [|split]].
      * intros x. rewrite A4. upd_goal; [|tauto]. subst. split; intros G; [rewrite G in E1|rewrite G in E2]; discriminate.
      * intros x b Hx. destruct (A5 _ _ Hx) as [w ?]. exists w. apply Hrw. auto.
      * intros x w. rewrite Hrw. apply A6.
      * intros tk x b Hh. rewrite Hrw. apply (A7 tk). congruence.
    + rewrite Hc. f_equal. apply cnt_ext. intros u _. upd_goal; auto. subst. destruct p, (thr s t); try discriminate; reflexivity.
  - intros u Hu. rewrite upd_other by lia. auto.
Qed.

Lemma R_step : forall s a l s' ev, R s a -> step n s l = Some (s', ev) ->
  exists a', accepts pf_step a ev = Some a' /\ R s' a'.
Proof.
  intros s a [t x] s' ev HR H. assert (HR' := HR). destruct HR' as [[NI [NO [WO [Q [Hq [Hph [HA [Hwi [Hwo [Hro [Hri Hc]]]]]]]]]]] Hge]. unfold step in H.
  destruct (Nat.ltb t n) eqn:Hlt; [|discriminate]. apply Nat.ltb_lt in Hlt. cbn [negb] in H.
  destruct HA as [A1 [A2 [A3 [A4 [A5 [A6 A7]]]]]].
  pose proof (Q_len _ _ _ Hq Hge) as Hlen.
  assert (Hb : 0 <= bits (hp (thr s) Q) WO < 4).
  { unfold bits. pose proof (cur_range WO). destruct (hp (thr s) Q) as [[]|]; lia. }
  assert (Hbits : Z.land (rin s) WBITS = bits (hp (thr s) Q) WO) by (rewrite Hri; apply bits_of; auto).
  assert (Hqi := Hq). destruct Hqi as [Q1 [Q2 [Q3 Q4]]].
  (* a writer step that keeps its place, tickets and readers *)
  unfold go in H. cbv zeta in H.
  destruct (thr s t) eqn:Et; destruct x; try discriminate.
  - (* AWLock *)
    injection H as <- <-. eexists. split; [reflexivity|].
    assert (Hni : ~ In t Q) by (rewrite Q2, Et; discriminate).
    assert (Hhp : forall X : Type, forall (f : pc -> X) (d : X), (forall tk, f (W1 tk) = d) ->
        match hp (upd (thr s) t (W1 (win s))) (Q ++ [t]) with Some p => f p | None => d end = match hp (thr s) Q with Some p => f p | None => d end).
    { intros X f d Hf. destruct Q as [|u Q']; unfold hp; cbn.
      - rewrite upd_same. auto.
      - rewrite upd_other; auto. intros ->. apply Hni. simpl; auto. }
    constructor; cbn; [|intros u Hu; rewrite upd_other by lia; auto].
    exists NI, NO, WO, (Q ++ [t]).
    split; [|split; [|split; [|split; [|split; [|split; [|split]]]]]].
    + split; [apply nodup_snoc; auto|]. split; [|split].
      * intros u. rewrite in_app_iff. upd_goal; [subst; simpl; tauto|]. rewrite <- Q2. simpl. split; [intros [?|[?|[]]]; auto; congruence|auto].
      * intros i u Hu. destruct (Nat.lt_ge_cases (S i) (length Q)).
        -- rewrite nth_error_app1 in Hu by auto. rewrite upd_other; eauto. intros ->. apply Hni. eapply nth_error_In; eauto.
        -- rewrite nth_error_app2 in Hu by auto. destruct (S i - length Q)%nat as [|j] eqn:Ej; [|destruct j; discriminate].
           injection Hu as <-. rewrite upd_same, Hwi. replace (S i) with (length Q) by lia. auto.
      * intros u tk Hu. destruct Q as [|v Q'].
        -- injection Hu as <-. rewrite upd_same, Hwi. intros [G|G]; [|discriminate]. injection G as <-. f_equal. cbn. lia.
        -- injection Hu as <-. rewrite upd_other; [apply Q4; auto|]. intros ->. apply Hni. simpl; auto.
    + assert (Hthr : forall u w, upd (thr s) t (W1 (win s)) u = RWait w <-> thr s u = RWait w).
      { intros u w. upd_goal; [subst; split; congruence|tauto]. }
      assert (Hrd : forall u, rdr (upd (thr s) t (W1 (win s)) u) = rdr (thr s u)).
      { intros u. upd_goal; [subst; rewrite Et; auto|auto]. }
      assert (Hnew : forall c u, new c (upd (thr s) t (W1 (win s)) u) = new c (thr s u)).
      { intros c u. upd_goal; [subst; rewrite Et; auto|auto]. }
      assert (Hsame : ph (hp (thr s) Q) NI NO WO (upd (thr s) t (W1 (win s)))).
      { unfold ph in *. destruct (hp (thr s) Q) as [[]|]; try (intros ? ?; rewrite Hthr; solve [apply Hph]).
        - destruct Hph as [NIt [P1 P2]]. exists NIt. split; auto. rewrite P2. f_equal. apply cnt_ext. intros. rewrite Hnew. auto.
        - intros u. rewrite Hrd, Hthr. apply Hph. }
      destruct Q as [|v0 Q']; unfold hp in *; cbn in *.
      * rewrite upd_same. exact Hsame.
      * rewrite upd_other by (intros ->; apply Hni; auto). exact Hsame.
    + split; [|split; [|split; [|split; [|split; [|split]]]]]; cbn.
      * intros u. rewrite A1. upd_goal; [subst; split; congruence|tauto].
      * rewrite A2. destruct Q as [|u Q']; unfold hp; cbn.
        -- rewrite upd_same. reflexivity.
        -- rewrite upd_other by (intros ->; apply Hni; simpl; auto). destruct (thr s u); reflexivity.
      * auto.
      * intros u. rewrite A4. upd_goal; [subst; split; congruence|tauto].
      * intros u b Hu. destruct (A5 _ _ Hu) as [w Hw]. exists w. rewrite upd_other; auto. intros ->. congruence.
      * intros u w. upd_goal; [discriminate|]. apply A6.
      * intros tk u b Hh Hu. assert (Hu' : thr s u = RWait (cur WO)) by (revert Hu; upd_goal; [discriminate|auto]).
        intros Hin. apply (A7 tk u b); auto. destruct Q as [|v Q']; unfold hp in *; cbn in *.
        -- rewrite upd_same in Hh. discriminate.
        -- rewrite upd_other in Hh by (intros ->; apply Hni; simpl; auto). auto.
    + rewrite Hwi, add_mod. f_equal. rewrite app_length. cbn. lia.
    + auto.
    + auto.
    + rewrite Hri. f_equal. f_equal. destruct Q as [|u Q']; unfold hp; cbn.
      * rewrite upd_same. reflexivity.
      * rewrite upd_other by (intros ->; apply Hni; simpl; auto). reflexivity.
    + rewrite Hc. f_equal. apply cnt_ext. intros u _. upd_goal; [subst; rewrite Et; auto|auto].
  - (* ARLock *)
    rewrite Hbits in H. destruct (Z.eqb_spec (bits (hp (thr s) Q) WO) 0) as [Eb|Eb]; injection H as <- <-.
    + (* enters at once *)
      assert (Hnh : pf_h a = None).
      { destruct (pf_h a) as [u|] eqn:Eh; auto. assert (Hu : thr s u = WCrit) by (apply A1; auto).
        destruct (in_head _ _ _ u Hq) as [Q' ->]; [apply Q2; rewrite Hu; auto|intros; rewrite Hu; discriminate|].
        unfold hp, bits in Eb. cbn in Eb. rewrite Hu in Eb. pose proof (cur_range WO). lia. }
      assert (Hnw : forall b, ~ In (t, b) (pf_w a)). { intros b Hb'. destruct (A5 _ _ Hb'); congruence. }
      eexists. split.
      { cbn. rewrite Hnh. cbn. rewrite Nat.eqb_refl. cbn. reflexivity. }
      assert (Hfil : filter (fun x => negb (Nat.eqb t (fst x))) (pf_w a) = pf_w a).
      { revert Hnw. generalize (pf_w a). induction l as [|[u b] l IH]; intros Hnw; auto. cbn.
        destruct (Nat.eqb_spec t u); [subst; destruct (Hnw b); simpl; auto|]. cbn. rewrite IH; auto.
        intros b' Hb'. apply (Hnw b'). simpl; auto. }
      eapply (reader_frame s t RCrit _ _ a _ NI NO WO Q (NI + 1) NO); cbn; auto; try (rewrite Et; cbn; auto; lia).
      * unfold ph, bits in *. pose proof (cur_range WO). destruct (hp (thr s) Q) as [[]|]; try lia; intros ? ?; upd_goal; try discriminate; apply Hph.
      * rewrite Hri, add_mod. f_equal. unfold RINC. lia.
      * constructor; auto. rewrite A4, Et. discriminate.
      * intros u. upd_goal; [subst; split; auto|]. rewrite <- A4. split; [intros [?|?]; congruence|auto].
      * rewrite Hfil. intros u b Hu. destruct (A5 _ _ Hu) as [w Hw]. exists w. rewrite upd_other; auto. congruence.
      * rewrite Hfil. intros u w. upd_goal; [discriminate|]. apply A6.
      * intros tk u b Hh. unfold bits in Eb. rewrite Hh in Eb. pose proof (cur_range WO). lia.
    + (* waits *)
      eexists. split; [reflexivity|].
      assert (Ec : bits (hp (thr s) Q) WO = cur WO) by (unfold bits in *; destruct (hp (thr s) Q) as [[]|]; auto; contradiction).
      rewrite Ec in *.
      eapply (reader_frame s t (RWait (cur WO)) _ _ a _ NI NO WO Q (NI + 1) NO); cbn; auto; try (rewrite Et; cbn; auto; lia).
      * unfold ph, bits in *. pose proof (cur_range WO); destruct (hp (thr s) Q) as [[]|]; try (exfalso; lia).
        -- destruct Hph as [NIt [P1 P2]]. exists NIt. split; auto. pose proof (cnt_upd _ (new (cur WO)) (thr s) n t (RWait (cur WO)) Hlt) as C.
           rewrite Et in C. cbn in C. rewrite Z.eqb_refl in C. lia.
        -- intros u. upd_goal; auto.
      * rewrite Hri, add_mod, Ec. f_equal. unfold RINC. lia.
      * intros u. rewrite A4. upd_goal; [subst; split; congruence|tauto].
      * intros u b [G|G]; [injection G as <- <-; rewrite upd_same; eauto|]. destruct (A5 _ _ G) as [w Hw]. exists w. rewrite upd_other; auto. congruence.
      * intros u w. upd_goal; [subst; eauto|]. intros G. destruct (A6 _ _ G) as [b ?]. eauto.
      * intros tk u b Hh Hu [G|G].
        -- injection G as <- <-. destruct (pf_h a) as [v|] eqn:Eh; auto. assert (Hv : thr s v = WCrit) by (apply A1; auto).
           destruct (in_head _ _ _ v Hq) as [Q' ->]; [apply Q2; rewrite Hv; auto|intros; rewrite Hv; discriminate|].
           unfold hp in Hh. cbn in Hh. congruence.
        -- destruct (A5 _ _ G) as [w Hw]. apply (A7 tk u b); auto. rewrite upd_other in Hu; auto. congruence.
  - (* W1 *)
    destruct (Z.eqb_spec (wout s) tk) as [Ek|Ek]; injection H as <- <-.
    + assert (Hin : In t Q) by (apply Q2; rewrite Et; auto).
      destruct (In_nth_error _ _ Hin) as [i Hi].
      assert (i = O).
      { destruct i as [|i]; auto. pose proof (Q3 _ _ Hi) as G. rewrite Et in G. injection G as ->. rewrite Hwo in Ek.
        assert (S i < length Q)%nat by (apply nth_error_Some; congruence).
        apply mod_inj in Ek; [lia|]. rewrite W_val. lia. }
      subst i. destruct Q as [|u Q']; [discriminate|]. injection Hi as ->.
      exists a. split; [reflexivity|].
      unfold hp in *. cbn in *. rewrite Et in *.
      eapply (writer_frame s t (W2 tk) _ a a NI NO WO Q'); cbn; auto; try (rewrite Et; auto).
      * intros k [G|G]; [discriminate|]. injection G as <-. congruence.
      * unfold ph in *. intros u w. upd_goal; [discriminate|]. apply Hph.
      * intros u. rewrite A1. upd_goal; [subst; split; congruence|tauto].
      * discriminate.
    + exists a. split; [reflexivity|]. apply (R_ext s); auto. intros u. cbn. upd_goal; congruence.
  - (* W2 *)
    assert (Hin : In t Q) by (apply Q2; rewrite Et; auto).
    destruct (in_head _ _ _ t Hq Hin) as [Q' ->]; [rewrite Et; discriminate|].
    pose proof (Q4 t tk eq_refl (or_intror Et)) as Htk.
    injection H as <- <-. exists a. split; [reflexivity|].
    unfold hp in *. cbn in *. rewrite Et in *. cbn in *.
    eapply (writer_frame s t (W3 (rin s)) _ a a NI NO WO Q'); cbn; auto; try (rewrite Et; auto).
    + intros k [G|G]; discriminate.
    + exists NI. rewrite Hri, Z.add_0_r. split; auto. rewrite cnt_all_false; [lia|].
      intros u _. upd_goal; auto. destruct (thr s u) eqn:Eu; auto. cbn. apply Z.eqb_neq. rewrite (Hph _ _ Eu). apply cur_next.
    + rewrite Hri, Htk, ph_of, add_mod. f_equal. lia.
    + intros u. rewrite A1. upd_goal; [subst; split; congruence|tauto].
    + intros k u b _ Hu. exfalso. apply (cur_next WO). symmetry. apply (Hph _ _ Hu).
  - (* W3 *)
    assert (Hin : In t Q) by (apply Q2; rewrite Et; auto).
    destruct (in_head _ _ _ t Hq Hin) as [Q' ->]; [rewrite Et; discriminate|].
    unfold hp in *. cbn in *. rewrite Et in *. cbn in *.
    destruct (Z.eqb_spec (rout s) tk) as [Ek|Ek]; injection H as <- <-.
    + destruct Hph as [NIt [P1 P2]].
      assert (Hle : (cnt (fun x => new (cur WO) (thr s x)) n <= cnt (fun x => rdr (thr s x)) n)%nat).
      { apply cnt_mono. intros u _. apply new_lt. }
      pose proof (cnt_le (fun x => rdr (thr s x)) n) as Hle2.
      assert (NO = NIt). { apply mod256_inj; [lia|congruence]. }
      assert (Hall : forall u, rdr (thr s u) = true -> thr s u = RWait (cur WO)).
      { intros u Hu. assert (Hun : (u < n)%nat). { destruct (Nat.lt_ge_cases u n); auto. rewrite Hge in Hu by auto. discriminate. }
        assert (H1 : new (cur WO) (thr s u) = true).
        { destruct (new (cur WO) (thr s u)) eqn:Eu; auto. exfalso.
          assert (cnt (fun x => rdr (thr s x)) n = cnt (fun x => new (cur WO) (thr s x)) n) by lia.
          assert (cnt (fun x => rdr (thr s x)) n > cnt (fun x => new (cur WO) (thr s x)) n)%nat; [|lia].
          assert (C := cnt_change (fun x => new (cur WO) (thr s x)) (fun x => if Nat.eq_dec x u then true else new (cur WO) (thr s x)) n u Hun).
          cbn in C. rewrite Eu in C. destruct (Nat.eq_dec u u); [|contradiction].
          assert (C' : (cnt (fun x => if Nat.eq_dec x u then true else new (cur WO) (thr s x)) n <= cnt (fun x => rdr (thr s x)) n)%nat).
          { apply cnt_mono. intros v _. destruct (Nat.eq_dec v u); [subst; auto|apply new_lt]. }
          assert (C2 : forall v, v <> u -> new (cur WO) (thr s v) = (if Nat.eq_dec v u then true else new (cur WO) (thr s v))) by (intros v Hv; destruct (Nat.eq_dec v u); [contradiction|auto]). specialize (C C2). lia. }
        destruct (thr s u); try discriminate. cbn in H1. apply Z.eqb_eq in H1. congruence. }
      assert (Hr0 : pf_r a = []).
      { destruct (pf_r a) as [|u r] eqn:Er; auto. assert (Hu : thr s u = RCrit) by (apply A4; simpl; auto).
        pose proof (Hall u). rewrite Hu in H0. discriminate (H0 eq_refl). }
      assert (Hh0 : pf_h a = None).
      { destruct (pf_h a) as [u|] eqn:Eh; auto. assert (Hu : thr s u = WCrit) by (apply A1; auto).
        destruct (in_head _ _ _ u Hq) as [Q'' E]; [apply Q2; rewrite Hu; auto|intros; rewrite Hu; discriminate|].
        injection E as -> _. congruence. }
      assert (Hw0 : forallb (fun x => negb (snd x)) (pf_w a) = true).
      { apply forallb_forall. intros [u b] Hu. cbn. destruct (A5 _ _ Hu) as [w Hw].
        rewrite (A7 tk u b); auto. apply Hall. rewrite Hw. auto. }
      eexists. split. { cbn. rewrite Hh0, A2, Hr0, Nat.eqb_refl, Hw0. cbn. reflexivity. }
      eapply (writer_frame s t WCrit _ a _ NI NO WO Q'); cbn; auto; try (rewrite Et; auto).
      * intros k [G|G]; discriminate.
      * intros u. upd_goal; [discriminate|]. apply Hall.
      * intros u. upd_goal; [subst; split; auto|]. rewrite <- A1, Hh0. split; [congruence|discriminate].
      * intros u b Hu. apply in_map_iff in Hu. destruct Hu as [[v b'] [G Hv]]. injection G as <- <-. eapply A5; eauto.
      * intros u w Hu. destruct (A6 _ _ Hu) as [b Hb']. exists true. apply in_map_iff. exists (u, b). auto.
      * discriminate.
    + exists a. split; [reflexivity|]. apply (R_ext s); auto. intros u. cbn. upd_goal; congruence.
  - (* unlock 1 *)
    assert (Hin : In t Q) by (apply Q2; rewrite Et; auto).
    destruct (in_head _ _ _ t Hq Hin) as [Q' ->]; [rewrite Et; discriminate|].
    injection H as <- <-. assert (Hh : pf_h a = Some t) by (apply A1; auto).
    eexists. split. { cbn. rewrite Hh, Nat.eqb_refl. reflexivity. }
    unfold hp in *. cbn in *. rewrite Et in *. cbn in *.
    eapply (writer_frame s t WU _ a _ NI NO WO Q'); cbn; auto; try (rewrite Et; auto).
    + intros k [G|G]; discriminate.
    + intros u w. upd_goal; [discriminate|]. intros Hu. pose proof (Hph u). rewrite Hu in H. specialize (H eq_refl). congruence.
    + rewrite Hri, clear_bits by auto. f_equal. lia.
    + intros u. split; [discriminate|]. upd_goal; [discriminate|]. rewrite <- A1, Hh. congruence.
    + discriminate.
  - (* unlock 2 *)
    assert (Hin : In t Q) by (apply Q2; rewrite Et; auto).
    destruct (in_head _ _ _ t Hq Hin) as [Q' ->]; [rewrite Et; discriminate|].
    injection H as <- <-. exists a. split; [reflexivity|].
    assert (Hnt : ~ In t Q') by (inversion Q1; auto).
    unfold hp in Hph, Hri, A2, A7, Hb, Hbits. cbn in Hph, Hri, A2, A7. rewrite Et in *. cbn in Hph, Hri, A2, A7.
    assert (Hhp : hp (upd (thr s) t Idle) Q' = None \/ exists tk, hp (upd (thr s) t Idle) Q' = Some (W1 tk)).
    { destruct Q' as [|u Q'']; [auto|]. right. unfold hp. cbn. rewrite upd_other by (intros ->; apply Hnt; simpl; auto).
      rewrite (Q3 O u eq_refl). eauto. }
    assert (Hbz : bits (hp (upd (thr s) t Idle) Q') (WO + 1) = 0) by (destruct Hhp as [->|[k ->]]; reflexivity).
    constructor; cbn; [|intros u Hu; rewrite upd_other by lia; auto].
    exists NI, NO, (WO + 1), Q'. rewrite Hbz.
    split; [|split; [|split; [|split; [|split; [|split; [|split]]]]]].
    + split; [inversion Q1; auto|]. split; [|split].
      * intros u. upd_goal; [subst; split; [contradiction|discriminate]|]. rewrite <- Q2. simpl. split; [auto|intros [?|?]; congruence].
      * intros i u Hu. rewrite upd_other by (intros ->; apply Hnt; eapply nth_error_In; eauto).
        rewrite (Q3 (S i) u Hu). f_equal. f_equal. lia.
      * intros u k Hu. rewrite upd_other by (intros ->; apply Hnt; eapply nth_error_In; eauto).
        rewrite (Q3 O u Hu). intros [G|G]; [|discriminate]. injection G as <-. reflexivity.
    + assert (G : forall u w, upd (thr s) t Idle u = RWait w -> w = cur (WO + 1 + 1)).
      { intros u w. upd_goal; [discriminate|]. rewrite cur_next2. apply Hph. }
      destruct Hhp as [->|[k ->]]; exact G.
    + split; [|split; [|split; [|split; [|split; [|split]]]]].
      * intros u. rewrite A1. upd_goal; [subst; split; congruence|tauto].
      * rewrite A2. destruct Hhp as [->|[k ->]]; reflexivity.
      * auto.
      * intros u. rewrite A4. upd_goal; [subst; split; congruence|tauto].
      * intros u b Hu. destruct (A5 _ _ Hu) as [w Hw]. exists w. rewrite upd_other; auto. congruence.
      * intros u w. upd_goal; [discriminate|]. apply A6.
      * intros k u b Hk. destruct Hhp as [G|[k' G]]; rewrite G in Hk; discriminate.
    + rewrite Hwi. f_equal. cbn [length]. lia.
    + rewrite Hwo, add_mod. auto.
    + auto.
    + rewrite Hri. auto.
    + rewrite Hc. f_equal. apply cnt_ext. intros u _. upd_goal; [subst; rewrite Et; auto|auto].
  - (* RWait *)
    rewrite Hbits in H. destruct (Z.eqb_spec (bits (hp (thr s) Q) WO) w) as [Eb|Eb]; injection H as <- <-.
    + exists a. split; [reflexivity|]. apply (R_ext s); auto. intros u. cbn. upd_goal; congruence.
    + assert (Hnh : pf_h a = None).
      { destruct (pf_h a) as [u|] eqn:Eh; auto. assert (Hu : thr s u = WCrit) by (apply A1; auto).
        destruct (in_head _ _ _ u Hq) as [Q' ->]; [apply Q2; rewrite Hu; auto|intros; rewrite Hu; discriminate|].
        unfold hp, bits in Eb. cbn in Eb. rewrite Hu in Eb. unfold hp in Hph. cbn in Hph. rewrite Hu in Hph. cbn in Hph.
        pose proof (Hph t). rewrite Et in H. specialize (H eq_refl). congruence. }
      assert (Hex : existsb (fun x => Nat.eqb t (fst x)) (pf_w a) = true).
      { destruct (A6 _ _ Et) as [b Hb']. apply existsb_exists. exists (t, b). split; auto. cbn. apply Nat.eqb_refl. }
      eexists. split. { cbn. rewrite Hnh, Hex. reflexivity. }
      assert (Hne : forall u, upd (thr s) t RCrit u = RCrit <-> u = t \/ thr s u = RCrit).
      { intros u. upd_goal; [subst; tauto|]. split; [auto|intros [?|?]; congruence]. }
      eapply (reader_frame s t RCrit _ _ a _ NI NO WO Q NI NO); cbn; auto; try (rewrite Et; cbn; auto; lia).
      * unfold ph in *. destruct (hp (thr s) Q) as [[]|] eqn:Eh; try (intros ? ?; upd_goal; [discriminate|]; solve [apply Hph]).
        -- destruct Hph as [NIt [P1 P2]]. exists NIt. split; auto. rewrite P2. f_equal. apply cnt_ext. intros u _.
           upd_goal; auto. subst. rewrite Et. cbn. apply Z.eqb_neq. cbn in Eb. congruence.
        -- exfalso. pose proof (Hph t). rewrite Et in H. specialize (H eq_refl). cbn in Eb. congruence.
      * constructor; auto. rewrite A4, Et. discriminate.
      * intros u. rewrite Hne. rewrite A4. split; intros [?|?]; auto.
      * intros u b Hu. apply filter_In in Hu. destruct Hu as [Hu Hu']. cbn in Hu'. destruct (A5 _ _ Hu) as [v Hv]. exists v. rewrite upd_other; auto.
        intros ->. rewrite Nat.eqb_refl in Hu'. discriminate.
      * intros u v. upd_goal; [discriminate|]. intros Hu. destruct (A6 _ _ Hu) as [b Hb']. exists b. apply filter_In. split; auto.
        cbn. apply negb_true_iff, Nat.eqb_neq. auto.
      * intros k u b Hk Hu Hin. apply filter_In in Hin. destruct Hin as [Hin Hx]. cbn in Hx. apply (A7 k u b); auto.
        rewrite upd_other in Hu; auto. intros ->. rewrite Nat.eqb_refl in Hx. discriminate.
  - (* runlock *)
    injection H as <- <-.
    assert (Hin : In t (pf_r a)) by (apply A4; auto).
    destruct (remove1_in _ _ Hin) as [r Hr].
    eexists. split. { cbn. rewrite Hr. reflexivity. }
    destruct (remove1_nodup _ _ _ Hr A3) as [N1 N2].
    eapply (reader_frame s t Idle _ _ a _ NI NO WO Q NI (NO + 1)); cbn; auto; try (rewrite Et; cbn; auto; lia).
    + unfold ph in *. destruct (hp (thr s) Q) as [[]|] eqn:Eh; try (intros ? ?; upd_goal; [discriminate|]; solve [apply Hph]).
      * destruct Hph as [NIt [P1 P2]]. exists NIt. split; auto. rewrite P2. f_equal. apply cnt_ext. intros u _.
        upd_goal; auto. subst. rewrite Et. auto.
      * intros u. upd_goal; [discriminate|]. apply Hph.
    + rewrite Hro, add_mod. f_equal. unfold RINC. lia.
    + intros u. rewrite N2, A4. upd_goal; [subst; split; [tauto|discriminate]|]. tauto.
    + intros u b Hu. destruct (A5 _ _ Hu) as [v Hv]. exists v. rewrite upd_other; auto. congruence.
    + intros u v. upd_goal; [discriminate|]. apply A6.
    + intros k u b Hk. upd_goal; [discriminate|]. eauto.
Qed.

Lemma pf_refines : forall ls s log, run (step n) init ls = Some (s, log) -> pf_legal log.
Proof.
  intros ls s log H. destruct (sim_run _ _ _ _ (step n) pf_step R R_step _ _ _ _ _ R_init H) as [a [Ha _]].
  exists a. auto.
Qed.

Lemma pf_reach : forall s, reachable (step n) init s -> exists a, R s a.
Proof.
  intros s [ls [log H]]. destruct (sim_run _ _ _ _ (step n) pf_step R R_step _ _ _ _ _ R_init H) as [a [_ Ha]].
  exists a. auto.
Qed.

(** * Progress *)
Definition wt (c : Z) (p : pc) : nat := match p with RCrit => 1 | RWait w => if Z.eqb w c then 0 else 2 | _ => 0 end.

Lemma in_n : forall s a t, R s a -> thr s t <> Idle -> (t < n)%nat.
Proof. intros s a t HR H. destruct (Nat.lt_ge_cases t n); auto. destruct H. apply (i_ge _ _ HR). auto. Qed.
Lemma ltb_n : forall t, (t < n)%nat -> negb (Nat.ltb t n) = false.
Proof. intros; apply negb_false_iff, Nat.ltb_lt; auto. Qed.

Lemma wait_bits : forall s a t w, R s a -> thr s t = RWait w -> Z.land (rin s) WBITS = w ->
  exists h, thr s h = WCrit \/ exists tk, thr s h = W3 tk.
Proof.
  intros s a t w [[NI [NO [WO [Q [Hq [Hph [_ [_ [_ [_ [Hri _]]]]]]]]]]] _] Ht Hw.
  pose proof (cur_range WO). pose proof (cur_range (WO + 1)). rewrite Hri, bits_of in Hw by (unfold bits; destruct (hp (thr s) Q) as [[]|]; lia).
  destruct Q as [|h Q]; cbn in Hph, Hw.
  - pose proof (Hph _ _ Ht). lia.
  - exists h. unfold hp in *. cbn in *. destruct (thr s h) eqn:Eh; cbn in *; eauto; pose proof (Hph _ _ Ht); lia.
Qed.

Lemma drain : forall s0 a0 t tk, R s0 a0 -> thr s0 t = W3 tk ->
  exists ls s1 log a1, run (step n) s0 ls = Some (s1, log) /\ R s1 a1 /\ In (PWAcq t) log /\
    pf_q a1 = tl (pf_q a0) /\ thr s1 t = WCrit /\ Z.land (rin s1) WBITS = Z.land (rin s0) WBITS /\
    (forall u, thr s0 u = RWait (Z.land (rin s0) WBITS) -> thr s1 u = RWait (Z.land (rin s0) WBITS)).
Proof.
  intros s0 a0 t tk HR0 Ht0. set (c := Z.land (rin s0) WBITS).
  set (I := fun s (m : nat) => exists a, R s a /\ pf_q a = pf_q a0 /\ thr s t = W3 tk /\ Z.land (rin s) WBITS = c /\
        (forall u, thr s0 u = RWait c -> thr s u = RWait c) /\ m = wsum (fun i => wt c (thr s i)) n).
  destruct (run_reach_state _ _ _ (step n) I (fun s => I s O)) with (m := wsum (fun i => wt c (thr s0 i)) n) (s := s0) as [ls [s1 [log [Hrun HI]]]].
  - intros s m [a [HR [Hqa [Ht [Hc [Hk Hm]]]]]]. destruct (Nat.eq_dec m O) as [->|Hm0]; [left; exists a; auto 10|].
    right. assert (Hex : exists u, (u < n)%nat /\ (0 < wt c (thr s u))%nat).
    { destruct (cnt_exists (fun u => Nat.ltb 0 (wt c (thr s u))) n) as [u [Hu Hu']].
      - destruct (Nat.eq_dec (cnt (fun u => Nat.ltb 0 (wt c (thr s u))) n) 0) as [Hz|]; [|lia]. exfalso. apply Hm0. subst m.
        assert (forall k, (k <= n)%nat -> wsum (fun i => wt c (thr s i)) k = O); [|auto].
        induction k; intros Hkn; cbn; auto. rewrite IHk by lia. pose proof (cnt_zero _ _ Hz k ltac:(lia)) as G. cbn beta in G. apply Nat.ltb_ge in G. lia.
      - exists u. split; auto. apply Nat.ltb_lt. auto. }
    destruct Hex as [u [Hu Hwu]]. assert (Hnu := ltb_n u Hu).
    assert (Hgo : forall x s' ev p, step n s (u, x) = Some (s', ev) -> thr s' = upd (thr s) u p -> rin s' = rin s ->
       (forall e, In e ev -> (exists v, e = PRAcq v) \/ (exists v, e = PRRel v)) -> (length ev <= 1)%nat ->
       (wt c p < wt c (thr s u))%nat ->
       exists l s' ev m', step n s l = Some (s', ev) /\ (m' < m)%nat /\ I s' m').
    { intros x s' ev p Hs Hthr Hrin Hev Hlen Hd. destruct (R_step _ _ _ _ _ HR Hs) as [a' [Ha' HR']].
      exists (u, x), s', ev, (wsum (fun i => wt c (upd (thr s) u p i)) n). split; auto. split.
      - subst m. apply wsum_drop; auto.
      - exists a'. rewrite Hthr, Hrin. split; auto. split; [|split; [|split; [|split]]]; auto.
        + rewrite <- Hqa. destruct ev as [|e [|e' ev]]; [cbn in Ha'; congruence| |cbn in Hlen; lia].
          cbn in Ha'. destruct (pf_step a e) as [a''|] eqn:Ee; [|discriminate]. injection Ha' as ->.
          destruct (Hev e (or_introl eq_refl)) as [[v ->]|[v ->]]; cbn in Ee.
          * destruct (pf_h a); [discriminate|]. destruct (existsb _ _); [|discriminate]. injection Ee as <-. auto.
          * destruct (remove1 v (pf_r a)); [|discriminate]. injection Ee as <-. auto.
        + rewrite upd_other; auto. intros ->. rewrite Ht in Hwu. cbn in Hwu. lia.
        + intros v Hv. rewrite upd_other; auto. intros ->. rewrite (Hk _ Hv) in Hwu. cbn in Hwu. rewrite Z.eqb_refl in Hwu. lia. }
    destruct (thr s u) eqn:Eu; cbn in Hwu; try lia.
    + destruct (Z.eqb_spec w c); [lia|].
      eapply (Hgo ATick (go s u RCrit) [PRAcq u] RCrit); [unfold step; rewrite Hnu, Eu, Hc; destruct (Z.eqb_spec c w); [congruence|reflexivity]|reflexivity|reflexivity| |cbn; lia|].
      * intros e [<-|[]]. eauto.
      * cbn. destruct (Z.eqb_spec w c); [congruence|lia].
    + eapply (Hgo ARUnlock _ _ Idle); [unfold step; rewrite Hnu, Eu; reflexivity|reflexivity|reflexivity| |cbn; lia|cbn; lia].
      intros e [<-|[]]. eauto.
  - exists a0. auto 10.
  - destruct HI as [a [HR [Hqa [Ht [Hc [Hk Hm]]]]]].
    assert (Hz : forall u, (u < n)%nat -> wt c (thr s1 u) = O).
    { intros u Hu. destruct (wt c (thr s1 u)) eqn:E; auto. exfalso.
      pose proof (wsum_drop _ (wt c) (thr s1) n u Idle Hu) as G. cbn in G. rewrite E in G. specialize (G ltac:(lia)). lia. }
    assert (Htn : (t < n)%nat) by (apply (in_n _ _ _ HR); rewrite Ht; discriminate).
    assert (Hro : rout s1 = tk).
    { destruct HR as [[NI [NO [WO [Q [Hq [Hph [HA [Hwi [Hwo [Hro [Hri Hcn]]]]]]]]]]] Hge].
      destruct (in_head _ _ _ t Hq) as [Q' ->]; [apply Hq; rewrite Ht; auto|rewrite Ht; discriminate|].
      unfold hp in Hph, Hri. cbn in Hph, Hri. rewrite Ht in Hph, Hri. cbn in Hph, Hri. destruct Hph as [NIt [P1 P2]].
      assert (cur WO = c). { rewrite <- Hc, Hri, bits_of; auto. pose proof (cur_range WO). lia. }
      assert (cnt (fun x => new (cur WO) (thr s1 x)) n = cnt (fun x => rdr (thr s1 x)) n).
      { apply cnt_ext. intros u Hu. specialize (Hz u Hu). destruct (thr s1 u); auto; cbn in *; [|discriminate].
        rewrite H. destruct (Z.eqb w c); auto; discriminate. }
      rewrite Hro, P1. f_equal. lia. }
    assert (Hs : step n s1 (t, ATick) = Some (go s1 t WCrit, [PWAcq t])).
    { unfold step. rewrite (ltb_n t Htn), Ht, Hro, Z.eqb_refl. reflexivity. }
    destruct (R_step _ _ _ _ _ HR Hs) as [a' [Ha' HR']].
    exists (ls ++ [(t, ATick)]), (go s1 t WCrit), (log ++ [PWAcq t]), a'.
    split; [eapply run_app; [eassumption|apply run_last; auto]|]. split; auto. split; [apply in_or_app; simpl; auto|].
    split; [|split; [|split]].
    + cbn in Ha'. rewrite <- Hqa. destruct (pf_h a); [discriminate|]. destruct (pf_q a) as [|u q]; [discriminate|]. destruct (pf_r a); [|discriminate].
      destruct (Nat.eqb t u && _); [|discriminate]. injection Ha' as <-. reflexivity.
    + cbn. apply upd_same.
    + cbn. auto.
    + intros u Hu. cbn. rewrite upd_other; auto. intros ->. rewrite (Hk _ Hu) in Ht. discriminate.
Qed.

Lemma pf_progress_r : forall s, reachable (step n) init s -> forall t, waiting_r s t = true ->
  exists ls s' log, run (step n) s ls = Some (s', log) /\ In (PRAcq t) log.
Proof.
  intros s Hre t Hw. destruct (pf_reach _ Hre) as [a HR]. unfold waiting_r in Hw.
  destruct (thr s t) eqn:Et; try discriminate.
  assert (Htn : (t < n)%nat) by (apply (in_n _ _ _ HR); rewrite Et; discriminate).
  assert (Hgo : forall s1 a1 w, R s1 a1 -> thr s1 t = RWait w -> Z.land (rin s1) WBITS <> w ->
     exists ls s' log, run (step n) s1 ls = Some (s', log) /\ In (PRAcq t) log).
  { intros s1 a1 v HR1 Ht1 Hv. exists [(t, ATick)], (go s1 t RCrit), [PRAcq t]. split; [|simpl; auto]. apply run_last.
    unfold step. rewrite (ltb_n t Htn), Ht1. destruct (Z.eqb_spec (Z.land (rin s1) WBITS) v); [contradiction|reflexivity]. }
  assert (Hcrit : forall s1 a1 w h, R s1 a1 -> thr s1 t = RWait w -> thr s1 h = WCrit ->
     exists ls s' log, run (step n) s1 ls = Some (s', log) /\ In (PRAcq t) log).
  { intros s1 a1 v h HR1 Ht1 Hh.
    assert (Hhn : (h < n)%nat) by (apply (in_n _ _ _ HR1); rewrite Hh; discriminate).
    set (s2 := mk (Z.land (rin s1) LSB) (rout s1) (win s1) (wout s1) (upd (thr s1) h WU)).
    assert (Hs : step n s1 (h, AWUnlock) = Some (s2, [PWRel h])) by (unfold step; rewrite (ltb_n h Hhn), Hh; reflexivity).
    destruct (R_step _ _ _ _ _ HR1 Hs) as [a2 [_ HR2]].
    assert (Ht2 : thr s2 t = RWait v) by (cbn; rewrite upd_other; auto; intros ->; congruence).
    destruct (Hgo _ _ _ HR2 Ht2) as [ls [s' [log [Hr Hin]]]].
    - intros E. destruct (wait_bits _ _ _ _ HR2 Ht2 E) as [h' Hh'].
      destruct HR2 as [[NI [NO [WO [Q [Hq _]]]]] _].
      assert (Hin1 : In h Q) by (apply Hq; cbn; rewrite upd_same; auto).
      destruct (in_head _ _ _ h Hq Hin1) as [Q1 HQ1]; [cbn; rewrite upd_same; discriminate|].
      assert (Hin2 : In h' Q) by (apply Hq; destruct Hh' as [->|[tk ->]]; auto).
      destruct (in_head _ _ _ h' Hq Hin2) as [Q2 HQ2]; [destruct Hh' as [->|[tk ->]]; discriminate|].
      assert (h' = h) by congruence. subst h'. cbn in Hh'. rewrite upd_same in Hh'. destruct Hh' as [|[tk ?]]; discriminate.
    - exists ((h, AWUnlock) :: ls), s', ([PWRel h] ++ log). split; [eapply run_cons; eassumption|]. simpl; auto. }
  destruct (Z.eq_dec (Z.land (rin s) WBITS) w) as [E|E]; [|eapply Hgo; eauto].
  destruct (wait_bits _ _ _ _ HR Et E) as [h [Hh|[tk Hh]]]; [eapply Hcrit; eauto|].
  destruct (drain _ _ _ _ HR Hh) as [ls [s1 [log [a1 [Hr [HR1 [_ [_ [Hh1 [_ Hk]]]]]]]]]].
  rewrite E in Hk. specialize (Hk _ Et).
  destruct (Hcrit _ _ _ _ HR1 Hk Hh1) as [ls2 [s2 [log2 [Hr2 Hin]]]].
  exists (ls ++ ls2), s2, (log ++ log2). split; [eapply run_app; eassumption|]. apply in_or_app. auto.
Qed.

Lemma release : forall s a, R s a -> exists ls s1 log a1, run (step n) s ls = Some (s1, log) /\ R s1 a1 /\
  pf_q a1 = pf_q a /\ forall u, thr s1 u <> WCrit /\ thr s1 u <> WU.
Proof.
  assert (HU : forall s a h, R s a -> thr s h = WU -> exists ls s1 log a1, run (step n) s ls = Some (s1, log) /\ R s1 a1 /\
     pf_q a1 = pf_q a /\ forall u, thr s1 u <> WCrit /\ thr s1 u <> WU).
  { intros s a h HR Hh. assert (Hhn : (h < n)%nat) by (apply (in_n _ _ _ HR); rewrite Hh; discriminate).
    set (s2 := mk (rin s) (rout s) (win s) (add32 (wout s) 1) (upd (thr s) h Idle)).
    assert (Hs : step n s (h, ATick) = Some (s2, [])) by (unfold step; rewrite (ltb_n h Hhn), Hh; reflexivity).
    destruct (R_step _ _ _ _ _ HR Hs) as [a2 [Ha2 HR2]]. cbn in Ha2. injection Ha2 as <-.
    exists [(h, ATick)], s2, [], a. split; [apply run_last; auto|]. split; auto. split; auto.
    destruct HR as [[NI [NO [WO [Q [Hq _]]]]] _].
    assert (Hin1 : In h Q) by (apply Hq; rewrite Hh; auto).
    destruct (in_head _ _ _ h Hq Hin1) as [Q1 HQ1]; [rewrite Hh; discriminate|].
    intros u. cbn. destruct (Nat.eq_dec u h); [subst; rewrite upd_same; split; discriminate|]. rewrite upd_other by auto.
    split; intros Eu; (destruct (in_head _ _ _ u Hq) as [Q2 HQ2]; [apply Hq; rewrite Eu; auto|rewrite Eu; discriminate|congruence]). }
  intros s a HR. assert (HR' := HR). destruct HR' as [[NI [NO [WO [Q [Hq _]]]]] _].
  assert (Hcase : (forall u, thr s u <> WCrit /\ thr s u <> WU) \/ exists h, thr s h = WCrit \/ thr s h = WU).
  { destruct Q as [|h Q].
    - left. intros u. split; intros E; (assert (In u []) by (apply Hq; rewrite E; auto); auto).
    - destruct (thr s h) eqn:Eh.
      4,6,7: idtac.
      all: try (right; exists h; rewrite Eh; auto; fail).
      all: left; intros u; split; intros E;
        (destruct (in_head _ _ _ u Hq) as [Q2 HQ2]; [apply Hq; rewrite E; auto|rewrite E; discriminate|]; injection HQ2 as <- _; congruence). }
  destruct Hcase as [Hc|[h [Hh|Hh]]].
  - exists [], s, [], a. auto.
  - assert (Hhn : (h < n)%nat) by (apply (in_n _ _ _ HR); rewrite Hh; discriminate).
    set (s2 := mk (Z.land (rin s) LSB) (rout s) (win s) (wout s) (upd (thr s) h WU)).
    assert (Hs : step n s (h, AWUnlock) = Some (s2, [PWRel h])) by (unfold step; rewrite (ltb_n h Hhn), Hh; reflexivity).
    destruct (R_step _ _ _ _ _ HR Hs) as [a2 [Ha2 HR2]].
    assert (Hq2 : pf_q a2 = pf_q a). { cbn in Ha2. destruct (pf_h a); [|discriminate]. destruct (Nat.eqb h n0); [|discriminate]. injection Ha2 as <-. auto. }
    destruct (HU s2 a2 h HR2) as [ls [s3 [log [a3 [Hr [HR3 [Hq3 Hu]]]]]]]; [cbn; apply upd_same|].
    exists ((h, AWUnlock) :: ls), s3, ([PWRel h] ++ log), a3. split; [eapply run_cons; eassumption|]. split; auto. split; auto. congruence.
  - eapply HU; eauto.
Qed.

Lemma grant : forall s a u q, R s a -> (forall v, thr s v <> WCrit /\ thr s v <> WU) -> pf_q a = u :: q ->
  exists ls s1 log a1, run (step n) s ls = Some (s1, log) /\ R s1 a1 /\ In (PWAcq u) log /\ pf_q a1 = q.
Proof.
  intros s a u q HR Hno Hqa.
  assert (H3 : forall s a tk, R s a -> thr s u = W3 tk -> pf_q a = u :: q ->
     exists ls s1 log a1, run (step n) s ls = Some (s1, log) /\ R s1 a1 /\ In (PWAcq u) log /\ pf_q a1 = q).
  { intros s1 a1 tk HR1 Hu Hq1. destruct (drain _ _ _ _ HR1 Hu) as [ls [s2 [log [a2 [Hr [HR2 [Hin [Hq2 _]]]]]]]].
    exists ls, s2, log, a2. rewrite Hq1 in Hq2. auto. }
  assert (H2 : forall s a tk, R s a -> thr s u = W2 tk -> pf_q a = u :: q ->
     exists ls s1 log a1, run (step n) s ls = Some (s1, log) /\ R s1 a1 /\ In (PWAcq u) log /\ pf_q a1 = q).
  { intros s1 a1 tk HR1 Hu Hq1. assert (Hun : (u < n)%nat) by (apply (in_n _ _ _ HR1); rewrite Hu; discriminate).
    assert (Hs : exists s2, step n s1 (u, ATick) = Some (s2, []) /\ thr s2 u = W3 (rin s1)).
    { eexists. split; [unfold step; rewrite (ltb_n u Hun), Hu; reflexivity|]. cbn. apply upd_same. }
    destruct Hs as [s2 [Hs Hu2]]. destruct (R_step _ _ _ _ _ HR1 Hs) as [a2 [Ha2 HR2]]. cbn in Ha2. injection Ha2 as <-.
    destruct (H3 _ _ _ HR2 Hu2 Hq1) as [ls [s3 [log [a3 [Hr [HR3 [Hin Hq3]]]]]]].
    exists ((u, ATick) :: ls), s3, log, a3. split; auto. eapply (run_cons _ _ _ _ []); eassumption. }
  assert (HR' := HR). destruct HR' as [[NI [NO [WO [Q [Hq [_ [[_ [A2 _]] [_ [Hwo _]]]]]]]]] Hge].
  assert (HQ : Q = u :: q).
  { rewrite Hqa in A2. destruct Q as [|h Q]; cbn in A2; [discriminate|]. unfold hp in A2. cbn in A2.
    destruct (Hno h) as [N1 N2]. destruct (thr s h); congruence. }
  subst Q. assert (Hu : wpc (thr s u) = true) by (apply Hq; simpl; auto).
  assert (Hun : (u < n)%nat) by (apply (in_n _ _ _ HR); intros E; rewrite E in Hu; discriminate).
  destruct (Hno u) as [N1 N2].
  destruct (thr s u) eqn:Eu; try discriminate; try congruence; eauto.
  assert (Hs : exists s2, step n s (u, ATick) = Some (s2, []) /\ thr s2 u = W2 tk).
  { exists (go s u (W2 tk)). split; [unfold step; rewrite (ltb_n u Hun), Eu, Hwo|].
    - destruct Hq as [_ [_ [_ Q4]]]. rewrite (Q4 u tk eq_refl (or_introl Eu)), Z.eqb_refl. reflexivity.
    - cbn. apply upd_same. }
  destruct Hs as [s2 [Hs Hu2]]. destruct (R_step _ _ _ _ _ HR Hs) as [a2 [Ha2 HR2]]. cbn in Ha2. injection Ha2 as <-.
  destruct (H2 _ _ _ HR2 Hu2 Hqa) as [ls [s3 [log [a3 [Hr [HR3 [Hin Hq3]]]]]]].
  exists ((u, ATick) :: ls), s3, log, a3. split; auto. eapply (run_cons _ _ _ _ []); eassumption.
Qed.

Lemma pf_progress_gen : forall i s a t, R s a -> nth_error (pf_q a) i = Some t ->
  exists ls s' log, run (step n) s ls = Some (s', log) /\ In (PWAcq t) log.
Proof.
  induction i as [|i IH]; intros s a t HR Hi;
    destruct (release _ _ HR) as [ls [s1 [log [a1 [Hr [HR1 [Hq1 Hno]]]]]]]; rewrite <- Hq1 in Hi;
    (destruct (pf_q a1) as [|u q] eqn:Eq; [discriminate|]);
    destruct (grant _ _ _ _ HR1 Hno Eq) as [ls2 [s2 [log2 [a2 [Hr2 [HR2 [Hin Hq2]]]]]]]; cbn in Hi.
  - injection Hi as ->. exists (ls ++ ls2), s2, (log ++ log2). split; [eapply run_app; eassumption|]. apply in_or_app; auto.
  - rewrite <- Hq2 in Hi. destruct (IH _ _ _ HR2 Hi) as [ls3 [s3 [log3 [Hr3 Hin3]]]].
    exists (ls ++ ls2 ++ ls3), s3, (log ++ log2 ++ log3). split; [eapply run_app; [eassumption|eapply run_app; eassumption]|].
    apply in_or_app; right. apply in_or_app; auto.
Qed.

Lemma pf_progress_w : forall s, reachable (step n) init s -> forall t, waiting_w s t = true ->
  exists ls s' log, run (step n) s ls = Some (s', log) /\ In (PWAcq t) log.
Proof.
  intros s Hre t Hw. destruct (pf_reach _ Hre) as [a HR]. unfold waiting_w in Hw.
  assert (Hin : In t (pf_q a)).
  { destruct HR as [[NI [NO [WO [Q [Hq [_ [[_ [A2 _]] _]]]]]]] _].
    assert (Hin : In t Q) by (apply Hq; destruct (thr s t); try discriminate; auto).
    rewrite A2. destruct Q as [|h Q]; [destruct Hin|]. unfold hp; cbn.
    destruct Hin as [->|Hin]; [destruct (thr s t); try discriminate; simpl; auto|]. destruct (thr s h); simpl; auto. }
  destruct (In_nth_error _ _ Hin) as [i Hi]. eapply pf_progress_gen; eauto.
Qed.
End P.
