From Coq Require Import Arith NArith List Bool Lia.
From Verif Require Import Lib LockSpec LockProg RwProg ByteLock_Model.
Import ListNotations.
Local Arguments upd : simpl never.
Local Arguments Nat.ltb : simpl never.
Local Arguments N.eqb : simpl never.
Local Arguments N.add : simpl never.
Local Arguments N.modulo : simpl never.
Local Arguments N.pow : simpl never.

Lemma inc_ok : forall k, (N.of_nat k + 1 < 2 ^ 32)%N -> inc (N.of_nat k) = N.of_nat (k + 1).
Proof. intros. unfold inc. rewrite N.mod_small; lia. Qed.
Lemma dec_ok : forall k, (N.of_nat (S k) < 2 ^ 32)%N -> dec (N.of_nat (S k)) = N.of_nat k.
Proof.
  intros. unfold dec. replace (N.of_nat (S k) + (2 ^ 32 - 1))%N with (N.of_nat k + 1 * 2 ^ 32)%N by lia.
  rewrite N.mod_add by lia. rewrite N.mod_small; lia.
Qed.
Global Opaque inc dec.

Definition isown (p : pc) : bool := match p with W2 _ | W3 _ _ | W4 _ | WCrit | D1 _ | D2 _ | Bad => true | _ => false end.
Definition rflag (p : pc) : bool := match p with R2 | R3 | RCrit | W1 true | W2 true | D2 _ => true | _ => false end.
Definition uflag (p : pc) : bool := match p with U2 | U3 | RCrit => true | _ => false end.
Definition wcr (p : pc) : bool := match p with WCrit | D1 _ | D2 _ => true | _ => false end.
Definition rcr (p : pc) : bool := match p with RCrit | W1 true | W2 true | W3 true _ | W4 true => true | _ => false end.
Definition bad (p : pc) : bool := match p with Bad | D1 false | D2 false => true | _ => false end.
Definition sonly (p : pc) : bool :=
  match p with R1 | R2 | R3 | R4 | W1 true | W2 _ | W3 true _ | W4 true | D1 _ | D2 _ => true | _ => false end.
Definition uonly (p : pc) : bool := match p with U1 | U2 | U3 | U4 => true | _ => false end.

Section P.
Variables (n W L : nat) (sl : nat -> N) (wr rdr : nat -> bool).
Hypothesis Hn : (N.of_nat n < 2 ^ 32)%N.
Hypothesis HL : 0 < L.
Hypothesis Hsl1 : forall t, t < n -> (1 <= sl t)%N.
Hypothesis Hinj : forall t u, t < n -> u < n -> slotted W L sl t = true -> sl t = sl u -> t = u.
(** If an unslotted thread writes, no other thread with the same slot argument reads. *)
Hypothesis Hun : forall t u, t < n -> u < n -> slotted W L sl t = false -> sl t = sl u ->
  wr t = true -> rdr u = true -> t = u.

Notation cstep := (cstep n W L sl wr rdr).
Notation slt := (slotted W L sl).
Notation ix := (idx sl).

Definition drain (thr : nat -> pc) (t u : nat) : Prop :=
  match thr t with
  | W3 _ i => slt u = true -> i * L <= ix u
  | W4 _ => slt u = false
  | WCrit | D1 _ | D2 _ => False
  | _ => True
  end.

Record words (o nr : N) (r : nat -> bool) (thr : nat -> pc) : Prop := mkW {
  i_own : (o = 0%N /\ forall u, isown (thr u) = false) \/
          (exists t, o = sl t /\ t < n /\ isown (thr t) = true /\ forall u, isown (thr u) = true -> u = t);
  i_rd : forall t, t < n -> slt t = true -> r (ix t) = rflag (thr t);
  i_nr : nr = N.of_nat (cnt (fun t => negb (slt t) && uflag (thr t)) n);
  i_dr : forall t u, t <> u -> rcr (thr u) = true -> drain thr t u;
  i_bad : forall t, bad (thr t) = false;
  i_s : forall t, slt t = false -> sonly (thr t) = false;
  i_u : forall t, slt t = true -> uonly (thr t) = false;
  i_wr : forall t, isown (thr t) = true \/ (exists up, thr t = W1 up) -> wr t = true }.

Definition R (s : state) (a : rwst) : Prop :=
  words (owner s) (nread s) (rd s) (thr s) /\ rabs wcr rcr a (thr s) /\ oob s = false /\ (forall t, n <= t -> thr s t = Idle).

Lemma R_init : R init rw_init.
Proof.
  split; [|split; [|auto]].
  - constructor; cbn; auto; try discriminate.
    + rewrite cnt_all_false; auto. intros. apply andb_false_r.
    + intros t [H|[up H]]; discriminate.
  - split; [|split; [|split]]; simpl; try discriminate; try constructor; try tauto; discriminate.
Qed.

Lemma ix_lt : forall t, slt t = true -> t < n -> ix t < W * L.
Proof.
  intros t H Ht. unfold slotted in H. apply N.leb_le in H. pose proof (Hsl1 t Ht). unfold idx. lia.
Qed.

Lemma ix_inj : forall t u, t < n -> u < n -> slt t = true -> ix t = ix u -> t = u.
Proof.
  intros t u Ht Hu H E. apply Hinj; auto. pose proof (Hsl1 t Ht). pose proof (Hsl1 u Hu). unfold idx in E. lia.
Qed.

Lemma word_zero_spec : forall r i, word_zero L r i = true -> forall k, i * L <= k < S i * L -> r k = false.
Proof.
  intros r i H k Hk. unfold word_zero in H. rewrite forallb_forall in H. specialize (H (k - i * L)).
  replace (i * L + (k - i * L)) with k in H by lia. apply negb_true_iff, H. apply in_seq. cbn in Hk. lia.
Qed.

Lemma R_step : forall s a l s' ev, R s a -> cstep s l = Some (s', ev) ->
  exists a', accepts rw_step a ev = Some a' /\ R s' a'.
Proof.
  intros s a [t x] s' ev [HW [Ha [Hoob Hge]]] H. unfold ByteLock_Model.cstep in H. destruct (okact wr rdr (t, x)) eqn:Hok; [|discriminate].
  unfold okact in Hok. cbn [fst snd] in Hok. unfold step in H.
  destruct (Nat.ltb t n) eqn:Hlt; [|discriminate]. apply Nat.ltb_lt in Hlt. cbn [negb] in H.
  assert (Hlt' : forall p u, n <= u -> upd (thr s) t p u = Idle) by (intros; rewrite upd_other by lia; auto).
  assert (HW' := HW). destruct HW' as [Hown Hrd Hnr Hdr Hbad Hs Hu Hwr].
  (* ownership *)
  assert (Ho0 : owner s = 0%N -> forall u, isown (thr s u) = false).
  { intros E. destruct Hown as [[_ ?]|[v [E2 [Hv _]]]]; auto. pose proof (Hsl1 v Hv). lia. }
  assert (Hot : isown (thr s t) = true -> owner s = sl t /\ forall u, isown (thr s u) = true -> u = t).
  { intros E. destruct Hown as [[_ G]|[v [E2 [Hv [E3 G]]]]]; [rewrite G in E; discriminate|]. pose proof (G t E). subst v. auto. }
  assert (Hos : owner s = sl t -> rdr t = true -> isown (thr s t) = true).
  { intros E Hr. destruct Hown as [[E2 _]|[v [E2 [Hv [E3 G]]]]]; [pose proof (Hsl1 t Hlt); lia|].
    assert (v = t); [|congruence]. destruct (slt v) eqn:Esv; [apply Hinj; auto; congruence|].
    apply Hun; auto. congruence. }
  (* generic new words *)
  assert (WW : forall o nr r p,
     (isown p = isown (thr s t) /\ o = owner s \/ isown p = true /\ owner s = 0%N /\ o = sl t \/ isown p = false /\ isown (thr s t) = true /\ o = 0%N) ->
     (forall u, u < n -> slt u = true -> r (ix u) = if Nat.eqb u t then rflag p else rd s (ix u)) ->
     nr = N.of_nat (cnt (fun u => negb (slt u) && uflag (upd (thr s) t p u)) n) ->
     (rcr p = true -> rcr (thr s t) = false -> forall v, v <> t -> isown (thr s v) = false) ->
     (forall u, t <> u -> rcr (thr s u) = true -> drain (upd (thr s) t p) t u) ->
     bad p = false -> (slt t = false -> sonly p = false) -> (slt t = true -> uonly p = false) ->
     (isown p = true \/ (exists up, p = W1 up) -> wr t = true) ->
     words o nr r (upd (thr s) t p)).
  { intros o nr r p O1 O2 O3 O4 O5 O6 O7 O8 O9. constructor; auto.
    - destruct O1 as [[E1 E2]|[[E1 [E2 E3]]|[E1 [E2 E3]]]].
      + assert (E : forall u, isown (upd (thr s) t p u) = isown (thr s u)) by (intros; upd_goal; subst; auto).
        subst o. destruct Hown as [[G1 G2]|[v [G1 [G2 [G3 G4]]]]]; [left; split; auto; intros; rewrite E; auto|].
        right. exists v. rewrite E. repeat split; auto. intros u; rewrite E; auto.
      + right. exists t. rewrite upd_same. repeat split; auto. intros u. upd_goal; auto. rewrite (Ho0 E2). discriminate.
      + left. split; auto. intros u. upd_goal; auto. destruct (isown (thr s u)) eqn:Eu; auto. apply (Hot E2) in Eu. congruence.
    - intros u Hun' Hsu. rewrite O2 by auto. destruct (Nat.eqb_spec u t).
      + subst. rewrite upd_same. auto.
      + rewrite upd_other by auto. auto.
    - intros v u Hvu Hru. destruct (Nat.eq_dec v t) as [->|Hvt].
      + rewrite upd_other in Hru by auto. auto.
      + unfold drain. rewrite upd_other by auto. destruct (Nat.eq_dec u t) as [->|Hut].
        * rewrite upd_same in Hru. destruct (rcr (thr s t)) eqn:Er; [apply (Hdr v t Hvu Er)|].
          pose proof (O4 Hru eq_refl v Hvt) as G. destruct (thr s v); cbn in G; auto; discriminate.
        * rewrite upd_other in Hru by auto. apply (Hdr v u Hvu Hru).
    - intros u. upd_goal; auto.
    - intros u. upd_goal; [subst|]; auto.
    - intros u. upd_goal; [subst|]; auto.
    - intros u. upd_goal; [subst|]; auto. }
  assert (Cn : forall p, (slt t = true \/ uflag p = uflag (thr s t)) ->
     nread s = N.of_nat (cnt (fun u => negb (slt u) && uflag (upd (thr s) t p u)) n)).
  { intros p E. rewrite Hnr. f_equal. apply cnt_ext. intros u Hu'. upd_goal; auto. subst. destruct E as [E|E]; rewrite E; auto. }
  assert (Rk : forall p, (slt t = false \/ rflag p = rflag (thr s t)) ->
     forall u, u < n -> slt u = true -> rd s (ix u) = if Nat.eqb u t then rflag p else rd s (ix u)).
  { intros p E u Hu' Hsu. destruct (Nat.eqb_spec u t); auto. subst. destruct E as [E|E]; [congruence|]. rewrite E. auto. }
  assert (Ru : forall p b, slt t = true -> rflag p = b ->
     forall u, u < n -> slt u = true -> upd (rd s) (ix t) b (ix u) = if Nat.eqb u t then rflag p else rd s (ix u)).
  { intros p b E1 E2 u Hu' Hsu. destruct (Nat.eqb_spec u t); [subst; apply upd_same|]. apply upd_other. intros E. apply n0. apply ix_inj; auto. }
  assert (Hkeep : forall o nr r p, words o nr r (upd (thr s) t p) -> wcr (thr s t) = wcr p -> rcr (thr s t) = rcr p ->
            exists a', accepts rw_step a [] = Some a' /\ R (mk o nr r (oob s) (upd (thr s) t p)) a').
  { intros o nr r p Hws E1 E2. exists a. split; [reflexivity|]. split; [exact Hws|]. split; [|split; [auto|exact (Hlt' p)]]. apply abs_same; auto. }
  assert (Hfin : forall o nr r p e, words o nr r (upd (thr s) t p) ->
      (exists a', accepts rw_step a e = Some a' /\ rabs wcr rcr a' (upd (thr s) t p)) ->
      exists a', accepts rw_step a e = Some a' /\ R (mk o nr r (oob s) (upd (thr s) t p)) a').
  { intros o nr r p e Hws [a' [H1 H2]]. exists a'. split; auto. split; [exact Hws|]. split; [exact H2|split; [auto|exact (Hlt' p)]]. }
  (* no drain obligation *)
  assert (Dk : forall p, (match p with W3 _ _ | W4 _ | WCrit | D1 _ | D2 _ => false | _ => true end = true) ->
     forall u, t <> u -> rcr (thr s u) = true -> drain (upd (thr s) t p) t u).
  { intros p E u _ _. unfold drain. rewrite upd_same. destruct p; auto; discriminate. }
  assert (Dc : forall p, (forall u, t <> u -> rcr (thr s u) = true -> False) ->
     forall u, t <> u -> rcr (thr s u) = true -> drain (upd (thr s) t p) t u).
  { intros p E u H1 H2. destruct (E u H1 H2). }
  assert (Hcrit : wcr (thr s t) = true -> forall u, t <> u -> rcr (thr s u) = true -> False).
  { intros E u H1 H2. pose proof (Hdr t u H1 H2) as G. unfold drain in G. destruct (thr s t); try discriminate; auto. }
  assert (Hnw : isown (thr s t) = true -> wcr (thr s t) = false -> forall u, wcr (thr s u) = false).
  { intros E1 E2 u. destruct (wcr (thr s u)) eqn:Eu; auto. assert (isown (thr s u) = true) by (destruct (thr s u); try discriminate; auto).
    apply (Hot E1) in H0. subst. congruence. }
  assert (Hnw0 : owner s = 0%N -> forall u, wcr (thr s u) = false).
  { intros E u. pose proof (Ho0 E u). destruct (thr s u); try discriminate; auto. }
  assert (Honly : wcr (thr s t) = true -> forall u, wcr (thr s u) = true -> u = t).
  { intros E u Eu. apply Hot; [destruct (thr s t); try discriminate; auto|destruct (thr s u); try discriminate; auto]. }
  assert (Hulen : forall p, uflag (thr s t) = false -> uflag p = true -> slt t = false ->
     inc (nread s) = N.of_nat (cnt (fun u => negb (slt u) && uflag (upd (thr s) t p u)) n)).
  { intros p E1 E2 E3. pose proof (cnt_change (fun u => negb (slt u) && uflag (thr s u)) (fun u => negb (slt u) && uflag (upd (thr s) t p u)) n t Hlt) as C.
    cbn beta in C. rewrite upd_same, E1, E2, E3 in C. cbn [negb andb] in C. rewrite Hnr.
    assert (C' := C (fun i Hi => ltac:(rewrite upd_other by auto; auto))).
    pose proof (cnt_le (fun u => negb (slt u) && uflag (upd (thr s) t p u)) n).
    rewrite inc_ok; [f_equal; lia|]. lia. }
  assert (Hudec : forall p, uflag (thr s t) = true -> uflag p = false -> slt t = false ->
     dec (nread s) = N.of_nat (cnt (fun u => negb (slt u) && uflag (upd (thr s) t p u)) n)).
  { intros p E1 E2 E3. pose proof (cnt_change (fun u => negb (slt u) && uflag (thr s u)) (fun u => negb (slt u) && uflag (upd (thr s) t p u)) n t Hlt) as C.
    cbn beta in C. rewrite upd_same, E1, E2, E3 in C. cbn [negb andb] in C. rewrite Hnr.
    assert (C' := C (fun i Hi => ltac:(rewrite upd_other by auto; auto))).
    pose proof (cnt_le (fun u => negb (slt u) && uflag (thr s u)) n).
    match goal with |- dec (N.of_nat ?k) = N.of_nat ?m => replace k with (S m) in * by lia end. apply dec_ok. lia. }
  assert (Dscan : forall up i, (forall u, t <> u -> rcr (thr s u) = true -> slt u = true -> i * L <= ix u) ->
     forall u, t <> u -> rcr (thr s u) = true -> drain (upd (thr s) t (scan W up i)) t u).
  { intros up i G u H1 H2. unfold drain. rewrite upd_same. unfold scan. destruct (Nat.ltb i W) eqn:Ei; [eauto|].
    apply Nat.ltb_ge in Ei. destruct (slt u) eqn:Eu; auto. exfalso.
    assert (Hun0 : u < n). { destruct (Nat.lt_ge_cases u n); auto. rewrite Hge in H2 by auto. discriminate. }
    pose proof (G u H1 H2 Eu). pose proof (ix_lt u Eu Hun0). nia. }
  assert (Escan : forall up i, isown (scan W up i) = true /\ rflag (scan W up i) = false /\ uflag (scan W up i) = false /\ wcr (scan W up i) = false /\
     rcr (scan W up i) = up /\ bad (scan W up i) = false /\ uonly (scan W up i) = false /\ sonly (scan W up i) = up).
  { intros up i. unfold scan. destruct (Nat.ltb i W), up; cbn; repeat split; auto. }
  pose proof (Hbad t) as Hbt. pose proof (Hs t) as Hst. pose proof (Hu t) as Hut. pose proof (Hwr t) as Hwt.
  unfold go, goo, gon, gob in H.
  destruct (thr s t) eqn:Et; destruct x; try discriminate; cbn [isown rflag uflag wcr rcr bad sonly uonly] in *.
  - (* AWLock *) injection H as <- <-. apply Hkeep; auto. apply WW; auto; cbn; try (intros; discriminate).
  - (* ARLock *) destruct (N.eqb_spec (owner s) (sl t)) as [E|E]; injection H as <- <-.
    + specialize (Hos E Hok). discriminate.
    + destruct (slt t) eqn:Es; apply Hkeep; auto; apply WW; auto; cbn; try (intros; discriminate); intros [?|[? ?]]; discriminate.
  - (* W1 *) assert (Hwrt : wr t = true) by eauto.
    destruct (N.eqb_spec (owner s) 0) as [E|E]; injection H as <- <-.
    + destruct (slt t) eqn:Es.
      * apply Hkeep; auto. apply WW; auto. 
      * destruct (Escan up 0) as [X1 [X2 [X3 [X4 [X5 [X6 [X7 X8]]]]]]].
        assert (up = false) by (destruct up; auto). subst up.
        apply Hkeep; [|congruence..]. apply WW; auto; try congruence; try discriminate; try (apply Dscan; intros; lia).
    + apply Hkeep; auto. apply WW; auto; try discriminate; try (intros [?|[? ?]]; discriminate); try (apply Dc; apply Hcrit; reflexivity). destruct up; discriminate || auto.
  - (* W2 *) assert (Hwrt : wr t = true) by eauto. specialize (Hot eq_refl).
    destruct (slt t) eqn:Es; [|specialize (Hst eq_refl); discriminate]. injection H as <- <-.
    destruct (Escan up 0) as [X1 [X2 [X3 [X4 [X5 [X6 [X7 X8]]]]]]].
    apply Hkeep; try congruence; [|destruct up; cbn; congruence]. apply WW; auto; try congruence.
    + rewrite X5. intros ->. discriminate.
    + apply Dscan. intros; lia.
  - (* W3 *) assert (Hwrt : wr t = true) by eauto. specialize (Hot eq_refl).
    destruct (word_zero L (rd s) i) eqn:Ew; injection H as <- <-.
    + destruct (Escan up (S i)) as [X1 [X2 [X3 [X4 [X5 [X6 [X7 X8]]]]]]].
      apply Hkeep; try congruence; [|destruct up; cbn; congruence]. apply WW; auto; try congruence.
      * rewrite X5. intros ->. discriminate.
      * apply Dscan. intros u H1 H2 Hsu. pose proof (Hdr t u H1 H2) as G. unfold drain in G. rewrite Et in G. specialize (G Hsu).
        assert (Hun0 : u < n). { destruct (Nat.lt_ge_cases u n); auto. rewrite Hge in H2 by auto. discriminate. }
        destruct (Nat.lt_ge_cases (ix u) (S i * L)) as [Hlo|]; [|auto]. exfalso.
        pose proof (word_zero_spec _ _ Ew (ix u) (conj G Hlo)) as Z. rewrite Hrd in Z by auto.
        assert (Hiso : isown (thr s u) = true -> u = t) by (apply Hot).
        destruct (thr s u) as [|[] | [] | [] ?|[] | | | | | | | | | | | | |]; try discriminate; specialize (Hiso eq_refl); congruence.
      * destruct (slt t) eqn:Es; [discriminate|]. specialize (Hst eq_refl). destruct up; [discriminate|auto].
    + apply Hkeep; auto. apply WW; auto; try discriminate; try (intros [?|[? ?]]; discriminate); try (apply Dc; apply Hcrit; reflexivity). 
      * destruct up; discriminate || auto.
      * intros u H1 H2. pose proof (Hdr t u H1 H2) as G. unfold drain in *. rewrite upd_same. rewrite Et in G. auto.
  - (* W4 *) assert (Hwrt : wr t = true) by eauto. specialize (Hot eq_refl).
    destruct (N.eqb_spec (nread s) 0) as [E|E]; injection H as <- <-.
    + assert (Hno : forall u, t <> u -> rcr (thr s u) = true -> False).
      { intros u H1 H2. pose proof (Hdr t u H1 H2) as G. unfold drain in G. rewrite Et in G.
        assert (Hun0 : u < n). { destruct (Nat.lt_ge_cases u n); auto. rewrite Hge in H2 by auto. discriminate. }
        rewrite Hnr in E. assert (Hz : cnt (fun t => negb (slt t) && uflag (thr s t)) n = 0) by lia.
        pose proof (cnt_zero _ _ Hz u Hun0) as Z. cbn beta in Z. rewrite G in Z. cbn in Z.
        pose proof (Hs u G) as Z2. destruct (thr s u) as [|[] | [] | [] ?|[] | | | | | | | | | | | | |]; discriminate. }
      apply Hfin.
      * apply WW; auto; try discriminate; try (intros [?|[? ?]]; discriminate); try (apply Dc; apply Hcrit; reflexivity).
      * destruct up; cbn [app].
        -- destruct (abs_rrel wcr rcr a (thr s) t Idle Ha) as [a1 [A1 A2]]; [rewrite Et; auto..|auto|auto|].
           destruct (abs_wacq wcr rcr a1 _ t WCrit A2) as [a2 [A3 A4]]; [| |auto|auto|].
           ++ intros u. upd_goal; auto. destruct (rcr (thr s u)) eqn:Eu; auto. exfalso. eauto.
           ++ intros u. upd_goal; auto.
           ++ exists a2. split; [|].
              ** cbn in A1, A3 |- *. destruct (remove1 t (rw_r a)); [|discriminate]. injection A1 as <-. auto.
              ** destruct A4 as [B1 [B2 [B3 B4]]]. split; [|split; [auto|split; [|auto]]].
                 --- intros u. rewrite B1. destruct (Nat.eq_dec u t); [subst; rewrite !upd_same; tauto|rewrite !upd_other by auto; tauto].
                 --- intros u. rewrite B3. destruct (Nat.eq_dec u t); [subst; rewrite !upd_same; tauto|rewrite !upd_other by auto; tauto].
        -- apply abs_wacq; auto. intros u. destruct (Nat.eq_dec t u); [subst; rewrite Et; auto|]. destruct (rcr (thr s u)) eqn:Eu; auto. exfalso; eauto.
    + apply Hkeep; auto. apply WW; auto; try discriminate; try (intros [?|[? ?]]; discriminate); try (apply Dc; apply Hcrit; reflexivity).
      * destruct up; discriminate || auto.
      * intros u H1 H2. pose proof (Hdr t u H1 H2) as G. unfold drain in *. rewrite upd_same. rewrite Et in G. auto.
  - (* write_unlock *) specialize (Hot eq_refl). injection H as <- <-. apply Hfin; [|apply abs_wrel; auto; rewrite Et; auto].
    apply WW; auto; try discriminate; try (intros [?|[? ?]]; discriminate); try (apply Dc; apply Hcrit; reflexivity).
  - (* downgrade *) specialize (Hot eq_refl). destruct Hot as [Ho Hot]. destruct (slt t) eqn:Es; [|discriminate].
    rewrite Ho, N.eqb_refl in H. rewrite <- Ho in H. injection H as <- <-. apply Hkeep; auto. apply WW; auto; try discriminate; try (intros [?|[? ?]]; discriminate); try (apply Dc; apply Hcrit; reflexivity).
  - (* D1 *) destruct h; [|discriminate]. specialize (Hot eq_refl). destruct (slt t) eqn:Es; [|specialize (Hst eq_refl); discriminate].
    injection H as <- <-. apply Hkeep; auto. apply WW; auto; try discriminate; try (intros [?|[? ?]]; discriminate); try (apply Dc; apply Hcrit; reflexivity).
  - (* D2 *) destruct h; [|discriminate]. specialize (Hot eq_refl). destruct (slt t) eqn:Es; [|specialize (Hst eq_refl); discriminate].
    injection H as <- <-. apply Hfin; [|apply abs_down; auto; rewrite Et; auto]. apply WW; auto; try discriminate; try (intros [?|[? ?]]; discriminate); try (apply Dc; apply Hcrit; reflexivity).
    + intros _ _ v Hv. destruct (isown (thr s v)) eqn:Ev; auto. apply Hot in Ev. contradiction.
  - (* U1 *) injection H as <- <-. destruct (slt t) eqn:Es; [specialize (Hut eq_refl); discriminate|].
    apply Hkeep; auto. apply WW; auto; try discriminate; try (intros [?|[? ?]]; discriminate); try (apply Dc; apply Hcrit; reflexivity).
  - (* U2 *) destruct (slt t) eqn:Es; [specialize (Hut eq_refl); discriminate|].
    destruct (N.eqb_spec (owner s) 0) as [E|E]; injection H as <- <-.
    + apply Hfin; [|apply abs_racq; auto; rewrite Et; auto]. apply WW; auto; try discriminate; try (intros [?|[? ?]]; discriminate); try (apply Dc; apply Hcrit; reflexivity).
    + apply Hkeep; auto. apply WW; auto; try discriminate; try (intros [?|[? ?]]; discriminate); try (apply Dc; apply Hcrit; reflexivity).
  - (* U3 *) injection H as <- <-. destruct (slt t) eqn:Es; [specialize (Hut eq_refl); discriminate|].
    apply Hkeep; auto. apply WW; auto; try discriminate; try (intros [?|[? ?]]; discriminate); try (apply Dc; apply Hcrit; reflexivity).
  - (* U4 *) injection H as <- <-. destruct (slt t) eqn:Es; [specialize (Hut eq_refl); discriminate|].
    destruct (N.eqb (owner s) 0); apply Hkeep; auto; apply WW; auto; try discriminate; try (intros [?|[? ?]]; discriminate); try (apply Dc; apply Hcrit; reflexivity).
  - (* R1 *) destruct (slt t) eqn:Es; [|specialize (Hst eq_refl); discriminate]. injection H as <- <-.
    apply Hkeep; auto. apply WW; auto; try discriminate; try (intros [?|[? ?]]; discriminate); try (apply Dc; apply Hcrit; reflexivity).
  - (* R2 *) destruct (slt t) eqn:Es; [|specialize (Hst eq_refl); discriminate].
    destruct (N.eqb_spec (owner s) 0) as [E|E]; injection H as <- <-.
    + apply Hfin; [|apply abs_racq; auto; rewrite Et; auto]. apply WW; auto; try discriminate; try (intros [?|[? ?]]; discriminate); try (apply Dc; apply Hcrit; reflexivity).
    + apply Hkeep; auto. apply WW; auto; try discriminate; try (intros [?|[? ?]]; discriminate); try (apply Dc; apply Hcrit; reflexivity).
  - (* R3 *) destruct (slt t) eqn:Es; [|specialize (Hst eq_refl); discriminate]. injection H as <- <-.
    apply Hkeep; auto. apply WW; auto; try discriminate; try (intros [?|[? ?]]; discriminate); try (apply Dc; apply Hcrit; reflexivity).
  - (* R4 *) injection H as <- <-. destruct (slt t) eqn:Es; [|specialize (Hst eq_refl); discriminate].
    destruct (N.eqb (owner s) 0); apply Hkeep; auto; apply WW; auto; try discriminate; try (intros [?|[? ?]]; discriminate); try (apply Dc; apply Hcrit; reflexivity).
  - (* upgrade *) destruct (slt t) eqn:Es; [|discriminate]. injection H as <- <-. apply Hkeep; auto. apply WW; auto; try discriminate; try (intros [?|[? ?]]; discriminate); try (apply Dc; apply Hcrit; reflexivity).
  - (* read_unlock *) destruct (slt t) eqn:Es; injection H as <- <-; (apply Hfin; [|apply abs_rrel; auto; rewrite Et; auto]);
      apply WW; auto; try discriminate; try (intros [?|[? ?]]; discriminate); try (apply Dc; apply Hcrit; reflexivity).
Qed.

Lemma bl_refines : forall ls s log, run cstep init ls = Some (s, log) -> rw_legal log /\ oob s = false.
Proof.
  intros ls s log H. destruct (sim_run _ _ _ _ cstep rw_step R R_step _ _ _ _ _ R_init H) as [a [Ha HR]].
  split; [exists a; auto|apply HR].
Qed.
End P.
