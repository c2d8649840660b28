From Coq Require Import Arith NArith List Bool Lia.
From Verif Require Import Lib LockSpec LockProg RwProg RwCohort_Model.
From Verif Require Cohort_Proof.
Module CP := Cohort_Proof.
Import ListNotations.
Local Arguments upd : simpl never.
Local Arguments Nat.ltb : simpl never.
Local Arguments Nat.eqb : simpl never.
Local Arguments N.eqb : simpl never.

Definition lph (q : C.pc) : bool := match q with C.L1 | C.L2 | C.L3 | C.L4 | C.L5 => true | _ => false end.
Definition uph (q : C.pc) : bool := match q with C.U1 | C.U2 | C.U3 | C.U4 | C.U5 | C.U6 _ => true | _ => false end.
Definition cok (p : pc) (q : C.pc) : Prop :=
  match p with
  | WL _ | RL => lph q = true
  | W2 _ | W4 | WIn | R8 => q = C.Crit
  | WB _ | WU | RU => uph q = true
  | _ => q = C.Idle
  end.
Definition wcr (x : pc * C.pc) : bool := match fst x with W4 | WIn => true | WU => CP.ins (snd x) | _ => false end.
Definition rcr (x : pc * C.pc) : bool := match fst x with RIn | R7 | RU => true | _ => false end.
Definition ctd (p : pc) : bool := match p with RIn | R7 | RU | R2 _ | R3 _ | R4 _ => true | _ => false end.

Definition nem (p : pc) : bool := match p with R0 | R1 _ | R2 _ | R3 _ | R4 _ | R5 _ | R6 _ | R7 => false | _ => true end.

Lemma rabs_ext : forall P wc rc a (f g : nat -> P), (forall t, f t = g t) -> rabs wc rc a f -> rabs wc rc a g.
Proof. intros P wc rc a f g E [H1 [H2 [H3 H4]]]. repeat split; auto; intros; try rewrite <- E in *; firstorder. Qed.

Section P.
Variables (n : nat) (coh : nat -> nat) (lim : nat -> N) (gp lp : bool -> bool) (k : kind).
Hypothesis Hn : (N.of_nat n < 2 ^ 32)%N.
Hypothesis Hlp : k = NE \/ lp true = true.

Lemma cstep_shape : forall c t a c' e, C.step n coh lim c (t, a) = Some (c', e) -> exists q, C.thr c' = upd (C.thr c) t q /\
  (e = [] /\ CP.ins q = CP.ins (C.thr c t) \/ e = [Acq t] /\ q = C.Crit /\ CP.ins (C.thr c t) = false \/ e = [Rel t] /\ CP.ins q = false /\ CP.ins (C.thr c t) = true) /\
  match a with
  | C.ALock => C.thr c t = C.Idle /\ q = C.L1 /\ e = []
  | C.AUnlock => C.thr c t = C.Crit /\ q = C.U1 /\ e = []
  | C.ATick => (lph (C.thr c t) = true -> lph q = true /\ e = [] \/ q = C.Crit) /\ (uph (C.thr c t) = true -> uph q = true \/ q = C.Idle)
  | _ => True
  end.
Proof.
  intros c t a c' e H. unfold C.step in H. destruct (Nat.ltb_spec t n) as [Hlt|]; [|discriminate]. cbn [negb] in H.
  destruct (C.thr c t) as [| | | | | | | | | | | |gf| | |r| | |] eqn:Et; destruct a; try discriminate; cbn iota in H;
  repeat match type of H with Some (if ?b then _ else _) = _ => destruct b eqn:? | (if ?b then _ else _) = _ => destruct b eqn:? end;
  try destruct gf; try destruct r; try destruct ((0 <? C.wait c (coh t))%N && (C.acq c (coh t) <? lim (coh t))%N);
  injection H as <- <-; eexists; (split; [reflexivity|]); cbn; intuition (auto; discriminate).
Qed.

Definition ph (s : state) (t : nat) : pc * C.pc := (rt s t, C.thr (cs s) t).
Record R (s : state) (a : rwst) : Prop := mkR {
  r_c : exists h, CP.R n coh (cs s) h;
  r_k : forall t, cok (rt s t) (C.thr (cs s) t);
  r_n : rc s = N.of_nat (cnt (fun t => ctd (rt s t)) n);
  r_a : rabs wcr rcr a (ph s);
  r_m : k = NE -> forall t, nem (rt s t) = true;
  r_ge : forall t, n <= t -> rt s t = Out }.

Lemma R_init : R init rw_init.
Proof.
  constructor; cbn; auto.
  - exists None. apply CP.R_init.
  - rewrite cnt_all_false; auto.
  - split; [|split; [|split]]; simpl; try constructor; try discriminate; try tauto; discriminate.
Qed.

Lemma c_unique : forall c h t u, CP.R n coh c h -> CP.ins (C.thr c t) = true -> CP.ins (C.thr c u) = true -> t = u.
Proof. intros c h t u [g [HI _]]. eapply CP.ins_unique; eauto. Qed.
Lemma c_glob : forall c h t, CP.R n coh c h -> CP.ins (C.thr c t) = true -> C.glob c = true.
Proof.
  intros c h t [g [HI _]] E. assert (O : CP.own g (coh t) = true) by (eapply CP.ins_own; eauto). rewrite (CP.i_g _ _ _ _ HI). destruct g; auto.
Qed.

Lemma wcr_ins : forall s a t, R s a -> wcr (ph s t) = true -> CP.ins (C.thr (cs s) t) = true.
Proof.
  intros s a t HR E. assert (K := r_k _ _ HR t). unfold wcr, ph in E. cbn in E. destruct (rt s t); try discriminate; cbn in K; try rewrite K; auto.
Qed.

Lemma wcr_rcr : forall x, wcr x = true -> rcr x = false.
Proof. intros [[] q]; cbn; auto; discriminate. Qed.

Lemma rcr_ctd : forall s t, rcr (ph s t) = true -> ctd (rt s t) = true.
Proof. intros s t. unfold rcr, ph. cbn. destruct (rt s t); auto. Qed.

Lemma ctd_lt : forall s a t, R s a -> ctd (rt s t) = true -> t < n.
Proof. intros s a t HR E. destruct (Nat.lt_ge_cases t n); auto. rewrite (r_ge _ _ HR) in E by auto. discriminate. Qed.

Lemma n_same : forall s a t p, R s a -> ctd p = ctd (rt s t) -> rc s = N.of_nat (cnt (fun u => ctd (upd (rt s) t p u)) n).
Proof. intros s a t p HR E. rewrite (r_n _ _ HR). f_equal. apply cnt_ext. intros u _. upd_goal; auto. subst. auto. Qed.
Lemma n_inc : forall s a t p, R s a -> t < n -> ctd p = true -> ctd (rt s t) = false -> C.uinc (rc s) = N.of_nat (cnt (fun u => ctd (upd (rt s) t p u)) n).
Proof.
  intros s a t p HR Hlt E1 E2. rewrite (r_n _ _ HR).
  assert (X := cnt_change (fun u => ctd (rt s u)) (fun u => ctd (upd (rt s) t p u)) n t Hlt). cbn beta in X. rewrite upd_same, E1, E2 in X.
  assert (Y : forall i, i <> t -> ctd (rt s i) = ctd (upd (rt s) t p i)) by (intros; rewrite upd_other; auto). specialize (X Y).
  assert (Z := cnt_le (fun u => ctd (upd (rt s) t p u)) n). change (2 ^ 32)%N with 4294967296%N in Hn.
  rewrite CP.uinc_ok; [f_equal|]; lia.
Qed.
Lemma n_dec : forall s a t p, R s a -> t < n -> ctd p = false -> ctd (rt s t) = true -> C.udec (rc s) = N.of_nat (cnt (fun u => ctd (upd (rt s) t p u)) n).
Proof.
  intros s a t p HR Hlt E1 E2. rewrite (r_n _ _ HR).
  assert (X := cnt_change (fun u => ctd (rt s u)) (fun u => ctd (upd (rt s) t p u)) n t Hlt). cbn beta in X. rewrite upd_same, E1, E2 in X.
  assert (Y : forall i, i <> t -> ctd (rt s i) = ctd (upd (rt s) t p i)) by (intros; rewrite upd_other; auto). specialize (X Y).
  assert (Z := cnt_le (fun u => ctd (rt s u)) n). change (2 ^ 32)%N with 4294967296%N in Hn.
  replace (cnt (fun u => ctd (rt s u)) n) with (S (cnt (fun u => ctd (upd (rt s) t p u)) n)) in * by lia. apply CP.udec_ok. lia.
Qed.

(** A step of [t] to pc [p], cohort pc [q]. *)
Lemma R_gen : forall s a t p q s' a' ev, R s a -> t < n ->
  (exists h, CP.R n coh (cs s') h) -> rt s' = upd (rt s) t p -> C.thr (cs s') = upd (C.thr (cs s)) t q ->
  cok p q -> rc s' = N.of_nat (cnt (fun u => ctd (upd (rt s) t p u)) n) ->
  accepts rw_step a ev = Some a' -> rabs wcr rcr a' (upd (ph s) t (p, q)) ->
  (k = NE -> nem p = true) ->
  exists a', accepts rw_step a ev = Some a' /\ R s' a'.
Proof.
  intros s a t p q s' a' ev HR Hlt Hc E1 E2 Hk Hrc Hacc Hab Hm. exists a'. split; auto. constructor; auto.
  - intros u. rewrite E1, E2. unfold upd. destruct (Nat.eq_dec u t); auto. apply (r_k _ _ HR).
  - rewrite E1. auto.
  - eapply rabs_ext; [|exact Hab]. intros u. unfold ph. rewrite E1, E2. unfold upd. destruct (Nat.eq_dec u t); auto.
  - intros Ek u. rewrite E1. upd_goal; auto. apply (r_m _ _ HR Ek).
  - intros u Hu. rewrite E1, upd_other by lia. apply (r_ge _ _ HR); auto.
Qed.

Lemma R_gen0 : forall s a t p s' a' ev, R s a -> t < n ->
  cs s' = cs s -> rt s' = upd (rt s) t p ->
  cok p (C.thr (cs s) t) -> rc s' = N.of_nat (cnt (fun u => ctd (upd (rt s) t p u)) n) ->
  accepts rw_step a ev = Some a' -> rabs wcr rcr a' (upd (ph s) t (p, C.thr (cs s) t)) ->
  (k = NE -> nem p = true) ->
  exists a', accepts rw_step a ev = Some a' /\ R s' a'.
Proof.
  intros s a t p s' a' ev HR Hlt Hc E1 Hk Hrc Hacc Hab Hm. exists a'. split; auto. constructor; auto.
  - rewrite Hc. apply (r_c _ _ HR).
  - intros u. rewrite E1, Hc. upd_goal; auto. subst; auto. apply (r_k _ _ HR).
  - rewrite E1. auto.
  - eapply rabs_ext; [|exact Hab]. intros u. unfold ph. rewrite E1, Hc. unfold upd. destruct (Nat.eq_dec u t); auto. subst; auto.
  - intros Ek u. rewrite E1. upd_goal; auto. apply (r_m _ _ HR Ek).
  - intros u Hu. rewrite E1, upd_other by lia. apply (r_ge _ _ HR); auto.
Qed.

Lemma R_step : forall s a l s' e, R s a -> step n coh lim gp lp k s l = Some (s', e) -> exists a', accepts rw_step a e = Some a' /\ R s' a'.
Proof.
  intros s a [t x] s' e HR Hs. unfold step in Hs.
  destruct (Nat.ltb_spec t n) as [Hlt|]; [|discriminate]. cbn [negb] in Hs.
  assert (K := r_k _ _ HR t). assert (HA := r_a _ _ HR). assert (HM := fun E => r_m _ _ HR E t). destruct (r_c _ _ HR) as [h HC].
  (* own steps that emit nothing *)
  assert (Hown : forall p s1, cs s1 = cs s -> rt s1 = upd (rt s) t p -> cok p (C.thr (cs s) t) ->
     rc s1 = N.of_nat (cnt (fun u => ctd (upd (rt s) t p u)) n) ->
     wcr (ph s t) = wcr (p, C.thr (cs s) t) -> rcr (ph s t) = rcr (p, C.thr (cs s) t) ->
     (k = NE -> nem p = true) ->
     exists a', accepts rw_step a [] = Some a' /\ R s1 a').
  { intros p s1 E1 E2 E3 E4 E5 E6 E7. eapply R_gen0; eauto. reflexivity. apply abs_same; auto. }
  assert (Hself : exists a', accepts rw_step a [] = Some a' /\ R s a') by (exists a; auto).
  (* cohort steps *)
  assert (Hcoh : forall ca q p0 p ev s1 e1, ctick n coh lim s t ca q p0 p ev = Some (s1, e1) ->
     exists c cq ce, s1 = mk c (rc s) (bar s) (upd (rt s) t (if q cq then p else p0)) /\ C.thr c = upd (C.thr (cs s)) t cq /\
       e1 = (match ce with [Rel _] => ev | _ => [] end) /\ (exists h', CP.R n coh c h') /\
       (ce = [] /\ CP.ins cq = CP.ins (C.thr (cs s) t) \/ ce = [Acq t] /\ cq = C.Crit /\ CP.ins (C.thr (cs s) t) = false \/ ce = [Rel t] /\ CP.ins cq = false /\ CP.ins (C.thr (cs s) t) = true) /\
       match ca with
       | C.ALock => C.thr (cs s) t = C.Idle /\ cq = C.L1 /\ ce = []
       | C.AUnlock => C.thr (cs s) t = C.Crit /\ cq = C.U1 /\ ce = []
       | C.ATick => (lph (C.thr (cs s) t) = true -> lph cq = true /\ ce = [] \/ cq = C.Crit) /\ (uph (C.thr (cs s) t) = true -> uph cq = true \/ cq = C.Idle)
       | _ => True
       end).
  { intros ca q p0 p ev s1 e1 H. unfold ctick in H. destruct (C.step n coh lim (cs s) (t, ca)) as [[c ce]|] eqn:Ec; [|discriminate].
    destruct (cstep_shape _ _ _ _ _ Ec) as [cq [X1 [X2 X3]]]. destruct (CP.R_step n coh lim Hn _ _ _ _ _ HC Ec) as [h' [_ X4]].
    injection H as <- <-. exists c, cq, ce. rewrite X1, upd_same. repeat split; eauto. }
  assert (Hcl : forall p0 p s1 e1, ctick n coh lim s t C.ALock iscrit p0 p [] = Some (s1, e1) -> cok p0 C.L1 ->
     ctd p0 = ctd (rt s t) -> wcr (ph s t) = wcr (p0, C.L1) -> rcr (ph s t) = rcr (p0, C.L1) -> nem p0 = true ->
     exists a', accepts rw_step a e1 = Some a' /\ R s1 a').
  { intros p0 p s1 e1 H D1 D2 D3 D4 D5. destruct (Hcoh _ _ _ _ _ _ _ H) as [c [cq [ce [-> [E2 [-> [E4 [E5 [E6 [-> ->]]]]]]]]]].
    eapply (R_gen s a t p0 C.L1); cbn; eauto; [eapply n_same; eauto|apply abs_same; auto]. }
  assert (Hcu : forall p0 p s1 e1, ctick n coh lim s t C.AUnlock isidle p0 p [] = Some (s1, e1) -> cok p0 C.U1 ->
     ctd p0 = ctd (rt s t) -> wcr (ph s t) = wcr (p0, C.U1) -> rcr (ph s t) = rcr (p0, C.U1) -> nem p0 = true ->
     exists a', accepts rw_step a e1 = Some a' /\ R s1 a').
  { intros p0 p s1 e1 H D1 D2 D3 D4 D5. destruct (Hcoh _ _ _ _ _ _ _ H) as [c [cq [ce [-> [E2 [-> [E4 [E5 [E6 [-> ->]]]]]]]]]].
    eapply (R_gen s a t p0 C.U1); cbn; eauto; [eapply n_same; eauto|apply abs_same; auto]. }
  assert (Htl : forall p0 p s1 e1, ctick n coh lim s t C.ATick iscrit p0 p [] = Some (s1, e1) -> lph (C.thr (cs s) t) = true ->
     (forall q, lph q = true -> cok p0 q /\ wcr (ph s t) = wcr (p0, q) /\ rcr (ph s t) = rcr (p0, q)) -> cok p C.Crit ->
     wcr (ph s t) = wcr (p, C.Crit) -> rcr (ph s t) = rcr (p, C.Crit) ->
     ctd p0 = ctd (rt s t) -> ctd p = ctd (rt s t) -> nem p0 = true -> nem p = true ->
     exists a', accepts rw_step a e1 = Some a' /\ R s1 a').
  { intros p0 p s1 e1 H D0 D1 D2 D3 D4 D5 D6 D7 D8. destruct (Hcoh _ _ _ _ _ _ _ H) as [c [cq [ce [-> [E2 [-> [E4 [E5 [E6 _]]]]]]]]].
    assert (Ee : match ce with [Rel _] => [] | _ => [] end = @nil rwev) by (destruct ce as [|[] []]; auto). rewrite Ee.
    assert (Hcase : cq = C.Crit \/ lph cq = true) by (destruct (E6 D0) as [[? ?]|?]; auto).
    destruct Hcase as [->|Hq].
    - eapply (R_gen s a t p C.Crit); cbn; eauto; [eapply n_same; eauto|apply abs_same; auto].
    - assert (iscrit cq = false) by (destruct cq; auto; discriminate). rewrite H0. destruct (D1 _ Hq) as [? [? ?]].
      eapply (R_gen s a t p0 cq); cbn; eauto; [eapply n_same; eauto|apply abs_same; auto]. }
  assert (Htu : forall p0 p s1 e1, ctick n coh lim s t C.ATick isidle p0 p [] = Some (s1, e1) -> uph (C.thr (cs s) t) = true ->
     (forall q, uph q = true -> cok p0 q /\ wcr (ph s t) = wcr (p0, q) /\ rcr (ph s t) = rcr (p0, q)) -> cok p C.Idle ->
     wcr (ph s t) = wcr (p, C.Idle) -> rcr (ph s t) = rcr (p, C.Idle) ->
     ctd p0 = ctd (rt s t) -> ctd p = ctd (rt s t) -> nem p0 = true -> nem p = true ->
     exists a', accepts rw_step a e1 = Some a' /\ R s1 a').
  { intros p0 p s1 e1 H D0 D1 D2 D3 D4 D5 D6 D7 D8. destruct (Hcoh _ _ _ _ _ _ _ H) as [c [cq [ce [-> [E2 [-> [E4 [E5 [_ E6]]]]]]]]].
    assert (Ee : match ce with [Rel _] => [] | _ => [] end = @nil rwev) by (destruct ce as [|[] []]; auto). rewrite Ee.
    destruct (E6 D0) as [Hq| ->].
    - assert (isidle cq = false) by (destruct cq; auto; discriminate). rewrite H0. destruct (D1 _ Hq) as [? [? ?]].
      eapply (R_gen s a t p0 cq); cbn; eauto; [eapply n_same; eauto|apply abs_same; auto].
    - eapply (R_gen s a t p C.Idle); cbn; eauto; [eapply n_same; eauto|apply abs_same; auto]. }
  assert (Hpt : forall p q, rt s t = p -> C.thr (cs s) t = q -> ph s t = (p, q)) by (intros p q <- <-; reflexivity).
  assert (Hwo : forall u, CP.ins (C.thr (cs s) t) = true -> wcr (ph s u) = true -> u = t).
  { intros u D1 D2. eapply c_unique; eauto. eapply wcr_ins; eauto. }
  destruct (rt s t) as [| |r|r|r|r| | | | |r|r|r|r|r|r| | | | |] eqn:Et; destruct x; try discriminate; cbn iota in Hs; try (destruct r; discriminate);
  cbn in K; try (rewrite (Hpt _ _ eq_refl K) in *).
  - destruct k; [injection Hs as <- <-; eapply (Hown W0); cbn; auto; try (rewrite K; auto); eapply n_same; eauto; rewrite Et; auto|..];
    cbn iota in Hs; apply (Hcl _ _ _ _ Hs); reflexivity.
  - destruct k; [injection Hs as <- <-; eapply (Hown (R1 false)); cbn; auto; try (rewrite K; auto); try discriminate; eapply n_same; eauto; rewrite Et; auto
       |injection Hs as <- <-; eapply (Hown R0); cbn; auto; try (rewrite K; auto); try discriminate; eapply n_same; eauto; rewrite Et; auto|].
    cbn iota in Hs; apply (Hcl _ _ _ _ Hs); reflexivity.
  - destruct (N.eqb (bar s) 0); [|injection Hs as <- <-; auto]. cbn iota in Hs; apply (Hcl _ _ _ _ Hs); reflexivity.
  - eapply Htl; eauto; cbn; unfold wcr, rcr, ph; cbn; rewrite ?Et; auto.
  - destruct (N.eqb_spec (rc s) 0) as [E0|E0].
    + injection Hs as <- <-.
      assert (Hr : forall u, rcr (ph s u) = false).
      { intros u. destruct (rcr (ph s u)) eqn:Eu; auto. assert (Z := rcr_ctd _ _ Eu). assert (Zl := ctd_lt _ _ _ HR Z).
        rewrite (r_n _ _ HR) in E0. assert (X := cnt_pos (fun t => ctd (rt s t)) n u Zl Z). lia. }
      assert (Hw : forall u, wcr (ph s u) = false).
      { intros u. destruct (wcr (ph s u)) eqn:Eu; auto. assert (u = t) by (apply Hwo; auto; rewrite K; auto). subst u. rewrite (Hpt _ _ eq_refl K) in Eu. discriminate. }
      set (p := match k with RP => if r then W4 else WIn | _ => WIn end).
      assert (Hp : p = W4 \/ p = WIn) by (unfold p; destruct k, r; auto). clearbody p.
      destruct (abs_wacq wcr rcr a (ph s) t (p, C.Crit) HA Hr Hw) as [a' [A1 A2]]; [destruct Hp as [-> | ->]; auto..|].
      eapply (R_gen0 s a t p); eauto; rewrite ?K; cbn; auto.
      * destruct Hp as [-> | ->]; reflexivity.
      * eapply n_same; eauto; rewrite Et. destruct Hp as [-> | ->]; auto.
      * destruct Hp as [-> | ->]; auto.
    + destruct k; try (injection Hs as <- <-; auto). cbn iota in Hs; apply (Hcu _ _ _ _ Hs); reflexivity.
  - eapply Htu; eauto; cbn; unfold wcr, rcr, ph; cbn; rewrite ?Et; auto.
  - destruct r; (destruct (N.eqb_spec (rc s) 0) as [E0|E0]; [|injection Hs as <- <-; auto]); cbn iota in Hs; apply (Hcl _ _ _ _ Hs); reflexivity.
  - destruct r; [discriminate|]. injection Hs as <- <-. eapply (Hown (W3 true)); cbn; auto; rewrite ?K; auto. eapply n_same; eauto; rewrite Et; auto.
  - injection Hs as <- <-. eapply (Hown WIn); cbn; auto; rewrite ?K; auto. eapply n_same; eauto; rewrite Et; auto.
  - cbn iota in Hs; apply (Hcu _ _ _ _ Hs); reflexivity.
  - (* write_unlock in progress *)
    destruct (Hcoh _ _ _ _ _ _ _ Hs) as [c [cq [ce [-> [E2 [-> [E4 [E5 [_ E6]]]]]]]]].
    set (p := if isidle cq then Out else WU).
    assert (Hk : cok p cq) by (unfold p; destruct (E6 K) as [Hq| ->]; [destruct cq; try discriminate Hq; reflexivity|reflexivity]).
    assert (Hp : ctd p = false /\ nem p = true /\ rcr (p, cq) = false /\ wcr (p, cq) = CP.ins cq) by (unfold p; destruct cq; auto).
    destruct Hp as [P1 [P2 [P3 P4]]].
    assert (Pw : wcr (ph s t) = CP.ins (C.thr (cs s) t)) by (unfold wcr, ph; cbn; rewrite Et; auto).
    assert (Pr : rcr (ph s t) = false) by (unfold rcr, ph; cbn; rewrite Et; auto).
    destruct E5 as [[-> E5]|[[-> [-> _]]|[-> [E5 E5']]]].
    + eapply (R_gen s a t p cq); cbn; eauto; [eapply n_same; eauto; rewrite Et; auto|apply abs_same; auto; congruence].
    + destruct (E6 K); discriminate.
    + destruct (abs_wrel wcr rcr a (ph s) t (p, cq) HA) as [a' [A1 A2]]; auto; try congruence.
      eapply (R_gen s a t p cq); cbn; eauto. eapply n_same; eauto; rewrite Et; auto.
  - destruct (N.eqb (bar s) 0); injection Hs as <- <-; auto. eapply (Hown (R1 false)); cbn; auto; rewrite ?K; auto. all: try (intros E; apply HM in E; discriminate).
    eapply n_same; eauto; rewrite Et; auto.
  - injection Hs as <- <-. eapply (Hown (R2 r)); cbn; auto; rewrite ?K; auto. all: try (intros E; apply HM in E; discriminate).
    eapply n_inc; eauto; rewrite Et; auto.
  - assert (HNE : k <> NE) by (intros E; apply HM in E; discriminate).
    destruct (gp (C.loc (cs s) (coh t))); injection Hs as <- <-.
    + eapply (Hown (match k with WP => R4 r | _ => R2 r end)); cbn; auto; rewrite ?K; try (destruct k; auto; congruence).
      eapply n_same; eauto; rewrite Et; destruct k; auto.
    + eapply (Hown (R3 r)); cbn; auto; rewrite ?K; auto; try congruence. eapply n_same; eauto; rewrite Et; auto.
  - assert (HNE : k <> NE) by (intros E; apply HM in E; discriminate).
    destruct (lp (C.glob (cs s))) eqn:Eg; injection Hs as <- <-.
    + eapply (Hown (match k with WP => R4 r | _ => R2 r end)); cbn; auto; rewrite ?K; try (destruct k; auto; congruence).
      eapply n_same; eauto; rewrite Et; destruct k; auto.
    + assert (Hw : forall u, wcr (ph s u) = false).
      { intros u. destruct (wcr (ph s u)) eqn:Eu; auto. assert (G := c_glob _ _ u HC (wcr_ins _ _ _ HR Eu)). rewrite G in Eg. destruct Hlp; congruence. }
      destruct (abs_racq wcr rcr a (ph s) t (if r then R7 else RIn, C.Idle) HA Hw) as [a' [A1 A2]]; [rewrite (Hpt _ _ eq_refl K); auto|destruct r; auto..|].
      eapply (R_gen0 s a t (if r then R7 else RIn)); eauto; rewrite ?K; cbn; auto; try (destruct r; auto; congruence).
      eapply n_same; eauto; rewrite Et; destruct r; auto.
  - injection Hs as <- <-. eapply (Hown (R5 r)); cbn; auto; rewrite ?K; auto. all: try (intros E; apply HM in E; discriminate).
    eapply n_dec; eauto; rewrite Et; auto.
  - assert (Hs' : (if gp (C.loc (cs s) (coh t)) then Some (s, []) else Some (go s t (R6 r), [])) = Some (s', e)) by (destruct r; auto). clear Hs. rename Hs' into Hs.
    destruct (gp (C.loc (cs s) (coh t))); injection Hs as <- <-; auto.
    eapply (Hown (R6 r)); cbn; auto; rewrite ?K; auto. all: try (intros E; apply HM in E; discriminate). eapply n_same; eauto; rewrite Et; auto.
  - destruct r; [discriminate|]. injection Hs as <- <-.
    eapply (Hown (R5 true)); cbn; auto; rewrite ?K; auto. all: try (intros E; apply HM in E; discriminate). eapply n_same; eauto; rewrite Et; auto.
  - injection Hs as <- <-.
    eapply (Hown (if lp (C.glob (cs s)) then R5 r else R1 r)); cbn; auto; rewrite ?K; try (destruct (lp (C.glob (cs s))); auto).
    all: try reflexivity; try (intros E; apply HM in E; discriminate). all: eapply n_same; eauto; rewrite Et; auto.
  - injection Hs as <- <-. eapply (Hown RIn); cbn; auto; rewrite ?K; auto. eapply n_same; eauto; rewrite Et; auto.
  - eapply Htl; eauto; cbn; unfold wcr, rcr, ph; cbn; rewrite ?Et; auto.
  - destruct (ctick n coh lim s t C.AUnlock isidle RU RIn []) as [[s1 e1]|] eqn:Ec; [|discriminate]. injection Hs as <- <-.
    destruct (Hcoh _ _ _ _ _ _ _ Ec) as [c [cq [ce [-> [E2 [_ [E4 [_ [_ [-> ->]]]]]]]]]].
    assert (Hw : forall u, wcr (ph s u) = false).
    { intros u. destruct (wcr (ph s u)) eqn:Eu; auto. assert (u = t) by (apply Hwo; auto; rewrite K; auto). subst u. rewrite (Hpt _ _ eq_refl K) in Eu. discriminate. }
    destruct (abs_racq wcr rcr a (ph s) t (RU, C.U1) HA Hw) as [a' [A1 A2]]; auto; [rewrite (Hpt _ _ eq_refl K); auto|].
    eapply (R_gen s a t RU C.U1); cbn; eauto. eapply n_inc; eauto; rewrite Et; auto.
  - eapply Htu; eauto; cbn; unfold wcr, rcr, ph; cbn; rewrite ?Et; auto.
  - injection Hs as <- <-.
    destruct (abs_rrel wcr rcr a (ph s) t (Out, C.Idle) HA) as [a' [A1 A2]]; auto; [rewrite (Hpt _ _ eq_refl K); auto..|].
    eapply (R_gen0 s a t Out); eauto; rewrite ?K; cbn; auto. eapply n_dec; eauto; rewrite Et; auto.
Qed.

Theorem legal : forall ls s log, run (step n coh lim gp lp k) init ls = Some (s, log) -> rw_legal log.
Proof.
  intros ls s log H. destruct (run_refines _ rw_step R init rw_init R_init R_step ls s log H) as [h [E _]]. exists h. auto.
Qed.
End P.

Lemma legal_k : forall n coh lim gp lp k, (N.of_nat n < 2 ^ 32)%N -> lp true = true ->
  forall ls s log, run (step n coh lim gp lp k) init ls = Some (s, log) -> rw_legal log.
Proof. intros. eapply legal; eauto. Qed.

Lemma legal_ne : forall n coh lim gp lp, (N.of_nat n < 2 ^ 32)%N ->
  forall ls s log, run (step n coh lim gp lp NE) init ls = Some (s, log) -> rw_legal log.
Proof. intros. eapply legal; eauto. Qed.

Lemma mixed : forall k, k <> NE -> exists n coh lim ls s log,
  run (step n coh lim (fun b => b) (fun _ => false) k) init ls = Some (s, log) /\ log = [WAcq 0; RAcq 1].
Proof.
  intros k Hk. exists 2, (fun t => t), (fun _ => 5%N).
  destruct k; [exists ((0, AWLock) :: repeat (0, ATick) 7 ++ (1, ARLock) :: repeat (1, ATick) 3)|exists ((0, AWLock) :: repeat (0, ATick) 6 ++ (1, ARLock) :: repeat (1, ATick) 4)|congruence];
  match goal with |- exists s log, run ?st ?i ?l = _ /\ _ =>
    assert (X : match run st i l with Some (_, log) => log = [WAcq 0; RAcq 1] | None => False end) by (vm_compute; reflexivity);
    destruct (run st i l) as [[s log]|]; [|destruct X]; exists s, log; auto end.
Qed.
