(** Every run of the MPMC FIFO on TSO has the events of a run of FifoMp_Model in which the stores
    to a private entry happen when they are issued: until they have arrived nobody but the storing
    thread looks at the entry, except a dequeue that is bound to fail. *)
From Coq Require Import NArith Arith List Bool Lia.
From Verif Require Import Lib Lin Stack_Proof FifoSp_Proof FifoMp_Model FifoMp_Proof TsoFifoMp_Model TsoFifoMp_Spec.
Import ListNotations.
Local Arguments Nat.eqb : simpl never.
Local Arguments N.eqb : simpl never.
Local Arguments N.modulo : simpl never.
Local Arguments N.add : simpl never.
Local Arguments Nat.ltb : simpl never.
Local Arguments upd : simpl never.

(** ** Views *)
Definition pend (T : fst_t) (t e : nat) : Prop := In e (map ent_of (fb T t)).

Definition same_ctl (a b : mst) : Prop :=
  hp a = hp b /\ hg a = hg b /\ tp a = tp b /\ tg a = tg b /\ own a = own b /\ thr a = thr b.
Lemma put1_ctl : forall m x, same_ctl (put1 m x) m.
Proof. intros m [e v|e x|e g]; repeat split. Qed.
Lemma puts_ctl : forall b m, same_ctl (fold_left put1 b m) m.
Proof.
  induction b as [|x b IH]; intros m; simpl; [repeat split|].
  destruct (IH (put1 m x)) as (A & B & C & D & E & F). destruct (put1_ctl m x) as (A' & B' & C' & D' & E' & F').
  repeat split; congruence.
Qed.
Definition same_fld (e : nat) (a b : mst) : Prop := nx a e = nx b e /\ ng a e = ng b e /\ vl a e = vl b e.
Lemma put1_fld : forall m x e, ent_of x <> e -> same_fld e (put1 m x) m.
Proof. intros m [y v|y x|y g] e N; repeat split; simpl; apply upd_other; auto. Qed.
Lemma put1_cong : forall a b x e, same_fld e a b -> same_fld e (put1 a x) (put1 b x).
Proof.
  intros a b [y v|y x|y g] e (A & B & C); repeat split; simpl; auto;
    (destruct (Nat.eq_dec e y) as [->|N]; [rewrite !upd_same; reflexivity|rewrite !upd_other by auto; assumption]).
Qed.
Lemma puts_fld : forall b m e, ~ In e (map ent_of b) -> same_fld e (fold_left put1 b m) m.
Proof.
  induction b as [|x b IH]; intros m e N; simpl; [repeat split|]. simpl in N.
  destruct (IH (put1 m x) e) as (A & B & C); [tauto|]. destruct (put1_fld m x e) as (A' & B' & C'); [tauto|].
  repeat split; congruence.
Qed.
Lemma puts_cong : forall b m m' e, same_fld e m m' -> same_fld e (fold_left put1 b m) (fold_left put1 b m').
Proof. induction b as [|x b IH]; intros m m' e H; simpl; [exact H|]. apply IH. apply put1_cong. exact H. Qed.
Lemma fld_refl : forall e m, same_fld e m m.
Proof. repeat split. Qed.
Lemma fld_trans : forall e a b c, same_fld e a b -> same_fld e b c -> same_fld e a c.
Proof. intros e a b c (A & B & C) (A' & B' & C'). repeat split; congruence. Qed.
Lemma fld_sym : forall e a b, same_fld e a b -> same_fld e b a.
Proof. intros e a b (A & B & C). repeat split; congruence. Qed.

(** ** The relation *)
(** program counters agree, except for the value a dequeue has read that will not succeed *)
Definition peq (h0 : nat) (p q : mpc) : Prop :=
  p = q \/ match p, q with
           | K9 b g h x _, K9 b' g' h' x' _ => b = b' /\ g = g' /\ h = h' /\ x = x' /\ h0 <> h
           | _, _ => False
           end.
Lemma peq_holds : forall h p q e, peq h p q -> holds p e = holds q e.
Proof. intros h p q e [->|H]; [reflexivity|]. destruct p; destruct q; try contradiction. destruct H as (-> & -> & -> & -> & _). reflexivity. Qed.
Lemma peq_eq : forall h p q, peq h p q -> (forall b g h x v, q <> K9 b g h x v) -> p = q.
Proof. intros h p q [->|H] N; [reflexivity|]. destruct p; destruct q; try contradiction. exfalso. eapply N. reflexivity. Qed.

Section P.
Variable n : nat.

Record Rf (T : fst_t) (S : mst) : Prop := {
  R_hp : hp S = hp (fm T); R_hg : hg S = hg (fm T); R_tp : tp S = tp (fm T); R_tg : tg S = tg (fm T);
  R_own : own S = own (fm T);
  R_thr : forall u, peq (hp S) (thr S u) (thr (fm T) u);
  R_fld : forall u e, (forall v, v <> u -> ~ pend T v e) -> same_fld e S (vw T u);
  R_uni : forall u v e, pend T u e -> pend T v e -> u = v;
  R_pd : forall u e, pend T u e -> (own S e = true \/ prep (thr S u) = Some e) /\ forall v, holds (thr S v) e = false;
  R_nt : forall u, n <= u -> fb T u = [] }.

Lemma Rf_init : forall e, Rf (finit e) (minit e).
Proof.
  intros e. constructor; simpl; auto; try (intros; contradiction).
  - intros u. left. reflexivity.
  - intros u x _. apply fld_refl.
Qed.

Lemma holds_np : forall s b u x, MR n s b -> holds (thr s u) x = true -> forall v, prep (thr s v) <> Some x.
Proof.
  intros s b u x HR H v. pose proof (MR_ti _ _ _ HR u) as T.
  destruct (thr s u); cbn [holds] in H; try discriminate; apply Nat.eqb_eq in H; subst; cbn [TI] in T;
    repeat match goal with
    | H : _ /\ _ |- _ => destruct H
    | H : HT _ _ _ _ _ |- _ => destruct H as [? _]
    | H : HH _ _ _ _ _ |- _ => destruct H as [? _]
    end; auto.
Qed.

Lemma pend_out : forall T s b u e, Rf T s -> MR n s b -> pend T u e -> ~ In e (all (fst b)).
Proof.
  intros T s b u e HF HR P. destruct (R_pd _ _ HF u e P) as [[O|O] _].
  - apply (MR_own _ _ _ HR e O).
  - exact (MR_pre _ _ _ HR u e O).
Qed.

(** an entry a thread holds, or that is in the list, looks the same to everybody *)
Lemma fld_free : forall T s t e, Rf T s -> (forall v, ~ pend T v e) -> same_fld e s (vw T t) /\ same_fld e s (fm T).
Proof.
  intros T s t e HF N. assert (X : same_fld e s (vw T t)) by (apply (R_fld _ _ HF); auto).
  split; [exact X|]. eapply fld_trans; [exact X|]. apply puts_fld. apply N.
Qed.
Lemma held_free : forall T s t e, Rf T s -> holds (thr s t) e = true -> forall v, ~ pend T v e.
Proof. intros T s t e HF H v P. destruct (R_pd _ _ HF v e P) as [_ X]. rewrite X in H. discriminate. Qed.

(** ** A step that leaves the buffers alone *)
Lemma Rf_gen : forall T S m' S' t p q, Rf T S ->
  (forall u e, (forall v, v <> u -> ~ pend T v e) -> same_fld e S' (fold_left put1 (fb T u) m')) ->
  hp S' = hp m' -> hg S' = hg m' -> tp S' = tp m' -> tg S' = tg m' -> own S' = own m' ->
  thr S' = upd (thr S) t p -> thr m' = upd (thr (fm T)) t q -> peq (hp S') p q ->
  (forall u, u <> t -> peq (hp S') (thr S u) (thr (fm T) u)) ->
  (forall e, pend T t e -> own S' e = true \/ prep p = Some e) ->
  (forall u e, u <> t -> pend T u e -> own S e = true -> own S' e = true) ->
  (forall u e, pend T u e -> holds p e = false) ->
  Rf {| fm := m'; fb := fb T |} S'.
Proof.
  intros T S m' S' t p q HF FS E1 E2 E3 E4 E5 E6 E7 Ep Eo P1 P2 P3. constructor; cbn [fm fb]; auto.
  - intros u. rewrite E6, E7. destruct (Nat.eq_dec u t) as [->|N]; [rewrite !upd_same; exact Ep|rewrite !upd_other by auto; auto].
  - exact (R_uni _ _ HF).
  - intros u e P. destruct (R_pd _ _ HF u e P) as [A B]. split.
    + destruct (Nat.eq_dec u t) as [->|N].
      * rewrite E6, upd_same. auto.
      * rewrite E6, upd_other by auto. destruct A as [A|A]; [left; eauto|right; exact A].
    + intros v. rewrite E6. destruct (Nat.eq_dec v t) as [->|N]; [rewrite upd_same; eauto|rewrite upd_other by auto; auto].
  - exact (R_nt _ _ HF).
Qed.
(** the fields of the entries stay as well *)
Lemma Rf_ctl : forall T S m' S' t p q, Rf T S ->
  (forall e, same_fld e S' S) -> (forall e, same_fld e m' (fm T)) ->
  hp S' = hp m' -> hg S' = hg m' -> tp S' = tp m' -> tg S' = tg m' -> own S' = own m' ->
  thr S' = upd (thr S) t p -> thr m' = upd (thr (fm T)) t q -> peq (hp S') p q ->
  (forall u, u <> t -> peq (hp S') (thr S u) (thr (fm T) u)) ->
  (forall e, pend T t e -> own S' e = true \/ prep p = Some e) ->
  (forall u e, u <> t -> pend T u e -> own S e = true -> own S' e = true) ->
  (forall u e, pend T u e -> holds p e = false) ->
  Rf {| fm := m'; fb := fb T |} S'.
Proof.
  intros T S m' S' t p q HF FS FT E1 E2 E3 E4 E5 E6 E7 Ep Eo P1 P2 P3. eapply Rf_gen; eauto.
  intros u e N. eapply fld_trans; [apply FS|]. eapply fld_trans; [apply (R_fld _ _ HF u e N)|].
  unfold vw. apply puts_cong. apply fld_sym. apply FT.
Qed.

Lemma peq_refl : forall h p, peq h p p.
Proof. left. reflexivity. Qed.

Definition goal (T : fst_t) (S : mst) (t : nat) (T' : fst_t) (ev : list mev) : Prop :=
  exists S', mtick S t = Some (S', ev) /\ Rf T' S'.

(** a step of the control of [t] only: same list, same counters *)
Lemma ctl_go : forall T S t p ev, Rf T S -> mtick S t = Some (go S t p, ev) ->
  prep p = prep (thr S t) -> (forall u e, pend T u e -> holds p e = false) ->
  goal T S t {| fm := go (fm T) t p; fb := fb T |} ev.
Proof.
  intros T S t p ev HF E Pp Ph. exists (go S t p). split; [exact E|].
  eapply Rf_ctl with (S := S) (t := t) (p := p) (q := p); cbn [go hp hg tp tg own thr]; try (intros; repeat split; fail); try apply HF; auto; try reflexivity.
  - apply peq_refl.
  - intros u _. apply (R_thr _ _ HF).
  - intros e P. destruct (R_pd _ _ HF t e P) as [[A|A] _]; [left; exact A|right; congruence].
Qed.

(** a failed try returns, the loop starts over *)
Lemma ctl_again : forall T S t b e v ev T' S0 m0, Rf T S -> prep (thr S t) = Some e ->
  (forall x, same_fld x S0 S) -> (forall x, same_fld x m0 (fm T)) ->
  hp S0 = hp S -> hp m0 = hp S -> hg S0 = hg m0 -> tp S0 = tp m0 -> tg S0 = tg m0 ->
  own S0 = own S -> own m0 = own (fm T) -> thr S0 = thr S -> thr m0 = thr (fm T) ->
  again m0 t b e v = Some (T', ev) ->
  exists S', again S0 t b e v = Some (S', ev) /\ Rf {| fm := T'; fb := fb T |} S'.
Proof.
  intros T S t b e v ev T' S0 m0 HF Pp FS FT E1 E1' E2 E3 E4 E5 E5' E6 E6' H.
  assert (OT : own S = own (fm T)) by apply HF.
  unfold again in *. destruct b; injection H as <- <-; eexists; (split; [reflexivity|]).
  - eapply Rf_ctl with (S := S) (t := t) (p := PIdle) (q := PIdle); cbn [go set_own hp hg tp tg own thr]; try (intros e'; first [exact (FS e')|exact (FT e')]); auto; try congruence.
    + apply peq_refl.
    + intros u _. rewrite E1. apply (R_thr _ _ HF).
    + intros x P. rewrite E5. destruct (Nat.eq_dec x e) as [->|N]; [left; apply upd_same|].
      rewrite upd_other by auto. destruct (R_pd _ _ HF t x P) as [[A|A] _]; [left; exact A|]. congruence.
    + intros u x _ _ A. rewrite E5. destruct (Nat.eq_dec x e) as [->|N]; [apply upd_same|]. rewrite upd_other by auto. exact A.
  - eapply Rf_ctl with (S := S) (t := t) (p := Q4 false e v) (q := Q4 false e v); cbn [go hp hg tp tg own thr]; try (intros e'; first [exact (FS e')|exact (FT e')]); auto; try congruence.
    + apply peq_refl.
    + intros u _. rewrite E1. apply (R_thr _ _ HF).
    + intros x P. cbn [prep]. rewrite E5. destruct (R_pd _ _ HF t x P) as [[A|A] _]; [left; exact A|]. right. congruence.
Qed.
Lemma ctl_dagain : forall T S t b ev T' S0 m0, Rf T S -> prep (thr S t) = None ->
  (forall x, same_fld x S0 S) -> (forall x, same_fld x m0 (fm T)) ->
  hp S0 = hp S -> hp m0 = hp S -> hg S0 = hg m0 -> tp S0 = tp m0 -> tg S0 = tg m0 ->
  own S0 = own S -> own m0 = own (fm T) -> thr S0 = thr S -> thr m0 = thr (fm T) ->
  dagain m0 t b = Some (T', ev) ->
  exists S', dagain S0 t b = Some (S', ev) /\ Rf {| fm := T'; fb := fb T |} S'.
Proof.
  intros T S t b ev T' S0 m0 HF Pp FS FT E1 E1' E2 E3 E4 E5 E5' E6 E6' H.
  assert (OT : own S = own (fm T)) by apply HF.
  assert (G : forall p, prep p = None -> (forall x, holds p x = false) -> Rf {| fm := go m0 t p; fb := fb T |} (go S0 t p)).
  { intros p Hp Hh.
    eapply Rf_ctl with (S := S) (t := t) (p := p) (q := p); cbn [go hp hg tp tg own thr]; try (intros e'; first [exact (FS e')|exact (FT e')]); auto; try congruence.
    - apply peq_refl.
    - intros u _. rewrite E1. apply (R_thr _ _ HF).
    - intros x P. rewrite E5. destruct (R_pd _ _ HF t x P) as [[A|A] _]; [left; exact A|]. congruence. }
  unfold dagain in *. destruct b; injection H as <- <-; eexists; (split; [reflexivity|]); apply G; auto.
Qed.

Lemma cas_tail_rel : forall S m p g x, hp S = hp m -> hg S = hg m -> tp S = tp m -> tg S = tg m -> own S = own m ->
  let S0 := cas_tail S p g x in let m0 := cas_tail m p g x in
  (forall e, same_fld e S0 S) /\ (forall e, same_fld e m0 m) /\ hp S0 = hp S /\ hp m0 = hp S /\ hg S0 = hg m0 /\
  tp S0 = tp m0 /\ tg S0 = tg m0 /\ own S0 = own S /\ own m0 = own m /\ thr S0 = thr S /\ thr m0 = thr m.
Proof.
  intros S m p g x E1 E2 E3 E4 E5. unfold cas_tail. rewrite E3, E4.
  destruct (Nat.eqb (tp m) p && N.eqb (tg m) g); cbn [set_tail hp hg tp tg own thr]; repeat split; auto.
Qed.

Lemma vw_ctl : forall T t, same_ctl (vw T t) (fm T).
Proof. intros T t. apply puts_ctl. Qed.

Definition merge (m m' : mst) : mst :=
  {| hp := hp m; hg := hg m; tp := tp m; tg := tg m; nx := nx m; ng := ng m; vl := vl m; own := own m'; thr := thr m' |}.
Lemma load_go : forall T t p ev T' ev', mtick (vw T t) t = Some (go (vw T t) t p, ev) -> load T t = Some (T', ev') ->
  T' = {| fm := go (fm T) t p; fb := fb T |} /\ ev' = ev.
Proof.
  intros T t p ev T' ev' E H. unfold load in H. rewrite E in H. injection H as <- <-.
  destruct (vw_ctl T t) as (_ & _ & _ & _ & E5 & E6). cbn [go own thr]. rewrite E5, E6. auto.
Qed.
Lemma load_again : forall T t b e v T' ev', mtick (vw T t) t = again (vw T t) t b e v -> load T t = Some (T', ev') ->
  exists m', again (fm T) t b e v = Some (m', ev') /\ T' = {| fm := m'; fb := fb T |}.
Proof.
  intros T t b e v T' ev' E H. unfold load in H. rewrite E in H.
  destruct (vw_ctl T t) as (_ & _ & _ & _ & E5 & E6).
  unfold again in *. destruct b; injection H as <- <-; eexists; (split; [reflexivity|]);
    cbn [go set_own own thr]; rewrite E5, E6; reflexivity.
Qed.
Lemma load_dagain : forall T t b T' ev', mtick (vw T t) t = dagain (vw T t) t b -> load T t = Some (T', ev') ->
  exists m', dagain (fm T) t b = Some (m', ev') /\ T' = {| fm := m'; fb := fb T |}.
Proof.
  intros T t b T' ev' E H. unfold load in H. rewrite E in H.
  destruct (vw_ctl T t) as (_ & _ & _ & _ & E5 & E6).
  unfold dagain in *. destruct b; injection H as <- <-; eexists; (split; [reflexivity|]);
    cbn [go set_own own thr]; rewrite E5, E6; reflexivity.
Qed.

Lemma hp_all : forall S b, MR n S b -> In (hp S) (all (fst b)).
Proof. intros S b HR. rewrite (hp_in n _ _ HR). left. reflexivity. Qed.

Lemma sim_load : forall T S b t T' ev, Rf T S -> MR n S b ->
  (forall c g h x v, thr (fm T) t <> K9 c g h x v) -> ftick T t = load T t -> load T t = Some (T', ev) ->
  match thr (fm T) t with
  | Q4 _ _ _ | Q5 _ _ _ _ | Q6 _ _ _ _ _ | Q7 _ _ _ _ _ _ | Q8 _ _ _ _ _ _ _ | K1 _ | K2 _ _ | K3 _ _ _
  | K4 _ _ _ _ | K5 _ _ _ _ _ | K6 _ _ _ _ _ | K8 _ _ _ _ => goal T S t T' ev
  | _ => True
  end.
Proof.
  intros T S b t T' ev HF HR NK _ H.
  assert (Eth : thr S t = thr (fm T) t) by (eapply peq_eq; [apply (R_thr _ _ HF)|exact NK]).
  destruct (vw_ctl T t) as (V1 & V2 & V3 & V4 & V5 & V6).
  assert (Vt : thr (vw T t) t = thr (fm T) t) by (rewrite V6; reflexivity).
  pose proof (R_hp _ _ HF) as F1. pose proof (R_hg _ _ HF) as F2. pose proof (R_tp _ _ HF) as F3. pose proof (R_tg _ _ HF) as F4.
  assert (HO : forall u e, pend T u e -> holds (thr S t) e = false) by (intros u e P; apply (R_pd _ _ HF u e P)).
  assert (PO : forall u e, pend T u e -> ~ In e (all (fst b))) by (intros u e P; eapply pend_out; eauto).
  assert (HE : forall e, holds (thr S t) e = true -> same_fld e S (vw T t)).
  { intros e X. apply (fld_free T S t e HF). intros v. exact (held_free T S t e HF X v). }
  destruct (thr (fm T) t) eqn:Ep; try exact I.
  - (* Q4 *)
    eapply load_go in H; [|unfold mtick; rewrite Vt; reflexivity]. destruct H as [-> ->]. rewrite V4, <- F4.
    apply ctl_go; [exact HF|unfold mtick; rewrite Eth; reflexivity|rewrite Eth; reflexivity|reflexivity].
  - (* Q5 *)
    eapply load_go in H; [|unfold mtick; rewrite Vt; reflexivity]. destruct H as [-> ->]. rewrite V3, <- F3.
    apply ctl_go; [exact HF|unfold mtick; rewrite Eth; reflexivity|rewrite Eth; reflexivity|].
    intros u x P. cbn [holds]. apply Nat.eqb_neq. intros <-. apply (PO _ _ P). exact (tp_in n _ _ HR).
  - (* Q6 *)
    eapply load_go in H; [|unfold mtick; rewrite Vt; reflexivity]. destruct H as [-> ->].
    destruct (HE p) as (_ & X & _); [rewrite Eth; cbn [holds]; apply Nat.eqb_refl|]. rewrite <- X.
    apply ctl_go; [exact HF|unfold mtick; rewrite Eth; reflexivity|rewrite Eth; reflexivity|].
    intros u x P. specialize (HO u x P). rewrite Eth in HO. exact HO.
  - (* Q7 *)
    eapply load_go in H; [|unfold mtick; rewrite Vt; reflexivity]. destruct H as [-> ->].
    destruct (HE p) as (X & _ & _); [rewrite Eth; cbn [holds]; apply Nat.eqb_refl|]. rewrite <- X.
    apply ctl_go; [exact HF|unfold mtick; rewrite Eth; reflexivity|rewrite Eth; reflexivity|].
    intros u y P. specialize (HO u y P). rewrite Eth in HO. exact HO.
  - (* Q8 *)
    assert (EV : mtick (vw T t) t = if N.eqb (tg S) g then match x with Some y => Some (go (vw T t) t (Q9 b0 e v g p y), []) | None => Some (go (vw T t) t (Q10 b0 e v g p ng), []) end else again (vw T t) t b0 e v).
    { unfold mtick. rewrite Vt, V4, <- F4. reflexivity. }
    assert (ES : mtick S t = if N.eqb (tg S) g then match x with Some y => Some (go S t (Q9 b0 e v g p y), []) | None => Some (go S t (Q10 b0 e v g p ng), []) end else again S t b0 e v).
    { unfold mtick. rewrite Eth. reflexivity. }
    destruct (N.eqb (tg S) g).
    + destruct x as [y|]; (eapply load_go in H; [|exact EV]; destruct H as [-> ->]; apply ctl_go; [exact HF|exact ES|rewrite Eth; reflexivity|];
        intros u z P; specialize (HO u z P); rewrite Eth in HO; exact HO).
    + destruct (load_again _ _ _ _ _ _ _ EV H) as [m' [A ->]].
      eapply ctl_again with (S := S) (S0 := S) in A; eauto; try (intros; apply fld_refl).
      * destruct A as [S' [A B]]. exists S'. split; [rewrite ES; exact A|exact B].
      * rewrite Eth. reflexivity.
  - (* K1 *)
    eapply load_go in H; [|unfold mtick; rewrite Vt; reflexivity]. destruct H as [-> ->]. rewrite V2, <- F2.
    apply ctl_go; [exact HF|unfold mtick; rewrite Eth; reflexivity|rewrite Eth; reflexivity|reflexivity].
  - (* K2 *)
    eapply load_go in H; [|unfold mtick; rewrite Vt; reflexivity]. destruct H as [-> ->]. rewrite V1, <- F1.
    apply ctl_go; [exact HF|unfold mtick; rewrite Eth; reflexivity|rewrite Eth; reflexivity|].
    intros u x P. cbn [holds]. apply Nat.eqb_neq. intros <-. apply (PO _ _ P). exact (hp_all _ _ HR).
  - (* K3 *)
    eapply load_go in H; [|unfold mtick; rewrite Vt; reflexivity]. destruct H as [-> ->]. rewrite V4, <- F4.
    apply ctl_go; [exact HF|unfold mtick; rewrite Eth; reflexivity|rewrite Eth; reflexivity|].
    intros u x P. specialize (HO u x P). rewrite Eth in HO. exact HO.
  - (* K4 *)
    eapply load_go in H; [|unfold mtick; rewrite Vt; reflexivity]. destruct H as [-> ->]. rewrite V3, <- F3.
    apply ctl_go; [exact HF|unfold mtick; rewrite Eth; reflexivity|rewrite Eth; reflexivity|].
    intros u x P. specialize (HO u x P). rewrite Eth in HO. exact HO.
  - (* K5 *)
    eapply load_go in H; [|unfold mtick; rewrite Vt; reflexivity]. destruct H as [-> ->].
    apply ctl_go; [exact HF|unfold mtick; rewrite Eth; reflexivity|rewrite Eth; reflexivity|].
    intros u x P. specialize (HO u x P). rewrite Eth in HO. exact HO.
  - (* K6 *)
    destruct (HE h) as (X & _ & _); [rewrite Eth; cbn [holds]; apply Nat.eqb_refl|].
    assert (EV : mtick (vw T t) t =
      if Nat.eqb h tp then match nx S h with None => Some (go (vw T t) t PIdle, [Lin t (RD None); Ret t (RD None)]) | Some x => Some (go (vw T t) t (K7 b0 h x tg), []) end
      else match nx S h with None => dagain (vw T t) t b0 | Some x => Some (go (vw T t) t (K8 b0 g h x), []) end).
    { unfold mtick. rewrite Vt, <- X. reflexivity. }
    assert (ES : mtick S t =
      if Nat.eqb h tp then match nx S h with None => Some (go S t PIdle, [Lin t (RD None); Ret t (RD None)]) | Some x => Some (go S t (K7 b0 h x tg), []) end
      else match nx S h with None => dagain S t b0 | Some x => Some (go S t (K8 b0 g h x), []) end).
    { unfold mtick. rewrite Eth. reflexivity. }
    destruct (Nat.eqb h tp); destruct (nx S h) as [y|].
    + eapply load_go in H; [|exact EV]; destruct H as [-> ->]; apply ctl_go; [exact HF|exact ES|rewrite Eth; reflexivity|].
      intros u z P; specialize (HO u z P); rewrite Eth in HO; exact HO.
    + eapply load_go in H; [|exact EV]; destruct H as [-> ->]; apply ctl_go; [exact HF|exact ES|rewrite Eth; reflexivity|reflexivity].
    + eapply load_go in H; [|exact EV]; destruct H as [-> ->]; apply ctl_go; [exact HF|exact ES|rewrite Eth; reflexivity|].
      intros u z P; specialize (HO u z P); rewrite Eth in HO; exact HO.
    + destruct (load_dagain _ _ _ _ _ EV H) as [m' [A ->]].
      eapply ctl_dagain with (S := S) (S0 := S) in A; eauto; try (intros; apply fld_refl).
      * destruct A as [S' [A B]]. exists S'. split; [rewrite ES; exact A|exact B].
      * rewrite Eth. reflexivity.
  - (* K8 *)
    eapply load_go in H; [|unfold mtick; rewrite Vt; reflexivity]. destruct H as [-> ->].
    exists (go S t (K9 b0 g h x (vl S x))). split; [unfold mtick; rewrite Eth; reflexivity|].
    eapply Rf_ctl with (S := S) (t := t) (p := K9 b0 g h x (vl S x)) (q := K9 b0 g h x (vl (vw T t) x));
      cbn [go hp hg tp tg own thr]; try (intros; repeat split; fail); try apply HF; auto; try reflexivity.
    + destruct (Nat.eq_dec (hp S) h) as [E|N]; [left|right; auto 6].
      assert (Hx : In x (all (fst b))).
      { pose proof (MR_ti _ _ _ HR t) as TI'. rewrite Eth in TI'. cbn [TI] in TI'. destruct TI' as (_ & Nx & _).
        eapply chain_in; [exact (MR_chain _ _ _ HR)| |exact Nx]. rewrite <- E. exact (hp_all _ _ HR). }
      destruct (fld_free T S t x HF) as [(_ & _ & Y) _]; [intros v P; exact (PO _ _ P Hx)|]. rewrite Y. reflexivity.
    + intros u _. apply (R_thr _ _ HF).
    + intros e P. destruct (R_pd _ _ HF t e P) as [[A|A] _]; [left; exact A|]. rewrite Eth in A. discriminate.
    + intros u e P. specialize (HO u e P). rewrite Eth in HO. exact HO.
Qed.

Lemma sim_locked : forall T S b t m' ev, Rf T S -> MR n S b -> fb T t = [] -> mtick (fm T) t = Some (m', ev) ->
  match thr (fm T) t with
  | Q9 _ _ _ _ _ _ | Q10 _ _ _ _ _ _ | Q11 _ _ _ _ | K7 _ _ _ _ | K9 _ _ _ _ _ => goal T S t {| fm := m'; fb := fb T |} ev
  | _ => True
  end.
Proof.
  intros T S b t m' ev HF HR Eb H.
  assert (NP : forall e, ~ pend T t e) by (intros e; unfold pend; rewrite Eb; intros X; exact X).
  pose proof (R_hp _ _ HF) as F1. pose proof (R_hg _ _ HF) as F2. pose proof (R_tp _ _ HF) as F3. pose proof (R_tg _ _ HF) as F4.
  pose proof (R_own _ _ HF) as F5.
  pose proof (R_thr _ _ HF t) as Eq.
  assert (HO : forall u e, pend T u e -> holds (thr S t) e = false) by (intros u e P; apply (R_pd _ _ HF u e P)).
  assert (PO : forall u e, pend T u e -> ~ In e (all (fst b))) by (intros u e P; eapply pend_out; eauto).
  destruct (thr (fm T) t) eqn:Ep; try exact I; unfold mtick in H; rewrite Ep in H.
  - (* Q9 *)
    apply peq_eq in Eq; [|intros; discriminate].
    destruct (cas_tail_rel S (fm T) p g x F1 F2 F3 F4 F5) as (A1 & A2 & A3 & A4 & A5 & A6 & A7 & A8 & A9 & A10 & A11).
    destruct (ctl_again T S t b0 e v ev m' _ _ HF ltac:(rewrite Eq; reflexivity) A1 A2 A3 A4 A5 A6 A7 A8 A9 A10 A11 H) as [S' [X Y]].
    exists S'. split; [|exact Y]. unfold mtick. rewrite Eq. exact X.
  - (* Q10 *)
    apply peq_eq in Eq; [|intros; discriminate].
    assert (Hf : forall v', ~ pend T v' p).
    { apply (held_free T S t p HF). rewrite Eq. cbn [holds]. apply Nat.eqb_refl. }
    destruct (fld_free T S t p HF Hf) as [_ (X1 & X2 & X3)].
    assert (ES : mtick S t = match nx (fm T) p with
      | None => if N.eqb (FifoMp_Model.ng (fm T) p) ng
                then Some (go (set_ng (set_nx S p (Some e)) p ((ng + 1) mod W)) t (Q11 b0 e g p), [Lin t (if b0 then RB true else RU)])
                else again S t b0 e v
      | Some _ => again S t b0 e v end).
    { unfold mtick. rewrite Eq, X1, X2. reflexivity. }
    assert (AG : again (fm T) t b0 e v = Some (m', ev) -> mtick S t = again S t b0 e v -> goal T S t {| fm := m'; fb := fb T |} ev).
    { intros A E0. eapply ctl_again with (S := S) (S0 := S) in A; eauto; try (intros; apply fld_refl).
      - destruct A as [S' [A B]]. exists S'. split; [rewrite E0; exact A|exact B].
      - rewrite Eq. reflexivity. }
    destruct (nx (fm T) p) as [y|]; [exact (AG H ES)|].
    destruct (N.eqb (FifoMp_Model.ng (fm T) p) ng); [|exact (AG H ES)].
    injection H as <- <-. eexists. split; [exact ES|].
    eapply Rf_gen with (S := S) (t := t) (p := Q11 b0 e g p) (q := Q11 b0 e g p);
      cbn [go set_ng set_nx hp hg tp tg own thr]; auto.
    + intros u x N. destruct (Nat.eq_dec x p) as [->|Nx].
      * apply fld_sym. eapply fld_trans; [apply puts_fld; apply (Hf u)|].
        unfold same_fld; cbn [go set_ng set_nx nx FifoMp_Model.ng vl]. rewrite !upd_same. auto.
      * assert (A : same_fld x (go (set_ng (set_nx S p (Some e)) p ((ng + 1) mod W)) t (Q11 b0 e g p)) S).
        { unfold same_fld; cbn [go set_ng set_nx nx FifoMp_Model.ng vl]. rewrite !upd_other by auto. auto. }
        assert (B : same_fld x (fm T) (go (set_ng (set_nx (fm T) p (Some e)) p ((ng + 1) mod W)) t (Q11 b0 e g p))).
        { unfold same_fld; cbn [go set_ng set_nx nx FifoMp_Model.ng vl]. rewrite !upd_other by auto. auto. }
        eapply fld_trans; [exact A|]. eapply fld_trans; [apply (R_fld _ _ HF u x N)|].
        unfold vw. apply puts_cong. exact B.
    + apply peq_refl.
    + intros u _. apply (R_thr _ _ HF).
    + intros x P. destruct (NP x P).
    + intros u x P. specialize (HO u x P). rewrite Eq in HO. exact HO.
  - (* Q11 *)
    apply peq_eq in Eq; [|intros; discriminate]. injection H as <- <-.
    destruct (cas_tail_rel S (fm T) p g e F1 F2 F3 F4 F5) as (A1 & A2 & A3 & A4 & A5 & A6 & A7 & A8 & A9 & A10 & A11).
    eexists. split; [unfold mtick; rewrite Eq; reflexivity|].
    eapply Rf_ctl with (S := S) (t := t) (p := PIdle) (q := PIdle); cbn [go hp hg tp tg own thr]; auto; try congruence.
    + apply peq_refl.
    + intros u _. rewrite A3. apply (R_thr _ _ HF).
    + intros x P. destruct (NP x P).
  - (* K7 *)
    apply peq_eq in Eq; [|intros; discriminate].
    destruct (cas_tail_rel S (fm T) h tg x F1 F2 F3 F4 F5) as (A1 & A2 & A3 & A4 & A5 & A6 & A7 & A8 & A9 & A10 & A11).
    destruct (ctl_dagain T S t b0 ev m' _ _ HF ltac:(rewrite Eq; reflexivity) A1 A2 A3 A4 A5 A6 A7 A8 A9 A10 A11 H) as [S' [X Y]].
    exists S'. split; [|exact Y]. unfold mtick. rewrite Eq. exact X.
  - (* K9 *)
    assert (EQ : exists w, thr S t = K9 b0 g h x w /\ (hp S = h -> w = v)).
    { destruct Eq as [E|E]; [exists v; auto|]. destruct (thr S t); try contradiction. destruct E as (-> & -> & -> & -> & N).
      eexists. split; [reflexivity|]. intros E. contradiction. }
    destruct EQ as [w [Eq' Ew]].
    assert (ES : mtick S t = if Nat.eqb (hp (fm T)) h && N.eqb (hg (fm T)) g
      then Some (go (set_own (set_head S x ((g + 1) mod W)) h true) t PIdle, [Lin t (RD (Some (w, h))); Ret t (RD (Some (w, h)))])
      else dagain S t b0).
    { unfold mtick. rewrite Eq', F1, F2. reflexivity. }
    destruct (Nat.eqb (hp (fm T)) h && N.eqb (hg (fm T)) g) eqn:Ec.
    + apply andb_prop in Ec. destruct Ec as [Eh _]. apply Nat.eqb_eq in Eh. rewrite <- F1 in Eh. rewrite (Ew Eh) in ES.
      injection H as <- <-. eexists. split; [exact ES|].
      pose proof (MR_ti _ _ _ HR t) as TI'. rewrite Eq' in TI'. cbn [TI] in TI'. destruct TI' as (_ & Nx & _).
      assert (Hx : In x (all (fst b))).
      { eapply chain_in; [exact (MR_chain _ _ _ HR)| |exact Nx]. rewrite <- Eh. exact (hp_all _ _ HR). }
      eapply Rf_ctl with (S := S) (t := t) (p := PIdle) (q := PIdle); cbn [go set_own set_head hp hg tp tg own thr];
        try (intros; repeat split; fail); auto; try congruence.
      * apply peq_refl.
      * intros u N. pose proof (R_thr _ _ HF u) as [E|E]; [left; exact E|right].
        pose proof (MR_ti _ _ _ HR u) as TU.
        destruct (thr S u); try contradiction. destruct (thr (fm T) u); try contradiction.
        destruct E as (E1 & E2 & E3 & E4 & E5). refine (conj E1 (conj E2 (conj E3 (conj E4 _)))).
        intros <-. cbn [TI] in TU. destruct TU as ((_ & _ & Q) & _). apply E5. exact (Q Hx).
      * intros e P. destruct (NP e P).
      * intros u e _ _ A. destruct (Nat.eq_dec e h) as [->|N]; [apply upd_same|]. rewrite upd_other by auto. exact A.
    + eapply ctl_dagain with (S := S) (S0 := S) in H; eauto; try (intros; apply fld_refl).
      * destruct H as [S' [A B]]. exists S'. split; [rewrite ES; exact A|exact B].
      * rewrite Eq'. reflexivity.
Qed.

(** ** A store is issued *)
Lemma sim_store : forall T S b t e x p, Rf T S -> MR n S b -> t < n -> prep (thr S t) = Some e -> prep p = Some e ->
  (forall y, holds p y = false) -> ent_of x = e ->
  Rf {| fm := go (fm T) t p; fb := upd (fb T) t (fb T t ++ [x]) |} (go (put1 S x) t p).
Proof.
  intros T S b t e x p HF HR Ht Pe Pp Ph Ex.
  destruct (put1_ctl S x) as (C1 & C2 & C3 & C4 & C5 & C6).
  assert (G : forall u y, pend {| fm := go (fm T) t p; fb := upd (fb T) t (fb T t ++ [x]) |} u y -> pend T u y \/ (u = t /\ y = e)).
  { intros u y P. unfold pend in *. cbn [fb] in P. destruct (Nat.eq_dec u t) as [->|N].
    - rewrite upd_same, map_app, in_app_iff in P. destruct P as [P|[P|[]]]; [left; exact P|right; split; [reflexivity|congruence]].
    - rewrite upd_other in P by auto. left. exact P. }
  assert (G' : forall u y, pend T u y -> pend {| fm := go (fm T) t p; fb := upd (fb T) t (fb T t ++ [x]) |} u y).
  { intros u y P. unfold pend in *. cbn [fb]. destruct (Nat.eq_dec u t) as [->|N].
    - rewrite upd_same, map_app, in_app_iff. left. exact P.
    - rewrite upd_other by auto. exact P. }
  assert (Ge : pend {| fm := go (fm T) t p; fb := upd (fb T) t (fb T t ++ [x]) |} t e).
  { unfold pend. cbn [fb]. rewrite upd_same, map_app, in_app_iff. right. left. exact Ex. }
  assert (EO : forall u, pend T u e -> u = t).
  { intros u P. destruct (R_pd _ _ HF u e P) as [[A|A] _].
    - exfalso. exact (proj2 (MR_own _ _ _ HR e A) t Pe).
    - exact (MR_uni _ _ _ HR u t e A Pe). }
  assert (EH : forall v, holds (thr S v) e = false).
  { intros v. destruct (holds (thr S v) e) eqn:E; [|reflexivity]. exfalso. exact (holds_np _ _ _ _ HR E t Pe). }
  constructor; cbn [fm fb go hp hg tp tg own thr]; rewrite ?C1, ?C2, ?C3, ?C4, ?C5, ?C6; try apply HF.
  - intros u. destruct (Nat.eq_dec u t) as [->|N]; [rewrite !upd_same; apply peq_refl|rewrite !upd_other by auto; apply (R_thr _ _ HF)].
  - intros u y N.
    assert (N0 : forall v, v <> u -> ~ pend T v y) by (intros v Nv P; exact (N v Nv (G' v y P))).
    apply (fld_trans y _ (put1 S x)); [repeat split|].
    destruct (Nat.eq_dec u t) as [->|Nu].
    + unfold vw; cbn [fm fb]. rewrite upd_same, fold_left_app. cbn [fold_left].
      apply put1_cong. eapply fld_trans; [apply (R_fld _ _ HF t y N0)|]. unfold vw. apply puts_cong. repeat split.
    + assert (y <> e). { intros ->. exact (N t ltac:(auto) Ge). }
      eapply fld_trans; [apply put1_fld; congruence|]. eapply fld_trans; [apply (R_fld _ _ HF u y N0)|].
      unfold vw; cbn [fm fb]. rewrite upd_other by auto. apply puts_cong. repeat split.
  - intros u v y Pu Pv. destruct (G u y Pu) as [A|[A1 A2]]; destruct (G v y Pv) as [B|[B1 B2]]; try congruence.
    + exact (R_uni _ _ HF u v y A B).
    + subst. apply EO. exact A.
    + subst. symmetry. apply EO. exact B.
  - intros u y P. assert (Q : (own S y = true \/ prep (thr S u) = Some y) /\ forall v, holds (thr S v) y = false).
    { destruct (G u y P) as [A|[-> ->]]; [exact (R_pd _ _ HF u y A)|]. split; [right; exact Pe|exact EH]. }
    destruct Q as [Q1 Q2]. split.
    + destruct (Nat.eq_dec u t) as [->|N]; [rewrite upd_same, Pp; rewrite Pe in Q1; exact Q1|rewrite upd_other by auto; exact Q1].
    + intros v. destruct (Nat.eq_dec v t) as [->|N]; [rewrite upd_same; apply Ph|rewrite upd_other by auto; apply Q2].
  - intros u Hu. rewrite upd_other by lia. exact (R_nt _ _ HF u Hu).
Qed.

Lemma sim_tick : forall T S b t T' ev, Rf T S -> MR n S b -> t < n -> ftick T t = Some (T', ev) -> goal T S t T' ev.
Proof.
  intros T S b t T' ev HF HR Ht H. pose proof H as H0. unfold ftick in H.
  pose proof (fun X => sim_load T S b t T' ev HF HR X) as SL.
  assert (SK : forall b0 Q, locked T t = Some (T', ev) -> fb T t = [] -> (b0 = true -> Q) -> exists m', mtick (fm T) t = Some (m', ev) /\ T' = {| fm := m'; fb := fb T |}).
  { intros _ _ L Eb _. unfold locked in L. rewrite Eb in L. destruct (mtick (fm T) t) as [[m' e']|]; [|discriminate].
    injection L as <- <-. eauto. }
  assert (LB : locked T t = Some (T', ev) -> fb T t = []).
  { intros L. unfold locked in L. destruct (fb T t); [reflexivity|discriminate]. }
  assert (LK : locked T t = Some (T', ev) -> match thr (fm T) t with
    | Q9 _ _ _ _ _ _ | Q10 _ _ _ _ _ _ | Q11 _ _ _ _ | K7 _ _ _ _ | K9 _ _ _ _ _ => goal T S t T' ev | _ => True end).
  { intros L. pose proof (LB L) as Eb. unfold locked in L. rewrite Eb in L.
    destruct (mtick (fm T) t) as [[m' e']|] eqn:Em; [|discriminate]. injection L as <- <-.
    exact (sim_locked T S b t m' e' HF HR Eb Em). }
  clear SK. unfold ftick in SL.
  destruct (thr (fm T) t) eqn:Ep;
    try (exact (SL ltac:(intros; discriminate) eq_refl H)); try (exact (LK H)).
  - (* PIdle *)
    exfalso. destruct (vw_ctl T t) as (_ & _ & _ & _ & _ & V6). unfold load, mtick in H. rewrite V6, Ep in H. discriminate.
  - assert (Eq : thr S t = Q1 b0 e v) by (rewrite <- Ep; eapply peq_eq; [apply (R_thr _ _ HF)|rewrite Ep; intros; discriminate]).
    unfold store in H. injection H as <- <-. eexists. split; [unfold mtick; rewrite Eq; reflexivity|].
    exact (sim_store T S b t e (SV e v) (Q2 b0 e v) HF HR Ht ltac:(rewrite Eq; reflexivity) eq_refl (fun _ => eq_refl) eq_refl).
  - assert (Eq : thr S t = Q2 b0 e v) by (rewrite <- Ep; eapply peq_eq; [apply (R_thr _ _ HF)|rewrite Ep; intros; discriminate]).
    unfold store in H. injection H as <- <-. eexists. split; [unfold mtick; rewrite Eq; reflexivity|].
    exact (sim_store T S b t e (SN e None) (Q3 b0 e v) HF HR Ht ltac:(rewrite Eq; reflexivity) eq_refl (fun _ => eq_refl) eq_refl).
  - assert (Eq : thr S t = Q3 b0 e v) by (rewrite <- Ep; eapply peq_eq; [apply (R_thr _ _ HF)|rewrite Ep; intros; discriminate]).
    unfold store in H. injection H as <- <-. eexists. split; [unfold mtick; rewrite Eq; reflexivity|].
    exact (sim_store T S b t e (SG e 0) (Q4 b0 e v) HF HR Ht ltac:(rewrite Eq; reflexivity) eq_refl (fun _ => eq_refl) eq_refl).
Qed.

(** ** A store arrives *)
Lemma sim_flush : forall T S t x b, Rf T S -> t < n -> fb T t = x :: b ->
  Rf {| fm := put1 (fm T) x; fb := upd (fb T) t b |} S.
Proof.
  intros T S t x b HF Ht Eb.
  destruct (put1_ctl (fm T) x) as (C1 & C2 & C3 & C4 & C5 & C6).
  assert (G : forall u y, pend {| fm := put1 (fm T) x; fb := upd (fb T) t b |} u y -> pend T u y).
  { intros u y P. unfold pend in *. cbn [fb] in P. destruct (Nat.eq_dec u t) as [->|N].
    - rewrite upd_same in P. rewrite Eb. right. exact P.
    - rewrite upd_other in P by auto. exact P. }
  assert (Gx : pend T t (ent_of x)) by (unfold pend; rewrite Eb; left; reflexivity).
  constructor; cbn [fm fb]; rewrite ?C1, ?C2, ?C3, ?C4, ?C5, ?C6; try apply HF.
  - intros u y N. destruct (Nat.eq_dec u t) as [->|Nu].
    + assert (N0 : forall v, v <> t -> ~ pend T v y).
      { intros v Nv P. apply (N v Nv). unfold pend in *. cbn [fb]. rewrite upd_other by auto. exact P. }
      pose proof (R_fld _ _ HF t y N0) as X. unfold vw in *. cbn [fm fb]. rewrite Eb in X. rewrite upd_same. exact X.
    + (* the view of another thread *)
      assert (Pb : ~ In y (map ent_of b)).
      { intros P. apply (N t ltac:(auto)). unfold pend. cbn [fb]. rewrite upd_same. exact P. }
      unfold vw; cbn [fm fb]. rewrite upd_other by auto.
      destruct (Nat.eq_dec y (ent_of x)) as [->|Ny].
      * (* only [t] had stores to it; they have all arrived *)
        assert (N0 : forall v, v <> t -> ~ pend T v (ent_of x)).
        { intros v Nv P. apply Nv. exact (R_uni _ _ HF v t _ P Gx). }
        pose proof (R_fld _ _ HF t _ N0) as X. unfold vw in X. rewrite Eb in X. cbn [fold_left] in X.
        eapply fld_trans; [exact X|]. eapply fld_trans; [apply puts_fld; exact Pb|].
        apply fld_sym. apply puts_fld. exact (N0 u Nu).
      * assert (N0 : forall v, v <> u -> ~ pend T v y).
        { intros v Nv P. apply (N v Nv). unfold pend in *. cbn [fb]. destruct (Nat.eq_dec v t) as [->|N'].
          - rewrite upd_same. rewrite Eb in P. destruct P as [P|P]; [congruence|exact P].
          - rewrite upd_other by auto. exact P. }
        eapply fld_trans; [apply (R_fld _ _ HF u y N0)|]. unfold vw. apply puts_cong. apply fld_sym. apply put1_fld. auto.
  - intros u v y Pu Pv. exact (R_uni _ _ HF u v y (G u y Pu) (G v y Pv)).
  - intros u y P. exact (R_pd _ _ HF u y (G u y P)).
  - intros u Hu. rewrite upd_other by lia. exact (R_nt _ _ HF u Hu).
Qed.

(** ** A call *)
Lemma may_enq_eq : forall T S e, Rf T S -> may_enq n S e = may_enq n (fm T) e.
Proof.
  intros T S e HF. unfold may_enq. rewrite (R_own _ _ HF). f_equal.
  generalize (List.seq 0 n). induction l as [|u l IH]; [reflexivity|]. cbn [forallb].
  rewrite IH, (peq_holds _ _ _ e (R_thr _ _ HF u)). reflexivity.
Qed.
Lemma settled_spec : forall T S t e, Rf T S -> settled n T t e = true -> forall u, u <> t -> ~ pend T u e.
Proof.
  intros T S t e HF H u N P. unfold settled in H. rewrite forallb_forall in H.
  destruct (Nat.lt_ge_cases u n) as [L|L].
  - specialize (H u ltac:(apply in_seq; lia)). apply orb_prop in H. destruct H as [H|H]; [apply Nat.eqb_eq in H; auto|].
    apply negb_true_iff in H. unfold pend in P. apply in_map_iff in P. destruct P as [x [Ex Hx]].
    assert (X : existsb (fun x => Nat.eqb (ent_of x) e) (fb T u) = true) by (apply existsb_exists; exists x; split; [exact Hx|apply Nat.eqb_eq; exact Ex]).
    congruence.
  - unfold pend in P. rewrite (R_nt _ _ HF u L) in P. exact P.
Qed.
Lemma sim_call : forall T S b t o T' ev, Rf T S -> MR n S b -> t < n -> thr (fm T) t = PIdle ->
  fcall n T t o = Some (T', ev) -> exists S', mcall n S t o = Some (S', ev) /\ Rf T' S'.
Proof.
  intros T S b t o T' ev HF HR Ht Ep H.
  assert (Eq : thr S t = PIdle) by (rewrite <- Ep; eapply peq_eq; [apply (R_thr _ _ HF)|rewrite Ep; intros; discriminate]).
  pose proof (R_own _ _ HF) as F5.
  assert (PI : forall e, pend T t e -> own S e = true).
  { intros e P. destruct (R_pd _ _ HF t e P) as [[A|A] _]; [exact A|]. rewrite Eq in A. discriminate. }
  assert (EN : forall e p, settled n T t e = true -> may_enq n S e = true -> prep p = Some e -> (forall y, holds p y = false) ->
    Rf {| fm := set_own (go (fm T) t p) e false; fb := fb T |} (set_own (go S t p) e false)).
  { intros e p St Me Pp Ph.
    eapply Rf_ctl with (S := S) (t := t) (p := p) (q := p); cbn [go set_own hp hg tp tg own thr];
      try (intros; repeat split; fail); try apply HF; auto; try congruence.
    - apply peq_refl.
    - intros u _. apply (R_thr _ _ HF).
    - intros y P. destruct (Nat.eq_dec y e) as [->|N]; [right; exact Pp|left; rewrite upd_other by auto; auto].
    - intros u y Nu P A. rewrite upd_other; [exact A|]. intros ->. exact (settled_spec T S t e HF St u Nu P). }
  assert (DQ : forall p, prep p = None -> (forall y, holds p y = false) ->
    Rf {| fm := go (fm T) t p; fb := fb T |} (go S t p)).
  { intros p Pp Ph.
    eapply Rf_ctl with (S := S) (t := t) (p := p) (q := p); cbn [go set_own hp hg tp tg own thr];
      try (intros; repeat split; fail); try apply HF; auto; try congruence.
    - apply peq_refl.
    - intros u _. apply (R_thr _ _ HF). }
  unfold fcall in H. destruct o as [e v|e v| |]; cbn [mcall] in *.
  - destruct (settled n T t e) eqn:St; [|discriminate]. rewrite (may_enq_eq T S e HF).
    destruct (may_enq n (fm T) e) eqn:Me; [|discriminate]. injection H as <- <-. eexists. split; [reflexivity|].
    apply EN; auto. rewrite (may_enq_eq T S e HF). exact Me.
  - destruct (settled n T t e) eqn:St; [|discriminate]. rewrite (may_enq_eq T S e HF).
    destruct (may_enq n (fm T) e) eqn:Me; [|discriminate]. injection H as <- <-. eexists. split; [reflexivity|].
    apply EN; auto. rewrite (may_enq_eq T S e HF). exact Me.
  - injection H as <- <-. eexists. split; [reflexivity|]. apply DQ; auto.
  - injection H as <- <-. eexists. split; [reflexivity|]. apply DQ; auto.
Qed.

(** ** Runs *)
Lemma sim_step : forall T S b l T' ev, Rf T S -> MR n S b -> fstep n T l = Some (T', ev) ->
  exists ls S', run (mstep n) S ls = Some (S', ev) /\ Rf T' S' /\ exists b', MR n S' b'.
Proof.
  intros T S b [t a] T' ev HF HR H. cbn [fstep] in H. destruct (Nat.ltb t n) eqn:Et; cbn [negb] in H; [|discriminate].
  assert (Ht : t < n) by (apply Nat.ltb_lt; exact Et).
  assert (one : forall x S', mstep n S (t, x) = Some (S', ev) -> run (mstep n) S [(t, x)] = Some (S', ev) /\ exists b', MR n S' b').
  { intros x S' E. split; [cbn [run]; rewrite E, app_nil_r; reflexivity|].
    destruct (MR_step n S b _ _ _ HR E) as [b' [_ B]]. eauto. }
  destruct a as [o| |].
  - destruct (thr (fm T) t) eqn:Ep; try discriminate.
    assert (Eq : thr S t = PIdle) by (rewrite <- Ep; eapply peq_eq; [apply (R_thr _ _ HF)|rewrite Ep; intros; discriminate]).
    destruct (sim_call T S b t o T' ev HF HR Ht Ep H) as [S' [A B]].
    assert (E : mstep n S (t, ACall o) = Some (S', ev)) by (cbn [mstep]; rewrite Et; cbn [negb]; rewrite Eq; exact A).
    destruct (one _ _ E). exists [(t, ACall o)], S'. auto.
  - destruct (sim_tick T S b t T' ev HF HR Ht H) as [S' [A B]].
    assert (E : mstep n S (t, ATick) = Some (S', ev)) by (cbn [mstep]; rewrite Et; cbn [negb]; exact A).
    destruct (one _ _ E). exists [(t, ATick)], S'. auto.
  - destruct (fb T t) as [|x r] eqn:Eb; [discriminate|]. injection H as <- <-.
    exists [], S. split; [reflexivity|]. split; [eapply sim_flush; eauto|eauto].
Qed.

Lemma sim_all : forall ls T S b T' log, Rf T S -> MR n S b -> run (fstep n) T ls = Some (T', log) ->
  exists ls' S', run (mstep n) S ls' = Some (S', log) /\ Rf T' S' /\ exists b', MR n S' b'.
Proof.
  induction ls as [|l ls IH]; intros T S b T' log HF HR H; cbn [run] in H.
  - injection H as <- <-. exists [], S. split; [reflexivity|]. eauto.
  - destruct (fstep n T l) as [[T1 e1]|] eqn:E1; [|discriminate].
    destruct (run (fstep n) T1 ls) as [[T2 e2]|] eqn:E2; [|discriminate]. injection H as <- <-.
    destruct (sim_step T S b l T1 e1 HF HR E1) as [l1 [S1 [A1 [F1 [b1 M1]]]]].
    destruct (IH T1 S1 b1 T2 e2 F1 M1 E2) as [l2 [S2 [A2 [F2 M2]]]].
    exists (l1 ++ l2), S2. split; [|split; assumption]. eapply run_app; [exact A1|exact A2].
Qed.
End P.

Lemma tso_fifo_lin : forall n e ls T log, run (fstep n) (finit e) ls = Some (T, log) ->
  linearizable fifo_seq mres_dec (mabs0 e) (history log).
Proof.
  intros n e ls T log H. destruct (sim_all n ls _ _ _ _ _ (Rf_init n e) (MR_init n e) H) as [ls' [S' [A _]]].
  exact (fifo_mp_lin n e ls' S' log A).
Qed.

Lemma tso_fifo_mem : forall n e ls T log, run (fstep n) (finit e) ls = Some (T, log) ->
  exists a ph, accepts (lstep fifo_seq mres_dec) (mabs0 e, idle) log = Some (a, ph) /\
    hp (fm T) = stub a /\ chain_of (nx (fm T)) (vl (fm T)) (stub a) (sq a).
Proof.
  intros n e ls T log H. destruct (sim_all n ls _ _ _ _ _ (Rf_init n e) (MR_init n e) H) as [ls' [S' [A [HF _]]]].
  destruct (fifo_run n e ls' S' log A) as [[a ph] [Ha HR]].
  exists a, ph. split; [exact Ha|].
  assert (FE : forall x, In x (all a) -> same_fld x S' (fm T)).
  { intros x Hx. apply (fld_free n T S' 0 x HF). intros v P. exact (pend_out n T S' (a, ph) v x HF HR P Hx). }
  split; [rewrite <- (R_hp _ _ _ HF); exact (hp_in n _ _ HR)|].
  pose proof (MR_chain _ _ _ HR) as C. pose proof (MR_vl _ _ _ HR) as V. cbn [fst] in C, V.
  rewrite (hp_in n _ _ HR) in C. cbn [fst] in C. unfold all in C, FE. revert C FE V. generalize (stub a) as h. generalize (sq a) as q.
  induction q as [|[x v] q IH]; intros h C FE V; cbn [map fst chain chain_of] in *.
  - destruct C as [_ C]. destruct (FE h (or_introl eq_refl)) as (E & _). rewrite <- E. exact C.
  - destruct C as [_ [C1 C2]]. destruct (FE h (or_introl eq_refl)) as (E & _). rewrite <- E.
    split; [exact C1|]. destruct (FE x (or_intror (or_introl eq_refl))) as (_ & _ & Ev). split.
    + rewrite <- Ev. apply V. left. reflexivity.
    + apply IH.
      * split; [reflexivity|exact C2].
      * intros y Hy. apply FE. right. exact Hy.
      * intros y w Hy. apply V. right. exact Hy.
Qed.
