(** Locks without plain stores on x86-TSO: they behave as with sequentially consistent memory, and protect the data. *)
From Coq Require Import ZArith Arith List Bool Lia.
From Verif Require Import Lib LockSpec Tso TsoRw_Spec TsoRwf_Spec TsoRwf_Model.
Import ListNotations.
Local Open Scope Z_scope.

Definition alldat (b : list (loc * Z)) : Prop := forall x v, In (x, v) b -> isdat x.

Section Gen.
Context {L E A : Type}.
Variables (lcode : nat -> L -> A -> option (instr L E)) (wr rd W R : L -> bool) (c : E -> list rwev).
Notation tstep := (Tso.step (client lcode wr rd) (@arr E)).
Implicit Types s : tso L.

(** a move of [t] from [p] to [q] with the reader-writer events [e] *)
Inductive mv (t : nat) (p q : L) : list rwev -> Prop :=
| mv0 : forall e, flat_map rw_data e = [] -> W q = W p -> R q = R p -> mv t p q e
| mvW : W p = false -> R p = false -> W q = true -> R q = false -> mv t p q [WAcq t]
| mvw : W p = true -> W q = false -> R q = R p -> mv t p q [WRel t]
| mvR : W p = false -> R p = false -> W q = false -> R q = true -> mv t p q [RAcq t]
| mvr : R p = true -> W q = W p -> R q = false -> mv t p q [RRel t]
| mvd : W p = true -> R p = false -> W q = false -> R q = true -> mv t p q [LockSpec.Down t].
Definition mvs (t : nat) (p : L) (r : L * list E) : Prop := mv t p (fst r) (flat_map c (snd r)).
(** locked-only code *)
Definition okI (t : nat) (p : L) (i : instr L E) : Prop :=
  match i with
  | Ld (Reg _) k => forall v, mvs t p (k v) /\ (W p = true -> W (fst (k v)) = true)
  | Rmw (Reg _) f k => forall v, mvs t p (k v)
  | Local q e => mvs t p (q, e) /\ (W p = true -> W q = true)
  | _ => False
  end.
Hypothesis code_ok : forall t p a i, lcode t p a = Some i -> okI t p i.
Hypothesis wr_W : forall p, wr p = true -> W p = true.
Hypothesis rd_R : forall p, rd p = true -> R p = true.
Variables (p0 : L) (D : nat -> Z).
Hypothesis W0 : W p0 = false.
Hypothesis R0 : R p0 = false.

(** buffers hold data only: a thread sees the words of the lock as they are in memory *)
Definition clean s : Prop := forall t, alldat (buf s t).
Lemma clean_view : forall s t x, clean s -> view s t (Reg x) = mem s (Reg x).
Proof. intros s t x H. apply fwd_none. intros v Hv. apply (H t _ _ Hv). Qed.

Lemma alldat_cons : forall x b, alldat (x :: b) -> alldat b.
Proof. intros x b H y v Hy. apply (H y v). right. exact Hy. Qed.

Lemma clean_step : forall s l s' e, clean s -> tstep s l = Some (s', e) -> clean s'.
Proof.
  intros s [t a|t] s' e H Hs; cbn [Tso.step] in Hs.
  - destruct a as [a|i|i v]; cbn [client] in Hs.
    + destruct (lcode t (pcs s t) a) as [i|] eqn:Ec; [|discriminate]. apply code_ok in Ec.
      destruct i as [[j|j] k|x v p e0|[j|j] f k|p e0|p e0]; cbn [okI imap] in *; try (exfalso; exact Ec); cbn in Hs.
      * injection Hs as <- <-. exact H.
      * destruct (buf s t); [|discriminate]. injection Hs as <- <-. exact H.
      * injection Hs as <- <-. exact H.
    + destruct (wr (pcs s t) || rd (pcs s t)); [|discriminate]. injection Hs as <- <-. exact H.
    + destruct (wr (pcs s t)); [|discriminate]. injection Hs as <- <-. intros u. cbn [buf]. upd_cases; [|apply H].
      intros x w Hx. apply in_app_iff in Hx. destruct Hx as [Hx|[Hx|[]]]; [apply (H t _ _ Hx)|]. injection Hx as <- <-. exact I.
  - destruct (buf s t) as [|[x v] r] eqn:Eb; [discriminate|]. injection Hs as <- <-. intros u. cbn [buf]. upd_cases; [|apply H].
    apply alldat_cons with (x, v). rewrite <- Eb. apply H.
Qed.

(** * The data, given that the events of the lock are those of a reader-writer lock *)
Definition iswr (a : rwl) (t : nat) : bool := TsoRw_Spec.iswr a t.

Record J s (a : rwl) (b : rwst) : Prop := {
  j_w : forall t, wrt a = Some t <-> W (pcs s t) = true;
  j_r : forall t, In t (rds a) <-> R (pcs s t) = true;
  j_nd : NoDup (rds a);
  j_bw : wrt a = rw_w b;
  j_br : rds a = rw_r b;
  j_dat : data (wrt a) (dat a) s;
  j_buf : forall u, wrt a <> Some u -> buf s u = [];
  j_ex : forall u, wrt a = Some u -> rds a = []
}.

Lemma remove1_remove : forall t l, NoDup l -> In t l -> remove1 t l = Some (remove Nat.eq_dec t l).
Proof.
  intros t l. induction l as [|u l IH]; intros Hn Hi; [destruct Hi|]. inversion Hn as [|? ? N1 N2]; subst. simpl.
  destruct (Nat.eqb_spec t u) as [->|Hne].
  - destruct (Nat.eq_dec u u); [|congruence]. f_equal. symmetry. apply notin_remove. exact N1.
  - destruct (Nat.eq_dec t u); [congruence|]. destruct Hi as [->|Hi]; [congruence|]. rewrite (IH N2 Hi). reflexivity.
Qed.

Lemma NoDup_rem : forall t l, NoDup l -> NoDup (remove Nat.eq_dec t l).
Proof.
  intros t l H. induction H as [|u l H1 H2 IH]; simpl; [constructor|]. destruct (Nat.eq_dec t u); auto. constructor; auto.
  intros X. apply H1. apply (in_remove Nat.eq_dec _ _ _ X).
Qed.

Lemma isrd_in : forall a t, isrd a t = true <-> In t (rds a).
Proof.
  intros a t. unfold isrd. rewrite existsb_exists. split.
  - intros (x & Hx & Hy). apply Nat.eqb_eq in Hy. congruence.
  - intros H. exists t. split; [exact H|apply Nat.eqb_refl].
Qed.
Lemma iswr_eq : forall a t, TsoRw_Spec.iswr a t = true <-> wrt a = Some t.
Proof.
  intros a t. unfold TsoRw_Spec.iswr. destruct (wrt a) as [u|]; [|split; discriminate].
  split; [intros H; apply Nat.eqb_eq in H; congruence|intros H; injection H as ->; apply Nat.eqb_refl].
Qed.

(** a step of the lock: [s'] differs from [s] in the state of [t] and in a word of the lock *)
Lemma J_mv : forall s s' a b b' t q e, J s a b -> mv t (pcs s t) q e -> accepts LockSpec.rw_step b e = Some b' ->
  pcs s' = upd (pcs s) t q -> buf s' = buf s -> (forall i, mem s' (Dat i) = mem s (Dat i)) ->
  (W (pcs s t) = true -> W q = true \/ buf s t = []) ->
  exists a', accepts TsoRw_Spec.rw_step a (flat_map rw_data e) = Some a' /\ J s' a' b'.
Proof.
  intros s s' a b b' t q e [Jw Jr Jn Jbw Jbr Jd Jb Jx] Hm Hb Hp Hbuf Hmem Hl.
  assert (Hd : forall o f, data o f s -> data o f s').
  { intros [o|] f [H1 H2]; (split; [|rewrite Hbuf; exact H2]); intros i.
    - unfold view in *. rewrite Hbuf, Hmem. apply H1.
    - rewrite Hmem. apply H1. }
  inversion Hm as [e0 He HW HR|HW HR HW' HR'|HW HW' HR'|HW HR HW' HR'|HR HW' HR'|HW HR HW' HR']; subst e; subst.
  - (* nothing *) exists a. rewrite He. split; [reflexivity|].
    assert (Eb : b' = b).
    { clear - Hb He. revert b Hb. induction e0 as [|x e0 IH]; intros b Hb; [simpl in Hb; congruence|]. simpl in He.
      apply app_eq_nil in He. destruct He as [He1 He2]. destruct x; try discriminate He1; simpl in Hb; apply IH; auto. }
    subst b'. constructor; auto.
    + intros u. rewrite Hp. upd_cases; [rewrite HW|]; apply Jw.
    + intros u. rewrite Hp. upd_cases; [rewrite HR|]; apply Jr.
    + intros u Hu. rewrite Hbuf. apply Jb. exact Hu.
  - (* the writer enters *)
    simpl in Hb. destruct (rw_w b) eqn:E1; [discriminate|]. destruct (rw_r b) eqn:E2; [|discriminate]. injection Hb as <-.
    simpl. rewrite Jbw, Jbr. eexists. split; [reflexivity|]. constructor; cbn [wrt rds dat rw_w rw_r]; auto.
    + intros u. rewrite Hp. upd_cases; [tauto|]. rewrite <- Jw, Jbw. split; intros H; congruence.
    + intros u. rewrite Hp. upd_cases; [rewrite HR'; split; [intros []|discriminate]|]. rewrite <- Jr, Jbr. tauto.
    + constructor.
    + apply data_take. apply Hd. rewrite <- Jbw. exact Jd.
    + intros u _. rewrite Hbuf. apply Jb. rewrite Jbw. discriminate.
  - (* the writer leaves *)
    pose proof (proj2 (Jw t) HW) as Ew. simpl. rewrite (proj2 (iswr_eq a t) Ew). eexists. split; [reflexivity|].
    simpl in Hb. rewrite <- Jbw, Ew, Nat.eqb_refl in Hb. injection Hb as <-. constructor; cbn [wrt rds dat rw_w rw_r]; auto.
    + intros u. rewrite Hp. upd_cases; [rewrite HW'; split; discriminate|]. rewrite <- Jw, Ew. split; congruence.
    + intros u. rewrite Hp. upd_cases; [rewrite HR'|]; apply Jr.
    + apply data_drop with t; [apply Hd; rewrite <- Ew; exact Jd|]. destruct (Hl HW) as [X|X]; [congruence|].
      rewrite Hbuf, X. intros i v [].
    + intros u _. rewrite Hbuf. destruct (Nat.eq_dec u t) as [->|Hn]; [destruct (Hl HW) as [X|X]; [congruence|exact X]|].
      apply Jb. congruence.
    + discriminate.
  - (* a reader enters *)
    simpl in Hb. destruct (rw_w b) eqn:E1; [discriminate|]. injection Hb as <-. simpl. rewrite Jbw. eexists. split; [reflexivity|].
    constructor; cbn [wrt rds dat rw_w rw_r]; auto.
    + intros u. rewrite Hp. upd_cases; [rewrite HW'; split; discriminate|]. rewrite <- Jw, Jbw. tauto.
    + intros u. rewrite Hp. upd_cases; [rewrite HR'; split; auto; intros; left; reflexivity|]. rewrite <- Jr. simpl. split; [intros [X|X]; [congruence|exact X]|auto].
    + constructor; [|exact Jn]. intros X. apply Jr in X. congruence.
    + rewrite Jbr. reflexivity.
    + apply Hd. rewrite <- Jbw. exact Jd.
    + intros u _. rewrite Hbuf. apply Jb. rewrite Jbw. discriminate.
    + discriminate.
  - (* a reader leaves *)
    pose proof (proj2 (Jr t) HR) as Er. simpl. rewrite (proj2 (isrd_in a t) Er). eexists. split; [reflexivity|].
    simpl in Hb. rewrite <- Jbr, (remove1_remove t (rds a) Jn Er) in Hb. injection Hb as <-. constructor; cbn [wrt rds dat rw_w rw_r]; auto.
    + intros u. rewrite Hp. upd_cases; [rewrite HW'|]; apply Jw.
    + intros u. rewrite Hp. upd_cases.
      * rewrite HR'. split; [|discriminate]. intros X. exfalso. exact (remove_In Nat.eq_dec (rds a) t X).
      * rewrite <- Jr. split; [intros X; apply (in_remove Nat.eq_dec _ _ _ X)|intros X; apply in_in_remove; auto].
    + apply NoDup_rem. exact Jn.
    + intros u Hu. rewrite Hbuf. apply Jb. exact Hu.
    + intros u Hu. rewrite (Jx u Hu). reflexivity.
  - (* downgrade *)
    pose proof (proj2 (Jw t) HW) as Ew. simpl. rewrite (proj2 (iswr_eq a t) Ew). eexists. split; [reflexivity|].
    simpl in Hb. rewrite <- Jbw, Ew, Nat.eqb_refl in Hb. injection Hb as <-. constructor; cbn [wrt rds dat rw_w rw_r]; auto.
    + intros u. rewrite Hp. upd_cases; [rewrite HW'; split; discriminate|]. rewrite <- Jw, Ew. split; congruence.
    + intros u. rewrite Hp. upd_cases; [rewrite HR'; split; auto; intros; left; reflexivity|]. rewrite <- Jr. simpl. split; [intros [X|X]; [congruence|exact X]|auto].
    + constructor; [|exact Jn]. intros X. apply Jr in X. congruence.
    + rewrite Jbr. reflexivity.
    + apply data_drop with t; [apply Hd; rewrite <- Ew; exact Jd|]. destruct (Hl HW) as [X|X]; [congruence|].
      rewrite Hbuf, X. intros i v [].
    + intros u _. rewrite Hbuf. destruct (Nat.eq_dec u t) as [->|Hn]; [destruct (Hl HW) as [X|X]; [congruence|exact X]|].
      apply Jb. congruence.
    + discriminate.
Qed.

Lemma J_step : forall s a b b' l s' e, clean s -> J s a b -> tstep s l = Some (s', e) ->
  accepts LockSpec.rw_step b (flat_map c (lock_log e)) = Some b' ->
  exists a', accepts TsoRw_Spec.rw_step a (data_log c e) = Some a' /\ J s' a' b'.
Proof.
  assert (Ell : forall e : list E, lock_log (map Lk e) = e) by (induction e as [|x e IH]; simpl; [|f_equal]; auto).
  assert (Edl : forall e : list E, data_log c (map Lk e) = flat_map rw_data (flat_map c e)).
  { induction e as [|x e IH]; simpl; auto. unfold data_log in *. rewrite IH. rewrite flat_map_app. reflexivity. }
  intros s a b b' [t x|t] s' e Hc HJ Hs Hb; cbn [Tso.step] in Hs.
  - destruct x as [x|i|i v]; cbn [client] in Hs.
    + destruct (lcode t (pcs s t) x) as [i|] eqn:Ec; [|discriminate]. apply code_ok in Ec.
      destruct i as [[j|j] k|y v p e0|[j|j] f k|p e0|p e0]; cbn [okI imap] in *; try (exfalso; exact Ec); cbn in Hs.
      * injection Hs as <- <-. destruct (Ec (view s t (Reg j))) as [E1 E2]. rewrite Ell in Hb. rewrite Edl.
        eapply J_mv; [exact HJ|exact E1|exact Hb|reflexivity|reflexivity|reflexivity|]. intros X. left. auto.
      * destruct (buf s t) eqn:Eb; [|discriminate]. injection Hs as <- <-. specialize (Ec (mem s (Reg j))). rewrite Ell in Hb. rewrite Edl.
        eapply J_mv; [exact HJ|exact Ec|exact Hb|reflexivity|reflexivity| |]; [|auto].
        intros i. cbn [mem]. apply setm_other. discriminate.
      * injection Hs as <- <-. destruct Ec as [E1 E2]. rewrite Ell in Hb. rewrite Edl.
        eapply J_mv; [exact HJ|exact E1|exact Hb|reflexivity|reflexivity|reflexivity|]. intros X. left. auto.
    + destruct (wr (pcs s t) || rd (pcs s t)) eqn:Ea; [|discriminate]. injection Hs as <- <-. simpl in Hb. injection Hb as <-.
      destruct HJ as [Jw Jr Jn Jbw Jbr Jd Jb Jx]. exists a. split.
      * simpl. assert (Ein : TsoRw_Spec.iswr a t || isrd a t = true).
        { apply orb_true_iff in Ea. apply orb_true_iff. destruct Ea as [Ea|Ea]; [left; apply iswr_eq, Jw; auto|right; apply isrd_in, Jr; auto]. }
        rewrite Ein. assert (Ev : view s t (Dat i) = dat a i).
        { destruct (wrt a) as [u|] eqn:Ew.
          - destruct (Nat.eq_dec u t) as [->|Hn]; [apply Jd|]. unfold view. rewrite Jb by congruence. simpl. destruct Jd as [D1 D2].
            exfalso. apply orb_true_iff in Ea. destruct Ea as [Ea|Ea]; [apply wr_W, Jw in Ea; congruence|].
            apply rd_R, Jr in Ea. rewrite (Jx u) in Ea by reflexivity. exact Ea.
          - unfold view. rewrite Jb by discriminate. simpl. apply Jd. }
        rewrite Ev, Z.eqb_refl. reflexivity.
      * constructor; auto; cbn [next pcs buf]; intros u; upd_cases; auto.
    + destruct (wr (pcs s t)) eqn:Ea; [|discriminate]. injection Hs as <- <-. simpl in Hb. injection Hb as <-.
      destruct HJ as [Jw Jr Jn Jbw Jbr Jd Jb Jx]. pose proof (proj2 (Jw t) (wr_W _ Ea)) as Ew.
      simpl. rewrite (proj2 (iswr_eq a t) Ew). eexists. split; [reflexivity|]. constructor; cbn [wrt rds dat pcs buf]; auto.
      * intros u; upd_cases; auto.
      * intros u; upd_cases; auto.
      * rewrite Ew in *. apply data_write. exact Jd.
      * intros u Hu. upd_cases; [congruence|auto].
  - destruct (buf s t) as [|[x v] r] eqn:Eb; [discriminate|]. injection Hs as <- <-. simpl in Hb. injection Hb as <-.
    destruct HJ as [Jw Jr Jn Jbw Jbr Jd Jb Jx]. exists a. split; [reflexivity|]. constructor; cbn [pcs buf]; auto.
    + apply data_flush; auto.
    + intros u Hu. destruct (Nat.eq_dec u t) as [->|Hn]; [rewrite Jb in Eb by auto; discriminate|]. rewrite upd_other by auto. auto.
Qed.

Lemma data_all : forall ls s log, run tstep (tinit p0 D) ls = Some (s, log) ->
  LockSpec.rw_legal (flat_map c (lock_log log)) -> TsoRw_Spec.rw_legal D (data_log c log).
Proof.
  intros ls s log Hr.
  assert (K : clean s /\ forall b, accepts LockSpec.rw_step rw_init (flat_map c (lock_log log)) = Some b ->
    exists a, accepts TsoRw_Spec.rw_step {| wrt := None; rds := []; dat := D |} (data_log c log) = Some a /\ J s a b).
  { eapply (run_inv tstep (fun s log => clean s /\ forall b, accepts LockSpec.rw_step rw_init (flat_map c (lock_log log)) = Some b ->
      exists a, accepts TsoRw_Spec.rw_step {| wrt := None; rds := []; dat := D |} (data_log c log) = Some a /\ J s a b)); [| |exact Hr].
    - split; [intros t x v []|]. intros b Hb. injection Hb as <-. eexists. split; [reflexivity|]. constructor; cbn; auto.
      + intros t. rewrite W0. split; discriminate.
      + intros t. rewrite R0. split; [intros []|discriminate].
      + constructor.
      + split; auto. intros u i v [].
    - intros s1 l1 l s2 e [H1 H2] Hs. split; [eapply clean_step; eauto|]. intros b Hb.
      unfold lock_log in Hb. rewrite flat_map_app, flat_map_app, accepts_app in Hb. fold (lock_log l1) in Hb. fold (lock_log e) in Hb.
      destruct (accepts LockSpec.rw_step rw_init (flat_map c (lock_log l1))) as [b1|]; [|discriminate].
      destruct (H2 _ eq_refl) as (a & A1 & A2). destruct (J_step _ _ _ _ _ _ _ H1 A2 Hs Hb) as (a' & A3 & A4).
      exists a'. split; [|exact A4]. unfold data_log. rewrite flat_map_app, accepts_app. fold (data_log c l1). fold (data_log c e). rewrite A1. exact A3. }
  destruct K as [_ K]. intros [b Hb]. destruct (K _ Hb) as (a & Ha & _). exists a. exact Ha.
Qed.

(** * The lock words, by a sequentially consistent model of the lock *)
Context {S : Type}.
Variables (sc : S -> nat * A -> option (S * list E)) (s0 : S) (Rel : tso L -> S -> Prop).
Hypothesis rel0 : Rel (tinit p0 D) s0.
Hypothesis rel_lk : forall s S1 t a s' e, clean s -> Rel s S1 -> tstep s (Go t (AL a)) = Some (s', e) ->
  exists S2, sc S1 (t, a) = Some (S2, lock_log e) /\ Rel s' S2.
Hypothesis rel_dat : forall s S1 s', Rel s S1 -> (forall x, mem s' (Reg x) = mem s (Reg x)) -> (forall t, pcs s' t = pcs s t) -> Rel s' S1.

Lemma sc_all : forall ls s log, run tstep (tinit p0 D) ls = Some (s, log) ->
  exists ls' S1, run sc s0 ls' = Some (S1, lock_log log) /\ Rel s S1.
Proof.
  intros ls s log Hr.
  assert (K : clean s /\ exists ls' S1, run sc s0 ls' = Some (S1, lock_log log) /\ Rel s S1).
  { eapply (run_inv tstep (fun s log => clean s /\ exists ls' S1, run sc s0 ls' = Some (S1, lock_log log) /\ Rel s S1)); [| |exact Hr].
    - split; [intros t x v []|]. exists [], s0. split; [reflexivity|exact rel0].
    - intros s1 l1 l s2 e (H1 & ls' & S1 & H2 & H3) Hs. split; [eapply clean_step; eauto|].
      assert (El : lock_log (l1 ++ e) = lock_log l1 ++ lock_log e) by (unfold lock_log; apply flat_map_app). rewrite El.
      assert (Dd : lock_log e = [] -> (forall x, mem s2 (Reg x) = mem s1 (Reg x)) -> (forall t, pcs s2 t = pcs s1 t) ->
        exists ls' S1, run sc s0 ls' = Some (S1, lock_log l1 ++ lock_log e) /\ Rel s2 S1).
      { intros X1 X2 X3. exists ls', S1. rewrite X1, app_nil_r. split; [exact H2|]. eapply rel_dat; eauto. }
      destruct l as [t [a|i|i v]|t].
      + destruct (rel_lk _ _ _ _ _ _ H1 H3 Hs) as (S2 & E1 & E2). exists (ls' ++ [(t, a)]), S2. split; [|exact E2].
        eapply run_app; [exact H2|]. simpl. rewrite E1, app_nil_r. reflexivity.
      + cbn [Tso.step client] in Hs. destruct (wr (pcs s1 t) || rd (pcs s1 t)); [|discriminate]. injection Hs as <- <-.
        apply Dd; auto. intros u. cbn [next pcs]. upd_cases; auto.
      + cbn [Tso.step client] in Hs. destruct (wr (pcs s1 t)); [|discriminate]. injection Hs as <- <-.
        apply Dd; auto. intros u. cbn [next pcs]. upd_cases; auto.
      + cbn [Tso.step] in Hs. destruct (buf s1 t) as [|[x v] r] eqn:Eb; [discriminate|]. injection Hs as <- <-. apply Dd; auto.
        intros y. cbn [mem]. apply setm_other. intros ->. apply (H1 t (Reg y) v). rewrite Eb. left. reflexivity. }
  apply K.
Qed.

(** ... and back: what the model of the lock can do, the lock can do once buffers have drained *)
Hypothesis rel_back : forall s S1 t a S2 e, clean s -> Rel s S1 -> buf s t = [] -> sc S1 (t, a) = Some (S2, e) ->
  exists s', tstep s (Go t (AL a)) = Some (s', map Lk e) /\ Rel s' S2.

Lemma drain_rel : forall n s S1 t, clean s -> Rel s S1 -> length (buf s t) = n ->
  exists s', run tstep s (repeat (Flush t) n) = Some (s', []) /\ clean s' /\ Rel s' S1 /\ buf s' t = [].
Proof.
  induction n as [|n IH]; intros s S1 t Hc HR Hn.
  - exists s. split; [reflexivity|]. split; [exact Hc|]. split; [exact HR|]. destruct (buf s t); [reflexivity|discriminate].
  - destruct (buf s t) as [|[x v] r] eqn:Eb; [discriminate|].
    assert (Es : tstep s (Flush t) = Some (mkT (setm (mem s) x v) (upd (buf s) t r) (pcs s), [])) by (cbn [Tso.step]; rewrite Eb; reflexivity).
    pose proof (clean_step _ _ _ _ Hc Es) as Hc'.
    destruct (IH (mkT (setm (mem s) x v) (upd (buf s) t r) (pcs s)) S1 t Hc') as (s' & R1 & R2 & R3 & R4).
    + eapply rel_dat; [exact HR| |reflexivity]. intros y. cbn [mem]. apply setm_other. intros ->. apply (Hc t (Reg y) v). rewrite Eb. left. reflexivity.
    + cbn [buf]. rewrite upd_same. simpl in Hn. congruence.
    + exists s'. split; [|auto]. cbn [repeat]. replace (@nil (xev E)) with (@nil (xev E) ++ []) by reflexivity. eapply run_cons; [exact Es|exact R1].
Qed.

Lemma back_all : forall ls s S1 S2 log, clean s -> Rel s S1 -> run sc S1 ls = Some (S2, log) ->
  exists ls' s', run tstep s ls' = Some (s', map Lk log) /\ Rel s' S2.
Proof.
  induction ls as [|[t a] ls IH]; intros s S1 S2 log Hc HR Hr; cbn [run] in Hr.
  - injection Hr as <- <-. exists [], s. split; [reflexivity|exact HR].
  - destruct (sc S1 (t, a)) as [[S3 e]|] eqn:Es; [|discriminate]. destruct (run sc S3 ls) as [[S4 e']|] eqn:Er; [|discriminate]. injection Hr as <- <-.
    destruct (drain_rel _ s S1 t Hc HR eq_refl) as (s1 & D1 & D2 & D3 & D4).
    destruct (rel_back _ _ _ _ _ _ D2 D3 D4 Es) as (s2 & B1 & B2). pose proof (clean_step _ _ _ _ D2 B1) as C2.
    destruct (IH _ _ _ _ C2 B2 Er) as (ls' & s' & L1 & L2). exists (repeat (Flush t) (length (buf s t)) ++ Go t (AL a) :: ls'), s'.
    split; [|exact L2]. rewrite map_app. replace (map Lk e ++ map Lk e') with ([] ++ (map (@Lk E) e ++ map Lk e')) by reflexivity.
    eapply run_app; [exact D1|]. eapply run_cons; eauto.
Qed.

(** a thread that the model lets acquire *)
Lemma progress_all : forall s ev, reachable tstep (tinit p0 D) s ->
  (forall S1, reachable sc s0 S1 -> Rel s S1 -> exists ls S2 log, run sc S1 ls = Some (S2, log) /\ In ev log) ->
  exists ls s' log, run tstep s ls = Some (s', log) /\ In (Lk ev) log.
Proof.
  intros s ev [ls [log Hr]] HP. destruct (sc_all _ _ _ Hr) as (ls' & S1 & R1 & R2).
  assert (Hc : clean s). { eapply (run_inv tstep (fun s _ => clean s)); [| |exact Hr]; [intros t x v X; exact (False_ind _ X)|]. intros. eapply clean_step; eauto. }
  destruct (HP S1) as (l2 & S2 & log2 & Q1 & Q2); [exists ls'; eexists; exact R1|exact R2|].
  destruct (back_all _ _ _ _ _ Hc R2 Q1) as (l3 & s' & B1 & B2). exists l3, s', (map Lk log2). split; [exact B1|]. apply in_map. exact Q2.
Qed.
End Gen.
