(** * Epoch model: who works on which record, and where deferred callbacks are kept *)
From Coq Require Import List Arith NArith Bool Lia.
From Verif Require Import Lib Epoch_Model Epoch_Spec Epoch_Proof EpochSync_Proof.
Import ListNotations.
Local Open Scope nat_scope.
Local Arguments N.add : simpl never. Local Arguments N.sub : simpl never. Local Arguments N.modulo : simpl never.
Local Arguments N.eqb : simpl never. Local Arguments N.leb : simpl never. Local Arguments N.ltb : simpl never.
Local Arguments Nat.modulo : simpl never. Local Arguments Nat.ltb : simpl never.
Local Arguments upd : simpl never. Local Arguments N.to_nat : simpl never.

(** ** Ownership of records (any configuration) *)
Record IW (s : st) : Prop := {
  w_own : forall t u r, own s t = Some r -> own s u = Some r -> t = u;
  w_rec : forall t r, own s t = Some r -> In r (recs s);
  w_len : forall r, In r (recs s) -> r < length (recs s);
  w_fre : forall t r, own s t = Some r -> rfree (rc s r) = false;
  w_np : forall t, own s t = None -> pcown (thr s t) = false;
  w_x : forall t r, pcx (thr s t) = Some r -> own s t = None /\ In r (recs s) }.

Lemma IW_init : IW init.
Proof. constructor; cbn; intros; try discriminate; try contradiction; auto. Qed.

Lemma pcown_snext : forall k d af rest, pcown (snext k d af rest) = false.
Proof. intros. unfold snext. destruct rest; auto. destruct k, af; auto. Qed.
Lemma pcown_sfound : forall k d rest, pcown (sfound k d rest) = false.
Proof. intros. destruct k; auto. Qed.
Lemma pcown_dnext : forall r n bs k, pcown (dnext r n bs k) = false /\ pcown (dcount r n bs k) = false.
Proof. intros. assert (A : pcown (dnext r n bs k) = false) by (unfold dnext; destruct bs, k; auto). split; auto. unfold dcount. destruct n; auto. Qed.
Lemma pcx_snext : forall k d af rest, pcx (snext k d af rest) = None.
Proof. intros. unfold snext. destruct rest; auto. destruct k, af; auto. Qed.
Lemma pcx_sfound : forall k d rest, pcx (sfound k d rest) = None.
Proof. intros. destruct k; auto. Qed.
Lemma pcx_dnext : forall r n bs k, pcx (dnext r n bs k) = None /\ pcx (dcount r n bs k) = None.
Proof. intros. assert (A : pcx (dnext r n bs k) = None) by (unfold dnext; destruct bs, k; auto). split; auto. unfold dcount. destruct n; auto. Qed.

Lemma IW_frame : forall s s' t p, IW s -> own s' = own s -> recs s' = recs s -> (forall r, rfree (rc s r) = false -> rfree (rc s' r) = false) ->
  thr s' = upd (thr s) t p -> (own s t = None -> pcown p = false) -> (forall r, pcx p = Some r -> own s t = None /\ In r (recs s)) -> IW s'.
Proof.
  intros s s' t p I Ho Hr Hf Ht Hp Hx. constructor; rewrite ?Ho, ?Hr; try apply I.
  - intros u r X. apply Hf. apply (w_fre _ I _ _ X).
  - intros u X. rewrite Ht. du; auto. apply (w_np _ I _ X).
  - intros u r. rewrite Ht. du; auto. apply (w_x _ I).
Qed.

Lemma IW_step : forall c s l s' ev, IW s -> step c s l = Some (s', ev) -> IW s'.
Proof.
  intros c s l s' ev I H. destruct l as [t o|t]; cbn [step] in H.
  - destruct (thr s t) eqn:Et; try discriminate. destruct o; cbn [call] in H; cbv zeta in H.
    + destruct (own s t) eqn:Eo; try discriminate. injection H as <- <-.
      assert (F : forall u, own s u <> Some (length (recs s))).
      { intros u X. apply (w_rec _ I) in X. apply (w_len _ I) in X. lia. }
      constructor; fc; intros.
      * du; try (exfalso; eapply F; congruence). eapply (w_own _ I); eauto.
      * du; [left; congruence|right]. eapply (w_rec _ I); eauto.
      * cbn. destruct H; [lia|]. apply (w_len _ I) in H. lia.
      * du; auto. eapply (w_fre _ I); eauto.
      * du. apply (w_np _ I _ H).
      * du; [rewrite Et in H; discriminate|]. destruct (w_x _ I _ _ H). split; auto. right; auto.
    + destruct (own s t) eqn:Eo; try discriminate. destruct (existsb _ _) eqn:Ex; [|discriminate]. injection H as <- <-.
      eapply IW_frame with (p := X1 r); eauto; fc; auto. cbn. intros r' E. injection E as <-. split; auto. apply existsb_in. auto.
    + destruct (own s t) eqn:Eo; try discriminate. break H; injection H as <- <-. eapply IW_frame with (p := N1); eauto; fc; auto; cbn; intros; congruence.
    + destruct (own s t) eqn:Eo; try discriminate. break H; injection H as <- <-. eapply IW_frame with (p := B1 sc); eauto; fc; auto; cbn; intros; congruence.
    + destruct (own s t) eqn:Eo; try discriminate. break H; injection H as <- <-. eapply IW_frame with (p := E1 _); eauto; fc; auto; cbn; intros; congruence.
    + break H; injection H as <- <-. eapply IW_frame with (p := C1 strict r _); eauto; fc; auto; cbn; intros; congruence.
    + break H; injection H as <- <-. eapply IW_frame with (p := P1 _); eauto; fc; auto; cbn; intros; congruence.
    + break H; injection H as <- <-. eapply IW_frame with (p := Y1 _); eauto; fc; auto; cbn; intros; congruence.
    + break H; injection H as <- <-. eapply IW_frame with (p := Y1 _); eauto; fc; auto; cbn; intros; congruence.
  - unfold tick, entered in H. cbv zeta in H. destruct (thr s t) eqn:Et; try discriminate H.
    1: (* X1 *) { injection H as <- <-. destruct (w_x _ I t r) as [A B]; [rewrite Et; auto|].
      eapply IW_frame with (p := if rfree (rc s r) then X2 r else Idle); eauto; fc; auto; destruct (rfree (rc s r)); cbn; intros; auto; try discriminate. injection H as <-; auto. }
    1: (* X2 *) { destruct (w_x _ I t r) as [A B]; [rewrite Et; auto|]. destruct (rfree (rc s r)) eqn:Ef; injection H as <- <-.
      - assert (F : forall u, own s u <> Some r). { intros u X. apply (w_fre _ I) in X. congruence. }
        constructor; fc; intros.
        + du; try (exfalso; eapply F; congruence). eapply (w_own _ I); eauto.
        + du. eapply (w_rec _ I); eauto.
        + apply (w_len _ I); auto.
        + du; auto. eapply (w_fre _ I); eauto.
        + du; auto. apply (w_np _ I _ H).
        + du; try discriminate. apply (w_x _ I _ _ H).
      - eapply IW_frame with (p := Idle); eauto; fc; auto; cbn; intros; try discriminate. du; auto. }
    1: (* N1 *) { destruct (own s t) eqn:Eo; [|discriminate]. injection H as <- <-. eapply IW_frame with (p := N2); eauto; fc; auto; cbn; intros; try discriminate; try congruence. du; auto. }
    1: (* N2 *) { destruct (own s t) as [r|] eqn:Eo; [|discriminate]. injection H as <- <-.
      constructor; fc; intros.
        + du. eapply (w_own _ I); eauto.
        + du. eapply (w_rec _ I); eauto.
        + apply (w_len _ I); auto.
        + du; fc; [exfalso; apply n; eapply (w_own _ I); eauto|]. eapply (w_fre _ I); eauto.
        + du; auto. apply (w_np _ I _ H).
        + du; try discriminate. apply (w_x _ I _ _ H). }
    all: break H; injection H as <- <-;
      match goal with |- IW ?s1 => eapply IW_frame with (t := t) (p := thr s1 t); [exact I|..]; fc; rewrite ?upd_same; auto end.
    all: try (intros q; rewrite ?updE; destruct (Nat.eq_dec _ _); [subst|]; fc; auto; fail).
    all: rewrite ?pcown_snext, ?pcown_sfound, ?pcx_snext, ?pcx_sfound.
    all: try (cbn; intros; congruence).
    all: try apply pcown_dnext.
    all: try (intros X; pose proof (w_np _ I _ X) as Y; rewrite Et in Y; discriminate).
    all: try (intros ? X; rewrite (proj1 (pcx_dnext _ _ _ _)) in X; discriminate).
    all: try (intros ? X; rewrite (proj2 (pcx_dnext _ _ _ _)) in X; discriminate).
    all: try (intros; apply pcown_dnext).
    all: try match goal with |- context [match ?x with _ => _ end] => destruct x end.
    all: rewrite ?pcown_snext, ?pcown_sfound, ?pcx_snext, ?pcx_sfound.
    all: try (intros q; rewrite ?updE; destruct (Nat.eq_dec _ _); [subst|]; fc; auto; fail).
    all: cbn; intros; congruence.
Qed.

(** ** Calls, polls and barriers of a record exclude each other ([c_excl]) *)
Definition kpol (k : skd) : option nat := match k with KP r _ => Some r | KS b _ _ => b end.
(** the record a poll, barrier or unregister works on; [o] is the thread's own record *)
Definition polp (o : option nat) (p : pc) : option nat :=
  match p with
  | N1 | N2 => o
  | P1 r | PC r _ | PW r _ | PR r _ | PB r => Some r
  | Y1 b | Y4 b _ _ _ _ | YC b _ _ _ | YL b => b
  | S0 k _ | Sc k _ _ _ | Sa k _ _ _ | Sr k _ _ => kpol k
  | D0 r _ _ | DR r _ _ _ _ | DN r _ _ _ _ | DP r _ _ _ _ _ | DA r _ _ _ | DS r _ _ _ => Some r
  | _ => None
  end.
Definition pol (s : st) (t : nat) : option nat := polp (own s t) (thr s t).
(** the record and entry of a ck_epoch_call in progress *)
Definition callp (p : pc) : option (nat * nat) :=
  match p with C1 _ r x | C2 _ r x _ | C3 r x _ _ | C4 _ r x _ => Some (r, x) | _ => None end.

Record IE (s : st) : Prop := {
  e_p : forall t r, pol s t = Some r -> bpl s r = true;
  e_b : forall r, bpl s r = true -> exists t, pol s t = Some r;
  e_u : forall t u r, pol s t = Some r -> pol s u = Some r -> t = u;
  e_c : forall t r x, callp (thr s t) = Some (r, x) -> In t (cls s r);
  e_cc : forall t r, In t (cls s r) -> exists x, callp (thr s t) = Some (r, x);
  e_x : forall r, bpl s r = true -> cls s r = [];
  e_nd : forall r, NoDup (cls s r);
  e_ns : forall t r, In t (cls s r) -> strict_pc (thr s t) = false -> cls s r = [t] }.

Lemma IE_init : IE init.
Proof. constructor; cbn; intros; try discriminate; try contradiction; auto. constructor. Qed.

Lemma polp_snext : forall o k d af rest, polp o (snext k d af rest) = kpol k.
Proof. intros. unfold snext. destruct rest; auto. destruct k, af; auto. Qed.
Lemma polp_sfound : forall o k d rest, polp o (sfound k d rest) = kpol k.
Proof. intros. destruct k; auto. Qed.
Lemma polp_dnext : forall o r n bs k, polp o (dnext r n bs k) = Some r.
Proof. intros. unfold dnext; destruct bs, k; auto. Qed.
Lemma polp_dcount : forall o r n bs k, polp o (dcount r n bs k) = Some r.
Proof. intros. unfold dcount. destruct n; auto. apply polp_dnext. Qed.
Lemma callp_snext : forall k d af rest, callp (snext k d af rest) = None.
Proof. intros. unfold snext. destruct rest; auto. destruct k, af; auto. Qed.
Lemma callp_sfound : forall k d rest, callp (sfound k d rest) = None.
Proof. intros. destruct k; auto. Qed.
Lemma callp_dnext : forall r n bs k, callp (dnext r n bs k) = None.
Proof. intros. unfold dnext; destruct bs, k; auto. Qed.
Lemma callp_dcount : forall r n bs k, callp (dcount r n bs k) = None.
Proof. intros. unfold dcount. destruct n; auto. apply callp_dnext. Qed.
Lemma strict_callp : forall p, callp p = None -> strict_pc p = false.
Proof. destruct p; cbn; intros; auto; discriminate. Qed.

Lemma IE_frame : forall s s', IE s -> (forall u, pol s' u = pol s u) -> (forall u, callp (thr s' u) = callp (thr s u)) ->
  (forall u, callp (thr s' u) <> None -> strict_pc (thr s' u) = strict_pc (thr s u)) ->
  (forall r, cls s' r = cls s r) -> (forall r, bpl s' r = bpl s r) -> IE s'.
Proof.
  intros s s' I Hp Hc Hs Hl Hb. constructor; intros *; rewrite ?Hp, ?Hc, ?Hl, ?Hb; try apply I.
  { intros X. destruct (e_b _ I _ X) as [t Y]. exists t. rewrite Hp. auto. }
  intros X Y. apply (e_ns _ I _ _ X). rewrite <- Hs; auto. rewrite Hc. destruct (e_cc _ I _ _ X) as [x ->]. discriminate.
Qed.

(** a thread starts to work on record [r] *)
Lemma IE_start : forall s s' t r, IE s -> bpl s r = false -> cls s r = [] -> pol s t = None ->
  (forall u, u <> t -> pol s' u = pol s u) -> pol s' t = Some r -> (forall u, callp (thr s' u) = callp (thr s u)) ->
  (forall u, callp (thr s' u) <> None -> strict_pc (thr s' u) = strict_pc (thr s u)) ->
  (forall q, cls s' q = cls s q) -> (forall q, bpl s' q = upd (bpl s) r true q) -> IE s'.
Proof.
  intros s s' t r I Hb Hc Hn Hp Hq Hcp Hs Hl Hbb.
  assert (F : forall u, pol s u <> Some r). { intros u X. apply (e_p _ I) in X. congruence. }
  constructor; intros *; rewrite ?Hcp, ?Hl, ?Hbb; try apply I.
  - intros X. rewrite updE. destruct (Nat.eq_dec r0 r); auto. destruct (Nat.eq_dec t0 t) as [->|N]; [congruence|]. rewrite Hp in X by auto. apply (e_p _ I _ _ X).
  - rewrite updE. destruct (Nat.eq_dec r0 r) as [->|]; [eauto|]. intros X. destruct (e_b _ I _ X) as [u Y]. exists u. rewrite Hp; auto. congruence.
  - intros X Y. destruct (Nat.eq_dec t0 t) as [->|N], (Nat.eq_dec u t) as [->|N2]; auto.
    + rewrite Hp in Y by auto. rewrite Hq in X. injection X as <-. exfalso. eapply F; eauto.
    + rewrite Hp in X by auto. rewrite Hq in Y. injection Y as <-. exfalso. eapply F; eauto.
    + rewrite Hp in X, Y by auto. apply (e_u _ I _ _ _ X Y).
  - rewrite updE. destruct (Nat.eq_dec r0 r) as [->|]; auto. apply (e_x _ I).
  - intros X Y. apply (e_ns _ I _ _ X). rewrite <- Hs; auto. rewrite Hcp. destruct (e_cc _ I _ _ X) as [x ->]. discriminate.
Qed.

(** the thread is done with record [r] *)
Lemma IE_stop : forall s s' t r, IE s -> pol s t = Some r ->
  (forall u, u <> t -> pol s' u = pol s u) -> pol s' t = None -> (forall u, callp (thr s' u) = callp (thr s u)) ->
  (forall u, callp (thr s' u) <> None -> strict_pc (thr s' u) = strict_pc (thr s u)) ->
  (forall q, cls s' q = cls s q) -> (forall q, bpl s' q = upd (bpl s) r false q) -> IE s'.
Proof.
  intros s s' t r I Hr Hp Hq Hcp Hs Hl Hbb.
  constructor; intros *; rewrite ?Hcp, ?Hl, ?Hbb; try apply I.
  - intros X. destruct (Nat.eq_dec t0 t) as [->|N]; [congruence|]. rewrite Hp in X by auto. rewrite updE. destruct (Nat.eq_dec r0 r) as [->|M].
    + exfalso. apply N. apply (e_u _ I _ _ _ X Hr).
    + apply (e_p _ I _ _ X).
  - rewrite updE. destruct (Nat.eq_dec r0 r) as [->|]; [discriminate|]. intros X. destruct (e_b _ I _ X) as [u Y]. exists u. rewrite Hp; auto. congruence.
  - intros X Y. destruct (Nat.eq_dec t0 t) as [->|N]; [congruence|]. destruct (Nat.eq_dec u t) as [->|N2]; [congruence|].
    rewrite Hp in X, Y by auto. apply (e_u _ I _ _ _ X Y).
  - rewrite updE. destruct (Nat.eq_dec r0 r) as [->|]; [discriminate|]. apply (e_x _ I).
  - intros X Y. apply (e_ns _ I _ _ X). rewrite <- Hs; auto. rewrite Hcp. destruct (e_cc _ I _ _ X) as [x ->]. discriminate.
Qed.

Lemma nodup_remove : forall (l : list nat) a, NoDup l -> NoDup (remove Nat.eq_dec a l).
Proof.
  induction l as [|b l IH]; intros a H; cbn; auto. apply NoDup_cons_iff in H. destruct H as [A B]. destruct (Nat.eq_dec a b); auto.
  constructor; auto. intros X. apply in_remove in X. tauto.
Qed.
Lemma may_poll_excl : forall c s r, c_excl c = true -> may_poll c s r = true -> bpl s r = false /\ cls s r = [] /\ usable s r = true.
Proof.
  intros c s r E H. unfold may_poll in H. rewrite E in H. cbn in H. apply andb_true_iff in H. destruct H as [A B].
  apply andb_true_iff in B. destruct B as [B C]. apply negb_true_iff in B. destruct (cls s r); auto; discriminate.
Qed.
Lemma may_call_excl : forall c s b r, c_excl c = true -> may_call c s b r = true -> bpl s r = false /\ usable s r = true /\
  (if b then forall u, In u (cls s r) -> strict_pc (thr s u) = true else cls s r = []).
Proof.
  intros c s b r E H. unfold may_call in H. rewrite E in H. cbn in H. apply andb_true_iff in H. destruct H as [A B].
  apply andb_true_iff in A. destruct A as [A C]. apply negb_true_iff in C. repeat (split; auto). destruct b.
  - rewrite forallb_forall in B. auto.
  - destruct (cls s r); auto; discriminate.
Qed.
Lemma may_unreg : forall s t r, may_unregister s t r = true -> opn s t = [] /\ bpl s r = false /\ cls s r = [] /\ forall b, b < 4 -> rpend (rc s r) b = [].
Proof.
  intros s t r H. unfold may_unregister, no_pending in H. repeat (apply andb_true_iff in H; destruct H as [H ?]).
  repeat split.
  - destruct (opn s t); auto; discriminate.
  - apply negb_true_iff. auto.
  - destruct (cls s r); auto; discriminate.
  - intros b L. rewrite forallb_forall in H0. specialize (H0 b). destruct (rpend (rc s r) b); auto.
    assert (In b [0; 1; 2; 3]) by (cbn; lia). specialize (H0 H3). discriminate.
Qed.

Ltac ietac := let u := fresh "u" in intros u; unfold pol; fc; rewrite ?updE;
  destruct (Nat.eq_dec u _) as [->|]; auto;
  rewrite ?polp_snext, ?polp_sfound, ?polp_dnext, ?polp_dcount, ?callp_snext, ?callp_sfound, ?callp_dnext, ?callp_dcount;
  repeat match goal with E : thr _ _ = _ |- _ => rewrite E; clear E end; auto; try (cbn; congruence).

Lemma IE_step : forall c s l s' ev, c_excl c = true -> IW s -> IE s -> step c s l = Some (s', ev) -> IE s'.
Proof.
  intros c s l s' ev Hx Wf I H. destruct l as [t o|t]; cbn [step] in H.
  - destruct (thr s t) eqn:Et; try discriminate.
    assert (PN : pol s t = None) by (unfold pol; rewrite Et; auto).
    destruct o; cbn [call] in H; cbv zeta in H.
    + destruct (own s t) eqn:Eo; try discriminate. injection H as <- <-. apply (IE_frame s); auto; ietac.
    + break H; injection H as <- <-. apply (IE_frame s); auto; ietac.
    + destruct (own s t) eqn:Eo; try discriminate. destruct (may_unregister s t n) eqn:M; try discriminate. injection H as <- <-.
      apply may_unreg in M. destruct M as [M1 [M2 [M3 _]]]. apply (IE_start s _ t n); auto; try ietac.
      * unfold pol. fc. rewrite upd_same. auto.
    + break H; injection H as <- <-. apply (IE_frame s); auto; ietac.
    + break H; injection H as <- <-. apply (IE_frame s); auto; ietac.
    + destruct (may_call c s strict r) eqn:M; [|discriminate]. injection H as <- <-. apply may_call_excl in M; auto. destruct M as [M1 [_ M2]].
      assert (NI : forall q, ~ In t (cls s q)). { intros q X. destruct (e_cc _ I _ _ X) as [x Y]. rewrite Et in Y. discriminate. }
      constructor; fc; intros.
      * unfold pol in H. fc. du; try discriminate. apply (e_p _ I _ _ H).
      * destruct (e_b _ I _ H) as [u Y]. exists u. unfold pol in *. fc. rewrite upd_other; auto. intros ->. rewrite Et in Y. discriminate.
      * unfold pol in H, H0. fc. du; try discriminate. apply (e_u _ I _ _ _ H H0).
      * du; cbn in H; try congruence.
        -- left; auto.
        -- right. eapply (e_c _ I); eauto.
        -- eapply (e_c _ I); eauto.
      * du; cbn; eauto.
        -- exfalso. eapply NI; eauto.
        -- destruct H; [congruence|]. eapply (e_cc _ I); eauto.
        -- eapply (e_cc _ I); eauto.
      * du. apply (e_x _ I); auto.
      * du. { constructor; auto. apply (e_nd _ I). } apply (e_nd _ I).
      * rewrite !updE in *. destruct (Nat.eq_dec r0 r) as [->|N].
        -- destruct (Nat.eq_dec t0 t) as [->|N2].
           ++ cbn in H0. subst strict. rewrite M2. auto.
           ++ destruct H; [congruence|]. destruct strict; [rewrite M2 in H0; auto; discriminate|]. rewrite M2 in H. contradiction.
        -- destruct (Nat.eq_dec t0 t) as [->|N2]; [exfalso; eapply NI; eauto|]. apply (e_ns _ I _ _ H); auto.
    + destruct (may_poll c s r) eqn:M; [|discriminate]. injection H as <- <-. apply may_poll_excl in M; auto. destruct M as [M1 [M2 _]].
      apply (IE_start s _ t r); auto; try ietac.
      * unfold pol. fc. rewrite upd_same. auto.
    + injection H as <- <-. apply (IE_frame s); auto; ietac.
    + destruct (may_poll c s r) eqn:M; [|discriminate]. injection H as <- <-. apply may_poll_excl in M; auto. destruct M as [M1 [M2 _]].
      apply (IE_start s _ t r); auto; try ietac.
      * unfold pol. fc. rewrite upd_same. auto.
  - unfold tick, entered in H. cbv zeta in H. destruct (thr s t) eqn:Et; try discriminate H.
    all: try (break H; injection H as <- <-; apply (IE_frame s); auto; ietac; fail).
    + injection H as <- <-. apply (IE_frame s); auto; ietac; destruct (rfree _); auto.
    + (* N2 *) destruct (own s t) as [r|] eqn:Eo; [|discriminate]. injection H as <- <-.
      apply (IE_stop s _ t r); auto; try ietac.
      * unfold pol. rewrite Et. auto.
      * unfold pol. fc. rewrite !upd_same; auto.
    + (* C4 *) injection H as <- <-. pose proof (e_c _ I t r x) as X. rewrite Et in X. specialize (X eq_refl).
      assert (NI : forall q, q <> r -> ~ In t (cls s q)). { intros q N Y. destruct (e_cc _ I _ _ Y) as [z Z]. rewrite Et in Z. cbn in Z. congruence. }
      constructor; fc; intros.
      * unfold pol in H. fc. du; try discriminate. apply (e_p _ I _ _ H).
      * destruct (e_b _ I _ H) as [u Y]. exists u. unfold pol in *. fc. rewrite upd_other; auto. intros ->. rewrite Et in Y. discriminate.
      * unfold pol in H, H0. fc. du; try discriminate. apply (e_u _ I _ _ _ H H0).
      * du; try discriminate.
        -- apply in_in_remove; auto. eapply (e_c _ I); eauto.
        -- eapply (e_c _ I); eauto.
      * du.
        -- exfalso. eapply remove_In; eauto.
        -- exfalso. eapply NI; eauto.
        -- apply in_remove in H. eapply (e_cc _ I); apply H.
        -- eapply (e_cc _ I); eauto.
      * du; [rewrite (e_x _ I _ H); auto|apply (e_x _ I); auto].
      * du; [|apply (e_nd _ I)]. apply nodup_remove. apply (e_nd _ I).
      * rewrite !updE in *. destruct (Nat.eq_dec r0 r) as [->|N].
        -- destruct (Nat.eq_dec t0 t) as [->|N2]; [exfalso; eapply remove_In; eauto|].
           apply in_remove in H. destruct H as [H _]. pose proof (e_ns _ I _ _ H H0) as Y. rewrite Y in *. destruct X as [X|[]]. congruence.
        -- destruct (Nat.eq_dec t0 t) as [->|N2]; [exfalso; eapply (NI r0); eauto|]. apply (e_ns _ I _ _ H); auto.
    + injection H as <- <-. apply (IE_stop s _ t r); auto; try ietac.
      * unfold pol. rewrite Et. auto.
      * unfold pol. fc. rewrite !upd_same; auto.
    + break H; injection H as <- <-; apply (IE_frame s); auto; ietac; destruct (S i <? 2); auto.
    + injection H as <- <-. apply (IE_stop s _ t r); auto; try ietac.
      * unfold pol. rewrite Et. auto.
      * unfold pol. fc. rewrite !upd_same; auto.
    + break H; injection H as <- <-; apply (IE_frame s); auto; ietac; destruct (rfree _); rewrite ?polp_snext, ?callp_snext; auto; cbn; congruence.
    + break H; injection H as <- <-; apply (IE_frame s); auto; ietac; destruct (ract _); rewrite ?polp_snext, ?callp_snext; auto; cbn; congruence.
    + break H; injection H as <- <-; apply (IE_frame s); auto; ietac; destruct (_ =? _)%N; rewrite ?polp_snext, ?callp_snext, ?polp_sfound, ?callp_sfound; auto; cbn; congruence.
Qed.
