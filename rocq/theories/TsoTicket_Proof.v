(** Proofs about ck_spinlock_ticket on TSO. *)
From Coq Require Import ZArith Arith List Bool Lia ZifyBool ZifyNat.
From Verif Require Import Lib Tso TsoQueue_Spec TsoQueue_Proof TsoTicket_Model.
From Verif Require SpinTicket_Model SpinTicket_Proof.
Import ListNotations.
Local Open Scope Z_scope.

Lemma mod_next : forall a b B, B <> 0 -> ((a + b) mod B + 1) mod B = (a + (b + 1)) mod B.
Proof. intros. rewrite Zplus_mod_idemp_l. f_equal. lia. Qed.
Lemma hq_cases : forall a t, In t (hq a) -> (hold a = Held t \/ hold a = Left t) \/ exists i, nth_error (queue a) i = Some t.
Proof.
  intros a t H. apply in_app_or in H. destruct H as [H|H].
  - left. unfold hl in H. destruct (hold a); simpl in H; try tauto; destruct H as [->|[]]; auto.
  - right. apply In_nth_error. auto.
Qed.

(** * The packed variant *)
Section Packed.
Variable k : Z.
Variable n : nat.
Hypothesis Hk : 0 <= k.
Hypothesis HB : Z.of_nat n < 2 ^ k.
Notation B := (2 ^ k).
Notation word := (SpinTicket_Proof.word k).
Notation req := (SpinTicket_Model.request_of k).
Notation pos := (SpinTicket_Model.position_of k).

Record RP (s : tso pc) (a : qlock) (P : Z) : Prop := {
  p_mem : mem s (Reg 0) = word ((P + Z.of_nat (length (hq a))) mod B) (P mod B);
  p_nd : NoDup (hq a);
  p_lt : forall t, In t (hq a) -> (t < n)%nat;
  p_cs : forall t, pcs s t = CS <-> hold a = Held t;
  p_q : forall i t, nth_error (queue a) i = Some t -> pcs s t = Wait ((P + Z.of_nat (length (hl a) + i)) mod B);
  p_out : forall t, ~ In t (hq a) -> pcs s t = Idle \/ exists v, pcs s t = TryCas v /\ pos v = req v;
  p_left : forall t, hold a <> Left t;
  p_dat : data (owner (hold a)) (dat a) s;
  p_buf : forall u, alldat (buf s u) /\ (owner (hold a) <> Some u -> buf s u = [])
}.
Definition R (s : tso pc) (a : qlock) : Prop := exists P, RP s a P.

Lemma Bp : 0 < B. Proof. apply Z.pow_pos_nonneg; lia. Qed.
Lemma mb : forall x, 0 <= x mod B < B. Proof. intros. apply Z.mod_pos_bound. apply Bp. Qed.

Lemma R_init : forall D, R (init D) (q_init D).
Proof.
  intros D. exists 0. constructor; simpl; auto; try (constructor; fail); try tauto; try discriminate.
  - intros t. split; discriminate.
  - intros [|i]; discriminate.
  - split; auto. intros u i v [].
  - intros u. split; auto. intros x v [].
Qed.

(** the halves agree exactly when nobody holds or waits *)
Lemma halves : forall s a P, RP s a P -> forall u, req (view s u (Reg 0)) = (P + Z.of_nat (length (hq a))) mod B /\ pos (view s u (Reg 0)) = P mod B /\
  view s u (Reg 0) = mem s (Reg 0) /\ (req (mem s (Reg 0)) =? pos (mem s (Reg 0))) = negb (busy a).
Proof.
  intros s a P [Em Nd Lt Cs Q O Le Da Bu] u.
  assert (Ev : view s u (Reg 0) = mem s (Reg 0)) by (unfold view; apply alldat_reg; apply Bu).
  rewrite Ev, Em. rewrite SpinTicket_Proof.req_word, SpinTicket_Proof.pos_word by (auto; apply mb). repeat split; auto.
  pose proof (nodup_bound _ _ Nd Lt) as Hl. pose proof Bp. destruct (Z.eqb_spec ((P + Z.of_nat (length (hq a))) mod B) (P mod B)) as [E|E].
  - replace (P mod B) with ((P + 0) mod B) in E by (f_equal; lia). apply mod_eq_small in E; try lia.
    unfold busy, hq, hl in *. destruct (hold a); simpl in E; try lia. destruct (queue a); simpl in *; [reflexivity|lia].
  - unfold busy, hq, hl in *. destruct (hold a); simpl in *; auto. destruct (queue a); simpl in *; auto. exfalso. apply E. f_equal. lia.
Qed.

(** a local move of a thread outside *)
Lemma RP_out : forall s a P t p, RP s a P -> ~ In t (hq a) -> (p = Idle \/ exists v, p = TryCas v /\ pos v = req v) -> RP (next s t p) a P.
Proof.
  intros s a P t p [Em Nd Lt Cs Q O Le Da Bu] Hn Hp. constructor; cbn [next mem buf pcs]; auto.
  - intros u. upd_cases; auto. split.
    + intros ->. destruct Hp as [?|[v [? _]]]; discriminate.
    + intros H. exfalso. apply Hn. unfold hq, hl. rewrite H. simpl. auto.
  - intros i u H. rewrite upd_other; eauto. intros ->. apply Hn. unfold hq. apply in_or_app. right. eapply nth_error_In; eauto.
  - intros u H. upd_cases; auto.
Qed.

(** the fetch-and-add: [t] joins; the lock is his at once when nobody is there *)
Lemma RP_join : forall s a P t, RP s a P -> ~ In t (hq a) -> (t < n)%nat -> forall f, f (mem s (Reg 0)) = (mem s (Reg 0) + SpinTicket_Model.INCREMENT k) mod SpinTicket_Model.WORD k ->
  if negb (busy a)
  then R (mkT (setm (mem s) (Reg 0) (f (mem s (Reg 0)))) (buf s) (upd (pcs s) t CS)) {| hold := Held t; queue := []; dat := dat a |}
  else R (mkT (setm (mem s) (Reg 0) (f (mem s (Reg 0)))) (buf s) (upd (pcs s) t (Wait (req (mem s (Reg 0)))))) {| hold := hold a; queue := queue a ++ [t]; dat := dat a |}.
Proof.
  intros s a P t HR Hn Ht f Ef. pose proof (halves s a P HR t) as [H1 [H2 [H3 H4]]]. destruct HR as [Em Nd Lt Cs Q O Le Da Bu]. pose proof Bp as Hb.
  rewrite H3 in H1. rewrite Ef, H1, Em, SpinTicket_Proof.faa_word by (auto; apply mb). rewrite mod_next by lia. destruct (busy a) eqn:Eb; cbn [negb].
  - assert (Eq : hq {| hold := hold a; queue := queue a ++ [t]; dat := dat a |} = hq a ++ [t]) by (unfold hq, hl; simpl; destruct (hold a); simpl; auto).
    exists P. constructor; rewrite ?Eq; cbn [mem buf pcs hold queue dat]; auto.
    + rewrite setm_same, app_length. f_equal. f_equal. simpl. lia.
    + apply nodup_snoc; auto.
    + intros u Hu. apply in_app_or in Hu. destruct Hu as [Hu|[<-|[]]]; auto.
    + intros u. upd_cases; auto. split; [discriminate|]. intros E. exfalso. apply Hn. unfold hq, hl. rewrite E. simpl. auto.
    + intros i u Hu. destruct (Nat.lt_ge_cases i (length (queue a))) as [Hi|Hi].
      * rewrite nth_error_app1 in Hu by auto. rewrite upd_other; [|intros ->; apply Hn; unfold hq; apply in_or_app; right; eapply nth_error_In; eauto].
        rewrite (Q _ _ Hu). reflexivity.
      * rewrite nth_error_app2 in Hu by auto. destruct (i - length (queue a))%nat as [|j] eqn:Ej; [|destruct j; discriminate].
        injection Hu as <-. rewrite upd_same. assert (i = length (queue a)) by lia. subst i. unfold hq. rewrite app_length. reflexivity.
    + intros u Hu. rewrite upd_other; [apply O; intros X; apply Hu; apply in_or_app; auto|]. intros ->. apply Hu. apply in_or_app. simpl. auto.
  - unfold busy in Eb. destruct (hold a) eqn:Eh; try discriminate. destruct (queue a) eqn:Eq; try discriminate. unfold hq, hl in *. rewrite Eh, Eq in *. simpl in *.
    exists P. constructor; unfold hq, hl; cbn [mem buf pcs hold queue dat app length owner]; auto.
    + constructor; auto.
    + intros u [<-|[]]. auto.
    + intros u. upd_cases; [split; auto|]. rewrite Cs. split; [discriminate|congruence].
    + intros [|i]; discriminate.
    + intros u Hu. rewrite upd_other; auto. intros ->. apply Hu. simpl. auto.
    + discriminate.
    + apply data_take. apply data_rmw. auto.
    + intros u. split; [apply Bu|]. intros _. apply Bu. discriminate.
Qed.

Lemma R_step : forall s a l s' e, R s a -> step (pcode k n) parr s l = Some (s', e) -> exists a', accepts q_step a e = Some a' /\ R s' a'.
Proof.
  intros s a l s' e [P HR] H. pose proof (halves s a P HR) as Hv. pose proof HR as [Em Nd Lt Cs Q O Le Da Bu]. destruct l as [t x|t]; cbn [step] in H.
  - unfold pcode in H. destruct (Nat.ltb_spec t n) as [Hn|Hn]; cbn [negb] in H; [|discriminate].
    destruct (Hv t) as [H1 [H2 [H3 H4]]].
    assert (Join : ~ In t (hq a) -> forall f, f (mem s (Reg 0)) = (mem s (Reg 0) + SpinTicket_Model.INCREMENT k) mod SpinTicket_Model.WORD k ->
      (busy a = false -> exists a', accepts q_step a [Req t; Enter t] = Some a' /\ R (mkT (setm (mem s) (Reg 0) (f (mem s (Reg 0)))) (buf s) (upd (pcs s) t CS)) a') /\
      (busy a = true -> exists a', accepts q_step a [Req t] = Some a' /\ R (mkT (setm (mem s) (Reg 0) (f (mem s (Reg 0)))) (buf s) (upd (pcs s) t (Wait (req (mem s (Reg 0)))))) a')).
    { intros Hout f Ef. pose proof (RP_join s a P t HR Hout Hn f Ef) as J. split; intros Eb; rewrite Eb in J; cbn [negb] in J.
      - eexists. split; [|exact J]. unfold busy in Eb. cbn. destruct (hold a); try discriminate. destruct (queue a); try discriminate. cbn. rewrite Nat.eqb_refl. reflexivity.
      - eexists. split; [|exact J]. reflexivity. }
    destruct (in_dec Nat.eq_dec t (hq a)) as [Hin|Hout].
    + destruct (hq_cases _ _ Hin) as [[Eh|Eh]|[i Hi]].
      * (* inside *)
        pose proof (proj2 (Cs t) Eh) as Et. rewrite Et in H. destruct x; try discriminate.
        -- injection H as <- <-. exists a. split.
           ++ simpl. rewrite Eh, Nat.eqb_refl. rewrite Eh in Da. destruct Da as [Da _]. rewrite Da, Z.eqb_refl. reflexivity.
           ++ exists P. constructor; cbn [next mem buf pcs]; auto.
              ** intros u. upd_cases; [tauto|auto].
              ** intros j u Hu. rewrite upd_other; eauto. intros ->. rewrite (Q _ _ Hu) in Et. discriminate.
              ** intros u Hu. rewrite upd_other by congruence. auto.
        -- injection H as <- <-. exists {| hold := hold a; queue := queue a; dat := fun j => if Nat.eqb i j then v else dat a j |}. split.
           ++ simpl. rewrite Eh, Nat.eqb_refl. reflexivity.
           ++ exists P. constructor; cbn [mem buf pcs hold queue dat]; auto.
              ** intros u. upd_cases; [tauto|auto].
              ** intros j u Hu. rewrite upd_other; [apply (Q _ _ Hu)|]. intros ->. rewrite (Q _ _ Hu) in Et. discriminate.
              ** intros u Hu. rewrite upd_other by (intros ->; auto). auto.
              ** rewrite Eh in *. apply data_write. exact Da.
              ** intros u. upd_cases; [|apply Bu]. split; [apply alldat_app; apply Bu|]. rewrite Eh. simpl. congruence.
        -- destruct (buf s t) eqn:Eb; [|discriminate]. injection H as <- <-.
           exists {| hold := Free; queue := queue a; dat := dat a |}. split; [simpl; rewrite Eh, Nat.eqb_refl; simpl; rewrite Nat.eqb_refl; reflexivity|].
           unfold hq, hl in *. rewrite Eh in *. simpl in *. inversion Nd; subst. pose proof Bp.
           exists (P + 1). constructor; unfold hq, hl; cbn [mem buf pcs hold queue dat app owner]; auto.
           ++ rewrite setm_same, Em, SpinTicket_Proof.inc_word by (auto; apply mb). f_equal; [f_equal; lia|].
              rewrite Zplus_mod_idemp_l. reflexivity.
           ++ intros u. upd_cases; [split; discriminate|]. rewrite Cs. split; [congruence|discriminate].
           ++ intros j u Hu. rewrite upd_other; [|intros ->; apply nth_error_In in Hu; auto]. rewrite (Q _ _ Hu). f_equal. f_equal. simpl. lia.
           ++ intros u Hu. upd_cases; auto. apply O. intros [?|?]; auto.
           ++ discriminate.
           ++ apply data_rmw. eapply data_drop; [exact Da|]. rewrite Eb. intros ? ? [].
           ++ intros u. split; [apply Bu|]. intros _. destruct (Nat.eq_dec u t) as [->|]; auto. apply Bu. congruence.
      * exfalso. apply (Le t). auto.
      * (* waiting *)
        pose proof (Q _ _ Hi) as Et. rewrite Et in H. destruct x; try discriminate. rewrite H2 in H.
        assert (Hlen : (length (hl a) + i < length (hq a))%nat).
        { unfold hq. rewrite app_length. assert (i < length (queue a))%nat by (apply nth_error_Some; congruence). lia. }
        pose proof (nodup_bound _ _ Nd Lt) as Hl2.
        destruct (Z.eqb_spec ((P + Z.of_nat (length (hl a) + i)) mod B) (P mod B)) as [E|E]; injection H as <- <-.
        -- replace (P mod B) with ((P + 0) mod B) in E by (f_equal; lia). apply mod_eq_small in E; [|apply Bp|clear - Hlen Hl2 HB; lia|split; [apply Z.le_refl|apply Bp]].
           unfold hq, hl in *. destruct (hold a) eqn:Eh; simpl in E; try lia. assert (i = 0%nat) by (clear - E; lia). subst i.
           destruct (queue a) as [|u q] eqn:Eq; [discriminate|]. injection Hi as ->. simpl in *.
           exists {| hold := Held t; queue := q; dat := dat a |}. split; [simpl; rewrite Eh, Eq, Nat.eqb_refl; reflexivity|].
           exists P. constructor; unfold hq, hl; cbn [next mem buf pcs hold queue dat app owner]; auto.
           ++ intros u. upd_cases; [tauto|]. rewrite Cs. split; congruence.
           ++ intros j u Hu. rewrite upd_other; [apply (Q (S j)); auto|]. intros ->. inversion Nd; subst. apply nth_error_In in Hu. auto.
           ++ intros u Hu. rewrite upd_other; auto. intros ->. apply Hu. simpl. auto.
           ++ discriminate.
           ++ eapply data_pcs; [apply data_take; exact Da| |]; reflexivity.
           ++ intros u. split; [apply Bu|]. intros _. apply Bu. discriminate.
        -- exists a. split; auto. exists P. constructor; cbn [next mem buf pcs]; auto.
           ++ intros u. upd_cases; auto. rewrite <- Cs, Et. split; discriminate.
           ++ intros j u Hu. upd_cases; auto. rewrite <- (Q _ _ Hu). auto.
           ++ intros u Hu. rewrite upd_other by congruence. auto.
    + destruct (O t Hout) as [Et|[w [Et Ew]]]; rewrite Et in H.
      * destruct x; try discriminate.
        -- destruct (buf s t) eqn:Eb; [|discriminate]. rewrite H4 in H. destruct (Join Hout (fun v => (v + SpinTicket_Model.INCREMENT k) mod SpinTicket_Model.WORD k) eq_refl) as [J1 J2].
           destruct (busy a); cbn [negb] in H; injection H as <- <-; auto.
        -- rewrite H3 in H. rewrite (Z.eqb_sym (pos _)), H4 in H. destruct (busy a) eqn:Eb; cbn [negb] in H; injection H as <- <-.
           ++ exists a. split; [simpl; rewrite Eb; auto|]. exists P. apply RP_out; auto.
           ++ exists a. split; auto. exists P. apply RP_out; auto. right. eexists. split; auto.
              apply Z.eqb_eq. rewrite Z.eqb_sym. exact H4.
        -- rewrite H3, H4 in H. injection H as <- <-. exists a. split; [simpl; rewrite negb_involutive, eqb_reflx; auto|]. exists P. apply RP_out; auto.
      * destruct x; try discriminate. destruct (buf s t) eqn:Eb; [|discriminate]. destruct (Z.eqb_spec (mem s (Reg 0)) w) as [E|E]; injection H as <- <-.
        -- destruct (Join Hout (fun _ => (w + SpinTicket_Model.INCREMENT k) mod SpinTicket_Model.WORD k)) as [J1 _]; [congruence|]. apply J1.
           rewrite <- E in Ew. rewrite Ew, Z.eqb_refl in H4. destruct (busy a); [discriminate|auto].
        -- exists a. split; auto. exists P. destruct (RP_out s a P t Idle HR Hout) as [A1 A2 A3 A4 A5 A6 A7 A8 A9]; auto.
           constructor; cbn [mem buf pcs] in *; auto.
  - destruct (buf s t) as [|[x v] r] eqn:Eb; [discriminate|]. injection H as <- <-. exists a. split; auto.
    assert (Hd : isdat x) by (apply (proj1 (Bu t) x v); rewrite Eb; left; auto). destruct x as [i|i]; [|destruct Hd].
    exists P. constructor; cbn [mem buf pcs]; auto.
    + apply data_flush; auto.
    + intros u. upd_cases; [|apply Bu]. destruct (Bu t) as [X Y]. rewrite Eb in *. split; [eapply alldat_tl; eauto|]. intros Z0. apply Y in Z0. discriminate.
Qed.

Lemma packed_all : forall D ls s log, run (step (pcode k n) parr) (init D) ls = Some (s, log) -> q_legal D log.
Proof. intros D ls s log H. destruct (R_run _ _ R R_step _ _ _ _ _ (R_init D) H) as [a [A _]]. exists a. auto. Qed.

Definition okl (l : lab act) : Prop := match l with Flush _ | Go _ ATick | Go _ AUnlock => True | _ => False end.

Lemma packed_gets : forall D s t r, reachable (step (pcode k n) parr) (init D) s -> pcs s t = Wait r ->
  can (pcode k n) parr okl s (fun _ log => In (Enter t) log).
Proof.
  intros D s t r [ls [log Hr]] Ht. destruct (R_run _ _ R R_step _ _ _ _ _ (R_init D) Hr) as [a [_ Ra]].
  apply (q_progress (pcode k n) parr R okl) with a.
  - clear - Hk HB. intros s a h HR Eh. pose proof HR as [P HP]. destruct Eh as [Eh|Eh]; [|exfalso; apply (p_left _ _ _ HP h); auto].
    assert (Pv : forall t x v e, In e (parr t x v) -> exists u, e = Visible u) by (intros ? ? ? ? []).
    eapply can_app; [apply (can_R _ _ R R_step okl s a _ HR (can_drain (pcode k n) parr Pv okl (fun _ => I) s h))|]. cbn beta.
    intros s1 log1 [[K1 [K2 [_ K4]]] [a1 [A1 [P1 R1]]]]. destruct (vis_accepts _ _ _ A1 K4) as [E1 E2].
    assert (Eh1 : hold a1 = Held h).
    { apply (p_cs _ _ _ R1). rewrite K2. apply (p_cs _ _ _ HP). auto. }
    assert (Hst : exists s2, step (pcode k n) parr s1 (Go h AUnlock) = Some (s2, [Leave h; Visible h])).
    { eexists. cbn [step]. unfold pcode. rewrite (proj2 (p_cs _ _ _ R1 h) Eh1), K1.
      assert (Hh : (h < n)%nat) by (apply (p_lt _ _ _ R1); unfold hq, hl; rewrite Eh1; simpl; auto).
      rewrite (proj2 (Nat.ltb_lt _ _) Hh). cbn [negb]. reflexivity. }
    destruct Hst as [s2 Hst]. destruct (R_step _ _ _ _ _ (ex_intro _ P1 R1) Hst) as [a2 [A2 R2]].
    eapply can_step; [exact Hst|exact I|]. apply can_done. exists a2. rewrite accepts_app, A1. split; [exact A2|]. split; auto.
    simpl in A2. rewrite Eh1, Nat.eqb_refl in A2. simpl in A2. rewrite Nat.eqb_refl in A2. injection A2 as <-. auto.
  - clear - Hk HB. intros s a u q HR Eh Eq. pose proof HR as [P HP].
    assert (Hst : exists s2, step (pcode k n) parr s (Go u ATick) = Some (s2, [Enter u])).
    { eexists. cbn [step]. unfold pcode. assert (Hu : (u < n)%nat) by (apply (p_lt _ _ _ HP); unfold hq, hl; rewrite Eh, Eq; simpl; auto).
      rewrite (proj2 (Nat.ltb_lt _ _) Hu). cbn [negb]. rewrite (p_q _ _ _ HP O u) by (rewrite Eq; reflexivity).
      destruct (halves _ _ _ HP u) as [_ [-> _]]. unfold hl. rewrite Eh. simpl. rewrite Z.add_0_r, Z.eqb_refl. reflexivity. }
    destruct Hst as [s2 Hst]. destruct (R_step _ _ _ _ _ HR Hst) as [a2 [A2 R2]].
    eapply can_step; [exact Hst|exact I|]. apply can_done. exists a2. split; auto. split; [simpl; auto|].
    simpl in A2. rewrite Eh, Eq, Nat.eqb_refl in A2. injection A2 as <-. auto.
  - auto.
  - destruct Ra as [P HP]. destruct (in_dec Nat.eq_dec t (hq a)) as [Hin|Hout].
    + destruct (hq_cases _ _ Hin) as [[Eh|Eh]|[i Hi]].
      * rewrite (proj2 (p_cs _ _ _ HP t) Eh) in Ht. discriminate.
      * exfalso. apply (p_left _ _ _ HP t). auto.
      * eapply nth_error_In; eauto.
    + destruct (p_out _ _ _ HP t Hout) as [E|[v [E _]]]; rewrite E in Ht; discriminate.
Qed.
End Packed.

(** * The generic variant *)
Section Generic.
Variable W : Z.
Variable n : nat.
Hypothesis HW : Z.of_nat n < W.

Record GP (s : tso pc) (a : qlock) (P : Z) : Prop := {
  g_next : mem s (Reg 0) = (P + Z.of_nat (length (hq a))) mod W;
  g_pos : mem s (Reg 1) = P mod W;
  g_nd : NoDup (hq a);
  g_lt : forall t, In t (hq a) -> (t < n)%nat;
  g_cs : forall t, hold a = Held t <-> pcs s t = CS \/ exists v, pcs s t = UnStore v;
  g_un : forall t v, pcs s t = UnStore v -> v = P mod W;
  g_q : forall i t, nth_error (queue a) i = Some t -> pcs s t = Wait ((P + Z.of_nat (length (hl a) + i)) mod W);
  g_out : forall t, hold a = Left t \/ ~ In t (hq a) -> pcs s t = Idle;
  g_dat : data (owner (hold a)) (dat a) s;
  g_none : forall u, owner (hold a) <> Some u -> buf s u = [];
  g_buf : match hold a with
    | Free => True
    | Held t => alldat (buf s t)
    | Left t => exists ds, buf s t = ds ++ [(Reg 1, (P + 1) mod W)] /\ alldat ds
    end
}.
Definition G (s : tso pc) (a : qlock) : Prop := exists P, GP s a P.

Lemma G_init : forall D, G (init D) (q_init D).
Proof.
  intros D. exists 0. constructor; simpl; auto; try (constructor; fail); try tauto; try discriminate.
  - intros t. split; [discriminate|]. intros [?|[v ?]]; discriminate.
  - intros [|i]; discriminate.
  - split; auto. intros u i v [].
Qed.

Lemma G_step : forall s a l s' e, G s a -> step (gcode W n) garr s l = Some (s', e) -> exists a', accepts q_step a e = Some a' /\ G s' a'.
Proof.
  intros s a l s' e [P HR] H. pose proof HR as [En Ep Nd Lt Cs Un Q O Da No Bu]. pose proof (nodup_bound _ _ Nd Lt) as Hlen.
  destruct l as [t x|t]; cbn [step] in H.
  - unfold gcode in H. destruct (Nat.ltb_spec t n) as [Hn|Hn]; cbn [negb] in H; [|discriminate].
    assert (Hv : forall u, hold a = Held u \/ ~ In u (hl a) -> view s u (Reg 1) = P mod W).
    { intros u Hu. unfold view. unfold hl in Hu. destruct (hold a) as [|h|h] eqn:Eh; simpl in *.
      - rewrite No by discriminate. auto.
      - destruct (Nat.eq_dec h u) as [->|]; [rewrite alldat_reg by auto; auto|rewrite No by congruence; auto].
      - destruct Hu as [Hu|Hu]; [discriminate|]. rewrite No by (intros X; injection X as ->; tauto). auto. }
    destruct (in_dec Nat.eq_dec t (hq a)) as [Hin|Hout].
    + destruct (hq_cases _ _ Hin) as [[Eh|Eh]|[i Hi]].
      * assert (Hnq : forall j u, nth_error (queue a) j = Some u -> u <> t).
        { intros j u Hu ->. unfold hq, hl in Nd. rewrite Eh in Nd. simpl in Nd. inversion Nd; subst. apply nth_error_In in Hu. auto. }
        pose proof (proj1 (Cs t) Eh) as [Et|[w Et]]; rewrite Et in H; destruct x; try discriminate.
        -- injection H as <- <-. exists a. split.
           ++ simpl. rewrite Eh, Nat.eqb_refl. rewrite Eh in Da. destruct Da as [Da _]. rewrite Da, Z.eqb_refl. reflexivity.
           ++ exists P. constructor; cbn [next mem buf pcs]; auto.
              ** intros u. upd_cases; [|auto]. tauto.
              ** intros u v. upd_cases; [discriminate|]. apply Un.
              ** intros j u Hu. rewrite upd_other by eauto. auto.
              ** intros u Hu. rewrite upd_other; auto. intros ->. destruct Hu as [Hu|Hu]; [congruence|auto].
        -- injection H as <- <-. exists {| hold := hold a; queue := queue a; dat := fun j => if Nat.eqb i j then v else dat a j |}. split.
           ++ simpl. rewrite Eh, Nat.eqb_refl. reflexivity.
           ++ exists P. constructor; cbn [mem buf pcs hold queue dat]; auto.
              ** intros u. upd_cases; [|auto]. tauto.
              ** intros u w. upd_cases; [discriminate|]. apply Un.
              ** intros j u Hu. rewrite upd_other by eauto. apply (Q _ _ Hu).
              ** intros u Hu. rewrite upd_other; auto. intros ->. destruct Hu as [Hu|Hu]; [congruence|auto].
              ** rewrite Eh in *. apply data_write. exact Da.
              ** intros u Hu. rewrite upd_other; auto. intros ->. rewrite Eh in Hu. simpl in Hu. congruence.
              ** rewrite Eh in *. rewrite upd_same. apply alldat_app. auto.
        -- rewrite Hv in H by auto. injection H as <- <-. exists a. split; auto. exists P. constructor; cbn [next mem buf pcs]; auto.
           ++ intros u. upd_cases; [|auto]. rewrite Eh. split; [eauto|]. auto.
           ++ intros u v. upd_cases; [congruence|]. apply Un.
           ++ intros j u Hu. rewrite upd_other by eauto. auto.
           ++ intros u Hu. rewrite upd_other; auto. intros ->. destruct Hu as [Hu|Hu]; [congruence|auto].
        -- injection H as <- <-. pose proof (Un _ _ Et) as Ew. subst w.
           exists {| hold := Left t; queue := queue a; dat := dat a |}. split; [simpl; rewrite Eh, Nat.eqb_refl; reflexivity|].
           unfold hq, hl in *. rewrite Eh in *. simpl in *.
           exists P. constructor; unfold hq, hl; cbn [mem buf pcs hold queue dat app owner]; auto.
           ++ intros u. upd_cases; [split; [discriminate|intros [?|[? ?]]; discriminate]|]. rewrite <- Cs. split; congruence.
           ++ intros u v. upd_cases; [discriminate|]. apply Un.
           ++ intros j u Hu. rewrite upd_other by eauto. apply (Q _ _ Hu).
           ++ intros u Hu. upd_cases; auto. apply O. right. destruct Hu as [Hu|Hu]; [congruence|]. simpl in Hu. auto.
           ++ apply (data_reg (Some t)). exact Da.
           ++ intros u Hu. rewrite upd_other by congruence. auto.
           ++ rewrite upd_same. exists (buf s t). split; auto. rewrite Zplus_mod_idemp_l. reflexivity.
      * (* the release is on its way: no request gets through *)
        rewrite O in H by auto. destruct x; try discriminate. rewrite Eh in Bu. destruct Bu as [ds [Eb _]].
        rewrite Eb in H. destruct ds; discriminate.
      * (* waiting *)
        pose proof (Q _ _ Hi) as Et. rewrite Et in H. destruct x; try discriminate.
        assert (Hlt2 : (length (hl a) + i < length (hq a))%nat).
        { unfold hq. rewrite app_length. assert (i < length (queue a))%nat by (apply nth_error_Some; congruence). lia. }
        assert (Hnl : ~ In t (hl a)).
        { intros X. assert (E : nth_error (hq a) 0 = Some t) by (unfold hq, hl in *; destruct (hold a); simpl in *; try tauto; destruct X as [->|[]]; auto).
          assert (E2 : nth_error (hq a) (length (hl a) + i) = Some t) by (unfold hq; rewrite nth_error_app2 by lia; replace (length (hl a) + i - length (hl a))%nat with i by lia; auto).
          assert (0%nat = (length (hl a) + i)%nat) by (apply (proj1 (NoDup_nth_error (hq a)) Nd); [lia|congruence]).
          destruct (hl a); [destruct X|simpl in *; lia]. }
        rewrite Hv in H by auto.
        destruct (Z.eqb_spec (P mod W) ((P + Z.of_nat (length (hl a) + i)) mod W)) as [E|E]; injection H as <- <-.
        -- replace (P mod W) with ((P + 0) mod W) in E by (f_equal; lia). pose proof (nodup_bound _ _ Nd Lt) as Hl3.
           apply mod_eq_small in E; [|clear - HW; lia|clear - HW; lia|clear - Hlt2 Hl3 HW; lia].
           unfold hq, hl in *. destruct (hold a) eqn:Eh; simpl in E; try lia. assert (i = 0%nat) by (clear - E; lia). subst i.
           destruct (queue a) as [|u q] eqn:Eq; [discriminate|]. injection Hi as ->. simpl in *.
           exists {| hold := Held t; queue := q; dat := dat a |}. split; [simpl; rewrite Eh, Eq, Nat.eqb_refl; reflexivity|].
           exists P. constructor; unfold hq, hl; cbn [next mem buf pcs hold queue dat app owner]; auto.
           ++ intros u. upd_cases; [tauto|]. rewrite <- Cs. split; congruence.
           ++ intros u v. upd_cases; [discriminate|]. apply Un.
           ++ intros j u Hu. rewrite upd_other; [apply (Q (S j)); auto|]. intros ->. inversion Nd; subst. apply nth_error_In in Hu. auto.
           ++ intros u [Hu|Hu]; [discriminate|]. simpl in Hu. rewrite upd_other; auto.
           ++ eapply data_pcs; [apply data_take; exact Da| |]; reflexivity.
           ++ intros u Hu. apply No. discriminate.
           ++ rewrite No by discriminate. intros x v [].
        -- exists a. split; auto. exists P. constructor; cbn [next mem buf pcs]; auto.
           ++ intros u. upd_cases; auto. rewrite Cs, Et. split; intros [?|[? ?]]; discriminate.
           ++ intros u v. upd_cases; [discriminate|]. apply Un.
           ++ intros j u Hu. upd_cases; auto. rewrite <- (Q _ _ Hu). auto.
           ++ intros u Hu. rewrite upd_other; auto. intros ->. rewrite (O t Hu) in Et. discriminate.
    + (* a request *)
      rewrite O in H by auto. destruct x; try discriminate. destruct (buf s t) eqn:Eb; [|discriminate]. injection H as <- <-.
      assert (Eq : hq {| hold := hold a; queue := queue a ++ [t]; dat := dat a |} = hq a ++ [t]) by (unfold hq, hl; simpl; destruct (hold a); simpl; auto).
      exists {| hold := hold a; queue := queue a ++ [t]; dat := dat a |}. split; [reflexivity|].
      exists P. constructor; rewrite ?Eq; cbn [mem buf pcs hold queue dat]; auto.
      * rewrite setm_same, app_length, En. rewrite mod_next by lia. f_equal. simpl. lia.
      * apply nodup_snoc; auto.
      * intros u Hu. apply in_app_or in Hu. destruct Hu as [Hu|[<-|[]]]; auto.
      * intros u. upd_cases; auto. rewrite Cs, (O t) by auto. split; intros [?|[? ?]]; discriminate.
      * intros u v. upd_cases; [discriminate|]. apply Un.
      * intros i u Hu. destruct (Nat.lt_ge_cases i (length (queue a))) as [Hi|Hi].
        -- rewrite nth_error_app1 in Hu by auto. rewrite upd_other; [|intros ->; apply Hout; unfold hq; apply in_or_app; right; eapply nth_error_In; eauto].
           rewrite (Q _ _ Hu). reflexivity.
        -- rewrite nth_error_app2 in Hu by auto. destruct (i - length (queue a))%nat as [|j] eqn:Ej; [|destruct j; discriminate].
           injection Hu as <-. rewrite upd_same, En. assert (i = length (queue a)) by lia. subst i. unfold hq. rewrite app_length. reflexivity.
      * intros u Hu. rewrite upd_other; [apply O; destruct Hu as [Hu|Hu]; auto; right; intros X; apply Hu; apply in_or_app; auto|].
        intros ->. destruct Hu as [Hu|Hu]; [|apply Hu; apply in_or_app; simpl; auto]. apply Hout. unfold hq, hl. rewrite Hu. simpl. auto.
  - destruct (buf s t) as [|[x v] r] eqn:Eb; [discriminate|]. injection H as <- <-.
    assert (Ht : owner (hold a) = Some t).
    { destruct (holder_dec (owner (hold a)) t) as [E|E]; auto. rewrite No in Eb by auto. discriminate. }
    assert (Dcase : forall i, x = Dat i -> match hold a with Free => True | Held t => alldat r | Left t => exists ds, r = ds ++ [(Reg 1, (P + 1) mod W)] /\ alldat ds end ->
      exists a', accepts q_step a (garr t x v) = Some a' /\ G (mkT (setm (mem s) x v) (upd (buf s) t r) (pcs s)) a').
    { intros i -> Hr. exists a. split; auto. exists P. constructor; cbn [mem buf pcs]; auto.
      - apply data_flush; auto.
      - intros u Hu. rewrite upd_other by congruence. auto.
      - destruct (hold a); auto; injection Ht as ->; rewrite upd_same; auto. }
    destruct (hold a) as [|h|h] eqn:Eh; simpl in Ht; [discriminate| |]; injection Ht as ->.
    + assert (Hd : isdat x) by (apply (Bu x v); rewrite Eb; left; auto). destruct x as [i|i]; [|destruct Hd].
      apply (Dcase i); auto. rewrite Eb in Bu. eapply alldat_tl; eauto.
    + destruct Bu as [ds [Ebu Hds]]. destruct ds as [|[y w] ds].
      * rewrite Eb in Ebu. injection Ebu as -> -> ->. exists {| hold := Free; queue := queue a; dat := dat a |}. split; [simpl; rewrite Eh, Nat.eqb_refl; reflexivity|].
        unfold hq, hl in *. rewrite Eh in *. simpl in *.
        exists (P + 1). constructor; unfold hq, hl; cbn [mem buf pcs hold queue dat app owner]; auto.
        -- rewrite setm_other by discriminate. rewrite En. f_equal. lia.
        -- inversion Nd; auto.
        -- intros u. rewrite <- Cs. split; discriminate.
        -- intros u w Hu. exfalso. assert (X : Left t = Held u) by (apply Cs; eauto). discriminate.
        -- intros i u Hu. rewrite (Q _ _ Hu). f_equal. f_equal. simpl. lia.
        -- intros u [Hu|Hu]; [discriminate|]. apply O. destruct (Nat.eq_dec u t) as [->|]; auto. right. simpl. intros [?|?]; auto.
        -- eapply data_drop with t; [|cbn [buf]; rewrite upd_same; intros j z []]. eapply data_flush; [exact Da|exact Eb].
        -- intros u _. destruct (Nat.eq_dec u t) as [->|]; [apply upd_same|rewrite upd_other by auto; apply No; congruence].
      * rewrite Eb in Ebu. injection Ebu as <- <- Er.
        assert (Hd : isdat x) by (apply (Hds x v); left; auto). destruct x as [i|i]; [|destruct Hd].
        apply (Dcase i); auto. exists ds. split; auto. eapply alldat_tl; eauto.
Qed.

Lemma generic_all : forall D ls s log, run (step (gcode W n) garr) (init D) ls = Some (s, log) -> q_legal D log.
Proof. intros D ls s log H. destruct (R_run _ _ G G_step _ _ _ _ _ (G_init D) H) as [a [A _]]. exists a. auto. Qed.

Lemma garr_vis : forall t x v e, In e (garr t x v) -> exists u, e = Visible u.
Proof. intros t [i|i] v e H; simpl in H; [destruct H|destruct H as [<-|[]]; eauto]. Qed.

Lemma generic_gets : forall D s t r, reachable (step (gcode W n) garr) (init D) s -> pcs s t = Wait r ->
  can (gcode W n) garr okl s (fun _ log => In (Enter t) log).
Proof.
  intros D s t r [ls [log Hr]] Ht. destruct (R_run _ _ G G_step _ _ _ _ _ (G_init D) Hr) as [a [_ Ra]].
  assert (Hleft : forall s a h, G s a -> hold a = Left h ->
     can (gcode W n) garr okl s (fun s' log => exists a', accepts q_step a log = Some a' /\ G s' a' /\ hold a' = Free /\ queue a' = queue a)).
  { clear - HW. intros s a h HR Eh. destruct (can_R _ _ G G_step okl s a _ HR (can_drain (gcode W n) garr garr_vis okl (fun _ => I) s h)) as [ls [s1 [log1 [C1 [C2 [[K1 [K2 [K3 K4]]] [a1 [A1 [P1 R1]]]]]]]]].
    destruct (vis_accepts _ _ _ A1 K4) as [E1 E2]. exists ls, s1, log1. split; auto. split; auto. exists a1. split; auto. split; [exists P1; auto|]. split; auto.
    destruct E2 as [E2|E2]; auto. exfalso. rewrite Eh in E2. pose proof (g_buf _ _ _ R1) as B1. rewrite E2 in B1. destruct B1 as [ds [B1 _]]. rewrite K1 in B1. destruct ds; discriminate. }
  apply (q_progress (gcode W n) garr G okl) with a; auto.
  - clear - HW Hleft. intros s a h HR [Eh|Eh]; [|eauto]. pose proof HR as [P HP].
    assert (Hh : (h < n)%nat) by (apply (g_lt _ _ _ HP); unfold hq, hl; rewrite Eh; simpl; auto).
    assert (U : forall s a v, G s a -> hold a = Held h -> pcs s h = UnStore v -> can (gcode W n) garr okl s (fun s' log => exists a', accepts q_step a log = Some a' /\ G s' a' /\ hold a' = Free /\ queue a' = queue a)).
    { clear - Hh Hleft HW. intros s a v HR Eh Et.
      assert (Hst : exists s2, step (gcode W n) garr s (Go h ATick) = Some (s2, [Leave h])).
      { eexists. cbn [step]. unfold gcode. rewrite Et, (proj2 (Nat.ltb_lt _ _) Hh). cbn [negb]. reflexivity. }
      destruct Hst as [s2 Hst]. destruct (G_step _ _ _ _ _ HR Hst) as [a2 [A2 R2]]. eapply can_step; [exact Hst|exact I|].
      simpl in A2. rewrite Eh, Nat.eqb_refl in A2. injection A2 as <-. destruct (Hleft _ _ h R2 eq_refl) as [ls [s' [log [C1 [C2 [a' [C3 C4]]]]]]].
      exists ls, s', log. split; auto. split; auto. exists a'. split; [|auto]. simpl. rewrite Eh, Nat.eqb_refl. auto. }
    destruct (proj1 (g_cs _ _ _ HP h) Eh) as [Et|[v Et]]; [|eapply U; eauto].
    assert (Hst : exists v, step (gcode W n) garr s (Go h AUnlock) = Some (next s h (UnStore v), [])).
    { eexists. cbn [step]. unfold gcode. rewrite Et, (proj2 (Nat.ltb_lt _ _) Hh). cbn [negb]. reflexivity. }
    destruct Hst as [v Hst]. destruct (G_step _ _ _ _ _ HR Hst) as [a2 [A2 R2]]. injection A2 as <-. eapply can_step; [exact Hst|exact I|].
    eapply U; eauto. cbn [next pcs]. apply upd_same.
  - clear - HW. intros s a u q HR Eh Eq. pose proof HR as [P HP].
    assert (Hst : exists s2, step (gcode W n) garr s (Go u ATick) = Some (s2, [Enter u])).
    { eexists. cbn [step]. unfold gcode. assert (Hu : (u < n)%nat) by (apply (g_lt _ _ _ HP); unfold hq, hl; rewrite Eh, Eq; simpl; auto).
      rewrite (proj2 (Nat.ltb_lt _ _) Hu). cbn [negb]. rewrite (g_q _ _ _ HP O u) by (rewrite Eq; reflexivity).
      unfold view. rewrite (g_none _ _ _ HP) by (rewrite Eh; discriminate). simpl. rewrite (g_pos _ _ _ HP). unfold hl. rewrite Eh. simpl. rewrite Z.add_0_r, Z.eqb_refl. reflexivity. }
    destruct Hst as [s2 Hst]. destruct (G_step _ _ _ _ _ HR Hst) as [a2 [A2 R2]].
    eapply can_step; [exact Hst|exact I|]. apply can_done. exists a2. split; auto. split; [simpl; auto|].
    simpl in A2. rewrite Eh, Eq, Nat.eqb_refl in A2. injection A2 as <-. auto.
  - destruct Ra as [P HP]. destruct (in_dec Nat.eq_dec t (hq a)) as [Hin|Hout].
    + destruct (hq_cases _ _ Hin) as [[Eh|Eh]|[i Hi]].
      * destruct (proj1 (g_cs _ _ _ HP t) Eh) as [E|[v E]]; rewrite E in Ht; discriminate.
      * rewrite (g_out _ _ _ HP) in Ht by auto. discriminate.
      * eapply nth_error_In; eauto.
    + rewrite (g_out _ _ _ HP) in Ht by auto. discriminate.
Qed.
End Generic.
