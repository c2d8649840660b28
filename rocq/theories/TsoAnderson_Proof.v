(** Proofs about ck_spinlock_anderson on x86-TSO. *)
From Coq Require Import ZArith Arith List Bool Lia.
From Verif Require Import Lib Tso TsoQueue_Spec TsoQueue_Proof TsoTicket_Proof TsoAnderson_Model.
From Verif Require SpinAnderson_Proof.
Import ListNotations.
Local Open Scope Z_scope.

Section P.
Variable count : Z.
Variable n : nat.
Hypothesis Hc : 0 < count.
Hypothesis HcW : count <= UINT_MAX.
Hypothesis Hn : Z.of_nat n <= count.

(** memory while the slot of position [P] is unlocked, or while none is *)
Definition open (s : tso pc) (P : Z) : Prop := forall j, 0 <= j < count -> mem s (Sl j) = if j =? P mod count then 0 else 1.
Definition shut (s : tso pc) : Prop := forall j, 0 <= j < count -> mem s (Sl j) = 1.
Definition marks (s : tso pc) (P : Z) (mk : list (loc * Z)) : Prop := (mk = [(Sl (P mod count), 1)] /\ open s P) \/ (mk = [] /\ shut s).

Record AP (s : tso pc) (a : qlock) (P : Z) : Prop := {
  a_next : mem s (Reg 0) mod count = (P + Z.of_nat (length (hq a))) mod count;
  a_nd : NoDup (hq a);
  a_lt : forall t, In t (hq a) -> (t < n)%nat;
  a_cs : forall t, hold a = Held t -> pcs s t = Crit (P mod count);
  a_q : forall i t, nth_error (queue a) i = Some t -> pcs s t = Wait ((P + Z.of_nat (length (hl a) + i)) mod count) \/
          (i = O /\ hold a = Free /\ pcs s t = Mark (P mod count));
  a_out : forall t, hold a = Left t \/ ~ In t (hq a) -> pcs s t = Idle \/ (wrap count <> 0 /\ exists p, pcs s t = Cas p);
  a_dat : data (owner (hold a)) (dat a) s;
  a_none : forall u, owner (hold a) <> Some u -> buf s u = [];
  a_buf : match hold a with
          | Free => open s P
          | Held t => exists mk ds, buf s t = mk ++ ds /\ alldat ds /\ marks s P mk
          | Left t => exists mk ds, buf s t = mk ++ ds ++ [(Sl ((P + 1) mod count), 0)] /\ alldat ds /\ marks s P mk
          end
}.
Definition R (s : tso pc) (a : qlock) : Prop := exists P, AP s a P.

Lemma mb : forall x, 0 <= x mod count < count. Proof. intros. apply Z.mod_pos_bound. auto. Qed.
Lemma Sl_inj : forall i j, 0 <= i -> 0 <= j -> Sl i = Sl j -> i = j.
Proof. unfold Sl. intros i j Hi Hj H. injection H as H. lia. Qed.

Lemma R_init : forall D, R (init D) (q_init D).
Proof.
  intros D. exists 0. constructor; unfold hq, hl; simpl; auto; try (constructor; fail); try tauto; try discriminate.
  - intros [|i]; discriminate.
  - split; auto. intros u i v [].
  - intros j Hj. unfold Sl. simpl. rewrite Z.mod_0_l by lia. destruct (Z.eqb_spec j 0) as [->|E]; [reflexivity|].
    destruct (Z.to_nat j) eqn:Ej; [lia|reflexivity].
Qed.

Lemma reg0 : forall s a P u, AP s a P -> view s u (Reg 0) = mem s (Reg 0).
Proof.
  intros s a P u H. unfold view. apply fwd_none. intros v Hv.
  pose proof (a_buf _ _ _ H) as B. pose proof (a_none _ _ _ H) as Z0. destruct (hold a) as [|h|h]; cbn [owner] in Z0.
  - rewrite Z0 in Hv by discriminate. destruct Hv.
  - destruct (Nat.eq_dec u h) as [->|Hu]; [|rewrite Z0 in Hv by congruence; destruct Hv]. destruct B as [mk [ds [B1 [B2 B3]]]]. rewrite B1 in Hv. apply in_app_or in Hv. destruct Hv as [Hv|Hv].
    + destruct B3 as [[-> _]|[-> _]]; [|destruct Hv]. destruct Hv as [Hv|[]]. discriminate.
    + apply (B2 _ _ Hv).
  - destruct (Nat.eq_dec u h) as [->|Hu]; [|rewrite Z0 in Hv by congruence; destruct Hv]. destruct B as [mk [ds [B1 [B2 B3]]]]. rewrite B1 in Hv. rewrite !in_app_iff in Hv. destruct Hv as [Hv|[Hv|[Hv|[]]]].
    + destruct B3 as [[-> _]|[-> _]]; [|destruct Hv]. destruct Hv as [Hv|[]]. discriminate.
    + apply (B2 _ _ Hv).
    + discriminate.
Qed.

(** a change of the program counter of an outsider *)
Lemma A_out : forall s a P t p, AP s a P -> hold a = Left t \/ ~ In t (hq a) -> p = Idle \/ (wrap count <> 0 /\ exists q, p = Cas q) -> AP (next s t p) a P.
Proof.
  intros s a P t p [A1 A2 A3 A4 A5 A6 A7 A8 A9] Hout Hp.
  assert (Hq : forall i u, nth_error (queue a) i = Some u -> u <> t).
  { intros i u Hu ->. apply nth_error_In in Hu. destruct Hout as [E|E]; [|apply E; unfold hq; apply in_or_app; auto].
    unfold hq, hl in A2. rewrite E in A2. inversion A2; subst. contradiction. }
  constructor; cbn [next mem buf pcs]; auto.
  - intros u Hu. rewrite upd_other; auto. intros ->. destruct Hout as [E|E]; [congruence|]. apply E. unfold hq, hl. rewrite Hu. simpl. auto.
  - intros i u Hu. rewrite upd_other; eauto.
  - intros u Hu. upd_cases; auto.
Qed.

(** a request *)
Lemma A_join : forall s a P t v, AP s a P -> ~ In t (hq a) -> (t < n)%nat -> v mod count = (mem s (Reg 0) + 1) mod count ->
  AP (mkT (setm (mem s) (Reg 0) v) (buf s) (upd (pcs s) t (Wait (mem s (Reg 0) mod count)))) {| hold := hold a; queue := queue a ++ [t]; dat := dat a |} P.
Proof.
  intros s a P t v [A1 A2 A3 A4 A5 A6 A7 A8 A9] Hout Ht Hv. set (a' := {| hold := hold a; queue := queue a ++ [t]; dat := dat a |}).
  assert (Ehq : hq a' = hq a ++ [t]) by (unfold hq, hl, a'; simpl; rewrite app_assoc; auto).
  constructor; rewrite ?Ehq; cbn [mem buf pcs]; auto.
  - rewrite setm_same, Hv, Zplus_mod, A1, <- Zplus_mod. f_equal. rewrite app_length. simpl. lia.
  - apply nodup_snoc; auto.
  - intros u Hu. apply in_app_or in Hu. destruct Hu as [Hu|[<-|[]]]; auto.
  - intros u Hu. change (hold a') with (hold a) in Hu. rewrite upd_other; auto. intros ->. apply Hout. unfold hq, hl. rewrite Hu. simpl. auto.
  - change (hold a') with (hold a). change (queue a') with (queue a ++ [t]). change (hl a') with (hl a). intros i u Hu. destruct (Nat.lt_ge_cases i (length (queue a))) as [Hi|Hi].
    + rewrite nth_error_app1 in Hu by auto. rewrite upd_other; auto. intros ->. apply Hout. unfold hq. apply in_or_app. right. eapply nth_error_In; eauto.
    + rewrite nth_error_app2 in Hu by auto. destruct (i - length (queue a))%nat as [|m] eqn:Em; [|destruct m; discriminate]. injection Hu as <-. rewrite upd_same. left. f_equal. rewrite A1. f_equal.
      unfold hq. rewrite app_length. lia.
  - intros u Hu. rewrite upd_other.
    + apply A6. destruct Hu as [Hu|Hu]; auto. right. intros X. apply Hu. apply in_or_app. auto.
    + intros ->. destruct Hu as [Hu|Hu]; [|apply Hu; apply in_or_app; simpl; auto]. apply Hout. unfold hq, hl. change (hold a') with (hold a) in Hu. rewrite Hu. simpl. auto.
Qed.

Lemma alldat_nodat : forall P mk (s : tso pc), marks s P mk -> nodat mk.
Proof. intros P mk s [[-> _]|[-> _]] i v H; [destruct H as [H|[]]; discriminate|destruct H]. Qed.

Lemma R_step : forall s a l s' e, R s a -> step (code count n) arr s l = Some (s', e) -> exists a', accepts q_step a e = Some a' /\ R s' a'.
Proof.
  intros s a l s' e [P HR] H. pose proof HR as [A1 A2 A3 A4 A5 A6 A7 A8 A9]. destruct l as [t x|t]; cbn [step] in H.
  - unfold code in H. destruct (Nat.ltb t n) eqn:Hltn; cbn [negb] in H; [|discriminate]. apply Nat.ltb_lt in Hltn.
    assert (D : hold a = Held t \/ (exists i, nth_error (queue a) i = Some t) \/ (hold a = Left t \/ ~ In t (hq a))).
    { destruct (in_dec Nat.eq_dec t (hq a)) as [Hin|Hin]; auto. destruct (hq_cases _ _ Hin) as [[?|?]|?]; auto. }
    destruct D as [Eh|[[i Hi]|Hout]].
    + (* the holder *)
      rewrite (A4 _ Eh) in H. rewrite Eh in A7, A9. destruct A9 as [mk [ds [B1 [B2 B3]]]].
      assert (Hntq : ~ In t (queue a)) by (unfold hq, hl in A2; rewrite Eh in A2; inversion A2; auto).
      assert (Hq : forall j u, nth_error (queue a) j = Some u -> u <> t) by (intros j u Hu ->; apply nth_error_In in Hu; auto).
      destruct x; try discriminate; injection H as <- <-.
      * exists a. destruct A7 as [D1 D2]. split.
        -- simpl. rewrite Eh, Nat.eqb_refl. unfold view in D1. unfold view. rewrite D1, Z.eqb_refl. reflexivity.
        -- exists P. constructor; cbn [next mem buf pcs]; auto.
           ++ intros u Hu. upd_cases; auto.
           ++ intros j u Hu. rewrite upd_other; eauto.
           ++ intros u Hu. rewrite upd_other; auto. intros ->. destruct Hu as [Hu|Hu]; [congruence|]. apply Hu. unfold hq, hl. rewrite Eh. simpl. auto.
           ++ rewrite Eh. split; auto.
           ++ rewrite Eh. exists mk, ds. auto.
      * exists {| hold := Held t; queue := queue a; dat := fun j => if Nat.eqb i j then v else dat a j |}. split; [simpl; rewrite Eh, Nat.eqb_refl; reflexivity|]. exists P.
        unfold hq, hl in *. rewrite Eh in *. constructor; unfold hq, hl in *; cbn [next mem buf pcs hold queue dat owner] in *; auto.
        -- intros u Hu. upd_cases; auto.
        -- intros j u Hu. rewrite upd_other; eauto.
        -- intros u Hu. rewrite upd_other; auto. intros ->. destruct Hu as [Hu|Hu]; [congruence|]. apply Hu. simpl. auto.
        -- apply data_write. auto.
        -- intros u Hu. rewrite upd_other by congruence. auto.
        -- rewrite upd_same, B1. exists mk, (ds ++ [(Dat i, v)]). rewrite app_assoc. split; auto. split; [apply alldat_app; auto|auto].
      * (* unlock *)
        exists {| hold := Left t; queue := queue a; dat := dat a |}. split; [simpl; rewrite Eh, Nat.eqb_refl; reflexivity|].
        rewrite (SpinAnderson_Proof.unlock_slot count n Hc HcW), Zplus_mod_idemp_l. exists P.
        constructor; unfold hq, hl in *; rewrite Eh in *; cbn [next mem buf pcs hold queue dat owner] in *; auto.
        -- discriminate.
        -- intros j u Hu. rewrite upd_other by eauto. destruct (A5 _ _ Hu) as [X|[_ [X _]]]; [auto|discriminate].
        -- intros u Hu. upd_cases; auto. apply A6. right. destruct Hu as [Hu|Hu]; [congruence|auto].
        -- apply (data_reg (Some t)). exact A7.
        -- intros u Hu. rewrite upd_other by congruence. auto.
        -- rewrite upd_same, B1. exists mk, ds. rewrite app_assoc. auto.
    + (* queued *)
      assert (Hlt : (length (hl a) + i < length (hq a))%nat).
      { unfold hq. rewrite app_length. assert (i < length (queue a))%nat by (apply nth_error_Some; congruence). clear - H0. lia. }
      pose proof (nodup_bound _ _ A2 A3) as Hl2.
      assert (Hnl : ~ In t (hl a)).
      { intros X. unfold hq, hl in *. destruct (hold a) as [|h|h]; simpl in *; try tauto; destruct X as [->|[]]; inversion A2; subst; apply H2; eapply nth_error_In; eauto. }
      assert (Eb : buf s t = []) by (apply A8; unfold hl in Hnl; destruct (hold a); cbn [owner]; simpl in Hnl; [discriminate|intros X; injection X as ->; tauto..]).
      destruct (A5 _ _ Hi) as [Et|[-> [Eh Et]]]; rewrite Et in H; destruct x; try discriminate.
      * set (j := (P + Z.of_nat (length (hl a) + i)) mod count) in *.
        assert (Hj : 0 <= j < count) by apply mb.
        assert (Hjp : j = P mod count -> (length (hl a) + i = 0)%nat).
        { intros E. unfold j in E. replace (P mod count) with ((P + 0) mod count) in E by (f_equal; clear; lia). apply mod_eq_small in E; [clear - E; lia|auto|clear - Hlt Hl2 Hn; lia|clear - Hc; lia]. }
        assert (Hval : mem s (Sl j) = 1 \/ (mem s (Sl j) = 0 /\ i = O /\ hold a = Free)).
        { assert (Ho : open s P -> mem s (Sl j) = 1 \/ (mem s (Sl j) = 0 /\ (length (hl a) + i = 0)%nat)).
          { intros O. rewrite (O _ Hj). destruct (Z.eqb_spec j (P mod count)); auto. }
          assert (Hm : forall mk, marks s P mk -> hl a <> [] -> mem s (Sl j) = 1).
          { intros mk [[_ O]|[_ S0]] Hne; auto. destruct (Ho O) as [X|[_ X]]; auto. destruct (hl a); [destruct (Hne eq_refl)|simpl in X; discriminate]. }
          destruct (hold a) as [|h|h] eqn:Eh.
          - destruct (Ho A9) as [X|[X Y]]; auto. right. split; auto. split; auto. clear - Y. lia.
          - destruct A9 as [mk [ds [_ [_ B]]]]. left. apply (Hm mk B). unfold hl. rewrite Eh. discriminate.
          - destruct A9 as [mk [ds [_ [_ B]]]]. left. apply (Hm mk B). unfold hl. rewrite Eh. discriminate. }
        unfold view in H. rewrite Eb in H. cbn [fwd] in H. destruct Hval as [E|[E [-> Eh]]]; rewrite E in H; cbn in H; injection H as <- <-; exists a; (split; [reflexivity|]); exists P.
        -- assert (X : forall u, upd (pcs s) t (Wait j) u = pcs s u) by (intros u; upd_cases; auto).
           constructor; cbn [next mem buf pcs]; auto; intros; rewrite X; auto.
        -- assert (Ej : j = P mod count) by (unfold j, hl; rewrite Eh; simpl; f_equal; lia).
           constructor; cbn [next mem buf pcs]; auto.
           ++ intros u Hu. congruence.
           ++ intros k u Hu. upd_cases; [|eauto]. right. split; [|rewrite Ej; auto].
              assert (N : NoDup (queue a)) by (unfold hq, hl in A2; rewrite Eh in A2; exact A2).
              apply (proj1 (NoDup_nth_error (queue a)) N); [apply nth_error_Some; congruence|congruence].
           ++ intros u Hu. rewrite upd_other; auto. intros ->. destruct Hu as [Hu|Hu]; [congruence|]. apply Hu. unfold hq. apply in_or_app. right. eapply nth_error_In; eauto.
      * (* mark *)
        injection H as <- <-. destruct (queue a) as [|u q] eqn:Eq; [discriminate|]. injection Hi as ->.
        exists {| hold := Held t; queue := q; dat := dat a |}. split; [simpl; rewrite Eh, Eq, Nat.eqb_refl; reflexivity|]. exists P.
        unfold hq, hl in *. rewrite Eh, ?Eq in *. cbn [app length] in *. inversion A2 as [|? ? N1 N2]; subst.
        constructor; unfold hq, hl; cbn [next mem buf pcs hold queue dat owner app length]; auto.
        -- intros u Hu. injection Hu as <-. apply upd_same.
        -- intros k u Hu. rewrite upd_other; [|intros ->; apply nth_error_In in Hu; auto]. destruct (A5 (S k) u Hu) as [X|[X _]]; [|discriminate]. left. rewrite X. do 3 f_equal.
        -- intros u Hu. rewrite upd_other; [apply A6; right; destruct Hu; [discriminate|auto]|]. intros ->. destruct Hu as [Hu|Hu]; [discriminate|]. apply Hu. simpl. auto.
        -- apply (data_reg (Some t)). apply data_take. exact A7.
        -- intros u Hu. rewrite upd_other by congruence. apply A8. discriminate.
        -- rewrite upd_same, Eb. exists [(Sl (P mod count), 1)], []. split; [reflexivity|]. split; [intros ? ? []|]. left. split; auto.
    + (* outside *)
      assert (Hnq : buf s t = [] -> ~ In t (hq a)).
      { intros Eb. destruct Hout as [E|E]; auto. rewrite E in A9. destruct A9 as [mk [ds [B _]]]. rewrite Eb in B. symmetry in B. apply app_eq_nil in B. destruct B as [_ B]. destruct ds; discriminate. }
      destruct (A6 t Hout) as [Et|[Hw [p Et]]]; rewrite Et in H; destruct x; try discriminate.
      * destruct (Z.eqb_spec (wrap count) 0) as [Hw|Hw].
        -- destruct (buf s t) eqn:Eb; [|discriminate]. injection H as <- <-. exists {| hold := hold a; queue := queue a ++ [t]; dat := dat a |}. split; [reflexivity|]. exists P.
           rewrite (SpinAnderson_Proof.land_mask count n Hc HcW) by auto. apply A_join; auto. apply (SpinAnderson_Proof.next_mod_faa count n Hc HcW); auto.
        -- injection H as <- <-. exists a. split; [reflexivity|]. exists P. apply A_out; eauto.
      * destruct (buf s t) eqn:Eb; [|discriminate]. destruct (Z.eqb_spec (mem s (Reg 0)) p) as [E|E]; injection H as <- <-.
        -- exists {| hold := hold a; queue := queue a ++ [t]; dat := dat a |}. split; [reflexivity|]. exists P. subst p. apply A_join; auto. apply SpinAnderson_Proof.next_mod_cas; auto.
        -- exists a. split; [reflexivity|]. exists P. destruct (A_out s a P t (Cas (mem s (Reg 0))) HR Hout) as [C1 C2 C3 C4 C5 C6 C7 C8 C9]; [eauto|].
           constructor; cbn [next mem buf pcs] in *; auto.
  - (* a store arrives *)
    destruct (buf s t) as [|[x v] r] eqn:Eb; [discriminate|]. injection H as <- <-.
    assert (Ho : owner (hold a) = Some t) by (destruct (owner (hold a)) as [o|] eqn:E; [destruct (Nat.eq_dec o t) as [->|]; auto|]; rewrite A8 in Eb by congruence; discriminate).
    assert (Hsame : forall D (a' : qlock), arr t x v = [] -> hold a' = hold a -> queue a' = queue a -> dat a' = dat a -> mem (mkT (setm (mem s) x v) (upd (buf s) t r) (pcs s)) (Reg 0) = mem s (Reg 0) ->
      match hold a with Free => D | Held t => exists mk ds, r = mk ++ ds /\ alldat ds /\ marks (mkT (setm (mem s) x v) (upd (buf s) t r) (pcs s)) P mk
        | Left t => exists mk ds, r = mk ++ ds ++ [(Sl ((P + 1) mod count), 0)] /\ alldat ds /\ marks (mkT (setm (mem s) x v) (upd (buf s) t r) (pcs s)) P mk end ->
      exists a', accepts q_step a (arr t x v) = Some a' /\ R (mkT (setm (mem s) x v) (upd (buf s) t r) (pcs s)) a').
    { intros D a' Ha _ _ _ H0 HB. rewrite Ha. exists a. split; [reflexivity|]. exists P. constructor; auto.
      - rewrite H0. auto.
      - apply data_flush; auto.
      - intros u Hu. cbn [buf]. rewrite upd_other by congruence. auto.
      - destruct (hold a) as [|h|h]; cbn [owner] in Ho; [discriminate| |]; injection Ho as ->; cbn [buf]; rewrite upd_same; exact HB. }
    assert (Harr : forall mk ds tail, (x, v) :: r = mk ++ ds ++ tail -> alldat ds -> marks s P mk ->
      (arr t x v = [] /\ setm (mem s) x v (Reg 0) = mem s (Reg 0) /\ exists mk' ds', r = mk' ++ ds' ++ tail /\ alldat ds' /\ marks (mkT (setm (mem s) x v) (upd (buf s) t r) (pcs s)) P mk') \/
      (mk = [] /\ ds = [] /\ (x, v) :: r = tail /\ shut s)).
    { intros mk ds tail E Hd [[-> Ho']|[-> Hs]].
      - left. cbn [app] in E. injection E as -> -> ->. split; [reflexivity|]. split; [reflexivity|]. exists [], ds. split; auto. split; auto. right. split; auto.
        intros j Hj. cbn [mem]. destruct (Z.eqb_spec j (P mod count)) as [->|Hne]; [apply setm_same|]. rewrite setm_other; [rewrite (Ho' _ Hj); destruct (Z.eqb_spec j (P mod count)); [contradiction|auto]|].
        intros X. apply Hne. symmetry. apply Sl_inj; auto; [apply mb|apply Hj].
      - cbn [app] in E. destruct ds as [|[y w] ds]; [right; auto|]. left. cbn [app] in E. injection E as <- <- ->. assert (Hx : isdat x) by (apply (Hd x v); simpl; auto). destruct x as [i|i]; [|destruct Hx].
        split; [reflexivity|]. split; [reflexivity|]. exists [], ds. split; auto. split; [eapply alldat_tl; eauto|]. right. split; auto. }
    destruct (hold a) as [|h|h] eqn:Eh; cbn [owner] in Ho; [discriminate| |]; injection Ho as ->; destruct A9 as [mk [ds [B1 [B2 B3]]]]; rewrite Eb in B1.
    + rewrite <- (app_nil_r ds) in B1. destruct (Harr _ _ _ B1 B2 B3) as [[C1 [C2 [mk' [ds' [C3 [C4 C5]]]]]]|[_ [_ [X _]]]]; [|discriminate].
      apply (Hsame True a); auto. exists mk', ds'. rewrite app_nil_r in C3. auto.
    + destruct (Harr _ _ _ B1 B2 B3) as [[C1 [C2 [mk' [ds' [C3 [C4 C5]]]]]]|[_ [_ [X Hs]]]].
      * apply (Hsame True a); auto. exists mk', ds'. auto.
      * injection X as -> -> ->. exists {| hold := Free; queue := queue a; dat := dat a |}. split; [simpl; rewrite Eh, Nat.eqb_refl; reflexivity|]. exists (P + 1).
        unfold hq, hl in *. rewrite Eh in *. cbn [app length owner] in *. inversion A2 as [|? ? N1 N2]; subst.
        constructor; unfold hq, hl; cbn [mem buf pcs hold queue dat owner app length]; auto.
        -- change (mem s (Reg 0) mod count = (P + 1 + Z.of_nat (length (queue a))) mod count). rewrite A1. f_equal. lia.
        -- intros u Hu. apply A3. simpl. auto.
        -- discriminate.
        -- intros i u Hu. destruct (A5 _ _ Hu) as [Y|[_ [Y _]]]; [|discriminate]. left. rewrite Y. f_equal. f_equal. lia.
        -- intros u Hu. apply A6. destruct Hu as [Hu|Hu]; [discriminate|]. destruct (Nat.eq_dec t u) as [->|Hut]; auto. right. intros [Y|Y]; auto.
        -- eapply data_drop with t; [apply (data_flush (Some t)); auto|]. cbn [buf]. rewrite upd_same. intros ? ? [].
        -- intros u _. upd_cases; auto. apply A8. congruence.
        -- intros j Hj. cbn [mem]. destruct (Z.eqb_spec j ((P + 1) mod count)) as [->|Hne]; [apply setm_same|]. rewrite setm_other; [apply Hs; auto|].
           intros Y. apply Hne. symmetry. apply Sl_inj; auto; [apply mb|apply Hj].
Qed.

Lemma anderson_all : forall D ls s log, run (step (code count n) arr) (init D) ls = Some (s, log) -> q_legal D log.
Proof. intros D ls s log H. destruct (R_run _ _ R R_step _ _ _ _ _ (R_init D) H) as [a [A _]]. exists a. auto. Qed.

(** * Progress *)
Definition okl (l : lab act) : Prop := match l with Flush _ | Go _ ATick | Go _ AUnlock => True | _ => False end.
Lemma arr_vis : forall t x v e, In e (arr t x v) -> exists u, e = Visible u.
Proof. intros t [i|[|i]] v e H; simpl in H; try destruct H. destruct (v =? 0); simpl in H; [destruct H as [<-|[]]; eauto|destruct H]. Qed.

Lemma anderson_gets : forall D s t j, reachable (step (code count n) arr) (init D) s -> pcs s t = Wait j \/ pcs s t = Mark j ->
  can (code count n) arr okl s (fun _ log => In (Enter t) log).
Proof.
  intros D s t j [ls [log Hr]] Ht. destruct (R_run _ _ R R_step _ _ _ _ _ (R_init D) Hr) as [a [_ Ra]].
  apply (q_progress (code count n) arr R okl) with a; auto.
  - clear - Hc HcW Hn. intros s a h HR Eh. change (can (code count n) arr okl s (freed R a)).
    assert (Hl : forall s a h, R s a -> hold a = Left h -> can (code count n) arr okl s (freed R a)).
    { apply (left_freed (code count n) arr arr_vis R R_step okl); [intros; exact I|]. intros s0 a0 h0 [P0 C0] E0 B0.
      pose proof (a_buf _ _ _ C0) as B. rewrite E0 in B. destruct B as [mk [ds [B _]]]. rewrite B0 in B. symmetry in B. apply app_eq_nil in B. destruct B as [_ B]. destruct ds; discriminate. }
    destruct Eh as [Eh|Eh]; [|eauto]. pose proof HR as [P HP].
    assert (Hh : (h < n)%nat) by (apply (a_lt _ _ _ HP); unfold hq, hl; rewrite Eh; simpl; auto).
    eapply (freed_step (code count n) arr R R_step okl) with (l := Go h AUnlock).
    + exact HR.
    + cbn [step]. unfold code. rewrite (proj2 (Nat.ltb_lt _ _) Hh). cbn [negb]. rewrite (a_cs _ _ _ HP h Eh). reflexivity.
    + exact I.
    + simpl. rewrite Eh, Nat.eqb_refl. reflexivity.
    + reflexivity.
    + intros R1. eapply Hl; eauto. reflexivity.
  - clear - Hc HcW Hn. intros s a u q HR Eh Eq.
    assert (Hu : forall s a P, AP s a P -> queue a = u :: q -> Nat.ltb u n = true).
    { intros s0 a0 P0 HP E0. apply Nat.ltb_lt. apply (a_lt _ _ _ HP). unfold hq. rewrite E0. apply in_or_app. simpl. auto. }
    assert (E4 : forall s a, R s a -> hold a = Free -> queue a = u :: q -> forall j, pcs s u = Mark j -> can (code count n) arr okl s (fun s' log => exists a', R s' a' /\ In (Enter u) log /\ queue a' = q)).
    { clear - Hc HcW Hn Hu. intros s a HR Eh Eq j Ep. pose proof HR as [P HP].
      assert (Hst : exists s1, step (code count n) arr s (Go u ATick) = Some (s1, [Enter u])).
      { eexists. cbn [step]. unfold code. rewrite (Hu _ _ _ HP Eq). cbn [negb]. rewrite Ep. reflexivity. }
      destruct Hst as [s1 Hst]. destruct (R_step _ _ _ _ _ HR Hst) as [a2 [B2 R2]]. eapply can_step; [exact Hst|exact I|]. apply can_done. exists a2. split; auto. split; [simpl; auto|].
      simpl in B2. rewrite Eh, Eq, Nat.eqb_refl in B2. injection B2 as <-. auto. }
    pose proof HR as [P HP]. destruct (a_q _ _ _ HP O u) as [Ep|[_ [_ Ep]]]; [rewrite Eq; auto| |eapply E4; eauto].
    assert (Hst : exists s1 j, step (code count n) arr s (Go u ATick) = Some (s1, []) /\ pcs s1 u = Mark j).
    { pose proof (a_buf _ _ _ HP) as B. rewrite Eh in B. unfold hl in Ep. rewrite Eh in Ep. simpl in Ep. rewrite Z.add_0_r in Ep.
      eexists. eexists. split; [cbn [step]; unfold code; rewrite (Hu _ _ _ HP Eq); cbn [negb]; rewrite Ep; unfold view; rewrite (a_none _ _ _ HP) by (rewrite Eh; discriminate); cbn [fwd];
        rewrite B by apply mb; rewrite Z.eqb_refl; reflexivity|]. cbn [next pcs]. apply upd_same. }
    destruct Hst as [s1 [j [Hst Ep1]]]. destruct (R_step _ _ _ _ _ HR Hst) as [a2 [B2 R2]]. injection B2 as <-.
    eapply can_step; [exact Hst|exact I|]. eapply E4; eauto.
  - destruct Ra as [P HP]. destruct (in_dec Nat.eq_dec t (hq a)) as [Hin|Hout].
    + destruct (hq_cases _ _ Hin) as [[Eh|Eh]|[i Hi]].
      * rewrite (a_cs _ _ _ HP t Eh) in Ht. destruct Ht; discriminate.
      * destruct (a_out _ _ _ HP t) as [E|[_ [v E]]]; auto; rewrite E in Ht; destruct Ht; discriminate.
      * eapply nth_error_In; eauto.
    + destruct (a_out _ _ _ HP t) as [E|[_ [v E]]]; auto; rewrite E in Ht; destruct Ht; discriminate.
Qed.
End P.
