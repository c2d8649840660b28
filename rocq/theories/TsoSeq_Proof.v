(** Proof of C75. *)
From Coq Require Import NArith ZArith Arith List Bool Lia.
From Verif Require Import Lib Tso TsoSeq_Spec TsoSeq_Model.
Import ListNotations.
Local Open Scope Z_scope.
Local Arguments W : simpl never.
Local Notation st := (tso pc).

(** * Sequence numbers *)
Definition zc (n : nat) : Z := Z.of_nat n mod W.
Lemma W_val : W = 4294967296.
Proof. reflexivity. Qed.
Lemma zc_succ : forall n, (zc n + 1) mod W = zc (n + 1).
Proof. intros n. unfold zc. rewrite Nat2Z.inj_add. rewrite Z.add_mod_idemp_l by discriminate. reflexivity. Qed.
Lemma even_S : forall q, Nat.even (q + 1) = negb (Nat.even q).
Proof. intros q. rewrite Nat.add_1_r, Nat.even_succ, <- Nat.negb_even. auto. Qed.
Lemma zc_even : forall q, (Z.land (zc q) 1 =? 0) = Nat.even q.
Proof.
  intros q. change 1 with (Z.ones 1) at 1. rewrite Z.land_ones by lia. unfold zc. rewrite W_val.
  assert (E : (Z.of_nat q mod 4294967296) mod 2 ^ 1 = Z.of_nat q mod 2).
  { change (2 ^ 1) with 2. change 4294967296 with (2 * 2147483648). rewrite Z.rem_mul_r by lia. rewrite Z.add_mod, Z.mul_comm, Z.mod_mul, Z.add_0_r, !Z.mod_mod by lia. auto. }
  rewrite E. destruct (Nat.even q) eqn:He.
  - apply Nat.even_spec in He. destruct He as [m ->]. rewrite Nat2Z.inj_mul, Z.mul_comm, Z.mod_mul by lia. auto.
  - assert (Ho : Nat.odd q = true) by (rewrite <- Nat.negb_even, He; auto). apply Nat.odd_spec in Ho. destruct Ho as [m ->].
    rewrite Nat2Z.inj_add, Nat2Z.inj_mul, Z.add_comm, Z.mul_comm, Z.mod_add by lia. auto.
Qed.
Lemma zc_eq : forall p q, (p <= q)%nat -> zc p = zc q -> p = q \/ Z.of_nat p + W <= Z.of_nat q.
Proof.
  intros p q H E. unfold zc in E. rewrite W_val in *. pose proof (Z.div_mod (Z.of_nat p) 4294967296 ltac:(lia)) as A. pose proof (Z.div_mod (Z.of_nat q) 4294967296 ltac:(lia)) as B.
  rewrite E in A. set (x := Z.of_nat p / 4294967296) in *. set (y := Z.of_nat q / 4294967296) in *. assert (x = y \/ x + 1 <= y) as [|] by lia; lia.
Qed.

(** * What a buffer will do to the sequence and the data *)
Inductive tr : list (loc * Z) -> nat -> (nat -> Z) -> list (nat -> Z) -> nat -> (nat -> Z) -> Prop :=
| tr_nil : forall q D, tr [] q D [] q D
| tr_dat : forall i v b q D vs q' D', Nat.even q = false -> tr b q (set D i v) vs q' D' -> tr ((Dat i, v) :: b) q D vs q' D'
| tr_odd : forall b q D vs q' D', Nat.even q = true -> tr b (q + 1) D vs q' D' -> tr ((SEQ, zc (q + 1)) :: b) q D vs q' D'
| tr_evn : forall b q D vs q' D', Nat.even q = false -> tr b (q + 1) D vs q' D' -> tr ((SEQ, zc (q + 1)) :: b) q D (D :: vs) q' D'
| tr_lk : forall q D, Nat.even q = true -> tr [(LK, 0)] q D [] q D.

Definition nolk (b : list (loc * Z)) : Prop := forall v, ~ In (LK, v) b.
Lemma tr_snoc : forall b q D vs q1 D1, tr b q D vs q1 D1 -> nolk b -> forall x vs2 q2 D2, tr [x] q1 D1 vs2 q2 D2 -> tr (b ++ [x]) q D (vs ++ vs2) q2 D2.
Proof.
  induction 1; intros Hn x vs2 q2 D2 H2; cbn [app]; auto.
  - apply tr_dat; auto. apply IHtr; auto. intros u X. apply (Hn u). right. auto.
  - apply tr_odd; auto. apply IHtr; auto. intros u X. apply (Hn u). right. auto.
  - apply tr_evn; auto. apply IHtr; auto. intros u X. apply (Hn u). right. auto.
  - exfalso. apply (Hn 0). left. auto.
Qed.
Lemma tr_seq : forall b q D vs q' D', tr b q D vs q' D' -> fwd b SEQ (zc q) = zc q'.
Proof. induction 1; cbn; auto. Qed.
Lemma tr_dats : forall b q D vs q' D', tr b q D vs q' D' -> forall i, fwd b (Dat i) (D i) = D' i.
Proof. induction 1; intros j; cbn; auto. apply (IHtr j). Qed.
Lemma tr_last : forall b q D vs q' D', tr b q D vs q' D' -> Nat.even q' = true -> D' = last vs D /\ (vs = [] -> q' = q).
Proof.
  induction 1; intros He; auto; destruct (IHtr He) as [K1 K2].
  - destruct vs as [|x vs]; [|split; [rewrite K1; clear; revert x; induction vs; cbn in *; auto|discriminate]]. rewrite (K2 eq_refl) in He. congruence.
  - split; auto. intros E. apply K2 in E. subst q'. rewrite even_S, H in He. discriminate.
  - split; [|discriminate]. rewrite K1. destruct vs as [|x vs]; auto.
Qed.

(** * Invariant *)
Definition hold (p : pc) : bool := match p with Own | B1 | B2 _ | Upd | E1 | E2 _ => true | _ => false end.
Definition phase (p : pc) (q : nat) : Prop :=
  match p with
  | Upd | E1 => Nat.even q = false
  | E2 v => v = zc q /\ Nat.even q = false
  | B2 v => v = zc q /\ Nat.even q = true
  | _ => Nat.even q = true
  end.
Definition rdok (p : pc) (q : nat) (D : nat -> Z) (r : option (list (nat * Z) * N)) : Prop :=
  match p with
  | Sec v | Rt v => exists l n q0, r = Some (l, n) /\ v = zc q0 /\ Nat.even q0 = true /\ (q0 <= q)%nat /\ (q0 + 2 * N.to_nat n = q + (if Nat.even q then 0 else 1))%nat /\
                      (q0 = q -> forall i x, In (i, x) l -> x = D i)
  | _ => r = None
  end.
Definition isown (o : option nat) (t : nat) : bool := match o with Some u => Nat.eqb t u | None => false end.

Record J (o : option nat) (q : nat) (D : nat -> Z) (vs : list (nat -> Z)) (q' : nat) (D' : nat -> Z) (s : st) (a : sq) : Prop := {
  j_way : way a = match o with Some t => map (pair t) vs | None => [] end;
  j_work : work a = D';
  j_pub : Nat.even q = true -> pub a = D;
  j_seq : mem s SEQ = zc q;
  j_dat : forall i, mem s (Dat i) = D i;
  j_own : match o with
          | None => q' = q /\ D' = D /\ Nat.even q = true /\ mem s LK = 0 /\ forall t, buf s t = [] /\ hold (pcs s t) = false
          | Some t => mem s LK = 1 /\ tr (buf s t) q D vs q' D' /\ (forall u, u <> t -> buf s u = [] /\ hold (pcs s u) = false) /\
                      phase (pcs s t) q' /\ if hold (pcs s t) then nolk (buf s t) else exists b, buf s t = b ++ [(LK, 0)]
          end;
  j_rd : forall t, rdok (pcs s t) (if isown o t then q' else q) (if isown o t then D' else D) (rd a t)
}.
Arguments j_way {o q D vs q' D' s a}. Arguments j_work {o q D vs q' D' s a}. Arguments j_pub {o q D vs q' D' s a}. Arguments j_seq {o q D vs q' D' s a}.
Arguments j_dat {o q D vs q' D' s a}. Arguments j_own {o q D vs q' D' s a}. Arguments j_rd {o q D vs q' D' s a}.

Lemma view_seq : forall o q D vs q' D' s a t, J o q D vs q' D' s a -> view s t SEQ = zc (if isown o t then q' else q).
Proof.
  intros o q D vs q' D' s a t H. unfold view. rewrite (j_seq H). pose proof (j_own H) as Ho. destruct o as [u|]; cbn [isown].
  - destruct Ho as [_ [Ht [Hu _]]]. destruct (Nat.eqb_spec t u) as [->|Hn]; [eapply tr_seq; eauto|]. destruct (Hu t Hn) as [-> _]. auto.
  - destruct Ho as [_ [_ [_ [_ Hb]]]]. destruct (Hb t) as [-> _]. auto.
Qed.
Lemma view_dat : forall o q D vs q' D' s a t i, J o q D vs q' D' s a -> view s t (Dat i) = (if isown o t then D' else D) i.
Proof.
  intros o q D vs q' D' s a t i H. unfold view. rewrite (j_dat H). pose proof (j_own H) as Ho. destruct o as [u|]; cbn [isown].
  - destruct Ho as [_ [Ht [Hu _]]]. destruct (Nat.eqb_spec t u) as [->|Hn]; [eapply tr_dats; eauto|]. destruct (Hu t Hn) as [-> _]. auto.
  - destruct Ho as [_ [_ [_ [_ Hb]]]]. destruct (Hb t) as [-> _]. auto.
Qed.
Lemma hold_own : forall o q D vs q' D' s a t, J o q D vs q' D' s a -> hold (pcs s t) = true -> o = Some t.
Proof.
  intros o q D vs q' D' s a t H Ht. pose proof (j_own H) as Ho. destruct o as [u|].
  - destruct Ho as [_ [_ [Hu _]]]. destruct (Nat.eq_dec t u) as [->|Hn]; auto. destruct (Hu t Hn). congruence.
  - destruct Ho as [_ [_ [_ [_ Hb]]]]. destruct (Hb t). congruence.
Qed.
Lemma buf_own : forall o q D vs q' D' s a t x r, J o q D vs q' D' s a -> buf s t = x :: r -> o = Some t.
Proof.
  intros o q D vs q' D' s a t x r H Ht. pose proof (j_own H) as Ho. destruct o as [u|].
  - destruct Ho as [_ [_ [Hu _]]]. destruct (Nat.eq_dec t u) as [->|Hn]; auto. destruct (Hu t Hn). congruence.
  - destruct Ho as [_ [_ [_ [_ Hb]]]]. destruct (Hb t). congruence.
Qed.

Lemma J_next : forall o q D vs q' D' s a a' t p, J o q D vs q' D' s a -> hold p = hold (pcs s t) ->
  (o = Some t -> phase (pcs s t) q' -> phase p q') ->
  way a' = way a -> work a' = work a -> pub a' = pub a -> (forall u, u <> t -> rd a' u = rd a u) ->
  rdok p (if isown o t then q' else q) (if isown o t then D' else D) (rd a' t) -> J o q D vs q' D' (next s t p) a'.
Proof.
  intros o q D vs q' D' s a a' t p H Hh Hp E1 E2 E3 E4 Hr. destruct H. constructor; unfold next; cbn [mem buf pcs]; try congruence; auto.
  - intros X. rewrite E3. auto.
  - destruct o as [u|].
    + destruct j_own0 as [K1 [K2 [K3 [K4 K5]]]]. split; auto. split; auto. split; [|destruct (Nat.eq_dec u t) as [->|Hn]].
      * intros v Hv. destruct (Nat.eq_dec v t) as [->|]; [rewrite upd_same, Hh|rewrite upd_other by auto]; auto.
      * rewrite !upd_same. rewrite Hh. auto.
      * rewrite !upd_other by auto. auto.
    + destruct j_own0 as [K1 [K2 [K3 [K4 K5]]]]. split; auto. split; auto. split; auto. split; auto. intros u. destruct (Nat.eq_dec u t) as [->|]; [rewrite upd_same, Hh|rewrite upd_other by auto]; auto.
  - intros u. destruct (Nat.eq_dec u t) as [->|Hn]; [rewrite upd_same; auto|]. rewrite upd_other, E4 by auto. auto.
Qed.

Lemma J_push : forall q D vs q' D' s a a' t x p vs2 q2 D2, J (Some t) q D vs q' D' s a -> hold (pcs s t) = true -> tr [x] q' D' vs2 q2 D2 ->
  (if hold p then fst x <> LK else x = (LK, 0)) -> phase p q2 -> rdok p q2 D2 (rd a t) ->
  way a' = way a ++ map (pair t) vs2 -> work a' = D2 -> pub a' = pub a -> rd a' = rd a ->
  J (Some t) q D (vs ++ vs2) q2 D2 (mkT (mem s) (upd (buf s) t (buf s t ++ [x])) (upd (pcs s) t p)) a'.
Proof.
  intros q D vs q' D' s a a' t x p vs2 q2 D2 H Hh Ht Hx Hp Hr E1 E2 E3 E4. destruct H. destruct j_own0 as [K1 [K2 [K3 [K4 K5]]]]. rewrite Hh in K5. constructor; cbn [mem buf pcs]; auto.
  - rewrite E1, j_way0, map_app. auto.
  - intros X. rewrite E3. auto.
  - rewrite !upd_same. split; auto. split; [eapply tr_snoc; eauto|]. split; [intros u Hu; rewrite !upd_other by auto; auto|]. split; auto.
    destruct (hold p); [|subst x; exists (buf s t); auto]. intros v X. apply in_app_iff in X. destruct X as [X|[X|[]]]; [apply (K5 v X)|]. subst x. apply Hx. auto.
  - intros u. rewrite E4. destruct (Nat.eq_dec u t) as [->|Hn].
    + rewrite upd_same. cbn [isown]. rewrite Nat.eqb_refl. auto.
    + rewrite upd_other by auto. specialize (j_rd0 u). cbn [isown] in *. destruct (Nat.eqb_spec u t); [congruence|]. auto.
Qed.

Lemma sees_own : forall q D vs q' D' s a t, J (Some t) q D vs q' D' s a -> Nat.even q' = true -> forall i, sees a t i = D' i.
Proof.
  intros q D vs q' D' s a t H He i. unfold sees. rewrite (j_way H). pose proof (j_own H) as [_ [Ht _]]. destruct (tr_last _ _ _ _ _ _ Ht He) as [E1 E2].
  assert (K : forall P, fold_left (fun D e => if Nat.eqb (fst e) t then snd e else D) (map (pair t) vs) P = last vs P).
  { clear. induction vs as [|x vs IH]; intros P; auto. cbn [map fold_left fst snd]. rewrite Nat.eqb_refl, IH. destruct vs as [|y vs]; auto. clear. revert y. induction vs; cbn in *; auto. }
  rewrite K, E1. destruct vs as [|x vs]; [cbn|clear; revert x; induction vs; cbn in *; auto]. rewrite (j_pub H); auto. rewrite <- (E2 eq_refl). auto.
Qed.
Lemma sees_other : forall o q D vs q' D' s a t, J o q D vs q' D' s a -> isown o t = false -> Nat.even q = true -> forall i, sees a t i = D i.
Proof.
  intros o q D vs q' D' s a t H Hn He i. unfold sees. rewrite (j_way H). rewrite (j_pub H He). destruct o as [u|]; auto. cbn in Hn.
  assert (K : forall P, fold_left (fun D e => if Nat.eqb (fst e) t then snd e else D) (map (pair u) vs) P = P).
  { induction vs as [|x vs' IH]; intros P; auto. cbn [map fold_left fst snd]. rewrite Nat.eqb_sym, Hn. clear -Hn. induction vs' as [|y vs' IH]; auto. cbn [map fold_left fst snd]. rewrite Nat.eqb_sym, Hn. auto. }
  rewrite K. auto.
Qed.

Definition S0 (D : nat -> Z) : sq := mkS D [] D (fun _ => None).

Lemma J_step : forall o q D vs q' D' s a l s' e, J o q D vs q' D' s a -> step code arr s l = Some (s', e) ->
  exists o1 q1 D1 vs1 q1' D1' a', accepts sq_step a e = Some a' /\ J o1 q1 D1 vs1 q1' D1' s' a'.
Proof.
  intros o q D vs q' D' s a l s' e H Hs. destruct l as [t ac|t]; cbn [step] in Hs.
  - pose proof (j_rd H t) as Hr. pose proof (hold_own _ _ _ _ _ _ _ _ t H) as Ho. destruct (pcs s t) eqn:Ep; destruct ac; try discriminate Hs; cbn [code] in Hs; cbn [hold rdok] in *.
    + injection Hs as <- <-. exists o, q, D, vs, q', D', a. split; auto. eapply J_next; eauto; rewrite ?Ep; auto.
    + injection Hs as <- <-. exists o, q, D, vs, q', D', a. split; auto. eapply J_next; eauto; rewrite ?Ep; auto.
    + destruct (buf s t) as [|[x v] r] eqn:Eb; [|discriminate]. injection Hs as <- <-. pose proof (j_own H) as Hw. destruct o as [u|].
      * destruct Hw as [K1 [K2 [K3 [K4 K5]]]]. assert (Hu : u <> t). { intros ->. rewrite Ep, Eb in K5. cbn in K5. destruct K5 as [[|] X]; discriminate. }
        rewrite K1. cbn [Z.eqb]. exists (Some u), q, D, vs, q', D', a. split; auto. destruct H. constructor; cbn [mem buf pcs]; auto.
        -- rewrite setm_same, !upd_other by auto. split; auto. split; auto. split; auto. intros v Hv. destruct (K3 v Hv). split; auto. destruct (Nat.eq_dec v t) as [->|]; [rewrite upd_same|rewrite upd_other by auto]; auto.
        -- intros v. destruct (Nat.eq_dec v t) as [->|]; [rewrite upd_same; auto|rewrite upd_other by auto; auto].
      * destruct Hw as [-> [-> [K3 [K4 K5]]]]. rewrite K4. cbn [Z.eqb]. exists (Some t), q, D, [], q, D, a. split; auto. destruct H. constructor; cbn [mem buf pcs]; auto.
        -- rewrite setm_same, !upd_same, Eb. split; auto. split; [constructor|]. split; [|split; [auto|intros v []]].
           intros u Hu. rewrite upd_other by auto. auto.
        -- intros v. specialize (j_rd0 v). cbn in j_rd0. destruct (isown (Some t) v); (destruct (Nat.eq_dec v t) as [->|]; [rewrite upd_same; auto|rewrite upd_other by auto; auto]).
    + injection Hs as <- <-. rewrite (Ho eq_refl) in *. exists (Some t), q, D, (vs ++ []), q', D', a. split; [reflexivity|]. pose proof (j_own H) as [_ [_ [_ [K4 _]]]]. rewrite Ep in K4. apply (J_push q D vs q' D' s a a t _ Idle [] q' D'); auto; rewrite ?Ep; cbn; auto.
      * constructor. auto.
      * rewrite app_nil_r. auto.
      * apply (j_work H).
    + injection Hs as <- <-. exists o, q, D, vs, q', D', a. split; auto. eapply J_next; eauto; rewrite ?Ep; auto.
    + injection Hs as <- <-. rewrite (view_seq _ _ _ _ _ _ _ _ t H). exists o, q, D, vs, q', D', a. split; auto. eapply J_next; eauto; rewrite ?Ep; auto. rewrite (Ho eq_refl). cbn. rewrite Nat.eqb_refl. auto.
    + injection Hs as <- <-. rewrite (Ho eq_refl) in *. exists (Some t), q, D, (vs ++ []), (q' + 1)%nat, D', a. split; [reflexivity|]. pose proof (j_own H) as [_ [_ [_ [K4 _]]]]. rewrite Ep in K4. destruct K4 as [-> K4]. rewrite zc_succ. apply (J_push q D vs q' D' s a a t _ Upd [] (q' + 1)%nat D'); auto; rewrite ?Ep; cbn; auto.
      * constructor; auto. constructor.
      * discriminate.
      * rewrite even_S, K4. auto.
      * rewrite app_nil_r. auto.
      * apply (j_work H).
    + injection Hs as <- <-. exists o, q, D, vs, q', D', a. split; auto. eapply J_next; eauto; rewrite ?Ep; auto.
    + injection Hs as <- <-. rewrite (Ho eq_refl) in *. exists (Some t), q, D, (vs ++ []), q', (set D' i v). eexists. split; [reflexivity|]. pose proof (j_own H) as [_ [_ [_ [K4 _]]]]. rewrite Ep in K4. apply (J_push q D vs q' D' s a _ t _ Upd [] q' (set D' i v)); auto; rewrite ?Ep; cbn; auto.
      * constructor; auto. constructor.
      * discriminate.
      * rewrite app_nil_r. auto.
      * rewrite (j_work H). auto.
    + injection Hs as <- <-. rewrite (view_dat _ _ _ _ _ _ _ _ t i H). rewrite (Ho eq_refl) in *. cbn [isown]. rewrite Nat.eqb_refl. exists (Some t), q, D, vs, q', D', a. split; [cbn; rewrite (j_work H), Z.eqb_refl; auto|]. eapply J_next; eauto; rewrite ?Ep; auto.
    + injection Hs as <- <-. rewrite (view_seq _ _ _ _ _ _ _ _ t H). exists o, q, D, vs, q', D', a. split; auto. eapply J_next; eauto; rewrite ?Ep; auto. rewrite (Ho eq_refl). cbn. rewrite Nat.eqb_refl. auto.
    + injection Hs as <- <-. rewrite (Ho eq_refl) in *. exists (Some t), q, D, (vs ++ [D']), (q' + 1)%nat, D'. eexists. split; [reflexivity|]. pose proof (j_own H) as [_ [_ [_ [K4 _]]]]. rewrite Ep in K4. destruct K4 as [-> K4]. rewrite zc_succ. apply (J_push q D vs q' D' s a _ t _ Own [D'] (q' + 1)%nat D'); auto; rewrite ?Ep; cbn; auto.
      * apply tr_evn; auto. constructor.
      * discriminate.
      * rewrite even_S, K4. auto.
      * rewrite (j_work H). auto.
      * apply (j_work H).
    + (* read_begin *)
      rewrite (view_seq _ _ _ _ _ _ _ _ t H), zc_even in Hs. destruct (Nat.even (if isown o t then q' else q)) eqn:He; injection Hs as <- <-.
      * do 7 eexists. split; [cbn; rewrite Hr; reflexivity|]. eapply J_next; eauto; rewrite ?Ep; auto.
        -- intros u Hu. cbn. rewrite upd_other by auto. auto.
        -- cbn [rd]. rewrite upd_same. exists [], 0%N. eexists. split; [reflexivity|]. split; [reflexivity|]. split; auto. rewrite He. split; [lia|]. split; [cbn; lia|]. intros _ i x [].
      * exists o, q, D, vs, q', D', a. split; auto. eapply J_next; eauto; rewrite ?Ep; auto.
    + injection Hs as <- <-. destruct Hr as [l [n [q0 [E1 [E2 [E3 [Hle [E4 E5]]]]]]]]. do 7 eexists. split; [cbn; rewrite E1; reflexivity|]. eapply J_next; eauto; rewrite ?Ep; auto.
      * intros u Hu. cbn. rewrite upd_other by auto. auto.
      * cbn [rd]. rewrite upd_same. exists ((i, view s t (Dat i)) :: l), n, q0. split; auto. split; auto. split; auto. split; auto. split; auto. intros E j x [X|X]; [|auto].
        injection X as <- <-. apply (view_dat _ _ _ _ _ _ _ _ _ _ H).
    + injection Hs as <- <-. exists o, q, D, vs, q', D', a. split; auto. eapply J_next; eauto; rewrite ?Ep; auto.
    + (* read_retry *)
      destruct Hr as [l [n [q0 [E1 [E2 [E3 [Hle [E4 E5]]]]]]]]. rewrite (view_seq _ _ _ _ _ _ _ _ t H) in Hs. set (Q := if isown o t then q' else q) in *.
      destruct (Z.eqb_spec (zc Q) v) as [E|E]; injection Hs as <- <-; cbn [accepts sq_step]; rewrite E1.
      * assert (HH : ((n =? 0)%N && forallb (fun p => snd p =? sees a t (fst p)) l || (2 ^ 31 <=? n)%N)%bool = true).
        { subst v. destruct (zc_eq q0 Q Hle) as [K|K]; [congruence| |].
          - apply orb_true_iff. left. rewrite <- K, E3 in E4. assert (n = 0%N) by lia. subst n. cbn [N.eqb andb]. apply forallb_forall. intros [i x] Hx. cbn [fst snd]. apply Z.eqb_eq. rewrite (E5 K i x Hx).
            unfold Q in K. rewrite K in E3. symmetry. destruct (isown o t) eqn:Eo; [|eapply sees_other; eauto].
            assert (o = Some t) as -> by (destruct o as [u|]; [|discriminate]; cbn in Eo; apply Nat.eqb_eq in Eo; subst; auto). eapply sees_own; eauto.
          - apply orb_true_iff. right. apply N.leb_le. rewrite W_val in K. change (2 ^ 31)%N with 2147483648%N. destruct (Nat.even Q); lia. }
        rewrite HH. do 7 eexists. split; [reflexivity|]. eapply J_next; eauto; rewrite ?Ep; auto; cbn [rd].
        -- intros u Hu. rewrite upd_other by auto. auto.
        -- rewrite upd_same. cbn. auto.
      * destruct (N.eqb_spec n 0) as [->|Hn]; [exfalso; apply E; subst v; f_equal; destruct (Nat.even Q); [lia|cbn in E4; lia]|].
        do 7 eexists. split; [reflexivity|]. eapply J_next; eauto; rewrite ?Ep; auto; cbn [rd].
        -- intros u Hu. rewrite upd_other by auto. auto.
        -- rewrite upd_same. cbn. auto.
  - destruct (buf s t) as [|[x v] r] eqn:Eb; [discriminate|]. injection Hs as <- <-. assert (o = Some t) as -> by exact (buf_own _ _ _ _ _ _ _ _ t _ _ H Eb).
    destruct H. destruct j_own0 as [K1 [K2 [K3 [K4 K5]]]]. rewrite Eb in *. cbn [isown] in *.
    inversion K2; subst; cbn [arr SEQ LK].
    + exists (Some t), q, (set D i v), vs, q', (work a), a. split; auto. constructor; cbn [mem buf pcs isown]; auto.
      * congruence.
      * intros j. unfold set. destruct (Nat.eqb_spec i j) as [->|Hn]; [rewrite setm_same|rewrite setm_other by congruence]; auto.
      * rewrite upd_same. split; auto. split; auto. split; [intros u Hu; rewrite upd_other by auto; auto|]. split; auto.
        destruct (hold (pcs s t)); [intros z X; apply (K5 z); right; auto|]. destruct K5 as [[|y b] E]; cbn in E; [discriminate|]. injection E as _ E. eauto.
      * intros u. specialize (j_rd0 u). destruct (Nat.eqb_spec u t); auto. destruct (pcs s u); auto; destruct j_rd0 as [l [n0 [q0 [E1 [E2 [E3 [Hle [E4 E5]]]]]]]]; exists l, n0, q0; (repeat (split; [auto; fail|])); intros ->; congruence.
    + match goal with X : Nat.even q = _ |- _ => rename X into H5 end. rewrite zc_even, even_S, H5. cbn [negb]. do 7 eexists. split; [reflexivity|]. apply (Build_J (Some t) (q + 1)%nat D vs q' (work a)); cbn [mem buf pcs way work pub rd isown]; auto.
      * rewrite upd_same. split; auto. split; auto. split; [intros u Hu; rewrite upd_other by auto; auto|]. split; auto.
        destruct (hold (pcs s t)); [intros z X; apply (K5 z); right; auto|]. destruct K5 as [[|y b] E]; cbn in E; [discriminate|]. injection E as _ E. eauto.
      * intros u. specialize (j_rd0 u). destruct (Nat.eqb_spec u t) as [Hn|Hn]; [subst u|].
        -- destruct (rd a t) as [[l n]|]; auto.
        -- destruct (pcs s u); cbn [rdok] in *; try (rewrite j_rd0; auto; fail); destruct j_rd0 as [l [n0 [q0 [E1 [E2 [E3 [Hle [E4 E5]]]]]]]]; rewrite E1; exists l, (n0 + 1)%N, q0; (split; [auto|]; split; [auto|]; split; [auto|]; rewrite even_S, H5 in *; cbn [negb]; split; [lia|]; split; [lia|intros; lia]).
    + match goal with X : Nat.even q = _ |- _ => rename X into H5 end. rewrite zc_even, even_S, H5. cbn [negb accepts sq_step]. rewrite j_way0. cbn [map]. rewrite Nat.eqb_refl. do 7 eexists. split; [reflexivity|]. apply (Build_J (Some t) (q + 1)%nat D vs0 q' (work a)); cbn [mem buf pcs way work pub rd isown]; auto.
      * rewrite upd_same. split; auto. split; auto. split; [intros u Hu; rewrite upd_other by auto; auto|]. split; auto.
        destruct (hold (pcs s t)); [intros z X; apply (K5 z); right; auto|]. destruct K5 as [[|y b] E]; cbn in E; [discriminate|]. injection E as _ E. eauto.
      * intros u. specialize (j_rd0 u). destruct (Nat.eqb_spec u t) as [Hn|Hn]; [subst u; auto|].
        destruct (pcs s u); cbn [rdok] in *; auto; destruct j_rd0 as [l [n0 [q0 [E1 [E2 [E3 [Hle [E4 E5]]]]]]]]; exists l, n0, q0; (split; [auto|]; split; [auto|]; split; [auto|]; rewrite even_S, H5 in *; cbn [negb]; split; [lia|]; split; [lia|intros; lia]).
    + exists None, q', (work a), [], q', (work a), a. split; auto. constructor; cbn [mem buf pcs isown]; auto.
      * split; auto. split; auto. split; auto. split; auto. intros u. destruct (Nat.eq_dec u t) as [->|Hn]; [rewrite upd_same|rewrite upd_other by auto; auto]. split; auto.
        destruct (hold (pcs s t)); auto. exfalso. apply (K5 0). left. auto.
      * intros u. specialize (j_rd0 u). destruct (Nat.eqb u t); auto.
Qed.

Lemma seq_J : forall m ls s log, run (step code arr) (init m) ls = Some (s, log) ->
  exists o q D vs q' D' a, accepts sq_step (S0 m) log = Some a /\ J o q D vs q' D' s a.
Proof.
  intros m ls s log H.
  eapply (run_inv (step code arr) (fun s log => exists o q D vs q' D' a, accepts sq_step (S0 m) log = Some a /\ J o q D vs q' D' s a)); [| |exact H].
  - exists None, 0%nat, m, [], 0%nat, m, (S0 m). split; auto. constructor; cbn; auto. repeat split; auto.
  - intros s1 l1 l s2 e [o [q [D [vs [q' [D' [a [I1 I2]]]]]]]] Hs. destruct (J_step _ _ _ _ _ _ _ _ _ _ _ I2 Hs) as [o1 [q1 [D1 [vs1 [q1' [D1' [a' [K1 K2]]]]]]]].
    exists o1, q1, D1, vs1, q1', D1', a'. split; auto. rewrite accepts_app, I1. auto.
Qed.
Lemma seq_all : forall m ls s log, run (step code arr) (init m) ls = Some (s, log) -> sq_legal m log.
Proof. intros m ls s log H. destruct (seq_J m ls s log H) as [o [q [D [vs [q' [D' [a [K _]]]]]]]]. exists a. auto. Qed.
Lemma seq_drained : forall m ls s log, run (step code arr) (init m) ls = Some (s, log) -> (forall t, buf s t = []) ->
  exists a, accepts sq_step (mkS m [] m (fun _ => None)) log = Some a /\ way a = [] /\ ((forall t, pcs s t <> Upd /\ pcs s t <> E1 /\ forall v, pcs s t <> E2 v) -> forall i, pub a i = work a i).
Proof.
  intros m ls s log H Hb. destruct (seq_J m ls s log H) as [o [q [D [vs [q' [D' [a [K1 K2]]]]]]]]. exists a. split; auto.
  pose proof (j_own K2) as Ho. pose proof (j_way K2) as Hw. destruct o as [t|].
  - destruct Ho as [_ [Ht [_ [Hp _]]]]. rewrite Hb in Ht. inversion Ht; subst. split; auto. intros Hn i. rewrite (j_pub K2); [rewrite (j_work K2); auto|].
    destruct (Hn t) as [N1 [N2 N3]]. destruct (pcs s t); cbn in Hp; try tauto; try (destruct Hp; auto; fail); try congruence.
  - destruct Ho as [-> [-> [He _]]]. split; auto. intros _ i. rewrite (j_pub K2 He), (j_work K2). auto.
Qed.
