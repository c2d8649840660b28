(** Proofs about the reader-writer locks on x86-TSO. *)
From Coq Require Import ZArith Arith List Bool Lia.
From Verif Require Import Lib Tso TsoRw_Spec TsoRw_Model.
Import ListNotations.
Local Open Scope Z_scope.

Local Arguments W : simpl never.
Local Arguments SLT : simpl never.
Local Arguments WRD : simpl never.
Local Arguments CNT : simpl never.

Section Proof.
Variable k : kind.
Variable N : nat.
Hypothesis HN : Z.of_nat N < W.
Notation st := (tso pc).
Notation slotted := (slotted k).
Notation mine := (mine k).
Notation code := (code k N).
Notation slots := (slots k).
Notation isByte := (isByte k).
Notation isBr := (isBr k).

Definition wpc (p : pc) : bool := match p with WU _ | WS _ _ | WN _ | WC | DB | DW => true | _ => false end.
Definition cs (p : pc) : bool := match p with WC | DB | DW => true | _ => false end.
Definition scn (p : pc) : bool := match p with WU _ | WS _ _ | WN _ => true | _ => false end.
Definition inside (p : pc) : bool := match p with RI _ | WA _ true | WU true => true | _ => false end.
Definition ann (p : pc) : bool := match p with RC _ | RI _ | WA _ true => true | _ => false end.
Definition cntp (p : pc) : bool := match p with RC _ | RX _ | RI _ | DW => true | _ => false end.
Definition isDW (p : pc) : bool := match p with DW => true | _ => false end.

Inductive own := Free | Held (t : nat) | Left (t : nat).
Definition loc_ok (t : nat) (p : pc) : Prop :=
  match p with
  | WA tr up => can_write k t = true /\ (up = true -> isByte = true /\ slotted t = true /\ tr = false)
  | WU up => isByte = true /\ slotted t = true
  | DB => isByte = true /\ slotted t = true
  | DW => isByte = true /\ slotted t = true \/ k = Rw
  | RI n => 1 <= n /\ can_read k t = true
  | RB => isByte = true
  | RS _ | RA _ | RC _ | RX _ => can_read k t = true
  | _ => True
  end.

Definition wof (o : own) (f : nat -> pc) : option nat := match o with Held u => if cs (f u) then Some u else None | _ => None end.
Record PI (o : own) (f : nat -> pc) (a : rwl) : Prop := {
  p_held : forall t, wpc (f t) = true <-> o = Held t;
  p_wrt : wrt a = wof o f;
  p_rds : forall t, In t (rds a) <-> inside (f t) = true;
  p_loc : forall t, loc_ok t (f t);
  p_rc : forall t tr, f t = RC tr -> o <> Left t;
  p_scn : forall t tr rest u, f t = WS tr rest -> inside (f u) = true -> slotted u = true -> In u rest;
  p_wn : forall t tr u, f t = WN tr -> inside (f u) = true -> slotted u = false;
  p_cs : forall t u, cs (f t) = true -> inside (f u) = true -> False
}.
Definition nowrd (b : list (loc * Z)) : Prop := forall v, ~ In (WRD, v) b.
Definition od (o : own) : option nat := match o with Free => None | Held t | Left t => Some t end.
Record MI (o : own) (s : st) (D : nat -> Z) : Prop := {
  m_word : mem s WRD = match od o with None => 0 | Some t => mine t end;
  m_cw : forall t, od o = Some t -> can_write k t = true;
  m_wbuf : forall t v, In (WRD, v) (buf s t) -> o = Left t;
  m_left : forall t, o = Left t -> exists b1 b2, buf s t = b1 ++ (WRD, 0) :: b2 /\ nowrd b1 /\ nowrd b2 /\ nodat b2 /\
     (slotted t = true -> ann (pcs s t) = true -> fwd b1 (SLT t) (mem s (SLT t)) <> 0 /\ forall v, In (SLT t, v) b2 -> v <> 0);
  m_data : data (od o) D s;
  m_scan : forall t, scn (pcs s t) = true -> nodat (buf s t);
  m_in : forall u w, inside (pcs s u) = true -> w <> u -> nodat (buf s w);
  m_slt : forall r, slotted r = true -> ann (pcs s r) = true -> o <> Left r -> mem s (SLT r) <> 0 /\ forall v, In (SLT r, v) (buf s r) -> v <> 0;
  m_sown : forall t r v, In (SLT r, v) (buf s t) -> r = t;
  m_dw : forall t, isDW (pcs s t) = true -> slotted t = true -> view s t (SLT t) <> 0;
  m_cnt : exists K, NoDup K /\ (forall t, In t K <-> slotted t = false /\ cntp (pcs s t) = true) /\ mem s CNT = Z.of_nat (length K) /\ forall t, In t K -> (t < N)%nat;
  m_cbuf : forall t v, ~ In (CNT, v) (buf s t)
}.

(** * Basics *)
Lemma mine_0 : forall t, mine t <> 0.
Proof. intros t. unfold TsoRw_Model.mine, W. destruct isByte; [destruct (slotted t)|]; lia. Qed.
Lemma slt_wrd : forall r, SLT r <> WRD.
Proof. unfold SLT, WRD. intros r H. injection H. lia. Qed.
Lemma slt_cnt : forall r, SLT r <> CNT.
Proof. unfold SLT, CNT. intros r H. injection H. lia. Qed.
Lemma slt_inj : forall r u, SLT r = SLT u -> r = u.
Proof. unfold SLT. intros r u H. injection H. lia. Qed.
Lemma wrd_cnt : WRD <> CNT.
Proof. discriminate. Qed.
Lemma slt_dat : forall r i, SLT r <> Dat i.
Proof. discriminate. Qed.
Local Hint Resolve slt_wrd slt_cnt slt_inj wrd_cnt slt_dat : core.

Lemma PI_upd : forall o o' f t p' a a', PI o f a ->
  (o' = o \/ o = Free /\ o' = Held t \/ o = Held t /\ o' = Left t) ->
  (wpc p' = true <-> o' = Held t) -> wrt a' = wof o' (upd f t p') ->
  (forall u, In u (rds a') <-> inside (upd f t p' u) = true) -> loc_ok t p' ->
  (forall tr, p' = RC tr -> o' <> Left t) ->
  (inside p' = true -> inside (f t) = true \/ o' = Free \/ o' = Left t) ->
  (forall tr rest u, p' = WS tr rest -> u <> t -> inside (f u) = true -> slotted u = true -> In u rest) ->
  (forall tr u, p' = WN tr -> u <> t -> inside (f u) = true -> slotted u = false) ->
  (forall u, cs p' = true -> u <> t -> inside (f u) = true -> False) -> PI o' (upd f t p') a'.
Proof.
  intros o o' f t p' a a' H Ho Hw Hwr Hr Hl Hrc Hi Hs Hn Hc.
  assert (HH : forall u, wpc (upd f t p' u) = true <-> o' = Held u).
  { intros u. destruct (Nat.eq_dec u t) as [->|Hne]; [rewrite upd_same; auto|rewrite upd_other by auto].
    rewrite (p_held _ _ _ H). destruct Ho as [->|[[-> ->]|[-> ->]]]; [tauto|split; intros X; [discriminate|congruence]|split; intros X; [congruence|discriminate]]. }
  assert (HI : forall w u, w <> t -> wpc (f w) = true -> inside (upd f t p' u) = true -> inside (f u) = true).
  { intros w u Hne Hwp. destruct (Nat.eq_dec u t) as [->|Hne']; [rewrite upd_same|rewrite upd_other by auto; auto].
    intros X. destruct (Hi X) as [E|E]; auto. specialize (HH w). rewrite upd_other in HH by auto. apply HH in Hwp. rewrite Hwp in E. destruct E; discriminate. }
  constructor; auto.
  - intros u. destruct (Nat.eq_dec u t) as [->|Hne]; [rewrite upd_same; auto|rewrite upd_other by auto; apply (p_loc _ _ _ H)].
  - intros u tr. destruct (Nat.eq_dec u t) as [->|Hne]; [rewrite upd_same; apply Hrc|rewrite upd_other by auto].
    intros E X. apply (p_rc _ _ _ H u tr E). destruct Ho as [->|[[-> ->]|[-> ->]]]; congruence.
  - intros w tr rest u E X Y. destruct (Nat.eq_dec w t) as [->|Hne].
    + rewrite upd_same in E. subst p'. destruct (Nat.eq_dec u t) as [->|Hu]; [rewrite upd_same in X; discriminate|rewrite upd_other in X by auto; eapply Hs; eauto].
    + rewrite upd_other in E by auto. eapply (p_scn _ _ _ H w); eauto. eapply HI; eauto. rewrite E. auto.
  - intros w tr u E X. destruct (Nat.eq_dec w t) as [->|Hne].
    + rewrite upd_same in E. subst p'. destruct (Nat.eq_dec u t) as [->|Hu]; [rewrite upd_same in X; discriminate|rewrite upd_other in X by auto; eapply Hn; eauto].
    + rewrite upd_other in E by auto. eapply (p_wn _ _ _ H w); eauto. eapply HI; eauto. rewrite E. auto.
  - intros w u E X. destruct (Nat.eq_dec w t) as [->|Hne].
    + rewrite upd_same in E. destruct (Nat.eq_dec u t) as [->|Hu]; [rewrite upd_same in X; destruct p'; discriminate|rewrite upd_other in X by auto; eapply Hc; eauto].
    + rewrite upd_other in E by auto. eapply (p_cs _ _ _ H w); eauto. eapply HI; eauto. destruct (f w); try discriminate; auto.
Qed.

Lemma PI_flush : forall t f a, PI (Left t) f a -> PI Free f a.
Proof. intros t f a H. destruct H. constructor; auto; [intros u; split; intros X; [apply p_held0 in X|]; discriminate|discriminate]. Qed.

(** * Steps that change the program counter only *)
Lemma MI_pcs : forall o s D t p', MI o s D -> 
  (scn p' = true -> scn (pcs s t) = true) ->
  (inside p' = true -> inside (pcs s t) = true \/ forall w, w <> t -> nodat (buf s w)) ->
  (slotted t = true -> ann p' = true -> ann (pcs s t) = true) -> isDW p' = false ->
  (slotted t = false -> cntp p' = cntp (pcs s t)) -> MI o (next s t p') D.
Proof.
  intros o s D t p' H H1 H2 H3 H4 H5.
  assert (Hcase : forall u, pcs (next s t p') u = (if Nat.eq_dec u t then p' else pcs s u)).
  { intros u. cbn. destruct (Nat.eq_dec u t) as [->|]; [apply upd_same|apply upd_other; auto]. }
  destruct H. constructor; auto; try change (buf (next s t p')) with (buf s); try change (mem (next s t p')) with (mem s).
  - intros u Hu. destruct (m_left0 u Hu) as [b1 [b2 [K1 [K2 [K3 [K4 K5]]]]]]. exists b1, b2. refine (conj K1 (conj K2 (conj K3 (conj K4 _)))).
    intros X Y. rewrite Hcase in Y. destruct (Nat.eq_dec u t) as [->|]; apply K5; auto.
  - intros u. rewrite Hcase. destruct (Nat.eq_dec u t) as [->|]; auto.
  - intros u w. rewrite Hcase. destruct (Nat.eq_dec u t) as [->|]; eauto. intros X. destruct (H2 X); eauto.
  - intros u X Y. rewrite Hcase in Y. destruct (Nat.eq_dec u t) as [->|]; auto.
  - intros u X. rewrite Hcase in X. destruct (Nat.eq_dec u t) as [->|]; [congruence|auto]. apply m_dw0; auto.
  - destruct m_cnt0 as [K [K1 [K2 K3]]]. exists K. split; auto. split; auto. intros u. rewrite K2, Hcase. destruct (Nat.eq_dec u t) as [->|]; [|tauto].
    split; intros [X Y]; split; auto; rewrite H5 in *; auto.
Qed.

(** * Arrivals *)
Lemma MI_flush : forall o s D t x v r, MI o s D -> buf s t = (x, v) :: r ->
  exists o', MI o' (mkT (setm (mem s) x v) (upd (buf s) t r) (pcs s)) D /\ (o' = o \/ o = Left t /\ o' = Free).
Proof.
  intros o s D t x v r H Eb. pose proof H as H'. destruct H.
  assert (Hsub : forall u y, In y (upd (buf s) t r u) -> In y (buf s u)).
  { intros u y. destruct (Nat.eq_dec u t) as [->|]; [rewrite upd_same, Eb; right; auto|rewrite upd_other; auto]. }
  assert (Hnd : forall u, nodat (buf s u) -> nodat (upd (buf s) t r u)).
  { intros u X i w Hw. eapply X. eapply Hsub; eauto. }
  assert (Hcnt : x <> CNT) by (intros ->; eapply m_cbuf0; rewrite Eb; left; eauto).
  assert (Hsl : forall u, x = SLT u -> u = t) by (intros u ->; eapply (m_sown0 t); rewrite Eb; left; eauto).
  assert (Hdw : forall u, isDW (pcs s u) = true -> slotted u = true -> view (mkT (setm (mem s) x v) (upd (buf s) t r) (pcs s)) u (SLT u) <> 0).
  { intros u X Y. unfold view. cbn [mem buf]. specialize (m_dw0 u X Y). unfold view in m_dw0. destruct (Nat.eq_dec u t) as [->|Hn].
    - rewrite upd_same, <- fwd_flush, <- Eb. auto.
    - rewrite upd_other by auto. rewrite setm_other; auto. }
  assert (Hcn : exists K, NoDup K /\ (forall t, In t K <-> slotted t = false /\ cntp (pcs s t) = true) /\ setm (mem s) x v CNT = Z.of_nat (length K) /\ forall t, In t K -> (t < N)%nat).
  { rewrite setm_other by auto. auto. }
  assert (Hda : data (od o) D (mkT (setm (mem s) x v) (upd (buf s) t r) (pcs s))) by (apply data_flush; auto).
  destruct (loc_eqb_spec x WRD) as [->|Hx].
  - (* the writer word *)
    assert (Ho : o = Left t) by (eapply m_wbuf0; rewrite Eb; left; eauto). exists Free. split; [|auto].
    destruct (m_left0 t Ho) as [b1 [b2 [K1 [K2 [K3 [K4 K5]]]]]]. rewrite Eb in K1.
    destruct b1 as [|y b1]; [|exfalso; injection K1 as <- K1; apply (K2 v); left; auto]. injection K1 as -> ->.
    assert (Hd0 : data None D (mkT (setm (mem s) WRD 0) (upd (buf s) t b2) (pcs s))).
    { subst o. eapply data_drop; eauto. cbn [buf]. rewrite upd_same. auto. }
    constructor; cbn [mem buf pcs od]; auto.
    + discriminate.
    + intros u w Hw. exfalso. destruct (Nat.eq_dec u t) as [->|Hn]; [rewrite upd_same in Hw; eapply K3; eauto|].
      apply Hsub in Hw. apply m_wbuf0 in Hw. congruence.
    + discriminate.
    + intros u w X Y. apply Hnd. eauto.
    + intros u X Y _. rewrite setm_other by auto. destruct (Nat.eq_dec u t) as [->|Hn].
      * rewrite upd_same. destruct (K5 X Y) as [L1 L2]. auto.
      * destruct (m_slt0 u X Y) as [L1 L2]; [congruence|]. split; auto.
    + intros u q w Hw. apply (m_sown0 u q w). auto.
    + intros u w Hw. eapply m_cbuf0. eapply Hsub; eauto.
  - exists o. split; [|auto]. constructor; cbn [mem buf pcs]; auto.
    + rewrite setm_other; auto.
    + intros u w Hw. eapply m_wbuf0. eapply Hsub; eauto.
    + intros u Hu. destruct (m_left0 u Hu) as [b1 [b2 [K1 [K2 [K3 [K4 K5]]]]]]. destruct (Nat.eq_dec u t) as [->|Hn].
      * rewrite Eb in K1. destruct b1 as [|y b1]; [exfalso; injection K1 as E1 _ _; auto|]. injection K1 as <- ->. exists b1, b2.
        rewrite upd_same. split; auto. split; [intros w Hw; eapply K2; right; eauto|]. refine (conj K3 (conj K4 _)).
        intros X Y. destruct (K5 X Y) as [L1 L2]. split; auto.
      * exists b1, b2. rewrite upd_other by auto. refine (conj K1 (conj K2 (conj K3 (conj K4 _)))). intros X Y. destruct (K5 X Y) as [L1 L2].
        split; auto. rewrite setm_other; auto.
    + intros u w X Y. apply Hnd. eauto.
    + intros u X Y Z. destruct (m_slt0 u X Y Z) as [L1 L2]. split.
      * unfold setm. destruct (loc_eqb_spec x (SLT u)) as [->|]; auto. assert (u = t) by auto. subst u. apply L2. rewrite Eb. left. auto.
      * intros w Hw. apply L2. auto.
    + intros u q w Hw. apply (m_sown0 u q w). auto.
    + intros u w Hw. eapply m_cbuf0. eapply Hsub; eauto.
Qed.

(** * Stores *)
Lemma In_push : forall (s : st) t u x v y w, In (y, w) (upd (buf s) t (buf s t ++ [(x, v)]) u) -> In (y, w) (buf s u) \/ u = t /\ y = x /\ w = v.
Proof.
  intros s t u x v y w. destruct (Nat.eq_dec u t) as [->|]; [rewrite upd_same|rewrite upd_other; auto].
  intros H. apply in_app_iff in H. destruct H as [H|[H|[]]]; auto. injection H as -> ->. auto.
Qed.
Lemma case_upd : forall (f : nat -> pc) t p u, upd f t p u = if Nat.eq_dec u t then p else f u.
Proof. intros. destruct (Nat.eq_dec u t) as [->|]; [apply upd_same|apply upd_other; auto]. Qed.

(** to the own slot *)
Lemma MI_st_slt : forall o s D t v p', MI o s D ->
  (scn p' = true -> scn (pcs s t) = true) ->
  (inside p' = true -> inside (pcs s t) = true) ->
  (slotted t = true -> ann p' = true -> ann (pcs s t) = true /\ v <> 0) -> (isDW p' = true -> v <> 0) ->
  (slotted t = false -> cntp p' = cntp (pcs s t)) ->
  MI o (mkT (mem s) (upd (buf s) t (buf s t ++ [(SLT t, v)])) (upd (pcs s) t p')) D.
Proof.
  intros o s D t v p' H H1 H2 H3 H4 H5. destruct H.
  assert (Hnd : forall u, nodat (buf s u) -> nodat (upd (buf s) t (buf s t ++ [(SLT t, v)]) u)).
  { intros u X i w Hw. apply In_push in Hw. destruct Hw as [Hw|[_ [Hw _]]]; [eapply X; eauto|discriminate]. }
  constructor; cbn [mem buf pcs]; auto.
  - intros u w Hw. apply In_push in Hw. destruct Hw as [Hw|[-> [Hw _]]]; [eauto|]. exfalso. eapply slt_wrd; eauto.
  - intros u Hu. destruct (m_left0 u Hu) as [b1 [b2 [K1 [K2 [K3 [K4 K5]]]]]]. rewrite case_upd. destruct (Nat.eq_dec u t) as [->|Hn].
    + rewrite upd_same. exists b1, (b2 ++ [(SLT t, v)]). rewrite K1, <- app_assoc. split; auto. split; auto. split; [|split].
      * intros w Hw. apply in_app_iff in Hw. destruct Hw as [Hw|[Hw|[]]]; [eapply K3; eauto|]. apply (f_equal fst) in Hw. cbn in Hw. eapply slt_wrd; eauto.
      * apply nodat_app. auto.
      * intros X Y. destruct (H3 X Y) as [Y' Hv]. destruct (K5 X Y') as [L1 L2]. split; auto. intros w Hw. apply in_app_iff in Hw.
        destruct Hw as [Hw|[Hw|[]]]; auto. injection Hw as <-. auto.
    + rewrite upd_other by auto. exists b1, b2. tauto.
  - apply data_reg. auto.
  - intros u. rewrite case_upd. destruct (Nat.eq_dec u t) as [->|]; auto.
  - intros u w. rewrite case_upd. destruct (Nat.eq_dec u t) as [->|]; eauto.
  - intros u X Y Z. rewrite case_upd in Y. destruct (Nat.eq_dec u t) as [->|].
    + destruct (H3 X Y) as [Y' Hv]. destruct (m_slt0 t X Y' Z) as [L1 L2]. split; auto. intros w Hw. apply In_push in Hw. destruct Hw as [Hw|[_ [_ ->]]]; auto.
    + destruct (m_slt0 u X Y Z) as [L1 L2]. split; auto. intros w Hw. apply In_push in Hw. destruct Hw as [Hw|[? _]]; [auto|congruence].
  - intros u q w Hw. apply In_push in Hw. destruct Hw as [Hw|[-> [Hw _]]]; eauto.
  - intros u X Y. rewrite case_upd in X. unfold view. cbn [mem buf]. destruct (Nat.eq_dec u t) as [->|Hn].
    + rewrite upd_same, fwd_app. simpl. rewrite Nat.eqb_refl. auto.
    + rewrite upd_other by auto. apply (m_dw0 u X Y).
  - destruct m_cnt0 as [K [K1 [K2 K3]]]. exists K. split; auto. split; auto. intros u. rewrite K2, case_upd. destruct (Nat.eq_dec u t) as [->|]; [|tauto].
    split; intros [X Y]; split; auto; rewrite H5 in *; auto.
  - intros u w Hw. apply In_push in Hw. destruct Hw as [Hw|[_ [Hw _]]]; [eapply m_cbuf0; eauto|]. eapply slt_cnt; eauto.
Qed.

(** to the data *)
Lemma MI_st_dat : forall s D t i v p', MI (Held t) s D -> pcs s t = WC -> p' = WC -> (forall u, inside (pcs s u) = false) ->
  MI (Held t) (mkT (mem s) (upd (buf s) t (buf s t ++ [(Dat i, v)])) (upd (pcs s) t p')) (fun j => if Nat.eqb i j then v else D j).
Proof.
  intros s D t i v p' H Ep -> Hin. destruct H.
  assert (Hp : forall u, upd (pcs s) t WC u = pcs s u) by (intros u; rewrite case_upd; destruct (Nat.eq_dec u t) as [->|]; auto).
  constructor; cbn [mem buf pcs]; auto.
  - intros u w Hw. apply In_push in Hw. destruct Hw as [Hw|[-> [Hw _]]]; [eauto|]. discriminate.
  - discriminate.
  - apply data_write. auto.
  - intros u. rewrite Hp. intros X j w Hw. apply In_push in Hw. destruct Hw as [Hw|[-> _]]; [eapply m_scan0; eauto|rewrite Ep in X; discriminate].
  - intros u w. rewrite Hp, Hin. discriminate.
  - intros u X Y Z. rewrite Hp in Y. destruct (m_slt0 u X Y Z) as [L1 L2]. split; auto. intros w Hw. apply In_push in Hw. destruct Hw as [Hw|[_ [? _]]]; auto. discriminate.
  - intros u q w Hw. apply In_push in Hw. destruct Hw as [Hw|[-> [Hw _]]]; eauto. discriminate.
  - intros u X Y. rewrite Hp in X. specialize (m_dw0 u X Y). destruct (Nat.eq_dec u t) as [->|Hn]; [rewrite Ep in X; discriminate|].
    unfold view in *. cbn [mem buf]. rewrite upd_other by auto. auto.
  - destruct m_cnt0 as [K [K1 [K2 K3]]]. exists K. split; auto. split; auto. intros u. rewrite K2, Hp. tauto.
  - intros u w Hw. apply In_push in Hw. destruct Hw as [Hw|[_ [Hw _]]]; [eapply m_cbuf0; eauto|discriminate].
Qed.

(** to the writer word *)
Lemma MI_st_wrd : forall s D t p', MI (Held t) s D -> (p' = Idle \/ p' = RI 1 /\ pcs s t = DW) ->
  (p' = Idle -> cntp (pcs s t) = false \/ slotted t = true) -> (p' = RI 1 -> forall w, w <> t -> nodat (buf s w)) ->
  MI (Left t) (mkT (mem s) (upd (buf s) t (buf s t ++ [(WRD, 0)])) (upd (pcs s) t p')) D.
Proof.
  intros s D t p' H Hp Hc Hi. destruct H.
  assert (Hnd : forall u, nodat (buf s u) -> nodat (upd (buf s) t (buf s t ++ [(WRD, 0)]) u)).
  { intros u X i w Hw. apply In_push in Hw. destruct Hw as [Hw|[_ [Hw _]]]; [eapply X; eauto|discriminate]. }
  constructor; cbn [mem buf pcs]; auto.
  - intros u w Hw. apply In_push in Hw. destruct Hw as [Hw|[-> _]]; auto. apply m_wbuf0 in Hw. discriminate.
  - intros u Hu. injection Hu as <-. exists (buf s t), []. rewrite upd_same. split; auto. split; [intros w Hw; apply m_wbuf0 in Hw; discriminate|].
    split; [intros w []|]. split; [intros i w []|]. rewrite upd_same. intros X Y. split; [|intros w []].
    destruct Hp as [->|[-> Hp]]; [discriminate|]. apply (m_dw0 t); auto. rewrite Hp. auto.
  - apply data_reg. auto.
  - intros u. rewrite case_upd. destruct (Nat.eq_dec u t) as [->|]; auto. destruct Hp as [->|[-> _]]; discriminate.
  - intros u w. rewrite case_upd. destruct (Nat.eq_dec u t) as [->|]; eauto. destruct Hp as [->|[-> _]]; [discriminate|]. intros _ X. apply Hnd. auto.
  - intros u X Y Z. rewrite case_upd in Y. destruct (Nat.eq_dec u t) as [->|]; [congruence|].
    destruct (m_slt0 u X Y) as [L1 L2]; [discriminate|]. split; auto. intros w Hw. apply In_push in Hw. destruct Hw as [Hw|[_ [E _]]]; auto. exfalso. eapply slt_wrd; eauto.
  - intros u q w Hw. apply In_push in Hw. destruct Hw as [Hw|[-> [E _]]]; eauto. exfalso. eapply slt_wrd; eauto.
  - intros u X Y. rewrite case_upd in X. destruct (Nat.eq_dec u t) as [->|Hn]; [destruct Hp as [->|[-> _]]; discriminate|].
    unfold view. cbn [mem buf]. rewrite upd_other by auto. apply (m_dw0 u X Y).
  - destruct m_cnt0 as [K [K1 [K2 K3]]]. exists K. split; auto. split; auto. intros u. rewrite K2, case_upd. destruct (Nat.eq_dec u t) as [->|]; [|tauto].
    destruct Hp as [->|[-> Hp]]; [|rewrite Hp; tauto]. destruct (Hc eq_refl) as [E|E]; rewrite E; cbn; intuition congruence.
  - intros u w Hw. apply In_push in Hw. destruct Hw as [Hw|[_ [Hw _]]]; [eapply m_cbuf0; eauto|]. discriminate.
Qed.

(** * Locked instructions *)
(** on the writer word *)
Lemma MI_rmw_wrd : forall s D t p', MI Free s D -> buf s t = [] -> can_write k t = true -> 
  (ann p' = true -> ann (pcs s t) = true) -> isDW p' = false -> (slotted t = false -> cntp p' = cntp (pcs s t)) ->
  (inside p' = true -> inside (pcs s t) = true) ->
  MI (Held t) (mkT (setm (mem s) WRD (mine t)) (buf s) (upd (pcs s) t p')) D.
Proof.
  intros s D t p' H Eb Hcw Han Hdw Hcn Hin. destruct H.
  constructor; cbn [mem buf pcs od].
  - apply setm_same.
  - intros u Hu. injection Hu as <-. auto.
  - intros u w Hw. apply m_wbuf0 in Hw. discriminate.
  - discriminate.
  - apply data_rmw. cbn in m_data0. apply data_take. auto.
  - intros u. rewrite case_upd. destruct (Nat.eq_dec u t) as [->|]; auto. rewrite Eb. intros _ i v [].
  - intros u w. rewrite case_upd. destruct (Nat.eq_dec u t) as [->|]; eauto.
  - intros u X Y _. rewrite case_upd in Y. rewrite setm_other by auto. destruct (Nat.eq_dec u t) as [->|]; apply m_slt0; auto; discriminate.
  - auto.
  - intros u X Y. rewrite case_upd in X. destruct (Nat.eq_dec u t) as [->|Hn]; [congruence|].
    unfold view. cbn [mem buf]. rewrite setm_other by auto. apply (m_dw0 u X Y).
  - rewrite setm_other by auto. destruct m_cnt0 as [K [K1 [K2 K3]]]. exists K. split; auto. split; auto. intros u. rewrite K2, case_upd. destruct (Nat.eq_dec u t) as [->|]; [|tauto].
    split; intros [X Y]; split; auto; rewrite Hcn in *; auto.
  - auto.
Qed.
(** on the own slot *)
Lemma MI_rmw_slt : forall o s D t tr tr', MI o s D -> buf s t = [] -> slotted t = true -> pcs s t = RA tr ->
  MI o (mkT (setm (mem s) (SLT t) 1) (buf s) (upd (pcs s) t (RC tr'))) D.
Proof.
  intros o s D t tr tr' H Eb Hs Hp. destruct H.
  constructor; cbn [mem buf pcs]; auto.
  - rewrite setm_other; auto.
  - intros u Hu. destruct (m_left0 u Hu) as [b1 [b2 [K1 [K2 [K3 [K4 K5]]]]]]. destruct (Nat.eq_dec u t) as [->|Hn].
    + rewrite Eb in K1. destruct b1; discriminate.
    + exists b1, b2. rewrite case_upd. destruct (Nat.eq_dec u t); [congruence|]. rewrite setm_other by auto. tauto.
  - intros u. rewrite case_upd. destruct (Nat.eq_dec u t) as [->|]; auto. discriminate.
  - intros u w. rewrite case_upd. destruct (Nat.eq_dec u t) as [->|]; eauto. discriminate.
  - intros u X Y Z. rewrite case_upd in Y. destruct (Nat.eq_dec u t) as [->|].
    + rewrite setm_same, Eb. split; [lia|intros v []].
    + rewrite setm_other by auto. auto.
  - intros u X Y. rewrite case_upd in X. destruct (Nat.eq_dec u t) as [->|Hn]; [discriminate|].
    unfold view. cbn [mem buf]. rewrite setm_other by auto. apply (m_dw0 u X Y).
  - rewrite setm_other by auto. destruct m_cnt0 as [K [K1 [K2 K3]]]. exists K. split; auto. split; auto. intros u. rewrite K2, case_upd. destruct (Nat.eq_dec u t) as [->|]; [|tauto].
    split; intros [X Y]; congruence.
Qed.

(** on the count *)
Lemma len_N : forall K, NoDup K -> (forall t, In t K -> (t < N)%nat) -> (length K <= N)%nat.
Proof. intros K H1 H2. rewrite <- (seq_length N 0). apply NoDup_incl_length; auto. intros t Ht. apply in_seq. specialize (H2 t Ht). lia. Qed.

Lemma MI_cnt : forall o s D t p' v, MI o s D -> buf s t = [] -> 
  (scn p' = true -> scn (pcs s t) = true) ->
  (inside p' = true -> inside (pcs s t) = true) -> slotted t = false ->
  (exists K, NoDup K /\ (forall u, In u K <-> slotted u = false /\ cntp (upd (pcs s) t p' u) = true) /\ v = Z.of_nat (length K) /\ forall u, In u K -> (u < N)%nat) ->
  MI o (mkT (setm (mem s) CNT v) (buf s) (upd (pcs s) t p')) D.
Proof.
  intros o s D t p' v H Eb H1 H2 Hs HK. destruct H.
  constructor; cbn [mem buf pcs]; auto.
  - intros u Hu. destruct (m_left0 u Hu) as [b1 [b2 [K1 [K2 [K3 [K4 K5]]]]]]. destruct (Nat.eq_dec u t) as [->|Hn].
    + rewrite Eb in K1. destruct b1; discriminate.
    + exists b1, b2. rewrite case_upd. destruct (Nat.eq_dec u t); [congruence|]. rewrite setm_other by auto. tauto.
  - intros u. rewrite case_upd. destruct (Nat.eq_dec u t) as [->|]; auto.
  - intros u w. rewrite case_upd. destruct (Nat.eq_dec u t) as [->|]; eauto.
  - intros u X Y Z. rewrite case_upd in Y. rewrite setm_other by auto. destruct (Nat.eq_dec u t) as [->|]; [congruence|auto].
  - intros u X Y. rewrite case_upd in X. destruct (Nat.eq_dec u t) as [->|Hn]; [congruence|].
    unfold view. cbn [mem buf]. rewrite setm_other by auto. apply (m_dw0 u X Y).
Qed.
Lemma MI_inc : forall o s D t p', MI o s D -> buf s t = [] -> (t < N)%nat ->
  (scn p' = true -> scn (pcs s t) = true) ->
  (inside p' = true -> inside (pcs s t) = true) -> slotted t = false -> cntp p' = true -> cntp (pcs s t) = false ->
  MI o (mkT (setm (mem s) CNT ((mem s CNT + 1) mod W)) (buf s) (upd (pcs s) t p')) D.
Proof.
  intros o s D t p' H Eb Ht H1 H2 Hs C1 C2. apply MI_cnt; auto. destruct (m_cnt _ _ _ H) as [K [K1 [K2 [K3 K4]]]].
  assert (Hn : ~ In t K) by (rewrite K2, C2; intros [_ X]; discriminate).
  assert (ND : NoDup (t :: K)) by (constructor; auto).
  assert (HK : forall u, In u (t :: K) -> (u < N)%nat) by (intros u [<-|X]; auto).
  exists (t :: K). split; auto. split; [|split; auto].
  - intros u. rewrite case_upd. simpl. rewrite K2. destruct (Nat.eq_dec u t) as [->|]; [tauto|intuition congruence].
  - rewrite K3. pose proof (len_N _ ND HK) as L. cbn [length] in *. rewrite Z.mod_small; [lia|]. split; [lia|].
    eapply Z.le_lt_trans; [|exact HN]. lia.
Qed.
Lemma MI_dec : forall o s D t p', MI o s D -> buf s t = [] -> 
  (scn p' = true -> scn (pcs s t) = true) ->
  (inside p' = true -> inside (pcs s t) = true) -> slotted t = false -> cntp p' = false -> cntp (pcs s t) = true ->
  MI o (mkT (setm (mem s) CNT ((mem s CNT - 1) mod W)) (buf s) (upd (pcs s) t p')) D.
Proof.
  intros o s D t p' H Eb H1 H2 Hs C1 C2. apply MI_cnt; auto. destruct (m_cnt _ _ _ H) as [K [K1 [K2 [K3 K4]]]].
  assert (Hin : In t K) by (rewrite K2; auto). apply in_split in Hin. destruct Hin as [l1 [l2 ->]].
  pose proof (NoDup_remove_1 _ _ _ K1) as ND. pose proof (NoDup_remove_2 _ _ _ K1) as Ht.
  exists (l1 ++ l2). split; auto. split; [|split].
  - intros u. rewrite case_upd. destruct (Nat.eq_dec u t) as [->|].
    + rewrite C1. split; [tauto|intros [_ ?]; discriminate].
    + rewrite <- K2, !in_app_iff. simpl. intuition congruence.
  - rewrite K3. pose proof (len_N _ K1 K4) as L. rewrite !app_length in *. cbn [length] in *. rewrite Z.mod_small; [lia|]. split; [lia|]. eapply Z.le_lt_trans; [|exact HN]. lia.
  - intros u Hu. apply K4. apply in_app_iff in Hu. apply in_app_iff. simpl. tauto.
Qed.

(** * All steps *)
Lemma MI_ext : forall o s s' D, MI o s D -> (forall x, mem s' x = mem s x) -> buf s' = buf s -> (forall u, pcs s' u = pcs s u) -> MI o s' D.
Proof.
  intros o s s' D H E1 E2 E3. destruct H. constructor; rewrite ?E1, ?E2; auto.
  - intros t Ht. destruct (m_left0 t Ht) as [b1 [b2 K]]. exists b1, b2. rewrite E3, E1. auto.
  - unfold data, view in *. rewrite E2. destruct (od o); destruct m_data0 as [X Y]; split; auto; intros i; rewrite E1; auto.
  - intros t. rewrite E3. auto.
  - intros u w. rewrite E3. eauto.
  - intros r. rewrite E3, E1. auto.
  - intros t. rewrite E3. unfold view. rewrite E1, E2. apply m_dw0.
  - destruct m_cnt0 as [K [K1 [K2 K3]]]. exists K. split; auto. split; auto. intros t. rewrite E3. auto.
Qed.

Lemma rds_same : forall o f a t p', PI o f a -> inside p' = inside (f t) -> forall u, In u (rds a) <-> inside (upd f t p' u) = true.
Proof. intros o f a t p' H E u. rewrite case_upd, (p_rds _ _ _ H). destruct (Nat.eq_dec u t) as [->|]; [rewrite E|]; tauto. Qed.
Lemma wof_same : forall o f t p', cs p' = cs (f t) -> wof o (upd f t p') = wof o f.
Proof. intros [|u|u] f t p' E; cbn; auto. rewrite case_upd. destruct (Nat.eq_dec u t) as [->|]; [rewrite E|]; auto. Qed.
Lemma PI_same : forall o f a t p', PI o f a -> wpc p' = wpc (f t) -> cs p' = cs (f t) -> inside p' = inside (f t) -> loc_ok t p' ->
  (forall tr, p' = RC tr -> o <> Left t) ->
  (forall tr rest u, p' = WS tr rest -> u <> t -> inside (f u) = true -> slotted u = true -> In u rest) ->
  (forall tr u, p' = WN tr -> u <> t -> inside (f u) = true -> slotted u = false) -> PI o (upd f t p') a.
Proof.
  intros o f a t p' H H1 H2 H3 H4 H4' H5 H6. apply PI_upd with (o := o) (a := a); auto.
  - rewrite H1. apply (p_held _ _ _ H).
  - rewrite wof_same by auto. apply (p_wrt _ _ _ H).
  - eapply rds_same; eauto.
  - rewrite H3. auto.
  - intros u X _. rewrite H2 in X. apply (p_cs _ _ _ H t u X).
Qed.

Lemma slotted_in : forall u, slotted u = true -> In u slots.
Proof. intros u H. apply existsb_exists in H. destruct H as [x [H E]]. apply Nat.eqb_eq in E. subst. auto. Qed.
Lemma in_slotted : forall o f a u, PI o f a -> inside (f u) = true -> isBr = true -> slotted u = true.
Proof.
  intros o f a u H Hi Hb. pose proof (p_loc _ _ _ H u) as L. destruct (f u); try discriminate; cbn in *.
  - destruct up; [|discriminate]. tauto.
  - tauto.
  - destruct L as [_ L]. unfold can_read in L. rewrite Hb in L. auto.
Qed.
Lemma no_rds : forall o f a, PI o f a -> (forall u, inside (f u) = false) -> rds a = [].
Proof.
  intros o f a H Hi. destruct (rds a) as [|u r] eqn:E; auto. exfalso. assert (X : In u (rds a)) by (rewrite E; left; auto).
  apply (p_rds _ _ _ H) in X. rewrite Hi in X. discriminate.
Qed.
(** entering as a writer *)
Lemma enter : forall o f a t, PI o f a -> (o = Free \/ o = Held t) -> cs (f t) = false -> (forall u, inside (f u) = false) ->
  exists a', accepts rw_step a [WEnter t] = Some a' /\ dat a' = dat a /\ PI (Held t) (upd f t WC) a'.
Proof.
  intros o f a t H Ho Hc Hi. eexists. split; [|split].
  - simpl. rewrite (p_wrt _ _ _ H), (no_rds _ _ _ H Hi). destruct Ho as [->| ->]; cbn; rewrite ?Hc; reflexivity.
  - reflexivity.
  - apply PI_upd with (o := o) (a := a); auto; try discriminate; cbn; auto.
    + destruct Ho as [->| ->]; auto.
    + tauto.
    + rewrite upd_same. auto.
    + intros u. rewrite case_upd. destruct (Nat.eq_dec u t); [split; [intros []|discriminate]|]. rewrite Hi. split; [intros []|discriminate].
    + intros u _ _. rewrite Hi. discriminate.
Qed.
Lemma scan : forall o f a t tr rest, PI o f a -> (o = Free \/ o = Held t) -> scn (f t) = true \/ wpc (f t) = false -> inside (f t) = false ->
  (forall u, u <> t -> inside (f u) = true -> slotted u = true -> In u rest) ->
  exists a', accepts rw_step a (snd (wscan k t tr rest)) = Some a' /\ dat a' = dat a /\ PI (Held t) (upd f t (fst (wscan k t tr rest))) a'.
Proof.
  intros o f a t tr rest H Ho Hw Hi Hr.
  assert (Hc : cs (f t) = false) by (destruct (f t), Hw; try discriminate; auto).
  assert (Hwof : wof o f = None).
  { destruct Ho as [->| ->]; auto. cbn. rewrite Hc. auto. }
  assert (Hq : forall p', p' = WS tr rest \/ p' = WN tr /\ rest = [] -> exists a', accepts rw_step a [] = Some a' /\ dat a' = dat a /\ PI (Held t) (upd f t p') a').
  { intros p' Hp. exists a. split; auto. split; auto. apply PI_upd with (o := o) (a := a); auto.
    - destruct Ho as [->| ->]; auto.
    - destruct Hp as [->|[-> _]]; cbn; tauto.
    - rewrite (p_wrt _ _ _ H), Hwof. cbn. rewrite upd_same. destruct Hp as [->|[-> _]]; auto.
    - eapply rds_same; eauto. rewrite Hi. destruct Hp as [->|[-> _]]; auto.
    - destruct Hp as [->|[-> _]]; exact I.
    - destruct Hp as [->|[-> _]]; discriminate.
    - destruct Hp as [->|[-> _]]; discriminate.
    - intros tr' rest' u E. destruct Hp as [->|[-> _]]; [injection E as <- <-; auto|discriminate].
    - intros tr' u E X Y. destruct Hp as [->|[-> ->]]; [discriminate|]. destruct (slotted u) eqn:Es; auto. destruct (Hr u X Y Es).
    - destruct Hp as [->|[-> _]]; discriminate. }
  unfold wscan. destruct rest as [|r rest].
  - destruct isBr eqn:Eb; cbn [fst snd]; [|apply Hq; auto]. eapply enter; eauto.
    intros u. destruct (inside (f u)) eqn:E; auto. destruct (Nat.eq_dec u t) as [->|Hn]; [congruence|].
    destruct (Hr u Hn E). eapply in_slotted; eauto.
  - cbn [fst snd]. apply Hq; auto.
Qed.

Definition Inv (o : own) (s : st) (a : rwl) : Prop := PI o (pcs s) a /\ MI o s (dat a).

Lemma not_wrd : forall o s D t, MI o s D -> o <> Left t -> view s t WRD = mem s WRD.
Proof. intros o s D t H Ho. unfold view. apply fwd_none. intros v Hv. apply Ho. eapply (m_wbuf _ _ _ H); eauto. Qed.
Lemma word_free : forall o s D, MI o s D -> mem s WRD = 0 -> o = Free.
Proof. intros o s D H E. rewrite (m_word _ _ _ H) in E. destruct o as [|u|u]; auto; destruct (mine_0 u E). Qed.
Lemma buf_left : forall o s D t, MI o s D -> buf s t = [] -> o <> Left t.
Proof. intros o s D t H E X. destruct (m_left _ _ _ H t X) as [b1 [b2 [K _]]]. rewrite E in K. destruct b1; discriminate. Qed.
(** nobody else's slot number *)
Lemma mine_inj : forall t u, isByte = true -> can_write k u = true -> mine t = mine u -> t = u.
Proof.
  intros t u Hb Hc E. unfold TsoRw_Model.mine, can_write in *. rewrite Hb in *. rewrite Hc in E.
  apply slotted_in in Hc. destruct (slotted t) eqn:Et; [lia|]. exfalso. unfold TsoRw_Model.slots, TsoRw_Model.isByte in *. destruct k; try discriminate.
  apply in_seq in Hc. unfold W in E. lia.
Qed.

Lemma I_step : forall o s a l s' e, Inv o s a -> step code arr s l = Some (s', e) ->
  exists o' a', accepts rw_step a e = Some a' /\ Inv o' s' a'.
Proof.
  intros o s a l s' e [HP HM] H. destruct l as [t ac|t]; cbn [step] in H.
  2: { destruct (buf s t) as [|[x v] r] eqn:Eb; [discriminate|]. injection H as <- <-.
       destruct (MI_flush _ _ _ _ _ _ _ HM Eb) as [o' [K [->|[-> ->]]]]; [exists o|exists Free]; exists a; split; auto; split; auto. eapply PI_flush; eauto. }
  unfold TsoRw_Model.code in H. destruct (Nat.ltb_spec t N) as [HtN|]; cbn [negb] in H; [|discriminate].
  pose proof (p_loc _ _ _ HP t) as Hloc.
  assert (Hq : forall p', wpc p' = wpc (pcs s t) -> cs p' = cs (pcs s t) -> inside p' = inside (pcs s t) -> loc_ok t p' ->
     (forall tr, p' = RC tr -> False) -> (forall tr rest, p' = WS tr rest -> pcs s t = WS tr rest) -> (forall tr, p' = WN tr -> pcs s t = WN tr) ->
     (scn p' = true -> scn (pcs s t) = true) -> (slotted t = true -> ann p' = true -> ann (pcs s t) = true) -> isDW p' = false ->
     (slotted t = false -> cntp p' = cntp (pcs s t)) -> exists o' a', accepts rw_step a [] = Some a' /\ Inv o' (next s t p') a').
  { intros p' Q1 Q2 Q3 Q4 Q5 Q6 Q7 Q8 Q9 Q10 Q11. exists o, a. split; auto. split.
    - apply PI_same; auto.
      + intros tr E. destruct (Q5 tr E).
      + intros tr rest u E _. apply (p_scn _ _ _ HP t tr rest u). auto.
      + intros tr u E _. apply (p_wn _ _ _ HP t tr u). auto.
    - apply MI_pcs; auto. rewrite Q3. auto. }
  assert (Hh : wpc (pcs s t) = true -> o = Held t) by apply (p_held _ _ _ HP).
  assert (Hwr : cs (pcs s t) = true -> iswr a t = true).
  { intros X. unfold iswr. rewrite (p_wrt _ _ _ HP), Hh by (destruct (pcs s t); auto; discriminate). cbn. rewrite X. apply Nat.eqb_refl. }
  assert (Hrd : inside (pcs s t) = true -> isrd a t = true).
  { intros X. apply existsb_exists. exists t. split; [apply (p_rds _ _ _ HP); auto|apply Nat.eqb_refl]. }
  assert (Hrem : forall p', inside p' = false -> forall u, In u (remove Nat.eq_dec t (rds a)) <-> inside (upd (pcs s) t p' u) = true).
  { intros p' X u. rewrite case_upd. destruct (Nat.eq_dec u t) as [->|Hn].
    - rewrite X. split; [intros Y; destruct (remove_In _ _ _ Y)|discriminate].
    - rewrite <- (p_rds _ _ _ HP). split; [intros Y; eapply in_remove; eauto|intros Y; apply in_in_remove; auto]. }
  destruct (pcs s t) eqn:Ep; destruct ac; try discriminate H; cbn [wpc cs inside loc_ok] in *.
  - (* Idle, write *)
    destruct (can_write k t && negb (isByte && tr)) eqn:E; [|discriminate]. apply andb_true_iff in E. injection H as <- <-.
    apply Hq; auto; try discriminate. cbn. split; [tauto|discriminate].
  - (* Idle, read *)
    destruct (can_read k t) eqn:Ec; [|discriminate]. destruct isByte eqn:Eb; [destruct tr; [discriminate|]|]; injection H as <- <-; apply Hq; auto; try discriminate; try exact I.
  - (* acquire the writer word *)
    destruct (buf s t) eqn:Eb; [|discriminate]. destruct Hloc as [Hcw Hup].
    destruct (taken k (mem s WRD)) eqn:Etk.
    + injection H as <- <-. exists o, a. split; auto. split.
      * apply PI_same; rewrite ?Ep; auto; try discriminate. cbn. auto.
      * apply MI_ext with s; auto; cbn [mem buf pcs].
        -- intros x. unfold setm. destruct (loc_eqb_spec WRD x) as [<-|]; auto.
           destruct isByte eqn:Ey; [destruct (Z.eqb_spec (mem s WRD) 0) as [E|]; auto; exfalso|].
           ++ unfold taken in Etk. rewrite E in Etk. destruct isBr; discriminate.
           ++ rewrite (m_word _ _ _ HM). destruct (od o) eqn:Eo.
              ** unfold TsoRw_Model.mine. rewrite Ey. auto.
              ** exfalso. rewrite (m_word _ _ _ HM), Eo in Etk. unfold taken in Etk. destruct isBr; discriminate.
        -- intros u. rewrite case_upd. destruct (Nat.eq_dec u t) as [->|]; auto.
    + assert (Ho : o = Free).
      { destruct (od o) eqn:Eo; [exfalso|destruct o; auto; discriminate]. unfold taken in Etk. rewrite (m_word _ _ _ HM), Eo in Etk.
        destruct isBr eqn:Er; [|destruct (Z.eqb_spec (mine n) 0) as [X|]; [destruct (mine_0 _ X)|discriminate]].
        unfold TsoRw_Model.mine in Etk. unfold TsoRw_Model.isByte, TsoRw_Model.isBr in *. destruct k; discriminate. }
      subst o. pose proof (m_word _ _ _ HM) as Hw0. cbn in Hw0.
      assert (Hf : (if isByte then if mem s WRD =? 0 then mine t else mem s WRD else 1) = mine t).
      { rewrite Hw0. cbn. unfold TsoRw_Model.mine at 2. destruct isByte eqn:Ey; auto. unfold TsoRw_Model.mine. rewrite Ey. auto. }
      rewrite Hf in H. destruct isByte eqn:Ey.
      * injection H as <- <-. exists (Held t), a. split; auto. split.
        -- apply PI_upd with (o := Free) (a := a); auto; try discriminate; cbn; auto.
           ++ tauto.
           ++ rewrite upd_same. apply (p_wrt _ _ _ HP).
           ++ eapply rds_same; eauto. rewrite Ep. cbn. destruct up; auto.
           ++ split; auto. unfold can_write in Hcw. rewrite Ey in Hcw. auto.
           ++ rewrite Ep. cbn. destruct up; auto.
        -- apply MI_rmw_wrd; rewrite ?Ep; auto; try discriminate.
      * assert (up = false) as -> by (destruct up; auto; destruct Hup; auto; congruence).
        destruct (wscan k t tr slots) as [p' e'] eqn:Es. injection H as <- <-.
        destruct (scan Free (pcs s) a t tr slots HP) as [a' [K1 [K2 K3]]]; rewrite ?Ep; auto.
        { intros u _ _. apply slotted_in. }
        rewrite Es in *. cbn [fst snd] in *. exists (Held t), a'. split; auto. split; auto. rewrite K2.
        assert (Hp' : p' = WC \/ scn p' = true /\ ann p' = false /\ inside p' = false /\ cntp p' = false).
        { unfold wscan in Es. destruct slots; [destruct isBr|]; injection Es as <- <-; auto. }
        apply MI_rmw_wrd; rewrite ?Ep; auto; destruct Hp' as [->|[? [? [? ?]]]]; try discriminate; auto; try congruence.
        destruct p'; try discriminate; auto.
  - (* give up *)
    destruct tr; [|discriminate]. injection H as <- <-. destruct Hloc as [_ Hup].
    assert (up = false) as -> by (destruct up; auto; destruct Hup as [_ [_ ?]]; auto; discriminate).
    apply Hq; auto; try discriminate; try exact I.
  - (* clear the own flag *)
    injection H as <- <-. rewrite (Hh eq_refl) in *.
    assert (HM' : MI (Held t) (mkT (mem s) (upd (buf s) t (buf s t ++ [(SLT t, 0)])) (upd (pcs s) t (WS false slots))) (dat a)).
    { apply MI_st_slt; rewrite ?Ep; auto; discriminate. }
    exists (Held t). destruct up.
    + eexists. split; [simpl; rewrite Hrd by auto; reflexivity|]. split; auto.
      apply PI_upd with (o := Held t) (a := a); auto; try discriminate; cbn [wpc rds wrt loc_ok]; auto.
      * tauto.
      * rewrite (p_wrt _ _ _ HP). cbn. rewrite upd_same, Ep. auto.
      * intros tr rest u E _ _. injection E as _ <-. apply slotted_in.
    + exists a. split; auto. split; auto. apply PI_same; rewrite ?Ep; auto; try discriminate; [exact I|].
      intros tr rest u E _ _. injection E as _ <-. apply slotted_in.
  - (* scan *)
    destruct rest as [|r rest]; [discriminate|]. rewrite (Hh eq_refl) in *.
    destruct (Z.eqb_spec (view s t (SLT r)) 0) as [Ev|Ev].
    + destruct (scan (Held t) (pcs s) a t tr rest HP) as [a' [K1 [K2 K3]]]; rewrite ?Ep; auto.
      { intros u Hn Hi Hs. destruct (p_scn _ _ _ HP t tr (r :: rest) u Ep Hi Hs) as [<-|X]; auto. exfalso.
        assert (Ha : ann (pcs s r) = true).
        { destruct (pcs s r) eqn:Er; try discriminate; auto. assert (X : Held t = Held r) by (apply (p_held _ _ _ HP); rewrite Er; auto). congruence. }
        destruct (m_slt _ _ _ HM r Hs Ha) as [L _]; [discriminate|]. apply L. rewrite <- Ev. symmetry. apply fwd_none.
        intros v Hv. apply Hn. eapply (m_sown _ _ _ HM); eauto. }
      destruct (wscan k t tr rest) as [p' e'] eqn:Es. injection H as <- <-. cbn [fst snd] in *. exists (Held t), a'. split; auto. split; auto. rewrite K2.
      assert (Hp' : p' = WC \/ scn p' = true /\ ann p' = false /\ inside p' = false /\ cntp p' = false).
      { unfold wscan in Es. destruct rest; [destruct isBr|]; injection Es as <- <-; auto. }
      apply MI_pcs; rewrite ?Ep; auto; destruct Hp' as [->|[? [? [? ?]]]]; try discriminate; auto; try congruence. destruct p'; try discriminate; auto.
    + injection H as <- <-. apply Hq; auto; try discriminate; try exact I.
  - (* give up *)
    destruct tr; [|discriminate]. injection H as <- <-. rewrite (Hh eq_refl) in *. exists (Left t), a. split; auto. split.
    + apply PI_upd with (o := Held t) (a := a); auto; try discriminate; cbn; auto.
      * split; discriminate.
      * rewrite (p_wrt _ _ _ HP). cbn. rewrite Ep. auto.
      * eapply rds_same; eauto. rewrite Ep. auto.
    + apply MI_st_wrd; auto; [rewrite Ep; auto|discriminate].
  - (* count *)
    rewrite (Hh eq_refl) in *. assert (Ec : view s t CNT = mem s CNT) by (apply fwd_none; intros v; apply (m_cbuf _ _ _ HM)).
    destruct (Z.eqb_spec (view s t CNT) 0) as [Ev|Ev].
    + injection H as <- <-. destruct (enter (Held t) (pcs s) a t HP) as [a' [K1 [K2 K3]]]; rewrite ?Ep; auto.
      { intros u. destruct (inside (pcs s u)) eqn:E; auto. exfalso. pose proof (p_wn _ _ _ HP t tr u Ep E) as Hs.
        destruct (m_cnt _ _ _ HM) as [K [_ [L2 [L3 _]]]]. rewrite <- Ec, Ev in L3. destruct K as [|x K]; [|simpl in L3; lia].
        apply (proj2 (L2 u)). split; auto. pose proof (p_loc _ _ _ HP u) as Lu. destruct (pcs s u); try discriminate; auto; cbn in Lu.
        - destruct up; [|discriminate]. destruct Lu as [_ Lu]. destruct Lu as [_ [Lu _]]; auto. congruence.
        - destruct Lu. congruence. }
      exists (Held t), a'. split; auto. split; auto. rewrite K2. apply MI_pcs; rewrite ?Ep; auto; discriminate.
    + injection H as <- <-. apply Hq; auto; try discriminate; try exact I.
  - (* give up *)
    destruct tr; [|discriminate]. injection H as <- <-. rewrite (Hh eq_refl) in *. exists (Left t), a. split; auto. split.
    + apply PI_upd with (o := Held t) (a := a); auto; try discriminate; cbn; auto.
      * split; discriminate.
      * rewrite (p_wrt _ _ _ HP). cbn. rewrite Ep. auto.
      * eapply rds_same; eauto. rewrite Ep. auto.
    + apply MI_st_wrd; auto; [rewrite Ep; auto|discriminate].
  - (* write unlock *)
    injection H as <- <-. rewrite (Hh eq_refl) in *. exists (Left t). eexists. split; [simpl; rewrite Hwr by auto; reflexivity|]. split.
    + apply PI_upd with (o := Held t) (a := a); auto; try discriminate; cbn; auto.
      * split; discriminate.
      * eapply rds_same; eauto. rewrite Ep. auto.
    + apply MI_st_wrd; auto; [rewrite Ep; auto|discriminate].
  - (* downgrade *)
    rewrite (Hh eq_refl) in *. destruct k as [|recs|] eqn:Ek; [|discriminate|].
    + destruct (buf s t) eqn:Eb; [|discriminate]. injection H as <- <-. exists (Held t), a. split; auto. split.
      * apply PI_same; rewrite ?Ep; auto; try discriminate. cbn. auto.
      * apply MI_inc; rewrite ?Ep; auto; try discriminate. rewrite Ek. reflexivity.
    + injection H as <- <-. rewrite (not_wrd _ _ _ _ HM), (m_word _ _ _ HM) by discriminate. cbn [od]. rewrite Ek, Z.eqb_refl.
      apply Hq; auto; try discriminate. cbn. pose proof (m_cw _ _ _ HM t eq_refl) as X. rewrite Ek in *. auto.
  - (* read as the writer *)
    injection H as <- <-. rewrite (Hh eq_refl) in *. destruct (m_data _ _ _ HM) as [D1 D2]. cbn in D1.
    exists (Held t), a. split; [simpl; rewrite Hwr, D1, Z.eqb_refl by auto; reflexivity|]. split.
    + apply PI_same; rewrite ?Ep; auto; try discriminate.
    + apply MI_pcs; rewrite ?Ep; auto; discriminate.
  - (* write *)
    injection H as <- <-. rewrite (Hh eq_refl) in *. exists (Held t). eexists. split; [simpl; rewrite Hwr by auto; reflexivity|]. split.
    + assert (HP' : PI (Held t) (upd (pcs s) t WC) a) by (apply PI_same; rewrite ?Ep; auto; discriminate).
      destruct HP'. constructor; auto.
    + cbn [dat]. apply MI_st_dat; auto. intros u. destruct (inside (pcs s u)) eqn:E; auto. exfalso. apply (p_cs _ _ _ HP t u); auto. rewrite Ep. auto.
  - (* set the own flag *)
    injection H as <- <-. rewrite (Hh eq_refl) in *. exists (Held t), a. split; auto. split.
    + apply PI_same; rewrite ?Ep; auto; try discriminate. cbn. auto.
    + apply MI_st_slt; rewrite ?Ep; auto; try discriminate. destruct Hloc. intros. congruence.
  - (* clear the writer word *)
    injection H as <- <-. rewrite (Hh eq_refl) in *. exists (Left t). eexists. split; [simpl; rewrite Hwr by auto; reflexivity|]. split.
    + apply PI_upd with (o := Held t) (a := a); auto; try discriminate; cbn; auto.
      * split; discriminate.
      * intros u. rewrite case_upd, (p_rds _ _ _ HP). destruct (Nat.eq_dec u t) as [->|Hn]; [cbn; tauto|]. split; [intros [?|?]; [congruence|auto]|auto].
      * split; [lia|]. unfold can_read. destruct Hloc as [[Ey _]| ->]; auto. unfold TsoRw_Model.isByte, TsoRw_Model.isBr in *. destruct k; auto; discriminate.
    + apply MI_st_wrd; auto; [discriminate|]. intros _. apply (m_data _ _ _ HM).
  - (* load owner *)
    injection H as <- <-. destruct (Z.eqb_spec (view s t WRD) (mine t)) as [Ev|Ev].
    + exfalso. assert (Hl : o = Left t \/ o <> Left t) by (destruct o as [| |u]; try (right; discriminate); destruct (Nat.eq_dec u t); [left|right]; congruence).
      destruct Hl as [->|Hl].
      * destruct (m_left _ _ _ HM t eq_refl) as [b1 [b2 [L1 [L2 [L3 _]]]]]. unfold view in Ev. rewrite L1, fwd_app in Ev. cbn [fwd] in Ev.
        rewrite fwd_none in Ev by auto. destruct (loc_eqb_spec WRD WRD); [|congruence]. symmetry in Ev. destruct (mine_0 _ Ev).
      * rewrite (not_wrd _ _ _ _ HM Hl), (m_word _ _ _ HM) in Ev. destruct (od o) as [u|] eqn:Eo; [|symmetry in Ev; destruct (mine_0 _ Ev)].
        assert (t = u) by (apply mine_inj; auto; apply (m_cw _ _ _ HM); auto). subst u. destruct o as [|u|u]; [discriminate| |]; injection Eo as ->; [|congruence].
        assert (wpc (pcs s t) = true) by (apply (p_held _ _ _ HP); auto). rewrite Ep in *. discriminate.
    + apply Hq; auto; try discriminate. cbn. unfold can_read. unfold TsoRw_Model.isByte, TsoRw_Model.isBr in *. destruct k; auto; discriminate.
  - (* wait for the writer *)
    injection H as <- <-. apply Hq; destruct (taken k (view s t WRD)); auto; discriminate.
  - destruct tr; [|discriminate]. injection H as <- <-. apply Hq; auto; try discriminate; try exact I.
  - (* announce *)
    destruct (slotted t) eqn:Es.
    + destruct (buf s t) eqn:Eb; [|discriminate]. injection H as <- <-. exists o, a. split; auto. split.
      * apply PI_same; rewrite ?Ep; auto; try discriminate. intros _ _. eapply buf_left; eauto.
      * eapply MI_rmw_slt; eauto.
    + destruct (buf s t) eqn:Eb; [|discriminate]. injection H as <- <-. exists o, a. split; auto. split.
      * apply PI_same; rewrite ?Ep; auto; try discriminate. intros _ _. eapply buf_left; eauto.
      * apply MI_inc; rewrite ?Ep; auto; discriminate.
  - (* check *)
    rewrite (not_wrd _ _ _ _ HM (p_rc _ _ _ HP t tr Ep)) in H. destruct (Z.eqb_spec (mem s WRD) 0) as [Ev|Ev]; injection H as <- <-.
    + assert (o = Free) as -> by (eapply word_free; eauto). exists Free. eexists. split; [simpl; rewrite (p_wrt _ _ _ HP); reflexivity|]. split.
      * apply PI_upd with (o := Free) (a := a); auto; try discriminate; cbn; auto.
        -- split; discriminate.
        -- intros u. rewrite case_upd, (p_rds _ _ _ HP). destruct (Nat.eq_dec u t) as [->|Hn]; [cbn; tauto|]. split; [intros [?|?]; [congruence|auto]|auto].
        -- split; [lia|auto].
      * apply MI_pcs; rewrite ?Ep; auto; try discriminate. intros _. right. intros w _. apply (m_data _ _ _ HM).
    + apply Hq; auto; try discriminate; try exact I.
  - (* take it back *)
    destruct (slotted t) eqn:Es.
    + injection H as <- <-. exists o, a. split; auto. split.
      * apply PI_same; rewrite ?Ep; auto; discriminate.
      * apply MI_st_slt; rewrite ?Ep; auto; try discriminate. intros. congruence.
    + destruct (buf s t) eqn:Eb; [|discriminate]. injection H as <- <-. exists o, a. split; auto. split.
      * apply PI_same; rewrite ?Ep; auto; discriminate.
      * apply MI_dec; rewrite ?Ep; auto; discriminate.
  - (* upgrade *)
    destruct (isByte && slotted t && negb tr) eqn:E; [|discriminate]. apply andb_true_iff in E. destruct E as [E E3]. apply andb_true_iff in E. destruct E as [E1 E2]. destruct tr; [discriminate|]. injection H as <- <-.
    apply Hq; auto; try discriminate.
    + cbn. unfold can_write. rewrite E1. auto.
    + intros. congruence.
  - (* nested *)
    destruct (isBr && (n + 1 <? W)) eqn:E; [|discriminate]. injection H as <- <-. exists o, a. split; auto. split.
    + apply PI_same; rewrite ?Ep; auto; try discriminate. cbn. split; [lia|tauto].
    + apply MI_st_slt; rewrite ?Ep; auto; try discriminate. intros _ _. split; auto. lia.
  - (* read unlock *)
    destruct (slotted t) eqn:Es.
    + injection H as <- <-. destruct (Z.eqb_spec n 1) as [->|Hn].
      * exists o. eexists. split; [simpl; rewrite Hrd by auto; reflexivity|]. split.
        -- apply PI_upd with (o := o) (a := a); auto; try discriminate; cbn; auto.
           ++ rewrite <- (p_held _ _ _ HP), Ep. cbn. tauto.
           ++ rewrite (p_wrt _ _ _ HP), wof_same; auto. rewrite Ep. auto.
        -- apply MI_st_slt; rewrite ?Ep; auto; try discriminate. intros. congruence.
      * exists o, a. split; auto. split.
        -- apply PI_same; rewrite ?Ep; auto; try discriminate. cbn. split; [lia|tauto].
        -- apply MI_st_slt; rewrite ?Ep; auto; try discriminate. intros _ _. split; auto. lia.
    + destruct (buf s t) eqn:Eb; [|discriminate]. injection H as <- <-. exists o. eexists. split; [simpl; rewrite Hrd by auto; reflexivity|]. split.
      * apply PI_upd with (o := o) (a := a); auto; try discriminate; cbn; auto.
        -- rewrite <- (p_held _ _ _ HP), Ep. cbn. tauto.
        -- rewrite (p_wrt _ _ _ HP), wof_same; auto. rewrite Ep. auto.
      * apply MI_dec; rewrite ?Ep; auto; discriminate.
  - (* read as a reader *)
    injection H as <- <-. assert (Ev : view s t (Dat i) = dat a i).
    { assert (Hi : inside (pcs s t) = true) by (rewrite Ep; auto). pose proof (m_in _ _ _ HM t) as Hnd. pose proof (m_data _ _ _ HM) as Hd.
      unfold data in Hd. destruct (od o) as [u|]; destruct Hd as [D1 D2].
      - destruct (Nat.eq_dec u t) as [->|Hn]; auto. rewrite <- D1. unfold view. rewrite !fwd_none; auto; intros v; [eapply (Hnd u); eauto|eapply (D2 t); eauto].
      - rewrite <- D1. apply fwd_none. intros v. apply D2. }
    exists o, a. split; [simpl; rewrite Hrd, Ev, Z.eqb_refl, orb_true_r by auto; reflexivity|]. split.
    + apply PI_same; rewrite ?Ep; auto; discriminate.
    + apply MI_pcs; rewrite ?Ep; auto; discriminate.
Qed.

Lemma Inv_init : forall D, Inv Free (init D) {| wrt := None; rds := []; dat := D |}.
Proof.
  intros D. split.
  - constructor; cbn; try discriminate; auto; try (intros; split; try discriminate; contradiction).
  - constructor; cbn; try discriminate; auto; try (intros; contradiction).
    + split; auto. intros u i v [].
    + exists []. split; [constructor|]. split; [|split; auto; intros t []]. intros t. split; [intros []|intros [_ X]; discriminate].
Qed.

Lemma rw_all : forall D ls s log, run (step code arr) (init D) ls = Some (s, log) -> rw_legal D log.
Proof.
  intros D ls s log H.
  assert (K : exists o a, accepts rw_step {| wrt := None; rds := []; dat := D |} log = Some a /\ Inv o s a).
  { eapply (run_inv (step code arr) (fun s log => exists o a, accepts rw_step {| wrt := None; rds := []; dat := D |} log = Some a /\ Inv o s a)); [| |exact H].
    - exists Free. eexists. split; [reflexivity|apply Inv_init].
    - intros s1 l1 l s2 e [o [a [I1 I2]]] Hs. destruct (I_step o s1 a l s2 e I2 Hs) as [o' [a' [K1 K2]]]. exists o', a'. split; auto. rewrite accepts_app, I1. auto. }
  destruct K as [o [a [K _]]]. exists a. auto.
Qed.
End Proof.
