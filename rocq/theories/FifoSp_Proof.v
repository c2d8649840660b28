(** Proofs about the single-producer single-consumer linked FIFO. *)
From Coq Require Import Arith List Bool Lia.
From Verif Require Import Lib Lin Stack_Proof FifoSp_Model.
Import ListNotations.
Local Arguments Nat.eqb : simpl never.
Local Arguments upd : simpl never.

Definition all (a : fabs) : list nat := used a ++ stub a :: map fst (sq a).

Definition pphase (a : fabs) (s : fst_) : phase fop fres :=
  match pp s with
  | PIdle => Idle
  | E1 e v | E2 e v => Called (Enq e v)
  | E3 e => Called (Enq e (vl s e))
  | E4 _ => Done RU
  | R1 | R2 | R3 => Called Recycle
  | I1 => Called IsEmpty
  | I2 h => Done (RB (is_none (nx s h)))
  end.
Definition cphase (s : fst_) : phase fop fres :=
  match cp s with CIdle => Idle | D1 | D2 _ | D3 _ _ => Called Deq | J1 | J2 _ => Called IsEmpty end.

Definition penq (p : ppc) : option nat := match p with E1 e _ | E2 e _ | E3 e => Some e | _ => None end.

Record FR (s : fst_) (b : fabs * (nat -> phase fop fres)) : Prop := {
  FR_chain : chain (nx s) (Some (garb s)) (all (fst b));
  FR_nd : NoDup (all (fst b));
  FR_hd : hd s = stub (fst b);
  FR_vl : forall e v, In (e, v) (sq (fst b)) -> vl s e = v;
  FR_snap : In (snap s) (used (fst b) ++ [stub (fst b)]);
  FR_own : forall e, own s e = true -> ~ In e (all (fst b)) /\ penq (pp s) <> Some e;
  FR_enq : forall e, penq (pp s) = Some e -> ~ In e (all (fst b));
  FR_tl : match pp s with E4 e => exists l, all (fst b) = l ++ [tl s; e] | _ => exists l, all (fst b) = l ++ [tl s] end;
  FR_p : snd b 0 = pphase (fst b) s;
  FR_c : snd b 1 = cphase s;
  FR_o : forall t, 2 <= t -> snd b t = Idle;
  FR_pp : match pp s with
          | E2 e v => vl s e = v
          | E3 e => nx s e = None
          | R3 => used (fst b) <> [] /\ snap s <> garb s
          | I2 h => In h (all (fst b))
          | _ => True
          end;
  FR_cp : match cp s with
          | D2 x => exists v q, sq (fst b) = (x, v) :: q
          | D3 x v => exists q, sq (fst b) = (x, v) :: q
          | J2 h => h = hd s
          | _ => True
          end }.

Lemma FR_init : forall e, FR (finit e) (fabs0 e, idle).
Proof.
  intros e. constructor; simpl; auto; try contradiction; try discriminate.
  - constructor; auto. constructor.
  - intros x Hx. split; [|discriminate]. intros [-> |[]]. rewrite Nat.eqb_refl in Hx. discriminate.
  - exists []. auto.
Qed.

(** the last element of a chain has next NULL, an inner one the following element *)
Lemma chain_last : forall nx l h x, chain nx h (l ++ [x]) -> nx x = None.
Proof. intros f. induction l as [|y l IH]; intros h x C; simpl in C; destruct C as [_ C]; auto. eapply IH; eauto. Qed.
Lemma chain_inner : forall nx l h x y r, chain nx h (l ++ x :: y :: r) -> nx x = Some y.
Proof. intros f. induction l as [|z l IH]; intros h x y r C; simpl in C; destruct C as [_ C]; [destruct C; auto|]. eapply IH; eauto. Qed.
(** appending to a chain *)
Lemma chain_snoc : forall nx l h x e, chain nx h (l ++ [x]) -> NoDup (l ++ [x]) -> ~ In e (l ++ [x]) -> nx e = None ->
  chain (upd nx x (Some e)) h (l ++ [x; e]).
Proof.
  intros f. induction l as [|z l IH]; intros h x e C ND Ne En; simpl in C |- *; destruct C as [C0 C]; split; auto.
  - rewrite upd_same. split; auto. rewrite upd_other; auto. intros ->. apply Ne. left. auto.
  - inversion ND; subst. rewrite upd_other.
    + apply IH; auto. intros X. apply Ne. right. auto.
    + intros ->. apply H1. apply in_or_app. right. left. auto.
Qed.

Lemma NoDup_app_snoc : forall (l : list nat) x, NoDup l -> ~ In x l -> NoDup (l ++ [x]).
Proof.
  induction l as [|y l IH]; intros x ND Nx; simpl.
  - constructor; auto.
  - inversion ND; subst. constructor.
    + intros X. apply in_app_or in X. destruct X as [X|[<- |[]]]; auto. apply Nx. left. auto.
    + apply IH; auto. intros X. apply Nx. right. auto.
Qed.
Lemma all_deq : forall a e v q, sq a = (e, v) :: q -> all {| sq := q; stub := e; used := used a ++ [stub a] |} = all a.
Proof. intros a e v q E. unfold all. simpl. rewrite E. simpl. rewrite <- app_assoc. auto. Qed.
Lemma all_enq : forall a e v, all {| sq := sq a ++ [(e, v)]; stub := stub a; used := used a |} = all a ++ [e].
Proof. intros a e v. unfold all. simpl. rewrite map_app, <- app_assoc. auto. Qed.

Lemma hd_next : forall s b, FR s b -> nx s (hd s) = match sq (fst b) with [] => None | (e, _) :: _ => Some e end.
Proof.
  intros s b HR. pose proof (FR_chain _ _ HR) as C. unfold all in C. rewrite <- (FR_hd _ _ HR) in C.
  destruct (sq (fst b)) as [|[e v] q]; simpl in C; [eapply chain_last|eapply chain_inner]; eauto.
Qed.

Ltac fcbn := cbn [gp gc hd tl snap garb nx vl own pp cp fst snd penq pphase cphase] in *.

Lemma FR_step : forall s b l s' ev, FR s b -> fstep s l = Some (s', ev) ->
  exists b', accepts (lstep fifo_seq fres_dec) b ev = Some b' /\ FR s' b'.
Proof.
  intros s [a th] l s' ev HR Hst. pose proof (hd_next _ _ HR) as HN.
  pose proof HR as [C ND HD VL SN OW EN TL P0 C0 O0 PP CP]. fcbn.
  assert (SP : forall p t, t = 0 \/ 2 <= t -> upd th 0 p t = if Nat.eq_dec t 0 then p else th t) by (intros; apply upd_eqv).
  destruct l as [o| |o|]; cbn [fstep] in Hst.
  - (* calls of the enqueuer *)
    unfold fcall in Hst. destruct (pp s) eqn:Ep; try discriminate. unfold pphase in P0. rewrite Ep in P0.
    assert (HA : accepts (lstep fifo_seq fres_dec) (a, th) [Call 0 o] = Some (a, upd th 0 (Called o))).
    { cbn [accepts lstep]. rewrite P0. auto. }
    assert (OT : forall t, 2 <= t -> upd th 0 (Called o) t = Idle) by (intros t Ht; rewrite upd_other by lia; auto).
    assert (CT : upd th 0 (Called o) 1 = cphase s) by (rewrite upd_other by lia; auto).
    destruct o as [e v| | |]; try discriminate.
    + destruct (own s e) eqn:Eo; [|discriminate]. injection Hst as <- <-. eexists. split; [exact HA|]. destruct (OW e Eo) as [O1 O2].
      constructor; fcbn; auto; try (apply upd_same).
      * intros x Hx. rewrite upd_eqv in Hx. destruct (Nat.eq_dec x e); [discriminate|]. destruct (OW x Hx). split; auto. congruence.
      * intros x Hx. injection Hx as <-. auto.
    + injection Hst as <- <-. eexists. split; [exact HA|]. constructor; fcbn; auto; try (apply upd_same); try discriminate.
    + injection Hst as <- <-. eexists. split; [exact HA|]. constructor; fcbn; auto; try (apply upd_same); try discriminate.
  - (* steps of the enqueuer *)
    unfold ptick in Hst. unfold pphase in P0.
    assert (OT : forall p t, 2 <= t -> upd th 0 p t = Idle) by (intros p t Ht; rewrite upd_other by lia; auto).
    assert (CT : forall p, upd th 0 p 1 = cphase s) by (intros p; rewrite upd_other by lia; auto).
    destruct (pp s) as [|e v|e v|e|e| | | | |h] eqn:Ep; fcbn; try discriminate.
    + injection Hst as <- <-. eexists. split; [reflexivity|].
      assert (Ne : ~ In e (all a)) by auto.
      constructor; fcbn; auto; try (apply upd_same).
      intros x w Hx. rewrite upd_other; auto. intros ->. apply Ne. unfold all. apply in_or_app. right. right. apply (in_map fst) in Hx. auto.
    + injection Hst as <- <-. eexists. split; [reflexivity|].
      assert (Ne : ~ In e (all a)) by auto.
      constructor; fcbn; auto; try (apply upd_same).
      * apply chain_ext with (nx := nx s); auto. intros x Hx. rewrite upd_other; auto. congruence.
      * unfold pphase. fcbn. rewrite P0. congruence.
    + injection Hst as <- <-. assert (Ne : ~ In e (all a)) by auto. destruct TL as [l TL].
      eexists. split; [cbn [accepts lstep]; rewrite P0; reflexivity|].
      constructor; fcbn; rewrite ?all_enq, ?TL in *; auto; cbn [sq stub used]; try discriminate.
      * rewrite <- app_assoc. cbn [app]. apply chain_snoc; auto.
      * apply NoDup_app_snoc; auto.
      * intros x v Hx. apply in_app_or in Hx. destruct Hx as [Hx|[Hx|[]]]; auto. congruence.
      * intros x Hx. destruct (OW x Hx) as [X1 X2]. split; [|discriminate]. intros X. apply in_app_or in X. destruct X as [X|[<- |[]]]; auto.
      * exists l. rewrite <- app_assoc. auto.
      * destruct (cp s) eqn:Ec; auto.
        -- destruct CP as [v [q E]]. exists v, (q ++ [(e, vl s e)]). rewrite E. auto.
        -- destruct CP as [q E]. exists (q ++ [(e, vl s e)]). rewrite E. auto.
    + injection Hst as <- <-. destruct TL as [l TL].
      eexists. split; [cbn [accepts lstep]; rewrite P0; destruct (fres_dec RU RU); [reflexivity|congruence]|].
      constructor; fcbn; auto; try discriminate.
      * exists (l ++ [tl s]). rewrite <- app_assoc. auto.
    + injection Hst as <- <-. eexists. split; [reflexivity|].
      destruct (Nat.eqb_spec (snap s) (garb s)) as [E|E].
      * constructor; fcbn; auto; discriminate.
      * constructor; fcbn; auto; try discriminate. split; auto. intros Eu. rewrite Eu in SN. unfold all in C. rewrite Eu in C. simpl in C, SN.
        destruct SN as [SN|[]]. destruct C as [C1 _]. congruence.
    + destruct (Nat.eqb_spec (hd s) (garb s)) as [E|E].
      * injection Hst as <- <-.
        assert (Eu : used a = []).
        { destruct (used a) as [|x l] eqn:Eu; auto. unfold all in C, ND. rewrite Eu in C, ND. simpl in C, ND. destruct C as [C1 _].
          inversion ND as [|? ? N1 N2]; subst. exfalso. apply N1. apply in_or_app. right. left. congruence. }
        eexists. split.
        { cbn [accepts lstep]. rewrite P0. cbn [fifo_seq]. rewrite Eu. cbn [lstep]. rewrite upd_same. destruct (fres_dec (RE None) (RE None)); [reflexivity|congruence]. }
        constructor; fcbn; auto; try discriminate.
        -- rewrite Eu, HD. left. auto.
        -- intros t Ht. rewrite upd_other by lia. auto.
      * injection Hst as <- <-. eexists. split; [reflexivity|].
        constructor; fcbn; auto; try discriminate.
        -- rewrite HD. apply in_or_app. right. left. auto.
        -- split; auto. intros Eu. apply E. unfold all in C. rewrite Eu in C. simpl in C. destruct C as [C1 _]. congruence.
    + destruct PP as [U1 U2].
      destruct (used a) as [|x l] eqn:Eu; [congruence|]. assert (Ea : all a = x :: l ++ stub a :: map fst (sq a)) by (unfold all; rewrite Eu; auto).
      rewrite Ea in C, ND. simpl in C. destruct C as [C1 C2]. injection C1 as Ex. inversion ND as [|? ? N1 N2]; subst x0 l0.
      assert (Ei : forall y, In y (all {| sq := sq a; stub := stub a; used := l |}) -> In y (all a)) by (intros y Hy; rewrite Ea; right; auto).
      rewrite Ex in Hst.
      destruct (nx s x) as [g'|] eqn:En; [|discriminate]. injection Hst as <- <-.
      eexists. split.
      { cbn [accepts lstep]. rewrite P0. cbn [fifo_seq]. rewrite Eu, Nat.eqb_refl. cbn [lstep]. rewrite upd_same.
        destruct (fres_dec (RE (Some x)) (RE (Some x))); [reflexivity|congruence]. }
      constructor; fcbn; auto; cbn [sq stub used]; try discriminate.
      * simpl in SN. destruct SN as [SN|SN]; auto. congruence.
      * intros y Hy. split; [|discriminate]. rewrite upd_eqv in Hy. destruct (Nat.eq_dec y x) as [->|ne]; auto. destruct (OW y Hy). auto.
      * destruct TL as [r TL]. rewrite Ea in TL. destruct r as [|z r]; simpl in TL.
        -- injection TL as _ TL. destruct l; discriminate.
        -- injection TL as _ TL. exists r. auto.
      * intros t Ht. rewrite upd_other by lia. auto.
    + injection Hst as <- <-. eexists. split.
      { cbn [accepts lstep]. rewrite P0. cbn [fifo_seq]. rewrite HN. 
        replace (Bool.eqb _ _) with true by (destruct (sq a) as [|[? ?] ?]; auto). reflexivity. }
      constructor; fcbn; auto; try discriminate.
      * rewrite upd_same. unfold pphase. fcbn. rewrite HN. auto.
      * rewrite HD. unfold all. apply in_or_app. right. left. auto.
    + injection Hst as <- <-. eexists. split; [cbn [accepts lstep]; rewrite P0; destruct (fres_dec _ _); [reflexivity|congruence]|].
      constructor; fcbn; auto; discriminate.
  - (* calls of the dequeuer *)
    unfold ccall in Hst. destruct (cp s) eqn:Ec; try discriminate. unfold cphase in C0. rewrite Ec in C0.
    assert (HA : accepts (lstep fifo_seq fres_dec) (a, th) [Call 1 o] = Some (a, upd th 1 (Called o))).
    { cbn [accepts lstep]. rewrite C0. auto. }
    assert (OT : forall t, 2 <= t -> upd th 1 (Called o) t = Idle) by (intros t Ht; rewrite upd_other by lia; auto).
    assert (CT : upd th 1 (Called o) 0 = pphase a s) by (rewrite upd_other by lia; auto).
    destruct o as [e v| | |]; try discriminate; injection Hst as <- <-; eexists; (split; [exact HA|]); constructor; fcbn; auto; try (apply upd_same).
  - (* steps of the dequeuer *)
    unfold ctick in Hst. unfold cphase in C0.
    assert (OT : forall p t, 2 <= t -> upd th 1 p t = Idle) by (intros p t Ht; rewrite upd_other by lia; auto).
    assert (CT : forall p, upd th 1 p 0 = pphase a s) by (intros p; rewrite upd_other by lia; auto).
    destruct (cp s) as [| |x|x v| |h] eqn:Ec; fcbn; try discriminate.
    + rewrite HN in Hst. destruct (sq a) as [|[e v] q] eqn:Eq; injection Hst as <- <-.
      * eexists. split.
        { cbn [accepts lstep]. rewrite C0. cbn [fifo_seq]. rewrite Eq. cbn [lstep]. rewrite upd_same. destruct (fres_dec (RV None) (RV None)); [reflexivity|congruence]. }
        constructor; fcbn; auto; rewrite ?Eq; auto.
        -- intros t Ht. rewrite upd_other by lia. auto.
      * eexists. split; [reflexivity|]. constructor; fcbn; auto; rewrite ?Eq; eauto.
    + destruct CP as [v [q Eq]]. injection Hst as <- <-. eexists. split; [reflexivity|]. constructor; fcbn; auto. exists q. rewrite Eq.
      rewrite (VL x v); auto. rewrite Eq. left. auto.
    + destruct CP as [q Eq]. injection Hst as <- <-. pose proof (all_deq a x v q Eq) as EA. eexists. split.
      { cbn [accepts lstep]. rewrite C0. cbn [fifo_seq]. rewrite Eq, Nat.eqb_refl. cbn [lstep]. rewrite upd_same. destruct (fres_dec _ _); [reflexivity|congruence]. }
      constructor; fcbn; rewrite ?EA; auto; cbn [sq stub used].
      * intros e w Hw. apply VL. rewrite Eq. right. auto.
      * apply in_or_app. auto.
      * intros t Ht. rewrite upd_other by lia. auto.
      * destruct (pp s); auto. destruct PP as [U1 U2]. split; auto. destruct (used a); discriminate.
    + injection Hst as <- <-. eexists. split; [reflexivity|]. constructor; fcbn; auto.
    + injection Hst as <- <-. subst h. eexists. split.
      { cbn [accepts lstep]. rewrite C0. cbn [fifo_seq]. rewrite HN.
        replace (Bool.eqb _ _) with true by (destruct (sq a) as [|[? ?] ?]; auto). cbn [lstep]. rewrite upd_same. destruct (fres_dec _ _); [reflexivity|congruence]. }
      constructor; fcbn; auto.
      * intros t Ht. rewrite upd_other by lia. auto.
Qed.

Lemma fifo_run : forall e ls s log, run fstep (finit e) ls = Some (s, log) ->
  exists b, accepts (lstep fifo_seq fres_dec) (fabs0 e, idle) log = Some b /\ FR s b.
Proof. intros e ls s log Hr. apply (run_refines fstep (lstep fifo_seq fres_dec) FR (finit e) (fabs0 e, idle) (FR_init e) FR_step ls). auto. Qed.

Lemma fifo_lin : forall e ls s log, run fstep (finit e) ls = Some (s, log) -> linearizable fifo_seq fres_dec (fabs0 e) (history log).
Proof. intros e ls s log Hr. destruct (fifo_run e ls s log Hr) as [b [Hb _]]. apply lin_legal_history. exists b. auto. Qed.

Lemma fifo_stuck : forall e ls s log, run fstep (finit e) ls = Some (s, log) ->
  (pp s <> PIdle -> exists r, fstep s PTick = Some r) /\ (cp s <> CIdle -> exists r, fstep s CTick = Some r).
Proof.
  intros e ls s log Hr. destruct (fifo_run e ls s log Hr) as [[a th] [_ HR]]. split; intros N; cbn [fstep].
  - unfold ptick. destruct (pp s) eqn:Ep; try congruence; try (eexists; reflexivity).
    + destruct (Nat.eqb (hd s) (garb s)); eexists; reflexivity.
    + pose proof (FR_pp _ _ HR) as PP. rewrite Ep in PP. destruct PP as [U _]. pose proof (FR_chain _ _ HR) as C. unfold all in C. cbn [fst] in *.
      destruct (used a) as [|x l]; [congruence|]. simpl in C. destruct C as [C1 C2]. injection C1 as ->.
      destruct (l ++ stub a :: map fst (sq a)) as [|y r] eqn:E; [destruct l; discriminate|]. destruct C2 as [-> _]. eexists; reflexivity.
  - unfold ctick. destruct (cp s); try congruence; try (eexists; reflexivity). destruct (nx s (hd s)); eexists; reflexivity.
Qed.

Lemma seq_recycle : forall e l a a', seq_run fifo_seq a l = Some a' ->
  ressum (rec_of e) l + count_occ Nat.eq_dec (all a') e <= opsum (enq_of e) l + count_occ Nat.eq_dec (all a) e.
Proof.
  intros e. induction l as [|[o r] l IH]; intros a a' H; simpl in H.
  - injection H as ->. simpl. lia.
  - destruct (fifo_seq a o r) as [a1|] eqn:E; [|discriminate]. apply IH in H. simpl.
    assert (X : rec_of e r + count_occ Nat.eq_dec (all a1) e <= enq_of e o + count_occ Nat.eq_dec (all a) e); [|lia].
    clear IH H. destruct o as [x v| | |]; destruct r as [|[w|]|[w|]|b]; simpl in E; try discriminate.
    + injection E as <-. rewrite all_enq, count_occ_app. cbn [rec_of enq_of count_occ]. destruct (Nat.eq_dec x e); lia.
    + destruct (sq a) as [|[y z] q] eqn:Eq; [discriminate|]. destruct (Nat.eqb w z); [|discriminate]. injection E as <-.
      rewrite (all_deq a y z q Eq). simpl. lia.
    + destruct (sq a); [|discriminate]. injection E as <-. simpl. lia.
    + unfold all. destruct (used a) as [|y q] eqn:Eq; [discriminate|]. destruct (Nat.eqb_spec w y); [|discriminate]. injection E as <-. subst.
      cbn [used stub sq]. simpl. destruct (Nat.eq_dec y e); lia.
    + destruct (used a) eqn:Eq; [|discriminate]. injection E as <-. simpl. lia.
    + destruct (Bool.eqb _ _); [|discriminate]. injection E as <-. simpl. lia.
Qed.

(** an entry is recycled at most as often as it was enqueued (the stub once more) *)
Lemma fifo_once : forall e0 ls s log e, run fstep (finit e0) ls = Some (s, log) ->
  returned (rec_of e) (history log) <= called (enq_of e) (history log) + (if Nat.eq_dec e0 e then 1 else 0).
Proof.
  intros e0 ls s log e Hr. destruct (fifo_lin e0 ls s log Hr) as [lg [[[q th] Ha] Hh]]. rewrite <- Hh, called_history, returned_history.
  assert (E : exists n, forall x, In x lg -> tid x < n).
  { clear. induction lg as [|x lg [n IH]]; [exists 0; intros e []|]. exists (Nat.max n (S (tid x))).
    intros e' [<- |H]; [lia|]. apply IH in H. lia. }
  destruct E as [n Hn]. destruct (count_gen fifo_seq fres_dec (enq_of e) (rec_of e) n lg _ _ _ Hn Ha) as [A B].
  pose proof (seq_recycle e _ _ _ (lin_seq_gen fifo_seq fres_dec _ _ _ _ _ Ha)) as C.
  assert (Z : forall w, w Idle = 0 -> tsum (op := fop) (res := fres) w idle n = 0). { intros w Hw. clear -Hw. induction n as [|n IH]; simpl; auto. unfold idle at 1. lia. }
  rewrite (Z (pend (enq_of e))), (Z (due (rec_of e))) in * by auto. unfold all, fabs0 in C. simpl in C. destruct (Nat.eq_dec e0 e); lia.
Qed.
