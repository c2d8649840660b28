(** Proofs about the FIFO with hazard pointers. *)
From Coq Require Import Arith List Bool Lia.
From Verif Require Import Lib Obs Lin LinPast Hp_Model Hp_Spec HpPend_Proof HpSafe_Proof HpClient_Model HpClient_Proof HpFifo_Model HpFifo_Spec.
From Verif Require Import HpOnce_Proof Stack_Spec.
From Verif Require FifoMp_Model.
Import ListNotations.
Local Arguments upd : simpl never.
Local Arguments Nat.eqb : simpl never.
Local Arguments client : simpl never.
Notation fifo_seq := FifoMp_Model.fifo_seq.
Notation mres_dec := FifoMp_Model.mres_dec.
Notation mabs := FifoMp_Model.mabs.
Notation sq := FifoMp_Model.sq.
Notation stub := FifoMp_Model.stub.

Lemma lin_app : forall a b, lin_of (a ++ b) = lin_of a ++ lin_of b.
Proof. induction a as [|[] a IH]; cbn; intros; auto. rewrite IH. auto. Qed.
Lemma hp_app : forall a b, hp_of (a ++ b) = hp_of a ++ hp_of b.
Proof. induction a as [|[] a IH]; cbn; intros; auto. rewrite IH. auto. Qed.
Lemma lin_HE : forall ev, lin_of (map HE ev) = [].
Proof. induction ev; cbn; auto. Qed.
Lemma hp_HE : forall ev, hp_of (map HE ev) = ev.
Proof. induction ev; cbn; auto. rewrite IHev. auto. Qed.

(** ** Dequeue answers empty late *)
Definition lzr (o : mop) : option mres := match o with FifoMp_Model.Deq => Some (RD None) | _ => None end.
Definition mt (a : mabs) (o : mop) : bool := match o with FifoMp_Model.Deq => match sq a with [] => true | _ => false end | _ => false end.
Lemma mt_ok : forall a o, mt a o = true -> exists r, lzr o = Some r /\ fifo_seq a o r = Some a.
Proof. intros a o H. destruct o; try discriminate. exists (RD None). cbn in *. destruct (sq a); try discriminate. auto. Qed.
Notation pst := (@past mabs mop mres).
Notation ps := (pstep fifo_seq mres_dec lzr mt).
Definition p0 (z : nat) : pst := past0 (FifoMp_Model.mabs0 z).
Definition abs (a : pst) : mabs := fst (p_lin a).
Definition ph (a : pst) : nat -> phase mop mres := snd (p_lin a).

(** ** Chains *)
Lemma chainp_ext : forall nx nx' q h, (forall e, In e q -> nx' e = nx e) -> chainp nx h q -> chainp nx' h q.
Proof. induction q as [|e q IH]; cbn; intros h E C; auto. destruct C as [-> [N C]]. split; auto. split; auto. rewrite E by auto. auto. Qed.
Lemma chain_succ : forall nx q h p, chainp nx h (h :: q) -> In p (h :: q) -> nx p <> 0 -> In (nx p) q.
Proof.
  induction q as [|e q IH]; intros h p C I N; destruct C as [_ [H0 C]].
  - destruct I as [<-|[]]. cbn in C. tauto.
  - destruct I as [<-|I]; [cbn in C; destruct C as [-> _]; left; auto|]. right. pose proof C as [E _]. rewrite E in C. eapply IH; eauto.
Qed.
Lemma chain_last : forall nx q h p, chainp nx h (h :: q) -> In p (h :: q) -> nx p = 0 -> exists l, h :: q = l ++ [p].
Proof.
  induction q as [|e q IH]; intros h p C I N; destruct C as [_ [H0 C]].
  - destruct I as [<-|[]]. exists []. auto.
  - pose proof C as [E [E0 _]]. destruct I as [<-|I]; [congruence|]. rewrite E in C. destruct (IH _ _ C I N) as [l ->]. exists (h :: l). auto.
Qed.
Lemma chain_snoc : forall nx p e l h, chainp nx h (l ++ [p]) -> NoDup (l ++ [p]) -> ~ In e (l ++ [p]) -> e <> 0 -> nx e = 0 -> chainp (upd nx p e) h (l ++ [p; e]).
Proof.
  induction l as [|x l IH]; intros h C N I E0 Ee; cbn in *.
  - destruct C as [-> [P0 C]]. split; auto. split; auto. rewrite upd_same. split; auto. split; auto. rewrite upd_other; auto.
  - destruct C as [-> [X0 C]]. split; auto. split; auto. inversion N; subst. rewrite upd_other; [apply IH; auto|].
    intros ->. apply H1. apply in_or_app. right. left. auto.
Qed.
Lemma chain_ne : forall nx q h p, chainp nx h q -> In p q -> p <> 0.
Proof. induction q as [|e q IH]; intros h p C I; [destruct I|]. destruct C as [-> [E C]]. destruct I as [<-|I]; eauto. Qed.

(** ** Invariant *)
Definition pushing (p : fpc) : option nat :=
  match p with Q1 _ _ e _ | Q2 _ _ e _ | Q3 _ _ e _ | Q4 _ _ e _ _ | Q5 _ _ e _ _ | Q6 _ _ e _ _ | Q7 _ e _ _ _ | Q8 _ _ e _ _ _ | Q9 _ _ e _ _ => Some e | _ => None end.
Definition enq (b : bool) (e v : nat) : mop := if b then TryEnq e v else Enq e v.
Definition deq (b : bool) : mop := if b then TryDeq else Deq.
Definition okr (b : bool) : mres := if b then RB true else RU.
Definition phase_of (p : fpc) : option (phase mop mres) :=
  match p with
  | FIdle => Some Lin.Idle
  | Q1 b _ e v | Q2 b _ e v | Q3 b _ e v | Q4 b _ e v _ | Q5 b _ e v _ | Q6 b _ e v _ | Q8 b _ e v _ _ | Q9 b _ e v _ => Some (Called (enq b e v))
  | Q7 _ e v _ _ => Some (Called (enq false e v))
  | Q10 b _ _ _ => Some (Done (okr b))
  | K1 b _ | K5 b _ _ _ | K6 b _ _ _ _ | K7 b _ _ _ _ | K8 b _ _ _ | K9 b _ _ _ => Some (Called (deq b))
  | K2 _ _ | K3 _ _ | K4 _ _ | Ke1 _ | Ke2 _ => Some (Called (deq false))
  | J2 _ _ | J3 _ _ _ | J4 _ _ _ => Some (Called (deq true))
  | KA _ _ _ => None
  end.
Definition nopush (s : fstt) (e : nat) : Prop := forall u, pushing (fp s u) <> Some e.
(** an entry being enqueued *)
Definition fresh (s : fstt) (w : wst) (q : list nat) (e : nat) : Prop :=
  e <> 0 /\ lf (cs s) e = Lib /\ w_live w e = true /\ ~ In e (fh s :: q).
(** an entry that thread [t] may access *)
Definition valid (s : fstt) (g : gs) (w : wst) (q : list nat) (t r i e : nat) : Prop :=
  hold (cs s) g t r i e /\ e <> 0 /\ lf (cs s) e <> Own /\ w_live w e = true /\ nopush s e /\ (In e (fh s :: q) \/ nx s e <> 0).
(** an entry that can be in the queue only as the stub *)
Definition front (s : fstt) (q : list nat) (h : nat) : Prop := fh s = h \/ ~ In h (fh s :: q).

Definition TI (c : fcfg) (s : fstt) (g : gs) (w : wst) (q : list nat) (a : pst) (t : nat) : Prop :=
  let fr b e := fresh s w q e /\ (b = true -> w_arg w t = e) in
  match fp s t with
  | FIdle => True
  | Q1 b r e v => fr b e
  | Q2 b r e v => fr b e /\ vl s e = v
  | Q3 b r e v | Q4 b r e v _ => fr b e /\ vl s e = v /\ nx s e = 0
  | Q5 b r e v p => fr b e /\ vl s e = v /\ nx s e = 0 /\ pub (cs s) g t r 0 p
  | Q6 b r e v p | Q9 b r e v p => fr b e /\ vl s e = v /\ nx s e = 0 /\ valid s g w q t r 0 p
  | Q7 r e v p x => fr false e /\ vl s e = v /\ nx s e = 0 /\ valid s g w q t r 0 p /\ (x <> 0 -> nx s p = x)
  | Q8 b r e v p x => fr b e /\ vl s e = v /\ nx s e = 0 /\ valid s g w q t r 0 p /\ nx s p = x /\ x <> 0
  | Q10 b r e p => valid s g w q t r 0 p /\ nx s p = e /\ e <> 0
  | K1 b r => b = true -> t < nt c
  | K2 r h => True
  | K3 r h => pub (cs s) g t r 0 h
  | K4 r h => valid s g w q t r 0 h /\ front s q h
  | J2 r h => t < nt c /\ nopush s h /\ front s q h
  | J3 r h tl => t < nt c /\ nopush s h /\ front s q h /\ (tl <> h -> ft s <> h)
  | J4 r h tl => t < nt c /\ nopush s h /\ front s q h /\ (tl <> h -> ft s <> h) /\ pub (cs s) g t r 0 h
  | K5 b r h tl => valid s g w q t r 0 h /\ front s q h /\ (tl <> h -> ft s <> h)
  | K6 b r h tl x => valid s g w q t r 0 h /\ front s q h /\ (tl <> h -> ft s <> h) /\ (x <> 0 -> nx s h = x) /\
                     (x = 0 -> if b then tl = h else p_can a t = true)
  | K7 b r h tl x => valid s g w q t r 0 h /\ front s q h /\ (tl <> h -> ft s <> h) /\ (x <> 0 -> nx s h = x) /\
                     (x = 0 -> if b then tl = h else p_can a t = true) /\ pub (cs s) g t r 1 x
  | K8 b r h x => valid s g w q t r 0 h /\ nx s h = x /\ x <> 0
  | K9 b r h x => valid s g w q t r 0 h /\ front s q h /\ ft s <> h /\ nx s h = x /\ x <> 0 /\ valid s g w q t r 1 x
  | KA r h x => valid s g w q t r 1 x /\ ph a t = Done (RD (Some (vl s x, h)))
  | Ke1 r | Ke2 r => p_can a t = true
  end.
Record SI (c : fcfg) (s : fstt) (g : gs) (a : pst) (w : wst) (q : list nat) : Prop := {
  s_ci : CI (hpc c) (cs s) g;
  s_abs : abs a = {| FifoMp_Model.sq := map (fun e => (e, vl s e)) q; FifoMp_Model.stub := fh s |};
  s_ch : chainp (nx s) (fh s) (fh s :: q);
  s_ft : In (ft s) (fh s :: q);
  s_nd : NoDup (fh s :: q);
  s_in : forall e, In e (fh s :: q) -> lf (cs s) e = Lib /\ w_live w e = true;
  s_ph : forall t, match phase_of (fp s t) with Some f => ph a t = f | None => True end;
  s_un : forall t u e, pushing (fp s t) = Some e -> pushing (fp s u) = Some e -> t = u;
  s_ptr : forall h, w_ptr w h = obj (cs s) h;
  s_can : forall t, could mt (abs a) (ph a t) = true -> p_can a t = true;
  s_th : forall t, TI c s g w q a t }.

Lemma TI_fresh : forall c s g w q a t e, TI c s g w q a t -> pushing (fp s t) = Some e -> fresh s w q e.
Proof. intros c s g w q a t e T P. unfold TI in T. destruct (fp s t); cbn in P; try discriminate; injection P as <-; tauto. Qed.
Lemma TI_wind : forall c s g w q a t h, TI c s g w q a t -> wind (fp s t) = Some h -> t < nt c.
Proof. intros c s g w q a t h T P. unfold TI in T. destruct (fp s t); cbn in P; try discriminate; tauto. Qed.

Lemma TI_frame : forall c s s' g g' w w' q q' a a' u, TI c s g w q a u -> fp s' u = fp s u ->
  (forall r i p, pub (cs s) g u r i p -> pub (cs s') g' u r i p) ->
  (forall r i e, valid s g w q u r i e -> valid s' g' w' q' u r i e /\ (nx s e <> 0 -> nx s' e = nx s e) /\ vl s' e = vl s e) ->
  (forall e, pushing (fp s u) = Some e -> fresh s w q e -> fresh s' w' q' e /\ nx s' e = nx s e /\ vl s' e = vl s e) ->
  (forall h, nopush s h -> front s q h -> front s' q' h /\ (ft s <> h -> ft s' <> h)) ->
  (forall h, wind (fp s u) = Some h -> nopush s h -> nopush s' h) ->
  (p_can a u = true -> p_can a' u = true) -> ph a' u = ph a u -> w_arg w' u = w_arg w u -> TI c s' g' w' q' a' u.
Proof.
  intros c s s' g g' w w' q q' a a' u T E P V F FO NP CN PH A. unfold TI in *. rewrite E.
  assert (VF : forall r i h, valid s g w q u r i h -> front s q h -> front s' q' h /\ (ft s <> h -> ft s' <> h)) by (intros r i h [_ [_ [_ [_ [X _]]]]] Y; auto).
  destruct (fp s u); auto; cbn [pushing wind] in F, NP; rewrite ?A, ?PH.
  - destruct T as [T1 T2]. destruct (F _ eq_refl T1). auto 9.
  - destruct T as [[T1 T2] T3]. destruct (F _ eq_refl T1) as [F1 [F2 F3]]. rewrite F3. auto 9.
  - destruct T as [[T1 T2] [T3 T4]]. destruct (F _ eq_refl T1) as [F1 [F2 F3]]. rewrite F2, F3. auto 9.
  - destruct T as [[T1 T2] [T3 T4]]. destruct (F _ eq_refl T1) as [F1 [F2 F3]]. rewrite F2, F3. auto 9.
  - destruct T as [[T1 T2] [T3 [T4 T5]]]. destruct (F _ eq_refl T1) as [F1 [F2 F3]]. rewrite F2, F3. auto 9.
  - destruct T as [[T1 T2] [T3 [T4 T5]]]. destruct (F _ eq_refl T1) as [F1 [F2 F3]]. rewrite F2, F3. destruct (V _ _ _ T5). auto 9.
  - destruct T as [[T1 T2] [T3 [T4 [T5 T6]]]]. destruct (F _ eq_refl T1) as [F1 [F2 F3]]. rewrite F2, F3. destruct (V _ _ _ T5) as [V1 [V2 V3]].
    repeat (split; auto). intros X. rewrite V2 by (rewrite T6; auto). auto 9.
  - destruct T as [[T1 T2] [T3 [T4 [T5 [T6 T7]]]]]. destruct (F _ eq_refl T1) as [F1 [F2 F3]]. rewrite F2, F3. destruct (V _ _ _ T5) as [V1 [V2 V3]].
    rewrite V2 by (rewrite T6; auto). auto 9.
  - destruct T as [[T1 T2] [T3 [T4 T5]]]. destruct (F _ eq_refl T1) as [F1 [F2 F3]]. rewrite F2, F3. destruct (V _ _ _ T5). auto 9.
  - destruct T as [T1 [T2 T3]]. destruct (V _ _ _ T1) as [V1 [V2 V3]]. rewrite V2 by congruence. auto 9.
  - destruct T as [T1 T2]. destruct (V _ _ _ T1) as [V1 [V2 V3]]. destruct (VF _ _ _ T1 T2). auto 9.
  - destruct T as [T1 [T2 T3]]. destruct (FO _ T2 T3). auto 9.
  - destruct T as [T1 [T2 [T3 T4]]]. destruct (FO _ T2 T3). auto 9.
  - destruct T as [T1 [T2 [T3 [T4 T5]]]]. destruct (FO _ T2 T3). auto 9.
  - destruct T as [T1 [T2 T3]]. destruct (V _ _ _ T1) as [V1 [V2 V3]]. destruct (VF _ _ _ T1 T2). auto 9.
  - destruct T as [T1 [T2 [T3 [T4 T5]]]]. destruct (V _ _ _ T1) as [V1 [V2 V3]]. destruct (VF _ _ _ T1 T2). split; [exact V1|]. split; [auto|]. split; [auto|]. split.
    { intros X. rewrite V2 by (rewrite T4; auto). auto. }
    intros X. specialize (T5 X). destruct b; auto.
  - destruct T as [T1 [T2 [T3 [T4 [T5 T6]]]]]. destruct (V _ _ _ T1) as [V1 [V2 V3]]. destruct (VF _ _ _ T1 T2). split; [exact V1|]. split; [auto|]. split; [auto|]. split.
    { intros X. rewrite V2 by (rewrite T4; auto). auto. }
    split; [|auto]. intros X. specialize (T5 X). destruct b; auto.
  - destruct T as [T1 [T2 T3]]. destruct (V _ _ _ T1) as [V1 [V2 V3]]. rewrite V2 by congruence. auto 9.
  - destruct T as [T1 [T2 [T3 [T4 [T5 T6]]]]]. destruct (V _ _ _ T1) as [V1 [V2 V3]]. destruct (VF _ _ _ T1 T2). rewrite V2 by congruence.
    pose proof (proj1 (V _ _ _ T6)). auto 9.
  - destruct T as [T1 T2]. destruct (V _ _ _ T1) as [V1 [V2 V3]]. rewrite V3. auto 9.
Qed.

(** thread [t] goes to [p]; the log may change the phase of [t] *)
Lemma SI_go : forall c s g a a' w q t p, SI c s g a w q -> (pushing p = pushing (fp s t) \/ pushing p = None) ->
  abs a' = abs a -> (forall u, u <> t -> ph a' u = ph a u /\ (p_can a u = true -> p_can a' u = true)) ->
  match phase_of p with Some f => ph a' t = f | None => True end -> (could mt (abs a) (ph a' t) = true -> p_can a' t = true) ->
  TI c (go s t p) g w q a' t -> SI c (go s t p) g a' w q.
Proof.
  intros c s g a a' w q t p I Ep Ea Eu Et Ec T. destruct I.
  assert (Pu : forall u e, pushing (fp (go s t p) u) = Some e -> pushing (fp s u) = Some e).
  { intros u e. cbn. unfold upd. destruct (Nat.eq_dec u t) as [->|]; auto. destruct Ep as [->| ->]; auto. discriminate. }
  assert (NP : forall h, nopush s h -> nopush (go s t p) h) by (intros h N u U; apply (N u); auto).
  constructor; auto.
  - rewrite Ea. auto.
  - intros u. cbn. unfold upd. destruct (Nat.eq_dec u t) as [->|N]; auto. destruct (Eu u N) as [-> _]. apply s_ph0.
  - intros u v e U V. apply (s_un0 u v e); auto.
  - intros u. rewrite Ea. destruct (Nat.eq_dec u t) as [->|N]; auto. destruct (Eu u N) as [-> X]. auto.
  - intros u. destruct (Nat.eq_dec u t) as [->|N]; auto. destruct (Eu u N) as [X Y].
    apply (TI_frame c s (go s t p) g g w w q q a a' u); auto.
    + cbn. apply upd_other; auto.
    + intros r i e [V1 [V2 [V3 [V4 [V5 V6]]]]]. split; [|auto]. repeat (split; auto); apply V1.
Qed.
Lemma SI_local : forall c s g a w q t p, SI c s g a w q -> pushing p = pushing (fp s t) -> phase_of p = phase_of (fp s t) -> phase_of p <> None ->
  TI c (go s t p) g w q a t -> SI c (go s t p) g a w q.
Proof.
  intros c s g a w q t p I Ep Eph Nn T. eapply SI_go; eauto.
  - rewrite Eph. apply (s_ph _ _ _ _ _ _ I).
  - apply (s_can _ _ _ _ _ _ I).
Qed.

(** forwarding the tail *)
Lemma SI_tail : forall c s g a w q p x, SI c s g a w q -> nx s p = x -> x <> 0 -> SI c (cas_tail s p x) g a w q.
Proof.
  intros c s g a w q p x I N X. unfold cas_tail. destruct (Nat.eqb (ft s) p) eqn:E; auto. apply Nat.eqb_eq in E. destruct I.
  assert (S : In x q). { rewrite <- N. eapply chain_succ; eauto; congruence. }
  constructor; auto.
  - right. auto.
  - intros u. apply (TI_frame c s (set_ft s x) g g w w q q a a u); auto.
    + intros h _ F. split; auto. intros _. cbn. intros <-. destruct F as [F|F]; [|apply F; right; auto]. inversion s_nd0 as [|? ? N1 N2]. apply N1. rewrite F. auto.
Qed.

Lemma lives_w : forall c, reent c = false -> forall s g t a s' ev w, CI c s g -> client c s t a = Some (s', ev) -> (forall h, w_ptr w h = obj s h) ->
  (forall h, w_ptr (gfold wnext (map HE ev) w) h = obj s' h) /\ (forall u, w_arg (gfold wnext (map HE ev) w) u = w_arg w u) /\
  (forall e, w_live w e = true -> lf s' e <> Own -> w_live (gfold wnext (map HE ev) w) e = true).
Proof.
  intros c Hr s g t a s' ev w I H W. unfold client in H.
  assert (E : exists ob L h, step c (hps s) (t, a) = Some (h, ev) /\ s' = mkc h (landed ob L ev) ob /\
    ((ob = obj s /\ forall r k d p, a <> ARetire r k d p /\ a <> AFree r k d p) \/ exists r k d p, (a = ARetire r k d p \/ a = AFree r k d p) /\ ob = upd (obj s) k p)).
  { destruct a; try discriminate;
      try (destruct (step c (hps s) (t, _)) as [[h0 e]|] eqn:E; try discriminate; injection H as <- <-; do 3 eexists; split; [reflexivity|]; split; [reflexivity|]; left; split; auto; split; discriminate);
      (destruct (negb (p =? 0) && retirable (lf s p)); try discriminate; destruct (step c (hps s) (t, _)) as [[h0 e]|] eqn:E; try discriminate; injection H as <- <-;
       do 3 eexists; split; [reflexivity|]; split; [reflexivity|]; right; do 4 eexists; split; [|reflexivity]; eauto). }
  destruct E as [ob [L [h [E [-> D]]]]]. cbn [obj lf].
  destruct D as [[-> DN]|[r [k [d [p [DA ->]]]]]].
  - destruct (step_ev1 _ _ _ _ _ E) as [->|[e ->]]; [cbn; auto|].
    assert (NR : forall u r k d p, e <> ERet u r k d p).
    { intros u r k d p ->. destruct (step_ret c (hps s) t a h _ u r k d p Hr E (or_introl eq_refl)) as [_ [[->| ->] _]]; destruct (DN r k d p); congruence. }
    destruct e; cbn; auto; try (exfalso; eapply NR; eauto; fail).
    split; auto. split; auto. intros e. rewrite W. unfold upd. destruct (Nat.eq_dec e (obj s h0)); auto.
  - pose proof (step_ret2 _ _ _ _ _ _ _ _ _ _ DA E) as ->. cbn. split; auto. intros x. unfold upd. rewrite W. auto.
Qed.
Lemma client_legal : forall c, reent c = false -> forall s g t a x ev, CI c s g -> client c s t a = Some (x, ev) -> legal_from gnext hp_ok g ev.
Proof.
  intros c Hr s g t a x ev I E. unfold client in E. destruct a; try discriminate;
    repeat match type of E with (if ?b then _ else _) = _ => destruct b end; try discriminate;
    destruct (step c (hps s) (t, _)) as [[h' e']|] eqn:E2; try discriminate; injection E as <- <-; (eapply HI_step; [exact Hr|apply I|exact E2]).
Qed.

(** a step of ck_hp.c by [t], which is outside the operations *)
Lemma SI_client : forall c, reent (hpc c) = false -> forall s g a w q t act x ev, SI c s g a w q -> client (hpc c) (cs s) t act = Some (x, ev) ->
  fp s t = FIdle -> SI c (set_cs s x) (gf ev g) a (gfold wnext (map HE ev) w) q.
Proof.
  intros c Hr s g a w q t act x ev I H P. destruct I.
  destruct (client_ok _ Hr _ _ _ _ _ _ s_ci0 H) as [I' [LV [PB HB]]]. destruct (lives_w _ Hr _ _ _ _ _ _ w s_ci0 H s_ptr0) as [W1 [W2 W3]].
  assert (LB : forall e, lf (cs s) e = Lib -> w_live w e = true -> lf x e = Lib /\ w_live (gfold wnext (map HE ev) w) e = true).
  { intros e A B. pose proof (lives_lib _ _ _ _ LV A). split; auto. apply W3; auto. congruence. }
  constructor; auto.
  - intros e E. destruct (s_in0 e E). apply LB; auto.
  - intros u. destruct (Nat.eq_dec u t) as [->|N]; [unfold TI; cbn; rewrite P; auto|].
    apply (TI_frame c s (set_cs s x) g _ w _ q q a a u); auto.
    + intros r i e V. split; auto. destruct V as [V1 [V2 [V3 [V4 [V5 V6]]]]]. pose proof (lives_keep _ _ _ _ _ _ _ LV V1 V3) as LK.
      split; [apply HB; auto|]. split; [exact V2|]. split; [exact LK|]. split; [apply W3; auto|]. auto.
    + intros e _ [F1 [F2 [F3 F4]]]. split; auto. destruct (LB e F2 F3). split; auto.
Qed.

(** a slot is set by [t] *)
Lemma SI_set : forall c, reent (hpc c) = false -> forall s g a w q t r i p x ev, SI c s g a w q -> client (hpc c) (cs s) t (ASet r i p) = Some (x, ev) ->
  ev = [ESet t r i p] /\ pub x (gf ev g) t r i p /\
  ((forall g', pub x g' t r i p -> lf x = lf (cs s) -> (forall r' j y, j <> i -> hold (cs s) g t r' j y -> hold x g' t r' j y) -> TI c (set_cs s x) g' w q a t) ->
   SI c (set_cs s x) (gf ev g) a w q).
Proof.
  intros c Hr s g a w q t r i p x ev I E. destruct (set_ok _ Hr _ _ _ _ _ _ _ _ (s_ci _ _ _ _ _ _ I) E) as [I' [EL [-> [PB [_ [PO HO]]]]]].
  split; auto. split; auto. intros T. specialize (T _ PB EL ltac:(intros; apply HO; auto)). destruct I.
  assert (Eo : obj x = obj (cs s)).
  { unfold client in E. destruct (step (hpc c) (hps (cs s)) (t, ASet r i p)) as [[h e']|] eqn:E2; try discriminate. injection E as <- _. reflexivity. }
  constructor; auto.
  - cbn. rewrite EL. auto.
  - intros h. cbn. rewrite Eo. auto.
  - intros u. destruct (Nat.eq_dec u t) as [->|N]; auto.
    apply (TI_frame c s (set_cs s x) g _ w _ q q a a u); auto.
    + intros r' j e V. split; auto. destruct V as [V1 [V2 [V3 [V4 [V5 V6]]]]]. split; [apply HO; auto|]. split; auto. split; auto. cbn. rewrite EL. auto.
    + intros e _ [F1 [F2 [F3 F4]]]. split; auto. split; auto. split; auto. cbn. rewrite EL. auto.
Qed.

Definition step_goal (c : fcfg) (s' : fstt) (ev : list fevt) (g : gs) (a : pst) (w : wst) : Prop :=
  exists a' q', accepts ps a (lin_of ev) = Some a' /\ legal_from wnext wok w ev /\ legal_from gnext hp_ok g (hp_of ev) /\
    SI c s' (gf (hp_of ev) g) a' (gfold wnext ev w) q'.

(** ** The log *)
Lemma lin_eta : forall a : pst, p_lin a = (abs a, ph a).
Proof. intros a. unfold abs, ph. destruct (p_lin a); auto. Qed.
Lemma acc_lin : forall (a : pst) t o r Q, ph a t = Called o -> islz mres_dec lzr o r = false -> fifo_seq (abs a) o r = Some Q ->
  ps a (Lin t r) = Some {| p_lin := (Q, upd (ph a) t (Done r)); p_can := fun u => p_can a u || could mt Q (upd (ph a) t (Done r) u) |}.
Proof. intros a t o r Q P L F. unfold pstep. rewrite lin_eta. cbn [snd lstep]. rewrite P, L, F. reflexivity. Qed.
Lemma acc_late : forall (a : pst) t, ph a t = Called Deq -> p_can a t = true ->
  ps a (Lin t (RD None)) = Some {| p_lin := (abs a, upd (ph a) t (Done (RD None))); p_can := p_can a |}.
Proof. intros a t P C. unfold pstep. rewrite lin_eta. cbn [snd fst]. rewrite P. cbn. rewrite C. reflexivity. Qed.
Lemma acc_ret : forall (a : pst) t r, ph a t = Done r -> ps a (Ret t r) = Some {| p_lin := (abs a, upd (ph a) t Lin.Idle); p_can := p_can a |}.
Proof. intros a t r P. unfold pstep. rewrite lin_eta. cbn [lstep]. rewrite P. destruct (mres_dec r r); [reflexivity|tauto]. Qed.
Lemma acc_call : forall (a : pst) t o, ph a t = Lin.Idle ->
  ps a (Call t o) = Some {| p_lin := (abs a, upd (ph a) t (Called o)); p_can := upd (p_can a) t (mt (abs a) o) |}.
Proof. intros a t o P. unfold pstep. rewrite lin_eta. cbn [lstep]. rewrite P. reflexivity. Qed.

(** an operation gives up, or answers late *)
Lemma acc_fin : forall (a : pst) t o r, ph a t = Called o ->
  (islz mres_dec lzr o r = false /\ fifo_seq (abs a) o r = Some (abs a)) \/ (o = Deq /\ r = RD None /\ p_can a t = true) ->
  exists a', accepts ps a [Lin t r; Ret t r] = Some a' /\ abs a' = abs a /\ ph a' t = Lin.Idle /\
    forall u, u <> t -> ph a' u = ph a u /\ (p_can a u = true -> p_can a' u = true).
Proof.
  intros a t o r P D. cbn [accepts]. destruct D as [[L F]|[-> [-> C]]].
  - rewrite (acc_lin _ _ _ _ _ P L F), acc_ret by (cbn; apply upd_same). eexists. split; [reflexivity|]. split; [reflexivity|]. split; [cbn; apply upd_same|].
    intros u N. cbn. rewrite !upd_other by auto. split; auto. intros ->. auto.
  - rewrite (acc_late _ _ P C), acc_ret by (cbn; apply upd_same). eexists. split; [reflexivity|]. split; [reflexivity|]. split; [cbn; apply upd_same|].
    intros u N. cbn. rewrite !upd_other by auto. auto.
Qed.

Lemma nopush_go : forall s t p h, (pushing p = pushing (fp s t) \/ pushing p = None) -> nopush s h -> nopush (go s t p) h.
Proof. intros s t p h E N u. cbn. unfold upd. destruct (Nat.eq_dec u t) as [->|]; [|apply N]. destruct E as [->| ->]; [apply N|discriminate]. Qed.
Lemma valid_go : forall s g w q u r i e t p, (pushing p = pushing (fp s t) \/ pushing p = None) -> valid s g w q u r i e -> valid (go s t p) g w q u r i e.
Proof. intros s g w q u r i e t p E [V1 [V2 [V3 [V4 [V5 V6]]]]]. split; [exact V1|]. split; auto. split; auto. split; auto. split; auto. apply nopush_go; auto. Qed.
Lemma valid_in : forall c s g a w q t r i e, SI c s g a w q -> pub (cs s) g t r i e -> In e (fh s :: q) -> valid s g w q t r i e.
Proof.
  intros c s g a w q t r i e I P N. destruct I. destruct (s_in0 e N) as [L W].
  split; [eapply hold_live; eauto; congruence|]. split; [eapply chain_ne; eauto|]. split; [congruence|]. split; auto. split; auto.
  intros u U. destruct (TI_fresh _ _ _ _ _ _ _ _ (s_th0 u) U) as [_ [_ [_ F]]]. tauto.
Qed.

Lemma ac_pre : forall c s' ev g a w t p, step_goal c s' ev g a w -> w_live w p = true -> p <> 0 -> step_goal c s' (AC t p :: ev) g a w.
Proof. intros c s' ev g a w t p [a' [q' [A [B [C D]]]]] L N. exists a', q'. split; [exact A|]. split; [split; [split; auto|exact B]|]. split; auto. Qed.

(** trydequeue gives up, dequeue starts over *)
Lemma giveup : forall c s g a w q t o r, SI c s g a w q -> ph a t = Called o ->
  (islz mres_dec lzr o r = false /\ fifo_seq (abs a) o r = Some (abs a)) \/ (o = Deq /\ r = RD None /\ p_can a t = true) -> r <> RB false ->
  step_goal c (go s t FIdle) [LE (Lin t r); LE (Ret t r)] g a w.
Proof.
  intros c s g a w q t o r I P D N. destruct (acc_fin _ _ _ _ P D) as [a' [A [E1 [E2 E3]]]].
  exists a', q. split; [exact A|]. split; [cbn; auto|]. split; [exact Logic.I|].
  replace (gfold wnext [LE (Lin t r); LE (Ret t r)] w) with w by (cbn; destruct r as [|[]|]; auto; congruence).
  eapply SI_go; eauto.
  - rewrite E2. discriminate.
  - unfold TI. cbn [go fp]. rewrite upd_same. exact Logic.I.
Qed.
Lemma dagain_ok : forall c s g a w q t b r s' ev, SI c s g a w q -> phase_of (fp s t) = Some (Called (deq b)) -> pushing (fp s t) = None ->
  dagain s t b r = Some (s', ev) -> step_goal c s' ev g a w.
Proof.
  intros c s g a w q t b r s' ev I P N H. pose proof (s_ph _ _ _ _ _ _ I t) as Ph. rewrite P in Ph. unfold dagain in H. destruct b; injection H as <- <-.
  - eapply (giveup c s g a w q t (deq true)); [exact I|exact Ph|left; auto|discriminate].
  - exists a, q. split; [reflexivity|]. split; [exact Logic.I|]. split; [exact Logic.I|]. apply SI_local; [exact I|rewrite N; reflexivity|rewrite P; reflexivity|discriminate|].
    unfold TI. cbn [go fp]. rewrite upd_same. discriminate.
Qed.

(** tryenqueue gives up, enqueue starts over *)
Lemma again_ok : forall c s g a w q t b r e v s' ev, SI c s g a w q -> phase_of (fp s t) = Some (Called (enq b e v)) -> pushing (fp s t) = Some e ->
  (b = true -> w_arg w t = e) -> vl s e = v -> nx s e = 0 -> again s t b r e v = Some (s', ev) -> step_goal c s' ev g a w.
Proof.
  intros c s g a w q t b r e v s' ev I P N W Ve Ne H. pose proof (s_ph _ _ _ _ _ _ I t) as Ph. rewrite P in Ph.
  pose proof (TI_fresh _ _ _ _ _ _ _ _ (s_th _ _ _ _ _ _ I t) N) as F. pose proof F as [F1 [F2 [F3 F4]]].
  unfold again in H. destruct b; injection H as <- <-.
  - destruct (acc_fin a t _ (RB false) Ph ltac:(left; auto)) as [a' [A [E1 [E2 E3]]]].
    exists a', q. split; [exact A|]. split; [cbn; auto|]. split; [exact Logic.I|]. cbn [gfold fold_left wnext]. rewrite (W eq_refl). cbn [hp_of].
    set (s' := give (go s t FIdle) e Own). destruct I.
    assert (Pu : forall u, u <> t -> pushing (fp s' u) = pushing (fp s u)) by (intros; cbn; rewrite upd_other; auto).
    assert (Pt : pushing (fp s' t) = None) by (cbn; rewrite upd_same; auto).
    assert (Pe : forall u, u <> t -> pushing (fp s u) <> Some e) by (intros u X U; apply X; apply (s_un0 u t e); auto).
    assert (NP : forall h, nopush s h -> nopush s' h).
    { intros h X u. destruct (Nat.eq_dec u t) as [->|Y]; [rewrite Pt; discriminate|]. rewrite Pu; auto. }
    constructor; auto.
    + apply life_ok; auto. cbn. congruence.
    + rewrite E1. auto.
    + intros x X. assert (x <> e) by (intros ->; tauto). cbn. rewrite !upd_other by auto. apply s_in0. auto.
    + intros u. cbn. unfold upd. destruct (Nat.eq_dec u t) as [->|Y]; auto. destruct (E3 u Y) as [-> _]. apply s_ph0.
    + intros u v' x A' B'. destruct (Nat.eq_dec u t) as [->|X]; [rewrite Pt in A'; discriminate|]. destruct (Nat.eq_dec v' t) as [->|X']; [rewrite Pt in B'; discriminate|].
      rewrite Pu in A', B' by auto. eauto.
    + intros u. rewrite E1. destruct (Nat.eq_dec u t) as [->|Y]; [rewrite E2; discriminate|]. destruct (E3 u Y) as [-> Z]. auto.
    + intros u. destruct (Nat.eq_dec u t) as [->|X]; [unfold TI; cbn; rewrite upd_same; auto|]. destruct (E3 u X) as [Y1 Y2].
      apply (TI_frame c s s' g _ w _ q q a a' u); auto.
      * cbn. apply upd_other; auto.
      * intros r' i x [V1 [V2 [V3 [V4 [V5 V6]]]]]. split; auto. assert (x <> e) by (intros ->; apply (V5 t); auto).
        split; [exact V1|]. split; auto. split; [cbn; rewrite upd_other; auto|]. split; [cbn; rewrite upd_other; auto|]. split; auto.
      * intros x Y [X1 [X2 [X3 X4]]]. split; auto. assert (x <> e) by (intros ->; eapply Pe; eauto).
        split; auto. split; [cbn; rewrite upd_other; auto|]. split; auto. cbn. rewrite upd_other; auto.
  - exists a, q. split; [reflexivity|]. split; [exact Logic.I|]. split; [exact Logic.I|]. apply SI_local; [exact I|rewrite N; reflexivity|rewrite P; reflexivity|discriminate|].
    unfold TI. cbn [go fp]. rewrite upd_same. split; [split; [exact F|discriminate]|]. auto.
Qed.

Section Step.
Variables (c : fcfg) (s : fstt) (g : gs) (a : pst) (w : wst) (q : list nat).
Hypothesis I : SI c s g a w q.
Hypothesis Hr : reent (hpc c) = false.

Lemma quiet_step : forall t p, pushing p = pushing (fp s t) -> phase_of p = phase_of (fp s t) -> phase_of p <> None ->
  TI c (go s t p) g w q a t -> step_goal c (go s t p) [] g a w.
Proof. intros t p P1 P2 P3 T. exists a, q. split; [reflexivity|]. split; [exact Logic.I|]. split; [exact Logic.I|]. eapply SI_local; eauto. Qed.

Lemma slot_step : forall t r i p k s' ev, slot c s t r i p k = Some (s', ev) -> pushing k = pushing (fp s t) -> phase_of k = phase_of (fp s t) -> phase_of k <> None ->
  (forall x g', pub x g' t r i p -> lf x = lf (cs s) -> (forall r' j y, j <> i -> hold (cs s) g t r' j y -> hold x g' t r' j y) ->
     TI c (set_cs s x) g' w q a t /\ TI c (go (set_cs s x) t k) g' w q a t) -> step_goal c s' ev g a w.
Proof.
  intros t r i p k s' ev H P1 P2 P3 T. unfold slot in H. destruct (client (hpc c) (cs s) t (ASet r i p)) as [[x e]|] eqn:E; try discriminate. injection H as <- <-.
  destruct (SI_set c Hr _ _ _ _ _ _ _ _ _ _ _ I E) as [Ee [PB SS]].
  exists a, q. rewrite lin_HE, hp_HE. split; [reflexivity|]. split. { rewrite Ee. cbn. auto. }
  split. { eapply client_legal; eauto. apply I. }
  destruct (set_ok _ Hr _ _ _ _ _ _ _ _ (s_ci _ _ _ _ _ _ I) E) as [_ [EL [_ [_ [_ [_ HO]]]]]].
  assert (Ew : gfold wnext (map HE e) w = w) by (rewrite Ee; reflexivity). rewrite Ew.
  apply SI_local; auto.
  - apply SS. intros. apply T; auto.
  - apply T; auto.
Qed.

(** writing to an entry that is being enqueued *)
Lemma own_write : forall t e p nx' vl', pushing (fp s t) = Some e -> pushing p = Some e -> phase_of p = phase_of (fp s t) -> phase_of p <> None ->
  (forall x, x <> e -> nx' x = nx s x) -> (forall x, x <> e -> vl' x = vl s x) ->
  (forall s', cs s' = cs s -> fh s' = fh s -> nx s' = nx' -> vl s' = vl' -> fp s' t = p -> fresh s' w q e -> TI c s' g w q a t) ->
  step_goal c (mkf (cs s) (fh s) (ft s) nx' vl' (upd (fp s) t p)) [AC t e] g a w.
Proof.
  intros t e p nx' vl' P Pp Ph Pn N V T. pose proof (TI_fresh _ _ _ _ _ _ _ _ (s_th _ _ _ _ _ _ I t) P) as F. pose proof F as [F1 [F2 [F3 F4]]].
  exists a, q. split; [reflexivity|]. split; [cbn; auto|]. split; [exact Logic.I|]. cbn [gfold fold_left wnext hp_of].
  set (s' := mkf (cs s) (fh s) (ft s) nx' vl' (upd (fp s) t p)). destruct I.
  assert (Pu : forall u, pushing (fp s' u) = pushing (fp s u)).
  { intros u. cbn. unfold upd. destruct (Nat.eq_dec u t) as [->|]; auto. congruence. }
  assert (NP : forall h, nopush s h -> nopush s' h) by (intros h X u; rewrite Pu; auto).
  assert (Ne : forall x, In x (fh s :: q) -> x <> e) by (intros x X ->; tauto).
  constructor; auto.
  - rewrite s_abs0. f_equal. apply map_ext_in. intros x X. cbn. rewrite V; auto. apply Ne. right; auto.
  - apply (chainp_ext (nx s)). { intros x X. cbn. rewrite N; auto. } exact s_ch0.
  - intros u. cbn. unfold upd. destruct (Nat.eq_dec u t) as [->|]; [rewrite Ph; apply s_ph0|apply s_ph0].
  - intros u v x. rewrite !Pu. eauto.
  - intros u. destruct (Nat.eq_dec u t) as [->|X].
    + apply T; auto. cbn. apply upd_same.
    + apply (TI_frame c s s' g _ w _ q q a a u); auto.
      * cbn. apply upd_other; auto.
      * intros r i x [V1 [V2 [V3 [V4 [V5 V6]]]]]. assert (x <> e) by (intros ->; apply (V5 t); auto). cbn. rewrite N, V by auto. split; auto.
        split; [exact V1|]. split; auto. split; auto. split; auto. split; auto. cbn. rewrite N; auto.
      * intros x Y Z. assert (x <> e) by (intros ->; apply X; eapply s_un0; eauto). cbn. rewrite N, V by auto. split; auto.
Qed.

Lemma link_step : forall t b r e v p, fp s t = Q9 b r e v p -> nx s p = 0 ->
  step_goal c (go (set_nx s p e) t (Q10 b r e p)) [AC t p; LE (Lin t (okr b))] g a w.
Proof.
  intros t b r e v p P Z. pose proof (s_th _ _ _ _ _ _ I t) as T. unfold TI in T. rewrite P in T. destruct T as [[F T2] [T3 [T4 Vp]]].
  pose proof F as [F1 [F2 [F3 F4]]]. pose proof Vp as [V1 [V2 [V3 [V4 [V5 V6]]]]]. destruct V6 as [V6|V6]; [|congruence].
  pose proof (s_ph _ _ _ _ _ _ I t) as Ph. rewrite P in Ph. cbn [phase_of] in Ph.
  destruct (chain_last _ _ _ _ (s_ch _ _ _ _ _ _ I) V6 Z) as [l Hl].
  assert (Hq : fh s :: (q ++ [e]) = l ++ [p; e]) by (change (fh s :: q ++ [e]) with ((fh s :: q) ++ [e]); rewrite Hl, <- app_assoc; auto).
  exists {| p_lin := ({| FifoMp_Model.sq := sq (abs a) ++ [(e, v)]; FifoMp_Model.stub := stub (abs a) |}, upd (ph a) t (Done (okr b)));
            p_can := fun u => p_can a u || could mt {| FifoMp_Model.sq := sq (abs a) ++ [(e, v)]; FifoMp_Model.stub := stub (abs a) |} (upd (ph a) t (Done (okr b)) u) |}, (q ++ [e]).
  split. { cbn [lin_of accepts]. rewrite (acc_lin _ _ _ _ {| FifoMp_Model.sq := sq (abs a) ++ [(e, v)]; FifoMp_Model.stub := stub (abs a) |} Ph); [reflexivity| |]; destruct b; reflexivity. }
  split; [cbn; auto|]. split; [exact Logic.I|].
  replace (gfold wnext [AC t p; LE (Lin t (okr b))] w) with w by (destruct b; reflexivity). cbn [hp_of].
  set (s' := go (set_nx s p e) t (Q10 b r e p)). destruct I.
  assert (Pe : p <> e) by (intros ->; tauto).
  assert (Pu : forall u, u <> t -> pushing (fp s' u) = pushing (fp s u)) by (intros; cbn; rewrite upd_other; auto).
  assert (Pt : pushing (fp s' t) = None) by (cbn; rewrite upd_same; auto).
  assert (NP : forall h, nopush s h -> nopush s' h).
  { intros h X u. destruct (Nat.eq_dec u t) as [->|Y]; [rewrite Pt; discriminate|]. rewrite Pu; auto. }
  assert (Ie : forall x, In x (fh s :: q ++ [e]) <-> In x (fh s :: q) \/ x = e).
  { intros x. change (fh s :: q ++ [e]) with ((fh s :: q) ++ [e]). rewrite in_app_iff. cbn. intuition. }
  assert (VV : forall u r' i x, valid s g w q u r' i x -> valid s' g w (q ++ [e]) u r' i x).
  { intros u r' i x [X1 [X2 [X3 [X4 [X5 X6]]]]]. split; [exact X1|]. split; auto. split; auto. split; auto. split; auto.
    destruct X6 as [X6|X6]; [left; apply Ie; auto|]. right. cbn. rewrite upd_other; auto. intros ->. tauto. }
  constructor; auto.
  - cbn. unfold abs in *. rewrite s_abs0. cbn. rewrite map_app. cbn. rewrite T3. auto.
  - cbn [fh set_nx go nx s']. rewrite Hq. apply chain_snoc; auto; rewrite <- Hl; auto.
  - apply Ie. auto.
  - cbn [fh s' go set_nx]. change (fh s :: q ++ [e]) with ((fh s :: q) ++ [e]). apply NoDup_Add with (a := e) (l := fh s :: q); auto.
    replace (fh s :: q) with ((fh s :: q) ++ []) at 1 by apply app_nil_r. apply Add_app.
  - intros x X. apply Ie in X. destruct X as [X| ->]; auto.
  - intros u. cbn. unfold upd. destruct (Nat.eq_dec u t) as [->|]; [cbn; reflexivity|apply s_ph0].
  - intros u v' x A' B'. destruct (Nat.eq_dec u t) as [->|X]; [rewrite Pt in A'; discriminate|]. destruct (Nat.eq_dec v' t) as [->|X']; [rewrite Pt in B'; discriminate|].
    rewrite Pu in A', B' by auto. eauto.
  - intros u H. cbn. apply orb_true_iff. right. exact H.
  - intros u. destruct (Nat.eq_dec u t) as [->|X].
    + unfold TI. cbn [s' go fp]. rewrite upd_same. split; [apply VV; auto|]. cbn. rewrite upd_same. auto.
    + apply (TI_frame c s s' g _ w _ q (q ++ [e]) a _ u); auto.
      * cbn. apply upd_other; auto.
      * intros r' i x Vx. split; [apply VV; auto|]. split; auto. intros Y. cbn. apply upd_other. intros ->. tauto.
      * intros x Y Z'. assert (x <> p) by (intros ->; destruct Z' as [_ [_ [_ Z']]]; tauto). assert (x <> e) by (intros ->; apply X; eapply s_un0; eauto; rewrite P; auto).
        cbn. rewrite upd_other by auto. split; auto. destruct Z' as [Z1 [Z2 [Z3 Z4]]]. split; auto. split; auto. split; auto. intros K. apply Ie in K. tauto.
      * intros h Nh [Y|Y]; split; auto; [left; auto|]. right. intros K. apply Ie in K. destruct K as [K| ->]; [tauto|]. apply (Nh t). rewrite P. reflexivity.
      * cbn. intros ->. auto.
      * cbn. apply upd_other; auto.
Qed.

Lemma pop_step : forall t b r h x, fp s t = K9 b r h x -> fh s = h ->
  step_goal c (give (go (set_fh s x) t (KA r h x)) h Out) [LE (Lin t (RD (Some (vl s x, h))))] g a w.
Proof.
  intros t b r h x P Eh. pose proof (s_th _ _ _ _ _ _ I t) as T. unfold TI in T. rewrite P in T. destruct T as [T1 [T2 [T3 [T4 [T5 T6]]]]].
  pose proof (s_ph _ _ _ _ _ _ I t) as Ph. rewrite P in Ph. cbn [phase_of] in Ph.
  pose proof (s_ch _ _ _ _ _ _ I) as C. destruct C as [_ [H0 C]]. rewrite Eh, T4 in C.
  assert (Q : exists q', q = x :: q'). { destruct q as [|y q']; cbn in C; [congruence|]. destruct C as [-> _]. eauto. }
  destruct Q as [q' Q].
  assert (Ea : abs a = {| FifoMp_Model.sq := (x, vl s x) :: map (fun e => (e, vl s e)) q'; FifoMp_Model.stub := h |}).
  { rewrite (s_abs _ _ _ _ _ _ I), Q, Eh. reflexivity. }
  set (Q' := {| FifoMp_Model.sq := map (fun e => (e, vl s e)) q'; FifoMp_Model.stub := x |}).
  exists {| p_lin := (Q', upd (ph a) t (Done (RD (Some (vl s x, h))))); p_can := fun u => p_can a u || could mt Q' (upd (ph a) t (Done (RD (Some (vl s x, h)))) u) |}, q'.
  split. { cbn [lin_of accepts]. rewrite (acc_lin _ _ _ _ Q' Ph); [reflexivity| |].
    - destruct b; reflexivity.
    - rewrite Ea. destruct b; cbn; rewrite !Nat.eqb_refl; reflexivity. }
  split; [cbn; auto|]. split; [exact Logic.I|]. cbn [hp_of gfold fold_left wnext].
  set (s' := give (go (set_fh s x) t (KA r h x)) h Out). destruct I.
  assert (Pu : forall u, pushing (fp s' u) = pushing (fp s u)).
  { intros u. cbn. unfold upd. destruct (Nat.eq_dec u t) as [->|]; auto. rewrite P. auto. }
  assert (NP : forall h, nopush s h -> nopush s' h) by (intros y Y u; rewrite Pu; auto).
  assert (Sub : forall y, In y (x :: q') -> In y (fh s :: q)) by (intros y Y; rewrite Q; right; auto).
  assert (Nh : ~ In h (x :: q')) by (rewrite Eh, Q in s_nd0; inversion s_nd0; auto).
  assert (Lh : lf (cs s) h = Lib) by (apply s_in0; left; auto).
  assert (VV : forall u r' i y, valid s g w q u r' i y -> valid s' g w q' u r' i y).
  { intros u r' i y [X1 [X2 [X3 [X4 [X5 X6]]]]]. split; [exact X1|]. split; auto. split; [cbn; unfold upd; destruct (Nat.eq_dec y h); [discriminate|auto]|]. split; auto. split; auto.
    destruct X6 as [X6|X6]; auto. rewrite Q, Eh in X6. destruct X6 as [<-|X6]; [right; cbn; congruence|left; auto]. }
  constructor; auto.
  - apply life_ok; auto. cbn. congruence.
  - cbn [s' give set_cs go set_fh fh nx]. rewrite Q in C. pose proof C as [_ [C1 C2]]. cbn. auto.
  - cbn [s' give set_cs go set_fh fh ft]. rewrite Q in s_ft0. destruct s_ft0 as [X|X]; [congruence|auto].
  - cbn [s' give set_cs go set_fh fh ft]. rewrite Q in s_nd0. inversion s_nd0; auto.
  - intros y Y. cbn [s' give set_cs go set_fh fh] in Y. assert (y <> h) by (intros ->; tauto). cbn. rewrite upd_other by auto. apply s_in0. auto.
  - intros u. cbn. unfold upd. destruct (Nat.eq_dec u t) as [->|]; cbn; auto. apply s_ph0.
  - intros u v y. rewrite !Pu. eauto.
  - intros u H. cbn. apply orb_true_iff. right. exact H.
  - intros u. destruct (Nat.eq_dec u t) as [->|X].
    + unfold TI. cbn [s' give set_cs go fp set_fh]. rewrite upd_same. split; [apply VV; auto|]. cbn. apply upd_same.
    + apply (TI_frame c s s' g _ w _ q q' a _ u); auto.
      * cbn. apply upd_other; auto.
      * intros y Y [Z1 [Z2 [Z3 Z4]]]. split; auto. assert (y <> h) by (intros ->; apply Z4; left; auto).
        split; auto. split; [cbn; rewrite upd_other; auto|]. split; [exact Z3|]. intros K. apply Z4. apply Sub. exact K.
      * intros y Ny [Y|Y]; (split; [|auto]); right; cbn [s' give set_cs go set_fh fh]; [rewrite <- Y, Eh; auto|]. intros K. apply Y. apply Sub. auto.
      * cbn. intros ->. auto.
      * cbn. apply upd_other; auto.
Qed.
End Step.

Section Step2.
Variables (c : fcfg) (s : fstt) (g : gs) (a : pst) (w : wst) (q : list nat).
Hypothesis I : SI c s g a w q.
Hypothesis Hr : reent (hpc c) = false.

Lemma enq_call : forall t b r e v, fp s t = FIdle -> e <> 0 -> lf (cs s) e = Own -> (forall u, wind (fp s u) <> Some e) ->
  step_goal c (give (go s t (Q1 b r e v)) e Lib) [LE (Call t (enq b e v))] g a w.
Proof.
  intros t b r e v P E0 Lo G. pose proof (s_ph _ _ _ _ _ _ I t) as Ph. rewrite P in Ph. cbn in Ph.
  eexists. exists q. split. { cbn [lin_of accepts]. rewrite (acc_call _ _ _ Ph). reflexivity. }
  split; [cbn; auto|]. split; [exact Logic.I|]. cbn [hp_of gfold fold_left].
  assert (Ew : wnext w (LE (Call t (enq b e v))) = mkw (upd (w_live w) e true) (w_ptr w) (upd (w_arg w) t e)) by (destruct b; reflexivity).
  rewrite Ew. set (s' := give (go s t (Q1 b r e v)) e Lib). destruct I.
  assert (Pu : forall u, u <> t -> pushing (fp s' u) = pushing (fp s u)) by (intros; cbn; rewrite upd_other; auto).
  assert (Pt : pushing (fp s' t) = Some e) by (cbn; rewrite upd_same; auto).
  assert (Nq : ~ In e (fh s :: q)) by (intros X; destruct (s_in0 e X); congruence).
  assert (Np : forall u, pushing (fp s u) <> Some e) by (intros u U; destruct (TI_fresh _ _ _ _ _ _ _ _ (s_th0 u) U) as [_ [X _]]; congruence).
  assert (NP : forall h, h <> e -> nopush s h -> nopush s' h).
  { intros h X Y u. destruct (Nat.eq_dec u t) as [->|Z]; [rewrite Pt; congruence|]. rewrite Pu; auto. }
  constructor; auto.
  - apply life_ok; auto. cbn. congruence.
  - intros x X. assert (x <> e) by (intros ->; tauto). cbn. rewrite !upd_other by auto. apply s_in0. exact X.
  - intros u. cbn. unfold upd. destruct (Nat.eq_dec u t) as [->|]; [destruct b; reflexivity|apply s_ph0].
  - intros u v' x A B. destruct (Nat.eq_dec u t) as [->|N], (Nat.eq_dec v' t) as [->|N']; auto; rewrite ?Pt in *; rewrite ?Pu in * by auto.
    + injection A as <-. exfalso. eapply Np; eauto.
    + injection B as <-. exfalso. eapply Np; eauto.
    + eauto.
  - intros u. cbn. unfold upd. destruct (Nat.eq_dec u t) as [->|]; cbn; [auto|apply s_can0].
  - intros u. destruct (Nat.eq_dec u t) as [->|N].
    + unfold TI. cbn [s' give set_cs go fp]. rewrite upd_same. unfold fresh. cbn. rewrite !upd_same. auto.
    + apply (TI_frame c s s' g _ w _ q q a _ u); auto.
      * cbn. apply upd_other; auto.
      * intros r' i x [X1 [X2 [X3 [X4 [X5 X6]]]]]. split; auto. assert (x <> e) by congruence.
        split; [exact X1|]. split; auto. split; [cbn; rewrite upd_other; auto|]. split; [cbn; rewrite upd_other; auto|]. split; auto.
      * intros x X [X1 [X2 [X3 X4]]]. split; auto. assert (x <> e) by congruence. split; auto. split; [cbn; rewrite upd_other; auto|]. split; [cbn; rewrite upd_other; auto|exact X4].
      * intros h W Nh. apply NP; auto. intros ->. eapply G; eauto.
      * cbn. rewrite upd_other; auto.
      * cbn. apply upd_other; auto.
      * cbn. apply upd_other; auto.
Qed.

Lemma deq_call : forall t b r, fp s t = FIdle -> (b = true -> t < nt c) -> step_goal c (go s t (K1 b r)) [LE (Call t (deq b))] g a w.
Proof.
  intros t b r P L. pose proof (s_ph _ _ _ _ _ _ I t) as Ph. rewrite P in Ph. cbn in Ph.
  eexists. exists q. split. { cbn [lin_of accepts]. rewrite (acc_call _ _ _ Ph). reflexivity. }
  split; [cbn; auto|]. split; [exact Logic.I|]. cbn [hp_of gfold fold_left].
  replace (wnext w (LE (Call t (deq b)))) with w by (destruct b; reflexivity).
  eapply SI_go; eauto; try reflexivity.
  - intros u N. cbn. rewrite !upd_other by auto. auto.
  - cbn. apply upd_same.
  - cbn. rewrite !upd_same. cbn. auto.
  - unfold TI. cbn [go fp]. rewrite upd_same. auto.
Qed.

Ltac tiat := unfold TI; cbn [go fp set_cs]; rewrite upd_same.
Lemma tick_step : forall t s' ev, tick c s t = Some (s', ev) -> step_goal c s' ev g a w.
Proof.
  intros t s' ev H. unfold tick in H. pose proof (s_th _ _ _ _ _ _ I t) as T. pose proof (s_ph _ _ _ _ _ _ I t) as Ph. unfold TI in T.
  destruct (fp s t) eqn:P; cbn [phase_of] in Ph.
  - discriminate.
  - (* Q1 *) injection H as <- <-. destruct T as [T1 T2]. apply (own_write c s g a w q I t e (Q2 b r e v) (nx s) (upd (vl s) e v)); try rewrite P; auto.
    + discriminate.
    + intros x X. apply upd_other; auto.
    + intros s' E1 E2 E3 E4 E5 F. unfold TI. rewrite E5. split; [split; auto|]. rewrite E4. apply upd_same.
  - (* Q2 *) injection H as <- <-. destruct T as [[T1 T2] T3]. apply (own_write c s g a w q I t e (Q3 b r e v) (upd (nx s) e 0) (vl s)); try rewrite P; auto.
    + discriminate.
    + intros x X. apply upd_other; auto.
    + intros s' E1 E2 E3 E4 E5 F. unfold TI. rewrite E5. split; [split; auto|]. rewrite E3, E4. split; auto. apply upd_same.
  - (* Q3 *) injection H as <- <-. apply (quiet_step c s g a w q I); try rewrite P; auto; [discriminate|]. tiat. exact T.
  - (* Q4 *) eapply (slot_step c s g a w q I Hr); eauto; try rewrite P; auto; [discriminate|]. intros x g' PB EL HO.
    destruct T as [[[F1 [F2 [F3 F4]]] T2] [T3 T4]].
    assert (F : forall s', cs s' = x -> fh s' = fh s -> fresh s' w q e) by (intros s1 E1 E2; split; auto; rewrite E1, E2, EL; auto).
    split; [unfold TI; cbn; rewrite P|tiat]; (split; [split; [apply F; auto|auto]|]); auto.
  - (* Q5 *) destruct T as [[T1 T2] [T3 [T4 T5]]]. destruct (ft s =? p) eqn:E.
    + injection H as <- <-. apply Nat.eqb_eq in E. apply (quiet_step c s g a w q I); try rewrite P; auto; [discriminate|]. tiat.
      split; auto. split; auto. split; auto. apply valid_go; [left; rewrite P; auto|]. eapply valid_in; eauto. rewrite <- E. apply (s_ft _ _ _ _ _ _ I).
    + eapply again_ok; eauto; rewrite P; auto.
  - (* Q6 *) injection H as <- <-. destruct T as [[T1 T2] [T3 [T4 T5]]]. pose proof T5 as [_ [V2 [_ [V4 _]]]]. apply ac_pre; auto.
    destruct b; [destruct (nx s p =? 0) eqn:E|]; (apply (quiet_step c s g a w q I); try rewrite P; auto; [discriminate|]; tiat; split; auto; split; auto; split; auto).
    + apply valid_go; auto. left. rewrite P. auto.
    + apply Nat.eqb_neq in E. split; auto. apply valid_go; auto. left. rewrite P. auto.
    + split; auto. apply valid_go; auto. left. rewrite P. auto.
  - (* Q7 *) destruct T as [[T1 T2] [T3 [T4 [T5 T6]]]]. destruct (ft s =? p) eqn:E.
    + injection H as <- <-. destruct (x =? 0) eqn:X; (apply (quiet_step c s g a w q I); try rewrite P; auto; [discriminate|]; tiat; split; auto; split; auto; split; auto).
      * apply valid_go; auto. left. rewrite P. auto.
      * apply Nat.eqb_neq in X. split; [|auto]. apply valid_go; auto. left. rewrite P. auto.
    + eapply again_ok; eauto; rewrite P; auto.
  - (* Q8 *) destruct T as [[T1 T2] [T3 [T4 [T5 [T6 T7]]]]]. pose proof (SI_tail c s g a w q p x I T6 T7) as I'.
    assert (Ec : fp (cas_tail s p x) = fp s /\ vl (cas_tail s p x) = vl s /\ nx (cas_tail s p x) = nx s) by (unfold cas_tail; destruct (ft s =? p); auto).
    destruct Ec as [E1 [E2 E3]]. eapply again_ok; [exact I'| | | | | |exact H]; rewrite ?E1, ?E2, ?E3, ?P; auto.
  - (* Q9 *) destruct (nx s p =? 0) eqn:E.
    + injection H as <- <-. apply Nat.eqb_eq in E. eapply link_step; eauto.
    + destruct (again s t b r e v) as [[s1 e1]|] eqn:A; try discriminate. injection H as <- <-. destruct T as [[T1 T2] [T3 [T4 T5]]]. pose proof T5 as [_ [V2 [_ [V4 _]]]].
      apply ac_pre; auto. eapply again_ok; eauto; rewrite P; auto.
  - (* Q10 *) injection H as <- <-. destruct T as [T1 [T2 T3]]. pose proof (SI_tail c s g a w q p e I T2 T3) as I'.
    eexists. exists q. split. { cbn [lin_of accepts]. fold (okr b). rewrite (acc_ret _ _ _ Ph). reflexivity. }
    split; [cbn; auto|]. split; [exact Logic.I|]. cbn [hp_of gfold fold_left].
    replace (wnext w (LE (Ret t (if b then RB true else RU)))) with w by (destruct b; reflexivity).
    eapply SI_go; eauto; try reflexivity.
    + intros u N. cbn. rewrite !upd_other by auto. auto.
    + cbn. apply upd_same.
    + cbn. rewrite !upd_same. discriminate.
    + tiat. exact Logic.I.
  - (* K1 *) injection H as <- <-. destruct b; (apply (quiet_step c s g a w q I); try rewrite P; auto; [discriminate|]; tiat); auto.
    split; auto. split; [|left; auto]. intros u U. cbn in U. unfold upd in U. destruct (Nat.eq_dec u t); [discriminate|].
    destruct (TI_fresh _ _ _ _ _ _ _ _ (s_th _ _ _ _ _ _ I u) U) as [_ [_ [_ F]]]. apply F. left. auto.
  - (* K2 *) eapply (slot_step c s g a w q I Hr); eauto; try rewrite P; auto; [discriminate|]. intros x g' PB EL HO.
    split; [unfold TI; cbn; rewrite P|tiat]; auto.
  - (* K3 *) destruct (fh s =? h) eqn:E.
    + injection H as <- <-. apply Nat.eqb_eq in E. apply (quiet_step c s g a w q I); try rewrite P; auto; [discriminate|]. tiat. split; [|left; auto].
      apply valid_go; [left; rewrite P; auto|]. eapply valid_in; eauto. left. auto.
    + eapply dagain_ok; eauto; rewrite P; auto.
  - (* K4 *) injection H as <- <-. destruct T as [T1 T2]. apply (quiet_step c s g a w q I); try rewrite P; auto; [discriminate|]. tiat.
    split; [apply valid_go; auto; left; rewrite P; auto|]. split; auto.
  - (* J2 *) injection H as <- <-. destruct T as [T1 [T2 T3]]. apply (quiet_step c s g a w q I); try rewrite P; auto; [discriminate|]. tiat.
    split; auto. split; [apply nopush_go; auto|]. split; auto.
  - (* J3 *) eapply (slot_step c s g a w q I Hr); eauto; try rewrite P; auto; [discriminate|]. intros x g' PB EL HO. destruct T as [T1 [T2 [T3 T4]]].
    split; [unfold TI; cbn; rewrite P; auto|]. tiat. split; auto. split; [|auto]. apply nopush_go; [left; cbn; rewrite P; auto|exact T2].
  - (* J4 *) destruct T as [T1 [T2 [T3 [T4 T5]]]]. destruct (fh s =? h) eqn:E.
    + injection H as <- <-. apply Nat.eqb_eq in E. apply (quiet_step c s g a w q I); try rewrite P; auto; [discriminate|]. tiat. split; [|split; auto].
      apply valid_go; [left; rewrite P; auto|]. eapply valid_in; eauto. left. auto.
    + eapply dagain_ok; eauto; rewrite P; auto.
  - (* K5 *) injection H as <- <-. destruct T as [T1 [T2 T3]]. pose proof T1 as [_ [V2 [_ [V4 [_ V6]]]]]. apply ac_pre; auto.
    apply (quiet_step c s g a w q I); try rewrite P; auto; [discriminate|]. tiat.
    split; [apply valid_go; auto; left; rewrite P; auto|]. split; auto. split; auto. split; auto. intros Z.
    destruct V6 as [V6|V6]; [|congruence]. destruct T2 as [T2|T2]; [|tauto].
    assert (Eq : q = []). { destruct (s_ch _ _ _ _ _ _ I) as [_ [_ C]]. rewrite T2, Z in C. destruct q; auto. destruct C as [<- [C _]]. tauto. }
    destruct b.
    + destruct (Nat.eq_dec tl h) as [|N]; auto. exfalso. apply (T3 N). pose proof (s_ft _ _ _ _ _ _ I) as F. rewrite Eq, T2 in F. destruct F as [F|[]]. auto.
    + apply (s_can _ _ _ _ _ _ I). rewrite Ph. cbn. rewrite (s_abs _ _ _ _ _ _ I), Eq. reflexivity.
  - (* K6 *) eapply (slot_step c s g a w q I Hr); eauto; try rewrite P; auto; [discriminate|]. intros y g' PB EL HO.
    destruct T as [T1 [T2 [T3 [T4 T5]]]]. pose proof T1 as [V1 [V2 [V3 [V4 [V5 V6]]]]].
    assert (V : valid (set_cs s y) g' w q t r 0 h). { split; [apply HO; auto|]. split; auto. split; [cbn; rewrite EL; auto|]. auto. }
    split; [unfold TI; cbn; rewrite P; auto|]. tiat. split; [apply valid_go; auto; left; cbn; rewrite P; auto|]. auto 8.
  - (* K7 *) destruct T as [T1 [T2 [T3 [T4 [T5 T6]]]]]. destruct (fh s =? h) eqn:E; [|eapply dagain_ok; eauto; rewrite P; auto]. apply Nat.eqb_eq in E.
    assert (V0 : forall p, pushing p = None -> valid (go s t p) g w q t r 0 h) by (intros p X; apply valid_go; auto).
    assert (V1 : x <> 0 -> forall p, pushing p = None -> valid (go s t p) g w q t r 1 x).
    { intros X p Y. apply valid_go; auto. eapply valid_in; eauto. right. rewrite <- (T4 X). apply (chain_succ _ _ (fh s)); [apply I|left; auto|rewrite T4; auto]. }
    assert (X0 : forall e, (x =? 0) = e -> x = 0 \/ x <> 0) by (intros; lia).
    destruct b.
    + destruct (h =? tl) eqn:L.
      * destruct (x =? 0) eqn:X; [eapply dagain_ok; eauto; rewrite P; auto|]. apply Nat.eqb_neq in X. injection H as <- <-.
        apply (quiet_step c s g a w q I); try rewrite P; auto; [discriminate|]. tiat. split; auto.
      * apply Nat.eqb_neq in L. assert (X : x <> 0) by (intros Z; specialize (T5 Z); cbn in T5; congruence). injection H as <- <-.
        apply (quiet_step c s g a w q I); try rewrite P; auto; [discriminate|]. tiat. split; [auto|]. split; [auto|]. split; [apply T3; auto|]. split; auto.
    + destruct (x =? 0) eqn:X.
      * apply Nat.eqb_eq in X. injection H as <- <-. apply (quiet_step c s g a w q I); try rewrite P; auto; [discriminate|]. tiat. exact (T5 X).
      * apply Nat.eqb_neq in X. injection H as <- <-. destruct (h =? tl) eqn:L.
        -- apply (quiet_step c s g a w q I); try rewrite P; auto; [discriminate|]. tiat. split; auto.
        -- apply Nat.eqb_neq in L. apply (quiet_step c s g a w q I); try rewrite P; auto; [discriminate|]. tiat. split; [auto|]. split; [auto|]. split; [apply T3; auto|]. split; auto.
  - (* K8 *) destruct T as [T1 [T2 T3]]. pose proof (SI_tail c s g a w q h x I T2 T3) as I'.
    assert (Ec : fp (cas_tail s h x) = fp s) by (unfold cas_tail; destruct (ft s =? h); auto).
    eapply dagain_ok; eauto; rewrite Ec, P; auto.
  - (* K9 *) destruct (fh s =? h) eqn:E.
    + injection H as <- <-. apply Nat.eqb_eq in E. eapply pop_step; eauto.
    + eapply dagain_ok; eauto; rewrite P; auto.
  - (* KA *) injection H as <- <-. destruct T as [T1 T2]. pose proof T1 as [_ [V2 [_ [V4 _]]]]. apply ac_pre; auto.
    eexists. exists q. split. { cbn [lin_of accepts]. rewrite (acc_ret _ _ _ T2). reflexivity. }
    split; [cbn; auto|]. split; [exact Logic.I|]. cbn [hp_of gfold fold_left wnext].
    eapply SI_go; eauto; try reflexivity.
    + intros u N. cbn. rewrite !upd_other by auto. auto.
    + cbn. apply upd_same.
    + cbn. rewrite !upd_same. discriminate.
    + tiat. exact Logic.I.
  - (* Ke1 *) eapply (slot_step c s g a w q I Hr); eauto; try rewrite P; auto; [discriminate|]. intros x g' PB EL HO.
    split; [unfold TI; cbn; rewrite P|tiat]; auto.
  - (* Ke2 *) unfold slot in H. destruct (client (hpc c) (cs s) t (ASet r 1 0)) as [[x e]|] eqn:E; try discriminate. injection H as <- <-.
    destruct (SI_set c Hr _ _ _ _ _ _ _ _ _ _ _ I E) as [Ee [PB SS]].
    assert (I' : SI c (set_cs s x) (gf e g) a w q) by (apply SS; intros; unfold TI; cbn; rewrite P; auto).
    destruct (giveup c (set_cs s x) (gf e g) a w q t Deq (RD None) I' Ph ltac:(right; auto) ltac:(discriminate)) as [a' [q' [A [B [C D]]]]].
    exists a', q'. rewrite lin_app, hp_app, lin_HE, hp_HE. split; [exact A|].
    rewrite Ee. split; [cbn; auto|]. split. { cbn [hp_of app]. rewrite <- Ee. eapply client_legal; eauto. apply I. }
    rewrite app_nil_r. rewrite Ee in D. exact D.
Qed.

(** no trydequeue in progress has just loaded an entry that is given to enqueue *)
Definition clear_of (l : nat * fact) : Prop := match snd l with AEnq _ _ e _ => forall u, wind (fp s u) <> Some e | _ => True end.
Lemma unheld_clear : (strict c = true \/ nt c = 0) -> forall e, unheld c s e = true -> forall u, wind (fp s u) <> Some e.
Proof.
  intros D e U u W. pose proof (TI_wind _ _ _ _ _ _ _ _ (s_th _ _ _ _ _ _ I u) W) as L. destruct D as [D|D]; [|lia].
  unfold unheld in U. rewrite D in U. cbn in U. rewrite forallb_forall in U. specialize (U u ltac:(apply in_seq; lia)). rewrite W, Nat.eqb_refl in U. discriminate.
Qed.
Lemma fstep_ok : forall l s' ev, clear_of l -> fstep c s l = Some (s', ev) -> step_goal c s' ev g a w.
Proof.
  intros [t x] s' ev G H. unfold fstep in H. destruct x.
  - destruct (fp s t) eqn:P; try discriminate. destruct (client (hpc c) (cs s) t a0) as [[y e]|] eqn:E; try discriminate. injection H as <- <-.
    exists a, q. rewrite lin_HE, hp_HE. split; [reflexivity|].
    assert (LW : forall ev w, legal_from wnext wok w (map HE ev)) by (clear; induction ev; cbn; auto).
    split; auto. split. { eapply client_legal; eauto. apply I. } eapply SI_client; eauto.
  - destruct (fp s t) eqn:P; try discriminate. unfold call in H. destruct (negb (hidle s t)); try discriminate.
    destruct (mine (hps (cs s)) t r && negb (e =? 0) && owned s e && unheld c s e) eqn:B; try discriminate. injection H as <- <-.
    apply andb_true_iff in B. destruct B as [B _]. apply andb_true_iff in B. destruct B as [B B3]. apply andb_true_iff in B. destruct B as [_ B2].
    apply negb_true_iff, Nat.eqb_neq in B2. apply enq_call; auto. unfold owned in B3. destruct (lf (cs s) e); auto; discriminate.
  - destruct (fp s t) eqn:P; try discriminate. unfold call in H. destruct (negb (hidle s t)); try discriminate.
    destruct (mine (hps (cs s)) t r && (negb b || (t <? nt c))) eqn:B; try discriminate. injection H as <- <-.
    apply andb_true_iff in B. destruct B as [_ B]. apply deq_call; auto. intros ->. apply Nat.ltb_lt. exact B.
  - eapply tick_step; eauto.
Qed.
End Step2.

Lemma SI_init : forall c z, z <> 0 -> SI c (finit z) gs0 (p0 z) (w0 z) [].
Proof.
  intros c z Z. constructor; try (cbn; tauto); try (cbn; discriminate).
  all: try reflexivity; try (intros ?; reflexivity); try (intros ?; exact Logic.I).
  - apply life_ok; [apply CI_init|]. discriminate.
  - constructor; [intros []|constructor].
  - intros e [<-|[]]. cbn. rewrite upd_same, Nat.eqb_refl. auto.
Qed.

Definition GI (c : fcfg) (z : nat) (s : fstt) (log : list fevt) : Prop :=
  exists a q, accepts ps (p0 z) (lin_of log) = Some a /\ legal_from wnext wok (w0 z) log /\ legal_from gnext hp_ok gs0 (hp_of log) /\
    SI c s (gf (hp_of log) gs0) a (gfold wnext log (w0 z)) q.
Lemma GI_step : forall c z s log l s' ev, reent (hpc c) = false -> GI c z s log -> clear_of s l -> fstep c s l = Some (s', ev) -> GI c z s' (log ++ ev).
Proof.
  intros c z s log l s' ev Hr [a [q [A [B [C D]]]]] G H. destruct (fstep_ok c s _ a _ q D Hr l s' ev G H) as [a' [q' [A' [B' [C' D']]]]].
  exists a', q'. rewrite lin_app, hp_app, accepts_app, A. split; auto. split; [apply legal_app; auto|]. split; [apply legal_app; auto|]. rewrite !gfold_app. exact D'.
Qed.
Lemma run_strict : forall c z, reent (hpc c) = false -> strict c = true \/ nt c = 0 -> z <> 0 -> forall ls s log, run (fstep c) (finit z) ls = Some (s, log) -> GI c z s log.
Proof.
  intros c z Hr D Z ls s log H.
  cut (forall ls s0 l0, GI c z s0 l0 -> forall s log, run (fstep c) s0 ls = Some (s, log) -> GI c z s (l0 ++ log)).
  { intros X. apply (X ls (finit z) []); auto. exists (p0 z), []. split; [reflexivity|]. split; [exact Logic.I|]. split; [exact Logic.I|]. apply SI_init; auto. }
  clear - Hr D. induction ls as [|l ls IH]; intros s0 l0 G s log H; cbn in H.
  - injection H as <- <-. rewrite app_nil_r. auto.
  - destruct (fstep c s0 l) as [[s1 e1]|] eqn:E1; try discriminate. destruct (run (fstep c) s1 ls) as [[s2 e2]|] eqn:E2; try discriminate. injection H as <- <-.
    rewrite app_assoc. eapply IH; eauto. eapply GI_step; eauto. destruct l as [t x]. destruct x; cbn; auto. destruct G as [a [q [_ [_ [_ I]]]]].
    eapply unheld_clear; eauto. unfold fstep in E1. destruct (fp s0 t); try discriminate. unfold call in E1. destruct (negb (hidle s0 t)); try discriminate.
    destruct (mine (hps (cs s0)) t r && negb (e =? 0) && owned s0 e && unheld c s0 e) eqn:B; try discriminate. apply andb_true_iff in B. apply B.
Qed.

(** ** No entry is enqueued twice *)
Definition NI (s : fstt) (seen : list nat) : Prop :=
  (forall e, lf (cs s) e = Lib -> In e seen) /\ (forall u h, wind (fp s u) = Some h -> In h seen).
Lemma set_life : forall c s t r i p x ev, client c s t (ASet r i p) = Some (x, ev) -> lf x = lf s.
Proof.
  intros c s t r i p x ev H. unfold client in H. destruct (step c (hps s) (t, ASet r i p)) as [[h e]|] eqn:E; try discriminate. injection H as <- <-.
  unfold step, Hp_Model.call in E. destruct (pcs (hps s) t); try discriminate. destruct (mine (hps s) t r && (i <? deg c)); try discriminate. injection E as <- <-. reflexivity.
Qed.
Lemma NI_go : forall s s' t p seen, NI s seen -> (forall e, lf (cs s') e = Lib -> lf (cs s) e = Lib) -> fp s' = upd (fp s) t p ->
  (forall h, wind p = Some h -> In h seen) -> NI s' seen.
Proof.
  intros s s' t p seen [A B] L F W. split; auto. intros u h U. rewrite F in U. unfold upd in U. destruct (Nat.eq_dec u t); eauto.
Qed.
Lemma again_NI : forall s t b r e v s' ev seen, NI s seen -> again s t b r e v = Some (s', ev) -> NI s' seen.
Proof.
  intros s t b r e v s' ev seen N H. unfold again in H. destruct b; injection H as <- <-.
  - apply (NI_go s _ t FIdle); auto; [|discriminate]. intros x. cbn. unfold upd. destruct (Nat.eq_dec x e); auto. discriminate.
  - apply (NI_go s _ t (Q3 false r e v)); auto. discriminate.
Qed.
Lemma dagain_NI : forall s t b r s' ev seen, NI s seen -> dagain s t b r = Some (s', ev) -> NI s' seen.
Proof. intros s t b r s' ev seen N H. unfold dagain in H. destruct b; injection H as <- <-; (eapply NI_go; [exact N|auto|reflexivity|discriminate]). Qed.
Lemma cas_NI : forall s p x seen, NI s seen -> NI (cas_tail s p x) seen.
Proof. intros s p x seen N. unfold cas_tail. destruct (ft s =? p); auto. Qed.
Lemma slot_NI : forall c s t r i p k s' ev seen, NI s seen -> slot c s t r i p k = Some (s', ev) -> (forall h, wind k = Some h -> In h seen) -> NI s' seen.
Proof.
  intros c s t r i p k s' ev seen N H W. unfold slot in H. destruct (client (hpc c) (cs s) t (ASet r i p)) as [[x e]|] eqn:E; try discriminate. injection H as <- <-.
  apply (NI_go s _ t k); auto. intros y. cbn. rewrite (set_life _ _ _ _ _ _ _ _ E). auto.
Qed.
Lemma NI_step : forall c s g a w q l s' ev seen, reent (hpc c) = false -> SI c s g a w q -> NI s seen -> fstep c s l = Some (s', ev) -> NI s' (given [l] ++ seen).
Proof.
  intros c s g a w q [t x] s' ev seen Hr I N H. unfold fstep in H. destruct x; cbn [given app].
  - destruct (fp s t) eqn:P; try discriminate. destruct (client (hpc c) (cs s) t a0) as [[y e]|] eqn:E; try discriminate. injection H as <- <-.
    destruct (client_ok _ Hr _ _ _ _ _ _ (s_ci _ _ _ _ _ _ I) E) as [_ [LV _]]. destruct N as [N1 N2]. split; auto. intros z Z. apply N1. eapply lives_tolib; eauto.
  - destruct (fp s t) eqn:P; try discriminate. unfold call in H. destruct (negb (hidle s t)); try discriminate. destruct (_ && _ && _ && _); try discriminate. injection H as <- <-.
    destruct N as [N1 N2]. split.
    + intros y. cbn. unfold upd. destruct (Nat.eq_dec y e) as [->|]; auto.
    + intros u h. cbn. unfold upd. destruct (Nat.eq_dec u t); [discriminate|]. intros U. right. eauto.
  - destruct (fp s t) eqn:P; try discriminate. unfold call in H. destruct (negb (hidle s t)); try discriminate. destruct (_ && _); try discriminate. injection H as <- <-.
    eapply NI_go; [exact N|auto|reflexivity|discriminate].
  - pose proof N as [N1 N2]. specialize (N2 t). assert (Nf : In (fh s) seen) by (apply N1; apply (s_in _ _ _ _ _ _ I); left; auto).
    unfold tick in H. destruct (fp s t) eqn:P; cbn [wind] in N2; try discriminate;
      try (eapply slot_NI; eauto; discriminate);
      try (eapply again_NI; [|exact H]; apply cas_NI; exact N);
      try (eapply dagain_NI; [|exact H]; apply cas_NI; exact N);
      repeat match type of H with (if ?b then _ else _) = _ => destruct b end;
      try (eapply again_NI; [|exact H]; exact N); try (eapply dagain_NI; [|exact H]; exact N);
      try (injection H as <- <-; eapply NI_go; [exact N|auto|reflexivity|]; intros h';
           repeat match goal with |- context [if ?b then _ else _] => destruct b end; cbn [wind]; first [discriminate|congruence|(intros X; injection X as <-; auto)]; fail).
    + destruct (again s t b r e v) as [[s1 e1]|] eqn:A; try discriminate. injection H as <- <-. eapply again_NI; eauto.
    + injection H as <- <-. apply (NI_go (cas_tail s p e) _ t FIdle); [apply cas_NI; exact N|auto|reflexivity|discriminate].
    + injection H as <- <-. eapply NI_go; [exact N| |reflexivity|discriminate]. intros y. cbn. unfold upd. destruct (Nat.eq_dec y h); auto. discriminate.
    + destruct (slot c s t r 1 0 FIdle) as [[s1 e1]|] eqn:A; try discriminate. injection H as <- <-. eapply slot_NI; [exact N|exact A|discriminate].
Qed.
Lemma given_app : forall a b, given (a ++ b) = given a ++ given b.
Proof. induction a as [|[t x] a IH]; intros b; cbn; auto. destruct x; cbn; rewrite ?IH; auto. Qed.

Lemma run_once : forall c z, reent (hpc c) = false -> z <> 0 -> forall ls s log, NoDup (z :: given ls) -> run (fstep c) (finit z) ls = Some (s, log) -> GI c z s log.
Proof.
  intros c z Hr Z ls s log ND H.
  cut (forall ls s0 l0 seen, GI c z s0 l0 -> NI s0 seen -> NoDup (given ls) -> (forall e, In e seen -> ~ In e (given ls)) -> forall s log, run (fstep c) s0 ls = Some (s, log) -> GI c z s (l0 ++ log)).
  { intros X. inversion ND; subst. apply (X ls (finit z) [] [z]); auto.
    - exists (p0 z), []. split; [reflexivity|]. split; [exact Logic.I|]. split; [exact Logic.I|]. apply SI_init; auto.
    - split; [|cbn; discriminate]. intros e. cbn. unfold upd. destruct (Nat.eq_dec e z); auto. discriminate.
    - intros e [<-|[]]. auto. }
  clear - Hr. induction ls as [|l ls IH]; intros s0 l0 seen G N ND D s log H; cbn [run] in H.
  - injection H as <- <-. rewrite app_nil_r. auto.
  - destruct (fstep c s0 l) as [[s1 e1]|] eqn:E1; try discriminate. destruct (run (fstep c) s1 ls) as [[s2 e2]|] eqn:E2; try discriminate. injection H as <- <-.
    change (l :: ls) with ([l] ++ ls) in ND, D. rewrite given_app in ND, D.
    assert (K : forall x, In x (given [l]) -> ~ In x seen) by (intros x X Y; apply (D x Y); apply in_or_app; auto).
    rewrite app_assoc. apply (IH s1 _ (given [l] ++ seen)); auto.
    + eapply GI_step; eauto. destruct l as [t x]. destruct x; cbn; auto. intros u U. destruct N as [_ N]. apply (K e); [left; auto|]. eapply N; eauto.
    + destruct G as [a [q [_ [_ [_ I]]]]]. eapply NI_step; eauto.
    + clear - ND. induction (given [l]); cbn in ND; auto. inversion ND; auto.
    + intros e X Y. apply in_app_or in X. destruct X as [X|X].
      * clear - ND X Y. induction (given [l]) as [|z m IH]; [destruct X|]. cbn in ND. inversion ND; subst. destruct X as [->|X]; auto. apply H1. apply in_or_app. auto.
      * apply (D e X). apply in_or_app. auto.
Qed.

(** ** The theorems *)
Lemma hf_run : forall c z, reent (hpc c) = false -> z <> 0 -> forall ls s log, strict c = true \/ nt c = 0 \/ NoDup (z :: given ls) ->
  run (fstep c) (finit z) ls = Some (s, log) -> GI c z s log.
Proof.
  intros c z Hr Z ls s log [D|[D|D]] H.
  - apply (run_strict c z Hr (or_introl D) Z ls s log H).
  - apply (run_strict c z Hr (or_intror D) Z ls s log H).
  - apply (run_once c z Hr Z ls s log D H).
Qed.
Lemma hf_linearizable : forall c z, reent (hpc c) = false -> z <> 0 -> forall ls s log, strict c = true \/ nt c = 0 \/ NoDup (z :: given ls) ->
  run (fstep c) (finit z) ls = Some (s, log) -> linearizable fifo_seq mres_dec (FifoMp_Model.mabs0 z) (history (lin_of log)).
Proof.
  intros c z Hr Z ls s log D H. destruct (hf_run c z Hr Z ls s log D H) as [a [q [A _]]]. eapply past_lin; [exact mt_ok|exact A].
Qed.
Lemma hf_accesses : forall c z, reent (hpc c) = false -> z <> 0 -> forall ls s log, strict c = true \/ nt c = 0 \/ NoDup (z :: given ls) ->
  run (fstep c) (finit z) ls = Some (s, log) -> legal_from wnext wok (w0 z) log.
Proof. intros c z Hr Z ls s log D H. destruct (hf_run c z Hr Z ls s log D H) as [a [q [_ [A _]]]]. exact A. Qed.
Lemma hf_hazards : forall c z, reent (hpc c) = false -> z <> 0 -> forall ls s log, strict c = true \/ nt c = 0 \/ NoDup (z :: given ls) ->
  run (fstep c) (finit z) ls = Some (s, log) -> legal_from gnext hp_ok gs0 (hp_of log).
Proof. intros c z Hr Z ls s log D H. destruct (hf_run c z Hr Z ls s log D H) as [a [q [_ [_ [A _]]]]]. exact A. Qed.
(** the memory: a chain from the stub, the tail on it *)
Lemma hf_memory : forall c z, reent (hpc c) = false -> z <> 0 -> forall ls s log, strict c = true \/ nt c = 0 \/ NoDup (z :: given ls) ->
  run (fstep c) (finit z) ls = Some (s, log) -> exists q, chainp (nx s) (fh s) (fh s :: q) /\ In (ft s) (fh s :: q) /\ NoDup (fh s :: q).
Proof. intros c z Hr Z ls s log D H. destruct (hf_run c z Hr Z ls s log D H) as [a [q [_ [_ [_ I]]]]]. exists q. split; [apply I|]. split; apply I. Qed.
