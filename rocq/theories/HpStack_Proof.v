(** Proofs about the stack with hazard pointers. *)
From Coq Require Import Arith List Bool Lia.
From Verif Require Import Lib Obs Lin Hp_Model Hp_Spec HpPend_Proof HpSafe_Proof HpClient_Model HpClient_Proof HpStack_Model HpStack_Spec.
From Verif Require Import HpOnce_Proof Stack_Spec.
From Verif Require Stack_Proof.
Import ListNotations.
Local Arguments upd : simpl never.
Local Arguments Nat.eqb : simpl never.
Local Arguments client : simpl never.

Lemma lin_app : forall a b, lin_of (a ++ b) = lin_of a ++ lin_of b.
Proof. induction a as [|[] a IH]; cbn; intros; auto. rewrite IH. auto. Qed.
Lemma hp_app : forall a b, hp_of (a ++ b) = hp_of a ++ hp_of b.
Proof. induction a as [|[] a IH]; cbn; intros; auto. rewrite IH. auto. Qed.
Lemma lin_HE : forall ev, lin_of (map HE ev) = [].
Proof. induction ev; cbn; auto. Qed.
Lemma hp_HE : forall ev, hp_of (map HE ev) = ev.
Proof. induction ev; cbn; auto. rewrite IHev. auto. Qed.

(** ** Invariant *)
Definition pushing (p : spc) : option nat := match p with Su1 _ e | Su2 _ e _ | Su3 _ e _ => Some e | _ => None end.
Definition phase_of (p : spc) : phase Stack_Model.sop Stack_Model.sres :=
  match p with
  | SIdle => Lin.Idle
  | Su1 b e | Su2 b e _ | Su3 b e _ => Called (if b then TryPush e else Push e)
  | Sp1 b _ | Sp2 b _ _ | Sp3 b _ _ | Sp4 b _ _ | Sp5 b _ _ _ => Called (if b then TryPop else Pop)
  | Sp6 _ _ | Sp7 _ _ | Sp8 _ _ | Sp9 _ _ => Called Pop
  | Sp10 _ => Called TryPop
  end.
(** an entry being pushed *)
Definition fresh (s : sst) (w : wst) (q : list nat) (e : nat) : Prop :=
  e <> 0 /\ lf (cs s) e = Lib /\ w_live w e = true /\ ~ In e q.
(** an entry that thread [t] may access *)
Definition valid (s : sst) (g : gs) (w : wst) (t r e : nat) : Prop :=
  hold (cs s) g t r 0 e /\ e <> 0 /\ lf (cs s) e <> Own /\ w_live w e = true /\ forall u, pushing (sp s u) <> Some e.
Definition TI (s : sst) (g : gs) (w : wst) (q : list nat) (d : nat -> bool) (t : nat) : Prop :=
  match sp s t with
  | Su1 b e => fresh s w q e /\ (b = true -> w_arg w t = e)
  | Su2 b e h => fresh s w q e /\ (b = true -> w_arg w t = e) /\ (d t = true \/ hd s = h)
  | Su3 b e h => fresh s w q e /\ (b = true -> w_arg w t = e) /\ nx s e = h /\ (d t = true \/ hd s = h)
  | Sp2 b r e => e <> 0 /\ (d t = true \/ hd s = e)
  | Sp3 b r e => pub (cs s) g t r 0 e /\ e <> 0 /\ (d t = true \/ hd s = e)
  | Sp4 b r e => valid s g w t r e /\ (b = true -> d t = true \/ hd s = e)
  | Sp5 b r e n => valid s g w t r e /\ nx s e = n /\ (b = true -> d t = true \/ hd s = e)
  | Sp6 r e => e <> 0
  | Sp7 r e => pub (cs s) g t r 0 e /\ e <> 0
  | Sp9 r e => pub (cs s) g t r 0 e
  | Sp10 r => d t = true
  | _ => True
  end.
Record SI (c : cfg) (s : sst) (g : gs) (a : sabs) (w : wst) (q : list nat) : Prop := {
  s_ci : CI c (cs s) g;
  s_q : fst (a_lin a) = q;
  s_ch : chainp (nx s) (hd s) q;
  s_nd : NoDup q;
  s_in : forall e, In e q -> lf (cs s) e = Lib /\ w_live w e = true;
  s_ph : forall t, snd (a_lin a) t = phase_of (sp s t);
  s_un : forall t u e, pushing (sp s t) = Some e -> pushing (sp s u) = Some e -> t = u;
  s_ptr : forall h, w_ptr w h = obj (cs s) h;
  s_th : forall t, TI s g w q (a_dirty a) t }.

Lemma chainp_ext : forall nx nx' q h, (forall e, In e q -> nx' e = nx e) -> chainp nx h q -> chainp nx' h q.
Proof. induction q as [|e q IH]; cbn; intros h E C; auto. destruct C as [-> [N C]]. split; auto. split; auto. rewrite E by auto. auto. Qed.

Lemma TI_fresh : forall s g w q d t e, TI s g w q d t -> pushing (sp s t) = Some e -> fresh s w q e.
Proof. intros s g w q d t e T P. unfold TI in T. destruct (sp s t); cbn in P; try discriminate; injection P as <-; tauto. Qed.

Lemma TI_frame : forall s s' g g' w w' q q' d d' u, TI s g w q d u -> sp s' u = sp s u ->
  (forall r p, pub (cs s) g u r 0 p -> pub (cs s') g' u r 0 p) ->
  (forall r e, valid s g w u r e -> valid s' g' w' u r e /\ nx s' e = nx s e) ->
  (forall e, pushing (sp s u) = Some e -> fresh s w q e -> fresh s' w' q' e /\ nx s' e = nx s e) ->
  (d' u = true \/ (d' u = d u /\ hd s' = hd s)) -> w_arg w' u = w_arg w u -> TI s' g' w' q' d' u.
Proof.
  intros s s' g g' w w' q q' d d' u T E P V F D A. unfold TI in *. rewrite E.
  assert (D2 : forall h, d u = true \/ hd s = h -> d' u = true \/ hd s' = h) by (intros h; destruct D as [D|[D1 D2]]; [auto|rewrite D1, D2; auto]).
  destruct (sp s u); auto; cbn [pushing] in F; rewrite ?A.
  - destruct T as [T1 T2]. destruct (F _ eq_refl T1). auto.
  - destruct T as [T1 [T2 T3]]. destruct (F _ eq_refl T1). auto.
  - destruct T as [T1 [T2 [T3 T4]]]. destruct (F _ eq_refl T1) as [F1 F2]. rewrite F2. auto.
  - destruct T. auto.
  - destruct T as [T1 [T2 T3]]. auto.
  - destruct T as [T1 T2]. destruct (V _ _ T1). auto.
  - destruct T as [T1 [T2 T3]]. destruct (V _ _ T1) as [V1 V2]. rewrite V2. auto.
  - destruct T. auto.
  - destruct D as [->|[-> _]]; auto.
Qed.

(** the pieces that most steps leave alone *)
Lemma SI_local : forall c s g a w q t p w', SI c s g a w q -> pushing p = pushing (sp s t) -> phase_of p = phase_of (sp s t) -> w' = w ->
  TI (go s t p) g w q (a_dirty a) t -> SI c (go s t p) g a w' q.
Proof.
  intros c s g a w q t p w' I Ep Eph -> T. destruct I.
  assert (Pu : forall u, pushing (sp (go s t p) u) = pushing (sp s u)).
  { intros u. cbn. unfold upd. destruct (Nat.eq_dec u t) as [->|]; auto. }
  constructor; auto.
  - intros u. rewrite s_ph0. cbn. unfold upd. destruct (Nat.eq_dec u t) as [->|]; auto.
  - intros u v e. rewrite !Pu. apply s_un0.
  - intros u. destruct (Nat.eq_dec u t) as [->|N]; auto.
    apply (TI_frame s (go s t p) g g w w q q (a_dirty a) (a_dirty a) u); auto.
    + cbn. apply upd_other; auto.
    + intros r e V. split; auto. destruct V as [V1 [V2 [V3 [V4 V5]]]]. unfold valid. cbn [go cs]. repeat split; auto; try apply V1. intros v. rewrite Pu. auto.
Qed.

Lemma lives_w : forall c, reent c = false -> forall s g t a s' ev w, CI c s g -> client c s t a = Some (s', ev) -> (forall h, w_ptr w h = obj s h) ->
  (forall h, w_ptr (gfold wnext (map HE ev) w) h = obj s' h) /\ (forall u, w_arg (gfold wnext (map HE ev) w) u = w_arg w u) /\
  (forall e, w_live w e = true -> lf s' e <> Own -> w_live (gfold wnext (map HE ev) w) e = true).
Proof.
  intros c Hr s g t a s' ev w I H W. unfold client in H.
  assert (E : exists ob L h, step c (hps s) (t, a) = Some (h, ev) /\ s' = mkc h (landed ob L ev) ob /\
    ((ob = obj s /\ forall r k d p, a <> ARetire r k d p /\ a <> AFree r k d p) \/ exists r k d p, (a = ARetire r k d p \/ a = AFree r k d p) /\ ob = upd (obj s) k p)).
  { destruct a; try discriminate;
      try (destruct (step c (hps s) (t, _)) as [[h0 e]|] eqn:E; try discriminate; injection H as <- <-; do 3 eexists; split; [reflexivity|]; split; [reflexivity|]; left; split; auto; split; discriminate);
      (destruct (negb (p =? 0) && retirable (lf s p)); try discriminate; destruct (step c (hps s) (t, _)) as [[h0 e]|] eqn:E; try discriminate; injection H as <- <-;
       do 3 eexists; split; [reflexivity|]; split; [reflexivity|]; right; do 4 eexists; split; [|reflexivity]; eauto). }
  destruct E as [ob [L [h [E [-> D]]]]]. cbn [obj lf].
  destruct D as [[-> DN]|[r [k [d [p [DA ->]]]]]].
  - destruct (step_ev1 _ _ _ _ _ E) as [->|[e ->]]; [cbn; auto|].
    assert (NR : forall u r k d p, e <> ERet u r k d p).
    { intros u r k d p ->. destruct (step_ret c (hps s) t a h _ u r k d p Hr E (or_introl eq_refl)) as [_ [[->| ->] _]]; destruct (DN r k d p); congruence. }
    destruct e; cbn; auto; try (exfalso; eapply NR; eauto; fail).
    split; auto. split; auto. intros e. rewrite W. unfold upd. destruct (Nat.eq_dec e (obj s h0)); auto.
  - pose proof (step_ret2 _ _ _ _ _ _ _ _ _ _ DA E) as ->. cbn. split; auto. intros x. unfold upd. rewrite W. auto.
Qed.

(** a step of ck_hp.c by [t] (at the program counter [p] afterwards) leaves the other threads and the stack alone *)
Lemma SI_client : forall c, reent c = false -> forall s g a w q t act x ev p, SI c s g a w q -> client c (cs s) t act = Some (x, ev) ->
  pushing p = pushing (sp s t) -> phase_of p = phase_of (sp s t) ->
  TI (go (set_cs s x) t p) (gf ev g) (gfold wnext (map HE ev) w) q (a_dirty a) t ->
  SI c (go (set_cs s x) t p) (gf ev g) a (gfold wnext (map HE ev) w) q.
Proof.
  intros c Hr s g a w q t act x ev p I H Ep Eph T. destruct I.
  destruct (client_ok c Hr _ _ _ _ _ _ s_ci0 H) as [I' [LV [PB HB]]]. destruct (lives_w c Hr _ _ _ _ _ _ w s_ci0 H s_ptr0) as [W1 [W2 W3]].
  assert (Pu : forall u, pushing (sp (go (set_cs s x) t p) u) = pushing (sp s u)).
  { intros u. cbn. unfold upd. destruct (Nat.eq_dec u t) as [->|]; auto. }
  assert (LB : forall e, lf (cs s) e = Lib -> w_live w e = true -> lf x e = Lib /\ w_live (gfold wnext (map HE ev) w) e = true).
  { intros e A B. pose proof (lives_lib _ _ _ _ LV A). split; auto. apply W3; auto. congruence. }
  constructor; auto.
  - intros e E. destruct (s_in0 e E). apply LB; auto.
  - intros u. rewrite s_ph0. cbn. unfold upd. destruct (Nat.eq_dec u t) as [->|]; auto.
  - intros u v e. rewrite !Pu. apply s_un0.
  - intros u. destruct (Nat.eq_dec u t) as [->|N]; auto.
    apply (TI_frame s (go (set_cs s x) t p) g _ w _ q q (a_dirty a) (a_dirty a) u); auto.
    + cbn. apply upd_other; auto.
    + intros r e V. split; auto. destruct V as [V1 [V2 [V3 [V4 V5]]]]. pose proof (lives_keep _ _ _ _ _ _ _ LV V1 V3) as LK.
      split; [apply HB; auto|]. split; auto. split; auto. split; [apply W3; auto|]. intros v. rewrite Pu. auto.
    + intros e _ [F1 [F2 [F3 F4]]]. split; auto. destruct (LB e F2 F3). split; auto.
Qed.
Lemma pub_of_set : forall c, reent c = false -> forall s g t r p x ev, CI c s g -> client c s t (ASet r 0 p) = Some (x, ev) -> pub x (gf ev g) t r 0 p.
Proof. intros c Hr s g t r p x ev I H. destruct (set_ok c Hr _ _ _ _ _ _ _ _ I H) as [_ [_ [_ [P _]]]]. exact P. Qed.

Lemma chain_head : forall nx q h, chainp nx h q -> h <> 0 -> exists q', q = h :: q' /\ chainp nx (nx h) q'.
Proof. intros nx q h C N. destruct q as [|e q]; cbn in C; [tauto|]. destruct C as [-> [_ C]]. eauto. Qed.
Lemma chain_nil : forall nx q, chainp nx 0 q -> q = [].
Proof. intros nx q C. destruct q; auto. cbn in C. destruct C as [<- [C _]]. tauto. Qed.

(** reading the head after publishing it validates *)
Lemma validate : forall c s g a w q t r, SI c s g a w q -> pub (cs s) g t r 0 (hd s) -> hd s <> 0 -> valid s g w t r (hd s).
Proof.
  intros c s g a w q t r I P N. destruct I. destruct (chain_head _ _ _ s_ch0 N) as [q' [Q _]].
  destruct (s_in0 (hd s)) as [L W]; [rewrite Q; left; auto|].
  split; [eapply hold_live; eauto; congruence|]. split; auto. split; [congruence|]. split; auto.
  intros u U. destruct (TI_fresh _ _ _ _ _ _ _ (s_th0 u) U) as [_ [_ [_ F]]]. apply F. rewrite Q. left; auto.
Qed.

Definition step_goal (c : cfg) (s' : sst) (ev : list sevt) (g : gs) (a : sabs) (w : wst) : Prop :=
  exists a' q', accepts stk_step a (lin_of ev) = Some a' /\ legal_from wnext wok w ev /\ legal_from gnext hp_ok g (hp_of ev) /\
    SI c s' (gf (hp_of ev) g) a' (gfold wnext ev w) q'.

Lemma phase_eta : forall a, a_lin a = (fst (a_lin a), snd (a_lin a)).
Proof. intros a. destruct (a_lin a); auto. Qed.

Lemma fin_acc : forall a t o r q q', fst (a_lin a) = q -> snd (a_lin a) t = Called o -> lifo q o r = Some q' ->
  match r with RB false => a_dirty a t = true | RV None => q = [] \/ a_dirty a t = true | _ => True end ->
  accepts stk_step a [Lin t r; Ret t r] =
    Some {| a_lin := (q', upd (upd (snd (a_lin a)) t (Done r)) t Lin.Idle); a_dirty := if changes r then fun _ => true else a_dirty a |}.
Proof.
  intros a t o r q q' Q P L D. cbn [accepts]. unfold stk_step at 1. rewrite (phase_eta a), Q. cbn [lstep fst]. rewrite P, L.
  assert (K : (match r with RB false => a_dirty a t | RV None => match q with [] => true | _ => a_dirty a t end | _ => true end) = true).
  { destruct r as [|[]|[v|]| |]; auto. destruct q; auto. destruct D as [D|D]; [discriminate|auto]. }
  rewrite K. unfold stk_step. cbn [a_lin lstep snd]. rewrite upd_same. destruct (Stack_Model.sres_dec r r); [|tauto]. reflexivity.
Qed.

Section Step.
Variables (c : cfg) (s : sst) (g : gs) (a : sabs) (w : wst) (q : list nat).
Hypothesis I : SI c s g a w q.
Hypothesis Hr : reent c = false.

(** a step without events *)
Lemma quiet_step : forall t p, pushing p = pushing (sp s t) -> phase_of p = phase_of (sp s t) ->
  TI (go s t p) g w q (a_dirty a) t -> step_goal c (go s t p) [] g a w.
Proof. intros t p P1 P2 T. exists a, q. split; [reflexivity|]. split; [exact Logic.I|]. split; [exact Logic.I|]. eapply SI_local; eauto. Qed.
Lemma acc_step : forall t p e, pushing p = pushing (sp s t) -> phase_of p = phase_of (sp s t) -> w_live w e = true -> e <> 0 ->
  TI (go s t p) g w q (a_dirty a) t -> step_goal c (go s t p) [AC t e] g a w.
Proof. intros t p e P1 P2 A N T. exists a, q. split; [reflexivity|]. split; [cbn; auto|]. split; [exact Logic.I|]. eapply SI_local; eauto. Qed.

Lemma slot_step : forall t r p k s' ev, slot c s t r p k = Some (s', ev) -> pushing k = pushing (sp s t) -> phase_of k = phase_of (sp s t) ->
  (forall x g' w', pub x g' t r 0 p -> TI (go (set_cs s x) t k) g' w' q (a_dirty a) t) -> step_goal c s' ev g a w.
Proof.
  intros t r p k s' ev H P1 P2 T. unfold slot in H. destruct (client c (cs s) t (ASet r 0 p)) as [[x e]|] eqn:E; try discriminate. injection H as <- <-.
  pose proof (s_ci _ _ _ _ _ _ I) as CI0. pose proof (pub_of_set c Hr _ _ _ _ _ _ _ CI0 E) as PB.
  exists a, q. rewrite lin_HE, hp_HE. split; [reflexivity|].
  assert (LG : legal_from gnext hp_ok g e).
  { unfold client in E. destruct (step c (hps (cs s)) (t, ASet r 0 p)) as [[h e']|] eqn:E2; try discriminate. injection E as <- <-. eapply HI_step; eauto. apply CI0. }
  assert (LW : forall ev w, legal_from wnext wok w (map HE ev)) by (clear; induction ev; cbn; auto).
  split; auto. split; auto. eapply SI_client; eauto.
Qed.

(** a step that ends an operation of thread [t] without touching the stack *)
Lemma empty_step : forall t (b : bool), pushing (sp s t) = None -> phase_of (sp s t) = Called (if b then TryPop else Pop) -> hd s = 0 ->
  step_goal c (go s t SIdle) [LE (Lin t (RV None)); LE (Ret t (RV None))] g a w.
Proof.
  intros t b P1 P2 Z. pose proof (s_ch _ _ _ _ _ _ I) as C. rewrite Z in C. apply chain_nil in C.
  pose proof (s_q _ _ _ _ _ _ I) as Q. rewrite C in Q.
  eexists. exists q. split. { cbn [lin_of]. eapply fin_acc; eauto. { rewrite (s_ph _ _ _ _ _ _ I). exact P2. } destruct b; reflexivity. }
  split; [cbn; auto|]. split; [cbn; auto|]. cbn [hp_of gfold fold_left wnext changes]. rewrite C in *. destruct I.
  assert (Pu : forall u, pushing (sp (go s t SIdle) u) = pushing (sp s u)).
  { intros u. cbn. unfold upd. destruct (Nat.eq_dec u t) as [->|]; auto. }
  constructor; cbn [a_lin a_dirty fst snd go cs hd nx]; auto.
  - intros u. cbn. unfold upd. destruct (Nat.eq_dec u t) as [->|]; auto.
  - intros u v e. rewrite !Pu. apply s_un0.
  - intros u. destruct (Nat.eq_dec u t) as [->|N]; [unfold TI; cbn; rewrite upd_same; auto|].
    apply (TI_frame s (go s t SIdle) g _ w _ [] [] (a_dirty a) (a_dirty a) u); auto.
    + cbn. apply upd_other; auto.
    + intros r e V. split; auto. destruct V as [V1 [V2 [V3 [V4 V5]]]]. split; auto. split; auto. split; auto. split; auto. intros v. rewrite Pu. auto.
Qed.

Lemma push_step : forall t b e, sp s t = Su3 b e (hd s) -> 
  step_goal c (go (set_hd s e) t SIdle) [LE (Lin t (if b then RB true else RU)); LE (Ret t (if b then RB true else RU))] g a w.
Proof.
  intros t b e P. pose proof (s_th _ _ _ _ _ _ I t) as T. unfold TI in T. rewrite P in T. destruct T as [[F1 [F2 [F3 F4]]] [T2 [T3 T4]]].
  eexists. exists (e :: q). split. { cbn [lin_of]. eapply fin_acc. { apply (s_q _ _ _ _ _ _ I). } { rewrite (s_ph _ _ _ _ _ _ I), P. reflexivity. } { destruct b; reflexivity. } destruct b; exact Logic.I. }
  assert (Ew : wnext (wnext w (LE (Lin t (if b then RB true else RU)))) (LE (Ret t (if b then RB true else RU))) = w) by (destruct b; reflexivity).
  split; [cbn; auto|]. split; [cbn; auto|]. cbn [hp_of gfold fold_left]. rewrite Ew.
  replace (if changes (if b then RB true else RU) then fun _ => true else a_dirty a) with (fun _ : nat => true) by (destruct b; reflexivity).
  destruct I.
  assert (Pu : forall u, u <> t -> pushing (sp (go (set_hd s e) t SIdle) u) = pushing (sp s u)) by (intros; cbn; rewrite upd_other; auto).
  assert (Pt : pushing (sp (go (set_hd s e) t SIdle) t) = None) by (cbn; rewrite upd_same; auto).
  assert (Pe : forall u, u <> t -> pushing (sp s u) <> Some e) by (intros u N U; apply N; apply (s_un0 u t e); auto; rewrite P; reflexivity).
  constructor; cbn [a_lin a_dirty fst snd go cs hd nx set_hd]; auto.
  - cbn. split; auto. split; auto. rewrite T3. auto.
  - constructor; auto.
  - intros x [<-|X]; auto.
  - intros u. cbn. unfold upd. destruct (Nat.eq_dec u t) as [->|]; auto.
  - intros u v x A B. destruct (Nat.eq_dec u t) as [->|N]; [rewrite Pt in A; discriminate|]. destruct (Nat.eq_dec v t) as [->|N']; [rewrite Pt in B; discriminate|].
    rewrite Pu in A, B by auto. eauto.
  - intros u. destruct (Nat.eq_dec u t) as [->|N]; [unfold TI; cbn; rewrite upd_same; auto|].
    apply (TI_frame s (go (set_hd s e) t SIdle) g _ w _ q (e :: q) (a_dirty a) (fun _ => true) u); auto.
    + cbn. apply upd_other; auto.
    + intros r x V. split; auto. destruct V as [V1 [V2 [V3 [V4 V5]]]]. split; auto. split; auto. split; auto. split; auto.
      intros v. destruct (Nat.eq_dec v t) as [->|N']; [rewrite Pt; discriminate|]. rewrite Pu; auto.
    + intros x X [X1 [X2 [X3 X4]]]. split; auto. split; auto. split; auto. split; auto. intros [->|Y]; [eapply Pe; eauto|auto].
Qed.

Lemma pushfail_step : forall t e h, sp s t = Su3 true e h -> hd s <> h ->
  step_goal c (go (give s e Own) t SIdle) [LE (Lin t (RB false)); LE (Ret t (RB false))] g a w.
Proof.
  intros t e h P NE. pose proof (s_th _ _ _ _ _ _ I t) as T. unfold TI in T. rewrite P in T. destruct T as [[F1 [F2 [F3 F4]]] [T2 [T3 T4]]]. specialize (T2 eq_refl).
  assert (Dt : a_dirty a t = true) by tauto.
  eexists. exists q. split. { cbn [lin_of]. eapply fin_acc. { apply (s_q _ _ _ _ _ _ I). } { rewrite (s_ph _ _ _ _ _ _ I), P. reflexivity. } { reflexivity. } exact Dt. }
  split; [cbn; auto|]. split; [cbn; auto|]. cbn [hp_of gfold fold_left wnext changes]. rewrite T2. destruct I.
  set (s' := go (give s e Own) t SIdle).
  assert (Pu : forall u, u <> t -> pushing (sp s' u) = pushing (sp s u)) by (intros; cbn; rewrite upd_other; auto).
  assert (Pt : pushing (sp s' t) = None) by (cbn; rewrite upd_same; auto).
  assert (Pe : forall u, u <> t -> pushing (sp s u) <> Some e) by (intros u N U; apply N; apply (s_un0 u t e); auto; rewrite P; reflexivity).
  constructor; cbn [a_lin a_dirty fst snd w_live w_ptr w_arg]; auto.
  - apply life_ok; auto. congruence.
  - intros x X. assert (x <> e) by (intros ->; tauto). cbn. rewrite !upd_other by auto. auto.
  - intros u. cbn. unfold upd. destruct (Nat.eq_dec u t) as [->|]; auto.
  - intros u v x A B. destruct (Nat.eq_dec u t) as [->|N]; [rewrite Pt in A; discriminate|]. destruct (Nat.eq_dec v t) as [->|N']; [rewrite Pt in B; discriminate|].
    rewrite Pu in A, B by auto. eauto.
  - intros u. destruct (Nat.eq_dec u t) as [->|N]; [unfold TI; cbn; rewrite upd_same; auto|].
    apply (TI_frame s s' g _ w _ q q (a_dirty a) (a_dirty a) u); auto.
    + cbn. apply upd_other; auto.
    + intros r x V. split; auto. destruct V as [V1 [V2 [V3 [V4 V5]]]].
      assert (x <> e) by (intros ->; apply (V5 t); rewrite P; reflexivity).
      split; [exact V1|]. split; auto. split; [cbn; rewrite upd_other; auto|]. split; [cbn; rewrite upd_other; auto|].
      intros v. destruct (Nat.eq_dec v t) as [->|N']; [rewrite Pt; discriminate|]. rewrite Pu; auto.
    + intros x X [X1 [X2 [X3 X4]]]. split; auto. assert (x <> e) by (intros ->; eapply Pe; eauto).
      split; auto. split; [cbn; rewrite upd_other; auto|]. split; auto. cbn. rewrite upd_other; auto.
Qed.

Lemma pop_step : forall t b r e n, sp s t = Sp5 b r e n -> hd s = e ->
  step_goal c (go (give (set_hd s n) e Out) t SIdle) [LE (Lin t (RV (Some e))); LE (Ret t (RV (Some e)))] g a w.
Proof.
  intros t b r e n P He. pose proof (s_th _ _ _ _ _ _ I t) as T. unfold TI in T. rewrite P in T. destruct T as [[V1 [V2 [V3 [V4 V5]]]] [T2 T3]].
  pose proof (s_ch _ _ _ _ _ _ I) as C. rewrite He in C. destruct (chain_head _ _ _ C V2) as [q' [Eq C']]. rewrite T2 in C'.
  pose proof (s_q _ _ _ _ _ _ I) as Q.
  eexists. exists q'. split. { cbn [lin_of]. eapply fin_acc. { exact Q. } { rewrite (s_ph _ _ _ _ _ _ I), P. reflexivity. } { rewrite Eq. destruct b; cbn; rewrite Nat.eqb_refl; reflexivity. } exact Logic.I. }
  split; [cbn; auto|]. split; [cbn; auto|]. cbn [hp_of gfold fold_left wnext changes].
  set (s' := go (give (set_hd s n) e Out) t SIdle). destruct I.
  assert (Le : lf (cs s) e = Lib) by (apply s_in0; rewrite Eq; left; auto).
  assert (Pu : forall u, pushing (sp s' u) = pushing (sp s u)).
  { intros u. cbn. unfold upd. destruct (Nat.eq_dec u t) as [->|]; auto. rewrite P. auto. }
  rewrite Eq in s_nd0. inversion s_nd0 as [|? ? N1 N2]. subst x l.
  constructor; cbn [a_lin a_dirty fst snd]; auto.
  - apply life_ok; auto. cbn. congruence.
  - intros x X. assert (x <> e) by (intros ->; tauto). cbn. rewrite !upd_other by auto. apply s_in0. rewrite Eq. right; auto.
  - intros u. cbn. unfold upd. destruct (Nat.eq_dec u t) as [->|]; auto.
  - intros u v x. rewrite !Pu. eauto.
  - intros u. destruct (Nat.eq_dec u t) as [->|N]; [unfold TI; cbn; rewrite upd_same; auto|].
    apply (TI_frame s s' g _ w _ q q' (a_dirty a) (fun _ => true) u); auto.
    + cbn. apply upd_other; auto.
    + intros r' x [X1 [X2 [X3 [X4 X5]]]]. split; auto. split; [exact X1|]. split; auto. split.
      { cbn. unfold upd. destruct (Nat.eq_dec x e); [discriminate|auto]. } split; auto. intros v. rewrite Pu. auto.
    + intros x X [X1 [X2 [X3 X4]]]. split; auto. assert (x <> e) by (intros ->; eapply V5; eauto).
      split; auto. split; [cbn; rewrite upd_other; auto|]. split; auto. intros Y. apply X4. rewrite Eq. right; auto.
Qed.

Lemma write_step : forall t b e h, sp s t = Su2 b e h -> step_goal c (go (set_nx s e h) t (Su3 b e h)) [AC t e] g a w.
Proof.
  intros t b e h P. pose proof (s_th _ _ _ _ _ _ I t) as T. unfold TI in T. rewrite P in T. destruct T as [[F1 [F2 [F3 F4]]] [T2 T3]].
  exists a, q. split; [reflexivity|]. split; [cbn; auto|]. split; [exact Logic.I|]. cbn [hp_of gfold fold_left wnext].
  set (s' := go (set_nx s e h) t (Su3 b e h)). destruct I.
  assert (Pu : forall u, pushing (sp s' u) = pushing (sp s u)).
  { intros u. cbn. unfold upd. destruct (Nat.eq_dec u t) as [->|]; auto. rewrite P. auto. }
  constructor; auto.
  - eapply chainp_ext; [|apply s_ch0]. intros x X. cbn. rewrite upd_other; auto. intros ->. tauto.
  - intros u. rewrite s_ph0. cbn. unfold upd. destruct (Nat.eq_dec u t) as [->|]; auto. rewrite P. auto.
  - intros u v x. rewrite !Pu. eauto.
  - intros u. destruct (Nat.eq_dec u t) as [->|N].
    + unfold TI. cbn. rewrite upd_same. split; [split; auto|]. split; auto. split; auto. apply upd_same.
    + apply (TI_frame s s' g _ w _ q q (a_dirty a) (a_dirty a) u); auto.
      * cbn. apply upd_other; auto.
      * intros r' x [X1 [X2 [X3 [X4 X5]]]]. split. { split; auto. split; auto. split; auto. split; auto. intros v. rewrite Pu. auto. }
        cbn. apply upd_other. intros ->. apply (X5 t). rewrite P. reflexivity.
      * intros x X F. split; auto. cbn. apply upd_other. intros ->. apply N. apply (s_un0 u t e); auto. rewrite P. reflexivity.
Qed.

Lemma leave_step : forall t r s' ev, sp s t = Sp10 r -> slot c s t r 0 SIdle = Some (s', ev) ->
  step_goal c s' (ev ++ [LE (Lin t (RV None)); LE (Ret t (RV None))]) g a w.
Proof.
  intros t r s' ev P H. pose proof (s_th _ _ _ _ _ _ I t) as T. unfold TI in T. rewrite P in T.
  unfold slot in H. destruct (client c (cs s) t (ASet r 0 0)) as [[x e]|] eqn:E; try discriminate. injection H as <- <-.
  pose proof (s_ci _ _ _ _ _ _ I) as CI0. destruct (set_ok c Hr _ _ _ _ _ _ _ _ CI0 E) as [I' [EL [-> [PB [_ [PO HO]]]]]].
  assert (LG : legal_from gnext hp_ok g [ESet t r 0 0]).
  { unfold client in E. destruct (step c (hps (cs s)) (t, ASet r 0 0)) as [[h e']|] eqn:E2; try discriminate. injection E as <- <-. eapply HI_step; eauto. apply CI0. }
  assert (Eo : obj x = obj (cs s)).
  { unfold client in E. destruct (step c (hps (cs s)) (t, ASet r 0 0)) as [[h e']|] eqn:E2; try discriminate. injection E as <- _. reflexivity. }
  eexists. exists q. split. { cbn [lin_of map app]. eapply fin_acc. { apply (s_q _ _ _ _ _ _ I). } { rewrite (s_ph _ _ _ _ _ _ I), P. reflexivity. } { reflexivity. } cbn. auto. }
  split; [cbn; auto|]. split; [exact LG|]. cbn [map app hp_of gfold fold_left wnext changes]. cbn [gfold fold_left] in I', PO, HO. set (s' := go (set_cs s x) t SIdle). destruct I.
  assert (Pu : forall u, pushing (sp s' u) = pushing (sp s u)).
  { intros u. cbn. unfold upd. destruct (Nat.eq_dec u t) as [->|]; auto. rewrite P. auto. }
  constructor; cbn [a_lin a_dirty fst snd]; auto.
  - intros y Y. cbn. rewrite EL. auto.
  - intros u. cbn. unfold upd. destruct (Nat.eq_dec u t) as [->|]; auto.
  - intros u v y. rewrite !Pu. eauto.
  - intros y. cbn. rewrite Eo. auto.
  - intros u. destruct (Nat.eq_dec u t) as [->|N]; [unfold TI; cbn; rewrite upd_same; auto|].
    apply (TI_frame s s' g _ w _ q q (a_dirty a) (a_dirty a) u); auto.
    + cbn. apply upd_other; auto.
    + intros r' y [X1 [X2 [X3 [X4 X5]]]]. split; auto. split; [apply HO; auto|]. split; auto. split; [cbn; rewrite EL; auto|]. split; auto. intros v. rewrite Pu. auto.
    + intros y Y [X1 [X2 [X3 X4]]]. split; auto. split; auto. split; [cbn; rewrite EL; auto|]. split; auto.
Qed.

Lemma call_step : forall t act s' ev, sp s t = SIdle -> call s t act = Some (s', ev) -> step_goal c s' ev g a w.
Proof.
  intros t act s' ev P H. unfold call in H. destruct (negb (hidle s t)); try discriminate. destruct act as [|b e|b r|]; try discriminate.
  - destruct (negb (e =? 0) && owned s e) eqn:G; try discriminate. injection H as <- <-. apply andb_true_iff in G. destruct G as [G1 G2].
    apply negb_true_iff, Nat.eqb_neq in G1. unfold owned in G2. assert (Lo : lf (cs s) e = Own) by (destruct (lf (cs s) e); auto; discriminate).
    pose proof (s_ph _ _ _ _ _ _ I t) as Ph. rewrite P in Ph. cbn in Ph.
    exists {| a_lin := (q, upd (snd (a_lin a)) t (Called (if b then TryPush e else Push e))); a_dirty := upd (a_dirty a) t false |}, q.
    split. { cbn [lin_of accepts]. unfold stk_step. rewrite (phase_eta a), (s_q _ _ _ _ _ _ I). cbn [lstep fst snd]. rewrite Ph. reflexivity. }
    split; [cbn; auto|]. split; [cbn; auto|]. cbn [hp_of gfold fold_left].
    assert (Ew : wnext w (LE (Call t (if b then TryPush e else Push e))) = mkw (upd (w_live w) e true) (w_ptr w) (upd (w_arg w) t e)) by (destruct b; reflexivity).
    rewrite Ew. set (s' := give (go s t (Su1 b e)) e Lib). destruct I.
    assert (Pu : forall u, u <> t -> pushing (sp s' u) = pushing (sp s u)) by (intros; cbn; rewrite upd_other; auto).
    assert (Pt : pushing (sp s' t) = Some e) by (cbn; rewrite upd_same; auto).
    assert (Nq : ~ In e q) by (intros X; destruct (s_in0 e X); congruence).
    assert (Np : forall u, pushing (sp s u) <> Some e) by (intros u U; destruct (TI_fresh _ _ _ _ _ _ _ (s_th0 u) U) as [_ [X _]]; congruence).
    constructor; cbn [a_lin a_dirty fst snd w_live w_ptr w_arg]; auto.
    + apply life_ok; auto. cbn. congruence.
    + intros x X. assert (x <> e) by (intros ->; tauto). cbn. rewrite !upd_other by auto. auto.
    + intros u. cbn. unfold upd. destruct (Nat.eq_dec u t) as [->|]; auto.
    + intros u v x A B. destruct (Nat.eq_dec u t) as [->|N], (Nat.eq_dec v t) as [->|N']; auto; rewrite ?Pt in *; rewrite ?Pu in * by auto.
      * injection A as <-. exfalso. eapply Np; eauto.
      * injection B as <-. exfalso. eapply Np; eauto.
      * eauto.
    + intros u. destruct (Nat.eq_dec u t) as [->|N].
      * unfold TI. cbn. rewrite upd_same. unfold fresh. cbn. rewrite !upd_same. auto.
      * apply (TI_frame s s' g _ w _ q q (a_dirty a) _ u); auto.
        -- cbn. apply upd_other; auto.
        -- intros r' x [X1 [X2 [X3 [X4 X5]]]]. split; auto. assert (x <> e) by congruence.
           split; [exact X1|]. split; auto. split; [cbn; rewrite upd_other; auto|]. split; [cbn; rewrite upd_other; auto|].
           intros v. destruct (Nat.eq_dec v t) as [->|N']; [rewrite Pt; congruence|]. rewrite Pu; auto.
        -- intros x X [X1 [X2 [X3 X4]]]. split; auto. assert (x <> e) by congruence. split; auto. split; [cbn; rewrite upd_other; auto|]. split; auto. cbn. rewrite upd_other; auto.
        -- right. rewrite upd_other; auto.
        -- cbn. apply upd_other; auto.
  - destruct (mine (hps (cs s)) t r); try discriminate. injection H as <- <-.
    pose proof (s_ph _ _ _ _ _ _ I t) as Ph. rewrite P in Ph. cbn in Ph.
    exists {| a_lin := (q, upd (snd (a_lin a)) t (Called (if b then TryPop else Pop))); a_dirty := upd (a_dirty a) t false |}, q.
    split. { cbn [lin_of accepts]. unfold stk_step. rewrite (phase_eta a), (s_q _ _ _ _ _ _ I). cbn [lstep fst snd]. rewrite Ph. reflexivity. }
    split; [cbn; auto|]. split; [cbn; auto|]. cbn [hp_of gfold fold_left].
    assert (Ew : wnext w (LE (Call t (if b then TryPop else Pop))) = w) by (destruct b; reflexivity).
    rewrite Ew. set (s' := go s t (Sp1 b r)). destruct I.
    assert (Pu : forall u, pushing (sp s' u) = pushing (sp s u)).
    { intros u. cbn. unfold upd. destruct (Nat.eq_dec u t) as [->|]; auto. rewrite P. auto. }
    constructor; cbn [a_lin a_dirty fst snd]; auto.
    + intros u. cbn. unfold upd. destruct (Nat.eq_dec u t) as [->|]; auto.
    + intros u v x. rewrite !Pu. eauto.
    + intros u. destruct (Nat.eq_dec u t) as [->|N].
      * unfold TI. cbn. rewrite upd_same. auto.
      * apply (TI_frame s s' g _ w _ q q (a_dirty a) _ u); auto.
        -- cbn. apply upd_other; auto.
        -- intros r' x [X1 [X2 [X3 [X4 X5]]]]. split; auto. split; auto. split; auto. split; auto. split; auto. intros v. rewrite Pu. auto.
        -- right. rewrite upd_other; auto.
Qed.

Lemma tick_step : forall t s' ev, tick c s t = Some (s', ev) -> step_goal c s' ev g a w.
Proof.
  intros t s' ev H. unfold tick in H. pose proof (s_th _ _ _ _ _ _ I t) as T. unfold TI in T.
  destruct (sp s t) eqn:P.
  - discriminate.
  - injection H as <- <-. apply quiet_step; try rewrite P; auto. unfold TI. cbn. rewrite upd_same. destruct T. auto.
  - injection H as <- <-. eapply write_step; eauto.
  - destruct (hd s =? h) eqn:E.
    + injection H as <- <-. apply Nat.eqb_eq in E. subst h. apply push_step; auto.
    + apply Nat.eqb_neq in E. destruct b.
      * injection H as <- <-. eapply pushfail_step; eauto.
      * injection H as <- <-. apply quiet_step; try rewrite P; auto. unfold TI. cbn. rewrite upd_same. destruct T as [T1 [T2 [T3 T4]]]. auto.
  - destruct (hd s =? 0) eqn:E.
    + injection H as <- <-. apply Nat.eqb_eq in E. apply (empty_step t b); auto; rewrite P; auto.
    + injection H as <- <-. apply Nat.eqb_neq in E. apply quiet_step; try rewrite P; auto. unfold TI. cbn. rewrite upd_same. auto.
  - eapply slot_step; eauto; try rewrite P; auto. intros x g' w' PB. unfold TI. cbn. rewrite upd_same. tauto.
  - destruct T as [T1 [T2 T3]]. destruct (hd s =? e) eqn:E; injection H as <- <-.
    + apply Nat.eqb_eq in E. apply quiet_step; try rewrite P; auto. subst e. pose proof (validate _ _ _ _ _ _ _ _ I T1 T2) as [V1 [V2 [V3 [V4 V5]]]].
      unfold TI. cbn. rewrite upd_same. split; auto. split; auto. split; auto. split; auto. split; auto.
      intros u. cbn. unfold upd. destruct (Nat.eq_dec u t) as [->|]; auto. discriminate.
    + apply Nat.eqb_neq in E. apply quiet_step; try rewrite P; destruct b; auto; unfold TI; cbn; rewrite upd_same; auto. tauto.
  - injection H as <- <-. destruct T as [T1 T2]. pose proof T1 as [V1 [V2 [V3 [V4 V5]]]]. apply acc_step; try rewrite P; auto.
    unfold TI. cbn. rewrite upd_same. split; auto. split; auto. split; auto. split; auto. split; auto.
    intros u. cbn. unfold upd. destruct (Nat.eq_dec u t) as [->|]; auto. discriminate.
  - destruct (hd s =? e) eqn:E.
    + injection H as <- <-. apply Nat.eqb_eq in E. eapply pop_step; eauto.
    + apply Nat.eqb_neq in E. destruct T as [T1 [T2 T3]]. destruct b.
      * injection H as <- <-. apply quiet_step; try rewrite P; auto. unfold TI. cbn. rewrite upd_same. tauto.
      * destruct (hd s =? 0) eqn:Z.
        -- injection H as <- <-. apply Nat.eqb_eq in Z. apply (empty_step t false); auto; rewrite P; auto.
        -- injection H as <- <-. apply Nat.eqb_neq in Z. apply quiet_step; try rewrite P; auto. unfold TI. cbn. rewrite upd_same. auto.
  - eapply slot_step; eauto; try rewrite P; auto. intros x g' w' PB. unfold TI. cbn. rewrite upd_same. tauto.
  - destruct T as [T1 T2]. destruct (hd s =? e) eqn:E; injection H as <- <-.
    + apply Nat.eqb_eq in E. apply quiet_step; try rewrite P; auto. subst e. pose proof (validate _ _ _ _ _ _ _ _ I T1 T2) as [V1 [V2 [V3 [V4 V5]]]].
      unfold TI. cbn. rewrite upd_same. split; [|discriminate]. split; auto. split; auto. split; auto. split; auto.
      intros u. cbn. unfold upd. destruct (Nat.eq_dec u t) as [->|]; auto. discriminate.
    + apply quiet_step; try rewrite P; auto. unfold TI; cbn; rewrite upd_same; auto.
  - eapply slot_step; eauto; try rewrite P; auto. intros x g' w' PB. unfold TI. cbn. rewrite upd_same. tauto.
  - destruct (hd s =? 0) eqn:Z.
    + injection H as <- <-. apply Nat.eqb_eq in Z. apply (empty_step t false); auto; rewrite P; auto.
    + apply Nat.eqb_neq in Z. destruct (hd s =? e) eqn:E; injection H as <- <-.
      * apply Nat.eqb_eq in E. apply quiet_step; try rewrite P; auto. subst e. pose proof (validate _ _ _ _ _ _ _ _ I T Z) as [V1 [V2 [V3 [V4 V5]]]].
        unfold TI. cbn. rewrite upd_same. split; [|discriminate]. split; auto. split; auto. split; auto. split; auto.
        intros u. cbn. unfold upd. destruct (Nat.eq_dec u t) as [->|]; auto. discriminate.
      * apply quiet_step; try rewrite P; auto. unfold TI; cbn; rewrite upd_same; auto.
  - destruct (slot c s t r 0 SIdle) as [[s1 e1]|] eqn:E; try discriminate. injection H as <- <-. eapply leave_step; eauto.
Qed.

Lemma sstep_ok : forall l s' ev, sstep c s l = Some (s', ev) -> step_goal c s' ev g a w.
Proof.
  intros [t x] s' ev H. unfold sstep in H. destruct x.
  - destruct (sp s t) eqn:P; try discriminate. destruct (client c (cs s) t a0) as [[y e]|] eqn:E; try discriminate. injection H as <- <-.
    pose proof (s_ci _ _ _ _ _ _ I) as CI0. exists a, q. rewrite lin_HE, hp_HE. split; [reflexivity|].
    assert (LW : forall ev w, legal_from wnext wok w (map HE ev)) by (clear; induction ev; cbn; auto).
    split; auto. split.
    { unfold client in E. destruct a0; try discriminate;
        repeat match type of E with (if ?b then _ else _) = _ => destruct b end; try discriminate;
        destruct (step c (hps (cs s)) (t, _)) as [[h' e']|] eqn:E2; try discriminate; injection E as <- <-; (eapply HI_step; [exact Hr|apply CI0|exact E2]). }
    assert (X : SI c (go (set_cs s y) t SIdle) (gf e g) a (gfold wnext (map HE e) w) q).
    { eapply SI_client; eauto; try rewrite P; auto. unfold TI. cbn. rewrite upd_same. auto. }
    destruct X. constructor; auto.
    + intros u. rewrite s_ph0. cbn. unfold upd. destruct (Nat.eq_dec u t) as [->|]; auto. rewrite P. auto.
    + intros u v z U V. apply (s_un0 u v z); cbn; unfold upd; [destruct (Nat.eq_dec u t) as [->|]|destruct (Nat.eq_dec v t) as [->|]]; cbn in U, V; auto; try (rewrite P in U; auto); rewrite P in V; auto.
    + assert (Ps : forall u, sp (go (set_cs s y) t SIdle) u = sp (set_cs s y) u) by (intros u; cbn; unfold upd; destruct (Nat.eq_dec u t) as [->|]; auto).
      intros u. apply (TI_frame (go (set_cs s y) t SIdle) (set_cs s y) (gf e g) (gf e g) (gfold wnext (map HE e) w) (gfold wnext (map HE e) w) q q (a_dirty a) (a_dirty a) u); auto.
      intros r z [X1 [X2 [X3 [X4 X5]]]]. split; auto. split; auto. split; auto. split; auto. split; auto. intros v. rewrite <- Ps. auto.
  - destruct (sp s t) eqn:P; try discriminate. eapply call_step; eauto.
  - destruct (sp s t) eqn:P; try discriminate. eapply call_step; eauto.
  - eapply tick_step; eauto.
Qed.
End Step.

Lemma SI_init : forall c, SI c sinit gs0 a0 w0 [].
Proof.
  intros c. constructor; try (exact Logic.I); try reflexivity; try (cbn; tauto); try (cbn; discriminate); try (intros t; exact Logic.I).
  - apply CI_init.
  - constructor.
Qed.

Lemma hs_run : forall c, reent c = false -> forall ls s log, run (sstep c) sinit ls = Some (s, log) ->
  exists a, accepts stk_step a0 (lin_of log) = Some a /\ legal_from wnext wok w0 log /\ legal_from gnext hp_ok gs0 (hp_of log) /\
    chainp (nx s) (hd s) (fst (a_lin a)).
Proof.
  intros c Hr ls s log H.
  cut (forall ls s0 g a w q, SI c s0 g a w q -> forall s log, run (sstep c) s0 ls = Some (s, log) ->
    exists a' q', accepts stk_step a (lin_of log) = Some a' /\ legal_from wnext wok w log /\ legal_from gnext hp_ok g (hp_of log) /\ SI c s (gf (hp_of log) g) a' (gfold wnext log w) q').
  { intros X. destruct (X ls sinit gs0 a0 w0 [] (SI_init c) s log H) as [a [q [A [B [C D]]]]]. exists a. repeat split; auto. rewrite (s_q _ _ _ _ _ _ D). apply D. }
  clear - Hr. induction ls as [|l ls IH]; intros s0 g a w q I s log H.
  - cbn in H. injection H as <- <-. exists a, q. cbn. auto.
  - cbn in H. destruct (sstep c s0 l) as [[s1 e1]|] eqn:E1; try discriminate. destruct (run (sstep c) s1 ls) as [[s2 e2]|] eqn:E2; try discriminate. injection H as <- <-.
    destruct (sstep_ok c s0 g a w q I Hr l s1 e1 E1) as [a1 [q1 [A1 [B1 [C1 D1]]]]]. destruct (IH s1 _ _ _ _ D1 s2 e2 E2) as [a2 [q2 [A2 [B2 [C2 D2]]]]].
    exists a2, q2. rewrite lin_app, hp_app, accepts_app, A1. split; auto. split; [apply legal_app; auto|]. split; [apply legal_app; auto|]. rewrite !gfold_app. exact D2.
Qed.

Lemma hs_linearizable : forall c, reent c = false -> forall ls s log, run (sstep c) sinit ls = Some (s, log) -> linearizable lifo Stack_Model.sres_dec [] (history (lin_of log)).
Proof.
  intros c Hr ls s log H. destruct (hs_run c Hr ls s log H) as [a [A _]]. apply lin_legal_history. exists (a_lin a). change ([], idle) with (a_lin a0). apply Stack_Proof.stk_lin. auto.
Qed.
Lemma hs_failures : forall c, reent c = false -> forall ls s log, run (sstep c) sinit ls = Some (s, log) ->
  exists a, accepts stk_step a0 (lin_of log) = Some a /\ chainp (nx s) (hd s) (fst (a_lin a)).
Proof. intros c Hr ls s log H. destruct (hs_run c Hr ls s log H) as [a [A [_ [_ B]]]]. eauto. Qed.
Lemma hs_accesses : forall c, reent c = false -> forall ls s log, run (sstep c) sinit ls = Some (s, log) -> legal_from wnext wok w0 log.
Proof. intros c Hr ls s log H. destruct (hs_run c Hr ls s log H) as [a [_ [A _]]]. auto. Qed.
Lemma hs_hazards : forall c, reent c = false -> forall ls s log, run (sstep c) sinit ls = Some (s, log) -> legal_from gnext hp_ok gs0 (hp_of log).
Proof. intros c Hr ls s log H. destruct (hs_run c Hr ls s log H) as [a [_ [_ [A _]]]]. auto. Qed.
