(** Proofs about elision of ck_spinlock_fas and ck_spinlock_cas. *)
From Coq Require Import ZArith Arith List Bool Lia.
From Verif Require Import Lib Tso Rtm Rtm_Proof TsoLock_Spec Elide_Model ElideSpin_Model.
Import ListNotations.
Local Open Scope Z_scope.

Definition alldat (b : list (loc * Z)) : Prop := forall x v, In (x, v) b -> isdat x.
Definition owner (h : own) : option nat := match h with Free => None | Held t | Left t => Some t end.
Definition pp (s : rtm lst dev) (u : nat) : pc := p (pcs (ts s) u).
Definition outp (q : pc) : bool := match q with Idle | Bgn _ _ | Spn _ _ | Acq | AcqS => true | _ => false end.
Definition incs (q : pc) : bool := match q with CS true | URel => true | _ => false end.

(** the events of a transaction are those of a critical section over any data that agrees on what it touched *)
Definition trans (u : nat) (D : nat -> Z) (r : txr lst dev) : Prop :=
  forall D2, (forall i, In (Dat i) (tch r) -> D2 i = D i) ->
  exists D3, accepts dl_step {| hold := Free; dat := D2 |} (evs r) = Some {| hold := Held u; dat := D3 |} /\
             forall i, D3 i = fwd (wb r) (Dat i) (D2 i).
Definition secs (a : dlock) (u : nat) (r : txr lst dev) : Prop :=
  In (Reg 0) (tch r) /\ (hold a = Free \/ hold a = Left u) /\ alldat (wb r) /\ trans u (dat a) r.
Definition live (q : pc) (a : dlock) (u : nat) (r : txr lst dev) : Prop :=
  match q with
  | LP => wb r = [] /\ evs r = []
  | LBusy => True
  | CS false | UEnd _ => secs a u r
  | _ => False
  end.
Definition tpc (q : pc) : bool := match q with LP | LBusy | CS false | UEnd _ => true | _ => false end.
Definition okx (q : pc) (a : dlock) (u : nat) (r : txr lst dev) : Prop :=
  (tpc q = true /\ forall x, outp (p (abt r x)) = true) /\ (dead r = false -> dep r = 1%nat /\ live q a u r).

Record I (s : rtm lst dev) (a : dlock) : Prop := {
  i_dat : data (owner (hold a)) (dat a) (ts s);
  i_buf : forall u, owner (hold a) <> Some u -> buf (ts s) u = [];
  i_lock : match hold a with
    | Free => mem (ts s) (Reg 0) = 0
    | Held t => mem (ts s) (Reg 0) = 1 /\ alldat (buf (ts s) t)
    | Left t => mem (ts s) (Reg 0) = 1 /\ exists ds, buf (ts s) t = ds ++ [(Reg 0, 0)] /\ alldat ds
    end;
  i_cs : forall u, (txs s u = None /\ incs (pp s u) = true) <-> hold a = Held u;
  i_out : forall u, txs s u = None -> outp (pp s u) = true \/ incs (pp s u) = true;
  i_tx : forall u r, txs s u = Some r -> okx (pp s u) a u r
}.

Lemma I_init : forall D S, I (init D S) {| hold := Free; dat := D |}.
Proof.
  intros D S. constructor; simpl; auto; try discriminate.
  - split; auto. intros u i v [].
  - intros u. split; [intros [_ X]; discriminate X|discriminate].
Qed.

Lemma alldat_reg : forall b j d, alldat b -> fwd b (Reg j) d = d.
Proof. intros b j d H. apply fwd_none. intros v Hv. apply (H _ _ Hv). Qed.
Lemma alldat_snoc : forall b i v, alldat b -> alldat (b ++ [(Dat i, v)]).
Proof. intros b i v H x w Hx. apply in_app_iff in Hx. destruct Hx as [Hx|[Hx|[]]]; [eapply H; eauto|]. injection Hx as <- <-. exact Logic.I. Qed.

(** what a thread sees of the lock word *)
Lemma see : forall s a t, I s a -> view (ts s) t (Reg 0) =
  match hold a with Free => 0 | Held _ => 1 | Left u => if Nat.eqb t u then 0 else 1 end.
Proof.
  intros s a t [A B C _ _ _]. unfold view. destruct (hold a) as [|u|u]; simpl in *.
  - rewrite B by discriminate. auto.
  - destruct C as [E F]. destruct (Nat.eq_dec u t) as [->|Hn].
    + rewrite alldat_reg by auto. auto.
    + rewrite B by congruence. auto.
  - destruct C as [E [ds [F G]]]. destruct (Nat.eqb_spec t u) as [->|Hn].
    + rewrite F, fwd_app. reflexivity.
    + rewrite B by congruence. auto.
Qed.
(** what a thread sees of the data when it may be in an elided section *)
Lemma see_dat : forall s a t i, I s a -> hold a = Free \/ hold a = Left t -> view (ts s) t (Dat i) = dat a i.
Proof.
  intros s a t i [A B _ _ _ _] [H|H]; rewrite H in A; simpl in A; destruct A as [A1 A2]; auto.
  unfold view. rewrite B by (rewrite H; discriminate). simpl. auto.
Qed.

Lemma loop_out : forall c r, outp (loop c r) = true.
Proof. intros. unfold loop. destruct (0 <? r - 1); auto. Qed.
Lemma aborted_out : forall c r s x, outp (p (aborted c r s x)) = true.
Proof. intros. unfold aborted. destruct (fallback r s c x) as [[[] r'] s']; simpl; auto. apply loop_out. Qed.

(** a thread outside moves without touching shared state *)
Lemma I_out : forall s a t l, I s a -> txs s t = None -> outp (pp s t) = true -> outp (p l) = true ->
  I (mkR (next (ts s) t l) (txs s)) a.
Proof.
  intros s a t l [A B C E F G] H1 H2 H3. constructor; cbn [ts txs]; auto.
  - intros u. rewrite <- E. unfold pp. cbn [ts next pcs]. upd_cases; [|tauto].
    assert (incs (p l) = false) by (destruct (p l); auto; discriminate).
    assert (incs (pp s t) = false) by (destruct (pp s t); auto; discriminate). unfold pp in *. split; intros [_ X]; congruence.
  - intros u Hu. unfold pp. cbn [ts next pcs]. upd_cases; auto. apply F. auto.
  - intros u r Hr. unfold pp. cbn [ts next pcs]. upd_cases; [congruence|]. apply G. auto.
Qed.

(** a thread's transaction ends without effects *)
Lemma I_abort : forall s a t r x, I s a -> txs s t = Some r ->
  I (mkR (setp s t (abt r x)) (upd (txs s) t None)) a.
Proof.
  intros s a t r x [A B C E F G] H. pose proof (G t r H) as [[_ K] _]. specialize (K x). constructor; cbn [ts txs]; auto.
  - intros u. rewrite <- E. unfold pp. cbn [ts setp next pcs]. upd_cases; [|tauto].
    assert (incs (p (abt r x)) = false) by (destruct (p (abt r x)); auto; discriminate). split; intros [X Y]; congruence.
  - intros u Hu. unfold pp. cbn [ts setp next pcs]. upd_cases; auto. apply F. auto.
  - intros u q Hr. unfold pp. cbn [ts setp next pcs]. upd_cases; [congruence|]. apply G. auto.
Qed.

(** a step inside a live transaction *)
Lemma I_inside : forall s a t r l r', I s a -> txs s t = Some r -> abt r' = abt r -> dep r' = 1%nat -> live (p l) a t r' ->
  I (mkR (setp s t l) (upd (txs s) t (Some r'))) a.
Proof.
  intros s a t r l r' [A B C E F G] H H1 H2 H3. constructor; cbn [ts txs]; auto.
  - intros u. rewrite <- E. unfold pp. cbn [ts setp next pcs]. upd_cases; [|tauto]. split; intros [X Y]; congruence.
  - intros u Hu. unfold pp. cbn [ts setp next pcs]. upd_cases; [congruence|]. apply F. auto.
  - intros u q Hr. unfold pp. cbn [ts setp next pcs]. upd_cases; [|apply G; auto].
    injection Hr as <-. split; [|auto]. rewrite H1. split; [|apply (G t r H)]. destruct (p l) as [| | | | | | |[]| |]; auto; destruct H3.
Qed.

(** the lock is held or left by [u]: nobody else has a live section *)
Lemma nosec : forall a t u r, secs a u r -> owner (hold a) = Some t -> u = t /\ hold a = Left t.
Proof. intros a t u r [_ [[H|H] _]] K; rewrite H in K; simpl in K; [discriminate|]. injection K as <-. auto. Qed.

Lemma live_mono : forall q a a' u r, live q a u r -> (secs a u r -> secs a' u r) -> live q a' u r.
Proof. intros q a a' u r H K. destruct q as [| | | | | | |[]| |]; simpl in *; auto. Qed.

(** an atomic instruction on the lock word dooms every live section *)
Lemma killed : forall s a t u r, I s a -> kill (txs s) t [Reg 0] u = Some r -> u <> t -> dead r = false ->
  forall a', live (pp s u) a' u r /\ dep r = 1%nat.
Proof.
  intros s a t u r HI H Hu Hd a'. destruct (kill_some _ _ _ _ _ H) as [r0 [K1 [K2 K3]]]. destruct (K3 Hd) as [-> [K4 K5]].
  destruct (i_tx _ _ HI u r0 K1) as [_ G]. destruct (G Hd) as [G1 G2]. split; auto.
  eapply live_mono; [exact G2|]. intros [Hi _]. rewrite hits_in in K5 by auto. specialize (K5 Hu). discriminate.
Qed.
Lemma kill_abt : forall s a t xs u r x, I s a -> kill (txs s) t xs u = Some r -> outp (p (abt r x)) = true.
Proof.
  intros s a t xs u r x HI H. destruct (kill_some _ _ _ _ _ H) as [r0 [K1 [K2 _]]]. rewrite K2. apply (i_tx _ _ HI u r0 K1).
Qed.
Lemma kill_tpc : forall s a t xs u r, I s a -> kill (txs s) t xs u = Some r -> tpc (pp s u) = true.
Proof.
  intros s a t xs u r HI H. destruct (kill_some _ _ _ _ _ H) as [r0 [K1 _]]. apply (i_tx _ _ HI u r0 K1).
Qed.

Lemma I_acquire : forall s a t v l, I s a -> txs s t = None -> outp (pp s t) = true -> buf (ts s) t = [] -> hold a = Free -> v = 1 ->
  p l = CS true ->
  I (mkR (mkT (setm (mem (ts s)) (Reg 0) v) (buf (ts s)) (upd (pcs (ts s)) t l)) (kill (txs s) t [Reg 0])) {| hold := Held t; dat := dat a |}.
Proof.
  intros s a t v l HI H1 H2 H3 H4 -> H5. pose proof HI as [A B C E F G]. rewrite H4 in *. constructor; cbn [ts txs hold dat owner mem buf].
  - apply data_take. apply data_rmw. exact A.
  - intros u Hu. apply B. discriminate.
  - split; [apply setm_same|]. rewrite H3. intros x w [].
  - intros u. rewrite kill_none. unfold pp. cbn [ts pcs]. upd_cases; [rewrite H5; tauto|]. split; [|congruence].
    intros X. apply E in X. discriminate.
  - intros u Hu. rewrite kill_none in Hu. unfold pp. cbn [ts pcs]. upd_cases; [rewrite H5; auto|]. apply F. auto.
  - intros u r Hr. unfold pp. cbn [ts pcs]. upd_cases; [rewrite kill_self in Hr; congruence|].
    split; [split; [eapply kill_tpc; eauto|intros x; eapply kill_abt; eauto]|]. intros Hd.
    destruct (killed s a t u r HI Hr n Hd {| hold := Held t; dat := dat a |}). auto.
Qed.

Lemma I_refused : forall s a t v l, I s a -> txs s t = None -> outp (pp s t) = true -> hold a <> Free -> v = 1 ->
  outp (p l) = true ->
  I (mkR (mkT (setm (mem (ts s)) (Reg 0) v) (buf (ts s)) (upd (pcs (ts s)) t l)) (kill (txs s) t [Reg 0])) a.
Proof.
  intros s a t v l HI H1 H2 H4 -> H5. pose proof HI as [A B C E F G]. constructor; cbn [ts txs mem buf]; auto.
  - rewrite setm_same. destruct (hold a); [tauto| |]; split; auto; apply C.
  - intros u. rewrite kill_none, <- E. unfold pp. cbn [ts pcs]. upd_cases; [|tauto].
    assert (incs (p l) = false) by (destruct (p l); auto; discriminate).
    assert (incs (pp s t) = false) by (destruct (pp s t); auto; discriminate). unfold pp in *. split; intros [_ X]; congruence.
  - intros u Hu. rewrite kill_none in Hu. unfold pp. cbn [ts pcs]. upd_cases; auto. apply F. auto.
  - intros u r Hr. unfold pp. cbn [ts pcs]. upd_cases; [rewrite kill_self in Hr; congruence|].
    split; [split; [eapply kill_tpc; eauto|intros x; eapply kill_abt; eauto]|]. intros Hd.
    destruct (killed s a t u r HI Hr n Hd a). auto.
Qed.

(** the holder stores; [a'] is the same lock with new data, or left *)
Lemma I_holder : forall s a t b l a', I s a -> hold a = Held t -> txs s t = None ->
  data (owner (hold a')) (dat a') (mkT (mem (ts s)) (upd (buf (ts s)) t b) (upd (pcs (ts s)) t l)) ->
  (hold a' = Held t /\ alldat b /\ incs (p l) = true \/ hold a' = Left t /\ (exists ds, b = ds ++ [(Reg 0, 0)] /\ alldat ds) /\ outp (p l) = true) ->
  I (mkR (mkT (mem (ts s)) (upd (buf (ts s)) t b) (upd (pcs (ts s)) t l)) (txs s)) a'.
Proof.
  intros s a t b l a' HI H1 Ht H2 H3. pose proof HI as [A B C E F G]. rewrite H1 in *. destruct C as [C1 C2].
  assert (Ho : owner (hold a') = Some t) by (destruct H3 as [[-> _]|[-> _]]; auto).
  constructor; cbn [ts txs mem buf]; auto.
  - intros u Hu. rewrite upd_other by congruence. apply B. simpl. congruence.
  - destruct H3 as [[-> [K _]]|[-> [K _]]]; rewrite upd_same; auto.
  - intros u. unfold pp. cbn [ts pcs]. upd_cases.
    + destruct H3 as [[-> [_ K]]|[-> [_ K]]]; [tauto|]. split; [|discriminate]. intros [_ X]. destruct (p l); discriminate.
    + specialize (E u). split; [intros X; apply E in X; congruence|]. destruct H3 as [[-> _]|[-> _]]; congruence.
  - intros u Hu. unfold pp. cbn [ts pcs]. upd_cases; [destruct H3 as [[_ [_ K]]|[_ [_ K]]]; auto|]. apply F. auto.
  - intros u r Hr. destruct (G u r Hr) as [G1 G2].
    unfold pp. cbn [ts pcs]. upd_cases; [congruence|]. split; auto. intros Hd. destruct (G2 Hd) as [G3 G4]. split; auto. eapply live_mono; [exact G4|].
    intros X. apply (nosec _ t) in X; [|rewrite H1; auto]. destruct X as [_ X]. congruence.
Qed.

Lemma I_ld : forall s a t l, I s a -> txs s t = None -> incs (pp s t) = true -> incs (p l) = true ->
  I (mkR (next (ts s) t l) (txs s)) a.
Proof.
  intros s a t l [A B C E F G] H1 H2 H3. constructor; cbn [ts txs]; auto.
  - intros u. rewrite <- E. unfold pp. cbn [ts next pcs]. upd_cases; [|tauto]. unfold pp in H2. tauto.
  - intros u Hu. unfold pp. cbn [ts next pcs]. upd_cases; auto. apply F. auto.
  - intros u r Hr. unfold pp. cbn [ts next pcs]. upd_cases; [congruence|]. apply G. auto.
Qed.

(** reading and writing inside a transaction *)
Lemma trans_rd : forall u D r i, trans u D r ->
  trans u D (mkX false (dep r) (Dat i :: tch r) (wb r) (evs r ++ [DRd u i (fwd (wb r) (Dat i) (D i))]) (abt r)).
Proof.
  intros u D r i H D2 H2. destruct (H D2) as [D3 [K1 K2]]; [intros j Hj; apply H2; right; auto|]. exists D3. cbn [evs wb]. split; auto.
  rewrite accepts_app, K1. simpl. rewrite Nat.eqb_refl, K2, (H2 i) by (left; auto). rewrite Z.eqb_refl. auto.
Qed.
Lemma trans_wr : forall u D r i v, trans u D r ->
  trans u D (mkX false (dep r) (Dat i :: tch r) (wb r ++ [(Dat i, v)]) (evs r ++ [DWr u i v]) (abt r)).
Proof.
  intros u D r i v H D2 H2. destruct (H D2) as [D3 [K1 K2]]; [intros j Hj; apply H2; right; auto|].
  exists (fun j => if Nat.eqb i j then v else D3 j). cbn [evs wb]. split.
  - rewrite accepts_app, K1. simpl. rewrite Nat.eqb_refl. auto.
  - intros j. rewrite fwd_app. simpl. rewrite K2. auto.
Qed.
Lemma trans_ld : forall u D r j, trans u D r -> trans u D (mkX false (dep r) (Reg j :: tch r) (wb r) (evs r ++ []) (abt r)).
Proof.
  intros u D r j H D2 H2. destruct (H D2) as [D3 [K1 K2]]; [intros i Hi; apply H2; right; auto|]. exists D3. cbn [evs wb]. rewrite app_nil_r. auto.
Qed.

Lemma I_commit : forall s a t r l, I s a -> txs s t = Some r -> dead r = false -> secs a t r -> buf (ts s) t = [] -> p l = Idle ->
  exists a', accepts dl_step a (evs r ++ [Leave t; Visible t]) = Some a' /\
  I (mkR (mkT (fun x => fwd (wb r) x (mem (ts s) x)) (buf (ts s)) (upd (pcs (ts s)) t l)) (upd (kill (txs s) t (map fst (wb r))) t None)) a'.
Proof.
  intros s a t r l HI Ht Hd [S1 [S2 [S3 S4]]] Hb Hl. pose proof HI as [A B C E F G].
  assert (Hf : hold a = Free).
  { destruct S2 as [S2|S2]; auto. rewrite S2 in C. destruct C as [_ [ds [C _]]]. rewrite Hb in C. destruct ds; discriminate. }
  destruct (S4 (dat a)) as [D3 [K1 K2]]; auto. exists {| hold := Free; dat := D3 |}. split.
  - rewrite accepts_app. assert (a = {| hold := Free; dat := dat a |}) as -> by (destruct a; simpl in *; congruence). cbn [dat].
    rewrite K1. simpl. rewrite Nat.eqb_refl. simpl. rewrite Nat.eqb_refl. auto.
  - rewrite Hf in A, C. destruct A as [A1 A2]. constructor; cbn [ts txs hold dat owner mem buf].
    + split; auto. intros i. cbn [mem]. rewrite K2, A1. auto.
    + intros u _. apply B. rewrite Hf. discriminate.
    + rewrite alldat_reg by auto. auto.
    + intros u. unfold pp. cbn [ts pcs]. split; [|discriminate]. intros [X Y]. exfalso. revert X Y. upd_cases.
      * rewrite Hl. discriminate.
      * rewrite kill_none. intros X Y. assert (Z : hold a = Held u) by (apply E; auto). congruence.
    + intros u. unfold pp. cbn [ts pcs]. upd_cases; [rewrite Hl; auto|]. rewrite kill_none. apply F.
    + intros u q. unfold pp. cbn [ts pcs]. upd_cases; [discriminate|]. intros Hq. split; [split; [eapply kill_tpc; eauto|intros x; eapply kill_abt; eauto]|].
      intros Hq2. destruct (kill_some _ _ _ _ _ Hq) as [r0 [L1 [L2 L3]]]. destruct (L3 Hq2) as [-> [L4 L5]]. specialize (L5 n).
      destruct (G u r0 L1) as [G1 G2]. destruct (G2 Hq2) as [G3 G4]. split; auto. eapply live_mono; [exact G4|].
      intros [T1 [T2 [T3 T4]]]. split; auto. split; [left; auto|]. split; auto. cbn [dat]. intros D2 H2. apply T4. intros i Hi.
      rewrite H2 by auto. rewrite K2. apply fwd_none. intros v Hv. eapply hits_false; [exact L5| |exact Hi].
      apply in_map_iff. exists (Dat i, v). auto.
Qed.

Lemma I_flush : forall s a t x v r, I s a -> buf (ts s) t = (x, v) :: r ->
  exists a', accepts dl_step a (arr t x v) = Some a' /\
  I (mkR (mkT (setm (mem (ts s)) x v) (upd (buf (ts s)) t r) (pcs (ts s))) (kill (txs s) t [x])) a'.
Proof.
  intros s a t x v r HI Eb. pose proof HI as [A B C E F G].
  assert (Ho : owner (hold a) = Some t).
  { destruct (holder_dec (owner (hold a)) t) as [|N]; auto. rewrite B in Eb by auto. discriminate. }
  assert (X : forall a', owner (hold a') = Some t \/ hold a' = Free /\ x = Reg 0 ->
     (hold a = Left t -> dat a' = dat a /\ (hold a' = Free \/ hold a' = Left t)) ->
     forall u q, kill (txs s) t [x] u = Some q -> okx (pp s u) a' u q).
  { intros a' Ha' Hl u q Hq. split; [split; [eapply kill_tpc; eauto|intros y; eapply kill_abt; eauto]|]. intros Hd.
    destruct (kill_some _ _ _ _ _ Hq) as [r0 [L1 [L2 L3]]]. destruct (L3 Hd) as [-> [L4 L5]].
    destruct (G u r0 L1) as [G1 G2]. destruct (G2 Hd) as [G3 G4]. split; auto. eapply live_mono; [exact G4|].
    intros S. destruct (nosec _ t _ _ S Ho) as [-> S2]. destruct S as [T1 [T2 [T3 T4]]]. destruct (Hl S2) as [Y1 Y2].
    split; auto. split; [tauto|]. split; auto. rewrite Y1. auto. }
  destruct (hold a) as [|u|u] eqn:Eh; [discriminate| |]; injection Ho as ->.
  - destruct C as [C1 C2]. assert (Hd : isdat x) by (apply (C2 x v); rewrite Eb; left; auto). destruct x as [i|i]; [|destruct Hd].
    exists a. split; auto. constructor; rewrite ?Eh; cbn [ts txs mem buf owner]; auto.
    + apply data_flush; auto.
    + intros u Hu. rewrite upd_other by congruence. apply B. rewrite ?Eh. auto.
    + rewrite setm_other by discriminate. split; auto. rewrite upd_same. intros y w Hy. apply (C2 y w). rewrite Eb. right. auto.
    + intros u. rewrite kill_none. unfold pp. cbn [ts pcs]. rewrite <- E. reflexivity.
    + intros u. rewrite kill_none. apply F.
    + intros u q Hq. apply (X a); [rewrite ?Eh; left; auto|intros Y; discriminate Y|exact Hq].
  - destruct C as [C1 [ds [C2 C3]]]. destruct ds as [|[y w] ds].
    + rewrite Eb in C2. injection C2 as -> -> ->. exists {| hold := Free; dat := dat a |}. simpl. rewrite Eh, Nat.eqb_refl. split; auto.
      constructor; cbn [ts txs hold dat owner mem buf].
      * eapply data_drop with t; [|cbn [buf]; rewrite upd_same; intros j z []]. eapply data_flush; [exact A|exact Eb].
      * intros u _. destruct (Nat.eq_dec u t) as [->|]; [apply upd_same|rewrite upd_other by auto; apply B; simpl; congruence].
      * apply setm_same.
      * intros u. rewrite kill_none. unfold pp. cbn [ts pcs]. fold (pp s u). rewrite E. split; discriminate.
      * intros u. rewrite kill_none. apply F.
      * intros u q Hq. apply (X {| hold := Free; dat := dat a |}); auto.
    + rewrite Eb in C2. injection C2 as <- <- C2.
      assert (Hd : isdat x) by (apply (C3 x v); left; auto). destruct x as [i|i]; [|destruct Hd].
      exists a. split; auto. constructor; rewrite ?Eh; cbn [ts txs mem buf owner]; auto.
      * apply data_flush; auto.
      * intros u Hu. rewrite upd_other by congruence. apply B. auto.
      * rewrite setm_other by discriminate. split; auto. rewrite upd_same. exists ds. split; auto. intros y w Hy. apply (C3 y w). right. auto.
      * intros u. rewrite kill_none. apply E.
      * intros u. rewrite kill_none. apply F.
      * intros u q Hq. apply (X a); [rewrite ?Eh; left; auto|rewrite ?Eh; auto|exact Hq].
Qed.

Lemma I_step : forall k s a l s' e, I s a -> xstep (code k) arr s l = Some (s', e) ->
  exists a', accepts dl_step a e = Some a' /\ I s' a'.
Proof.
  intros k s a l s' e HI H. pose proof HI as [A B C E F G]. destruct l as [t x|t|t x]; cbn [xstep] in H.
  2:{ destruct (buf (ts s) t) as [|[x v] r] eqn:Eb; [discriminate|]. injection H as <- <-. eapply I_flush; eauto. }
  2:{ destruct (txs s t) as [r|] eqn:Et; [|discriminate]. destruct (x =? STARTED); [discriminate|]. injection H as <- <-.
      exists a. split; auto. apply I_abort; auto. }
  destruct (code k t (pcs (ts s) t) x) as [i|] eqn:Ec; [|discriminate]. unfold code in Ec. fold (pp s t) in Ec.
  destruct (txs s t) as [r|] eqn:Et.
  - (* in a transaction *)
    unfold inside in H. destruct (dead r) eqn:Ed; [discriminate|]. destruct (G t r Et) as [G1 G2]. destruct (G2 Ed) as [G3 G4].
    destruct (pp s t) as [| | | | | | |[]| |ad] eqn:Ep; try contradiction G4; simpl in G4.
    + (* the lock predicate *)
      destruct x; try discriminate Ec. injection Ec as <-. destruct G4 as [G4 G5].
      unfold tview in H. rewrite G4 in H. cbn [fwd] in H. rewrite (see s a t HI) in H.
      assert (Hx : forall v, v = 0 -> (hold a = Free \/ hold a = Left t) ->
        (let (p, e0) := if v =? 0 then (at_ (pcs (ts s) t) (CS false), [Enter t]) else (at_ (pcs (ts s) t) LBusy, []) in
         Some (mkR (setp s t p) (upd (txs s) t (Some (mkX false (dep r) (Reg 0 :: tch r) [] (evs r ++ e0) (abt r)))), [])) = Some (s', e) ->
        exists a', accepts dl_step a e = Some a' /\ I s' a').
      { intros v -> Hh X. simpl in X. injection X as <- <-. exists a. split; auto. eapply I_inside; eauto. cbn [p at_ live].
        split; [left; auto|]. split; auto. split; [intros y w []|]. intros D2 _. exists D2. cbn [evs wb]. rewrite G5. simpl. auto. }
      assert (Hy : forall v, v = 1 ->
        (let (p, e0) := if v =? 0 then (at_ (pcs (ts s) t) (CS false), [Enter t]) else (at_ (pcs (ts s) t) LBusy, []) in
         Some (mkR (setp s t p) (upd (txs s) t (Some (mkX false (dep r) (Reg 0 :: tch r) [] (evs r ++ e0) (abt r)))), [])) = Some (s', e) ->
        exists a', accepts dl_step a e = Some a' /\ I s' a').
      { intros v -> X. simpl in X. injection X as <- <-. exists a. split; auto. eapply I_inside; eauto. exact Logic.I. }
      destruct (hold a) as [|u|u] eqn:Eh.
      * apply (Hx 0); auto.
      * apply (Hy 1); auto.
      * destruct (Nat.eqb_spec t u) as [Hn|Hn]; [subst u; apply (Hx 0); auto|apply (Hy 1); auto].
    + destruct x; try discriminate Ec. injection Ec as <-. injection H as <- <-. exists a. split; auto. apply I_abort; auto.
    + (* in the section *)
      pose proof G4 as [S1 [S2 [S3 S4]]].
      destruct x; try discriminate Ec; injection Ec as <-.
      * unfold tview in H. rewrite (see_dat s a t i0 HI) in H by auto. injection H as <- <-. exists a. split; auto.
        eapply I_inside; eauto. cbn [p at_ live]. split; [right; auto|]. split; auto. split; auto. apply trans_rd. auto.
      * injection H as <- <-. exists a. split; auto.
        eapply I_inside; eauto. cbn [p at_ live]. split; [right; auto|]. split; auto. split; [apply alldat_snoc; auto|]. apply trans_wr. auto.
      * unfold tview in H. rewrite alldat_reg in H by auto. rewrite (see s a t HI) in H.
        assert (Hv : match hold a with Free => 0 | Held _ => 1 | Left u => if Nat.eqb t u then 0 else 1 end = 0)
          by (destruct S2 as [S2|S2]; rewrite S2; rewrite ?Nat.eqb_refl; auto).
        rewrite Hv in H. simpl in H. injection H as <- <-. exists a. split; auto.
        eapply I_inside; eauto. cbn [p at_ live]. split; [right; auto|]. split; auto. split; auto. apply trans_ld. auto.
    + (* rtm_end *)
      destruct x; try discriminate Ec. injection Ec as <-. rewrite G3 in H.
      destruct (buf (ts s) t) eqn:Eb; [|discriminate]. injection H as <- <-. eapply I_commit; eauto.
  - (* outside *)
    unfold outside in H. destruct (F t Et) as [Ho|Ho].
    + assert (Ho' : outp (p (pcs (ts s) t)) = true) by exact Ho.
      assert (Hrmw : forall f l0 l1 e1, (forall v, f v = 1 \/ f v = (if v =? 0 then 1 else v)) -> p l0 = CS true -> outp (p l1) = true ->
         (hold a = Free \/ accepts dl_step a e1 = Some a) ->
         match step (fun _ _ _ => Some (Rmw (Reg 0) f (fun v => if v =? 0 then (l0, [Enter t]) else (l1, e1)))) arr (ts s) (Go t x) with
         | Some (s'0, e0) => Some (mkR s'0 (kill (txs s) t [Reg 0]), e0) | None => None end = Some (s', e) ->
         exists a', accepts dl_step a e = Some a' /\ I s' a').
      { intros f l0 l1 e1 Hf H0 H1 He X. cbn [step] in X. destruct (buf (ts s) t) eqn:Eb; [|discriminate].
        destruct (hold a) as [|u|u] eqn:Eh.
        - rewrite C in X. simpl in X. injection X as <- <-. exists {| hold := Held t; dat := dat a |}. split; [simpl; rewrite Eh; auto|].
          apply I_acquire; auto. destruct (Hf 0) as [-> | ->]; auto.
        - destruct C as [C _]. rewrite C in X. simpl in X. injection X as <- <-. exists a. destruct He as [He|He]; [discriminate|]. split; auto.
          apply I_refused; auto; [congruence|]. destruct (Hf 1) as [-> | ->]; auto.
        - destruct C as [C _]. rewrite C in X. simpl in X. injection X as <- <-. exists a. destruct He as [He|He]; [discriminate|]. split; auto.
          apply I_refused; auto; [congruence|]. destruct (Hf 1) as [-> | ->]; auto. }
      destruct (pp s t) eqn:Ep; try discriminate Ho; destruct x; try discriminate Ec.
      all: try (injection Ec as <-; injection H as <- <-; exists a; split; [reflexivity|]; apply I_out; auto; rewrite ?Ep; auto; fail).
      * (* begin *) injection Ec as <-. injection H as <- <-. exists a. split; auto.
        constructor; cbn [ts txs]; auto.
        -- intros u. rewrite <- E. unfold pp. cbn [ts setp next pcs]. upd_cases; [|tauto]. fold (pp s t). rewrite Ep. split; intros [X Y]; [congruence|discriminate].
        -- intros u Hu. unfold pp. cbn [ts setp next pcs]. upd_cases; [congruence|]. apply F. auto.
        -- intros u q Hq. unfold pp. cbn [ts setp next pcs]. upd_cases; [|apply G; auto]. injection Hq as <-. split; [split; auto|]. intros _. simpl. auto.
      * injection Ec as <-. injection H as <- <-. exists a. split; auto.
        constructor; cbn [ts txs]; auto.
        -- intros u. rewrite <- E. unfold pp. cbn [ts setp next pcs]. upd_cases; [|tauto]. fold (pp s t). rewrite Ep. split; intros [X Y]; [congruence|discriminate].
        -- intros u Hu. unfold pp. cbn [ts setp next pcs]. upd_cases; [congruence|]. apply F. auto.
        -- intros u q Hq. unfold pp. cbn [ts setp next pcs]. upd_cases; [|apply G; auto]. injection Hq as <-. split; [split; auto|]. intros _. simpl. auto.
      * (* adaptive *) destruct (okcfg c); [|discriminate]. injection Ec as <-. injection H as <- <-. exists a. split; auto.
        apply I_out; auto; rewrite ?Ep; auto. destruct (skip (st (pcs (ts s) t)) =? 0); auto.
      * (* trylock *) injection Ec as <-. apply (Hrmw (fun _ => 1) (at_ (pcs (ts s) t) (CS true)) (at_ (pcs (ts s) t) Idle) [Fail t]); auto.
        simpl. destruct (hold a); auto.
      * (* locked *) injection Ec as <-. cbn [step] in H. rewrite (see s a t HI) in H. injection H as <- <-. exists a. split.
        -- simpl. destruct (hold a) as [|u|u]; simpl; auto. destruct (Nat.eqb t u); auto.
        -- apply I_out; auto; rewrite ?Ep; auto.
      * (* begin again *) injection Ec as <-. injection H as <- <-. exists a. split; auto.
        constructor; cbn [ts txs]; auto.
        -- intros u. rewrite <- E. unfold pp. cbn [ts setp next pcs]. upd_cases; [|tauto]. fold (pp s t). rewrite Ep. split; intros [X Y]; [congruence|discriminate].
        -- intros u Hu. unfold pp. cbn [ts setp next pcs]. upd_cases; [congruence|]. apply F. auto.
        -- intros u q Hq. unfold pp. cbn [ts setp next pcs]. upd_cases; [|apply G; auto]. injection Hq as <-. split; [split; [auto|intros; apply aborted_out]|]. intros _. simpl. auto.
      * (* spin *) destruct (retry - 1 =? 0); injection Ec as <-; injection H as <- <-; exists a; (split; [auto|]); apply I_out; auto; rewrite ?Ep; auto.
        cbn [p at_]. destruct (view (ts s) t (Reg 0) =? 0); auto. apply loop_out.
      * (* acquire *) injection Ec as <-.
        apply (Hrmw (fun v => match k with Fas => 1 | Cas => if v =? 0 then 1 else v end) (at_ (pcs (ts s) t) (CS true)) (at_ (pcs (ts s) t) AcqS) []); auto.
        intros v. destruct k; auto.
      * injection Ec as <-. cbn [step] in H. destruct (view (ts s) t (Reg 0) =? 1); injection H as <- <-; exists a; (split; [auto|]); apply I_out; auto; rewrite ?Ep; auto.
    + assert (Eh : hold a = Held t) by (apply E; auto). rewrite Eh in C. destruct C as [C1 C2].
      assert (Hrel : Some (mkR (mkT (mem (ts s)) (upd (buf (ts s)) t (buf (ts s) t ++ [(Reg 0, 0)])) (upd (pcs (ts s)) t (at_ (pcs (ts s) t) Idle))) (txs s), [Leave t]) = Some (s', e) ->
         exists a', accepts dl_step a e = Some a' /\ I s' a').
      { intros X. injection X as <- <-. exists {| hold := Left t; dat := dat a |}. split; [simpl; rewrite Eh, Nat.eqb_refl; auto|].
        eapply I_holder; eauto.
        - cbn [hold dat owner]. apply (data_reg (Some t)). rewrite Eh in A. exact A.
        - right. split; auto. split; auto. eauto. }
      destruct (pp s t) as [| | | | | | |[]| |] eqn:Ep; try discriminate Ho; destruct x; try discriminate Ec; injection Ec as <-.
      * (* read *) cbn [step] in H. injection H as <- <-. exists a. split; [|apply I_ld; auto; rewrite Ep; auto].
        rewrite Eh in A. destruct A as [A _]. simpl. rewrite Eh, Nat.eqb_refl, A, Z.eqb_refl. auto.
      * (* write *) cbn [step] in H. injection H as <- <-.
        exists {| hold := Held t; dat := fun j => if Nat.eqb i0 j then v else dat a j |}. split; [simpl; rewrite Eh, Nat.eqb_refl; auto|].
        eapply I_holder; eauto.
        -- cbn [hold dat owner]. apply data_write. rewrite Eh in A. exact A.
        -- left. split; auto. split; auto. apply alldat_snoc. auto.
      * (* unlock predicate *) cbn [step] in H. rewrite (see s a t HI), Eh in H. simpl in H. injection H as <- <-.
        exists a. split; auto. apply I_ld; auto; rewrite ?Ep; auto.
      * apply Hrel. exact H.
      * apply Hrel. exact H.
Qed.

Lemma elide_inv : forall k D S ls s log, run (xstep (code k) arr) (init D S) ls = Some (s, log) ->
  exists a, accepts dl_step {| hold := Free; dat := D |} log = Some a /\ I s a.
Proof.
  intros k D S ls s log H.
  eapply (run_inv (xstep (code k) arr) (fun s log => exists a, accepts dl_step {| hold := Free; dat := D |} log = Some a /\ I s a)); [| |exact H].
  - eexists. split; [reflexivity|]. apply I_init.
  - intros s1 l1 l s2 e [a [H1 H2]] Hs. destruct (I_step _ _ _ _ _ _ H2 Hs) as [a' [K1 K2]]. exists a'. split; auto.
    rewrite accepts_app, H1. auto.
Qed.
Lemma elide_all : forall k D S ls s log, run (xstep (code k) arr) (init D S) ls = Some (s, log) -> dl_legal D log.
Proof. intros k D S ls s log H. destruct (elide_inv _ _ _ _ _ _ H) as [a [K _]]. exists a. auto. Qed.

Lemma elide_ends : forall k D S s t, reachable (xstep (code k) arr) (init D S) s ->
  (p (pcs (ts s) t) = Idle -> txs s t = None) /\
  (forall ad, p (pcs (ts s) t) = UEnd ad -> txs s t <> None) /\
  (p (pcs (ts s) t) = URel -> txs s t = None).
Proof.
  intros k D S s t [ls [log H]]. destruct (elide_inv _ _ _ _ _ _ H) as [a [_ HI]]. pose proof HI as [A B C E F G]. repeat split.
  - intros Hp. destruct (txs s t) as [r|] eqn:Er; auto. destruct (G t r Er) as [[X _] _]. unfold pp in X. rewrite Hp in X. discriminate.
  - intros ad Hp Hn. destruct (F t Hn) as [X|X]; unfold pp in X; rewrite Hp in X; discriminate.
  - intros Hp. destruct (txs s t) as [r|] eqn:Er; auto. destruct (G t r Er) as [[X _] _]. unfold pp in X. rewrite Hp in X. discriminate.
Qed.
