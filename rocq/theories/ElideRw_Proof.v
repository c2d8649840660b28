(** Proofs about elision of ck_rwlock. *)
From Coq Require Import ZArith Arith List Bool Lia.
From Verif Require Import Lib Tso Rtm Rtm_Proof TsoRw_Spec Elide_Model ElideRw_Model ElideRw_Spec.
Import ListNotations.
Local Open Scope Z_scope.

Local Arguments W : simpl never.
Local Arguments WRD : simpl never.
Local Arguments CNT : simpl never.

Definition alldat (b : list (loc * Z)) : Prop := forall x v, In (x, v) b -> isdat x.
Definition pp (s : rtm lst wev) (u : nat) : pc := p (pcs (ts s) u).

(** what a thread outside transactions is doing; KTx: in a transaction *)
Inductive cl := KOut | KAnn | KIn | KWait | KCs | KTx.
Definition cls (q : pc) : cl :=
  match q with
  | Idle | Bgn _ _ _ | Spn _ _ _ | Spn2 _ _ _ | WA | RS | RA => KOut
  | RC | RX => KAnn
  | CS false true | URel false => KIn
  | WN => KWait
  | CS true true | URel true => KCs
  | _ => KTx
  end.
Definition ec (s : rtm lst wev) (u : nat) : cl := match txs s u with Some _ => KTx | None => cls (pp s u) end.

Inductive own := Free | Wait (t : nat) | Held (t : nat) | Left (t : nat).
Definition od (o : own) : option nat := match o with Held t | Left t => Some t | _ => None end.

Record MI (o : own) (D : nat -> Z) (m : tso lst) : Prop := {
  m_dat : data (od o) D m;
  m_buf : forall u, od o <> Some u -> buf m u = [];
  m_word : match o with
    | Free => mem m WRD = 0
    | Wait _ => mem m WRD = 1
    | Held t => mem m WRD = 1 /\ alldat (buf m t)
    | Left t => mem m WRD = 1 /\ exists ds, buf m t = ds ++ [(WRD, 0)] /\ alldat ds
    end
}.
Record PI (o : own) (c : nat -> cl) (a : rwl) : Prop := {
  p_a : match o with Held t => wrt a = Some t /\ rds a = [] | Left t => wrt a = None /\ rds a = [] | _ => wrt a = None end;
  p_w : forall u, c u = KWait <-> o = Wait u;
  p_cs : forall u, c u = KCs <-> o = Held u;
  p_rds : forall u, In u (rds a) <-> c u = KIn;
  p_left : forall u, o = Left u -> c u <> KAnn
}.
Definition CI (N : nat) (c : nat -> cl) (n : Z) : Prop :=
  exists K, NoDup K /\ (forall u, In u K <-> c u = KAnn \/ c u = KIn) /\ n = Z.of_nat (length K) /\ forall u, In u K -> (u < N)%nat.

(** the events of a transaction are those of a section over any data that agrees on what it touched,
    whatever other readers there are *)
Definition trans (w : bool) (u : nat) (D : nat -> Z) (r : txr lst wev) : Prop :=
  forall D2 R, (forall i, In (Dat i) (tch r) -> D2 i = D i) -> (w = true -> R = []) ->
  exists D3, accepts rw_step {| wrt := None; rds := R; dat := D2 |} (evs r) =
               Some {| wrt := if w then Some u else None; rds := if w then [] else u :: R; dat := D3 |} /\
             forall i, D3 i = fwd (wb r) (Dat i) (D2 i).
Definition secs (w : bool) (n : Z) (o : own) (D : nat -> Z) (u : nat) (r : txr lst wev) : Prop :=
  In WRD (tch r) /\ (o = Free \/ o = Left u) /\ (w = true -> In CNT (tch r) /\ n = 0) /\ alldat (wb r) /\ (w = false -> wb r = []) /\ trans w u D r.
Definition live (n : Z) (o : own) (D : nat -> Z) (u : nat) (q : pc) (r : txr lst wev) : Prop :=
  match q with
  | LP _ => wb r = [] /\ evs r = []
  | LP2 b => wb r = [] /\ evs r = [] /\ In CNT (tch r) /\ (b = false -> n = 0)
  | LBusy _ => True
  | CS w false | UEnd w _ => secs w n o D u r
  | URel false => secs false n o D u r /\ In CNT (tch r) /\ 1 <= n < W
  | _ => False
  end.
(** a transaction in which read_unlock has been executed: it will not commit *)
Definition hr (q : pc) : bool := match q with RC | RX | CS false true | URel false => true | _ => false end.
Definition wh (q : pc) : bool := match q with WN | CS true true => true | _ => false end.
Definition need (q : pc) : nat := match q with LP _ | LP2 _ | CS _ false | UEnd _ _ => 2 | _ => 1 end.
Definition stuck (q : pc) (r : txr lst wev) : Prop :=
  exists c, (forall d, fwd (wb r) CNT d = c) /\ (if hr q then 1 <= c < W else 0 <= c < W - 1) /\
            (wh q = true -> forall d, fwd (wb r) WRD d = 1) /\ (need q <= dep r)%nat.
Definition okx (n : Z) (o : own) (D : nat -> Z) (u : nat) (q : pc) (r : txr lst wev) : Prop :=
  (forall x, cls (p (abt r x)) = KOut) /\ (dead r = false -> dep r = 1%nat /\ live n o D u q r \/ stuck q r).

Record I (N : nat) (s : rtm lst wev) (a : rwl) (o : own) : Prop := {
  i_m : MI o (dat a) (ts s);
  i_p : PI o (ec s) a;
  i_c : CI N (ec s) (mem (ts s) CNT);
  i_out : forall u, txs s u = None -> cls (pp s u) <> KTx;
  i_tx : forall u r, txs s u = Some r -> okx (mem (ts s) CNT) o (dat a) u (pp s u) r
}.

Lemma I_init : forall N D S, I N (init D S) {| wrt := None; rds := []; dat := D |} Free.
Proof.
  intros N D S. constructor; cbn [dat]; try discriminate.
  - constructor; simpl; auto. split; auto. intros u i v [].
  - constructor; simpl; auto; intros u; try (split; [discriminate|discriminate]); try discriminate. split; [intros []|discriminate].
  - exists []. split; [constructor|]. split; [|split; [reflexivity|intros u []]]. intros u. split; [intros []|intros [X|X]; discriminate X].
Qed.

Lemma alldat_reg : forall b j d, alldat b -> fwd b (Reg j) d = d.
Proof. intros b j d H. apply fwd_none. intros v Hv. apply (H _ _ Hv). Qed.
Lemma alldat_snoc : forall b i v, alldat b -> alldat (b ++ [(Dat i, v)]).
Proof. intros b i v H x w Hx. apply in_app_iff in Hx. destruct Hx as [Hx|[Hx|[]]]; [eapply H; eauto|]. injection Hx as <- <-. exact Logic.I. Qed.

(** * What a thread sees *)
Lemma see : forall o D m t, MI o D m -> view m t WRD =
  match o with Free => 0 | Wait _ | Held _ => 1 | Left u => if Nat.eqb t u then 0 else 1 end.
Proof.
  intros o D m t [A B C]. unfold view. destruct o as [|u|u|u]; simpl in *.
  - rewrite B by discriminate. auto.
  - rewrite B by discriminate. auto.
  - destruct C as [E F]. destruct (Nat.eq_dec u t) as [->|Hn].
    + unfold WRD. rewrite alldat_reg by auto. auto.
    + rewrite B by congruence. auto.
  - destruct C as [E [ds [F G]]]. destruct (Nat.eqb_spec t u) as [->|Hn].
    + rewrite F, fwd_app. reflexivity.
    + rewrite B by congruence. auto.
Qed.
Lemma see_cnt : forall o D m t, MI o D m -> view m t CNT = mem m CNT.
Proof.
  intros o D m t [A B C]. unfold view.
  assert (X : od o <> Some t -> fwd (buf m t) CNT (mem m CNT) = mem m CNT) by (intros X; rewrite B by auto; auto).
  destruct o as [|u|u|u]; simpl in *; try (apply X; discriminate).
  - destruct (Nat.eq_dec u t) as [->|Hn]; [|apply X; congruence]. apply alldat_reg. apply C.
  - destruct (Nat.eq_dec u t) as [->|Hn]; [|apply X; congruence]. destruct C as [_ [ds [F G]]]. rewrite F, fwd_app. cbn.
    apply alldat_reg. auto.
Qed.
Lemma see_dat : forall o D m t i, MI o D m -> od o = None \/ od o = Some t -> view m t (Dat i) = D i.
Proof.
  intros o D m t i [A B _] [H|H]; rewrite H in A; destruct A as [A1 A2]; auto.
  unfold view. rewrite B by (rewrite H; discriminate). simpl. auto.
Qed.

Lemma loop_out : forall w c r, cls (loop w c r) = KOut.
Proof. intros. unfold loop. destruct (0 <? r - 1); auto. destruct w; auto. Qed.
Lemma aborted_out : forall w c r s x, cls (p (aborted w c r s x)) = KOut.
Proof. intros. unfold aborted. destruct (fallback r s c x) as [[[] r'] s']; simpl; auto; [apply loop_out|destruct w; auto]. Qed.
Lemma out_plain : forall q, cls q = KOut -> hr q = false /\ wh q = false /\ need q = 1%nat.
Proof. intros q H. destruct q as [| | | | | | | | | | | | |[] []|[]|]; try discriminate H; auto. Qed.

(** * Changing the class of one thread *)
Lemma PI_ext : forall o c c' a, (forall u, c' u = c u) -> PI o c a -> PI o c' a.
Proof. intros o c c' a H [A B C D E]. constructor; auto; intros u; rewrite H; auto. Qed.
Lemma CI_ext : forall N c c' n, (forall u, c' u = c u) -> CI N c n -> CI N c' n.
Proof. intros N c c' n H [K [A [B [C D]]]]. exists K. repeat split; auto; intros; [rewrite H; apply B; auto|apply B; rewrite <- H; auto]. Qed.

Lemma PI_same : forall o c a t k, PI o c a -> c t = k -> PI o (upd c t k) a.
Proof. intros o c a t k H E. eapply PI_ext; [|exact H]. intros u. upd_cases; auto. Qed.
Lemma CI_same : forall N c n t k, CI N c n -> (c t = KAnn \/ c t = KIn <-> k = KAnn \/ k = KIn) -> CI N (upd c t k) n.
Proof.
  intros N c n t k [K [A [B [C D]]]] E. exists K. repeat split; auto; intros Hu.
  - apply B in Hu. upd_cases; tauto.
  - apply B. upd_cases; tauto.
Qed.
Lemma CI_bound : forall N c n, CI N c n -> Z.of_nat N < W -> 0 <= n < W.
Proof.
  intros N c n [K [A [B [-> D]]]] HN. assert (length K <= length (seq 0 N))%nat.
  { apply NoDup_incl_length; auto. intros u Hu. apply in_seq. specialize (D u Hu). lia. }
  rewrite seq_length in H. lia.
Qed.
Lemma CI_add : forall N c n t k, CI N c n -> Z.of_nat N < W -> (t < N)%nat -> c t <> KAnn -> c t <> KIn -> k = KAnn \/ k = KIn ->
  CI N (upd c t k) ((n + 1) mod W).
Proof.
  intros N c n t k H HN Ht H1 H2 H3. assert (X : CI N (upd c t k) (n + 1)).
  { destruct H as [K [A [B [-> D]]]]. exists (t :: K). repeat split.
    - constructor; auto. intros X. apply B in X. tauto.
    - intros [<-|Hu]; [rewrite upd_same; auto|]. apply B in Hu. upd_cases; tauto.
    - intros Hu. destruct (Nat.eq_dec u t) as [->|Hn]; [left; auto|]. rewrite upd_other in Hu by auto. right. apply B. auto.
    - cbn [length]. lia.
    - intros u [<-|Hu]; auto. }
  pose proof (CI_bound _ _ _ X HN). rewrite Z.mod_small by lia. auto.
Qed.
Lemma CI_sub : forall N c n t k, CI N c n -> Z.of_nat N < W -> c t = KAnn \/ c t = KIn -> k <> KAnn -> k <> KIn ->
  CI N (upd c t k) ((n - 1) mod W).
Proof.
  intros N c n t k H HN H1 H2 H3. assert (X : CI N (upd c t k) (n - 1)).
  { destruct H as [K [A [B [-> D]]]]. assert (Hi : In t K) by (apply B; auto). apply in_split in Hi. destruct Hi as [K1 [K2 ->]].
    pose proof (NoDup_remove_1 _ _ _ A) as ND. pose proof (NoDup_remove_2 _ _ _ A) as Ht.
    exists (K1 ++ K2). repeat split; auto.
    - intros Hu. assert (u <> t) by congruence. rewrite upd_other by auto. apply B. rewrite in_app_iff in *. simpl. tauto.
    - intros Hu. destruct (Nat.eq_dec u t) as [->|Hn]; [rewrite upd_same in Hu; tauto|]. rewrite upd_other in Hu by auto.
      apply B in Hu. rewrite in_app_iff in *. simpl in Hu. destruct Hu as [Hu|[Hu|Hu]]; auto. congruence.
    - rewrite !app_length. simpl. lia.
    - intros u Hu. apply D. rewrite in_app_iff in *. simpl. tauto. }
  pose proof (CI_bound _ _ _ X HN). rewrite Z.mod_small by lia. auto.
Qed.
Lemma CI_pos : forall N c n t, CI N c n -> c t = KAnn \/ c t = KIn -> 1 <= n.
Proof. intros N c n t [K [A [B [-> D]]]] H. apply B in H. destruct K; [destruct H|]. simpl length. lia. Qed.
Lemma CI_zero : forall N c a o, CI N c 0 -> PI o c a -> rds a = [].
Proof.
  intros N c a o H HP. destruct (rds a) as [|u R] eqn:E; auto. assert (c u = KIn) by (apply (p_rds _ _ _ HP); rewrite E; left; auto).
  pose proof (CI_pos N c 0 u H (or_intror H0)). lia.
Qed.

(** * One step of a thread outside transactions *)
Section Move.
Variable N : nat.
Hypothesis HN : Z.of_nat N < W.
Notation I := (I N).
Notation code := (code N).

Lemma I_move : forall s a o t l m b T xs a' o' k,
  I s a o -> txs s t = None -> cls (p l) = k -> k <> KTx ->
  (T = txs s /\ xs = [] \/ T = kill (txs s) t xs) ->
  MI o' (dat a') (mkT m b (upd (pcs (ts s)) t l)) ->
  PI o' (upd (ec s) t k) a' -> CI N (upd (ec s) t k) (m CNT) ->
  (forall u r, u <> t -> dead r = false -> hits xs (tch r) = false -> live (mem (ts s) CNT) o (dat a) u (pp s u) r -> live (m CNT) o' (dat a') u (pp s u) r) ->
  I (mkR (mkT m b (upd (pcs (ts s)) t l)) T) a' o'.
Proof.
  intros s a o t l m b T xs a' o' k HI Ht Hl Hk HT HM HP HC HL. destruct HI as [A B C D E].
  assert (TN : forall u, T u = None <-> txs s u = None) by (intros u; destruct HT as [[-> _]| ->]; [tauto|apply kill_none]).
  assert (TS : forall u r, T u = Some r -> exists r0, txs s u = Some r0 /\ abt r = abt r0 /\ (dead r = false -> r = r0 /\ (u <> t -> hits xs (tch r) = false))).
  { intros u r Hr. destruct HT as [[-> ->]| ->]; [exists r; auto|]. destruct (kill_some _ _ _ _ _ Hr) as [r0 [X1 [X2 X3]]]. exists r0. split; auto. split; auto.
    intros X. destruct (X3 X) as [X4 [X5 X6]]. auto. }
  assert (EC : forall u, ec (mkR (mkT m b (upd (pcs (ts s)) t l)) T) u = upd (ec s) t k u).
  { intros u. unfold ec, pp. cbn [txs ts pcs]. destruct (T u) as [r|] eqn:Er.
    - destruct (TS u r Er) as [r0 [X _]]. upd_cases; [congruence|]. rewrite X. auto.
    - apply TN in Er. upd_cases; auto. rewrite Er. auto. }
  constructor; cbn [ts txs mem]; auto.
  - eapply PI_ext; eauto.
  - eapply CI_ext; eauto.
  - intros u Hu. apply TN in Hu. unfold pp. cbn [ts pcs]. upd_cases; [auto|]. apply D. auto.
  - intros u r Hr. destruct (TS u r Hr) as [r0 [X1 [X2 X3]]]. destruct (E u r0 X1) as [Y1 Y2]. split; [rewrite X2; auto|].
    intros Hd. destruct (X3 Hd) as [-> X4]. assert (u <> t) by congruence. unfold pp. cbn [ts pcs]. rewrite upd_other by auto. fold (pp s u).
    destruct (Y2 Hd) as [[Z1 Z2]|Z]; auto.
Qed.

(** local steps and loads *)
Lemma I_same : forall s a o t l, I s a o -> txs s t = None -> cls (p l) = cls (pp s t) ->
  I (mkR (next (ts s) t l) (txs s)) a o.
Proof.
  intros s a o t l HI Ht Hl. pose proof HI as [A B C D E]. pose proof (D t Ht) as Hk.
  apply (I_move s a o t l (mem (ts s)) (buf (ts s)) (txs s) [] a o (cls (pp s t))); auto.
  - destruct A as [A1 A2 A3]. constructor; auto.
  - apply PI_same; auto. unfold ec. rewrite Ht. auto.
  - apply CI_same; auto. unfold ec. rewrite Ht. tauto.
Qed.

Lemma live_mono : forall n o D n' o' D' u q r, live n o D u q r -> n' = n ->
  (forall w, secs w n o D u r -> secs w n' o' D' u r) -> live n' o' D' u q r.
Proof.
  intros n o D n' o' D' u q r H -> K. destruct q as [| | | | | | | | | | | | |w []|[]|]; simpl in *; auto.
  destruct H as [H1 H2]. split; auto.
Qed.
(** after an access to the writer word *)
Lemma live_wrd : forall n o D o' D' u q r, live n o D u q r -> hits [WRD] (tch r) = false -> live n o' D' u q r.
Proof.
  intros n o D o' D' u q r H Hh. eapply live_mono; eauto. intros w [X _]. rewrite hits_in in Hh by auto. discriminate.
Qed.
(** after an access to the counter *)
Lemma live_cnt : forall n n' o D u q r, live n o D u q r -> hits [CNT] (tch r) = false -> live n' o D u q r.
Proof.
  intros n n' o D u q r H Hh. assert (X : ~ In CNT (tch r)) by (intros X; rewrite hits_in in Hh by auto; discriminate).
  assert (Y : forall w, secs w n o D u r -> secs w n' o D u r).
  { intros w [A [B [C G]]]. refine (conj A (conj B (conj _ G))). intros Hw. exfalso. apply X, C. auto. }
  destruct q as [| | | | | | | | | | | | |w []|[]|]; simpl in *; auto; try tauto.
Qed.
Lemma live_nosec : forall n o D n' o' D' u q r, live n o D u q r -> n' = n -> o <> Free -> o <> Left u -> live n' o' D' u q r.
Proof. intros. eapply live_mono; eauto. intros w [_ [[X|X] _]]; tauto. Qed.

Lemma ec_out : forall s t, txs s t = None -> ec s t = cls (pp s t).
Proof. intros s t H. unfold ec. rewrite H. auto. Qed.

(** the fetch-and-store of write_lock *)
Lemma I_fas : forall s a o t, I s a o -> txs s t = None -> pp s t = WA -> buf (ts s) t = [] ->
  exists o', I (mkR (mkT (setm (mem (ts s)) WRD 1) (buf (ts s)) (upd (pcs (ts s)) t (at_ (pcs (ts s) t) (if mem (ts s) WRD =? 0 then WN else WA))))
                    (kill (txs s) t [WRD])) a o'.
Proof.
  intros s a o t HI Ht Hp Hb. pose proof HI as [A B C D E]. pose proof (ec_out s t Ht) as Hk. rewrite Hp in Hk. cbn [cls] in Hk.
  pose proof A as [A1 A2 A3]. destruct o as [|u|u|u].
  - exists (Wait t). rewrite A3. cbn [Z.eqb].
    eapply (I_move s a Free t _ _ _ _ [WRD] a (Wait t) KWait); eauto; try discriminate.
    + constructor; cbn [mem buf od]; auto; try (apply data_rmw; exact A1).
    + destruct B as [B1 B2 B3 B4 B5]. constructor; auto.
      * intros u. upd_cases; [tauto|]. rewrite B2. split; congruence.
      * intros u. upd_cases; [split; discriminate|]. rewrite B3. split; discriminate.
      * intros u. rewrite B4. upd_cases; [rewrite Hk; split; discriminate|tauto].
      * discriminate.
    + rewrite setm_other by discriminate. apply CI_same; auto. rewrite Hk. split; intros [X|X]; discriminate.
    + intros u r Hu Hd Hh HL. rewrite setm_other by discriminate. eapply live_wrd; eauto.
  - exists (Wait u). assert (X : mem (ts s) WRD = 1) by auto. rewrite X. cbn [Z.eqb].
    eapply (I_move s a (Wait u) t _ _ _ _ [WRD] a (Wait u) KOut); eauto; try discriminate.
    + constructor; cbn [mem buf od]; auto; try (apply data_rmw; exact A1).
    + apply PI_same; auto.
    + rewrite setm_other by discriminate. apply CI_same; auto. rewrite Hk. tauto.
  - exists (Held u). assert (X : mem (ts s) WRD = 1) by tauto. rewrite X. cbn [Z.eqb].
    eapply (I_move s a (Held u) t _ _ _ _ [WRD] a (Held u) KOut); eauto; try discriminate.
    + constructor; cbn [mem buf od]; auto; try (apply data_rmw; exact A1). rewrite setm_same. tauto.
    + apply PI_same; auto.
    + rewrite setm_other by discriminate. apply CI_same; auto. rewrite Hk. tauto.
  - exists (Left u). assert (X : mem (ts s) WRD = 1) by tauto. rewrite X. cbn [Z.eqb].
    eapply (I_move s a (Left u) t _ _ _ _ [WRD] a (Left u) KOut); eauto; try discriminate.
    + constructor; cbn [mem buf od]; auto; try (apply data_rmw; exact A1). rewrite setm_same. tauto.
    + apply PI_same; auto.
    + rewrite setm_other by discriminate. apply CI_same; auto. rewrite Hk. tauto.
Qed.

(** write_lock has seen no readers *)
Lemma I_wenter : forall s a o t, I s a o -> txs s t = None -> pp s t = WN -> mem (ts s) CNT = 0 ->
  exists a', accepts rw_step a [WEnter t] = Some a' /\ I (mkR (next (ts s) t (at_ (pcs (ts s) t) (CS true true))) (txs s)) a' (Held t).
Proof.
  intros s a o t HI Ht Hp Hc. pose proof HI as [A B C D E]. pose proof (ec_out s t Ht) as Hk. rewrite Hp in Hk. cbn [cls] in Hk.
  assert (o = Wait t) as -> by (apply (p_w _ _ _ B); auto). pose proof A as [A1 A2 A3].
  rewrite Hc in C. pose proof (CI_zero _ _ _ _ C B) as HR. pose proof (p_a _ _ _ B) as Hw. cbn in Hw.
  exists {| wrt := Some t; rds := []; dat := dat a |}. split; [simpl; rewrite Hw, HR; auto|].
  eapply (I_move s a (Wait t) t _ _ _ _ [] _ (Held t) KCs); eauto; try discriminate.
  - constructor; cbn [mem buf od dat].
    + apply data_take. exact A1.
    + intros u _. apply A2. discriminate.
    + split; auto. rewrite A2 by discriminate. intros x v [].
  - destruct B as [B1 B2 B3 B4 B5]. constructor; cbn [wrt rds]; auto.
    + intros u. upd_cases; [split; discriminate|]. rewrite B2. split; congruence.
    + intros u. upd_cases; [tauto|]. rewrite B3. split; congruence.
    + intros u. rewrite <- HR, B4. upd_cases; [rewrite Hk; split; discriminate|tauto].
    + discriminate.
  - rewrite Hc. apply CI_same; auto. rewrite Hk. split; intros [X|X]; discriminate.
  - intros u r Hu Hd _ HL. eapply live_nosec; eauto; discriminate.
Qed.

(** read_lock announces *)
Lemma I_ann : forall s a o t, I s a o -> txs s t = None -> (t < N)%nat -> pp s t = RA -> buf (ts s) t = [] ->
  I (mkR (mkT (setm (mem (ts s)) CNT ((mem (ts s) CNT + 1) mod W)) (buf (ts s)) (upd (pcs (ts s)) t (at_ (pcs (ts s) t) RC))) (kill (txs s) t [CNT])) a o.
Proof.
  intros s a o t HI Ht Htn Hp Hb. pose proof HI as [A B C D E]. pose proof (ec_out s t Ht) as Hk. rewrite Hp in Hk. cbn [cls] in Hk.
  pose proof A as [A1 A2 A3]. eapply (I_move s a o t _ _ _ _ [CNT] _ o KAnn); eauto; try discriminate.
  - constructor; cbn [mem buf]; auto; try (apply data_rmw; exact A1).
  - destruct B as [B1 B2 B3 B4 B5]. constructor; auto; intros u.
    + rewrite <- B2. upd_cases; [rewrite Hk; split; discriminate|tauto].
    + rewrite <- B3. upd_cases; [rewrite Hk; split; discriminate|tauto].
    + rewrite B4. upd_cases; [rewrite Hk; split; discriminate|tauto].
    + intros ->. upd_cases; auto. destruct A3 as [_ [ds [X _]]]. rewrite Hb in X. destruct ds; discriminate.
  - rewrite setm_same. apply CI_add; auto; rewrite Hk; discriminate.
  - intros u r Hu Hd Hh HL. rewrite setm_same. eapply live_cnt; eauto.
Qed.
Lemma I_take : forall s a o t, I s a o -> txs s t = None -> pp s t = RX -> buf (ts s) t = [] ->
  I (mkR (mkT (setm (mem (ts s)) CNT ((mem (ts s) CNT - 1) mod W)) (buf (ts s)) (upd (pcs (ts s)) t (at_ (pcs (ts s) t) RS))) (kill (txs s) t [CNT])) a o.
Proof.
  intros s a o t HI Ht Hp Hb. pose proof HI as [A B C D E]. pose proof (ec_out s t Ht) as Hk. rewrite Hp in Hk. cbn [cls] in Hk.
  pose proof A as [A1 A2 A3]. eapply (I_move s a o t _ _ _ _ [CNT] _ o KOut); eauto; try discriminate.
  - constructor; cbn [mem buf]; auto; try (apply data_rmw; exact A1).
  - destruct B as [B1 B2 B3 B4 B5]. constructor; auto; intros u.
    + rewrite <- B2. upd_cases; [rewrite Hk; split; discriminate|tauto].
    + rewrite <- B3. upd_cases; [rewrite Hk; split; discriminate|tauto].
    + rewrite B4. upd_cases; [rewrite Hk; split; discriminate|tauto].
    + intros Ho. upd_cases; auto. discriminate.
  - rewrite setm_same. apply CI_sub; auto; discriminate.
  - intros u r Hu Hd Hh HL. rewrite setm_same. eapply live_cnt; eauto.
Qed.

(** read_lock enters *)
Lemma I_renter : forall s a o t, I s a o -> txs s t = None -> pp s t = RC -> view (ts s) t WRD = 0 ->
  exists a', accepts rw_step a [REnter t] = Some a' /\ I (mkR (next (ts s) t (at_ (pcs (ts s) t) (CS false true))) (txs s)) a' o.
Proof.
  intros s a o t HI Ht Hp Hv. pose proof HI as [A B C D E]. pose proof (ec_out s t Ht) as Hk. rewrite Hp in Hk. cbn [cls] in Hk.
  rewrite (see _ _ _ t A) in Hv. assert (o = Free) as ->.
  { destruct o as [|u|u|u]; auto; try discriminate. destruct (Nat.eqb_spec t u) as [->|]; [|discriminate]. exfalso. eapply (p_left _ _ _ B); eauto. }
  pose proof A as [A1 A2 A3]. pose proof (p_a _ _ _ B) as Hw. cbn in Hw.
  exists {| wrt := None; rds := t :: rds a; dat := dat a |}. split; [simpl; rewrite Hw; auto|].
  eapply (I_move s a Free t _ _ _ _ [] _ Free KIn); eauto; try discriminate.
  - constructor; cbn [mem buf od dat]; auto.
  - destruct B as [B1 B2 B3 B4 B5]. constructor; cbn [wrt rds]; auto.
    + intros u. rewrite <- B2. upd_cases; [rewrite Hk; split; discriminate|tauto].
    + intros u. rewrite <- B3. upd_cases; [rewrite Hk; split; discriminate|tauto].
    + intros u. simpl. rewrite B4. upd_cases; [tauto|]. split; auto. intros [X|X]; congruence.
    + discriminate.
  - apply CI_same; auto. rewrite Hk. tauto.
Qed.
Lemma I_rleave : forall s a o t, I s a o -> txs s t = None -> cls (pp s t) = KIn -> buf (ts s) t = [] ->
  exists a', accepts rw_step a [RLeave t] = Some a' /\
  I (mkR (mkT (setm (mem (ts s)) CNT ((mem (ts s) CNT - 1) mod W)) (buf (ts s)) (upd (pcs (ts s)) t (at_ (pcs (ts s) t) Idle))) (kill (txs s) t [CNT])) a' o.
Proof.
  intros s a o t HI Ht Hp Hb. pose proof HI as [A B C D E]. pose proof (ec_out s t Ht) as Hk. rewrite Hp in Hk.
  pose proof A as [A1 A2 A3]. assert (Hr : In t (rds a)) by (apply (p_rds _ _ _ B); auto).
  exists {| wrt := wrt a; rds := remove Nat.eq_dec t (rds a); dat := dat a |}. split.
  { simpl. unfold isrd. assert (existsb (Nat.eqb t) (rds a) = true) as ->; auto. apply existsb_exists. exists t. split; auto. apply Nat.eqb_refl. }
  eapply (I_move s a o t _ _ _ _ [CNT] _ o KOut); eauto; try discriminate.
  - constructor; cbn [mem buf dat]; auto; try (apply data_rmw; exact A1).
  - destruct B as [B1 B2 B3 B4 B5]. constructor; cbn [wrt rds]; auto.
    + destruct o; auto; destruct B1 as [_ X]; rewrite X in Hr; destruct Hr.
    + intros u. rewrite <- B2. upd_cases; [rewrite Hk; split; discriminate|tauto].
    + intros u. rewrite <- B3. upd_cases; [rewrite Hk; split; discriminate|tauto].
    + intros u. destruct (Nat.eq_dec u t) as [->|Hn].
      * rewrite upd_same. split; [intros X; destruct (remove_In _ _ _ X)|discriminate].
      * rewrite upd_other by auto. rewrite <- B4. split; [intros X; eapply in_remove; eauto|intros X; apply in_in_remove; auto].
    + intros u Ho. upd_cases; auto. discriminate.
  - rewrite setm_same. apply CI_sub; auto; discriminate.
  - intros u r Hu Hd Hh HL. rewrite setm_same. cbn [dat]. eapply live_cnt; eauto.
Qed.

(** the writer stores *)
Lemma I_write : forall s a o t i v l, I s a o -> txs s t = None -> cls (pp s t) = KCs -> cls (p l) = KCs ->
  exists a', accepts rw_step a [DWr t i v] = Some a' /\
  I (mkR (mkT (mem (ts s)) (upd (buf (ts s)) t (buf (ts s) t ++ [(Dat i, v)])) (upd (pcs (ts s)) t l)) (txs s)) a' o.
Proof.
  intros s a o t i v l HI Ht Hp Hl. pose proof HI as [A B C D E]. pose proof (ec_out s t Ht) as Hk. rewrite Hp in Hk.
  assert (o = Held t) as -> by (apply (p_cs _ _ _ B); auto). pose proof A as [A1 A2 [A3 A4]]. pose proof (p_a _ _ _ B) as [Hw HR].
  exists {| wrt := wrt a; rds := rds a; dat := fun j => if Nat.eqb i j then v else dat a j |}. split.
  { simpl. unfold iswr. rewrite Hw, Nat.eqb_refl. auto. }
  eapply (I_move s a (Held t) t _ _ _ _ [] _ (Held t) KCs); eauto; try discriminate.
  - constructor; cbn [mem buf od dat].
    + apply data_write. exact A1.
    + intros u Hu. rewrite upd_other by congruence. auto.
    + rewrite upd_same. split; auto. apply alldat_snoc. auto.
  - apply PI_same; auto. destruct B; constructor; auto.
  - apply CI_same; auto. rewrite Hk. tauto.
  - intros u r Hu Hd _ HL. eapply live_nosec; eauto; discriminate.
Qed.
Lemma I_wleave : forall s a o t, I s a o -> txs s t = None -> cls (pp s t) = KCs ->
  exists a', accepts rw_step a [WLeave t] = Some a' /\
  I (mkR (mkT (mem (ts s)) (upd (buf (ts s)) t (buf (ts s) t ++ [(WRD, 0)])) (upd (pcs (ts s)) t (at_ (pcs (ts s) t) Idle))) (txs s)) a' (Left t).
Proof.
  intros s a o t HI Ht Hp. pose proof HI as [A B C D E]. pose proof (ec_out s t Ht) as Hk. rewrite Hp in Hk.
  assert (o = Held t) as -> by (apply (p_cs _ _ _ B); auto). pose proof A as [A1 A2 [A3 A4]]. pose proof (p_a _ _ _ B) as [Hw HR].
  exists {| wrt := None; rds := rds a; dat := dat a |}. split.
  { simpl. unfold iswr. rewrite Hw, Nat.eqb_refl. auto. }
  eapply (I_move s a (Held t) t _ _ _ _ [] _ (Left t) KOut); eauto; try discriminate.
  - constructor; cbn [mem buf od dat].
    + apply data_reg. exact A1.
    + intros u Hu. rewrite upd_other by congruence. auto.
    + rewrite upd_same. split; auto. eauto.
  - destruct B as [B1 B2 B3 B4 B5]. constructor; cbn [wrt rds]; auto.
    + intros u. upd_cases; [split; discriminate|]. rewrite B2. split; discriminate.
    + intros u. upd_cases; [split; discriminate|]. rewrite B3. split; congruence.
    + intros u. rewrite B4. upd_cases; [rewrite Hk; split; discriminate|tauto].
    + intros u Ho. injection Ho as <-. rewrite upd_same. discriminate.
  - apply CI_same; auto. rewrite Hk. split; intros [X|X]; discriminate.
  - intros u r Hu Hd _ HL. eapply live_nosec; eauto; discriminate.
Qed.
(** whoever is inside reads the data *)
Lemma I_read : forall s a o t i, I s a o -> txs s t = None -> cls (pp s t) = KCs \/ cls (pp s t) = KIn ->
  accepts rw_step a [DRd t i (view (ts s) t (Dat i))] = Some a.
Proof.
  intros s a o t i HI Ht Hp. pose proof HI as [A B C D E]. pose proof (ec_out s t Ht) as Hk. pose proof (p_a _ _ _ B) as Ha.
  rewrite (see_dat o (dat a) (ts s) t i A).
  - simpl. rewrite Z.eqb_refl, andb_true_r. assert (iswr a t || isrd a t = true) as ->; auto. apply orb_true_iff. destruct Hp as [Hp|Hp]; [left|right].
    + assert (o = Held t) as -> by (apply (p_cs _ _ _ B); congruence). unfold iswr. destruct Ha as [-> _]. apply Nat.eqb_refl.
    + unfold isrd. apply existsb_exists. exists t. split; [apply (p_rds _ _ _ B); congruence|apply Nat.eqb_refl].
  - destruct Hp as [Hp|Hp].
    + assert (o = Held t) as -> by (apply (p_cs _ _ _ B); congruence). right. auto.
    + left. assert (X : In t (rds a)) by (apply (p_rds _ _ _ B); congruence). destruct o; auto; destruct Ha as [_ Y]; rewrite Y in X; destruct X.
Qed.

(** * Transactions *)
Lemma I_begin : forall s a o t w k, I s a o -> txs s t = None -> cls (pp s t) = KOut -> (forall x, cls (p (k x)) = KOut) ->
  I (mkR (setp s t (at_ (pcs (ts s) t) (LP w))) (upd (txs s) t (Some (mkX false 1 [] [] [] k)))) a o.
Proof.
  intros s a o t w k HI Ht Hp Hx. pose proof HI as [A B C D E]. pose proof (ec_out s t Ht) as Hk. rewrite Hp in Hk.
  assert (EC : forall u, ec (mkR (setp s t (at_ (pcs (ts s) t) (LP w))) (upd (txs s) t (Some (mkX false 1 [] [] [] k)))) u = upd (ec s) t KTx u).
  { intros u. unfold ec, pp. cbn [txs ts setp next pcs]. upd_cases; auto. }
  constructor; cbn [ts txs setp next mem]; auto.
  - destruct A as [A1 A2 A3]. constructor; auto.
  - eapply PI_ext; [exact EC|]. destruct B as [B1 B2 B3 B4 B5]. constructor; auto; intros u.
    + rewrite <- B2. upd_cases; [rewrite Hk; split; discriminate|tauto].
    + rewrite <- B3. upd_cases; [rewrite Hk; split; discriminate|tauto].
    + rewrite B4. upd_cases; [rewrite Hk; split; discriminate|tauto].
    + intros Ho. upd_cases; auto. discriminate.
  - eapply CI_ext; [exact EC|]. apply CI_same; auto. rewrite Hk. split; intros [X|X]; discriminate.
  - intros u Hu. unfold pp. cbn [ts setp next pcs]. upd_cases; [congruence|]. apply D. auto.
  - intros u r Hr. unfold pp. cbn [ts setp next pcs]. upd_cases; [|apply E; auto]. injection Hr as <-. split; [auto|]. intros _. left. simpl. auto.
Qed.

Lemma I_abort : forall s a o t r x, I s a o -> txs s t = Some r -> I (mkR (setp s t (abt r x)) (upd (txs s) t None)) a o.
Proof.
  intros s a o t r x HI Ht. pose proof HI as [A B C D E]. destruct (E t r Ht) as [Hx _]. specialize (Hx x).
  assert (Hk : ec s t = KTx) by (unfold ec; rewrite Ht; auto).
  assert (EC : forall u, ec (mkR (setp s t (abt r x)) (upd (txs s) t None)) u = upd (ec s) t KOut u).
  { intros u. unfold ec, pp. cbn [txs ts setp next pcs]. upd_cases; auto. }
  constructor; cbn [ts txs setp next mem]; auto.
  - destruct A as [A1 A2 A3]. constructor; auto.
  - eapply PI_ext; [exact EC|]. destruct B as [B1 B2 B3 B4 B5]. constructor; auto; intros u.
    + rewrite <- B2. upd_cases; [rewrite Hk; split; discriminate|tauto].
    + rewrite <- B3. upd_cases; [rewrite Hk; split; discriminate|tauto].
    + rewrite B4. upd_cases; [rewrite Hk; split; discriminate|tauto].
    + intros Ho. upd_cases; auto. discriminate.
  - eapply CI_ext; [exact EC|]. apply CI_same; auto. rewrite Hk. split; intros [X|X]; discriminate.
  - intros u Hu. unfold pp. cbn [ts setp next pcs]. upd_cases; [congruence|]. apply D. auto.
  - intros u q Hr. unfold pp. cbn [ts setp next pcs]. upd_cases; [discriminate|]. apply E; auto.
Qed.

Lemma I_inside : forall s a o t r l r', I s a o -> txs s t = Some r -> abt r' = abt r ->
  (dep r' = 1%nat /\ live (mem (ts s) CNT) o (dat a) t (p l) r' \/ stuck (p l) r') ->
  I (mkR (setp s t l) (upd (txs s) t (Some r'))) a o.
Proof.
  intros s a o t r l r' HI Ht Hx Hl. pose proof HI as [A B C D E].
  assert (EC : forall u, ec (mkR (setp s t l) (upd (txs s) t (Some r'))) u = ec s u).
  { intros u. unfold ec, pp. cbn [txs ts setp next pcs]. upd_cases; auto. rewrite Ht. auto. }
  constructor; cbn [ts txs setp next mem]; auto.
  - destruct A as [A1 A2 A3]. constructor; auto.
  - eapply PI_ext; eauto.
  - eapply CI_ext; eauto.
  - intros u Hu. unfold pp. cbn [ts setp next pcs]. upd_cases; [congruence|]. apply D. auto.
  - intros u q Hr. unfold pp. cbn [ts setp next pcs]. upd_cases; [|apply E; auto]. injection Hr as <-. split; [|auto].
    rewrite Hx. apply (E t r Ht).
Qed.

Lemma trans_rd : forall w u D r i, trans w u D r ->
  trans w u D (mkX false (dep r) (Dat i :: tch r) (wb r) (evs r ++ [DRd u i (fwd (wb r) (Dat i) (D i))]) (abt r)).
Proof.
  intros w u D r i H D2 R H2 HR. destruct (H D2 R) as [D3 [K1 K2]]; [intros j Hj; apply H2; right; auto|auto|]. exists D3. cbn [evs wb]. split; auto.
  rewrite accepts_app, K1. simpl. rewrite K2, (H2 i) by (left; auto). rewrite Z.eqb_refl, andb_true_r.
  unfold iswr, isrd. cbn [wrt rds]. destruct w; simpl; rewrite Nat.eqb_refl; auto.
Qed.
Lemma trans_wr : forall u D r i v, trans true u D r ->
  trans true u D (mkX false (dep r) (Dat i :: tch r) (wb r ++ [(Dat i, v)]) (evs r ++ [DWr u i v]) (abt r)).
Proof.
  intros u D r i v H D2 R H2 HR. destruct (H D2 R) as [D3 [K1 K2]]; [intros j Hj; apply H2; right; auto|auto|].
  exists (fun j => if Nat.eqb i j then v else D3 j). cbn [evs wb]. split.
  - rewrite accepts_app, K1. simpl. unfold iswr. cbn [wrt]. rewrite Nat.eqb_refl. auto.
  - intros j. rewrite fwd_app. simpl. rewrite K2. auto.
Qed.
Lemma trans_ld : forall w u D r j, trans w u D r -> trans w u D (mkX false (dep r) (Reg j :: tch r) (wb r) (evs r ++ []) (abt r)).
Proof.
  intros w u D r j H D2 R H2 HR. destruct (H D2 R) as [D3 [K1 K2]]; [intros i Hi; apply H2; right; auto|auto|]. exists D3. cbn [evs wb]. rewrite app_nil_r. auto.
Qed.

(** inside a stuck transaction *)
Lemma stuck_step : forall s t r x i s' e, stuck (pp s t) r -> dead r = false -> code t (pcs (ts s) t) x = Some i ->
  inside s t r i = Some (s', e) ->
  e = [] /\ ((exists l r', s' = mkR (setp s t l) (upd (txs s) t (Some r')) /\ abt r' = abt r /\ stuck (p l) r') \/
             exists y, s' = mkR (setp s t (abt r y)) (upd (txs s) t None)).
Proof.
  intros s t r x i s' e [c [S1 [S2 [S3 S4]]]] Hd Hc H. unfold ElideRw_Model.code in Hc. destruct (negb (t <? N)%nat); [discriminate|].
  fold (pp s t) in Hc. unfold inside in H. rewrite Hd in H.
  assert (Q : forall l tc wb0 ev d, cls (p l) = KOut -> (forall d, fwd wb0 CNT d = c) -> 0 <= c < W - 1 -> (1 <= d)%nat ->
     stuck (p l) (mkX false d tc wb0 ev (abt r))).
  { intros l tc wb0 ev d Hl K1 K2 K3. destruct (out_plain _ Hl) as [X1 [X2 X3]]. exists c. rewrite X1, X2, X3. cbn [wb dep]. repeat split; auto; try lia. }
  assert (V : tview s t r CNT = c) by (unfold tview; apply S1).
  assert (M1 : 1 <= c < W -> (c - 1) mod W = c - 1) by (intros; apply Z.mod_small; lia).
  assert (M2 : 0 <= c < W - 1 -> (c + 1) mod W = c + 1) by (intros; apply Z.mod_small; lia).
  assert (FN : forall b x v y d, x <> y -> fwd (b ++ [(x, v)]) y d = fwd b y d).
  { intros b x0 v y d Hn. rewrite fwd_app. simpl. destruct (loc_eqb_spec x0 y); congruence. }
  assert (FE : forall b x v d, fwd (b ++ [(x, v)]) x d = v).
  { intros b x0 v d. rewrite fwd_app. simpl. destruct (loc_eqb_spec x0 x0); congruence. }
  assert (G : forall l tc wb0 ev d c', s' = mkR (setp s t l) (upd (txs s) t (Some (mkX false d tc wb0 ev (abt r)))) -> e = [] ->
    (forall d, fwd wb0 CNT d = c') -> (if hr (p l) then 1 <= c' < W else 0 <= c' < W - 1) -> (wh (p l) = true -> forall d, fwd wb0 WRD d = 1) ->
    (need (p l) <= d)%nat ->
    e = [] /\ ((exists l r', s' = mkR (setp s t l) (upd (txs s) t (Some r')) /\ abt r' = abt r /\ stuck (p l) r') \/
             exists y, s' = mkR (setp s t (abt r y)) (upd (txs s) t None))).
  { intros l tc wb0 ev d c' -> -> K1 K2 K3 K4. split; auto. left. do 2 eexists. split; [reflexivity|]. split; [reflexivity|]. exists c'. auto. }
  assert (G1 : forall l tc ev d, s' = mkR (setp s t l) (upd (txs s) t (Some (mkX false d tc (wb r) ev (abt r)))) -> e = [] ->
    (if hr (p l) then 1 <= c < W else 0 <= c < W - 1) -> (wh (p l) = true -> forall d, fwd (wb r) WRD d = 1) ->
    (need (p l) <= d)%nat ->
    e = [] /\ ((exists l r', s' = mkR (setp s t l) (upd (txs s) t (Some r')) /\ abt r' = abt r /\ stuck (p l) r') \/
             exists y, s' = mkR (setp s t (abt r y)) (upd (txs s) t None))).
  { intros. eapply G; eauto. }
  assert (G0 : forall l tc ev d, s' = mkR (setp s t l) (upd (txs s) t (Some (mkX false d tc (wb r) ev (abt r)))) -> e = [] ->
    cls (p l) = KOut -> 0 <= c < W - 1 -> (1 <= d)%nat ->
    e = [] /\ ((exists l r', s' = mkR (setp s t l) (upd (txs s) t (Some r')) /\ abt r' = abt r /\ stuck (p l) r') \/
             exists y, s' = mkR (setp s t (abt r y)) (upd (txs s) t None))).
  { intros l tc ev d K1 K2 K3 K4 K5. destruct (out_plain _ K3) as [X1 [X2 X3]]. eapply G; eauto; rewrite ?X1, ?X2, ?X3; auto. discriminate. }
  destruct (pp s t) as [|w0 c0 r0|w0|b0|w0|w0 c0 r0|c0 r0 b0| | | | | | |w0 d0|w0|w0 ad] eqn:Ep; cbn [hr wh need] in S2, S3, S4.
  - destruct x; try discriminate Hc.
    + injection Hc as <-. injection H as <- <-. (eapply G1; [reflexivity|reflexivity|..]); cbn [p at_ hr wh need]; try lia; auto; try discriminate.
    + injection Hc as <-. injection H as <- <-. (eapply G1; [reflexivity|reflexivity|..]); cbn [p at_ hr wh need]; try lia; auto; try discriminate.
    + destruct (ElideSpin_Model.okcfg c0); [|discriminate]. injection Hc as <-. injection H as <- <-. eapply G0; eauto.
      destruct (skip (st (pcs (ts s) t)) =? 0); auto. destruct w; auto.
    + injection Hc as <-. injection H as <- <-. eapply G0; eauto.
    + injection Hc as <-. injection H as <- <-. eapply G0; eauto.
  - destruct x; try discriminate Hc. injection Hc as <-. injection H as <- <-. (eapply G1; [reflexivity|reflexivity|..]); cbn [p at_ hr wh need]; try lia; auto; try discriminate.
  - destruct x; destruct w0; try discriminate Hc; injection Hc as <-; rewrite ?V in H; cbn in H.
    + injection H as <- <-. (eapply G1; [reflexivity|reflexivity|..]); cbn [p at_ hr wh need]; try lia; auto; try discriminate.
    + destruct (tview s t r WRD =? 0); injection H as <- <-; (eapply G1; [reflexivity|reflexivity|..]); cbn [p at_ hr wh need]; try lia; auto; try discriminate.
  - destruct x; try discriminate Hc; injection Hc as <-. cbn in H.
    destruct (b0 || negb (tview s t r WRD =? 0)); injection H as <- <-; (eapply G1; [reflexivity|reflexivity|..]); cbn [p at_ hr wh need]; try lia; auto; try discriminate.
  - destruct x; try discriminate Hc; injection Hc as <-. injection H as <- <-. split; auto. right. eauto.
  - destruct x; try discriminate Hc. destruct (r0 - 1 =? 0).
    + injection Hc as <-. injection H as <- <-. eapply G0; eauto. apply loop_out.
    + destruct w0; injection Hc as <-; injection H as <- <-; eapply G0; eauto.
      cbn [p at_]. destruct (tview s t r WRD =? 0); auto. apply loop_out.
  - destruct x; try discriminate Hc. injection Hc as <-. injection H as <- <-. eapply G0; eauto. cbn [p at_].
    destruct (b0 || negb (tview s t r WRD =? 0)); auto. apply loop_out.
  - destruct x; try discriminate Hc. injection Hc as <-. injection H as <- <-.
    (eapply G; [reflexivity|reflexivity|..]); cbn [p at_]; [intros d; rewrite FN by discriminate; apply S1| |intros _ d; apply FE|].
    + destruct (tview s t r WRD =? 0); auto.
    + destruct (tview s t r WRD =? 0); auto.
  - destruct x; try discriminate Hc. injection Hc as <-. cbn in H. destruct (tview s t r CNT =? 0); injection H as <- <-; (eapply G1; [reflexivity|reflexivity|..]); cbn [p at_ hr wh need]; try lia; auto.
  - destruct x; try discriminate Hc. injection Hc as <-. injection H as <- <-. eapply G0; eauto. cbn [p at_]. destruct (tview s t r WRD =? 0); auto.
  - destruct x; try discriminate Hc. injection Hc as <-. cbn in H. rewrite V, M2 in H by auto. injection H as <- <-.
    (eapply G; [reflexivity|reflexivity|..]); cbn [p at_ hr wh need]; [intros d; apply FE|lia|discriminate|auto].
  - destruct x; try discriminate Hc. injection Hc as <-. cbn in H. destruct (tview s t r WRD =? 0); injection H as <- <-; (eapply G1; [reflexivity|reflexivity|..]); cbn [p at_ hr wh need]; try lia; auto; try discriminate.
  - destruct x; try discriminate Hc. injection Hc as <-. cbn in H. rewrite V, M1 in H by auto. injection H as <- <-.
    (eapply G; [reflexivity|reflexivity|..]); cbn [p at_ hr wh need]; [intros d; apply FE|lia|discriminate|auto].
  - assert (Hrd : forall i0, Some (Op (Ld (Dat i0) (fun v : Z => (at_ (pcs (ts s) t) (CS w0 d0), [DRd t i0 v])))) = Some i ->
        e = [] /\ ((exists l r', s' = mkR (setp s t l) (upd (txs s) t (Some r')) /\ abt r' = abt r /\ stuck (p l) r') \/
             exists y, s' = mkR (setp s t (abt r y)) (upd (txs s) t None))).
    { intros i0 X. injection X as <-. injection H as <- <-. (eapply G1; [reflexivity|reflexivity|..]); cbn [p at_]; auto. }
    assert (Hwr : w0 = true -> forall i0 v0, Some (Op (St (Dat i0) v0 (at_ (pcs (ts s) t) (CS true d0)) [DWr t i0 v0])) = Some i ->
        e = [] /\ ((exists l r', s' = mkR (setp s t l) (upd (txs s) t (Some r')) /\ abt r' = abt r /\ stuck (p l) r') \/
             exists y, s' = mkR (setp s t (abt r y)) (upd (txs s) t None))).
    { intros -> i0 v0 X. injection X as <-. injection H as <- <-. (eapply G; [reflexivity|reflexivity|..]); cbn [p at_].
      - intros d. rewrite FN by discriminate. apply S1. - auto. - intros X d. rewrite FN by discriminate. auto. - auto. }
    destruct w0, d0; destruct x; try discriminate Hc; try (apply (Hrd i0); auto; fail); try (apply (Hwr eq_refl i0 v); auto; fail);
      injection Hc as <-; cbn in H.
    + unfold tview in H. rewrite S3 in H by auto. cbn in H. injection H as <- <-. (eapply G1; [reflexivity|reflexivity|..]); cbn [p at_ hr wh need]; try lia; auto; try discriminate.
    + injection H as <- <-. (eapply G; [reflexivity|reflexivity|..]); cbn [p at_ hr wh need]; [intros d; rewrite FN by discriminate; apply S1|auto|discriminate|auto].
    + destruct (tview s t r WRD =? 0); injection H as <- <-; (eapply G1; [reflexivity|reflexivity|..]); cbn [p at_ hr wh need]; try lia; auto; try discriminate.
    + rewrite V in H. destruct (Z.eqb_spec c 0); [lia|]. injection H as <- <-. (eapply G1; [reflexivity|reflexivity|..]); cbn [p at_ hr wh need]; try lia; auto; try discriminate.
    + rewrite V, M1 in H by auto. injection H as <- <-.
      (eapply G; [reflexivity|reflexivity|..]); cbn [p at_ hr wh need]; [intros d; apply FE|lia|discriminate|auto].
    + rewrite V in H. destruct (Z.eqb_spec c 0); injection H as <- <-; (eapply G1; [reflexivity|reflexivity|..]); cbn [p at_ hr wh need]; try lia; auto; try discriminate.
  - destruct w0; destruct x; try discriminate Hc; injection Hc as <-; cbn in H.
    + injection H as <- <-. (eapply G; [reflexivity|reflexivity|..]); cbn [p at_ hr wh need]; [intros d; rewrite FN by discriminate; apply S1|auto|discriminate|auto].
    + rewrite V, M1 in H by auto. injection H as <- <-.
      (eapply G; [reflexivity|reflexivity|..]); cbn [p at_ hr wh need]; [intros d; apply FE|lia|discriminate|auto].
  - destruct x; try discriminate Hc. injection Hc as <-. destruct (dep r) as [|[|d]]; [lia|lia|]. injection H as <- <-.
    (eapply G1; [reflexivity|reflexivity|..]); cbn [p at_ hr wh need]; try lia; auto; try discriminate.
Qed.

Lemma rem_head : forall t R, ~ In t R -> remove Nat.eq_dec t (t :: R) = R.
Proof. intros t R H. simpl. destruct (Nat.eq_dec t t); [|congruence]. apply notin_remove. auto. Qed.

Lemma I_commit : forall w s a o t r l, I s a o -> txs s t = Some r -> dead r = false -> secs w (mem (ts s) CNT) o (dat a) t r ->
  buf (ts s) t = [] -> p l = Idle ->
  exists a', accepts rw_step a (evs r ++ [if w then WLeave t else RLeave t]) = Some a' /\
  I (mkR (mkT (fun x => fwd (wb r) x (mem (ts s) x)) (buf (ts s)) (upd (pcs (ts s)) t l)) (upd (kill (txs s) t (map fst (wb r))) t None)) a' Free.
Proof.
  intros w s a o t r l HI Ht Hd [S1 [S2 [S3 [S4 [S5 S6]]]]] Hb Hl. pose proof HI as [A B C D E]. pose proof A as [A1 A2 A3].
  assert (Hk : ec s t = KTx) by (unfold ec; rewrite Ht; auto).
  assert (o = Free) as ->.
  { destruct S2 as [S2|S2]; auto. rewrite S2 in A3. destruct A3 as [_ [ds [X _]]]. rewrite Hb in X. destruct ds; discriminate. }
  pose proof (p_a _ _ _ B) as Hw. cbn in Hw.
  assert (HR : w = true -> rds a = []). { intros X. destruct (S3 X) as [_ Y]. rewrite Y in C. eapply CI_zero; eauto. }
  assert (Hi : ~ In t (rds a)) by (intros X; apply (p_rds _ _ _ B) in X; congruence).
  destruct (S6 (dat a) (rds a)) as [D3 [K1 K2]]; auto. exists {| wrt := None; rds := rds a; dat := D3 |}. split.
  - rewrite accepts_app. assert (Ea : a = {| wrt := None; rds := rds a; dat := dat a |}) by (destruct a; simpl in *; congruence).
    rewrite Ea at 1. rewrite K1. destruct w.
    + simpl. unfold iswr. cbn [wrt rds dat]. rewrite Nat.eqb_refl, HR by auto. auto.
    + cbn [accepts rw_step]. unfold isrd. cbn [rds existsb]. rewrite Nat.eqb_refl. cbn [orb wrt rds dat]. rewrite rem_head by auto. auto.
  - cbn [od] in A1. destruct A1 as [A1 A4].
    assert (HC : forall j d, fwd (wb r) (Reg j) d = d) by (intros; apply alldat_reg; auto).
    assert (EC : forall u, ec (mkR (mkT (fun x => fwd (wb r) x (mem (ts s) x)) (buf (ts s)) (upd (pcs (ts s)) t l)) (upd (kill (txs s) t (map fst (wb r))) t None)) u = upd (ec s) t KOut u).
    { intros u. unfold ec, pp. cbn [txs ts pcs]. unfold upd. destruct (Nat.eq_dec u t) as [X|X]; [rewrite Hl; auto|].
      destruct (kill (txs s) t (map fst (wb r)) u) as [r0|] eqn:Er.
      - destruct (kill_some _ _ _ _ _ Er) as [r1 [Y _]]. rewrite Y. auto.
      - apply kill_none in Er. rewrite Er. auto. }
    constructor; cbn [ts txs dat].
    + constructor; cbn [mem buf od]; auto.
      * split; auto. intros i. cbn [mem]. rewrite K2, A1. auto.
      * unfold WRD. rewrite HC. auto.
    + eapply PI_ext; [exact EC|]. destruct B as [B1 B2 B3 B4 B5]. constructor; cbn [wrt rds]; auto; intros u.
      * rewrite <- B2. upd_cases; [rewrite Hk; split; discriminate|tauto].
      * rewrite <- B3. upd_cases; [rewrite Hk; split; discriminate|tauto].
      * rewrite B4. upd_cases; [rewrite Hk; split; discriminate|tauto].
      * discriminate.
    + eapply CI_ext; [exact EC|]. cbn [mem]. unfold CNT at 1. rewrite HC. apply CI_same; auto. rewrite Hk. split; intros [X|X]; discriminate.
    + intros u. unfold pp. cbn [ts pcs]. unfold upd. destruct (Nat.eq_dec u t); [rewrite Hl; discriminate|]. rewrite kill_none. apply D.
    + intros u q. unfold pp. cbn [ts pcs mem]. unfold CNT at 1. rewrite HC. unfold upd. destruct (Nat.eq_dec u t) as [X|X]; [discriminate|]. intros Hq.
      destruct (kill_some _ _ _ _ _ Hq) as [r0 [L1 [L2 L3]]]. destruct (E u r0 L1) as [Y1 Y2]. split; [rewrite L2; auto|].
      intros Hq2. destruct (L3 Hq2) as [-> [L4 L5]]. specialize (L5 X). destruct (Y2 Hq2) as [[Z1 Z2]|Z2]; [left|right; auto]. split; auto.
      eapply live_mono; [exact Z2|reflexivity|]. intros w0 [T1 [T2 [T3 [T4 [T5 T6]]]]]. refine (conj T1 (conj T2 (conj T3 (conj T4 (conj T5 _))))).
      intros D2 R H2 H3. apply T6; auto. intros i Hi2. rewrite H2 by auto. rewrite K2. apply fwd_none. intros v Hv.
      eapply hits_false; [exact L5| |exact Hi2]. apply in_map_iff. exists (Dat i, v). auto.
Qed.

Lemma I_flush : forall s a o t x v r, I s a o -> buf (ts s) t = (x, v) :: r ->
  exists o', I (mkR (mkT (setm (mem (ts s)) x v) (upd (buf (ts s)) t r) (pcs (ts s))) (kill (txs s) t [x])) a o'.
Proof.
  intros s a o t x v r HI Eb. pose proof HI as [A B C D E]. pose proof A as [A1 A2 A3].
  assert (Ho : od o = Some t).
  { destruct (holder_dec (od o) t) as [|X]; auto. rewrite A2 in Eb by auto. discriminate. }
  assert (G : forall o', MI o' (dat a) (mkT (setm (mem (ts s)) x v) (upd (buf (ts s)) t r) (pcs (ts s))) -> PI o' (ec s) a -> x <> CNT ->
     (o = Held t /\ o' = Held t \/ o = Left t /\ (o' = Left t \/ o' = Free)) ->
     exists o', I (mkR (mkT (setm (mem (ts s)) x v) (upd (buf (ts s)) t r) (pcs (ts s))) (kill (txs s) t [x])) a o').
  { intros o' HM HP Hx Hoo. exists o'.
    assert (EC : forall u, ec (mkR (mkT (setm (mem (ts s)) x v) (upd (buf (ts s)) t r) (pcs (ts s))) (kill (txs s) t [x])) u = ec s u).
    { intros u. unfold ec, pp. cbn [txs ts pcs]. destruct (kill (txs s) t [x] u) as [r0|] eqn:Er.
      - destruct (kill_some _ _ _ _ _ Er) as [r1 [Y _]]. rewrite Y. auto.
      - apply kill_none in Er. rewrite Er. auto. }
    constructor; cbn [ts txs mem]; auto.
    - eapply PI_ext; eauto.
    - rewrite setm_other by auto. eapply CI_ext; eauto.
    - intros u Hu. apply kill_none in Hu. apply (D u Hu).
    - intros u q Hq. destruct (kill_some _ _ _ _ _ Hq) as [r0 [L1 [L2 L3]]]. destruct (E u r0 L1) as [Y1 Y2]. split; [rewrite L2; auto|].
      intros Hq2. destruct (L3 Hq2) as [-> [L4 L5]]. destruct (Y2 Hq2) as [[Z1 Z2]|Z2]; [left|right; auto]. split; auto.
      rewrite setm_other by auto. eapply live_mono; [exact Z2|reflexivity|].
      intros w0 [T1 [T2 [T3 [T4 [T5 T6]]]]]. refine (conj T1 (conj _ (conj T3 (conj T4 (conj T5 T6))))).
      destruct Hoo as [[X1 X2]|[X1 X2]]; destruct T2 as [T2|T2]; try congruence. destruct X2; [right|left]; congruence. }
  destruct o as [|u|u|u]; try discriminate; injection Ho as ->.
  - destruct A3 as [A3 A4]. assert (Hd : isdat x) by (apply (A4 x v); rewrite Eb; left; auto). destruct x as [i|i]; [|destruct Hd].
    apply (G (Held t)); auto; [|discriminate]. constructor; cbn [mem buf od].
    + apply data_flush; auto.
    + intros u Hu. rewrite upd_other by congruence. apply A2. auto.
    + rewrite setm_other by discriminate. split; auto. rewrite upd_same. intros y w Hy. apply (A4 y w). rewrite Eb. right. auto.
  - destruct A3 as [A3 [ds [A4 A5]]]. destruct ds as [|[y w] ds].
    + rewrite Eb in A4. injection A4 as -> -> ->. apply (G Free); auto; [| |discriminate].
      * constructor; cbn [mem buf od].
        -- eapply data_drop with t; [|cbn [buf]; rewrite upd_same; intros j z []]. eapply data_flush; [exact A1|exact Eb].
        -- intros u _. destruct (Nat.eq_dec u t) as [->|]; [apply upd_same|rewrite upd_other by auto; apply A2; simpl; congruence].
        -- apply setm_same.
      * destruct B as [B1 B2 B3 B4 B5]. constructor; auto.
        -- tauto.
        -- intros u. rewrite B2. split; discriminate.
        -- intros u. rewrite B3. split; discriminate.
        -- discriminate.
    + rewrite Eb in A4. injection A4 as <- <- A4. assert (Hd : isdat x) by (apply (A5 x v); left; auto). destruct x as [i|i]; [|destruct Hd].
      apply (G (Left t)); auto; [|discriminate]. constructor; cbn [mem buf od].
      * apply data_flush; auto.
      * intros u Hu. rewrite upd_other by congruence. apply A2. auto.
      * rewrite setm_other by discriminate. split; auto. rewrite upd_same. exists ds. split; auto. intros y w Hy. apply (A5 y w). right. auto.
Qed.

Lemma secs_ld : forall w n o D u r x, secs w n o D u r -> secs w n o D u (mkX false (dep r) (Reg x :: tch r) (wb r) (evs r ++ []) (abt r)).
Proof.
  intros w n o D u r x [T1 [T2 [T3 [T4 [T5 T6]]]]]. unfold secs. cbn [tch wb].
  refine (conj (or_intror T1) (conj T2 (conj _ (conj T4 (conj T5 (trans_ld _ _ _ _ _ T6)))))). intros Hw. split; [right|]; apply T3; auto.
Qed.

Lemma I_live : forall s a o t r x i s' e, I s a o -> txs s t = Some r -> dead r = false -> dep r = 1%nat ->
  live (mem (ts s) CNT) o (dat a) t (pp s t) r -> code t (pcs (ts s) t) x = Some i -> inside s t r i = Some (s', e) ->
  exists a' o', accepts rw_step a e = Some a' /\ I s' a' o'.
Proof.
  intros s a o t r x i s' e HI Et Hd Hdp HL Hc H. pose proof HI as [A B C D E].
  unfold ElideRw_Model.code in Hc. destruct (negb (t <? N)%nat); [discriminate|]. fold (pp s t) in Hc. unfold inside in H. rewrite Hd in H.
  assert (F : forall l r', s' = mkR (setp s t l) (upd (txs s) t (Some r')) -> e = [] -> abt r' = abt r -> dep r' = 1%nat ->
     live (mem (ts s) CNT) o (dat a) t (p l) r' -> exists a' o', accepts rw_step a e = Some a' /\ I s' a' o').
  { intros l r' -> -> K1 K2 K3. exists a, o. split; auto. eapply I_inside; eauto. }
  assert (FT : forall l, p l = LBusy true \/ p l = LBusy false -> forall tc ev, s' = mkR (setp s t l) (upd (txs s) t (Some (mkX false (dep r) tc (wb r) ev (abt r)))) -> e = [] ->
     exists a' o', accepts rw_step a e = Some a' /\ I s' a' o').
  { intros l Hl tc ev K1 K2. eapply F; eauto. destruct Hl as [-> | ->]; exact Logic.I. }
  assert (Hsee : view (ts s) t WRD = 0 -> o = Free \/ o = Left t).
  { intros Hv. rewrite (see _ _ _ t A) in Hv. destruct o as [|u|u|u]; try discriminate; auto. destruct (Nat.eqb_spec t u); [subst; auto|discriminate]. }
  destruct (pp s t) as [|w0 c0 r0|w0|b0|w0|w0 c0 r0|c0 r0 b0| | | | | | |w0 d0|w0|w0 ad] eqn:Ep; try contradiction HL.
  - (* LP *) destruct HL as [L1 L2]. destruct w0; destruct x; try discriminate Hc; injection Hc as <-; unfold tview in H; rewrite L1 in H; cbn [fwd] in H.
    + rewrite (see_cnt _ _ _ t A) in H. injection H as <- <-. eapply F; cbn [abt dep p at_ live wb evs tch]; try reflexivity; auto.
      rewrite L2. repeat split; auto. { left. auto. } destruct (Z.eqb_spec (mem (ts s) CNT) 0); auto. discriminate.
    + destruct (Z.eqb_spec (view (ts s) t WRD) 0) as [Hv|Hv].
      * injection H as <- <-. eapply F; cbn [abt dep p at_ live]; try reflexivity; auto.
        refine (conj _ (conj (Hsee Hv) (conj _ (conj _ (conj _ _))))); cbn [tch wb]; try discriminate; auto.
        -- left. auto.
        -- intros y v [].
        -- intros D2 R _ _. exists D2. cbn [evs wb]. rewrite L2. simpl. auto.
      * rewrite <- L1 in H. injection H as <- <-. eapply (FT (at_ (pcs (ts s) t) (LBusy false))); [right; reflexivity|reflexivity|reflexivity].
  - (* LP2 *) destruct HL as [L1 [L2 [L3 L4]]]. destruct x; try discriminate Hc; injection Hc as <-; unfold tview in H; rewrite L1 in H; cbn [fwd] in H.
    destruct b0; cbn [orb] in H; [|destruct (Z.eqb_spec (view (ts s) t WRD) 0) as [Hv|Hv]; cbn [negb] in H].
    + rewrite <- L1 in H. injection H as <- <-. eapply (FT (at_ (pcs (ts s) t) (LBusy true))); [left; reflexivity|reflexivity|reflexivity].
    + injection H as <- <-. eapply F; cbn [abt dep p at_ live]; try reflexivity; auto.
      refine (conj _ (conj (Hsee Hv) (conj _ (conj _ (conj _ _))))); cbn [tch wb]; try discriminate; auto.
      * left. auto.
      * intros _. split; [right|]; auto.
      * intros y v [].
      * intros D2 R _ HR. exists D2. cbn [evs wb]. rewrite L2, HR by auto. simpl. auto.
    + rewrite <- L1 in H. injection H as <- <-. eapply (FT (at_ (pcs (ts s) t) (LBusy true))); [left; reflexivity|reflexivity|reflexivity].
  - (* LBusy *) destruct x; try discriminate Hc. injection Hc as <-. injection H as <- <-. exists a, o. split; auto. apply I_abort; auto.
  - (* in the section *) destruct d0; [contradiction HL|]. cbn [live] in HL. pose proof HL as [S1 [S2 [S3 [S4 [S5 S6]]]]].
    assert (Hs : view (ts s) t WRD = 0).
    { rewrite (see _ _ _ t A). destruct S2 as [-> | ->]; rewrite ?Nat.eqb_refl; auto. }
    assert (Hdt : forall j, view (ts s) t (Dat j) = dat a j).
    { intros j. eapply see_dat; eauto. destruct S2 as [-> | ->]; auto. }
    assert (Hrd : forall j, Some (mkR (setp s t (at_ (pcs (ts s) t) (CS w0 false))) (upd (txs s) t (Some (mkX false (dep r) (Dat j :: tch r) (wb r)
        (evs r ++ [DRd t j (tview s t r (Dat j))]) (abt r)))), []) = Some (s', e) -> exists a' o', accepts rw_step a e = Some a' /\ I s' a' o').
    { intros j X. unfold tview in X. rewrite Hdt in X. injection X as <- <-. eapply F; cbn [abt dep p at_ live]; try reflexivity; auto.
      refine (conj (or_intror S1) (conj S2 (conj _ (conj S4 (conj S5 (trans_rd _ _ _ _ _ S6)))))). intros Hw. split; [right|]; apply S3; auto. }
    destruct w0; destruct x; try discriminate Hc; injection Hc as <-; cbn in H; try (apply (Hrd i0); exact H).
    + injection H as <- <-. eapply F; cbn [abt dep p at_ live]; try reflexivity; auto.
      refine (conj (or_intror S1) (conj S2 (conj _ (conj (alldat_snoc _ _ _ S4) (conj _ (trans_wr _ _ _ _ _ S6)))))); [|discriminate].
      intros Hw. split; [right|]; apply S3; auto.
    + unfold tview in H. unfold WRD at 1 in H. rewrite alldat_reg in H by auto. fold WRD in H. rewrite Hs in H. cbn in H. injection H as <- <-.
      eapply F; cbn [abt dep p at_ live]; try reflexivity; auto. apply secs_ld. auto.
    + unfold tview in H. rewrite (S5 eq_refl) in H. cbn [fwd] in H. rewrite (see_cnt _ _ _ t A) in H. rewrite <- (S5 eq_refl) in H. injection H as <- <-.
      destruct (Z.eqb_spec (mem (ts s) CNT) 0) as [Hv|Hv].
      * eapply F; cbn [abt dep p at_ live]; try reflexivity; auto. apply secs_ld. auto.
      * eapply F; cbn [abt dep p at_ live]; try reflexivity; auto. split; [apply secs_ld; auto|]. split; [left; auto|].
        pose proof (CI_bound _ _ _ C HN). lia.
  - (* U inside the transaction *) destruct w0; [contradiction HL|]. destruct HL as [[S1 [S2 [S3 [S4 [S5 S6]]]]] [L1 L2]].
    destruct x; try discriminate Hc; injection Hc as <-. cbn in H. unfold tview in H. rewrite (S5 eq_refl) in H. cbn [fwd] in H.
    rewrite (see_cnt _ _ _ t A) in H. rewrite Z.mod_small in H by lia. injection H as <- <-. exists a, o. split; auto. eapply I_inside; eauto.
    right. exists (mem (ts s) CNT - 1). cbn [wb dep p at_ hr wh need]. repeat split; try lia; try discriminate.
  - (* rtm_end *) destruct x; try discriminate Hc; injection Hc as <-. rewrite Hdp in H. cbn [live] in HL.
    destruct (buf (ts s) t) eqn:Eb; [|discriminate]. injection H as <- <-.
    destruct (I_commit w0 s a o t r {| st := if ad then elided (st (pcs (ts s) t)) else st (pcs (ts s) t); p := Idle |}) as [a' [X1 X2]]; auto.
    exists a', Free. split; auto.
Qed.

Lemma I_step : forall s a o l s' e, I s a o -> xstep code arr s l = Some (s', e) ->
  exists a' o', accepts rw_step a e = Some a' /\ I s' a' o'.
Proof.
  intros s a o l s' e HI H. pose proof HI as [A B C D E]. destruct l as [t x|t|t x]; cbn [xstep] in H.
  2:{ destruct (buf (ts s) t) as [|[x v] r] eqn:Eb; [discriminate|]. injection H as <- <-. destruct (I_flush s a o t x v r) as [o' X]; auto. exists a, o'. auto. }
  2:{ destruct (txs s t) as [r|] eqn:Et; [|discriminate]. destruct (x =? STARTED); [discriminate|]. injection H as <- <-.
      exists a, o. split; auto. apply I_abort; auto. }
  destruct (code t (pcs (ts s) t) x) as [i|] eqn:Ec; [|discriminate].
  destruct (txs s t) as [r|] eqn:Et.
  - destruct (dead r) eqn:Ed; [unfold inside in H; rewrite Ed in H; discriminate|].
    destruct (E t r Et) as [_ X]. destruct (X Ed) as [[X1 X2]|X1].
    + eapply I_live; eauto.
    + destruct (stuck_step _ _ _ _ _ _ _ X1 Ed Ec H) as [-> [[l [r' [-> [Y1 Y2]]]]|[y ->]]]; exists a, o; (split; [auto|]).
      * eapply I_inside; eauto.
      * apply I_abort; auto.
  - unfold ElideRw_Model.code in Ec. destruct (negb (t <? N)%nat) eqn:Etn; [discriminate|]. fold (pp s t) in Ec.
    assert (Htn : (t < N)%nat) by (apply negb_false_iff, Nat.ltb_lt in Etn; auto). pose proof (D t Et) as Hk. unfold outside in H.
    assert (S0 : forall l, s' = mkR (next (ts s) t l) (txs s) -> e = [] -> cls (p l) = cls (pp s t) -> exists a' o', accepts rw_step a e = Some a' /\ I s' a' o').
    { intros l -> -> K. exists a, o. split; auto. apply I_same; auto. }
    destruct (pp s t) as [|w0 c0 r0|w0|b0|w0|w0 c0 r0|c0 r0 b0| | | | | | |w0 d0|w0|w0 ad] eqn:Ep; try (destruct Hk; reflexivity).
    + destruct x; try discriminate Ec.
      * injection Ec as <-. injection H as <- <-. exists a, o. split; auto. apply I_begin; auto; [rewrite Ep; auto|]. intros _. destruct w; auto.
      * injection Ec as <-. injection H as <- <-. exists a, o. split; auto. apply I_begin; auto. rewrite Ep; auto.
      * destruct (ElideSpin_Model.okcfg c); [|discriminate]. injection Ec as <-. injection H as <- <-. eapply S0; eauto.
        destruct (skip (st (pcs (ts s) t)) =? 0); auto. destruct w; auto.
      * injection Ec as <-. injection H as <- <-. eapply S0; eauto.
      * injection Ec as <-. injection H as <- <-. eapply S0; eauto.
    + destruct x; try discriminate Ec. injection Ec as <-. injection H as <- <-. exists a, o. split; auto.
      apply I_begin; auto; [rewrite Ep; auto|]. intros y. apply aborted_out.
    + destruct x; try discriminate Ec. destruct (r0 - 1 =? 0).
      * injection Ec as <-. injection H as <- <-. eapply S0; eauto. apply loop_out.
      * destruct w0; injection Ec as <-; injection H as <- <-; eapply S0; eauto.
        cbn [p at_]. destruct (view (ts s) t WRD =? 0); auto. apply loop_out.
    + destruct x; try discriminate Ec. injection Ec as <-. injection H as <- <-. eapply S0; eauto.
      cbn [p at_]. destruct (b0 || negb (view (ts s) t WRD =? 0)); auto. apply loop_out.
    + destruct x; try discriminate Ec. injection Ec as <-. cbn [step] in H. destruct (buf (ts s) t) eqn:Eb; [|discriminate]. injection H as <- <-.
      destruct (I_fas s a o t) as [o' X]; auto. exists a, o'. auto.
    + destruct x; try discriminate Ec. injection Ec as <-. cbn [step] in H. rewrite (see_cnt _ _ _ t A) in H.
      destruct (Z.eqb_spec (mem (ts s) CNT) 0) as [Hv|Hv]; injection H as <- <-; [|eapply S0; eauto].
      destruct (I_wenter s a o t) as [a' X]; auto. exists a', (Held t). auto.
    + destruct x; try discriminate Ec. injection Ec as <-. injection H as <- <-. eapply S0; eauto. cbn [p at_]. destruct (view (ts s) t WRD =? 0); auto.
    + destruct x; try discriminate Ec. injection Ec as <-. cbn [step] in H. destruct (buf (ts s) t) eqn:Eb; [|discriminate]. injection H as <- <-.
      exists a, o. split; auto. apply I_ann; auto.
    + destruct x; try discriminate Ec. injection Ec as <-. cbn [step] in H.
      destruct (Z.eqb_spec (view (ts s) t WRD) 0) as [Hv|Hv]; injection H as <- <-; [|eapply S0; eauto].
      destruct (I_renter s a o t) as [a' X]; auto. exists a', o. auto.
    + destruct x; try discriminate Ec. injection Ec as <-. cbn [step] in H. destruct (buf (ts s) t) eqn:Eb; [|discriminate]. injection H as <- <-.
      exists a, o. split; auto. apply I_take; auto.
    + assert (d0 = true) as -> by (destruct w0, d0; auto; destruct Hk; reflexivity).
      assert (Hrd : forall j, Some (mkR (next (ts s) t (at_ (pcs (ts s) t) (CS w0 true))) (txs s), [DRd t j (view (ts s) t (Dat j))]) = Some (s', e) ->
         exists a' o', accepts rw_step a e = Some a' /\ I s' a' o').
      { intros j X. injection X as <- <-. exists a, o. split; [|apply I_same; auto; rewrite Ep; auto]. eapply I_read; eauto.
        rewrite Ep. destruct w0; auto. }
      destruct w0; destruct x; try discriminate Ec; injection Ec as <-; cbn [step] in H; try (apply (Hrd i0); exact H).
      * injection H as <- <-. destruct (I_write s a o t i0 v (at_ (pcs (ts s) t) (CS true true))) as [a' X]; auto; [rewrite Ep; auto|]. exists a', o. auto.
      * assert (o = Held t) as -> by (apply (p_cs _ _ _ B); rewrite ec_out, Ep by auto; auto).
        rewrite (see _ _ _ t A) in H. injection H as <- <-. eapply S0; eauto.
      * injection H as <- <-. destruct (I_wleave s a o t) as [a' X]; auto; [rewrite Ep; auto|]. exists a', (Left t). auto.
      * rewrite (see_cnt _ _ _ t A) in H. pose proof (CI_pos N (ec s) _ t C) as Hpos. rewrite ec_out, Ep in Hpos by auto. specialize (Hpos (or_intror eq_refl)).
        destruct (Z.eqb_spec (mem (ts s) CNT) 0); [lia|]. injection H as <- <-. eapply S0; eauto.
      * destruct (buf (ts s) t) eqn:Eb; [|discriminate]. injection H as <- <-.
        destruct (I_rleave s a o t) as [a' X]; auto; [rewrite Ep; auto|]. exists a', o. auto.
    + destruct w0; destruct x; try discriminate Ec; injection Ec as <-; cbn [step] in H.
      * injection H as <- <-. destruct (I_wleave s a o t) as [a' X]; auto; [rewrite Ep; auto|]. exists a', (Left t). auto.
      * destruct (buf (ts s) t) eqn:Eb; [|discriminate]. injection H as <- <-.
        destruct (I_rleave s a o t) as [a' X]; auto; [rewrite Ep; auto|]. exists a', o. auto.
Qed.

Lemma rw_inv : forall D S ls s log, run (xstep code arr) (init D S) ls = Some (s, log) ->
  exists a o, accepts rw_step {| wrt := None; rds := []; dat := D |} log = Some a /\ I s a o.
Proof.
  intros D S ls s log H.
  eapply (run_inv (xstep code arr) (fun s log => exists a o, accepts rw_step {| wrt := None; rds := []; dat := D |} log = Some a /\ I s a o)); [| |exact H].
  - exists {| wrt := None; rds := []; dat := D |}, Free. split; [reflexivity|]. apply I_init.
  - intros s1 l1 l s2 e [a [o [H1 H2]]] Hs. destruct (I_step _ _ _ _ _ _ H2 Hs) as [a' [o' [K1 K2]]]. exists a', o'. split; auto.
    rewrite accepts_app, H1. auto.
Qed.
End Move.

Lemma elide_rw_all : forall N D S ls s log, Z.of_nat N < W -> run (xstep (code N) arr) (init D S) ls = Some (s, log) -> rw_legal D log.
Proof. intros N D S ls s log HN H. destruct (rw_inv N HN _ _ _ _ _ H) as [a [o [K _]]]. exists a. auto. Qed.

(** * Unlock leaves a transaction open *)
(** [t] is in a transaction all along the run *)
Definition stk (s : rtm lst wev) (t : nat) (k : Z -> lst) : Prop :=
  exists r, txs s t = Some r /\ abt r = k /\ (dead r = true \/ stuck (pp s t) r).
Lemma kill_stk : forall T t xs u r, kill T t xs u = Some r ->
  exists r0, T u = Some r0 /\ abt r = abt r0 /\ (dead r = true \/ r = r0) /\ (@dead lst wev r0 = true -> dead r = true).
Proof.
  intros T t xs u r H. unfold kill in H. destruct (Nat.eqb u t); [exists r; auto|]. destruct (T u) as [r0|]; [|discriminate]. simpl in H.
  injection H as <-. exists r0. unfold doom. destruct (hits xs (tch r0)); simpl; auto.
Qed.
Lemma stk_other : forall s m b pc' T t k, stk s t k -> pc' t = pcs (ts s) t ->
  (T t = txs s t \/ exists v xs, T t = kill (txs s) v xs t) -> T t <> None -> stk (mkR (mkT m b pc') T) t k.
Proof.
  intros s m b pc' T t k [r [H1 [H2 H3]]] Hp HT Hn. unfold stk, pp. cbn [txs ts pcs]. rewrite Hp. fold (pp s t). destruct HT as [HT|[v [xs HT]]].
  - exists r. rewrite HT. auto.
  - destruct (T t) as [q|] eqn:Eq; [|tauto]. symmetry in HT. destruct (kill_stk _ _ _ _ _ HT) as [r0 [K1 [K2 [K3 K4]]]].
    assert (r0 = r) by congruence. subst r0. exists q. split; auto. split; [congruence|]. destruct H3 as [H3|H3]; [left; auto|]. destruct K3 as [K3| ->]; auto.
Qed.

Lemma stk_step : forall N s t k l s' e, stk s t k -> xstep (code N) arr s l = Some (s', e) -> txs s' t <> None -> stk s' t k.
Proof.
  intros N s t k l s' e H Hs Hn. destruct l as [u x|u|u x]; cbn [xstep] in Hs.
  - destruct (code N u (pcs (ts s) u) x) as [i|] eqn:Ec; [|discriminate]. destruct (Nat.eq_dec u t) as [->|Hu].
    + destruct H as [r [H1 [H2 H3]]]. rewrite H1 in Hs. destruct (dead r) eqn:Ed; [unfold inside in Hs; rewrite Ed in Hs; discriminate|].
      destruct H3 as [H3|H3]; [discriminate|].
      destruct (stuck_step _ _ _ _ _ _ _ _ H3 Ed Ec Hs) as [_ [[l [r' [-> [Y1 Y2]]]]|[y ->]]].
      * exists r'. unfold pp. cbn [txs ts setp next pcs]. rewrite !upd_same. split; auto. split; [congruence|auto].
      * cbn [txs] in Hn. rewrite upd_same in Hn. congruence.
    + destruct (txs s u) as [r|] eqn:Eu.
      * unfold inside in Hs. destruct (dead r); [discriminate|]. destruct i as [[x0 k0|x0 v0 p0 e0|x0 f0 k0|p0 e0|p0 e0]|p0 k0|p0 e0|c0 p0].
        -- destruct (k0 (tview s u r x0)) as [p1 e1]. injection Hs as <- <-. apply (stk_other s); auto; cbn [txs ts] in *; rewrite ?upd_other in * by auto; auto.
        -- injection Hs as <- <-. apply (stk_other s); auto; cbn [txs ts] in *; rewrite ?upd_other in * by auto; auto.
        -- destruct (k0 (tview s u r x0)) as [p1 e1]. injection Hs as <- <-. apply (stk_other s); auto; cbn [txs ts] in *; rewrite ?upd_other in * by auto; auto.
        -- injection Hs as <- <-. apply (stk_other s); auto; cbn [txs ts] in *; rewrite ?upd_other in * by auto; auto.
        -- injection Hs as <- <-. apply (stk_other s); auto; cbn [txs ts] in *; rewrite ?upd_other in * by auto; auto.
        -- injection Hs as <- <-. apply (stk_other s); auto; cbn [txs ts] in *; rewrite ?upd_other in * by auto; auto.
        -- destruct (dep r) as [|[|d]].
           ++ destruct (buf (ts s) u); [|discriminate]. injection Hs as <- <-. apply (stk_other s); auto; cbn [txs ts] in *; rewrite ?upd_other in * by auto; eauto.
           ++ destruct (buf (ts s) u); [|discriminate]. injection Hs as <- <-. apply (stk_other s); auto; cbn [txs ts] in *; rewrite ?upd_other in * by auto; eauto.
           ++ injection Hs as <- <-. apply (stk_other s); auto; cbn [txs ts] in *; rewrite ?upd_other in * by auto; auto.
        -- injection Hs as <- <-. apply (stk_other s); auto; cbn [txs ts] in *; rewrite ?upd_other in * by auto; auto.
      * unfold outside in Hs. destruct i as [[x0 k0|x0 v0 p0 e0|x0 f0 k0|p0 e0|p0 e0]|p0 k0|p0 e0|c0 p0]; cbn [step] in Hs.
        -- destruct (k0 (view (ts s) u x0)) as [p1 e1]. injection Hs as <- <-. apply (stk_other s); auto. rewrite upd_other by auto. auto.
        -- injection Hs as <- <-. apply (stk_other s); auto. rewrite upd_other by auto. auto.
        -- destruct (buf (ts s) u); [|discriminate]. destruct (k0 (mem (ts s) x0)) as [p1 e1]. injection Hs as <- <-. apply (stk_other s); eauto. rewrite upd_other by auto. auto.
        -- destruct (buf (ts s) u); [|discriminate]. injection Hs as <- <-. apply (stk_other s); auto. rewrite upd_other by auto. auto.
        -- injection Hs as <- <-. apply (stk_other s); auto. rewrite upd_other by auto. auto.
        -- injection Hs as <- <-. apply (stk_other s); auto; cbn [txs ts] in *; rewrite ?upd_other in * by auto; auto.
        -- discriminate.
        -- injection Hs as <- <-. apply (stk_other s); auto. rewrite upd_other by auto. auto.
  - destruct (buf (ts s) u) as [|[x v] r]; [discriminate|]. injection Hs as <- <-. apply (stk_other s); eauto.
  - destruct (txs s u) as [r|] eqn:Eu; [|discriminate]. destruct (x =? STARTED); [discriminate|]. injection Hs as <- <-.
    destruct (Nat.eq_dec u t) as [->|Hu]; [cbn [txs] in Hn; rewrite upd_same in Hn; congruence|].
    apply (stk_other s); auto; cbn [txs ts] in *; rewrite ?upd_other in * by auto; auto.
Qed.

Lemma open_head : forall N t s ls, open N t s ls -> txs s t <> None.
Proof. intros N t s [|l ls] H; apply H. Qed.
Lemma stk_run : forall N ls s t k s' log, stk s t k -> open N t s ls -> run (xstep (code N) arr) s ls = Some (s', log) -> stk s' t k.
Proof.
  induction ls as [|l ls IH]; intros s t k s' log H Ho Hr; [injection Hr as <- <-; auto|].
  cbn [run] in Hr. cbn [open] in Ho. destruct Ho as [_ Ho]. destruct (xstep (code N) arr s l) as [[s1 e1]|] eqn:E1; [|discriminate].
  destruct (run (xstep (code N) arr) s1 ls) as [[s2 e2]|] eqn:E2; [|discriminate]. injection Hr as <- <-. apply (IH s1 t k s2 e2); auto.
  eapply stk_step; eauto. eapply open_head; eauto.
Qed.

Lemma elide_rw_lost : forall N D S s t r ls s1 log a s2 e, Z.of_nat N < W -> reachable (xstep (code N) arr) (init D S) s ->
  p (pcs (ts s) t) = Idle -> txs s t = Some r -> run (xstep (code N) arr) s ls = Some (s1, log) -> open N t s ls ->
  xstep (code N) arr s1 (XGo t a) = Some (s2, e) ->
  e = [] /\ (txs s2 t <> None \/ exists y, pcs (ts s2) t = abt r y).
Proof.
  intros N D S s t r ls s1 log a s2 e HN [ls0 [log0 H0]] Hp Ht Hr Ho Hs. destruct (rw_inv N HN _ _ _ _ _ H0) as [b [o [_ HI]]].
  assert (K : stk s t (abt r)).
  { exists r. split; auto. split; auto. destruct (dead r) eqn:Ed; auto. right. destruct (i_tx _ _ _ _ HI t r Ht) as [_ X]. destruct (X Ed) as [[_ X1]|X1]; auto.
    unfold pp in X1. rewrite Hp in X1. destruct X1. }
  pose proof (stk_run _ _ _ _ _ _ _ K Ho Hr) as [q [Q1 [Q2 Q3]]]. cbn [xstep] in Hs. destruct (code N t (pcs (ts s1) t) a) as [i|] eqn:Ec; [|discriminate].
  rewrite Q1 in Hs. destruct (dead q) eqn:Ed; [unfold inside in Hs; rewrite Ed in Hs; discriminate|]. destruct Q3 as [Q3|Q3]; [discriminate|].
  destruct (stuck_step _ _ _ _ _ _ _ _ Q3 Ed Ec Hs) as [-> [[l [r' [-> [Y1 Y2]]]]|[y ->]]]; split; auto.
  - left. cbn [txs]. rewrite upd_same. discriminate.
  - right. exists y. cbn [ts setp next pcs]. rewrite upd_same, Q2. auto.
Qed.

Lemma elide_rw_open : exists ls s log, run (xstep (code 3) arr) (init (fun _ => 0) (fun _ => stat_init)) ls = Some (s, log) /\
  p (pcs (ts s) 2%nat) = Idle /\ txs s 2%nat <> None.
Proof.
  exists [XGo 1 ARead; XGo 1 ATick; XGo 1 ATick; XGo 1 ATick; XGo 2 (AELock false); XGo 2 ATick; XGo 2 (ARd 5); XGo 2 (AEUnlock false); XGo 2 ATick]%nat.
  do 2 eexists. split; [vm_compute; reflexivity|]. split; [reflexivity|discriminate].
Qed.

(** ** The write side alone ends its transactions *)
Definition wok (q : pc) : Prop :=
  match q with Bgn w _ _ | LP w | LBusy w | Spn w _ _ => w = true | CS false false => False | _ => True end.
Definition wtx (q : pc) : bool := match q with LP _ | LP2 _ | LBusy _ | CS _ false | UEnd _ _ => true | _ => false end.
Definition wJ (s : rtm lst wev) : Prop :=
  (forall u, wok (pp s u)) /\
  forall u r, txs s u = Some r -> (forall x, wok (p (abt r x))) /\ dep r = 1%nat /\ wtx (pp s u) = true.

Lemma wok_loop : forall c r, wok (loop true c r).
Proof. intros. unfold loop. destruct (0 <? r - 1); simpl; auto. Qed.
Lemma wok_abt : forall c r s x, wok (p (aborted true c r s x)).
Proof. intros. unfold aborted. destruct (fallback r s c x) as [[[] r'] s']; simpl; auto. apply wok_loop. Qed.
Lemma wok_code : forall N t l a i, wok (p l) -> wact a -> code N t l a = Some i ->
  match i with
  | Op (Ld _ k) | Op (Rmw _ _ k) => forall v, wok (p (fst (k v)))
  | Op (St _ _ q _) | Op (Fence q _) | Op (Local q _) => wok (p q)
  | Begin q k => wok (p q) /\ wtx (p q) = true /\ forall x, wok (p (k x))
  | End q _ => p q = Idle
  | XAbort _ _ => p l = LBusy true
  end.
Proof.
  intros N t l a i Hl Ha Hc. unfold code in Hc. destruct (negb (t <? N)%nat); [discriminate|].
  destruct (p l) as [|w0 c0 r0|w0|b0|w0|w0 c0 r0|c0 r0 b0| | | | | | |w0 d0|w0|w0 ad] eqn:Ep; cbn [wok] in Hl; subst;
    destruct a; try discriminate Hc; cbn [wact] in Ha; subst.
  all: try (match goal with b : bool |- _ => destruct b end; try discriminate Hc).
  all: try (match goal with b : bool |- _ => destruct b end; try discriminate Hc).
  all: try contradiction Hl.
  all: repeat match type of Hc with (if ?b then _ else _) = _ => destruct b; try discriminate Hc end.
  all: injection Hc as <-; cbn; try (intros v; destruct (v =? 0)); cbn; auto using wok_loop.
  all: try (split; [auto|]; split; [auto|]; intros; apply wok_abt).
  all: try (destruct (skip (st l) =? 0); cbn; auto; fail).
Qed.

Lemma wJ_other : forall s m b t l T, wJ s -> wok (p l) -> T t = None ->
  (forall u, u <> t -> T u = txs s u \/ exists v xs, T u = kill (txs s) v xs u) ->
  wJ (mkR (mkT m b (upd (pcs (ts s)) t l)) T).
Proof.
  intros s m b t l T [H1 H2] Hl Ht HT. split.
  - intros u. unfold pp. cbn [ts pcs]. upd_cases; auto. apply H1.
  - intros u r Hr. cbn [txs] in Hr. assert (Hu : u <> t) by congruence. unfold pp. cbn [ts pcs]. rewrite upd_other by auto. fold (pp s u).
    destruct (HT u Hu) as [X|[v [xs X]]]; rewrite X in Hr; auto.
    unfold kill in Hr. destruct (Nat.eqb u v); auto. destruct (txs s u) as [r0|] eqn:Eu; [|discriminate]. simpl in Hr. injection Hr as <-.
    destruct (H2 u r0 Eu) as [K1 [K2 K3]]. unfold doom. destruct (hits xs (tch r0)); auto.
Qed.
Lemma wJ_inside : forall s t l r r', wJ s -> txs s t = Some r -> wok (p l) -> abt r' = abt r -> dep r' = 1%nat -> wtx (p l) = true ->
  wJ (mkR (setp s t l) (upd (txs s) t (Some r'))).
Proof.
  intros s t l r r' [H1 H2] Ht Hl Ha Hd Hw. split.
  - intros u. unfold pp. cbn [ts setp next pcs]. upd_cases; auto. apply H1.
  - intros u q Hq. cbn [txs] in Hq. unfold pp. cbn [ts setp next pcs]. upd_cases; [|apply H2; auto]. injection Hq as <-. rewrite Ha. split; [apply (H2 t r Ht)|auto].
Qed.

Lemma wJ_step : forall N s a o l s' e, I N s a o -> wJ s -> wlab l -> xstep (code N) arr s l = Some (s', e) -> wJ s'.
Proof.
  intros N s a o l s' e HI HJ Hl H. pose proof HJ as [J1 J2]. destruct l as [t x|t|t x]; cbn [xstep] in H.
  - destruct (code N t (pcs (ts s) t) x) as [i|] eqn:Ec; [|discriminate]. pose proof (wok_code _ _ _ _ _ (J1 t) Hl Ec) as Hi.
    destruct (txs s t) as [r|] eqn:Et.
    + destruct (dead r) eqn:Ed; [unfold inside in H; rewrite Ed in H; discriminate|]. destruct (J2 t r Et) as [K1 [K2 K3]].
      destruct (i_tx _ _ _ _ HI t r Et) as [_ X]. specialize (X Ed). unfold inside in H. rewrite Ed in H.
      assert (Y : (forall w, pp s t <> LBusy w) -> live (mem (ts s) CNT) o (dat a) t (pp s t) r).
      { intros Hb. destruct X as [[_ X]|[c [_ [_ [_ X]]]]]; auto. rewrite K2 in X. exfalso.
        destruct (pp s t) as [| | | |w0| | | | | | | | |w0 []| |]; try discriminate K3; try (simpl in X; lia). apply (Hb w0). auto. }
      unfold code in Ec. destruct (negb (t <? N)%nat); [discriminate|]. fold (pp s t) in Ec. pose proof (J1 t) as J0.
      destruct (pp s t) as [|w0 c0 r0|w0|b0|w0|w0 c0 r0|c0 r0 b0| | | | | | |w0 d0|w0|w0 ad] eqn:Ep; try discriminate K3.
      * cbn in J0. subst w0. destruct x; try discriminate Ec. injection Ec as <-. injection H as <- <-. eapply wJ_inside; eauto; cbn; auto.
      * destruct x; try discriminate Ec. injection Ec as <-. destruct (b0 || negb (tview s t r WRD =? 0)); injection H as <- <-; eapply wJ_inside; eauto; cbn; auto.
      * destruct x; try discriminate Ec. injection Ec as <-. injection H as <- <-. apply (wJ_other s); [auto|cbn; auto|apply upd_same|].
        intros u Hu. rewrite upd_other by auto. auto.
      * destruct d0; [discriminate K3|]. destruct w0; [|contradiction J0]. specialize (Y ltac:(discriminate)). cbn [live] in Y. destruct Y as [_ [Y [_ [Y2 _]]]].
        destruct x; try discriminate Ec; injection Ec as <-.
        -- injection H as <- <-. eapply wJ_inside; eauto; cbn; auto.
        -- injection H as <- <-. eapply wJ_inside; eauto; cbn; auto.
        -- cbn in H. unfold tview in H. unfold WRD at 1 in H. rewrite alldat_reg in H by auto. fold WRD in H. rewrite (see _ _ _ t (i_m _ _ _ _ HI)) in H.
           assert (Hv : match o with Free => 0 | Wait _ | Held _ => 1 | Left u => if Nat.eqb t u then 0 else 1 end = 0)
             by (destruct Y as [-> | ->]; rewrite ?Nat.eqb_refl; auto).
           rewrite Hv in H. cbn in H. injection H as <- <-. eapply wJ_inside; eauto; cbn; auto.
      * destruct x; try discriminate Ec. injection Ec as <-. rewrite K2 in H. destruct (buf (ts s) t); [|discriminate]. injection H as <- <-.
        apply (wJ_other s); [auto|cbn; auto|apply upd_same|]. intros u Hu. rewrite upd_other by auto. eauto.
    + unfold outside in H. destruct i as [[x0 k0|x0 v0 p0 e0|x0 f0 k0|p0 e0|p0 e0]|p0 k0|p0 e0|c0 p0]; cbn [step] in H.
      * specialize (Hi (view (ts s) t x0)). destruct (k0 (view (ts s) t x0)) as [p1 e1]. injection H as <- <-. apply (wJ_other s); auto.
      * injection H as <- <-. apply (wJ_other s); auto.
      * destruct (buf (ts s) t); [|discriminate]. specialize (Hi (mem (ts s) x0)). destruct (k0 (mem (ts s) x0)) as [p1 e1]. injection H as <- <-.
        apply (wJ_other s); auto; [rewrite kill_none; auto|eauto].
      * destruct (buf (ts s) t); [|discriminate]. injection H as <- <-. apply (wJ_other s); auto.
      * injection H as <- <-. apply (wJ_other s); auto.
      * injection H as <- <-. destruct Hi as [Hi1 [Hi2 Hi3]]. split.
        -- intros u. unfold pp. cbn [ts setp next pcs]. upd_cases; auto. apply J1.
        -- intros u q Hq. cbn [txs] in Hq. unfold pp. cbn [ts setp next pcs]. upd_cases; [|apply J2; auto]. injection Hq as <-. cbn. auto.
      * discriminate.
      * exfalso. apply (i_out _ _ _ _ HI t Et). unfold pp. rewrite Hi. auto.
  - destruct (buf (ts s) t) as [|[x v] r]; [discriminate|]. injection H as <- <-. split; [exact J1|]. intros u q Hq. cbn [txs] in Hq.
    change (pp (mkR (mkT (setm (mem (ts s)) x v) (upd (buf (ts s)) t r) (pcs (ts s))) (kill (txs s) t [x])) u) with (pp s u).
    unfold kill in Hq. destruct (Nat.eqb u t); auto. destruct (txs s u) as [r0|] eqn:Eu; [|discriminate]. simpl in Hq. injection Hq as <-.
    destruct (J2 u r0 Eu) as [K1 [K2 K3]]. unfold doom. destruct (hits [x] (tch r0)); auto.
  - destruct (txs s t) as [r|] eqn:Et; [|discriminate]. destruct (x =? STARTED); [discriminate|]. injection H as <- <-. destruct (J2 t r Et) as [K1 _].
    apply (wJ_other s); [auto|cbn; auto|apply upd_same|]. intros u Hu. rewrite upd_other by auto. auto.
Qed.

Lemma wJ_run : forall N, Z.of_nat N < W -> forall ls s a o s' log, I N s a o -> wJ s -> Forall wlab ls -> run (xstep (code N) arr) s ls = Some (s', log) -> wJ s'.
Proof.
  intros N HN. induction ls as [|l ls IH]; intros s a o s' log HI HJ HF H; [injection H as <- <-; auto|].
  inversion HF as [|? ? F1 F2]; subst. cbn [run] in H. destruct (xstep (code N) arr s l) as [[s1 e1]|] eqn:E1; [|discriminate].
  destruct (run (xstep (code N) arr) s1 ls) as [[s2 e2]|] eqn:E2; [|discriminate]. injection H as <- <-.
  destruct (I_step N HN _ _ _ _ _ _ HI E1) as [a' [o' [_ HI']]]. eapply IH; [exact HI'| |exact F2|exact E2].
  eapply wJ_step; [exact HI|exact HJ|exact F1|exact E1].
Qed.
Lemma elide_rw_wends : forall N D S ls s log t, Z.of_nat N < W -> Forall wlab ls -> run (xstep (code N) arr) (init D S) ls = Some (s, log) ->
  p (pcs (ts s) t) = Idle -> txs s t = None.
Proof.
  intros N D S ls s log t HN HF H Hp. assert (J : wJ s).
  { eapply (wJ_run N HN ls (init D S)); eauto; [apply I_init|]. split; [intros u; exact Logic.I|discriminate]. }
  destruct (txs s t) as [r|] eqn:Et; auto. destruct J as [_ J]. destruct (J t r Et) as [_ [_ X]]. unfold pp in X. rewrite Hp in X. discriminate.
Qed.

Lemma elide_rw_ends : forall N D S s t, Z.of_nat N < W -> reachable (xstep (code N) arr) (init D S) s ->
  (forall w ad, p (pcs (ts s) t) = UEnd w ad -> txs s t <> None).
Proof.
  intros N D S s t HN [ls [log H]] w ad Hp Hn. destruct (rw_inv N HN _ _ _ _ _ H) as [a [o [_ HI]]].
  apply (i_out _ _ _ _ HI t Hn). unfold pp. rewrite Hp. destruct w; reflexivity.
Qed.
