From Coq Require Import Arith List Bool Lia.
From Verif Require Import Lib LockSpec LockProg SpinHclh_Model SpinHclh_Spec.
Import ListNotations.

Section Cl.
Variable cl : nat -> nat.

(** * Linked queues of threads, abstracting from the node a member watches *)

Section Links.
Variable nd : nat -> nat.

Fixpoint links (P : nat -> nat -> Prop) (d : nat) (q : list nat) : Prop :=
  match q with [] => True | t :: r => P t d /\ links P (nd t) r end.

Fixpoint lastn (d : nat) (q : list nat) : nat :=
  match q with [] => d | t :: r => lastn (nd t) r end.

Lemma lastn_app : forall p q d, lastn d (p ++ q) = lastn (lastn d p) q.
Proof. induction p; simpl; auto. Qed.

Lemma links_app : forall P p q d, links P d (p ++ q) <-> links P d p /\ links P (lastn d p) q.
Proof. induction p; simpl; intros; [tauto|]. rewrite IHp. tauto. Qed.

Lemma lastn_in : forall q d, lastn d q = d \/ exists t, In t q /\ lastn d q = nd t.
Proof.
  induction q as [|t q IH]; simpl; intros; auto. right. destruct (IH (nd t)) as [E|[u [Hu E]]]; eauto.
Qed.

Lemma lastn_cons : forall t q d, exists u, In u (t :: q) /\ lastn d (t :: q) = nd u.
Proof. intros. simpl. destruct (lastn_in q (nd t)) as [E|[u [Hu E]]]; eauto. Qed.

Lemma links_in : forall P q d t, links P d q -> In t q ->
  exists p r, q = p ++ t :: r /\ P t (lastn d p).
Proof.
  induction q as [|u q IH]; simpl; intros d t H Hin; [tauto|]. destruct H as [H1 H2]. destruct Hin as [->|Hin].
  - exists [], q. auto.
  - destruct (IH _ _ H2 Hin) as [p [r [E HP]]]. exists (u :: p), r. simpl. split; [congruence|auto].
Qed.
End Links.

Lemma links_mono : forall (nd nd' : nat -> nat) (P P' : nat -> nat -> Prop) q d,
  (forall t, In t q -> nd' t = nd t) -> (forall t e, In t q -> P t e -> P' t e) ->
  links nd P d q -> links nd' P' d q.
Proof.
  induction q as [|u q IH]; simpl; intros d Hn HP H; auto. destruct H as [H1 H2].
  split; auto. rewrite Hn by auto. apply IH; auto.
Qed.

Lemma lastn_ext : forall (nd nd' : nat -> nat) q d, (forall t, In t q -> nd' t = nd t) -> lastn nd' d q = lastn nd d q.
Proof. induction q as [|u q IH]; simpl; intros; auto. rewrite H by auto. auto. Qed.

(** * Invariant *)

Definition inc (c : nat) (t : nat) : bool := Nat.eqb (cl t) c.

Lemma filter_all : forall (f : nat -> bool) q, (forall x, In x q -> f x = true) -> filter f q = q.
Proof. induction q as [|x q IH]; simpl; intros H; auto. rewrite H by auto. rewrite IH; auto. Qed.
Lemma filter_none : forall (f : nat -> bool) q, (forall x, In x q -> f x = false) -> filter f q = [].
Proof. induction q as [|x q IH]; simpl; intros H; auto. rewrite H by auto. apply IH; auto. Qed.

Record ghost := gh {
  GQ : list nat;              (* threads spliced into the global queue, holder first *)
  UQ : nat -> list nat;       (* per cluster: queued locally, not yet spliced *)
  ld : nat -> nat;            (* per cluster: node in front of the local queue *)
  gd : nat;                   (* node in front of the global queue *)
  lp : nat -> nat;            (* local predecessor of a queued thread *)
  bd : nat -> bool;           (* node ends a spliced batch (or is an initial node) *)
  hm : nat -> nat }.          (* the cluster a node belongs to *)

Definition lq (g : ghost) (c : nat) : list nat := filter (inc c) (GQ g) ++ UQ g c.
Definition queued (g : ghost) (t : nat) : Prop := In t (GQ g) \/ In t (UQ g (cl t)).
Definition inlc (s : state) (g : ghost) (c n : nat) : Prop := n = ld g c \/ exists t, In t (lq g c) /\ n = node s t.

Definition hpc (p : pc) : bool := match p with Crit | U1 | U2 _ => true | _ => false end.

Definition gpc (p : pc) (d : nat) : Prop :=
  match p with L13 _ x | L14 x => x = d | Crit | U1 | U2 _ => True | _ => False end.

Definition GP (s : state) (g : ghost) (t d : nat) : Prop :=
  (bd g (lp g t) = false -> lp g t = d) /\ (bd g (lp g t) = true -> gpc (thr s t) d).

Definition pend (s : state) (g : ghost) (n : nat) : Prop :=
  exists m x X Y u, thr s m = L13 n x /\ GQ g = X ++ m :: Y /\ In u (m :: Y) /\ n = node s u.

Definition PI (s : state) (g : ghost) (h : option nat) (t : nat) : Prop :=
  let me := node s t in
  let pv := prev s me = Some (lp g t) in
  match thr s t with
  | Idle | L1 => ~ queued g t
  | L2 => ~ queued g t /\ wait s me = true
  | L3 => ~ queued g t /\ wait s me = true /\ splice s me = false
  | L3b l => ~ queued g t /\ wait s me = true /\ splice s me = false /\ hm g l = cl t /\ cid s l = cl t
  | L3c v => ~ queued g t /\ wait s me = true /\ splice s me = false /\ v = cl t
  | L4 | L4b _ => ~ queued g t /\ wait s me = true /\ splice s me = false /\ cid s me = cl t
  | L5 => ~ queued g t /\ wait s me = true /\ splice s me = false /\ cid s me = cl t /\ prev s me <> None
  | L6 p => queued g t /\ lp g t = p
  | L7 p => queued g t /\ lp g t = p /\ pv
  | L8a p | L8b p | L8c p => queued g t /\ lp g t = p /\ pv /\ prev s p <> None
  | L9a p | L9b p => queued g t /\ lp g t = p /\ pv /\ prev s p <> None /\ (wait s p = false \/ splice s p = true)
  | L11 => In t (UQ g (cl t)) /\ bd g (lp g t) = true /\ pv
  | L12 lt => In t (UQ g (cl t)) /\ bd g (lp g t) = true /\ pv /\ exists u, In u (UQ g (cl t)) /\ lt = node s u
  | L13 lt x => In t (GQ g) /\ bd g (lp g t) = true /\ pv /\
      exists X Y u, GQ g = X ++ t :: Y /\ In u (t :: Y) /\ lt = node s u /\ bd g lt = true
  | L14 x => In t (GQ g) /\ bd g (lp g t) = true /\ pv
  | Crit | U1 => h = Some t /\ pv
  | U2 p => h = Some t /\ pv /\ p = lp g t
  end.

Record Inv (s : state) (h : option nat) (g : ghost) : Prop := {
  i_gt : glob s = lastn (node s) (gd g) (GQ g);
  i_lt : forall c, loc s c = lastn (node s) (ld g c) (lq g c);
  i_ucl : forall c t, In t (UQ g c) -> cl t = c;
  i_ndg : NoDup (GQ g);
  i_ndu : forall c, NoDup (UQ g c);
  i_dis : forall c t, In t (UQ g c) -> ~ In t (GQ g);
  i_inj : forall t u, node s t = node s u -> t = u;
  i_nld : forall t c, node s t <> ld g c;
  i_ldi : forall c c', ld g c = ld g c' -> c = c';
  i_nz : forall t, node s t <> 0;
  i_lz : forall c, ld g c <> 0;
  i_gd : gd g = 0 \/ exists c, gd g = ld g c;
  i_hmn : forall t, hm g (node s t) = cl t;
  i_hml : forall c, hm g (ld g c) = c;
  i_wq : forall t, queued g t -> wait s (node s t) = true;
  i_pq : forall t, queued g t -> prev s (node s t) <> None;
  i_wg : wait s (gd g) = false;
  i_ll : forall c, links (node s) (fun t d => lp g t = d) (ld g c) (lq g c);
  i_gl : links (node s) (GP s g) (gd g) (GQ g);
  i_bU : forall c t, In t (UQ g c) -> bd g (node s t) = false;
  i_bl : forall c, bd g (lastn (node s) (ld g c) (filter (inc c) (GQ g))) = true;
  i_bt : forall c n, inlc s g c n -> bd g n = true -> splice s n = true \/ prev s n = None \/ pend s g n;
  i_bf : forall c n, inlc s g c n -> bd g n = false -> splice s n = false /\ prev s n <> None;
  i_cid : forall c n, inlc s g c n -> cid s n = c;
  i_h : forall t, h = Some t -> hpc (thr s t) = true /\ exists q, GQ g = t :: q;
  i_pi : forall t, PI s g h t
}.

Definition R (s : state) (h : option nat) (gq : list nat) (uq : nat -> list nat) : Prop :=
  exists g, Inv s h g /\ GQ g = gq /\ forall c, UQ g c = uq c.

(** Transitions of the two-level queue *)
Inductive gstep : option nat -> list nat -> (nat -> list nat) -> list fev ->
                  option nat -> list nat -> (nat -> list nat) -> Prop :=
| gs_tau : forall h q u, gstep h q u [] h q u
| gs_splice : forall h q u t b r, u (cl t) = b ++ r -> In t b ->
    gstep h q u [] h (q ++ b) (upd u (cl t) r)
| gs_req : forall h q u t, gstep h q u [FReq t] h q (upd u (cl t) (u (cl t) ++ [t]))
| gs_acq : forall q u t, gstep None (t :: q) u [FAcq t] (Some t) (t :: q) u
| gs_rel : forall q u t, gstep (Some t) (t :: q) u [FRel t] None q u.

(** * Consequences *)

Lemma inlc_ld : forall s g c, inlc s g c (ld g c).
Proof. unfold inlc; auto. Qed.

Lemma inlc_node : forall s h g t, Inv s h g -> queued g t -> inlc s g (cl t) (node s t).
Proof.
  intros s h g t I Hq. right. exists t. split; auto. unfold lq. apply in_or_app. destruct Hq as [H|H]; auto.
  left. apply filter_In. split; auto. unfold inc. apply Nat.eqb_refl.
Qed.

Lemma lq_queued : forall s h g c t, Inv s h g -> In t (lq g c) -> queued g t /\ cl t = c.
Proof.
  intros s h g c t I H. unfold lq in H. apply in_app_or in H. destruct H as [H|H].
  - apply filter_In in H. destruct H as [H1 H2]. unfold inc in H2. apply Nat.eqb_eq in H2. split; auto. left; auto.
  - pose proof (i_ucl _ _ _ I _ _ H) as E. split; auto. right. rewrite E. auto.
Qed.

Lemma queued_lq : forall g t, queued g t -> In t (lq g (cl t)).
Proof.
  intros g t [H|H]; unfold lq; apply in_or_app; auto. left. apply filter_In. split; auto. unfold inc. apply Nat.eqb_refl.
Qed.

(** The local predecessor is in the same local chain. *)
Lemma lp_inlc : forall s h g t, Inv s h g -> queued g t -> inlc s g (cl t) (lp g t).
Proof.
  intros s h g t I Hq.
  destruct (links_in _ _ _ _ t (i_ll _ _ _ I (cl t)) (queued_lq _ _ Hq)) as [p [r [E HP]]].
  simpl in HP. rewrite HP. destruct (lastn_in (node s) p (ld g (cl t))) as [->|[u [Hu ->]]].
  - apply inlc_ld.
  - right. exists u. split; auto. rewrite E. apply in_or_app; auto.
Qed.

Lemma inlc_own : forall s h g c t, Inv s h g -> inlc s g c (node s t) -> queued g t /\ cl t = c.
Proof.
  intros s h g c t I [H|[u [Hu H]]].
  - apply (i_nld _ _ _ I) in H. tauto.
  - apply (i_inj _ _ _ I) in H. subst u. eapply lq_queued; eauto.
Qed.

(** A member of a pending batch whose predecessor ends a batch leads it. *)
Lemma u_head : forall s h g t, Inv s h g -> In t (UQ g (cl t)) -> bd g (lp g t) = true ->
  exists r, UQ g (cl t) = t :: r.
Proof.
  intros s h g t I Hin Hb. pose proof (i_ll _ _ _ I (cl t)) as Hl. unfold lq in Hl. apply links_app in Hl.
  destruct Hl as [_ Hl]. destruct (links_in _ _ _ _ t Hl Hin) as [p [r [E HP]]]. simpl in HP.
  destruct p as [|v p]; [exists r; auto|]. exfalso.
  destruct (lastn_cons (node s) v p (lastn (node s) (ld g (cl t)) (filter (inc (cl t)) (GQ g)))) as [u [Hu Eu]].
  rewrite Eu in HP. rewrite HP in Hb. rewrite (i_bU _ _ _ I (cl t) u) in Hb; [discriminate|].
  rewrite E. apply in_or_app; auto.
Qed.

Lemma head_bd : forall s h g c t r, Inv s h g -> UQ g c = t :: r -> bd g (lp g t) = true.
Proof.
  intros s h g c t r I E. pose proof (i_ll _ _ _ I c) as Hl. unfold lq in Hl. apply links_app in Hl.
  destruct Hl as [_ Hl]. rewrite E in Hl. simpl in Hl. destruct Hl as [Hl _]. rewrite Hl. apply (i_bl _ _ _ I).
Qed.

(** A spliced thread reading a cleared flag on its predecessor is at the front. *)
Lemma front : forall s h g t d p r, Inv s h g -> GQ g = p ++ t :: r -> d = lastn (node s) (gd g) p ->
  wait s d = false -> p = [] /\ d = gd g.
Proof.
  intros s h g t d p r I E Ed Hw. destruct p as [|v p]; auto. exfalso.
  destruct (lastn_cons (node s) v p (gd g)) as [u [Hu Eu]]. rewrite Ed, Eu in Hw.
  rewrite (i_wq _ _ _ I) in Hw; [discriminate|]. left. rewrite E. apply in_or_app; auto.
Qed.

Lemma gq_split : forall s h g t, Inv s h g -> In t (GQ g) ->
  exists p r, GQ g = p ++ t :: r /\ GP s g t (lastn (node s) (gd g) p).
Proof. intros s h g t I H. apply links_in; auto. apply (i_gl _ _ _ I). Qed.

Lemma gd_node : forall s h g t, Inv s h g -> node s t <> gd g.
Proof.
  intros s h g t I E. destruct (i_gd _ _ _ I) as [E0|[c E0]]; rewrite E0 in E.
  - eapply (i_nz _ _ _ I); eauto.
  - eapply (i_nld _ _ _ I); eauto.
Qed.

(** * Steps that leave the ghost structure alone *)

Lemma Inv_keep : forall s h g t s',
  Inv s h g ->
  glob s' = glob s -> (forall c, loc s' c = loc s c) -> (forall u, node s' u = node s u) ->
  (forall u, u <> t -> thr s' u = thr s u) ->
  (forall n, (n = node s t /\ ~ queued g t) \/ wait s' n = wait s n) ->
  (forall n, (n = node s t /\ ~ queued g t) \/ splice s' n = splice s n \/
             (splice s' n = true /\ bd g n = true /\ exists u, queued g u /\ n = node s u)) ->
  (forall n, n = node s t \/ prev s' n = prev s n) ->
  (forall n, prev s' n = prev s n \/ prev s' n <> None) ->
  (forall n, cid s' n = cid s n \/ cid s' n = hm g n) ->
  (forall n x, thr s t = L13 n x -> splice s' n = true \/ thr s' t = L13 n x) ->
  (forall d, gpc (thr s t) d -> gpc (thr s' t) d) ->
  hpc (thr s' t) = hpc (thr s t) ->
  PI s' g h t ->
  Inv s' h g.
Proof.
  intros s h g t s' I Hg Hlo Hn Ht Hw Hs Hp Hp2 Hc H13 Hgp Hh HPI.
  assert (Hnl : forall c n, inlc s' g c n <-> inlc s g c n).
  { intros c n. unfold inlc. split; (intros [?|[u [? E]]]; [auto|right; exists u; split; auto; rewrite E, ?Hn; auto]). }
  assert (Hlast : forall d q, lastn (node s') d q = lastn (node s) d q) by (intros; apply lastn_ext; auto).
  assert (Hpend : forall n, pend s g n -> splice s' n = true \/ pend s' g n).
  { intros n [m [x [X [Y [u [H1 [H2 [H3 H4]]]]]]]]. destruct (Nat.eq_dec m t).
    - subst m. destruct (H13 _ _ H1) as [?|?]; auto. right. exists t, x, X, Y, u. rewrite Hn. auto.
    - right. exists m, x, X, Y, u. rewrite Ht, Hn by auto. auto. }
  assert (Hwi : forall c n, inlc s g c n -> wait s' n = wait s n).
  { intros c n Hi. destruct (Hw n) as [[E Hq]|E]; auto. subst n.
    exfalso. apply Hq. eapply inlc_own; eauto. }
  assert (Hsi : forall c n, inlc s g c n -> splice s' n = splice s n \/ (splice s' n = true /\ bd g n = true)).
  { intros c n Hi. destruct (Hs n) as [[E Hq]|[E|[E [E2 _]]]]; auto. subst n.
    exfalso. apply Hq. eapply inlc_own; eauto. }
  assert (HG : links (node s') (GP s' g) (gd g) (GQ g)).
  { eapply links_mono; [| |apply (i_gl _ _ _ I)]; auto. intros u e _ [A B]. split; auto. intros Hb. specialize (B Hb).
    destruct (Nat.eq_dec u t); [subst; auto|rewrite Ht by auto; auto]. }
  assert (Hcst : forall n c, hm g n = c -> cid s n = c -> cid s' n = c).
  { intros n c A B. destruct (Hc n); congruence. }
  assert (Hhm : forall c n, inlc s g c n -> hm g n = c).
  { intros c n [->|[u [Hu ->]]]; [apply (i_hml _ _ _ I)|]. rewrite (i_hmn _ _ _ I). eapply lq_queued; eauto. }
  assert (HL : forall u p, queued g u -> lp g u = p -> wait s p = false \/ splice s p = true ->
               wait s' p = false \/ splice s' p = true).
  { intros u p Hq Hlp H. pose proof (lp_inlc _ _ _ _ I Hq) as Hi. rewrite Hlp in Hi.
    rewrite (Hwi _ _ Hi). destruct H; auto. right. destruct (Hsi _ _ Hi) as [E|[E _]]; congruence. }
  constructor.
  - rewrite Hg, Hlast. apply (i_gt _ _ _ I).
  - intros c. rewrite Hlo, Hlast. apply (i_lt _ _ _ I).
  - apply (i_ucl _ _ _ I).
  - apply (i_ndg _ _ _ I).
  - apply (i_ndu _ _ _ I).
  - apply (i_dis _ _ _ I).
  - intros u v. rewrite !Hn. apply (i_inj _ _ _ I).
  - intros u c. rewrite Hn. apply (i_nld _ _ _ I).
  - apply (i_ldi _ _ _ I).
  - intros u. rewrite Hn. apply (i_nz _ _ _ I).
  - apply (i_lz _ _ _ I).
  - apply (i_gd _ _ _ I).
  - intros u. rewrite Hn. apply (i_hmn _ _ _ I).
  - apply (i_hml _ _ _ I).
  - intros u Hu. rewrite Hn. rewrite (Hwi (cl u)); [apply (i_wq _ _ _ I); auto|].
    eapply inlc_node; eauto.
  - intros u Hu. rewrite Hn. pose proof (i_pq _ _ _ I _ Hu). destruct (Hp2 (node s u)); congruence.
  - destruct (Hw (gd g)) as [[E _]|E].
    + symmetry in E. apply (gd_node _ _ _ _ I) in E. tauto.
    + rewrite E. apply (i_wg _ _ _ I).
  - intros c. eapply links_mono; [| |apply (i_ll _ _ _ I)]; auto.
  - exact HG.
  - intros c u Hu. rewrite Hn. eapply (i_bU _ _ _ I); eauto.
  - intros c. rewrite Hlast. apply (i_bl _ _ _ I).
  - intros c n Hi Hb. apply Hnl in Hi. destruct (Hsi _ _ Hi) as [E|[E _]]; auto.
    destruct (i_bt _ _ _ I _ _ Hi Hb) as [A|[A|A]].
    + left; congruence.
    + destruct (Hp n) as [En|En].
      * subst n. destruct (inlc_own _ _ _ _ _ I Hi) as [Hq _].
        destruct (Hp2 (node s t)) as [E2|E2]; [right; left; congruence|].
        exfalso. apply (i_pq _ _ _ I _ Hq). auto.
      * right; left; congruence.
    + destruct (Hpend _ A); auto.
  - intros c n Hi Hb. apply Hnl in Hi. destruct (i_bf _ _ _ I _ _ Hi Hb) as [A B]. split.
    + destruct (Hsi _ _ Hi) as [E|[_ E]]; congruence.
    + destruct (Hp2 n); congruence.
  - intros c n Hi. apply Hnl in Hi. apply Hcst; eauto. apply (i_cid _ _ _ I); auto.
  - intros u Hu. destruct (i_h _ _ _ I _ Hu) as [A B]. split; auto.
    destruct (Nat.eq_dec u t); [subst; congruence|rewrite Ht; auto].
  - intros u. destruct (Nat.eq_dec u t) as [->|Hut]; auto.
    pose proof (i_pi _ _ _ I u) as P. unfold PI in *. rewrite Ht by auto. rewrite Hn.
    assert (Hne : node s u <> node s t) by (intro E; apply (i_inj _ _ _ I) in E; auto).
    assert (Ew : wait s' (node s u) = wait s (node s u)).
    { destruct (Hw (node s u)) as [[E _]|E]; tauto. }
    assert (Ep : prev s' (node s u) = prev s (node s u)).
    { destruct (Hp (node s u)) as [E|E]; tauto. }
    assert (Es : ~ queued g u -> splice s' (node s u) = splice s (node s u)).
    { intros Hq. destruct (Hs (node s u)) as [[E _]|[E|[_ [_ [v [Hv E]]]]]]; try tauto.
      apply (i_inj _ _ _ I) in E. subst v. tauto. }
    assert (Ec : cid s (node s u) = cl u -> cid s' (node s u) = cl u).
    { intros E. apply Hcst; auto. apply (i_hmn _ _ _ I). }
    assert (Hpn : forall p, prev s p <> None -> prev s' p <> None).
    { intros p A. destruct (Hp2 p); congruence. }
    destruct (thr s u); rewrite ?Ew, ?Ep; auto.
    + destruct P as [A [B C]]. rewrite Es; auto.
    + destruct P as [A [B [C [D E]]]]. rewrite Es by auto. repeat (split; auto).
    + destruct P as [A [B [C D]]]. rewrite Es by auto. auto.
    + destruct P as [A [B [C D]]]. rewrite Es by auto. auto.
    + destruct P as [A [B [C D]]]. rewrite Es by auto. auto.
    + destruct P as [A [B [C [D E]]]]. rewrite Es by auto. repeat (split; auto).
    + destruct P as [A [B [C D]]]. auto.
    + destruct P as [A [B [C D]]]. auto.
    + destruct P as [A [B [C D]]]. auto.
    + destruct P as [A [B [C [D E]]]]. eauto 8.
    + destruct P as [A [B [C [D E]]]]. eauto 8.
    + destruct P as [A [B [C [v [D E]]]]]. repeat (split; auto). exists v. rewrite Hn. auto.
    + destruct P as [A [B [C [X [Y [v [D E]]]]]]]. repeat (split; auto). exists X, Y, v. rewrite Hn. auto.
Qed.

Ltac fc := cbn [glob loc wait splice cid prev node thr GQ UQ ld gd lp bd hm goto].

(** Thread-local moves *)
Lemma Inv_goto : forall s h g t p, Inv s h g ->
  (forall n x, thr s t <> L13 n x) ->
  (forall d, gpc (thr s t) d -> gpc p d) -> hpc p = hpc (thr s t) ->
  PI (goto s t p) g h t -> Inv (goto s t p) h g.
Proof.
  intros s h g t p I H13 Hg Hh HP. eapply (Inv_keep s h g t); eauto; fc; auto.
  - intros. rewrite upd_other; auto.
  - intros n x E. apply H13 in E. tauto.
  - intros d. rewrite upd_same. auto.
  - rewrite upd_same. auto.
Qed.

Lemma not_L13 : forall p q, p = q -> (match q with L13 _ _ => False | _ => True end) -> forall n x, p <> L13 n x.
Proof. intros p q -> H n x E. rewrite E in H. auto. Qed.

(** Joining the local queue (hclh.h:91) *)
Lemma Inv_req : forall s h g t, Inv s h g -> thr s t = L5 ->
  exists g', GQ g' = GQ g /\ (forall c, UQ g' c = upd (UQ g) (cl t) (UQ g (cl t) ++ [t]) c) /\
    Inv (mk (glob s) (upd (loc s) (cl t) (node s t)) (wait s) (splice s) (cid s) (prev s) (node s)
            (upd (thr s) t (L6 (loc s (cl t))))) h g'.
Proof.
  intros s h g t I Et.
  pose proof (i_pi _ _ _ I t) as P. unfold PI in P. rewrite Et in P. destruct P as [Hnq [Hw [Hsp [Hcid Hpv]]]].
  set (c0 := cl t).
  set (g' := gh (GQ g) (upd (UQ g) c0 (UQ g c0 ++ [t])) (ld g) (gd g) (upd (lp g) t (loc s c0))
                (upd (bd g) (node s t) false) (hm g)).
  exists g'. split; [reflexivity|]. split; [reflexivity|].
  assert (HU : forall c u, In u (UQ g' c) <-> In u (UQ g c) \/ (u = t /\ c = c0)).
  { intros c u. unfold g'. fc. unfold upd. destruct (Nat.eq_dec c c0).
    - subst c. rewrite in_app_iff. simpl. intuition.
    - intuition. }
  assert (Hqq : forall u, queued g' u <-> queued g u \/ u = t).
  { intros u. unfold queued. rewrite HU. fc. unfold g'; fc. unfold c0. intuition (subst; auto). }
  assert (Hlq : forall c, lq g' c = if Nat.eq_dec c c0 then lq g c ++ [t] else lq g c).
  { intros c. unfold lq, g'. fc. unfold upd. destruct (Nat.eq_dec c c0); auto. subst. rewrite app_assoc. auto. }
  assert (Hil : forall s' c n, node s' = node s -> (inlc s' g' c n <-> inlc s g c n \/ (c = c0 /\ n = node s t))).
  { intros s' c n En. unfold inlc. rewrite En, Hlq. unfold g'. fc. destruct (Nat.eq_dec c c0).
    - split.
      + intros [?|[u [Hu ?]]]; auto. apply in_app_or in Hu. destruct Hu as [Hu|[<-|[]]]; eauto.
      + intros [[?|[u [Hu ?]]]|[_ ?]]; auto; right; [exists u|exists t]; split; auto; apply in_or_app; simpl; auto.
    - split; auto. intros [?|[? ?]]; auto. tauto. }
  assert (Hbo : forall n, n <> node s t -> bd g' n = bd g n) by (intros; unfold g'; fc; apply upd_other; auto).
  assert (Hlpo : forall u, u <> t -> lp g' u = lp g u) by (intros; unfold g'; fc; apply upd_other; auto).
  assert (Hnt : forall c n, inlc s g c n -> n <> node s t).
  { intros c n Hi E. subst n. apply Hnq. eapply inlc_own; eauto. }
  assert (Hbl : forall u, queued g u -> bd g' (lp g' u) = bd g (lp g u)).
  { intros u Hu. rewrite Hlpo by (intro; subst; auto). apply Hbo. eapply Hnt. eapply lp_inlc; eauto. }
  assert (Hqt : forall u, queued g u -> u <> t) by (intros u Hu E; subst; auto).
  set (s' := mk _ _ _ _ _ _ _ _).
  assert (Ht' : forall u, u <> t -> thr s' u = thr s u) by (intros; unfold s'; fc; apply upd_other; auto).
  constructor.
  - apply (i_gt _ _ _ I).
  - intros c. unfold s'. fc. rewrite Hlq. unfold upd. destruct (Nat.eq_dec c c0).
    + rewrite lastn_app. auto.
    + apply (i_lt _ _ _ I).
  - intros c u Hu. apply HU in Hu. destruct Hu as [Hu|[-> ->]]; auto. eapply (i_ucl _ _ _ I); eauto.
  - apply (i_ndg _ _ _ I).
  - intros c. unfold g'. fc. unfold upd. destruct (Nat.eq_dec c c0); [|apply (i_ndu _ _ _ I)].
    apply nodup_snoc; [apply (i_ndu _ _ _ I)|]. intro A. apply Hnq. right; auto.
  - intros c u Hu. apply HU in Hu. unfold g'. fc. destruct Hu as [Hu|[-> _]].
    + eapply (i_dis _ _ _ I); eauto.
    + intro A. apply Hnq. left; auto.
  - apply (i_inj _ _ _ I).
  - apply (i_nld _ _ _ I).
  - apply (i_ldi _ _ _ I).
  - apply (i_nz _ _ _ I).
  - apply (i_lz _ _ _ I).
  - apply (i_gd _ _ _ I).
  - apply (i_hmn _ _ _ I).
  - apply (i_hml _ _ _ I).
  - intros u Hu. apply Hqq in Hu. destruct Hu as [Hu| ->]; auto. apply (i_wq _ _ _ I); auto.
  - intros u Hu. apply Hqq in Hu. destruct Hu as [Hu| ->]; auto. apply (i_pq _ _ _ I); auto.
  - apply (i_wg _ _ _ I).
  - intros c. unfold s' at 1. rewrite Hlq. fc.
    assert (Hold : links (node s) (fun t0 d => lp g' t0 = d) (ld g c) (lq g c)).
    { eapply links_mono; [| |apply (i_ll _ _ _ I)]; auto. intros u e Hu E. rewrite Hlpo; auto.
      apply Hqt. eapply lq_queued; eauto. }
    change (ld g' c) with (ld g c).
    destruct (Nat.eq_dec c c0); auto. apply links_app. split; auto. simpl. split; auto.
    unfold g'. fc. rewrite upd_same. subst c. apply (i_lt _ _ _ I).
  - eapply links_mono; [| |apply (i_gl _ _ _ I)]; auto. intros u e Hu [A B].
    assert (Hu' : queued g u) by (left; auto).
    unfold GP. rewrite Hbl, Hlpo, Ht' by auto. auto.
  - intros c u Hu. apply HU in Hu. destruct Hu as [Hu|[-> _]].
    + unfold s'. fc. rewrite Hbo; [eapply (i_bU _ _ _ I); eauto|].
      intro E. apply (i_inj _ _ _ I) in E. subst. apply Hnq. right.
      rewrite (i_ucl _ _ _ I _ _ Hu). auto.
    + unfold g', s'. fc. apply upd_same.
  - intros c. unfold s', g'. fc. change (upd (bd g) (node s t) false) with (bd g'). rewrite Hbo; [apply (i_bl _ _ _ I)|].
    apply (Hnt c). destruct (lastn_in (node s) (filter (inc c) (GQ g)) (ld g c)) as [->|[u [Hu ->]]].
    + apply inlc_ld.
    + right. exists u. split; auto. unfold lq. apply in_or_app. auto.
  - intros c n Hi Hb. apply (Hil s') in Hi; auto. destruct Hi as [Hi|[_ ->]].
    + rewrite Hbo in Hb by eauto. destruct (i_bt _ _ _ I _ _ Hi Hb) as [A|[A|A]]; auto.
      right; right. destruct A as [m [x [X [Y [u [H1 H2]]]]]]. exists m, x, X, Y, u.
      rewrite Ht'; auto. intro; subst; congruence.
    + unfold g' in Hb. revert Hb. fc. rewrite upd_same. discriminate.
  - intros c n Hi Hb. apply (Hil s') in Hi; auto. destruct Hi as [Hi|[_ ->]].
    + rewrite Hbo in Hb by eauto. apply (i_bf _ _ _ I _ _ Hi Hb).
    + unfold s'. fc. auto.
  - intros c n Hi. apply (Hil s') in Hi; auto. destruct Hi as [Hi|[-> ->]].
    + apply (i_cid _ _ _ I _ _ Hi).
    + auto.
  - intros u Hu. destruct (i_h _ _ _ I _ Hu) as [A B]. split; auto. rewrite Ht'; auto.
    intro; subst. rewrite Et in A. discriminate.
  - intros u. destruct (Nat.eq_dec u t) as [->|Hut].
    + unfold PI, s'. fc. rewrite upd_same. split; [apply Hqq; auto|]. unfold g'. fc. apply upd_same.
    + pose proof (i_pi _ _ _ I u) as P. unfold PI in *. rewrite Ht', Hlpo by auto.
      change (node s' u) with (node s u). change (prev s') with (prev s). change (wait s') with (wait s).
      change (splice s') with (splice s). change (cid s') with (cid s).
      assert (Hq1 : queued g u -> queued g' u) by (intros; apply Hqq; auto).
      assert (Hq2 : ~ queued g u -> ~ queued g' u) by (intros A B; apply Hqq in B; tauto).
      assert (HU1 : forall v c, In v (UQ g c) -> In v (UQ g' c)) by (intros; apply HU; auto).
      assert (Hbq : queued g u -> bd g (lp g u) = true -> bd g' (lp g u) = true).
      { intros A B. rewrite <- Hlpo by auto. rewrite Hbl; auto. }
      destruct (thr s u); try tauto.
      * destruct P as [A [B C]]. split; auto. split; auto. apply Hbq; auto. right; auto.
      * destruct P as [A [B [C [v [D E]]]]]. split; auto. split; [apply Hbq; auto; right; auto|]. split; auto.
        exists v. auto.
      * destruct P as [A [B [C [X [Y [v [D [D2 [E F]]]]]]]]]. split; auto. split; [apply Hbq; auto; left; auto|]. split; auto.
        exists X, Y, v. split; auto. split; auto. split; auto. rewrite Hbo; auto. subst lt. intro E.
        apply (i_inj _ _ _ I) in E. subst v. apply Hnq. left. rewrite D. apply in_or_app; auto.
      * destruct P as [A [B C]]. split; auto. split; auto. apply Hbq; auto. left; auto.
Qed.

(** Splicing a prefix of the local queue into the global queue (hclh.h:110) *)
Lemma Inv_splice : forall s h g t lt, Inv s h g -> thr s t = L12 lt ->
  exists g' b r, UQ g (cl t) = b ++ r /\ In t b /\ GQ g' = GQ g ++ b /\
    (forall c, UQ g' c = upd (UQ g) (cl t) r c) /\
    Inv (mk lt (loc s) (wait s) (splice s) (cid s) (prev s) (node s) (upd (thr s) t (L13 lt (glob s)))) h g'.
Proof.
  intros s h g t lt I Et.
  pose proof (i_pi _ _ _ I t) as P. unfold PI in P. rewrite Et in P. destruct P as [HtU [Hbt [Hpv [u0 [Hu0 Elt]]]]].
  destruct (u_head _ _ _ _ I HtU Hbt) as [r0 Er0].
  destruct (in_split _ _ Hu0) as [b0 [r Er]].
  set (b := b0 ++ [u0]).
  assert (Eb : UQ g (cl t) = b ++ r) by (unfold b; rewrite <- app_assoc; auto).
  assert (Hbt' : exists b1, b = t :: b1).
  { unfold b in *. destruct b0 as [|v b1]; simpl in *; rewrite Er0 in Eb; inversion Eb; subst; eauto. }
  destruct Hbt' as [b1 Hb1].
  assert (Htb : In t b) by (rewrite Hb1; simpl; auto).
  assert (Hu0b : In u0 b) by (unfold b; apply in_or_app; simpl; auto).
  set (c0 := cl t) in *.
  assert (HbU : forall u, In u b -> In u (UQ g c0)) by (intros u Hu; rewrite Eb; apply in_or_app; auto).
  assert (Hbc : forall u, In u b -> cl u = c0) by (intros u Hu; apply (i_ucl _ _ _ I); auto).
  set (g' := gh (GQ g ++ b) (upd (UQ g) c0 r) (ld g) (gd g) (lp g) (upd (bd g) lt true) (hm g)).
  exists g', b, r. split; auto. split; auto. split; [reflexivity|]. split; [reflexivity|].
  assert (Hlq : forall c, lq g' c = lq g c).
  { intros c. unfold lq, g'. fc. rewrite filter_app.
    destruct (Nat.eq_dec c c0) as [->|Hc].
    - rewrite upd_same. replace (filter (inc c0) b) with b; [rewrite <- app_assoc, <- Eb; auto|].
      symmetry. apply filter_all. intros u Hu. unfold inc. apply Nat.eqb_eq. auto.
    - rewrite upd_other by auto. replace (filter (inc c) b) with (@nil nat); [rewrite app_nil_r; auto|].
      symmetry. apply filter_none. intros u Hu. unfold inc. rewrite Hbc by auto. apply Nat.eqb_neq. auto. }
  assert (Hqq : forall u, queued g' u <-> queued g u).
  { intros u. unfold queued, g'. fc. rewrite in_app_iff. unfold upd. destruct (Nat.eq_dec (cl u) c0) as [E|E].
    - rewrite E. rewrite Eb, in_app_iff. tauto.
    - split; [|tauto]. intros [[?|Hb]|?]; auto. apply Hbc in Hb. congruence. }
  set (s' := mk _ _ _ _ _ _ _ _).
  assert (Hil : forall c n, inlc s' g' c n <-> inlc s g c n).
  { intros c n. unfold inlc. rewrite Hlq. reflexivity. }
  assert (Ht' : forall u, u <> t -> thr s' u = thr s u) by (intros; unfold s'; fc; apply upd_other; auto).
  assert (Hndu : NoDup (b ++ r)) by (rewrite <- Eb; apply (i_ndu _ _ _ I)).
  assert (Hnr : forall u, In u b -> ~ In u r).
  { intros u Hb Hr. clear - Hndu Hb Hr. induction b as [|v b IH]; [destruct Hb|]. simpl in Hndu. inversion Hndu; subst.
    destruct Hb as [->|Hb]; auto. apply H1. apply in_or_app; auto. }
  assert (HbGQ : forall u, In u b -> ~ In u (GQ g)) by (intros u Hu; eapply (i_dis _ _ _ I); eauto).
  assert (Hbdo : forall n, n <> lt -> bd g' n = bd g n) by (intros; unfold g'; fc; apply upd_other; auto).
  assert (Hbdm : forall n, bd g n = true -> bd g' n = true).
  { intros n Hn. unfold g'. fc. unfold upd. destruct (Nat.eq_dec n lt); auto. }
  (* local links of the batch *)
  pose proof (i_ll _ _ _ I c0) as Hll. unfold lq in Hll. apply links_app in Hll. destruct Hll as [_ Hll].
  rewrite Eb in Hll. apply links_app in Hll. destruct Hll as [Hlb Hlr].
  assert (Hlast0 : forall d, lastn (node s) d b = lt).
  { intros d. unfold b. rewrite lastn_app. simpl. auto. }
  (* predecessors of members other than [t] and not directly behind [lt] *)
  assert (Hlpb : forall u, In u b -> u <> t -> bd g' (lp g u) = false).
  { intros u Hu Hut. destruct (links_in _ _ _ _ u Hlb Hu) as [p [q [E HP]]]. simpl in HP.
    destruct p as [|v p].
    - simpl in E. rewrite Hb1 in E. inversion E. congruence.
    - destruct (lastn_cons (node s) v p (lastn (node s) (ld g c0) (filter (inc c0) (GQ g)))) as [w [Hw Ew]].
      rewrite Ew in HP. rewrite HP.
      assert (Hwb : In w b) by (rewrite E; apply in_or_app; auto).
      rewrite Hbdo.
      + eapply (i_bU _ _ _ I c0); auto.
      + rewrite Elt. intro X. apply (i_inj _ _ _ I) in X. subst w.
        (* u0 is last in b *)
        unfold b in E. assert (Hnd : NoDup (b0 ++ [u0])).
        { clear - Hndu. unfold b in Hndu. induction (b0 ++ [u0]) as [|z l IH]; [constructor|]. simpl in Hndu.
          inversion Hndu; subst. constructor; auto. intro; apply H1; apply in_or_app; auto. }
        rewrite E in Hnd.
        assert (Hl : In u0 (u :: q)).
        { destruct (exists_last (l := u :: q)) as [q' [z Hz]]; [discriminate|]. rewrite Hz in E |- *.
          rewrite app_assoc in E. apply app_inj_tail in E. destruct E as [_ <-]. apply in_or_app; simpl; auto. }
        clear - Hnd Hw Hl. induction (v :: p) as [|z l IH]; [destruct Hw|]. simpl in Hnd. inversion Hnd; subst.
        destruct Hw as [->|Hw]; auto. apply H1. apply in_or_app; auto. }
  assert (Hlpg : forall u, In u (GQ g) -> bd g' (lp g u) = bd g (lp g u)).
  { intros u Hu. apply Hbdo. intro E.
    assert (Hu' : In u (lq g (cl u))) by (apply queued_lq; left; auto).
    pose proof (i_ll _ _ _ I (cl u)) as Hl. unfold lq in Hl. apply links_app in Hl. destruct Hl as [Hl _].
    assert (Hf : In u (filter (inc (cl u)) (GQ g))) by (apply filter_In; split; auto; unfold inc; apply Nat.eqb_refl).
    destruct (links_in _ _ _ _ u Hl Hf) as [p [q [E2 HP]]]. simpl in HP.
    destruct (lastn_in (node s) p (ld g (cl u))) as [X|[w [Hw X]]]; rewrite X in HP; rewrite HP, Elt in E.
    - symmetry in E. eapply (i_nld _ _ _ I); eauto.
    - apply (i_inj _ _ _ I) in E. subst w. apply (HbGQ u0); auto.
      assert (In u0 (filter (inc (cl u)) (GQ g))) by (rewrite E2; apply in_or_app; auto).
      apply filter_In in H. tauto. }
  constructor.
  - unfold s', g'. fc. rewrite lastn_app. auto.
  - intros c. rewrite Hlq. apply (i_lt _ _ _ I).
  - intros c u Hu. unfold g' in Hu. revert Hu. fc. unfold upd. destruct (Nat.eq_dec c c0) as [->|].
    + intros Hu. apply (i_ucl _ _ _ I). rewrite Eb. apply in_or_app; auto.
    + apply (i_ucl _ _ _ I).
  - unfold g'. fc. clear - I HbGQ Hndu. pose proof (i_ndg _ _ _ I) as Hn. induction (GQ g) as [|z l IH]; simpl.
    + clear - Hndu. induction b as [|z l IH]; [constructor|]. simpl in Hndu.
      inversion Hndu; subst. constructor; auto. intro; apply H1; apply in_or_app; auto.
    + inversion Hn; subst. constructor; [|apply IH; auto; intros u Hu X; eapply HbGQ; simpl; eauto].
      intro X. apply in_app_or in X. destruct X; auto. eapply HbGQ; simpl; eauto.
  - intros c. unfold g'. fc. unfold upd. destruct (Nat.eq_dec c c0); [|apply (i_ndu _ _ _ I)].
    clear - Hndu. induction b; simpl in *; auto. inversion Hndu; auto.
  - intros c u. unfold g'. fc. unfold upd. rewrite in_app_iff. destruct (Nat.eq_dec c c0) as [->|Hc].
    + intros Hu [X|X].
      * apply (i_dis _ _ _ I c0 u); auto. rewrite Eb. apply in_or_app; auto.
      * eapply Hnr; eauto.
    + intros Hu [X|X].
      * eapply (i_dis _ _ _ I); eauto.
      * apply Hbc in X. rewrite (i_ucl _ _ _ I _ _ Hu) in X. auto.
  - apply (i_inj _ _ _ I).
  - apply (i_nld _ _ _ I).
  - apply (i_ldi _ _ _ I).
  - apply (i_nz _ _ _ I).
  - apply (i_lz _ _ _ I).
  - apply (i_gd _ _ _ I).
  - apply (i_hmn _ _ _ I).
  - apply (i_hml _ _ _ I).
  - intros u Hu. apply Hqq in Hu. apply (i_wq _ _ _ I); auto.
  - intros u Hu. apply Hqq in Hu. apply (i_pq _ _ _ I); auto.
  - apply (i_wg _ _ _ I).
  - intros c. rewrite Hlq. apply (i_ll _ _ _ I).
  - change (GQ g') with (GQ g ++ b). apply links_app. split.
    + eapply links_mono; [| |apply (i_gl _ _ _ I)]; auto. intros u e Hu [A B].
      unfold GP. change (lp g' u) with (lp g u). rewrite Hlpg by auto.
      rewrite Ht' by (intro; subst u; apply (HbGQ t Htb); auto). split; assumption.
    + change (node s') with (node s). change (gd g') with (gd g). rewrite <- (i_gt _ _ _ I).
      rewrite Hb1 in Hlb |- *. simpl in Hlb |- *. destruct Hlb as [_ Hlb]. split.
      * unfold GP. change (lp g' t) with (lp g t). rewrite (Hbdm _ Hbt). split; [discriminate|].
        intros _. unfold s'. fc. rewrite upd_same. reflexivity.
      * eapply links_mono; [| |exact Hlb]; auto. intros u e Hu E. simpl in E. unfold GP.
        change (lp g' u) with (lp g u). split; auto. intros X. rewrite Hlpb in X; [discriminate| |].
        -- rewrite Hb1. simpl; auto.
        -- intro; subst u. rewrite Hb1 in Hndu. inversion Hndu; subst. apply H1. apply in_or_app; auto.
  - intros c u. unfold g' at 1. fc. unfold upd. destruct (Nat.eq_dec c c0) as [->|Hc]; intros Hu.
    + change (node s' u) with (node s u). rewrite Hbdo.
      * apply (i_bU _ _ _ I c0). rewrite Eb. apply in_or_app; auto.
      * rewrite Elt. intro E. apply (i_inj _ _ _ I) in E. subst u. eapply Hnr; eauto.
    + change (node s' u) with (node s u). rewrite Hbdo; [eapply (i_bU _ _ _ I); eauto|].
      rewrite Elt. intro E. apply (i_inj _ _ _ I) in E. subst u. apply Hc.
      rewrite <- (i_ucl _ _ _ I _ _ Hu). apply Hbc; auto.
  - intros c. change (node s') with (node s). unfold g' at 2 3. fc. rewrite filter_app, lastn_app.
    destruct (Nat.eq_dec c c0) as [->|Hc].
    + replace (filter (inc c0) b) with b; [rewrite Hlast0; unfold g'; fc; apply upd_same|].
      symmetry. apply filter_all. intros u Hu. unfold inc. apply Nat.eqb_eq. auto.
    + replace (filter (inc c) b) with (@nil nat); [simpl; apply Hbdm; apply (i_bl _ _ _ I)|].
      symmetry. apply filter_none. intros u Hu. unfold inc. rewrite Hbc by auto. apply Nat.eqb_neq. auto.
  - intros c n Hi Hb. apply Hil in Hi. destruct (Nat.eq_dec n lt) as [->|Hn].
    + right; right. exists t, (glob s), (GQ g), b1, u0. unfold s'. fc. rewrite upd_same. split; auto.
      unfold g'. fc. rewrite <- Hb1. auto.
    + rewrite Hbdo in Hb by auto. destruct (i_bt _ _ _ I _ _ Hi Hb) as [A|[A|A]]; auto.
      right; right. destruct A as [m [x [X [Y [u [H1 [H2 [H3 H4]]]]]]]]. exists m, x, X, (Y ++ b), u.
      rewrite Ht' by (intro; subst; congruence). split; auto. split.
      * unfold g'. fc. rewrite H2, <- app_assoc. reflexivity.
      * split; auto. rewrite app_comm_cons. apply in_or_app. auto.
  - intros c n Hi Hb. apply Hil in Hi. destruct (Nat.eq_dec n lt) as [->|Hn].
    + unfold g' in Hb. revert Hb. fc. rewrite upd_same. discriminate.
    + rewrite Hbdo in Hb by auto. apply (i_bf _ _ _ I _ _ Hi Hb).
  - intros c n Hi. apply Hil in Hi. apply (i_cid _ _ _ I _ _ Hi).
  - intros u Hu. destruct (i_h _ _ _ I _ Hu) as [A [q B]]. split.
    + rewrite Ht'; auto. intro; subst. rewrite Et in A. discriminate.
    + exists (q ++ b). unfold g'. fc. rewrite B. auto.
  - intros u. destruct (Nat.eq_dec u t) as [->|Hut].
    + unfold PI, s'. fc. rewrite upd_same. change (lp g' t) with (lp g t). split; [unfold g'; fc; apply in_or_app; auto|].
      split; [auto|]. split; auto. exists (GQ g), b1, u0. split; [unfold g'; fc; rewrite Hb1; auto|].
      rewrite <- Hb1. split; auto. split; auto. unfold g'. fc. apply upd_same.
    + pose proof (i_pi _ _ _ I u) as P. unfold PI in *. rewrite Ht' by auto. change (lp g' u) with (lp g u).
      change (node s' u) with (node s u). change (prev s') with (prev s). change (wait s') with (wait s).
      change (splice s') with (splice s). change (cid s') with (cid s). change (hm g') with (hm g).
      assert (HG1 : forall v, In v (GQ g) -> In v (GQ g')) by (intros; unfold g'; fc; apply in_or_app; auto).
      assert (HU1 : forall v, cl u <> c0 -> In v (UQ g (cl u)) -> In v (UQ g' (cl u))).
      { intros v A B. unfold g'. fc. rewrite upd_other; auto. }
      assert (Hhd : In u (UQ g (cl u)) -> bd g (lp g u) = true -> cl u <> c0).
      { intros A B E. destruct (u_head _ _ _ _ I A B) as [r' Er']. rewrite E in Er'. rewrite Er0 in Er'. inversion Er'. congruence. }
      destruct (thr s u); try (rewrite ?Hqq; tauto).
      * destruct P as [A [B C]]. pose proof (Hhd A B). auto.
      * destruct P as [A [B [C [v [D E]]]]]. pose proof (Hhd A B). split; auto. split; auto. split; auto. exists v. auto.
      * destruct P as [A [B [C [X [Y [v [D [D2 [E F]]]]]]]]]. split; auto. split; auto. split; auto.
        exists X, (Y ++ b), v. split; [unfold g'; fc; rewrite D, <- app_assoc; auto|].
        split; auto. rewrite app_comm_cons. apply in_or_app. auto.
      * destruct P as [A [B C]]. auto.
Qed.

(** Taking the lock *)
Lemma Inv_acq : forall s g t q, Inv s None g -> GQ g = t :: q -> prev s (node s t) = Some (lp g t) ->
  (forall n x, thr s t <> L13 n x) -> Inv (goto s t Crit) (Some t) g.
Proof.
  intros s g t q I Eq Hpv H13.
  assert (Ht' : forall u, u <> t -> thr (goto s t Crit) u = thr s u) by (intros; fc; apply upd_other; auto).
  constructor.
  - apply (i_gt _ _ _ I).
  - apply (i_lt _ _ _ I).
  - apply (i_ucl _ _ _ I).
  - apply (i_ndg _ _ _ I).
  - apply (i_ndu _ _ _ I).
  - apply (i_dis _ _ _ I).
  - apply (i_inj _ _ _ I).
  - apply (i_nld _ _ _ I).
  - apply (i_ldi _ _ _ I).
  - apply (i_nz _ _ _ I).
  - apply (i_lz _ _ _ I).
  - apply (i_gd _ _ _ I).
  - apply (i_hmn _ _ _ I).
  - apply (i_hml _ _ _ I).
  - apply (i_wq _ _ _ I).
  - apply (i_pq _ _ _ I).
  - apply (i_wg _ _ _ I).
  - apply (i_ll _ _ _ I).
  - eapply links_mono; [| |apply (i_gl _ _ _ I)]; auto. intros u e _ [A B]. split; auto. intros X.
    destruct (Nat.eq_dec u t) as [->|Hu]; [fc; rewrite upd_same; exact Logic.I|]. rewrite Ht'; auto.
  - apply (i_bU _ _ _ I).
  - apply (i_bl _ _ _ I).
  - intros c n Hi Hb. destruct (i_bt _ _ _ I _ _ Hi Hb) as [A|[A|A]]; auto. right; right.
    destruct A as [m [x [X [Y [u [H1 H2]]]]]]. exists m, x, X, Y, u. rewrite Ht'; auto.
    intro; subst m. apply (H13 _ _ H1).
  - apply (i_bf _ _ _ I).
  - apply (i_cid _ _ _ I).
  - intros u Hu. inversion Hu; subst u. fc. rewrite upd_same. split; eauto.
  - intros u. destruct (Nat.eq_dec u t) as [->|Hu].
    + unfold PI. fc. rewrite upd_same. auto.
    + pose proof (i_pi _ _ _ I u) as P. unfold PI in *. rewrite Ht' by auto.
      destruct (thr s u); try exact P; destruct P as [P _]; discriminate.
Qed.

(** Releasing the lock (hclh.h:138-145) *)
Lemma Inv_rel : forall s g t p, Inv s (Some t) g -> thr s t = U2 p ->
  exists g' q, GQ g = t :: q /\ GQ g' = q /\ (forall c, UQ g' c = UQ g c) /\
    Inv (mk (glob s) (loc s) (upd (wait s) (node s t) false) (splice s) (cid s) (prev s)
            (upd (node s) t p) (upd (thr s) t Idle)) None g'.
Proof.
  intros s g t p I Et. destruct (i_h _ _ _ I t eq_refl) as [_ [q Eq]].
  pose proof (i_pi _ _ _ I t) as P. unfold PI in P. rewrite Et in P. destruct P as [_ [Hpv Hp]].
  set (c0 := cl t).
  assert (Hf0 : filter (inc c0) (GQ g) = t :: filter (inc c0) q).
  { rewrite Eq. simpl. unfold inc at 1, c0 at 1. rewrite Nat.eqb_refl. auto. }
  assert (Hf1 : forall c, c <> c0 -> filter (inc c) (GQ g) = filter (inc c) q).
  { intros c Hc. rewrite Eq. simpl. unfold inc at 1. destruct (Nat.eqb_spec (cl t) c); auto. exfalso; apply Hc; unfold c0; auto. }
  assert (Hp0 : p = ld g c0).
  { pose proof (i_ll _ _ _ I c0) as Hl. unfold lq in Hl. rewrite Hf0 in Hl. simpl in Hl. destruct Hl as [Hl _]. congruence. }
  set (g' := gh q (UQ g) (upd (ld g) c0 (node s t)) (node s t) (lp g) (bd g) (hm g)).
  exists g', q. split; auto. split; auto. split; auto.
  set (s' := mk _ _ _ _ _ _ _ _).
  assert (Htq : ~ In t q) by (pose proof (i_ndg _ _ _ I) as N; rewrite Eq in N; inversion N; auto).
  assert (HtU : forall c, ~ In t (UQ g c)).
  { intros c A. apply (i_dis _ _ _ I _ _ A). rewrite Eq. simpl; auto. }
  assert (Ht' : forall u, u <> t -> thr s' u = thr s u) by (intros; unfold s'; fc; apply upd_other; auto).
  assert (Hn' : forall u, u <> t -> node s' u = node s u) by (intros; unfold s'; fc; apply upd_other; auto).
  assert (Hnt : node s' t = ld g c0) by (unfold s'; fc; rewrite upd_same; auto).
  assert (Hqq : forall u, queued g' u <-> queued g u /\ u <> t).
  { intros u. unfold queued, g'. fc. rewrite Eq. simpl. split.
    - intros [A|A]; split; auto; intro; subst; auto. eapply HtU; eauto.
    - intros [[[A|A]|A] B]; auto. congruence. }
  assert (Hlq0 : lq g c0 = t :: lq g' c0) by (unfold lq, g'; fc; rewrite Hf0; auto).
  assert (Hlq1 : forall c, c <> c0 -> lq g' c = lq g c) by (intros; unfold lq, g'; fc; rewrite Hf1; auto).
  assert (Hlqt : forall c, ~ In t (lq g' c)).
  { intros c A. unfold lq, g' in A. revert A. fc. rewrite in_app_iff. intros [A|A]; [|eapply HtU; eauto].
    apply filter_In in A. tauto. }
  assert (Hlast : forall c d, lastn (node s') d (lq g' c) = lastn (node s) d (lq g' c)).
  { intros. apply lastn_ext. intros u Hu. apply Hn'. intro; subst; eapply Hlqt; eauto. }
  assert (Hlastq : forall d, lastn (node s') d q = lastn (node s) d q).
  { intros. apply lastn_ext. intros u Hu. apply Hn'. intro; subst; auto. }
  assert (Hil : forall c n, inlc s' g' c n -> inlc s g c n).
  { intros c n [E|[u [Hu E]]].
    - unfold g' in E. revert E. fc. unfold upd. destruct (Nat.eq_dec c c0) as [->|]; intros ->; [|apply inlc_ld].
      right. exists t. split; auto. rewrite Hlq0. simpl; auto.
    - right. exists u. rewrite <- Hn' by (intro; subst; eapply Hlqt; eauto). split; auto.
      destruct (Nat.eq_dec c c0) as [->|Hc]; [rewrite Hlq0; simpl; auto|rewrite Hlq1 in Hu; auto]. }
  assert (Hwo : forall u, u <> t -> wait s' (node s u) = wait s (node s u)).
  { intros u Hu. unfold s'. fc. apply upd_other. intro E. apply (i_inj _ _ _ I) in E. auto. }
  constructor.
  - change (glob s') with (glob s). rewrite (i_gt _ _ _ I), Eq. simpl. symmetry. apply Hlastq.
  - intros c. change (loc s' c) with (loc s c). rewrite Hlast, (i_lt _ _ _ I). unfold g' at 1. fc. unfold upd.
    destruct (Nat.eq_dec c c0) as [->|Hc]; [rewrite Hlq0; auto|rewrite Hlq1; auto].
  - apply (i_ucl _ _ _ I).
  - pose proof (i_ndg _ _ _ I) as N; rewrite Eq in N; inversion N; auto.
  - apply (i_ndu _ _ _ I).
  - intros c u Hu A. apply (i_dis _ _ _ I _ _ Hu). rewrite Eq. simpl; auto.
  - intros u v. destruct (Nat.eq_dec u t) as [->|Hu], (Nat.eq_dec v t) as [->|Hv]; auto;
      rewrite ?Hnt, ?Hn' by auto; intros E; [|symmetry in E|].
    + symmetry in E. apply (i_nld _ _ _ I) in E. tauto.
    + symmetry in E. apply (i_nld _ _ _ I) in E. tauto.
    + apply (i_inj _ _ _ I); auto.
  - intros u c. unfold g'. fc. unfold upd. destruct (Nat.eq_dec c c0) as [->|Hc]; destruct (Nat.eq_dec u t) as [->|Hu];
      rewrite ?Hnt, ?Hn' by auto; intros E.
    + symmetry in E. eapply (i_nld _ _ _ I); eauto.
    + apply (i_inj _ _ _ I) in E. auto.
    + apply (i_ldi _ _ _ I) in E. auto.
    + eapply (i_nld _ _ _ I); eauto.
  - intros c c'. unfold g'. fc. unfold upd. destruct (Nat.eq_dec c c0) as [->|Hc], (Nat.eq_dec c' c0) as [->|Hc']; auto; intros E.
    + apply (i_nld _ _ _ I) in E. tauto.
    + symmetry in E. apply (i_nld _ _ _ I) in E. tauto.
    + apply (i_ldi _ _ _ I); auto.
  - intros u. destruct (Nat.eq_dec u t) as [->|Hu]; [rewrite Hnt; apply (i_lz _ _ _ I)|rewrite Hn' by auto; apply (i_nz _ _ _ I)].
  - intros c. unfold g'. fc. unfold upd. destruct (Nat.eq_dec c c0); [apply (i_nz _ _ _ I)|apply (i_lz _ _ _ I)].
  - right. exists c0. unfold g'. fc. rewrite upd_same. auto.
  - intros u. change (hm g') with (hm g).
    destruct (Nat.eq_dec u t) as [->|Hu]; [rewrite Hnt; apply (i_hml _ _ _ I)|rewrite Hn' by auto; apply (i_hmn _ _ _ I)].
  - intros c. unfold g'. fc. unfold upd. destruct (Nat.eq_dec c c0) as [->|]; [apply (i_hmn _ _ _ I)|apply (i_hml _ _ _ I)].
  - intros u Hu. apply Hqq in Hu. destruct Hu as [Hu Hut]. rewrite Hn', Hwo by auto. apply (i_wq _ _ _ I); auto.
  - intros u Hu. apply Hqq in Hu. destruct Hu as [Hu Hut]. rewrite Hn' by auto. apply (i_pq _ _ _ I); auto.
  - unfold s', g'. fc. apply upd_same.
  - intros c. apply (links_mono (node s) (node s') (fun t0 d => lp g t0 = d)); auto.
    + intros u Hu. apply Hn'. intro; subst; eapply Hlqt; eauto.
    + unfold g' at 1. fc. unfold upd. destruct (Nat.eq_dec c c0) as [->|Hc].
      * pose proof (i_ll _ _ _ I c0) as Hl. rewrite Hlq0 in Hl. simpl in Hl. tauto.
      * rewrite Hlq1 by auto. apply (i_ll _ _ _ I).
  - apply (links_mono (node s) (node s') (GP s g)).
    + intros u Hu. apply Hn'. intro; subst; auto.
    + intros u e Hu [A B]. unfold GP. rewrite Ht' by (intro; subst; auto). auto.
    + pose proof (i_gl _ _ _ I) as Hl. rewrite Eq in Hl. simpl in Hl. tauto.
  - intros c u Hu. rewrite Hn' by (intro; subst; eapply HtU; eauto). apply (i_bU _ _ _ I c u Hu).
  - intros c. change (bd g') with (bd g). change (GQ g') with q.
    rewrite (lastn_ext (node s)) by (intros u Hu; apply Hn'; intro; subst; apply filter_In in Hu; tauto).
    unfold g'. fc. unfold upd. pose proof (i_bl _ _ _ I c) as Hb. destruct (Nat.eq_dec c c0) as [->|Hc].
    + rewrite Hf0 in Hb. auto.
    + rewrite Hf1 in Hb; auto.
  - intros c n Hi Hb. apply Hil in Hi. destruct (i_bt _ _ _ I _ _ Hi Hb) as [A|[A|A]]; auto. right; right.
    destruct A as [m [x [X [Y [u [H1 [H2 [H3 H4]]]]]]]].
    assert (Hmt : m <> t) by (intro; subst; congruence).
    destruct X as [|z X]; [simpl in H2; rewrite Eq in H2; inversion H2; congruence|].
    rewrite Eq in H2. simpl in H2. inversion H2; subst z.
    exists m, x, X, Y, u. rewrite Ht' by auto. split; auto. split; auto. split; auto.
    rewrite Hn'; auto. intro; subst u. apply Htq. rewrite H5. apply in_or_app; auto.
  - intros c n Hi Hb. apply Hil in Hi. apply (i_bf _ _ _ I _ _ Hi Hb).
  - intros c n Hi. apply Hil in Hi. apply (i_cid _ _ _ I _ _ Hi).
  - discriminate.
  - intros u. destruct (Nat.eq_dec u t) as [->|Hut].
    + unfold PI, s'. fc. rewrite upd_same. rewrite Hqq. tauto.
    + pose proof (i_pi _ _ _ I u) as P. unfold PI in *. rewrite Ht', Hn' by auto. change (lp g' u) with (lp g u).
      rewrite Hwo by auto.
      change (prev s') with (prev s). change (splice s') with (splice s). change (cid s') with (cid s). change (hm g') with (hm g).
      assert (Hq1 : queued g u -> queued g' u) by (intros; apply Hqq; auto).
      assert (Hq2 : ~ queued g u -> ~ queued g' u) by (intros A B; apply Hqq in B; tauto).
      assert (HG1 : In u (GQ g) -> In u q) by (rewrite Eq; intros [A|A]; auto; congruence).
      assert (HW : forall n, wait s n = false -> wait s' n = false).
      { intros n A. unfold s'. fc. unfold upd. destruct (Nat.eq_dec n (node s t)); auto. }
      change (UQ g') with (UQ g). change (bd g') with (bd g).
      destruct (thr s u); try tauto.
      * destruct P as [A [B [C [D E]]]]. repeat (split; auto). destruct E; auto.
      * destruct P as [A [B [C [D E]]]]. repeat (split; auto). destruct E; auto.
      * destruct P as [A [B [C [v [D E]]]]]. repeat (split; auto). exists v. rewrite Hn'; auto.
        intro; subst; eapply HtU; eauto.
      * destruct P as [A [B [C [X [Y [v [D [D2 [E F]]]]]]]]]. repeat (split; auto).
        destruct X as [|z X]; [simpl in D; rewrite Eq in D; inversion D; congruence|].
        rewrite Eq in D. simpl in D. inversion D; subst z. exists X, Y, v. split; auto. split; auto. split; auto.
        rewrite Hn'; auto. intro; subst v. apply Htq. rewrite H1. apply in_or_app; auto.
      * destruct P as [P _]. inversion P. congruence.
      * destruct P as [P _]. inversion P. congruence.
      * destruct P as [P _]. inversion P. congruence.
Qed.

(** * Every step *)

Lemma Inv_init : Inv init None
  (gh [] (fun _ => []) (fun c => 2 * c + 1) 0 (fun _ => 0) (fun _ => true)
      (fun n => if Nat.even n then cl (Nat.div2 n - 1) else Nat.div2 n)).
Proof.
  assert (Hd : forall c, Nat.div2 (2 * c + 1) = c).
  { intros. rewrite Nat.add_1_r. apply Nat.div2_succ_double. }
  constructor; unfold inlc, lq, queued, pend; fc; simpl GQ; simpl UQ; try (simpl; tauto); try (intros; constructor; fail).
  - intros t u. simpl. lia.
  - intros t c. simpl. lia.
  - intros t u. simpl. lia.
  - intros. simpl. lia.
  - intros. lia.
  - intros t. change (node init t) with (2 * t + 2). replace (2 * t + 2) with (2 * (t + 1)) by lia.
    rewrite Nat.even_mul. change (Nat.even 2 || Nat.even (t + 1)) with true.
    rewrite Nat.div2_double. replace (t + 1 - 1) with t by lia. auto.
  - intros c. rewrite Hd. replace (Nat.even (2 * c + 1)) with false; auto.
    rewrite Nat.even_add, Nat.even_mul. auto.
  - intros c n _ X. discriminate.
  - intros c n [->|[t [[] _]]]. apply Hd.
  - intros t H. discriminate.
  - intros t. unfold PI. simpl. unfold queued. simpl. tauto.
Qed.

Lemma queued_u : forall s h g t, Inv s h g -> queued g t -> bd g (lp g t) = true ->
  (forall d, ~ gpc (thr s t) d) -> In t (UQ g (cl t)).
Proof.
  intros s h g t I [H|H] Hb Hg; auto. destruct (gq_split _ _ _ _ I H) as [p [r [_ [_ B]]]].
  apply B in Hb. apply Hg in Hb. tauto.
Qed.

Lemma bd_false_u : forall s h g t, Inv s h g -> In t (UQ g (cl t)) -> bd g (lp g t) = false -> wait s (lp g t) = true.
Proof.
  intros s h g t I Hin Hb. pose proof (i_ll _ _ _ I (cl t)) as Hl. unfold lq in Hl. apply links_app in Hl.
  destruct Hl as [_ Hl]. destruct (links_in _ _ _ _ t Hl Hin) as [p [r [E HP]]]. simpl in HP.
  destruct p as [|v p].
  - simpl in HP. rewrite HP in Hb. rewrite (i_bl _ _ _ I) in Hb. discriminate.
  - destruct (lastn_cons (node s) v p (lastn (node s) (ld g (cl t)) (filter (inc (cl t)) (GQ g)))) as [u [Hu Eu]].
    rewrite HP, Eu. apply (i_wq _ _ _ I). right.
    assert (Hu2 : In u (UQ g (cl t))) by (rewrite E; apply in_or_app; auto).
    rewrite (i_ucl _ _ _ I _ _ Hu2). auto.
Qed.

Lemma pend_wait : forall s h g n, Inv s h g -> pend s g n -> wait s n = true.
Proof.
  intros s h g n I [m [x [X [Y [u [H1 [H2 [H3 ->]]]]]]]]. apply (i_wq _ _ _ I). left. rewrite H2. apply in_or_app; auto.
Qed.

(** A thread that sees its predecessor done and not spliced is at the front. *)
Lemma acq_local : forall s h g t p, Inv s h g -> thr s t = L9b p -> splice s p = false ->
  h = None /\ exists q, GQ g = t :: q.
Proof.
  intros s h g t p I Et Hsp. pose proof (i_pi _ _ _ I t) as P. unfold PI in P. rewrite Et in P.
  destruct P as [Hq [Hlp [_ [Hpn [Hw|Hx]]]]]; [|congruence].
  pose proof (lp_inlc _ _ _ _ I Hq) as Hi.
  destruct (bd g p) eqn:Hb.
  - exfalso. rewrite Hlp in Hi. destruct (i_bt _ _ _ I _ _ Hi Hb) as [A|[A|A]]; try congruence.
    apply (pend_wait _ _ _ _ I) in A. congruence.
  - destruct Hq as [Hq|Hq].
    + destruct (gq_split _ _ _ _ I Hq) as [pre [r [E [A _]]]]. rewrite Hlp in A. specialize (A Hb).
      destruct (front _ _ _ _ p _ _ I E A Hw) as [-> _]. simpl in E. split; [|eauto].
      destruct h as [u|]; auto. destruct (i_h _ _ _ I u eq_refl) as [B [q Eq]]. rewrite E in Eq. inversion Eq; subst u.
      rewrite Et in B. discriminate.
    + rewrite <- Hlp in Hb, Hw. rewrite (bd_false_u _ _ _ _ I Hq Hb) in Hw. discriminate.
Qed.

Lemma acq_global : forall s h g t x, Inv s h g -> thr s t = L14 x -> wait s x = false ->
  h = None /\ exists q, GQ g = t :: q.
Proof.
  intros s h g t x I Et Hw. pose proof (i_pi _ _ _ I t) as P. unfold PI in P. rewrite Et in P.
  destruct P as [Hq [Hb Hpv]]. destruct (gq_split _ _ _ _ I Hq) as [pre [r [E [_ B]]]]. specialize (B Hb).
  rewrite Et in B. simpl in B.
  destruct (front _ _ _ _ x _ _ I E B Hw) as [-> _]. simpl in E. split; [|eauto].
  destruct h as [u|]; auto. destruct (i_h _ _ _ I u eq_refl) as [C [q Eq]]. rewrite E in Eq. inversion Eq; subst u.
  rewrite Et in C. discriminate.
Qed.

Definition Rg (s : state) (h : option nat) (q : list nat) (u : nat -> list nat) : Prop := R s h q u.

Lemma R_same : forall s h g, Inv s h g -> R s h (GQ g) (UQ g).
Proof. intros s h g I. exists g. auto. Qed.

Lemma gstep_ext : forall s h q u ev h' q' u' u2, gstep h q u ev h' q' u' -> (forall c, u2 c = u' c) ->
  R s h' q' u2 -> R s h' q' u'.
Proof. intros s h q u ev h' q' u' u2 H E [g [I [A B]]]. exists g. split; auto. split; auto. intros. rewrite B; auto. Qed.

Lemma Inv_step : forall s h g l s' ev, Inv s h g -> step cl s l = Some (s', ev) ->
  exists h' q' u', gstep h (GQ g) (UQ g) ev h' q' u' /\ R s' h' q' u'.
Proof.
  intros s h g [t a] s' ev I H.
  pose proof (i_pi _ _ _ I t) as P.
  assert (Hkeep : Inv s' h g -> ev = [] -> exists h' q' u', gstep h (GQ g) (UQ g) ev h' q' u' /\ R s' h' q' u').
  { intros I' ->. exists h, (GQ g), (UQ g). split; [constructor|apply R_same; auto]. }
  assert (Hmis : forall p, queued g t -> lp g t = p -> Nat.eqb (cid s p) (cid s (node s t)) = true).
  { intros p Hq Hlp. apply Nat.eqb_eq. rewrite (i_cid _ _ _ I (cl t) (node s t)) by (eapply inlc_node; eauto).
    apply (i_cid _ _ _ I). rewrite <- Hlp. eapply lp_inlc; eauto. }
  unfold step in H. unfold PI in P.
  destruct (thr s t) eqn:Et; destruct a; try discriminate.
  - (* Idle *) injection H as <- <-. apply Hkeep; auto. apply Inv_goto; rewrite ?Et; auto; try discriminate.
    unfold PI. fc. rewrite upd_same. auto.
  - (* L1 *) injection H as <- <-. apply Hkeep; auto. apply (Inv_keep s h g t); fc; rewrite ?upd_same, ?Et; auto; try discriminate.
    + intros; apply upd_other; auto.
    + intros n. destruct (Nat.eq_dec n (node s t)); auto. rewrite upd_other by auto. auto.
    + unfold PI. fc. rewrite !upd_same. auto.
  - (* L2 *) injection H as <- <-. apply Hkeep; auto. apply (Inv_keep s h g t); fc; rewrite ?upd_same, ?Et; auto; try discriminate.
    + intros; apply upd_other; auto.
    + intros n. destruct (Nat.eq_dec n (node s t)); [left; tauto|]. rewrite upd_other by auto. auto.
    + unfold PI. fc. rewrite !upd_same. tauto.
  - (* L3 *) injection H as <- <-. apply Hkeep; auto. apply Inv_goto; rewrite ?Et; auto; try discriminate.
    unfold PI. fc. rewrite upd_same. destruct P as [A [B C]]. repeat (split; auto);
    rewrite (i_lt _ _ _ I); destruct (lastn_in (node s) (lq g (cl t)) (ld g (cl t))) as [->|[u [Hu ->]]].
    + apply (i_hml _ _ _ I).
    + rewrite (i_hmn _ _ _ I). eapply lq_queued; eauto.
    + apply (i_cid _ _ _ I). apply inlc_ld.
    + apply (i_cid _ _ _ I). right. eauto.
  - (* L3b *) injection H as <- <-. apply Hkeep; auto. apply Inv_goto; rewrite ?Et; auto; try discriminate.
    unfold PI. fc. rewrite upd_same. tauto.
  - (* L3c *) injection H as <- <-. apply Hkeep; auto. apply (Inv_keep s h g t); fc; rewrite ?upd_same, ?Et; auto; try discriminate.
    + intros; apply upd_other; auto.
    + intros n. destruct (Nat.eq_dec n (node s t)); [|rewrite upd_other by auto; auto].
      subst n. right. rewrite upd_same, (i_hmn _ _ _ I). tauto.
    + unfold PI. fc. rewrite !upd_same. tauto.
  - (* L4 *) injection H as <- <-. apply Hkeep; auto. apply Inv_goto; rewrite ?Et; auto; try discriminate.
    unfold PI. fc. rewrite upd_same. tauto.
  - (* L4b *) injection H as <- <-. apply Hkeep; auto. apply (Inv_keep s h g t); fc; rewrite ?upd_same, ?Et; auto; try discriminate.
    + intros; apply upd_other; auto.
    + intros n. destruct (Nat.eq_dec n (node s t)); auto. rewrite upd_other by auto. auto.
    + intros n. destruct (Nat.eq_dec n (node s t)); [|rewrite upd_other by auto; auto]. subst. rewrite upd_same. right. discriminate.
    + unfold PI. fc. rewrite !upd_same. destruct P as [A [B [C D]]]. repeat (split; auto). discriminate.
  - (* L5 *) injection H as <- <-. destruct (Inv_req _ _ _ _ I Et) as [g' [A [B I']]].
    exists h, (GQ g), (upd (UQ g) (cl t) (UQ g (cl t) ++ [t])). split; [constructor|]. exists g'. auto.
  - (* L6 *) injection H as <- <-. apply Hkeep; auto. apply (Inv_keep s h g t); fc; rewrite ?upd_same, ?Et; auto; try discriminate.
    + intros; apply upd_other; auto.
    + intros n. destruct (Nat.eq_dec n (node s t)); auto. rewrite upd_other by auto. auto.
    + intros n. destruct (Nat.eq_dec n (node s t)); [|rewrite upd_other by auto; auto]. subst. rewrite upd_same. right. discriminate.
    + unfold PI. fc. rewrite !upd_same. destruct P as [A ->]. auto.
  - (* L7 *) destruct P as [Hq [Hlp Hpv]].
    destruct (prev s p) eqn:Ep; injection H as <- <-; apply Hkeep; auto; apply Inv_goto; rewrite ?Et; auto; try discriminate;
      unfold PI; fc; rewrite upd_same.
    + repeat (split; auto). congruence.
    + assert (Hb : bd g (lp g t) = true).
      { destruct (bd g (lp g t)) eqn:Hb; auto. destruct (i_bf _ _ _ I _ _ (lp_inlc _ _ _ _ I Hq) Hb) as [_ X]. congruence. }
      split; auto. apply (queued_u _ _ _ _ I Hq Hb). rewrite Et. simpl. auto.
  - (* L8a *) destruct P as [Hq [Hlp [Hpv Hpn]]].
    destruct (wait s p) eqn:Ew; injection H as <- <-; apply Hkeep; auto; apply Inv_goto; rewrite ?Et; auto; try discriminate;
      unfold PI; fc; rewrite upd_same; repeat (split; auto).
  - (* L8b *) destruct P as [Hq [Hlp [Hpv Hpn]]]. rewrite (Hmis p Hq Hlp) in H.
    injection H as <- <-; apply Hkeep; auto; apply Inv_goto; rewrite ?Et; auto; try discriminate;
      unfold PI; fc; rewrite upd_same; repeat (split; auto).
  - (* L8c *) destruct P as [Hq [Hlp [Hpv Hpn]]].
    destruct (splice s p) eqn:Ew; injection H as <- <-; apply Hkeep; auto; apply Inv_goto; rewrite ?Et; auto; try discriminate;
      unfold PI; fc; rewrite upd_same; repeat (split; auto).
  - (* L9a *) destruct P as [Hq [Hlp [Hpv Hpn]]]. rewrite (Hmis p Hq Hlp) in H.
    injection H as <- <-; apply Hkeep; auto; apply Inv_goto; rewrite ?Et; auto; try discriminate;
      unfold PI; fc; rewrite upd_same; repeat (split; auto); tauto.
  - (* L9b *) destruct (splice s p) eqn:Ew; injection H as <- <-.
    + destruct P as [Hq [Hlp [Hpv Hpn]]].
      assert (Hb : bd g (lp g t) = true).
      { destruct (bd g (lp g t)) eqn:Hb; auto. destruct (i_bf _ _ _ I _ _ (lp_inlc _ _ _ _ I Hq) Hb) as [X _]. congruence. }
      apply Hkeep; auto. apply Inv_goto; rewrite ?Et; auto; try discriminate. unfold PI. fc. rewrite upd_same.
      split; auto. apply (queued_u _ _ _ _ I Hq Hb). rewrite Et. simpl. auto.
    + destruct (acq_local _ _ _ _ _ I Et Ew) as [-> [q Eq]].
      exists (Some t), (GQ g), (UQ g). rewrite Eq at 1 2. split; [constructor|]. exists g. split; auto.
      eapply Inv_acq; eauto; [tauto|rewrite Et; discriminate].
  - (* L11 *) injection H as <- <-. apply Hkeep; auto. apply Inv_goto; rewrite ?Et; auto; try discriminate.
    unfold PI. fc. rewrite upd_same. destruct P as [A [B C]]. repeat (split; auto).
    destruct (u_head _ _ _ _ I A B) as [r Er].
    rewrite (i_lt _ _ _ I). unfold lq. rewrite lastn_app. rewrite Er.
    destruct (lastn_cons (node s) t r (lastn (node s) (ld g (cl t)) (filter (inc (cl t)) (GQ g)))) as [u [Hu Eu]].
    exists u. split; auto.
  - (* L12 *) injection H as <- <-. destruct (Inv_splice _ _ _ _ _ I Et) as [g' [b [r [A [B [C [D I']]]]]]].
    exists h, (GQ g ++ b), (upd (UQ g) (cl t) r). split; [econstructor; eauto|]. exists g'. auto.
  - (* L13 *) injection H as <- <-. destruct P as [A [B [C [X [Y [u [D [D2 [E F]]]]]]]]].
    assert (Hu : queued g u) by (left; rewrite D; apply in_or_app; auto).
    apply Hkeep; auto. apply (Inv_keep s h g t); fc; rewrite ?upd_same, ?Et; auto.
    + intros; apply upd_other; auto.
    + intros n. destruct (Nat.eq_dec n lt); [|rewrite upd_other by auto; auto].
      subst n. right; right. rewrite upd_same. split; auto. split; auto. exists u. auto.
    + intros n x Hn. inversion Hn; subst. rewrite upd_same. auto.
    + unfold PI. fc. rewrite !upd_same. auto.
  - (* L14 *) destruct (wait s g0) eqn:Ew; injection H as <- <-.
    + apply Hkeep; auto. apply Inv_goto; rewrite ?Et; auto; try discriminate. unfold PI. fc. rewrite upd_same. auto.
    + destruct (acq_global _ _ _ _ _ I Et Ew) as [-> [q Eq]].
      exists (Some t), (GQ g), (UQ g). rewrite Eq at 1 2. split; [constructor|]. exists g. split; auto.
      eapply Inv_acq; eauto; [tauto|rewrite Et; discriminate].
  - (* Crit *) injection H as <- <-. apply Hkeep; auto. apply Inv_goto; rewrite ?Et; auto; try discriminate.
    unfold PI. fc. rewrite upd_same. auto.
  - (* U1 *) destruct P as [A B]. rewrite B in H. injection H as <- <-. apply Hkeep; auto. apply Inv_goto; rewrite ?Et; auto; try discriminate.
    unfold PI. fc. rewrite upd_same. auto.
  - (* U2 *) injection H as <- <-. destruct P as [A [B C]]. subst h.
    destruct (Inv_rel _ _ _ _ I Et) as [g' [q [D [E [F I']]]]].
    exists None, q, (UQ g). rewrite D. split; [constructor|]. exists g'. auto.
Qed.

Lemma R_step : forall s h q u l s' ev, R s h q u -> step cl s l = Some (s', ev) ->
  exists h' q' u', gstep h q u ev h' q' u' /\ R s' h' q' u'.
Proof.
  intros s h q u l s' ev [g [I [Eq Eu]]] H. subst q.
  destruct (Inv_step _ _ _ _ _ _ I H) as [h' [q' [u' [G [g' [I' [Eq' Eu']]]]]]].
  inversion G; subst.
  - eexists _, _, u. split; [apply gs_tau|]. exists g'. split; auto. split; auto. intros c. rewrite Eu'; auto.
  - eexists _, _, (upd u (cl t) r). split.
    + apply gs_splice with (b := b); auto. rewrite <- Eu. auto.
    + exists g'. split; auto. split; auto. intros c. rewrite Eu'. unfold upd. destruct (Nat.eq_dec c (cl t)); auto.
  - eexists _, _, (upd u (cl t) (u (cl t) ++ [t])). split.
    + apply gs_req.
    + exists g'. split; auto. split; auto. intros c. rewrite Eu'. unfold upd. rewrite Eu. destruct (Nat.eq_dec c (cl t)); auto.
  - eexists _, _, u. split; [apply gs_acq|]. exists g'. split; auto. split; auto. intros c. rewrite Eu'; auto.
  - eexists _, _, u. split; [apply gs_rel|]. exists g'. split; auto. split; auto. intros c. rewrite Eu'; auto.
Qed.

Lemma R_init : R init None [] (fun _ => []).
Proof. eexists. split; [apply Inv_init|]. auto. Qed.

(** * Refinement of the specification *)

Definition wq (h : option nat) (q : list nat) : list nat := match h with Some _ => tl q | None => q end.

Definition Rh (s : state) (a : hier) : Prop :=
  exists q u, R s (h_holder a) q u /\ forall c, h_queue a c = filter (inc c) (wq (h_holder a) q) ++ u c.

Lemma Rh_init : Rh init hier_init.
Proof. exists [], (fun _ => []). split; [apply R_init|]. auto. Qed.

Lemma R_cl : forall s h q u c t, R s h q u -> In t (u c) -> cl t = c.
Proof. intros s h q u c t [g [I [_ E]]] H. rewrite <- E in H. eapply (i_ucl _ _ _ I); eauto. Qed.

Lemma R_hq : forall s t q u, R s (Some t) q u -> exists r, q = t :: r.
Proof. intros s t q u [g [I [<- _]]]. destruct (i_h _ _ _ I t eq_refl). auto. Qed.

Lemma Rh_step : forall s a l s' ev, Rh s a -> step cl s l = Some (s', ev) ->
  exists a', accepts (hier_step cl) a ev = Some a' /\ Rh s' a'.
Proof.
  intros s a l s' ev [q [u [HR Hq]]] H.
  destruct (R_step _ _ _ _ _ _ _ HR H) as [h' [q' [u' [G HR']]]].
  inversion G; subst.
  - exists a. split; auto. exists q', u'. auto.
  - match goal with X : u (cl t) = b ++ r |- _ => rename X into H3 end.
    exists a. split; auto. exists (q ++ b), (upd u (cl t) r). split; auto. intros c. rewrite Hq.
    assert (Hbt : forall x, In x b -> cl x = cl t).
    { intros x Hx. eapply R_cl; [exact HR|]. rewrite H3. apply in_or_app; auto. }
    assert (Hw : wq (h_holder a) (q ++ b) = wq (h_holder a) q ++ b).
    { destruct (h_holder a) as [x|] eqn:Ea; auto. destruct (R_hq _ _ _ _ HR) as [q0 ->]. auto. }
    rewrite Hw, filter_app. unfold upd. destruct (Nat.eq_dec c (cl t)) as [->|Hc].
    + rewrite H3, <- app_assoc. f_equal. rewrite filter_all; auto. intros x Hx. unfold inc. rewrite Hbt; auto. apply Nat.eqb_refl.
    + rewrite (filter_none _ b), app_nil_r; auto. intros x Hx. unfold inc. rewrite Hbt by auto. apply Nat.eqb_neq. auto.
  - exists {| h_holder := h_holder a; h_queue := upd (h_queue a) (cl t) (h_queue a (cl t) ++ [t]) |}. split; auto.
    exists q', (upd u (cl t) (u (cl t) ++ [t])). split; auto. intros c. simpl. unfold upd. rewrite !Hq.
    destruct (Nat.eq_dec c (cl t)); auto. subst. rewrite app_assoc. auto.
  - (* acquire *)
    match goal with X : None = h_holder a |- _ => rename X into H1 end.
    pose proof (Hq (cl t)) as Hqt. rewrite <- H1 in Hqt. simpl in Hqt. unfold inc at 1 in Hqt. rewrite Nat.eqb_refl in Hqt. simpl in Hqt.
    eexists. split.
    + simpl. rewrite <- H1, Hqt, Nat.eqb_refl. reflexivity.
    + exists (t :: q0), u'. simpl. split; auto. intros c. unfold upd. destruct (Nat.eq_dec c (cl t)); subst; auto.
      rewrite Hq, <- H1. simpl. unfold inc at 1. destruct (Nat.eqb_spec (cl t) c); congruence.
  - (* release *)
    match goal with X : Some t = h_holder a |- _ => rename X into H1 end.
    eexists. split.
    + simpl. rewrite <- H1, Nat.eqb_refl. reflexivity.
    + exists q', u'. simpl. split; auto. intros c. rewrite Hq, <- H1. auto.
Qed.

Lemma hclh_refines : forall ls s log, run (step cl) init ls = Some (s, log) -> hier_legal cl log.
Proof.
  intros ls s log H. destruct (sim_run _ _ _ _ (step cl) (hier_step cl) Rh Rh_step _ _ _ _ _ Rh_init H) as [a [Ha _]].
  exists a. auto.
Qed.

Lemma hier_mutex : forall log a0 a h, accepts (hier_step cl) a0 log = Some a -> h = h_holder a0 ->
  accepts lock_step h (flat_map fev_lock log) = Some (h_holder a).
Proof.
  induction log as [|e log IH]; intros a0 a h H E; simpl in *; [inversion H; subst; auto|].
  destruct (hier_step cl a0 e) as [a1|] eqn:Es; [|discriminate].
  destruct e; simpl in Es; try discriminate; simpl.
  - inversion Es; subst a1. apply (IH _ _ _ H); auto.
  - subst h. destruct (h_holder a0); try discriminate. destruct (h_queue a0 (cl t)) as [|v w]; try discriminate.
    destruct (Nat.eqb t v); inversion Es; subst a1. apply (IH _ _ _ H); auto.
  - subst h. destruct (h_holder a0); try discriminate. destruct (Nat.eqb t n); inversion Es; subst a1. apply (IH _ _ _ H); auto.
Qed.

Lemma hclh_mutex : forall ls s log, run (step cl) init ls = Some (s, log) -> lock_legal (flat_map fev_lock log).
Proof.
  intros ls s log H. destruct (hclh_refines _ _ _ H) as [a Ha]. exists (h_holder a). eapply hier_mutex; eauto.
Qed.

Lemma hclh_reach : forall s, reachable (step cl) init s -> exists h q u, R s h q u.
Proof.
  intros s [ls [log H]]. destruct (sim_run _ _ _ _ (step cl) (hier_step cl) Rh Rh_step _ _ _ _ _ Rh_init H) as [a [_ [q [u [HR _]]]]].
  eauto.
Qed.

(** * Progress *)

Lemma gstep_tau : forall h q u h' q' u', gstep h q u [] h' q' u' ->
  h' = h /\ exists b, q' = q ++ b.
Proof. intros. inversion H; subst; split; auto; [exists []; rewrite app_nil_r; auto|eauto]. Qed.

(** The holder can release. *)
Lemma free_ : forall s h q u, R s (Some h) (h :: q) u ->
  exists ls s1 log b u1, run (step cl) s ls = Some (s1, log) /\ R s1 None (q ++ b) u1.
Proof.
  intros s h q u HR.
  assert (Hend : forall s p q u, R s (Some h) (h :: q) u -> thr s h = U2 p ->
     exists ls s1 log b u1, run (step cl) s ls = Some (s1, log) /\ R s1 None (q ++ b) u1).
  { intros s0 p q0 u0 H0 E. edestruct (step cl s0 (h, ATick)) as [[s1 ev]|] eqn:Es; [|simpl in Es; rewrite E in Es; discriminate].
    destruct (R_step _ _ _ _ _ _ _ H0 Es) as [h' [q' [u' [G HR']]]].
    simpl in Es; rewrite E in Es. injection Es as Es1 <-. inversion G; subst.
    eexists [(h, ATick)], _, _, [], u'. split; [eapply run_last; simpl; rewrite E; reflexivity|]. rewrite app_nil_r. auto. }
  assert (Hmid : forall s q u, R s (Some h) (h :: q) u -> thr s h = U1 ->
     exists ls s1 log b u1, run (step cl) s ls = Some (s1, log) /\ R s1 None (q ++ b) u1).
  { intros s0 q0 u0 H0 E.
    assert (Es : exists p, step cl s0 (h, ATick) = Some (goto s0 h (U2 p), [])).
    { destruct H0 as [g [I _]]. pose proof (i_pi _ _ _ I h) as P. unfold PI in P. rewrite E in P. destruct P as [_ P].
      simpl. rewrite E, P. eauto. }
    destruct Es as [p Es].
    destruct (R_step _ _ _ _ _ _ _ H0 Es) as [h' [q' [u' [G HR']]]].
    apply gstep_tau in G. destruct G as [-> [b ->]]. simpl in HR'.
    destruct (Hend _ p _ _ HR') as [ls [s1 [log [b2 [u1 [Hr HR2]]]]]]; [simpl; apply upd_same|].
    exists ((h, ATick) :: ls), s1, log, (b ++ b2), u1. split; [eapply run1; eauto|]. rewrite app_assoc. auto. }
  assert (Hpc : thr s h = Crit \/ thr s h = U1 \/ exists p, thr s h = U2 p).
  { destruct HR as [g [I _]]. destruct (i_h _ _ _ I h eq_refl) as [A _]. destruct (thr s h); try discriminate; eauto. }
  destruct Hpc as [E|[E|[p E]]]; eauto.
  assert (Es : step cl s (h, AUnlock) = Some (goto s h U1, [])) by (simpl; rewrite E; auto).
  destruct (R_step _ _ _ _ _ _ _ HR Es) as [h' [q' [u' [G HR']]]].
  apply gstep_tau in G. destruct G as [-> [b ->]]. simpl in HR'.
  destruct (Hmid _ _ _ HR') as [ls [s1 [log [b2 [u1 [Hr HR2]]]]]]; [simpl; apply upd_same|].
  exists ((h, AUnlock) :: ls), s1, log, (b ++ b2), u1. split; [eapply run1; eauto|]. rewrite app_assoc. auto.
Qed.

Definition wt (p : pc) : nat :=
  match p with
  | L6 _ => 20 | L7 _ => 19 | L8c _ => 18 | L8a _ => 17 | L8b _ => 16 | L9a _ => 15 | L9b _ => 14 | L11 => 13
  | L12 _ => 12 | L13 _ _ => 11 | L14 _ => 10 | _ => 0
  end.

(** The front of the global queue can acquire. *)
Lemma grab_ : forall m s t q u, wt (thr s t) <= m -> R s None (t :: q) u ->
  exists ls s1 log b u1, run (step cl) s ls = Some (s1, log) /\ In (FAcq t) log /\ R s1 (Some t) (t :: q ++ b) u1.
Proof.
  induction m as [m IH] using lt_wf_ind. intros s t q u Hm HR.
  assert (Hnext : forall s', step cl s (t, ATick) = Some (s', []) -> wt (thr s' t) < wt (thr s t) ->
    exists ls s1 log b u1, run (step cl) s ls = Some (s1, log) /\ In (FAcq t) log /\ R s1 (Some t) (t :: q ++ b) u1).
  { intros s' Es Hlt. destruct (R_step _ _ _ _ _ _ _ HR Es) as [h' [q' [u' [G HR']]]].
    apply gstep_tau in G. destruct G as [-> [b ->]]. simpl in HR'.
    destruct (IH (wt (thr s' t)) ltac:(lia) s' t _ _ (le_n _) HR') as [ls [s1 [log [b2 [u1 [Hr [Hin HR2]]]]]]].
    exists ((t, ATick) :: ls), s1, log, (b ++ b2), u1. split; [eapply run1; eauto|]. split; auto. rewrite app_assoc. auto. }
  assert (Hacq : forall s', step cl s (t, ATick) = Some (s', [FAcq t]) ->
    exists ls s1 log b u1, run (step cl) s ls = Some (s1, log) /\ In (FAcq t) log /\ R s1 (Some t) (t :: q ++ b) u1).
  { intros s' Es. destruct (R_step _ _ _ _ _ _ _ HR Es) as [h' [q' [u' [G HR']]]]. inversion G; subst.
    exists [(t, ATick)], s', [FAcq t], [], u'. split; [eapply run_last; eauto|]. split; [simpl; auto|]. rewrite app_nil_r. auto. }
  destruct HR as [g [I [Eq Eu]]]. pose proof (i_pi _ _ _ I t) as P. unfold PI in P.
  assert (HtG : In t (GQ g)) by (rewrite Eq; simpl; auto).
  pose proof (i_gl _ _ _ I) as Hl. rewrite Eq in Hl. simpl in Hl. destruct Hl as [[HgA HgB] _].
  assert (Hloc : forall p, queued g t -> lp g t = p -> (forall d, ~ gpc (thr s t) d) ->
     wait s p = false /\ splice s p = false /\ prev s p <> None /\ Nat.eqb (cid s p) (cid s (node s t)) = true).
  { intros p Hq Hlp Hg. pose proof (lp_inlc _ _ _ _ I Hq) as Hi. rewrite Hlp in *.
    destruct (bd g p) eqn:Hb; [specialize (HgB eq_refl); apply Hg in HgB; tauto|].
    specialize (HgA eq_refl). destruct (i_bf _ _ _ I _ _ Hi Hb) as [A B]. split; [rewrite HgA; apply (i_wg _ _ _ I)|].
    split; auto. split; auto. apply Nat.eqb_eq. rewrite (i_cid _ _ _ I (cl t) p Hi). symmetry.
    apply (i_cid _ _ _ I). eapply inlc_node; eauto. }
  destruct (thr s t) eqn:Et; try (exfalso; unfold queued in P; tauto); try (destruct P as [P _]; discriminate);
    try (apply (i_dis _ _ _ I) with (c := cl t) in HtG; [destruct HtG|tauto]).
  - eapply Hnext; [simpl; rewrite Et; reflexivity|fc; rewrite upd_same; simpl; lia].
  - destruct P as [Hq [Hlp Hp]]. destruct (Hloc _ Hq Hlp) as [A [B [C D]]]; [simpl; auto|].
    destruct (prev s p) eqn:Ep; [|congruence].
    eapply Hnext; [simpl; rewrite Et, Ep; reflexivity|fc; rewrite upd_same; simpl; lia].
  - destruct P as [Hq [Hlp Hp]]. destruct (Hloc _ Hq Hlp) as [A [B [C D]]]; [simpl; auto|].
    eapply Hnext; [simpl; rewrite Et, A; reflexivity|fc; rewrite upd_same; simpl; lia].
  - destruct P as [Hq [Hlp Hp]]. destruct (Hloc _ Hq Hlp) as [A [B [C D]]]; [simpl; auto|].
    destruct (step cl s (t, ATick)) as [[s1 ev]|] eqn:Es; [|simpl in Es; rewrite Et, D in Es; discriminate].
    simpl in Es. rewrite Et, D in Es.
    (* one extra turn of the loop *)
    assert (Es1 : step cl s (t, ATick) = Some (goto s t (L8c p), [])) by (simpl; rewrite Et, D; auto).
    assert (HR0 : R s None (t :: q) u) by (exists g; auto).
    destruct (R_step _ _ _ _ _ _ _ HR0 Es1) as [h' [q' [u' [G HR']]]].
    apply gstep_tau in G. destruct G as [-> [b ->]].
    assert (Es2 : step cl (goto s t (L8c p)) (t, ATick) = Some (goto (goto s t (L8c p)) t (L8a p), [])).
    { simpl. rewrite upd_same, B. auto. }
    destruct (R_step _ _ _ _ _ _ _ HR' Es2) as [h2 [q2 [u2 [G2 HR2]]]].
    apply gstep_tau in G2. destruct G2 as [-> [b2 ->]].
    assert (Es3 : step cl (goto (goto s t (L8c p)) t (L8a p)) (t, ATick)
                  = Some (goto (goto (goto s t (L8c p)) t (L8a p)) t (L9a p), [])).
    { simpl. rewrite upd_same, A. auto. }
    destruct (R_step _ _ _ _ _ _ _ HR2 Es3) as [h3 [q3 [u3 [G3 HR3]]]].
    apply gstep_tau in G3. destruct G3 as [-> [b3 ->]]. simpl in HR3.
    assert (Hw3 : wt (thr (goto (goto (goto s t (L8c p)) t (L8a p)) t (L9a p)) t) <= 15) by (fc; rewrite upd_same; simpl; lia).
    destruct (IH 15 ltac:(simpl in Hm; lia) _ t _ _ Hw3 HR3)
      as [ls [s4 [log [b4 [u4 [Hr [Hin HR4]]]]]]].
    exists ((t, ATick) :: (t, ATick) :: (t, ATick) :: ls), s4, log, (b ++ b2 ++ b3 ++ b4), u4.
    split; [eapply run1; [exact Es1|]; eapply run1; [exact Es2|]; eapply run1; [exact Es3|]; auto|].
    split; auto. rewrite <- !app_assoc in HR4. auto.
  - destruct P as [Hq [Hlp Hp]]. destruct (Hloc _ Hq Hlp) as [A [B [C D]]]; [simpl; auto|].
    eapply Hnext; [simpl; rewrite Et, B; reflexivity|fc; rewrite upd_same; simpl; lia].
  - destruct P as [Hq [Hlp Hp]]. destruct (Hloc _ Hq Hlp) as [A [B [C D]]]; [simpl; auto|].
    eapply Hnext; [simpl; rewrite Et, D; reflexivity|fc; rewrite upd_same; simpl; lia].
  - destruct P as [Hq [Hlp Hp]]. destruct (Hloc _ Hq Hlp) as [A [B [C D]]]; [simpl; auto|].
    eapply Hacq; simpl; rewrite Et, B; reflexivity.
  - eapply Hnext; [simpl; rewrite Et; reflexivity|fc; rewrite upd_same; simpl; lia].
  - destruct P as [_ [Hb _]]. specialize (HgB Hb). simpl in HgB. subst.
    eapply Hacq; simpl; rewrite Et, (i_wg _ _ _ I); reflexivity.
Qed.

(** A spliced thread can acquire. *)
Lemma global_progress : forall i s h q u t, R s h q u -> nth_error (wq h q) i = Some t ->
  exists ls s' log, run (step cl) s ls = Some (s', log) /\ In (FAcq t) log.
Proof.
  induction i as [i IH] using lt_wf_ind. intros s h q u t HR Hi.
  assert (Hfree : exists ls s1 log b u1, run (step cl) s ls = Some (s1, log) /\ R s1 None (wq h q ++ b) u1).
  { destruct h as [h|]; [|exists [], s, [], [], u; rewrite app_nil_r; auto].
    destruct (R_hq _ _ _ _ HR) as [r ->]. apply free_ in HR. auto. }
  destruct Hfree as [ls [s1 [log [b [u1 [Hr HR1]]]]]].
  destruct (wq h q) as [|x r]; [destruct i; discriminate|]. simpl in HR1.
  destruct (grab_ _ _ _ _ _ (le_n _) HR1) as [ls2 [s2 [log2 [b2 [u2 [Hr2 [Hin HR2]]]]]]].
  destruct i as [|i].
  - simpl in Hi. inversion Hi; subst x. exists (ls ++ ls2), s2, (log ++ log2).
    split; [eapply run_app; eauto|]. apply in_or_app; auto.
  - simpl in Hi. destruct (IH i (Nat.lt_succ_diag_r i) _ _ _ _ t HR2) as [ls3 [s3 [log3 [Hr3 Hin3]]]].
    + simpl. rewrite nth_error_app1; [rewrite nth_error_app1; auto|].
      * apply nth_error_Some. congruence.
      * rewrite app_length. assert (i < length r) by (apply nth_error_Some; congruence). lia.
    + exists (ls ++ ls2 ++ ls3), s3, (log ++ log2 ++ log3).
      split; [eapply run_app; eauto; eapply run_app; eauto|]. apply in_or_app. right. apply in_or_app. auto.
Qed.

(** A thread waiting in its local queue can get spliced. *)
Definition spl (s : state) (t : nat) : Prop := exists h q u, R s h q u /\ In t q.

Definition pcp (s : state) (p : pc) : nat :=
  match p with
  | L6 p | L7 p | L8a p | L8b p | L8c p | L9a p | L9b p => if splice s p then 0 else 100
  | _ => 0
  end.

Definition wu (p : pc) : nat :=
  match p with
  | L6 _ => 20 | L7 _ => 19 | L8a _ => 18 | L8b _ => 17 | L8c _ => 16 | L9a _ => 15 | L9b _ => 14 | L11 => 13
  | L12 _ => 12 | _ => 0
  end.

Definition UI (t : nat) (s : state) (m : nat) : Prop :=
  exists h q u x r, R s h q u /\ u (cl t) = x :: r /\ In t (x :: r) /\
    m = length (x :: r) * 1000 + pcp s (thr s x) + wu (thr s x).

Lemma UI_of : forall t s h q u, R s h q u -> In t (u (cl t)) ->
  exists m, UI t s m /\ m < S (length (u (cl t))) * 1000.
Proof.
  intros t s h q u HR H. destruct (u (cl t)) as [|x r] eqn:E; [destruct H|].
  eexists. split.
  - exists h, q, u, x, r. split; [exact HR|]. split; [exact E|]. split; [exact H|]. reflexivity.
  - assert (A : pcp s (thr s x) <= 100) by (destruct (thr s x); simpl; try lia; destruct (splice s p); lia).
    assert (B : wu (thr s x) <= 20) by (destruct (thr s x); simpl; lia). lia.
Qed.

Lemma UI_step : forall t s h q u x r s' l, R s h q u -> u (cl t) = x :: r -> In t (x :: r) ->
  step cl s l = Some (s', []) -> 
  pcp s' (thr s' x) + wu (thr s' x) < pcp s (thr s x) + wu (thr s x) ->
  spl s' t \/ exists m', m' < length (x :: r) * 1000 + pcp s (thr s x) + wu (thr s x) /\ UI t s' m'.
Proof.
  intros t s h q u x r s' l HR Hu Hin Hst Hlt.
  destruct (R_step _ _ _ _ _ _ _ HR Hst) as [h' [q' [u' [G HR']]]]. inversion G; subst.
  - right. eexists. split; [|exists h', q', u', x, r; split; [exact HR'|]; split; [exact Hu|]; split; [exact Hin|]; reflexivity].
    lia.
  - match goal with X : u (cl t0) = b ++ r0 |- _ => rename X into H3 end.
    match goal with X : In t0 b |- _ => rename X into H4 end.
    destruct (Nat.eq_dec (cl t0) (cl t)) as [E|E].
    + rewrite E in *. rewrite Hu in H3. rewrite H3 in Hin. apply in_app_or in Hin. destruct Hin as [Hin|Hin].
      * left. exists h', (q ++ b), (upd u (cl t) r0). split; auto. apply in_or_app; auto.
      * right. destruct (UI_of t s' _ _ _ HR') as [m' [HU Hm]]; [rewrite upd_same; auto|].
        exists m'. split; auto. rewrite upd_same in Hm.
        rewrite H3, app_length. assert (1 <= length b) by (destruct b; [destruct H4|simpl; lia]). lia.
    + right. eexists. split; [|exists h', (q ++ b), (upd u (cl t0) r0), x, r; split; [exact HR'|]; split; [rewrite upd_other; auto|]; split; [exact Hin|]; reflexivity].
      lia.
Qed.

Lemma UI_prog : forall t s m, UI t s m ->
  spl s t \/ exists l s' ev m', step cl s l = Some (s', ev) /\ m' < m /\ (spl s' t \/ UI t s' m').
Proof.
  intros t s m [h [q [u [x [r [HR [Hu [Hin ->]]]]]]]].
  assert (Hgo : forall l s', step cl s l = Some (s', []) ->
     pcp s' (thr s' x) + wu (thr s' x) < pcp s (thr s x) + wu (thr s x) ->
     exists l s' ev m', step cl s l = Some (s', ev) /\
       m' < length (x :: r) * 1000 + pcp s (thr s x) + wu (thr s x) /\ (spl s' t \/ UI t s' m')).
  { intros l s' Hst Hlt. destruct (UI_step _ _ _ _ _ _ _ _ _ HR Hu Hin Hst Hlt) as [A|[m' [A B]]].
    - exists l, s', [], 0. split; auto. split; auto. simpl. lia.
    - exists l, s', [], m'. auto. }
  right. destruct HR as [g [I [Eq Eu]]]. rewrite <- Eu in Hu. pose proof (i_pi _ _ _ I x) as P. unfold PI in P.
  assert (HxU : In x (UQ g (cl t))) by (rewrite Hu; simpl; auto).
  pose proof (i_ucl _ _ _ I _ _ HxU) as Hcx. rewrite <- Hcx in HxU.
  assert (Hxq : queued g x) by (right; auto).
  pose proof (head_bd _ _ _ _ _ _ I Hu) as Hb.
  assert (HxG : ~ In x (GQ g)) by (eapply (i_dis _ _ _ I); eauto).
  (* an unspliced predecessor is about to be marked *)
  assert (Hpend : forall p, lp g x = p -> prev s p <> None -> pcp s (thr s x) = (if splice s p then 0 else 100) ->
    (forall s', pcp s' (thr s x) = (if splice s' p then 0 else 100)) ->
    splice s p = false -> exists l s' ev m', step cl s l = Some (s', ev) /\
       m' < length (x :: r) * 1000 + pcp s (thr s x) + wu (thr s x) /\ (spl s' t \/ UI t s' m')).
  { intros p Hlp Hpn Hp1 Hp2 Hsp. pose proof (lp_inlc _ _ _ _ I Hxq) as Hi. rewrite Hlp in *.
    destruct (i_bt _ _ _ I _ _ Hi Hb) as [A|[A|A]]; try congruence.
    destruct A as [m [y [X [Y [v [H1 [H2 [H3 H4]]]]]]]].
    assert (Hmx : m <> x) by (intro; subst m; apply HxG; rewrite H2; apply in_or_app; simpl; auto).
    eapply (Hgo (m, ATick)); [simpl; rewrite H1; reflexivity|].
    fc. rewrite upd_other by auto. rewrite Hp2, Hp1, Hsp. fc. rewrite upd_same. lia. }
  assert (Hid : forall p, lp g x = p -> Nat.eqb (cid s p) (cid s (node s x)) = true).
  { intros p Hlp. apply Nat.eqb_eq. rewrite (i_cid _ _ _ I (cl x) (node s x)) by (eapply inlc_node; eauto).
    apply (i_cid _ _ _ I). rewrite <- Hlp. eapply lp_inlc; eauto. }
  destruct (thr s x) eqn:Ex; try (exfalso; tauto).
  - eapply (Hgo (x, ATick)); [simpl; rewrite Ex; reflexivity|]. fc. rewrite upd_same. simpl. lia.
  - destruct (prev s p) eqn:Ep.
    + eapply (Hgo (x, ATick)); [simpl; rewrite Ex, Ep; reflexivity|]. fc. rewrite upd_same. simpl. lia.
    + eapply (Hgo (x, ATick)); [simpl; rewrite Ex, Ep; reflexivity|]. fc. rewrite upd_same. simpl. lia.
  - destruct P as [_ [Hlp [_ Hpn]]]. destruct (splice s p) eqn:Esp; [|apply (Hpend p); auto; simpl; rewrite ?Esp; auto].
    destruct (wait s p) eqn:Ew; (eapply (Hgo (x, ATick)); [simpl; rewrite Ex, Ew; reflexivity|]); fc; rewrite upd_same; simpl; lia.
  - destruct P as [_ [Hlp [_ Hpn]]]. destruct (splice s p) eqn:Esp; [|apply (Hpend p); auto; simpl; rewrite ?Esp; auto].
    eapply (Hgo (x, ATick)); [simpl; rewrite Ex, (Hid p Hlp); reflexivity|]; fc; rewrite upd_same; simpl; lia.
  - destruct P as [_ [Hlp [_ Hpn]]]. destruct (splice s p) eqn:Esp; [|apply (Hpend p); auto; simpl; rewrite ?Esp; auto].
    eapply (Hgo (x, ATick)); [simpl; rewrite Ex, Esp; reflexivity|]; fc; rewrite upd_same; simpl; lia.
  - destruct P as [_ [Hlp [_ [Hpn _]]]]. destruct (splice s p) eqn:Esp; [|apply (Hpend p); auto; simpl; rewrite ?Esp; auto].
    eapply (Hgo (x, ATick)); [simpl; rewrite Ex, (Hid p Hlp); reflexivity|]; fc; rewrite upd_same; simpl; lia.
  - destruct P as [_ [Hlp [_ [Hpn _]]]]. destruct (splice s p) eqn:Esp; [|apply (Hpend p); auto; simpl; rewrite ?Esp; auto].
    eapply (Hgo (x, ATick)); [simpl; rewrite Ex, Esp; reflexivity|]; fc; rewrite upd_same; simpl; lia.
  - eapply (Hgo (x, ATick)); [simpl; rewrite Ex; reflexivity|]. fc. rewrite upd_same. simpl. lia.
  - eapply (Hgo (x, ATick)); [simpl; rewrite Ex; reflexivity|]. fc. rewrite upd_same. simpl. lia.
  - exfalso. destruct P as [-> _]. destruct (i_h _ _ _ I x eq_refl) as [_ [q0 E]]. apply HxG. rewrite E. simpl; auto.
  - exfalso. destruct P as [-> _]. destruct (i_h _ _ _ I x eq_refl) as [_ [q0 E]]. apply HxG. rewrite E. simpl; auto.
  - exfalso. destruct P as [-> _]. destruct (i_h _ _ _ I x eq_refl) as [_ [q0 E]]. apply HxG. rewrite E. simpl; auto.
Qed.

Lemma spl_or : forall t m s, spl s t \/ UI t s m -> exists ls s' log, run (step cl) s ls = Some (s', log) /\ spl s' t.
Proof.
  intros t. induction m as [m IH] using lt_wf_ind. intros s [H|H]; [exists [], s, []; auto|].
  destruct (UI_prog _ _ _ H) as [H'|[l [s' [ev [m' [Hst [Hm H']]]]]]]; [exists [], s, []; auto|].
  destruct (IH _ Hm _ H') as [ls [s2 [log [Hr HG]]]].
  exists (l :: ls), s2, (ev ++ log). split; auto. eapply run_cons; eauto.
Qed.

Lemma hclh_progress : forall s, reachable (step cl) init s -> forall t, waiting s t = true ->
  exists ls s' log, run (step cl) s ls = Some (s', log) /\ In (FAcq t) log.
Proof.
  intros s Hre t Hw. destruct (hclh_reach _ Hre) as [h [q [u HR]]].
  assert (Hgl : forall s h q u, R s h q u -> In t q -> h <> Some t ->
     exists ls s' log, run (step cl) s ls = Some (s', log) /\ In (FAcq t) log).
  { intros s0 h0 q0 u0 H0 Hin Hne.
    assert (Hin2 : In t (wq h0 q0)).
    { destruct h0 as [x|]; auto. destruct (R_hq _ _ _ _ H0) as [r ->]. simpl in *. destruct Hin; auto. congruence. }
    destruct (In_nth_error _ _ Hin2) as [i Hi]. eapply global_progress; eauto. }
  assert (Hcase : (In t q /\ h <> Some t) \/ In t (u (cl t))).
  { destruct HR as [g [I [<- Eu]]]. pose proof (i_pi _ _ _ I t) as P. unfold PI in P.
    assert (Hh : h <> Some t).
    { intros ->. destruct (i_h _ _ _ I t eq_refl) as [A _]. unfold waiting in Hw. destruct (thr s t); discriminate. }
    unfold waiting, queued in *. rewrite <- Eu. destruct (thr s t); try discriminate; try tauto. }
  destruct Hcase as [[A B]|A]; [eapply Hgl; eauto|].
  (* bring t into the global queue, unless it acquires on the way *)
  destruct (UI_of _ _ _ _ _ HR A) as [m [HU _]].
  destruct (spl_or t m s (or_intror HU)) as [ls [s1 [log [Hr [h1 [q1 [u1 [HR1 Hin1]]]]]]]].
  assert (Hdec : h1 = Some t \/ h1 <> Some t).
  { destruct h1 as [x|]; [destruct (Nat.eq_dec x t); [left|right]; congruence|right; discriminate]. }
  destruct Hdec as [E|E].
  - (* it already holds: the log says so *)
    exists ls, s1, log. split; auto.
    assert (Hx : forall ls s s' log h q u, run (step cl) s ls = Some (s', log) -> R s h q u -> h <> Some t ->
       (forall h' q' u', R s' h' q' u' -> h' = Some t -> In (FAcq t) log)).
    { clear. induction ls as [|l ls IH]; intros s s' log h q u Hr HR Hne h' q' u' HR' E.
      - simpl in Hr. inversion Hr; subst. exfalso.
        destruct HR as [g [I _]], HR' as [g' [I' _]]. pose proof (i_h _ _ _ I' t eq_refl) as [A _].
        pose proof (i_pi _ _ _ I t) as P. unfold PI in P. destruct (thr s' t); try discriminate; tauto.
      - simpl in Hr. destruct (step cl s l) as [[s1 ev]|] eqn:Es; [|discriminate].
        destruct (run (step cl) s1 ls) as [[s2 log2]|] eqn:Er; [|discriminate]. inversion Hr; subst.
        destruct (R_step _ _ _ _ _ _ _ HR Es) as [h1 [q1 [u1 [G HR1]]]].
        assert (Hd : h1 = Some t \/ h1 <> Some t).
        { destruct h1 as [x|]; [destruct (Nat.eq_dec x t); [left|right]; congruence|right; discriminate]. }
        apply in_or_app. destruct Hd as [Hd|Hd]; [left|right; eapply IH; eauto].
        subst h1. inversion G; subst; try congruence; simpl; auto. }
    eapply (Hx _ _ _ _ _ _ _ Hr HR); eauto.
    intros ->. destruct HR as [g [I [Eq Eu]]]. destruct (i_h _ _ _ I t eq_refl) as [_ [r Er]].
    rewrite <- Eu in A. apply (i_dis _ _ _ I _ _ A). rewrite Er. simpl; auto.
  - destruct (Hgl _ _ _ _ HR1 Hin1 E) as [ls2 [s2 [log2 [Hr2 Hin2]]]].
    exists (ls ++ ls2), s2, (log ++ log2). split; [eapply run_app; eauto|]. apply in_or_app; auto.
Qed.

(** The node handed to an idle thread is referenced by nobody else. *)
Lemma hclh_recycle : forall s, reachable (step cl) init s ->
  (forall t u, node s t = node s u -> t = u) /\
  (forall t, thr s t = Idle -> node s t <> glob s /\ (forall c, node s t <> loc s c) /\
     forall u p, (thr s u = L6 p \/ thr s u = L7 p \/ thr s u = L8a p \/ thr s u = L8b p \/ thr s u = L8c p \/
                  thr s u = L9a p \/ thr s u = L9b p \/ thr s u = L12 p \/ (exists x, thr s u = L13 p x) \/
                  (exists x, thr s u = L13 x p) \/ thr s u = L14 p \/ thr s u = U2 p) -> node s t <> p).
Proof.
  intros s Hre. destruct (hclh_reach _ Hre) as [h [q [u0 [g [I _]]]]]. split; [apply (i_inj _ _ _ I)|].
  intros t Ht. pose proof (i_pi _ _ _ I t) as P. unfold PI in P. rewrite Ht in P.
  assert (Hlast : forall qs d, node s t <> d -> (forall x, In x qs -> queued g x) -> node s t <> lastn (node s) d qs).
  { intros qs d Hd Hqs E. destruct (lastn_in (node s) qs d) as [X|[x [Hx X]]]; [congruence|].
    rewrite X in E. apply (i_inj _ _ _ I) in E. subst. auto. }
  pose proof (gd_node _ _ _ t I) as Hgd.
  split; [rewrite (i_gt _ _ _ I); apply Hlast; auto; intros x Hx; left; auto|].
  split; [intros c; rewrite (i_lt _ _ _ I); apply Hlast; [apply (i_nld _ _ _ I)|intros x Hx; eapply lq_queued; eauto]|].
  assert (Hil : forall c, ~ inlc s g c (node s t)).
  { intros c A. apply P. eapply inlc_own; eauto. }
  intros u p Hu E. subst p. pose proof (i_pi _ _ _ I u) as Q. unfold PI in Q.
  assert (Hq : forall v, queued g v -> lp g v = node s t -> False).
  { intros v A B. apply (Hil (cl v)). rewrite <- B. eapply lp_inlc; eauto. }
  assert (Hgp : forall v, In v (GQ g) -> bd g (lp g v) = true -> gpc (thr s v) (node s t) ->
     hpc (thr s v) = false -> False).
  { intros v A B C D. destruct (gq_split _ _ _ _ I A) as [pre [r [E [_ F]]]]. specialize (F B).
    assert (X : node s t = lastn (node s) (gd g) pre).
    { destruct (thr s v); simpl in C, F, D; try tauto; try discriminate; congruence. }
    revert X. apply Hlast; auto. intros x Hx. left. rewrite E. apply in_or_app; auto. }
  destruct Hu as [H|[H|[H|[H|[H|[H|[H|[H|[[x H]|[[x H]|[H|H]]]]]]]]]]]; rewrite H in Q.
  - eapply (Hq u); tauto.
  - eapply (Hq u); tauto.
  - eapply (Hq u); tauto.
  - eapply (Hq u); tauto.
  - eapply (Hq u); tauto.
  - eapply (Hq u); tauto.
  - eapply (Hq u); tauto.
  - destruct Q as [_ [_ [_ [v [A B]]]]]. apply (i_inj _ _ _ I) in B. subst v. apply P. right.
    rewrite (i_ucl _ _ _ I _ _ A). auto.
  - destruct Q as [_ [_ [_ [X [Y [v [A [B [C _]]]]]]]]]. apply (i_inj _ _ _ I) in C. subst v. apply P. left.
    rewrite A. apply in_or_app; auto.
  - destruct Q as [A [B _]]. eapply (Hgp u); auto; rewrite H; simpl; auto.
  - destruct Q as [A [B _]]. eapply (Hgp u); auto; rewrite H; simpl; auto.
  - destruct Q as [A [B C]]. subst h. destruct (i_h _ _ _ I u eq_refl) as [_ [r Er]].
    eapply (Hq u); auto. left. rewrite Er. simpl; auto.
Qed.

(** unlock never hands back NULL *)
Lemma hclh_unlock_node : forall s, reachable (step cl) init s -> forall t, thr s t = U1 ->
  exists s', step cl s (t, ATick) = Some (s', []).
Proof.
  intros s Hre t Ht. destruct (hclh_reach _ Hre) as [h [q [u0 [g [I _]]]]].
  pose proof (i_pi _ _ _ I t) as P. unfold PI in P. rewrite Ht in P. destruct P as [_ P].
  simpl. rewrite Ht, P. eauto.
Qed.
End Cl.
