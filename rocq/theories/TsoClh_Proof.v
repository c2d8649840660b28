(** Proofs about ck_spinlock_clh on x86-TSO. *)
From Coq Require Import ZArith Arith List Bool Lia.
From Verif Require Import Lib Tso TsoQueue_Spec TsoQueue_Proof TsoClh_Model.
Import ListNotations.
Local Open Scope Z_scope.

Notation nd s u := (fst (pcs s u)).
Notation pcof s u := (snd (pcs s u)).

(** The threads whose own node is in the queue, and the nodes of the queue after the one the first
    of them watches. *)
Definition hm (a : qlock) : list nat := match hold a with Held t => t :: queue a | _ => queue a end.
Definition chain (s : tso (nat * pc)) (d : nat) (a : qlock) : list nat := d :: map (fun u => nd s u) (hm a).
Definition off (a : qlock) : nat := match hold a with Held _ => 1 | _ => 0 end.
(** a buffer that holds data and previous of one node *)
Definition quiet (m : nat) (b : list (loc * Z)) : Prop := forall x v, In (x, v) b -> isdat x \/ x = Pv m.
Definition onlyp (m : nat) (b : list (loc * Z)) : Prop := forall x v, In (x, v) b -> x = Pv m.

Lemma Wt_inj : forall m m', Wt m = Wt m' -> m = m'. Proof. unfold Wt. intros. injection H as H. lia. Qed.
Lemma Pv_inj : forall m m', Pv m = Pv m' -> m = m'. Proof. unfold Pv. intros. injection H as H. lia. Qed.
Lemma Wt_Pv : forall m m', Wt m <> Pv m'. Proof. unfold Wt, Pv. intros m m' H. injection H as H. lia. Qed.
Lemma Wt_0 : forall m, Reg 0 <> Wt m. Proof. unfold Wt. intros m H. injection H as H. lia. Qed.
Lemma Pv_0 : forall m, Reg 0 <> Pv m. Proof. unfold Pv. intros m H. injection H as H. lia. Qed.
Lemma arr_Wt0 : forall t m, arr t (Wt m) 0 = [Visible t].
Proof. intros. unfold arr, Wt. replace (Nat.odd (1 + 2 * m)) with true; [reflexivity|]. symmetry. apply Nat.odd_spec. exists m. lia. Qed.
Lemma arr_Wt1 : forall t m, arr t (Wt m) 1 = [].
Proof. intros. unfold arr, Wt. rewrite andb_false_r. reflexivity. Qed.
Lemma arr_Pv : forall t m v, arr t (Pv m) v = [].
Proof.
  intros. unfold arr, Pv. replace (Nat.odd (2 + 2 * m)) with false; [reflexivity|]. symmetry. rewrite <- Nat.negb_even.
  replace (Nat.even (2 + 2 * m)) with true; [reflexivity|]. symmetry. apply Nat.even_spec. exists (S m). lia.
Qed.

(** what holds of each thread *)
Definition Tc (s : tso (nat * pc)) (a : qlock) (d t : nat) : Prop :=
  (hold a = Held t -> (pcof s t = CS \/ pcof s t = U2 d) /\ view s t (Pv (nd s t)) = Z.of_nat d /\ quiet (nd s t) (buf s t)) /\
  (forall i, nth_error (queue a) i = Some t -> exists p, nth_error (chain s d a) (off a + i) = Some p /\
     ((pcof s t = L3 p /\ buf s t = []) \/ (pcof s t = L4 p /\ view s t (Pv (nd s t)) = Z.of_nat p /\ onlyp (nd s t) (buf s t)))) /\
  (~ In t (hm a) -> hold a <> Left t -> (pcof s t = Idle /\ buf s t = []) \/
     (pcof s t = L2 /\ ((buf s t = [] /\ mem s (Wt (nd s t)) = 1) \/ buf s t = [(Wt (nd s t), 1)]))) /\
  (hold a = Left t -> ~ In t (queue a) /\ exists pre post, buf s t = pre ++ (Wt d, 0) :: post /\ quiet d pre /\
     ((pcof s t = Idle /\ post = []) \/ (pcof s t = L2 /\ post = [(Wt (nd s t), 1)]))).

Record C (s : tso (nat * pc)) (a : qlock) (d : nat) : Prop := {
  c_tail : mem s (Reg 0) = Z.of_nat (last (chain s d a) 0%nat);
  c_wd : mem s (Wt d) = match hold a with Left _ => 1 | _ => 0 end;
  c_wq : forall t, In t (hm a) -> mem s (Wt (nd s t)) = 1;
  c_inj : forall t u, nd s t = nd s u -> t = u;
  c_nd : forall t, nd s t <> d;
  c_nodup : NoDup (hm a);
  c_thr : forall t, Tc s a d t;
  c_dat : data (owner (hold a)) (dat a) s
}.
Definition R (s : tso (nat * pc)) (a : qlock) : Prop := exists d, C s a d.

Lemma R_init : forall D G, R (init D G) (q_init D).
Proof.
  intros D G. exists 0%nat. constructor; simpl; auto; try (constructor; fail); try tauto; try discriminate.
  - intros t. repeat split; simpl; auto; try discriminate. intros [|i]; discriminate.
  - split; auto. intros u i v [].
Qed.

Lemma view_st : forall (s : tso (nat * pc)) t x v (p : nat -> nat * pc) u y, y <> x \/ u <> t ->
  view (mkT (mem s) (upd (buf s) t (buf s t ++ [(x, v)])) p) u y = view s u y.
Proof.
  intros s t x v p u y H. unfold view. cbn [mem buf]. destruct (Nat.eq_dec u t) as [->|Hn]; [|rewrite upd_other by auto; auto].
  rewrite upd_same, fwd_app. simpl. destruct (loc_eqb_spec x y); auto. destruct H; congruence.
Qed.
Lemma view_st_same : forall (s : tso (nat * pc)) t x v (p : nat -> nat * pc), view (mkT (mem s) (upd (buf s) t (buf s t ++ [(x, v)])) p) t x = v.
Proof. intros. unfold view. cbn [mem buf]. rewrite upd_same, fwd_app. simpl. destruct (loc_eqb_spec x x); congruence. Qed.
Lemma view_fl : forall (s : tso (nat * pc)) t x v r (p : nat -> nat * pc) u y, buf s t = (x, v) :: r -> u = t \/ y <> x ->
  view (mkT (setm (mem s) x v) (upd (buf s) t r) p) u y = view s u y.
Proof.
  intros s t x v r p u y Hb H. unfold view. cbn [mem buf]. destruct (Nat.eq_dec u t) as [->|Hn].
  - rewrite upd_same, Hb. rewrite <- fwd_flush. auto.
  - rewrite upd_other by auto. rewrite setm_other; [auto|]. destruct H; congruence.
Qed.
Lemma last_chain : forall (l : list nat) x d, nth_error (x :: l) (length l) = Some (last (x :: l) d).
Proof.
  induction l as [|y l IH]; intros x d; auto. change (nth_error (y :: l) (length l) = Some (last (y :: l) d)). apply IH.
Qed.
Lemma hm_in : forall a t, In t (hm a) -> hold a = Held t \/ exists i, nth_error (queue a) i = Some t.
Proof. intros a t H. unfold hm in H. destruct (hold a); try (right; apply In_nth_error; auto; fail). destruct H as [->|H]; auto. right. apply In_nth_error. auto. Qed.
Lemma hm_q : forall a i t, nth_error (queue a) i = Some t -> In t (hm a).
Proof. intros a i t H. apply nth_error_In in H. unfold hm. destruct (hold a); simpl; auto. Qed.
Lemma hm_nth : forall a i, nth_error (hm a) (off a + i) = nth_error (queue a) i.
Proof. intros a i. unfold hm, off. destruct (hold a); auto. Qed.

(** moves of [t] that leave its node alone keep the chain *)
Lemma chain_eq : forall (s s' : tso (nat * pc)) d a, (forall u, In u (hm a) -> nd s' u = nd s u) -> chain s' d a = chain s d a.
Proof. intros. unfold chain. f_equal. apply map_ext_in. auto. Qed.
Lemma nd_same : forall (s : tso (nat * pc)) t p u, nd s t = fst p -> fst (upd (pcs s) t p u) = nd s u.
Proof. intros. upd_goal; congruence. Qed.

(** a step of [t] that the queue does not notice *)
Lemma frame : forall s a d s' a' t, C s a d -> hold a' = hold a -> queue a' = queue a ->
  (forall u, u <> t -> pcs s' u = pcs s u /\ buf s' u = buf s u /\ view s' u (Pv (nd s u)) = view s u (Pv (nd s u))) ->
  nd s' t = nd s t -> mem s' (Reg 0) = mem s (Reg 0) -> (forall m, m <> nd s t -> mem s' (Wt m) = mem s (Wt m)) ->
  (In t (hm a) -> mem s' (Wt (nd s t)) = 1) -> data (owner (hold a)) (dat a') s' -> (Tc s a d t -> chain s' d a = chain s d a -> Tc s' a d t) -> C s' a' d.
Proof.
  intros s a d s' a' t [Ct Cd Cq Ci Cn Cu Ch Da] Eh Eq Ho Hn Hm Hw Hw1 Hd Ht.
  assert (Hnd : forall u, nd s' u = nd s u) by (intros u; destruct (Nat.eq_dec u t) as [->|Hu]; auto; destruct (Ho u Hu) as [-> _]; auto).
  assert (Hc : chain s' d a = chain s d a) by (apply chain_eq; auto).
  assert (Ehm : hm a' = hm a) by (unfold hm; rewrite Eh, Eq; auto).
  assert (Ech : forall s, chain s d a' = chain s d a) by (intros; unfold chain; rewrite Ehm; auto).
  constructor; rewrite ?Ehm, ?Eh, ?Eq, ?Ech.
  - rewrite Hm, Ct, Hc. auto.
  - rewrite Hw; auto.
  - intros u Hu. rewrite Hnd. destruct (Nat.eq_dec u t) as [->|Hut]; auto. rewrite Hw; auto.
  - intros u v. rewrite !Hnd. auto.
  - intros u. rewrite Hnd. auto.
  - auto.
  - intros u. assert (T : Tc s' a d u).
    { destruct (Nat.eq_dec u t) as [->|Hut]; [apply Ht; auto|]. destruct (Ho u Hut) as [E1 [E2 E3]]. pose proof (Ch u) as K. unfold Tc in *.
      rewrite E1, E2, E3, Hc. rewrite Hw; [exact K|]. intros X. apply Hut. apply Ci. auto. }
    unfold Tc in *. unfold off in *. rewrite Eh, Eq, Ehm, Ech. exact T.
  - exact Hd.
Qed.

Lemma others : forall (s : tso (nat * pc)) t (p : nat * pc) u, u <> t -> upd (pcs s) t p u = pcs s u.
Proof. intros. apply upd_other. auto. Qed.

(** the swap of the tail *)
Lemma C_req : forall s a d t, C s a d -> ~ In t (hm a) -> hold a <> Left t -> pcof s t = L2 -> buf s t = [] ->
  C (mkT (setm (mem s) (Reg 0) (Z.of_nat (nd s t))) (buf s) (upd (pcs s) t (nd s t, L3 (Z.to_nat (mem s (Reg 0)))))) {| hold := hold a; queue := queue a ++ [t]; dat := dat a |} d.
Proof.
  intros s a d t [Ct Cd Cq Ci Cn Cu Ch Da] Hn Hl Ep Eb.
  set (s' := mkT _ _ _). set (a' := {| hold := hold a; queue := queue a ++ [t]; dat := dat a |}).
  assert (Ehm : hm a' = hm a ++ [t]) by (unfold hm, a'; simpl; destruct (hold a); auto).
  assert (Hnd : forall u, nd s' u = nd s u) by (intros u; unfold s'; cbn [pcs]; apply nd_same; auto).
  assert (Hc : chain s' d a' = chain s d a ++ [nd s t]).
  { unfold chain. rewrite Ehm, map_app. cbn [map app]. f_equal. f_equal; [apply map_ext; intros; apply Hnd|]. rewrite Hnd. auto. }
  assert (Hw : forall m, mem s' (Wt m) = mem s (Wt m)) by (intros; unfold s'; cbn [mem]; apply setm_other; apply Wt_0).
  assert (Hv : forall u m, view s' u (Pv m) = view s u (Pv m)) by (intros; unfold s', view; cbn [mem buf]; rewrite setm_other by apply Pv_0; auto).
  constructor; rewrite ?Ehm, ?Hc.
  - unfold s'. cbn [mem]. rewrite setm_same, last_last. auto.
  - rewrite Hw, Cd. reflexivity.
  - intros u Hu. rewrite Hw, Hnd. apply in_app_or in Hu. destruct Hu as [Hu|[<-|[]]]; auto.
    destruct (Ch t) as [_ [_ [K _]]]. destruct (K Hn Hl) as [[K1 _]|[_ [[_ K1]|K1]]]; auto; congruence.
  - intros u v. rewrite !Hnd. auto.
  - intros u. rewrite Hnd. auto.
  - apply nodup_snoc; auto.
  - intros u. destruct (Ch u) as [K1 [K2 [K3 K4]]]. unfold Tc. rewrite Ehm, Hc, Hw, Hnd, !Hv. change (hold a') with (hold a). change (off a') with (off a).
    change (buf s' u) with (buf s u). change (queue a') with (queue a ++ [t]). destruct (Nat.eq_dec u t) as [->|Hut].
    + refine (conj _ (conj _ (conj _ _))).
      * intros E. exfalso. apply Hn. unfold hm. rewrite E. simpl. auto.
      * intros i Hi. exists (Z.to_nat (mem s (Reg 0))). split.
        -- assert (Ei : i = length (queue a)).
           { destruct (Nat.lt_ge_cases i (length (queue a))) as [X|X].
             - rewrite nth_error_app1 in Hi by auto. exfalso. apply Hn. eapply hm_q. eauto.
             - rewrite nth_error_app2 in Hi by auto. destruct (i - length (queue a))%nat as [|j] eqn:E; [lia|destruct j; discriminate]. }
           subst i. assert (El : (off a + length (queue a) = length (hm a))%nat) by (unfold off, hm; destruct (hold a); simpl; lia).
           rewrite El, nth_error_app1 by (unfold chain; simpl; rewrite map_length; lia). rewrite Ct, Nat2Z.id. unfold chain.
           rewrite <- (map_length (fun u => nd s u) (hm a)) at 1. apply last_chain.
        -- left. unfold s'. cbn [pcs]. rewrite upd_same. auto.
      * intros X. exfalso. apply X. apply in_or_app. simpl. auto.
      * tauto.
    + assert (Ep' : pcs s' u = pcs s u) by (unfold s'; cbn [pcs]; apply upd_other; auto). rewrite Ep'. refine (conj K1 (conj _ (conj _ _))).
      * intros i Hi. destruct (Nat.lt_ge_cases i (length (queue a))) as [X|X].
        -- rewrite nth_error_app1 in Hi by auto. destruct (K2 i Hi) as [p [P1 P2]]. exists p. split; auto.
           rewrite nth_error_app1; auto. apply nth_error_Some. congruence.
        -- rewrite nth_error_app2 in Hi by auto. destruct (i - length (queue a))%nat as [|j]; [simpl in Hi; congruence|destruct j; discriminate].
      * intros X Y. apply K3; auto. intros Z0. apply X. apply in_or_app. auto.
      * intros X. destruct (K4 X) as [L1 L2]. split; auto. intros Z0. apply in_app_or in Z0. destruct Z0 as [Z0|[Z0|[]]]; auto.
  - unfold s', a'. cbn [hold dat]. apply data_rmw. auto.
Qed.

(** the spin loop ends *)
Lemma C_enter : forall s a d t q, C s a d -> hold a = Free -> queue a = t :: q -> pcof s t = L4 d -> 
  C (next s t (nd s t, CS)) {| hold := Held t; queue := q; dat := dat a |} d.
Proof.
  intros s a d t q [Ct Cd Cq Ci Cn Cu Ch Da] Eh Eq Ep.
  set (s' := next _ _ _). set (a' := {| hold := Held t; queue := q; dat := dat a |}).
  assert (Ehm : hm a' = hm a) by (unfold hm, a'; simpl; rewrite Eh, Eq; auto).
  assert (Hnd : forall u, nd s' u = nd s u) by (intros u; unfold s'; cbn [next pcs]; apply nd_same; auto).
  assert (Hc : chain s' d a' = chain s d a).
  { unfold chain. rewrite Ehm. f_equal. apply map_ext. intros; apply Hnd. }
  assert (Ehm2 : hm a = t :: q) by (unfold hm; rewrite Eh, Eq; auto).
  constructor; rewrite ?Ehm, ?Hc.
  - exact Ct.
  - change (mem s' (Wt d)) with (mem s (Wt d)). rewrite Cd, Eh. auto.
  - intros u Hu. rewrite Hnd. apply Cq. auto.
  - intros u v. rewrite !Hnd. auto.
  - intros u. rewrite Hnd. auto.
  - auto.
  - intros u. destruct (Ch u) as [K1 [K2 [K3 K4]]]. unfold Tc. rewrite Ehm, Hc, Hnd.
    change (mem s' (Wt (nd s u))) with (mem s (Wt (nd s u))). change (view s' u (Pv (nd s u))) with (view s u (Pv (nd s u))). change (buf s' u) with (buf s u). simpl hold.
    change (queue a') with q. change (off a') with 1%nat. rewrite Ehm2 in *. destruct (Nat.eq_dec u t) as [->|Hut].
    + refine (conj _ (conj _ (conj _ _))).
      * intros _. unfold s'. cbn [next pcs]. rewrite upd_same. split; auto. destruct (K2 0%nat) as [p [P1 P2]]; [rewrite Eq; auto|].
        destruct P2 as [[P2 _]|[P2 [P3 P4]]]; [congruence|]. assert (p = d) by congruence. subst p. split; auto. intros x v Hx. right. eapply P4. eauto.
      * intros i Hi. exfalso. inversion Cu; subst. apply nth_error_In in Hi. auto.
      * intros X. exfalso. apply X. simpl. auto.
      * discriminate.
    + assert (Ep' : pcs s' u = pcs s u) by (unfold s'; cbn [next pcs]; apply upd_other; auto). rewrite Ep'. refine (conj _ (conj _ (conj _ _))).
      * congruence.
      * intros i Hi. destruct (K2 (S i)) as [p P]; [rewrite Eq; auto|]. unfold off in P. rewrite Eh in P. exists p. exact P.
      * intros X Y. apply K3; auto. congruence.
      * discriminate.
  - unfold s', a'. cbn [hold dat owner]. rewrite Eh in Da. eapply data_pcs; [apply data_take; exact Da| |]; reflexivity.
Qed.

(** the store of unlock *)
Lemma C_leave : forall s a d t, C s a d -> hold a = Held t -> 
  C (mkT (mem s) (upd (buf s) t (buf s t ++ [(Wt (nd s t), 0)])) (upd (pcs s) t (d, Idle))) {| hold := Left t; queue := queue a; dat := dat a |} (nd s t).
Proof.
  intros s a d t [Ct Cd Cq Ci Cn Cu Ch Da] Eh.
  set (s' := mkT _ _ _). set (a' := {| hold := Left t; queue := queue a; dat := dat a |}).
  assert (Ehm : hm a = t :: queue a) by (unfold hm; rewrite Eh; auto). rewrite Ehm in *. inversion Cu; subst.
  assert (Hndo : forall u, u <> t -> nd s' u = nd s u) by (intros u Hu; unfold s'; cbn [pcs]; rewrite upd_other; auto).
  assert (Hndt : nd s' t = d) by (unfold s'; cbn [pcs]; rewrite upd_same; auto).
  assert (Hmap : map (fun u => nd s' u) (queue a) = map (fun u => nd s u) (queue a)).
  { apply map_ext_in. intros u Hu. apply Hndo. intros ->. auto. }
  assert (Hc : chain s d a = d :: chain s' (nd s t) a') by (unfold chain; rewrite Ehm; simpl; f_equal; f_equal; auto).
  assert (Hv : forall u, u <> t -> view s' u (Pv (nd s u)) = view s u (Pv (nd s u))) by (intros u Hu; apply view_st; auto).
  constructor.
  - change (mem s' (Reg 0)) with (mem s (Reg 0)). rewrite Ct, Hc. reflexivity.
  - change (mem s' (Wt (nd s t))) with (mem s (Wt (nd s t))). simpl. apply Cq. simpl. auto.
  - intros u Hu. change (In u (queue a)) in Hu. assert (u <> t) by (intros ->; auto). rewrite Hndo by auto. apply Cq. simpl. auto.
  - intros u v. destruct (Nat.eq_dec u t) as [->|Hu], (Nat.eq_dec v t) as [->|Hv']; auto; rewrite ?Hndt, ?Hndo by auto; intros E; auto.
    + exfalso. apply (Cn v). auto.
    + exfalso. apply (Cn u). auto.
  - intros u E. destruct (Nat.eq_dec u t) as [->|Hu].
    + rewrite Hndt in E. apply (Cn t). auto.
    + rewrite Hndo in E by auto. apply Hu. apply Ci. auto.
  - exact H2.
  - intros u. destruct (Ch u) as [K1 [K2 [K3 K4]]]. unfold Tc. change (hold a') with (Left t). change (off a') with 0%nat. change (hm a') with (queue a). change (queue a') with (queue a).
    destruct (Nat.eq_dec u t) as [->|Hu].
    + refine (conj _ (conj _ (conj _ _))); try discriminate.
      * intros i Hi. exfalso. apply nth_error_In in Hi. auto.
      * congruence.
      * intros _. split; auto. destruct (K1 Eh) as [_ [_ Q]]. exists (buf s t), []. unfold s'. cbn [buf pcs]. rewrite !upd_same. auto.
    + assert (Ep' : pcs s' u = pcs s u) by (unfold s'; cbn [pcs]; apply upd_other; auto).
      assert (Eb' : buf s' u = buf s u) by (unfold s'; cbn [buf]; apply upd_other; auto). rewrite Ep', Eb', Hv by auto.
      change (mem s' (Wt (nd s u))) with (mem s (Wt (nd s u))).
      refine (conj _ (conj _ (conj _ _))); try discriminate.
      * intros i Hi. destruct (K2 i Hi) as [p P]. unfold off in P. rewrite Eh, Hc in P. exists p. exact P.
      * intros X Y. apply K3; [|congruence]. intros Z0. rewrite Ehm in Z0. destruct Z0; auto.
      * congruence.
  - unfold s', a'. cbn [hold dat owner]. rewrite Eh in Da. apply (data_reg (Some t)). exact Da.
Qed.

(** the release arrives *)
Lemma C_visible : forall s a d t r, C s a d -> hold a = Left t -> buf s t = (Wt d, 0) :: r ->
  C (mkT (setm (mem s) (Wt d) 0) (upd (buf s) t r) (pcs s)) {| hold := Free; queue := queue a; dat := dat a |} d.
Proof.
  intros s a d t r [Ct Cd Cq Ci Cn Cu Ch Da] Eh Eb.
  set (s' := mkT _ _ _). set (a' := {| hold := Free; queue := queue a; dat := dat a |}).
  assert (Ehm : hm a' = hm a) by (unfold hm, a'; simpl; rewrite Eh; auto).
  assert (Hc : chain s' d a' = chain s d a) by (unfold chain; rewrite Ehm; auto).
  assert (Ehm2 : hm a = queue a) by (unfold hm; rewrite Eh; auto).
  assert (Hw : forall u, mem s' (Wt (nd s u)) = mem s (Wt (nd s u))).
  { intros u. unfold s'. cbn [mem]. apply setm_other. intros E. apply Wt_inj in E. apply (Cn u). auto. }
  assert (Hpost : r = [] /\ pcof s t = Idle \/ r = [(Wt (nd s t), 1)] /\ pcof s t = L2).
  { destruct (Ch t) as [_ [_ [_ K]]]. destruct (K Eh) as [_ [pre [post [E [Q P]]]]]. destruct pre as [|[y w] pre].
    - rewrite Eb in E. injection E as ->. destruct P as [[? ?]|[? ?]]; auto.
    - exfalso. rewrite Eb in E. injection E as <- <- E. destruct (Q (Wt d) 0) as [X|X]; [left; auto|destruct X|apply (Wt_Pv _ _ X)]. }
  constructor; rewrite ?Ehm, ?Hc.
  - unfold s'. cbn [mem]. rewrite setm_other; [exact Ct|]. intros E. symmetry in E. apply (Wt_0 _ E).
  - unfold s'. cbn [mem]. rewrite setm_same. reflexivity.
  - intros u Hu. change (pcs s' u) with (pcs s u). rewrite Hw. auto.
  - exact Ci.
  - exact Cn.
  - exact Cu.
  - intros u. destruct (Ch u) as [K1 [K2 [K3 K4]]]. unfold Tc. rewrite Ehm, Hc. change (pcs s' u) with (pcs s u). rewrite Hw.
    unfold s'. rewrite view_fl by (auto; right; intros E; symmetry in E; apply (Wt_Pv _ _ E)).
    change (hold a') with Free. change (off a') with 0%nat. change (queue a') with (queue a). cbn [buf].
    refine (conj _ (conj _ (conj _ _))); try discriminate.
    + intros i Hi. assert (u <> t) by (intros ->; destruct (K4 Eh) as [X _]; apply X; eapply nth_error_In; eauto).
      destruct (K2 i Hi) as [p P]. unfold off in P. rewrite Eh in P. exists p. rewrite upd_other by auto. exact P.
    + intros X _. destruct (Nat.eq_dec u t) as [->|Hu].
      * rewrite upd_same. destruct Hpost as [[-> E]|[-> E]]; auto.
      * rewrite upd_other by auto. apply K3; auto. congruence.
  - unfold s', a'. cbn [hold dat owner]. rewrite Eh in Da. eapply data_drop with t; [eapply data_flush; [exact Da|exact Eb]|].
    cbn [buf]. rewrite upd_same. intros i v Hi. destruct Hpost as [[-> _]|[-> _]]; [destruct Hi|destruct Hi as [Hi|[]]; discriminate].
Qed.

(** who [t] is *)
Lemma who : forall a t, (hold a = Held t) \/ (exists i, nth_error (queue a) i = Some t) \/ (hold a = Left t) \/ (~ In t (hm a) /\ hold a <> Left t).
Proof.
  intros a t. destruct (in_dec Nat.eq_dec t (hm a)) as [H|H].
  - apply hm_in in H. tauto.
  - destruct (hold a) as [|h|h] eqn:E; try (right; right; right; split; [auto|discriminate]).
    destruct (Nat.eq_dec h t) as [->|Hn]; auto. right. right. right. split; [auto|congruence].
Qed.

Lemma prog_case : forall (s : tso (nat * pc)) t p, pcof s t = p -> pcs s t = (nd s t, p).
Proof. intros s t p H. rewrite <- H. destruct (pcs s t); auto. Qed.

Lemma C_step : forall s a l s' e, R s a -> step code arr s l = Some (s', e) -> exists a', accepts q_step a e = Some a' /\ R s' a'.
Proof.
  intros s a l s' e [d HC] H. pose proof HC as [Ct Cd Cq Ci Cn Cu Ch Da]. destruct l as [t x|t]; cbn [step] in H.
  - destruct (Ch t) as [K1 [K2 [K3 K4]]]. destruct (who a t) as [Eh|[[i Hi]|[Eh|[Hn Hl]]]].
    + (* inside *)
      destruct (K1 Eh) as [[Ep|Ep] [Ev Q]]; rewrite (prog_case _ _ _ Ep) in H; destruct x; try discriminate H; cbn [code] in H.
      * injection H as <- <-. exists a. split.
        -- simpl. rewrite Eh, Nat.eqb_refl. rewrite Eh in Da. destruct Da as [Da _]. rewrite Da, Z.eqb_refl. reflexivity.
        -- exists d. apply (frame s a d _ a t); auto; try (intros X; exact (Cq _ X)); try (eapply data_pcs; [exact Da|reflexivity|reflexivity]).
           ++ intros u Hu. cbn [next pcs buf]. rewrite upd_other by auto. auto.
           ++ cbn [next pcs]. rewrite upd_same. auto.
           ++ intros T E. unfold Tc in *. rewrite E. cbn [next pcs buf]. rewrite upd_same. cbn [fst snd]. rewrite Ep in T. exact T.
      * injection H as <- <-. eexists. split; [simpl; rewrite Eh, Nat.eqb_refl; reflexivity|].
        exists d. apply (frame s a d _ _ t); auto; try (intros X; exact (Cq _ X)); try (eapply data_pcs; [exact Da|reflexivity|reflexivity]).
        -- intros u Hu. cbn [pcs buf]. rewrite !upd_other by auto. repeat split. apply view_st. auto.
        -- cbn [pcs]. rewrite upd_same. auto.
        -- cbn [dat]. rewrite Eh. rewrite Eh in Da. apply data_write. exact Da.
        -- intros [T1 [T2 [T3 T4]]] E. unfold Tc. refine (conj _ (conj _ (conj _ _))).
           ++ intros _. rewrite view_st by (left; discriminate). cbn [pcs buf]. rewrite !upd_same. cbn [fst snd]. split; auto. split; auto.
              intros y w Hy. apply in_app_or in Hy. destruct Hy as [Hy|[Hy|[]]]; [eauto|]. injection Hy as <- <-. left. exact I.
           ++ intros j Hj. exfalso. destruct (T2 j Hj) as [p [_ [[? _]|[? _]]]]; congruence.
           ++ intros X. exfalso. apply X. unfold hm. rewrite Eh. simpl. auto.
           ++ congruence.
      * injection H as <- <-. exists a. split; auto. exists d. rewrite Ev, Nat2Z.id. apply (frame s a d _ a t); auto; try (intros X; exact (Cq _ X)); try (eapply data_pcs; [exact Da|reflexivity|reflexivity]).
        -- intros u Hu. cbn [next pcs buf]. rewrite upd_other by auto. auto.
        -- cbn [next pcs]. rewrite upd_same. auto.
        -- intros [T1 [T2 [T3 T4]]] E. unfold Tc. cbn [next pcs buf]. rewrite upd_same. cbn [fst snd]. refine (conj _ (conj _ (conj _ _))).
           ++ intros _. auto.
           ++ intros j Hj. exfalso. destruct (T2 j Hj) as [p [_ [[? _]|[? _]]]]; congruence.
           ++ intros X. exfalso. apply X. unfold hm. rewrite Eh. simpl. auto.
           ++ congruence.
      * injection H as <- <-. eexists. split; [simpl; rewrite Eh, Nat.eqb_refl; reflexivity|]. exists (nd s t). apply (C_leave s a d t); auto; try (intros X; exact (Cq _ X)); try (eapply data_pcs; [exact Da|reflexivity|reflexivity]).
    + (* queued *)
      assert (Hin : In t (hm a)) by (eapply hm_q; eauto).
      assert (Hnh : hold a <> Held t).
      { intros E. unfold hm in Cu. rewrite E in Cu. inversion Cu; subst. apply nth_error_In in Hi. auto. }
      assert (Hnl : hold a <> Left t).
      { intros E. destruct (K4 E) as [X _]. apply X. eapply nth_error_In; eauto. }
      assert (Huni : forall j, nth_error (queue a) j = Some t -> j = i).
      { intros j Hj. assert (Nq : NoDup (queue a)) by (unfold hm in Cu; destruct (hold a); auto; inversion Cu; auto).
        apply (proj1 (NoDup_nth_error (queue a)) Nq); [apply nth_error_Some; congruence|congruence]. }
      destruct (K2 i Hi) as [p [Hp [[Ep Eb]|[Ep [Ev Q]]]]]; rewrite (prog_case _ _ _ Ep) in H; destruct x; try discriminate H; cbn [code] in H.
      * injection H as <- <-. exists a. split; auto. exists d. apply (frame s a d _ a t); auto; try (intros X; exact (Cq _ X)); try (eapply data_pcs; [exact Da|reflexivity|reflexivity]).
        -- intros u Hu. cbn [pcs buf]. rewrite !upd_other by auto. repeat split. apply view_st. auto.
        -- cbn [pcs]. rewrite upd_same. auto.
        -- unfold Pv. apply data_reg. auto.
        -- intros T E. unfold Tc. refine (conj _ (conj _ (conj _ _))); try tauto.
           intros j Hj. apply Huni in Hj. subst j. exists p. rewrite E. split; auto. right. cbn [pcs]. rewrite !upd_same. cbn [fst snd].
           split; auto. split; [apply view_st_same|]. cbn [buf]. rewrite upd_same, Eb. intros y w [Hy|[]]. congruence.
      * destruct (Z.eqb_spec (view s t (Wt p)) 1) as [E1|E1]; injection H as <- <-.
        -- exists a. split; auto. exists d. apply (frame s a d _ a t); auto; try (intros X; exact (Cq _ X)); try (eapply data_pcs; [exact Da|reflexivity|reflexivity]).
           ++ intros u Hu. cbn [next pcs buf]. rewrite upd_other by auto. auto.
           ++ cbn [next pcs]. rewrite upd_same. auto.
           ++ intros T E. unfold Tc in *. rewrite E. cbn [next pcs buf]. rewrite upd_same. cbn [fst snd]. rewrite Ep in T. exact T.
        -- (* the node watched is the first one, and its owner's release has arrived *)
           assert (Em : mem s (Wt p) <> 1).
           { intros X. apply E1. unfold view. rewrite fwd_none; auto. intros w Hw. apply Q in Hw. apply (Wt_Pv _ _ Hw). }
           assert (Hoff : (off a + i)%nat = 0%nat).
           { destruct (off a + i)%nat as [|j] eqn:Ej; auto. exfalso. unfold chain in Hp. simpl in Hp. rewrite nth_error_map in Hp.
             destruct (nth_error (hm a) j) as [u|] eqn:Eu; [|discriminate]. injection Hp as <-. apply Em. apply Cq. eapply nth_error_In; eauto. }
           rewrite Hoff in Hp. injection Hp as <-. assert (i = 0%nat) by lia. subst i. unfold off in Hoff.
           destruct (queue a) as [|u q] eqn:Eq; [discriminate|]. injection Hi as ->.
           assert (Eh : hold a = Free) by (destruct (hold a) eqn:E; auto; [lia|congruence]).
           eexists. split; [simpl; rewrite Eh, Eq, Nat.eqb_refl; reflexivity|]. exists d. apply C_enter; auto.
    + (* the release is in flight *)
      destruct (K4 Eh) as [Hq [pre [post [Eb [Q P]]]]]. destruct P as [[Ep ->]|[Ep ->]]; rewrite (prog_case _ _ _ Ep) in H; destruct x; try discriminate H; cbn [code] in H.
      * injection H as <- <-. exists a. split; auto. exists d.
        assert (Hn : ~ In t (hm a)) by (unfold hm; rewrite Eh; auto). apply (frame s a d _ a t); auto; try (intros X; exact (Cq _ X)); try (eapply data_pcs; [exact Da|reflexivity|reflexivity]).
        -- intros u Hu. cbn [pcs buf]. rewrite !upd_other by auto. repeat split. apply view_st. auto.
        -- cbn [pcs]. rewrite upd_same. auto.
        -- unfold Wt. apply data_reg. auto.
        -- intros T E. unfold Tc. refine (conj _ (conj _ (conj _ _))); try congruence.
           ++ intros j Hj. exfalso. apply Hq. eapply nth_error_In; eauto.
           ++ intros _. split; auto. exists pre, [(Wt (nd s t), 1)]. cbn [pcs buf]. rewrite !upd_same. cbn [fst snd]. rewrite Eb, <- app_assoc. auto.
      * rewrite Eb in H. destruct pre; discriminate.
    + (* outside *)
      destruct (K3 Hn Hl) as [[Ep Eb]|[Ep Eb]]; rewrite (prog_case _ _ _ Ep) in H; destruct x; try discriminate H; cbn [code] in H.
      * injection H as <- <-. exists a. split; auto. exists d. apply (frame s a d _ a t); auto; try (intros X; exact (Cq _ X)); try (eapply data_pcs; [exact Da|reflexivity|reflexivity]).
        -- intros u Hu. cbn [pcs buf]. rewrite !upd_other by auto. repeat split. apply view_st. auto.
        -- cbn [pcs]. rewrite upd_same. auto.
        -- unfold Wt. apply data_reg. auto.
        -- intros T E. unfold Tc. refine (conj _ (conj _ (conj _ _))); try tauto.
           ++ intros X. exfalso. apply Hn. unfold hm. rewrite X. simpl. auto.
           ++ intros j Hj. exfalso. apply Hn. eapply hm_q; eauto.
           ++ intros _ _. right. cbn [pcs buf]. rewrite !upd_same, Eb. cbn [fst snd]. auto.
      * destruct (buf s t) eqn:Eb2; [|discriminate]. injection H as <- <-. eexists. split; [reflexivity|]. exists d. apply C_req; auto.
  - (* a store arrives *)
    destruct (buf s t) as [|[x v] r] eqn:Eb; [discriminate|]. injection H as <- <-. destruct (Ch t) as [K1 [K2 [K3 K4]]].
    assert (Quiet : forall T : Prop, (isdat x \/ x = Pv (nd s t) \/ (x = Pv d)) ->
      (Tc s a d t -> Tc (mkT (setm (mem s) x v) (upd (buf s) t r) (pcs s)) a d t) ->
      exists a', accepts q_step a (arr t x v) = Some a' /\ R (mkT (setm (mem s) x v) (upd (buf s) t r) (pcs s)) a').
    { intros _ Hx HT. exists a. split; [destruct x as [j|j]; auto; destruct Hx as [[]|[->| ->]]; rewrite arr_Pv; auto|]. exists d.
      assert (Hw : forall m, mem (mkT (setm (mem s) x v) (upd (buf s) t r) (pcs s)) (Wt m) = mem s (Wt m)).
      { intros m. cbn [mem]. apply setm_other. destruct x as [j|j]; [discriminate|]. destruct Hx as [[]|[->| ->]]; intros E; symmetry in E; apply (Wt_Pv _ _ E). }
      apply (frame s a d _ a t); auto; try (intros X; exact (Cq _ X)); try (eapply data_pcs; [exact Da|reflexivity|reflexivity]).
      - intros u Hu. cbn [pcs buf]. rewrite upd_other by auto. repeat split. apply view_fl; auto. right. destruct x as [j|j]; [discriminate|].
        destruct Hx as [[]|[->| ->]]; intros E; apply Pv_inj in E; [apply Hu; auto|apply (Cn u); auto].
      - cbn [mem]. apply setm_other. destruct x as [j|j]; [discriminate|]. destruct Hx as [[]|[->| ->]]; intros E; symmetry in E; apply (Pv_0 _ E).
      - intros Hin. rewrite Hw. auto.
      - apply data_flush; auto. }
    destruct (who a t) as [Eh|[[i Hi]|[Eh|[Hn Hl]]]].
    + destruct (K1 Eh) as [Ep [Ev Q]]. rewrite Eb in Q. apply (Quiet True).
      * destruct (Q x v) as [X|X]; [left; auto|auto|auto].
      * intros [T1 [T2 [T3 T4]]]. unfold Tc. cbn [pcs buf]. rewrite view_fl by auto. rewrite upd_same. refine (conj _ (conj _ (conj _ _))).
        -- intros _. split; auto. split; auto. intros y w Hy. apply (Q y w). right. auto.
        -- intros j Hj. exfalso. destruct (T2 j Hj) as [p [_ [[X _]|[X _]]]]; rewrite X in Ep; destruct Ep; discriminate.
        -- intros X. exfalso. apply X. unfold hm. rewrite Eh. simpl. auto.
        -- congruence.
    + destruct (K2 i Hi) as [p [Hp [[Ep Eb2]|[Ep [Ev Q]]]]]; [congruence|]. rewrite Eb in Q. apply (Quiet True).
      * right. left. apply (Q x v). left. auto.
      * intros [T1 [T2 [T3 T4]]]. unfold Tc. cbn [pcs buf]. rewrite view_fl by auto. rewrite upd_same. refine (conj _ (conj _ (conj _ _))).
        -- intros X. exfalso. destruct (T1 X) as [[Y|Y] _]; congruence.
        -- intros j Hj. destruct (T2 j Hj) as [p' [P1 P2]]. exists p'. split; [exact P1|]. destruct P2 as [[P2 _]|[P2 [P3 _]]]; [congruence|].
           right. split; auto. split; auto. intros y w Hy. apply (Q y w). right. auto.
        -- intros X. exfalso. apply X. eapply hm_q; eauto.
        -- intros X. exfalso. destruct (T4 X) as [Y _]. apply Y. eapply nth_error_In; eauto.
    + destruct (K4 Eh) as [Hq [pre [post [Eb2 [Q P]]]]]. rewrite Eb in Eb2. destruct pre as [|[y w] pre].
      * injection Eb2 as -> -> ->. rewrite arr_Wt0. eexists. split; [simpl; rewrite Eh, Nat.eqb_refl; reflexivity|].
        exists d. eapply C_visible; eauto.
      * injection Eb2 as <- <- Er. apply (Quiet True).
        -- destruct (Q x v) as [X|X]; [left; auto|auto|auto].
        -- intros [T1 [T2 [T3 T4]]]. unfold Tc. cbn [pcs buf]. rewrite upd_same. refine (conj _ (conj _ (conj _ _))); try congruence.
           ++ intros j Hj. exfalso. apply Hq. eapply nth_error_In; eauto.
           ++ intros _. split; auto. exists pre, post. split; [exact Er|]. split; auto. intros y w Hy. apply (Q y w). right. auto.
    + destruct (K3 Hn Hl) as [[_ X]|[Ep [[X _]|X]]]; [congruence|congruence|]. rewrite Eb in X. injection X as -> -> ->.
      rewrite arr_Wt1. exists a. split; auto. exists d. apply (frame s a d _ a t); auto; try (intros X; exact (Cq _ X)); try (eapply data_pcs; [exact Da|reflexivity|reflexivity]).
      * intros u Hu. cbn [pcs buf]. rewrite upd_other by auto. repeat split. apply view_fl; auto. right. intros E. symmetry in E. apply (Wt_Pv _ _ E).
      * intros m Hm. cbn [mem]. apply setm_other. intros E. apply Wt_inj in E. auto.
      * intros _. cbn [mem]. apply setm_same.
      * unfold Wt. eapply data_flush; eauto.
      * intros [T1 [T2 [T3 T4]]] E. unfold Tc. cbn [pcs buf mem]. rewrite upd_same, setm_same. refine (conj _ (conj _ (conj _ _))); try tauto.
        -- intros X. exfalso. apply Hn. unfold hm. rewrite X. simpl. auto.
        -- intros j Hj. exfalso. apply Hn. eapply hm_q; eauto.
Qed.

Lemma clh_all : forall D G ls s log, run (step code arr) (init D G) ls = Some (s, log) -> q_legal D log.
Proof. intros D G ls s log H. destruct (R_run _ _ R C_step _ _ _ _ _ (R_init D G) H) as [a [A _]]. exists a. auto. Qed.

(** * Progress *)
Definition okl (l : lab act) : Prop := match l with Flush _ | Go _ ATick | Go _ AUnlock => True | _ => False end.
Lemma arr_vis : forall t x v e, In e (arr t x v) -> exists u, e = Visible u.
Proof. intros t [i|i] v e H; simpl in H; [destruct H|]. destruct (Nat.odd i && (v =? 0)); simpl in H; [destruct H as [<-|[]]; eauto|destruct H]. Qed.

Lemma clh_gets : forall D G s t p, reachable (step code arr) (init D G) s -> pcof s t = L3 p \/ pcof s t = L4 p ->
  can code arr okl s (fun _ log => In (Enter t) log).
Proof.
  intros D G s t p [ls [log Hr]] Ht. destruct (R_run _ _ R C_step _ _ _ _ _ (R_init D G) Hr) as [a [_ Ra]].
  apply (q_progress code arr R okl) with a; auto.
  - clear. intros s a h HR Eh. change (can code arr okl s (freed R a)).
    assert (Hl : forall s a h, R s a -> hold a = Left h -> can code arr okl s (freed R a)).
    { apply (left_freed code arr arr_vis R C_step okl); [intros; exact I|]. intros s0 a0 h0 [d0 C0] E0 B0.
      destruct (c_thr _ _ _ C0 h0) as [_ [_ [_ K]]]. destruct (K E0) as [_ [pre [post [B1 _]]]]. rewrite B0 in B1. destruct pre; discriminate. }
    destruct Eh as [Eh|Eh]; [|eauto].
    assert (U : forall s a m q, R s a -> hold a = Held h -> pcs s h = (m, U2 q) -> can code arr okl s (freed R a)).
    { intros s0 a0 m q R0 E0 P0. eapply (freed_step code arr R C_step okl) with (l := Go h ATick); [exact R0|cbn [step]; rewrite P0; cbn [code]; reflexivity|exact I| | |].
      - simpl. rewrite E0, Nat.eqb_refl. reflexivity.
      - reflexivity.
      - intros R1. apply (Hl _ _ h); auto. }
    pose proof HR as [d HC]. destruct (c_thr _ _ _ HC h) as [K _]. destruct (K Eh) as [[Ep|Ep] _].
    + eapply (freed_step code arr R C_step okl) with (l := Go h AUnlock); [exact HR|cbn [step]; rewrite (prog_case _ _ _ Ep); cbn [code]; reflexivity|exact I|reflexivity|reflexivity|].
      intros R1. eapply U; eauto. cbn [next pcs]. apply upd_same.
    + eapply U; eauto. apply prog_case. eauto.
  - clear. intros s a u q HR Eh Eq.
    assert (E4 : forall s a, R s a -> hold a = Free -> queue a = u :: q -> forall p, pcof s u = L4 p -> can code arr okl s (fun s' log => exists a', R s' a' /\ In (Enter u) log /\ queue a' = q)).
    { clear. intros s a HR Eh Eq p Ep. pose proof HR as [d HC]. destruct (c_thr _ _ _ HC u) as [_ [K _]].
      destruct (K O) as [p' [Hp P]]; [rewrite Eq; auto|]. destruct P as [[P _]|[P [_ Q]]]; [congruence|]. assert (p' = p) by congruence. subst p'.
      unfold off in Hp. rewrite Eh in Hp. injection Hp as <-.
      assert (Hst : step code arr s (Go u ATick) = Some (next s u (nd s u, CS), [Enter u])).
      { cbn [step]. rewrite (prog_case _ _ _ Ep). cbn [code]. unfold view. rewrite fwd_none; [|intros w Hw; apply Q in Hw; apply (Wt_Pv _ _ Hw)].
        rewrite (c_wd _ _ _ HC), Eh. reflexivity. }
      destruct (C_step _ _ _ _ _ HR Hst) as [a2 [A2 R2]]. eapply can_step; [exact Hst|exact I|]. apply can_done. exists a2. split; auto. split; [simpl; auto|].
      simpl in A2. rewrite Eh, Eq, Nat.eqb_refl in A2. injection A2 as <-. auto. }
    pose proof HR as [d HC]. destruct (c_thr _ _ _ HC u) as [_ [K _]]. destruct (K O) as [p [Hp P]]; [rewrite Eq; auto|].
    destruct P as [[P _]|[P _]]; [|eapply E4; eauto].
    assert (Hst : exists s1, step code arr s (Go u ATick) = Some (s1, []) /\ pcof s1 u = L4 p).
    { eexists. split; [cbn [step]; rewrite (prog_case _ _ _ P); cbn [code]; reflexivity|]. cbn [pcs]. rewrite upd_same. auto. }
    destruct Hst as [s1 [Hst Ep1]]. destruct (C_step _ _ _ _ _ HR Hst) as [a2 [A2 R2]]. injection A2 as <-.
    eapply can_step; [exact Hst|exact I|]. eapply E4; eauto.
  - destruct Ra as [d HC]. destruct (c_thr _ _ _ HC t) as [K1 [K2 [K3 K4]]]. destruct (who a t) as [Eh|[[i Hi]|[Eh|[Hn Hl]]]].
    + destruct (K1 Eh) as [[E|E] _]; rewrite E in Ht; destruct Ht; discriminate.
    + eapply nth_error_In; eauto.
    + destruct (K4 Eh) as [_ [pre [post [_ [_ [[E _]|[E _]]]]]]]; rewrite E in Ht; destruct Ht; discriminate.
    + destruct (K3 Hn Hl) as [[E _]|[E _]]; rewrite E in Ht; destruct Ht; discriminate.
Qed.
