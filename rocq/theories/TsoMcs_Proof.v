(** Proofs about ck_spinlock_mcs on x86-TSO. *)
From Coq Require Import ZArith Arith List Bool Lia.
From Verif Require Import Lib Tso TsoQueue_Spec TsoQueue_Proof TsoMcs_Model.
Import ListNotations.
Local Open Scope Z_scope.

(** the threads whose nodes are in the queue *)
Definition hm (a : qlock) : list nat := match hold a with Held t => t :: queue a | _ => queue a end.
Definition tailv (l : list nat) : Z := match l with [] => 0 | _ => ptr (last l 0%nat) end.
Definition owned (t : nat) (b : list (loc * Z)) : Prop := forall x v, In (x, v) b -> (x = Lk t /\ v = 1) \/ (x = Nx t /\ v = 0).

(** [u] has taken the place behind [p]: its link is not stored, is in its buffer, or is visible *)
Definition pair (s : tso pc) (p u : nat) : Prop :=
  (pcs s u = L4 p /\ mem s (Nx p) = 0 /\ buf s u = []) \/
  (pcs s u = L5 /\ mem s (Nx p) = 0 /\ buf s u = [(Nx p, ptr u)]) \/
  (pcs s u = L5 /\ mem s (Nx p) = ptr u /\ buf s u = []).
Fixpoint chain (s : tso pc) (l : list nat) : Prop :=
  match l with
  | [] => True
  | p :: r => match r with [] => mem s (Nx p) = 0 | u :: _ => pair s p u end /\ chain s r
  end.
Definition head (s : tso pc) (a : qlock) : Prop :=
  match hold a, queue a with
  | Held _, _ => True
  | Left _, [] => False
  | Free, [] => True
  | Left _, u :: _ => pcs s u = L5 /\ buf s u = []
  | Free, u :: _ => pcs s u = L5 /\ buf s u = [] /\ mem s (Lk u) = 0
  end.
Definition lkd (a : qlock) : list nat := match hold a with Free => tl (queue a) | _ => queue a end.
Definition inside (s : tso pc) (a : qlock) (t : nat) : Prop :=
  pcs s t = CS \/ pcs s t = U1 \/ pcs s t = U2 \/ (pcs s t = U3 /\ queue a <> []) \/
  exists n q, pcs s t = U4 n /\ queue a = n :: q /\ mem s (Nx t) <> 0.
Definition outside (s : tso pc) (t : nat) : Prop :=
  pcs s t = Idle \/ (exists b, pcs s t = P2 b /\ view s t (Lk t) = 1) \/
  (exists b, pcs s t = P3 b /\ view s t (Lk t) = 1 /\ view s t (Nx t) = 0).
Definition Tc (s : tso pc) (a : qlock) (t : nat) : Prop :=
  (hold a = Held t -> inside s a t /\ alldat (buf s t)) /\
  (~ In t (hm a) -> outside s t /\
    (hold a <> Left t -> owned t (buf s t)) /\
    (hold a = Left t -> exists pre u q post, buf s t = pre ++ (Lk u, 0) :: post /\ alldat pre /\ queue a = u :: q /\ owned t post)).

Record M (s : tso pc) (a : qlock) : Prop := {
  m_tail : mem s (Reg 0) = tailv (hm a);
  m_nd : NoDup (hm a);
  m_left : forall t, hold a = Left t -> ~ In t (queue a);
  m_chain : chain s (hm a);
  m_head : head s a;
  m_lk : forall u, In u (lkd a) -> mem s (Lk u) = 1;
  m_thr : forall t, Tc s a t;
  m_dat : data (owner (hold a)) (dat a) s
}.

Lemma Lk_inj : forall m m', Lk m = Lk m' -> m = m'. Proof. unfold Lk. intros. injection H as H. lia. Qed.
Lemma Nx_inj : forall m m', Nx m = Nx m' -> m = m'. Proof. unfold Nx. intros. injection H as H. lia. Qed.
Lemma Lk_Nx : forall m m', Lk m <> Nx m'. Proof. unfold Lk, Nx. intros m m' H. injection H as H. lia. Qed.
Lemma Lk_0 : forall m, Lk m <> Reg 0. Proof. unfold Lk. intros m H. injection H as H. lia. Qed.
Lemma Nx_0 : forall m, Nx m <> Reg 0. Proof. unfold Nx. intros m H. injection H as H. lia. Qed.
Lemma Nx_Lk : forall m m', Nx m <> Lk m'. Proof. intros m m' H. symmetry in H. apply (Lk_Nx _ _ H). Qed.
Lemma arr_Lk0 : forall t m, arr t (Lk m) 0 = [Visible t].
Proof. intros. unfold arr, Lk. replace (Nat.odd (1 + 2 * m)) with true; [reflexivity|]. symmetry. apply Nat.odd_spec. exists m. lia. Qed.
Lemma arr_Lk1 : forall t m, arr t (Lk m) 1 = [].
Proof. intros. unfold arr, Lk. rewrite andb_false_r. reflexivity. Qed.
Lemma arr_Nx : forall t m v, arr t (Nx m) v = [].
Proof.
  intros. unfold arr, Nx. replace (Nat.odd (2 + 2 * m)) with false; [reflexivity|]. symmetry. rewrite <- Nat.negb_even.
  replace (Nat.even (2 + 2 * m)) with true; [reflexivity|]. symmetry. apply Nat.even_spec. exists (S m). lia.
Qed.
Lemma ptr_pos : forall t, ptr t <> 0. Proof. unfold ptr. intros. lia. Qed.
Lemma ptr_inj : forall t u, ptr t = ptr u -> t = u. Proof. unfold ptr. intros. lia. Qed.
Lemma node_ptr : forall t, node (ptr t) = t. Proof. unfold node, ptr. intros. rewrite Nat2Z.id. auto. Qed.

Lemma view_st : forall (s : tso pc) t x v (p : nat -> pc) u y, y <> x \/ u <> t ->
  view (mkT (mem s) (upd (buf s) t (buf s t ++ [(x, v)])) p) u y = view s u y.
Proof.
  intros s t x v p u y H. unfold view. cbn [mem buf]. destruct (Nat.eq_dec u t) as [->|Hn]; [|rewrite upd_other by auto; auto].
  rewrite upd_same, fwd_app. simpl. destruct (loc_eqb_spec x y); auto. destruct H; congruence.
Qed.
Lemma view_st_same : forall (s : tso pc) t x v (p : nat -> pc), view (mkT (mem s) (upd (buf s) t (buf s t ++ [(x, v)])) p) t x = v.
Proof. intros. unfold view. cbn [mem buf]. rewrite upd_same, fwd_app. simpl. destruct (loc_eqb_spec x x); congruence. Qed.
Lemma view_fl : forall (s : tso pc) t x v r (p : nat -> pc) u y, buf s t = (x, v) :: r -> u = t \/ y <> x ->
  view (mkT (setm (mem s) x v) (upd (buf s) t r) p) u y = view s u y.
Proof.
  intros s t x v r p u y Hb H. unfold view. cbn [mem buf]. destruct (Nat.eq_dec u t) as [->|Hn].
  - rewrite upd_same, Hb. rewrite <- fwd_flush. auto.
  - rewrite upd_other by auto. rewrite setm_other; [auto|]. destruct H; congruence.
Qed.

Lemma chain_ext : forall (s s' : tso pc) l, chain s l -> (forall u, In u l -> mem s' (Nx u) = mem s (Nx u)) ->
  (forall u, In u (tl l) -> pcs s' u = pcs s u /\ buf s' u = buf s u) -> chain s' l.
Proof.
  intros s s'. induction l as [|p r IH]; intros Hc Hm Hp; [exact I|]. destruct Hc as [H1 H2]. split.
  - destruct r as [|u r]; [rewrite Hm; simpl; auto|]. unfold pair in *. destruct (Hp u) as [-> ->]; [simpl; auto|]. rewrite Hm by (simpl; auto). exact H1.
  - apply IH; auto.
    + intros; apply Hm; simpl; auto.
    + intros u Hu. apply Hp. simpl. destruct r; [destruct Hu|simpl in *; auto].
Qed.
Lemma chain_snoc : forall (s : tso pc) l p t, chain s (l ++ [p]) -> pair s p t -> mem s (Nx t) = 0 -> chain s ((l ++ [p]) ++ [t]).
Proof.
  intros s l p t. induction l as [|x r IH]; intros Hc Hp Ht.
  - simpl. auto.
  - cbn [app] in *. destruct Hc as [H1 H2]. split; [|apply IH; auto]. destruct r; exact H1.
Qed.
Lemma in_pair : forall (l : list nat) t, In t (tl l) -> exists l1 p l2, l = l1 ++ p :: t :: l2.
Proof.
  intros [|p r] t H; [destruct H|]. simpl in H. revert p. induction r as [|x r IH]; intros p; [destruct H|].
  destruct H as [->|H]; [exists [], p, r; auto|]. destruct (IH H x) as [l1 [p' [l2 E]]]. exists (p :: l1), p', l2. rewrite E. auto.
Qed.
Lemma chain_mid : forall (s : tso pc) l1 p t l2, chain s (l1 ++ p :: t :: l2) -> pair s p t.
Proof. intros s. induction l1 as [|x r IH]; intros p t l2 [H1 H2]; auto. eapply IH; eauto. Qed.
(** a change of one link *)
Lemma chain_at : forall (s s' : tso pc) l1 p t l2, NoDup (l1 ++ p :: t :: l2) -> chain s (l1 ++ p :: t :: l2) -> pair s' p t ->
  (forall u, u <> p -> mem s' (Nx u) = mem s (Nx u)) -> (forall u, u <> t -> pcs s' u = pcs s u /\ buf s' u = buf s u) ->
  chain s' (l1 ++ p :: t :: l2).
Proof.
  intros s s' l1 p t l2. induction l1 as [|x r IH]; intros Nd Hc Hp Hm Ho.
  - destruct Hc as [_ Hc]. inversion Nd as [|? ? N1 N2]; subst. inversion N2 as [|? ? N3 N4]; subst. split; auto. eapply chain_ext; [exact Hc| |].
    + intros u Hu. apply Hm. intros ->. auto.
    + intros u Hu. apply Ho. intros ->. auto.
  - cbn [app] in *. destruct Hc as [H1 H2]. inversion Nd as [|? ? N1 N2]; subst. split; [|apply IH; auto].
    assert (Hx : x <> p) by (intros ->; apply N1; apply in_or_app; simpl; auto).
    assert (Hpt : p <> t) by (intros ->; apply NoDup_remove_2 in N2; apply N2; apply in_or_app; simpl; auto).
    destruct r as [|y r]; cbn [app] in *; unfold pair in *; rewrite Hm by auto.
    + destruct (Ho p) as [-> ->]; auto.
    + assert (Hy : y <> t) by (intros ->; inversion N2; subst; apply H3; apply in_or_app; simpl; auto). destruct (Ho y) as [-> ->]; auto.
Qed.

Lemma tailv_snoc : forall l t, tailv (l ++ [t]) = ptr t.
Proof. intros l t. unfold tailv. rewrite last_last. destruct l; auto. Qed.
Lemma tailv_cases : forall l, (l = [] /\ tailv l = 0) \/ exists l1 p, l = l1 ++ [p] /\ tailv l = ptr p.
Proof. intros l. destruct (rev l) as [|p r] eqn:E.
  - left. apply (f_equal (@rev nat)) in E. rewrite rev_involutive in E. subst. auto.
  - right. apply (f_equal (@rev nat)) in E. rewrite rev_involutive in E. simpl in E. exists (rev r), p. split; auto. rewrite E. apply tailv_snoc.
Qed.

Lemma who : forall s a t, M s a -> hold a = Held t \/ In t (queue a) \/ ~ In t (hm a).
Proof.
  intros s a t H. destruct (in_dec Nat.eq_dec t (hm a)) as [Hin|Hin]; auto. unfold hm in Hin. destruct (hold a); simpl in Hin; auto. destruct Hin as [->|Hin]; auto.
Qed.
Lemma hm_q : forall a t, In t (queue a) -> In t (hm a).
Proof. intros a t H. unfold hm. destruct (hold a); simpl; auto. Qed.
Lemma busy_hm : forall s a, M s a -> busy a = match hm a with [] => false | _ => true end.
Proof. intros s a H. pose proof (m_head _ _ H) as Hh. unfold busy, hm, head in *. destruct (hold a), (queue a); auto. destruct Hh. Qed.
Lemma busy_tail : forall s a, M s a -> negb (mem s (Reg 0) =? 0) = busy a.
Proof.
  intros s a H. rewrite (busy_hm _ _ H), (m_tail _ _ H). destruct (tailv_cases (hm a)) as [[-> ->]|[l1 [p [E E2]]]]; auto.
  rewrite E2. destruct (Z.eqb_spec (ptr p) 0) as [X|X]; [destruct (ptr_pos _ X)|]. rewrite E. destruct l1; auto.
Qed.
(** where a queued thread stands *)
Lemma queued : forall s a t, M s a -> In t (queue a) ->
  (exists q, queue a = t :: q /\ pcs s t = L5 /\ buf s t = [] /\ (hold a = Free /\ mem s (Lk t) = 0 \/ (exists h, hold a = Left h) /\ mem s (Lk t) = 1)) \/
  (exists l1 p l2, hm a = l1 ++ p :: t :: l2 /\ pair s p t /\ mem s (Lk t) = 1).
Proof.
  intros s a t H Hin. assert (D : (exists q, queue a = t :: q /\ forall h, hold a <> Held h) \/ (In t (tl (hm a)) /\ In t (lkd a))).
  { unfold hm, lkd. destruct (hold a) as [|h|h] eqn:Eh.
    - destruct (queue a) as [|u q]; [destruct Hin|]. destruct Hin as [->|Hin]; [left; exists q; split; auto; discriminate|]. right. simpl. auto.
    - right. simpl. auto.
    - destruct (queue a) as [|u q] eqn:Eq; [destruct Hin|]. destruct Hin as [->|Hin]; [left; exists q; split; auto; discriminate|]. right. simpl. auto. }
  destruct D as [[q [Eq Hh]]|[D1 D2]].
  - left. exists q. split; auto. pose proof (m_head _ _ H) as Hd. unfold head in Hd. rewrite Eq in Hd. destruct (hold a) as [|h|h] eqn:Eh.
    + destruct Hd as [E1 [E2 E3]]. auto.
    + destruct (Hh h). auto.
    + destruct Hd as [E1 E2]. split; auto. split; auto. right. split; eauto. apply (m_lk _ _ H). unfold lkd. rewrite Eh, Eq. simpl. auto.
  - right. destruct (in_pair _ _ D1) as [l1 [p [l2 E]]]. exists l1, p, l2. split; auto. split.
    + pose proof (m_chain _ _ H) as Hc. rewrite E in Hc. eapply chain_mid; eauto.
    + apply (m_lk _ _ H). auto.
Qed.

(** a step of [t] that the queue does not notice *)
Lemma frame : forall s a s' a' t, M s a -> hold a' = hold a -> queue a' = queue a ->
  (forall u, u <> t -> pcs s' u = pcs s u /\ buf s' u = buf s u) ->
  mem s' (Reg 0) = mem s (Reg 0) -> (forall u, u <> t \/ In t (hm a) -> mem s' (Nx u) = mem s (Nx u) /\ mem s' (Lk u) = mem s (Lk u)) ->
  (In t (queue a) -> pcs s' t = pcs s t /\ buf s' t = buf s t) -> (Tc s a t -> Tc s' a t) -> data (owner (hold a)) (dat a') s' -> M s' a'.
Proof.
  intros s a s' a' t [Mt Mn Ml Mc Mh Mk Mr Md] Eh Eq Ho H0 Hm Hq Ht Hd.
  assert (Ehm : hm a' = hm a) by (unfold hm; rewrite Eh, Eq; auto).
  assert (Hm' : forall u, In u (hm a) -> mem s' (Nx u) = mem s (Nx u) /\ mem s' (Lk u) = mem s (Lk u)).
  { intros u Hu. apply Hm. destruct (Nat.eq_dec u t) as [->|]; auto. }
  assert (Hq' : forall u, In u (queue a) -> pcs s' u = pcs s u /\ buf s' u = buf s u).
  { intros u Hu. destruct (Nat.eq_dec u t) as [->|]; auto. }
  constructor; rewrite ?Ehm.
  - congruence.
  - auto.
  - intros u. rewrite Eh, Eq. auto.
  - eapply chain_ext; [exact Mc|intros u Hu; apply Hm'; auto|]. intros u Hu. apply Hq'. unfold hm in Hu. destruct (hold a), (queue a); simpl in *; auto.
  - unfold head in *. rewrite Eh, Eq. destruct (hold a) eqn:Eho, (queue a) as [|u q] eqn:Equ; auto.
    + destruct (Hq' u) as [-> ->]; [simpl; auto|]. destruct (Hm' u) as [_ ->]; auto. unfold hm. rewrite Eho, Equ. simpl. auto.
    + destruct (Hq' u) as [-> ->]; [simpl; auto|]. auto.
  - intros u Hu. assert (Hu' : In u (lkd a)) by (unfold lkd in *; rewrite Eh, Eq in Hu; auto). rewrite <- (Mk u Hu'). apply Hm'.
    apply hm_q. unfold lkd in Hu'. destruct (hold a), (queue a); simpl in *; auto.
  - intros u. assert (T : Tc s' a u).
    { destruct (Nat.eq_dec u t) as [->|Hut]; auto. destruct (Ho u Hut) as [E1 E2]. destruct (Hm u) as [E3 E4]; auto.
      pose proof (Mr u) as K. unfold Tc, inside, outside, view in *. rewrite E1, E2, E3, E4. exact K. }
    unfold Tc, inside in *. rewrite Eh, Eq, Ehm. exact T.
  - rewrite Eh. exact Hd.
Qed.

Lemma M_init : forall D G, M (init D G) (q_init D).
Proof.
  intros D G. constructor; simpl; auto; try (constructor; fail); try tauto; try discriminate.
  - intros t. split; [discriminate|]. intros _. split; [left; auto|]. split; [intros _ x v []|discriminate].
  - split; auto. intros u i v [].
Qed.

(** an outsider whose buffer is empty at its swap *)
Lemma out_p3 : forall s a t b, M s a -> ~ In t (hm a) -> pcs s t = P3 b -> buf s t = [] ->
  hold a <> Left t /\ mem s (Lk t) = 1 /\ mem s (Nx t) = 0.
Proof.
  intros s a t b H Hn Ep Eb. destruct (m_thr _ _ H t) as [_ K]. destruct (K Hn) as [K1 [K2 K3]]. split.
  - intros E. destruct (K3 E) as [pre [u [q [post [E1 _]]]]]. rewrite Eb in E1. destruct pre; discriminate.
  - destruct K1 as [K1|[[b' [K1 _]]|[b' [K1 [K4 K5]]]]]; try congruence. unfold view in K4, K5. rewrite Eb in K4, K5. auto.
Qed.

Lemma M_grab : forall s a t, M s a -> hm a = [] -> hold a <> Left t -> buf s t = [] -> mem s (Nx t) = 0 ->
  M (mkT (setm (mem s) (Reg 0) (ptr t)) (buf s) (upd (pcs s) t CS)) {| hold := Held t; queue := []; dat := dat a |}.
Proof.
  intros s a t H He Hl Eb En. pose proof (m_head _ _ H) as Hh.
  assert (Eh : hold a = Free /\ queue a = []).
  { unfold hm, head in *. destruct (hold a), (queue a); try discriminate; auto. destruct Hh. }
  destruct Eh as [Eh Eq]. destruct H as [Mt Mn Ml Mc _ Mk Mr Md]. set (s' := mkT _ _ _).
  assert (Hm : forall x, x <> Reg 0 -> mem s' x = mem s x) by (intros; unfold s'; cbn [mem]; apply setm_other; congruence).
  constructor; unfold hm; cbn [hold queue dat app owner tailv last]; auto.
  - constructor; [intros []|constructor].
  - simpl. split; auto.
  - exact I.
  - intros u [].
  - intros u. unfold Tc, hm. cbn [hold queue]. destruct (Nat.eq_dec u t) as [->|Hu].
    + split.
      * intros _. split; [left; unfold s'; cbn [pcs]; apply upd_same|]. change (buf s' t) with (buf s t). rewrite Eb. intros x v [].
      * intros X. exfalso. apply X. simpl. auto.
    + split; [congruence|]. intros _. destruct (Mr u) as [_ K]. destruct K as [K1 [K2 _]]; [rewrite He; auto|]. split.
      * unfold outside, view in *. rewrite !Hm by (apply Lk_0 || apply Nx_0). unfold s'. cbn [pcs buf]. rewrite upd_other by auto. auto.
      * split; [|discriminate]. intros _. apply K2. congruence.
  - unfold s'. apply data_rmw. rewrite Eh in Md. apply data_take. auto.
Qed.

Lemma M_join : forall s a t p l, M s a -> hm a = l ++ [p] -> ~ In t (hm a) -> hold a <> Left t -> buf s t = [] -> mem s (Lk t) = 1 -> mem s (Nx t) = 0 ->
  M (mkT (setm (mem s) (Reg 0) (ptr t)) (buf s) (upd (pcs s) t (L4 p))) {| hold := hold a; queue := queue a ++ [t]; dat := dat a |}.
Proof.
  intros s a t p l [Mt Mn Ml Mc Mh Mk Mr Md] E Hn Hl Eb El En. set (s' := mkT _ _ _). set (a' := {| hold := hold a; queue := queue a ++ [t]; dat := dat a |}).
  assert (Hm : forall x, x <> Reg 0 -> mem s' x = mem s x) by (intros; unfold s'; cbn [mem]; apply setm_other; congruence).
  assert (Ehm : hm a' = hm a ++ [t]) by (unfold hm, a'; simpl; destruct (hold a); auto).
  assert (Hp : forall u, u <> t -> pcs s' u = pcs s u) by (intros; unfold s'; cbn [pcs]; apply upd_other; auto).
  assert (Hc : chain s' (l ++ [p])).
  { rewrite E in Mc. eapply chain_ext; [exact Mc|intros; apply Hm; apply Nx_0|]. intros u Hu. split; auto. apply Hp. intros ->. apply Hn. rewrite E. destruct (l ++ [p]); simpl in *; auto. }
  assert (Hpp : mem s (Nx p) = 0).
  { rewrite E in Mc. clear - Mc. induction l as [|x r IH]; [apply Mc|]. destruct Mc as [_ Mc]. auto. }
  constructor; rewrite ?Ehm.
  - unfold s'. cbn [mem]. rewrite setm_same, tailv_snoc. auto.
  - apply nodup_snoc; auto.
  - intros u Hu. change (In u (queue a ++ [t]) -> False). intros X. apply in_app_or in X. destruct X as [X|[<-|[]]]; [eapply Ml; eauto|auto].
  - rewrite E. apply chain_snoc; auto.
    left. unfold s'. cbn [pcs buf]. rewrite upd_same. auto.
  - unfold head in *. change (hold a') with (hold a). change (queue a') with (queue a ++ [t]). destruct (hold a) eqn:Eh; auto.
    + destruct (queue a) as [|u q] eqn:Eq; [exfalso; unfold hm in E; rewrite Eh, Eq in E; destruct l; discriminate|]. cbn [app]. rewrite Hm by apply Lk_0.
      rewrite Hp; auto. intros ->. apply Hn. unfold hm. rewrite Eh, Eq. simpl. auto.
    + destruct (queue a) as [|u q] eqn:Eq; [destruct Mh|]. cbn [app]. rewrite Hp; auto. intros ->. apply Hn. unfold hm. rewrite Eh, Eq. simpl. auto.
  - intros u Hu. rewrite Hm by apply Lk_0. unfold lkd in *. change (hold a') with (hold a) in Hu. change (queue a') with (queue a ++ [t]) in Hu.
    assert (X : In u (match hold a with Free => tl (queue a) | _ => queue a end) \/ u = t).
    { destruct (hold a); try (apply in_app_or in Hu; destruct Hu as [Hu|[<-|[]]]; auto).
      destruct (queue a); simpl in *; [tauto|]. apply in_app_or in Hu; destruct Hu as [Hu|[<-|[]]]; auto. }
    destruct X as [X| ->]; auto.
  - intros u. destruct (Mr u) as [K1 K2]. unfold Tc. rewrite Ehm. change (hold a') with (hold a). change (queue a') with (queue a ++ [t]). change (buf s' u) with (buf s u).
    destruct (Nat.eq_dec u t) as [->|Hu].
    + split; [|intros X; exfalso; apply X; apply in_or_app; simpl; auto]. intros X. exfalso. apply Hn. unfold hm. rewrite X. simpl. auto.
    + split.
      * intros X. destruct (K1 X) as [I1 I2]. split; auto. unfold inside in *. rewrite Hp by auto. rewrite Hm by apply Nx_0. change (queue a') with (queue a ++ [t]).
        destruct I1 as [I1|[I1|[I1|[[I1 I3]|[n [q [I1 [I3 I4]]]]]]]]; auto.
        -- right. right. right. left. split; auto. intros Z0. apply app_eq_nil in Z0. destruct Z0. discriminate.
        -- right. right. right. right. exists n, (q ++ [t]). rewrite I3. auto.
      * intros X. destruct K2 as [O1 [O2 O3]]; [intros Z0; apply X; apply in_or_app; auto|]. split; [|split; auto].
        -- unfold outside, view in *. change (buf s' u) with (buf s u). rewrite !Hm by (apply Lk_0 || apply Nx_0). rewrite Hp by auto. auto.
        -- intros Y. destruct (O3 Y) as [pre [v [q [post [B1 [B2 [B3 B4]]]]]]]. exists pre, v, (q ++ [t]), post. rewrite B3. auto.
  - unfold s', a'. cbn [hold dat]. apply data_rmw. auto.
Qed.

(** the link is stored *)
Lemma M_link : forall s a t p l1 l2, M s a -> hm a = l1 ++ p :: t :: l2 -> pcs s t = L4 p ->
  M (mkT (mem s) (upd (buf s) t (buf s t ++ [(Nx p, ptr t)])) (upd (pcs s) t L5)) a.
Proof.
  intros s a t p l1 l2 [Mt Mn Ml Mc Mh Mk Mr Md] E Ep. set (s' := mkT _ _ _).
  assert (Hp : pair s p t) by (rewrite E in Mc; eapply chain_mid; eauto).
  destruct Hp as [[_ [Em Eb]]|[[X _]|[X _]]]; try congruence.
  assert (Ho : forall u, u <> t -> pcs s' u = pcs s u /\ buf s' u = buf s u) by (intros; unfold s'; cbn [pcs buf]; rewrite !upd_other by auto; auto).
  assert (Hq : forall h, hold a = Held h -> h <> t).
  { intros h Eh ->. unfold hm in E. rewrite Eh in E. destruct l1 as [|x r]; injection E as E1 E2; unfold hm in Mn; rewrite Eh in Mn.
    - inversion Mn; subst. apply H1. rewrite E2. simpl. auto.
    - inversion Mn; subst. apply H1. rewrite E2. apply in_or_app. simpl. auto. }
  constructor; auto.
  - rewrite E in *. eapply chain_at; eauto. right. left. unfold s'. cbn [pcs mem buf]. rewrite !upd_same, Eb. auto.
  - unfold head in *. destruct (hold a) eqn:Eh, (queue a) as [|u q] eqn:Eq; auto.
    + destruct (Ho u) as [-> ->]; auto. intros ->. destruct Mh as [Mh _]. congruence.
    + destruct (Ho u) as [-> ->]; auto. intros ->. destruct Mh as [Mh _]. congruence.
  - intros u. destruct (Nat.eq_dec u t) as [->|Hu].
    + split; [intros X; destruct (Hq _ X); auto|]. intros X. exfalso. apply X. rewrite E. apply in_or_app. simpl. auto.
    + destruct (Ho u Hu) as [E1 E2]. pose proof (Mr u) as K. unfold Tc, inside, outside, view in *. rewrite E1, E2. exact K.
  - apply (data_reg (owner (hold a))). auto.
Qed.

(** the link arrives *)
Lemma M_linkfl : forall s a t p l1 l2, M s a -> hm a = l1 ++ p :: t :: l2 -> buf s t = [(Nx p, ptr t)] ->
  M (mkT (setm (mem s) (Nx p) (ptr t)) (upd (buf s) t []) (pcs s)) a.
Proof.
  intros s a t p l1 l2 [Mt Mn Ml Mc Mh Mk Mr Md] E Eb. set (s' := mkT _ _ _).
  assert (Hp : pair s p t) by (rewrite E in Mc; eapply chain_mid; eauto).
  destruct Hp as [[_ [_ X]]|[[Ep [Em _]]|[_ [_ X]]]]; try (rewrite Eb in X; discriminate).
  assert (Ho : forall u, u <> t -> pcs s' u = pcs s u /\ buf s' u = buf s u) by (intros; unfold s'; cbn [pcs buf]; rewrite !upd_other by auto; auto).
  assert (Hm : forall x, x <> Nx p -> mem s' x = mem s x) by (intros; unfold s'; cbn [mem]; apply setm_other; congruence).
  assert (Hk : forall u, mem s' (Lk u) = mem s (Lk u)) by (intros; apply Hm; apply Lk_Nx).
  assert (Hin : In p (hm a)) by (rewrite E; apply in_or_app; simpl; auto).
  assert (Hq : forall h, hold a = Held h -> h <> t).
  { intros h Eh ->. unfold hm in E. rewrite Eh in E. destruct l1 as [|x r]; injection E as E1 E2; unfold hm in Mn; rewrite Eh in Mn.
    - inversion Mn; subst. apply H1. rewrite E2. simpl. auto.
    - inversion Mn; subst. apply H1. rewrite E2. apply in_or_app. simpl. auto. }
  constructor; auto.
  - rewrite E in *. eapply chain_at; eauto.
    + right. right. unfold s'. cbn [pcs mem buf]. rewrite !upd_same, setm_same. auto.
    + intros u Hu. apply Hm. intros X. apply Hu. apply Nx_inj. auto.
  - unfold head in *. destruct (hold a) eqn:Eh, (queue a) as [|u q] eqn:Eq; auto.
    + rewrite Hk. destruct (Ho u) as [-> ->]; auto. intros ->. destruct Mh as [_ [Mh _]]. congruence.
    + destruct (Ho u) as [-> ->]; auto. intros ->. destruct Mh as [_ Mh]. congruence.
  - intros u Hu. rewrite Hk. auto.
  - intros u. destruct (Nat.eq_dec u t) as [->|Hu].
    + split; [intros X; destruct (Hq _ X); auto|]. intros X. exfalso. apply X. rewrite E. apply in_or_app. simpl. auto.
    + destruct (Ho u Hu) as [E1 E2]. destruct (Mr u) as [K1 K2]. unfold Tc, outside, view. rewrite E2, Hk. split.
      * intros X. destruct (K1 X) as [K3 K4]. split; auto. unfold inside in *. rewrite E1. destruct K3 as [K3|[K3|[K3|[K3|[n [q [K3 [K5 K6]]]]]]]]; auto 6.
        right. right. right. right. exists n, q. split; auto. split; auto. unfold s'. cbn [mem]. destruct (Nat.eq_dec u p) as [->|Hup].
        -- rewrite setm_same. apply ptr_pos.
        -- rewrite setm_other; auto. intros Y. apply Hup. symmetry. apply Nx_inj. auto.
      * intros X. assert (Hup : Nx u <> Nx p) by (intros Y; apply Nx_inj in Y; subst; auto). rewrite E1, (Hm (Nx u) Hup). apply K2. auto.
  - unfold s'. apply data_flush; auto.
Qed.

Lemma M_enter : forall s a t q, M s a -> hold a = Free -> queue a = t :: q -> M (next s t CS) {| hold := Held t; queue := q; dat := dat a |}.
Proof.
  intros s a t q [Mt Mn Ml Mc Mh Mk Mr Md] Eh Eq. set (s' := next _ _ _).
  assert (Ehm : hm a = t :: q) by (unfold hm; rewrite Eh, Eq; auto). rewrite Ehm in *. inversion Mn as [|? ? N1 N2]; subst.
  unfold head in Mh. rewrite Eh, Eq in Mh. destruct Mh as [H1 [H2 H3]].
  assert (Hp : forall u, u <> t -> pcs s' u = pcs s u) by (intros; unfold s'; cbn [next pcs]; apply upd_other; auto).
  constructor; unfold hm; cbn [hold queue dat owner]; auto.
  - discriminate.
  - eapply chain_ext; [exact Mc|auto|]. intros u Hu. simpl in Hu. split; auto. apply Hp. intros ->. auto.
  - exact I.
  - intros u Hu. apply Mk. unfold lkd. rewrite Eh, Eq. exact Hu.
  - intros u. unfold Tc, hm. cbn [hold queue]. destruct (Nat.eq_dec u t) as [->|Hu].
    + split; [|intros X; exfalso; apply X; simpl; auto]. intros _. split; [left; unfold s'; cbn [next pcs]; apply upd_same|].
      change (buf s' t) with (buf s t). rewrite H2. intros x v [].
    + split; [congruence|]. intros X. destruct (Mr u) as [_ K]. destruct K as [K1 [K2 _]]; [rewrite Ehm; auto|]. split; [|split; [|discriminate]].
      * unfold outside in *. rewrite Hp by auto. exact K1.
      * intros _. apply K2. congruence.
  - rewrite Eh in Md. eapply data_pcs; [apply data_take; exact Md| |]; reflexivity.
Qed.

Lemma M_leave : forall s a t n q, M s a -> hold a = Held t -> queue a = n :: q -> mem s (Nx t) <> 0 -> alldat (buf s t) ->
  M (mkT (mem s) (upd (buf s) t (buf s t ++ [(Lk n, 0)])) (upd (pcs s) t Idle)) {| hold := Left t; queue := queue a; dat := dat a |}.
Proof.
  intros s a t n q [Mt Mn Ml Mc Mh Mk Mr Md] Eh Eq Hx Ha. set (s' := mkT _ _ _).
  assert (Ehm : hm a = t :: n :: q) by (unfold hm; rewrite Eh, Eq; auto). rewrite Ehm in *. inversion Mn as [|? ? N1 N2]; subst.
  destruct Mc as [P Mc]. destruct P as [[_ [X _]]|[[_ [X _]]|[P1 [P2 P3]]]]; try congruence.
  assert (Ho : forall u, u <> t -> pcs s' u = pcs s u /\ buf s' u = buf s u) by (intros; unfold s'; cbn [pcs buf]; rewrite !upd_other by auto; auto).
  assert (Hn : n <> t) by (intros ->; apply N1; simpl; auto).
  constructor; unfold hm; cbn [hold queue dat owner]; rewrite ?Eq; auto.
  - intros u X. injection X as <-. exact N1.
  - eapply chain_ext; [exact Mc|auto|]. intros u Hu. apply Ho. intros ->. simpl in Hu. apply N1. simpl. auto.
  - unfold head. cbn [hold queue]. destruct (Ho n Hn) as [-> ->]. auto.
  - intros u Hu. apply Mk. unfold lkd in *. rewrite Eh. cbn [hold queue] in Hu. rewrite Eq. exact Hu.
  - intros u. unfold Tc, hm. cbn [hold queue]. split; [discriminate|]. intros X. destruct (Nat.eq_dec u t) as [->|Hu].
    + split; [left; unfold s'; cbn [pcs]; apply upd_same|]. split; [congruence|]. intros _. exists (buf s t), n, q, []. unfold s'. cbn [buf]. rewrite upd_same.
      split; auto. split; auto. split; auto. intros x v [].
    + destruct (Mr u) as [_ K]. destruct (Ho u Hu) as [E1 E2]. destruct K as [K1 [K2 _]].
      { rewrite Ehm. intros [Y|Y]; auto. }
      split; [|split; [|congruence]].
      * unfold outside, view in *. rewrite E1, E2. exact K1.
      * intros _. rewrite E2. apply K2. congruence.
  - rewrite Eh in Md. apply (data_reg (Some t)). exact Md.
Qed.

Lemma M_visible : forall s a t u q r, M s a -> hold a = Left t -> queue a = u :: q -> buf s t = (Lk u, 0) :: r -> owned t r ->
  M (mkT (setm (mem s) (Lk u) 0) (upd (buf s) t r) (pcs s)) {| hold := Free; queue := queue a; dat := dat a |}.
Proof.
  intros s a t u q r [Mt Mn Ml Mc Mh Mk Mr Md] Eh Eq Eb Hw. set (s' := mkT _ _ _).
  assert (Ehm : hm a = u :: q) by (unfold hm; rewrite Eh, Eq; auto). rewrite Ehm in *. inversion Mn as [|? ? N1 N2]; subst.
  pose proof (Ml t Eh) as Hnt. rewrite Eq in Hnt.
  assert (Ho : forall v, v <> t -> pcs s' v = pcs s v /\ buf s' v = buf s v) by (intros; unfold s'; cbn [pcs buf]; rewrite !upd_other by auto; auto).
  assert (Hm : forall x, x <> Lk u -> mem s' x = mem s x) by (intros; unfold s'; cbn [mem]; apply setm_other; congruence).
  constructor; unfold hm; cbn [hold queue dat owner]; rewrite ?Eq; auto.
  - discriminate.
  - eapply chain_ext; [exact Mc|intros; apply Hm; apply Nx_Lk|]. intros v Hv. apply Ho. intros ->. apply Hnt. simpl in *. auto.
  - unfold head in *. cbn [hold queue]. rewrite Eh, Eq in Mh. destruct (Ho u) as [-> ->]; [intros ->; apply Hnt; simpl; auto|]. destruct Mh as [A B]. split; auto. split; auto.
    unfold s'. cbn [mem]. apply setm_same.
  - intros v Hv. unfold lkd in Hv. cbn [hold queue tl] in Hv. rewrite Hm; [apply Mk; unfold lkd; rewrite Eh, Eq; simpl; auto|].
    intros X. apply Lk_inj in X. subst. auto.
  - intros v. unfold Tc, hm. cbn [hold queue]. split; [discriminate|]. intros X. destruct (Mr v) as [_ K]. destruct K as [K1 [K2 K3]]; [rewrite Ehm; exact X|].
    assert (Hvu : v <> u) by (intros ->; apply X; simpl; auto). split; [|split; [|discriminate]].
    + unfold outside in *. change (pcs s' v) with (pcs s v). unfold s'. rewrite !(view_fl _ _ _ _ _ _ _ _ Eb); auto; right; [apply Nx_Lk|intros Y; apply Hvu; apply Lk_inj; auto..].
    + intros _. destruct (Nat.eq_dec v t) as [->|Hvt]; [unfold s'; cbn [buf]; rewrite upd_same; auto|]. destruct (Ho v Hvt) as [_ ->]. apply K2. congruence.
  - rewrite Eh in Md. unfold s'. eapply data_drop with t; [apply (data_flush (Some t)); auto|]. cbn [buf]. rewrite upd_same. intros i v Hv. destruct (Hw _ _ Hv) as [[Y _]|[Y _]]; discriminate.
Qed.

Lemma M_clear : forall s a t, M s a -> hold a = Held t -> queue a = [] -> buf s t = [] ->
  M (mkT (setm (mem s) (Reg 0) 0) (buf s) (upd (pcs s) t Idle)) {| hold := Free; queue := queue a; dat := dat a |}.
Proof.
  intros s a t [Mt Mn Ml Mc Mh Mk Mr Md] Eh Eq Eb. set (s' := mkT _ _ _).
  assert (Ehm : hm a = [t]) by (unfold hm; rewrite Eh, Eq; auto). rewrite Ehm in *.
  constructor; unfold hm; cbn [hold queue dat owner]; rewrite ?Eq; auto.
  - constructor.
  - exact I.
  - exact I.
  - intros u Hu. destruct Hu.
  - intros u. unfold Tc, hm. cbn [hold queue]. split; [discriminate|]. intros _. destruct (Nat.eq_dec u t) as [->|Hu].
    + split; [left; unfold s'; cbn [pcs]; apply upd_same|]. split; [|discriminate]. intros _. change (buf s' t) with (buf s t). rewrite Eb. intros x v [].
    + destruct (Mr u) as [_ K]. destruct K as [K1 [K2 _]]; [rewrite Ehm; intros [Y|[]]; auto|]. split; [|split; [|discriminate]].
      * unfold outside, view in *. unfold s'. cbn [mem buf pcs]. rewrite upd_other by auto. rewrite !setm_other by (intros Y; symmetry in Y; apply (Lk_0 _ Y) || apply (Nx_0 _ Y)). exact K1.
      * intros _. apply K2. congruence.
  - unfold s'. apply data_rmw. rewrite Eh in Md. eapply data_drop; [exact Md|]. rewrite Eb. intros i v [].
Qed.

Lemma owned_reg0 : forall t b d, owned t b -> fwd b (Reg 0) d = d.
Proof. intros t b d H. apply fwd_none. intros v Hv. destruct (H _ _ Hv) as [[X _]|[X _]]; symmetry in X; [apply (Lk_0 _ X)|apply (Nx_0 _ X)]. Qed.
Lemma out_reg0 : forall s a t, M s a -> ~ In t (hm a) -> view s t (Reg 0) = mem s (Reg 0).
Proof.
  intros s a t H Hn. destruct (m_thr _ _ H t) as [_ K]. destruct (K Hn) as [_ [K2 K3]]. unfold view. apply fwd_none. intros v Hv.
  assert (D : hold a = Left t \/ hold a <> Left t) by (destruct (hold a) as [|h|h]; [right; discriminate|right; discriminate|destruct (Nat.eq_dec h t) as [->|]; [auto|right; congruence]]).
  destruct D as [D|D].
  - destruct (K3 D) as [pre [u [q [post [E1 [E2 [_ E4]]]]]]]. rewrite E1 in Hv. apply in_app_or in Hv. destruct Hv as [Hv|[Hv|Hv]].
    + apply (E2 _ _ Hv).
    + apply (f_equal fst) in Hv. apply (Lk_0 _ Hv).
    + destruct (E4 _ _ Hv) as [[X _]|[X _]]; symmetry in X; [apply (Lk_0 _ X)|apply (Nx_0 _ X)].
  - destruct (K2 D _ _ Hv) as [[X _]|[X _]]; symmetry in X; [apply (Lk_0 _ X)|apply (Nx_0 _ X)].
Qed.

(** a step of an outsider that touches only its program counter and the end of its buffer *)
Lemma M_out : forall s a t x v p, M s a -> ~ In t (hm a) -> (x = Lk t /\ v = 1) \/ (x = Nx t /\ v = 0) ->
  (outside s t -> outside (mkT (mem s) (upd (buf s) t (buf s t ++ [(x, v)])) (upd (pcs s) t p)) t) ->
  M (mkT (mem s) (upd (buf s) t (buf s t ++ [(x, v)])) (upd (pcs s) t p)) a.
Proof.
  intros s a t x v p H Hn Hx Ho. pose proof (m_dat _ _ H) as Md. apply (frame s a _ a t); auto.
  - intros u Hu. cbn [pcs buf]. rewrite !upd_other by auto. auto.
  - intros X. exfalso. apply Hn. apply hm_q. auto.
  - intros [K1 K2]. split; [intros X; exfalso; apply Hn; unfold hm; rewrite X; simpl; auto|]. intros _. destruct (K2 Hn) as [O1 [O2 O3]]. cbn [buf]. rewrite upd_same.
    split; [auto|]. assert (Hw : forall b, owned t b -> owned t (b ++ [(x, v)])).
    { intros b Hb y w Hy. apply in_app_or in Hy. destruct Hy as [Hy|[Hy|[]]]; auto. injection Hy as <- <-. exact Hx. }
    split; auto. intros X. destruct (O3 X) as [pre [u [q [post [E1 [E2 [E3 E4]]]]]]]. exists pre, u, q, (post ++ [(x, v)]). rewrite E1, <- app_assoc. auto.
  - destruct Hx as [[-> _]|[-> _]]; apply data_reg; auto.
Qed.
Lemma M_next_out : forall s a t, M s a -> ~ In t (hm a) -> M (next s t Idle) a.
Proof.
  intros s a t H Hn. pose proof (m_dat _ _ H) as Md. apply (frame s a _ a t); auto.
  - intros u Hu. cbn [next pcs buf]. rewrite !upd_other by auto. auto.
  - intros X. exfalso. apply Hn. apply hm_q. auto.
  - intros [K1 K2]. split; [intros X; exfalso; apply Hn; unfold hm; rewrite X; simpl; auto|]. intros _. destruct (K2 Hn) as [O1 O2]. split; auto. left. cbn [next pcs]. apply upd_same.
Qed.
(** a step of the holder that changes nothing but its program counter *)
Lemma M_next_in : forall s a t p, M s a -> hold a = Held t -> inside (next s t p) a t -> M (next s t p) a.
Proof.
  intros s a t p H Eh Hi. pose proof (m_dat _ _ H) as Md. apply (frame s a _ a t); auto.
  - intros u Hu. cbn [next pcs buf]. rewrite !upd_other by auto. auto.
  - intros X. exfalso. pose proof (m_nd _ _ H) as N. unfold hm in N. rewrite Eh in N. inversion N; auto.
  - intros [K1 K2]. split; [intros X; split; auto; apply K1; auto|]. intros X. exfalso. apply X. unfold hm. rewrite Eh. simpl. auto.
Qed.

Lemma M_stay : forall s a t p, M s a -> pcs s t = p -> M (next s t p) a.
Proof.
  intros s a t p H Ep. assert (X : forall u, upd (pcs s) t p u = pcs s u) by (intros u; upd_cases; auto). pose proof (m_dat _ _ H) as Md.
  apply (frame s a _ a t); auto; cbn [next pcs buf].
  - intros u _. rewrite X. auto.
  - intros _. rewrite X. auto.
  - intros K2. unfold Tc, inside, outside in *. cbn [next pcs buf]. rewrite X. exact K2.
Qed.

Lemma M_step : forall s a l s' e, M s a -> step code arr s l = Some (s', e) -> exists a', accepts q_step a e = Some a' /\ M s' a'.
Proof.
  intros s a l s' e H Hs. pose proof (m_dat _ _ H) as Md. destruct l as [t x|t]; cbn [step] in Hs.
  - destruct (who s a t H) as [Eh|[Hin|Hout]].
    + (* the holder *)
      destruct (m_thr _ _ H t) as [K _]. destruct (K Eh) as [I1 I2]. rewrite Eh in Md.
      assert (Hchain : match queue a with [] => mem s (Nx t) = 0 | u :: _ => pair s t u end).
      { pose proof (m_chain _ _ H) as Mc. unfold hm in Mc. rewrite Eh in Mc. apply Mc. }
      assert (Hnd : NoDup (t :: queue a)) by (pose proof (m_nd _ _ H) as N; unfold hm in N; rewrite Eh in N; auto).
      assert (Htail : mem s (Reg 0) = tailv (t :: queue a)) by (rewrite (m_tail _ _ H); unfold hm; rewrite Eh; auto).
      assert (Hnx : forall v, view s t (Nx t) = v -> v <> 0 -> exists u q, queue a = u :: q /\ v = ptr u /\ mem s (Nx t) = ptr u).
      { intros v E1 E2. unfold view in E1. unfold Nx in E1 at 1. rewrite alldat_reg in E1 by auto. fold (Nx t) in E1. destruct (queue a) as [|u q]; [congruence|]. exists u, q.
        destruct Hchain as [[_ [X _]]|[[_ [X _]]|[_ [X _]]]]; try congruence. split; auto. split; congruence. }
      assert (Htq : mem s (Reg 0) <> ptr t -> queue a <> []) by (intros X Y; rewrite Htail, Y in X; apply X; reflexivity).
      assert (Htq2 : mem s (Reg 0) = ptr t -> queue a = []).
      { intros X. rewrite Htail in X. destruct (tailv_cases (queue a)) as [[Y _]|[l1 [p [E _]]]]; auto. exfalso. rewrite E in X.
        change (t :: l1 ++ [p]) with ((t :: l1) ++ [p]) in X. rewrite tailv_snoc in X. apply ptr_inj in X. subst p. inversion Hnd; subst. apply H2. rewrite E. apply in_or_app. simpl. auto. }
      destruct I1 as [Ep|[Ep|[Ep|[[Ep Hne]|[n [q [Ep [Eq Hx]]]]]]]]; rewrite Ep in Hs; destruct x; try discriminate; cbn [code] in Hs.
      * (* read *) injection Hs as <- <-. exists a. destruct Md as [D1 D2]. split.
        -- simpl. rewrite Eh, Nat.eqb_refl. unfold view in D1. unfold view. rewrite D1, Z.eqb_refl. reflexivity.
        -- apply M_next_in; auto. left. cbn [next pcs]. apply upd_same.
      * (* write *) injection Hs as <- <-. eexists. split; [simpl; rewrite Eh, Nat.eqb_refl; reflexivity|].
        apply (frame s a _ _ t); auto; cbn [hold queue dat].
        -- intros u Hu. cbn [pcs buf]. rewrite !upd_other by auto. auto.
        -- intros X. inversion Hnd; subst. contradiction.
        -- intros _. split; [|intros X; exfalso; apply X; unfold hm; rewrite Eh; simpl; auto]. intros _. cbn [buf]. rewrite upd_same. split; [left; cbn [pcs]; apply upd_same|apply alldat_app; auto].
        -- rewrite Eh. apply data_write. auto.
      * (* unlock: load next *) destruct (Z.eqb_spec (view s t (Nx t)) 0) as [E|E]; injection Hs as <- <-; exists a; (split; [reflexivity|]); apply M_next_in; auto.
        -- right. left. cbn [next pcs]. apply upd_same.
        -- destruct (Hnx _ eq_refl E) as [u [q [E1 [E2 E3]]]]. right. right. right. right. exists u, q. cbn [next pcs]. rewrite upd_same, E2, node_ptr.
           split; auto. split; auto. change (mem s (Nx t) <> 0). rewrite E3. apply ptr_pos.
      * (* load queue *) unfold view in Hs. rewrite alldat_reg in Hs by auto.
        destruct (Z.eqb_spec (mem s (Reg 0)) (ptr t)) as [E|E]; injection Hs as <- <-; exists a; (split; [reflexivity|]); apply M_next_in; auto.
        -- right. right. left. cbn [next pcs]. apply upd_same.
        -- right. right. right. left. cbn [next pcs]. split; [apply upd_same|auto].
      * (* cas *) destruct (buf s t) eqn:Eb; [|discriminate]. destruct (Z.eqb_spec (mem s (Reg 0)) (ptr t)) as [E|E]; injection Hs as <- <-.
        -- exists {| hold := Free; queue := queue a; dat := dat a |}. split; [simpl; rewrite Eh, Nat.eqb_refl; simpl; rewrite Nat.eqb_refl; reflexivity|].
           apply M_clear; auto.
        -- exists a. split; [reflexivity|]. apply (frame s a _ a t); auto.
           ++ intros u Hu. cbn [pcs buf]. rewrite !upd_other by auto. auto.
           ++ intros X. inversion Hnd; subst. contradiction.
           ++ intros [K1 _]. split; [|intros X; exfalso; apply X; unfold hm; rewrite Eh; simpl; auto]. intros _. cbn [buf]. rewrite Eb. split; [|intros ? ? []].
              right. right. right. left. cbn [pcs]. split; [apply upd_same|auto].
           ++ rewrite Eh. apply data_rmw. auto.
      * (* wait for next *) destruct (Z.eqb_spec (view s t (Nx t)) 0) as [E|E]; injection Hs as <- <-; exists a; (split; [reflexivity|]); apply M_next_in; auto.
        -- right. right. right. left. cbn [next pcs]. split; [apply upd_same|auto].
        -- destruct (Hnx _ eq_refl E) as [u [q [E1 [E2 E3]]]]. right. right. right. right. exists u, q. cbn [next pcs]. rewrite upd_same, E2, node_ptr.
           split; auto. split; auto. change (mem s (Nx t) <> 0). rewrite E3. apply ptr_pos.
      * (* release *) injection Hs as <- <-. exists {| hold := Left t; queue := queue a; dat := dat a |}. split; [simpl; rewrite Eh, Nat.eqb_refl; reflexivity|].
        eapply M_leave; eauto.
    + (* queued *)
      destruct (queued s a t H Hin) as [[q [Eq [Ep [Eb K]]]]|[l1 [p [l2 [E [P K]]]]]].
      * rewrite Ep in Hs. destruct x; try discriminate. cbn [code] in Hs. unfold view in Hs. rewrite Eb in Hs. cbn [fwd] in Hs. destruct K as [[Eh K]|[[h Eh] K]]; rewrite K in Hs; cbn in Hs; injection Hs as <- <-.
        -- exists {| hold := Held t; queue := q; dat := dat a |}. split; [simpl; rewrite Eh, Eq, Nat.eqb_refl; reflexivity|]. apply M_enter; auto.
        -- exists a. split; [reflexivity|]. apply M_stay; auto.
      * assert (Hh : forall h, hold a = Held h -> h <> t).
        { intros h Eh ->. pose proof (m_nd _ _ H) as N. unfold hm in N. rewrite Eh in N. inversion N; subst. contradiction. }
        destruct P as [[Ep [Em Eb]]|P].
        -- rewrite Ep in Hs. destruct x; try discriminate. cbn [code] in Hs. injection Hs as <- <-. exists a. split; [reflexivity|]. eapply M_link; eauto.
        -- assert (Q : pcs s t = L5 /\ (buf s t = [(Nx p, ptr t)] \/ buf s t = [])) by (destruct P as [[? [? ?]]|[? [? ?]]]; auto). destruct Q as [Ep Eb].
           rewrite Ep in Hs. destruct x; try discriminate. cbn [code] in Hs.
           assert (Ev : view s t (Lk t) = 1).
           { unfold view. rewrite fwd_none; auto. intros v Hv. destruct Eb as [Eb|Eb]; rewrite Eb in Hv; [|destruct Hv]. destruct Hv as [Hv|[]]. apply (f_equal fst) in Hv. apply (Nx_Lk _ _ Hv). }
           rewrite Ev in Hs. cbn in Hs. injection Hs as <- <-. exists a. split; [reflexivity|]. apply M_stay; auto.
    + (* outside *)
      destruct (m_thr _ _ H t) as [_ K]. destruct (K Hout) as [O1 [O2 O3]]. destruct O1 as [Ep|[[b [Ep V1]]|[b [Ep [V1 V2]]]]]; rewrite Ep in Hs; destruct x; try discriminate; try (destruct b; discriminate); cbn [code] in Hs.
      * injection Hs as <- <-. exists a. split; [reflexivity|]. apply M_out; auto. intros _. right. left. exists false. cbn [pcs]. rewrite upd_same. split; auto. apply view_st_same.
      * injection Hs as <- <-. exists a. split; [reflexivity|]. apply M_out; auto. intros _. right. left. exists true. cbn [pcs]. rewrite upd_same. split; auto. apply view_st_same.
      * injection Hs as <- <-. exists a. rewrite (out_reg0 _ _ _ H Hout), (busy_tail _ _ H). split; [simpl; rewrite eqb_reflx; reflexivity|]. apply M_next_out; auto.
      * injection Hs as <- <-. exists a. split; [reflexivity|]. apply M_out; auto. intros _. right. right. exists b. cbn [pcs]. rewrite upd_same. split; auto.
        rewrite view_st by (left; apply Lk_Nx). split; auto. apply view_st_same.
      * pose proof (busy_tail _ _ H) as Hb. pose proof (busy_hm _ _ H) as Hb2.
        destruct b; cbn [code] in Hs; (destruct (buf s t) eqn:Eb; [|discriminate]); destruct (out_p3 _ _ _ _ H Hout Ep Eb) as [A1 [A2 A3]];
          (destruct (Z.eqb_spec (mem s (Reg 0)) 0) as [E|E]; injection Hs as <- <-).
        -- cbn [negb] in Hb. rewrite <- Hb in Hb2. destruct (hm a) eqn:Ehm; [|discriminate].
           exists {| hold := Held t; queue := []; dat := dat a |}. split; [|apply M_grab; auto]. symmetry in Hb. unfold busy in Hb. simpl.
           destruct (hold a), (queue a); try discriminate. simpl. rewrite Nat.eqb_refl. reflexivity.
        -- cbn [negb] in Hb. exists a. split; [simpl; rewrite <- Hb; reflexivity|]. apply (frame s a _ a t); auto.
           ++ intros u Hu. cbn [pcs buf]. rewrite !upd_other by auto. auto.
           ++ intros X. exfalso. apply Hout. apply hm_q. auto.
           ++ intros [K1 K2]. split; [intros X; exfalso; apply Hout; unfold hm; rewrite X; simpl; auto|]. intros _. split; [left; cbn [pcs]; apply upd_same|]. cbn [buf]. apply (K2 Hout).
        -- cbn [negb] in Hb. rewrite <- Hb in Hb2. destruct (hm a) eqn:Ehm; [|discriminate].
           exists {| hold := Held t; queue := []; dat := dat a |}. split; [|apply M_grab; auto]. symmetry in Hb. unfold busy in Hb. simpl.
           destruct (hold a), (queue a); try discriminate. simpl. rewrite Nat.eqb_refl. reflexivity.
        -- exists {| hold := hold a; queue := queue a ++ [t]; dat := dat a |}. split; [reflexivity|]. destruct (tailv_cases (hm a)) as [[_ X]|[l [p [E1 E2]]]].
           ++ rewrite <- (m_tail _ _ H) in X. contradiction.
           ++ rewrite (m_tail _ _ H), E2, node_ptr. eapply M_join; eauto.
  - (* a store arrives *)
    destruct (buf s t) as [|[x v] r] eqn:Eb; [discriminate|]. injection Hs as <- <-.
    destruct (who s a t H) as [Eh|[Hin|Hout]].
    + destruct (m_thr _ _ H t) as [K _]. destruct (K Eh) as [I1 I2]. rewrite Eb in I2. assert (Hd : isdat x) by (apply (I2 x v); simpl; auto). destruct x as [i|i]; [|destruct Hd].
      exists a. split; [reflexivity|]. apply (frame s a _ a t); auto.
      * intros u Hu. cbn [pcs buf]. rewrite !upd_other by auto. auto.
      * intros X. pose proof (m_nd _ _ H) as N. unfold hm in N. rewrite Eh in N. inversion N; subst. contradiction.
      * intros _. split; [|intros X; exfalso; apply X; unfold hm; rewrite Eh; simpl; auto]. intros _. cbn [buf]. rewrite upd_same. split; [exact I1|eapply alldat_tl; eauto].
      * apply data_flush; auto.
    + destruct (queued s a t H Hin) as [[q [Eq [Ep [Eb2 K]]]]|[l1 [p [l2 [E [P K]]]]]]; [congruence|].
      destruct P as [[_ [_ X]]|[[Ep [Em Eb2]]|[_ [_ X]]]]; try congruence. rewrite Eb in Eb2. injection Eb2 as -> -> ->. rewrite arr_Nx. exists a. split; [reflexivity|]. eapply M_linkfl; eauto.
    + destruct (m_thr _ _ H t) as [_ K]. destruct (K Hout) as [O1 [O2 O3]]. rewrite Eb in O2, O3.
      assert (Hself : x = Lk t \/ x = Nx t \/ isdat x -> (hold a <> Left t -> owned t r) ->
        (hold a = Left t -> exists pre u q post, r = pre ++ (Lk u, 0) :: post /\ alldat pre /\ queue a = u :: q /\ owned t post) ->
        M (mkT (setm (mem s) x v) (upd (buf s) t r) (pcs s)) a).
      { intros Hx Hr1 Hr2. apply (frame s a _ a t); auto.
        - intros u Hu. cbn [pcs buf]. rewrite !upd_other by auto. auto.
        - cbn [mem]. apply setm_other. destruct Hx as [->|[->|Hx]]; [apply Lk_0|apply Nx_0|intros ->; destruct Hx].
        - intros u [Hu|Hu]; [|contradiction]. cbn [mem]. rewrite !setm_other; auto; destruct Hx as [->|[->|Hx]]; try (intros ->; destruct Hx; fail);
            intros X; try (apply Lk_inj in X; congruence); try (apply Nx_inj in X; congruence); try (apply (Lk_Nx _ _ X)); try (apply (Nx_Lk _ _ X)).
        - intros X. exfalso. apply Hout. apply hm_q. auto.
        - intros _. split; [intros X; exfalso; apply Hout; unfold hm; rewrite X; simpl; auto|]. intros _. cbn [buf]. rewrite upd_same. split; [|split; auto].
          unfold outside in *. cbn [pcs]. rewrite !(view_fl _ _ _ _ _ _ _ _ Eb) by auto. exact O1.
        - apply data_flush; auto. }
      assert (D : hold a = Left t \/ hold a <> Left t) by (destruct (hold a) as [|h|h]; [right; discriminate|right; discriminate|destruct (Nat.eq_dec h t) as [->|]; [auto|right; congruence]]).
      destruct D as [D|D].
      * destruct (O3 D) as [pre [u [q [post [E1 [E2 [E3 E4]]]]]]]. destruct pre as [|[y w] pre].
        -- injection E1 as -> -> ->. rewrite arr_Lk0. exists {| hold := Free; queue := queue a; dat := dat a |}. split; [simpl; rewrite D, Nat.eqb_refl; reflexivity|].
           eapply M_visible; eauto.
        -- injection E1 as <- <- ->. assert (Hd : isdat x) by (apply (E2 x v); simpl; auto). exists a. split; [destruct x; [reflexivity|destruct Hd]|].
           apply Hself; auto; [congruence|]. intros _. exists pre, u, q, post. split; auto. split; auto. eapply alldat_tl; eauto.
      * pose proof (O2 D) as Ow. assert (Hr : owned t r) by (intros y w Hy; apply Ow; simpl; auto). exists a.
        destruct (Ow x v) as [[-> ->]|[-> ->]]; [simpl; auto| |]; rewrite ?arr_Lk1, ?arr_Nx; (split; [reflexivity|]); apply Hself; auto; congruence.
Qed.

Lemma mcs_all : forall D G ls s log, run (step code arr) (init D G) ls = Some (s, log) -> q_legal D log.
Proof. intros D G ls s log H. destruct (R_run _ _ M M_step _ _ _ _ _ (M_init D G) H) as [a [A _]]. exists a. auto. Qed.

(** * Progress *)
Definition okl (l : lab act) : Prop := match l with Flush _ | Go _ ATick | Go _ AUnlock => True | _ => False end.
Lemma arr_vis : forall t x v e, In e (arr t x v) -> exists u, e = Visible u.
Proof. intros t [i|i] v e H; simpl in H; [destruct H|]. destruct (Nat.odd i && (v =? 0)); simpl in H; [destruct H as [<-|[]]; eauto|destruct H]. Qed.

Notation fr s a := (can code arr okl s (freed M a)).
Lemma f_left : forall s a h, M s a -> hold a = Left h -> fr s a.
Proof.
  apply (left_freed code arr arr_vis M M_step okl); [intros; exact I|]. intros s a h H E B. destruct (m_thr _ _ H h) as [_ K]. destruct K as [_ [_ K]].
  - unfold hm. rewrite E. apply (m_left _ _ H). auto.
  - destruct (K E) as [pre [u [q [post [B1 _]]]]]. rewrite B in B1. destruct pre; discriminate.
Qed.
Lemma f_u4 : forall s a h n, M s a -> hold a = Held h -> pcs s h = U4 n -> fr s a.
Proof.
  intros s a h n H Eh Ep. eapply (freed_step code arr M M_step okl) with (l := Go h ATick); [exact H|cbn [step]; rewrite Ep; cbn [code]; reflexivity|exact I| | |].
  - simpl. rewrite Eh, Nat.eqb_refl. reflexivity.
  - reflexivity.
  - intros H1. eapply f_left; eauto. reflexivity.
Qed.
Lemma silent : forall s a l s1, M s a -> step code arr s l = Some (s1, []) -> okl l -> (M s1 a -> fr s1 a) -> fr s a.
Proof. intros s a l s1 H Hs Ho Hc. exact (freed_step code arr M M_step okl s a l s1 [] a H Hs Ho eq_refl eq_refl Hc). Qed.

(** waiting for the successor to link itself *)
Lemma f_u3 : forall s a h, M s a -> hold a = Held h -> pcs s h = U3 -> fr s a.
Proof.
  assert (F3 : forall s a h u q, M s a -> hold a = Held h -> queue a = u :: q -> pcs s h = U3 -> mem s (Nx h) <> 0 -> fr s a).
  { intros s a h u q H Eh Eq Ep Hx. destruct (m_thr _ _ H h) as [K _]. destruct (K Eh) as [_ Ia].
    assert (Ev : view s h (Nx h) = mem s (Nx h)) by (unfold view, Nx; apply alldat_reg; auto).
    eapply (silent s a (Go h ATick)); [exact H|cbn [step]; rewrite Ep; cbn [code]; rewrite Ev; destruct (Z.eqb_spec (mem s (Nx h)) 0) as [X|X]; [contradiction|reflexivity]|exact I|].
    intros H1. eapply f_u4; eauto. cbn [next pcs]. apply upd_same. }
  assert (F2 : forall s a h u q, M s a -> hold a = Held h -> queue a = u :: q -> pcs s h = U3 -> buf s u = [(Nx h, ptr u)] -> fr s a).
  { intros s a h u q H Eh Eq Ep Eb. eapply (silent s a (Flush u)); [exact H|cbn [step]; rewrite Eb, arr_Nx; reflexivity|exact I|].
    intros H1. eapply F3; eauto. cbn [mem]. rewrite setm_same. apply ptr_pos. }
  intros s a h H Eh Ep. destruct (m_thr _ _ H h) as [K _]. destruct (K Eh) as [Ii _].
  assert (Hq : queue a <> []) by (destruct Ii as [X|[X|[X|[[_ X]|[n [q [X _]]]]]]]; auto; congruence).
  destruct (queue a) as [|u q] eqn:Eq; [contradiction|]. assert (P : pair s h u).
  { pose proof (m_chain _ _ H) as Mc. unfold hm in Mc. rewrite Eh, Eq in Mc. apply Mc. }
  assert (Hu : u <> h) by (intros ->; pose proof (m_nd _ _ H) as N; unfold hm in N; rewrite Eh, Eq in N; inversion N; subst; apply H2; simpl; auto).
  destruct P as [[P1 [P2 P3]]|[[P1 [P2 P3]]|[P1 [P2 P3]]]].
  - eapply (silent s a (Go u ATick)); [exact H|cbn [step]; rewrite P1; cbn [code]; reflexivity|exact I|].
    intros H1. eapply F2; eauto; cbn [pcs buf].
    + rewrite upd_other; auto.
    + rewrite upd_same, P3. reflexivity.
  - eapply F2; eauto.
  - eapply F3; eauto. rewrite P2. apply ptr_pos.
Qed.
Lemma f_u2 : forall s a h, M s a -> hold a = Held h -> pcs s h = U2 -> fr s a.
Proof.
  intros s a h H Eh Ep. destruct (can_R _ _ M M_step okl s a _ H (can_drain code arr arr_vis okl (fun _ => I) s h)) as [ls [s1 [log1 [C1 [C2 [[K1 [K2 [K3 K4]]] [a1 [A1 H1]]]]]]]].
  destruct (vis_accepts _ _ _ A1 K4) as [E1 E2].
  assert (G : fr s1 a1).
  { assert (Ep1 : pcs s1 h = U2) by congruence. assert (Eh1 : hold a1 = Held h).
    { destruct (m_thr _ _ H1 h) as [_ K]. destruct (who s1 a1 h H1) as [X|[X|X]]; auto; exfalso.
      - destruct (queued s1 a1 h H1 X) as [[? [_ [Y _]]]|[? [? [? [_ [[[Y _]|[[Y _]|[Y _]]] _]]]]]]; congruence.
      - destruct (K X) as [O _]. destruct O as [O|[[? [O _]]|[? [O _]]]]; congruence. }
    destruct (Z.eqb_spec (mem s1 (Reg 0)) (ptr h)) as [E|E].
    - assert (Hst : exists s2, step code arr s1 (Go h ATick) = Some (s2, [Leave h; Visible h])).
      { eexists. cbn [step]. rewrite Ep1. cbn [code]. rewrite K1. destruct (Z.eqb_spec (mem s1 (Reg 0)) (ptr h)); [reflexivity|contradiction]. }
      destruct Hst as [s2 Hst]. eapply (freed_step code arr M M_step okl); [exact H1|exact Hst|exact I| | |].
      + simpl. rewrite Eh1, Nat.eqb_refl. simpl. rewrite Nat.eqb_refl. reflexivity.
      + reflexivity.
      + intros H2. apply can_done. eexists. split; [reflexivity|]. cbn [hold queue]. auto.
    - assert (Hst : exists s2, step code arr s1 (Go h ATick) = Some (s2, []) /\ pcs s2 h = U3).
      { eexists. split; [cbn [step]; rewrite Ep1; cbn [code]; rewrite K1; destruct (Z.eqb_spec (mem s1 (Reg 0)) (ptr h)); [contradiction|reflexivity]|]. cbn [pcs]. apply upd_same. }
      destruct Hst as [s2 [Hst Ep2]]. eapply silent; [exact H1|exact Hst|exact I|]. intros H2. eapply f_u3; eauto. }
  destruct G as [ls2 [s2 [log2 [G1 [G2 [a2 [G3 [G4 [G5 G6]]]]]]]]]. exists (ls ++ ls2), s2, (log1 ++ log2). split; [eapply run_app; eauto|].
  split; [intros l Hl; apply in_app_iff in Hl; destruct Hl; auto|]. exists a2. rewrite accepts_app, A1. split; auto. split; auto. split; auto. congruence.
Qed.
Lemma f_u1 : forall s a h, M s a -> hold a = Held h -> pcs s h = U1 -> fr s a.
Proof.
  intros s a h H Eh Ep. destruct (Z.eqb (view s h (Reg 0)) (ptr h)) eqn:E.
  - eapply (silent s a (Go h ATick)); [exact H|cbn [step]; rewrite Ep; cbn [code]; rewrite E; reflexivity|exact I|]. intros H1. eapply f_u2; eauto. cbn [next pcs]. apply upd_same.
  - eapply (silent s a (Go h ATick)); [exact H|cbn [step]; rewrite Ep; cbn [code]; rewrite E; reflexivity|exact I|]. intros H1. eapply f_u3; eauto. cbn [next pcs]. apply upd_same.
Qed.
Lemma f_cs : forall s a h, M s a -> hold a = Held h -> pcs s h = CS -> fr s a.
Proof.
  intros s a h H Eh Ep. destruct (Z.eqb (view s h (Nx h)) 0) eqn:E.
  - eapply (silent s a (Go h AUnlock)); [exact H|cbn [step]; rewrite Ep; cbn [code]; rewrite E; reflexivity|exact I|]. intros H1. eapply f_u1; eauto. cbn [next pcs]. apply upd_same.
  - eapply (silent s a (Go h AUnlock)); [exact H|cbn [step]; rewrite Ep; cbn [code]; rewrite E; reflexivity|exact I|]. intros H1. eapply f_u4; eauto. cbn [next pcs]. apply upd_same.
Qed.

Lemma mcs_gets : forall D G s t, reachable (step code arr) (init D G) s -> (exists p, pcs s t = L4 p) \/ pcs s t = L5 ->
  can code arr okl s (fun _ log => In (Enter t) log).
Proof.
  intros D G s t [ls [log Hr]] Ht. destruct (R_run _ _ M M_step _ _ _ _ _ (M_init D G) Hr) as [a [_ Ra]].
  apply (q_progress code arr M okl) with a; auto.
  - clear. intros s a h H Eh. change (fr s a). destruct Eh as [Eh|Eh]; [|eapply f_left; eauto].
    destruct (m_thr _ _ H h) as [K _]. destruct (K Eh) as [Ii _]. destruct Ii as [X|[X|[X|[[X _]|[n [q [X _]]]]]]].
    + eapply f_cs; eauto.
    + eapply f_u1; eauto.
    + eapply f_u2; eauto.
    + eapply f_u3; eauto.
    + eapply f_u4; eauto.
  - clear. intros s a u q H Eh Eq. pose proof (m_head _ _ H) as Hh. unfold head in Hh. rewrite Eh, Eq in Hh. destruct Hh as [H1 [H2 H3]].
    assert (Hst : step code arr s (Go u ATick) = Some (next s u CS, [Enter u])) by (cbn [step]; rewrite H1; cbn [code]; unfold view; rewrite H2; cbn [fwd]; rewrite H3; reflexivity).
    destruct (M_step _ _ _ _ _ H Hst) as [a2 [A2 M2]]. eapply can_step; [exact Hst|exact I|]. apply can_done. exists a2. split; auto. split; [simpl; auto|].
    simpl in A2. rewrite Eh, Eq, Nat.eqb_refl in A2. injection A2 as <-. auto.
  - destruct (who s a t Ra) as [X|[X|X]]; auto; exfalso; destruct (m_thr _ _ Ra t) as [K1 K2].
    + destruct (K1 X) as [Ii _]. destruct Ii as [Y|[Y|[Y|[[Y _]|[n [q [Y _]]]]]]]; destruct Ht as [[p Ht]|Ht]; congruence.
    + destruct (K2 X) as [O _]. destruct O as [O|[[? [O _]]|[? [O _]]]]; destruct Ht as [[p Ht]|Ht]; congruence.
Qed.
