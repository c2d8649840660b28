From Coq Require Import Arith List Bool Lia.
From Verif Require Import Lib LockSpec LockProg SpinMcs_Model.
Import ListNotations.

Definition link1 (s : state) (a b : nat) : Prop :=
  ((thr s b = L4 a /\ next s a = None) \/ (thr s b = L5 /\ next s a = Some b)) /\ locked s b = true.

Fixpoint links (s : state) (q : list nat) : Prop :=
  match q with
  | [] => True
  | a :: r => match r with
              | [] => next s a = None
              | b :: _ => link1 s a b /\ links s r
              end
  end.

Definition last_opt (q : list nat) : option nat :=
  match q with [] => None | a :: r => Some (last r a) end.

Lemma last_opt_snoc : forall q t, last_opt (q ++ [t]) = Some t.
Proof. intros [|a q] t; simpl; auto. rewrite last_last. auto. Qed.

Lemma last_in : forall (l : list nat) x d, In (last (x :: l) d) (x :: l).
Proof.
  intros. destruct (exists_last (l := x :: l)) as [l' [z Hz]]; [discriminate|].
  rewrite Hz, last_last. apply in_or_app. simpl; auto.
Qed.

Lemma last_dflt : forall (l : list nat) x d d', last (x :: l) d = last (x :: l) d'.
Proof.
  intros. destruct (exists_last (l := x :: l)) as [l' [z Hz]]; [discriminate|].
  rewrite Hz, !last_last. auto.
Qed.

Lemma last_opt_cons : forall a b r, last_opt (a :: b :: r) = last_opt (b :: r).
Proof.
  intros. destruct (exists_last (l := b :: r)) as [l' [z Hz]]; [discriminate|]. rewrite Hz.
  change (a :: l' ++ [z]) with ((a :: l') ++ [z]). rewrite !last_opt_snoc. auto.
Qed.

Lemma last_opt_some : forall q p, last_opt q = Some p -> exists l, q = l ++ [p].
Proof.
  intros q p H. destruct q as [|a r]; [discriminate|].
  destruct (exists_last (l := a :: r)) as [l [z Hz]]; [discriminate|].
  rewrite Hz in *. rewrite last_opt_snoc in H. inversion H; subst. eauto.
Qed.

Lemma last_opt_none : forall q, last_opt q = None -> q = [].
Proof. intros [|a q]; auto; discriminate. Qed.

Lemma links_ext : forall s s' q,
  (forall x, In x q -> next s' x = next s x) ->
  (forall x, In x (tl q) -> thr s' x = thr s x /\ locked s' x = locked s x) ->
  links s q -> links s' q.
Proof.
  induction q as [|a r IH]; intros Hn Ht H; [exact I|].
  destruct r as [|b r].
  - simpl in *. rewrite Hn; auto.
  - destruct H as [H1 H2]. split.
    + destruct (Ht b) as [E1 E2]; [simpl; auto|]. unfold link1 in *. rewrite E1, E2, Hn by (simpl; auto). exact H1.
    + apply IH; auto; [intros; apply Hn; simpl in *; tauto|intros; apply Ht; simpl in *; tauto].
Qed.

Lemma links_last : forall s l p, links s (l ++ [p]) -> next s p = None.
Proof.
  induction l as [|a l IH]; simpl; intros p H; auto.
  destruct (l ++ [p]) eqn:E; [destruct l; discriminate|]. apply IH. rewrite E. tauto.
Qed.

Lemma links_snoc : forall s l p t, links s (l ++ [p]) -> thr s t = L4 p -> locked s t = true -> next s t = None ->
  links s ((l ++ [p]) ++ [t]).
Proof.
  induction l as [|a l IH]; intros p t H H1 H2 H3.
  - simpl in *. unfold link1. auto.
  - change (((a :: l) ++ [p]) ++ [t]) with (a :: ((l ++ [p]) ++ [t])).
    change ((a :: l) ++ [p]) with (a :: (l ++ [p])) in H.
    specialize (IH p t).
    destruct (l ++ [p]) as [|b r] eqn:E; [destruct l; discriminate|].
    destruct H as [Ha Hb]. specialize (IH Hb H1 H2 H3). simpl app in *. split; auto.
Qed.

Lemma links_in : forall s q b, links s q -> In b (tl q) ->
  exists p l r, q = l ++ p :: b :: r /\ link1 s p b.
Proof.
  induction q as [|a r IH]; simpl; intros b H Hin; [tauto|].
  destruct r as [|c r]; [destruct Hin|]. destruct H as [H1 H2].
  destruct Hin as [E|Hin].
  - subst. exists a, [], r. auto.
  - destruct (IH b H2 Hin) as [p [l [r' [E Hp]]]]. exists p, (a :: l), r'. rewrite E. auto.
Qed.

(** Thread [t] stores its link into its predecessor [p]. *)
Lemma links_set : forall s s' q t p, links s q -> NoDup q -> In t (tl q) -> thr s t = L4 p ->
  thr s' t = L5 -> (forall x, x <> t -> thr s' x = thr s x) ->
  next s' p = Some t -> (forall x, x <> p -> next s' x = next s x) ->
  (forall x, locked s' x = locked s x) -> links s' q.
Proof.
  induction q as [|a r IH]; simpl; intros t p H Hnd Hin Ht Ht' Hto Hp Hpo Hl; auto.
  destruct r as [|b r]; [destruct Hin|]. inversion Hnd; subst. destruct H as [H1 H4].
  destruct (Nat.eq_dec b t).
  - subst b. assert (a = p). { destruct H1 as [[[E _]|[E _]] _]; congruence. }
    subst a. split.
    + split; [right; auto|]. rewrite Hl. apply H1.
    + apply (links_ext s); auto.
      * intros x Hx. apply Hpo. intro; subst; auto.
      * intros x Hx. split; auto. apply Hto. intro; subst. inversion H3; subst. auto.
  - assert (Hin' : In t (tl (b :: r))) by (simpl in *; destruct Hin; auto; congruence).
    assert (Hap : a <> p).
    { destruct (links_in _ _ _ H4 Hin') as [p' [l [r' [E Hp']]]].
      assert (p' = p). { destruct Hp' as [[[E' _]|[E' _]] _]; congruence. }
      subst p'. intro; subst a. apply H2. rewrite E. apply in_or_app. simpl; auto. }
    split; [|eapply IH; eauto].
    unfold link1 in *. rewrite Hto, Hpo, Hl by auto. auto.
Qed.

Definition hold_ok (s : state) (a : fcfs) (h : nat) : Prop :=
  thr s h = Crit \/ thr s h = U1 \/ thr s h = U2 \/ thr s h = U3 \/
  (thr s h = U4 /\ f_queue a <> []) \/ (exists x, thr s h = U5 x /\ next s h = Some x).

Definition out_ok (s : state) (t : nat) : Prop :=
  thr s t = Idle \/ thr s t = L1 \/ thr s t = T1 \/
  ((thr s t = L2 \/ thr s t = T2) /\ locked s t = true) \/
  ((thr s t = L3 \/ thr s t = T3) /\ locked s t = true /\ next s t = None).

Record R (s : state) (a : fcfs) : Prop := {
  i_tail : queue s = last_opt (hq a);
  i_nodup : NoDup (hq a);
  i_links : links s (hq a);
  i_holder : forall h, f_holder a = Some h -> hold_ok s a h;
  i_front : forall u q, f_holder a = None -> f_queue a = u :: q -> thr s u = L5 /\ locked s u = false;
  i_out : forall t, ~ In t (hq a) -> out_ok s t
}.

Lemma R_init : forall lk nx, R (init lk nx) fcfs_init.
Proof.
  intros. constructor; simpl; auto; try constructor; try discriminate; auto.
Qed.

Lemma mem_cases : forall s a t, R s a -> In t (hq a) ->
  f_holder a = Some t \/ (f_holder a = None /\ (exists q, f_queue a = t :: q)) \/ In t (tl (hq a)).
Proof.
  intros s a t HR Hin. unfold hq, hl in *. destruct (f_holder a) as [h|].
  - simpl in *. destruct Hin; [left; congruence|auto].
  - simpl in *. destruct (f_queue a); [destruct Hin|]. simpl in *. destruct Hin; subst; eauto.
Qed.

Lemma tl_waits : forall s a b, R s a -> In b (tl (hq a)) ->
  f_holder a <> Some b /\ In b (f_queue a) /\ (forall u q, f_holder a = None -> f_queue a = u :: q -> u <> b).
Proof.
  intros s a b HR Hin. pose proof (i_nodup _ _ HR) as Hnd. unfold hq, hl in *.
  destruct (f_holder a) as [h|].
  - simpl in *. inversion Hnd; subst. repeat split; auto; try congruence.
  - simpl in *. destruct (f_queue a); [destruct Hin|]. simpl in *. inversion Hnd; subst.
    repeat split; auto; try congruence.
Qed.

Lemma R_move : forall s a t s', R s a -> ~ In t (hq a) ->
  queue s' = queue s -> (forall x, x <> t -> thr s' x = thr s x /\ locked s' x = locked s x /\ next s' x = next s x) ->
  out_ok s' t -> R s' a.
Proof.
  intros s a t s' HR Hout Hq Hx Ht. destruct HR.
  assert (Hm : forall x, In x (hq a) -> x <> t) by (intros x Hxx E; subst; auto).
  constructor; auto.
  - congruence.
  - apply (links_ext s); auto; intros x Hin.
    + apply Hx; auto.
    + assert (In x (hq a)) by (destruct (hq a); simpl in *; auto). split; apply Hx; auto.
  - intros h Hh. assert (Hin : In h (hq a)) by (unfold hq, hl; rewrite Hh; simpl; auto).
    destruct (Hx h (Hm _ Hin)) as [E1 [E2 E3]]. unfold hold_ok. rewrite E1, E3. apply i_holder0; auto.
  - intros u q Hn Hu. assert (Hin : In u (hq a)) by (unfold hq, hl; rewrite Hn, Hu; simpl; auto).
    destruct (Hx u (Hm _ Hin)) as [E1 [E2 E3]]. rewrite E1, E2. eauto.
  - intros u Hu. destruct (Nat.eq_dec u t); [subst; auto|].
    destruct (Hx u n) as [E1 [E2 E3]]. unfold out_ok. rewrite E1, E2, E3. apply i_out0; auto.
Qed.

(** The holder moves between program points without touching memory. *)
Lemma R_hmove : forall s a h p, R s a -> f_holder a = Some h -> hold_ok (goto s h p) a h -> R (goto s h p) a.
Proof.
  intros s a h p HR Hh Hok. destruct HR. constructor; auto.
  - apply (links_ext s); auto. intros x Hx. split; auto. simpl. apply upd_other. intro; subst.
    unfold hq, hl in *. rewrite Hh in *. simpl in *. inversion i_nodup0; auto.
  - intros h' Hh'. assert (h' = h) by congruence. subst; auto.
  - congruence.
  - intros u Hu. assert (u <> h) by (intro; subst; apply Hu; unfold hq, hl; rewrite Hh; simpl; auto).
    unfold out_ok. simpl. rewrite upd_other by auto. apply i_out0; auto.
Qed.

Lemma R_enter : forall s a t, R s a -> ~ In t (hq a) -> locked s t = true -> next s t = None -> queue s = None ->
  exists a', accepts fcfs_step a [FReq t; FAcq t] = Some a' /\
   R (mk (Some t) (locked s) (next s) (upd (thr s) t Crit)) a'.
Proof.
  intros s a t HR Hout Hl Hn Hq. destruct HR. rewrite Hq in i_tail0.
  symmetry in i_tail0. apply last_opt_none in i_tail0.
  assert (Hh : f_holder a = None /\ f_queue a = []).
  { unfold hq, hl in i_tail0. destruct (f_holder a); [discriminate|]. auto. }
  destruct Hh as [Hh Hqq].
  exists {| f_holder := Some t; f_queue := [] |}. split.
  - simpl. rewrite Hh, Hqq. simpl. rewrite Nat.eqb_refl. auto.
  - constructor; unfold hq, hl; simpl; auto.
    + constructor; auto. constructor.
    + intros h E. inversion E; subst. left. simpl. apply upd_same.
    + discriminate.
    + intros u Hu. assert (u <> t) by auto. unfold out_ok. simpl. rewrite upd_other by auto.
      apply i_out0. rewrite i_tail0. auto.
Qed.

Lemma R_step : forall s a l s' ev, R s a -> step s l = Some (s', ev) ->
  exists a', accepts fcfs_step a ev = Some a' /\ R s' a'.
Proof.
  intros s a [t x] s' ev HR H. unfold step in H.
  destruct (in_dec Nat.eq_dec t (hq a)) as [Hin|Hout].
  - destruct (mem_cases _ _ _ HR Hin) as [Hh|[[Hn [q Hq]]|Htl]].
    + (* holder *)
      assert (Hnt : ~ In t (f_queue a)).
      { pose proof (i_nodup _ _ HR) as Hnd. unfold hq, hl in Hnd. rewrite Hh in Hnd. inversion Hnd; auto. }
      assert (Hhq : hq a = t :: f_queue a) by (unfold hq, hl; rewrite Hh; auto).
      assert (Hlast : eqo (queue s) t = true -> f_queue a = []).
      { rewrite (i_tail _ _ HR), Hhq. intros E. destruct (f_queue a) as [|b r] eqn:Eq; auto. exfalso.
        unfold eqo, last_opt in E. apply Nat.eqb_eq in E. apply Hnt. rewrite <- E.
        apply last_in. }
      assert (Hnl : eqo (queue s) t = false -> f_queue a <> []).
      { rewrite (i_tail _ _ HR), Hhq. intros E E'. rewrite E' in E. simpl in E. rewrite Nat.eqb_refl in E. discriminate. }
      destruct (i_holder _ _ HR _ Hh) as [Ht|[Ht|[Ht|[Ht|[[Ht Hne]|[y [Ht Hy]]]]]]]; rewrite Ht in H;
        destruct x; try discriminate.
      * injection H as <- <-. exists a. split; [reflexivity|]. apply R_hmove; auto. right; left. simpl. apply upd_same.
      * destruct (next s t) as [y|] eqn:En; injection H as <- <-; exists a; (split; [reflexivity|]); apply R_hmove; auto.
        -- do 5 right. exists y. simpl. rewrite upd_same. auto.
        -- do 2 right; left. simpl. apply upd_same.
      * destruct (eqo (queue s) t) eqn:E; injection H as <- <-; exists a; (split; [reflexivity|]); apply R_hmove; auto.
        -- do 3 right; left. simpl. apply upd_same.
        -- do 4 right; left. simpl. rewrite upd_same. auto.
      * destruct (eqo (queue s) t) eqn:E; injection H as <- <-.
        -- specialize (Hlast eq_refl). exists fcfs_init. simpl. rewrite Hh, Nat.eqb_refl, Hlast. split; [reflexivity|].
           constructor; simpl; auto; try discriminate; [apply NoDup_nil|].
           intros u _. unfold out_ok; simpl. unfold upd. destruct (Nat.eq_dec u t); auto.
           apply (i_out _ _ HR). rewrite Hhq, Hlast. simpl. intros [?|[]]; auto.
        -- exists a; (split; [reflexivity|]); apply R_hmove; auto.
           do 4 right; left. simpl. rewrite upd_same. auto.
      * destruct (next s t) as [y|] eqn:En; injection H as <- <-; exists a; (split; [reflexivity|]); apply R_hmove; auto.
        -- do 5 right. exists y. simpl. rewrite upd_same. auto.
        -- do 4 right; left. simpl. rewrite upd_same. auto.
      * (* hand over *)
        injection H as <- <-.
        exists {| f_holder := None; f_queue := f_queue a |}. simpl. rewrite Hh, Nat.eqb_refl. split; [reflexivity|].
        pose proof (i_links _ _ HR) as Hlk. rewrite Hhq in Hlk.
        destruct (f_queue a) as [|b r] eqn:Eq; [simpl in Hlk; congruence|].
        destruct Hlk as [Hb Hlk].
        assert (y = b /\ thr s b = L5) as [-> Hb5].
        { destruct Hb as [[[E1 E2]|[E1 E2]] _]; [congruence|]. split; congruence. }
        assert (Hbt : b <> t) by (intro; subst; apply Hnt; simpl; auto).
        pose proof (i_nodup _ _ HR) as Hnd. rewrite Hhq in Hnd. inversion Hnd; subst. inversion H2; subst.
        constructor; unfold hq, hl; simpl app; simpl f_queue.
        -- change (queue s = last_opt (b :: r)). rewrite (i_tail _ _ HR), Hhq. apply last_opt_cons.
        -- auto.
        -- apply (links_ext s); auto. intros z Hz. simpl in Hz. simpl.
           assert (z <> t) by (intro; subst; auto; simpl in *; tauto).
           rewrite upd_other by auto. rewrite upd_other by (intro; subst; auto). auto.
        -- discriminate.
        -- intros u q' _ E. simpl in E. inversion E; subst. simpl. rewrite upd_same, upd_other by auto. auto.
        -- intros u Hu. unfold out_ok. simpl.
           destruct (Nat.eq_dec u t) as [Eu|Eu]; [left; subst; apply upd_same|].
           assert (Hub : u <> b) by (intro; subst; apply Hu; simpl; auto).
           rewrite !upd_other by auto.
           apply (i_out _ _ HR). rewrite Hhq. simpl. intros [?|?]; auto.
    + (* front of the queue, lock handed over *)
      destruct (i_front _ _ HR _ _ Hn Hq) as [Ht Hl]. rewrite Ht in H. destruct x; try discriminate.
      rewrite Hl in H. injection H as <- <-.
      exists {| f_holder := Some t; f_queue := q |}. simpl. rewrite Hn, Hq, Nat.eqb_refl. split; [reflexivity|].
      assert (Hhq : hq a = t :: q) by (unfold hq, hl; rewrite Hn, Hq; auto).
      pose proof (i_nodup _ _ HR) as Hnd. rewrite Hhq in Hnd. inversion Hnd; subst.
      constructor; unfold hq, hl; simpl app; simpl f_queue; simpl f_holder.
      * change (queue s = last_opt (t :: q)). rewrite (i_tail _ _ HR), Hhq. auto.
      * auto.
      * apply (links_ext s); auto; [|rewrite <- Hhq; apply (i_links _ _ HR)].
        intros z Hz. simpl in *. rewrite upd_other by (intro; subst; auto). auto.
      * intros h E. inversion E; subst. left. simpl. apply upd_same.
      * discriminate.
      * intros u Hu. unfold out_ok. simpl. rewrite upd_other by (intro; subst; apply Hu; simpl; auto).
        apply (i_out _ _ HR). rewrite Hhq. auto.
    + (* waiting member *)
      destruct (tl_waits _ _ _ HR Htl) as [Hnh [Hinq Hnf]].
      destruct (links_in _ _ _ (i_links _ _ HR) Htl) as [p [l [r [E Hlk]]]].
      destruct Hlk as [[[Ht Hnp]|[Ht Hnp]] Hl]; rewrite Ht in H; destruct x; try discriminate.
      * injection H as <- <-. exists a. split; [reflexivity|].
        assert (Hpin : In p (hq a)) by (rewrite E; apply in_or_app; simpl; auto).
        destruct HR. constructor; auto.
        -- eapply (links_set s _ _ t p); eauto; simpl.
           ++ apply upd_same.
           ++ intros; apply upd_other; auto.
           ++ apply upd_same.
           ++ intros; apply upd_other; auto.
        -- intros h Hh. assert (h <> t) by congruence. unfold hold_ok. simpl. rewrite upd_other by auto.
           destruct (i_holder0 _ Hh) as [?|[?|[?|[?|[?|[y [Hy1 Hy2]]]]]]]; auto 10.
           do 5 right. exists y. split; auto. rewrite upd_other; auto. intro; subst; congruence.
        -- intros u q Hn Hq. simpl. rewrite upd_other by eauto. eauto.
        -- intros u Hu. assert (u <> t) by (intro; subst; auto). assert (u <> p) by (intro; subst; auto).
           unfold out_ok. simpl. rewrite !upd_other by auto. apply i_out0; auto.
      * rewrite Hl in H. injection H as <- <-. exists a. split; [reflexivity|].
        assert (Hsame : forall y, upd (thr s) t L5 y = thr s y) by (intros y; unfold upd; destruct (Nat.eq_dec y t); congruence).
        destruct HR. constructor; auto.
        -- apply (links_ext s); auto. intros z Hz. simpl. auto.
        -- intros h Hh. unfold hold_ok. simpl. rewrite Hsame. apply i_holder0; auto.
        -- intros. simpl. rewrite Hsame. eauto.
        -- intros u Hu. unfold out_ok. simpl. rewrite Hsame. apply i_out0; auto.
  - (* outside *)
    assert (Hmv : forall p, out_ok (goto s t p) t -> R (goto s t p) a).
    { intros p Hp. apply (R_move s a t); auto. intros y Hy. simpl. rewrite upd_other by auto. auto. }
    destruct (i_out _ _ HR _ Hout) as [Ht|[Ht|[Ht|[[[Ht|Ht] Hl]|[[Ht|Ht] [Hl Hn]]]]]]; rewrite Ht in H;
      destruct x; try discriminate.
    + injection H as <- <-. exists a. split; [reflexivity|]. apply Hmv. right; left. simpl. apply upd_same.
    + injection H as <- <-. exists a. split; [reflexivity|]. apply Hmv. right; right; left. simpl. apply upd_same.
    + injection H as <- <-. exists a. split; auto. simpl. rewrite (i_tail _ _ HR).
      unfold hq, hl. destruct (f_holder a); simpl; auto. destruct (f_queue a); simpl; auto.
    + injection H as <- <-. exists a. split; [reflexivity|]. apply (R_move s a t); auto.
      * intros y Hy. simpl. rewrite !upd_other by auto. auto.
      * do 3 right; left. simpl. rewrite !upd_same. auto.
    + injection H as <- <-. exists a. split; [reflexivity|]. apply (R_move s a t); auto.
      * intros y Hy. simpl. rewrite !upd_other by auto. auto.
      * do 3 right; left. simpl. rewrite !upd_same. auto.
    + injection H as <- <-. exists a. split; [reflexivity|]. apply (R_move s a t); auto.
      * intros y Hy. simpl. rewrite !upd_other by auto. auto.
      * do 4 right. simpl. rewrite !upd_same. auto.
    + injection H as <- <-. exists a. split; [reflexivity|]. apply (R_move s a t); auto.
      * intros y Hy. simpl. rewrite !upd_other by auto. auto.
      * do 4 right. simpl. rewrite !upd_same. auto.
    + destruct (queue s) as [p|] eqn:Eq; injection H as <- <-.
      * (* join the queue *)
        set (a' := {| f_holder := f_holder a; f_queue := f_queue a ++ [t] |}).
        exists a'. split; [reflexivity|].
        assert (Hhq : hq a' = hq a ++ [t]) by (unfold hq, hl; simpl; apply app_assoc).
        pose proof (i_tail _ _ HR) as Htl. rewrite Eq in Htl. symmetry in Htl.
        destruct (last_opt_some _ _ Htl) as [l El].
        destruct HR. constructor; rewrite ?Hhq.
        -- simpl. rewrite last_opt_snoc. auto.
        -- apply nodup_snoc; auto.
        -- rewrite El in *. apply links_snoc; simpl; auto.
           ++ apply (links_ext s); auto. intros z Hz. simpl. rewrite upd_other; auto.
              intro; subst. apply Hout. destruct (l ++ [p]); simpl in *; auto.
           ++ apply upd_same.
        -- intros h Hh. simpl in Hh. assert (h <> t). { intro; subst. apply Hout. unfold hq, hl. rewrite Hh. simpl; auto. }
           unfold hold_ok. simpl. rewrite upd_other by auto.
           destruct (i_holder0 _ Hh) as [?|[?|[?|[?|[[? ?]|?]]]]]; auto 10.
           do 4 right; left. split; auto. destruct (f_queue a); discriminate.
        -- intros u q Hn' Hq. simpl in Hn', Hq. simpl.
           destruct (f_queue a) as [|v w] eqn:Ef.
           ++ exfalso. unfold hq, hl in El. rewrite Hn', Ef in El. destruct l; discriminate.
           ++ simpl in Hq. inversion Hq; subst u. rewrite upd_other; [eauto|].
              intro; subst. apply Hout. unfold hq. rewrite Ef. apply in_or_app. simpl; auto.
        -- intros u Hu. unfold out_ok. simpl. rewrite upd_other.
           ++ apply i_out0. intro; apply Hu; apply in_or_app; auto.
           ++ intro; subst. apply Hu. apply in_or_app. simpl; auto.
      * eapply R_enter; eauto.
    + destruct (queue s) as [p|] eqn:Eq; injection H as <- <-.
      * exists a. split; [reflexivity|]. apply Hmv. left. simpl. apply upd_same.
      * eapply R_enter; eauto.
Qed.

Section Top.
Variables (lk : nat -> bool) (nx : nat -> option nat).

Lemma mcs_refines : forall ls s log, run step (init lk nx) ls = Some (s, log) -> fcfs_legal log.
Proof.
  intros ls s log H. destruct (sim_run _ _ _ _ step fcfs_step R R_step _ _ _ _ _ (R_init lk nx) H) as [a [Ha _]].
  exists a. auto.
Qed.

Lemma mcs_reach : forall s, reachable step (init lk nx) s -> exists a, R s a.
Proof.
  intros s [ls [log H]]. destruct (sim_run _ _ _ _ step fcfs_step R R_step _ _ _ _ _ (R_init lk nx) H) as [a [_ Ha]].
  exists a. auto.
Qed.

Lemma run1 : forall s s1 s2 l ls log, step s l = Some (s1, []) -> run step s1 ls = Some (s2, log) ->
  run step s (l :: ls) = Some (s2, log).
Proof. intros. change log with ([] ++ log). eapply run_cons; eauto. Qed.

(** Once the holder knows its successor it can release. *)
Lemma rel_U5 : forall s h x, thr s h = U5 x -> exists ls s1, run step s ls = Some (s1, [FRel h]).
Proof.
  intros. eexists [(h, ATick)], _. eapply run_cons with (e1 := [FRel h]) (e2 := []); [simpl; rewrite H; reflexivity|reflexivity].
Qed.

Lemma rel_U4 : forall s a h, R s a -> f_holder a = Some h -> thr s h = U4 -> f_queue a <> [] ->
  exists ls s1, run step s ls = Some (s1, [FRel h]).
Proof.
  intros s a h HR Hh Ht Hne. destruct (f_queue a) as [|b r] eqn:Eq; [congruence|].
  pose proof (i_links _ _ HR) as Hl. unfold hq, hl in Hl. rewrite Hh, Eq in Hl. simpl in Hl.
  assert (Hb : b <> h).
  { pose proof (i_nodup _ _ HR) as Hnd. unfold hq, hl in Hnd. rewrite Hh, Eq in Hnd. simpl in Hnd.
    inversion Hnd; subst. intro; subst; simpl in *; tauto. }
  destruct Hl as [[[[E1 E2]|[E1 E2]] _] _].
  - eexists [(b, ATick); (h, ATick); (h, ATick)], _.
    eapply run1; [simpl; rewrite E1; reflexivity|].
    eapply run1; [simpl; rewrite upd_other by auto; rewrite Ht, upd_same; reflexivity|].
    eapply run_cons with (e1 := [FRel h]) (e2 := []); [simpl; rewrite upd_same; reflexivity|reflexivity].
  - eexists [(h, ATick); (h, ATick)], _.
    eapply run1; [simpl; rewrite Ht, E2; reflexivity|].
    eapply run_cons with (e1 := [FRel h]) (e2 := []); [simpl; rewrite upd_same; reflexivity|reflexivity].
Qed.

Lemma rel_step : forall s a h p, R s a -> f_holder a = Some h ->
  step s (h, ATick) = Some (goto s h p, []) ->
  (forall a', R (goto s h p) a' -> f_holder a' = Some h -> exists ls s1, run step (goto s h p) ls = Some (s1, [FRel h])) ->
  exists ls s1, run step s ls = Some (s1, [FRel h]).
Proof.
  intros s a h p HR Hh Hs Hk. destruct (R_step _ _ _ _ _ HR Hs) as [a' [Ha HR']]. simpl in Ha.
  inversion Ha; subst a'. destruct (Hk _ HR' Hh) as [ls [s1 Hr]].
  exists ((h, ATick) :: ls), s1. eapply run1; eauto.
Qed.

Lemma rel_U3 : forall s a h, R s a -> f_holder a = Some h -> thr s h = U3 ->
  exists ls s1, run step s ls = Some (s1, [FRel h]).
Proof.
  intros s a h HR Hh Ht. destruct (eqo (queue s) h) eqn:E.
  - eexists [(h, ATick)], _. eapply run_cons with (e1 := [FRel h]) (e2 := []); [simpl; rewrite Ht, E; reflexivity|reflexivity].
  - eapply (rel_step s a h U4); eauto; [simpl; rewrite Ht, E; reflexivity|].
    intros a' HR' Hh'. pose proof (i_holder _ _ HR' _ Hh') as Hok.
    assert (Ht' : thr (goto s h U4) h = U4) by (simpl; apply upd_same).
    eapply rel_U4; eauto. destruct Hok as [?|[?|[?|[?|[[? ?]|[y [? ?]]]]]]]; try congruence; auto.
Qed.

Lemma rel_any : forall s a h, R s a -> f_holder a = Some h -> exists ls s1, run step s ls = Some (s1, [FRel h]).
Proof.
  assert (HU2 : forall s a h, R s a -> f_holder a = Some h -> thr s h = U2 -> exists ls s1, run step s ls = Some (s1, [FRel h])).
  { intros s a h HR Hh Ht. destruct (eqo (queue s) h) eqn:E.
    - eapply (rel_step s a h U3); eauto; [simpl; rewrite Ht, E; reflexivity|].
      intros a' HR' Hh'. eapply rel_U3; eauto. simpl. apply upd_same.
    - eapply (rel_step s a h U4); eauto; [simpl; rewrite Ht, E; reflexivity|].
      intros a' HR' Hh'. pose proof (i_holder _ _ HR' _ Hh') as Hok.
      assert (Ht' : thr (goto s h U4) h = U4) by (simpl; apply upd_same).
      eapply rel_U4; eauto. destruct Hok as [?|[?|[?|[?|[[? ?]|[y [? ?]]]]]]]; try congruence; auto. }
  assert (HU1 : forall s a h, R s a -> f_holder a = Some h -> thr s h = U1 -> exists ls s1, run step s ls = Some (s1, [FRel h])).
  { intros s a h HR Hh Ht. destruct (next s h) as [y|] eqn:E.
    - eapply (rel_step s a h (U5 y)); eauto; [simpl; rewrite Ht, E; reflexivity|].
      intros. eapply rel_U5. simpl. apply upd_same.
    - eapply (rel_step s a h U2); eauto; [simpl; rewrite Ht, E; reflexivity|].
      intros a' HR' Hh'. eapply HU2; eauto. simpl. apply upd_same. }
  intros s a h HR Hh. destruct (i_holder _ _ HR _ Hh) as [E|[E|[E|[E|[[E ?]|[y [E ?]]]]]]].
  - assert (Hs : step s (h, AUnlock) = Some (goto s h U1, [])) by (simpl; rewrite E; auto).
    destruct (R_step _ _ _ _ _ HR Hs) as [a' [Ha HR']]. simpl in Ha. inversion Ha; subst a'.
    destruct (HU1 _ _ _ HR' Hh) as [ls [s1 Hr]]; [simpl; apply upd_same|].
    exists ((h, AUnlock) :: ls), s1. eapply run1; eauto.
  - eauto.
  - eauto.
  - eapply rel_U3; eauto.
  - eapply rel_U4; eauto.
  - eapply rel_U5; eauto.
Qed.

Lemma free_ : forall s a h, R s a -> f_holder a = Some h ->
  exists ls s1 log a1, run step s ls = Some (s1, log) /\ R s1 a1 /\ f_holder a1 = None /\ f_queue a1 = f_queue a.
Proof.
  intros s a h HR He. destruct (rel_any _ _ _ HR He) as [ls [s1 Hr]].
  destruct (sim_run _ _ _ _ step fcfs_step R R_step _ _ _ _ _ HR Hr) as [a1 [Ha1 HR1]].
  exists ls, s1, [FRel h], a1. simpl in Ha1. rewrite He, Nat.eqb_refl in Ha1. inversion Ha1; subst. auto.
Qed.

Lemma grab_ : forall s a u q, R s a -> f_holder a = None -> f_queue a = u :: q ->
  exists ls s1 log a1, run step s ls = Some (s1, log) /\ R s1 a1 /\ In (FAcq u) log /\ f_queue a1 = q.
Proof.
  intros s a u q HR Hn Hq. destruct (i_front _ _ HR _ _ Hn Hq) as [E Hl].
  assert (Hr : run step s [(u, ATick)] = Some (goto s u Crit, [FAcq u])).
  { eapply run_cons with (e1 := [FAcq u]) (e2 := []); [simpl; rewrite E, Hl; reflexivity|reflexivity]. }
  destruct (sim_run _ _ _ _ step fcfs_step R R_step _ _ _ _ _ HR Hr) as [a1 [Ha1 HR1]].
  exists [(u, ATick)], (goto s u Crit), [FAcq u], a1. simpl in Ha1. rewrite Hn, Hq, Nat.eqb_refl in Ha1. inversion Ha1; subst. simpl. auto.
Qed.

Lemma mcs_progress : forall s, reachable step (init lk nx) s -> forall t, waiting s t = true ->
  exists ls s' log, run step s ls = Some (s', log) /\ In (FAcq t) log.
Proof.
  intros s Hre t Hw. destruct (mcs_reach _ Hre) as [a HR].
  apply (fcfs_progress _ _ step R free_ grab_ s a t HR).
  destruct (in_dec Nat.eq_dec t (hq a)) as [Hin|Hin].
  - unfold hq, hl in Hin. destruct (f_holder a) as [h|] eqn:He; auto. destruct Hin as [E|]; auto. subst h.
    unfold waiting in Hw. destruct (i_holder _ _ HR _ He) as [E|[E|[E|[E|[[E _]|[y [E _]]]]]]]; rewrite E in Hw; discriminate.
  - unfold waiting in Hw. destruct (i_out _ _ HR _ Hin) as [E|[E|[E|[[[E|E] _]|[[E|E] _]]]]]; rewrite E in Hw; discriminate.
Qed.

(** A holder can always finish unlock. *)
Lemma mcs_can_release : forall s, reachable step (init lk nx) s -> forall t, holding s t = true ->
  exists ls s' log, run step s ls = Some (s', log) /\ In (FRel t) log.
Proof.
  intros s Hre t Hw. destruct (mcs_reach _ Hre) as [a HR].
  assert (Hh : f_holder a = Some t).
  { unfold holding in Hw. destruct (in_dec Nat.eq_dec t (hq a)) as [Hin|Hin].
    - destruct (mem_cases _ _ _ HR Hin) as [Hh|[[Hn [q Hq]]|Htl]]; auto.
      + destruct (i_front _ _ HR _ _ Hn Hq) as [E _]. rewrite E in Hw. discriminate.
      + destruct (links_in _ _ _ (i_links _ _ HR) Htl) as [p [l [r [_ [[[E _]|[E _]] _]]]]]; rewrite E in Hw; discriminate.
    - destruct (i_out _ _ HR _ Hin) as [E|[E|[E|[[[E|E] _]|[[E|E] _]]]]]; rewrite E in Hw; discriminate. }
  destruct (rel_any _ _ _ HR Hh) as [ls [s1 Hr]]. exists ls, s1, [FRel t]. simpl; auto.
Qed.

(** trylock fails only when somebody holds or is queued. *)
Lemma mcs_try_fail : forall s t s' ev, reachable step (init lk nx) s ->
  step s (t, ATick) = Some (s', ev) -> In (FTryFail t) ev ->
  exists u, u <> t /\ (holding s u = true \/ waiting s u = true).
Proof.
  intros s t s' ev Hre Hs Hin. destruct (mcs_reach _ Hre) as [a HR]. unfold step in Hs.
  assert (Ht : thr s t = T3 /\ exists p, queue s = Some p).
  { destruct (thr s t) eqn:Ht; try discriminate Hs;
      repeat match type of Hs with (match ?x with _ => _ end) = _ => destruct x eqn:? end;
      inversion Hs; subst ev; simpl in Hin;
      try (destruct Hin as [Hin|Hin]; try discriminate Hin);
      try (destruct Hin as [Hin|Hin]; try discriminate Hin); try contradiction; eauto. }
  destruct Ht as [Ht [p0 Hq0]]. clear Hs.
  pose proof (i_tail _ _ HR) as Htl. rewrite Hq0 in Htl.
  destruct (hq a) as [|u q] eqn:Eq; [discriminate|].
  assert (Hu : In u (hq a)) by (rewrite Eq; simpl; auto).
  assert (Hw : holding s u = true \/ waiting s u = true).
  { destruct (mem_cases _ _ _ HR Hu) as [Hh|[[Hn [q' Hq]]|Htl']].
    - left. unfold holding. destruct (i_holder _ _ HR _ Hh) as [E|[E|[E|[E|[[E _]|[y [E _]]]]]]]; rewrite E; auto.
    - right. unfold waiting. destruct (i_front _ _ HR _ _ Hn Hq) as [E _]. rewrite E; auto.
    - right. unfold waiting. destruct (links_in _ _ _ (i_links _ _ HR) Htl') as [p [l [r [_ [[[E _]|[E _]] _]]]]]; rewrite E; auto. }
  exists u. split; auto. intro; subst. unfold holding, waiting in Hw. rewrite Ht in Hw. destruct Hw; discriminate.
Qed.
End Top.
