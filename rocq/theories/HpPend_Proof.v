(** Proofs about hazard pointers, part 2: the pending lists against the observer. *)
From Coq Require Import NArith Arith List Bool Lia.
From Verif Require Import Lib Obs Hp_Model Hp_Spec Hp_Proof.
Import ListNotations.

Definition hs (L : list ret) : list nat := map q_h L.
Definition fst0 (L : list ret) : nat := match L with [] => 0 | x :: _ => q_h x end.
Definition lst0 (L : list ret) : nat := fst0 (rev L).

(** the linked list from [a] consists of the descriptors [l] *)
Fixpoint plist (nx : nat -> nat) (a : nat) (l : list nat) : Prop :=
  match l with [] => a = 0 | h :: l => a = h /\ h <> 0 /\ plist nx (nx h) l end.
Lemma plist_ext : forall nx nx' l a, (forall h, In h l -> nx' h = nx h) -> plist nx a l -> plist nx' a l.
Proof.
  induction l as [|h l IH]; cbn; intros a E H; auto. destruct H as [A [B C]]. repeat split; auto. rewrite E by auto. apply IH; auto.
Qed.
Lemma plist_nz : forall nx l a h, plist nx a l -> In h l -> h <> 0.
Proof. induction l as [|x l IH]; cbn; intros a h H I; [tauto|]. destruct H as [A [B C]]. destruct I as [<-|I]; eauto. Qed.
Lemma plist_hd : forall nx l a, plist nx a (hs l) -> a = fst0 l.
Proof. destruct l; cbn; tauto. Qed.
Lemma plist_mid : forall nx K y R a, plist nx a (hs (K ++ y :: R)) -> nx (q_h y) = fst0 R.
Proof.
  induction K as [|k K IH]; cbn; intros y R a H.
  - destruct H as [A [B C]]. apply plist_hd in C. auto.
  - destruct H as [A [B C]]. eapply IH; eauto.
Qed.
Lemma plist_unlink1 : forall nx y R a, plist nx a (hs (y :: R)) -> plist nx (nx (q_h y)) (hs R).
Proof. cbn. tauto. Qed.
Lemma plist_unlink2 : forall nx K k y R a, plist nx a (hs ((K ++ [k]) ++ y :: R)) -> NoDup (hs ((K ++ [k]) ++ y :: R)) ->
  plist (upd nx (q_h k) (nx (q_h y))) a (hs ((K ++ [k]) ++ R)).
Proof.
  induction K as [|z K IH]; cbn; intros k y R a H N.
  - destruct H as [A [B [C [D E]]]]. repeat split; auto. rewrite upd_same. eapply plist_ext; [|apply E].
    intros h I. apply upd_other. intros ->. inversion N; subst. apply H1. right. auto.
  - destruct H as [A [B C]]. inversion N as [|? ? N1 N2]; subst. repeat split; auto. rewrite upd_other.
    + apply IH; auto.
    + intros E. apply N1. unfold hs. rewrite !map_app, !in_app_iff. left. right. left. cbn. auto.
Qed.
Lemma lst0_snoc : forall K k, lst0 (K ++ [k]) = q_h k.
Proof. intros. unfold lst0. rewrite rev_app_distr. auto. Qed.

Definition dm (s : st) (L : list ret) : Prop := forall x, In x L -> hptr s (q_h x) = q_p x /\ hdat s (q_h x) = q_d x.
Definition PL (s : st) (r : nat) (L : list ret) : Prop := plist (pnext s) (pfirst s r) (hs L) /\ dm s L.
(** none of the kept entries was a candidate *)
Definition kept (cd : nat -> Prop) (K : list ret) : Prop := forall y, In y K -> ~ cd (q_h y).

(** the pending list of [r] while its owner is at [p]; [L] is what the observer has outstanding for [r] *)
Definition PX (s : st) (cd : nat -> Prop) (r : nat) (p : pc) (L : list ret) : Prop :=
  match p with
  | Rt1 _ _ h d q => exists L', L = (r, h, d, q) :: L' /\ PL s r L'
  | Rt2 _ _ h d q => exists L', L = (r, h, d, q) :: L' /\ PL s r L' /\ hptr s h = q
  | Rt3 _ _ h => exists x L', L = x :: L' /\ q_h x = h /\ PL s r L' /\ dm s [x]
  | Rt4 _ _ h => exists x L', L = x :: L' /\ q_h x = h /\ PL s r L' /\ dm s [x] /\ pnext s h = pfirst s r
  | Rt5 _ _ => L <> [] /\ PL s r L
  | Lp1 x => exists K R, L = K ++ R /\ PL s r L /\ xp x = lst0 K /\ xe x = fst0 R /\ kept cd K
  | Ms1 x _ | Ms2 x _ _ | Ms3 x _ | De1 x | De2 x =>
      exists K y R, L = K ++ y :: R /\ PL s r L /\ xp x = lst0 K /\ xe x = q_h y /\ xn x = fst0 R /\ kept cd K
  | De3 x => exists K y R, L = K ++ y :: R /\ PL s r (K ++ R) /\ dm s [y] /\ xp x = lst0 K /\ xe x = q_h y /\ xn x = fst0 R /\ kept cd K
  | De4 x => exists K R, L = K ++ R /\ PL s r L /\ xp x = lst0 K /\ xn x = fst0 R /\ kept cd K
  | _ => PL s r L
  end.
Definition ouse (p : pc) (r : nat) : bool := match uses p with Some r' => Nat.eqb r' r | None => false end.
Definition PR (s : st) (cd : nat -> Prop) (r : nat) (p : pc) (L : list ret) : Prop := if ouse p r then PX s cd r p L else PL s r L.
(** retirements the counter does not count (yet or any more) *)
Definition adj (p : pc) : nat :=
  match p with Rt1 _ _ _ _ _ | Rt2 _ _ _ _ _ | Rt3 _ _ _ | Rt4 _ _ _ | Rt5 _ _ | De2 _ | De3 _ => 1 | _ => 0 end.
Definition adjr (p : pc) (r : nat) : nat := if ouse p r then adj p else 0.

Record IB (s : st) (g : gs) : Prop := {
  b_no : forall r, own s r = None -> pend_of g r = [];
  b_rec : forall r t, own s r = Some t -> PR s (g_cand g t) r (pcs s t) (pend_of g r);
  b_cnt : forall r t, own s r = Some t -> npend s r = (N.of_nat (length (pend_of g r) - adjr (pcs s t) r) mod W32)%N;
  b_new : forall r, own s r = None -> reg s r = true -> pfirst s r = 0 /\ npend s r = 0%N;
  b_nd : NoDup (hs (g_out g));
  b_out : forall x, In x (g_out g) -> out s (q_h x) = true /\ q_h x <> 0;
  b_use : forall r, g_use g r = true <-> own s r <> None }.

Lemma IB_init : IB init gs0.
Proof.
  constructor; cbn; try discriminate; try tauto; auto; [constructor|]. intros r. split; [discriminate|tauto].
Qed.

Lemma PL_ext : forall s s' r L, pfirst s' r = pfirst s r ->
  (forall x, In x L -> pnext s' (q_h x) = pnext s (q_h x) /\ hptr s' (q_h x) = hptr s (q_h x) /\ hdat s' (q_h x) = hdat s (q_h x)) ->
  PL s r L -> PL s' r L.
Proof.
  intros s s' r L Hf Hx [A B]. split.
  - rewrite Hf. eapply plist_ext; [|apply A]. intros h I. unfold hs in I. apply in_map_iff in I. destruct I as [x [<- I]]. apply Hx; auto.
  - intros x I. destruct (Hx x I) as [_ [-> ->]]. auto.
Qed.
Lemma PX_ext : forall s s' (cd cd' : nat -> Prop) r p L, pfirst s' r = pfirst s r ->
  (forall x, In x L -> pnext s' (q_h x) = pnext s (q_h x) /\ hptr s' (q_h x) = hptr s (q_h x) /\ hdat s' (q_h x) = hdat s (q_h x)) ->
  (forall h, cd' h -> cd h) -> PX s cd r p L -> PX s' cd' r p L.
Proof.
  intros s s' cd cd' r p L Hf Hx Hc H.
  assert (KC : forall K, kept cd K -> kept cd' K) by (intros K HK y I C; apply (HK y I); auto).
  destruct p; cbn [PX] in *; try (eapply PL_ext; eauto; fail).
  - destruct H as [L' [-> A]]. exists L'. split; auto. eapply PL_ext; eauto. intros; apply Hx; right; auto.
  - destruct H as [L' [-> [A B]]]. exists L'. split; auto. split; [eapply PL_ext; eauto; intros; apply Hx; right; auto|].
    destruct (Hx _ (or_introl eq_refl)) as [_ [X _]]. cbn in X. congruence.
  - destruct H as [x [L' [-> [A [B C]]]]]. exists x, L'. split; auto. split; auto. split.
    + eapply PL_ext; eauto; intros; apply Hx; right; auto.
    + intros z [<-|[]]. destruct (Hx _ (or_introl eq_refl)) as [_ [-> ->]]. apply C; left; auto.
  - destruct H as [x [L' [-> [A [B [C D]]]]]]. exists x, L'. split; auto. split; auto. split; [|split].
    + eapply PL_ext; eauto; intros; apply Hx; right; auto.
    + intros z [<-|[]]. destruct (Hx _ (or_introl eq_refl)) as [_ [-> ->]]. apply C; left; auto.
    + destruct (Hx _ (or_introl eq_refl)) as [X _]. cbn in X. congruence.
  - destruct H as [A B]. split; auto. eapply PL_ext; eauto.
  - destruct H as [K [R [-> [A [B [C D]]]]]]. exists K, R. pose proof (PL_ext s s' r _ Hf Hx A). intuition auto.
  - destruct H as [K [y [R [-> [A [B [C [D E]]]]]]]]. exists K, y, R. pose proof (PL_ext s s' r _ Hf Hx A). intuition auto.
  - destruct H as [K [y [R [-> [A [B [C [D E]]]]]]]]. exists K, y, R. pose proof (PL_ext s s' r _ Hf Hx A). intuition auto.
  - destruct H as [K [y [R [-> [A [B [C [D E]]]]]]]]. exists K, y, R. pose proof (PL_ext s s' r _ Hf Hx A). intuition auto.
  - destruct H as [K [y [R [-> [A [B [C [D E]]]]]]]]. exists K, y, R. pose proof (PL_ext s s' r _ Hf Hx A). intuition auto.
  - destruct H as [K [y [R [-> [A [B [C [D E]]]]]]]]. exists K, y, R. pose proof (PL_ext s s' r _ Hf Hx A). intuition auto.
  - destruct H as [K [y [R [-> [A [B [C [D [E F]]]]]]]]]. exists K, y, R. split; auto. split; [|split; [|auto]].
    + eapply PL_ext; eauto. intros z0 I. apply Hx. rewrite in_app_iff in *. cbn. tauto.
    + intros z [<-|[]]. destruct (Hx y) as [_ [-> ->]]; [rewrite in_app_iff; cbn; auto|]. apply B; left; auto.
  - destruct H as [K [R [-> [A [B [C D]]]]]]. exists K, R. pose proof (PL_ext s s' r _ Hf Hx A). intuition auto.
Qed.
Lemma PR_ext : forall s s' (cd cd' : nat -> Prop) r p L, pfirst s' r = pfirst s r ->
  (forall x, In x L -> pnext s' (q_h x) = pnext s (q_h x) /\ hptr s' (q_h x) = hptr s (q_h x) /\ hdat s' (q_h x) = hdat s (q_h x)) ->
  (forall h, cd' h -> cd h) -> PR s cd r p L -> PR s' cd' r p L.
Proof. intros s s' cd cd' r p L A B C. unfold PR. destruct (ouse p r); [eapply PX_ext; eauto|eapply PL_ext; eauto]. Qed.

(** ** The observer's lists *)
Lemma pend_in : forall g r x, In x (pend_of g r) <-> In x (g_out g) /\ q_r x = r.
Proof. intros. unfold pend_of. rewrite filter_In, Nat.eqb_eq. tauto. Qed.
Lemma nd_inj : forall (l : list ret) x y, NoDup (hs l) -> In x l -> In y l -> q_h x = q_h y -> x = y.
Proof.
  induction l as [|z l IH]; cbn; intros x y N A B E; [tauto|]. inversion N as [|? ? N1 N2]; subst.
  destruct A as [<-|A], B as [<-|B]; auto.
  - exfalso. apply N1. rewrite E. apply in_map; auto.
  - exfalso. apply N1. rewrite <- E. apply in_map; auto.
Qed.
Lemma nd_filter : forall (f : ret -> bool) l, NoDup (hs l) -> NoDup (hs (filter f l)).
Proof.
  induction l as [|z l IH]; cbn; intros N; auto. inversion N as [|? ? N1 N2]; subst. destruct (f z); cbn; auto. constructor; auto.
  intros I. apply N1. unfold hs in *. apply in_map_iff in I. destruct I as [x [E I]]. apply filter_In in I. rewrite <- E. apply in_map; tauto.
Qed.
Lemma filter_comm : forall A (f g : A -> bool) l, filter f (filter g l) = filter g (filter f l).
Proof. induction l as [|x l IH]; cbn; auto. destruct (f x) eqn:F, (g x) eqn:G; cbn; rewrite ?F, ?G, ?IH; auto. Qed.
Lemma filter_id : forall A (f : A -> bool) l, (forall x, In x l -> f x = true) -> filter f l = l.
Proof. induction l as [|x l IH]; cbn; intros H; auto. rewrite H by auto. f_equal. auto. Qed.
Lemma filter_none : forall A (f : A -> bool) l, (forall x, In x l -> f x = false) -> filter f l = [].
Proof. induction l as [|x l IH]; cbn; intros H; auto. rewrite H by auto. auto. Qed.
Lemma filter_mid : forall (K R : list ret) y, NoDup (hs (K ++ y :: R)) -> filter (fun x => negb (Nat.eqb (q_h x) (q_h y))) (K ++ y :: R) = K ++ R.
Proof.
  intros K R y N. rewrite filter_app. cbn. rewrite Nat.eqb_refl. cbn. unfold hs in N. rewrite map_app in N. cbn in N.
  apply NoDup_remove_2 in N. rewrite in_app_iff in N.
  f_equal; apply filter_id; intros x I; apply negb_true_iff; apply Nat.eqb_neq; intros E; apply N; rewrite <- E; [left|right]; apply in_map; auto.
Qed.
Lemma pend_ret : forall g t r h d p r', pend_of (gnext g (ERet t r h d p)) r' = if Nat.eqb r r' then (r, h, d, p) :: pend_of g r' else pend_of g r'.
Proof. intros. unfold pend_of. cbn. auto. Qed.
Lemma pend_unr : forall g t r r', pend_of (gnext g (EUnr t r)) r' = if Nat.eqb r r' then [] else pend_of g r'.
Proof.
  intros. unfold pend_of. cbn. rewrite filter_comm. destruct (Nat.eqb r r') eqn:E.
  - apply Nat.eqb_eq in E. subst. apply filter_none. intros x I. apply filter_In in I. destruct I as [_ ->]. auto.
  - apply Nat.eqb_neq in E. apply filter_id. intros x I. apply filter_In in I. destruct I as [_ I]. apply Nat.eqb_eq in I. apply negb_true_iff. apply Nat.eqb_neq. congruence.
Qed.
Lemma pend_des : forall g t r h d r', pend_of (gnext g (EDes t r h d)) r' = filter (fun x => negb (Nat.eqb (q_h x) h)) (pend_of g r').
Proof. intros. unfold pend_of. cbn. apply filter_comm. Qed.

(** ** Preservation *)
(** a step of [t], owner of [r], that concerns only [r] *)
Lemma IB_one : forall s s' g g' t r p', IA s -> IB s g -> own s r = Some t ->
  (forall r', own s' r' = own s r') -> (forall r', reg s' r' = reg s r') -> (forall u, pcs s' u = upd (pcs s) t p' u) ->
  (forall r', uses (pcs s t) = Some r' -> r' = r) -> (forall r', uses p' = Some r' -> r' = r) ->
  (forall r', r' <> r -> pend_of g' r' = pend_of g r') -> (forall r', r' <> r -> pfirst s' r' = pfirst s r' /\ npend s' r' = npend s r') ->
  (forall r' x, r' <> r -> In x (pend_of g r') -> pnext s' (q_h x) = pnext s (q_h x) /\ hptr s' (q_h x) = hptr s (q_h x) /\ hdat s' (q_h x) = hdat s (q_h x)) ->
  (forall u h, u <> t -> g_cand g' u h -> g_cand g u h) ->
  (forall r', g_use g' r' = g_use g r') ->
  PR s' (g_cand g' t) r p' (pend_of g' r) -> npend s' r = (N.of_nat (length (pend_of g' r) - adjr p' r) mod W32)%N ->
  NoDup (hs (g_out g')) -> (forall x, In x (g_out g') -> out s' (q_h x) = true /\ q_h x <> 0) -> IB s' g'.
Proof.
  intros s s' g g' t r p' A I Ot Ho Hr Hp U U' Hg Hm Hx Hc Hu HP HN Hnd Hout.
  assert (Pt : pcs s' t = p') by (rewrite Hp, upd_same; auto).
  assert (Po : forall u, u <> t -> pcs s' u = pcs s u) by (intros; rewrite Hp, upd_other; auto).
  assert (V : forall p r', (forall r'', uses p = Some r'' -> r'' = r) -> r' <> r -> ouse p r' = false).
  { intros p r' X N. unfold ouse. destruct (uses p); auto. rewrite (X n eq_refl). apply Nat.eqb_neq. auto. }
  assert (W : forall r' u, own s r' = Some u -> u <> t -> r' <> r) by (intros r' u X N ->; congruence).
  constructor; auto.
  - intros r' O. rewrite Ho in O. rewrite Hg by congruence. apply (b_no s g I); auto.
  - intros r' u O. rewrite Ho in O. destruct (Nat.eq_dec r' r) as [->|N].
    + replace u with t by congruence. rewrite Pt. auto.
    + rewrite Hg by auto. destruct (Hm r' N) as [M1 M2]. destruct (Nat.eq_dec u t) as [->|Nu].
      * pose proof (b_rec s g I r' t O) as B. rewrite Pt. unfold PR in *. rewrite (V p' r' U' N). rewrite (V _ r' U N) in B.
        eapply PL_ext; eauto.
      * rewrite Po by auto. eapply PR_ext; [..|apply (b_rec s g I r' u O)]; eauto.
  - intros r' u O. rewrite Ho in O. destruct (Nat.eq_dec r' r) as [->|N].
    + replace u with t by congruence. rewrite Pt. auto.
    + rewrite Hg by auto. destruct (Hm r' N) as [M1 M2]. rewrite M2. destruct (Nat.eq_dec u t) as [->|Nu].
      * pose proof (b_cnt s g I r' t O) as B. rewrite Pt. unfold adjr in *. rewrite (V p' r' U' N). rewrite (V _ r' U N) in B. auto.
      * rewrite Po by auto. apply (b_cnt s g I); auto.
  - intros r' O R. rewrite Ho in O. rewrite Hr in R. destruct (Hm r') as [-> ->]; [congruence|]. apply (b_new s g I); auto.
  - intros r'. rewrite Hu, Ho. apply (b_use s g I).
Qed.

(** a step of a thread that works with no record *)
Lemma IB_none : forall s s' g g' t p', IB s g ->
  (forall r, own s' r = own s r) -> (forall u, pcs s' u = upd (pcs s) t p' u) -> uses (pcs s t) = None -> uses p' = None ->
  g_out g' = g_out g -> (forall u h, g_cand g' u h -> g_cand g u h) -> (forall r, g_use g' r = g_use g r) ->
  (forall r, own s r <> None -> pfirst s' r = pfirst s r /\ npend s' r = npend s r) ->
  (forall r, own s r = None -> reg s' r = true -> pfirst s' r = 0 /\ npend s' r = 0%N) ->
  pnext s' = pnext s -> hptr s' = hptr s -> hdat s' = hdat s -> out s' = out s -> IB s' g'.
Proof.
  intros s s' g g' t p' I Ho Hp U U' Hg Hc Hu Hm Hn E1 E2 E3 E4.
  assert (Pt : pcs s' t = p') by (rewrite Hp, upd_same; auto).
  assert (Po : forall u, u <> t -> pcs s' u = pcs s u) by (intros; rewrite Hp, upd_other; auto).
  assert (GP : forall r, pend_of g' r = pend_of g r) by (intros; unfold pend_of; rewrite Hg; auto).
  assert (V : forall p r, uses p = None -> ouse p r = false) by (intros p r X; unfold ouse; rewrite X; auto).
  constructor.
  - intros r O. rewrite Ho in O. rewrite GP. apply (b_no s g I); auto.
  - intros r u O. rewrite Ho in O. rewrite GP. destruct (Hm r) as [M1 M2]; [congruence|]. pose proof (b_rec s g I r u O) as B. destruct (Nat.eq_dec u t) as [->|Nu].
    + rewrite Pt. unfold PR in *. rewrite V by auto. rewrite V in B by auto. eapply PL_ext; eauto. rewrite E1, E2, E3. auto.
    + rewrite Po by auto. eapply PR_ext; [| | |apply B]; auto. rewrite E1, E2, E3. auto.
  - intros r u O. rewrite Ho in O. rewrite GP. destruct (Hm r) as [M1 M2]; [congruence|]. pose proof (b_cnt s g I r u O) as B. rewrite M2. destruct (Nat.eq_dec u t) as [->|Nu].
    + rewrite Pt. unfold adjr in *. rewrite V by auto. rewrite V in B by auto. auto.
    + rewrite Po by auto. auto.
  - intros r O R. rewrite Ho in O. auto.
  - rewrite Hg. apply (b_nd s g I).
  - rewrite Hg, E4. apply (b_out s g I).
  - intros r. rewrite Hu, Ho. apply (b_use s g I).
Qed.
(** a thread acquires a record *)
Lemma IB_acq : forall s s' g g' t r p', IB s g -> own s r = None -> reg s r = true ->
  (forall r', own s' r' = upd (own s) r (Some t) r') -> (forall r', reg s' r' = reg s r') -> (forall u, pcs s' u = upd (pcs s) t p' u) -> uses (pcs s t) = None -> uses p' = None ->
  g_out g' = g_out g -> (forall u h, g_cand g' u h -> g_cand g u h) -> (forall r', g_use g' r' = upd (g_use g) r true r') ->
  pfirst s' = pfirst s -> npend s' = npend s ->
  pnext s' = pnext s -> hptr s' = hptr s -> hdat s' = hdat s -> out s' = out s -> IB s' g'.
Proof.
  intros s s' g g' t r p' I On Rg Ho Hr Hp U U' Hg Hc Hu M1 M2 E1 E2 E3 E4.
  assert (Pt : pcs s' t = p') by (rewrite Hp, upd_same; auto).
  assert (Po : forall u, u <> t -> pcs s' u = pcs s u) by (intros; rewrite Hp, upd_other; auto).
  assert (GP : forall r, pend_of g' r = pend_of g r) by (intros; unfold pend_of; rewrite Hg; auto).
  assert (V : forall p r, uses p = None -> ouse p r = false) by (intros p r' X; unfold ouse; rewrite X; auto).
  destruct (b_new s g I r On Rg) as [N1 N2]. pose proof (b_no s g I r On) as N3.
  constructor.
  - intros r' O. rewrite Ho in O. rewrite GP. apply (b_no s g I); auto. unfold upd in O. destruct (Nat.eq_dec r' r); congruence.
  - intros r' u O. rewrite Ho in O. rewrite GP. destruct (Nat.eq_dec r' r) as [->|Nr].
    + rewrite upd_same in O. injection O as <-. rewrite Pt. unfold PR. rewrite V by auto. rewrite N3. split; [rewrite M1; auto|intros x []].
    + rewrite upd_other in O by auto. pose proof (b_rec s g I r' u O) as B. destruct (Nat.eq_dec u t) as [->|Nu].
      * rewrite Pt. unfold PR in *. rewrite V by auto. rewrite V in B by auto. eapply PL_ext; [|  |exact B]; [congruence|]. rewrite E1, E2, E3. auto.
      * rewrite Po by auto. eapply PR_ext; [| | |apply B]; auto; [congruence|]. rewrite E1, E2, E3. auto.
  - intros r' u O. rewrite Ho in O. rewrite GP, M2. destruct (Nat.eq_dec r' r) as [->|Nr].
    + rewrite N3, N2. auto.
    + rewrite upd_other in O by auto. pose proof (b_cnt s g I r' u O) as B. destruct (Nat.eq_dec u t) as [->|Nu].
      * rewrite Pt. unfold adjr in *. rewrite V by auto. rewrite V in B by auto. auto.
      * rewrite Po by auto. auto.
  - intros r' O R. rewrite Ho in O. rewrite Hr in R. rewrite M1, M2. apply (b_new s g I); auto. unfold upd in O. destruct (Nat.eq_dec r' r); congruence.
  - rewrite Hg. apply (b_nd s g I).
  - rewrite Hg, E4. apply (b_out s g I).
  - intros r'. rewrite Hu, Ho. unfold upd. destruct (Nat.eq_dec r' r); [split; auto; discriminate|apply (b_use s g I)].
Qed.
(** a thread gives a record up *)
Lemma IB_rel : forall s s' g g' t r p', IB s g -> own s r = Some t ->
  (forall r', own s' r' = upd (own s) r None r') -> (forall r', reg s' r' = reg s r') -> (forall u, pcs s' u = upd (pcs s) t p' u) -> uses (pcs s t) = None -> uses p' = None ->
  (forall r', pend_of g' r' = if Nat.eqb r r' then [] else pend_of g r') -> g_out g' = filter (fun x => negb (Nat.eqb (q_r x) r)) (g_out g) ->
  (forall u h, g_cand g' u h -> g_cand g u h) -> (forall r', g_use g' r' = upd (g_use g) r false r') ->
  pfirst s' = upd (pfirst s) r 0 -> npend s' = upd (npend s) r 0%N ->
  pnext s' = pnext s -> hptr s' = hptr s -> hdat s' = hdat s -> out s' = out s -> IB s' g'.
Proof.
  intros s s' g g' t r p' I Ot Ho Hr Hp U U' GP Hg Hc Hu M1 M2 E1 E2 E3 E4.
  assert (Pt : pcs s' t = p') by (rewrite Hp, upd_same; auto).
  assert (Po : forall u, u <> t -> pcs s' u = pcs s u) by (intros; rewrite Hp, upd_other; auto).
  assert (V : forall p r, uses p = None -> ouse p r = false) by (intros p r' X; unfold ouse; rewrite X; auto).
  assert (GN : forall r', r' <> r -> pend_of g' r' = pend_of g r').
  { intros r' N. rewrite GP. destruct (Nat.eqb r r') eqn:E; auto. apply Nat.eqb_eq in E. congruence. }
  constructor.
  - intros r' O. rewrite Ho in O. destruct (Nat.eq_dec r' r) as [->|Nr]; [rewrite GP, Nat.eqb_refl; auto|]. rewrite GN by auto. apply (b_no s g I). rewrite upd_other in O; auto.
  - intros r' u O. rewrite Ho in O. destruct (Nat.eq_dec r' r) as [->|Nr]; [rewrite upd_same in O; discriminate|]. rewrite GN by auto.
    rewrite upd_other in O by auto. pose proof (b_rec s g I r' u O) as B.
    assert (F : pfirst s' r' = pfirst s r') by (rewrite M1, upd_other; auto). destruct (Nat.eq_dec u t) as [->|Nu].
    + rewrite Pt. unfold PR in *. rewrite V by auto. rewrite V in B by auto. eapply PL_ext; eauto. rewrite E1, E2, E3. auto.
    + rewrite Po by auto. eapply PR_ext; [| | |apply B]; auto. rewrite E1, E2, E3. auto.
  - intros r' u O. rewrite Ho in O. destruct (Nat.eq_dec r' r) as [->|Nr]; [rewrite upd_same in O; discriminate|]. rewrite GN by auto.
    rewrite M2, upd_other by auto. rewrite upd_other in O by auto. pose proof (b_cnt s g I r' u O) as B. destruct (Nat.eq_dec u t) as [->|Nu].
    + rewrite Pt. unfold adjr in *. rewrite V by auto. rewrite V in B by auto. auto.
    + rewrite Po by auto. auto.
  - intros r' O R. rewrite Ho in O. rewrite Hr in R. rewrite M1, M2. unfold upd in *. destruct (Nat.eq_dec r' r); auto. apply (b_new s g I); auto.
  - rewrite Hg. apply nd_filter. apply (b_nd s g I).
  - rewrite Hg, E4. intros x X. apply filter_In in X. apply (b_out s g I). tauto.
  - intros r'. rewrite Hu, Ho. unfold upd. destruct (Nat.eq_dec r' r); [split; congruence|apply (b_use s g I)].
Qed.

(** ** Candidates *)
Definition rcl (p : pc) : option (nat * list nat) :=
  match p with
  | Mc1 r _ => Some (r, []) | Mc2 r _ C _ | Mc3 r _ C _ _ | Mc4 r _ C _ => Some (r, C)
  | Lp0 x | Lp1 x | Ms1 x _ | Ms2 x _ _ | Ms3 x _ | De1 x | De2 x | De3 x | De4 x => Some (xr x, xC x)
  | _ => None
  end.
Record IK (s : st) (g : gs) : Prop := {
  k_ph : forall r i, g_phys g r i = hz s r i;
  k_z : forall r i, reg s r = false -> hz s r i = 0;
  k_cd : forall t r C x, rcl (pcs s t) = Some (r, C) -> In x (pend_of g r) -> g_cand g t (q_h x) ->
         (forall r' i, hz s r' i <> q_p x) /\ ~ In (q_p x) C }.
Lemma IK_init : IK init gs0.
Proof. constructor; cbn; intros; [auto|auto|discriminate]. Qed.
Lemma rcl_uses : forall p r C, rcl p = Some (r, C) -> uses p = Some r.
Proof. destruct p; cbn; intros ? ? [= <- <-]; auto. Qed.
