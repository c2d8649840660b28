(** Hash table: the invariant of a map, its contents as a list, and the traces of stores a
    writer may make. *)
From Coq Require Import Arith NArith List Bool Lia Permutation.
From Verif Require Import Lib Helpers_Model Ht_Model Ht_Spec Ht_Proof.
Import ListNotations.

(** * Lists of pairs *)
Section A.
Variables (bs : bool) (len : N -> N) (memeq : N -> N -> N -> bool) (hf : N -> N).
Variable CT : contract bs len memeq hf.
Notation valid := (valid len). Notation same := (same bs len memeq).
Notation mem := (mem bs len memeq). Notation del := (del bs len memeq). Notation pair_of := (pair_of bs len memeq).
Notation uniq := (distinct bs len memeq).

Definition fresh (k : N) (A : list (N * N)) : Prop := forall y, In y A -> same (fst y) k = false.

Lemma uniq_perm : forall A B, Permutation A B -> uniq A -> uniq B.
Proof. intros A B P U x R Q. apply U. rewrite P. auto. Qed.
Lemma uniq_nil : uniq [].
Proof. intros x R P. apply Permutation_nil in P. discriminate. Qed.
Lemma perm_in : forall (A : list (N * N)) x, In x A -> exists R, Permutation A (x :: R).
Proof. intros A x I. destruct (in_split _ _ I) as (l1 & l2 & E). exists (l1 ++ l2). subst. symmetry. apply Permutation_middle. Qed.
Lemma uniq_tail : forall x A, uniq (x :: A) -> uniq A.
Proof.
  intros x A U y R P z I. apply (U y (x :: R)); [|right; auto].
  rewrite P. apply perm_swap.
Qed.
Lemma same_sym : forall x y, valid x -> valid y -> same x y = same y x.
Proof.
  intros x y VX VY. destruct (same x y) eqn:E, (same y x) eqn:F; auto.
  - rewrite (c_sym _ _ _ _ CT x y) in F; auto. - rewrite (c_sym _ _ _ _ CT y x) in E; auto.
Qed.
Lemma same_trans_f : forall x y z, valid x -> valid y -> valid z -> same x y = true -> same x z = same y z.
Proof.
  intros x y z VX VY VZ S. destruct (same x z) eqn:E, (same y z) eqn:F; auto.
  - rewrite <- F. symmetry. apply (c_trans _ _ _ _ CT y x z); auto. rewrite same_sym; auto.
  - rewrite <- E. apply (c_trans _ _ _ _ CT x y z); auto.
Qed.
Lemma same_trans_r : forall x y z, valid x -> valid y -> valid z -> same x y = true -> same z x = same z y.
Proof. intros. rewrite (same_sym z x), (same_sym z y) by auto. apply same_trans_f; auto. Qed.
Lemma uniq_cons : forall k v A, valid k -> (forall y, In y A -> valid (fst y)) -> uniq A -> fresh k A -> uniq ((k, v) :: A).
Proof.
  intros k v A VK VA U F x R P y I.
  assert (IX : In x ((k, v) :: A)) by (rewrite P; left; auto).
  destruct IX as [E | IX].
  - subst. apply Permutation_cons_inv in P. apply F. rewrite P. auto.
  - destruct (perm_in _ _ IX) as (A' & PA).
    assert (Q : Permutation R ((k, v) :: A')).
    { apply (Permutation_cons_inv (a := x)). rewrite <- P, PA. apply perm_swap. }
    rewrite Q in I. destruct I as [E | I].
    + subst. simpl. rewrite same_sym; auto.
    + apply (U x A'); auto.
Qed.
Lemma uniq_repl : forall k v x A, valid k -> valid (fst x) -> (forall y, In y A -> valid (fst y)) -> same (fst x) k = true ->
  uniq (x :: A) -> uniq ((k, v) :: A).
Proof.
  intros k v x A VK VX VA S U. apply uniq_cons; auto. eapply uniq_tail; eauto.
  intros y I. rewrite <- (same_trans_r (fst x) k); auto. apply (U x A); auto.
Qed.
Lemma fresh_mem : forall k A, fresh k A <-> mem k A = false.
Proof.
  intros k A. unfold Ht_Spec.mem, fresh. induction A; simpl; [split; intros; [reflexivity | contradiction]|].
  rewrite orb_false_iff, <- IHA. split; intros H.
  - split; [apply H; auto | intros; apply H; auto].
  - destruct H as (H1 & H2). intros y [E | I]; [subst; exact H1 | apply H2; auto].
Qed.
Lemma fresh_del : forall k A, fresh k A -> del k A = A.
Proof.
  intros k A F. unfold Ht_Spec.del. induction A; auto. simpl. rewrite (F a) by (left; auto). simpl. f_equal.
  apply IHA. intros y I. apply F. right; auto.
Qed.
Lemma fresh_pair : forall k A, fresh k A -> pair_of k A = None.
Proof.
  intros k A F. unfold Ht_Spec.pair_of. induction A; auto. simpl. rewrite (F a) by (left; auto).
  apply IHA. intros y I. apply F. right; auto.
Qed.
Lemma del_perm : forall k A B, Permutation A B -> Permutation (del k A) (del k B).
Proof.
  intros k A B P. unfold Ht_Spec.del. induction P; simpl; auto.
  - destruct (negb (same (fst x) k)); auto.
  - destruct (negb (same (fst x) k)), (negb (same (fst y) k)); auto. apply perm_swap.
  - etransitivity; eauto.
Qed.
Lemma fresh_perm : forall k A B, Permutation A B -> fresh k A -> fresh k B.
Proof. intros k A B P F y I. apply F. rewrite P. auto. Qed.
Section F.
Variables (k : N) (x : N * N) (A R : list (N * N)).
Hypothesis (VK : valid k) (VX : valid (fst x)) (VA : forall y, In y A -> valid (fst y)) (U : uniq A)
  (P : Permutation A (x :: R)) (SX : same (fst x) k = true).
Lemma rest_fresh : fresh k R.
Proof.
  intros y I. rewrite <- (same_trans_r (fst x) k); auto. - apply (U x R); auto. - apply VA. rewrite P. right; auto.
Qed.
Lemma found_mem : mem k A = true.
Proof. unfold Ht_Spec.mem. apply existsb_exists. exists x. split; auto. rewrite P. left; auto. Qed.
Lemma found_del : Permutation (del k A) R.
Proof.
  rewrite (del_perm k _ _ P). unfold Ht_Spec.del. simpl. rewrite SX. simpl. fold (del k R). rewrite fresh_del; auto. apply rest_fresh.
Qed.
Lemma found_pair : pair_of k A = Some x.
Proof.
  unfold Ht_Spec.pair_of. destruct (find (fun x => same (fst x) k) A) as [y|] eqn:F.
  - apply find_some in F. destruct F as (I & S). rewrite P in I. destruct I as [E | I]; [subst; auto|].
    rewrite (rest_fresh y I) in S. discriminate.
  - assert (I : In x A) by (rewrite P; left; auto). pose proof (find_none _ _ F x I) as Q. simpl in Q. congruence.
Qed.
End F.
End A.

(** * Maps *)
Section I.
Variables (dl bs : bool) (len : N -> N) (memeq : N -> N -> N -> bool) (hf : N -> N) (ub : N -> N -> N).
Notation pi := (pi ub). Notation valid := (valid len). Notation same := (same bs len memeq).
Notation uniq := (distinct bs len memeq). Notation fresh := (fresh bs len memeq).

Definition bidx (m : tmap) (h : N) : nat := N.to_nat (hidx m h).
Definition okq (m : tmap) (h : N) (q : nat) : Prop := q < pmax m /\ (dl = true -> bnd m (bidx m h) = 255 \/ q < bnd m (bidx m h)).
Definition noempty (m : tmap) (h : N) (q : nat) : Prop := forall r, r < q -> key m (pi m h r) <> 0%N.
Definition posn (m : tmap) (s : nat) (h : N) : Prop := exists q, pi m h q = s /\ okq m h q /\ noempty m h q.
(** an entry with its own length and hash *)
Definition okent (e : ent) : Prop := valid (ek e) /\ eh e = hf (ek e) /\ (bs = true -> el e = len (ek e)).
Definition entok (m : tmap) (s : nat) (e : ent) : Prop := okent e /\ s < ncap m /\ posn m s (hf (ek e)).
Definition Core (m : tmap) : Prop :=
  wf m /\ pmax m <= 2 * plim m /\ forall s, live (key m s) = true -> entok m s (ents m s).
Definition Inv (m : tmap) : Prop := Core m /\ uniq (contents m) /\ nent m = N.of_nat (length (contents m)).

Lemma okq_le : forall m h q q', okq m h q -> q' <= q -> okq m h q'.
Proof. intros m h q q' (A & B) L. split; [lia|]. intros D. destruct (B D); [auto | right; lia]. Qed.
Lemma okq_bound : forall m h q, okq m h q -> q < bound_get dl m h.
Proof.
  intros m h q (A & B). unfold bound_get. destruct dl; auto. fold (bidx m h).
  destruct (Nat.eqb_spec (bnd m (bidx m h)) 255); auto. destruct B; auto; contradiction.
Qed.

(** ** contents *)
Definition lv (e : ent) : list (N * N) := if live (ek e) then [kv e] else [].
Lemma in_contents : forall m x, In x (contents m) <-> exists s, s < ncap m /\ live (key m s) = true /\ kv (ents m s) = x.
Proof.
  intros m x. unfold Ht_Spec.contents. rewrite in_map_iff. split.
  - intros (w & E & I). apply filter_In in I. destruct I as (I & L). apply in_map_iff in I.
    destruct I as (s & ES & IS). apply in_seq in IS. exists s. subst. unfold ncap. repeat split; auto. lia.
  - intros (s & L & V & E). exists (ents m s). split; auto. apply filter_In. split; auto. apply in_map.
    apply in_seq. unfold ncap in L. lia.
Qed.
Lemma contents_ents : forall m m', cap m' = cap m -> (forall s, s < ncap m -> ents m' s = ents m s) -> contents m' = contents m.
Proof.
  intros m m' C E. unfold Ht_Spec.contents, slots. rewrite C. do 2 f_equal. apply map_ext_in. intros s I.
  apply in_seq in I. apply E. unfold ncap. lia.
Qed.
Lemma contents_upd : forall m s, s < ncap m -> exists R,
  Permutation (contents m) (lv (ents m s) ++ R) /\ forall e, Permutation (contents (set_ent m s e)) (lv e ++ R).
Proof.
  intros m s L. assert (I : In s (slots m)) by (apply in_seq; unfold ncap in L; lia).
  destruct (in_split _ _ I) as (l1 & l2 & E). assert (ND : NoDup (slots m)) by apply seq_NoDup.
  rewrite E in ND. apply NoDup_remove_2 in ND. set (lk := fun e => live (ek e)).
  exists (map kv (filter lk (map (ents m) (l1 ++ l2)))).
  assert (G : forall f, Permutation (map kv (filter lk (map f (l1 ++ s :: l2)))) (lv (f s) ++ map kv (filter lk (map f (l1 ++ l2))))).
  { intros f. unfold lv. rewrite !map_app, !filter_app, !map_app. simpl. unfold lk at 2. destruct (live (ek (f s))); simpl; auto.
    symmetry. apply Permutation_middle. }
  split.
  - unfold Ht_Spec.contents. rewrite E. apply G.
  - intros w. unfold Ht_Spec.contents. change (slots (set_ent m s w)) with (slots m). rewrite E. simpl ents.
    fold lk. rewrite G, upd_same. apply Permutation_app_head. rewrite (map_ext_in (upd (ents m) s w) (ents m)); auto.
    intros a IA. apply upd_other. intros X. subst. auto.
Qed.

Lemma core_valid : forall m x, Core m -> In x (contents m) -> valid (fst x).
Proof. intros m x (_ & _ & C) I. apply in_contents in I. destruct I as (s & L & V & E). subst. apply (C s V). Qed.
(** the slot of a key is unique *)
Lemma slot_uniq : forall m s s', uniq (contents m) -> s < ncap m -> s' < ncap m -> live (key m s) = true -> live (key m s') = true ->
  same (key m s) (key m s') = true -> s = s'.
Proof.
  intros m s s' U L L' V V' S. destruct (Nat.eq_dec s s') as [E | NE]; auto. exfalso.
  destruct (contents_upd m s' L') as (R & P & Q). unfold lv in P. rewrite V' in P. simpl in P.
  assert (I : In (kv (ents m s)) R).
  { specialize (Q (mke TOMB 0 0 0)). unfold lv in Q. simpl ek in Q. rewrite live_T in Q. simpl in Q.
    eapply Permutation_in; [exact Q|]. apply in_contents. exists s. simpl. rewrite upd_other by auto. repeat split; auto. }
  pose proof (U _ _ P _ I) as X. simpl in X. congruence.
Qed.
Lemma find_split : forall m s, Core m -> live (key m s) = true -> exists R, Permutation (contents m) (kv (ents m s) :: R).
Proof.
  intros m s (_ & _ & C) V. apply perm_in. apply in_contents. exists s. repeat split; auto. apply (C s V).
Qed.

(** ** changes that keep the invariant *)
(** [m'] has raised bounds and no fewer nonempty slots *)
Definition le_b (m m' : tmap) : Prop := cap m' = cap m /\ plim m' = plim m /\ forall h q, okq m h q -> okq m' h q.
Lemma posn_mono : forall m m' s h, le_b m m' -> (forall t, key m t <> 0%N -> key m' t <> 0%N) -> posn m s h -> posn m' s h.
Proof.
  intros m m' s h (A & B & C) NZ (q & Q1 & Q2 & Q3). exists q. rewrite (pi_cap ub m) by auto. split; auto. split; auto.
  intros r R. rewrite (pi_cap ub m) by auto. auto.
Qed.
Lemma core_step : forall m m', Core m -> le_b m m' -> pmax m' <= 2 * plim m -> (forall t, key m t <> 0%N -> key m' t <> 0%N) ->
  (forall s, live (key m' s) = true -> ents m' s = ents m s \/ entok m' s (ents m' s)) -> Core m'.
Proof.
  intros m m' (W & L & C) LB PL NZ E. pose proof LB as (EC & EL & _). split; [destruct W as (k & K); exists k; rewrite EC; auto|].
  split; [rewrite EL; auto|]. intros s V. destruct (E s V) as [X | X]; auto. rewrite X in *.
  destruct (C s V) as (E1 & E2 & E3). split; auto. split; [unfold ncap; rewrite EC; auto|]. apply (posn_mono m); auto.
Qed.

Lemma app_app : forall m a b, app m (a ++ b) = app (app m a) b.
Proof. intros. unfold app. apply fold_left_app. Qed.

(** ** raising the bounds *)
Lemma bound_set_ok : forall m h q,
  let m1 := app m (bound_set dl m h (S q)) in
  le_b m m1 /\ ents m1 = ents m /\ nent m1 = nent m /\ dlt m1 = dlt m /\ okq m1 h q /\ pmax m1 <= Nat.max (pmax m) (S q).
Proof.
  intros m h q m1. unfold m1, bound_set. set (o := N.to_nat (hidx m h)).
  assert (G1 : let u := app m (if Nat.ltb (pmax m) (S q) then [SMax (S q)] else []) in
    cap u = cap m /\ plim u = plim m /\ ents u = ents m /\ nent u = nent m /\ dlt u = dlt m /\ bnd u = bnd m /\ pmax m <= pmax u /\ q < pmax u /\ pmax u <= Nat.max (pmax m) (S q)).
  { destruct (Nat.ltb_spec (pmax m) (S q)); simpl; repeat (split; auto); lia. }
  cbv zeta in G1. rewrite app_app. set (u := app m (if Nat.ltb (pmax m) (S q) then [SMax (S q)] else [])) in *. clearbody u.
  destruct G1 as (G1 & G2 & G3 & G4 & G5 & G6 & G7 & G8 & G9).
  assert (EB : forall h0, bidx u h0 = bidx m h0) by (intros; unfold bidx, hidx; rewrite G1; auto).
  assert (LB : le_b m u).
  { split; auto. split; auto. intros h0 q0 (A & B). split; [lia|]. intros D. rewrite EB, G6. auto. }
  destruct (dl && Nat.ltb (bnd m o) (S q)) eqn:EE.
  - apply andb_prop in EE. destruct EE as (ED & EE). apply Nat.ltb_lt in EE.
    remember (if Nat.leb 255 (S q) then 255 else S q) as v eqn:EV.
    assert (V : (v = 255 /\ 255 <= S q) \/ (v = S q /\ S q < 255)) by (subst v; destruct (Nat.leb_spec 255 (S q)); lia).
    change (app u [SBnd o v]) with (app1 u (SBnd o v)).
    assert (BX : forall h0, bidx (app1 u (SBnd o v)) h0 = bidx m h0) by (intros; rewrite <- EB; reflexivity).
    split; [|split; [exact G3 | split; [exact G4 | split; [exact G5 | split; [|exact G9]]]]].
    + split; [exact G1|]. split; [exact G2|]. intros h0 q0 (A & B). specialize (B ED). split; [simpl; lia|].
      intros _. rewrite BX. simpl. rewrite G6. unfold upd. destruct (Nat.eq_dec (bidx m h0) o) as [EX | EX]; auto.
      rewrite EX in B. lia.
    + split; [exact G8|]. intros _. rewrite BX. simpl. unfold bidx. fold o. rewrite upd_same. lia.
  - simpl app. split; [exact LB|]. repeat (split; auto). intros D. rewrite D in EE. simpl in EE. apply Nat.ltb_ge in EE.
    rewrite EB, G6. unfold bidx. fold o. right. lia.
Qed.

(** ** filling a slot *)
Definition inslot (s : nat) (x : store) : Prop :=
  match x with SKey t _ | SVal t _ | SLen t _ | SHash t _ => t = s | SDel => True | _ => False end.
(** [m'] is [m] but for slot [s], which is [e] *)
Definition but (m m' : tmap) (s : nat) (e : ent) : Prop :=
  cap m' = cap m /\ plim m' = plim m /\ pmax m' = pmax m /\ bnd m' = bnd m /\ nent m' = nent m /\ ents m' s = e /\ forall t, t <> s -> ents m' t = ents m t.
Lemma but_app : forall s tr m, Forall (inslot s) tr -> but m (app m tr) s (ents (app m tr) s).
Proof.
  intros s. induction tr as [|x tr IH]; intros m F; [repeat (split; auto)|].
  inversion F; subst. specialize (IH (app1 m x) H2). destruct IH as (I1 & I2 & I3 & I4 & I5 & I6 & I7).
  change (app m (x :: tr)) with (app (app1 m x) tr).
  destruct x; simpl in H1; try contradiction; subst; simpl in *; repeat (split; auto); intros t T; rewrite I7 by auto; try (apply upd_other; auto); auto.
Qed.
Lemma but_fill : forall m s e pre, pre = [] \/ pre = [SDel] -> but m (app m (pre ++ fill s e)) s e.
Proof.
  intros m s e pre P. assert (F : Forall (inslot s) (pre ++ fill s e)).
  { destruct P; subst; repeat constructor; simpl; auto. }
  pose proof (but_app s _ m F) as B. replace (ents (app m (pre ++ fill s e)) s) with e in B; auto.
  destruct P; subst; simpl; repeat (rewrite upd_same; simpl); destruct e; reflexivity.
Qed.
Lemma but_contents : forall m m' s e, but m m' s e -> contents m' = contents (set_ent m s e).
Proof.
  intros m m' s e (B1 & B2 & B3 & B4 & B5 & B6 & B7). apply contents_ents; auto. intros t _. simpl. upd_goal; subst; auto.
Qed.

(** ** Traces of a writer whose operation takes the map from [A0] to [A1], as far as readers
    are concerned.  The index: the slot that may be filled (a tombstone's, after deletions was
    incremented, or an empty one). *)
Section W.
Variables A0 A1 : list (N * N).
(** the value goes with the key at some moment of the operation *)
Definition assoc (A : list (N * N)) (k v : N) : Prop := exists k0, In (k0, v) A /\ same k0 k = true.
Definition quiet (x : store) : Prop := match x with SMax _ | SBnd _ _ | SCnt _ => True | _ => False end.
Definition fits (e : ent) : Prop := assoc (A0 ++ A1) (ek e) (ev e) /\ valid (ek e) /\ (bs = true -> el e = len (ek e)).
(** stores to a live slot [s] that keep its key *)
Definition inplace (m : tmap) (s : nat) (x : store) : Prop :=
  match x with
  | SKey t k => t = s /\ same (key m s) k = true /\ valid k
  | SVal t v => t = s /\ assoc (A0 ++ A1) (key m s) v
  | SLen t l => t = s /\ (bs = true -> l = len (key m s))
  | SHash t _ => t = s
  | _ => False
  end.
Definition field (s : nat) (x : store) : Prop := match x with SVal t _ | SLen t _ | SHash t _ => t = s | _ => False end.
Inductive wtr : option nat -> tmap -> list store -> Prop :=
| w_nil p m : wtr p m []
| w_quiet p m x tr : quiet x -> wtr p (app1 m x) tr -> wtr p m (x :: tr)
| w_del p m tr : wtr None (app1 m SDel) tr -> wtr p m (SDel :: tr)
| w_dead p m s tr : key m s = TOMB -> wtr (Some s) (app1 m SDel) tr -> wtr p m (SDel :: tr)
| w_empty p m s tr : key m s = 0%N -> wtr (Some s) m tr -> wtr p m tr
| w_field m s x tr : field s x -> wtr (Some s) (app1 m x) tr -> wtr (Some s) m (x :: tr)
| w_pub m s k tr : live k = true -> fits (ents (app1 m (SKey s k)) s) -> wtr None (app1 m (SKey s k)) tr -> wtr (Some s) m (SKey s k :: tr)
| w_in p m s x tr : live (key m s) = true -> inplace m s x -> wtr p (app1 m x) tr -> wtr p m (x :: tr)
| w_kill p m s tr : wtr p (app1 m (SKey s TOMB)) tr -> wtr p m (SKey s TOMB :: tr)
| w_map p m u tr : (forall s, live (key u s) = true -> fits (ents u s)) -> wtr None u tr -> wtr p m (SMap u :: tr).

Lemma wtr_none : forall m b, wtr None m b -> forall p, wtr p m b.
Proof.
  intros m b W. remember None as n eqn:E. induction W; intros q; subst; try discriminate; try (econstructor; eauto; fail).
Qed.
Lemma wtr_app : forall p m a b, wtr p m a -> wtr None (app m a) b -> wtr p m (a ++ b).
Proof.
  intros p m a b W. revert b. induction W; intros b B.
  - simpl in *. apply wtr_none; auto.
  - rewrite <- app_comm_cons. apply w_quiet; auto.
  - rewrite <- app_comm_cons. apply w_del; auto.
  - rewrite <- app_comm_cons. apply (w_dead _ _ s); auto.
  - apply (w_empty _ _ s); auto.
  - rewrite <- app_comm_cons. apply w_field; auto.
  - rewrite <- app_comm_cons. apply w_pub; auto.
  - rewrite <- app_comm_cons. apply (w_in _ _ s); auto.
  - rewrite <- app_comm_cons. apply w_kill; auto.
  - rewrite <- app_comm_cons. apply w_map; auto.
Qed.
Lemma wtr_fill : forall m s e, live (ek e) = true -> fits e -> wtr (Some s) m (fill s e).
Proof.
  intros m s e L F. unfold fill. do 3 (apply w_field; [reflexivity|]). apply w_pub; auto; [|constructor].
  simpl. repeat (rewrite upd_same; simpl). destruct e; exact F.
Qed.
Lemma wtr_bound : forall p m h n tr, wtr p (app m (bound_set dl m h n)) tr -> wtr p m (bound_set dl m h n ++ tr).
Proof.
  intros p m h n tr. unfold bound_set. destruct (Nat.ltb (pmax m) n), (dl && Nat.ltb (bnd m (N.to_nat (hidx m h))) n); simpl; intros W; auto;
    repeat (apply w_quiet; [exact I|]); auto.
Qed.
Lemma wtr_bound' : forall p m h n m', wtr p m (bound_set dl m' h n).
Proof.
  intros p m h n m'. unfold bound_set. destruct (Nat.ltb (pmax m') n), (dl && Nat.ltb (bnd m' (N.to_nat (hidx m' h))) n); simpl;
    repeat (apply w_quiet; [exact I|]); constructor.
Qed.
Lemma wtr_bounds : forall p m bds l, wtr p m (map (fun o => SBnd o (bds o)) l).
Proof. intros p m bds l. revert m. induction l; intros m; simpl; [constructor | apply w_quiet; [exact I | auto]]. Qed.
End W.
End I.
