(** Hash set: the invariant of a map, its contents as a list, and the traces of stores a
    writer may make. *)
From Coq Require Import Arith NArith List Bool Lia Permutation.
From Verif Require Import Lib Helpers_Model Hs_Model Hs_Spec Hs_Proof.
Import ListNotations.

(** * Lists of representatives *)
Section A.
Variables (pp : bool) (hf : N -> N) (cmp : option (N -> N -> bool)).
Variable CT : contract pp hf cmp.
Notation valid := (valid pp hf). Notation same := (same cmp).
Notation mem := (mem cmp). Notation del := (del cmp). Notation obj := (obj cmp).

Definition uniq (A : list N) : Prop := forall x R, Permutation A (x :: R) -> forall y, In y R -> same y x = false.
Definition fresh (k : N) (A : list N) : Prop := forall y, In y A -> same y k = false.

Lemma uniq_perm : forall A B, Permutation A B -> uniq A -> uniq B.
Proof. intros A B P U x R Q. apply U. rewrite P. auto. Qed.
Lemma uniq_nil : uniq [].
Proof. intros x R P. apply Permutation_nil in P. discriminate. Qed.
Lemma perm_in : forall (A : list N) x, In x A -> exists R, Permutation A (x :: R).
Proof. intros A x I. destruct (in_split _ _ I) as (l1 & l2 & E). exists (l1 ++ l2). subst. symmetry. apply Permutation_middle. Qed.
Lemma uniq_tail : forall x A, uniq (x :: A) -> uniq A.
Proof.
  intros x A U y R P z I. apply (U y (x :: R)); [|right; auto].
  rewrite P. apply perm_swap.
Qed.
Lemma same_sym : forall x y, valid x -> valid y -> same x y = same y x.
Proof.
  intros x y VX VY. destruct (same x y) eqn:E, (same y x) eqn:F; auto.
  - rewrite (c_sym _ _ _ CT x y) in F; auto. - rewrite (c_sym _ _ _ CT y x) in E; auto.
Qed.
Lemma same_trans_f : forall x y z, valid x -> valid y -> valid z -> same x y = true -> same x z = same y z.
Proof.
  intros x y z VX VY VZ S. destruct (same x z) eqn:E, (same y z) eqn:F; auto.
  - rewrite <- F. symmetry. apply (c_trans _ _ _ CT y x z); auto. rewrite same_sym; auto.
  - rewrite <- E. apply (c_trans _ _ _ CT x y z); auto.
Qed.
Lemma same_trans_r : forall x y z, valid x -> valid y -> valid z -> same x y = true -> same z x = same z y.
Proof. intros. rewrite (same_sym z x), (same_sym z y) by auto. apply same_trans_f; auto. Qed.
Lemma uniq_cons : forall k A, valid k -> (forall y, In y A -> valid y) -> uniq A -> fresh k A -> uniq (k :: A).
Proof.
  intros k A VK VA U F x R P y I.
  assert (IX : In x (k :: A)) by (rewrite P; left; auto).
  destruct IX as [E | IX].
  - subst. apply Permutation_cons_inv in P. apply F. rewrite P. auto.
  - destruct (perm_in _ _ IX) as (A' & PA).
    assert (Q : Permutation R (k :: A')).
    { apply (Permutation_cons_inv (a := x)). rewrite <- P, PA. apply perm_swap. }
    rewrite Q in I. destruct I as [E | I].
    + subst. rewrite same_sym; auto.
    + apply (U x A'); auto.
Qed.
Lemma uniq_repl : forall k x A, valid k -> valid x -> (forall y, In y A -> valid y) -> same x k = true -> uniq (x :: A) -> uniq (k :: A).
Proof.
  intros k x A VK VX VA S U. apply uniq_cons; auto. eapply uniq_tail; eauto.
  intros y I. rewrite <- (same_trans_r x k); auto. apply (U x A); auto.
Qed.
Lemma fresh_mem : forall k A, fresh k A <-> mem k A = false.
Proof.
  intros k A. unfold Hs_Spec.mem, fresh. induction A; simpl; [split; intros; [reflexivity | contradiction]|].
  rewrite orb_false_iff, <- IHA. split; intros H.
  - split; [apply H; auto | intros; apply H; auto].
  - destruct H as (H1 & H2). intros y [E | I]; [subst; exact H1 | apply H2; auto].
Qed.
Lemma fresh_del : forall k A, fresh k A -> del k A = A.
Proof.
  intros k A F. unfold Hs_Spec.del. induction A; auto. simpl. rewrite (F a) by (left; auto). simpl. f_equal.
  apply IHA. intros y I. apply F. right; auto.
Qed.
Lemma fresh_obj : forall k A, fresh k A -> obj k A = 0%N.
Proof.
  intros k A F. unfold Hs_Spec.obj. induction A; auto. simpl. rewrite (F a) by (left; auto).
  apply IHA. intros y I. apply F. right; auto.
Qed.
Lemma del_perm : forall k A B, Permutation A B -> Permutation (del k A) (del k B).
Proof.
  intros k A B P. unfold Hs_Spec.del. induction P; simpl; auto.
  - destruct (negb (same x k)); auto.
  - destruct (negb (same x k)), (negb (same y k)); auto. apply perm_swap.
  - etransitivity; eauto.
Qed.
Lemma fresh_perm : forall k A B, Permutation A B -> fresh k A -> fresh k B.
Proof. intros k A B P F y I. apply F. rewrite P. auto. Qed.
Section F.
Variables (k x : N) (A R : list N).
Hypothesis (VK : valid k) (VX : valid x) (VA : forall y, In y A -> valid y) (U : uniq A)
  (P : Permutation A (x :: R)) (SX : same x k = true).
Lemma rest_fresh : fresh k R.
Proof.
  intros y I. rewrite <- (same_trans_r x k); auto. - apply (U x R); auto. - apply VA. rewrite P. right; auto.
Qed.
Lemma found_mem : mem k A = true.
Proof. unfold Hs_Spec.mem. apply existsb_exists. exists x. split; auto. rewrite P. left; auto. Qed.
Lemma found_del : Permutation (del k A) R.
Proof.
  rewrite (del_perm k _ _ P). unfold Hs_Spec.del. simpl. rewrite SX. simpl. fold (del k R). rewrite fresh_del; auto. apply rest_fresh.
Qed.
Lemma found_obj : obj k A = x.
Proof.
  unfold Hs_Spec.obj. destruct (find (fun x => same x k) A) as [y|] eqn:F.
  - apply find_some in F. destruct F as (I & S). rewrite P in I. destruct I as [E | I]; auto.
    rewrite (rest_fresh y I) in S. discriminate.
  - assert (I : In x A) by (rewrite P; left; auto). pose proof (find_none _ _ F x I) as Q. simpl in Q. congruence.
Qed.
End F.
End A.

(** * Maps *)
Section I.
Variables (dl pp : bool) (hf : N -> N) (cmp : option (N -> N -> bool)) (ub : N -> N -> N).
Variable CT : contract pp hf cmp.
Notation pi := (pi ub). Notation val := (val pp). Notation valid := (valid pp hf). Notation same := (same cmp).
Notation marshal := (marshal pp). Notation contents := (contents pp).

Definition bidx (m : hmap) (h : N) : nat := N.to_nat (hidx m h).
Definition okq (m : hmap) (h : N) (q : nat) : Prop := q < pmax m /\ (dl = true -> bnd m (bidx m h) = 255 \/ q < bnd m (bidx m h)).
Definition noempty (m : hmap) (h : N) (q : nat) : Prop := forall r, r < q -> ents m (pi m h r) <> 0%N.
Definition posn (m : hmap) (s : nat) (x : N) : Prop := exists q, pi m (hf x) q = s /\ okq m (hf x) q /\ noempty m (hf x) q.
Definition entok (m : hmap) (s : nat) (w : N) : Prop := valid (val w) /\ w = marshal (val w) (hf (val w)) /\ posn m s (val w).
Definition lims (m : hmap) : Prop := pmax m <= plim m /\ forall o, bnd m o <= plim m \/ bnd m o = 255.
Definition Core (m : hmap) : Prop :=
  wf m /\ lims m /\ forall s, s < ncap m -> live (ents m s) = true -> entok m s (ents m s).
Definition Inv (m : hmap) : Prop := Core m /\ uniq cmp (contents m) /\ nent m = N.of_nat (length (contents m)).

Lemma okq_le : forall m h q q', okq m h q -> q' <= q -> okq m h q'.
Proof. intros m h q q' (A & B) L. split; [lia|]. intros D. destruct (B D); [auto | right; lia]. Qed.
Lemma okq_bound : forall m h q, okq m h q -> q < bound_get dl m h.
Proof.
  intros m h q (A & B). unfold bound_get. destruct dl; auto. fold (bidx m h).
  destruct (Nat.eqb_spec (bnd m (bidx m h)) 255); auto. destruct B; auto; contradiction.
Qed.
Lemma bound_lim : forall m h, lims m -> bound_get dl m h <= plim m.
Proof.
  intros m h (A & B). unfold bound_get. destruct dl; auto. fold (bidx m h).
  destruct (Nat.eqb_spec (bnd m (bidx m h)) 255); auto. destruct (B (bidx m h)); [auto | contradiction].
Qed.

(** ** contents *)
Definition lv (w : N) : list N := if live w then [val w] else [].
Lemma in_contents : forall m x, In x (contents m) <-> exists s, s < ncap m /\ live (ents m s) = true /\ val (ents m s) = x.
Proof.
  intros m x. unfold Hs_Spec.contents. rewrite in_map_iff. split.
  - intros (w & E & I). apply filter_In in I. destruct I as (I & L). apply in_map_iff in I.
    destruct I as (s & ES & IS). apply in_seq in IS. exists s. subst. unfold ncap. repeat split; auto. lia.
  - intros (s & L & V & E). exists (ents m s). split; auto. apply filter_In. split; auto. apply in_map.
    apply in_seq. unfold ncap in L. lia.
Qed.
Lemma contents_ents : forall m m', cap m' = cap m -> (forall s, s < ncap m -> ents m' s = ents m s) -> contents m' = contents m.
Proof.
  intros m m' C E. unfold Hs_Spec.contents, slots. rewrite C. do 2 f_equal. apply map_ext_in. intros s I.
  apply in_seq in I. apply E. unfold ncap. lia.
Qed.
Lemma contents_upd : forall m s, s < ncap m -> exists R,
  Permutation (contents m) (lv (ents m s) ++ R) /\ forall w, Permutation (contents (app1 m (SEnt s w))) (lv w ++ R).
Proof.
  intros m s L. assert (I : In s (slots m)) by (apply in_seq; unfold ncap in L; lia).
  destruct (in_split _ _ I) as (l1 & l2 & E). assert (ND : NoDup (slots m)) by apply seq_NoDup.
  rewrite E in ND. apply NoDup_remove_2 in ND.
  exists (map val (filter live (map (ents m) (l1 ++ l2)))).
  assert (G : forall f, Permutation (map val (filter live (map f (l1 ++ s :: l2)))) (lv (f s) ++ map val (filter live (map f (l1 ++ l2))))).
  { intros f. unfold lv. rewrite !map_app, !filter_app, !map_app. simpl. destruct (live (f s)); simpl; auto.
    symmetry. apply Permutation_middle. }
  split.
  - unfold Hs_Spec.contents. rewrite E. apply G.
  - intros w. unfold Hs_Spec.contents. change (slots (app1 m (SEnt s w))) with (slots m). rewrite E. simpl ents.
    rewrite G, upd_same. apply Permutation_app_head. rewrite (map_ext_in (upd (ents m) s w) (ents m)); auto.
    intros a IA. apply upd_other. intros X. subst. auto.
Qed.

Lemma core_valid : forall m x, Core m -> In x (contents m) -> valid x.
Proof. intros m x (_ & _ & C) I. apply in_contents in I. destruct I as (s & L & V & E). subst. apply (C s L V). Qed.
Lemma core_word : forall m s, Core m -> s < ncap m -> live (ents m s) = true -> ents m s = marshal (val (ents m s)) (hf (val (ents m s))).
Proof. intros m s (_ & _ & C) L V. apply (C s L V). Qed.
(** the slot of a key is unique *)
Lemma slot_uniq : forall m s s', uniq cmp (contents m) -> s < ncap m -> s' < ncap m -> live (ents m s) = true -> live (ents m s') = true ->
  same (val (ents m s)) (val (ents m s')) = true -> s = s'.
Proof.
  intros m s s' U L L' V V' S. destruct (Nat.eq_dec s s') as [E | NE]; auto. exfalso.
  destruct (contents_upd m s' L') as (R & P & Q). unfold lv in P. rewrite V' in P. simpl in P.
  assert (I : In (val (ents m s)) R).
  { specialize (Q TOMB). unfold lv in Q. rewrite live_T in Q. simpl in Q.
    eapply Permutation_in; [exact Q|]. apply in_contents. exists s. simpl. rewrite upd_other by auto. repeat split; auto. }
  rewrite (U _ _ P _ I) in S. discriminate.
Qed.

(** ** stores that keep the invariant *)
Lemma core_ent : forall m s w, Core m -> w <> 0%N -> s < ncap m ->
  (live w = true -> entok m s w) -> Core (app1 m (SEnt s w)).
Proof.
  intros m s w (W & L & C) NZ SL E. split; [auto|]. split; [auto|].
  assert (M : forall t x, posn m t x -> posn (app1 m (SEnt s w)) t x).
  { intros t x (q & Q1 & Q2 & Q3). exists q. split; [rewrite (pi_cap ub m); auto|]. split; [exact Q2|]. intros r R. simpl.
    rewrite (pi_cap ub m (app1 m (SEnt s w))) by auto. upd_goal; auto. }
  intros t T V. simpl in *. upd_cases.
  - destruct (E V) as (E1 & E2 & E3). split; auto.
  - destruct (C t T V) as (E1 & E2 & E3). split; auto.
Qed.
(** bounds replaced so that each live slot keeps an admissible position *)
Lemma core_bnd : forall m m', Core m -> cap m' = cap m -> ents m' = ents m -> lims m' ->
  (forall s, s < ncap m -> live (ents m s) = true -> posn m' s (val (ents m s))) -> Core m'.
Proof.
  intros m m' (W & L & C) EC EE L' P. split; [destruct W as (k & K); exists k; rewrite EC; auto|]. split; auto.
  intros s S V. unfold ncap in S. rewrite EC in S. rewrite EE in *. destruct (C s S V) as (A & B & _). split; auto.
Qed.
Definition le_b (m m' : hmap) : Prop :=
  cap m' = cap m /\ ents m' = ents m /\ plim m' = plim m /\ forall h q, okq m h q -> okq m' h q.
Lemma core_le : forall m m', Core m -> le_b m m' -> lims m' -> Core m'.
Proof.
  intros m m' C (A & B & _ & D) L. apply (core_bnd m); auto. intros s S V.
  destruct C as (W & _ & C). destruct (C s S V) as (_ & _ & q & Q1 & Q2 & Q3). exists q.
  split; [rewrite (pi_cap ub m); auto|]. split; [auto|]. intros r R. rewrite B, (pi_cap ub m) by auto. auto.
Qed.
Definition quiet (x : store) : Prop := match x with SMax _ | SBnd _ _ | SCnt _ | STmb _ => True | _ => False end.

(** ** Traces of a writer whose operation takes the set from [A0] to [A1] *)
Inductive wtr (A0 A1 : list N) : hmap -> list store -> Prop :=
| w_nil m : wtr A0 A1 m []
| w_quiet m x tr : quiet x -> Core (app1 m x) -> wtr A0 A1 (app1 m x) tr -> wtr A0 A1 m (x :: tr)
| w_put m s w tr : s < ncap m -> live (ents m s) = false -> live w = true -> In (val w) A1 -> Core (app1 m (SEnt s w)) ->
    wtr A0 A1 (app1 m (SEnt s w)) tr -> wtr A0 A1 m (SEnt s w :: tr)
| w_rep m s w tr : s < ncap m -> live (ents m s) = true -> live w = true -> same (val (ents m s)) (val w) = true -> In (val w) A1 ->
    Core (app1 m (SEnt s w)) -> wtr A0 A1 (app1 m (SEnt s w)) tr -> wtr A0 A1 m (SEnt s w :: tr)
| w_del m s tr : s < ncap m -> live (ents m s) = true -> fresh cmp (val (ents m s)) A1 -> Core (app1 m (SEnt s TOMB)) ->
    wtr A0 A1 (app1 m (SEnt s TOMB)) tr -> wtr A0 A1 m (SEnt s TOMB :: tr)
| w_move m f s w tr : f < ncap m -> s < ncap m -> ents m f = TOMB -> live (ents m s) = true -> live w = true ->
    same (val (ents m s)) (val w) = true -> In (val w) (A0 ++ A1) -> uniq cmp (contents m) ->
    Core (app1 m (SEnt f w)) -> Core (app m [SEnt f w; SGen (N.odd (hf (val w))); SEnt s TOMB]) ->
    wtr A0 A1 (app m [SEnt f w; SGen (N.odd (hf (val w))); SEnt s TOMB]) tr ->
    wtr A0 A1 m (SEnt f w :: SGen (N.odd (hf (val w))) :: SEnt s TOMB :: tr)
| w_map m u tr : Core u -> (forall x, In x (contents u) -> In x (A0 ++ A1)) ->
    (forall k, valid k -> mem cmp k A0 = true -> mem cmp k A1 = true -> mem cmp k (contents u) = true) ->
    wtr A0 A1 u tr -> wtr A0 A1 m (SMap u :: tr).

Lemma app_app : forall m a b, app m (a ++ b) = app (app m a) b.
Proof. intros. unfold app. apply fold_left_app. Qed.
Lemma wtr_app : forall A0 A1 m a b, wtr A0 A1 m a -> wtr A0 A1 (app m a) b -> wtr A0 A1 m (a ++ b).
Proof.
  intros A0 A1 m a b W. revert b. induction W; intros b B.
  - simpl; auto.
  - rewrite <- app_comm_cons. apply w_quiet; auto.
  - rewrite <- app_comm_cons. apply w_put; auto.
  - rewrite <- app_comm_cons. apply w_rep; auto.
  - rewrite <- app_comm_cons. apply w_del; auto.
  - rewrite <- !app_comm_cons. apply w_move; auto.
  - rewrite <- app_comm_cons. apply w_map; auto.
Qed.

(** ** raising the bounds *)
Lemma bound_set_ok : forall m h q, Core m -> S q <= plim m ->
  let tr := bound_set dl m h (S q) in let m1 := app m tr in
  le_b m m1 /\ lims m1 /\ okq m1 h q /\ nent m1 = nent m /\ tmb m1 = tmb m /\ forall A0 A1, wtr A0 A1 m tr.
Proof.
  intros m h q C L tr m1. pose proof C as ((k & K1 & K2) & (L1 & L2) & CE).
  set (tr1 := if Nat.ltb (pmax m) (S q) then [SMax (S q)] else []).
  set (tr2 := if dl && Nat.ltb (bnd m (bidx m h)) (S q) then [SBnd (bidx m h) (if Nat.ltb 255 (S q) then 255 else S q)] else []).
  assert (ET : tr = tr1 ++ tr2) by reflexivity.
  assert (G1 : le_b m (app m tr1) /\ lims (app m tr1) /\ q < pmax (app m tr1) /\ bnd (app m tr1) = bnd m /\ nent (app m tr1) = nent m /\ tmb (app m tr1) = tmb m).
  { unfold tr1. destruct (Nat.ltb_spec (pmax m) (S q)) as [X | X]; simpl.
    - repeat split; simpl; auto. destruct H; auto. lia. destruct H; auto.
    - repeat split; auto; destruct H; auto. }
  destruct G1 as (B1 & B2 & B3 & B4 & B5 & B6).
  assert (C1 : Core (app m tr1)) by (apply (core_le m); auto).
  assert (G2 : le_b (app m tr1) m1 /\ lims m1 /\ okq m1 h q /\ nent m1 = nent m /\ tmb m1 = tmb m).
  { unfold m1. rewrite ET, app_app. set (u := app m tr1) in *. unfold tr2.
    destruct B1 as (E1 & E2 & E3 & E4).
    assert (EB : bidx u h = bidx m h) by (unfold bidx, hidx; rewrite E1; auto).
    destruct dl eqn:ED; simpl andb; cbn iota.
    - destruct (Nat.ltb_spec (bnd m (bidx m h)) (S q)) as [X | X]; simpl.
      + remember (if Nat.ltb 255 (S q) then 255 else S q) as v eqn:EV.
        assert (V : (v = 255 /\ 255 <= S q) \/ (v = S q /\ S q <= 255)) by (subst v; destruct (Nat.ltb_spec 255 (S q)); lia).
        change (le_b u (app1 u (SBnd (bidx m h) v)) /\ lims (app1 u (SBnd (bidx m h) v)) /\ okq (app1 u (SBnd (bidx m h) v)) h q /\ nent u = nent m /\ tmb u = tmb m).
        assert (BX : forall h0, bidx (app1 u (SBnd (bidx m h) v)) h0 = bidx u h0) by reflexivity.
        split; [|split; [|split; auto]].
        * split; [auto|]. split; [auto|]. split; [auto|]. intros h0 q0 (H1 & H2). specialize (H2 ED). split; [exact H1|].
          intros _. rewrite BX. simpl. unfold upd. destruct (Nat.eq_dec (bidx u h0) (bidx m h)) as [EX | EX]; auto.
          rewrite EX, B4 in H2. lia.
        * split; [apply B2|]. intros o. simpl. unfold upd. destruct (Nat.eq_dec o (bidx m h)); [|apply B2]. lia.
        * split; [exact B3|]. intros _. rewrite BX. simpl. rewrite EB, upd_same. lia.
      + repeat split; auto; try apply B2; try (destruct H; auto). intros _. rewrite EB, B4. right. lia.
    - repeat split; auto; try apply B2; try (destruct H; auto). intros X; rewrite X in ED; discriminate. }
  destruct G2 as (D1 & D2 & D3 & D4 & D5).
  assert (LB : le_b m m1).
  { destruct B1 as (E1 & E2 & E3 & E4), D1 as (F1 & F2 & F3 & F4). split; [congruence|]. split; [congruence|]. split; [congruence|]. auto. }
  repeat (split; [assumption|]). intros A0 A1. rewrite ET. apply wtr_app.
  - unfold tr1 in *. destruct (Nat.ltb (pmax m) (S q)); [|constructor]. apply w_quiet; [exact I | exact C1 | constructor].
  - assert (C2 : Core m1) by (apply (core_le m); auto). unfold m1 in C2. rewrite ET, app_app in C2.
    unfold tr2 in *. destruct (dl && Nat.ltb (bnd m (bidx m h)) (S q)); [|constructor]. apply w_quiet; [exact I | exact C2 | constructor].
Qed.
Lemma le_b_core : forall m m', Core m -> le_b m m' -> lims m' -> Core m' /\ contents m' = contents m.
Proof.
  intros m m' C L LL. split; [apply (core_le m); auto|]. destruct L as (A & B & _). apply contents_ents; auto. intros. rewrite B; auto.
Qed.
End I.
