(** Robin Hood hash set: what probes mean for the set, and storing a new representative. *)
From Coq Require Import Arith NArith List Bool Permutation Lia.
From Verif Require Import Lib Helpers_Model Rhs_Model Rhs_Spec Rhs_Proof RhsInv_Proof RhsProbe_Proof RhsGrow_Proof RhsWant_Proof RhsTr_Proof RhsRh_Proof RhsDel_Proof.
Import ListNotations.

(** * Lists of representatives *)
Section A.
Variables (pp : bool) (hf : N -> N) (cmp : option (N -> N -> bool)).
Variable CT : contract pp hf cmp.
Notation valid := (valid pp). Notation same := (same cmp).
Notation mem := (mem cmp). Notation del := (Rhs_Spec.del cmp). Notation obj := (obj cmp).

Definition uniq (A : list N) : Prop := forall x R, Permutation A (x :: R) -> forall y, In y R -> same y x = false.
Definition fresh (k : N) (A : list N) : Prop := forall y, In y A -> same y k = false.

Lemma uniq_perm : forall A B, Permutation A B -> uniq A -> uniq B.
Proof. intros A B P U x R Q. apply U. rewrite P. auto. Qed.
Lemma uniq_nil : uniq [].
Proof. intros x R P. apply Permutation_nil in P. discriminate. Qed.
Lemma perm_in : forall (A : list N) x, In x A -> exists R, Permutation A (x :: R).
Proof. intros A x I. destruct (in_split _ _ I) as (l1 & l2 & E). exists (l1 ++ l2). subst. symmetry. apply Permutation_middle. Qed.
Lemma uniq_tail : forall x A, uniq (x :: A) -> uniq A.
Proof.
  intros x A U y R P z I. apply (U y (x :: R)); [|right; auto].
  rewrite P. apply perm_swap.
Qed.
Lemma same_sym : forall x y, valid x -> valid y -> same x y = same y x.
Proof.
  intros x y VX VY. destruct (same x y) eqn:E, (same y x) eqn:F; auto.
  - rewrite (c_sym _ _ _ CT x y) in F; auto. - rewrite (c_sym _ _ _ CT y x) in E; auto.
Qed.
Lemma same_trans_f : forall x y z, valid x -> valid y -> valid z -> same x y = true -> same x z = same y z.
Proof.
  intros x y z VX VY VZ S. destruct (same x z) eqn:E, (same y z) eqn:F; auto.
  - rewrite <- F. symmetry. apply (c_trans _ _ _ CT y x z); auto. rewrite same_sym; auto.
  - rewrite <- E. apply (c_trans _ _ _ CT x y z); auto.
Qed.
Lemma same_trans_r : forall x y z, valid x -> valid y -> valid z -> same x y = true -> same z x = same z y.
Proof. intros. rewrite (same_sym z x), (same_sym z y) by auto. apply same_trans_f; auto. Qed.
Lemma uniq_cons : forall k A, valid k -> (forall y, In y A -> valid y) -> uniq A -> fresh k A -> uniq (k :: A).
Proof.
  intros k A VK VA U F x R P y I.
  assert (IX : In x (k :: A)) by (rewrite P; left; auto).
  destruct IX as [E | IX].
  - subst. apply Permutation_cons_inv in P. apply F. rewrite P. auto.
  - destruct (perm_in _ _ IX) as (A' & PA).
    assert (Q : Permutation R (k :: A')).
    { apply (Permutation_cons_inv (a := x)). rewrite <- P, PA. apply perm_swap. }
    rewrite Q in I. destruct I as [E | I].
    + subst. rewrite same_sym; auto.
    + apply (U x A'); auto.
Qed.
Lemma uniq_repl : forall k x A, valid k -> valid x -> (forall y, In y A -> valid y) -> same x k = true -> uniq (x :: A) -> uniq (k :: A).
Proof.
  intros k x A VK VX VA S U. apply uniq_cons; auto. eapply uniq_tail; eauto.
  intros y I. rewrite <- (same_trans_r x k); auto. apply (U x A); auto.
Qed.
Lemma fresh_mem : forall k A, fresh k A <-> mem k A = false.
Proof.
  intros k A. unfold Rhs_Spec.mem, fresh. induction A; simpl; [split; intros; [reflexivity | contradiction]|].
  rewrite orb_false_iff, <- IHA. split; intros H.
  - split; [apply H; auto | intros; apply H; auto].
  - destruct H as (H1 & H2). intros y [E | I]; [subst; exact H1 | apply H2; auto].
Qed.
Lemma fresh_del : forall k A, fresh k A -> del k A = A.
Proof.
  intros k A F. unfold Rhs_Spec.del. induction A; auto. simpl. rewrite (F a) by (left; auto). simpl. f_equal.
  apply IHA. intros y I. apply F. right; auto.
Qed.
Lemma fresh_obj : forall k A, fresh k A -> obj k A = 0%N.
Proof.
  intros k A F. unfold Rhs_Spec.obj. induction A; auto. simpl. rewrite (F a) by (left; auto).
  apply IHA. intros y I. apply F. right; auto.
Qed.
Lemma del_perm : forall k A B, Permutation A B -> Permutation (del k A) (del k B).
Proof.
  intros k A B P. unfold Rhs_Spec.del. induction P; simpl; auto.
  - destruct (negb (same x k)); auto.
  - destruct (negb (same x k)), (negb (same y k)); auto. apply perm_swap.
  - etransitivity; eauto.
Qed.
Lemma fresh_perm : forall k A B, Permutation A B -> fresh k A -> fresh k B.
Proof. intros k A B P F y I. apply F. rewrite P. auto. Qed.
Section F.
Variables (k x : N) (A R : list N).
Hypothesis (VK : valid k) (VX : valid x) (VA : forall y, In y A -> valid y) (U : uniq A)
  (P : Permutation A (x :: R)) (SX : same x k = true).
Lemma rest_fresh : fresh k R.
Proof.
  intros y I. rewrite <- (same_trans_r x k); auto. - apply (U x R); auto. - apply VA. rewrite P. right; auto.
Qed.
Lemma found_mem : mem k A = true.
Proof. unfold Rhs_Spec.mem. apply existsb_exists. exists x. split; auto. rewrite P. left; auto. Qed.
Lemma found_del : Permutation (del k A) R.
Proof.
  rewrite (del_perm k _ _ P). unfold Rhs_Spec.del. simpl. rewrite SX. simpl. fold (del k R). rewrite fresh_del; auto. apply rest_fresh.
Qed.
Lemma found_obj : obj k A = x.
Proof.
  unfold Rhs_Spec.obj. destruct (find (fun x => same x k) A) as [y|] eqn:F.
  - apply find_some in F. destruct F as (I & S). rewrite P in I. destruct I as [E | I]; auto.
    rewrite (rest_fresh y I) in S. discriminate.
  - assert (I : In x A) by (rewrite P; left; auto). pose proof (find_none _ _ F x I) as Q. simpl in Q. congruence.
Qed.
End F.
End A.

Section S.
Variables (rmode pp : bool) (hf : N -> N) (cmp : option (N -> N -> bool)) (oracle : nat -> bool).
Variable CT : contract pp hf cmp.
Notation pi := (pi rmode).
Notation valid := (valid pp).
Notation marshal := (marshal pp).
Notation val := (val pp).
Notation bound_get := (bound_get rmode).
Notation bound_set := (bound_set rmode).
Notation inv := (inv rmode pp hf).
Notation Inv := (Inv rmode pp hf).
Notation Wok := (Wok rmode).
Notation bk := (bk rmode).
Notation occ := (occ rmode).
Notation cont := (cont pp).
Notation raised := (raised rmode).
Notation lim := (lim rmode).
Notation same := (same cmp).
Notation fresh := (fresh cmp).
Notation Tr := (Tr rmode pp hf cmp).

Lemma cont_valid : forall m y, Inv m -> In y (cont m (ent m)) -> valid y.
Proof.
  intros m y I Y. apply (cont_in pp hf) in Y. destruct Y as (t & T & Z & <-). destruct (Inv_words rmode pp hf m I t T Z) as (k & V & E).
  rewrite E, val_marshal; auto.
Qed.
Lemma cont_split : forall m t, (t < cap m)%N -> ent m t <> 0%N -> Permutation (cont m (ent m)) (val (ent m t) :: cont m (updN (ent m) t 0%N)).
Proof.
  intros m t T Z. pose proof (cont_upd pp hf m (ent m) t 0%N T) as X. unfold cv in X. destruct (N.eqb_spec (ent m t) 0); [congruence|]. simpl in X. symmetry. exact X.
Qed.

(** what a probe says of the slot where to store *)
Definition dest (m : rmap) (k : N) (r : pres) : Prop :=
  match r_pr r with
  | Some f => exists j, f = pi m (hf k) j /\ r_np r = S j /\ ent m f <> 0%N /\ (forall a, a < j -> ent m (pi m (hf k) a) <> 0%N) /\ (r_obj r <> 0%N -> r_slot r <> Some f)
  | None => match r_slot r with
    | Some s => exists n, s = pi m (hf k) n /\ r_np r = S n /\ n < nc m /\ (forall a, a < n -> ent m (pi m (hf k) a) <> 0%N) /\
        (if N.eqb (r_obj r) 0 then ent m s = 0%N else ent m s <> 0%N /\ prb m s = S n)
    | None => False
    end
  end.
(** and of the object found *)
Definition hit (m : rmap) (k : N) (r : pres) : Prop :=
  exists s n, r_slot r = Some s /\ (s < cap m)%N /\ ent m s <> 0%N /\ val (ent m s) = r_obj r /\ valid (r_obj r) /\ same (r_obj r) k = true /\ s = pi m (hf k) n /\ prb m s = S n /\ n < nc m /\
    S n <= bound_get m (hf k) /\ S n <= pmax m /\ r_np r <= S n.

Lemma member : forall m k t, Inv m -> valid k -> (t < cap m)%N -> ent m t <> 0%N -> same (val (ent m t)) k = true ->
  exists i, t = pi m (hf k) i /\ prb m t = S i /\ i < nc m /\ (forall j, j < i -> ent m (pi m (hf k) j) <> 0%N) /\ S i <= bound_get m (hf k) /\ S i <= pmax m /\
    match_word pp cmp (ent m t) k (hf k) = true.
Proof.
  intros m k t (I & _) V T Z SM. destruct (i_good _ _ _ _ _ _ I t T Z (fun x => x)) as (x & i & A & Vx & P & L & EQ & Pa & Bg & Pm).
  rewrite A, val_marshal in SM by auto. assert (E : hf x = hf k) by (apply (c_hash _ _ _ CT); auto). 
  exists i. assert (MW : match_word pp cmp (ent m t) k (hf k) = true) by (rewrite A, (match_same pp hf cmp CT); auto).
  rewrite E in *. do 6 (split; auto).
Qed.
Lemma word_same : forall m k t, Inv m -> valid k -> (t < cap m)%N -> ent m t <> 0%N -> match_word pp cmp (ent m t) k (hf k) = same (val (ent m t)) k.
Proof.
  intros m k t (I & _) V T Z. destruct (i_good _ _ _ _ _ _ I t T Z (fun x => x)) as (x & i & A & Vx & _).
  rewrite A, val_marshal by auto. apply match_same; auto.
Qed.

Lemma probe_hit : forall m k b lim0 opl r, Inv m -> valid k -> pspec rmode pp cmp m (hf k) b (hf k) k 0 lim0 opl r -> r_obj r <> 0%N -> hit m k r.
Proof.
  intros m k b lim0 opl r I V PS NZ. pose proof (i_wf _ _ _ _ _ _ (proj1 I)) as W. destruct PS as [n pr np|n pr np|n pr np L B C Z M PK|n]; simpl in NZ; try congruence.
  assert (T : (pi m (hf k) n < cap m)%N) by (apply pi_lt; auto).
  pose proof M as SM. rewrite (word_same m k _ I V T Z) in SM.
  destruct (member m k _ I V T Z SM) as (i & EQ & P & Li & Pa & Bg & Pm & _).
  assert (Ln : n <= i).
  { destruct (Nat.le_gt_cases n i) as [|G]; auto. destruct (C i) as (_ & F); [lia|]. specialize (F B). rewrite <- EQ in F. congruence. }
  assert (n = i) by (apply (pi_inj rmode m (hf k)); auto; lia). subst i.
  exists (pi m (hf k) n), n. cbn [r_slot r_obj r_np]. repeat (split; [solve [auto] |]). split.
  { apply (cont_valid m); auto. apply (cont_in pp hf). eauto. }
  repeat (split; [solve [auto] |]). destruct pr as [f|]; simpl in *; auto. destruct PK as (_ & j & J & _ & -> & _). lia.
Qed.
Lemma probe_miss : forall m k b lim0 opl r, Inv m -> valid k -> pspec rmode pp cmp m (hf k) b (hf k) k 0 lim0 opl r ->
  b <> BRh -> b <> BRobin -> bound_get m (hf k) <= lim0 -> bound_get m (hf k) <= opl -> r_obj r = 0%N -> fresh k (cont m (ent m)).
Proof.
  intros m k b lim0 opl r I V PS B1 B2 L1 L2 NZ y Y. apply (cont_in pp hf) in Y. destruct Y as (t & T & Z & <-).
  destruct (same (val (ent m t)) k) eqn:SM; auto. exfalso.
  destruct (member m k t I V T Z SM) as (i & EQ & P & Li & Pa & Bg & Pm & M).
  destruct PS as [n pr np O A1 A2 C PK|n pr np A1 C E PK|n pr np L B C E ME PK|n A1 B]; simpl in NZ.
  - destruct (C i) as (_ & F); [lia|]. rewrite <- EQ in F. rewrite (F B2) in M. discriminate.
  - destruct (Nat.lt_trichotomy i n) as [X | [X | X]].
    + destruct (C i) as (_ & F); [lia|]. rewrite <- EQ in F. rewrite (F B2) in M. discriminate.
    + subst i. congruence.
    + apply (Pa n X E).
  - assert (Vn : valid (val (ent m (pi m (hf k) n)))).
    { apply (cont_valid m); auto. apply (cont_in pp hf). exists (pi m (hf k) n). split; auto. apply pi_lt. apply (i_wf _ _ _ _ _ _ (proj1 I)). }
    destruct Vn; congruence.
  - destruct B; congruence.
Qed.
Lemma probe_dest : forall m k b lim0 opl r, Inv m -> valid k -> pspec rmode pp cmp m (hf k) b (hf k) k 0 lim0 opl r -> b <> BRobin ->
  (r_slot r = None /\ r_pr r = None) \/ (dest m k r /\ r_np r <= opl).
Proof.
  intros m k b lim0 opl r I V PS B2. pose proof (i_wf _ _ _ _ _ _ (proj1 I)) as W.
  assert (H := fun NZ => probe_hit m k b lim0 opl r I V PS NZ).
  destruct PS as [n pr np O A1 A2 C PK|n pr np A1 C E PK|n pr np L B C E ME PK|n A1 B C PK]; simpl in *.
  - destruct pr as [f|]; auto. right. destruct PK as (_ & j & J & -> & -> & _ & Pj & Z). unfold dest. simpl. split; [|lia].
    exists j. do 3 (split; auto). split; [|simpl; congruence]. intros a A. apply C. lia.
  - right. destruct pr as [f|]; unfold dest; simpl in *.
    + destruct PK as (_ & j & J & -> & -> & _ & Pj & Z). split; [|lia]. exists j. do 3 (split; auto). split; [|simpl; congruence]. intros a A. apply C. lia.
    + split; [|lia]. exists n. do 2 (split; auto). split; [|split; auto; intros a A; apply C; lia].
      apply (idx_lt rmode m (ent m) (hf k)); auto; [exists (pi m (hf k) n); split; auto; apply pi_lt; auto|]. intros j J. apply C. lia.
  - right. assert (NZ : val (ent m (pi m (hf k) n)) <> 0%N).
    { assert (Vn : valid (val (ent m (pi m (hf k) n)))); [|destruct Vn; auto].
      apply (cont_valid m); auto. apply (cont_in pp hf). exists (pi m (hf k) n). split; auto. apply pi_lt; auto. }
    destruct (H NZ) as (s & n' & E1 & T & Z & _ & _ & _ & EQ & P & Ln & _ & _ & Np). cbn [r_slot r_np] in *. injection E1 as E1. 
    destruct pr as [f|]; unfold dest; simpl in *.
    + destruct PK as (_ & j & J & -> & -> & _ & Pj & Zj). split; [|lia]. exists j. do 3 (split; auto). split; [intros a A; apply C; lia|].
      intros _ E2. injection E2 as E2. rewrite <- E2, E1, P in Pj. lia.
    + split; [|lia]. destruct (N.eqb_spec (val (ent m (pi m (hf k) n))) 0); [congruence|].
      exists n. do 2 (split; auto).
      assert (n' = n).
      { destruct (member m k s I V T Z) as (i & Q1 & Q2 & Q3 & Q4 & Q5 & Q6 & Q7).
        - rewrite <- E1. rewrite <- (word_same m k _ I V); auto. apply pi_lt; auto.
        - assert (i = n') by congruence. subst i. destruct (Nat.lt_trichotomy n n') as [X | [X | X]]; auto.
          + apply (pi_inj rmode m (hf k)); auto; try lia.
          + destruct (C n') as (_ & F); [lia|]. rewrite <- Q1 in F. rewrite (F B) in Q7. discriminate. }
      subst n'. split; auto. split; [intros a A; apply C; lia|]. rewrite E1. auto.
  - right. destruct PK as (_ & j & J & E1 & E2 & _ & Pj & Zj). injection E2 as E2. subst j. unfold dest. simpl. split; [|lia].
    destruct B; [|congruence]. exists n. do 3 (split; auto). split; [intros a A; apply C; lia | congruence].
Qed.

(** ** Storing *)
Lemma used_full : forall m e, (forall s, (s < cap m)%N -> e s <> 0%N) -> used m e = nc m.
Proof.
  intros m e H. rewrite <- len_slots. unfold used. assert (G : forall t, In t (slots m) -> e t <> 0%N) by (intros t T; apply H; apply in_slots; auto).
  clear H. induction (slots m); simpl; auto. destruct (N.eqb_spec (e a) 0) as [E | E]; [destruct (G a); simpl; auto|]. rewrite IHl; auto. intros; apply G; simpl; auto.
Qed.
Lemma used_lt : forall m e s, (s < cap m)%N -> e s = 0%N -> used m e < nc m.
Proof.
  intros m e s Hs Z. rewrite <- len_slots. apply in_slots in Hs. unfold used. induction (slots m) as [|a l IH]; simpl in *; [tauto|].
  assert (G : nsum l (fun t => if N.eqb (e t) 0 then 0 else 1) <= length l) by (clear; induction l; simpl; auto; destruct (N.eqb (e a) 0); lia).
  destruct Hs as [-> | Hs]; [rewrite Z; simpl; lia|]. specialize (IH Hs). destruct (N.eqb (e a) 0); lia.
Qed.
Lemma store_ok : forall m f j d h, inv (ent m) m (eq f) -> Wok m (updN (prb m) f 0) -> used m (updN (ent m) f 0%N) <= 600 ->
  h = hf d -> valid d -> f = pi m h j -> j < nc m -> S j <= bound_get m h -> S j <= pmax m -> (forall a, a < j -> ent m (pi m h a) <> 0%N) ->
  exists m', add_wanted rmode (set_prb (set_ent m f (marshal d h)) f (S j)) f None h = Ret m' /\
    Inv m' /\ Permutation (cont m' (ent m')) (d :: cont m (updN (ent m) f 0%N)) /\ fields m m' /\ (forall t, t <> f -> ent m' t = ent m t) /\ ent m' f = marshal d h /\
    view m' = view (set_ent m f (marshal d h)) /\ hist m' = hist (set_ent m f (marshal d h)).
Proof.
  intros m f j d h I HW U -> V EQ L Bg Pm Pa. pose proof (i_wf _ _ _ _ _ _ I) as W. pose proof (i_max _ _ _ _ _ _ I) as Mx.
  assert (Lf : (f < cap m)%N) by (rewrite EQ; apply pi_lt; auto).
  set (m2 := set_prb (set_ent m f (marshal d (hf d))) f (S j)).
  assert (Ra : raised m m2) by (apply raised_same; auto).
  destruct (add_first_ok rmode m2 (hf d) j 0 None f) with (g := hf d) as (w' & A1 & A2); auto.
  - simpl. lia.
  - unfold nc. simpl. pose proof (wf_pos m W). lia.
  - rewrite (pi_cap rmode m m2) by auto. auto.
  - apply (Wok_lt rmode m (updN (prb m) f 0) (updN (ent m) f 0%N)); auto.
    intros t T. unfold updN. destruct (N.eqb_spec t f) as [-> | D]; [split; lia|].
    destruct (inv_prb rmode pp hf (ent m) m (eq f) t I T) as (X1 & _ & X3); auto.
  - exists (setw m2 w'). split; auto.
    assert (Ee : forall t, ent (setw m2 w') t = updN (ent m) f (marshal d (hf d)) t) by (intros t; exact (ent_set m f _ t)).
    assert (Ep : forall t, prb (setw m2 w') t = updN (prb m) f (S j) t) by (intros t; exact (prb_set _ f _ t)).
    split; [split|split; [|split; [|split; [|split]]]].
    + apply inv_ext with (e := updN (ent m) f (marshal d (hf d))); [|intros; auto].
      apply inv_store with (m := m) (X := eq f) (i := j); auto.
      * apply raised_same; auto.
      * intros t T D. rewrite Ep, updN_other; auto.
      * rewrite Ep, updN_same. auto.
    + intros s Hs. rewrite A2 by auto. change (wnt m2 s) with (wnt m s). change (cap m2) with (cap m) in Hs. rewrite (HW s Hs).
      rewrite (slots_cap m (setw m2 w')) by auto. rewrite (occ_cap rmode m m2) by auto. replace (j - 0) with j by lia.
      rewrite (nsum_ext (slots m) (fun t => bk (setw m2 w') t (prb (setw m2 w') t) s) (fun t => bk m t (updN (updN (prb m) f 0) f (S j) t) s)).
      2: { intros t _. rewrite (bk_cap rmode m (setw m2 w')) by auto. rewrite Ep. unfold updN. destruct (N.eqb t f); auto. }
      pose proof (Wupd rmode m (updN (prb m) f 0) f (S j) s Lf) as X. rewrite updN_same in X.
      assert (Y : bk m f (S j) s = occ m (hf d) s 0 j) by (rewrite EQ; apply bk_pi; auto).
      change (bk m f 0 s) with 0 in X. lia.
    + rewrite (cont_cap pp m (setw m2 w') (updN (updN (ent m) f 0%N) f (marshal d (hf d)))).
      * pose proof (cont_upd pp hf m (updN (ent m) f 0%N) f (marshal d (hf d)) Lf) as X. rewrite updN_same in X. unfold cv in X. simpl in X.
        destruct (N.eqb_spec (marshal d (hf d)) 0) as [E | _]; [destruct (marshal_nz pp d (hf d) V E)|]. rewrite (val_marshal pp d (hf d) V) in X. exact X.
      * auto.
      * intros t T. rewrite Ee. unfold updN. destruct (N.eqb t f); auto.
    + repeat split; auto.
    + intros t D. rewrite Ee, updN_other; auto.
    + rewrite Ee, updN_same. auto.
    + split; reflexivity.
Qed.
Lemma replace_ok : forall m s n d h, Inv m -> h = hf d -> valid d -> s = pi m h n -> prb m s = S n -> n < nc m -> S n <= bound_get m h -> S n <= pmax m ->
  (forall a, a < n -> ent m (pi m h a) <> 0%N) -> ent m s <> 0%N ->
  let m' := set_prb (set_ent m s (marshal d h)) s (S n) in
  Inv m' /\ Permutation (cont m' (ent m')) (d :: cont m (updN (ent m) s 0%N)) /\ fields m m'.
Proof.
  intros m s n d h (I & HW) -> V EQ P L Bg Pm Pa Z m'. pose proof (i_wf _ _ _ _ _ _ I) as W.
  assert (Ls : (s < cap m)%N) by (rewrite EQ; apply pi_lt; auto).
  assert (Ee : forall t, ent m' t = updN (ent m) s (marshal d (hf d)) t) by (intros t; exact (ent_set m s _ t)).
  assert (Ep : forall t, prb m' t = prb m t) by (intros t; unfold m'; rewrite prb_set; unfold updN; destruct (N.eqb_spec t s); subst; auto).
  split; [split|split].
  - apply inv_ext with (e := updN (ent m) s (marshal d (hf d))); [|intros; auto].
    apply inv_store with (m := m) (X := none) (i := n); auto.
    + apply raised_same; auto.
    + rewrite Ep; auto.
  - eapply Wok_ext; eauto.
  - rewrite (cont_cap pp m m' (updN (updN (ent m) s 0%N) s (marshal d (hf d)))).
    + pose proof (cont_upd pp hf m (updN (ent m) s 0%N) s (marshal d (hf d)) Ls) as X. rewrite updN_same in X. unfold cv in X. simpl in X.
      destruct (N.eqb_spec (marshal d (hf d)) 0) as [E | _]; [destruct (marshal_nz pp d (hf d) V E)|]. rewrite (val_marshal pp d (hf d) V) in X. exact X.
    + auto.
    + intros t T. rewrite Ee. unfold updN. destruct (N.eqb t s); auto.
  - repeat split; auto.
Qed.
Lemma Inv_irh : forall m s v, Inv m -> Inv (set_irh m s v).
Proof.
  intros m s v (I & HW). split; [|eapply Wok_ext; eauto].
  apply inv_raised with (m := m); auto. apply raised_same; auto.
Qed.

(** the map after making room and storing *)
Definition rest (m : rmap) (r : pres) : list N :=
  if N.eqb (r_obj r) 0 then cont m (ent m) else match r_slot r with Some s => cont m (updN (ent m) s 0%N) | None => [] end.
(** adding an increment *)
Lemma add_loop_bump : forall f m h o e old b n, add_wanted_loop rmode f (bump m h) o e old b n = bind (add_wanted_loop rmode f m o e old b n) (fun x => Ret (bump x h)).
Proof.
  induction f; intros m h o e old b n; auto. cbn [add_wanted_loop]. destruct (N.eqb o e); auto.
  change (wnt (bump m h) o) with (wnt m o). set (b' := match old with Some o0 => _ | None => _ end). destruct (b' && N.ltb (wnt m o) MAX_WANTED).
  - exact (IHf (set_wnt m o (wnt m o + 1)) h _ _ _ _ _).
  - exact (IHf m h _ _ _ _ _).
Qed.
Lemma add_wanted_bump : forall m h e old g, add_wanted rmode (bump m h) e old g = bind (add_wanted rmode m e old g) (fun x => Ret (bump x h)).
Proof. intros. apply add_loop_bump. Qed.
Lemma compat : forall m k d s z, Inv m -> valid k -> valid d -> same d k = true -> (s < cap m)%N -> ent m s <> 0%N -> same (val (ent m s)) k = true -> valid z -> ent m s = marshal z (hf z) ->
  hf z = hf d /\ forall x, valid x -> same z x = true -> same d x = true.
Proof.
  intros m k d s z I Vk Vd Sd T Z SM Vz E. rewrite E, val_marshal in SM by auto.
  assert (Sdz : same d z = true). { apply (c_trans _ _ _ CT d k z); auto. apply (c_sym _ _ _ CT); auto. }
  split; [symmetry; apply (c_hash _ _ _ CT); auto|]. intros x Vx S. apply (c_trans _ _ _ CT d z x); auto.
Qed.
Lemma install_ok : forall mark fuel hs m k d r, Inv m -> lim (used m (ent m)) -> valid k -> same d k = true -> valid d -> dest m k r ->
  r_np r <= bound_get m (hf k) -> r_np r <= pmax m -> (r_obj r <> 0%N -> mark = true /\ hit m k r) ->
  match install rmode pp hf cmp oracle mark fuel hs m (hf k) (marshal d (hf k)) r with
  | Ret (Done m') => Inv m' /\ Permutation (cont m' (ent m')) (d :: rest m r) /\ nent m' = nent m /\ Tr any any (d :: cont m (ent m)) m m'
  | Ret (Failed hs') => failed oracle (alc hs) (alc hs') /\ alc hs <= alc hs' /\ Inv (mp hs') /\ Permutation (cont (mp hs') (ent (mp hs'))) (cont m (ent m)) /\ nent (mp hs') = nent m /\ Tr any any (cont m (ent m)) m (mp hs')
  | Ret (Again hs') => alc hs < alc hs' /\ Inv (mp hs') /\ Permutation (cont (mp hs') (ent (mp hs'))) (cont m (ent m)) /\ nent (mp hs') = N.of_nat (used (mp hs') (ent (mp hs'))) /\ Tr any any (cont m (ent m)) m (mp hs')
  | Loop => True
  | _ => False
  end.
Proof.
  intros mark fuel hs m k d r I Lm Vk Sd V D Bg Pm H. assert (Hd : hf d = hf k) by (apply (c_hash _ _ _ CT); auto). pose proof (i_wf _ _ _ _ _ _ (proj1 I)) as W. unfold install. unfold dest in D.
  pose proof (lim_512 rmode _ Lm) as L5. destruct (r_pr r) as [f|].
  - destruct D as (j & EQ & Np & Zf & Pa & Df).
    assert (Lf : (f < cap m)%N) by (rewrite EQ; apply pi_lt; auto).
    set (m0 := if mark then match r_slot r with Some s => set_irh m s true | None => m end else m).
    assert (I0 : Inv m0) by (unfold m0; destruct mark; auto; destruct (r_slot r); auto; apply Inv_irh; auto).
    assert (E0 : a_ent m0 = a_ent m /\ a_prb m0 = a_prb m /\ cap m0 = cap m /\ nent m0 = nent m /\ maxe m0 = maxe m /\ pmax m0 = pmax m /\ a_bnd m0 = a_bnd m /\ plim m0 = plim m)
      by (unfold m0; destruct mark; auto 10; destruct (r_slot r); simpl; auto 10).
    destruct E0 as (E1 & E2 & E3 & E4 & E5 & E6 & E7 & E8).
    assert (Ee : forall t, ent m0 t = ent m t) by (intros; unfold ent; rewrite E1; auto).
    assert (T0 : forall B, Tr any any B m m0) by (intros B; apply Tr_same; [unfold view; congruence | unfold m0; destruct mark; auto; destruct (r_slot r); auto]).
    assert (U0 : used m0 (ent m0) = used m (ent m)) by (apply used_ext; auto).
    assert (C0 : cont m0 (ent m0) = cont m (ent m)) by (apply cont_cap; auto).
    assert (Lm0 : lim (used m0 (ent m0))) by (rewrite U0; auto).
    pose proof (put_rh_ok rmode pp hf cmp oracle m0 f (proj1 I0) (proj2 I0) Lm0 fuel (lfac hs) (alc hs)) as R.
    rewrite E3, Ee in R. specialize (R Lf Zf).
    destruct (put_robin_hood rmode pp hf cmp oracle fuel (lfac hs) m0 (alc hs) f) as [[m1 | m1 al | old u al] | | |]; cbn [bind]; auto; cbn [rh_post] in R.
    + destruct R as (M & Keep).
      set (m1' := if mark then match r_slot r with Some s => set_irh m1 s false | None => m1 end else m1).
      assert (F1 : a_ent m1' = a_ent m1 /\ a_prb m1' = a_prb m1 /\ cap m1' = cap m1 /\ nent m1' = nent m1 /\ pmax m1' = pmax m1 /\ a_bnd m1' = a_bnd m1 /\ plim m1' = plim m1 /\ a_wnt m1' = a_wnt m1)
        by (unfold m1'; destruct mark; auto 10; destruct (r_slot r); simpl; auto 10).
      destruct F1 as (F1 & F2 & F3 & F4 & F5 & F6 & F7 & F8).
      destruct M as [Ra Me Ne Nz Iv HW Pe Tm]. rewrite C0 in Tm.
      assert (T1 : Tr any (nat_ f) (cont m (ent m)) m m1').
      { eapply Tr_trans; [apply T0|]. eapply Tr_trans; [exact Tm|]. apply Tr_same; [unfold view; congruence | unfold m1'; destruct mark; auto; destruct (r_slot r); auto]. }
      assert (Ra1 : raised m1 m1') by (apply raised_same; auto).
      assert (Ec : cap m1' = cap m) by (rewrite F3, (ra_cap _ _ _ Ra); auto).
      assert (Ge : forall t, ent m1' t = ent m1 t) by (intros; unfold ent; rewrite F1; auto).
      assert (Gp : forall t, prb m1' t = prb m1 t) by (intros; unfold prb; rewrite F2; auto).
      assert (Gw : forall t, wnt m1' t = wnt m1 t) by (intros; unfold wnt; rewrite F8; auto).
      assert (Iv' : inv (ent m1') m1' (eq f)).
      { apply inv_ext with (e := ent m1); [|intros; auto]. apply inv_raised with (m := m1); auto. }
      assert (Ce : cont m1' (updN (ent m1') f 0%N) = cont m1 (updN (ent m1) f 0%N)).
      { apply cont_cap; auto. intros t T. unfold updN. destruct (N.eqb t f); auto. }
      assert (Us : used m1' (updN (ent m1') f 0%N) = used m (ent m)) by (rewrite <- !(len_cont pp), Ce, Pe, C0; auto).
      assert (Em : exists s, (s < cap m)%N /\ ent m s = 0%N).
      { destruct (empty_dec m (ent m)) as [|Fu]; auto. exfalso. pose proof (used_lt m1' (updN (ent m1') f 0%N) f) as X.
        rewrite Ec, updN_same, Us, (used_full m) in X by auto. unfold nc in X. rewrite Ec in X. specialize (X Lf eq_refl). lia. }
      assert (Lj : j < nc m) by (apply (idx_lt rmode m (ent m) (hf k)); auto).
      assert (Ra0 : raised m m0) by (apply raised_same; auto).
      pose proof (raised_trans _ _ _ _ (raised_trans _ _ _ _ Ra0 Ra) Ra1) as RA.
      destruct (store_ok m1' f j d (hf k)) as (m3 & A1 & I3 & P3 & (X1 & X2 & X3 & X4) & K3 & Kf & Kv & Kh); auto.
      * eapply Wok_ext; [exact HW | auto | intros; auto|]. intros t T. unfold updN. destruct (N.eqb t f); auto.
      * rewrite Us. lia.
      * rewrite (pi_cap rmode m m1') by auto. auto.
      * unfold nc. rewrite Ec. auto.
      * pose proof (ra_get _ _ _ RA (hf k)). lia.
      * pose proof (ra_max _ _ _ RA) as (X & _). lia.
      * intros a A. rewrite (pi_cap rmode m m1') by auto. rewrite Ge. apply Nz. rewrite Ee. apply Pa; auto.
      * rewrite Np, A1. cbn [bind]. rewrite Ce, Pe, C0 in P3. unfold rest.
        assert (T3 : Tr any (nat_ f) (d :: cont m (ent m)) m m3).
        { eapply Tr_trans; [eapply Tr_incl; [exact T1 | apply incl_tl, incl_refl]|]. eapply Tr_trans; [apply (Tr_set _ _ _ _ _ m1' f d V); left; auto|].
          rewrite Hd. apply Tr_same; auto. }
        destruct (N.eqb_spec (r_obj r) 0) as [Z | Z].
        { split; auto. split; auto. split; [congruence|]. eapply Tr_weak; [exact T3 | auto | exact (fun _ _ _ => Logic.I) | apply incl_refl]. }
        destruct (H Z) as (-> & s & n & Es & Ls & Zs & Vs & Vo & So & EQs & _ & _ & _ & _ & _). rewrite Es in *.
        specialize (Df Z). assert (Ds : s <> f) by congruence.
        assert (Ks : ent m3 s = ent m s).
        { rewrite K3, Ge by auto. destruct (Keep s) as (K & _); auto; [|rewrite Ee; auto | rewrite K; auto]. unfold m0. rewrite ?Es. rewrite irh_set. apply updN_same. }
        assert (I3' : Inv (bump m3 (hf k))) by (apply (Inv_same rmode pp hf m3); auto).
        pose proof (shift_delete_ok rmode pp hf cmp fuel (bump m3 (hf k)) s I3') as SD. change (ent (bump m3 (hf k))) with (ent m3) in SD. lapply SD; [clear SD; intros SD|].
        2: { change (used (bump m3 (hf k)) (ent m3)) with (used m3 (ent m3)). rewrite <- (len_cont pp), P3. simpl. rewrite len_cont. lia. }
        change (cap (bump m3 (hf k))) with (cap m3) in SD. change (cont (bump m3 (hf k))) with (cont m3) in SD. rewrite X1, Ec in SD. specialize (SD Ls). rewrite Ks in SD. specialize (SD Zs).
        destruct (shift_delete rmode fuel (bump m3 (hf k)) s) as [m4 | | |]; cbn [bind del_post] in *; auto. destruct SD as (I4 & P4 & (Y1 & Y2 & Y3 & Y4) & T4).
        split; auto. split; [|split].
        2: { change (nent m4 = nent m3) in Y4. congruence. }
        2: { eapply Tr_trans; [exact T3|]. apply Tr_trans with (Y := nat_ s) (b := bump m3 (hf k)).
          - assert (Ep3 : forall g a, pi m3 g a = pi m g a) by (intros; apply pi_cap; congruence).
            assert (V3 : v_cap (view m3) = cap m1' /\ v_bnd (view m3) = a_bnd m1' /\ v_max (view m3) = pmax m1') by (rewrite Kv; auto). destruct V3 as (V1 & V2 & V3).
            assert (B3 : bound_get m3 (hf k) = bound_get m1' (hf k)).
            { unfold Rhs_Model.bound_get, bnd. change (cap m3) with (v_cap (view m3)). change (a_bnd m3) with (v_bnd (view m3)). change (pmax m3) with (v_max (view m3)). rewrite V1, V2, V3. auto. }
            apply Tr_bump with (c := f) (d := d) (i := j) (g := (hf k mod 1024)%N); auto; rewrite ?Hd; auto.
            + rewrite Ep3. auto.
            + unfold nc. rewrite X1, Ec. auto.
            + intros a A. rewrite Ep3. destruct (N.eq_dec (pi m (hf k) a) f) as [E | E]; [rewrite E, Kf; apply marshal_nz; auto|].
              rewrite K3, Ge by auto. apply Nz. rewrite Ee. apply Pa; auto.
            + rewrite B3. pose proof (ra_get _ _ _ RA (hf k)). lia.
            + change (pmax m3) with (v_max (view m3)). rewrite V3. pose proof (ra_max _ _ _ RA) as (X & _). lia.
            + rewrite Ks. intros z Vz E. rewrite <- Hd. apply (compat m k d s z); auto. rewrite Vs. auto.
          - eapply Tr_weak; [exact T4 | auto | auto|]. intros z Y. apply Permutation_in with (l := d :: cont m (ent m)); [reflexivity|]. rewrite <- P3.
            pose proof (cont_split m3 s) as S3. rewrite X1, Ec, Ks in S3. rewrite (S3 Ls Zs). right. auto. }
        rewrite P4.
        pose proof (cont_split m3 s) as S3. rewrite X1, Ec, Ks in S3. specialize (S3 Ls Zs).
        pose proof (cont_split m s Ls Zs) as S0. apply (Permutation_cons_inv (a := val (ent m s))). rewrite <- S3, P3, S0. apply perm_swap.
    + destruct R as (Fa & Le & Iu & Ea & Ec & _ & Ne & Tf). rewrite C0 in Tf. cbn [mp alc]. split; auto. split; auto.
      set (m1' := if mark then match r_slot r with Some s => set_irh m1 s false | None => m1 end else m1).
      assert (F1 : a_ent m1' = a_ent m1 /\ cap m1' = cap m1 /\ nent m1' = nent m1) by (unfold m1'; destruct mark; auto 10; destruct (r_slot r); simpl; auto 10).
      destruct F1 as (F1 & F2 & F3).
      split; [unfold m1'; destruct mark; auto; destruct (r_slot r); auto; apply Inv_irh; auto|].
      split; [rewrite (cont_cap pp m m1' (ent m)); auto; [congruence|]; intros t _; unfold ent; congruence|]. split; [congruence|].
      eapply Tr_trans; [apply T0|]. eapply Tr_trans; [exact Tf|]. apply Tr_same; unfold m1'; destruct mark; auto; destruct (r_slot r); auto.
    + destruct R as (Le & Iu & Pu & Ne & Tf). cbn [mp alc]. rewrite C0 in Pu, Tf. repeat (split; [auto; fail|]). eapply Tr_trans; [apply T0 | exact Tf].
  - destruct (r_slot r) as [s|] eqn:Es; auto. destruct D as (n & EQ & Np & Ln & Pa & Hs). rewrite Np in *.
    assert (Ls : (s < cap m)%N) by (rewrite EQ; apply pi_lt; auto). unfold rest. rewrite Es.
    destruct (N.eqb_spec (r_obj r) 0) as [Z | Z].
    + pose proof (i_zero _ _ _ _ _ _ (proj1 I) s Ls Hs) as Ps.
      assert (Ce : cont m (updN (ent m) s 0%N) = cont m (ent m)).
      { apply cont_cap; auto. intros t T. unfold updN. destruct (N.eqb_spec t s); subst; auto. }
      destruct (store_ok m s n d (hf k)) as (m3 & A1 & I3 & P3 & (X1 & X2 & X3 & X4) & K3 & Kf & Kv & Kh); auto.
      * destruct I as (I & _). destruct I as [Q1 Q2 Q3 Q4 Q5]. constructor; auto.
      * eapply Wok_ext; [exact (proj2 I) | auto | auto|]. intros t T. unfold updN. destruct (N.eqb_spec t s); subst; auto.
      * rewrite <- (len_cont pp), Ce, len_cont. lia.
      * rewrite A1. cbn [bind]. rewrite Ce in P3. repeat (split; [auto; fail|]). eapply Tr_trans; [apply (Tr_nz _ _ _ _ _ _ m s Hs)|].
        apply Tr_weak with (X := nat_ s) (Y := nat_ s) (B := d :: cont m (ent m)); [|auto | exact (fun _ _ _ => Logic.I) | apply incl_refl]. eapply Tr_trans; [apply (Tr_set _ _ _ _ _ m s d V); left; auto|]. rewrite Hd. apply Tr_same; auto.
    + destruct Hs as (Zs & Ps). destruct (replace_ok m s n d (hf k)) as (A1 & A2 & A3 & A4 & A5 & A6); auto.
      repeat (split; [auto; fail|]). destruct (H Z) as (_ & s' & _ & Es' & _ & _ & Ev & _ & So & _). injection (eq_trans (eq_sym Es) Es') as <-.
      rewrite <- Hd. eapply Tr_trans; [apply (Tr_repl _ _ _ _ _ m s d V); [left; auto|] | apply Tr_same; auto].
      intros z Vz E. apply (compat m k d s z); auto. rewrite Ev. auto.
Qed.
End S.
