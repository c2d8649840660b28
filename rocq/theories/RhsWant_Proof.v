(** Robin Hood hash set: the counters of the entries that have passed a slot. *)
From Coq Require Import Arith NArith List Bool Permutation Lia.
From Verif Require Import Lib Helpers_Model Rhs_Model Rhs_Spec Rhs_Proof RhsInv_Proof RhsGrow_Proof.
Import ListNotations.

Section W.
Variables (rmode : bool).
Notation pi := (pi rmode).
Notation bk := (bk rmode).
Notation occ := (occ rmode).

(** maps that differ in the counters only *)
Definition setw (m : rmap) (w : arr N) : rmap := mkm (cap m) (plim m) (maxe m) (a_ent m) (a_prb m) w (a_bnd m) (a_irh m) (pmax m) (nent m) (hist m).
Lemma setw_wf : forall m w, wf m -> wf (setw m w).
Proof. intros m w W. exact W. Qed.

Lemma add_loop_ok : forall m h i a old w0, wf m -> i < nc m -> a < nc m -> (old = None /\ a = 0 \/ old = Some (pi m h a)) ->
  forall f w j found, j <= i -> i - j < f -> (found = true <-> a < j \/ old = None) ->
  (forall t, (t < cap m)%N -> (wnt (setw m w0) t < 65535)%N) ->
  (forall s, (s < cap m)%N -> N.to_nat (wnt (setw m w) s) = N.to_nat (wnt (setw m w0) s) + occ m h s a (j - a)) ->
  exists w', add_wanted_loop rmode f (setw m w) (pi m h j) (pi m h i) old found (S j) = Ret (setw m w') /\
    forall s, (s < cap m)%N -> N.to_nat (wnt (setw m w') s) = N.to_nat (wnt (setw m w0) s) + occ m h s a (i - a).
Proof.
  intros m h i a old w0 W Hi Ha Ho. induction f; intros w j found J F Fd B Hw; [lia|]. cbn [add_wanted_loop].
  destruct (N.eqb_spec (pi m h j) (pi m h i)) as [E | E].
  { apply (pi_inj rmode m h j i) in E; auto; [|lia]. subst j. eauto. }
  assert (Lt : j < i) by (destruct (Nat.eq_dec j i); [subst; congruence | lia]).
  set (found' := match old with Some o => found || N.eqb (pi m h j) o | None => found end).
  assert (Fd' : found' = true <-> a <= j \/ old = None).
  { unfold found'. destruct Ho as [(-> & ->) | ->].
    - rewrite Fd. intuition lia.
    - rewrite orb_true_iff, Fd, N.eqb_eq. split.
      + intros [[X | X] | X]; [left; lia | auto | apply pi_inj in X; auto; [left|]; lia].
      + intros [X | X]; [|discriminate]. destruct (Nat.eq_dec a j); [subst; auto | left; left; lia]. }
  assert (Lj : (pi m h j < cap m)%N) by (apply pi_lt; auto).
  assert (O0 : occ m h (pi m h j) a (j - a) = 0).
  { apply occ_0. intros x X E2. apply pi_inj in E2; auto; lia. }
  set (m1 := if found' && N.ltb (wnt (setw m w) (pi m h j)) MAX_WANTED then set_wnt (setw m w) (pi m h j) (wnt (setw m w) (pi m h j) + 1) else setw m w).
  assert (E1 : exists w1, m1 = setw m w1 /\ forall s, (s < cap m)%N -> N.to_nat (wnt (setw m w1) s) = N.to_nat (wnt (setw m w0) s) + occ m h s a (S j - a)).
  { unfold m1. destruct found' eqn:Q; cbn [andb].
    - assert (Aj : a <= j) by (destruct Fd' as (X & _); destruct (X eq_refl); auto; destruct Ho as [(_ & ->) | ->]; [lia | discriminate]).
      pose proof (Hw _ Lj) as Y. rewrite O0 in Y. pose proof (B _ Lj). destruct (N.ltb_spec (wnt (setw m w) (pi m h j)) MAX_WANTED); [|unfold MAX_WANTED in *; lia].
      exists (a_wnt (set_wnt (setw m w) (pi m h j) (wnt (setw m w) (pi m h j) + 1))). split; [reflexivity|]. intros s Hs.
      assert (X : wnt (setw m (a_wnt (set_wnt (setw m w) (pi m h j) (wnt (setw m w) (pi m h j) + 1)))) s = updN (wnt (setw m w)) (pi m h j) (wnt (setw m w) (pi m h j) + 1)%N s) by (exact (wnt_set (setw m w) _ _ s)).
      rewrite X. clear X. replace (S j - a) with (S (j - a)) by lia. rewrite occ_S. replace (a + (j - a)) with j by lia.
      unfold updN. rewrite (N.eqb_sym s). destruct (N.eqb_spec (pi m h j) s) as [<- | D].
      + lia.
      + rewrite Hw by auto. lia.
    - exists w. split; auto. intros s Hs. replace (S j - a) with 0; [rewrite Hw by auto; replace (j - a) with 0; auto|].
      + destruct (Nat.le_gt_cases a j) as [X | X]; [|lia]. exfalso. assert (false = true) by (apply Fd'; auto). discriminate.
      + destruct (Nat.le_gt_cases a j) as [X | X]; [|lia]. exfalso. assert (false = true) by (apply Fd'; auto). discriminate. }
  destruct E1 as (w1 & E1 & E2). fold m1. rewrite E1.
  replace (next rmode (setw m w1) (pi m h j) (S j)) with (pi m h (S j)) by reflexivity.
  apply IHf; auto; try lia. rewrite Fd'. intuition lia.
Qed.
Lemma add_wanted_ok : forall m h i a old, wf m -> i < nc m -> i <= plim m -> a < nc m -> (old = None /\ a = 0 \/ old = Some (pi m h a)) ->
  (forall t, (t < cap m)%N -> (wnt m t < 65535)%N) ->
  exists w', add_wanted rmode m (pi m h i) old h = Ret (setw m w') /\
    forall s, (s < cap m)%N -> N.to_nat (wnt (setw m w') s) = N.to_nat (wnt m s) + occ m h s a (i - a).
Proof.
  intros m h i a old W Hi Pl Ha Ho B. unfold add_wanted.
  assert (E : m = setw m (a_wnt m)) by (destruct m; reflexivity).
  destruct (add_loop_ok m h i a old (a_wnt m) W Hi Ha Ho (S (plim m)) (a_wnt m) 0 (match old with None => true | Some _ => false end)) as (w' & E1 & E2); try lia.
  - destruct Ho as [(-> & _) | ->]; intuition (try discriminate; try lia).
  - rewrite <- E. auto.
  - intros s Hs. simpl. lia.
  - exists w'. split.
    + rewrite <- E in E1. exact E1.
    + intros s Hs. rewrite (E2 s Hs). rewrite <- E. auto.
Qed.

Lemma remove_loop_ok : forall m h lo limit, wf m -> (limit = None /\ lo = 0 \/ exists a, limit = Some (pi m h a) /\ lo = S a /\ a < nc m) ->
  forall i w rem, i < nc m -> (rem = true -> lo <= i) -> (rem = false -> limit = None \/ i < lo) ->
  (rem = true -> forall j, lo <= j < i -> (0 < wnt (setw m w) (pi m h j) < 65535)%N) ->
  exists w', remove_wanted_loop rmode (S i) (setw m w) (pi m h i) limit rem = (setw m w', (h mod cap m)%N) /\
    forall s, (s < cap m)%N -> N.to_nat (wnt (setw m w') s) + (if rem then occ m h s lo (i - lo) else 0) = N.to_nat (wnt (setw m w) s).
Proof.
  intros m h lo limit W Hl. induction i; intros w rem Hi Rt Rf B.
  { exists w. split; auto. intros s Hs. simpl. destruct rem; lia. }
  cbn [remove_wanted_loop].
  assert (Ep : prev rmode (setw m w) (pi m h (S i)) (S i) = pi m h i) by (exact (pi_prev rmode m h i W)). rewrite Ep.
  set (rem' := match limit with Some l => rem && negb (N.eqb (pi m h i) l) | None => rem end).
  assert (R' : rem' = true <-> rem = true /\ lo <= i).
  { unfold rem'. destruct Hl as [(-> & ->) | (a & -> & -> & La)].
    - intuition lia.
    - destruct rem; cbn [andb]; [|intuition discriminate]. specialize (Rt eq_refl). destruct (N.eqb_spec (pi m h i) (pi m h a)) as [E | E]; cbn [negb].
      + apply pi_inj in E; auto; try lia.
      + split; auto. intros _. split; auto. destruct (Nat.eq_dec i a); [subst; congruence | lia]. }
  assert (Li : (pi m h i < cap m)%N) by (apply pi_lt; auto).
  set (m1 := if rem' && negb (N.eqb (wnt (setw m w) (pi m h i)) MAX_WANTED) then set_wnt (setw m w) (pi m h i) ((wnt (setw m w) (pi m h i) + 65535) mod 65536) else setw m w).
  assert (E1 : exists w1, m1 = setw m w1 /\ (forall s, s <> pi m h i -> wnt (setw m w1) s = wnt (setw m w) s) /\
    forall s, (s < cap m)%N -> N.to_nat (wnt (setw m w1) s) + (if rem' && N.eqb (pi m h i) s then 1 else 0) = N.to_nat (wnt (setw m w) s)).
  { unfold m1. destruct rem' eqn:Q; cbn [andb].
    - destruct R' as (R' & _). destruct (R' eq_refl) as (R1 & R2). specialize (B R1 i ltac:(lia)).
      destruct (N.eqb_spec (wnt (setw m w) (pi m h i)) MAX_WANTED); [unfold MAX_WANTED in *; lia|]. cbn [negb].
      assert (Em : ((wnt (setw m w) (pi m h i) + 65535) mod 65536 = wnt (setw m w) (pi m h i) - 1)%N).
      { replace (wnt (setw m w) (pi m h i) + 65535)%N with (wnt (setw m w) (pi m h i) - 1 + 1 * 65536)%N by lia.
        rewrite N.mod_add by lia. apply N.mod_small. lia. }
      rewrite Em. exists (a_wnt (set_wnt (setw m w) (pi m h i) (wnt (setw m w) (pi m h i) - 1))).
      split; [reflexivity|]. 
      assert (X : forall s, wnt (setw m (a_wnt (set_wnt (setw m w) (pi m h i) (wnt (setw m w) (pi m h i) - 1)))) s = updN (wnt (setw m w)) (pi m h i) (wnt (setw m w) (pi m h i) - 1)%N s) by (intros s; exact (wnt_set (setw m w) _ _ s)).
      split; intros s Hs; rewrite X.
      + apply updN_other; auto.
      + unfold updN. rewrite (N.eqb_sym s). destruct (N.eqb_spec (pi m h i) s) as [<- | D]; lia.
    - exists w. split; auto. }
  destruct E1 as (w1 & E1 & E2 & E3). rewrite E1.
  destruct (IHi w1 rem') as (w' & X1 & X2); try lia.
  - intros Q. apply R' in Q. lia.
  - intros Q. destruct rem eqn:Rm; [|destruct (Rf eq_refl); auto; right; lia].
    destruct (Nat.le_gt_cases lo i) as [X | X]; [|auto]. exfalso. assert (false = true); [|discriminate]. rewrite <- Q. apply R'; auto.
  - intros Q j J. apply R' in Q. destruct Q as (Q & _). rewrite E2; [apply B; auto; lia|]. intros E. apply pi_inj in E; auto; lia.
  - exists w'. split; auto. intros s Hs. specialize (X2 s Hs). specialize (E3 s Hs). destruct rem eqn:Rm.
    + specialize (Rt eq_refl). destruct (Nat.le_gt_cases lo i) as [X | X].
      * assert (Q : rem' = true) by (apply R'; auto). rewrite Q in *. cbn [andb] in E3.
        replace (S i - lo) with (S (i - lo)) by lia. rewrite occ_S. replace (lo + (i - lo)) with i by lia. lia.
      * assert (Q : rem' = false) by (destruct rem'; auto; destruct R' as (R' & _); destruct (R' eq_refl); lia). rewrite Q in *. cbn [andb] in E3.
        replace (S i - lo) with 0 by lia. simpl. lia.
    + assert (Q : rem' = false) by (destruct rem'; auto; destruct R' as (R' & _); destruct (R' eq_refl); discriminate). rewrite Q in *. cbn [andb] in E3. lia.
Qed.
Lemma remove_wanted_ok : forall m h lo limit i, wf m -> i < nc m -> prb m (pi m h i) = S i ->
  (limit = None /\ lo = 0 \/ exists a, limit = Some (pi m h a) /\ lo = S a /\ a < i) ->
  (forall j, lo <= j < i -> (0 < wnt m (pi m h j) < 65535)%N) ->
  exists w', remove_wanted rmode m (pi m h i) limit = (setw m w', (h mod cap m)%N) /\
    forall s, (s < cap m)%N -> N.to_nat (wnt (setw m w') s) + occ m h s lo (i - lo) = N.to_nat (wnt m s).
Proof.
  intros m h lo limit i W Hi P Hl B. unfold remove_wanted. rewrite P.
  assert (E : m = setw m (a_wnt m)) by (destruct m; reflexivity).
  destruct (remove_loop_ok m h lo limit W) with (i := i) (w := a_wnt m) (rem := true) as (w' & E1 & E2); auto.
  - destruct Hl as [X | (a & X1 & X2 & X3)]; auto. right. exists a. split; auto. split; auto. lia.
  - intros _. destruct Hl as [(_ & ->) | (a & X1 & X2 & X3)]; lia.
  - discriminate.
  - exists w'. split.
    + rewrite <- E in E1. exact E1.
    + intros s Hs. rewrite (E2 s Hs). rewrite <- E. auto.
Qed.
End W.
