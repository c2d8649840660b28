(** Slots of a ring do not share bytes exactly when the offset of the last slot fits into an
    unsigned int; then the ring of structs is a bounded FIFO of whole elements. *)
From Coq Require Import NArith List Bool Lia.
From Verif Require Import RingBytes_Model RingBytes_Spec.
Import ListNotations.
Open Scope N_scope.

Lemma land_mask : forall k x, N.land x (2 ^ k - 1) = x mod 2 ^ k.
Proof.
  intros k x. rewrite <- N.land_ones. f_equal. rewrite N.ones_equiv. lia.
Qed.

Lemma pow_pos : forall k, 0 < 2 ^ k.
Proof. intros k. assert (2 ^ k <> 0) by (apply N.pow_nonzero; lia). lia. Qed.

Lemma mod_W : forall k x, k <= 32 -> (x mod W) mod 2 ^ k = x mod 2 ^ k.
Proof.
  intros k x Hk. unfold W. replace 32 with (k + (32 - k)) by lia. rewrite N.pow_add_r.
  pose proof (pow_pos k). pose proof (pow_pos (32 - k)).
  rewrite N.mod_mul_r by lia. rewrite N.mul_comm, N.mod_add, N.mod_mod by lia. reflexivity.
Qed.

Lemma off_fits : forall ts k i, ts * (2 ^ k - 1) < W -> off ts (2 ^ k - 1) i = ts * (i mod 2 ^ k).
Proof.
  intros ts k i H. unfold off. rewrite land_mask. apply N.mod_small.
  pose proof (pow_pos k). assert (i mod 2 ^ k < 2 ^ k) by (apply N.mod_lt; lia).
  eapply N.le_lt_trans; [|exact H]. apply N.mul_le_mono_l. lia.
Qed.

Lemma apart : forall ts a b j j', j < ts -> j' < ts -> ts * a + j = ts * b + j' -> a = b /\ j = j'.
Proof.
  intros ts a b j j' Hj Hj' E. destruct (N.lt_trichotomy a b) as [L|[L|L]].
  - assert (ts * (a + 1) <= ts * b) by (apply N.mul_le_mono_l; lia). nia.
  - subst. lia.
  - assert (ts * (b + 1) <= ts * a) by (apply N.mul_le_mono_l; lia). nia.
Qed.

Definition disjoint (ts k : N) : Prop :=
  forall i i' j j', i < 2 ^ k -> i' < 2 ^ k -> j < ts -> j' < ts ->
  off ts (2 ^ k - 1) i + j = off ts (2 ^ k - 1) i' + j' -> i = i' /\ j = j'.

Lemma disjoint_iff : forall ts k, 0 < ts -> ts < W -> (disjoint ts k <-> ts * (2 ^ k - 1) < W).
Proof.
  intros ts k Hp Hw. split.
  - intros D. destruct (N.lt_ge_cases (ts * (2 ^ k - 1)) W) as [L|L]; [exact L|exfalso].
    (* the first slot whose offset wraps *)
    set (i := (W + ts - 1) / ts).
    assert (Hi : i * ts <= W + ts - 1 /\ W <= i * ts).
    { unfold i. pose proof (N.div_mod (W + ts - 1) ts ltac:(lia)) as E.
      pose proof (N.mod_lt (W + ts - 1) ts ltac:(lia)).
      rewrite (N.mul_comm _ ts). clear D L. generalize dependent ((W + ts - 1) / ts). generalize dependent ((W + ts - 1) mod ts).
      intros r Hr x E. revert E. generalize (ts * x). intros y E. unfold W in *. lia. }
    assert (Hik : i <= 2 ^ k - 1).
    { destruct (N.lt_ge_cases (2 ^ k - 1) i) as [A|A]; [|exact A].
      assert ((2 ^ k - 1 + 1) * ts <= i * ts) by (apply N.mul_le_mono_r; lia). lia. }
    pose proof (pow_pos k) as Hk.
    assert (Ei : off ts (2 ^ k - 1) i = ts * i - W).
    { unfold off. rewrite land_mask, (N.mod_small i) by lia.
      symmetry. apply N.mod_unique with (q := 1); lia. }
    assert (E0 : off ts (2 ^ k - 1) 0 = 0).
    { unfold off. rewrite N.land_0_l, N.mul_0_r. apply N.mod_0_l. discriminate. }
    destruct (D i 0 0 (ts * i - W)) as [X _]; try lia.
  - intros H i i' j j' A B C E. rewrite !off_fits by exact H. rewrite !N.mod_small by assumption.
    apply apart; assumption.
Qed.

Section B.
Context {byte : Type}.

Lemma flat_cells : forall ts k, disjoint ts k -> forall (l : list (acc byte)) m c,
  (forall i j, i < 2 ^ k -> j < ts -> m (off ts (2 ^ k - 1) i + j) = c i j) ->
  Forall (within k ts) l -> flat ts (2 ^ k - 1) m l = cells c l.
Proof.
  intros ts k D. induction l as [|[i j v|i j] l IH]; intros m c H F; simpl; [reflexivity| |].
  - assert (AB : i < 2 ^ k /\ j < ts) by exact (Forall_inv F). destruct AB as [A B].
    pose proof (Forall_inv_tail F) as F'. apply IH; [|exact F'].
    intros i' j' A' B'. destruct (N.eqb_spec (off ts (2 ^ k - 1) i' + j') (off ts (2 ^ k - 1) i + j)) as [E|E].
    + destruct (D _ _ _ _ A' A B' B E) as [-> ->]. rewrite !N.eqb_refl. reflexivity.
    + destruct (N.eqb_spec i' i) as [->|Ni]; [|apply H; assumption].
      destruct (N.eqb_spec j' j) as [->|Nj]; [congruence|apply H; assumption].
  - assert (AB : i < 2 ^ k /\ j < ts) by exact (Forall_inv F). destruct AB as [A B].
    pose proof (Forall_inv_tail F) as F'. f_equal; [apply H; assumption|apply IH; assumption].
Qed.

(** the accesses agree on every trace exactly when the slots are disjoint *)
Lemma traces_iff : forall (a b : byte) ts k, a <> b -> 0 < ts -> ts < W ->
  ((forall l : list (acc byte), Forall (within k ts) l ->
     flat ts (2 ^ k - 1) (fun _ => a) l = cells (fun _ _ => a) l) <-> ts * (2 ^ k - 1) < W).
Proof.
  intros a b ts k Hab Hp Hw. rewrite <- (disjoint_iff ts k Hp Hw). split.
  - intros H i i' j j' A B C E X.
    specialize (H [Wr i j b; Rd i' j']). simpl in H.
    assert (F : Forall (within k ts) [Wr i j b; Rd i' j']).
    { repeat constructor; assumption. }
    specialize (H F). rewrite X, N.eqb_refl in H.
    destruct (N.eqb_spec i' i) as [->|N1]; simpl in H; [|exfalso; congruence].
    split; [reflexivity|lia].
  - intros D l F. apply flat_cells; auto.
Qed.

(** *** The FIFO *)
Section F.
Variables (ts k : N).
Hypothesis Hk1 : 1 <= k.
Hypothesis Hk : k < 32.
Hypothesis Hfit : ts * (2 ^ k - 1) < W.

Definition Inv (q : list (N -> byte)) (r : ring byte) : Prop :=
  mask r = 2 ^ k - 1 /\ c_head r < W /\ p_tail r = (c_head r + N.of_nat (length q)) mod W /\
  N.of_nat (length q) <= 2 ^ k - 1 /\
  forall i e, nth_error q i = Some e -> same ts (fun j => mem r (off ts (2 ^ k - 1) (c_head r + N.of_nat i) + j)) e.

Lemma kW : 2 ^ k < W.
Proof. apply N.pow_lt_mono_r; lia. Qed.

Lemma idx_inj : forall c x y, x < 2 ^ k -> y < 2 ^ k -> (c + x) mod 2 ^ k = (c + y) mod 2 ^ k -> x = y.
Proof.
  intros c x y Hx Hy E. pose proof (pow_pos k) as P.
  pose proof (N.div_mod (c + x) (2 ^ k) ltac:(lia)) as E1.
  pose proof (N.div_mod (c + y) (2 ^ k) ltac:(lia)) as E2.
  rewrite E in E1. 
  destruct (N.lt_trichotomy ((c + x) / 2 ^ k) ((c + y) / 2 ^ k)) as [L|[L|L]].
  - assert (2 ^ k * ((c + x) / 2 ^ k + 1) <= 2 ^ k * ((c + y) / 2 ^ k)) by (apply N.mul_le_mono_l; lia). lia.
  - rewrite L in E1. lia.
  - assert (2 ^ k * ((c + y) / 2 ^ k + 1) <= 2 ^ k * ((c + x) / 2 ^ k)) by (apply N.mul_le_mono_l; lia). lia.
Qed.

Lemma off_mod : forall x, off ts (2 ^ k - 1) (x mod W) = off ts (2 ^ k - 1) x.
Proof. intros x. unfold off. rewrite !land_mask, mod_W by lia. reflexivity. Qed.

Lemma fifo_calls : forall os q r, Inv q r -> fifo (N.to_nat (2 ^ k - 1)) ts q os (calls ts r os).
Proof.
  pose proof kW as HW. pose proof (pow_pos k) as P.
  assert (P2 : 2 <= 2 ^ k) by (change 2 with (2 ^ 1) at 1; apply N.pow_le_mono_r; lia).
  induction os as [|[e|] os IH]; intros q r (Im & Ic & Ip & In' & Iq); simpl; [exact I| |].
  - unfold enqueue. rewrite Im, !land_mask, mod_W by lia.
    rewrite Ip. rewrite <- (mod_W k ((c_head r + N.of_nat (length q)) mod W + 1)) by lia.
    rewrite N.add_mod_idemp_l, mod_W by (discriminate || lia).
    destruct (N.eqb_spec ((c_head r + N.of_nat (length q) + 1) mod 2 ^ k) (c_head r mod 2 ^ k)) as [E|E].
    + assert (L : N.of_nat (length q) = 2 ^ k - 1).
      { destruct (N.lt_ge_cases (N.of_nat (length q) + 1) (2 ^ k)) as [L|L]; [|lia].
        exfalso. rewrite <- N.add_assoc in E. rewrite <- (N.add_0_r (c_head r)) in E at 2.
        apply idx_inj in E; lia. }
      split.
      * symmetry. apply PeanoNat.Nat.ltb_ge. lia.
      * apply IH. repeat split; auto.
    + assert (L : N.of_nat (length q) < 2 ^ k - 1).
      { destruct (N.eq_dec (N.of_nat (length q)) (2 ^ k - 1)) as [L|L]; [|lia].
        exfalso. apply E. rewrite L. replace (c_head r + (2 ^ k - 1) + 1) with (c_head r + 1 * 2 ^ k) by lia.
        apply N.mod_add. lia. }
      split.
      * symmetry. apply PeanoNat.Nat.ltb_lt. lia.
      * apply IH. unfold Inv; cbn [mask p_tail c_head mem]. refine (conj eq_refl (conj Ic (conj _ (conj _ _)))).
        -- try rewrite N.add_mod_idemp_l by discriminate. f_equal. rewrite app_length; simpl. lia.
        -- rewrite app_length; simpl. lia.
        -- intros i f Hi j Hj. unfold copy_in. rewrite off_mod.
           assert (Hl : (i < length q \/ i = length q)%nat).
           { assert (nth_error (q ++ [e]) i <> None) by congruence.
             apply nth_error_Some in H. rewrite app_length in H; simpl in H. lia. }
           destruct Hl as [Hl| ->].
           ++ rewrite nth_error_app1 in Hi by exact Hl.
              match goal with |- (if ?b then _ else _) = _ => destruct b eqn:Eb end; [|apply (Iq i f Hi j Hj)].
              exfalso. apply andb_true_iff in Eb. destruct Eb as [E1 E2].
              apply N.leb_le in E1. apply N.ltb_lt in E2. rewrite !off_fits in E1, E2 by exact Hfit.
              destruct (apart ts ((c_head r + N.of_nat i) mod 2 ^ k) ((c_head r + N.of_nat (length q)) mod 2 ^ k) j
                (ts * ((c_head r + N.of_nat i) mod 2 ^ k) + j - ts * ((c_head r + N.of_nat (length q)) mod 2 ^ k))) as [X _]; try lia.
              apply idx_inj in X; lia.
           ++ rewrite nth_error_app2 in Hi by lia. rewrite PeanoNat.Nat.sub_diag in Hi. injection Hi as <-.
              replace (_ <=? _) with true by (symmetry; apply N.leb_le; lia).
              replace (_ <? _) with true by (symmetry; apply N.ltb_lt; lia).
              simpl. f_equal. lia.
  - unfold dequeue. destruct (N.eqb_spec (c_head r) (p_tail r)) as [E|E].
    + split; [|apply IH; repeat split; auto].
      destruct q as [|e q]; [reflexivity|exfalso]. rewrite Ip in E.
      destruct (N.lt_ge_cases (c_head r + N.of_nat (length (e :: q))) W) as [L|L].
      * rewrite N.mod_small in E by exact L. simpl length in E. lia.
      * rewrite <- (N.mod_unique (c_head r + N.of_nat (length (e :: q))) W 1 (c_head r + N.of_nat (length (e :: q)) - W)) in E by lia.
        lia.
    + destruct q as [|e q].
      { exfalso. apply E. rewrite Ip. simpl. rewrite N.add_0_r, N.mod_small; auto. }
      split.
      * rewrite Im. specialize (Iq 0%nat e eq_refl). simpl in Iq. rewrite N.add_0_r in Iq. exact Iq.
      * apply IH. unfold Inv; cbn [mask p_tail c_head mem]. refine (conj Im (conj _ (conj _ (conj _ _)))).
        -- apply N.mod_lt. unfold W; lia.
        -- rewrite N.add_mod_idemp_l by discriminate. rewrite Ip. f_equal. simpl length. lia.
        -- simpl length in In'. lia.
        -- intros i f Hi j Hj. rewrite <- (off_mod ((c_head r + 1) mod W + N.of_nat i)).
           rewrite N.add_mod_idemp_l by discriminate. rewrite off_mod.
           replace (c_head r + 1 + N.of_nat i) with (c_head r + N.of_nat (S i)) by lia.
           apply (Iq (S i) f Hi j Hj).
Qed.

Lemma fifo_init : forall (m : N -> byte) os, fifo (N.to_nat (2 ^ k - 1)) ts [] os (calls ts (init k m) os).
Proof.
  intros m os. apply fifo_calls. unfold Inv; simpl.
  refine (conj eq_refl (conj _ (conj _ (conj _ _)))); try (unfold W; simpl; lia); try reflexivity.
  intros i e H. destruct i; discriminate.
Qed.
End F.

(** elements of 2 GiB in a ring of 4 slots: the third enqueue overwrites the first element *)
Lemma large_refuted : forall (a b : byte), a <> b ->
  exists ts k os, 0 < ts /\ ts < W /\ 1 <= k /\ k < 32 /\
  ~ fifo (N.to_nat (2 ^ k - 1)) ts [] os (calls ts (init k (fun _ => a)) os).
Proof.
  intros a b Hab. exists (2 ^ 31), 2, [Enq (fun _ => a); Enq (fun _ => a); Enq (fun _ => b); Deq].
  unfold W. repeat split; try lia. intros F.
  set (m := fun _ : N => a) in *. set (ea := fun _ : N => a) in *. set (eb := fun _ : N => b) in *.
  cbn [calls] in F.
  cbn [fifo app] in F. destruct F as (_ & _ & _ & F & _). specialize (F 0 eq_refl).
  change (b = a) in F. congruence.
Qed.
End B.
