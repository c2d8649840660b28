(** Hash set: growing, and the operations on keys. *)
From Coq Require Import Arith NArith List Bool Lia Permutation.
From Verif Require Import Lib Helpers_Model Hs_Model Hs_Spec Hs_Proof HsInv_Proof HsOps_Proof.
Import ListNotations.

Section O.
Variables (dl pp : bool) (hf : N -> N) (cmp : option (N -> N -> bool)) (ub : N -> N -> N) (oracle : nat -> option N).
Variable CT : contract pp hf cmp.
Notation pi := (pi ub). Notation val := (val pp). Notation valid := (valid pp hf). Notation same := (same cmp).
Notation marshal := (marshal pp). Notation contents := (contents pp).
Notation Core := (Core dl pp hf ub). Notation Inv := (Inv dl pp hf cmp ub). Notation okq := (okq dl). Notation noempty := (noempty ub).
Notation posn := (posn dl hf ub). Notation entok := (entok dl pp hf ub). Notation wtr := (wtr dl pp hf cmp ub).
Notation pspec := (pspec pp cmp ub). Notation clear := (clear pp cmp ub). Notation firstt := (firstt ub).
Notation uniq := (uniq cmp). Notation fresh := (fresh cmp). Notation eff := (eff dl pp hf cmp ub).
Notation mem := (mem cmp). Notation del := (del cmp). Notation obj := (obj cmp).

(** ** A new map *)
Lemma create_contents : forall g e, contents (create g e) = [].
Proof.
  intros. unfold Hs_Spec.contents. generalize (slots (create g e)). induction l; simpl in *; auto.
Qed.
Lemma create_inv : forall g e, Inv (create g e).
Proof.
  intros. split; [|rewrite create_contents; split; [apply uniq_nil | reflexivity]].
  split; [apply wf_create|]. split; [split; simpl; intros; lia|]. intros s _ L. discriminate.
Qed.
(** placing one word *)
Lemma put_swap : forall u s w n h k, app (app u [SEnt s w; SCnt n]) (bound_set dl (app u [SEnt s w; SCnt n]) h k) =
  app1 (app u (bound_set dl u h k ++ [SEnt s w])) (SCnt n).
Proof.
  intros. unfold bound_set. simpl. unfold hidx. simpl.
  destruct (Nat.ltb (pmax u) k); destruct (dl && Nat.ltb (bnd u (N.to_nat (h mod cap u))) k); reflexivity.
Qed.
Lemma bound_ents : forall u h k, ents (app u (bound_set dl u h k)) = ents u /\ cap (app u (bound_set dl u h k)) = cap u /\ nent (app u (bound_set dl u h k)) = nent u.
Proof.
  intros. unfold bound_set. simpl. unfold hidx. simpl.
  destruct (Nat.ltb (pmax u) k); destruct (dl && Nat.ltb (bnd u (N.to_nat (h mod cap u))) k); auto.
Qed.
Lemma place_inv : forall u x s n, Inv u -> valid x -> fresh x (contents u) ->
  place ub (S (plim u)) u (hf x) (pinit u (hf x) (plim u)) = Some (s, n) ->
  let u1 := app u [SEnt s (marshal x (hf x)); SCnt (nent u + 1)] in
  let u' := app u1 (bound_set dl u1 (hf x) n) in
  Inv u' /\ Permutation (contents u') (x :: contents u) /\ cap u' = cap u.
Proof.
  intros u x s n (C & U & NE) V F P u1 u'.
  pose proof (place_ok ub (S (plim u)) u (hf x) (pinit u (hf x) (plim u)) (stok_init ub u (hf x) (plim u)) (Nat.le_0_l _)) as PO.
  rewrite P in PO. destruct PO as (q & EN & ES & LE & Z & NP); [intros p X; simpl in X; lia|]. subst n.
  assert (SL : s < ncap u) by (subst s; apply pi_lt, C).
  assert (E : eff (contents u) (x :: contents u) u (bound_set dl u (hf x) (S q) ++ [SEnt s (marshal x (hf x))])).
  { apply eff_bound; auto. intros m1 C1 OQ E1 E2 E3 E4 E5. apply (eff_put dl pp hf cmp ub CT _ m1 x s q); auto.
    - rewrite E3; auto. - rewrite E3; auto. - rewrite E3; auto. - unfold ncap. rewrite E1. auto.
    - rewrite (pi_cap ub u); auto. - intros r R. rewrite E2, (pi_cap ub u) by auto. apply NP; auto.
    - rewrite E2, Z. reflexivity. }
  unfold u', u1. rewrite put_swap. set (v := app u (bound_set dl u (hf x) (S q) ++ [SEnt s (marshal x (hf x))])) in *.
  destruct E as (_ & EC & EU & EP & EK).
  assert (K : contents (app1 v (SCnt (nent u + 1))) = contents v) by (apply contents_ents; auto).
  split; [|rewrite K; auto]. split; [apply core_cnt; auto|]. rewrite K. split; auto.
  unfold v. rewrite (Permutation_length EP). simpl. rewrite NE. lia.
Qed.

Lemma rehash_ok : forall m ks u u', Core m -> (forall s, In s ks -> s < ncap m) ->
  uniq (map val (filter live (map (ents m) ks)) ++ contents u) -> Inv u ->
  rehash dl pp hf ub m u ks = Some u' ->
  Inv u' /\ Permutation (contents u') (map val (filter live (map (ents m) ks)) ++ contents u) /\ cap u' = cap u.
Proof.
  intros m. induction ks as [|k ks IH]; intros u u' C SL U I H; cbn [rehash] in H.
  - inversion H; subst. auto.
  - simpl. simpl in U. destruct (live (ents m k)) eqn:LV.
    2: { apply IH; auto. intros s S. apply SL. right; auto. }
    simpl in U. destruct (place ub (S (plim u)) u (hf (val (ents m k))) (pinit u (hf (val (ents m k))) (plim u))) as [[s n]|] eqn:EP; [|discriminate].
    set (x := val (ents m k)) in *.
    assert (SK : k < ncap m) by (apply SL; left; auto).
    destruct (proj2 (proj2 C) k SK LV) as (V & M & _). fold x in V, M.
    assert (F : fresh x (contents u)).
    { intros y IY. apply (U x _ (Permutation_refl _)). apply in_or_app; auto. }
    rewrite M in H. destruct (place_inv u x s n I V F EP) as (I' & P' & C').
    apply IH in H; auto.
    + destruct H as (H1 & H2 & H3). split; auto. split; [|congruence]. rewrite H2, P'. symmetry. apply Permutation_middle.
    + intros t T. apply SL. right; auto.
    + eapply uniq_perm; [|exact U]. rewrite P'. simpl. rewrite <- Permutation_middle. auto.
Qed.
Lemma contents_slots : forall m, map val (filter live (map (ents m) (slots m))) = contents m.
Proof. reflexivity. Qed.

Lemma grow_loop_ok : forall f m al c, Inv m ->
  match grow_loop dl pp hf ub oracle f m al c with
  | Ret tr al' b => al <= al' /\ if b then exists u, tr = [SMap u] /\ Inv u /\ Permutation (contents u) (contents m) else tr = []
  | Loop => True
  | Bad => False
  end.
Proof.
  induction f; intros m al c I; simpl; auto.
  destruct (N.ltb c (cap m)); [split; auto|].
  destruct (oracle al) as [g|]; [|split; auto].
  destruct (rehash dl pp hf ub m (create g c) (slots m)) as [u|] eqn:R.
  - split; auto. exists u. split; auto. apply rehash_ok in R.
    + destruct R as (R1 & R2 & _). split; auto. rewrite R2, create_contents, app_nil_r. auto.
    + apply I. + intros s S. apply in_seq in S. unfold ncap. lia.
    + rewrite create_contents, app_nil_r. apply I.
    + apply create_inv.
  - specialize (IHf m (S al) ((c * 2) mod 2 ^ 64)%N I). simpl in IHf.
    destruct (grow_loop dl pp hf ub oracle f m (S al) _); auto. destruct IHf as (L & X). split; auto. lia.
Qed.
Lemma grow_ok : forall m al c, Inv m ->
  match grow dl pp hf ub oracle m al c with
  | Ret tr al' b => al <= al' /\ if b then exists u, tr = [SMap u] /\ Inv u /\ Permutation (contents u) (contents m) else tr = []
  | Loop => True
  | Bad => False
  end.
Proof. intros. apply grow_loop_ok. auto. Qed.
Lemma grow_loop_S : forall f m al c, grow_loop dl pp hf ub oracle (S f) m al c =
  if N.ltb c (cap m) then Ret [] al false
  else match malloc oracle al with
  | (None, al) => Ret [] al false
  | (Some g, al) =>
      match rehash dl pp hf ub m (create g c) (slots m) with
      | Some u => Ret [SMap u] al true
      | None => grow_loop dl pp hf ub oracle f m al (c * 2 mod 2 ^ 64)%N
      end
  end.
Proof. reflexivity. Qed.
Lemma grow_loop_fuel : forall j f m al c, (0 < cap m)%N -> (c < 2 ^ 64)%N -> ((c * 2 ^ N.of_nat j) mod 2 ^ 64 = 0)%N -> j < f ->
  grow_loop dl pp hf ub oracle f m al c <> Loop.
Proof.
  induction j; intros f m al c CP CB Z L.
  - destruct f; [lia|]. cbn [grow_loop]. change (N.of_nat 0) with 0%N in Z. rewrite N.pow_0_r, N.mul_1_r, N.mod_small in Z by auto. subst.
    rewrite (proj2 (N.ltb_lt _ _) CP). discriminate.
  - destruct f; [lia|]. cbn [grow_loop]. destruct (N.ltb c (cap m)); [discriminate|]. unfold malloc.
    destruct (oracle al) as [g|]; [|discriminate]. destruct (rehash dl pp hf ub m (create g c) (slots m)); [discriminate|].
    apply IHj; auto; try lia.
    + apply N.mod_lt. discriminate.
    + rewrite N.mul_mod_idemp_l by discriminate. rewrite <- Z. f_equal. rewrite Nat2N.inj_succ, N.pow_succ_r'. lia.
Qed.
Lemma grow_not_loop : forall m al c, (0 < cap m)%N -> grow dl pp hf ub oracle m al c <> Loop.
Proof.
  intros m al c CP. unfold grow. rewrite (grow_loop_S 65).
  destruct (N.ltb c (cap m)); [discriminate|]. unfold malloc.
  destruct (oracle al) as [g|]; [|discriminate]. destruct (rehash dl pp hf ub m (create g c) (slots m)); [discriminate|].
  apply (grow_loop_fuel 64); auto; try lia.
  - apply N.mod_lt. discriminate.
  - change (N.of_nat 64) with 64%N. apply N.mod_mul. discriminate.
Qed.

Notation failed := (failed oracle).
Lemma grow_loop_failed : forall f m al e tr al', (e < 64)%N -> (cap m <= 2 ^ e)%N ->
  grow_loop dl pp hf ub oracle f m al (2 ^ e) = Ret tr al' false -> (exists j, al <= j < al' /\ oracle j = None) \/ al + (64 - N.to_nat e) <= al'.
Proof.
  induction f; intros m al e tr al' E C H; [discriminate|]. cbn [grow_loop] in H.
  rewrite (proj2 (N.ltb_ge _ _) C) in H. unfold malloc in H. destruct (oracle al) as [g|] eqn:O.
  2: { inversion H; subst. left. exists al. split; auto. }
  destruct (rehash dl pp hf ub m (create g (2 ^ e)) (slots m)); [discriminate|].
  destruct (N.eq_dec e 63) as [X | X].
  - subst e. change ((2 ^ 63 * 2) mod 2 ^ 64)%N with 0%N in H. right.
    destruct f; [discriminate|]. cbn [grow_loop] in H. destruct (N.ltb_spec 0 (cap m)) as [L | L].
    + inversion H; subst. change (N.to_nat 63) with 63. lia.
    + assert (Z : cap m = 0%N) by lia. clear - H Z O IHf. rename H into H. 
      assert (G : forall f al tr al' , grow_loop dl pp hf ub oracle f m al 0 = Ret tr al' false -> al <= al').
      { clear - Z. induction f; intros al tr al' H; [discriminate|]. cbn [grow_loop] in H.
        destruct (N.ltb 0 (cap m)); [inversion H; auto|]. unfold malloc in H. destruct (oracle al); [|inversion H; auto].
        destruct (rehash dl pp hf ub m (create n 0) (slots m)); [discriminate|]. apply IHf in H. lia. }
      change (N.to_nat 63) with 63.
      assert (S al <= al').
      { apply (G (S f) (S al) tr al'). cbn [grow_loop]. rewrite (proj2 (N.ltb_ge 0 (cap m))) by lia. exact H. }
      lia.
  - replace ((2 ^ e * 2) mod 2 ^ 64)%N with (2 ^ (e + 1))%N in H.
    + apply IHf in H; [|lia|].
      * destruct H as [(j & J & OJ) | H]; [left; exists j; split; auto; lia | right; lia].
      * rewrite N.pow_add_r. change (2 ^ 1)%N with 2%N. lia.
    + rewrite N.pow_add_r. change (2 ^ 1)%N with 2%N. rewrite N.mod_small; auto.
      replace (2 ^ e * 2)%N with (2 ^ (N.succ e))%N by (rewrite N.pow_succ_r'; lia). apply N.pow_lt_mono_r; lia.
Qed.
Lemma grow2_failed : forall m al tr al', wf m -> grow dl pp hf ub oracle m al (cap m * 2) = Ret tr al' false -> failed al al'.
Proof.
  intros m al tr al' (k & K & E) H. unfold grow in H. rewrite E in H.
  replace (2 ^ k * 2)%N with (2 ^ (k + 1))%N in H by (rewrite N.pow_add_r; reflexivity).
  apply grow_loop_failed in H; [|lia|].
  - destruct H as [H | H]; [left; auto | right; lia].
  - rewrite E. apply N.pow_le_mono_r; lia.
Qed.

(** ** Outcomes *)
Definition okx {R : Type} (A : list N) (A1 : R -> list N) (L : nat -> R -> nat -> Prop) (m : hmap) (al : nat) (x : out R) : Prop :=
  match x with
  | Ret tr al' r => wtr A (A1 r) m tr /\ Inv (app m tr) /\ Permutation (contents (app m tr)) (A1 r) /\ L al r al' /\ al <= al'
  | Loop => True
  | Bad => False
  end.
Lemma wtr_swap : forall A A1 m u tr, Inv u -> Permutation (contents u) A -> wtr A A1 u tr -> wtr A A1 m (SMap u :: tr).
Proof.
  intros A A1 m u tr (C & _) P W. apply w_map; auto.
  - intros x X. apply in_or_app. left. rewrite <- P. auto.
  - intros k V M _. unfold Hs_Spec.mem in *. apply existsb_exists in M. destruct M as (x & X & S). apply existsb_exists. exists x.
    split; auto. rewrite P. auto.
Qed.
Lemma wtr_swap' : forall A A1 m u tr, Inv u -> Permutation (contents u) A1 -> wtr A A1 u tr -> wtr A A1 m (SMap u :: tr).
Proof.
  intros A A1 m u tr (C & _) P W. apply w_map; auto.
  - intros x X. apply in_or_app. right. rewrite <- P. auto.
  - intros k V _ M. unfold Hs_Spec.mem in *. apply existsb_exists in M. destruct M as (x & X & S). apply existsb_exists. exists x.
    split; auto. rewrite P. auto.
Qed.
Lemma okx_after : forall (R : Type) A (A1 : R -> list N) (L : nat -> R -> nat -> Prop) m u al al1 x, Inv u -> Permutation (contents u) A -> al <= al1 ->
  (forall r al', L al1 r al' -> L al r al') -> okx A A1 L u al1 x -> okx A A1 L m al (after [SMap u] x).
Proof.
  intros R A A1 L m u al al1 x I P LE ML H. destruct x; simpl in *; auto.
  destruct H as (H1 & H2 & H3 & H4 & H5). split; [apply wtr_swap; auto|]. split; auto. split; auto. split; auto. lia.
Qed.
Lemma post_ok : forall (T : Type) A A1 m tr al (r : T), wf m -> eff A A1 m tr -> (nent (app m tr) + 1)%N = N.of_nat (length A1) ->
  match postinsert dl pp hf ub oracle m tr al r with
  | Ret tr' al' r' => r' = r /\ wtr A A1 m tr' /\ Inv (app m tr') /\ Permutation (contents (app m tr')) A1 /\ al <= al'
  | _ => False
  end.
Proof.
  intros T A A1 m tr al r W (E1 & E2 & E3 & E4 & E5) NE. unfold postinsert. rewrite NE.
  set (m1 := app m (tr ++ [SCnt (N.of_nat (length A1))])).
  assert (EM : m1 = app1 (app m tr) (SCnt (N.of_nat (length A1)))) by (unfold m1; rewrite app_app; reflexivity).
  assert (EC : contents m1 = contents (app m tr)) by (rewrite EM; apply contents_ents; auto).
  assert (C1 : Core m1) by (rewrite EM; apply core_cnt; auto).
  assert (I1 : Inv m1).
  { split; auto. rewrite EC. split; auto. rewrite EM. simpl. rewrite (Permutation_length E4). reflexivity. }
  assert (W1 : wtr A A1 m (tr ++ [SCnt (N.of_nat (length A1))])).
  { apply wtr_app; auto. apply w_quiet; [exact Logic.I | rewrite EM in C1; exact C1 | constructor]. }
  destruct (N.ltb (cap m) (N.of_nat (length A1) * 2)).
  - pose proof (grow_ok m1 al (cap m * 2) I1) as G. pose proof (grow_not_loop m1 al (cap m * 2)) as GL.
    destruct (grow dl pp hf ub oracle m1 al (cap m * 2)) as [tr2 al2 b| |]; [|apply GL; auto; apply wf_pos, C1|contradiction].
    destruct G as (L & G). destruct b.
    + destruct G as (u & ET & IU & PU). subst tr2. split; auto. rewrite app_app. simpl. fold m1.
      assert (PA : Permutation (contents u) A1) by (rewrite PU, EC; auto).
      split; [|auto]. apply wtr_app; auto. apply wtr_swap'; auto. constructor.
    + subst tr2. rewrite app_nil_r. split; auto. split; auto. split; auto. split; auto. fold m1. rewrite EC. auto.
  - split; auto. split; auto. split; auto. split; auto. fold m1. rewrite EC. auto.
Qed.

Lemma find_split : forall m s, s < ncap m -> live (ents m s) = true -> exists R, Permutation (contents m) (val (ents m s) :: R).
Proof.
  intros m s L V. apply perm_in. apply in_contents. exists s. auto.
Qed.
Lemma len_perm : forall (A B : list N), Permutation A B -> length A = length B.
Proof. intros. apply Permutation_length; auto. Qed.

(** ** put *)
Definition putL (k : N) (A : list N) (al : nat) (r : bool) (al' : nat) : Prop := if r then mem k A = false else mem k A = true \/ failed al al'.
Lemma failed_le : forall a b c, a <= b -> failed b c -> failed a c.
Proof. intros a b c L [(j & J & O) | H]; [left; exists j; split; auto; lia | right; lia]. Qed.

Lemma probe_ins : forall m k b, Core m -> exists r, probe dl pp cmp ub m (hf k) k (plim m) b = Some r /\
  pspec m (hf k) k (match b with BInsert => bound_get dl m (hf k) | _ => plim m end) (plim m) b r.
Proof. intros m k b C. apply probe_ok. apply bound_lim, C. Qed.
Lemma probe_bnd : forall m k, Core m -> exists r, probe dl pp cmp ub m (hf k) k (bound_get dl m (hf k)) BProbe = Some r /\
  pspec m (hf k) k (bound_get dl m (hf k)) (bound_get dl m (hf k)) BProbe r.
Proof. intros m k C. apply (probe_ok dl pp cmp ub m (hf k) k (bound_get dl m (hf k)) BProbe). auto. Qed.

(** storing [k], absent, at the destination of a probe *)
Lemma ins_eff : forall A m k b lim opl r s q, Inv m -> Permutation (contents m) A -> valid k -> fresh k (contents m) -> opl <= plim m ->
  pspec m (hf k) k lim opl b r -> r_obj r = 0%N -> dest r = Some s -> r_np r = S q -> s = pi m (hf k) q -> s < ncap m ->
  noempty m (hf k) q -> q < opl ->
  eff A (k :: A) m (bound_set dl m (hf k) (S q) ++ [SEnt s (marshal k (hf k))]) /\
  (nent (app m (bound_set dl m (hf k) (S q) ++ [SEnt s (marshal k (hf k))])) + 1)%N = N.of_nat (length (k :: A)).
Proof.
  intros A m k b lim opl r s q I P VK F LO PS Z D NP ES SL NE QL. pose proof I as (C & U & NN).
  split.
  - apply eff_bound; auto; [lia|]. intros m1 C1 OQ E1 E2 E3 E4 E5. apply (eff_put dl pp hf cmp ub CT _ m1 k s q); auto.
    + rewrite E3; auto. + rewrite E3; auto. + rewrite E3; auto. + unfold ncap. rewrite E1. auto.
    + rewrite (pi_cap ub m); auto. + intros x X. rewrite E2, (pi_cap ub m) by auto. apply NE; auto.
    + rewrite E2. eapply dest_dead; eauto.
  - rewrite app_app. simpl. destruct (bound_ents m (hf k) (S q)) as (_ & _ & B). rewrite B, NN, (len_perm _ _ P). lia.
Qed.

Lemma put_ok : forall f m al k b A, Inv m -> Permutation (contents m) A -> valid k -> (b = BInsert \/ b = BTomb /\ fresh k A) ->
  okx A (fun r : bool => if r then k :: A else A) (putL k A) m al (put_loop dl pp hf cmp ub oracle f m al k b).
Proof.
  induction f; intros m al k b A I P VK HB; [exact Logic.I|]. cbn [put_loop].
  pose proof I as (C & U & NE).
  destruct (probe_ins m k b C) as (r & EP & PS). rewrite EP.
  assert (AB : r_obj r = 0%N -> fresh k (contents m)).
  { intros Z. destruct HB as [E | (E & F)]; subst b.
    - eapply absent_info; eauto. discriminate.
    - apply (fresh_perm cmp k A); auto. symmetry; auto. }
  pose proof (dest_info pp cmp ub m (hf k) k _ _ _ r (proj1 C) PS) as DI.
  destruct (dest r) as [s|] eqn:ED.
  - destruct DI as (q & NP & ES & SL & NO & QL & _).
    assert (BR : forall (x y : out bool), match r_cur r, r_pr r with None, None => x | _, _ => y end = y).
    { intros. unfold dest in ED. destruct (r_cur r); auto. destruct (r_pr r); auto. discriminate. }
    rewrite BR. destruct (N.eqb_spec (r_obj r) 0) as [Z | Z].
    + fold (dest r). rewrite ED, NP. 
      destruct (ins_eff A m k b _ _ r s q I P VK (AB Z) (le_n _) PS Z ED NP ES SL NO QL) as (EF & CN).
      pose proof (post_ok bool A (k :: A) m _ al true (proj1 C) EF CN) as PO.
      destruct (postinsert dl pp hf ub oracle m (bound_set dl m (hf k) (S q) ++ [SEnt s (marshal k (hf k))]) al true) as [tr' al' r'| |]; try contradiction.
      destruct PO as (ER & W & IV & PC & LE). subst r'. repeat (split; auto).
      unfold putL. apply fresh_mem. apply (fresh_perm cmp k (contents m)); auto.
    + destruct (found_info dl pp hf cmp ub CT m k _ _ _ r C VK PS Z) as (n & s' & np & _ & _ & S' & LV & EV & SM & VX & _).
      simpl. split; [constructor|]. split; auto. split; auto. split; [|auto]. left.
      destruct (find_split m s' S' LV) as (R & PR). rewrite EV in PR.
      apply (found_mem cmp k (r_obj r) A R); auto. rewrite <- P. auto.
  - destruct DI as (D1 & D2). rewrite D1, D2.
    pose proof (grow_ok m al (cap m * 2) I) as G. pose proof (grow2_failed m al) as GF.
    destruct (grow dl pp hf ub oracle m al (cap m * 2)) as [tr al1 [|]| |]; auto; destruct G as (LE & G).
    + destruct G as (u & ET & IU & PU). subst tr. apply (okx_after bool A _ _ m u al al1); auto.
      * rewrite PU; auto.
      * intros r0 al' H. unfold putL in *. destruct r0; auto. destruct H; auto. right. eapply failed_le; eauto.
      * apply IHf; auto. rewrite PU; auto.
    + subst tr. simpl. split; [constructor|]. split; auto. split; auto. split; auto. right. eapply GF; eauto. apply C.
Qed.

(** ** replacing *)
Lemma install_0 : forall h w r s, r_obj r = 0%N -> dest r = Some s -> install h w r = Some [SEnt s w].
Proof.
  intros h w r s Z D. unfold install, dest in *. rewrite Z. simpl. destruct (r_pr r) as [f|].
  - inversion D; subst. destruct (r_cur r); auto.
  - destruct (r_cur r); inversion D; subst; auto.
Qed.
(** the position of the destination is within the bounds already *)
Lemma found_okq : forall m k lim opl b r, Core m -> valid k -> pspec m (hf k) k lim opl b r -> r_obj r <> 0%N ->
  exists s q, dest r = Some s /\ r_np r = S q /\ s = pi m (hf k) q /\ noempty m (hf k) q /\ q < opl /\ okq m (hf k) q /\ s < ncap m.
Proof.
  intros m k lim opl b r C VK PS Z.
  destruct (found_info dl pp hf cmp ub CT m k _ _ _ r C VK PS Z) as (n & s & np & RC & ES & SL & LV & EV & SM & VX & NL & CL & FT & NP).
  destruct (proj2 (proj2 C) s SL LV) as (_ & M & q0 & Q1 & Q2 & Q3). rewrite EV in *.
  assert (EH : hf (r_obj r) = hf k) by (apply (c_hash _ _ _ CT); auto). rewrite EH in *.
  assert (NQ : n <= q0).
  { destruct (Nat.le_gt_cases n q0) as [|G]; auto. exfalso. destruct (CL q0 G) as (_ & F). rewrite Q1 in F. specialize (F LV).
    rewrite M, <- EH in F. rewrite EH in F at 2. rewrite (match_same pp hf cmp CT) in F; auto. congruence. }
  unfold dest. destruct (r_pr r) as [f|]; simpl in FT, NP.
  - destruct FT as (p & PL & E & T & NPP & _). exists f, p. split; auto. split; [congruence|]. split; auto.
    split; [apply (clear_noempty pp cmp ub m (hf k) k n); auto; lia|]. split; [lia|]. split; [apply (okq_le dl m (hf k) q0); auto; lia|].
    subst; apply pi_lt, C.
  - exists s, n. rewrite RC. split; auto. split; auto. split; auto.
    split; [apply (clear_noempty pp cmp ub m (hf k) k n); auto|]. split; [lia|]. split; [apply (okq_le dl m (hf k) q0); auto|]. auto.
Qed.
Lemma inst_found : forall A m m1 k d lim opl b r q, Core m -> uniq (contents m) -> Permutation (contents m) A ->
  valid k -> valid d -> same d k = true -> pspec m (hf k) k lim opl b r -> r_obj r <> 0%N -> r_np r = S q ->
  Core m1 -> cap m1 = cap m -> ents m1 = ents m -> contents m1 = contents m -> okq m1 (hf k) q ->
  exists tr, install (hf k) (marshal d (hf k)) r = Some tr /\ eff A (d :: del k A) m1 tr /\ nent (app m1 tr) = nent m1.
Proof.
  intros A m m1 k d lim opl b r q C U P VK VD SD PS Z NPQ C1 E1 E2 E3 OQ.
  destruct (found_info dl pp hf cmp ub CT m k _ _ _ r C VK PS Z) as (n & s & np & RC & ES & SL & LV & EV & SM & VX & NL & CL & FT & NP).
  destruct (find_split m s SL LV) as (R & PR). rewrite EV in PR.
  assert (EH : hf k = hf d) by (symmetry; apply (c_hash _ _ _ CT); auto).
  assert (VA : forall y, In y A -> valid y).
  { intros y Y. apply (core_valid dl pp hf ub m); auto. rewrite P. auto. }
  assert (PD : Permutation (del k A) R).
  { apply (found_del pp hf cmp CT k (r_obj r) A R); auto. - apply (uniq_perm cmp (contents m)); auto. - rewrite <- P. auto. }
  assert (SX : same (r_obj r) d = true).
  { apply (c_trans _ _ _ CT _ k); auto. rewrite (same_sym pp hf cmp CT); auto. }
  assert (NM : ncap m1 = ncap m) by (unfold ncap; congruence).
  unfold install. rewrite RC. destruct (N.eqb_spec (r_obj r) 0); [contradiction|].
  destruct (r_pr r) as [f|]; simpl in FT, NP.
  - destruct FT as (p & PL & E & T & NPP & _). eexists. split; [reflexivity|]. rewrite EH. split; [|reflexivity].
    assert (QP : q = p) by lia. subst q.
    apply (eff_move dl pp hf cmp ub CT A _ m1 d f s p (r_obj r) R); rewrite ?NM, ?E2, ?E3, <- ?EH; auto.
    + rewrite E. apply pi_lt, C.
    + rewrite (pi_cap ub m); auto.
    + intros x X. rewrite E2, (pi_cap ub m) by auto. apply (CL x). lia.
  - eexists. split; [reflexivity|]. rewrite EH. split; [|reflexivity].
    apply (eff_rep dl pp hf cmp ub CT A _ m1 d s (r_obj r) R); rewrite ?NM, ?E2, ?E3; auto.
Qed.
Lemma eff_inv : forall A A1 m tr, eff A A1 m tr -> nent (app m tr) = N.of_nat (length A1) ->
  wtr A A1 m tr /\ Inv (app m tr) /\ Permutation (contents (app m tr)) A1.
Proof.
  intros A A1 m tr (E1 & E2 & E3 & E4 & E5) NE. split; auto. split; auto. split; auto. split; auto.
  rewrite NE, (len_perm _ _ E4). reflexivity.
Qed.
Lemma found_facts : forall A m k lim opl b r, Inv m -> Permutation (contents m) A -> valid k -> pspec m (hf k) k lim opl b r -> r_obj r <> 0%N ->
  mem k A = true /\ obj k A = r_obj r /\ length A = S (length (del k A)) /\ nent m = N.of_nat (S (length (del k A))).
Proof.
  intros A m k lim opl b r (C & U & NE) P VK PS Z.
  destruct (found_info dl pp hf cmp ub CT m k _ _ _ r C VK PS Z) as (n & s & np & RC & ES & SL & LV & EV & SM & VX & NL & CL & FT & NP).
  destruct (find_split m s SL LV) as (R & PR). rewrite EV in PR.
  assert (VA : forall y, In y A -> valid y).
  { intros y Y. apply (core_valid dl pp hf ub m); auto. rewrite P. auto. }
  assert (UA : uniq A) by (apply (uniq_perm cmp (contents m)); auto).
  assert (PA : Permutation A (r_obj r :: R)) by (rewrite <- P; auto).
  assert (PD : Permutation (del k A) R) by (apply (found_del pp hf cmp CT k (r_obj r) A R); auto).
  assert (LE : length A = S (length (del k A))) by (rewrite (len_perm _ _ PA), (len_perm _ _ PD); reflexivity).
  split; [apply (found_mem cmp k (r_obj r) A R); auto|]. split; [apply (found_obj pp hf cmp CT k (r_obj r) A R); auto|]. split; auto.
  rewrite NE, (len_perm _ _ P), LE. reflexivity.
Qed.
Lemma absent_facts : forall A m k, Permutation (contents m) A -> fresh k (contents m) -> mem k A = false /\ obj k A = 0%N /\ del k A = A.
Proof.
  intros A m k P F. assert (FA : fresh k A) by (apply (fresh_perm cmp k (contents m)); auto).
  split; [apply fresh_mem; auto|]. split; [apply fresh_obj; auto | apply fresh_del; auto].
Qed.

(** ** set *)
Definition setL (k : N) (A : list N) (al : nat) (r : bool * N) (al' : nat) : Prop :=
  snd r = obj k A /\ (fst r = false -> mem k A = false /\ failed al al').
Lemma cur_pr : forall (T : Type) r (x y : T), match r_cur r, r_pr r with None, None => x | _, _ => y end = match dest r with None => x | Some _ => y end.
Proof. intros. unfold dest. destruct (r_pr r), (r_cur r); auto. Qed.
Definition apL (k : N) (A : list N) (al : nat) (r : bool) (al' : nat) : Prop := r = false -> mem k A = false /\ failed al al'.
Ltac fin := unfold setL, apL; simpl fst; simpl snd; repeat match goal with |- _ /\ _ => split end; try solve [auto]; try (intros X; discriminate X); try solve [auto; congruence].
Lemma set_ok : forall f m al k A, Inv m -> Permutation (contents m) A -> valid k ->
  okx A (fun r : bool * N => if fst r then k :: del k A else A) (setL k A) m al (set dl pp hf cmp ub oracle f m al k).
Proof.
  induction f; intros m al k A I P VK; [exact Logic.I|]. cbn [set]. pose proof I as (C & U & NE).
  destruct (probe_ins m k BInsert C) as (r & EP & PS). rewrite EP, cur_pr.
  assert (AB : r_obj r = 0%N -> fresh k (contents m)).
  { intros Z. eapply absent_info; eauto. discriminate. }
  pose proof (dest_info pp cmp ub m (hf k) k _ _ _ r (proj1 C) PS) as DI.
  destruct (dest r) as [s|] eqn:ED.
  - destruct DI as (q & NP & ES & SL & NO & QL & _). rewrite NP.
    destruct (N.eqb_spec (r_obj r) 0) as [Z | Z].
    + rewrite (install_0 _ _ _ s Z ED).
      destruct (ins_eff A m k BInsert _ _ r s q I P VK (AB Z) (le_n _) PS Z ED NP ES SL NO QL) as (EF & CN).
      destruct (absent_facts A m k P (AB Z)) as (A1 & A2 & A3).
      pose proof (post_ok (bool * N) A (k :: A) m _ al (true, 0%N) (proj1 C) EF CN) as PO.
      destruct (postinsert dl pp hf ub oracle m (bound_set dl m (hf k) (S q) ++ [SEnt s (marshal k (hf k))]) al (true, 0%N)) as [tr' al' r'| |]; try contradiction.
      destruct PO as (ER & W & IV & PC & LE). subst r'. unfold okx. simpl fst. rewrite A3. fin.
    + destruct (found_facts A m k _ _ _ r I P VK PS Z) as (F1 & F2 & F3 & F4).
      destruct (bound_set_ok dl pp hf cmp ub m (hf k) q C QL) as (LB & LM & OQ & NB & _ & WB).
      destruct (le_b_core dl pp hf ub m _ C LB LM) as (C1 & EC). pose proof LB as (L1 & L2 & L3 & L4).
      destruct (inst_found A m _ k k _ _ _ r q C U P VK VK (same_refl cmp k) PS Z NP C1 L1 L2 EC OQ) as (tr & EI & EF & EN).
      rewrite EI.
      assert (EE : eff A (k :: del k A) m (bound_set dl m (hf k) (S q) ++ tr)).
      { destruct EF as (G1 & G2 & G3 & G4 & G5). unfold HsOps_Proof.eff. rewrite app_app. split; [apply wtr_app; auto|]. repeat (split; auto). congruence. }
      destruct (eff_inv _ _ _ _ EE) as (H1 & H2 & H3).
      { rewrite app_app, EN, NB. simpl length. rewrite F4. reflexivity. }
      unfold okx. simpl fst. fin.
  - pose proof (grow_ok m al (cap m * 2) I) as G. pose proof (grow2_failed m al) as GF.
    destruct (grow dl pp hf ub oracle m al (cap m * 2)) as [tr al1 [|]| |]; auto; destruct G as (LE & G).
    + destruct G as (u & ET & IU & PU). subst tr. apply (okx_after (bool * N) A _ _ m u al al1); auto.
      * rewrite PU; auto.
      * intros r0 al' (H1 & H2). split; auto. intros X. destruct (H2 X). split; auto. eapply failed_le; eauto.
      * apply IHf; auto. rewrite PU; auto.
    + subst tr.
      assert (Z : r_obj r = 0%N).
      { destruct (N.eq_dec (r_obj r) 0) as [|Z]; auto. destruct (found_okq m k _ _ _ r C VK PS Z) as (s & q & D & _). congruence. }
      destruct (absent_facts A m k P (AB Z)) as (A1 & A2 & A3).
      unfold okx. simpl fst. split; [constructor|]. split; auto. split; auto. split; auto. split; auto. intros _. split; auto. eapply GF; eauto. apply C.
Qed.

(** ** apply *)
Definition apA (k : N) (fn : N -> N) (A : list N) (r : bool) : list N :=
  if r then let d := fn (obj k A) in if N.eqb d 0 then del k A else if N.eqb d (obj k A) then A else d :: del k A else A.
Lemma valid_nz : forall k, valid k -> k <> 0%N.
Proof. intros k V. apply V. Qed.
Lemma del_ok : forall A m k lim opl b r s, Inv m -> Permutation (contents m) A -> valid k -> pspec m (hf k) k lim opl b r -> r_obj r <> 0%N ->
  r_cur r = Some s ->
  let tr := [SEnt s TOMB; SCnt (nent m - 1); STmb ((tmb m + 1) mod 2 ^ 32)] in
  wtr A (del k A) m tr /\ Inv (app m tr) /\ Permutation (contents (app m tr)) (del k A).
Proof.
  intros A m k lim opl b r s I P VK PS Z RS tr. pose proof I as (C & U & NE).
  destruct (found_facts A m k _ _ _ r I P VK PS Z) as (F1 & F2 & F3 & F4).
  destruct (found_info dl pp hf cmp ub CT m k _ _ _ r C VK PS Z) as (n & s' & np & RC & ES & SL & LV & EV & SM & VX & NL & CL & FT & NP).
  assert (SS : s' = s) by congruence. clear ES. subst s'.
  destruct (find_split m s SL LV) as (R & PR). rewrite EV in PR.
  assert (VA : forall y, In y A -> valid y).
  { intros y Y. apply (core_valid dl pp hf ub m); auto. rewrite P. auto. }
  assert (UA : uniq A) by (apply (uniq_perm cmp (contents m)); auto).
  assert (PA : Permutation A (r_obj r :: R)) by (rewrite <- P; auto).
  assert (PD : Permutation (del k A) R) by (apply (found_del pp hf cmp CT k (r_obj r) A R); auto).
  destruct (eff_del dl pp hf cmp ub A (del k A) m s (r_obj r) R C U SL LV EV PR PD) as (E1 & E2 & E3 & E4 & E5).
  set (m1 := app m [SEnt s TOMB]) in *.
  assert (C2 : Core (app1 m1 (SCnt (nent m - 1)))) by (apply core_cnt; auto).
  assert (C3 : Core (app m tr)) by (change (Core (app1 (app1 m1 (SCnt (nent m - 1))) (STmb ((tmb m + 1) mod 2 ^ 32)))); apply core_tmb; auto).
  assert (EC : contents (app m tr) = contents m1) by (apply contents_ents; auto).
  split; [|rewrite EC; split; auto].
  - change tr with ([SEnt s TOMB] ++ [SCnt (nent m - 1); STmb ((tmb m + 1) mod 2 ^ 32)]). apply wtr_app; auto.
    apply w_quiet; [exact Logic.I | exact C2 |]. apply w_quiet; [exact Logic.I | exact C3 | constructor].
  - split; auto. rewrite EC. split; auto. simpl. rewrite F4, (len_perm _ _ E4). lia.
Qed.
Lemma apply_ok : forall f m al k fn A, Inv m -> Permutation (contents m) A -> valid k ->
  fn (obj k A) = 0%N \/ valid (fn (obj k A)) /\ same (fn (obj k A)) k = true ->
  okx A (apA k fn A) (apL k A) m al (apply dl pp hf cmp ub oracle f m al k fn).
Proof.
  induction f; intros m al k fn A I P VK HF; [exact Logic.I|]. cbn [Hs_Model.apply]. pose proof I as (C & U & NE).
  destruct (probe_ins m k BInsert C) as (r & EP & PS). rewrite EP, cur_pr.
  assert (AB : r_obj r = 0%N -> fresh k (contents m)).
  { intros Z. eapply absent_info; eauto. discriminate. }
  pose proof (dest_info pp cmp ub m (hf k) k _ _ _ r (proj1 C) PS) as DI.
  assert (OB : obj k A = r_obj r).
  { destruct (N.eq_dec (r_obj r) 0) as [Z | Z]; [rewrite Z; apply (absent_facts A m k P (AB Z)) | apply (found_facts A m k _ _ _ r I P VK PS Z)]. }
  destruct (dest r) as [s|] eqn:ED.
  - destruct DI as (q & NP & ES & SL & NO & QL & _). rewrite NP.
    destruct (N.eqb_spec (fn (r_obj r)) 0) as [D0 | D0].
    { destruct (N.eqb_spec (r_obj r) 0) as [Z | Z].
      - destruct (absent_facts A m k P (AB Z)) as (A1 & A2 & A3). unfold okx, apA. rewrite OB, D0, A3. simpl.
        split; [constructor|]. fin.
      - destruct (found_info dl pp hf cmp ub CT m k _ _ _ r C VK PS Z) as (n & s' & np & RC & _). rewrite RC.
        destruct (del_ok A m k _ _ _ r s' I P VK PS Z RC) as (H1 & H2 & H3).
        unfold okx, apA. rewrite OB, D0. simpl N.eqb. cbn iota. fin. }
    destruct (N.eqb_spec (fn (r_obj r)) (r_obj r)) as [D1 | D1].
    { unfold okx, apA. rewrite OB. destruct (N.eqb_spec (fn (r_obj r)) 0); [contradiction|]. rewrite D1, N.eqb_refl.
      split; [constructor|]. fin. }
    rewrite OB in HF. destruct HF as [X | (VD & SD)]; [contradiction|].
    assert (EA : apA k fn A true = fn (r_obj r) :: del k A).
    { unfold apA. rewrite OB. destruct (N.eqb_spec (fn (r_obj r)) 0); [contradiction|]. destruct (N.eqb_spec (fn (r_obj r)) (r_obj r)); [contradiction|]. auto. }
    assert (EH : hf (fn (r_obj r)) = hf k) by (apply (c_hash _ _ _ CT); auto).
    set (d := fn (r_obj r)) in *.
    destruct (N.eqb_spec (r_obj r) 0) as [Z | Z].
    + rewrite (install_0 _ _ _ s Z ED).
      destruct (absent_facts A m k P (AB Z)) as (A1 & A2 & A3).
      assert (FD : fresh d (contents m)).
      { intros y Y. rewrite (same_trans_r pp hf cmp CT d k y); auto. apply (AB Z); auto. apply (core_valid dl pp hf ub m); auto. }
      assert (EF : eff A (d :: A) m (bound_set dl m (hf k) (S q) ++ [SEnt s (marshal d (hf k))])).
      { apply eff_bound; auto. intros m1 C1 OQ E1 E2 E3 E4 E5. rewrite <- EH. apply (eff_put dl pp hf cmp ub CT _ m1 d s q); auto; rewrite ?EH, ?E3; auto.
        + unfold ncap. rewrite E1. auto.
        + rewrite (pi_cap ub m); auto. + intros x X. rewrite E2, (pi_cap ub m) by auto. apply NO; auto.
        + rewrite E2. eapply dest_dead; eauto. }
      assert (CN : (nent (app m (bound_set dl m (hf k) (S q) ++ [SEnt s (marshal d (hf k))])) + 1)%N = N.of_nat (length (d :: A))).
      { rewrite app_app. simpl. destruct (bound_ents m (hf k) (S q)) as (_ & _ & B). rewrite B, NE, (len_perm _ _ P). lia. }
      pose proof (post_ok bool A (d :: A) m _ al true (proj1 C) EF CN) as PO.
      destruct (postinsert dl pp hf ub oracle m (bound_set dl m (hf k) (S q) ++ [SEnt s (marshal d (hf k))]) al true) as [tr' al' r'| |]; try contradiction.
      destruct PO as (ER & W & IV & PC & LE). subst r'. unfold okx. rewrite EA, A3. fin.
    + destruct (found_facts A m k _ _ _ r I P VK PS Z) as (F1 & F2 & F3 & F4).
      destruct (bound_set_ok dl pp hf cmp ub m (hf k) q C QL) as (LB & LM & OQ & NB & _ & WB).
      destruct (le_b_core dl pp hf ub m _ C LB LM) as (C1 & EC). pose proof LB as (L1 & L2 & L3 & L4).
      destruct (inst_found A m _ k d _ _ _ r q C U P VK VD SD PS Z NP C1 L1 L2 EC OQ) as (tr & EI & EF & EN).
      rewrite EI.
      assert (EE : eff A (d :: del k A) m (bound_set dl m (hf k) (S q) ++ tr)).
      { destruct EF as (G1 & G2 & G3 & G4 & G5). unfold HsOps_Proof.eff. rewrite app_app. split; [apply wtr_app; auto|]. repeat (split; auto). congruence. }
      destruct (eff_inv _ _ _ _ EE) as (H1 & H2 & H3).
      { rewrite app_app, EN, NB. simpl length. rewrite F4. reflexivity. }
      unfold okx. rewrite EA. fin.
  - pose proof (grow_ok m al (cap m * 2) I) as G. pose proof (grow2_failed m al) as GF.
    destruct (grow dl pp hf ub oracle m al (cap m * 2)) as [tr al1 [|]| |]; auto; destruct G as (LE & G).
    + destruct G as (u & ET & IU & PU). subst tr. apply (okx_after bool A _ _ m u al al1); auto.
      * rewrite PU; auto.
      * intros r0 al' H2 X. destruct (H2 X). split; auto. eapply failed_le; eauto.
      * apply IHf; auto. rewrite PU; auto.
    + subst tr.
      assert (Z : r_obj r = 0%N).
      { destruct (N.eq_dec (r_obj r) 0) as [|Z]; auto. destruct (found_okq m k _ _ _ r C VK PS Z) as (s & q & D & _). congruence. }
      destruct (absent_facts A m k P (AB Z)) as (A1 & A2 & A3).
      unfold okx. split; [constructor|]. split; auto. split; auto. split; auto. intros _. split; auto. eapply GF; eauto. apply C.
Qed.

(** ** fas, remove, get *)
Lemma fas_ok : forall m al k A, Inv m -> Permutation (contents m) A -> valid k ->
  exists tr r, fas dl pp hf cmp ub m al k = Ret tr al (mem k A, obj k A) /\ r = mem k A /\
  let A1 := if r then k :: del k A else A in wtr A A1 m tr /\ Inv (app m tr) /\ Permutation (contents (app m tr)) A1.
Proof.
  intros m al k A I P VK. unfold fas. pose proof I as (C & U & NE).
  destruct (probe_bnd m k C) as (r & EP & PS). rewrite EP.
  destruct (N.eqb_spec (r_obj r) 0) as [Z | Z].
  - assert (F : fresh k (contents m)) by (eapply absent_info; eauto; discriminate).
    destruct (absent_facts A m k P F) as (A1 & A2 & A3). rewrite A1, A2. exists [], false.
    split; auto. split; auto. split; [constructor|]. auto.
  - destruct (found_facts A m k _ _ _ r I P VK PS Z) as (F1 & F2 & F3 & F4).
    destruct (found_okq m k _ _ _ r C VK PS Z) as (s & q & D & NP & ES & NO & QL & OQ & SL).
    destruct (inst_found A m m k k _ _ _ r q C U P VK VK (same_refl cmp k) PS Z NP C eq_refl eq_refl eq_refl OQ) as (tr & EI & EF & EN).
    rewrite EI, F1, F2. exists tr, true. split; auto. split; auto. apply eff_inv; auto. rewrite EN. simpl. rewrite F4. reflexivity.
Qed.
Lemma remove_ok : forall m al k A, Inv m -> Permutation (contents m) A -> valid k ->
  exists tr, remove dl pp hf cmp ub m al k = Ret tr al (obj k A) /\
  wtr A (del k A) m tr /\ Inv (app m tr) /\ Permutation (contents (app m tr)) (del k A).
Proof.
  intros m al k A I P VK. unfold remove. pose proof I as (C & U & NE).
  destruct (probe_bnd m k C) as (r & EP & PS). rewrite EP.
  destruct (N.eqb_spec (r_obj r) 0) as [Z | Z].
  - assert (F : fresh k (contents m)) by (eapply absent_info; eauto; discriminate).
    destruct (absent_facts A m k P F) as (A1 & A2 & A3). rewrite A2, A3. exists [].
    split; auto. split; [constructor|]. auto.
  - destruct (found_facts A m k _ _ _ r I P VK PS Z) as (F1 & F2 & F3 & F4).
    destruct (found_info dl pp hf cmp ub CT m k _ _ _ r C VK PS Z) as (n & s' & np & RC & _). rewrite RC, F2.
    eexists. split; [reflexivity|]. apply (del_ok A m k _ _ _ r s' I P VK PS Z RC).
Qed.
Lemma get_ok : forall m k A, Inv m -> Permutation (contents m) A -> valid k -> get dl pp hf cmp ub m k = Some (obj k A).
Proof.
  intros m k A I P VK. unfold get. pose proof I as (C & U & NE).
  destruct (probe_bnd m k C) as (r & EP & PS). rewrite EP. simpl. f_equal.
  destruct (N.eq_dec (r_obj r) 0) as [Z | Z].
  - assert (F : fresh k (contents m)) by (eapply absent_info; eauto; discriminate).
    destruct (absent_facts A m k P F) as (A1 & A2 & A3). congruence.
  - destruct (found_facts A m k _ _ _ r I P VK PS Z) as (F1 & F2 & F3 & F4). auto.
Qed.
End O.
