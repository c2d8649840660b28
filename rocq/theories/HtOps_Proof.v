(** Hash table: growing, and the operations on keys. *)
From Coq Require Import Arith NArith List Bool Lia Permutation.
From Verif Require Import Lib Helpers_Model Ht_Model Ht_Spec Ht_Proof HtInv_Proof.
Import ListNotations.

Section O.
Variables (dl bs : bool) (len : N -> N) (memeq : N -> N -> N -> bool) (hf : N -> N) (ub : N -> N -> N) (oracle : nat -> bool).
Variable CT : contract bs len memeq hf.
Notation pi := (pi ub). Notation valid := (valid len). Notation same := (same bs len memeq). Notation lok := (lok bs len).
Notation Core := (Core dl bs len hf ub). Notation Inv := (Inv dl bs len memeq hf ub). Notation okq := (okq dl). Notation noempty := (noempty ub).
Notation posn := (posn dl ub). Notation entok := (entok dl bs len hf ub). Notation okent := (okent bs len hf). Notation wtr := (wtr bs len memeq).
Notation pspec := (pspec bs memeq ub). Notation rspec := (rspec bs memeq ub). Notation clear := (clear bs memeq ub). Notation firstt := (firstt ub).
Notation uniq := (distinct bs len memeq). Notation fresh := (fresh bs len memeq). Notation le_b := (le_b dl).
Notation mem := (mem bs len memeq). Notation del := (del bs len memeq). Notation pair_of := (pair_of bs len memeq).
Notation assoc := (assoc bs len memeq). Notation fits := (fits bs len memeq).
Notation failed := (failed oracle).

(** ** What a probe tells *)
Lemma match_core : forall m s k l, Core m -> live (key m s) = true -> valid k -> lok k l ->
  match_ent bs memeq (ents m s) k l (hf k) = same (key m s) k.
Proof. intros m s k l C LV VK LK. destruct (proj2 (proj2 C) s LV) as ((V & H & L) & _). apply match_same; auto. Qed.
(** a live slot with the key is not passed *)
Lemma not_passed : forall m k l n s, Core m -> valid k -> lok k l -> clear m k l (hf k) n -> live (key m s) = true -> same (key m s) k = true ->
  exists q, pi m (hf k) q = s /\ okq m (hf k) q /\ noempty m (hf k) q /\ n <= q /\ q < 2 * plim m.
Proof.
  intros m k l n s C VK LK CL LV S. pose proof C as (W & PM & CE). destruct (CE s LV) as ((V & EH & EL) & SL & q & Q1 & Q2 & Q3).
  rewrite (c_hash _ _ _ _ CT (key m s) k) in * by auto. exists q. split; auto. split; auto. split; auto.
  split; [|destruct Q2; lia]. destruct (Nat.le_gt_cases n q) as [|G]; auto. exfalso. destruct (CL q G) as (_ & F).
  rewrite Q1, (match_core m s k l) in F by auto. rewrite F in S; auto. discriminate.
Qed.
Lemma absent_clear : forall m k l n, Core m -> valid k -> lok k l -> clear m k l (hf k) n ->
  n = 2 * plim m \/ bound_get dl m (hf k) < n \/ key m (pi m (hf k) n) = 0%N -> fresh k (contents m).
Proof.
  intros m k l n C VK LK CL E y I. destruct (same (fst y) k) eqn:S; auto. exfalso.
  apply in_contents in I. destruct I as (s & SL & LV & EV). subst y. simpl in S.
  destruct (not_passed m k l n s C VK LK CL LV S) as (q & Q1 & Q2 & Q3 & Q4 & Q5).
  pose proof (okq_bound _ _ _ _ Q2). destruct E as [E | [E | E]]; try lia.
  destruct (Nat.eq_dec n q) as [X | X]; [subst; rewrite E in LV; discriminate | apply (Q3 n); auto; lia].
Qed.
Lemma clear_noempty : forall m k l h n p, clear m k l h n -> p <= n -> noempty m h p.
Proof. intros m k l h n p C L r R. apply C. lia. Qed.

(** ** Changes of one slot *)
Definition chg (m m' : tmap) (s : nat) (e : ent) : Prop :=
  le_b m m' /\ pmax m' <= 2 * plim m /\ ents m' s = e /\ forall t, t <> s -> ents m' t = ents m t.
Lemma chg_core : forall m m' s e, Core m -> chg m m' s e -> ek e <> 0%N -> (live (ek e) = true -> entok m' s e) -> Core m'.
Proof.
  intros m m' s e C (L & P & E & O) NZ OK. apply (core_step dl bs len hf ub m); auto.
  - intros t T. destruct (Nat.eq_dec t s) as [X | X]; [subst t; rewrite E; auto | rewrite O; auto].
  - intros t T. destruct (Nat.eq_dec t s) as [X | X]; [subst t; rewrite E in *; auto | left; auto].
Qed.
Lemma chg_contents : forall m m' s e, chg m m' s e -> contents m' = contents (set_ent m s e).
Proof. intros m m' s e ((L & _) & P & E & O). apply contents_ents; auto. intros t _. simpl. upd_goal; subst; auto. Qed.
Lemma lv_live : forall e, live (ek e) = true -> lv e = [kv e].
Proof. intros e L. unfold lv. rewrite L. auto. Qed.
Lemma lv_dead : forall e, live (ek e) = false -> lv e = [].
Proof. intros e L. unfold lv. rewrite L. auto. Qed.
Lemma valid_live : forall k, valid k -> live k = true.
Proof. intros k (A & B & _). apply live_iff. auto. Qed.
Lemma posn_chg : forall m m' s e h q, chg m m' s e -> s = pi m h q -> okq m' h q -> noempty m h q -> ek e <> 0%N -> posn m' s h.
Proof.
  intros m m' s e h q (L & P & E & O) S Q NE NZ. exists q. rewrite (pi_cap ub m) by apply L. split; auto. split; auto.
  intros r R. rewrite (pi_cap ub m) by apply L. destruct (Nat.eq_dec (pi m h r) s) as [X | X]; [rewrite X, E; auto | rewrite O; auto].
Qed.
Lemma ins_inv : forall m m' s e q, Inv m -> chg m m' s e -> okent e -> fresh (ek e) (contents m) ->
  s < ncap m -> s = pi m (hf (ek e)) q -> okq m' (hf (ek e)) q -> noempty m (hf (ek e)) q -> live (key m s) = false -> nent m' = (nent m + 1)%N ->
  Inv m' /\ Permutation (contents m') (kv e :: contents m).
Proof.
  intros m m' s e q (C & U & NE) CH OE F SL ES OQ NO LV EN. pose proof (valid_live _ (proj1 OE)) as LE.
  destruct (contents_upd m s SL) as (R & P & Q). rewrite lv_dead in P by auto. specialize (Q e). rewrite lv_live in Q by auto. simpl in P, Q.
  rewrite <- (chg_contents m m' s e CH) in Q. assert (PK : Permutation (contents m') (kv e :: contents m)) by (rewrite Q, P; auto).
  split; auto. split; [|split].
  - apply (chg_core m m' s e); auto. apply live_iff in LE. apply LE. intros _. split; auto. split.
    { unfold ncap. rewrite (proj1 (proj1 CH)). auto. } apply (posn_chg m m' s e _ q); auto. apply live_iff in LE. apply LE.
  - eapply uniq_perm; [symmetry; exact PK|]. apply (uniq_cons bs len memeq hf CT); auto. apply OE.
    intros y I. apply (core_valid dl bs len hf ub m); auto.
  - rewrite (Permutation_length PK). simpl. rewrite EN, NE. lia.
Qed.
Lemma rep_inv : forall m m' s e R, Inv m -> chg m m' s e -> okent e -> live (key m s) = true -> same (key m s) (ek e) = true ->
  Permutation (contents m) (kv (ents m s) :: R) -> nent m' = nent m ->
  Inv m' /\ Permutation (contents m') (kv e :: R).
Proof.
  intros m m' s e R (C & U & NE) CH OE LV S PR EN. pose proof (valid_live _ (proj1 OE)) as LE.
  destruct (proj2 (proj2 C) s LV) as ((VX & EH & EL) & SL & PO).
  destruct (contents_upd m s SL) as (R' & P & Q). rewrite lv_live in P by auto. specialize (Q e). rewrite lv_live in Q by auto. simpl in P, Q.
  assert (RR : Permutation R R') by (apply (Permutation_cons_inv (a := kv (ents m s))); rewrite <- PR; auto).
  rewrite <- (chg_contents m m' s e CH) in Q. assert (PK : Permutation (contents m') (kv e :: R)) by (rewrite Q, RR; auto).
  split; auto. split; [|split].
  - apply (chg_core m m' s e); auto. apply live_iff in LE. apply LE. intros _. split; auto. split.
    { unfold ncap. rewrite (proj1 (proj1 CH)). auto. }
    rewrite <- (c_hash _ _ _ _ CT (key m s) (ek e)) by (auto; apply OE). apply (posn_mono dl ub m); auto. apply CH.
    intros t T. destruct CH as (_ & _ & E & O). destruct (Nat.eq_dec t s) as [X | X]; [subst t; rewrite E; apply live_iff in LE; apply LE | rewrite O; auto].
  - eapply uniq_perm; [symmetry; exact PK|]. apply (uniq_repl bs len memeq hf CT (ek e) (ev e) (kv (ents m s))); auto. apply OE.
    intros y I. apply (core_valid dl bs len hf ub m); auto. rewrite PR. right; auto. apply (uniq_perm bs len memeq (contents m)); auto.
  - rewrite EN, NE, (Permutation_length PK), (Permutation_length PR). reflexivity.
Qed.
Lemma kill_inv : forall m m' s e R, Inv m -> chg m m' s e -> ek e = TOMB -> live (key m s) = true ->
  Permutation (contents m) (kv (ents m s) :: R) -> nent m' = (nent m - 1)%N ->
  Inv m' /\ Permutation (contents m') R.
Proof.
  intros m m' s e R (C & U & NE) CH OE LV PR EN.
  destruct (proj2 (proj2 C) s LV) as ((VX & EH & EL) & SL & PO).
  assert (LE : live (ek e) = false) by (rewrite OE; reflexivity).
  destruct (contents_upd m s SL) as (R' & P & Q). rewrite lv_live in P by auto. specialize (Q e). rewrite lv_dead in Q by auto. simpl in P, Q.
  assert (RR : Permutation R R') by (apply (Permutation_cons_inv (a := kv (ents m s))); rewrite <- PR; auto).
  rewrite <- (chg_contents m m' s e CH) in Q. assert (PK : Permutation (contents m') R) by (rewrite Q, RR; auto).
  split; auto. split; [|split].
  - apply (chg_core m m' s e); auto. rewrite OE. discriminate. congruence.
  - eapply uniq_perm; [symmetry; exact PK|]. apply (uniq_tail bs len memeq (kv (ents m s))). apply (uniq_perm bs len memeq (contents m)); auto.
  - rewrite EN, NE, (Permutation_length PK), (Permutation_length PR). simpl length. lia.
Qed.
(** an entry moved to the tombstone [f], whatever it becomes *)
Lemma move_inv : forall m m' f s e x q R, Inv m -> le_b m m' -> pmax m' <= 2 * plim m -> ents m' f = e -> ents m' s = x -> ek x = TOMB ->
  (forall t, t <> f -> t <> s -> ents m' t = ents m t) -> okent e -> live (key m s) = true -> same (key m s) (ek e) = true ->
  key m f = TOMB -> f < ncap m -> f = pi m (hf (ek e)) q -> okq m' (hf (ek e)) q -> noempty m (hf (ek e)) q ->
  Permutation (contents m) (kv (ents m s) :: R) -> nent m' = nent m ->
  Inv m' /\ Permutation (contents m') (kv e :: R).
Proof.
  intros m m' f s e x q R (C & U & NE) LB PM EF ES EX EO OE LV S TF FL PF OQ NO PR EN.
  pose proof (valid_live _ (proj1 OE)) as LE. pose proof LB as (LB1 & LB2 & LB3).
  assert (FS : f <> s) by (intros X; subst f; rewrite <- X, TF in LV; discriminate).
  destruct (proj2 (proj2 C) s LV) as ((VX & EH & EL) & SL & PO).
  set (m1 := set_ent m f e).
  destruct (contents_upd m f FL) as (R1 & P & Q). rewrite lv_dead in P by (rewrite TF; reflexivity). specialize (Q e). rewrite lv_live in Q by auto. simpl in P, Q.
  assert (SL1 : s < ncap m1) by auto.
  destruct (contents_upd m1 s SL1) as (R2 & P2 & Q2). specialize (Q2 x). rewrite (lv_dead x) in Q2 by (rewrite EX; reflexivity).
  assert (E1 : ents m1 s = ents m s) by (simpl; apply upd_other; auto). rewrite E1, lv_live in P2 by auto. simpl in P2, Q2.
  assert (PFi : Permutation R2 (kv e :: R)).
  { apply (Permutation_cons_inv (a := kv (ents m s))). rewrite <- P2. unfold m1. rewrite Q, <- P, PR. apply perm_swap. }
  assert (EC : contents m' = contents (set_ent m1 s x)).
  { apply contents_ents; auto. intros t _. simpl. unfold upd. destruct (Nat.eq_dec t s) as [X | X]; [subst t; auto|]. destruct (Nat.eq_dec t f) as [Y | Y]; [subst t; auto | auto]. }
  assert (PK : Permutation (contents m') (kv e :: R)) by (rewrite EC, Q2, PFi; auto).
  assert (NZ : forall t, key m t <> 0%N -> key m' t <> 0%N).
  { intros t T. destruct (Nat.eq_dec t f) as [X | X]; [subst t; rewrite EF; apply live_iff in LE; apply LE|].
    destruct (Nat.eq_dec t s) as [Y | Y]; [subst t; rewrite ES, EX; discriminate | rewrite EO; auto]. }
  split; auto. split; [|split].
  - apply (core_step dl bs len hf ub m); auto. intros t T.
    destruct (Nat.eq_dec t s) as [Y | Y]; [subst t; rewrite ES, EX in T; discriminate|].
    destruct (Nat.eq_dec t f) as [X | X]; [|left; auto]. right. subst t. rewrite EF in *. split; auto. split; [unfold ncap; rewrite LB1; auto|].
    exists q. rewrite (pi_cap ub m) by auto. split; auto. split; auto. intros r RR. rewrite (pi_cap ub m) by auto. auto.
  - eapply uniq_perm; [symmetry; exact PK|]. apply (uniq_repl bs len memeq hf CT (ek e) (ev e) (kv (ents m s))); auto. apply OE.
    intros y I. apply (core_valid dl bs len hf ub m); auto. rewrite PR. right; auto. apply (uniq_perm bs len memeq (contents m)); auto.
  - rewrite EN, NE, (Permutation_length PK), (Permutation_length PR). reflexivity.
Qed.

(** ** The states after storing an entry *)
Lemma okq_ext : forall m m' h q, cap m' = cap m -> pmax m' = pmax m -> bnd m' = bnd m -> okq m h q -> okq m' h q.
Proof. intros m m' h q E1 E2 E3 (A & B). split; [rewrite E2; auto|]. unfold bidx, hidx in *. rewrite E1, E3. auto. Qed.
Lemma le_trans : forall a b c, le_b a b -> le_b b c -> le_b a c.
Proof. intros a b c (A1 & A2 & A3) (B1 & B2 & B3). split; [congruence|]. split; [congruence | auto]. Qed.
(** bounds before *)
Lemma chg_put : forall m s e q p n h, Core m -> p = [] \/ p = [SDel] -> S q <= 2 * plim m ->
  let m' := app m (p ++ bound_set dl m h (S q) ++ fill s e ++ [SCnt n]) in
  chg m m' s e /\ okq m' h q /\ nent m' = n.
Proof.
  intros m s e q p n h C HP L m'.
  set (m1 := app m p). set (m2 := app m1 (bound_set dl m1 h (S q))). set (m3 := app m2 (fill s e)).
  assert (EM : m' = app1 m3 (SCnt n)).
  { unfold m', m3, m2, m1. rewrite !app_app. destruct HP; subst; reflexivity. }
  assert (E1 : cap m1 = cap m /\ plim m1 = plim m /\ pmax m1 = pmax m /\ bnd m1 = bnd m /\ ents m1 = ents m) by (unfold m1; destruct HP; subst; auto).
  destruct E1 as (E1 & E2 & E3 & E4 & E5).
  destruct (bound_set_ok dl m1 h q) as (LB & B1 & B2 & B3 & B4 & B5). fold m2 in LB, B1, B2, B3, B4, B5.
  pose proof (but_fill m2 s e [] (or_introl eq_refl)) as B. change ([] ++ fill s e) with (fill s e) in B. fold m3 in B. destruct B as (F1 & F2 & F3 & F4 & F5 & F6 & F7).
  assert (L1 : le_b m m1) by (split; auto; split; auto; intros; apply (okq_ext m); auto).
  assert (OQ3 : okq m3 h q) by (apply (okq_ext m2); auto).
  assert (L3 : le_b m m').
  { apply (le_trans m m1); auto. apply (le_trans m1 m2); auto. rewrite EM. split; [exact F1|]. split; [exact F2|]. intros; apply (okq_ext m2); auto. }
  pose proof (proj1 (proj2 C)) as PMX.
  split; [split; [exact L3|]; split|].
  - rewrite EM. cbn [pmax app1]. rewrite F3. lia.
  - rewrite EM. cbn [ents app1]. split; auto. intros t T. rewrite F7, B1, E5; auto.
  - rewrite EM. split; [exact OQ3 | reflexivity].
Qed.
(** bounds after *)
Lemma chg_after : forall m m1 s e q h, Core m -> but m m1 s e \/ (exists n m0, but m m0 s e /\ m1 = app1 m0 (SCnt n)) -> S q <= 2 * plim m ->
  let m' := app m1 (bound_set dl m1 h (S q)) in chg m m' s e /\ okq m' h q /\ nent m' = nent m1.
Proof.
  intros m m1 s e q h C B L m'.
  assert (X : cap m1 = cap m /\ plim m1 = plim m /\ pmax m1 = pmax m /\ bnd m1 = bnd m /\ ents m1 s = e /\ forall t, t <> s -> ents m1 t = ents m t).
  { destruct B as [(B1 & B2 & B3 & B4 & B5 & B6 & B7) | (n & m0 & (B1 & B2 & B3 & B4 & B5 & B6 & B7) & E)]; [|subst m1]; simpl; repeat (split; auto). }
  destruct X as (E1 & E2 & E3 & E4 & E5 & E6).
  destruct (bound_set_ok dl m1 h q) as (LB & B1 & B2 & B3 & B4 & B5). fold m' in LB, B1, B2, B3, B4, B5.
  assert (L1 : le_b m m1) by (split; auto; split; auto; intros; apply (okq_ext m); auto).
  pose proof (proj1 (proj2 C)) as PMX.
  split; [split; [apply (le_trans m m1); auto|]; split; [lia|]; rewrite B1; auto | auto].
Qed.

(** ** A new map *)
Lemma create_contents : forall e, contents (create e) = [].
Proof.
  intros. unfold Ht_Spec.contents. generalize (slots (create e)). induction l; simpl in *; auto.
Qed.
Lemma create_inv : forall e, Inv (create e).
Proof.
  intros. split; [|rewrite create_contents; split; [apply uniq_nil | reflexivity]].
  split; [apply wf_create|]. split; [cbn [pmax create]; lia|]. intros s L. discriminate.
Qed.
Lemma place_inv : forall u e s n, Inv u -> okent e -> fresh (ek e) (contents u) ->
  place ub (S (2 * plim u)) u (hf (ek e)) (pinit u (hf (ek e))) = Some (s, n) ->
  let u1 := app1 (set_ent u s e) (SCnt (nent u + 1)) in
  let u' := app u1 (bound_set dl u1 (hf (ek e)) n) in
  Inv u' /\ Permutation (contents u') (kv e :: contents u) /\ cap u' = cap u.
Proof.
  intros u e s n I OE F P u1 u'.
  pose proof (place_ok ub (S (2 * plim u)) u (hf (ek e)) (pinit u (hf (ek e))) (stok_init ub u (hf (ek e))) (Nat.le_0_l _)) as PO.
  rewrite P in PO. destruct PO as (q & EN & ES & LE & Z & NP); [intros p X; simpl in X; lia|]. subst n.
  assert (SL : s < ncap u) by (subst s; apply pi_lt, I).
  assert (B : but u (set_ent u s e) s e).
  { repeat (split; auto). simpl. apply upd_same. intros t T. simpl. apply upd_other; auto. }
  destruct (chg_after u u1 s e q (hf (ek e)) (proj1 I)) as (CH & OQ & EN); auto.
  { right. exists (nent u + 1)%N. exists (set_ent u s e). auto. }
  destruct (ins_inv u u' s e q) as (I' & P'); auto.
  { rewrite Z. reflexivity. }
  split; auto. split; auto. apply CH.
Qed.
Lemma rehash_ok : forall m ks u u', Core m ->
  uniq (map kv (filter (fun e => live (ek e)) (map (ents m) ks)) ++ contents u) -> Inv u ->
  rehash dl ub m u ks = Some u' ->
  Inv u' /\ Permutation (contents u') (map kv (filter (fun e => live (ek e)) (map (ents m) ks)) ++ contents u) /\ cap u' = cap u.
Proof.
  intros m. induction ks as [|k ks IH]; intros u u' C U I H; cbn [rehash] in H.
  - inversion H; subst. auto.
  - simpl. simpl in U. cbv zeta in H. destruct (live (key m k)) eqn:LV.
    2: { apply IH; auto. }
    simpl in U. destruct (proj2 (proj2 C) k LV) as (OE & _). rewrite (proj1 (proj2 OE)) in H.
    destruct (place ub (S (2 * plim u)) u (hf (key m k)) (pinit u (hf (key m k)))) as [[s n]|] eqn:EP; [|discriminate].
    assert (F : fresh (key m k) (contents u)).
    { intros y IY. apply (U (kv (ents m k)) _ (Permutation_refl _)). apply in_or_app; auto. }
    destruct (place_inv u (ents m k) s n I OE F EP) as (I' & P' & C').
    apply IH in H; auto.
    + destruct H as (H1 & H2 & H3). split; auto. split; [|congruence]. rewrite H2, P'. symmetry. apply Permutation_middle.
    + eapply uniq_perm; [|exact U]. rewrite P'. simpl. rewrite <- Permutation_middle. auto.
Qed.

Lemma grow_loop_S : forall f m al c, grow_loop dl ub oracle (S f) m al c =
  if N.leb c (cap m) then Ret [] al false
  else if oracle al then
      match rehash dl ub m (create c) (slots m) with
      | Some u => Ret [SMap u] (S al) true
      | None => grow_loop dl ub oracle f m (S al) (c * 2 mod 2 ^ 64)%N
      end
  else Ret [] (S al) false.
Proof. reflexivity. Qed.
Lemma grow_loop_ok : forall f m al c, Inv m ->
  match grow_loop dl ub oracle f m al c with
  | Ret tr al' b => al <= al' /\ if b then exists u, tr = [SMap u] /\ Inv u /\ Permutation (contents u) (contents m) else tr = []
  | Loop => True
  | Bad => False
  end.
Proof.
  induction f; intros m al c I; [exact Logic.I|]. rewrite grow_loop_S.
  destruct (N.leb c (cap m)); [split; auto|].
  destruct (oracle al); [|split; auto].
  destruct (rehash dl ub m (create c) (slots m)) as [u|] eqn:R.
  - split; auto. exists u. split; auto. apply rehash_ok in R.
    + destruct R as (R1 & R2 & _). split; auto. rewrite R2, create_contents, app_nil_r. auto.
    + apply I.
    + rewrite create_contents, app_nil_r. apply I.
    + apply create_inv.
  - specialize (IHf m (S al) ((c * 2) mod 2 ^ 64)%N I).
    destruct (grow_loop dl ub oracle f m (S al) _); auto. destruct IHf as (L & X). split; auto. lia.
Qed.
Lemma grow_ok : forall m al c, Inv m ->
  match grow dl ub oracle m al c with
  | Ret tr al' b => al <= al' /\ if b then exists u, tr = [SMap u] /\ Inv u /\ Permutation (contents u) (contents m) else tr = []
  | Loop => True
  | Bad => False
  end.
Proof. intros. apply grow_loop_ok. auto. Qed.
Lemma grow_loop_fuel : forall j f m al c, (0 < cap m)%N -> (c < 2 ^ 64)%N -> ((c * 2 ^ N.of_nat j) mod 2 ^ 64 = 0)%N -> j < f ->
  grow_loop dl ub oracle f m al c <> Loop.
Proof.
  induction j; intros f m al c CP CB Z L.
  - destruct f; [lia|]. rewrite grow_loop_S. change (N.of_nat 0) with 0%N in Z. rewrite N.pow_0_r, N.mul_1_r, N.mod_small in Z by auto. subst.
    rewrite (proj2 (N.leb_le _ _)) by lia. discriminate.
  - destruct f; [lia|]. rewrite grow_loop_S. destruct (N.leb c (cap m)); [discriminate|].
    destruct (oracle al); [|discriminate]. destruct (rehash dl ub m (create c) (slots m)); [discriminate|].
    apply IHj; auto; try lia.
    + apply N.mod_lt. discriminate.
    + rewrite N.mul_mod_idemp_l by discriminate. rewrite <- Z. f_equal. rewrite Nat2N.inj_succ, N.pow_succ_r'. lia.
Qed.
Lemma grow_not_loop : forall m al c, (0 < cap m)%N -> grow dl ub oracle m al c <> Loop.
Proof.
  intros m al c CP. unfold grow. rewrite (grow_loop_S 65).
  destruct (N.leb c (cap m)); [discriminate|].
  destruct (oracle al); [|discriminate]. destruct (rehash dl ub m (create c) (slots m)); [discriminate|].
  apply (grow_loop_fuel 64); auto; try lia.
  - apply N.mod_lt. discriminate.
  - change (N.of_nat 64) with 64%N. apply N.mod_mul. discriminate.
Qed.
Lemma grow_loop_failed : forall f m al e tr al', (e < 64)%N -> (cap m < 2 ^ e)%N ->
  grow_loop dl ub oracle f m al (2 ^ e) = Ret tr al' false -> (exists j, al <= j < al' /\ oracle j = false) \/ al + (64 - N.to_nat e) <= al'.
Proof.
  induction f; intros m al e tr al' E C H; [discriminate|]. rewrite grow_loop_S in H.
  rewrite (proj2 (N.leb_gt _ _) C) in H. destruct (oracle al) eqn:O.
  2: { inversion H; subst. left. exists al. split; auto. }
  destruct (rehash dl ub m (create (2 ^ e)) (slots m)); [discriminate|].
  destruct (N.eq_dec e 63) as [X | X].
  - subst e. change ((2 ^ 63 * 2) mod 2 ^ 64)%N with 0%N in H. right.
    destruct f; [discriminate|]. rewrite grow_loop_S in H. rewrite (proj2 (N.leb_le 0 (cap m))) in H by lia.
    inversion H; subst. change (N.to_nat 63) with 63. lia.
  - replace ((2 ^ e * 2) mod 2 ^ 64)%N with (2 ^ (e + 1))%N in H.
    + apply IHf in H; [|lia|].
      * destruct H as [(j & J & OJ) | H]; [left; exists j; split; auto; lia | right; lia].
      * rewrite N.pow_add_r. change (2 ^ 1)%N with 2%N. lia.
    + rewrite N.pow_add_r. change (2 ^ 1)%N with 2%N. rewrite N.mod_small; auto.
      replace (2 ^ e * 2)%N with (2 ^ (N.succ e))%N by (rewrite N.pow_succ_r'; lia). apply N.pow_lt_mono_r; lia.
Qed.
Lemma grow2_failed : forall m al tr al', wf m -> grow dl ub oracle m al (cap m * 2) = Ret tr al' false -> failed al al'.
Proof.
  intros m al tr al' (k & K & E) H. unfold grow in H. rewrite E in H.
  replace (2 ^ k * 2)%N with (2 ^ (k + 1))%N in H by (rewrite N.pow_add_r; reflexivity).
  apply grow_loop_failed in H; [|lia|].
  - destruct H as [H | H]; [left; auto | right; lia].
  - rewrite E. apply N.pow_lt_mono_r; lia.
Qed.

(** ** Outcomes *)
Definition okx {R : Type} (p : option nat) (A : list (N * N)) (A1 : R -> list (N * N)) (L : nat -> R -> nat -> Prop) (m : tmap) (al : nat) (x : out R) : Prop :=
  match x with
  | Ret tr al' r => wtr A (A1 r) p m tr /\ Inv (app m tr) /\ Permutation (contents (app m tr)) (A1 r) /\ L al r al' /\ al <= al'
  | Loop => True
  | Bad => False
  end.
Lemma same_refl' : forall k, same k k = true. Proof. apply same_refl. Qed.
Lemma in_assoc : forall A e, In (kv e) A -> assoc A (ek e) (ev e).
Proof. intros A e I. exists (ek e). split; auto. apply same_refl'. Qed.
Lemma fits_map : forall A A1 u, Inv u -> (forall x, In x (contents u) -> In x (A ++ A1)) -> forall s, live (key u s) = true -> fits A A1 (ents u s).
Proof.
  intros A A1 u (C & _) H s L. destruct (proj2 (proj2 C) s L) as ((V & EH & EL) & SL & _). split; [|split; auto].
  apply in_assoc. apply H. apply in_contents. exists s. auto.
Qed.
Lemma wtr_swap : forall A A1 p m u tr, Inv u -> Permutation (contents u) A -> wtr A A1 None u tr -> wtr A A1 p m (SMap u :: tr).
Proof. intros A A1 p m u tr I P W. apply w_map; auto. apply fits_map; auto. intros x X. apply in_or_app. left. rewrite <- P. auto. Qed.
Lemma wtr_swap' : forall A A1 p m u tr, Inv u -> Permutation (contents u) A1 -> wtr A A1 None u tr -> wtr A A1 p m (SMap u :: tr).
Proof. intros A A1 p m u tr I P W. apply w_map; auto. apply fits_map; auto. intros x X. apply in_or_app. right. rewrite <- P. auto. Qed.
Lemma okx_after : forall (R : Type) A (A1 : R -> list (N * N)) (L : nat -> R -> nat -> Prop) p m u al al1 x, Inv u -> Permutation (contents u) A -> al <= al1 ->
  (forall r al', L al1 r al' -> L al r al') -> okx None A A1 L u al1 x -> okx p A A1 L m al (after [SMap u] x).
Proof.
  intros R A A1 L p m u al al1 x I P LE ML H. destruct x; simpl in *; auto.
  destruct H as (H1 & H2 & H3 & H4 & H5). split; [apply wtr_swap; auto|]. split; auto. split; auto. split; auto. lia.
Qed.
Lemma post_ok : forall (T : Type) p A A1 m tr al (r : T), wtr A A1 p m tr -> Inv (app m tr) -> Permutation (contents (app m tr)) A1 ->
  match postgrow dl ub oracle m tr al r with
  | Ret tr' al' r' => r' = r /\ wtr A A1 p m tr' /\ Inv (app m tr') /\ Permutation (contents (app m tr')) A1 /\ al <= al'
  | _ => False
  end.
Proof.
  intros T p A A1 m tr al r W I P. unfold postgrow. cbv zeta.
  destruct (N.ltb (cap (app m tr)) (nent (app m tr) * 2)); [|auto].
  pose proof (grow_ok (app m tr) al (cap (app m tr) * 2) I) as G. pose proof (grow_not_loop (app m tr) al (cap (app m tr) * 2)) as GL.
  destruct (grow dl ub oracle (app m tr) al (cap (app m tr) * 2)) as [tr2 al2 b| |]; [|apply GL; auto; apply wf_pos, I|contradiction].
  destruct G as (L & G). destruct b.
  - destruct G as (u & ET & IU & PU). subst tr2. split; auto. rewrite app_app. simpl.
    assert (PA : Permutation (contents u) A1) by (rewrite PU; auto).
    split; [|auto]. apply wtr_app; auto. apply wtr_swap'; auto. constructor.
  - subst tr2. rewrite app_nil_r. auto.
Qed.
Lemma failed_le : forall a b c, a <= b -> failed b c -> failed a c.
Proof. intros a b c L [(j & J & O) | H]; [left; exists j; split; auto; lia | right; lia]. Qed.

(** the slot a probe proposes and its number, for a key that is absent *)
Lemma ins_facts : forall m k l r, Core m -> valid k -> lok k l -> pspec m k l (hf k) r -> fresh k (contents m) ->
  match r_pr r with
  | Some f => exists q, r_np r = S q /\ f = pi m (hf k) q /\ f < ncap m /\ noempty m (hf k) q /\ S q <= 2 * plim m /\ key m f = TOMB /\
                match r_cur r with Some s => key m s = 0%N | None => True end
  | None => match r_cur r with
            | Some s => exists q, r_n r = S q /\ s = pi m (hf k) q /\ s < ncap m /\ noempty m (hf k) q /\ S q <= 2 * plim m /\ key m s = 0%N
            | None => True
            end
  end.
Proof.
  intros m k l r C VK LK P F. pose proof C as (W & _).
  assert (NF : forall n, live (key m (pi m (hf k) n)) = true -> match_ent bs memeq (ents m (pi m (hf k) n)) k l (hf k) = true -> False).
  { intros n LV M. rewrite (match_core m _ k l) in M by auto.
    assert (I : In (kv (ents m (pi m (hf k) n))) (contents m)) by (apply in_contents; exists (pi m (hf k) n); repeat split; auto; apply pi_lt; auto).
    apply F in I. simpl in I. congruence. }
  destruct P; simpl.
  - exfalso. eapply NF; eauto.
  - destruct pr as [f|].
    + destruct H1 as (p & L & E & T & NP & FF). exists p. split; auto. split; auto. split; [subst; apply pi_lt; auto|].
      split; [apply (clear_noempty m k l (hf k) n); auto; lia|]. split; [lia | auto].
    + exists n. split; auto. split; auto. split; [apply pi_lt; auto|]. split; [apply (clear_noempty m k l (hf k) n); auto|]. split; [lia | auto].
  - destruct pr as [f|]; auto.
    destruct H0 as (p & L & E & T & NP & FF). exists p. split; auto. split; auto. split; [subst; apply pi_lt; auto|].
    split; [apply (clear_noempty m k l (hf k) (2 * plim m)); auto; lia|]. split; [lia | auto].
Qed.
(** a probe for a key that is present *)
Lemma found_facts : forall m k l r s, Inv m -> valid k -> lok k l -> pspec m k l (hf k) r -> live (key m s) = true -> same (key m s) k = true ->
  r_cur r = Some s /\ exists n, s = pi m (hf k) n /\ r_n r = S n /\ S n <= 2 * plim m /\ noempty m (hf k) n /\ okq m (hf k) n /\
  firstt m (hf k) n (r_pr r) (r_np r).
Proof.
  intros m k l r s (C & U & _) VK LK P LV S. pose proof C as (W & PM & CE).
  destruct (CE s LV) as ((VS & _) & SL & _). destruct P; simpl.
  - destruct (not_passed m k l n s C VK LK H0 LV S) as (q & Q1 & Q2 & Q3 & Q4 & Q5).
    rewrite (match_core m _ k l) in H3 by auto. destruct (CE _ H2) as ((V2 & _) & S2 & _).
    assert (E : pi m (hf k) n = s).
    { apply (slot_uniq bs len memeq m); auto. rewrite (same_trans_r bs len memeq hf CT (key m s) k); auto. }
    rewrite E. split; auto. exists n. split; auto. split; auto. split; [lia|]. split; [apply (clear_noempty m k l (hf k) n); auto|].
    split; [apply (okq_le dl m _ q); auto | auto].
  - exfalso. assert (F : fresh k (contents m)) by (apply (absent_clear m k l n); auto).
    assert (I : In (kv (ents m s)) (contents m)) by (apply in_contents; exists s; auto). apply F in I. simpl in I. congruence.
  - exfalso. assert (F : fresh k (contents m)) by (apply (absent_clear m k l (2 * plim m)); auto).
    assert (I : In (kv (ents m s)) (contents m)) by (apply in_contents; exists s; auto). apply F in I. simpl in I. congruence.
Qed.
Lemma present_slot : forall m A k, Core m -> Permutation (contents m) A -> mem k A = true ->
  exists s, live (key m s) = true /\ same (key m s) k = true.
Proof.
  intros m A k C P M. unfold Ht_Spec.mem in M. apply existsb_exists in M. destruct M as (x & I & S). rewrite <- P in I.
  apply in_contents in I. destruct I as (s & SL & LV & E). subst x. exists s. auto.
Qed.

(** the store of an absent key at [s] *)
Lemma put_store : forall A m e s q pr, Inv m -> Permutation (contents m) A -> okent e -> fresh (ek e) (contents m) ->
  s < ncap m -> s = pi m (hf (ek e)) q -> noempty m (hf (ek e)) q -> S q <= 2 * plim m -> pr = [] /\ key m s = 0%N \/ pr = [SDel] /\ key m s = TOMB ->
  let tr := pr ++ bound_set dl m (hf (ek e)) (S q) ++ fill s e ++ [SCnt (nent m + 1)] in
  wtr A (kv e :: A) None m tr /\ Inv (app m tr) /\ Permutation (contents (app m tr)) (kv e :: A).
Proof.
  intros A m e s q pr I P OE F SL ES NO L HP tr. pose proof (valid_live _ (proj1 OE)) as LE.
  assert (FI : fits A (kv e :: A) e).
  { split; [apply in_assoc; apply in_or_app; right; left; auto|]. split; apply OE. }
  assert (W : wtr A (kv e :: A) None m tr).
  { assert (G : forall m1, (forall x, x = m1 -> wtr A (kv e :: A) (Some s) m1 (bound_set dl m (hf (ek e)) (S q) ++ fill s e ++ [SCnt (nent m + 1)]))).
    { intros m1 _ _. unfold bound_set. destruct (Nat.ltb (pmax m) (S q)), (dl && Nat.ltb (bnd m (N.to_nat (hidx m (hf (ek e))))) (S q)); simpl List.app;
      repeat (apply w_quiet; [exact Logic.I|]); apply (wtr_app bs len memeq A (kv e :: A) _ _ (fill s e)); try (apply wtr_fill; auto); apply w_quiet; try exact Logic.I; constructor. }
    unfold tr. destruct HP as [(E & K) | (E & K)]; subst pr; simpl List.app.
    - apply (w_empty bs len memeq A (kv e :: A) None m s); auto. apply (G m m); auto.
    - apply (w_dead bs len memeq A (kv e :: A) None m s); auto. apply (G _ _ eq_refl). }
  split; auto.
  destruct (chg_put m s e q pr (nent m + 1)%N (hf (ek e)) (proj1 I)) as (CH & OQ & EN); auto.
  { destruct HP as [(E & _) | (E & _)]; auto. }
  destruct (ins_inv m _ s e q I CH OE F SL ES OQ NO) as (I' & P'); auto.
  { destruct HP as [(_ & K) | (_ & K)]; rewrite K; reflexivity. }
  split; auto. rewrite <- P. exact P'.
Qed.

(** ** put *)
Definition putL (k : N) (A : list (N * N)) (al : nat) (r : bool) (al' : nat) : Prop := if r then mem k A = false else failed al al'.
Lemma put_absent : forall f m al e A, Inv m -> Permutation (contents m) A -> okent e -> fresh (ek e) A ->
  okx None A (fun r : bool => if r then kv e :: A else A) (putL (ek e) A) m al (put dl bs memeq ub oracle f m al e (hf (ek e))).
Proof.
  induction f; intros m al e A I P OE FA; [exact Logic.I|]. cbn [put]. set (k := ek e) in *. set (l := el e).
  pose proof I as (C & U & NE). assert (VK : valid k) by apply OE. assert (LK : lok k l) by exact (proj2 (proj2 OE)).
  assert (F : fresh k (contents m)) by (apply (fresh_perm bs len memeq k A); auto; symmetry; auto).
  destruct (probe_wr_ok dl bs memeq ub m k l (hf k)) as (r & EP & PS). rewrite EP.
  pose proof (ins_facts m k l r C VK LK PS F) as IF. cbv zeta.
  assert (MF : mem k A = false) by (apply fresh_mem; auto).
  assert (ST : forall s q pr, s < ncap m -> s = pi m (hf k) q -> noempty m (hf k) q -> S q <= 2 * plim m -> pr = [] /\ key m s = 0%N \/ pr = [SDel] /\ key m s = TOMB ->
    okx None A (fun r : bool => if r then kv e :: A else A) (putL k A) m al
      (postgrow dl ub oracle m ((pr ++ bound_set dl m (hf k) (S q) ++ fill s e) ++ [SCnt (nent m + 1)]) al true)).
  { intros s q pr SL ES NO L HP. replace ((pr ++ bound_set dl m (hf k) (S q) ++ fill s e) ++ [SCnt (nent m + 1)])
      with (pr ++ bound_set dl m (hf k) (S q) ++ fill s e ++ [SCnt (nent m + 1)]) by (rewrite <- !app_assoc; reflexivity).
    destruct (put_store A m e s q pr I P OE F SL ES NO L HP) as (W & I1 & P1).
    pose proof (post_ok bool None A (kv e :: A) m _ al true W I1 P1) as PO. unfold k.
    destruct (postgrow dl ub oracle m (pr ++ bound_set dl m (hf (ek e)) (S q) ++ fill s e ++ [SCnt (nent m + 1)]) al true) as [tr' al' r'| |]; try contradiction.
    destruct PO as (ER & W' & IV & PC & LE). subst r'. simpl. auto. }
  destruct (r_pr r) as [f0|].
  - destruct IF as (q & NP & EF & FL & NO & L & T & _). rewrite NP. apply (ST f0 q [SDel]); auto.
  - destruct (r_cur r) as [s|].
    + destruct IF as (q & NP & EF & FL & NO & L & Z). rewrite Z, NP. cbn [live N.eqb negb andb]. apply (ST s q []); auto.
    + pose proof (grow_ok m al (cap m * 2) I) as G. pose proof (grow2_failed m al) as GF.
      destruct (grow dl ub oracle m al (cap m * 2)) as [tr al1 [|]| |]; auto; destruct G as (LE & G).
      * destruct G as (u & ET & IU & PU). subst tr. apply (okx_after bool A _ _ None m u al al1); auto.
        -- rewrite PU; auto.
        -- intros r0 al' H. unfold putL in *. destruct r0; auto. eapply failed_le; eauto.
        -- simpl. apply IHf; auto. rewrite PU; auto.
      * subst tr. simpl. split; [constructor|]. split; auto. split; auto. split; auto. eapply GF; [apply C | reflexivity].
Qed.
(** a key that is present: put fails, or there is a tombstone on its way *)
Lemma put_present : forall f m al e A tr al' r, Inv m -> Permutation (contents m) A -> okent e -> mem (ek e) A = true ->
  put dl bs memeq ub oracle f m al e (hf (ek e)) = Ret tr al' r -> r = true /\ (exists s, s < ncap m /\ key m s = TOMB) \/ r = false /\ tr = [] /\ al' = al.
Proof.
  intros f m al e A tr al' r I P OE M H. destruct f; [discriminate|]. cbn [put] in H.
  set (k := ek e) in *. set (l := el e) in *.
  destruct (probe_wr_ok dl bs memeq ub m k l (hf k)) as (pr & EP & PS). rewrite EP in H. cbv zeta in H.
  destruct (present_slot m A k (proj1 I) P M) as (s & LV & S).
  destruct (found_facts m k l pr s I (proj1 OE) (proj2 (proj2 OE)) PS LV S) as (RC & n & ES & RN & _ & _ & _ & FT). rewrite RC in H.
  destruct (r_pr pr) as [f0|].
  - left. split.
    + unfold postgrow in H. destruct (N.ltb _ _); [|inversion H; auto]. destruct (grow _ _ _ _ _ _); inversion H; auto.
    + destruct FT as (p & _ & E & T & _). exists f0. split; auto. subst f0. apply pi_lt, I.
  - right. rewrite LV in H. inversion H; auto.
Qed.
Lemma put_present_ok : forall f m al e A, Inv m -> Permutation (contents m) A -> okent e -> mem (ek e) A = true ->
  put dl bs memeq ub oracle f m al e (hf (ek e)) <> Bad.
Proof.
  intros f m al e A I P OE M. destruct f; [discriminate|]. cbn [put].
  set (k := ek e) in *. set (l := el e) in *.
  destruct (probe_wr_ok dl bs memeq ub m k l (hf k)) as (pr & EP & PS). rewrite EP. cbv zeta.
  destruct (present_slot m A k (proj1 I) P M) as (s & LV & S).
  destruct (found_facts m k l pr s I (proj1 OE) (proj2 (proj2 OE)) PS LV S) as (RC & n & ES & RN & _ & _ & _ & FT). rewrite RC.
  destruct (r_pr pr) as [f0|].
  - unfold postgrow. destruct (N.ltb _ _); [|discriminate].
    assert (G : forall f m al c, grow_loop dl ub oracle f m al c <> Bad).
    { clear. induction f; intros m al c; [discriminate|]. rewrite grow_loop_S. destruct (N.leb c (cap m)); [discriminate|].
      destruct (oracle al); [|discriminate]. destruct (rehash dl ub m (create c) (slots m)); [discriminate | apply IHf]. }
    unfold grow. destruct (grow_loop _ _ _ _ _ _ _) eqn:E; try discriminate. exfalso. eapply G; eauto.
  - rewrite LV. discriminate.
Qed.
End O.
