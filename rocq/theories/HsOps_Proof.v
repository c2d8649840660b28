(** Hash set: each operation of the writer keeps the invariant and has the effect on the set
    that its specification says. *)
From Coq Require Import Arith NArith List Bool Lia Permutation.
From Verif Require Import Lib Helpers_Model Hs_Model Hs_Spec Hs_Proof HsInv_Proof.
Import ListNotations.

Section O.
Variables (dl pp : bool) (hf : N -> N) (cmp : option (N -> N -> bool)) (ub : N -> N -> N) (oracle : nat -> option N).
Variable CT : contract pp hf cmp.
Notation pi := (pi ub). Notation val := (val pp). Notation valid := (valid pp hf). Notation same := (same cmp).
Notation marshal := (marshal pp). Notation contents := (contents pp).
Notation Core := (Core dl pp hf ub). Notation Inv := (Inv dl pp hf cmp ub). Notation okq := (okq dl). Notation noempty := (noempty ub).
Notation posn := (posn dl hf ub). Notation entok := (entok dl pp hf ub). Notation wtr := (wtr dl pp hf cmp ub).
Notation pspec := (pspec pp cmp ub). Notation clear := (clear pp cmp ub). Notation firstt := (firstt ub).
Notation uniq := (uniq cmp). Notation fresh := (fresh cmp).
Notation mem := (mem cmp). Notation del := (del cmp). Notation obj := (obj cmp).

(** ** What a probe tells *)
Lemma found_info : forall m k lim opl b r, Core m -> valid k -> pspec m (hf k) k lim opl b r -> r_obj r <> 0%N ->
  exists n s np, r_cur r = Some s /\ s = pi m (hf k) n /\ s < ncap m /\ live (ents m s) = true /\ val (ents m s) = r_obj r /\
    same (r_obj r) k = true /\ valid (r_obj r) /\ n < opl /\ clear m (hf k) k n /\ firstt m (hf k) n (r_pr r) np /\ r_np r = npr (r_pr r) np n.
Proof.
  intros m k lim opl b r C VK P NZ. destruct P; simpl in *; try congruence.
  exists n, (pi m (hf k) n), np. pose proof C as (W & _ & CE).
  assert (SL : pi m (hf k) n < ncap m) by (apply pi_lt; auto).
  destruct (CE _ SL H2) as (V & M & _).
  repeat (split; [solve [auto]|]). split; [|auto].
  rewrite M, (match_same pp hf cmp CT) in H3; auto.
Qed.
Lemma absent_info : forall m k lim opl b r, Core m -> valid k -> pspec m (hf k) k lim opl b r -> r_obj r = 0%N -> b <> BTomb ->
  bound_get dl m (hf k) <= lim -> fresh k (contents m).
Proof.
  intros m k lim opl b r C VK P Z NB LB y I. destruct (same y k) eqn:S; auto. exfalso.
  apply in_contents in I. destruct I as (s & SL & LV & EV). pose proof C as (W & _ & CE).
  destruct (CE s SL LV) as (V & M & q & Q1 & Q2 & Q3). rewrite EV in *.
  assert (EH : hf y = hf k) by (apply (c_hash _ _ _ CT); auto). rewrite EH in *.
  pose proof (okq_bound _ _ _ _ Q2) as QB.
  assert (MM : match_word pp cmp (ents m (pi m (hf k) q)) k (hf k) = true).
  { rewrite Q1, M, <- EH. rewrite EH at 2. rewrite (match_same pp hf cmp CT); auto. }
  assert (CQ : forall n, clear m (hf k) k n -> n <= q).
  { intros n CL. destruct (Nat.le_gt_cases n q) as [|G]; auto. exfalso. destruct (CL q G) as (_ & F).
    rewrite F in MM; [discriminate | rewrite Q1; auto]. }
  destruct P; simpl in *.
  - pose proof (CE _ (pi_lt ub m (hf k) n W) H2) as (VV & _). destruct VV. congruence.
  - specialize (CQ n H0). destruct (Nat.eq_dec n q); [subst; rewrite H2 in LV; discriminate | apply (Q3 n); auto; lia].
  - specialize (CQ n H0). lia.
  - contradiction.
Qed.
Lemma clear_noempty : forall m h k n p, clear m h k n -> p <= n -> noempty m h p.
Proof. intros m h k n p C L r R. apply C. lia. Qed.
Definition dest (r : pres) : option nat := match r_pr r with Some f => Some f | None => r_cur r end.
Lemma dest_info : forall m h k lim opl b r, wf m -> pspec m h k lim opl b r ->
  match dest r with
  | Some s => exists q, r_np r = S q /\ s = pi m h q /\ s < ncap m /\ noempty m h q /\ q < opl /\
                (r_pr r = Some s /\ ents m s = TOMB \/ r_pr r = None /\ r_cur r = Some s)
  | None => r_cur r = None /\ r_pr r = None
  end.
Proof.
  intros m h k lim opl b r W P. unfold dest. destruct P; simpl; try (destruct pr as [f|]; simpl).
  - destruct H1 as (p & L & E & T & NP & F). exists p. split; auto. split; auto. split; [subst; apply pi_lt; auto|].
    split; [apply (clear_noempty m h k n); auto; lia|]. split; [lia | auto].
  - exists n. split; auto. split; auto. split; [apply pi_lt; auto|]. split; [apply (clear_noempty m h k n); auto|]. auto.
  - destruct H1 as (p & L & E & T & NP & F). exists p. split; auto. split; auto. split; [subst; apply pi_lt; auto|].
    split; [apply (clear_noempty m h k n); auto; lia|]. split; [lia | auto].
  - exists n. split; auto. split; auto. split; [apply pi_lt; auto|]. split; [apply (clear_noempty m h k n); auto|]. auto.
  - destruct H1 as (p & L & E & T & NP & F). exists p. split; auto. split; auto. split; [subst; apply pi_lt; auto|].
    split; [apply (clear_noempty m h k n); auto; lia|]. split; [lia | auto].
  - auto.
  - exists n. split; auto. split; auto. split; [apply pi_lt; auto|]. split; [apply (clear_noempty m h k n); auto|]. auto.
Qed.
(** of an absent key the destination is not live *)
Lemma dest_dead : forall m k lim opl b r s, Core m -> pspec m (hf k) k lim opl b r -> r_obj r = 0%N -> dest r = Some s -> live (ents m s) = false.
Proof.
  intros m k lim opl b r s C P Z D. unfold dest in D. pose proof C as (W & _ & CE). destruct P; simpl in *.
  - pose proof (CE _ (pi_lt ub m (hf k) n W) H2) as (VV & _). destruct VV. congruence.
  - destruct pr as [f|]; inversion D; subst; [destruct H1 as (p & _ & _ & T & _); rewrite T; reflexivity | rewrite H2; reflexivity].
  - destruct pr as [f|]; inversion D; subst. destruct H1 as (p & _ & _ & T & _); rewrite T; reflexivity.
  - inversion D; subst. rewrite H3. reflexivity.
Qed.

(** ** Effects of stores *)
Lemma posn_same : forall m s x k, valid x -> valid k -> same x k = true -> posn m s x -> posn m s k.
Proof. intros m s x k VX VK S P. unfold HsInv_Proof.posn in *. rewrite <- (c_hash _ _ _ CT x k); auto. Qed.
Lemma entok_k : forall m s k, valid k -> posn m s k -> entok m s (marshal k (hf k)).
Proof. intros m s k V P. split; rewrite (val_k pp hf) by auto; auto. Qed.
Lemma marshal_nz : forall k, valid k -> marshal k (hf k) <> 0%N.
Proof. intros k V. apply live_iff. apply live_marshal; auto. Qed.
Definition eff (A A1 : list N) (m : hmap) (tr : list store) : Prop :=
  wtr A A1 m tr /\ Core (app m tr) /\ uniq (contents (app m tr)) /\ Permutation (contents (app m tr)) A1 /\ cap (app m tr) = cap m.

Lemma lv_k : forall k, valid k -> lv pp (marshal k (hf k)) = [k].
Proof. intros k V. unfold lv. rewrite (live_marshal pp hf), (val_k pp hf); auto. Qed.

Lemma eff_put : forall A m k s q, Core m -> uniq (contents m) -> Permutation (contents m) A -> valid k -> fresh k (contents m) ->
  s < ncap m -> s = pi m (hf k) q -> okq m (hf k) q -> noempty m (hf k) q -> live (ents m s) = false ->
  eff A (k :: A) m [SEnt s (marshal k (hf k))].
Proof.
  intros A m k s q C U PA VK F SL ES OQ NE LV.
  assert (PO : posn m s k) by (exists q; auto).
  assert (C1 : Core (app1 m (SEnt s (marshal k (hf k))))).
  { apply core_ent; auto. apply marshal_nz; auto. intros _. apply entok_k; auto. }
  destruct (contents_upd pp m s SL) as (R & P & Q). unfold lv in P. rewrite LV in P. simpl in P.
  specialize (Q (marshal k (hf k))). rewrite lv_k in Q by auto. simpl in Q.
  assert (PK : Permutation (contents (app1 m (SEnt s (marshal k (hf k))))) (k :: A)) by (rewrite Q, <- P, PA; auto).
  split; [|split; [auto | split; [|auto]]].
  - apply w_put; auto. apply (live_marshal pp hf); auto. rewrite (val_k pp hf) by auto. left; auto. constructor.
  - simpl. apply (uniq_perm cmp (k :: contents m)). rewrite PK, PA. auto. apply (uniq_cons pp hf cmp CT); auto.
    intros y I. apply (core_valid dl pp hf ub m); auto.
Qed.
Lemma eff_rep : forall A A1 m k s x R, Core m -> uniq (contents m) -> valid k -> s < ncap m ->
  live (ents m s) = true -> val (ents m s) = x -> same x k = true -> Permutation (contents m) (x :: R) -> Permutation A1 (k :: R) ->
  eff A A1 m [SEnt s (marshal k (hf k))].
Proof.
  intros A A1 m k s x R C U VK SL LV EV S PR PA.
  assert (E : entok m s (ents m s)) by (apply C; auto). destruct E as (VX & M & PO). rewrite EV in *.
  assert (C1 : Core (app1 m (SEnt s (marshal k (hf k))))).
  { apply core_ent; auto. apply marshal_nz; auto. intros _. apply entok_k; auto. apply (posn_same m s x); auto. }
  destruct (contents_upd pp m s SL) as (R' & P & Q). unfold lv in P. rewrite LV, EV in P. simpl in P.
  assert (RR : Permutation R R') by (apply (Permutation_cons_inv (a := x)); rewrite <- PR; auto).
  specialize (Q (marshal k (hf k))). rewrite lv_k in Q by auto. simpl in Q.
  assert (PK : Permutation (contents (app1 m (SEnt s (marshal k (hf k))))) A1) by (rewrite Q, PA, RR; auto).
  split; [|split; [auto | split; [|auto]]].
  - apply w_rep; auto. apply (live_marshal pp hf); auto. rewrite (val_k pp hf), EV by auto. auto.
    rewrite (val_k pp hf) by auto. rewrite PA. left; auto. constructor.
  - simpl. apply (uniq_perm cmp (k :: R)). rewrite PK. symmetry; auto. apply (uniq_repl pp hf cmp CT k x); auto.
    intros y I. apply (core_valid dl pp hf ub m); auto. rewrite PR. right; auto. apply (uniq_perm cmp (contents m)); auto.
Qed.
Lemma core_gen : forall m p, Core m -> Core (app1 m (SGen p)).
Proof.
  intros m p C. apply (core_le dl pp hf ub m); auto. - repeat split; try apply H; auto. - apply C.
Qed.
Lemma core_cnt : forall m n, Core m -> Core (app1 m (SCnt n)).
Proof.
  intros m p C. apply (core_le dl pp hf ub m); auto. - repeat split; try apply H; auto. - apply C.
Qed.
Lemma core_tmb : forall m n, Core m -> Core (app1 m (STmb n)).
Proof.
  intros m p C. apply (core_le dl pp hf ub m); auto. - repeat split; try apply H; auto. - apply C.
Qed.
Lemma eff_move : forall A A1 m k f s q x R, Core m -> uniq (contents m) -> valid k -> s < ncap m -> f < ncap m ->
  live (ents m s) = true -> val (ents m s) = x -> same x k = true -> Permutation (contents m) (x :: R) -> Permutation A1 (k :: R) ->
  ents m f = TOMB -> f = pi m (hf k) q -> okq m (hf k) q -> noempty m (hf k) q ->
  eff A A1 m [SEnt f (marshal k (hf k)); SGen (N.odd (hf k)); SEnt s TOMB].
Proof.
  intros A A1 m k f s q x R C U VK SL FL LV EV S PR PA ET EF OQ NE.
  assert (PO : posn m f k) by (exists q; auto).
  set (w := marshal k (hf k)) in *. set (m1 := app1 m (SEnt f w)).
  assert (VX : valid x) by (rewrite <- EV; apply C; auto).
  assert (C1 : Core m1).
  { apply core_ent; auto. apply marshal_nz; auto. intros _. apply entok_k; auto. }
  set (m2 := app1 m1 (SGen (N.odd (hf k)))). assert (C2 : Core m2) by (apply core_gen; auto).
  set (m3 := app1 m2 (SEnt s TOMB)).
  assert (C3 : Core m3).
  { apply core_ent; auto. discriminate. intros X. discriminate. }
  assert (FS : f <> s) by (intros X; subst f; rewrite <- X, ET in LV; discriminate).
  destruct (contents_upd pp m f FL) as (R1 & P & Q). unfold lv in P. rewrite ET, live_T in P. simpl in P.
  specialize (Q w). fold m1 in Q. unfold w in Q. rewrite lv_k in Q by auto. simpl in Q.
  assert (SL2 : s < ncap m2) by auto.
  destruct (contents_upd pp m2 s SL2) as (R2 & P2 & Q2). specialize (Q2 TOMB). fold m3 in Q2. unfold lv in P2, Q2. rewrite live_T in Q2. simpl in Q2.
  assert (E2 : ents m2 s = ents m s) by (simpl; apply upd_other; auto). rewrite E2, LV, EV in P2. simpl in P2.
  assert (K : contents m2 = contents m1) by (apply contents_ents; auto).
  assert (PF : Permutation R2 (k :: R)).
  { apply (Permutation_cons_inv (a := x)). rewrite <- P2, K, Q, <- P, PR. apply perm_swap. }
  assert (PK : Permutation (contents m3) A1) by (rewrite Q2, PF; symmetry; auto).
  assert (EW : val w = k) by (apply (val_k pp hf); auto).
  split; [|split; [auto | split; [|auto]]].
  - rewrite <- EW. apply w_move; auto; rewrite ?EW, ?EV; auto. apply (live_marshal pp hf); auto.
    rewrite PA. rewrite in_app_iff. right; left; auto. constructor.
  - change (uniq (contents m3)). apply (uniq_perm cmp (k :: R)). rewrite PK. symmetry; auto. apply (uniq_repl pp hf cmp CT k x); auto.
    intros y I. apply (core_valid dl pp hf ub m); auto. rewrite PR. right; auto. apply (uniq_perm cmp (contents m)); auto.
Qed.
Lemma eff_del : forall A A1 m s x R, Core m -> uniq (contents m) -> s < ncap m ->
  live (ents m s) = true -> val (ents m s) = x -> Permutation (contents m) (x :: R) -> Permutation A1 R ->
  eff A A1 m [SEnt s TOMB].
Proof.
  intros A A1 m s x R C U SL LV EV PR PA.
  assert (C1 : Core (app1 m (SEnt s TOMB))).
  { apply core_ent; auto. discriminate. intros X. discriminate. }
  destruct (contents_upd pp m s SL) as (R' & P & Q). unfold lv in P. rewrite LV, EV in P. simpl in P.
  assert (RR : Permutation R R') by (apply (Permutation_cons_inv (a := x)); rewrite <- PR; auto).
  specialize (Q TOMB). unfold lv in Q. rewrite live_T in Q. simpl in Q.
  assert (PK : Permutation (contents (app1 m (SEnt s TOMB))) A1) by (simpl; rewrite Q, PA, RR; auto).
  split; [|split; [auto | split; [|auto]]].
  - apply w_del; auto. intros y I. rewrite EV. apply (U x R); auto. rewrite <- PA. auto. constructor.
  - change (uniq (contents (app1 m (SEnt s TOMB)))). apply (uniq_perm cmp R). rewrite PK. symmetry; auto. apply (uniq_tail cmp x).
    apply (uniq_perm cmp (contents m)); auto.
Qed.
Lemma eff_bound : forall A A1 m h q tr, Core m -> S q <= plim m -> 
  (let m1 := app m (bound_set dl m h (S q)) in
   Core m1 -> okq m1 h q -> cap m1 = cap m -> ents m1 = ents m -> contents m1 = contents m -> plim m1 = plim m -> nent m1 = nent m -> eff A A1 m1 tr) ->
  eff A A1 m (bound_set dl m h (S q) ++ tr).
Proof.
  intros A A1 m h q tr C L H. destruct (bound_set_ok dl pp hf cmp ub m h q C L) as (LB & LM & OQ & NE & TM & W).
  destruct (le_b_core dl pp hf ub m _ C LB LM) as (C1 & EC). destruct LB as (L1 & L2 & L3 & L4).
  destruct (H C1 OQ L1 L2 EC L3 NE) as (E1 & E2 & E3 & E4 & E5).
  unfold eff. rewrite app_app. split; [apply wtr_app; auto|]. split; auto. split; auto. split; auto. congruence.
Qed.
End O.
