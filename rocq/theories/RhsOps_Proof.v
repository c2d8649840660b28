(** Robin Hood hash set: the operations. *)
From Coq Require Import Arith NArith List Bool Permutation Lia.
From Verif Require Import Lib Helpers_Model Rhs_Model Rhs_Spec Rhs_Proof RhsInv_Proof RhsProbe_Proof RhsGrow_Proof RhsWant_Proof RhsTr_Proof RhsRh_Proof RhsDel_Proof RhsSet_Proof.
Import ListNotations.

Section O.
Variables (rmode pp : bool) (hf : N -> N) (cmp : option (N -> N -> bool)) (oracle : nat -> bool).
Variable CT : contract pp hf cmp.
Notation pi := (pi rmode).
Notation valid := (valid pp).
Notation marshal := (marshal pp).
Notation val := (val pp).
Notation bound_get := (bound_get rmode).
Notation bound_set := (bound_set rmode).
Notation inv := (inv rmode pp hf).
Notation Inv := (Inv rmode pp hf).
Notation Wok := (Wok rmode).
Notation cont := (cont pp).
Notation raised := (raised rmode).
Notation lim := (lim rmode).
Notation same := (same cmp).
Notation fresh := (fresh cmp).
Notation uniq := (uniq cmp).
Notation mem := (mem cmp).
Notation del := (Rhs_Spec.del cmp).
Notation obj := (obj cmp).
Notation failed := (failed oracle).
Notation room := (room rmode).
Notation Tr := (Tr rmode pp hf cmp).

Lemma Tr_step : forall X Y Z B B' a b c, Tr X Y B a b -> incl B B' -> Tr Y Z B' b c -> Tr X Z B' a c.
Proof. intros X Y Z B B' a b c H1 I H2. eapply Tr_trans; [eapply Tr_incl; eauto | exact H2]. Qed.

(** a map that stands for [A]; unless [x], its counter is right *)
Record st (m : rmap) (A : list N) (x : bool) : Prop := mkst {
  s_inv : Inv m; s_perm : Permutation (cont m (ent m)) A; s_uniq : uniq A;
  s_cnt : x = false -> nent m = N.of_nat (length A) }.

Lemma failed_le : forall a a' b b', a <= b -> b' <= a' -> failed b b' -> failed a a'.
Proof. intros a a' b b' L1 L2 [(j & J & O) | H]; [left; exists j; split; auto; lia | right; lia]. Qed.
Lemma st_valid : forall m A x y, st m A x -> In y A -> valid y.
Proof. intros m A x y [I P _ _] Y. apply (cont_valid rmode pp hf m); auto. rewrite P. auto. Qed.
Lemma st_used : forall m A x, st m A x -> used m (ent m) = length A.
Proof. intros m A x [I P _ _]. rewrite <- (len_cont pp), P. auto. Qed.
Lemma st_perm : forall m A B x, st m A x -> Permutation A B -> st m B x.
Proof.
  intros m A B x [I P U C] Q. constructor; auto.
  - rewrite P. auto.
  - apply (uniq_perm cmp A); auto.
  - intros X. rewrite (C X), (Permutation_length Q). auto.
Qed.
Lemma st_new : forall m m' A x, st m A x -> Inv m' -> Permutation (cont m' (ent m')) (cont m (ent m)) -> (x = false -> nent m' = nent m \/ nent m' = N.of_nat (used m' (ent m'))) -> st m' A x.
Proof.
  intros m m' A x [I P U C] I' P' N. assert (PA : Permutation (cont m' (ent m')) A) by (rewrite P'; auto). constructor; auto.
  intros X. destruct (N X) as [-> | ->]; auto. rewrite <- (len_cont pp), PA. auto.
Qed.
Lemma room_lim : forall m A x, st m A x -> room A -> lim (used m (ent m)).
Proof. intros m A x S R. rewrite (st_used m A x S). exact R. Qed.

(** ** Found and not found *)
Lemma hit_facts : forall m A x k r, st m A x -> valid k -> hit rmode pp hf cmp m k r ->
  r_obj r <> 0%N /\ mem k A = true /\ obj k A = r_obj r /\ length A = S (length (del k A)) /\ Permutation (rest pp m r) (del k A) /\ uniq (del k A) /\ fresh k (del k A).
Proof.
  intros m A x k r S V (s & n & Es & Ls & Zs & Ev & Vo & Sm & _). pose proof (st_valid m A x) as VA. destruct S as [I P U C].
  pose proof (cont_split pp hf m s Ls Zs) as SP. rewrite Ev in SP.
  assert (PA : Permutation A (r_obj r :: cont m (updN (ent m) s 0%N))) by (rewrite <- P; auto).
  assert (VA' : forall y, In y A -> valid y) by (intros y; apply VA; constructor; auto).
  assert (PD := found_del pp hf cmp CT k (r_obj r) A _ V Vo VA' U PA Sm).
  assert (Z : r_obj r <> 0%N) by (destruct Vo; auto).
  split; auto. split; [apply (found_mem cmp k (r_obj r) A _ PA Sm)|]. split; [apply (found_obj pp hf cmp CT k (r_obj r) A _ V Vo VA' U PA Sm)|].
  split; [rewrite (Permutation_length PA), (Permutation_length PD); auto|].
  split; [unfold rest; destruct (N.eqb_spec (r_obj r) 0); [congruence|]; rewrite Es; symmetry; auto|].
  split.
  - apply (uniq_perm cmp (cont m (updN (ent m) s 0%N))); [symmetry; auto|]. apply (uniq_tail cmp (r_obj r)). apply (uniq_perm cmp A); auto.
  - apply (fresh_perm cmp k (cont m (updN (ent m) s 0%N))); [symmetry; auto|]. apply (rest_fresh pp hf cmp CT k (r_obj r) A); auto.
Qed.
Lemma miss_facts : forall m A x k, st m A x -> fresh k (cont m (ent m)) -> fresh k A /\ mem k A = false /\ obj k A = 0%N /\ del k A = A.
Proof.
  intros m A x k [I P U C] F. assert (FA : fresh k A) by (apply (fresh_perm cmp k (cont m (ent m))); auto). split; auto.
  split; [apply fresh_mem; auto|]. split; [apply fresh_obj; auto | apply fresh_del; auto].
Qed.
(** the list after installing [d] *)
Lemma uniq_new : forall A k d, valid k -> valid d -> same d k = true -> (forall y, In y A -> valid y) -> uniq A -> fresh k A -> uniq (d :: A).
Proof.
  intros A k d Vk Vd S VA U F. apply (uniq_cons pp hf cmp CT); auto. intros y Y. rewrite (same_sym pp hf cmp CT) by auto.
  rewrite (same_trans_f pp hf cmp CT d k y) by auto. rewrite (same_sym pp hf cmp CT) by auto. apply F; auto.
Qed.
Lemma del_valid : forall A k, (forall y, In y A -> valid y) -> forall y, In y (del k A) -> valid y.
Proof. intros A k H y Y. apply filter_In in Y. apply H, Y. Qed.

(** ** A probe before an insertion *)
Definition limit0 (m : rmap) (k : N) (b : behavior) : nat := match b with BInsert => if rmode then plim m else bound_get m (hf k) | _ => plim m end.
Lemma probe_ins : forall m A x k b, st m A x -> valid k -> (b = BInsert \/ b = BRh /\ fresh k A) ->
  exists r, probe rmode pp cmp m (hf k) k (plim m) b = Ret r /\
    ((r_slot r = None /\ r_pr r = None) \/ (dest rmode hf m k r /\ r_np r <= plim m)) /\
    (r_obj r = 0%N -> fresh k (cont m (ent m))) /\ (r_obj r <> 0%N -> hit rmode pp hf cmp m k r).
Proof.
  intros m A x k b S V B. pose proof S as [I P U C]. pose proof (bound_get_plim rmode pp hf (ent m) m none (hf k) (proj1 I)) as BP.
  destruct (probe_ok rmode pp cmp m (hf k) k (plim m) b (fun _ => BP)) as (r & E & PS).
  exists r. split; auto. split; [|split].
  - eapply probe_dest; eauto. destruct B as [-> | (-> & _)]; discriminate.
  - intros Z. destruct B as [-> | (-> & F)].
    + eapply probe_miss; eauto; try discriminate. destruct rmode; auto.
    + apply (fresh_perm cmp k A); auto. symmetry. auto.
  - intros Z. eapply probe_hit; eauto.
Qed.
(** raising the bound before storing *)
Lemma bound_ins : forall m A x k r, st m A x -> room A -> dest rmode hf m k r -> r_np r <= plim m ->
  let m' := bound_set m (hf k) (r_np r) in
  st m' A x /\ dest rmode hf m' k r /\ r_np r <= bound_get m' (hf k) /\ r_np r <= pmax m' /\
  (hit rmode pp hf cmp m k r -> hit rmode pp hf cmp m' k r) /\ rest pp m' r = rest pp m r /\ cont m' (ent m') = cont m (ent m) /\
  (forall B, Tr any any B m m').
Proof.
  intros m A x k r S R D Np m'. pose proof S as [I P U C]. pose proof (i_wf _ _ _ _ _ _ (proj1 I)) as W.
  assert (Sm : rmode = false -> r_np r < 255).
  { pose proof (room_lim m A x S R) as Lm. unfold dest in D. destruct (r_pr r) as [f|].
    - destruct D as (j & _ & E & _ & Pa & _). rewrite E in *. apply (lim_idx rmode pp m (ent m) (hf k) j); auto.
    - destruct (r_slot r) as [s|]; [|contradiction]. destruct D as (n & _ & E & _ & Pa & _). rewrite E in *. apply (lim_idx rmode pp m (ent m) (hf k) n); auto. }
  destruct (bound_set_raised rmode m (hf k) (r_np r) Np Sm) as (Ra & B1 & B2).
  destruct (bound_set_fields rmode m (hf k) (r_np r)) as (F1 & F2 & F3 & F4 & F5 & F6 & F7 & F8). fold m' in Ra, B1, B2, F1, F2, F3, F4, F5, F6, F7, F8.
  assert (Ee : forall t, ent m' t = ent m t) by (intros; unfold ent; rewrite F3; auto).
  assert (Ep : forall t, prb m' t = prb m t) by (intros; unfold prb; rewrite F4; auto).
  assert (Ew : forall t, wnt m' t = wnt m t) by (intros; unfold wnt; rewrite F5; auto).
  assert (Ec : cont m' (ent m') = cont m (ent m)) by (apply cont_cap; auto).
  assert (Epi : forall g j, pi m' g j = pi m g j) by (intros; apply pi_cap; auto).
  assert (I' : Inv m').
  { split; [|eapply Wok_ext; [exact (proj2 I) | auto | auto | auto]]. apply inv_ext with (e := ent m); [|intros; auto]. apply inv_raised with (m := m); auto. apply (proj1 I). }
  split; [|split; [|split; [|split; [|split; [|split; [|split]]]]]]; auto.
  - apply (st_new m); auto. rewrite Ec. auto.
  - unfold dest in *. destruct (r_pr r) as [f|].
    + destruct D as (j & E1 & E2 & E3 & E4 & E5). exists j. rewrite Epi, Ee. do 3 (split; auto). split; auto. intros a A'. rewrite Epi, Ee. auto.
    + destruct (r_slot r) as [s|]; auto. destruct D as (n & E1 & E2 & E3 & E4 & E5). exists n. rewrite Epi, Ee, Ep. unfold nc in *. rewrite F1.
      do 3 (split; auto). split; auto. intros a A'. rewrite Epi, Ee. auto.
  - intros (s & n & H1 & H2 & H3 & H4 & H5 & H6 & H7 & H8 & H9 & H10 & H11 & H12). exists s, n. rewrite F1, Ee, Ep, Epi. unfold nc in *. rewrite F1.
    pose proof (ra_get _ _ _ Ra (hf k)). pose proof (proj1 (ra_max _ _ _ Ra)). repeat (split; [solve [auto | lia] |]). auto.
  - unfold rest. rewrite Ec. destruct (N.eqb (r_obj r) 0); auto. destruct (r_slot r); auto. apply cont_cap; auto. intros t T. unfold updN. destruct (N.eqb t n); auto.
  - intros B. apply Tr_bound; auto.
Qed.

(** ** Counting and growing *)
Lemma grow_st : forall fuel hs A x c, st (mp hs) A x -> lim1 rmode (length A) ->
  match grow_op rmode pp hf oracle fuel hs c with
  | Ret (hs', b) => st (mp hs') A x /\ alc hs <= alc hs' /\ lfac hs' = lfac hs /\ (b = false -> mp hs' = mp hs) /\ (c = (cap (mp hs) * 2)%N -> b = false -> failed (alc hs) (alc hs')) /\
      Tr any any A (mp hs) (mp hs')
  | Loop => True
  | _ => False
  end.
Proof.
  intros fuel hs A x c S L. unfold grow_op. pose proof S as [I P U C]. rewrite <- (st_used _ _ _ S) in L.
  pose proof (grow_ok rmode pp hf oracle fuel (lfac hs) (mp hs) (alc hs) c (Inv_words rmode pp hf _ I) L) as G.
  pose proof (grow2_failed rmode pp hf oracle fuel (lfac hs) (mp hs) (alc hs)) as GF.
  destruct (grow rmode pp hf oracle fuel (lfac hs) (mp hs) (alc hs) c) as [((u & al) & []) | | |] eqn:E; cbn [bind]; auto; cbn [mp alc lfac].
  - destruct G as (G1 & G2 & G3 & G4 & G5). split; [apply (st_new (mp hs)); auto|]. split; [lia|]. split; auto. split; [discriminate|]. split; [discriminate|].
    apply Tr_map; auto; [apply (i_wf _ _ _ _ _ _ (proj1 I))|]. intros y Y. rewrite <- P. auto.
  - destruct G as (G1 & ->). split; auto. split; auto. split; auto. split; auto. split; [|apply Tr_refl]. intros -> _. eapply GF; eauto. apply (i_wf _ _ _ _ _ _ (proj1 I)).
Qed.
Lemma nent_st : forall m A x v, st m A x -> st (set_nent m v) A true.
Proof.
  intros m A x v [I P U C]. constructor; auto; [|discriminate]. destruct I as (I & W). split; [|eapply Wok_ext; eauto].
  apply inv_raised with (m := m); auto. apply raised_same; auto.
Qed.
Lemma count_up_ok : forall fuel hs m A x d, Inv m -> Permutation (cont m (ent m)) (d :: A) -> uniq (d :: A) -> (x = false -> nent m = N.of_nat (length A)) -> room A ->
  match count_up rmode pp hf oracle fuel hs m with
  | Ret hs' => st (mp hs') (d :: A) x /\ alc hs <= alc hs' /\ Tr any any (d :: A) m (mp hs') | Loop => True | _ => False end.
Proof.
  intros fuel hs m A x d I P U C R. unfold count_up.
  assert (S : st (set_nent m ((nent m + 1) mod 2 ^ 64)) (d :: A) x).
  { assert (S0 : st m (d :: A) true) by (constructor; auto; discriminate). apply (nent_st m _ _ ((nent m + 1) mod 2 ^ 64)) in S0.
    destruct S0 as [Q1 Q2 Q3 Q4]. constructor; auto. intros X. cbn [nent set_nent]. rewrite (C X). unfold Rhs_Spec.room in R.
    rewrite N.mod_small; [simpl length; lia|]. change (2 ^ 64)%N with 18446744073709551616%N. destruct rmode; lia. }
  match goal with |- context [if ?c then _ else _] => destruct c end; [|split; auto; split; auto; apply Tr_same; auto].
  pose proof (grow_st fuel (with_map hs (set_nent m ((nent m + 1) mod 2 ^ 64))) (d :: A) x) as G. cbn [with_map mp alc] in G.
  specialize (G (cap (set_nent m ((nent m + 1) mod 2 ^ 64)) * 2)%N S).
  lapply G; [clear G; intros G | simpl length; apply lim1_S; exact R].
  unfold with_map. destruct (grow_op rmode pp hf oracle fuel _ _) as [(hs' & b) | | |]; cbn [bind fst]; auto.
  destruct G as (G1 & G2 & _ & _ & _ & GT). split; auto. split; auto. eapply Tr_trans; [|exact GT]. apply Tr_same; auto.
Qed.

Lemma InP : forall (A B : list N), Permutation A B -> incl A B.
Proof. intros A B P x X. rewrite <- P. auto. Qed.
Lemma InC : forall (A B : list N) k, Permutation A B -> incl (k :: A) (k :: B).
Proof. intros A B k P. apply InP. auto. Qed.

(** ** put *)
Lemma put_ok : forall n fuel hs k b A x, st (mp hs) A x -> valid k -> room A -> (b = BInsert \/ b = BRh /\ fresh k A) ->
  match put_loop rmode pp hf cmp oracle n fuel hs k b with
  | Ret (hs', r) => st (mp hs') (if r then k :: A else A) x /\ alc hs <= alc hs' /\ (if r then mem k A = false else mem k A = true \/ failed (alc hs) (alc hs')) /\ Tr any any (if r then k :: A else A) (mp hs) (mp hs')
  | Loop => True
  | _ => False
  end.
Proof.
  induction n; intros fuel hs k b A x S V R B; [exact I|]. cbn [put_loop].
  destruct (probe_ins (mp hs) A x k b S V B) as (r & E & D & Mi & Hi). rewrite E. cbn [bind].
  assert (G : match bind (grow_op rmode pp hf oracle fuel hs (cap (mp hs) * 2)) (fun g => let '(hs0, ok) := g in if ok then put_loop rmode pp hf cmp oracle n fuel hs0 k b else Ret (hs0, false)) with
    | Ret (hs', r) => st (mp hs') (if r then k :: A else A) x /\ alc hs <= alc hs' /\ (if r then mem k A = false else mem k A = true \/ failed (alc hs) (alc hs')) /\ Tr any any (if r then k :: A else A) (mp hs) (mp hs')
    | Loop => True | _ => False end).
  { pose proof (grow_st fuel hs A x (cap (mp hs) * 2) S (lim_1 rmode _ R)) as G.
    destruct (grow_op rmode pp hf oracle fuel hs (cap (mp hs) * 2)) as [(hs1 & []) | | |]; cbn [bind]; auto.
    - destruct G as (G1 & G2 & _ & _ & _ & GT). specialize (IHn fuel hs1 k b A x G1 V R B). destruct (put_loop rmode pp hf cmp oracle n fuel hs1 k b) as [(hs2 & r2) | | |]; auto.
      destruct IHn as (Q1 & Q2 & Q3 & Q4). split; auto. split; [lia|]. split; [destruct r2; auto; destruct Q3; auto; right; eapply failed_le; [| |eauto]; lia|].
      eapply Tr_step; [exact GT | destruct r2; auto using incl_tl, incl_refl | exact Q4].
    - destruct G as (G1 & G2 & _ & _ & G3 & GT). auto 12. }
  assert (M : dest rmode hf (mp hs) k r -> r_np r <= plim (mp hs) ->
    match (if N.eqb (r_obj r) 0 then
             bind (install rmode pp hf cmp oracle false fuel hs (bound_set (mp hs) (hf k) (r_np r)) (hf k) (marshal k (hf k)) r) (fun i =>
             match i with
             | Again hs => put_loop rmode pp hf cmp oracle n fuel hs k b
             | Failed hs => Ret (hs, false)
             | Done m => bind (count_up rmode pp hf oracle fuel hs m) (fun hs => Ret (hs, true))
             end)
           else Ret (hs, false)) with
    | Ret (hs', r) => st (mp hs') (if r then k :: A else A) x /\ alc hs <= alc hs' /\ (if r then mem k A = false else mem k A = true \/ failed (alc hs) (alc hs')) /\ Tr any any (if r then k :: A else A) (mp hs) (mp hs')
    | Loop => True | _ => False end).
  { intros De Np. destruct (N.eqb_spec (r_obj r) 0) as [Z | Z].
    - destruct (miss_facts (mp hs) A x k S (Mi Z)) as (Fr & M1 & M2 & M3).
      destruct (bound_ins (mp hs) A x k r S R De Np) as (S' & De' & B1 & B2 & _ & Re & Ce & Tb).
      pose proof (install_ok rmode pp hf cmp oracle CT false fuel hs _ k k r (s_inv _ _ _ S') (room_lim _ _ _ S' R) V (same_refl cmp k) V De' B1 B2) as IN.
      lapply IN; [clear IN; intros IN | congruence].
      destruct (install rmode pp hf cmp oracle false fuel hs _ (hf k) (marshal k (hf k)) r) as [[m' | hs' | hs'] | | |]; cbn [bind]; auto.
      + destruct IN as (I1 & I2 & I3 & T1). unfold rest in I2. rewrite Z in I2. simpl in I2. rewrite (s_perm _ _ _ S') in I2.
        pose proof (count_up_ok fuel hs m' A x k I1 I2) as CU.
        lapply CU; [clear CU; intros CU|]. 2: { apply (uniq_cons pp hf cmp CT); auto; [intros y; apply (st_valid (mp hs) A x); auto | apply (s_uniq _ _ _ S)]. }
        lapply CU; [clear CU; intros CU | intros X; rewrite I3; apply (s_cnt _ _ _ S'); auto]. specialize (CU R).
        destruct (count_up rmode pp hf oracle fuel hs m') as [hs' | | |]; cbn [bind]; auto. destruct CU as (CU1 & CU2 & CU3). split; auto. split; auto. split; auto.
        eapply Tr_trans; [apply Tb|]. eapply Tr_step; [exact T1 | | exact CU3]. apply InC. apply (s_perm _ _ _ S').
      + destruct IN as (I1 & I2 & I3 & I4 & I5 & T1). split; [apply (st_new _ _ A x S'); auto|]. split; auto. split; auto.
        eapply Tr_trans; [apply Tb|]. eapply Tr_incl; [exact T1 | apply InP; apply (s_perm _ _ _ S')].
      + destruct IN as (I1 & I2 & I3 & I4 & T1). assert (S2 : st (mp hs') A x) by (apply (st_new _ _ A x S'); auto).
        specialize (IHn fuel hs' k b A x S2 V R B). destruct (put_loop rmode pp hf cmp oracle n fuel hs' k b) as [(hs2 & r2) | | |]; auto.
        destruct IHn as (Q1 & Q2 & Q3 & Q4). split; auto. split; [lia|]. split; [destruct r2; auto; destruct Q3; auto; right; eapply failed_le; [| |eauto]; lia|].
        eapply Tr_trans; [apply Tb|]. eapply Tr_step; [exact T1 | | exact Q4]. destruct r2; [apply incl_tl|]; apply InP; apply (s_perm _ _ _ S').
    - destruct (hit_facts (mp hs) A x k r S V (Hi Z)) as (_ & M1 & _). split; auto. split; auto. split; auto. apply Tr_refl. }
  destruct D as [(D1 & D2) | (D1 & D2)].
  - rewrite D1, D2. exact G.
  - specialize (M D1 D2). destruct (r_slot r); auto. destruct (r_pr r); auto.
Qed.

(** ** set and apply *)
Lemma inst_st : forall m m' A x k d r, st m A x -> valid k -> valid d -> same d k = true -> hit rmode pp hf cmp m k r ->
  Inv m' -> Permutation (cont m' (ent m')) (d :: rest pp m r) -> nent m' = nent m -> st m' (d :: del k A) x.
Proof.
  intros m m' A x k d r S V Vd Sd H I P Ne. destruct (hit_facts m A x k r S V H) as (Z & M1 & M2 & M3 & M4 & M5 & M6).
  constructor; auto.
  - rewrite P, M4. auto.
  - apply (uniq_new (del k A) k d); auto. apply del_valid. intros y; apply (st_valid m A x); auto.
  - intros X. rewrite Ne, (s_cnt _ _ _ S X), M3. auto.
Qed.
Lemma set_ok : forall n fuel hs k A x, st (mp hs) A x -> valid k -> room A ->
  match set_loop rmode pp hf cmp oracle n fuel hs k with
  | Ret (hs', (b, v)) => st (mp hs') (if b then k :: del k A else A) x /\ alc hs <= alc hs' /\ (if b then v = obj k A else failed (alc hs) (alc hs')) /\ Tr any any (if b then k :: A else A) (mp hs) (mp hs')
  | Loop => True
  | _ => False
  end.
Proof.
  induction n; intros fuel hs k A x S V R; [exact I|]. cbn [set_loop].
  destruct (probe_ins (mp hs) A x k BInsert S V (or_introl eq_refl)) as (r & E & D & Mi & Hi). rewrite E. cbn [bind].
  destruct D as [(D1 & D2) | (De & Np)].
  - rewrite D1, D2. pose proof (grow_st fuel hs A x (cap (mp hs) * 2) S (lim_1 rmode _ R)) as G.
    destruct (grow_op rmode pp hf oracle fuel hs (cap (mp hs) * 2)) as [(hs1 & []) | | |]; cbn [bind]; auto.
    + destruct G as (G1 & G2 & _ & _ & _ & GT). specialize (IHn fuel hs1 k A x G1 V R). destruct (set_loop rmode pp hf cmp oracle n fuel hs1 k) as [(hs2 & (r2 & v2)) | | |]; auto.
      destruct IHn as (Q1 & Q2 & Q3 & Q4). split; auto. split; [lia|]. split; [destruct r2; auto; eapply failed_le; [| |eauto]; lia|].
      eapply Tr_step; [exact GT | destruct r2; auto using incl_tl, incl_refl | exact Q4].
    + destruct G as (G1 & G2 & _ & _ & G3 & GT). auto 12.
  - destruct (bound_ins (mp hs) A x k r S R De Np) as (S' & De' & B1 & B2 & Hh & Re & Ce & Tb).
    pose proof (install_ok rmode pp hf cmp oracle CT true fuel hs _ k k r (s_inv _ _ _ S') (room_lim _ _ _ S' R) V (same_refl cmp k) V De' B1 B2) as IN.
    lapply IN; [clear IN; intros IN | auto].
    assert (M : match bind (install rmode pp hf cmp oracle true fuel hs (bound_set (mp hs) (hf k) (r_np r)) (hf k) (marshal k (hf k)) r) (fun i =>
             match i with
             | Again hs => set_loop rmode pp hf cmp oracle n fuel hs k
             | Failed hs => Ret (hs, (false, 0%N))
             | Done m => if N.eqb (r_obj r) 0 then bind (count_up rmode pp hf oracle fuel hs m) (fun hs => Ret (hs, (true, 0%N))) else Ret (with_map hs m, (true, r_obj r))
             end) with
      | Ret (hs', (b, v)) => st (mp hs') (if b then k :: del k A else A) x /\ alc hs <= alc hs' /\ (if b then v = obj k A else failed (alc hs) (alc hs')) /\ Tr any any (if b then k :: A else A) (mp hs) (mp hs')
      | Loop => True | _ => False end).
    { destruct (install rmode pp hf cmp oracle true fuel hs _ (hf k) (marshal k (hf k)) r) as [[m' | hs' | hs'] | | |]; cbn [bind]; auto.
      + destruct IN as (I1 & I2 & I3 & T1). destruct (N.eqb_spec (r_obj r) 0) as [Z | Z].
        * destruct (miss_facts (mp hs) A x k S (Mi Z)) as (Fr & M1 & M2 & M3). rewrite M2, M3.
          unfold rest in I2. rewrite Z in I2. simpl in I2. rewrite (s_perm _ _ _ S') in I2.
          pose proof (count_up_ok fuel hs m' A x k I1 I2) as CU.
          lapply CU; [clear CU; intros CU|]. 2: { apply (uniq_cons pp hf cmp CT); auto; [intros y; apply (st_valid (mp hs) A x); auto | apply (s_uniq _ _ _ S)]. }
          lapply CU; [clear CU; intros CU | intros X; rewrite I3; apply (s_cnt _ _ _ S'); auto]. specialize (CU R).
          destruct (count_up rmode pp hf oracle fuel hs m') as [hs' | | |]; cbn [bind]; auto. destruct CU as (CU1 & CU2 & CU3). split; auto. split; auto. split; auto.
          eapply Tr_trans; [apply Tb|]. eapply Tr_step; [exact T1 | | exact CU3]. apply InC. apply (s_perm _ _ _ S').
        * destruct (hit_facts (mp hs) A x k r S V (Hi Z)) as (_ & M1 & M2 & _). cbn [with_map mp alc].
          split; [|split; [auto | split; auto]].
          -- apply (inst_st _ m' A x k k r S'); auto. apply same_refl.
          -- eapply Tr_trans; [apply Tb|]. eapply Tr_incl; [exact T1|]. apply InC. apply (s_perm _ _ _ S').
      + destruct IN as (I1 & I2 & I3 & I4 & I5 & T1). split; [apply (st_new _ _ A x S'); auto|]. split; auto. split; auto.
        eapply Tr_trans; [apply Tb|]. eapply Tr_incl; [exact T1 | apply InP; apply (s_perm _ _ _ S')].
      + destruct IN as (I1 & I2 & I3 & I4 & T1). assert (S2 : st (mp hs') A x) by (apply (st_new _ _ A x S'); auto).
        specialize (IHn fuel hs' k A x S2 V R). destruct (set_loop rmode pp hf cmp oracle n fuel hs' k) as [(hs2 & (r2 & v2)) | | |]; auto.
        destruct IHn as (Q1 & Q2 & Q3 & Q4). split; auto. split; [lia|]. split; [destruct r2; auto; eapply failed_le; [| |eauto]; lia|].
        eapply Tr_trans; [apply Tb|]. eapply Tr_step; [exact T1 | | exact Q4]. destruct r2; [apply incl_tl|]; apply InP; apply (s_perm _ _ _ S'). }
    unfold dest in De. destruct (r_slot r); [exact M|]. destruct (r_pr r); [exact M | contradiction].
Qed.
(** the keys that remain are not in the slot of the object found *)
Lemma del_X : forall m A x k r s y, st m A x -> valid k -> hit rmode pp hf cmp m k r -> r_slot r = Some s -> valid y -> mem y (del k A) = true ->
  forall z, valid z -> same z y = true -> ent m s = marshal z (hf z) -> False.
Proof.
  intros m A x k r s y S V H Es Vy M z Vz Sz E. destruct (hit_facts m A x k r S V H) as (_ & _ & _ & _ & _ & _ & F).
  destruct H as (s' & n & Es' & Ls & Zs & Ev & Vo & Sm & _). rewrite Es in Es'. injection Es' as <-. rewrite E, val_marshal in Ev by auto. subst z.
  apply existsb_exists in M. destruct M as (a & Ia & Sa). specialize (F a Ia).
  assert (Va : valid a) by (eapply del_valid; eauto; intros b; apply (st_valid m A x); auto).
  assert (X : same a k = true); [|congruence].
  apply (c_trans _ _ _ CT a y k); auto. apply (c_trans _ _ _ CT y (r_obj r) k); auto. apply (c_sym _ _ _ CT); auto.
Qed.
(** deleting the object found *)
Lemma del_ok : forall fuel m A x k r s v, st m A x -> room A -> valid k -> hit rmode pp hf cmp m k r -> r_slot r = Some s ->
  (x = false -> v = N.of_nat (length (del k A))) ->
  match shift_delete rmode fuel (set_nent m v) s with Ret m' => st m' (del k A) x /\ Tr (fun y _ => mem y (del k A) = true) any (del k A) m m' | Loop => True | _ => False end.
Proof.
  intros fuel m A x k r s v S R V H Es Hv. destruct (hit_facts m A x k r S V H) as (Z & M1 & M2 & M3 & M4 & M5 & M6). pose proof (fun y => del_X m A x k r s y S V H Es) as DX.
  destruct H as (s' & n & Es' & Ls & Zs & _). rewrite Es in Es'. injection Es' as <-.
  pose proof (nent_st m A x v S) as S1. pose proof (room_lim _ _ _ S1 R) as L1.
  pose proof (shift_delete_ok rmode pp hf cmp fuel (set_nent m v) s (s_inv _ _ _ S1)) as SD.
  lapply SD; [clear SD; intros SD | pose proof (lim_512 rmode _ L1); lia]. specialize (SD Ls Zs).
  destruct (shift_delete rmode fuel (set_nent m v) s) as [m' | | |]; cbn [del_post] in SD; auto. destruct SD as (I1 & P1 & (F1 & F2 & F3 & F4) & T1).
  unfold rest in M4. destruct (N.eqb_spec (r_obj r) 0); [congruence|]. rewrite Es in M4.
  split; [constructor; auto|].
  - rewrite P1. exact M4.
  - intros X. rewrite F4. cbn [nent set_nent]. auto.
  - eapply Tr_trans with (b := m) (Y := nat_ s).
    + intros on y w Hy. exists w. split; [constructor|]. intros O. destruct (Hy O) as (Vy & (_ & (z & Vz & Sz & _ & Ez) & _) & My). intros C. rewrite C in Ez.
      apply (DX y Vy My z Vz Sz Ez).
    + eapply Tr_trans; [apply (Tr_same _ _ _ _ _ _ m (set_nent m v)); auto|]. eapply Tr_incl; [exact T1|]. apply InP. exact M4.
Qed.
Lemma nent_id : forall m, set_nent m (nent m) = m.
Proof. destruct m; reflexivity. Qed.
Definition apA (k : N) (fn : N -> N) (A : list N) : list N :=
  if N.eqb (fn (obj k A)) 0 then del k A else if N.eqb (fn (obj k A)) (obj k A) then A else fn (obj k A) :: del k A.
Lemma st_weak : forall m A x y, st m A x -> st m A (x || y).
Proof. intros m A x y [I P U C]. constructor; auto. intros X. apply orb_false_iff in X. apply C, X. Qed.
Definition TA (A' A : list N) (m m' : rmap) : Prop := Tr (fun y _ => mem y A' = true) any (A ++ A') m m'.
Lemma TA_any : forall A A' B m m', Tr any any B m m' -> incl B (A ++ A') -> TA A' A m m'.
Proof. intros A A' B m m' H I. eapply Tr_weak; [exact H | exact (fun _ _ _ _ => Logic.I) | auto | auto]. Qed.
Lemma TA_then : forall A A' B m u m', Tr any any B m u -> incl B (A ++ A') -> TA A' A u m' -> TA A' A m m'.
Proof.
  intros A A' B m u m' H I T on y w Hy. destruct (H on y w) as (w1 & T1 & _); [intros O; destruct (Hy O) as (V & F & _); split; auto; split; auto; exact Logic.I|].
  destruct (T on y w1) as (w2 & T2 & _).
  - intros O. destruct (Hy O) as (V & F & M). split; auto. split; auto. eapply tr_fnd; eauto.
  - exists w2. split; [|intros; exact Logic.I]. eapply tr_trans; [eapply tr_incl; [exact I | exact T1] | exact T2].
Qed.
Lemma apply_ok : forall n fuel hs k fn dl A x, st (mp hs) A x -> valid k -> room A -> (dl = None \/ dl = Some (fn (obj k A))) ->
  (fn (obj k A) = 0%N \/ valid (fn (obj k A)) /\ same (fn (obj k A)) k = true) ->
  match apply_loop rmode pp hf cmp oracle n fuel hs k fn dl with
  | Ret (hs', b) => st (mp hs') (if b then apA k fn A else A) (x || mem k A && N.eqb (fn (obj k A)) 0) /\ alc hs <= alc hs' /\ (if b then True else failed (alc hs) (alc hs')) /\ TA (if b then apA k fn A else A) A (mp hs) (mp hs')
  | Loop => True
  | _ => False
  end.
Proof.
  induction n; intros fuel hs k fn dl A x S V R Hdl Hfn; [exact I|]. cbn [apply_loop].
  destruct (probe_ins (mp hs) A x k BInsert S V (or_introl eq_refl)) as (r & E & D & Mi & Hi). rewrite E. cbn [bind].
  assert (Eo : r_obj r = obj k A).
  { destruct (N.eq_dec (r_obj r) 0) as [Z | Z].
    - destruct (miss_facts (mp hs) A x k S (Mi Z)) as (_ & _ & M & _). congruence.
    - destruct (hit_facts (mp hs) A x k r S V (Hi Z)) as (_ & _ & M & _). auto. }
  destruct D as [(D1 & D2) | (De & Np)].
  - rewrite D1, D2. pose proof (grow_st fuel hs A x (cap (mp hs) * 2) S (lim_1 rmode _ R)) as G.
    destruct (grow_op rmode pp hf oracle fuel hs (cap (mp hs) * 2)) as [(hs1 & []) | | |]; cbn [bind]; auto.
    + destruct G as (G1 & G2 & _ & _ & _ & GT). specialize (IHn fuel hs1 k fn dl A x G1 V R Hdl Hfn). destruct (apply_loop rmode pp hf cmp oracle n fuel hs1 k fn dl) as [(hs2 & r2) | | |]; auto.
      destruct IHn as (Q1 & Q2 & Q3 & Q4). split; auto. split; [lia|]. split; [destruct r2; auto; eapply failed_le; [| |eauto]; lia|].
      eapply TA_then; [exact GT | auto with datatypes | exact Q4].
    + destruct G as (G1 & G2 & _ & _ & G3 & GT). split; [apply st_weak; auto|]. split; auto. split; auto. eapply TA_any; [exact GT | auto with datatypes].
  - replace (match dl with Some d => d | None => fn (r_obj r) end) with (fn (obj k A)) by (destruct Hdl as [-> | ->]; congruence).
    set (d := fn (obj k A)) in *.
    destruct (bound_ins (mp hs) A x k r S R De Np) as (S' & De' & B1 & B2 & Hh & Re & Ce & Tb).
    assert (M : match (if N.eqb d 0 then
            if N.eqb (r_obj r) 0 then Ret (hs, true)
            else match r_slot r with
            | Some s => bind (shift_delete rmode fuel (mp hs) s) (fun m => Ret (with_map hs m, true))
            | None => Null
            end
          else if N.eqb d (r_obj r) then Ret (hs, true)
          else
            bind (install rmode pp hf cmp oracle true fuel hs (bound_set (mp hs) (hf k) (r_np r)) (hf k) (marshal d (hf k)) r) (fun i =>
            match i with
            | Again hs => apply_loop rmode pp hf cmp oracle n fuel hs k fn (Some d)
            | Failed hs => Ret (hs, false)
            | Done m =>
                if N.eqb (r_obj r) 0 then bind (count_up rmode pp hf oracle fuel hs m) (fun hs => Ret (hs, true))
                else Ret (with_map hs m, true)
            end)) with
      | Ret (hs', b) => st (mp hs') (if b then apA k fn A else A) (x || mem k A && N.eqb d 0) /\ alc hs <= alc hs' /\ (if b then True else failed (alc hs) (alc hs')) /\ TA (if b then apA k fn A else A) A (mp hs) (mp hs')
      | Loop => True | _ => False end).
    { unfold apA. fold d. destruct (N.eqb_spec d 0) as [Zd | Zd].
      - destruct (N.eqb_spec (r_obj r) 0) as [Z | Z].
        + destruct (miss_facts (mp hs) A x k S (Mi Z)) as (Fr & M1 & M2 & M3). rewrite M3. split; [apply st_weak; auto|]. split; auto. split; auto. apply Tr_weak with (X := any) (Y := any) (B := []); auto using Tr_refl; [exact (fun _ _ _ _ => Logic.I) | intros a []].
        + pose proof (Hi Z) as H. destruct (hit_facts (mp hs) A x k r S V H) as (_ & M1 & _). rewrite M1. rewrite orb_true_r.
          pose proof H as (s & _ & Es & _). rewrite Es.
          assert (S1 : st (mp hs) A true) by (destruct S; constructor; auto; discriminate).
          pose proof (del_ok fuel (mp hs) A true k r s (nent (mp hs)) S1 R V H Es ltac:(discriminate)) as DO. rewrite nent_id in DO.
          destruct (shift_delete rmode fuel (mp hs) s) as [m' | | |]; cbn [bind]; auto. destruct DO as (DO & TD). split; auto. split; auto. split; auto.
          eapply Tr_incl; [exact TD | auto with datatypes].
      - rewrite andb_false_r, orb_false_r. rewrite <- Eo. destruct (N.eqb_spec d (r_obj r)) as [Ed | Ed]; [split; auto; split; auto; split; auto; eapply TA_any; [apply Tr_refl | apply incl_refl]|].
        destruct Hfn as [Hz | (Vd & Sd)]; [congruence|].
        pose proof (install_ok rmode pp hf cmp oracle CT true fuel hs _ k d r (s_inv _ _ _ S') (room_lim _ _ _ S' R) V Sd Vd De' B1 B2) as IN.
        lapply IN; [clear IN; intros IN | auto].
        destruct (install rmode pp hf cmp oracle true fuel hs _ (hf k) (marshal d (hf k)) r) as [[m' | hs' | hs'] | | |]; cbn [bind]; auto.
        + destruct IN as (I1 & I2 & I3 & T1). assert (IB : incl (cont (bound_set (mp hs) (hf k) (r_np r)) (ent (bound_set (mp hs) (hf k) (r_np r)))) A) by (apply InP; apply (s_perm _ _ _ S')).
          destruct (N.eqb_spec (r_obj r) 0) as [Z | Z].
          * destruct (miss_facts (mp hs) A x k S (Mi Z)) as (Fr & M1 & M2 & M3). rewrite M3.
            unfold rest in I2. rewrite Z in I2. simpl in I2. rewrite (s_perm _ _ _ S') in I2.
            pose proof (count_up_ok fuel hs m' A x d I1 I2) as CU.
            lapply CU; [clear CU; intros CU|]. 2: { apply (uniq_new A k d); auto; [intros y; apply (st_valid (mp hs) A x); auto | apply (s_uniq _ _ _ S)]. }
            lapply CU; [clear CU; intros CU | intros X; rewrite I3; apply (s_cnt _ _ _ S'); auto]. specialize (CU R).
            destruct (count_up rmode pp hf oracle fuel hs m') as [hs' | | |]; cbn [bind]; auto. destruct CU as (CU1 & CU2 & CU3). split; auto. split; auto. split; auto.
            eapply TA_any with (B := d :: A); [|apply incl_appr, incl_refl]. eapply Tr_trans; [apply Tb|]. eapply Tr_step; [exact T1 | | exact CU3]. apply InC. apply (s_perm _ _ _ S').
          * cbn [with_map mp alc]. split; [|split; [auto | split; auto]].
            -- apply (inst_st _ m' A x k d r S'); auto.
            -- eapply TA_any; [eapply Tr_trans; [apply Tb | exact T1]|]. intros a [<- | Y]; apply in_or_app; [right; left; auto | left; auto].
        + destruct IN as (I1 & I2 & I3 & I4 & I5 & T1). split; [apply (st_new _ _ A x S'); auto|]. split; auto. split; auto.
          eapply TA_any; [eapply Tr_trans; [apply Tb | exact T1]|]. apply incl_appl. apply InP; apply (s_perm _ _ _ S').
        + destruct IN as (I1 & I2 & I3 & I4 & T1). assert (S2 : st (mp hs') A x) by (apply (st_new _ _ A x S'); auto).
          specialize (IHn fuel hs' k fn (Some d) A x S2 V R (or_intror eq_refl) (or_intror (conj Vd Sd))).
          destruct (apply_loop rmode pp hf cmp oracle n fuel hs' k fn (Some d)) as [(hs2 & r2) | | |]; auto.
          destruct IHn as (Q1 & Q2 & Q3 & Q4). fold d in Q1. unfold apA in Q1, Q4. fold d in Q1, Q4.
          destruct (N.eqb_spec d 0); [congruence|]. rewrite <- Eo in Q1, Q4. destruct (N.eqb_spec d (r_obj r)); [congruence|]. rewrite andb_false_r, orb_false_r in Q1.
          split; auto. split; [lia|]. split; [destruct r2; auto; eapply failed_le; [| |eauto]; lia|].
          eapply TA_then; [eapply Tr_trans; [apply Tb | exact T1] | | exact Q4]. apply incl_appl. apply InP; apply (s_perm _ _ _ S'). }
    unfold dest in De. destruct (r_slot r); [exact M|]. destruct (r_pr r); [exact M | contradiction].
Qed.

(** ** get, remove, fas *)
Lemma probe_get : forall m A x k b, st m A x -> valid k -> (b = BNoRh \/ b = BProbe) ->
  exists r, probe rmode pp cmp m (hf k) k (bound_get m (hf k)) b = Ret r /\
    ((r_slot r = None /\ r_pr r = None) \/ (dest rmode hf m k r)) /\
    (r_obj r = 0%N -> fresh k (cont m (ent m))) /\ (r_obj r <> 0%N -> hit rmode pp hf cmp m k r).
Proof.
  intros m A x k b S V B. pose proof S as [I P U C].
  destruct (probe_ok rmode pp cmp m (hf k) k (bound_get m (hf k)) b) as (r & E & PS); [intros; auto|].
  assert (B1 : b <> BRh /\ b <> BRobin /\ b <> BInsert) by (destruct B; subst; repeat split; discriminate). destruct B1 as (B1 & B2 & B3).
  exists r. split; auto. split; [|split].
  - destruct (probe_dest rmode pp hf cmp CT m k b _ _ r I V PS B2) as [|(D & _)]; auto.
  - intros Z. eapply probe_miss; eauto. destruct b; auto; congruence.
  - intros Z. eapply probe_hit; eauto.
Qed.
Lemma get_ok : forall hs k A x, st (mp hs) A x -> valid k -> get rmode pp hf cmp hs k = Ret (obj k A).
Proof.
  intros hs k A x S V. unfold get. destruct (probe_get (mp hs) A x k BNoRh S V (or_introl eq_refl)) as (r & E & D & Mi & Hi). rewrite E. cbn [bind]. f_equal.
  destruct (N.eq_dec (r_obj r) 0) as [Z | Z].
  - destruct (miss_facts (mp hs) A x k S (Mi Z)) as (_ & _ & M & _). congruence.
  - destruct (hit_facts (mp hs) A x k r S V (Hi Z)) as (_ & _ & M & _). auto.
Qed.
Lemma remove_ok : forall fuel hs k A x, st (mp hs) A x -> valid k -> room A ->
  match remove rmode pp hf cmp fuel hs k with
  | Ret (hs', v) => st (mp hs') (del k A) x /\ alc hs' = alc hs /\ v = obj k A /\ TA (del k A) A (mp hs) (mp hs')
  | Loop => True
  | _ => False
  end.
Proof.
  intros fuel hs k A x S V R. unfold remove. destruct (probe_get (mp hs) A x k BNoRh S V (or_introl eq_refl)) as (r & E & D & Mi & Hi). rewrite E. cbn [bind].
  destruct (N.eqb_spec (r_obj r) 0) as [Z | Z].
  - destruct (miss_facts (mp hs) A x k S (Mi Z)) as (_ & _ & M2 & M3). rewrite M3. repeat (split; [auto; fail|]). eapply TA_any; [apply Tr_refl | apply incl_refl].
  - pose proof (Hi Z) as H. destruct (hit_facts (mp hs) A x k r S V H) as (_ & M1 & M2 & M3 & _). pose proof H as (s & _ & Es & _). rewrite Es.
    pose proof (del_ok fuel (mp hs) A x k r s ((nent (mp hs) + (2 ^ 64 - 1)) mod 2 ^ 64) S R V H Es) as DO.
    lapply DO; [clear DO; intros DO|].
    + destruct (shift_delete rmode fuel (set_nent (mp hs) _) s) as [m' | | |]; cbn [bind with_map mp alc]; auto. destruct DO as (DO & TD). repeat (split; [auto; fail|]). eapply Tr_incl; [exact TD | auto with datatypes].
    + intros X. rewrite (s_cnt _ _ _ S X), M3. unfold Rhs_Spec.room in R. change (2 ^ 64 - 1)%N with 18446744073709551615%N. change (2 ^ 64)%N with 18446744073709551616%N.
      replace (N.of_nat (Datatypes.S (length (del k A))) + 18446744073709551615)%N with (N.of_nat (length (del k A)) + 1 * 18446744073709551616)%N by lia.
      rewrite N.mod_add by discriminate. apply N.mod_small. destruct rmode; lia.
Qed.
Lemma fas_ok : forall fuel hs k A x, st (mp hs) A x -> valid k -> room A ->
  match fas rmode pp hf cmp oracle fuel hs k with
  | Ret (hs', (b, v)) => alc hs < alc hs' \/
      st (mp hs') (if b then k :: del k A else A) x /\ alc hs' = alc hs /\ (if b then mem k A = true /\ v = obj k A else mem k A = false) /\ Tr any any (if b then k :: A else A) (mp hs) (mp hs')
  | Loop | Stale => True
  | _ => False
  end.
Proof.
  intros fuel hs k A x S V R. unfold fas. destruct (probe_get (mp hs) A x k BProbe S V (or_intror eq_refl)) as (r & E & D & Mi & Hi). rewrite E. cbn [bind].
  destruct (N.eqb_spec (r_obj r) 0) as [Z | Z].
  { destruct (miss_facts (mp hs) A x k S (Mi Z)) as (_ & M1 & M2 & M3). right. repeat (split; [auto; fail|]). apply Tr_refl. }
  pose proof (Hi Z) as H. destruct (hit_facts (mp hs) A x k r S V H) as (_ & M1 & M2 & M3 & _).
  destruct D as [(D & _) | De]; [destruct H as (s & _ & Es & _); congruence|].
  pose proof (install_ok rmode pp hf cmp oracle CT true fuel hs (mp hs) k k r (s_inv _ _ _ S) (room_lim _ _ _ S R) V (same_refl cmp k) V De) as IN.
  pose proof (fun m' => inst_st (mp hs) m' A x k k r S V V (same_refl cmp k) H) as IS.
  pose proof H as (s & n & Es & _ & _ & _ & _ & _ & _ & _ & _ & Bg & Pm & Np).
  specialize (IN ltac:(lia) ltac:(lia) (fun _ => conj eq_refl H)). unfold install in IN. rewrite Es in *. destruct (r_pr r) as [f|].
  - destruct (put_robin_hood rmode pp hf cmp oracle fuel (lfac hs) (set_irh (mp hs) s true) (alc hs) f) as [[m1 | m1 al | old u al] | | |]; cbn [bind] in *; auto.
    + change (set_prb (bump (set_ent (set_irh m1 s false) f (marshal k (hf k))) (hf k)) f (r_np r)) with (bump (set_prb (set_ent (set_irh m1 s false) f (marshal k (hf k))) f (r_np r)) (hf k)).
      rewrite add_wanted_bump. destruct (add_wanted rmode _ f None (hf k)) as [m2 | | |]; cbn [bind] in *; auto. destruct (N.eqb_spec (r_obj r) 0); [congruence|].
      destruct (shift_delete rmode fuel (bump m2 (hf k)) s) as [m3 | | |]; cbn [bind with_map mp alc] in *; auto. right. destruct IN as (I1 & I2 & I3 & T1). split; auto. split; auto. split; auto.
      eapply Tr_incl; [exact T1|]. apply InC. apply (s_perm _ _ _ S).
    + cbn [alc mp] in *. left. destruct IN as ([(j & J & _) | F] & _); lia.
    + cbn [alc mp] in IN. destruct IN as (L & _).
      destruct (probe_ok rmode pp cmp (set_irh old s false) (hf k) k (bound_get (set_irh old s false) (hf k)) BProbe) as (r2 & E2 & _); [discriminate|]. rewrite E2. cbn [bind].
      destruct (N.eqb (r_obj r2) 0); cbn [alc]; auto. destruct (r_pr r2); cbn [alc]; auto.
  - destruct (N.eqb_spec (r_obj r) 0); [congruence|]. cbn [with_map mp alc]. right. destruct IN as (I1 & I2 & I3 & T1). split; auto. split; auto. split; auto.
    eapply Tr_incl; [exact T1|]. apply InC. apply (s_perm _ _ _ S).
Qed.

(** ** gc, the load factor, reset, iteration *)
Lemma fold_max : forall (f : N -> nat) l a, let mx := fold_left (fun mx i => if Nat.ltb mx (f i) then f i else mx) l a in
  a <= mx /\ (forall t, In t l -> f t <= mx) /\ (forall b, a <= b -> (forall t, In t l -> f t <= b) -> mx <= b).
Proof.
  induction l as [|i l IH]; intros a mx; subst mx; cbn [fold_left]; [split; [auto | split; [intros t [] | auto]]|].
  destruct (IH (if Nat.ltb a (f i) then f i else a)) as (A & B & C). cbv zeta in *.
  assert (X : a <= (if Nat.ltb a (f i) then f i else a) /\ f i <= (if Nat.ltb a (f i) then f i else a)) by (destruct (Nat.ltb_spec a (f i)); lia).
  split; [lia|]. split.
  - intros t [<- | T]; [lia | auto].
  - intros b H1 H2. apply C; [|intros; apply H2; simpl; auto]. destruct (Nat.ltb a (f i)); auto. apply H2. simpl. auto.
Qed.
Lemma gc_ok : forall hs A x, st (mp hs) A x -> st (mp (gc hs)) A x /\ Tr any any A (mp hs) (mp (gc hs)).
Proof.
  intros hs A x [I P U C]. unfold gc, with_map. cbn [mp].
  match goal with |- st (set_pmax _ ?v) _ _ /\ _ => set (mx := v) end.
  destruct (fold_max (prb (mp hs)) (slots (mp hs)) 0) as (_ & X1 & X2). fold mx in X1, X2. set (m := mp hs) in *.
  assert (G : inv (ent (set_pmax m mx)) (set_pmax m mx) none).
  2: { split; [constructor; auto; split; [exact G | eapply Wok_ext; [exact (proj2 I) | auto | auto | auto]]|].
    apply Tr_inv with (Z := none) (u := set_pmax m mx) (s := SMax mx); auto; exact Logic.I. }
  destruct I as (I & _). pose proof (fun t T => inv_prb rmode pp hf (ent m) m none t I T (fun x => x)) as IP. destruct I as [Q1 Q2 Q3 Q4 Q5]. constructor; auto.
  - intros s Hs Z NX. destruct (Q3 s Hs Z NX) as (k & i & A1 & V & Pr & L & EQ & Pa & Bg & Pm).
    assert (Li : Datatypes.S i <= mx) by (rewrite <- Pr; apply X1; apply in_slots; auto).
    exists k, i. do 4 (split; [solve [auto] |]). split; [rewrite (pi_cap rmode m) by auto; auto|].
    split; [intros j J; rewrite (pi_cap rmode m) by auto; apply Pa; auto|]. split; [|exact Li].
    clear Q1 Q2 Q3. clearbody mx m. unfold Rhs_Model.bound_get in *. destruct rmode; [exact Li|].
    destruct (Q4 eq_refl (hf k mod cap m)%N) as (B1 & B2). cbn [cap set_pmax]. change (bnd (set_pmax m mx) (hf k mod cap m)%N) with (bnd m (hf k mod cap m)%N).
    unfold WORD_MAX in *. destruct (Nat.eqb_spec (bnd m (hf k mod cap m)%N) 255); [lia | exact Bg].
  - apply X2; [lia|]. intros t T. apply in_slots in T. apply IP; auto.
Qed.
Lemma maxe_st : forall m A x v, st m A x -> st (set_maxe m v) A x.
Proof.
  intros m A x v [I P U C]. constructor; auto. destruct I as (I & W). split; [|eapply Wok_ext; [exact W | auto | auto | auto]].
  apply inv_raised with (m := m); auto. apply raised_same; auto.
Qed.
Lemma load_ok : forall n fuel hs A x, st (mp hs) A x -> room A ->
  match load_loop rmode pp hf oracle n fuel hs with
  | Ret (hs', b) => st (mp hs') A x /\ alc hs <= alc hs' /\ Tr any any A (mp hs) (mp hs') | Loop => True | _ => False end.
Proof.
  induction n; intros fuel hs A x S R; [exact I|]. cbn [load_loop]. destruct (N.ltb (maxe (mp hs)) (nent (mp hs))); [|split; auto; split; auto; apply Tr_refl].
  pose proof (grow_st fuel hs A x (cap (mp hs) * 2) S (lim_1 rmode _ R)) as G.
  destruct (grow_op rmode pp hf oracle fuel hs (cap (mp hs) * 2)) as [(hs1 & []) | | |]; cbn [bind]; auto.
  - destruct G as (G1 & G2 & _ & _ & _ & GT). specialize (IHn fuel hs1 A x G1 R). destruct (load_loop rmode pp hf oracle n fuel hs1) as [(hs2 & b) | | |]; auto.
    destruct IHn as (Q1 & Q2 & Q3). split; auto. split; [lia|]. eapply Tr_trans; eauto.
  - destruct G as (G1 & G2 & _ & _ & _ & GT). auto.
Qed.
Lemma create_st : forall lf c x, st (create lf c) [] x.
Proof.
  intros lf c x. destruct (create_inv rmode pp hf lf c) as (C1 & C2 & C3). constructor; auto.
  - rewrite C2. auto.
  - apply uniq_nil.
Qed.
Lemma reset_st : forall m lf c x A, st (publish m (create lf c)) [] x /\ TA [] A m (publish m (create lf c)).
Proof.
  intros m lf c x A. destruct (create_inv rmode pp hf lf c) as (C1 & C2 & C3). assert (I1 : Inv (publish m (create lf c))) by (apply (Inv_same rmode pp hf (create lf c)); auto).
  split; [constructor; auto|].
  - change (Permutation (cont (create lf c) (ent (create lf c))) []). rewrite C2. auto.
  - apply uniq_nil.
  - intros on y w Hy. exists w. split; [|intros; exact Logic.I].
    eapply tr_st with (s := SMap (view (create lf c))); [constructor | reflexivity | reflexivity | | left; auto|].
    + split; [exact (proj1 (i_wf _ _ _ _ _ _ (proj1 C1)))|]. intros t T. left. unfold aget. simpl. destruct (N.succ_pos t); auto.
    + intros O. destruct (Hy O) as (_ & _ & M). discriminate M.
Qed.
Lemma iterate_cont : forall hs, iterate pp hs = cont (mp hs) (ent (mp hs)).
Proof.
  intros hs. unfold iterate, RhsInv_Proof.cont. induction (slots (mp hs)); simpl; auto. destruct (N.eqb (ent (mp hs) a) 0); simpl; rewrite IHl; auto.
Qed.

(** ** All operations *)
Definition post (A : list N) (x : bool) (hs : hset) (o : op) (y : out (hset * res)) : Prop :=
  match y with
  | Ret (hs', r) => quiet o hs hs' -> st (mp hs') (aop cmp A o r) (x || ap_del cmp A o) /\ legal cmp A o r (failed (alc hs) (alc hs')) /\ TA (aop cmp A o r) A (mp hs) (mp hs')
  | Loop => True
  | Stale => exists k, o = OFas k
  | Null => False
  end.
Ltac inA := try match goal with |- context [if ?b then _ else _] => destruct b end; intros ? ?; apply in_or_app; simpl in *; tauto.
Lemma op_ok : forall fuel hs o A x, st (mp hs) A x -> room A -> pre pp cmp A o -> post A x hs o (run1 rmode pp hf cmp oracle fuel hs o).
Proof.
  intros fuel hs o A x S R PR. destruct o; unfold run1, ap_del; rewrite ?orb_false_r; simpl pre in PR.
  - unfold put. pose proof (put_ok fuel fuel hs k BInsert A x S PR R (or_introl eq_refl)) as H.
    destruct (put_loop rmode pp hf cmp oracle fuel fuel hs k BInsert) as [(hs' & r) | | |]; cbn [bind post fst snd]; auto; try contradiction. intros _.
    destruct H as (H1 & H2 & H3 & H4). unfold aop, legal, ap_del. rewrite orb_false_r. cbn [fst snd]. split; auto. split; auto.
    eapply TA_any; [exact H4 | inA].
  - unfold put_unique. destruct PR as (V & F). pose proof (put_ok fuel fuel hs k BRh A x S V R (or_intror (conj eq_refl (proj2 (fresh_mem cmp k A) F)))) as H.
    destruct (put_loop rmode pp hf cmp oracle fuel fuel hs k BRh) as [(hs' & r) | | |]; cbn [bind post fst snd]; auto; try contradiction. intros _.
    destruct H as (H1 & H2 & H3 & H4). unfold aop, legal, ap_del. rewrite orb_false_r. cbn [fst snd]. split; auto. split; auto.
    eapply TA_any; [exact H4 | inA].
  - unfold set. pose proof (set_ok fuel fuel hs k A x S PR R) as H.
    destruct (set_loop rmode pp hf cmp oracle fuel fuel hs k) as [(hs' & (b & v)) | | |]; cbn [post fst snd]; auto; try contradiction. intros _.
    destruct H as (H1 & H2 & H3 & H4). unfold aop, legal, ap_del. rewrite orb_false_r. cbn [fst snd]. split; auto. split; auto.
    eapply TA_any; [exact H4 | inA].
  - pose proof (fas_ok fuel hs k A x S PR R) as H.
    destruct (fas rmode pp hf cmp oracle fuel hs k) as [(hs' & (b & v)) | | |]; cbn [post fst snd]; auto; try contradiction; [|eauto]. unfold quiet. intros Q.
    destruct H as [H | (H1 & H2 & H3 & H4)]; [lia|]. unfold aop, legal, ap_del. rewrite orb_false_r. cbn [fst snd]. split; auto. split; [destruct b; auto|].
    eapply TA_any; [exact H4 | inA].
  - pose proof (remove_ok fuel hs k A x S PR R) as H.
    destruct (remove rmode pp hf cmp fuel hs k) as [(hs' & v) | | |]; cbn [bind post fst snd]; auto; try contradiction. intros _.
    destruct H as (H1 & H2 & H3 & H4). unfold aop, legal, ap_del. rewrite orb_false_r. auto.
  - rewrite (get_ok hs k A x S PR). cbn [bind post]. intros _. unfold aop, legal, ap_del. rewrite orb_false_r. split; auto. split; auto. eapply TA_any; [apply Tr_refl | apply incl_refl].
  - destruct PR as (V & F). unfold apply. pose proof (apply_ok fuel fuel hs k fn None A x S V R (or_introl eq_refl) F) as H.
    destruct (apply_loop rmode pp hf cmp oracle fuel fuel hs k fn None) as [(hs' & b) | | |]; cbn [bind post fst snd]; auto; try contradiction. intros _.
    destruct H as (H1 & H2 & H3 & H4). unfold aop, legal, ap_del, apA in *. cbn [fst]. auto.
  - pose proof (grow_st fuel hs A x c S (lim_1 rmode _ R)) as H. destruct (grow_op rmode pp hf oracle fuel hs c) as [(hs' & b) | | |]; cbn [bind post fst snd]; auto; try contradiction.
    intros _. destruct H as (H & _ & _ & _ & _ & HT). unfold aop, legal, ap_del. rewrite orb_false_r. split; auto. split; auto. eapply TA_any; [exact HT | inA].
  - unfold rebuild. pose proof (grow_st fuel hs A x (cap (mp hs)) S (lim_1 rmode _ R)) as H. destruct (grow_op rmode pp hf oracle fuel hs (cap (mp hs))) as [(hs' & b) | | |]; cbn [bind post fst snd]; auto; try contradiction.
    intros _. destruct H as (H & _ & _ & _ & _ & HT). unfold aop, legal, ap_del. rewrite orb_false_r. split; auto. split; auto. eapply TA_any; [exact HT | inA].
  - cbn [post]. intros _. unfold aop, legal, ap_del. rewrite orb_false_r. destruct (gc_ok hs A x S) as (G1 & G2). split; auto. split; auto. eapply TA_any; [exact G2 | inA].
  - unfold reset, reset_size. destruct (oracle (alc hs)); cbn [bind post fst snd mp]; intros _; unfold aop, legal, ap_del; rewrite orb_false_r; cbn [fst]; [|split; auto; split; auto; eapply TA_any; [apply Tr_refl | apply incl_refl]].
    match goal with |- st (publish ?m (create ?lf ?c)) _ ?x /\ _ => destruct (reset_st m lf c x A); auto end.
  - unfold reset_size. destruct (oracle (alc hs)); cbn [bind post fst snd mp]; intros _; unfold aop, legal, ap_del; rewrite orb_false_r; cbn [fst]; [|split; auto; split; auto; eapply TA_any; [apply Tr_refl | apply incl_refl]].
    match goal with |- st (publish ?m (create ?lf ?c)) _ ?x /\ _ => destruct (reset_st m lf c x A); auto end.
  - unfold set_load_factor. destruct (N.eqb lf 0 || N.ltb 100 lf); cbn [bind post fst snd].
    + intros _. unfold aop, legal, ap_del. rewrite orb_false_r. split; auto. split; auto. eapply TA_any; [apply Tr_refl | apply incl_refl].
    + pose proof (load_ok fuel fuel (mks (set_maxe (mp hs) (cap (mp hs) * lf / 100)) lf (alc hs)) A x (maxe_st _ _ _ _ S) R) as H.
      destruct (load_loop rmode pp hf oracle fuel fuel _) as [(hs' & b) | | |]; cbn [bind post fst snd]; auto; try contradiction.
      intros _. destruct H as (H & _ & HT). unfold aop, legal, ap_del. rewrite orb_false_r. split; auto. split; auto. apply TA_any with (B := A); [|inA].
      eapply Tr_trans; [|exact HT]. apply Tr_same; auto.
Qed.
Lemma reach_st : forall hs A x, reach rmode pp hf cmp oracle hs A x -> st (mp hs) A x.
Proof.
  intros hs A x H. induction H as [n al hs H | hs A x o fuel hs' r H IH P R E Q].
  - unfold init in H. destruct (oracle al); inversion H; subst. apply create_st.
  - pose proof (op_ok fuel hs o A x IH R P) as K. rewrite E in K. apply K; auto.
Qed.
End O.

(** * Statements for the property file *)
Section T.
Variables (rmode pp : bool) (hf : N -> N) (cmp : option (N -> N -> bool)) (oracle : nat -> bool).
Variable CT : contract pp hf cmp.
Notation reach := (reach rmode pp hf cmp oracle). Notation run1 := (run1 rmode pp hf cmp oracle). Notation room := (room rmode).

Lemma t_semantics : forall hs A x o fuel hs' r, reach hs A x -> pre pp cmp A o -> room A -> run1 fuel hs o = Ret (hs', r) -> quiet o hs hs' ->
  legal cmp A o r (failed oracle (alc hs) (alc hs')) /\ Permutation (iterate pp hs') (aop cmp A o r) /\ distinct cmp (aop cmp A o r).
Proof.
  intros hs A x o fuel hs' r R P Rm E Q. pose proof (reach_st rmode pp hf cmp oracle CT hs A x R) as S.
  pose proof (op_ok rmode pp hf cmp oracle CT fuel hs o A x S Rm P) as K. rewrite E in K. destruct (K Q) as ([I1 I2 I3 I4] & L & _).
  split; auto. split; [rewrite iterate_cont; exact I2 | exact I3].
Qed.
Lemma t_no_null : forall hs A x o fuel, reach hs A x -> pre pp cmp A o -> room A ->
  run1 fuel hs o <> Null /\ (run1 fuel hs o = Stale -> exists k, o = OFas k /\ mem cmp k A = true).
Proof.
  intros hs A x o fuel R P Rm. pose proof (reach_st rmode pp hf cmp oracle CT hs A x R) as S.
  pose proof (op_ok rmode pp hf cmp oracle CT fuel hs o A x S Rm P) as K. split; [intros E; rewrite E in K; exact K|].
  intros E. pose proof K as K0. rewrite E in K0. destruct K0 as (k & ->). exists k. split; auto.
  destruct (mem cmp k A) eqn:M; auto. exfalso. simpl in P. unfold Rhs_Spec.run1, fas in E.
  destruct (probe_get rmode pp hf cmp CT (mp hs) A x k BProbe S P (or_intror eq_refl)) as (r & Er & _ & _ & Hi). rewrite Er in E. cbn [bind] in E.
  destruct (N.eqb_spec (r_obj r) 0) as [Z | Z]; [discriminate|].
  destruct (hit_facts rmode pp hf cmp CT (mp hs) A x k r S P (Hi Z)) as (_ & M1 & _). congruence.
Qed.
Lemma t_iterate : forall hs A x, reach hs A x ->
  Permutation (iterate pp hs) A /\ distinct cmp (iterate pp hs) /\ (x = false -> count hs = N.of_nat (length A)).
Proof.
  intros hs A x R. destruct (reach_st rmode pp hf cmp oracle CT hs A x R) as [I P U C]. rewrite iterate_cont. split; auto.
  split; [|exact C]. apply (uniq_perm cmp A); auto. symmetry. auto.
Qed.
Lemma t_get : forall hs A x k, reach hs A x -> valid pp k -> get rmode pp hf cmp hs k = Ret (obj cmp k A).
Proof. intros hs A x k R V. eapply get_ok; eauto. eapply reach_st; eauto. Qed.
End T.
