(** C56, C57: the hash table (src/ck_ht.c) used by one thread. *)
From Coq Require Import Arith NArith List Bool Permutation.
From Verif Require Import Lib Ht_Model Ht_Spec Ht_Proof HtInv_Proof HtOps_Proof HtSet_Proof HtGc_Proof.
Import ListNotations.

Local Notation rop := (r_op true false (fun _ => 1%N) eqd h0 (fun _ _ => 0%N) okmem).
(** a table of constant hash with bounds, after put 5, put 6, remove 5, set 6, put 7, gc *)
Example ht_reach_example : exists m al, reach true false (fun _ => 1%N) eqd h0 (fun _ _ => 0%N) okmem m [(7, 70); (6, 61)]%N al /\
  contents m = [(6, 61); (7, 70)]%N /\ cap m = 8%N.
Proof.
  eexists. eexists. split; [|split].
  - eapply (rop _ [(7, 70); (6, 61)]%N _ (OGc 0 3) 1 _ _ (true, 0, 0)%N).
    + eapply (rop _ [(6, 61)]%N _ (OPut 7 70 1) 1 _ _ (true, 0, 0)%N).
      * eapply (rop _ [(6, 60)]%N _ (OSet 6 61 1) 1 _ _ (true, 6, 60)%N).
        -- eapply (rop _ [(6, 60); (5, 50)]%N _ (ORemove 5 1) 1 _ _ (true, 5, 50)%N).
           ++ eapply (rop _ [(5, 50)]%N _ (OPut 6 60 1) 1 _ _ (true, 0, 0)%N).
              ** eapply (rop _ []%N _ (OPut 5 50 1) 1 _ _ (true, 0, 0)%N).
                 --- eapply (r_init _ _ _ _ _ _ _ 8 0). reflexivity.
                 --- repeat split; discriminate. --- vc. --- intros _. vc.
              ** repeat split; discriminate. ** vc. ** intros _. vc.
           ++ repeat split; discriminate. ++ vc. ++ exact I.
        -- repeat split; discriminate. -- vc. -- exact I.
      * repeat split; discriminate. * vc. * intros _. vc.
    + exact I. + vc. + exact I.
  - vc.
  - vc.
Qed.
Example ht_contract_example : contract false (fun _ => 1%N) eqd h0 /\ contract true (fun k => (k mod 5)%N) (fun n a b => N.eqb (a mod 15) (b mod 15)) (fun k => (k mod 3)%N).
Proof.
  split; split; unfold same.
  - intros a b _ _ E. rewrite orb_false_r in *. rewrite N.eqb_sym. auto.
  - intros a b c _ _ _ E F. rewrite orb_false_r in *. apply N.eqb_eq in E. apply N.eqb_eq in F. subst. apply N.eqb_refl.
  - intros a b _ _ E. rewrite orb_false_r in *. apply N.eqb_eq in E. subst. auto.
  - intros a b _ _ E. apply orb_prop in E. destruct E as [E | E]; [apply N.eqb_eq in E; subst; rewrite N.eqb_refl; auto|].
    simpl in E. apply andb_prop in E. destruct E as (E & F). apply orb_true_intro. right. simpl. rewrite N.eqb_sym, E, N.eqb_sym, F. auto.
  - intros a b c _ _ _ E F. apply orb_prop in E. apply orb_prop in F.
    destruct E as [E | E]; [apply N.eqb_eq in E; subst; apply orb_true_intro; auto|].
    destruct F as [F | F]; [apply N.eqb_eq in F; subst; apply orb_true_intro; auto|].
    simpl in E, F. apply andb_prop in E. apply andb_prop in F. destruct E as (E1 & E2), F as (F1 & F2).
    apply N.eqb_eq in E1. apply N.eqb_eq in E2. apply N.eqb_eq in F1. apply N.eqb_eq in F2.
    apply orb_true_intro. right. simpl. rewrite E1, F1, E2, F2, !N.eqb_refl. auto.
  - intros a b _ _ E. apply orb_prop in E. destruct E as [E | E]; [apply N.eqb_eq in E; subst; auto|].
    simpl in E. apply andb_prop in E. destruct E as (_ & E). apply N.eqb_eq in E.
    assert (X : forall x, ((x mod 15) mod 3 = x mod 3)%N).
    { intros x. rewrite (N.div_mod x 15) at 2 by discriminate. rewrite <- N.add_mod_idemp_l by discriminate.
      replace ((15 * (x / 15)) mod 3)%N with 0%N; auto. symmetry. rewrite (N.mul_comm 15). change 15%N with (5 * 3)%N. rewrite N.mul_assoc. apply N.mod_mul. discriminate. }
    rewrite <- (X a), <- (X b), E. auto.
Qed.

(** C56: the result and the effect of every operation are those on the abstract map.  Missing:
    a put of a key that is present may succeed, see [ht_put_refuted]; [sane] excludes it. *)
Theorem ht_semantics_partial : forall dl bs len memeq hf ub oracle, contract bs len memeq hf ->
  forall m A al o fuel tr al' r, reach dl bs len memeq hf ub oracle m A al -> pre bs len o ->
  run1 dl bs memeq hf ub oracle fuel m al o = Ret tr al' r -> sane bs len memeq A o r ->
  legal bs len memeq A o r (failed oracle al al') /\ Permutation (contents (app m tr)) (aop bs len memeq A o r) /\
  distinct bs len memeq (aop bs len memeq A o r).
Proof. exact t_semantics. Qed.
Print Assumptions ht_semantics_partial.

(** C56: a put of a key that is present fails and changes nothing in a map without tombstones *)
Theorem ht_put_no_tombstones : forall dl bs len memeq hf ub oracle, contract bs len memeq hf ->
  forall m A al k v l fuel tr al' r, reach dl bs len memeq hf ub oracle m A al -> valid len k -> lok bs len k l ->
  mem bs len memeq k A = true -> (forall s, s < N.to_nat (cap m) -> ek (ents m s) <> TOMB) ->
  run1 dl bs memeq hf ub oracle fuel m al (OPut k v l) = Ret tr al' r -> r = (false, 0%N, 0%N) /\ tr = [] /\ al' = al.
Proof. exact t_put. Qed.
Print Assumptions ht_put_no_tombstones.

(** C56, false of the code: put 5, put 6, remove 5, put 6: the second put of 6 succeeds, 6 is
    stored and counted twice, and removing it brings the old value back *)
Theorem ht_put_refuted : exists m A al tr al' r,
  reach false false (fun _ => 1%N) eqd h0 (fun _ _ => 0%N) okmem m A al /\ mem false (fun _ => 1%N) eqd 6 A = true /\
  run1 false false eqd h0 (fun _ _ => 0%N) okmem 1 m al (OPut 6 99 1) = Ret tr al' r /\ fst (fst r) = true /\
  contents (app m tr) = [(6, 99); (6, 60)]%N /\ count (app m tr) = 2%N /\
  exists tr2 al2, run1 false false eqd h0 (fun _ _ => 0%N) okmem 1 (app m tr) al' (ORemove 6 1) = Ret tr2 al2 (true, 6, 99)%N /\
                  get false false eqd (fun _ _ => 0%N) (app (app m tr) tr2) 6 1 (h0 6) = Some (true, 6, 60)%N.
Proof. exact t_put_refuted. Qed.
Print Assumptions ht_put_refuted.

(** C56, false of the code: two bytestrings at one address, of lengths 3 (stored) and 2 (not) *)
Theorem ht_alias_refuted : exists tr al',
  put false true (fun _ _ _ => true) (fun _ _ => 0%N) okmem 1 (create 8) 0 (mke 8 70 3 5) 5 = Ret tr al' true /\
  get false true (fun _ _ _ => true) (fun _ _ => 0%N) (app (create 8) tr) 8 2 5 = Some (true, 8, 70)%N.
Proof. exact t_alias_refuted. Qed.
Print Assumptions ht_alias_refuted.

(** C56: no operation stores through NULL *)
Theorem ht_no_null_store : forall dl bs len memeq hf ub oracle, contract bs len memeq hf ->
  forall m A al o fuel, reach dl bs len memeq hf ub oracle m A al -> pre bs len o -> run1 dl bs memeq hf ub oracle fuel m al o <> Bad.
Proof. exact t_no_bad. Qed.
Print Assumptions ht_no_null_store.

(** C56, C57: operations that never restart return *)
Theorem ht_returns : forall dl bs len memeq hf ub oracle, contract bs len memeq hf ->
  forall m A al o fuel, reach dl bs len memeq hf ub oracle m A al -> pre bs len o -> inserting o = false ->
  exists tr al' r, run1 dl bs memeq hf ub oracle fuel m al o = Ret tr al' r.
Proof. exact t_returns. Qed.
Print Assumptions ht_returns.

Local Definition mex := app (create 8) [SMax 2; SBnd 0 2; SKey 0 TOMB; SVal 1 60; SKey 1 6; SCnt 1].
Example ht_semantics_example :
  (exists al', run1 true false eqd h0 (fun _ _ => 0%N) okmem 1 mex 3 (OSet 6 61 1) =
     Ret [SLen 0 1; SHash 0 0; SVal 0 61; SKey 0 6; SDel; SKey 1 TOMB] al' (true, 6, 60)%N) /\
  (exists al', run1 true false eqd h0 (fun _ _ => 0%N) okmem 1 mex 3 (ORemove 5 1) = Ret [] al' (false, 0, 0)%N).
Proof. split; eexists; vc. Qed.
Example ht_put_no_tombstones_example :
  exists al', run1 true false eqd h0 (fun _ _ => 0%N) okmem 1 (app (create 8) [SMax 1; SBnd 0 1; SVal 0 60; SKey 0 6; SCnt 1]) 3 (OPut 6 61 1) = Ret [] al' (false, 0, 0)%N.
Proof. eexists; vc. Qed.

(** C57: the mapping is preserved, reset empties, and on failure nothing changes.  Missing: the
    histories in which a put succeeded although its key was present, see [ht_grow_refuted]. *)
Theorem ht_maintenance_partial : forall dl bs len memeq hf ub oracle, contract bs len memeq hf ->
  forall m A al o fuel tr al' b k v, reach dl bs len memeq hf ub oracle m A al -> run1 dl bs memeq hf ub oracle fuel m al o = Ret tr al' (b, k, v) ->
  match o with
  | OGrow _ | OGc _ _ => Permutation (contents (app m tr)) (contents m) /\ (b = false -> app m tr = m)
  | OReset | OResetSize _ => if b then contents (app m tr) = [] else app m tr = m
  | _ => True
  end.
Proof. exact t_maintain. Qed.
Print Assumptions ht_maintenance_partial.

Example ht_maintenance_example :
  (exists tr al', run1 true false eqd h0 (fun _ _ => 0%N) okmem 1 mex 3 (OGc 0 0) = Ret tr al' (true, 0, 0)%N /\ pmax (app mex tr) = 1 /\ kv (ents (app mex tr) 0) = (6, 60)%N) /\
  (exists u al', run1 true false eqd h0 (fun _ _ => 0%N) okmem 1 mex 3 (OGrow 16) = Ret [SMap u] al' (true, 0, 0)%N /\ cap u = 16%N /\ contents u = [(6, 60)]%N) /\
  (exists al', run1 true false eqd h0 (fun _ _ => 0%N) (fun _ => false) 1 mex 3 (OGrow 16) = Ret [] al' (false, 0, 0)%N).
Proof.
  split; [|split].
  - do 2 eexists. split; [vc|]. split; vc.
  - do 2 eexists. split; [vc|]. split; vc.
  - eexists. vc.
Qed.

(** C57: iteration yields each entry once; count and the entry count of stat are exact.
    Missing: as for [ht_maintenance_partial], see [ht_put_refuted]. *)
Theorem ht_iteration_count_partial : forall dl bs len memeq hf ub oracle, contract bs len memeq hf ->
  forall m A al, reach dl bs len memeq hf ub oracle m A al ->
  exists l, iterate (S (N.to_nat (cap m))) m 0 = Some l /\ Permutation (map kv l) A /\ distinct bs len memeq (map kv l) /\
            count m = N.of_nat (length A) /\ snd (stat m) = N.of_nat (length A).
Proof. exact t_iterate. Qed.
Print Assumptions ht_iteration_count_partial.

(** C57, false of the code: after a put that should have failed, growing changes what get returns *)
Theorem ht_grow_refuted : exists m A al tr al' tr2 al2,
  reach false false (fun _ => 1%N) eqd h3 (fun _ _ => 0%N) okmem m A al /\
  run1 false false eqd h3 (fun _ _ => 0%N) okmem 1 m al (OPut 6 99 1) = Ret tr al' (true, 0, 0)%N /\
  get false false eqd (fun _ _ => 0%N) (app m tr) 6 1 (h3 6) = Some (true, 6, 99)%N /\
  run1 false false eqd h3 (fun _ _ => 0%N) okmem 1 (app m tr) al' (OGrow 16) = Ret tr2 al2 (true, 0, 0)%N /\
  get false false eqd (fun _ _ => 0%N) (app (app m tr) tr2) 6 1 (h3 6) = Some (true, 6, 60)%N.
Proof. exact t_grow_refuted. Qed.
Print Assumptions ht_grow_refuted.
