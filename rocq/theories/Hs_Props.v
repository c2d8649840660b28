(** C52-C54: the hash set (src/ck_hs.c) used by one thread. *)
From Coq Require Import Arith NArith List Bool Permutation.
From Verif Require Import Lib Hs_Model Hs_Spec Hs_Proof HsInv_Proof HsSet_Proof HsGc_Proof.
Import ListNotations.

(** a table of constant hash, in deletion mode, after put 5, put 6, remove 5, put 7, gc *)
Example hs_reach_example : exists m al, reach true false h0 None (fun _ _ => 0%N) okmem m [7; 6]%N al /\ contents false m = [7; 6]%N /\ cap m = 8%N.
Proof.
  eexists. eexists. split; [|split].
  - eapply (r_op true false h0 None (fun _ _ => 0%N) okmem _ [7; 6]%N _ (OGc 0 3) 1 _ _ (true, 0%N)).
    + eapply (r_op true false h0 None (fun _ _ => 0%N) okmem _ [6]%N _ (OPut 7) 1 _ _ (true, 0%N)).
      * eapply (r_op true false h0 None (fun _ _ => 0%N) okmem _ [6; 5]%N _ (ORemove 5) 1 _ _ (true, 5%N)).
        -- eapply (r_op true false h0 None (fun _ _ => 0%N) okmem _ [5]%N _ (OPut 6) 1 _ _ (true, 0%N)).
           ++ eapply (r_op true false h0 None (fun _ _ => 0%N) okmem _ []%N _ (OPut 5) 1 _ _ (true, 0%N)).
              ** eapply (r_init _ _ _ _ _ _ 8 0). reflexivity.
              ** repeat split; discriminate.
              ** vm_compute. reflexivity.
           ++ repeat split; discriminate.
           ++ vm_compute. reflexivity.
        -- repeat split; discriminate.
        -- vm_compute. reflexivity.
      * repeat split; discriminate.
      * vm_compute. reflexivity.
    + exact I.
    + vm_compute. reflexivity.
  - vm_compute. reflexivity.
  - vm_compute. reflexivity.
Qed.
Example hs_contract_example : contract false h0 None /\ contract true (fun k => (k mod 3)%N) (Some (fun a b => N.eqb (a mod 3) (b mod 3))).
Proof.
  split; split; unfold same.
  - intros a b _ _ E. rewrite orb_false_r in *. rewrite N.eqb_sym. auto.
  - intros a b c _ _ _ E F. rewrite orb_false_r in *. apply N.eqb_eq in E. apply N.eqb_eq in F. subst. apply N.eqb_refl.
  - intros a b _ _ E. rewrite orb_false_r in *. apply N.eqb_eq in E. subst. auto.
  - intros a b _ _ E. apply orb_prop in E. apply orb_true_intro. right. destruct E as [E | E]; apply N.eqb_eq in E; apply N.eqb_eq; subst; auto.
  - intros a b c _ _ _ E F. apply orb_prop in E. apply orb_prop in F. apply orb_true_intro. right. apply N.eqb_eq.
    destruct E as [E | E], F as [F | F]; apply N.eqb_eq in E; apply N.eqb_eq in F; subst; auto; congruence.
  - intros a b _ _ E. apply orb_prop in E. destruct E as [E | E]; apply N.eqb_eq in E; subst; auto.
Qed.

(** C52: the result and the effect of every operation are those on the abstract set *)
Theorem hs_semantics : forall dl pp hf cmp ub oracle, contract pp hf cmp ->
  forall m A al o fuel tr al' r, reach dl pp hf cmp ub oracle m A al -> pre pp hf cmp A o ->
  run1 dl pp hf cmp ub oracle fuel m al o = Ret tr al' r ->
  legal cmp A o r (failed oracle al al') /\ Permutation (contents pp (app m tr)) (aop cmp A o r) /\ distinct cmp (aop cmp A o r).
Proof. exact t_semantics. Qed.
Print Assumptions hs_semantics.

(** C52: no operation stores through NULL *)
Theorem hs_no_null_store : forall dl pp hf cmp ub oracle, contract pp hf cmp ->
  forall m A al o fuel, reach dl pp hf cmp ub oracle m A al -> pre pp hf cmp A o -> run1 dl pp hf cmp ub oracle fuel m al o <> Bad.
Proof. exact t_no_bad. Qed.
Print Assumptions hs_no_null_store.

(** C52, C53: operations that never restart return *)
Theorem hs_returns : forall dl pp hf cmp ub oracle, contract pp hf cmp ->
  forall m A al o fuel, reach dl pp hf cmp ub oracle m A al -> pre pp hf cmp A o -> inserting o = false ->
  exists tr al' r, run1 dl pp hf cmp ub oracle fuel m al o = Ret tr al' r.
Proof. exact t_returns. Qed.
Print Assumptions hs_returns.

Example hs_semantics_example :
  exists tr al', run1 true false h0 None (fun _ _ => 0%N) okmem 1 (app (create 0 8) [SMax 2; SBnd 0 2; SEnt 0 TOMB; SEnt 1 6; SCnt 1]) 3 (OSet 6) = Ret tr al' (true, 6%N)
  /\ tr = [SEnt 0 6; SGen false; SEnt 1 TOMB].
Proof. do 2 eexists. split; [vm_compute; reflexivity | reflexivity]. Qed.

(** C53: members are preserved, none are left by reset, and on failure nothing changes *)
Theorem hs_maintenance : forall dl pp hf cmp ub oracle, contract pp hf cmp ->
  forall m A al o fuel tr al' b v, reach dl pp hf cmp ub oracle m A al -> run1 dl pp hf cmp ub oracle fuel m al o = Ret tr al' (b, v) ->
  match o with
  | OGrow _ | ORebuild | OGc _ _ => Permutation (contents pp (app m tr)) (contents pp m) /\ (b = false -> app m tr = m)
  | OReset | OResetSize _ => if b then contents pp (app m tr) = [] else app m tr = m
  | _ => True
  end.
Proof. exact t_maintain. Qed.
Print Assumptions hs_maintenance.

Example hs_maintenance_example :
  let m := app (create 0 8) [SMax 2; SBnd 0 2; SEnt 0 TOMB; SEnt 1 6; SCnt 1] in
  (exists tr al', run1 true false h0 None (fun _ _ => 0%N) okmem 1 m 3 (OGc 0 0) = Ret tr al' (true, 0%N) /\ pmax (app m tr) = 1 /\ ents (app m tr) 0 = 6%N) /\
  (exists u al', run1 true false h0 None (fun _ _ => 0%N) okmem 1 m 3 (OGrow 16) = Ret [SMap u] al' (true, 0%N) /\ cap u = 16%N /\ contents false u = [6%N]) /\
  (exists al', run1 true false h0 None (fun _ _ => 0%N) (fun _ => None) 1 m 3 (OGrow 16) = Ret [] al' (false, 0%N)).
Proof.
  split; [|split].
  - do 2 eexists. split; [vm_compute; reflexivity|]. split; vm_compute; reflexivity.
  - do 2 eexists. split; [vm_compute; reflexivity|]. split; vm_compute; reflexivity.
  - eexists. vm_compute. reflexivity.
Qed.

(** C54: iteration yields each member once; count and the entry count of stat are exact *)
Theorem hs_iteration_count : forall dl pp hf cmp ub oracle, contract pp hf cmp ->
  forall m A al, reach dl pp hf cmp ub oracle m A al ->
  exists l, iterate pp (S (N.to_nat (cap m))) m 0 = Some l /\ Permutation l A /\ distinct cmp l /\
            count m = N.of_nat (length A) /\ fst (fst (stat m)) = N.of_nat (length A).
Proof. exact t_iterate. Qed.
Print Assumptions hs_iteration_count.

(** C54, false of the code: the tombstone count of stat.  Putting a key into a tombstone's slot
    does not count the tombstone off. *)
Theorem hs_stat_tombstones_refuted : exists m A al,
  reach true false h0 None (fun _ _ => 0%N) okmem m A al /\ snd (fst (stat m)) = 1%N /\ n_tombs m = 0.
Proof. exact t_hs_stat_tombstones_refuted. Qed.
Print Assumptions hs_stat_tombstones_refuted.

(** C54, false of the code: a new map's tombstone count is whatever malloc left there *)
Theorem hs_stat_uninitialised_refuted : forall g, exists m al,
  reach true false h0 None (fun _ _ => 0%N) (fun _ => Some g) m [] al /\ snd (fst (stat m)) = g /\ n_tombs m = 0.
Proof. exact t_hs_stat_uninitialised_refuted. Qed.
Print Assumptions hs_stat_uninitialised_refuted.
