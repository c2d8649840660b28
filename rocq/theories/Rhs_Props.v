(** C59: the Robin Hood hash set (src/ck_rhs.c) used by one thread. *)
From Coq Require Import Arith NArith List Bool Permutation Lia.
From Verif Require Import Lib Rhs_Model Rhs_Spec RhsOps_Proof RhsRef_Proof.
Import ListNotations.

(** all keys collide: put 5, 6, 7, set 6, fas 7, remove 5, grow, apply 6 *)
Example rhs_reach_example : exists hs,
  reach false false hf0 None (fun _ => true) hs [6; 7]%N false /\ iterate false hs = [6; 7]%N /\ cap (mp hs) = 16%N /\ count hs = 2%N /\ map (prb (mp hs)) [0; 1; 2]%N = [1; 2; 0].
Proof.
  eexists. split; [|split; [|split; [|split]]].
  - eapply (r_op false false hf0 None (fun _ => true) _ [6; 7]%N false (OApply 6 (fun v => v)) 100 _ (true, 0%N)).
    { eapply (r_op false false hf0 None (fun _ => true) _ [6; 7]%N false (OGrow 16) 100 _ (true, 0%N)).
      { eapply (r_op false false hf0 None (fun _ => true) _ [6; 7; 5]%N false (ORemove 5) 100 _ (true, 5%N)).
        { eapply (r_op false false hf0 None (fun _ => true) _ [7; 6; 5]%N false (OSet 6) 100 _ (true, 6%N)).
          { eapply (r_op false false hf0 None (fun _ => true) _ [7; 6; 5]%N false (OFas 7) 100 _ (true, 7%N)).
            { eapply (r_op false false hf0 None (fun _ => true) _ [6; 5]%N false (OPut 7) 100 _ (true, 0%N)).
              { eapply (r_op false false hf0 None (fun _ => true) _ [5]%N false (OPut 6) 100 _ (true, 0%N)).
                { eapply (r_op false false hf0 None (fun _ => true) _ []%N false (OPut 5) 100 _ (true, 0%N)).
                  { eapply (r_init _ _ _ _ _ 8 0). reflexivity. }
                  all: try (vm_compute; reflexivity); try (split; discriminate); try exact I; unfold room; simpl; lia. }
                all: try (vm_compute; reflexivity); try (split; discriminate); try exact I; unfold room; simpl; lia. }
              all: try (vm_compute; reflexivity); try (split; discriminate); try exact I; unfold room; simpl; lia. }
            all: try (vm_compute; reflexivity); try (split; discriminate); try exact I; unfold room; simpl; lia. }
          all: try (vm_compute; reflexivity); try (split; discriminate); try exact I; unfold room; simpl; lia. }
        all: try (vm_compute; reflexivity); try (split; discriminate); try exact I; unfold room; simpl; lia. }
      all: try (vm_compute; reflexivity); try (split; discriminate); try exact I; unfold room; simpl; lia. }
    all: try (vm_compute; reflexivity); try exact I; try (unfold room; simpl; lia).
    split; [split; discriminate|]. right. split; [split; discriminate | reflexivity].
  - vm_compute. reflexivity.
  - vm_compute. reflexivity.
  - vm_compute. reflexivity.
  - vm_compute. reflexivity.
Qed.
Example rhs_contract_example : contract false hf0 None /\ contract false hff (Some cm).
Proof. split; [apply eq_contract | apply cm_contract]. Qed.

(** C59: the result and the effect of every operation are those on the abstract set.  Partial:
    the set has at most 253 members (512 in read-mostly mode), and ck_rhs_fas did not allocate
    a map; the theorems below show what happens otherwise. *)
Theorem rhs_semantics_partial : forall rmode pp hf cmp oracle, contract pp hf cmp ->
  forall hs A x o fuel hs' r, reach rmode pp hf cmp oracle hs A x -> pre pp cmp A o -> room rmode A ->
  run1 rmode pp hf cmp oracle fuel hs o = Ret (hs', r) -> quiet o hs hs' ->
  legal cmp A o r (failed oracle (alc hs) (alc hs')) /\ Permutation (iterate pp hs') (aop cmp A o r) /\ distinct cmp (aop cmp A o r).
Proof. exact t_semantics. Qed.
Print Assumptions rhs_semantics_partial.

(** C59: get, also at the largest size *)
Theorem rhs_get : forall rmode pp hf cmp oracle, contract pp hf cmp ->
  forall hs A x k, reach rmode pp hf cmp oracle hs A x -> valid pp k -> get rmode pp hf cmp hs k = Ret (obj cmp k A).
Proof. exact t_get. Qed.
Print Assumptions rhs_get.

(** C59: no operation goes through slot -1; only ck_rhs_fas of a member goes on with a map that it
    has replaced *)
Theorem rhs_no_null_partial : forall rmode pp hf cmp oracle, contract pp hf cmp ->
  forall hs A x o fuel, reach rmode pp hf cmp oracle hs A x -> pre pp cmp A o -> room rmode A ->
  run1 rmode pp hf cmp oracle fuel hs o <> Null /\ (run1 rmode pp hf cmp oracle fuel hs o = Stale -> exists k, o = OFas k /\ mem cmp k A = true).
Proof. exact t_no_null. Qed.
Print Assumptions rhs_no_null_partial.

(** C59: iteration yields each member once; count is exact as long as no apply function has
    deleted a member *)
Theorem rhs_iteration_count_partial : forall rmode pp hf cmp oracle, contract pp hf cmp ->
  forall hs A x, reach rmode pp hf cmp oracle hs A x ->
  Permutation (iterate pp hs) A /\ distinct cmp (iterate pp hs) /\ (x = false -> count hs = N.of_nat (length A)).
Proof. exact t_iterate. Qed.
Print Assumptions rhs_iteration_count_partial.

Example rhs_semantics_example : exists hs0 hs1 hs2 hs3,
  init (fun _ => true) 0 8 = Some hs0 /\ put true false hf0 None (fun _ => true) 100 hs0 5 = Ret (hs1, true) /\
  put true false hf0 None (fun _ => true) 100 hs1 5 = Ret (hs1, false) /\ put true false hf0 None (fun _ => true) 100 hs1 6 = Ret (hs2, true) /\
  remove true false hf0 None 100 hs2 5 = Ret (hs3, 5%N) /\ get true false hf0 None hs3 6 = Ret 6%N /\ get true false hf0 None hs3 5 = Ret 0%N /\ ent (mp hs3) 0 = 6%N.
Proof. do 4 eexists. split; [reflexivity|]. do 4 (split; [vm_compute; reflexivity|]). split; [vm_compute; reflexivity|]. split; vm_compute; reflexivity. Qed.

(** C59, false of the code: a put whose displacement chain has 512 slots probes for the last
    one from a wrong place (935-937) and loses a member *)
Theorem rhs_put_loses_member_refuted : exists hs A k, reach_any false false hfc None (fun _ => true) hs A /\ valid false k /\ mem None k A = true /\
  get false false hfc None hs k = Ret 0%N /\ length (iterate false hs) < length A.
Proof. exact t_long_chain. Qed.
Print Assumptions rhs_put_loses_member_refuted.

(** C59, false of the code: with 255 keys of one hash a removal makes the bound too small
    (1041-1067), and a member that is still stored is not found *)
Theorem rhs_remove_hides_member_refuted : exists hs A k, reach_any false false hf0 None (fun _ => true) hs A /\ valid false k /\ mem None k A = true /\
  get false false hf0 None hs k = Ret 0%N /\ length A = 255 /\ length (iterate false hs) = 255.
Proof. exact t_bound. Qed.
Print Assumptions rhs_remove_hides_member_refuted.

(** C59, false of the code: ck_rhs_fas that allocates a larger map stores into the old one
    (1088-1099) and returns true; the set keeps the previous representative *)
Theorem rhs_fas_lost_update_refuted : exists hs A x k hs' v, reach false false hff (Some cm) (fun _ => true) hs A x /\ room false A /\ valid false k /\
  fas false false hff (Some cm) (fun _ => true) 100 hs k = Ret (hs', (true, v)) /\ v = obj (Some cm) k A /\
  get false false hff (Some cm) hs' k = Ret v /\ k <> v.
Proof. exact t_fas_stale. Qed.
Print Assumptions rhs_fas_lost_update_refuted.

(** C59, false of the code: a deletion by ck_rhs_apply (1174-1179) is not counted *)
Theorem rhs_apply_count_refuted : exists hs A, reach true false hf0 None (fun _ => true) hs A true /\ A = [] /\ iterate false hs = [] /\ count hs = 1%N.
Proof. exact t_apply_count. Qed.
Print Assumptions rhs_apply_count_refuted.
