(** Robin Hood hash set: histories after which the set is not what it should be. *)
From Coq Require Import Arith NArith List Bool Permutation Lia.
From Verif Require Import Lib Rhs_Model Rhs_Spec RhsOps_Proof.
Import ListNotations.

Section R.
Variables (rmode pp : bool) (hf : N -> N) (cmp : option (N -> N -> bool)) (oracle : nat -> bool).
Fixpoint run_ops (fuel : nat) (hs : hset) (A : list N) (l : list op) : option (hset * list N) :=
  match l with
  | [] => Some (hs, A)
  | o :: l => match run1 rmode pp hf cmp oracle fuel hs o with Ret (hs', r) => run_ops fuel hs' (aop cmp A o r) l | _ => None end
  end.
Lemma run_ops_reach : forall fuel l hs A hs' A', reach_any rmode pp hf cmp oracle hs A -> (forall o B, In o l -> pre pp cmp B o) ->
  run_ops fuel hs A l = Some (hs', A') -> reach_any rmode pp hf cmp oracle hs' A'.
Proof.
  induction l as [|o l IH]; intros hs A hs' A' R H E; simpl in E.
  - inversion E; subst. auto.
  - destruct (run1 rmode pp hf cmp oracle fuel hs o) as [(hs1 & r) | | |] eqn:E1; try discriminate.
    apply (IH _ _ _ _ (a_op rmode pp hf cmp oracle hs A o fuel hs1 r R (H o A (or_introl eq_refl)) E1)); auto.
    intros o' B I. apply H. right. auto.
Qed.
End R.
Definition keys (n : nat) : list N := map N.of_nat (seq 1 n).
Lemma puts_pre : forall cmp n o B, In o (map OPut (keys n)) -> pre false cmp B o.
Proof.
  intros cmp n o B I. apply in_map_iff in I. destruct I as (k & <- & I). apply in_map_iff in I. destruct I as (j & <- & I). apply in_seq in I.
  split; [lia | discriminate].
Qed.
Lemma eq_contract : forall hf, contract false hf None.
Proof.
  intros hf. assert (X : forall a b, same None a b = true -> a = b) by (intros a b H; unfold same in H; rewrite orb_false_r in H; apply N.eqb_eq; auto).
  constructor; intros a b; intros; repeat match goal with H : same None _ _ = true |- _ => apply X in H end; subst; auto; unfold same; rewrite N.eqb_refl; auto.
Qed.

(** the hash function of the chain of 512 *)
Definition hfc (k : N) : N := if N.leb k 600 then (k - 1)%N else 3%N.
Lemma t_long_chain : exists hs A k, reach_any false false hfc None (fun _ => true) hs A /\ valid false k /\ mem None k A = true /\
  get false false hfc None hs k = Ret 0%N /\ length (iterate false hs) < length A.
Proof.
  assert (C : match init (fun _ => true) 0 2048 with
    | Some hs0 => match run_ops false false hfc None (fun _ => true) 3000 hs0 [] (map OPut (keys 601)) with
      | Some (hs, A) => mem None 513 A && match get false false hfc None hs 513 with Ret 0%N => true | _ => false end && Nat.ltb (length (iterate false hs)) (length A)
      | None => false end
    | None => false end = true) by (vm_compute; reflexivity).
  destruct (init (fun _ => true) 0 2048) as [hs0|] eqn:E0; [|discriminate].
  destruct (run_ops false false hfc None (fun _ => true) 3000 hs0 [] (map OPut (keys 601))) as [(hs & A)|] eqn:E1; [|discriminate].
  apply andb_prop in C. destruct C as (C & C3). apply andb_prop in C. destruct C as (C1 & C2).
  exists hs, A, 513%N. split.
  - eapply run_ops_reach; [eapply a_init; exact E0 | apply puts_pre | exact E1].
  - split; [split; [discriminate | discriminate]|]. split; auto. split; [|apply Nat.ltb_lt; auto].
    destruct (get false false hfc None hs 513) as [[|]| | |]; auto; discriminate.
Qed.
Definition hf0 (k : N) : N := (k * 0)%N.
Lemma t_bound : exists hs A k, reach_any false false hf0 None (fun _ => true) hs A /\ valid false k /\ mem None k A = true /\
  get false false hf0 None hs k = Ret 0%N /\ length A = 255 /\ length (iterate false hs) = 255.
Proof.
  assert (C : match init (fun _ => true) 0 8192 with
    | Some hs0 => match run_ops false false hf0 None (fun _ => true) 3000 hs0 [] (map OPut (keys 256) ++ [ORemove 254]) with
      | Some (hs, A) => mem None 256 A && match get false false hf0 None hs 256 with Ret 0%N => true | _ => false end && (Nat.eqb (length A) 255 && Nat.eqb (length (iterate false hs)) 255)
      | None => false end
    | None => false end = true) by (vm_compute; reflexivity).
  destruct (init (fun _ => true) 0 8192) as [hs0|] eqn:E0; [|discriminate].
  destruct (run_ops false false hf0 None (fun _ => true) 3000 hs0 [] (map OPut (keys 256) ++ [ORemove 254])) as [(hs & A)|] eqn:E1; [|discriminate].
  apply andb_prop in C. destruct C as (C & C3). apply andb_prop in C. destruct C as (C1 & C2). apply andb_prop in C3. destruct C3 as (C3 & C4).
  exists hs, A, 256%N. split.
  - eapply run_ops_reach; [eapply a_init; exact E0 | | exact E1]. intros o B I. apply in_app_or in I. destruct I as [I | [<- | []]].
    + eapply puts_pre; eauto.
    + split; discriminate.
  - split; [split; [discriminate | discriminate]|]. split; auto. split; [|split; apply Nat.eqb_eq; auto].
    destruct (get false false hf0 None hs 256) as [[|]| | |]; auto; discriminate.
Qed.
(** keys that are equal modulo 100 are the same key *)
Definition cm (a b : N) : bool := N.eqb (a mod 100) (b mod 100).
Definition hff (k : N) : N := match (k mod 100)%N with 1 | 3 | 8 => 1 | 2 | 10 => 2 | _ => 0 end%N.
Lemma cm_contract : contract false hff (Some cm).
Proof.
  assert (X : forall a b, same (Some cm) a b = true <-> (a mod 100 = b mod 100)%N).
  { intros a b. unfold same, cm. destruct (N.eqb_spec a b); subst; simpl; [tauto|]. rewrite N.eqb_eq. tauto. }
  constructor; intros a b; intros; repeat match goal with H : same (Some cm) _ _ = true |- _ => rewrite X in H end; rewrite ?X; try congruence.
  unfold hff. rewrite H1. auto.
Qed.
Lemma t_fas_stale : exists hs A x k hs' v, reach false false hff (Some cm) (fun _ => true) hs A x /\ room false A /\ valid false k /\
  fas false false hff (Some cm) (fun _ => true) 100 hs k = Ret (hs', (true, v)) /\ v = obj (Some cm) k A /\
  get false false hff (Some cm) hs' k = Ret v /\ k <> v.
Proof.
  set (ops := (OLoad 100 :: map OPut [3; 1; 5; 10; 2; 8; 9; 4])%N).
  assert (G : exists hs0 hs A, init (fun _ => true) 0 8 = Some hs0 /\ run_ops false false hff (Some cm) (fun _ => true) 100 hs0 [] ops = Some (hs, A) /\
    room false A /\ obj (Some cm) 110 A = 10%N /\ exists hs', fas false false hff (Some cm) (fun _ => true) 100 hs 110 = Ret (hs', (true, 10%N)) /\ get false false hff (Some cm) hs' 110 = Ret 10%N).
  { eexists. eexists. eexists. split; [reflexivity|]. split; [vm_compute; reflexivity|]. split; [unfold room; simpl; lia|]. split; [reflexivity|].
    eexists. split; [vm_compute; reflexivity|]. vm_compute. reflexivity. }
  destruct G as (hs0 & hs & A & E0 & E1 & Rm & Ob & hs' & F & Ge). exists hs, A, false, 110%N, hs', 10%N.
  split; [|split; [auto|split; [split; discriminate|split; [auto|split; [auto|split; [auto|discriminate]]]]]].
  assert (H : forall l hs A hs' A', reach false false hff (Some cm) (fun _ => true) hs A false ->
    (forall o B, In o l -> pre false (Some cm) B o /\ ap_del (Some cm) B o = false /\ forall a b, quiet o a b) -> length A + length l <= 253 ->
    run_ops false false hff (Some cm) (fun _ => true) 100 hs A l = Some (hs', A') -> reach false false hff (Some cm) (fun _ => true) hs' A' false).
  { clear. induction l as [|o l IH]; intros hs A hs' A' R H L E; simpl in E.
    - inversion E; subst. auto.
    - destruct (run1 false false hff (Some cm) (fun _ => true) 100 hs o) as [(hs1 & r) | | |] eqn:E1; try discriminate.
      destruct (H o A (or_introl eq_refl)) as (H1 & H2 & H3). simpl in L.
      pose proof (r_op false false hff (Some cm) (fun _ => true) hs A false o 100 hs1 r R H1 ltac:(unfold room; lia) E1 (H3 hs hs1)) as R1. rewrite H2 in R1. cbn [orb] in R1.
      apply (IH _ _ _ _ R1); auto; [intros; apply H; right; auto|].
      assert (X : length (aop (Some cm) A o r) <= S (length A)); [|lia].
      assert (D : forall k, length (del (Some cm) k A) <= length A).
      { intros k. unfold del. clear. induction A; simpl; auto. destruct (negb (same (Some cm) a k)); simpl; lia. }
      destruct o; simpl; try destruct (fst r); simpl; try lia; try specialize (D k); try lia.
      destruct (N.eqb _ _); [lia|]. destruct (N.eqb _ _); simpl; lia. }
  apply (H ops hs0 [] hs A); auto.
  - eapply r_init; eauto.
  - intros o B I. unfold ops in I. simpl in I. repeat (destruct I as [<- | I]; [split; [try exact I; try (split; discriminate)|split; [reflexivity | intros; exact I]]|]); try contradiction.
  - simpl. lia.
Qed.
Lemma t_apply_count : exists hs A, reach true false hf0 None (fun _ => true) hs A true /\ A = [] /\ iterate false hs = [] /\ count hs = 1%N.
Proof.
  eexists. exists []. split; [|split; [reflexivity|split]].
  - change true with (false || ap_del None [5%N] (OApply 5 (fun _ => 0%N))) at 3.
    change (@nil N) with (aop None [5%N] (OApply 5 (fun _ => 0%N)) (true, 0%N)).
    eapply (r_op true false hf0 None (fun _ => true) _ [5%N] false (OApply 5 (fun _ => 0%N)) 100).
    + eapply (r_op true false hf0 None (fun _ => true) _ [] false (OPut 5) 100 _ (true, 0%N)).
      * eapply (r_init _ _ _ _ _ 8 0). reflexivity.
      * split; discriminate.
      * unfold room. simpl. lia.
      * vm_compute. reflexivity.
      * exact I.
    + split; [split; discriminate | left; reflexivity].
    + unfold room. simpl. lia.
    + vm_compute. reflexivity.
    + exact I.
  - vm_compute. reflexivity.
  - vm_compute. reflexivity.
Qed.
