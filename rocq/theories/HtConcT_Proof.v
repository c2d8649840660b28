(** Hash table: statements for the property file of the concurrent lookup. *)
From Coq Require Import Arith NArith List Bool Lia.
From Verif Require Import Lib Obs Ht_Model Ht_Spec HtGc_Proof HtConc_Model HtConc_Spec HtConc_Proof.
Import ListNotations.

Section T.
Variables (dl bs : bool) (len : N -> N) (memeq : N -> N -> N -> bool) (hf : N -> N) (ub : N -> N -> N) (oracle : nat -> bool).
Variable CT : contract bs len memeq hf.
Lemma t_pair : forall n ls s a t K V b, run (step dl bs len memeq hf ub oracle) (cinit n) ls = Some (s, a ++ ERet t (Some (K, V)) :: b) ->
  let g := gfold (onext bs len memeq) a obs0 in o_sane g = true ->
  exists l, o_rd g t = Some l /\ (l_calm l = true -> (l_del l < 2 ^ 64)%N ->
    same bs len memeq K (l_key l) = true /\ exists k0, In (k0, V) (l_may l) /\ same bs len memeq k0 (l_key l) = true).
Proof. intros n ls s a t K V b H g S. apply t_lookup in H; auto. apply legal_at in H. exact (H S). Qed.
End T.

Definition len1 (k : N) : N := 1%N.
Definition puts : list label :=
  [LCall (OPut 5 50 1) 1; LStore; LStore; LStore; LStore; LStore; LStore; LDone; LCall (OPut 6 60 1) 1; LStore; LStore; LStore; LStore; LStore; LStore; LDone].
(** the reader has read the key 5 of slot 0; 5 is removed; set 6 moves its entry to slot 0 *)
Definition torn : list label :=
  puts ++ [LGet 0 5 1; LRead 0; LRead 0; LRead 0; LRead 0; LRead 0] ++ [LCall (ORemove 5 1) 1; LStore; LStore; LDone] ++
  [LCall (OSet 6 99 1) 1; LStore; LStore; LStore; LRead 0; LRead 0; LRead 0; LRead 0].
Definition torn_log : list event :=
  [ECall (OPut 5 50 1) (true, 0, 0)%N false; EDone; ECall (OPut 6 60 1) (true, 0, 0)%N false; EDone; EGet 0 5;
   ECall (ORemove 5 1) (true, 5, 50)%N false; EDone; ECall (OSet 6 99 1) (true, 6, 60)%N true].
Lemma t_torn : exists s l,
  run (step false false len1 eqd h0 (fun _ _ => 0%N) okmem) (cinit 8) torn = Some (s, torn_log ++ [ERet 0 (Some (5, 99)%N)]) /\
  let g := gfold (onext false len1 eqd) torn_log obs0 in
  o_sane g = true /\ o_rd g 0 = Some l /\ l_key l = 5%N /\ l_del l = 0%N /\
  forall k0, In (k0, 99%N) (l_may l) -> same false len1 eqd k0 5 = false.
Proof.
  eexists. eexists. split; [vm_compute; reflexivity|]. cbv zeta. split; [vm_compute; reflexivity|]. split; [vm_compute; reflexivity|].
  split; [reflexivity|]. split; [reflexivity|]. cbn [l_may]. intros k0 H.
  repeat (destruct H as [H | H]; [inversion H; reflexivity|]). destruct H.
Qed.
