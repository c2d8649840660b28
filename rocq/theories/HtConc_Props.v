(** C58: lookups in the hash table (src/ck_ht.c) concurrent with one writer. *)
From Coq Require Import Arith NArith List Bool.
From Verif Require Import Lib Obs Ht_Model Ht_Spec HtGc_Proof HtConc_Model HtConc_Spec HtConc_Proof HtConcT_Proof.
Import ListNotations.

(** every lookup and every operation of the writer satisfies the observer of HtConc_Spec *)
Theorem ht_concurrent_partial : forall dl bs len memeq hf ub oracle, contract bs len memeq hf ->
  forall n ls s log, run (step dl bs len memeq hf ub oracle) (cinit n) ls = Some (s, log) ->
  legal_from (onext bs len memeq) (ook bs len memeq) obs0 log.
Proof. exact t_lookup. Qed.
Print Assumptions ht_concurrent_partial.

(** a lookup that finds an entry returns the key with a value the key had at some moment of the
    call.  Missing: calls during which a set that moves an entry starts, see [ht_torn_refuted];
    histories with a put that should have failed, see C56; and 2^64 increments of deletions
    during the call. *)
Theorem ht_pair_partial : forall dl bs len memeq hf ub oracle, contract bs len memeq hf ->
  forall n ls s a t K V b, run (step dl bs len memeq hf ub oracle) (cinit n) ls = Some (s, a ++ ERet t (Some (K, V)) :: b) ->
  let g := gfold (onext bs len memeq) a obs0 in o_sane g = true ->
  exists l, o_rd g t = Some l /\ (l_calm l = true -> (l_del l < 2 ^ 64)%N ->
    same bs len memeq K (l_key l) = true /\ exists k0, In (k0, V) (l_may l) /\ same bs len memeq k0 (l_key l) = true).
Proof. exact t_pair. Qed.
Print Assumptions ht_pair_partial.

(** C58, false of the code: 5 and 6 of one hash, 5 in front.  A reader looking for 5 has read the
    key 5; the writer removes 5, then sets 6 to 99, which moves 6 to the tombstone and stores 99
    there without incrementing deletions first (line 881 tests the value, not the key, for a
    tombstone); the reader reads 99, sees deletions unchanged and returns 5 with 99, a value
    that never belonged to 5. *)
Theorem ht_torn_refuted : exists s l,
  run (step false false len1 eqd h0 (fun _ _ => 0%N) okmem) (cinit 8) torn = Some (s, torn_log ++ [ERet 0 (Some (5, 99)%N)]) /\
  let g := gfold (onext false len1 eqd) torn_log obs0 in
  o_sane g = true /\ o_rd g 0 = Some l /\ l_key l = 5%N /\ l_del l = 0%N /\
  forall k0, In (k0, 99%N) (l_may l) -> same false len1 eqd k0 5 = false.
Proof. exact t_torn. Qed.
Print Assumptions ht_torn_refuted.

(** the reader has read the key 5; 5 is removed and the slot reused by a put of 7: the reader
    reads 70, sees deletions changed, starts again and finds nothing; another reader then finds
    the new value of 6 while a set replaces it *)
Definition ex_calls : list label :=
  puts ++ [LGet 0 5 1; LRead 0; LRead 0; LRead 0; LRead 0; LRead 0] ++ [LCall (ORemove 5 1) 1; LStore; LStore; LDone] ++
  [LCall (OPut 7 70 1) 1; LStore; LStore; LStore; LStore; LRead 0; LRead 0; LRead 0; LRead 0; LStore; LStore; LDone] ++
  repeat (LRead 0) 19 ++ [LGet 1 6 1; LCall (OSet 6 61 1) 1; LStore; LStore; LStore; LRead 1; LRead 1; LRead 1; LRead 1; LRead 1; LRead 1; LRead 1; LRead 1] ++ repeat (LRead 1) 6.
Example ht_concurrent_example : exists s a,
  run (step false false len1 eqd h0 (fun _ _ => 0%N) okmem) (cinit 8) ex_calls = Some (s, a ++ [ERet 1 (Some (6, 61)%N)]) /\
  o_sane (gfold (onext false len1 eqd) a obs0) = true /\
  o_rd (gfold (onext false len1 eqd) a obs0) 1 = Some (mkl 6 [(7, 70); (6, 60); (7, 70); (6, 60); (6, 61); (7, 70)]%N true 0%N).
Proof.
  eexists. exists [ECall (OPut 5 50 1) (true, 0, 0)%N false; EDone; ECall (OPut 6 60 1) (true, 0, 0)%N false; EDone; EGet 0 5;
   ECall (ORemove 5 1) (true, 5, 50)%N false; EDone; ECall (OPut 7 70 1) (true, 0, 0)%N false; EDel; EDone; ERet 0 None; EGet 1 6;
   ECall (OSet 6 61 1) (true, 6, 60)%N false].
  split; [vm_compute; reflexivity|]. split; vm_compute; reflexivity.
Qed.
