(** C55: lookups in the hash set (src/ck_hs.c) concurrent with one writer. *)
From Coq Require Import Arith NArith List Bool.
From Verif Require Import Lib Obs Hs_Model Hs_Spec HsGc_Proof HsConc_Model HsConc_Spec HsConc_Proof HsConcT_Proof.
Import ListNotations.

(** every lookup and every operation of the writer satisfies the observer of HsConc_Spec *)
Theorem hs_concurrent : forall dl pp hf cmp ub oracle, contract pp hf cmp ->
  forall g n ls s log, run (step dl pp hf cmp ub oracle) (cinit g n) ls = Some (s, log) -> legal_from (onext cmp) (ook cmp) obs0 log.
Proof. exact t_lookup. Qed.
Print Assumptions hs_concurrent.

(** a key that is a member during the whole lookup is found (short of 2^32 relocations during it) *)
Theorem hs_concurrent_present : forall dl pp hf cmp ub oracle, contract pp hf cmp ->
  forall g n ls s a t v b, run (step dl pp hf cmp ub oracle) (cinit g n) ls = Some (s, a ++ ERet t v :: b) ->
  exists l, o_rd (gfold (onext cmp) a obs0) t = Some l /\
  (l_must l = true -> (l_sig l < 2 ^ 32)%N -> v <> 0%N /\ same cmp v (l_key l) = true).
Proof. exact t_present. Qed.
Print Assumptions hs_concurrent_present.

(** a key that is not a member at any moment of the lookup is not found *)
Theorem hs_concurrent_absent : forall dl pp hf cmp ub oracle, contract pp hf cmp ->
  forall g n ls s a t v b, run (step dl pp hf cmp ub oracle) (cinit g n) ls = Some (s, a ++ ERet t v :: b) ->
  exists l, o_rd (gfold (onext cmp) a obs0) t = Some l /\
  (mem cmp (l_key l) (l_may l) = false -> v = 0%N).
Proof. exact t_absent. Qed.
Print Assumptions hs_concurrent_absent.

(** a set with 5 removed in front of 6 of the same hash; a reader looks for 6 and is past the
    tombstone when the writer moves 6 there; the reader sees neither slot hold 6, notices the
    relocation, starts again and finds 6 *)
Definition ex_calls : list label :=
  [LCall (OPut 5) 1; LStore; LStore; LStore; LStore; LDone; LCall (OPut 6) 1; LStore; LStore; LStore; LStore; LDone;
   LCall (ORemove 5) 1; LStore; LStore; LStore; LDone;
   LGet 0 6; LRead 0; LRead 0; LRead 0; LRead 0;
   LCall (OSet 6) 1; LStore; LStore; LStore; LRead 0; LRead 0; LRead 0; LRead 0; LRead 0; LDone; LRead 0; LRead 0; LRead 0].
Example hs_concurrent_example : exists s,
  run (step true false h0 None (fun _ _ => 0%N) okmem) (cinit 0 8) ex_calls =
  Some (s, [ECall (OPut 5) (true, 0%N); EDone; ECall (OPut 6) (true, 0%N); EDone; ECall (ORemove 5) (true, 5%N); EDone;
            EGet 0 6; ECall (OSet 6) (true, 6%N); ESig; EDone; ERet 0 6]).
Proof. eexists. vm_compute. reflexivity. Qed.
Example hs_concurrent_example_look :
  o_rd (gfold (onext None) [ECall (OPut 5) (true, 0%N); EDone; ECall (OPut 6) (true, 0%N); EDone; ECall (ORemove 5) (true, 5%N); EDone;
            EGet 0 6; ECall (OSet 6) (true, 6%N); ESig; EDone] obs0) 0 = Some (mkl 6 true [6; 6; 6] 1)%N.
Proof. reflexivity. Qed.
