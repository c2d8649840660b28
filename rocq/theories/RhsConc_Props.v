(** C76: lookups in the Robin Hood hash set (src/ck_rhs.c) concurrent with one writer. *)
From Coq Require Import Arith NArith List Bool.
From Verif Require Import Lib Obs Rhs_Model Rhs_Spec RhsConc_Model RhsConc_Spec RhsConc_Proof.
Import ListNotations.

(** every lookup and every operation of the writer satisfies the observer of RhsConc_Spec *)
Theorem rhs_concurrent : forall rmode pp hf cmp oracle, contract pp hf cmp ->
  forall n ls s log, run (step rmode pp hf cmp oracle) (cinit n) ls = Some (s, log) ->
  legal_from (onext cmp) (ook cmp) (obs0 (v_cap (maps (cinit n) 0))) log.
Proof. exact t_lookup. Qed.
Print Assumptions rhs_concurrent.

(** a lookup only returns the key it looks for, and only if it was a member at some moment *)
Theorem rhs_concurrent_absent : forall rmode pp hf cmp oracle, contract pp hf cmp ->
  forall n ls s a t v b, run (step rmode pp hf cmp oracle) (cinit n) ls = Some (s, a ++ ERet t v :: b) ->
  exists l, o_rd (gfold (onext cmp) a (obs0 (v_cap (maps (cinit n) 0)))) t = Some l /\ (v <> 0%N -> same cmp v (l_key l) = true /\ In v (l_may l)) /\
  (mem cmp (l_key l) (l_may l) = false -> v = 0%N).
Proof. exact t_absent. Qed.
Print Assumptions rhs_concurrent_absent.

(** a key that is a member during the whole lookup is found (short of 2^32 relocations during
    it).  Partial: only if all maps that are current during the lookup have at least 1024 slots, or if
    no entry is relocated during the lookup *)
Theorem rhs_concurrent_present_partial : forall rmode pp hf cmp oracle, contract pp hf cmp ->
  forall n ls s a t v b, run (step rmode pp hf cmp oracle) (cinit n) ls = Some (s, a ++ ERet t v :: b) ->
  exists l, o_rd (gfold (onext cmp) a (obs0 (v_cap (maps (cinit n) 0)))) t = Some l /\
  (l_must l = true -> l_big l = true \/ l_sig l = 0%N -> (l_sig l < 2 ^ 32)%N -> v <> 0%N /\ same cmp v (l_key l) = true).
Proof. exact t_present. Qed.
Print Assumptions rhs_concurrent_present_partial.

(** false of smaller maps: the writer increments the generation of the first slot of the
    sequence (976, 989, 1037), the reader looks at the one of the hash (1412), and does not find
    a member after one relocation *)
Theorem rhs_concurrent_present_refuted : exists hf n ls s a t l, contract false hf None /\
  run (step false false hf None (fun _ => true)) (cinit n) ls = Some (s, a ++ [ERet t 0%N]) /\
  o_rd (gfold (onext None) a (obs0 (v_cap (maps (cinit n) 0)))) t = Some l /\ l_must l = true /\ l_sig l = 1%N.
Proof. exact t_ref. Qed.
Print Assumptions rhs_concurrent_present_refuted.

(** the same in a map with 1024 slots: the reader sees neither slot hold the key, notices the
    relocation, starts again and finds the key *)
Definition ex_calls : list label :=
  [LCall (OPut 1035) 10] ++ repeat LStore 3 ++ [LDone; LCall (OPut 2059) 10] ++ repeat LStore 3 ++
  [LDone; LGet 0 2059; LRead 0; LRead 0; LRead 0; LRead 0; LCall (ORemove 1035) 10] ++ repeat LStore 4 ++ [LRead 0; LRead 0; LStore; LDone] ++ repeat (LRead 0) 5.
Definition ex_log : list ev :=
  [ECall (OPut 1035) (true, 0%N); EDone; ECall (OPut 2059) (true, 0%N); EDone; EGet 0 2059; ECall (ORemove 1035) (true, 1035%N); ESig; EDone].
Example rhs_concurrent_example : exists s,
  run (step false false idh None (fun _ => true)) (cinit 1024) ex_calls = Some (s, ex_log ++ [ERet 0 2059%N]).
Proof. eexists. vm_compute. reflexivity. Qed.
Example rhs_concurrent_example_look :
  o_rd (gfold (onext None) ex_log (obs0 1024)) 0 = Some (mkl 2059 true [2059; 1035; 2059; 1035; 2059] 1 true)%N /\ v_cap (maps (cinit 1024) 0) = 1024%N.
Proof. split; vm_compute; reflexivity. Qed.
