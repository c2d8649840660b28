(** C83, hash set: lookups (src/ck_hs.c) concurrent with one writer on x86-TSO. *)
From Coq Require Import Arith NArith List Bool.
From Verif Require Import Lib Obs Hs_Model Hs_Spec HsGc_Proof HsConc_Model HsConc_Spec TsoSpmc_Model TsoHs_Model TsoHs_Spec TsoHs_Proof.
Import ListNotations.

(** as memory sees it, every lookup and every operation satisfies the observer of C55; the writer never
    stores through NULL *)
Theorem hs_tso_lookup : forall dl pp hf cmp ub oracle, contract pp hf cmp ->
  forall g n ls s log, run (htstep dl pp hf cmp ub oracle) (htinit g n) ls = Some (s, log) ->
  legal_from (onext cmp) (ook cmp) obs0 (vis log) /\ ~ In (Issue EBad) log.
Proof. exact h_legal. Qed.
Print Assumptions hs_tso_lookup.

(** the writer's operations become visible in the order of its calls, with the results it was given *)
Theorem hs_tso_order : forall dl pp hf cmp ub oracle g n ls s log,
  run (htstep dl pp hf cmp ub oracle) (htinit g n) ls = Some (s, log) ->
  exists rest, filter iscall (issued log) = filter iscall (vis log) ++ rest.
Proof. exact h_order. Qed.
Print Assumptions hs_tso_order.

(** at a fence the visible set is the one the writer's calls have made, and no operation is half visible *)
Theorem hs_tso_fence : forall dl pp hf cmp ub oracle g n ls s a b,
  run (htstep dl pp hf cmp ub oracle) (htinit g n) ls = Some (s, a ++ Fenced :: b) ->
  let A := after cmp (issued a) [] in let G := gfold (onext cmp) (vis a) obs0 in o_old G = A /\ o_new G = A.
Proof. exact h_fence. Qed.
Print Assumptions hs_tso_fence.

(** a lookup that starts after a fence and ends before the writer's next call finds exactly the members *)
Theorem hs_tso_fenced_lookup : forall dl pp hf cmp ub oracle, contract pp hf cmp ->
  forall g n ls s a b t k b' v c,
  run (htstep dl pp hf cmp ub oracle) (htinit g n) ls = Some (s, a ++ Fenced :: b ++ Vis (EGet t k) :: b' ++ Vis (ERet t v) :: c) ->
  issued b = [] -> issued b' = [] -> (forall k, ~ In (Vis (EGet t k)) b') -> (forall v, ~ In (Vis (ERet t v)) b') ->
  if mem cmp k (after cmp (issued a) []) then v <> 0%N /\ same cmp v k = true else v = 0%N.
Proof. exact h_fenced_lookup. Qed.
Print Assumptions hs_tso_fenced_lookup.

(** without the fence it is false: 5 has been put, nothing else is called, and a lookup does not find 5 *)
Definition stale : list (@tlab (op * nat) hrl) := TCall (OPut 5, 1) :: TRd (Get 0 5) :: repeat (TRd (Read 0)) 5.
Theorem hs_tso_unfenced_refuted : exists s,
  run (htstep true false h0 None (fun _ _ => 0%N) okmem) (htinit 0 8) stale =
    Some (s, [Issue (ECall (OPut 5) (true, 0%N)); Vis (EGet 0 5); Vis (ERet 0 0)]) /\
  mem None 5 (after None [ECall (OPut 5) (true, 0%N)] []) = true.
Proof. eexists. split; vm_compute; reflexivity. Qed.
Print Assumptions hs_tso_unfenced_refuted.

(** the same with a fence: the lookup finds 5; and a second call while the first is still in the buffer, the
    lookup overtaking it *)
Definition fresh : list (@tlab (op * nat) hrl) :=
  TCall (OPut 5, 1) :: repeat TFlush 6 ++ [TFence; TCall (OPut 6, 1); TCall (ORemove 5, 1); TRd (Get 0 5)] ++ repeat (TRd (Read 0)) 5.
Example hs_tso_example : exists s,
  run (htstep true false h0 None (fun _ _ => 0%N) okmem) (htinit 0 8) fresh =
    Some (s, [Issue (ECall (OPut 5) (true, 0%N)); Vis (ECall (OPut 5) (true, 0%N)); Vis EDone; Fenced;
              Issue (ECall (OPut 6) (true, 0%N)); Issue (ECall (ORemove 5) (true, 5%N)); Vis (EGet 0 5); Vis (ERet 0 5)]).
Proof. eexists. vm_compute. reflexivity. Qed.
Example hs_tso_fenced_example : exists s,
  run (htstep true false h0 None (fun _ _ => 0%N) okmem) (htinit 0 8)
      (TCall (OPut 5, 1) :: repeat TFlush 6 ++ TFence :: TRd (Get 0 5) :: repeat (TRd (Read 0)) 5) =
    Some (s, [Issue (ECall (OPut 5) (true, 0%N)); Vis (ECall (OPut 5) (true, 0%N)); Vis EDone] ++ Fenced :: [] ++ Vis (EGet 0 5) :: [] ++ Vis (ERet 0 5) :: []).
Proof. eexists. vm_compute. reflexivity. Qed.
