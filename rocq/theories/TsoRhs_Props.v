(** C83, Robin Hood hash set: lookups (src/ck_rhs.c) concurrent with one writer on x86-TSO. *)
From Coq Require Import Arith NArith List Bool.
From Verif Require Import Lib Obs Rhs_Model Rhs_Spec RhsConc_Model RhsConc_Spec RhsConc_Proof TsoSpmc_Model TsoRhs_Model TsoRhs_Spec TsoRhs_Proof.
Import ListNotations.

(** as memory sees it, every lookup and every operation satisfies the observer of C76; the writer never
    stores through slot -1 *)
Theorem rhs_tso_lookup : forall rmode pp hf cmp oracle, contract pp hf cmp ->
  forall n ls s log, run (htstep rmode pp hf cmp oracle) (htinit n) ls = Some (s, log) ->
  legal_from (onext cmp) (ook cmp) (obs0 (v_cap (maps (cinit n) 0))) (vis log) /\ ~ In (Issue EBad) log.
Proof. exact h_legal. Qed.
Print Assumptions rhs_tso_lookup.

(** the writer's operations become visible in the order of its calls, with the results it was given *)
Theorem rhs_tso_order : forall rmode pp hf cmp oracle n ls s log,
  run (htstep rmode pp hf cmp oracle) (htinit n) ls = Some (s, log) ->
  exists rest, filter iscall (issued log) = filter iscall (vis log) ++ rest.
Proof. exact h_order. Qed.
Print Assumptions rhs_tso_order.

(** at a fence the visible set is the one the writer's calls have made, and no operation is half visible *)
Theorem rhs_tso_fence : forall rmode pp hf cmp oracle n ls s a b,
  run (htstep rmode pp hf cmp oracle) (htinit n) ls = Some (s, a ++ Fenced :: b) ->
  let A := after cmp (issued a) [] in let G := gfold (onext cmp) (vis a) (obs0 (v_cap (maps (cinit n) 0))) in o_old G = A /\ o_new G = A.
Proof. exact h_fence. Qed.
Print Assumptions rhs_tso_fence.

(** a lookup that starts after a fence and ends before the writer's next call finds exactly the members *)
Theorem rhs_tso_fenced_lookup : forall rmode pp hf cmp oracle, contract pp hf cmp ->
  forall n ls s a b t k b' v c,
  run (htstep rmode pp hf cmp oracle) (htinit n) ls = Some (s, a ++ Fenced :: b ++ Vis (EGet t k) :: b' ++ Vis (ERet t v) :: c) ->
  issued b = [] -> issued b' = [] -> (forall k, ~ In (Vis (EGet t k)) b') -> (forall v, ~ In (Vis (ERet t v)) b') ->
  if mem cmp k (after cmp (issued a) []) then v <> 0%N /\ same cmp v k = true else v = 0%N.
Proof. exact h_fenced_lookup. Qed.
Print Assumptions rhs_tso_fenced_lookup.

Definition ex_calls : list (@tlab (op * nat) hrl) :=
  TCall (OPut 1035, 10) :: TRd (Get 0 1035) :: repeat (TRd (Read 0)) 5 ++ repeat TFlush 5 ++ TFence :: TRd (Get 0 1035) :: repeat (TRd (Read 0)) 5.
Example rhs_tso_example :
  match run (htstep false false idh None (fun _ => true)) (htinit 1024) ex_calls with
  | Some (_, log) => log = [Issue (ECall (OPut 1035) (true, 0%N)); Vis (EGet 0 1035); Vis (ERet 0 0);
      Vis (ECall (OPut 1035) (true, 0%N)); Vis EDone; Fenced; Vis (EGet 0 1035); Vis (ERet 0 1035)]
  | None => False
  end.
Proof. vm_compute. reflexivity. Qed.
