(** C83, hash table: lookups (src/ck_ht.c) concurrent with one writer on x86-TSO. *)
From Coq Require Import Arith NArith List Bool.
From Verif Require Import Lib Obs Ht_Model Ht_Spec HtGc_Proof HtConc_Model HtConc_Spec HtConcT_Proof TsoSpmc_Model TsoHt_Model TsoHt_Spec TsoHt_Proof.
Import ListNotations.

(** as memory sees it, every lookup and every operation satisfies the observer of C58.  Missing: what C58
    misses, see [ht_torn_refuted] *)
Theorem ht_tso_lookup_partial : forall dl bs len memeq hf ub oracle, contract bs len memeq hf ->
  forall n ls s log, run (htstep dl bs len memeq hf ub oracle) (htinit n) ls = Some (s, log) ->
  legal_from (onext bs len memeq) (ook bs len memeq) obs0 (vis log).
Proof. exact h_legal. Qed.
Print Assumptions ht_tso_lookup_partial.

(** the writer's operations become visible in the order of its calls, with the results it was given *)
Theorem ht_tso_order : forall dl bs len memeq hf ub oracle n ls s log,
  run (htstep dl bs len memeq hf ub oracle) (htinit n) ls = Some (s, log) ->
  exists rest, filter iscall (issued log) = filter iscall (vis log) ++ rest.
Proof. exact h_order. Qed.
Print Assumptions ht_tso_order.

(** at a fence the visible map is the one the writer's calls have made, and no operation is half visible *)
Theorem ht_tso_fence : forall dl bs len memeq hf ub oracle n ls s a b,
  run (htstep dl bs len memeq hf ub oracle) (htinit n) ls = Some (s, a ++ Fenced :: b) ->
  let A := after bs len memeq (issued a) [] in let G := gfold (onext bs len memeq) (vis a) obs0 in o_old G = A /\ o_new G = A.
Proof. exact h_fence. Qed.
Print Assumptions ht_tso_fence.

(** 5 is put and visible; a set of 5 to 51 is called and has not arrived, so that the lookup finds 50, and
    after the fence another finds 51 *)
Definition ex_calls : list (@tlab (op * nat) hrl) :=
  TCall (OPut 5 50 1, 1) :: repeat TFlush 8 ++ [TCall (OSet 5 51 1, 1); TRd (Get 0 5 1)] ++ repeat (TRd (Read 0)) 9 ++
  repeat TFlush 6 ++ [TFence; TRd (Get 0 5 1)] ++ repeat (TRd (Read 0)) 9.
Example ht_tso_example :
  match run (htstep false false len1 eqd h0 (fun _ _ => 0%N) okmem) (htinit 8) ex_calls with
  | Some (_, log) => log = [Issue (ECall (OPut 5 50 1) (true, 0, 0)%N false); Vis (ECall (OPut 5 50 1) (true, 0, 0)%N false); Vis EDone;
      Issue (ECall (OSet 5 51 1) (true, 5, 50)%N false); Vis (EGet 0 5); Vis (ERet 0 (Some (5, 50)%N));
      Vis (ECall (OSet 5 51 1) (true, 5, 50)%N false); Vis EDone; Fenced; Vis (EGet 0 5); Vis (ERet 0 (Some (5, 51)%N))]
  | None => False
  end.
Proof. vm_compute. reflexivity. Qed.
