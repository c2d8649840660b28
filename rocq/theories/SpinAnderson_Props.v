(** Properties of the Anderson array lock (C23). *)
From Coq Require Import Arith List ZArith Bool Lia.
From Verif Require Import Lib LockSpec SpinAnderson_Model SpinAnderson_Proof.
Import ListNotations.
Local Open Scope Z_scope.

(** For any slot count (power of two or not) and at most that many threads,
    every execution is a legal first-come-first-served lock history, including
    wrap-around of the 32-bit slot counter. *)
Theorem anderson_fcfs : forall count n, 0 < count -> count <= UINT_MAX -> Z.of_nat n <= count ->
  forall ls s log, run (step count n) init ls = Some (s, log) -> fcfs_legal log.
Proof. exact anderson_refines. Qed.
Print Assumptions anderson_fcfs.

Theorem anderson_no_stuck : forall count n, 0 < count -> count <= UINT_MAX -> Z.of_nat n <= count ->
  forall s, reachable (step count n) init s -> forall t, waiting s t = true ->
  exists ls s' log, run (step count n) s ls = Some (s', log) /\ In (FAcq t) log.
Proof. exact anderson_progress. Qed.
Print Assumptions anderson_no_stuck.

(** [locked] is exact when the slot count is a power of two ([wrap] is then 0). *)
Theorem anderson_locked_exact_pow2_partial : forall count n, 0 < count -> count <= UINT_MAX -> Z.of_nat n <= count ->
  forall s q, reachable (step count n) init s -> wrap count = 0 -> (q < n)%nat -> waiting s q = false ->
  locked count s = true <-> (exists t, holding s t = true \/ waiting s t = true).
Proof. exact anderson_locked_pow2. Qed.
Print Assumptions anderson_locked_exact_pow2_partial.

(** It is wrong otherwise: with three slots a free lock is reported locked.
    Full claim refuted: "locked answers true only if somebody holds or waits". *)
Theorem anderson_locked_refuted :
  exists ls s log, run (step 3 1) init ls = Some (s, log) /\
    locked 3 s = true /\ (forall t, holding s t = false /\ waiting s t = false).
Proof. exact anderson_locked_bad. Qed.
Print Assumptions anderson_locked_refuted.

(** Three slots, three threads, queueing in order 1, 0, 2. *)
Example anderson_ex :
  match run (step 3 3) init
    [(1, ALock); (1, ATick); (1, ATick); (0, ALock); (2, ALock); (0, ATick); (2, ATick); (0, ATick);
     (2, ATick); (2, ATick); (1, ATick); (1, ATick); (0, ATick); (1, AUnlock); (2, ATick); (0, ATick); (0, ATick)]%nat with
  | Some (s, log) => log = [FReq 1; FReq 0; FReq 2; FAcq 1; FRel 1; FAcq 0] /\ waiting s 2 = true
  | None => False
  end.
Proof. vm_compute. split; reflexivity. Qed.

(** The counter wrap-around path: next = UINT_MAX with three slots. *)
Example anderson_wrap_ex :
  match run (step 3 3) (mk UINT_MAX (fun j => negb (Z.eqb j 0)) (fun _ => Idle))
    [(0, ALock); (0, ATick); (0, ATick); (0, ATick); (0, ATick)]%nat with
  | Some (s, log) => next s = 1 /\ log = [FReq 0%nat; FAcq 0%nat]
  | None => False
  end.
Proof. vm_compute. split; reflexivity. Qed.
