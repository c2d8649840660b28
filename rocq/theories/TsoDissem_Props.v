(** The dissemination barrier on x86-TSO (C92). *)
From Coq Require Import Arith NArith List Bool.
From Verif Require Import Lib BarSpec BarDissem_Model TsoDissem_Model TsoDissem_Proof.
Import ListNotations.

(** Nobody returns from its k-th call before everybody has made its k-th call, although no instruction
    of the barrier waits for the store buffers. *)
Theorem dissem_tso_separated : forall n ls s log, (1 <= N.of_nat n <= 2 ^ 31)%N -> run (tstep n) tinit ls = Some (s, log) ->
  separated n log /\ returns_after_all n log.
Proof. intros n ls s log Hn. exact (sep n Hn ls s log). Qed.
Print Assumptions dissem_tso_separated.

(** Once everybody entered its k-th call, whoever has not returned from it can still do so, without
    anybody entering again. *)
Theorem dissem_tso_progress : forall n ls s log k t, (1 <= N.of_nat n <= 2 ^ 31)%N -> run (tstep n) tinit ls = Some (s, log) ->
  (forall u, u < n -> k <= enters u log) -> t < n -> leaves t log < k ->
  exists ls' s' log', run (tstep n) s ls' = Some (s', log') /\ In (Leave t) log' /\ (forall u, ~ In (Enter u) log').
Proof. intros n ls s log k t Hn. exact (prog n Hn ls s log k t). Qed.
Print Assumptions dissem_tso_progress.

(** Two participants; 1 returns from its first call and stores its flag of the second call while the
    store of the first one is still buffered, so that 0 still waits in its first call. *)
Example dissem_tso_ex :
  match run (tstep 2) tinit [Go 0 ASub; Go 1 ASub; Go 0 AEnter; Go 0 ATick; Flush 0; Go 0 ATick; Go 1 AEnter; Go 1 ATick; Go 1 ATick; Go 1 ATick;
                             Go 1 AEnter; Go 1 ATick; Go 0 ATick; Go 1 ATick] with
  | Some (s, log) => log = [Enter 0; Enter 1; Leave 1; Enter 1] /\ bf s 1 = [E false 0 0 true; E true 0 0 true] /\ thr (b s) 0 = Wt 0 /\
      enters 0 log = 1 /\ enters 1 log = 2 /\ leaves 0 log = 0
  | None => False
  end.
Proof. vm_compute. auto 10. Qed.
(** The buffered stores arrive and 0 returns. *)
Example dissem_tso_progress_ex :
  match run (tstep 2) tinit [Go 0 ASub; Go 1 ASub; Go 0 AEnter; Go 0 ATick; Flush 0; Go 0 ATick; Go 1 AEnter; Go 1 ATick; Go 1 ATick; Go 1 ATick;
                             Flush 1; Go 0 ATick; Go 0 ATick] with
  | Some (s, log) => log = [Enter 0; Enter 1; Leave 1; Leave 0]
  | None => False
  end.
Proof. vm_compute. reflexivity. Qed.
