(** The centralized barrier on x86-TSO (C91). *)
From Coq Require Import ZArith NArith Arith List Bool.
From Verif Require Import Lib Tso BarSpec TsoBar_Spec TsoBar_Model TsoBar_Proof.
Import ListNotations.

(** Nobody returns from its k-th call before everybody has made its k-th call, although the words of
    the barrier and the data pass through store buffers. *)
Theorem central_tso_separated : forall n D ls s log, (N.of_nat n < 2 ^ 32)%N -> run (step (code n) arr) (init D) ls = Some (s, log) ->
  separated n (bars log) /\ returns_after_all n (bars log).
Proof. intros n D ls s log Hn. exact (sep n Hn D ls s log). Qed.
Print Assumptions central_tso_separated.

(** What a participant wrote before its call, another one reads after its own: as long as accesses are
    ordered by the barrier every read returns the last value written. *)
Theorem central_tso_data : forall n D ls s log, (N.of_nat n < 2 ^ 32)%N -> run (step (code n) arr) (init D) ls = Some (s, log) ->
  data_legal D log.
Proof. intros n D ls s log Hn. exact (data_ok n Hn D ls s log). Qed.
Print Assumptions central_tso_data.

(** Once everybody entered its k-th call, whoever has not returned from it can still do so, without
    anybody entering again. *)
Theorem central_tso_progress : forall n D ls s log k t, (N.of_nat n < 2 ^ 32)%N -> run (step (code n) arr) (init D) ls = Some (s, log) ->
  (forall u, u < n -> k <= enters u (bars log)) -> t < n -> leaves t (bars log) < k ->
  exists ls' s' log', run (step (code n) arr) s ls' = Some (s', log') /\ In (Leave t) (bars log') /\ (forall u, ~ In (Enter u) (bars log')).
Proof. intros n D ls s log k t Hn. exact (prog n Hn D ls s log k t). Qed.
Print Assumptions central_tso_progress.

(** Participant 0 writes datum 5 and calls; 1 arrives last, returns and reads it while its store of the
    sense is still buffered; 0 spins on the old sense until that store arrives. *)
Example central_tso_ex :
  match run (step (code 2) arr) (init (fun _ => 0%Z))
    [Go 0 (AWr 5 7%Z); Go 0 AEnter; Flush 0; Go 0 ATick; Go 0 ATick; Go 1 AEnter; Go 1 ATick; Go 1 ATick; Flush 1; Go 1 ATick; Go 1 ATick;
     Go 1 (ARd 5); Go 0 ATick; Go 1 (AWr 6 8%Z); Go 1 AEnter; Flush 1; Go 0 ATick; Go 0 (ARd 5)] with
  | Some (s, log) => log = [DWr 0 5 7%Z; Bar (Enter 0); Bar (Enter 1); Bar (Leave 1); DRd 1 5 7%Z; DWr 1 6 8%Z; Bar (Enter 1); Bar (Leave 0); DRd 0 5 7%Z] /\
      buf s 1 = [(Dat 6, 8%Z)]
  | None => False
  end.
Proof. vm_compute. auto. Qed.
(** The accesses of that execution are ordered, so the specification constrains them: another value is refused. *)
Example central_tso_data_ex :
  let a := Some {| ph := fun _ => 0; dv := fun _ => 0%Z; lw := fun _ => None |} in
  (exists d, accepts d_step a [DWr 0 5 7%Z; Bar (Enter 0); Bar (Enter 1); Bar (Leave 1); DRd 1 5 7%Z] = Some (Some d)) /\
  accepts d_step a [DWr 0 5 7%Z; Bar (Enter 0); Bar (Enter 1); Bar (Leave 1); DRd 1 5 0%Z] = None.
Proof. split; [eexists|]; reflexivity. Qed.
(** A read that is not ordered may miss the write. *)
Example central_tso_race_ex :
  match run (step (code 2) arr) (init (fun _ => 0%Z)) [Go 0 (AWr 5 7%Z); Go 1 (ARd 5)] with
  | Some (_, log) => log = [DWr 0 5 7%Z; DRd 1 5 0%Z]
  | None => False
  end.
Proof. vm_compute. auto. Qed.
(** Reached: everybody entered call 1, participant 1 returned, 0 has not. *)
Example central_tso_progress_ex :
  match run (step (code 2) arr) (init (fun _ => 0%Z))
    [Go 0 AEnter; Go 0 ATick; Go 1 AEnter; Go 1 ATick; Go 1 ATick; Flush 1; Go 1 ATick; Go 1 ATick] with
  | Some (s, log) => enters 0 (bars log) = 1 /\ enters 1 (bars log) = 1 /\ leaves 1 (bars log) = 1 /\ leaves 0 (bars log) = 0
  | None => False
  end.
Proof. vm_compute. auto. Qed.
