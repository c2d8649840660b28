(** Properties of the centralized barrier (C38). *)
From Coq Require Import Arith NArith List Bool.
From Verif Require Import Lib BarSpec BarCentral_Model BarCentral_Proof.
Import ListNotations.

(** No participant returns from its k-th call before all n entered their k-th. *)
Theorem central_separated : forall n ls s log, (N.of_nat n < 2 ^ 32)%N -> run (step n) init ls = Some (s, log) ->
  separated n log /\ returns_after_all n log.
Proof. intros n ls s log Hn. exact (sep n Hn ls s log). Qed.
Print Assumptions central_separated.

(** Once everyone entered their k-th call, whoever has not returned from it can
    still do so, without anybody entering again. *)
Theorem central_progress : forall n ls s log k t, (N.of_nat n < 2 ^ 32)%N -> run (step n) init ls = Some (s, log) ->
  (forall u, u < n -> k <= enters u log) -> t < n -> leaves t log < k ->
  exists ls' s' log', run (step n) s ls' = Some (s', log') /\ In (Leave t) log' /\ (forall u, ~ In (Enter u) log').
Proof. intros n ls s log k t Hn. exact (prog n Hn ls s log k t). Qed.
Print Assumptions central_progress.

(** Two participants; participant 1 is already in its second call while 0 is still
    spinning in the first. *)
Example central_ex :
  match run (step 2) init [(0, AEnter); (0, ATick); (0, ATick); (1, AEnter); (1, ATick); (1, ATick); (1, ATick);
                           (1, AEnter); (1, ATick); (1, ATick); (0, ATick); (0, AEnter); (0, ATick); (0, ATick); (0, ATick); (1, ATick)] with
  | Some (s, log) => log = [Enter 0; Enter 1; Leave 1; Enter 1; Leave 0; Enter 0; Leave 0; Leave 1]
  | None => False
  end.
Proof. vm_compute. reflexivity. Qed.

(** Reached: everybody entered call 1 and participant 0 has not returned. *)
Example central_progress_ex :
  match run (step 2) init [(0, AEnter); (0, ATick); (0, ATick); (1, AEnter); (1, ATick)] with
  | Some (s, log) => (forall u, u < 2 -> 1 <= enters u log) /\ leaves 0 log < 1
  | None => False
  end.
Proof. cbn. split; [intros [|[|u]] H; cbn; auto; exfalso; inversion H; inversion H1; inversion H3 | auto]. Qed.
