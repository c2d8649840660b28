(** C66: how long a cohort keeps the global lock.  The executions of Cohort_Model.v
    together with the threads that acquired the cohort lock since the global lock was last
    free, latest first. *)
From Coq Require Import Arith NArith List Bool.
From Verif Require Import Lib LockSpec Cohort_Model.
Import ListNotations.

Definition acquirers (ev : list lev) : list nat := flat_map (fun e => match e with Acq t => [t] | _ => [] end) ev.

Definition tstep (n : nat) (coh : nat -> nat) (lim : nat -> N) (x : state * list nat) (l : nat * act) : option ((state * list nat) * list lev) :=
  match step n coh lim (fst x) l with
  | Some (s', ev) => Some ((s', if glob s' then acquirers ev ++ snd x else []), ev)
  | None => None
  end.
