(** Logs of a reader-writer lock with a client that accesses data inside it (C84): events of the lock and data
    accesses; what remains of such a log for the specifications of the lock alone and of the data (TsoRw_Spec). *)
From Coq Require Import ZArith Arith List Bool.
From Verif Require Import Lib LockSpec TsoRw_Spec.
Import ListNotations.

Inductive xev (E : Type) := Lk (e : E) | XRd (t i : nat) (v : Z) | XWr (t i : nat) (v : Z).
Arguments Lk {E}. Arguments XRd {E}. Arguments XWr {E}.

(** the events of the lock *)
Definition lock_log {E : Type} (log : list (xev E)) : list E := flat_map (fun e => match e with Lk e => [e] | _ => [] end) log.

(** Who is inside, and the data accesses.  [c]: the lock events as reader-writer lock events. *)
Definition rw_data (e : rwev) : list wev :=
  match e with
  | WAcq t => [WEnter t] | WRel t => [WLeave t] | RAcq t => [REnter t] | RRel t => [RLeave t]
  | LockSpec.Down t => [TsoRw_Spec.Down t] | WTryFail _ | RTryFail _ => []
  end.
Definition data_log {E : Type} (c : E -> list rwev) (log : list (xev E)) : list wev :=
  flat_map (fun e => match e with Lk e => flat_map rw_data (c e) | XRd t i v => [DRd t i v] | XWr t i v => [DWr t i v] end) log.
