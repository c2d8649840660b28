(** What a barrier promises a client that shares data (C91): independent of the barrier and of the
    machine.  The client is expected to order its accesses by the barrier: between a write of one
    participant and an access of another to the same datum the other's number of calls has grown.
    Up to the first access that is not ordered, every read returns the last value written. *)
From Coq Require Import ZArith Arith List Bool.
From Verif Require Import Lib BarSpec.
Import ListNotations.

Inductive dbev := Bar (e : bev) | DRd (t i : nat) (v : Z) | DWr (t i : nat) (v : Z).
(** the events of the barrier alone *)
Fixpoint bars (log : list dbev) : list bev :=
  match log with [] => [] | Bar e :: l => e :: bars l | _ :: l => bars l end.

(** how often each participant has entered; the data; who wrote each datum last, after how many calls *)
Record dst := { ph : nat -> nat; dv : nat -> Z; lw : nat -> option (nat * nat) }.
Definition ordered (a : dst) (t i : nat) : bool :=
  match lw a i with None => true | Some (u, q) => Nat.eqb u t || Nat.ltb q (ph a t) end.

(** [None]: an access was not ordered; anything may follow *)
Definition d_step (x : option dst) (e : dbev) : option (option dst) :=
  match x with
  | None => Some None
  | Some a =>
      match e with
      | Bar (Enter t) => Some (Some {| ph := upd (ph a) t (S (ph a t)); dv := dv a; lw := lw a |})
      | Bar (Leave _) => Some (Some a)
      | DRd t i v => if ordered a t i then (if Z.eqb v (dv a i) then Some (Some a) else None) else Some None
      | DWr t i v => if ordered a t i then Some (Some {| ph := ph a; dv := upd (dv a) i v; lw := upd (lw a) i (Some (t, ph a t)) |})
                     else Some None
      end
  end.
Definition data_legal (D : nat -> Z) (log : list dbev) : Prop :=
  exists x, accepts d_step (Some {| ph := fun _ => 0; dv := D; lw := fun _ => None |}) log = Some x.
