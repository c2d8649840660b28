(** What a reader-writer lock promises about the data it protects when stores are buffered: the
    specification of C72, independent of the locks and of the machine. *)
From Coq Require Import ZArith Arith List Bool.
From Verif Require Import Lib.
Import ListNotations.
Local Open Scope Z_scope.

Inductive wev :=
| WEnter (t : nat)                 (* write lock obtained *)
| WLeave (t : nat)                 (* write unlock returns *)
| REnter (t : nat)                 (* read lock obtained (the outermost one) *)
| RLeave (t : nat)                 (* read lock given up (the outermost one) *)
| Down (t : nat)                   (* downgrade: the writer becomes a reader *)
| DRd (t i : nat) (v : Z)          (* the client reads v *)
| DWr (t i : nat) (v : Z).         (* the client writes v *)

Record rwl := { wrt : option nat; rds : list nat; dat : nat -> Z }.
Definition isrd (a : rwl) (t : nat) : bool := existsb (Nat.eqb t) (rds a).
Definition iswr (a : rwl) (t : nat) : bool := match wrt a with Some u => Nat.eqb t u | None => false end.

(** A writer is alone; whoever is inside reads the last value written; only the writer writes. *)
Definition rw_step (a : rwl) (e : wev) : option rwl :=
  match e with
  | WEnter t => match wrt a, rds a with None, [] => Some {| wrt := Some t; rds := []; dat := dat a |} | _, _ => None end
  | WLeave t => if iswr a t then Some {| wrt := None; rds := rds a; dat := dat a |} else None
  | REnter t => match wrt a with None => Some {| wrt := None; rds := t :: rds a; dat := dat a |} | Some _ => None end
  | RLeave t => if isrd a t then Some {| wrt := wrt a; rds := remove Nat.eq_dec t (rds a); dat := dat a |} else None
  | Down t => if iswr a t then Some {| wrt := None; rds := t :: rds a; dat := dat a |} else None
  | DRd t i v => if (iswr a t || isrd a t) && (v =? dat a i) then Some a else None
  | DWr t i v =>
      if iswr a t then Some {| wrt := wrt a; rds := rds a; dat := fun j => if Nat.eqb i j then v else dat a j |} else None
  end.
Definition rw_legal (D : nat -> Z) (log : list wev) : Prop :=
  exists a, accepts rw_step {| wrt := None; rds := []; dat := D |} log = Some a.
