(** What an exclusive lock promises about the data it protects when stores are buffered: the
    specification of C70, independent of the locks and of the machine.  A release has two moments:
    the return of unlock and the arrival of its store in memory. *)
From Coq Require Import ZArith Arith List Bool.
From Verif Require Import Lib.
Import ListNotations.
Local Open Scope Z_scope.

Inductive dev :=
| Enter (t : nat)                  (* lock or trylock returns holding the lock *)
| Leave (t : nat)                  (* unlock returns *)
| Visible (t : nat)                (* the release of [t] reaches memory *)
| Fail (t : nat)                   (* trylock returns false *)
| Locked (t : nat) (b : bool)      (* locked returns b *)
| DRd (t i : nat) (v : Z)          (* the client reads v *)
| DWr (t i : nat) (v : Z).         (* the client writes v *)

(** Free, held, or released by a thread whose release is not visible yet to others. *)
Inductive own := Free | Held (t : nat) | Left (t : nat).
Record dlock := { hold : own; dat : nat -> Z }.

(** One thread at a time is inside; the data is an ordinary memory for whoever is inside. *)
Definition dl_step (a : dlock) (e : dev) : option dlock :=
  match e, hold a with
  | Enter t, Free => Some {| hold := Held t; dat := dat a |}
  | Leave t, Held u => if Nat.eqb t u then Some {| hold := Left t; dat := dat a |} else None
  | Visible t, Left u => if Nat.eqb t u then Some {| hold := Free; dat := dat a |} else None
  | Fail _, Held _ | Fail _, Left _ => Some a
  | Locked _ b, Free => if b then None else Some a
  | Locked _ b, Held _ => if b then Some a else None
  | Locked t b, Left u => if eqb b (negb (Nat.eqb t u)) then Some a else None   (* the owner knows *)
  | DRd t i v, Held u => if Nat.eqb t u && (v =? dat a i) then Some a else None
  | DWr t i v, Held u =>
      if Nat.eqb t u then Some {| hold := Held u; dat := fun j => if Nat.eqb i j then v else dat a j |} else None
  | _, _ => None
  end.
Definition dl_legal (D : nat -> Z) (log : list dev) : Prop :=
  exists a, accepts dl_step {| hold := Free; dat := D |} log = Some a.

