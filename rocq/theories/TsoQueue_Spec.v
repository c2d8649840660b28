(** What a first-come-first-served lock promises about the data it protects when stores are buffered:
    the specification of C77, independent of the locks and of the machine.  A release has two
    moments: the return of unlock and its arrival in memory. *)
From Coq Require Import ZArith Arith List Bool.
From Verif Require Import Lib.
Import ListNotations.
Local Open Scope Z_scope.

Inductive qev :=
| Req (t : nat)                    (* the request of [t] enters the queue *)
| Enter (t : nat)                  (* lock or trylock returns holding the lock *)
| Leave (t : nat)                  (* unlock returns *)
| Visible (t : nat)                (* the release of [t] reaches memory *)
| Fail (t : nat)                   (* trylock finds the lock taken *)
| Locked (t : nat) (b : bool)      (* locked returns b *)
| DRd (t i : nat) (v : Z)          (* the client reads v *)
| DWr (t i : nat) (v : Z).         (* the client writes v *)

(** Free, held, or released by a thread whose release is not visible yet to others. *)
Inductive own := Free | Held (t : nat) | Left (t : nat).
Record qlock := { hold : own; queue : list nat; dat : nat -> Z }.
Definition busy (a : qlock) : bool := match hold a, queue a with Free, [] => false | _, _ => true end.

(** One thread at a time is inside, in the order of the requests; the data is an ordinary memory for
    whoever is inside. *)
Definition q_step (a : qlock) (e : qev) : option qlock :=
  match e with
  | Req t => Some {| hold := hold a; queue := queue a ++ [t]; dat := dat a |}
  | Enter t =>
      match hold a, queue a with
      | Free, u :: q => if Nat.eqb t u then Some {| hold := Held t; queue := q; dat := dat a |} else None
      | _, _ => None
      end
  | Leave t =>
      match hold a with
      | Held u => if Nat.eqb t u then Some {| hold := Left t; queue := queue a; dat := dat a |} else None
      | _ => None
      end
  | Visible t =>
      match hold a with
      | Left u => if Nat.eqb t u then Some {| hold := Free; queue := queue a; dat := dat a |} else None
      | _ => None
      end
  | Fail _ => if busy a then Some a else None
  | Locked _ b => if eqb b (busy a) then Some a else None
  | DRd t i v =>
      match hold a with Held u => if Nat.eqb t u && (v =? dat a i) then Some a else None | _ => None end
  | DWr t i v =>
      match hold a with
      | Held u => if Nat.eqb t u then Some {| hold := hold a; queue := queue a; dat := fun j => if Nat.eqb i j then v else dat a j |} else None
      | _ => None
      end
  end.
Definition q_init (D : nat -> Z) : qlock := {| hold := Free; queue := []; dat := D |}.
Definition q_legal (D : nat -> Z) (log : list qev) : Prop := exists a, accepts q_step (q_init D) log = Some a.
