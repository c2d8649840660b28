(** What hazard pointers promise their clients (C73): the specification, independent of the
    implementation and of the machine.  Objects are named by their addresses, which are not 0 and may be
    used again once the object is destroyed. *)
From Coq Require Import ZArith Arith List Bool.
From Verif Require Import Lib.
Import ListNotations.
Local Open Scope Z_scope.

Inductive hev :=
| Alloc (x : Z)                (* a new object at [x] is about to be made reachable *)
| Ref (h : nat) (x : Z)        (* the reader using hazard pointer [h] obtains a reference to [x] *)
| Done (h : nat)               (* it gives up that reference, if it has one *)
| Free (x : Z).                (* the object at [x] is destroyed *)

Record hst := { held : list (nat * Z); live : list Z }.
Definition mem_Z (x : Z) (l : list Z) : bool := existsb (Z.eqb x) l.

(** References are obtained to objects that exist; what is destroyed exists and is not referred to. *)
Definition hp_step (a : hst) (e : hev) : option hst :=
  match e with
  | Alloc x => Some {| held := held a; live := x :: live a |}
  | Ref h x => if mem_Z x (live a) then Some {| held := (h, x) :: held a; live := live a |} else None
  | Done h => Some {| held := filter (fun p => negb (Nat.eqb h (fst p))) (held a); live := live a |}
  | Free x =>
      if mem_Z x (live a) && negb (existsb (fun p => x =? snd p) (held a))
      then Some {| held := held a; live := remove Z.eq_dec x (live a) |} else None
  end.
Definition hp_legal (log : list hev) : Prop := exists a, accepts hp_step {| held := []; live := [] |} log = Some a.

(** What is asked of the allocator: an address is given out while no object is there. *)
Definition env_step (l : list Z) (e : hev) : option (list Z) :=
  match e with
  | Alloc x => if (x =? 0) || mem_Z x l then None else Some (x :: l)
  | Free x => Some (remove Z.eq_dec x l)
  | _ => Some l
  end.
Definition fresh (log : list hev) : Prop := exists l, accepts env_step [] log = Some l.
