(** What safe memory reclamation promises its clients (C71): the specification, independent of the
    implementation and of the machine.  Objects have identifiers other than 0. *)
From Coq Require Import ZArith Arith List Bool.
From Verif Require Import Lib.
Import ListNotations.
Local Open Scope Z_scope.

Inductive rev :=
| Alloc (x : Z)                (* a new object [x] is about to be made reachable *)
| Ref (t : nat) (x : Z)        (* thread [t] obtains a reference to [x] inside a read section *)
| Done (t : nat)               (* thread [t] leaves its outermost read section *)
| Free (x : Z)                 (* [x] is destroyed *)
| Tick.                        (* the global epoch advances *)

(** Who has a reference to what, and what is destroyed. *)
Record smr := { held : list (nat * Z); freed : list Z }.


(** References are only obtained to objects that exist, and an object that is referred to is not
    destroyed. *)
Definition smr_step (a : smr) (e : rev) : option smr :=
  match e with
  | Ref t x => if existsb (Z.eqb x) (freed a) then None else Some {| held := (t, x) :: held a; freed := freed a |}
  | Done t => Some {| held := filter (fun p => negb (Nat.eqb t (fst p))) (held a); freed := freed a |}
  | Free x => if existsb (fun p => x =? snd p) (held a) then None else Some {| held := held a; freed := x :: freed a |}
  | Alloc _ | Tick => Some a
  end.
Definition smr_legal (log : list rev) : Prop := exists a, accepts smr_step {| held := []; freed := [] |} log = Some a.

(** The objects made reachable in a log, each of which is to be new; advances of the epoch. *)
Fixpoint allocs (log : list rev) : list Z :=
  match log with [] => [] | Alloc x :: log => x :: allocs log | _ :: log => allocs log end.
Fixpoint ticks (log : list rev) : nat :=
  match log with [] => 0%nat | Tick :: log => S (ticks log) | _ :: log => ticks log end.
Definition fresh (log : list rev) : Prop := NoDup (allocs log) /\ ~ In 0 (allocs log).
(** The objects destroyed in a log: each is to be destroyed once. *)
Fixpoint frees (log : list rev) : list Z :=
  match log with [] => [] | Free x :: log => x :: frees log | _ :: log => frees log end.
