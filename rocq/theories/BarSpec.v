(** Specification of barriers: what a log of calls and returns may look like. *)
From Coq Require Import Arith List.
Import ListNotations.

Inductive bev :=
| Enter (t : nat)     (** participant [t] calls the barrier *)
| Leave (t : nat).    (** its call returns *)

Fixpoint enters (t : nat) (log : list bev) : nat :=
  match log with
  | [] => 0
  | Enter u :: r => (if Nat.eqb u t then 1 else 0) + enters t r
  | _ :: r => enters t r
  end.
Fixpoint leaves (t : nat) (log : list bev) : nat :=
  match log with
  | [] => 0
  | Leave u :: r => (if Nat.eqb u t then 1 else 0) + leaves t r
  | _ :: r => leaves t r
  end.

(** Whoever has returned from its k-th call did so after everybody had made its
    k-th call.  A statement about all executions speaks about all their prefixes,
    hence about the moment of each return. *)
Definition separated (n : nat) (log : list bev) : Prop :=
  forall t u, t < n -> u < n -> leaves t log <= enters u log.

(** The same, return by return: when [t] returns from its k-th call everybody has
    made its k-th call. *)
Definition returns_after_all (n : nat) (log : list bev) : Prop :=
  forall l1 t l2, t < n -> log = l1 ++ Leave t :: l2 -> forall u, u < n -> leaves t l1 < enters u l1.
