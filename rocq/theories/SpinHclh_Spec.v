(** Specification of a hierarchical queue lock: one holder at a time over all
    clusters, and within a cluster acquisitions happen in request order.
    Independent of the model. *)
From Coq Require Import Arith List Bool.
From Verif Require Import Lib LockSpec.
Import ListNotations.

Record hier := { h_holder : option nat; h_queue : nat -> list nat }.

Definition hier_init : hier := {| h_holder := None; h_queue := fun _ => [] |}.

Section Cl.
Variable cl : nat -> nat.

Definition hier_step (a : hier) (e : fev) : option hier :=
  match e with
  | FReq t => Some {| h_holder := h_holder a;
                      h_queue := upd (h_queue a) (cl t) (h_queue a (cl t) ++ [t]) |}
  | FAcq t =>
      match h_holder a, h_queue a (cl t) with
      | None, u :: q => if Nat.eqb t u then Some {| h_holder := Some t; h_queue := upd (h_queue a) (cl t) q |}
                        else None
      | _, _ => None
      end
  | FRel t =>
      match h_holder a with
      | Some u => if Nat.eqb t u then Some {| h_holder := None; h_queue := h_queue a |} else None
      | None => None
      end
  | _ => None
  end.

Definition hier_legal (log : list fev) : Prop :=
  exists a, accepts hier_step hier_init log = Some a.

End Cl.
