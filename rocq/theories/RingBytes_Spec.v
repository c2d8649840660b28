(** What a client of a ring of structs expects: a bounded FIFO of elements of [ts] bytes, and
    slots that do not share bytes. *)
From Coq Require Import NArith List Bool.
From Verif Require Import RingBytes_Model.
Import ListNotations.
Open Scope N_scope.

Section Spec.
Context {byte : Type}.
Definition same (ts : N) (e f : N -> byte) : Prop := forall j, j < ts -> e j = f j.

(** results of a FIFO that holds up to [n] elements, [q] its contents *)
Fixpoint fifo (n : nat) (ts : N) (q : list (N -> byte)) (os : list (op byte)) (rs : list (res byte)) : Prop :=
  match os, rs with
  | [], [] => True
  | Enq e :: os, RBool b :: rs =>
      b = Nat.ltb (length q) n /\ fifo n ts (if b then q ++ [e] else q) os rs
  | Deq :: os, RElem None :: rs => q = [] /\ fifo n ts q os rs
  | Deq :: os, RElem (Some f) :: rs =>
      match q with [] => False | e :: q => same ts f e /\ fifo n ts q os rs end
  | _, _ => False
  end.

(** loads of a memory in which every byte of every slot is a cell of its own *)
Fixpoint cells (m : N -> N -> byte) (l : list (acc byte)) : list byte :=
  match l with
  | [] => []
  | Wr i j v :: l => cells (fun i' j' => if (i' =? i) && (j' =? j) then v else m i' j') l
  | Rd i j :: l => m i j :: cells m l
  end.

(** accesses within the elements: index below 2^k, byte below [ts] *)
Definition within (k ts : N) (a : acc byte) : Prop :=
  match a with Wr i j _ | Rd i j => i < 2 ^ k /\ j < ts end.
End Spec.
