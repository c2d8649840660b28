(** What a sequence counter promises, as a predicate on logs: the contents of the
    data are recomputed from the write events alone. *)
From Coq Require Import Arith NArith ZArith List Bool.
From Verif Require Import Lib Sequence_Model.
Import ListNotations.

(** Contents of the data after a log. *)
Fixpoint replay (m : nat -> Z) (log : list ev) : nat -> Z :=
  match log with
  | [] => m
  | WSet _ i v :: r => replay (fun j => if Nat.eqb j i then v else m j) r
  | _ :: r => replay m r
  end.

(** Number of write sections begun in a log. *)
Definition is_wbeg (e : ev) : bool := match e with WBeg _ => true | _ => false end.
Definition is_write (e : ev) : bool := match e with WBeg _ | WSet _ _ _ | WEnd _ => true | _ => false end.
Definition writes_begun (log : list ev) : N := N.of_nat (length (filter is_wbeg log)).

(** A write section is open after the log. *)
Definition open_write (log : list ev) : bool :=
  fold_left (fun b e => match e with WBeg _ => true | WEnd _ => false | _ => b end) log false.
