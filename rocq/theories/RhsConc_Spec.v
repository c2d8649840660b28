(** What C76 asks of a lookup concurrent with the writer, read off the log. *)
From Coq Require Import Arith NArith List Bool.
From Verif Require Import Lib Obs Rhs_Model Rhs_Spec RhsConc_Model.
Import ListNotations.

(** a pending lookup: the key; is the key in every abstract set since the call; the members of
    any abstract set since the call; the increments of generations since the call; have all
    maps that were current since the call had at least 1024 slots *)
Record look := mkl { l_key : N; l_must : bool; l_may : list N; l_sig : N; l_big : bool }.
(** [o_old], [o_new]: the abstract set before and after the operation of the writer that is in
    progress (equal when there is none); [o_cap]: the slots of the current map *)
Record obs := mko { o_old : list N; o_new : list N; o_cap : N; o_rd : nat -> option look }.
(** at first the set is empty and its map has [c] slots *)
Definition obs0 (c : N) : obs := mko [] [] c (fun _ => None).

Section S.
Variable cmp : option (N -> N -> bool).
Notation mem := (mem cmp).

Definition big (c : N) : bool := N.leb 1024 c.
Definition onext (g : obs) (e : ev) : obs :=
  match e with
  | ECall o r =>
      let B := aop cmp (o_new g) o r in
      mko (o_new g) B (o_cap g) (fun t => option_map (fun l => mkl (l_key l) (l_must l && mem (l_key l) B) (l_may l ++ B) (l_sig l) (l_big l)) (o_rd g t))
  | ESig => mko (o_old g) (o_new g) (o_cap g) (fun t => option_map (fun l => mkl (l_key l) (l_must l) (l_may l) (l_sig l + 1)%N (l_big l)) (o_rd g t))
  | EMap c => mko (o_old g) (o_new g) c (fun t => option_map (fun l => mkl (l_key l) (l_must l) (l_may l) (l_sig l) (l_big l && big c)) (o_rd g t))
  | EDone => mko (o_new g) (o_new g) (o_cap g) (o_rd g)
  | EGet t k => mko (o_old g) (o_new g) (o_cap g) (upd (o_rd g) t (Some (mkl k (mem k (o_old g) && mem k (o_new g)) (o_old g ++ o_new g) 0 (big (o_cap g)))))
  | ERet t v => mko (o_old g) (o_new g) (o_cap g) (upd (o_rd g) t None)
  | EBad => g
  end.

(** a lookup that returns nothing: the key was absent at some moment of the call (or a map with
    fewer than 1024 slots was current and a relocation happened during the call, or 2^32 relocations did); a lookup
    that returns an object: it is the key, and was a member at some moment of the call *)
Definition ook (g : obs) (e : ev) : Prop :=
  match e with
  | ECall o r => legal cmp (o_new g) o r True
  | ERet t v =>
      exists l, o_rd g t = Some l /\
      if N.eqb v 0 then l_must l = false \/ (l_big l = false /\ l_sig l <> 0%N) \/ (2 ^ 32 <= l_sig l)%N
      else same cmp v (l_key l) = true /\ In v (l_may l)
  | EBad => False
  | _ => True
  end.
End S.
