(** What C55 asks of a lookup concurrent with the writer, read off the log. *)
From Coq Require Import Arith NArith List Bool.
From Verif Require Import Lib Obs Hs_Model Hs_Spec HsConc_Model.
Import ListNotations.

(** a pending lookup: the key; is the key in every abstract set since the call; the members of
    any abstract set since the call; the relocations signalled since the call *)
Record look := mkl { l_key : N; l_must : bool; l_may : list N; l_sig : N }.
(** [o_old], [o_new]: the abstract set before and after the operation of the writer that is in
    progress (equal when there is none) *)
Record obs := mko { o_old : list N; o_new : list N; o_rd : nat -> option look }.
Definition obs0 : obs := mko [] [] (fun _ => None).

Section S.
Variable cmp : option (N -> N -> bool).
Notation mem := (mem cmp).

Definition onext (g : obs) (e : ev) : obs :=
  match e with
  | ECall o r =>
      let B := aop cmp (o_new g) o r in
      mko (o_new g) B (fun t => option_map (fun l => mkl (l_key l) (l_must l && mem (l_key l) B) (l_may l ++ B) (l_sig l)) (o_rd g t))
  | ESig => mko (o_old g) (o_new g) (fun t => option_map (fun l => mkl (l_key l) (l_must l) (l_may l) (l_sig l + 1)%N) (o_rd g t))
  | EDone => mko (o_new g) (o_new g) (o_rd g)
  | EGet t k => mko (o_old g) (o_new g) (upd (o_rd g) t (Some (mkl k (mem k (o_old g) && mem k (o_new g)) (o_old g ++ o_new g) 0)))
  | ERet t v => mko (o_old g) (o_new g) (upd (o_rd g) t None)
  | EBad => g
  end.

(** a lookup that returns nothing: the key was absent at some moment of the call (or 2^32
    relocations happened during the call); a lookup that returns an object: it is the key, and
    was a member at some moment of the call *)
Definition ook (g : obs) (e : ev) : Prop :=
  match e with
  | ECall o r => legal cmp (o_new g) o r True
  | ERet t v =>
      exists l, o_rd g t = Some l /\
      if N.eqb v 0 then l_must l = false \/ (2 ^ 32 <= l_sig l)%N
      else same cmp v (l_key l) = true /\ In v (l_may l)
  | EBad => False
  | _ => True
  end.
End S.
