(** What C58 asks of a lookup concurrent with the writer, read off the log. *)
From Coq Require Import Arith NArith List Bool.
From Verif Require Import Lib Obs Ht_Model Ht_Spec HtConc_Model.
Import ListNotations.

(** a pending lookup: the key; the pairs of all abstract maps since the call; has no operation
    that moves an entry started since the call; how often deletions was incremented since *)
Record look := mkl { l_key : N; l_may : list (N * N); l_calm : bool; l_del : N }.
(** [o_old], [o_new]: the abstract map before and after the operation of the writer that is in
    progress (equal when there is none); [o_sane]: no put has succeeded with its key present *)
Record obs := mko { o_old : list (N * N); o_new : list (N * N); o_sane : bool; o_rd : nat -> option look }.
Definition obs0 : obs := mko [] [] true (fun _ => None).

Section S.
Variables (bs : bool) (len : N -> N) (memeq : N -> N -> N -> bool).
Notation same := (same bs len memeq).

Definition saneb (A : list (N * N)) (o : op) (r : res) : bool :=
  match o with OPut k _ _ => negb (fst (fst r) && mem bs len memeq k A) | _ => true end.
Definition each (f : look -> look) (g : obs) : nat -> option look := fun t => option_map f (o_rd g t).
Definition onext (g : obs) (e : event) : obs :=
  match e with
  | ECall o r mv =>
      let B := aop bs len memeq (o_new g) o r in
      mko (o_new g) B (o_sane g && saneb (o_new g) o r)
        (each (fun l => mkl (l_key l) (l_may l ++ B) (l_calm l && negb mv) (l_del l)) g)
  | EDel => mko (o_old g) (o_new g) (o_sane g) (each (fun l => mkl (l_key l) (l_may l) (l_calm l) (l_del l + 1)%N) g)
  | EDone => mko (o_new g) (o_new g) (o_sane g) (o_rd g)
  | EGet t k => mko (o_old g) (o_new g) (o_sane g) (upd (o_rd g) t (Some (mkl k (o_old g ++ o_new g) true 0)))
  | ERet t _ => mko (o_old g) (o_new g) (o_sane g) (upd (o_rd g) t None)
  | EBad => g
  end.

(** the pair returned: its key is the key, and its value was the key's at some moment *)
Definition rightful (l : look) (K V : N) : Prop :=
  same K (l_key l) = true /\ exists k0, In (k0, V) (l_may l) /\ same k0 (l_key l) = true.
Definition ook (g : obs) (e : event) : Prop :=
  match e with
  | ECall o r _ => o_sane g && saneb (o_new g) o r = true -> legal bs len memeq (o_new g) o r True
  | ERet t (Some (K, V)) =>
      o_sane g = true -> exists l, o_rd g t = Some l /\ (l_calm l = true -> (l_del l < 2 ^ 64)%N -> rightful l K V)
  | EBad => o_sane g = false
  | _ => True
  end.
End S.
