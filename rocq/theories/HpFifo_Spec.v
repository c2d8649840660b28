(** Specification of the FIFO with hazard pointers: the calls and returns are those of a FIFO queue
    ([fifo_seq] in FifoMp_Model), and entries are accessed only while they are alive. *)
From Coq Require Import Arith List Bool.
From Verif Require Import Lib Lin Hp_Model HpFifo_Model.
From Verif Require FifoMp_Model.
Import ListNotations.

(** the calls, linearization points and returns; the events of src/ck_hp.c *)
Fixpoint lin_of (log : list fevt) : list mev :=
  match log with [] => [] | LE e :: log => e :: lin_of log | _ :: log => lin_of log end.
Fixpoint hp_of (log : list fevt) : list event :=
  match log with [] => [] | HE e :: log => e :: hp_of log | _ :: log => hp_of log end.

(** An observer of the log.  [w_live e]: [e] was given to enqueue (or to init) and not destroyed
    since (nor given back by a tryenqueue that failed); [w_ptr h]: what descriptor [h] was retired
    for; [w_arg t]: the argument of the last enqueue of [t]. *)
Record wst := mkw { w_live : nat -> bool; w_ptr : nat -> nat; w_arg : nat -> nat }.
Definition w0 (z : nat) : wst := mkw (Nat.eqb z) (fun _ => 0) (fun _ => 0).
Definition wnext (w : wst) (e : fevt) : wst :=
  match e with
  | LE (Call t (FifoMp_Model.Enq e _ | FifoMp_Model.TryEnq e _)) => mkw (upd (w_live w) e true) (w_ptr w) (upd (w_arg w) t e)
  | LE (Ret t (FifoMp_Model.RB false)) => mkw (upd (w_live w) (w_arg w t) false) (w_ptr w) (w_arg w)
  | HE (ERet _ _ h _ p) => mkw (w_live w) (upd (w_ptr w) h p) (w_arg w)
  | HE (EDes _ _ h _) => mkw (upd (w_live w) (w_ptr w h) false) (w_ptr w) (w_arg w)
  | _ => w
  end.
(** accesses to live entries only, not to NULL *)
Definition wok (w : wst) (e : fevt) : Prop := match e with AC _ e => w_live w e = true /\ e <> 0 | _ => True end.

(** the entries that are given to enqueue by the actions *)
Fixpoint given (ls : list (nat * fact)) : list nat :=
  match ls with [] => [] | (_, AEnq _ _ e _) :: ls => e :: given ls | _ :: ls => given ls end.
