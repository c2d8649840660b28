(** The predicates of include/ck_swlock.h: one load each, so each is a function of the lock word
    at that moment. *)
From Coq Require Import ZArith Bool.
From Verif Require Import SwLock_Model.

(** ck_swlock_locked_writer, 66-74 *)
Definition locked_writer (s : state) : bool := tst (val s) WBIT.
(** ck_swlock_locked, 85-93 *)
Definition locked (s : state) : bool := negb (Z.eqb (val s) 0).
(** ck_swlock_locked_reader, 197-203 *)
Definition locked_reader (s : state) : bool := tst (val s) RMASK.
