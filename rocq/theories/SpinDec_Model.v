(** Model of include/spinlock/dec.h (atomic-decrement spinlock), with 32-bit
    wrap-around of the lock word.  [n] bounds the thread identifiers: only
    threads [t < n] call the lock. *)
From Coq Require Import Arith List ZArith Bool.
From Verif Require Import Lib LockSpec.
Import ListNotations.
Local Open Scope Z_scope.

Definition W : Z := 2 ^ 32.

Inductive pc :=
| Idle
| LkDec     (** dec.h:91 / dec.h:111  about to execute ck_pr_dec_uint_zero *)
| LkLoad    (** dec.h:96 / dec.h:115  inner while, about to load *)
| Crit.

Record state := mk { value : Z; thr : nat -> pc }.

(** dec.h:50-57 ck_spinlock_dec_init: value = 1. *)
Definition init : state := mk 1 (fun _ => Idle).

Inductive act := ALock | ATry | AUnlock | ALocked | ATick.

Definition goto (s : state) (t : nat) (p : pc) : state := mk (value s) (upd (thr s) t p).

Definition step (n : nat) (s : state) (l : nat * act) : option (state * list lev) :=
  let (t, a) := l in
  if negb (Nat.ltb t n) then None else
  match thr s t, a with
  (* dec.h:79-102 ck_spinlock_dec_lock and dec.h:104-122 ck_spinlock_dec_lock_eb
     (same atomic operations; the backoff touches no shared state) *)
  | Idle, ALock => Some (goto s t LkDec, [])
  (* dec.h:91-93 decrement, r = (result == 0) *)
  | LkDec, ATick =>
      let v := (value s - 1) mod W in
      if Z.eqb v 0
      then Some (mk v (upd (thr s) t Crit), [Acq t])
      else Some (mk v (upd (thr s) t LkLoad), [])
  (* dec.h:96 while (load != 1) stall *)
  | LkLoad, ATick =>
      if Z.eqb (value s) 1 then Some (goto s t LkDec, [])
      else Some (goto s t LkLoad, [])
  (* dec.h:59-67 ck_spinlock_dec_trylock: value = fas(0); return value == 1 *)
  | Idle, ATry =>
      if Z.eqb (value s) 1
      then Some (mk 0 (upd (thr s) t Crit), [Acq t])
      else Some (mk 0 (thr s), [TryFail t])
  (* dec.h:69-77 ck_spinlock_dec_locked: load != 1 *)
  | _, ALocked =>
      match thr s t with
      | Idle | Crit => Some (s, [Locked t (negb (Z.eqb (value s) 1))])
      | _ => None
      end
  (* dec.h:124-137 ck_spinlock_dec_unlock: store 1 *)
  | Crit, AUnlock => Some (mk 1 (upd (thr s) t Idle), [Rel t])
  | _, _ => None
  end.

Definition waiting (s : state) (t : nat) : bool :=
  match thr s t with LkDec | LkLoad => true | _ => false end.
