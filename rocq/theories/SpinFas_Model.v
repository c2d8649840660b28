(** Model of include/spinlock/fas.h (test-and-set spinlock).
    One [ck_pr_*] operation per step; fences and stalls are no-ops. *)
From Coq Require Import Arith List ZArith Bool.
From Verif Require Import Lib LockSpec.
Import ListNotations.
Local Open Scope Z_scope.

(** Program counter of a thread with respect to the lock. *)
Inductive pc :=
| Idle      (** not in any call, not holding *)
| LkFas     (** fas.h:80   about to execute ck_pr_fas_uint in _lock *)
| LkLoad    (** fas.h:81-83 inner do-while, about to load *)
| EbFas     (** fas.h:95   about to execute ck_pr_fas_uint in _lock_eb *)
| Crit.     (** holds the lock *)

Record state := mk { value : Z; thr : nat -> pc }.

(** fas.h:45-51 ck_spinlock_fas_init: value = false. *)
Definition init : state := mk 0 (fun _ => Idle).

(** Client choices.  [ATick] executes the next atomic operation of a pending call. *)
Inductive act := ALock | ALockEb | ATry | AUnlock | ALocked | ATick.

Definition goto (s : state) (t : nat) (p : pc) : state := mk (value s) (upd (thr s) t p).

Definition step (s : state) (l : nat * act) : option (state * list lev) :=
  let (t, a) := l in
  match thr s t, a with
  (* fas.h:76-88 ck_spinlock_fas_lock, entry *)
  | Idle, ALock => Some (goto s t LkFas, [])
  (* fas.h:80 while (ck_pr_fas_uint(&lock->value, true) == true) *)
  | LkFas, ATick =>
      if Z.eqb (value s) 1
      then Some (mk 1 (upd (thr s) t LkLoad), [])
      else Some (mk 1 (upd (thr s) t Crit), [Acq t])
  (* fas.h:81-83 do stall while (load == true) *)
  | LkLoad, ATick =>
      if Z.eqb (value s) 1 then Some (goto s t LkLoad, [])
      else Some (goto s t LkFas, [])
  (* fas.h:90-100 ck_spinlock_fas_lock_eb; the backoff touches no shared state *)
  | Idle, ALockEb => Some (goto s t EbFas, [])
  | EbFas, ATick =>
      if Z.eqb (value s) 1
      then Some (mk 1 (upd (thr s) t EbFas), [])
      else Some (mk 1 (upd (thr s) t Crit), [Acq t])
  (* fas.h:54-63 ck_spinlock_fas_trylock: value = fas(true); return !value *)
  | Idle, ATry =>
      if Z.eqb (value s) 0
      then Some (mk 1 (upd (thr s) t Crit), [Acq t])
      else Some (mk 1 (thr s), [TryFail t])
  (* fas.h:65-73 ck_spinlock_fas_locked *)
  | _, ALocked =>
      match thr s t with
      | Idle | Crit => Some (s, [Locked t (negb (Z.eqb (value s) 0))])
      | _ => None
      end
  (* fas.h:102-109 ck_spinlock_fas_unlock *)
  | Crit, AUnlock => Some (mk 0 (upd (thr s) t Idle), [Rel t])
  | _, _ => None
  end.

(** A thread inside lock or lock_eb. *)
Definition waiting (s : state) (t : nat) : bool :=
  match thr s t with LkFas | LkLoad | EbFas => true | _ => false end.
