(** Model of include/spinlock/cas.h (test-and-test-and-set spinlock using
    compare-and-swap).  One [ck_pr_*] operation per step. *)
From Coq Require Import Arith List ZArith Bool.
From Verif Require Import Lib LockSpec.
Import ListNotations.
Local Open Scope Z_scope.

Inductive pc :=
| Idle
| LkCas     (** cas.h:80   about to execute ck_pr_cas_uint in _lock *)
| LkLoad    (** cas.h:81   inner while, about to load *)
| EbCas     (** cas.h:94   about to execute ck_pr_cas_uint in _lock_eb *)
| Crit.

Record state := mk { value : Z; thr : nat -> pc }.

(** cas.h:48-55 ck_spinlock_cas_init: value = false. *)
Definition init : state := mk 0 (fun _ => Idle).

Inductive act := ALock | ALockEb | ATry | AUnlock | ALocked | ATick.

Definition goto (s : state) (t : nat) (p : pc) : state := mk (value s) (upd (thr s) t p).

Definition step (s : state) (l : nat * act) : option (state * list lev) :=
  let (t, a) := l in
  match thr s t, a with
  (* cas.h:76-87 ck_spinlock_cas_lock *)
  | Idle, ALock => Some (goto s t LkCas, [])
  (* cas.h:80 while (ck_pr_cas_uint(&lock->value, false, true) == false) *)
  | LkCas, ATick =>
      if Z.eqb (value s) 0
      then Some (mk 1 (upd (thr s) t Crit), [Acq t])
      else Some (goto s t LkLoad, [])
  (* cas.h:81-82 while (load == true) stall *)
  | LkLoad, ATick =>
      if Z.eqb (value s) 1 then Some (goto s t LkLoad, [])
      else Some (goto s t LkCas, [])
  (* cas.h:89-99 ck_spinlock_cas_lock_eb *)
  | Idle, ALockEb => Some (goto s t EbCas, [])
  | EbCas, ATick =>
      if Z.eqb (value s) 0
      then Some (mk 1 (upd (thr s) t Crit), [Acq t])
      else Some (goto s t EbCas, [])
  (* cas.h:57-65 ck_spinlock_cas_trylock: value = fas(true); return !value *)
  | Idle, ATry =>
      if Z.eqb (value s) 0
      then Some (mk 1 (upd (thr s) t Crit), [Acq t])
      else Some (mk 1 (thr s), [TryFail t])
  (* cas.h:67-74 ck_spinlock_cas_locked *)
  | _, ALocked =>
      match thr s t with
      | Idle | Crit => Some (s, [Locked t (negb (Z.eqb (value s) 0))])
      | _ => None
      end
  (* cas.h:101-109 ck_spinlock_cas_unlock *)
  | Crit, AUnlock => Some (mk 0 (upd (thr s) t Idle), [Rel t])
  | _, _ => None
  end.

Definition waiting (s : state) (t : nat) : bool :=
  match thr s t with LkCas | LkLoad | EbCas => true | _ => false end.
