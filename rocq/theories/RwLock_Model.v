(** Model of include/ck_rwlock.h (centralized reader-writer lock). *)
From Coq Require Import Arith List Bool ZArith.
From Verif Require Import Lib LockSpec.
Import ListNotations.
Local Open Scope Z_scope.

(** unsigned int arithmetic *)
Definition W : Z := 2 ^ 32.
Definition inc (x : Z) : Z := (x + 1) mod W.
Definition dec (x : Z) : Z := (x - 1) mod W.

Inductive pc :=
| Idle
| WL1            (** ck_rwlock.h:117 fas loop of write_lock *)
| WL2            (** ck_rwlock.h:122 waiting for n_readers == 0 *)
| WT1 | WT2 | WT3 (** ck_rwlock.h:96 fas; 101 load n_readers; 102 store writer 0 *)
| WCrit
| WD             (** ck_rwlock.h:77 downgrade: n_readers incremented, about to clear writer *)
| RL1 | RL2 | RL3 | RL4 (** ck_rwlock.h:165 load; 168 inc; 176 load; 179 dec *)
| RT1 | RT2 | RT3 | RT4 (** ck_rwlock.h:137 load; 140 inc; 148 load; 153 dec *)
| RCrit.

Record state := mk { writer : bool; nr : Z; thr : nat -> pc }.

(** ck_rwlock.h:43-51 *)
Definition init : state := mk false 0 (fun _ => Idle).

Inductive act := AWLock | AWTry | AWUnlock | ADown | ARLock | ARTry | ARUnlock | ATick.

Definition go (s : state) (t : nat) (p : pc) : state := mk (writer s) (nr s) (upd (thr s) t p).

Definition step (n : nat) (s : state) (l : nat * act) : option (state * list rwev) :=
  let (t, a) := l in
  if negb (Nat.ltb t n) then None else
  match thr s t, a with
  | Idle, AWLock => Some (go s t WL1, [])
  | Idle, AWTry => Some (go s t WT1, [])
  | Idle, ARLock => Some (go s t RL1, [])
  | Idle, ARTry => Some (go s t RT1, [])
  (* write_lock, 113-127 *)
  | WL1, ATick => Some (mk true (nr s) (upd (thr s) t (if writer s then WL1 else WL2)), [])
  | WL2, ATick => if Z.eqb (nr s) 0 then Some (go s t WCrit, [WAcq t]) else Some (go s t WL2, [])
  (* write_trylock, 92-108 *)
  | WT1, ATick => if writer s then Some (mk true (nr s) (upd (thr s) t Idle), [WTryFail t])
                  else Some (mk true (nr s) (upd (thr s) t WT2), [])
  | WT2, ATick => if Z.eqb (nr s) 0 then Some (go s t WCrit, [WAcq t]) else Some (go s t WT3, [])
  | WT3, ATick => Some (mk false (nr s) (upd (thr s) t Idle), [WTryFail t])
  (* write_unlock, 53-60 *)
  | WCrit, AWUnlock => Some (mk false (nr s) (upd (thr s) t Idle), [WRel t])
  (* write_downgrade, 72-79 *)
  | WCrit, ADown => Some (mk (writer s) (inc (nr s)) (upd (thr s) t WD), [])
  | WD, ATick => Some (mk false (nr s) (upd (thr s) t RCrit), [Down t])
  (* read_lock, 160-186 *)
  | RL1, ATick => Some (go s t (if writer s then RL1 else RL2), [])
  | RL2, ATick => Some (mk (writer s) (inc (nr s)) (upd (thr s) t RL3), [])
  | RL3, ATick => if writer s then Some (go s t RL4, []) else Some (go s t RCrit, [RAcq t])
  | RL4, ATick => Some (mk (writer s) (dec (nr s)) (upd (thr s) t RL1), [])
  (* read_trylock, 133-155 *)
  | RT1, ATick => if writer s then Some (go s t Idle, [RTryFail t]) else Some (go s t RT2, [])
  | RT2, ATick => Some (mk (writer s) (inc (nr s)) (upd (thr s) t RT3), [])
  | RT3, ATick => if writer s then Some (go s t RT4, []) else Some (go s t RCrit, [RAcq t])
  | RT4, ATick => Some (mk (writer s) (dec (nr s)) (upd (thr s) t Idle), [RTryFail t])
  (* read_unlock, 195-202 *)
  | RCrit, ARUnlock => Some (mk (writer s) (dec (nr s)) (upd (thr s) t Idle), [RRel t])
  | _, _ => None
  end.

Definition waiting_w (s : state) (t : nat) : bool := match thr s t with WL1 | WL2 => true | _ => false end.
Definition waiting_r (s : state) (t : nat) : bool := match thr s t with RL1 | RL2 | RL3 | RL4 => true | _ => false end.
