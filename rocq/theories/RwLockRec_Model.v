(** Model of the recursive variant in include/ck_rwlock.h:204-310.  Thread [t]
    passes the identifier [S t]; the header requires non-zero identifiers
    (zero means "no writer", ck_rwlock.h:225, 231). *)
From Coq Require Import Arith List Bool ZArith.
From Verif Require Import Lib LockSpec.
Import ListNotations.
Local Open Scope Z_scope.

Definition W : Z := 2 ^ 32.
Definition inc (x : Z) : Z := (x + 1) mod W.
Definition dec (x : Z) : Z := (x - 1) mod W.

(** The boolean argument only records whether the caller already holds the
    lock; the code does not read it. *)
Inductive pc :=
| Idle
| WL0 (h : bool)  (** ck_rwlock.h:224 load writer *)
| WL1 (h : bool)  (** ck_rwlock.h:228 compare-and-swap loop *)
| WL2 (h : bool)  (** ck_rwlock.h:233 waiting for n_readers == 0 *)
| WL3 (h : bool)  (** ck_rwlock.h:238 wc++ *)
| WT0 (h : bool)  (** ck_rwlock.h:247 load writer *)
| WT1 (h : bool)  (** ck_rwlock.h:251 compare-and-swap *)
| WT2 (h : bool)  (** ck_rwlock.h:256 load n_readers *)
| WT3 (h : bool)  (** ck_rwlock.h:257 store 0 *)
| WT4 (h : bool)  (** ck_rwlock.h:263 wc++ *)
| WCrit
| U1             (** ck_rwlock.h:271 --wc *)
| U2             (** ck_rwlock.h:273 store writer 0 *)
| RL1 | RL2 | RL3 | RL4 (** read_lock, ck_rwlock.h:160-186 through 279-285 *)
| RT1 | RT2 | RT3 | RT4 (** read_trylock, ck_rwlock.h:133-155 through 287-292 *)
| RCrit.

Record state := mk { writer : nat; nr : Z; wc : Z; thr : nat -> pc }.

Definition init : state := mk 0 0 0 (fun _ => Idle).

Inductive act := AWLock | AWTry | AWUnlock | ARLock | ARTry | ARUnlock | ATick.

Definition go (s : state) (t : nat) (p : pc) : state := mk (writer s) (nr s) (wc s) (upd (thr s) t p).

Definition step (n : nat) (s : state) (l : nat * act) : option (state * list rwev) :=
  let (t, a) := l in
  if negb (Nat.ltb t n) then None else
  match thr s t, a with
  | Idle, AWLock => Some (go s t (WL0 false), [])
  | Idle, AWTry => Some (go s t (WT0 false), [])
  | Idle, ARLock => Some (go s t RL1, [])
  | Idle, ARTry => Some (go s t RT1, [])
  (* recursive calls; the client does not nest UINT_MAX deep *)
  | WCrit, AWLock => if Z.ltb (wc s + 1) W then Some (go s t (WL0 true), []) else None
  | WCrit, AWTry => if Z.ltb (wc s + 1) W then Some (go s t (WT0 true), []) else None
  | WL0 h, ATick => Some (go s t (if Nat.eqb (writer s) (S t) then WL3 h else WL1 h), [])
  | WL1 h, ATick => if Nat.eqb (writer s) 0 then Some (mk (S t) (nr s) (wc s) (upd (thr s) t (WL2 h)), [])
                    else Some (go s t (WL1 h), [])
  | WL2 h, ATick => Some (go s t (if Z.eqb (nr s) 0 then WL3 h else WL2 h), [])
  | WL3 h, ATick => Some (mk (writer s) (nr s) (inc (wc s)) (upd (thr s) t WCrit), [WAcq t])
  | WT0 h, ATick => Some (go s t (if Nat.eqb (writer s) (S t) then WT4 h else WT1 h), [])
  | WT1 h, ATick => if Nat.eqb (writer s) 0 then Some (mk (S t) (nr s) (wc s) (upd (thr s) t (WT2 h)), [])
                    else Some (go s t (if h then WCrit else Idle), [WTryFail t])
  | WT2 h, ATick => Some (go s t (if Z.eqb (nr s) 0 then WT4 h else WT3 h), [])
  | WT3 h, ATick => Some (mk 0 (nr s) (wc s) (upd (thr s) t (if h then WCrit else Idle)), [WTryFail t])
  | WT4 h, ATick => Some (mk (writer s) (nr s) (inc (wc s)) (upd (thr s) t WCrit), [WAcq t])
  | WCrit, AWUnlock => Some (go s t U1, [])
  | U1, ATick => if Z.eqb (dec (wc s)) 0 then Some (mk (writer s) (nr s) (dec (wc s)) (upd (thr s) t U2), [])
                 else Some (mk (writer s) (nr s) (dec (wc s)) (upd (thr s) t WCrit), [WRel t])
  | U2, ATick => Some (mk 0 (nr s) (wc s) (upd (thr s) t Idle), [WRel t])
  | RL1, ATick => Some (go s t (if Nat.eqb (writer s) 0 then RL2 else RL1), [])
  | RL2, ATick => Some (mk (writer s) (inc (nr s)) (wc s) (upd (thr s) t RL3), [])
  | RL3, ATick => if Nat.eqb (writer s) 0 then Some (go s t RCrit, [RAcq t]) else Some (go s t RL4, [])
  | RL4, ATick => Some (mk (writer s) (dec (nr s)) (wc s) (upd (thr s) t RL1), [])
  | RT1, ATick => if Nat.eqb (writer s) 0 then Some (go s t RT2, []) else Some (go s t Idle, [RTryFail t])
  | RT2, ATick => Some (mk (writer s) (inc (nr s)) (wc s) (upd (thr s) t RT3), [])
  | RT3, ATick => if Nat.eqb (writer s) 0 then Some (go s t RCrit, [RAcq t]) else Some (go s t RT4, [])
  | RT4, ATick => Some (mk (writer s) (dec (nr s)) (wc s) (upd (thr s) t Idle), [RTryFail t])
  | RCrit, ARUnlock => Some (mk (writer s) (dec (nr s)) (wc s) (upd (thr s) t Idle), [RRel t])
  | _, _ => None
  end.

(** Specification: a reader-writer lock whose write side counts nesting.  The
    lock is released to others only by the outermost release. *)
Definition rec_step (x : rwst * nat) (e : rwev) : option (rwst * nat) :=
  let (a, d) := x in
  match e with
  | WAcq t =>
      match rw_w a with
      | Some u => if Nat.eqb t u then Some (a, S d) else None
      | None => match rw_step a e with Some a' => Some (a', 1%nat) | None => None end
      end
  | WRel t =>
      match rw_w a, d with
      | Some u, S (S d') => if Nat.eqb t u then Some (a, S d') else None
      | Some u, S O => match rw_step a e with Some a' => Some (a', O) | None => None end
      | _, _ => None
      end
  | _ => match rw_step a e with Some a' => Some (a', d) | None => None end
  end.

Definition rec_legal (log : list rwev) : Prop := exists x, accepts rec_step (rw_init, O) log = Some x.

Definition waiting_w (s : state) (t : nat) : bool :=
  match thr s t with WL0 _ | WL1 _ | WL2 _ | WL3 _ => true | _ => false end.
Definition waiting_r (s : state) (t : nat) : bool := match thr s t with RL1 | RL2 | RL3 | RL4 => true | _ => false end.
