(** Model of include/ck_swlock.h (single-writer reader-writer lock).  Thread 0 is
    the writer; every thread below [n], the writer included, may read. *)
From Coq Require Import Arith List Bool ZArith.
From Verif Require Import Lib LockSpec.
Import ListNotations.
Local Open Scope Z_scope.

(** ck_swlock.h:43-46 and uint32_t arithmetic *)
Definition WBIT : Z := 2 ^ 31.
Definition LBIT : Z := 2 ^ 30.
Definition WMASK : Z := Z.lor LBIT WBIT.
Definition RMASK : Z := Z.lxor (2 ^ 32 - 1) WMASK.
Definition inc (x : Z) : Z := (x + 1) mod 2 ^ 32.
Definition dec (x : Z) : Z := (x - 1) mod 2 ^ 32.
Definition tst (x m : Z) : bool := negb (Z.eqb (Z.land x m) 0).

Inductive pc :=
| Idle
| WL1            (** 112: or WRITER *)
| WL2            (** 113: wait for no readers *)
| WT1            (** 100: cas 0 -> WRITER *)
| WCrit
| WD             (** 80: downgrade has incremented, about to clear the writer bits (62) *)
| LT1            (** 125: or WRITER *)
| LT2            (** 128: cas WRITER -> WRITER|LATCH *)
| LT3            (** 132: wait until the word is exactly WRITER *)
| LCrit
| RL1 | RL2 | RL3 (** 177: wait for no writer; 180: faa; 190: dec *)
| RT1 | RT2 | RT3 (** 158: load; 163: faa; 165: dec *)
| RCrit.

(** [copy]: a copy of the lock word the latched writer has made *)
Record state := mk { val : Z; copy : option Z; thr : nat -> pc }.

(** 48-55 *)
Definition init : state := mk 0 None (fun _ => Idle).

Inductive act := AWLock | AWTry | AWUnlock | ADown | ALatch | AUnlatch | ACopy | AWrite | ARLock | ARTry | ARUnlock | ATick.

Definition go (s : state) (t : nat) (p : pc) : state := mk (val s) (copy s) (upd (thr s) t p).
Definition put (s : state) (v : Z) (t : nat) (p : pc) : state := mk v (copy s) (upd (thr s) t p).

Definition step (n : nat) (s : state) (l : nat * act) : option (state * list rwev) :=
  let (t, a) := l in
  if negb (Nat.ltb t n) then None else
  match thr s t, a with
  | Idle, AWLock => if Nat.eqb t 0 then Some (go s t WL1, []) else None
  | Idle, AWTry => if Nat.eqb t 0 then Some (go s t WT1, []) else None
  | Idle, ALatch => if Nat.eqb t 0 then Some (go s t LT1, []) else None
  | Idle, ARLock => Some (go s t RL1, [])
  | Idle, ARTry => Some (go s t RT1, [])
  (* write_lock, 108-118 *)
  | WL1, ATick => Some (put s (Z.lor (val s) WBIT) t WL2, [])
  | WL2, ATick => if tst (val s) RMASK then Some (go s t WL2, []) else Some (go s t WCrit, [WAcq t])
  (* write_trylock, 95-103 *)
  | WT1, ATick => if Z.eqb (val s) 0 then Some (put s WBIT t WCrit, [WAcq t]) else Some (go s t Idle, [WTryFail t])
  (* write_unlock, 57-64 *)
  | WCrit, AWUnlock => Some (put s (Z.land (val s) RMASK) t Idle, [WRel t])
  (* write_downgrade, 76-83 *)
  | WCrit, ADown => Some (put s (inc (val s)) t WD, [])
  | WD, ATick => Some (put s (Z.land (val s) RMASK) t RCrit, [Down t])
  (* write_latch, 120-137 *)
  | LT1, ATick => Some (put s (Z.lor (val s) WBIT) t LT2, [])
  | LT2, ATick => if Z.eqb (val s) WBIT then Some (mk WMASK None (upd (thr s) t LCrit), [WAcq t]) else Some (go s t LT3, [])
  | LT3, ATick => Some (go s t (if Z.eqb (val s) WBIT then LT2 else LT3), [])
  (* the latched writer copies the lock and writes the copy back (doc/ck_swlock) *)
  | LCrit, ACopy => Some (mk (val s) (Some (val s)) (upd (thr s) t LCrit), [])
  | LCrit, AWrite => match copy s with Some c => Some (mk c (Some c) (upd (thr s) t LCrit), []) | None => None end
  (* write_unlatch, 139-146 *)
  | LCrit, AUnlatch => Some (put s 0 t Idle, [WRel t])
  (* read_lock, 171-195 *)
  | RL1, ATick => Some (go s t (if tst (val s) WBIT then RL1 else RL2), [])
  | RL2, ATick =>
      let l := Z.land (val s) WMASK in
      if Z.eqb l 0 then Some (put s (inc (val s)) t RCrit, [RAcq t])
      else if Z.eqb l WBIT then Some (put s (inc (val s)) t RL3, [])
      else Some (put s (inc (val s)) t RL1, [])
  | RL3, ATick => Some (put s (dec (val s)) t RL1, [])
  (* read_trylock, 155-169 *)
  | RT1, ATick => if tst (val s) WBIT then Some (go s t Idle, [RTryFail t]) else Some (go s t RT2, [])
  | RT2, ATick =>
      let l := Z.land (val s) WMASK in
      if Z.eqb l 0 then Some (put s (inc (val s)) t RCrit, [RAcq t])
      else if Z.eqb l WBIT then Some (put s (inc (val s)) t RT3, [])
      else Some (put s (inc (val s)) t Idle, [RTryFail t])
  | RT3, ATick => Some (put s (dec (val s)) t Idle, [RTryFail t])
  (* read_unlock, 205-212 *)
  | RCrit, ARUnlock => Some (put s (dec (val s)) t Idle, [RRel t])
  | _, _ => None
  end.

Definition waiting_w (s : state) (t : nat) : bool := match thr s t with WL1 | WL2 | LT1 | LT2 | LT3 => true | _ => false end.
Definition waiting_r (s : state) (t : nat) : bool := match thr s t with RL1 | RL2 | RL3 => true | _ => false end.
