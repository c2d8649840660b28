(** Model of include/ck_tflock.h (task-fair reader-writer ticket lock). *)
From Coq Require Import Arith List Bool ZArith.
From Verif Require Import Lib LockSpec RwFairSpec.
Import ListNotations.
Local Open Scope Z_scope.

(** ck_tflock.h:49-53 *)
Definition RC_INCR : Z := 2 ^ 16.
Definition WC_INCR : Z := 1.
Definition W_MASK : Z := 2 ^ 16 - 1.
Definition WC_TOPMSK : Z := 2 ^ 15.
Definition RC_TOPMSK : Z := 2 ^ 31.

(** 62: goal = (snapshot & ~mask) + delta, in uint32_t *)
Definition goal (snap mask delta : Z) : Z := (Z.land snap (Z.lxor mask (2 ^ 32 - 1)) + delta) mod 2 ^ 32.

Inductive pc :=
| Idle
| WQ (snap : Z)      (** 63: cas on request (write) *)
| WWait (prev : Z)   (** 89: wait for completion = prev *)
| WCrit
| WU (snap : Z)      (** 63: cas on completion (write) *)
| RQ (snap : Z)      (** 63: cas on request (read) *)
| RWait (prev : Z)   (** 117: wait for the write half of completion = prev *)
| RCrit
| RU (snap : Z).     (** 63: cas on completion (read) *)

Record state := mk { req : Z; comp : Z; thr : nat -> pc }.

(** 72-79 *)
Definition init : state := mk 0 0 (fun _ => Idle).

Inductive act := AWLock | AWUnlock | ARLock | ARUnlock | ATick.

Definition go (s : state) (t : nat) (p : pc) : state := mk (req s) (comp s) (upd (thr s) t p).

Definition step (n : nat) (s : state) (l : nat * act) : option (state * list tev) :=
  let (t, a) := l in
  if negb (Nat.ltb t n) then None else
  match thr s t, a with
  (* fca_32, 58: the initial load; ck_pr_cas_32_value refreshes the snapshot on failure *)
  | Idle, AWLock => Some (go s t (WQ (req s)), [])
  | WQ snap, ATick =>
      if Z.eqb (req s) snap
      then Some (mk (goal snap WC_TOPMSK WC_INCR) (comp s) (upd (thr s) t (WWait snap)), [TReq true t])
      else Some (go s t (WQ (req s)), [])
  | WWait prev, ATick => if Z.eqb (comp s) prev then Some (go s t WCrit, [TAcq true t]) else Some (go s t (WWait prev), [])
  (* write_unlock, 96-104 *)
  | WCrit, AWUnlock => Some (go s t (WU (comp s)), [])
  | WU snap, ATick =>
      if Z.eqb (comp s) snap
      then Some (mk (req s) (goal snap WC_TOPMSK WC_INCR) (upd (thr s) t Idle), [TRel true t])
      else Some (go s t (WU (comp s)), [])
  (* read_lock, 106-124 *)
  | Idle, ARLock => Some (go s t (RQ (req s)), [])
  | RQ snap, ATick =>
      if Z.eqb (req s) snap
      then Some (mk (goal snap RC_TOPMSK RC_INCR) (comp s) (upd (thr s) t (RWait (Z.land snap W_MASK))), [TReq false t])
      else Some (go s t (RQ (req s)), [])
  | RWait prev, ATick =>
      if Z.eqb (Z.land (comp s) W_MASK) prev then Some (go s t RCrit, [TAcq false t]) else Some (go s t (RWait prev), [])
  (* read_unlock, 126-134 *)
  | RCrit, ARUnlock => Some (go s t (RU (comp s)), [])
  | RU snap, ATick =>
      if Z.eqb (comp s) snap
      then Some (mk (req s) (goal snap RC_TOPMSK RC_INCR) (upd (thr s) t Idle), [TRel false t])
      else Some (go s t (RU (comp s)), [])
  | _, _ => None
  end.

Definition waiting (w : bool) (s : state) (t : nat) : bool :=
  match thr s t with WQ _ | WWait _ => w | RQ _ | RWait _ => negb w | _ => false end.
