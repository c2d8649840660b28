(** Model of include/ck_pflock.h (phase-fair reader-writer lock). *)
From Coq Require Import Arith List Bool ZArith.
From Verif Require Import Lib LockSpec RwFairSpec.
Import ListNotations.
Local Open Scope Z_scope.

(** ck_pflock.h:48-52 and uint32_t arithmetic *)
Definition LSB : Z := 2 ^ 32 - 16.
Definition RINC : Z := 256.
Definition WBITS : Z := 3.
Definition PRES : Z := 2.
Definition PHID : Z := 1.
Definition add32 (x d : Z) : Z := (x + d) mod 2 ^ 32.

Inductive pc :=
| Idle
| W1 (tk : Z)     (** 91: wait for wout = ticket *)
| W2 (tk : Z)     (** 99: faa rin *)
| W3 (tk : Z)     (** 103: wait for rout = ticket *)
| WCrit
| WU              (** 80: faa wout *)
| RWait (w : Z)   (** 133: wait until the writer bits differ from [w] *)
| RCrit.

Record state := mk { rin : Z; rout : Z; win : Z; wout : Z; thr : nat -> pc }.

(** 56-67 *)
Definition init : state := mk 0 0 0 0 (fun _ => Idle).

Inductive act := AWLock | AWUnlock | ARLock | ARUnlock | ATick.

Definition go (s : state) (t : nat) (p : pc) : state := mk (rin s) (rout s) (win s) (wout s) (upd (thr s) t p).

Definition step (n : nat) (s : state) (l : nat * act) : option (state * list pev) :=
  let (t, a) := l in
  if negb (Nat.ltb t n) then None else
  match thr s t, a with
  (* write_lock, 84-108 *)
  | Idle, AWLock => Some (mk (rin s) (rout s) (add32 (win s) 1) (wout s) (upd (thr s) t (W1 (win s))), [PWReq t])
  | W1 tk, ATick => if Z.eqb (wout s) tk then Some (go s t (W2 tk), []) else Some (go s t (W1 tk), [])
  | W2 tk, ATick =>
      Some (mk (add32 (rin s) (Z.lor (Z.land tk PHID) PRES)) (rout s) (win s) (wout s) (upd (thr s) t (W3 (rin s))), [])
  | W3 tk, ATick => if Z.eqb (rout s) tk then Some (go s t WCrit, [PWAcq t]) else Some (go s t (W3 tk), [])
  (* write_unlock, 70-82 *)
  | WCrit, AWUnlock => Some (mk (Z.land (rin s) LSB) (rout s) (win s) (wout s) (upd (thr s) t WU), [PWRel t])
  | WU, ATick => Some (mk (rin s) (rout s) (win s) (add32 (wout s) 1) (upd (thr s) t Idle), [])
  (* read_lock, 119-141 *)
  | Idle, ARLock =>
      let w := Z.land (rin s) WBITS in
      if Z.eqb w 0 then Some (mk (add32 (rin s) RINC) (rout s) (win s) (wout s) (upd (thr s) t RCrit), [PRReq t; PRAcq t])
      else Some (mk (add32 (rin s) RINC) (rout s) (win s) (wout s) (upd (thr s) t (RWait w)), [PRReq t])
  | RWait w, ATick => if Z.eqb (Z.land (rin s) WBITS) w then Some (go s t (RWait w), []) else Some (go s t RCrit, [PRAcq t])
  (* read_unlock, 110-117 *)
  | RCrit, ARUnlock => Some (mk (rin s) (add32 (rout s) RINC) (win s) (wout s) (upd (thr s) t Idle), [PRRel t])
  | _, _ => None
  end.

Definition waiting_w (s : state) (t : nat) : bool := match thr s t with W1 _ | W2 _ | W3 _ => true | _ => false end.
Definition waiting_r (s : state) (t : nat) : bool := match thr s t with RWait _ => true | _ => false end.
