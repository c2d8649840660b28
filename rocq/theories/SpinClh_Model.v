(** Model of include/spinlock/clh.h (CLH queue lock with node recycling).
    Nodes are natural numbers; each thread owns the node it passes to lock. *)
From Coq Require Import Arith List Bool.
From Verif Require Import Lib LockSpec.
Import ListNotations.

Inductive pc :=
| Idle
| L1              (** clh.h:73 about to store thread->wait = true *)
| L2              (** clh.h:80 about to swap the queue tail *)
| L3 (p : nat)    (** clh.h:81 about to store thread->previous *)
| L4 (p : nat)    (** clh.h:85 spinning on previous->wait *)
| Crit
| U1              (** clh.h:105 about to load thread->previous *)
| U2 (p : nat).   (** clh.h:111 about to store wait = false, then take [p] (clh.h:118) *)

Record state := mk {
  tail : nat;             (** *queue *)
  wait : nat -> bool;     (** node->wait *)
  prev : nat -> nat;      (** node->previous *)
  node : nat -> nat;      (** the caller's node pointer *)
  thr : nat -> pc }.

(** clh.h:45-54 ck_spinlock_clh_init with node 0 as the unowned node; thread
    [t] brings node [S t]. *)
Definition init : state := mk 0 (fun _ => false) (fun _ => 0) S (fun _ => Idle).

Inductive act := ALock | AUnlock | ATick.

Definition goto (s : state) (t : nat) (p : pc) : state :=
  mk (tail s) (wait s) (prev s) (node s) (upd (thr s) t p).

Definition step (s : state) (l : nat * act) : option (state * list fev) :=
  let (t, a) := l in
  match thr s t, a with
  (* clh.h:68-90 lock *)
  | Idle, ALock => Some (goto s t L1, [])
  | L1, ATick => Some (mk (tail s) (upd (wait s) (node s t) true) (prev s) (node s) (upd (thr s) t L2), [])
  | L2, ATick => Some (mk (node s t) (wait s) (prev s) (node s) (upd (thr s) t (L3 (tail s))), [FReq t])
  | L3 p, ATick => Some (mk (tail s) (wait s) (upd (prev s) (node s t) p) (node s) (upd (thr s) t (L4 p)), [])
  | L4 p, ATick => if wait s p then Some (goto s t (L4 p), []) else Some (goto s t Crit, [FAcq t])
  (* clh.h:93-120 unlock *)
  | Crit, AUnlock => Some (goto s t U1, [])
  | U1, ATick => Some (goto s t (U2 (prev s (node s t))), [])
  | U2 p, ATick =>
      Some (mk (tail s) (upd (wait s) (node s t) false) (prev s) (upd (node s) t p) (upd (thr s) t Idle), [FRel t])
  | _, _ => None
  end.

(** clh.h:56-66 ck_spinlock_clh_locked, evaluated without interference *)
Definition locked (s : state) : bool := wait s (tail s).

Definition waiting (s : state) (t : nat) : bool :=
  match thr s t with L3 _ | L4 _ => true | _ => false end.
Definition holding (s : state) (t : nat) : bool :=
  match thr s t with Crit | U1 | U2 _ => true | _ => false end.
