(** Model of include/spinlock/mcs.h.  Thread [t] passes the queue node [t] to
    every call, so nodes are reused as soon as unlock returns. *)
From Coq Require Import Arith List Bool.
From Verif Require Import Lib LockSpec.
Import ListNotations.

Inductive pc :=
| Idle
| L1              (** mcs.h:91 about to store node->locked = true *)
| L2              (** mcs.h:92 about to store node->next = NULL *)
| L3              (** mcs.h:100 about to swap the tail *)
| L4 (p : nat)    (** mcs.h:106 about to store previous->next = node *)
| L5              (** mcs.h:107 spinning on node->locked *)
| T1 | T2         (** mcs.h:62-63 trylock: the same two stores *)
| T3              (** mcs.h:66 trylock: about to compare-and-swap NULL -> node *)
| Crit
| U1              (** mcs.h:123 about to load node->next *)
| U2              (** mcs.h:130 about to load *queue *)
| U3              (** mcs.h:131 about to compare-and-swap node -> NULL *)
| U4              (** mcs.h:142 waiting for node->next *)
| U5 (x : nat).   (** mcs.h:151 about to store next->locked = false *)

Record state := mk {
  queue : option nat;           (** *queue *)
  locked : nat -> bool;         (** node->locked *)
  next : nat -> option nat;     (** node->next *)
  thr : nat -> pc }.

(** mcs.h:47-54 ck_spinlock_mcs_init; node contents are arbitrary before use *)
Definition init (lk : nat -> bool) (nx : nat -> option nat) : state := mk None lk nx (fun _ => Idle).

Inductive act := ALock | ATry | AUnlock | ALocked | ATick.

Definition goto (s : state) (t : nat) (p : pc) : state :=
  mk (queue s) (locked s) (next s) (upd (thr s) t p).

Definition eqo (a : option nat) (t : nat) : bool :=
  match a with Some u => Nat.eqb u t | None => false end.

Definition step (s : state) (l : nat * act) : option (state * list fev) :=
  let (t, a) := l in
  match thr s t, a with
  (* mcs.h:72-80 locked *)
  | Idle, ALocked => Some (s, [FLocked t (match queue s with None => false | Some _ => true end)])
  (* mcs.h:82-114 lock *)
  | Idle, ALock => Some (goto s t L1, [])
  | L1, ATick => Some (mk (queue s) (upd (locked s) t true) (next s) (upd (thr s) t L2), [])
  | L2, ATick => Some (mk (queue s) (locked s) (upd (next s) t None) (upd (thr s) t L3), [])
  | L3, ATick =>
      match queue s with
      | None => Some (mk (Some t) (locked s) (next s) (upd (thr s) t Crit), [FReq t; FAcq t])
      | Some p => Some (mk (Some t) (locked s) (next s) (upd (thr s) t (L4 p)), [FReq t])
      end
  | L4 p, ATick => Some (mk (queue s) (locked s) (upd (next s) p (Some t)) (upd (thr s) t L5), [])
  | L5, ATick => if locked s t then Some (goto s t L5, []) else Some (goto s t Crit, [FAcq t])
  (* mcs.h:56-70 trylock *)
  | Idle, ATry => Some (goto s t T1, [])
  | T1, ATick => Some (mk (queue s) (upd (locked s) t true) (next s) (upd (thr s) t T2), [])
  | T2, ATick => Some (mk (queue s) (locked s) (upd (next s) t None) (upd (thr s) t T3), [])
  | T3, ATick =>
      match queue s with
      | None => Some (mk (Some t) (locked s) (next s) (upd (thr s) t Crit), [FReq t; FAcq t])
      | Some _ => Some (goto s t Idle, [FTryFail t])
      end
  (* mcs.h:116-153 unlock *)
  | Crit, AUnlock => Some (goto s t U1, [])
  | U1, ATick =>
      match next s t with
      | None => Some (goto s t U2, [])
      | Some x => Some (goto s t (U5 x), [])
      end
  | U2, ATick => if eqo (queue s) t then Some (goto s t U3, []) else Some (goto s t U4, [])
  | U3, ATick =>
      if eqo (queue s) t then Some (mk None (locked s) (next s) (upd (thr s) t Idle), [FRel t])
      else Some (goto s t U4, [])
  | U4, ATick =>
      match next s t with
      | None => Some (goto s t U4, [])
      | Some x => Some (goto s t (U5 x), [])
      end
  | U5 x, ATick => Some (mk (queue s) (upd (locked s) x false) (next s) (upd (thr s) t Idle), [FRel t])
  | _, _ => None
  end.

Definition waiting (s : state) (t : nat) : bool :=
  match thr s t with L4 _ | L5 => true | _ => false end.
Definition holding (s : state) (t : nat) : bool :=
  match thr s t with Crit | U1 | U2 | U3 | U4 | U5 _ => true | _ => false end.
