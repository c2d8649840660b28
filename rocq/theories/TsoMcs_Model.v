(** ck_spinlock_mcs (include/spinlock/mcs.h) on x86-TSO, with a client that reads and writes shared
    data while it holds the lock.

    Every thread brings its own node and uses it again and again.  [Reg 0] is the queue pointer (0 is
    NULL, [S t] the node of [t]); [Lk t] is locked and [Nx t] is next of the node of [t].
    ck_pr_fence_store_atomic, acquire, lock and unlock are compiler barriers here. *)
From Coq Require Import ZArith Arith List Bool.
From Verif Require Import Lib Tso TsoQueue_Spec.
Import ListNotations.
Local Open Scope Z_scope.

Definition Lk (t : nat) : loc := Reg (1 + 2 * t).
Definition Nx (t : nat) : loc := Reg (2 + 2 * t).
Definition ptr (t : nat) : Z := Z.of_nat (S t).
Definition node (v : Z) : nat := pred (Z.to_nat v).

Inductive pc :=
| Idle
| P2 (try : bool)   (* mcs.h:63, 92: about to store next = NULL *)
| P3 (try : bool)   (* mcs.h:66 (try): about to compare-and-swap; mcs.h:100: about to swap *)
| L4 (p : nat)      (* mcs.h:106: about to store previous->next *)
| L5                (* mcs.h:107: spinning on locked *)
| CS                (* holding the lock *)
| U1                (* mcs.h:130: about to load queue *)
| U2                (* mcs.h:131: about to compare-and-swap *)
| U3                (* mcs.h:141-147: waiting for next *)
| U4 (n : nat).     (* mcs.h:151: about to store next->locked *)
Inductive act := ALock | ATry | ALocked | ATick | ARd (i : nat) | AWr (i : nat) (v : Z) | AUnlock.

Definition code (t : nat) (p : pc) (a : act) : option (instr pc qev) :=
  match p, a with
  | Idle, ALock => Some (St (Lk t) 1 (P2 false) [])                                              (* 91 *)
  | Idle, ATry => Some (St (Lk t) 1 (P2 true) [])                                                (* 62 *)
  | P2 b, ATick => Some (St (Nx t) 0 (P3 b) [])                                                  (* 63, 92 *)
  | P3 true, ATick =>                                                                            (* 66 *)
      Some (Rmw (Reg 0) (fun v => if v =? 0 then ptr t else v)
        (fun v => if v =? 0 then (CS, [Req t; Enter t]) else (Idle, [Fail t])))
  | P3 false, ATick =>                                                                           (* 100-101 *)
      Some (Rmw (Reg 0) (fun _ => ptr t)
        (fun v => if v =? 0 then (CS, [Req t; Enter t]) else (L4 (node v), [Req t])))
  | L4 q, ATick => Some (St (Nx q) (ptr t) L5 [])                                                (* 106 *)
  | L5, ATick => Some (Ld (Lk t) (fun v => if v =? 1 then (L5, []) else (CS, [Enter t])))        (* 107 *)
  | Idle, ALocked => Some (Ld (Reg 0) (fun v => (Idle, [Locked t (negb (v =? 0))])))             (* 76 *)
  | CS, ARd i => Some (Ld (Dat i) (fun v => (CS, [DRd t i v])))
  | CS, AWr i v => Some (St (Dat i) v CS [DWr t i v])
  | CS, AUnlock => Some (Ld (Nx t) (fun v => if v =? 0 then (U1, []) else (U4 (node v), [])))    (* 123-124 *)
  | U1, ATick => Some (Ld (Reg 0) (fun v => if v =? ptr t then (U2, []) else (U3, [])))          (* 130 *)
  | U2, ATick =>                                                                                 (* 131 *)
      Some (Rmw (Reg 0) (fun v => if v =? ptr t then 0 else v)
        (fun v => if v =? ptr t then (Idle, [Leave t; Visible t]) else (U3, [])))
  | U3, ATick => Some (Ld (Nx t) (fun v => if v =? 0 then (U3, []) else (U4 (node v), [])))      (* 142 *)
  | U4 n, ATick => Some (St (Lk n) 0 Idle [Leave t])                                             (* 151 *)
  | _, _ => None
  end.
(** A release arrives when locked of some node becomes false. *)
Definition arr (t : nat) (x : loc) (v : Z) : list qev :=
  match x with Reg r => if Nat.odd r && (v =? 0) then [Visible t] else [] | Dat _ => [] end.

(** mcs.h:47-54; the contents of the nodes are arbitrary ([G]). *)
Definition init (D : nat -> Z) (G : nat -> Z) : tso pc :=
  mkT (fun x => match x with Dat i => D i | Reg 0 => 0 | Reg r => G r end) (fun _ => []) (fun _ => Idle).
