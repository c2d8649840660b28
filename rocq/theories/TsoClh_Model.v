(** ck_spinlock_clh (include/spinlock/clh.h) on x86-TSO, with a client that reads and writes shared
    data while it holds the lock.

    Nodes are numbers; [Reg 0] is the queue tail, [Wt m] is wait and [Pv m] is previous of node m.
    The local state of a thread is the node it owns and its program counter.  ck_pr_fence_store_atomic,
    load, lock and unlock are compiler barriers here.  [locked] (56-66) is not modelled. *)
From Coq Require Import ZArith Arith List Bool.
From Verif Require Import Lib Tso TsoQueue_Spec.
Import ListNotations.
Local Open Scope Z_scope.

Definition Wt (m : nat) : loc := Reg (1 + 2 * m).
Definition Pv (m : nat) : loc := Reg (2 + 2 * m).

Inductive pc :=
| Idle
| L2              (* clh.h:81: about to swap the tail *)
| L3 (p : nat)    (* clh.h:82: about to store thread->previous *)
| L4 (p : nat)    (* clh.h:86: spinning on previous->wait *)
| CS              (* holding the lock *)
| U2 (p : nat).   (* clh.h:111: about to store wait = false *)
Inductive act := ALock | ATick | ARd (i : nat) | AWr (i : nat) (v : Z) | AUnlock.

Definition code (t : nat) (l : nat * pc) (a : act) : option (instr (nat * pc) qev) :=
  let (m, p) := l in
  match p, a with
  | Idle, ALock => Some (St (Wt m) 1 (m, L2) [])                                                  (* 74 *)
  | L2, ATick => Some (Rmw (Reg 0) (fun _ => Z.of_nat m) (fun v => ((m, L3 (Z.to_nat v)), [Req t])))   (* 81 *)
  | L3 q, ATick => Some (St (Pv m) (Z.of_nat q) (m, L4 q) [])                                     (* 82 *)
  | L4 q, ATick => Some (Ld (Wt q) (fun v => if v =? 1 then ((m, L4 q), []) else ((m, CS), [Enter t])))  (* 86 *)
  | CS, ARd i => Some (Ld (Dat i) (fun v => ((m, CS), [DRd t i v])))
  | CS, AWr i v => Some (St (Dat i) v (m, CS) [DWr t i v])
  | CS, AUnlock => Some (Ld (Pv m) (fun v => ((m, U2 (Z.to_nat v)), [])))                         (* 105 *)
  | U2 q, ATick => Some (St (Wt m) 0 (q, Idle) [Leave t])                                         (* 111, 118 *)
  | _, _ => None
  end.
(** A release arrives when wait of some node becomes false. *)
Definition arr (t : nat) (x : loc) (v : Z) : list qev :=
  match x with Reg r => if Nat.odd r && (v =? 0) then [Visible t] else [] | Dat _ => [] end.

(** clh.h:45-54: node 0 is the unowned node, thread [t] brings node [S t]; a new node's contents are [G]. *)
Definition init (D : nat -> Z) (G : nat -> Z) : tso (nat * pc) :=
  mkT (fun x => match x with Dat i => D i | Reg 0 => 0 | Reg 1 => 0 | Reg r => G r end) (fun _ => []) (fun t => (S t, Idle)).
