(** ck_spinlock_dec (include/spinlock/dec.h:50-137) on x86-TSO, with a client that reads and writes shared data
    while it holds the lock.  The lock word is [Reg 0], 1 if free; 32-bit arithmetic.  [n] threads.
    ck_pr_fence_lock, unlock and acquire are compiler barriers here.  Elision is not modelled. *)
From Coq Require Import ZArith Arith List Bool.
From Verif Require Import Lib Tso TsoLock_Spec.
Import ListNotations.
Local Open Scope Z_scope.

Definition W : Z := 2 ^ 32.
Inductive pc :=
| Idle
| LkDec          (* 91, 111: decrement and test for zero *)
| LkLoad         (* 96, 115: load until the lock looks free *)
| CS.            (* holding the lock *)
Inductive act := ALock | ATry | ALocked | ATick | ARd (i : nat) | AWr (i : nat) (v : Z) | AUnlock.

Definition code (n t : nat) (p : pc) (a : act) : option (instr pc dev) :=
  if negb (Nat.ltb t n) then None else
  match p, a with
  (* lock, lock_eb, 79-122 *)
  | Idle, ALock => Some (Local LkDec [])
  | LkDec, ATick => Some (Rmw (Reg 0) (fun v => (v - 1) mod W) (fun v => if (v - 1) mod W =? 0 then (CS, [Enter t]) else (LkLoad, [])))
  | LkLoad, ATick => Some (Ld (Reg 0) (fun v => (if v =? 1 then LkDec else LkLoad, [])))
  (* trylock, 59-67 *)
  | Idle, ATry => Some (Rmw (Reg 0) (fun _ => 0) (fun v => if v =? 1 then (CS, [Enter t]) else (Idle, [Fail t])))
  (* locked, 69-77 *)
  | Idle, ALocked => Some (Ld (Reg 0) (fun v => (Idle, [Locked t (negb (v =? 1))])))
  | CS, ARd i => Some (Ld (Dat i) (fun v => (CS, [DRd t i v])))
  | CS, AWr i v => Some (St (Dat i) v CS [DWr t i v])
  (* unlock, 124-137 *)
  | CS, AUnlock => Some (St (Reg 0) 1 Idle [Leave t])
  | _, _ => None
  end.
Definition arr (t : nat) (x : loc) (v : Z) : list dev := match x with Reg _ => [Visible t] | Dat _ => [] end.

(** init, 50-57 *)
Definition init (D : nat -> Z) : tso pc :=
  mkT (fun x => match x with Dat i => D i | Reg _ => 1 end) (fun _ => []) (fun _ => Idle).
