(** ck_barrier_centralized (src/ck_barrier_centralized.c:31-60) on x86-TSO (Tso.v), with participants
    [0..n-1] that read and write shared data between the calls.  [value] is Reg 0, [sense] Reg 1; the
    state of a participant is its program counter and its own sense, which nobody else accesses.
    ck_pr_fence_memory (48) is a full fence; ck_pr_fence_atomic_load (53) and acquire (57) are compiler
    barriers. *)
From Coq Require Import ZArith Arith List Bool.
From Verif Require Import Lib Tso BarSpec TsoBar_Spec.
From Verif Require BarCentral_Model.
Import ListNotations.
Local Open Scope Z_scope.

Inductive pc :=
| Out
| A        (* 45: faa value *)
| Zr       (* 47: store value *)
| Fe       (* 48: fence *)
| G        (* 49: store sense *)
| Sp.      (* 54: load sense *)
Inductive act := AEnter | ATick | ARd (i : nat) | AWr (i : nat) (v : Z).

Definition W : Z := 2 ^ 32.
(** the sense words 0 and ~0 *)
Definition b2z (b : bool) : Z := if b then W - 1 else 0.

Definition code (n t : nat) (p : pc * bool) (a : act) : option (instr (pc * bool) dbev) :=
  if negb (Nat.ltb t n) then None else
  let (q, ls) := p in
  match q, a with
  | Out, AEnter => Some (Local (A, negb ls) [Bar (Enter t)])
  | A, ATick => Some (Rmw (Reg 0) (fun v => (v + 1) mod W) (fun v => (if v =? (Z.of_nat n - 1) mod W then Zr else Sp, ls, [])))
  | Zr, ATick => Some (St (Reg 0) 0 (Fe, ls) [])
  | Fe, ATick => Some (Fence (G, ls) [])
  | G, ATick => Some (St (Reg 1) (b2z ls) (Out, ls) [Bar (Leave t)])
  | Sp, ATick => Some (Ld (Reg 1) (fun v => if b2z ls =? v then (Out, ls, [Bar (Leave t)]) else (Sp, ls, [])))
  | Out, ARd i => Some (Ld (Dat i) (fun v => (Out, ls, [DRd t i v])))
  | Out, AWr i v => Some (St (Dat i) v (Out, ls) [DWr t i v])
  | _, _ => None
  end.
Definition arr (t : nat) (x : loc) (v : Z) : list dbev := [].
(** CK_BARRIER_CENTRALIZED_INITIALIZER, CK_BARRIER_CENTRALIZED_STATE_INITIALIZER
    (include/ck_barrier.h:44-45) *)
Definition init (D : nat -> Z) : tso (pc * bool) :=
  mkT (fun x => match x with Dat i => D i | Reg _ => 0 end) (fun _ => []) (fun _ => (Out, false)).
