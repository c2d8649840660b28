(** ck_spinlock_anderson (include/spinlock/anderson.h) on x86-TSO, with a client that reads and writes
    shared data while it holds the lock.

    [Reg 0] is next, [Sl j] is slots[j].locked; slots[j].position is j and never changes after init.
    The fences are compiler barriers here.  [locked] (90-100) is not modelled.  The constants are
    those of SpinAnderson_Model. *)
From Coq Require Import ZArith Arith List Bool.
From Verif Require Import Lib Tso TsoQueue_Spec.
From Verif Require SpinAnderson_Model.
Import ListNotations.
Local Open Scope Z_scope.

Definition Sl (j : Z) : loc := Reg (S (Z.to_nat j)).
Notation wrap := SpinAnderson_Model.wrap.
Notation mask := SpinAnderson_Model.mask.
Notation UINT_MAX := SpinAnderson_Model.UINT_MAX.
Notation W := SpinAnderson_Model.W.

Inductive pc :=
| Idle
| Cas (p : Z)       (* anderson.h:117-123: about to compare-and-swap next *)
| Wait (j : Z)      (* anderson.h:138: spinning on the slot *)
| Mark (j : Z)      (* anderson.h:142: about to mark the slot for re-use *)
| Crit (j : Z).     (* holding the lock, with slot j *)
Inductive act := ALock | ATick | ARd (i : nat) | AWr (i : nat) (v : Z) | AUnlock.

Section Anderson.
Variable count : Z.
Variable n : nat.   (* threads are 0 .. n-1 *)
Definition code (t : nat) (p : pc) (a : act) : option (instr pc qev) :=
  if negb (Nat.ltb t n) then None else
  match p, a with
  | Idle, ALock =>
      if wrap count =? 0
      then Some (Rmw (Reg 0) (fun v => (v + 1) mod W) (fun v => (Wait (Z.land v (mask count)), [Req t])))  (* 127-128 *)
      else Some (Ld (Reg 0) (fun v => (Cas v, [])))                                               (* 115 *)
  | Cas q, ATick =>                                                                               (* 117-125 *)
      Some (Rmw (Reg 0) (fun v => if v =? q then (if q =? UINT_MAX then wrap count else q + 1) else v)
        (fun v => if v =? q then (Wait (q mod count), [Req t]) else (Cas v, [])))
  | Wait j, ATick => Some (Ld (Sl j) (fun v => if v =? 1 then (Wait j, []) else (Mark j, [])))    (* 138 *)
  | Mark j, ATick => Some (St (Sl j) 1 (Crit j) [Enter t])                                        (* 142-145 *)
  | Crit j, ARd i => Some (Ld (Dat i) (fun v => (Crit j, [DRd t i v])))
  | Crit j, AWr i v => Some (St (Dat i) v (Crit j) [DWr t i v])
  | Crit j, AUnlock =>                                                                            (* 158-163 *)
      Some (St (Sl (if wrap count =? 0 then Z.land (j + 1) (mask count) else (j + 1) mod count)) 0 Idle [Leave t])
  | _, _ => None
  end.
(** A release arrives when a slot becomes unlocked. *)
Definition arr (t : nat) (x : loc) (v : Z) : list qev := match x with Reg (S _) => if v =? 0 then [Visible t] else [] | _ => [] end.
End Anderson.

(** anderson.h:57-88 *)
Definition init (D : nat -> Z) : tso pc :=
  mkT (fun x => match x with Dat i => D i | Reg 0 => 0 | Reg 1 => 0 | Reg _ => 1 end) (fun _ => []) (fun _ => Idle).
