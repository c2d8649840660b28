(** ck_spinlock_fas (include/spinlock/fas.h:49-111) and ck_spinlock_cas (include/spinlock/cas.h:49-108)
    on x86-TSO, with a client that reads and writes shared data while it holds the lock.

    The lock word is [Reg 0].  ck_pr_fence_lock, unlock and acquire are compiler barriers here.
    Elision (CK_ELIDE_PROTOTYPE) is not modelled. *)
From Coq Require Import ZArith Arith List Bool.
From Verif Require Import Lib Tso TsoLock_Spec.
Import ListNotations.
Local Open Scope Z_scope.

Inductive kind := Fas | Cas.
Inductive pc :=
| Idle
| Acq            (* fas.h:80 / cas.h:80: fetch-and-store or compare-and-swap *)
| Spin           (* fas.h:83 / cas.h:81: load until the lock looks free *)
| CS.            (* holding the lock *)
Inductive act := ALock | ATry | ALocked | ATick | AEb | ARd (i : nat) | AWr (i : nat) (v : Z) | AUnlock.

Definition code (k : kind) (t : nat) (p : pc) (a : act) : option (instr pc dev) :=
  match p, a with
  | Idle, ALock => Some (Local Acq [])
  | Acq, ATick =>
      Some (Rmw (Reg 0) (fun v => match k with Fas => 1 | Cas => if v =? 0 then 1 else v end)
                (fun v => if v =? 0 then (CS, [Enter t]) else (Spin, [])))
  | Spin, ATick => Some (Ld (Reg 0) (fun v => if v =? 1 then (Spin, []) else (Acq, [])))
  | Spin, AEb => Some (Local Acq [])              (* lock_eb, 90-100 / 89-99: back off and try again *)
  | Idle, ATry =>                                 (* trylock, 56-64 / 57-65 *)
      Some (Rmw (Reg 0) (fun _ => 1) (fun v => if v =? 0 then (CS, [Enter t]) else (Idle, [Fail t])))
  | Idle, ALocked => Some (Ld (Reg 0) (fun v => (Idle, [Locked t (negb (v =? 0))])))
  | CS, ARd i => Some (Ld (Dat i) (fun v => (CS, [DRd t i v])))
  | CS, AWr i v => Some (St (Dat i) v CS [DWr t i v])
  | CS, AUnlock => Some (St (Reg 0) 0 Idle [Leave t])
  | _, _ => None
  end.
Definition arr (t : nat) (x : loc) (v : Z) : list dev := match x with Reg _ => [Visible t] | Dat _ => [] end.

Definition init (D : nat -> Z) : tso pc :=
  mkT (fun x => match x with Dat i => D i | Reg _ => 0 end) (fun _ => []) (fun _ => Idle).
