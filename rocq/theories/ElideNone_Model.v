(** The elision wrappers of ck_spinlock_fas and ck_spinlock_cas when CK_F_PR_RTM is not defined
    (include/ck_elide.h:244-295), on x86-TSO.  lock, lock_adaptive, unlock and unlock_adaptive call L and U
    directly (252-286): these are the actions of TsoSpin_Model.  trylock (288-294) returns TL_P(lock), which is
    [locked] (fas.h:115, cas.h:115); a client that is told true enters its critical section. *)
From Coq Require Import ZArith Arith List Bool.
From Verif Require Import Lib Tso TsoLock_Spec TsoSpin_Model.
Import ListNotations.
Local Open Scope Z_scope.

Inductive nact := Base (a : act) | ETry.
Definition ncode (k : kind) (t : nat) (p : pc) (a : nact) : option (instr pc dev) :=
  match a with
  | Base a => code k t p a
  | ETry =>
      match p with
      | Idle => Some (Ld (Reg 0) (fun v => if v =? 0 then (Idle, [Fail t]) else (CS, [Enter t])))
      | _ => None
      end
  end.
