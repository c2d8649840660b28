(** The remaining reader-writer locks on x86-TSO (Tso.v), with a client that reads and writes shared data inside:
    - ck_pflock (include/ck_pflock.h:69-141);
    - ck_tflock (include/ck_tflock.h:55-134);
    - ck_swlock without the latch (include/ck_swlock.h:57-118, 155-212).

    Their states per thread are those of PfLock_Model, TfLock_Model and SwLock_Model; here each access of a lock word is
    an instruction of the machine.  These locks have no plain stores: ck_pr_faa_32, cas_32, cas_32_value, and_32,
    or_32, inc_32 and dec_32 are locked instructions, ck_pr_load_32 is a plain load.  ck_pr_fence_lock, unlock, acquire,
    load, atomic_load and atomic are compiler barriers.  The client's accesses are plain loads and stores. *)
From Coq Require Import ZArith Arith List Bool.
From Verif Require Import Lib Tso LockSpec RwFairSpec TsoRwf_Spec.
From Verif Require PfLock_Model TfLock_Model SwLock_Model.
Import ListNotations.
Local Open Scope Z_scope.

Inductive xact (A : Type) := AL (a : A) | ARd (i : nat) | AWr (i : nat) (v : Z).
Arguments AL {A}. Arguments ARd {A}. Arguments AWr {A}.

(** an instruction of the lock *)
Definition imap {L E : Type} (i : instr L E) : instr L (xev E) :=
  let k (r : L * list E) := (fst r, map Lk (snd r)) in
  match i with
  | Ld x f => Ld x (fun v => k (f v))
  | St x v p e => St x v p (map Lk e)
  | Rmw x g f => Rmw x g (fun v => k (f v))
  | Fence p e => Fence p (map Lk e)
  | Local p e => Local p (map Lk e)
  end.

(** a lock with the client: [wr], [rd]: the states in which the client holds the write lock, the read lock *)
Definition client {L E A : Type} (lcode : nat -> L -> A -> option (instr L E)) (wr rd : L -> bool)
  (t : nat) (p : L) (a : xact A) : option (instr L (xev E)) :=
  match a with
  | AL a => match lcode t p a with Some i => Some (imap i) | None => None end
  | ARd i => if wr p || rd p then Some (Ld (Dat i) (fun v => (p, [XRd t i v]))) else None
  | AWr i v => if wr p then Some (St (Dat i) v p [XWr t i v]) else None
  end.

Definition arr {E : Type} (t : nat) (x : loc) (v : Z) : list (xev E) := [].
(** all words of the lock zero: ck_pflock_init (ck_pflock.h:56-67), ck_tflock_ticket_init (ck_tflock.h:72-79),
    ck_swlock_init (ck_swlock.h:48-55) *)
Definition tinit {L : Type} (p : L) (D : nat -> Z) : tso L :=
  mkT (fun x => match x with Dat i => D i | Reg _ => 0 end) (fun _ => []) (fun _ => p).

(** * ck_pflock: rin, rout, win, wout are Reg 0 to 3 *)
Section Pf.
Import PfLock_Model.
Definition pf_code (n t : nat) (p : pc) (a : act) : option (instr pc pev) :=
  if negb (Nat.ltb t n) then None else
  match p, a with
  (* write_lock, 84-108 *)
  | Idle, AWLock => Some (Rmw (Reg 2) (fun v => add32 v 1) (fun v => (W1 v, [PWReq t])))
  | W1 tk, ATick => Some (Ld (Reg 3) (fun v => (if v =? tk then W2 tk else W1 tk, [])))
  | W2 tk, ATick => Some (Rmw (Reg 0) (fun v => add32 v (Z.lor (Z.land tk PHID) PRES)) (fun v => (W3 v, [])))
  | W3 tk, ATick => Some (Ld (Reg 1) (fun v => if v =? tk then (WCrit, [PWAcq t]) else (W3 tk, [])))
  (* write_unlock, 70-82 *)
  | WCrit, AWUnlock => Some (Rmw (Reg 0) (fun v => Z.land v LSB) (fun _ => (WU, [PWRel t])))
  | WU, ATick => Some (Rmw (Reg 3) (fun v => add32 v 1) (fun _ => (Idle, [])))
  (* read_lock, 119-141 *)
  | Idle, ARLock =>
      Some (Rmw (Reg 0) (fun v => add32 v RINC)
                (fun v => if Z.land v WBITS =? 0 then (RCrit, [PRReq t; PRAcq t]) else (RWait (Z.land v WBITS), [PRReq t])))
  | RWait w, ATick => Some (Ld (Reg 0) (fun v => if Z.land v WBITS =? w then (RWait w, []) else (RCrit, [PRAcq t])))
  (* read_unlock, 110-117 *)
  | RCrit, ARUnlock => Some (Rmw (Reg 1) (fun v => add32 v RINC) (fun _ => (Idle, [PRRel t])))
  | _, _ => None
  end.
Definition pf_wr (p : pc) : bool := match p with WCrit => true | _ => false end.
Definition pf_rd (p : pc) : bool := match p with RCrit => true | _ => false end.
Definition pf_tso (n : nat) := Tso.step (client (pf_code n) pf_wr pf_rd) arr.
Definition pf_init (D : nat -> Z) : tso pc := tinit Idle D.
End Pf.

(** * ck_tflock: request and completion are Reg 0 and 1 *)
Section Tf.
Import TfLock_Model.
(** the compare-and-swap of fca_32 (63), whose failure refreshes the snapshot *)
Definition fca (x : nat) (snap mask delta : Z) (k : pc * list tev) (again : Z -> pc) : instr pc tev :=
  Rmw (Reg x) (fun v => if v =? snap then goal snap mask delta else v) (fun v => if v =? snap then k else (again v, [])).
Definition tf_code (n t : nat) (p : pc) (a : act) : option (instr pc tev) :=
  if negb (Nat.ltb t n) then None else
  match p, a with
  (* write_lock, 81-94 *)
  | Idle, AWLock => Some (Ld (Reg 0) (fun v => (WQ v, [])))
  | WQ snap, ATick => Some (fca 0 snap WC_TOPMSK WC_INCR (WWait snap, [TReq true t]) WQ)
  | WWait prev, ATick => Some (Ld (Reg 1) (fun v => if v =? prev then (WCrit, [TAcq true t]) else (WWait prev, [])))
  (* write_unlock, 96-104 *)
  | WCrit, AWUnlock => Some (Ld (Reg 1) (fun v => (WU v, [])))
  | WU snap, ATick => Some (fca 1 snap WC_TOPMSK WC_INCR (Idle, [TRel true t]) WU)
  (* read_lock, 106-124 *)
  | Idle, ARLock => Some (Ld (Reg 0) (fun v => (RQ v, [])))
  | RQ snap, ATick => Some (fca 0 snap RC_TOPMSK RC_INCR (RWait (Z.land snap W_MASK), [TReq false t]) RQ)
  | RWait prev, ATick => Some (Ld (Reg 1) (fun v => if Z.land v W_MASK =? prev then (RCrit, [TAcq false t]) else (RWait prev, [])))
  (* read_unlock, 126-134 *)
  | RCrit, ARUnlock => Some (Ld (Reg 1) (fun v => (RU v, [])))
  | RU snap, ATick => Some (fca 1 snap RC_TOPMSK RC_INCR (Idle, [TRel false t]) RU)
  | _, _ => None
  end.
Definition tf_wr (p : pc) : bool := match p with WCrit => true | _ => false end.
Definition tf_rd (p : pc) : bool := match p with RCrit => true | _ => false end.
Definition tf_tso (n : nat) := Tso.step (client (tf_code n) tf_wr tf_rd) arr.
Definition tf_init (D : nat -> Z) : tso pc := tinit Idle D.
End Tf.

(** * ck_swlock: value is Reg 0; thread 0 is the writer *)
Section Sw.
Import SwLock_Model.
Definition sw_code (n t : nat) (p : pc) (a : act) : option (instr pc rwev) :=
  if negb (Nat.ltb t n) then None else
  match p, a with
  | Idle, AWLock => if Nat.eqb t 0 then Some (Local WL1 []) else None
  | Idle, AWTry => if Nat.eqb t 0 then Some (Local WT1 []) else None
  | Idle, ARLock => Some (Local RL1 [])
  | Idle, ARTry => Some (Local RT1 [])
  (* write_lock, 108-118 *)
  | WL1, ATick => Some (Rmw (Reg 0) (fun v => Z.lor v WBIT) (fun _ => (WL2, [])))
  | WL2, ATick => Some (Ld (Reg 0) (fun v => if tst v RMASK then (WL2, []) else (WCrit, [WAcq t])))
  (* write_trylock, 95-103 *)
  | WT1, ATick => Some (Rmw (Reg 0) (fun v => if v =? 0 then WBIT else v) (fun v => if v =? 0 then (WCrit, [WAcq t]) else (Idle, [WTryFail t])))
  (* write_unlock, 57-64 *)
  | WCrit, AWUnlock => Some (Rmw (Reg 0) (fun v => Z.land v RMASK) (fun _ => (Idle, [WRel t])))
  (* write_downgrade, 76-83 *)
  | WCrit, ADown => Some (Rmw (Reg 0) inc (fun _ => (WD, [])))
  | WD, ATick => Some (Rmw (Reg 0) (fun v => Z.land v RMASK) (fun _ => (RCrit, [Down t])))
  (* read_lock, 171-195; 188-190: the latch bit is never set here *)
  | RL1, ATick => Some (Ld (Reg 0) (fun v => (if tst v WBIT then RL1 else RL2, [])))
  | RL2, ATick =>
      Some (Rmw (Reg 0) inc (fun v => if Z.land v WMASK =? 0 then (RCrit, [RAcq t]) else if Z.land v WMASK =? WBIT then (RL3, []) else (RL1, [])))
  | RL3, ATick => Some (Rmw (Reg 0) dec (fun _ => (RL1, [])))
  (* read_trylock, 155-169 *)
  | RT1, ATick => Some (Ld (Reg 0) (fun v => if tst v WBIT then (Idle, [RTryFail t]) else (RT2, [])))
  | RT2, ATick =>
      Some (Rmw (Reg 0) inc
              (fun v => if Z.land v WMASK =? 0 then (RCrit, [RAcq t]) else if Z.land v WMASK =? WBIT then (RT3, []) else (Idle, [RTryFail t])))
  | RT3, ATick => Some (Rmw (Reg 0) dec (fun _ => (Idle, [RTryFail t])))
  (* read_unlock, 205-212 *)
  | RCrit, ARUnlock => Some (Rmw (Reg 0) dec (fun _ => (Idle, [RRel t])))
  | _, _ => None
  end.
Definition sw_wr (p : pc) : bool := match p with WCrit => true | _ => false end.
Definition sw_rd (p : pc) : bool := match p with RCrit => true | _ => false end.
Definition sw_tso (n : nat) := Tso.step (client (sw_code n) sw_wr sw_rd) arr.
Definition sw_init (D : nat -> Z) : tso pc := tinit Idle D.
End Sw.
