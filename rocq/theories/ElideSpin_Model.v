(** Elision of ck_spinlock_fas and ck_spinlock_cas (include/ck_elide.h:143-243 instantiated at
    include/spinlock/fas.h:111-116 and include/spinlock/cas.h:111-116) on the machine of Rtm.v, with a
    client that reads and writes shared data while it holds the lock, and that may also call the lock
    functions directly.

    L_P and U_P are [locked], L is [lock], U is [unlock]; the lock word is [Reg 0].  The thread's ck_elide_stat
    is part of its local state: it is restored by an abort like everything else.  A call with a
    configuration in which neither retry_conflict nor retry_busy is positive is not modelled here: its spin
    counter may pass zero (see Elide_Proof.v). *)
From Coq Require Import ZArith Arith List Bool.
From Verif Require Import Lib Tso Rtm TsoLock_Spec Elide_Model.
Import ListNotations.
Local Open Scope Z_scope.

Inductive kind := Fas | Cas.
Inductive pc :=
| Idle
| Bgn (c : cfg) (retry : Z)   (* ck_elide.h:159: about to begin a transaction *)
| LP                          (* ck_elide.h:161, 213, 239: in the transaction, about to evaluate L_P *)
| LBusy                       (* ck_elide.h:162, 214, 240: about to abort *)
| Spn (c : cfg) (retry : Z)   (* ck_elide.h:172: about to decrement retry and evaluate L_P *)
| Acq                         (* fas.h:80 / cas.h:80: fetch-and-store or compare-and-swap *)
| AcqS                        (* fas.h:83 / cas.h:81: load until the lock looks free *)
| CS (d : bool)               (* in the critical section; d: lock acquired by L *)
| URel                        (* ck_elide.h:199, 225: about to call U *)
| UEnd (ad : bool).           (* ck_elide.h:195, 223: about to end the transaction; ad: unlock_adaptive *)
Record lst := { st : stat; p : pc }.
Definition at_ (l : lst) (q : pc) : lst := {| st := st l; p := q |}.

Inductive act :=
| AELock | AETry | AEAdapt (c : cfg)                       (* the elision wrappers *)
| ALock | ATry | ALocked                                   (* the lock functions themselves *)
| ATick | ARd (i : nat) | AWr (i : nat) (v : Z)
| AEUnlock (ad : bool) | AUnlock.

(** ck_elide.h:184: --retry > 0 *)
Definition loop (c : cfg) (retry : Z) : pc := if 0 <? retry - 1 then Bgn c (retry - 1) else Acq.
(** ck_elide.h:167-184: after an abort *)
Definition aborted (c : cfg) (retry : Z) (s : stat) (status : Z) : lst :=
  match fallback retry s c status with
  | (HRetry, r, s') => {| st := s'; p := loop c r |}
  | (HSpin, r, s') => {| st := s'; p := Spn c r |}
  | (HStop, _, s') => {| st := s'; p := Acq |}
  end.
Definition okcfg (c : cfg) : bool := (0 <? retry_conflict c) || (0 <? retry_busy c).

Definition code (k : kind) (t : nat) (l : lst) (a : act) : option (xinstr lst dev) :=
  match p l, a with
  | Idle, AELock => Some (Begin (at_ l LP) (fun _ => at_ l Acq))                         (* ck_elide.h:208-211 *)
  | Idle, AETry => Some (Begin (at_ l LP) (fun _ => at_ l Idle))                         (* ck_elide.h:236-237 *)
  | Idle, AEAdapt c =>                                                                   (* ck_elide.h:152-157 *)
      if okcfg c then
        Some (Op (Local (if skip (st l) =? 0 then at_ l (Bgn c (retry_conflict c))
                         else {| st := set_skip (st l) (skip (st l) - 1); p := Acq |}) []))
      else None
  | Bgn c r, ATick => Some (Begin (at_ l LP) (aborted c r (st l)))                       (* ck_elide.h:159 *)
  | LP, ATick => Some (Op (Ld (Reg 0) (fun v => if v =? 0 then (at_ l (CS false), [Enter t]) else (at_ l LBusy, []))))
  | LBusy, ATick => Some (XAbort LOCK_BUSY (at_ l (CS false)))
  | Spn c r, ATick =>                                                                    (* ck_elide.h:171-180 *)
      if r - 1 =? 0 then Some (Op (Local (at_ l (loop c 0)) []))
      else Some (Op (Ld (Reg 0) (fun v => (at_ l (if v =? 0 then loop c (r - 1) else Spn c (r - 1)), []))))
  | Idle, ALock => Some (Op (Local (at_ l Acq) []))
  | Acq, ATick =>
      Some (Op (Rmw (Reg 0) (fun v => match k with Fas => 1 | Cas => if v =? 0 then 1 else v end)
                    (fun v => if v =? 0 then (at_ l (CS true), [Enter t]) else (at_ l AcqS, []))))
  | AcqS, ATick => Some (Op (Ld (Reg 0) (fun v => if v =? 1 then (at_ l AcqS, []) else (at_ l Acq, []))))
  | Idle, ATry =>
      Some (Op (Rmw (Reg 0) (fun _ => 1) (fun v => if v =? 0 then (at_ l (CS true), [Enter t]) else (at_ l Idle, [Fail t]))))
  | Idle, ALocked => Some (Op (Ld (Reg 0) (fun v => (at_ l Idle, [Locked t (negb (v =? 0))]))))
  | CS d, ARd i => Some (Op (Ld (Dat i) (fun v => (at_ l (CS d), [DRd t i v]))))
  | CS d, AWr i v => Some (Op (St (Dat i) v (at_ l (CS d)) [DWr t i v]))
  | CS _, AEUnlock ad => Some (Op (Ld (Reg 0) (fun v => (at_ l (if v =? 0 then UEnd ad else URel), []))))   (* 194, 222 *)
  | UEnd ad, ATick => Some (End {| st := if ad then elided (st l) else st l; p := Idle |} [Leave t; Visible t])
  | URel, ATick | CS true, AUnlock => Some (Op (St (Reg 0) 0 (at_ l Idle) [Leave t]))
  | _, _ => None
  end.
Definition arr (t : nat) (x : loc) (v : Z) : list dev := match x with Reg _ => [Visible t] | Dat _ => [] end.

Definition init (D : nat -> Z) (S : nat -> stat) : rtm lst dev :=
  mkR (mkT (fun x => match x with Dat i => D i | Reg _ => 0 end) (fun _ => []) (fun t => {| st := S t; p := Idle |})) (fun _ => None).
