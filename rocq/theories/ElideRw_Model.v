(** Elision of ck_rwlock (include/ck_elide.h:143-243 instantiated at include/ck_rwlock.h:110-111, 129-131,
    157-158 and 204-206) on the machine of Rtm.v, with a client that reads and writes shared data inside, and that
    may also call the lock functions directly.

    [WRD] is writer, [CNT] is n_readers.  Write side: L_P is ck_rwlock_locked (81-91; n_readers is loaded
    first), U_P is ck_rwlock_locked_writer (62-71).  Read side: L_P is ck_rwlock_locked_writer, U_P is
    ck_rwlock_locked_reader (187-193).  The fences are compiler barriers.  Configurations as in ElideSpin_Model;
    direct trylock and downgrade are not modelled here (C72).  [N] threads. *)
From Coq Require Import ZArith Arith List Bool.
From Verif Require Import Lib Tso Rtm TsoRw_Spec Elide_Model.
From Verif Require ElideSpin_Model.
Import ListNotations.
Local Open Scope Z_scope.

Definition W : Z := 4294967296.
Definition WRD : loc := Reg 0.
Definition CNT : loc := Reg 1.

Inductive pc :=
| Idle
| Bgn (w : bool) (c : cfg) (retry : Z)   (* ck_elide.h:159; w: the write side *)
| LP (w : bool)                          (* ck_elide.h:161, 213, 239: in the transaction, about to evaluate L_P *)
| LP2 (b : bool)                         (* ck_rwlock.h:87: about to load writer; b: n_readers was not zero *)
| LBusy (w : bool)                       (* ck_elide.h:162, 214, 240 *)
| Spn (w : bool) (c : cfg) (retry : Z)   (* ck_elide.h:172 *)
| Spn2 (c : cfg) (retry : Z) (b : bool)  (* ck_rwlock.h:87, from ck_elide.h:173 *)
| WA                                     (* ck_rwlock.h:117: fetch-and-store *)
| WN                                     (* ck_rwlock.h:122: wait for readers *)
| RS                                     (* ck_rwlock.h:165: wait for the writer *)
| RA                                     (* ck_rwlock.h:168: announce *)
| RC                                     (* ck_rwlock.h:176: check *)
| RX                                     (* ck_rwlock.h:179: take back *)
| CS (w d : bool)                        (* inside; d: acquired by L *)
| URel (w : bool)                        (* ck_elide.h:199, 225: about to call U *)
| UEnd (w ad : bool).                    (* ck_elide.h:195, 223 *)
Record lst := { st : stat; p : pc }.
Definition at_ (l : lst) (q : pc) : lst := {| st := st l; p := q |}.

Inductive act :=
| AELock (w : bool) | AETry (w : bool) | AEAdapt (w : bool) (c : cfg)
| AWrite | ARead
| ATick | ARd (i : nat) | AWr (i : nat) (v : Z)
| AEUnlock (ad : bool) | AUnlock.

Definition L0 (w : bool) : pc := if w then WA else RS.
(** ck_elide.h:184 *)
Definition loop (w : bool) (c : cfg) (retry : Z) : pc := if 0 <? retry - 1 then Bgn w c (retry - 1) else L0 w.
(** ck_elide.h:167-184 *)
Definition aborted (w : bool) (c : cfg) (retry : Z) (s : stat) (status : Z) : lst :=
  match fallback retry s c status with
  | (HRetry, r, s') => {| st := s'; p := loop w c r |}
  | (HSpin, r, s') => {| st := s'; p := Spn w c r |}
  | (HStop, _, s') => {| st := s'; p := L0 w |}
  end.

Section Code.
Variable N : nat.
Definition code (t : nat) (l : lst) (a : act) : option (xinstr lst wev) :=
  if negb (Nat.ltb t N) then None else
  match p l, a with
  | Idle, AELock w => Some (Begin (at_ l (LP w)) (fun _ => at_ l (L0 w)))
  | Idle, AETry w => Some (Begin (at_ l (LP w)) (fun _ => at_ l Idle))
  | Idle, AEAdapt w c =>
      if ElideSpin_Model.okcfg c then
        Some (Op (Local (if skip (st l) =? 0 then at_ l (Bgn w c (retry_conflict c))
                         else {| st := set_skip (st l) (skip (st l) - 1); p := L0 w |}) []))
      else None
  | Bgn w c r, ATick => Some (Begin (at_ l (LP w)) (aborted w c r (st l)))
  | LP true, ATick => Some (Op (Ld CNT (fun v => (at_ l (LP2 (negb (v =? 0))), []))))
  | LP2 b, ATick => Some (Op (Ld WRD (fun v => if b || negb (v =? 0) then (at_ l (LBusy true), []) else (at_ l (CS true false), [WEnter t]))))
  | LP false, ATick => Some (Op (Ld WRD (fun v => if v =? 0 then (at_ l (CS false false), [REnter t]) else (at_ l (LBusy false), []))))
  | LBusy w, ATick => Some (XAbort LOCK_BUSY (at_ l (CS w false)))
  | Spn w c r, ATick =>
      if r - 1 =? 0 then Some (Op (Local (at_ l (loop w c 0)) []))
      else if w then Some (Op (Ld CNT (fun v => (at_ l (Spn2 c (r - 1) (negb (v =? 0))), []))))
      else Some (Op (Ld WRD (fun v => (at_ l (if v =? 0 then loop false c (r - 1) else Spn false c (r - 1)), []))))
  | Spn2 c r b, ATick => Some (Op (Ld WRD (fun v => (at_ l (if b || negb (v =? 0) then Spn true c r else loop true c r), []))))
  (* write_lock, ck_rwlock.h:113-127 *)
  | Idle, AWrite => Some (Op (Local (at_ l WA) []))
  | WA, ATick => Some (Op (Rmw WRD (fun _ => 1) (fun v => (at_ l (if v =? 0 then WN else WA), []))))
  | WN, ATick => Some (Op (Ld CNT (fun v => if v =? 0 then (at_ l (CS true true), [WEnter t]) else (at_ l WN, []))))
  (* read_lock, ck_rwlock.h:160-185 *)
  | Idle, ARead => Some (Op (Local (at_ l RS) []))
  | RS, ATick => Some (Op (Ld WRD (fun v => (at_ l (if v =? 0 then RA else RS), []))))
  | RA, ATick => Some (Op (Rmw CNT (fun v => (v + 1) mod W) (fun _ => (at_ l RC, []))))
  | RC, ATick => Some (Op (Ld WRD (fun v => if v =? 0 then (at_ l (CS false true), [REnter t]) else (at_ l RX, []))))
  | RX, ATick => Some (Op (Rmw CNT (fun v => (v - 1) mod W) (fun _ => (at_ l RS, []))))
  (* the client *)
  | CS w d, ARd i => Some (Op (Ld (Dat i) (fun v => (at_ l (CS w d), [DRd t i v]))))
  | CS true d, AWr i v => Some (Op (St (Dat i) v (at_ l (CS true d)) [DWr t i v]))
  (* unlock *)
  | CS w _, AEUnlock ad =>
      Some (Op (Ld (if w then WRD else CNT) (fun v => (at_ l (if v =? 0 then UEnd w ad else URel w), []))))
  | UEnd w ad, ATick => Some (End {| st := if ad then elided (st l) else st l; p := Idle |} [if w then WLeave t else RLeave t])
  | URel true, ATick | CS true true, AUnlock => Some (Op (St WRD 0 (at_ l Idle) [WLeave t]))             (* 53-60 *)
  | URel false, ATick | CS false true, AUnlock =>                                                        (* 195-202 *)
      Some (Op (Rmw CNT (fun v => (v - 1) mod W) (fun _ => (at_ l Idle, [RLeave t]))))
  | _, _ => None
  end.
End Code.
Definition arr (t : nat) (x : loc) (v : Z) : list wev := [].
Definition init (D : nat -> Z) (S : nat -> stat) : rtm lst wev :=
  mkR (mkT (fun x => match x with Dat i => D i | Reg _ => 0 end) (fun _ => []) (fun t => {| st := S t; p := Idle |})) (fun _ => None).
