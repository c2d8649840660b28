(** ck_spinlock_ticket (include/spinlock/ticket.h) on TSO, with a client that reads and writes shared
    data while it holds the lock.

    [pcode]: the packed variant of x86 and x86_64, lines 38-176, lock word [Reg 0]; every change of
    it is a locked instruction.  [gcode]: the generic variant, lines 186-285, [Reg 0] is next and
    [Reg 1] is position; unlock is a plain load and a plain store.  Backoff (lock_pb) touches no
    shared state.  The fences are compiler barriers here.  Elision is not modelled.
    The arithmetic of the packed word is that of SpinTicket_Model. *)
From Coq Require Import ZArith Arith List Bool.
From Verif Require Import Lib Tso TsoQueue_Spec.
From Verif Require SpinTicket_Model.
Import ListNotations.
Local Open Scope Z_scope.

Inductive pc :=
| Idle
| Wait (r : Z)      (* ticket.h:111-115, 134-142 / 234, 249-264: spinning with ticket r *)
| TryCas (v : Z)    (* ticket.h:160: about to compare-and-swap *)
| CS                (* holding the lock *)
| UnStore (v : Z).  (* ticket.h:283: about to store position *)
Inductive act := ALock | ATry | ALocked | ATick | ARd (i : nat) | AWr (i : nat) (v : Z) | AUnlock.

Section Packed.
Variable k : Z.     (* CK_SPINLOCK_TICKET_SHIFT: 16 or 32 *)
Variable n : nat.   (* threads are 0 .. n-1 *)
Notation req := (SpinTicket_Model.request_of k).
Notation pos := (SpinTicket_Model.position_of k).
Notation incr v := ((v + SpinTicket_Model.INCREMENT k) mod SpinTicket_Model.WORD k).

Definition pcode (t : nat) (p : pc) (a : act) : option (instr pc qev) :=
  if negb (Nat.ltb t n) then None else
  match p, a with
  | Idle, ALock =>                                              (* ticket.h:99-119, 121-146: fetch-and-add *)
      Some (Rmw (Reg 0) (fun v => incr v)
        (fun v => if req v =? pos v then (CS, [Req t; Enter t]) else (Wait (req v), [Req t])))
  | Wait r, ATick => Some (Ld (Reg 0) (fun v => if r =? pos v then (CS, [Enter t]) else (Wait r, [])))
  | Idle, ATry =>                                               (* ticket.h:153-158: load and compare *)
      Some (Ld (Reg 0) (fun v => if pos v =? req v then (TryCas v, []) else (Idle, [Fail t])))
  | TryCas w, ATick =>                                          (* ticket.h:160-166 *)
      Some (Rmw (Reg 0) (fun v => if v =? w then incr w else v)
        (fun v => if v =? w then (CS, [Req t; Enter t]) else (Idle, [])))
  | Idle, ALocked => Some (Ld (Reg 0) (fun v => (Idle, [Locked t (negb (req v =? pos v))])))   (* 86-98 *)
  | CS, ARd i => Some (Ld (Dat i) (fun v => (CS, [DRd t i v])))
  | CS, AWr i v => Some (St (Dat i) v CS [DWr t i v])
  | CS, AUnlock =>                                              (* ticket.h:169-176: locked increment *)
      Some (Rmw (Reg 0) (SpinTicket_Model.inc_low k) (fun _ => (Idle, [Leave t; Visible t])))
  | _, _ => None
  end.
Definition parr (t : nat) (x : loc) (v : Z) : list qev := [].
End Packed.

Section Generic.
Variable W : Z.     (* range of unsigned int *)
Variable n : nat.
Definition gcode (t : nat) (p : pc) (a : act) : option (instr pc qev) :=
  if negb (Nat.ltb t n) then None else
  match p, a with
  | Idle, ALock => Some (Rmw (Reg 0) (fun v => (v + 1) mod W) (fun v => (Wait v, [Req t])))      (* 227, 247 *)
  | Wait r, ATick => Some (Ld (Reg 1) (fun v => if v =? r then (CS, [Enter t]) else (Wait r, [])))
  | CS, ARd i => Some (Ld (Dat i) (fun v => (CS, [DRd t i v])))
  | CS, AWr i v => Some (St (Dat i) v CS [DWr t i v])
  | CS, AUnlock => Some (Ld (Reg 1) (fun v => (UnStore v, [])))                                  (* 282 *)
  | UnStore v, ATick => Some (St (Reg 1) ((v + 1) mod W) Idle [Leave t])                         (* 283 *)
  | _, _ => None
  end.
Definition garr (t : nat) (x : loc) (v : Z) : list qev := match x with Reg _ => [Visible t] | Dat _ => [] end.
End Generic.

(** ticket.h:77-84, 198-208 *)
Definition init (D : nat -> Z) : tso pc :=
  mkT (fun x => match x with Dat i => D i | Reg _ => 0 end) (fun _ => []) (fun _ => Idle).
