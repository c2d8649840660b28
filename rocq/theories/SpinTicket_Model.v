(** Model of include/spinlock/ticket.h, packed (x86) variant, lines 40-176.
    [k] is CK_SPINLOCK_TICKET_SHIFT (16 or 32); the lock word is 2k bits wide:
    request number in the high half, position in the low half. *)
From Coq Require Import Arith List ZArith Bool.
From Verif Require Import Lib LockSpec.
Import ListNotations.
Local Open Scope Z_scope.

Inductive pc :=
| Idle
| LkFaa                (** ticket.h:109 / :133 about to fetch-and-add *)
| LkWait (request : Z) (** ticket.h:115-119 / :139-147 spinning with our ticket *)
| TryCas (snap : Z)    (** ticket.h:160 about to compare-and-swap *)
| Crit.

Record state := mk { value : Z; thr : nat -> pc }.

(** ticket.h:77-84 *)
Definition init : state := mk 0 (fun _ => Idle).

Inductive act := ALock | ATry | AUnlock | ALocked | ATick.

Section Ticket.
Variable k : Z.      (* SHIFT *)
Variable n : nat.    (* threads are 0 .. n-1 *)

Definition MASK : Z := Z.ones k.                 (* ticket.h:53, :63 *)
Definition INCREMENT : Z := Z.shiftl 1 k.        (* ticket.h:52, :62 *)
Definition WORD : Z := 2 ^ (2 * k).              (* width of CK_SPINLOCK_TICKET_TYPE *)
Definition BASE : Z := 2 ^ k.                    (* width of CK_SPINLOCK_TICKET_TYPE_BASE *)

Definition position_of (v : Z) : Z := Z.land v MASK.
Definition request_of (v : Z) : Z := Z.shiftr v k.

(** ticket.h:173 CK_SPINLOCK_TICKET_INC on the low half only: the increment is
    a k-bit operation, so no carry reaches the high half. *)
Definition inc_low (v : Z) : Z := Z.lor (Z.shiftl (Z.shiftr v k) k) ((Z.land v MASK + 1) mod BASE).

Definition goto (s : state) (t : nat) (p : pc) : state := mk (value s) (upd (thr s) t p).

Definition step (s : state) (l : nat * act) : option (state * list fev) :=
  let (t, a) := l in
  if negb (Nat.ltb t n) then None else
  match thr s t, a with
  (* ticket.h:101-123 lock, :125-151 lock_pb (backoff touches no shared state) *)
  | Idle, ALock => Some (goto s t LkFaa, [])
  | LkFaa, ATick =>
      let v := value s in
      let v' := (v + INCREMENT) mod WORD in
      if Z.eqb (request_of v) (position_of v)
      then Some (mk v' (upd (thr s) t Crit), [FReq t; FAcq t])
      else Some (mk v' (upd (thr s) t (LkWait (request_of v))), [FReq t])
  | LkWait r, ATick =>
      if Z.eqb r (position_of (value s))
      then Some (goto s t Crit, [FAcq t])
      else Some (goto s t (LkWait r), [])
  (* ticket.h:149-167 trylock: load, compare, cas *)
  | Idle, ATry =>
      let v := value s in
      if Z.eqb (position_of v) (request_of v)
      then Some (goto s t (TryCas v), [])
      else Some (s, [FTryFail t])
  | TryCas snap, ATick =>
      if Z.eqb (value s) snap
      then Some (mk ((snap + INCREMENT) mod WORD) (upd (thr s) t Crit), [FReq t; FAcq t])
      else Some (goto s t Idle, [FTryFail t])
  (* ticket.h:169-176 unlock *)
  | Crit, AUnlock => Some (mk (inc_low (value s)) (upd (thr s) t Idle), [FRel t])
  (* ticket.h:86-98 locked *)
  | Idle, ALocked | Crit, ALocked =>
      Some (s, [FLocked t (negb (Z.eqb (request_of (value s)) (position_of (value s))))])
  | _, _ => None
  end.
End Ticket.

Definition waiting (s : state) (t : nat) : bool :=
  match thr s t with LkWait _ => true | _ => false end.
