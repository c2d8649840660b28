(** Model of include/spinlock/ticket.h, generic variant, lines 182-285:
    separate 32-bit [next] and [position] words; unlock is a load and a store.
    [W] is the counter range (2^32 in the code). *)
From Coq Require Import Arith List ZArith Bool.
From Verif Require Import Lib LockSpec.
Import ListNotations.
Local Open Scope Z_scope.

Inductive pc :=
| Idle
| LkFaa                (** ticket.h:220 / :243 about to fetch-and-add next *)
| LkWait (request : Z) (** ticket.h:227 / :246 spinning on position *)
| Crit
| UnStore (u : Z).     (** ticket.h:283 about to store position *)

Record state := mk { next : Z; position : Z; thr : nat -> pc }.

(** ticket.h:193-202 *)
Definition init : state := mk 0 0 (fun _ => Idle).

Inductive act := ALock | AUnlock | ATick.

Section Ticket.
Variable W : Z.
Variable n : nat.

Definition goto (s : state) (t : nat) (p : pc) : state := mk (next s) (position s) (upd (thr s) t p).

Definition step (s : state) (l : nat * act) : option (state * list fev) :=
  let (t, a) := l in
  if negb (Nat.ltb t n) then None else
  match thr s t, a with
  (* ticket.h:215-233 lock, :235-267 lock_pb *)
  | Idle, ALock => Some (goto s t LkFaa, [])
  | LkFaa, ATick => Some (mk ((next s + 1) mod W) (position s) (upd (thr s) t (LkWait (next s))), [FReq t])
  | LkWait r, ATick =>
      if Z.eqb (position s) r then Some (goto s t Crit, [FAcq t])
      else Some (goto s t (LkWait r), [])
  (* ticket.h:269-285 unlock: update = load position; store update + 1 *)
  | Crit, AUnlock => Some (goto s t (UnStore (position s)), [])
  | UnStore u, ATick => Some (mk (next s) ((u + 1) mod W) (upd (thr s) t Idle), [FRel t])
  | _, _ => None
  end.
End Ticket.

Definition waiting (s : state) (t : nat) : bool :=
  match thr s t with LkWait _ => true | _ => false end.
