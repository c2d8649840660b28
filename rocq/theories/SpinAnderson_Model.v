(** Model of include/spinlock/anderson.h (array-based queue lock).
    [count] slots, threads [0 .. n-1]; 32-bit [next] counter. *)
From Coq Require Import Arith List ZArith Bool.
From Verif Require Import Lib LockSpec.
Import ListNotations.
Local Open Scope Z_scope.

Definition UINT_MAX : Z := 4294967295.
Definition W : Z := 4294967296.

Inductive pc :=
| Idle
| LkLoad               (** anderson.h:115 about to load next (wrap != 0) *)
| LkCas (p : Z)        (** anderson.h:117-123 about to compare-and-swap next *)
| LkFaa                (** anderson.h:127 about to fetch-and-add next (wrap = 0) *)
| LkWait (slot : Z)    (** anderson.h:138 spinning on the slot *)
| LkMark (slot : Z)    (** anderson.h:142 about to mark the slot for re-use *)
| Crit (slot : Z).     (** holds the lock, slot handed back to the caller *)

(** [slot_locked j] is slots[j].locked; slots[j].position is [j] (anderson.h:65-70)
    and never written again. *)
Record state := mk { next : Z; slot_locked : Z -> bool; thr : nat -> pc }.

(** anderson.h:57-88 ck_spinlock_anderson_init *)
Definition init : state := mk 0 (fun j => negb (Z.eqb j 0)) (fun _ => Idle).

Inductive act := ALock | AUnlock | ATick.

Definition setslot (f : Z -> bool) (j : Z) (b : bool) : Z -> bool :=
  fun x => if Z.eqb x j then b else f x.

Section Anderson.
Variable count : Z.
Variable n : nat.

Definition mask : Z := count - 1.                                   (* anderson.h:74 *)
Definition wrap : Z :=                                              (* anderson.h:82-85 *)
  if Z.eqb (Z.land count (count - 1)) 0 then 0 else (UINT_MAX mod count) + 1.

Definition goto (s : state) (t : nat) (p : pc) : state := mk (next s) (slot_locked s) (upd (thr s) t p).

Definition step (s : state) (l : nat * act) : option (state * list fev) :=
  let (t, a) := l in
  if negb (Nat.ltb t n) then None else
  match thr s t, a with
  (* anderson.h:102-148 lock *)
  | Idle, ALock => Some (goto s t (if Z.eqb wrap 0 then LkFaa else LkLoad), [])
  | LkLoad, ATick => Some (goto s t (LkCas (next s)), [])
  | LkCas p, ATick =>
      let nx := if Z.eqb p UINT_MAX then wrap else p + 1 in
      if Z.eqb (next s) p
      then Some (mk nx (slot_locked s) (upd (thr s) t (LkWait (p mod count))), [FReq t])
      else Some (goto s t (LkCas (next s)), [])
  | LkFaa, ATick =>
      Some (mk ((next s + 1) mod W) (slot_locked s)
               (upd (thr s) t (LkWait (Z.land (next s) mask))), [FReq t])
  | LkWait j, ATick =>
      if slot_locked s j then Some (goto s t (LkWait j), [])
      else Some (goto s t (LkMark j), [])
  | LkMark j, ATick =>
      Some (mk (next s) (setslot (slot_locked s) j true) (upd (thr s) t (Crit j)), [FAcq t])
  (* anderson.h:150-167 unlock; slot->position is [j] *)
  | Crit j, AUnlock =>
      let j' := if Z.eqb wrap 0 then Z.land (j + 1) mask else (j + 1) mod count in
      Some (mk (next s) (setslot (slot_locked s) j' false) (upd (thr s) t Idle), [FRel t])
  | _, _ => None
  end.

(** anderson.h:90-100 ck_spinlock_anderson_locked, evaluated without interference. *)
Definition locked (s : state) : bool := slot_locked s (Z.land (next s) mask).
End Anderson.

Definition holding (s : state) (t : nat) : bool :=
  match thr s t with Crit _ => true | _ => false end.
Definition waiting (s : state) (t : nat) : bool :=
  match thr s t with LkWait _ | LkMark _ => true | _ => false end.
