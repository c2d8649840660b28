(** Model of src/ck_barrier_mcs.c.  Participants are named by the [vpid] that
    subscribe hands them; exactly [n] subscriptions are made (protocol). *)
From Coq Require Import Arith NArith List Bool.
From Verif Require Import Lib BarSpec Helpers_Model.
Import ListNotations.

Section M.
Variable n : nat.

(** Where a [parent] or [children] pointer leads. *)
Inductive target :=
| Dummy (i : nat)             (** &barrier[i].dummy *)
| Slot (i j : nat)            (** &barrier[i].childnotready[j] *)
| PSense (i : nat).           (** &barrier[i].parentsense *)

(** nthr - 1, unsigned *)
Definition nthr1 : N := w32 (N.of_nat n + (2 ^ 32 - 1)).
(** 46 *)
Definition havechild (i j : nat) : bool := N.ltb (w32 (N.shiftl (N.of_nat i) 2 + N.of_nat j)) nthr1.
(** 56-58 *)
Definition parent (i : nat) : target :=
  if Nat.eqb i 0 then Dummy i
  else Slot (N.to_nat (N.shiftr (N.of_nat i - 1) 2)) (N.to_nat (N.land (N.of_nat i - 1) 3)).
(** 61-67; [j] is 0 or 1 *)
Definition children (i j : nat) : target :=
  let c := w32 (N.shiftl (N.of_nat i) 1 + N.of_nat (S j)) in
  if N.leb (N.of_nat n) c then Dummy i else PSense (N.to_nat c).

Inductive pc :=
| Unsub          (** not subscribed yet *)
| Out
| C (j : nat)    (** 88-95: load childnotready[j] *)
| Ri (j : nat)   (** 104-107: store childnotready[j] *)
| P              (** 128: store *parent *)
| W              (** 132: load parentsense *)
| K (j : nat).   (** 137-138: store *children[j]; then 139-141 *)

Record state := mk { tid : N; nr : nat -> nat -> bool; dummy : nat -> bool; psense : nat -> bool; sns : nat -> bool; thr : nat -> pc }.
(** after ck_barrier_mcs_init, 38-70 ([dummy] is never read) *)
Definition init : state := mk 0 havechild (fun _ => false) (fun _ => false) (fun _ => false) (fun _ => Unsub).

Definition setnr (s : state) (i j : nat) (v : bool) : state :=
  mk (tid s) (upd (nr s) i (upd (nr s i) j v)) (dummy s) (psense s) (sns s) (thr s).
Definition store (s : state) (d : target) (v : bool) : state :=
  match d with
  | Dummy i => mk (tid s) (nr s) (upd (dummy s) i v) (psense s) (sns s) (thr s)
  | Slot i j => setnr s i j v
  | PSense i => mk (tid s) (nr s) (dummy s) (upd (psense s) i v) (sns s) (thr s)
  end.
Definition go (s : state) (t : nat) (p : pc) : state := mk (tid s) (nr s) (dummy s) (psense s) (sns s) (upd (thr s) t p).

Inductive act := ASub | AEnter | ATick.

Definition step (s : state) (l : nat * act) : option (state * list bev) :=
  let (t, a) := l in
  if negb (Nat.ltb t n) then None else
  match thr s t, a with
  | _, ASub =>  (** 76-82: subscribe; the counter names the participant *)
      if N.eqb (N.of_nat t) (tid s)
      then Some (mk (w32 (tid s + 1)) (nr s) (dummy s) (psense s) (upd (sns s) t true) (upd (thr s) t Out), [])
      else None
  | Out, AEnter => Some (go s t (C 0), [Enter t])
  | C j, ATick =>  (** 85-99, 121: restart when a child is not ready *)
      Some (go s t (if nr s t j then C 0 else if Nat.ltb j 3 then C (S j) else Ri 0), [])
  | Ri j, ATick => Some (go (setnr s t j (havechild t j)) t (if Nat.ltb j 3 then Ri (S j) else P), [])
  | P, ATick => Some (go (store s (parent t) false) t (if Nat.eqb t 0 then K 0 else W), [])
  | W, ATick => Some (if Bool.eqb (psense s t) (sns s t) then go s t (K 0) else s, [])
  | K j, ATick =>
      if Nat.ltb j 1 then Some (go (store s (children t j) (sns s t)) t (K (S j)), [])
      else let s' := store s (children t j) (sns s t) in
           Some (mk (tid s') (nr s') (dummy s') (psense s') (upd (sns s') t (negb (sns s' t))) (upd (thr s') t Out), [Leave t])
  | _, _ => None
  end.
End M.
