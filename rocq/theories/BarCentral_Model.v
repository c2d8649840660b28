(** Model of src/ck_barrier_centralized.c: the shared counter [value], the shared
    and the per-participant sense ([~0]/[0] as a boolean).  Participants are
    [0..n-1], all passing [n] as n_threads. *)
From Coq Require Import Arith NArith List Bool.
From Verif Require Import Lib BarSpec.
Import ListNotations.

Inductive pc :=
| Out
| A       (** 45: faa value *)
| Z       (** 47: store value *)
| G       (** 49: store sense *)
| Sp.     (** 54: load sense *)

Record state := mk { value : N; sense : bool; lsense : nat -> bool; thr : nat -> pc }.
(** CK_BARRIER_CENTRALIZED_INITIALIZER, CK_BARRIER_CENTRALIZED_STATE_INITIALIZER *)
Definition init : state := mk 0 false (fun _ => false) (fun _ => Out).

Inductive act := AEnter | ATick.

Section M.
Variable n : nat.
Definition go (s : state) (t : nat) (p : pc) : state := mk (value s) (sense s) (lsense s) (upd (thr s) t p).

(** n_threads - 1, unsigned *)
Definition last : N := ((N.of_nat n + (2 ^ 32 - 1)) mod 2 ^ 32)%N.

Definition step (s : state) (l : nat * act) : option (state * list bev) :=
  let (t, a) := l in
  if negb (Nat.ltb t n) then None else
  match thr s t, a with
  | Out, AEnter => Some (mk (value s) (sense s) (upd (lsense s) t (negb (lsense s t))) (upd (thr s) t A), [Enter t])
  | A, ATick =>
      Some (mk ((value s + 1) mod 2 ^ 32)%N (sense s) (lsense s) (upd (thr s) t (if N.eqb (value s) last then Z else Sp)), [])
  | Z, ATick => Some (mk 0 (sense s) (lsense s) (upd (thr s) t G), [])
  | G, ATick => Some (mk (value s) (lsense s t) (lsense s) (upd (thr s) t Out), [Leave t])
  | Sp, ATick => if Bool.eqb (lsense s t) (sense s) then Some (go s t Out, [Leave t]) else Some (s, [])
  | _, _ => None
  end.
End M.
