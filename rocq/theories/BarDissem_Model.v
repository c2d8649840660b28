(** Model of src/ck_barrier_dissemination.c.  Participants are named by the [tid]
    that subscribe hands them; exactly [n] subscriptions are made (protocol). *)
From Coq Require Import Arith NArith List Bool.
From Verif Require Import Lib BarSpec Helpers_Model.
Import ListNotations.

Section M.
Variable n : nat.

(** 44 (and 94, before the shift): size = ck_internal_log(ck_internal_power_2(nthr)) *)
Definition size : nat := N.to_nat (ck_internal_log (ck_internal_power_2 (N.of_nat n))).

(** 41: bool p = nthr & (nthr - 1) *)
Definition pflag_odd : bool := negb (N.eqb (N.land (N.of_nat n) (w32 (N.of_nat n + (2 ^ 32 - 1)))) 0).
(** 53: offset after k left shifts *)
Definition offset (k : nat) : N := w32 (2 ^ N.of_nat k).
(** 60-64: the partner [j] of participant [i] in round [k] *)
Definition partner (i k : nat) : nat :=
  N.to_nat (if pflag_odd then w32 (N.of_nat i + offset k) mod N.of_nat n
            else N.land (w32 (N.of_nat i + offset k)) (w32 (N.of_nat n + (2 ^ 32 - 1))))%N.

Inductive pc :=
| Unsub           (** not subscribed yet *)
| Out
| Lp (k : nat)    (** 103: loop test; 110: store *pflag; 119-122 when the loop ends *)
| Wt (k : nat).   (** 113: load *tflag *)

(** [flag p i k] is barrier[i].flags[p][k].tflag (all bits set or clear) *)
Record state := mk { tid : N; flag : bool -> nat -> nat -> bool; par : nat -> bool; sns : nat -> bool; thr : nat -> pc }.
(** 45, 71: after ck_barrier_dissemination_init *)
Definition init : state := mk 0 (fun _ _ _ => false) (fun _ => false) (fun _ => false) (fun _ => Unsub).

Definition set3 (f : bool -> nat -> nat -> bool) (p : bool) (i k : nat) (v : bool) : bool -> nat -> nat -> bool :=
  fun p' i' k' => if Bool.eqb p' p && Nat.eqb i' i && Nat.eqb k' k then v else f p' i' k'.

Inductive act := ASub | AEnter | ATick.

Definition go (s : state) (t : nat) (p : pc) : state := mk (tid s) (flag s) (par s) (sns s) (upd (thr s) t p).

Definition step (s : state) (l : nat * act) : option (state * list bev) :=
  let (t, a) := l in
  if negb (Nat.ltb t n) then None else
  match thr s t, a with
  | _, ASub =>  (** 79-87: subscribe; the counter names the participant *)
      if N.eqb (N.of_nat t) (tid s)
      then Some (mk (w32 (tid s + 1)) (flag s) (upd (par s) t false) (upd (sns s) t true) (upd (thr s) t Out), [])
      else None
  | Out, AEnter => Some (go s t (Lp 0), [Enter t])
  | Lp k, ATick =>
      if Nat.ltb k size
      then Some (mk (tid s) (set3 (flag s) (par s t) (partner t k) k (sns s t)) (par s) (sns s) (upd (thr s) t (Wt k)), [])
      else Some (mk (tid s) (flag s) (upd (par s) t (negb (par s t)))
                    (upd (sns s) t (if par s t then negb (sns s t) else sns s t)) (upd (thr s) t Out), [Leave t])
  | Wt k, ATick =>
      if Bool.eqb (flag s (par s t) t k) (sns s t) then Some (go s t (Lp (S k)), []) else Some (s, [])
  | _, _ => None
  end.
End M.
