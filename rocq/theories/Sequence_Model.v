(** Model of include/ck_sequence.h: sequence counter with one writer at a time
    (the client's mutex, [wr]) and any number of readers of arbitrarily much data
    ([mem]).  Each load and store of the counter and each access to one datum is
    one step; read_begin and read_retry are modelled both as plain calls and
    inside the CK_SEQUENCE_READ loop. *)
From Coq Require Import Arith NArith ZArith List Bool.
From Verif Require Import Lib.
Import ListNotations.

Inductive ev :=
| WBeg (t : nat)                        (** write_begin's store *)
| WSet (t : nat) (i : nat) (v : Z)      (** the writer changes datum [i] *)
| WEnd (t : nat)                        (** write_end's store *)
| RBeg (t : nat)                        (** read_begin returns *)
| RRead (t : nat) (i : nat) (v : Z)     (** the reader reads datum [i] *)
| REnd (t : nat) (ok : bool)            (** read_retry returned (negation of) [ok] *)
| Done (t : nat).                       (** the CK_SEQUENCE_READ loop ends *)

Inductive pc :=
| Idle
| Own                   (** holds the writer mutex *)
| B1 | B2 (v : N)       (** write_begin 104: load, store *)
| Upd                   (** between write_begin and write_end *)
| E1 | E2 (v : N)       (** write_end 121: load, store *)
| G (m : bool)          (** read_begin 55; [m]: inside CK_SEQUENCE_READ *)
| Sec (m : bool) (v : N)  (** in the read section *)
| Rt (m : bool) (v : N) (** read_retry 85 *)
| Ck (v : N).           (** CK_SEQUENCE_READ 90: test of *(version) *)

Record state := mk { seq : N; mem : nat -> Z; wr : option nat; thr : nat -> pc }.
(** 41-47 *)
Definition init (m : nat -> Z) : state := mk 0 m None (fun _ => Idle).

Inductive act := ALock | AUnlock | AWBegin | AWEnd | ASet (i : nat) (v : Z)
               | ARBegin | ALoop | ARead (i : nat) | ARetry | ATick.

Definition W : N := 2 ^ 32.
Definition succ (v : N) : N := ((v + 1) mod W)%N.

Definition go (s : state) (t : nat) (p : pc) : state := mk (seq s) (mem s) (wr s) (upd (thr s) t p).
Definition setq (s : state) (v : N) : state := mk v (mem s) (wr s) (thr s).
Definition setm (s : state) (i : nat) (v : Z) : state := mk (seq s) (upd (mem s) i v) (wr s) (thr s).
Definition setw (s : state) (o : option nat) : state := mk (seq s) (mem s) o (thr s).

Definition step (s : state) (l : nat * act) : option (state * list ev) :=
  let (t, a) := l in
  match thr s t, a with
  (* the client's mutex *)
  | Idle, ALock => match wr s with None => Some (go (setw s (Some t)) t Own, []) | Some _ => None end
  | Own, AUnlock => Some (go (setw s None) t Idle, [])
  (* write_begin, 96-107 *)
  | Own, AWBegin => Some (go s t B1, [])
  | B1, ATick => Some (go s t (B2 (seq s)), [])
  | B2 v, ATick => Some (go (setq s (succ v)) t Upd, [WBeg t])
  | Upd, ASet i v => Some (setm s i v, [WSet t i v])
  (* write_end, 112-123 *)
  | Upd, AWEnd => Some (go s t E1, [])
  | E1, ATick => Some (go s t (E2 (seq s)), [])
  | E2 v, ATick => Some (go (setq s (succ v)) t Own, [WEnd t])
  (* read_begin, 49-74 *)
  | Idle, ARBegin => Some (go s t (G false), [])
  | Idle, ALoop => Some (go s t (Ck 1), [])
  | G m, ATick => if N.testbit (seq s) 0 then Some (s, []) else Some (go s t (Sec m (seq s)), [RBeg t])
  (* the section *)
  | Sec m v, ARead i => Some (s, [RRead t i (mem s i)])
  | Sec m v, ARetry => Some (go s t (Rt m v), [])
  (* read_retry, 76-86 *)
  | Rt m v, ATick =>
      let r := negb (N.eqb (seq s) v) in
      Some (go s t (if m then Ck (if r then 1 else 0) else Idle), [REnd t (negb r)])
  (* CK_SEQUENCE_READ, 88-91 *)
  | Ck v, ATick => if N.eqb v 0 then Some (go s t Idle, [Done t]) else Some (go s t (G true), [])
  | _, _ => None
  end.
