(** Model of include/ck_bytelock.h.

    Parameters of a run: [n] threads; the reader array has [W] words of [L]
    bytes (CK_BYTELOCK_LENGTH; 46: sizeof readers = W * L); [sl t] is the slot
    argument thread [t] passes to every call.  A slot above [W * L] is
    unslotted (54: CK_BYTELOCK_UNSLOTTED is UINT_MAX). *)
From Coq Require Import Arith NArith List Bool.
From Verif Require Import Lib LockSpec.
Import ListNotations.

Inductive pc :=
| Idle
(* write_lock; [up] records that the caller holds a read lock (91-93: "we might
   be upgrading from a read lock") *)
| W1 (up : bool)           (** 88: cas owner 0 -> slot *)
| W2 (up : bool)           (** 93: clear own reader byte *)
| W3 (up : bool) (i : nat) (** 101-104: wait for reader word [i] = 0 *)
| W4 (up : bool)           (** 107: wait for n_readers = 0 *)
| WCrit
(* read_lock, owner = slot; [h] records that the caller is the writer *)
| D1 (h : bool)            (** 132: store own reader byte *)
| D2 (h : bool)            (** 134: store owner 0 *)
| U1 | U2 | U3 | U4        (** 141, 143, 145, 147 *)
| R1 | R2 | R3 | R4        (** 158, 171, 174, 175 *)
| RCrit
| Bad.                     (** the writer called read_lock and owner was not its slot *)

Record state := mk { owner : N; nread : N; rd : nat -> bool; oob : bool; thr : nat -> pc }.

(** 57-69 *)
Definition init : state := mk 0 0 (fun _ => false) false (fun _ => Idle).

Inductive act := AWLock | AWUnlock | ARLock | ARUnlock | ATick.

Section M.
Variables (n W L : nat) (sl : nat -> N).

Definition slotted (t : nat) : bool := N.leb (sl t) (N.of_nat (W * L)).
Definition idx (t : nat) : nat := N.to_nat (sl t - 1).

Definition go (s : state) (t : nat) (p : pc) : state := mk (owner s) (nread s) (rd s) (oob s) (upd (thr s) t p).
Definition goo (s : state) (t : nat) (o : N) (p : pc) : state := mk o (nread s) (rd s) (oob s) (upd (thr s) t p).
Definition gon (s : state) (t : nat) (k : N) (p : pc) : state := mk (owner s) k (rd s) (oob s) (upd (thr s) t p).
(** A store to readers[slot - 1].  Outside the array it is recorded in [oob] and,
    in this model, leaves the lock words alone. *)
Definition gob (s : state) (t : nat) (b : bool) (p : pc) : state :=
  if slotted t then mk (owner s) (nread s) (upd (rd s) (idx t) b) (oob s) (upd (thr s) t p)
  else mk (owner s) (nread s) (rd s) true (upd (thr s) t p).

(** One word load of the reader array compared with 0 (102). *)
Definition word_zero (r : nat -> bool) (i : nat) : bool := forallb (fun j => negb (r (i * L + j))) (seq 0 L).

(** ck_pr_inc_uint / ck_pr_dec_uint *)
Definition inc (x : N) : N := ((x + 1) mod 2 ^ 32)%N.
Definition dec (x : N) : N := ((x + (2 ^ 32 - 1)) mod 2 ^ 32)%N.

(** Entering write_lock's scan at word [i], or the final wait if there is none left. *)
Definition scan (up : bool) (i : nat) : pc := if Nat.ltb i W then W3 up i else W4 up.

Definition step (s : state) (l : nat * act) : option (state * list rwev) :=
  let (t, a) := l in
  if negb (Nat.ltb t n) then None else
  match thr s t, a with
  (* write_lock, 80-112 *)
  | Idle, AWLock => Some (go s t (W1 false), [])
  | RCrit, AWLock => if slotted t then Some (go s t (W1 true), []) else None
  | W1 up, ATick =>
      if N.eqb (owner s) 0
      then Some (goo s t (sl t) (if slotted t then W2 up else scan up 0), [])
      else Some (go s t (W1 up), [])
  | W2 up, ATick => Some (gob s t false (scan up 0), [])
  | W3 up i, ATick => if word_zero (rd s) i then Some (go s t (scan up (S i)), []) else Some (go s t (W3 up i), [])
  | W4 up, ATick =>
      if N.eqb (nread s) 0 then Some (go s t WCrit, (if up then [RRel t] else []) ++ [WAcq t]) else Some (go s t (W4 up), [])
  (* write_unlock, 117-124 *)
  | WCrit, AWUnlock => Some (goo s t 0 Idle, [WRel t])
  (* read_lock, 126-179; called inside the write section it is the downgrade *)
  | Idle, ARLock =>
      if N.eqb (owner s) (sl t) then Some (go s t (D1 false), [])
      else Some (go s t (if slotted t then R1 else U1), [])
  | WCrit, ARLock =>
      if slotted t then if N.eqb (owner s) (sl t) then Some (go s t (D1 true), []) else Some (go s t Bad, []) else None
  | D1 h, ATick => Some (gob s t true (D2 h), [])
  | D2 h, ATick => Some (goo s t 0 RCrit, [if h then Down t else RAcq t])
  | U1, ATick => Some (gon s t (inc (nread s)) U2, [])
  | U2, ATick => if N.eqb (owner s) 0 then Some (go s t RCrit, [RAcq t]) else Some (go s t U3, [])
  | U3, ATick => Some (gon s t (dec (nread s)) U4, [])
  | U4, ATick => Some (go s t (if N.eqb (owner s) 0 then U1 else U4), [])
  | R1, ATick => Some (gob s t true R2, [])
  | R2, ATick => if N.eqb (owner s) 0 then Some (go s t RCrit, [RAcq t]) else Some (go s t R3, [])
  | R3, ATick => Some (gob s t false R4, [])
  | R4, ATick => Some (go s t (if N.eqb (owner s) 0 then R1 else R4), [])
  (* read_unlock, 181-193 *)
  | RCrit, ARUnlock => Some (if slotted t then gob s t false Idle else gon s t (dec (nread s)) Idle, [RRel t])
  | _, _ => None
  end.

(** A client that only lets threads in [wr] write and threads in [rdr] read. *)
Variables (wr rdr : nat -> bool).
Definition okact (l : nat * act) : bool :=
  match snd l with AWLock => wr (fst l) | ARLock => rdr (fst l) | _ => true end.
Definition cstep (s : state) (l : nat * act) : option (state * list rwev) :=
  if okact l then step s l else None.
End M.
