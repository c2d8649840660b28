(** Model of include/ck_brlock.h.  Thread [t] owns reader object [t]. *)
From Coq Require Import Arith NArith List Bool.
From Verif Require Import Lib LockSpec.
Import ListNotations.

(** What a write acquisition is for; [r]: the caller's reader object is registered. *)
Inductive kind :=
| KWr (r : bool)                    (** write_lock, 73-95 *)
| KTr (r : bool) (steps factor : N) (** write_trylock, 106-138 *)
| KReg                              (** read_register, 140-157 *)
| KUn.                              (** read_unregister, 159-175 *)

Inductive pc :=
| Out                        (** not registered, no call in progress *)
| Rdy                         (** registered, no call in progress *)
| W1 (k : kind)              (** 82/112: fas writer *)
| W2 (k : kind)              (** 88/124: load br->readers *)
| W3 (k : kind) (c : nat)    (** 89/125: load c->n_readers *)
| W4 (k : kind) (c : nat)    (** 88/124: load c->next *)
| WF (r : bool)              (** 127: trylock gives up: writer := false *)
| WCrit (r : bool)
| G1 | G2 | G3 | G4          (** 150, 151-152, 153, 155 *)
| U1 | U2 | U3               (** 165-166, 168-171, 173 *)
(* read_lock and read_trylock; [f]: None, or the trylock's (steps, factor); [d]: sections already open *)
| R1 (f : option (N * N)) (d : nat)  (** 187/231: load writer *)
| R2 (f : option (N * N)) (d : nat)  (** 191/239: n_readers := 1 *)
| R3 (f : option (N * N)) (d : nat)  (** 208/256: load writer *)
| R4 (f : option (N * N)) (d : nat)  (** 211/259: n_readers := 0 *)
| RCrit (d : nat).                   (** [S d] read sections open *)

Record state := mk {
  writer : bool; head : option nat; nrd : nat -> N; next : nat -> option nat; prev : nat -> option nat; thr : nat -> pc }.

(** 63-71; the reader objects start with arbitrary contents. *)
Definition init (g : nat -> N) (nx pv : nat -> option nat) : state := mk false None g nx pv (fun _ => Out).

Inductive act := AWLock | AWTry (factor : N) | AWUnlock | AReg | AUnreg | ARLock | ARTry (factor : N) | ARUnlock | ATick.

Definition go (s : state) (t : nat) (p : pc) : state := mk (writer s) (head s) (nrd s) (next s) (prev s) (upd (thr s) t p).
Definition gow (s : state) (t : nat) (b : bool) (p : pc) : state := mk b (head s) (nrd s) (next s) (prev s) (upd (thr s) t p).
Definition gon (s : state) (t : nat) (k : N) (p : pc) : state := mk (writer s) (head s) (upd (nrd s) t k) (next s) (prev s) (upd (thr s) t p).

(** unsigned int arithmetic *)
Definition uinc (x : N) : N := ((x + 1) mod 2 ^ 32)%N.
Definition udec (x : N) : N := ((x + (2 ^ 32 - 1)) mod 2 ^ 32)%N.
(** [S d] sections are open and the counter cannot count another one. *)
Definition umax : N := (2 ^ 32 - 1)%N.
Definition deep (d : nat) : bool := N.leb umax (N.of_nat (S d)).

Definition rest (r : bool) : pc := if r then Rdy else Out.

(** The scan of the reader list has reached cursor [c]. *)
Definition scan (k : kind) (t : nat) (c : option nat) : pc * list rwev :=
  match c with
  | Some c => (W3 k c, [])
  | None => (match k with KWr r | KTr r _ _ => WCrit r | KReg => G1 | KUn => U1 end, [WAcq t])
  end.

Definition step (n : nat) (s : state) (l : nat * act) : option (state * list rwev) :=
  let (t, a) := l in
  if negb (Nat.ltb t n) then None else
  match thr s t, a with
  | Out, AWLock => Some (go s t (W1 (KWr false)), [])
  | Rdy, AWLock => Some (go s t (W1 (KWr true)), [])
  | Out, AWTry f => Some (go s t (W1 (KTr false 0 f)), [])
  | Rdy, AWTry f => Some (go s t (W1 (KTr true 0 f)), [])
  | Out, AReg => Some (mk (writer s) (head s) (upd (nrd s) t 0%N) (next s) (upd (prev s) t None) (upd (thr s) t (W1 KReg)), [])
  | Rdy, AUnreg => Some (go s t (W1 KUn), [])
  | W1 k, ATick =>
      if writer s then
        match k with
        | KTr r st f => if N.leb f (st + 1) then Some (gow s t true (rest r), [WTryFail t]) else Some (gow s t true (W1 (KTr r (st + 1) f)), [])
        | _ => Some (gow s t true (W1 k), [])
        end
      else Some (gow s t true (W2 k), [])
  | W2 k, ATick => let (p, ev) := scan k t (head s) in Some (go s t p, ev)
  | W3 k c, ATick =>
      if N.eqb (nrd s c) 0 then Some (go s t (W4 k c), [])
      else match k with
           | KTr r st f => if N.leb f (st + 1) then Some (go s t (WF r), []) else Some (go s t (W3 (KTr r (st + 1) f) c), [])
           | _ => Some (go s t (W3 k c), [])
           end
  | W4 k c, ATick => let (p, ev) := scan k t (next s c) in Some (go s t p, ev)
  | WF r, ATick => Some (gow s t false (rest r), [WTryFail t])
  | WCrit r, AWUnlock => Some (gow s t false (rest r), [WRel t])
  | G1, ATick => Some (mk (writer s) (head s) (nrd s) (upd (next s) t (head s)) (prev s) (upd (thr s) t G2), [])
  | G2, ATick =>
      Some (mk (writer s) (head s) (nrd s) (next s)
              (match next s t with Some x => upd (prev s) x (Some t) | None => prev s end) (upd (thr s) t G3), [])
  | G3, ATick => Some (mk (writer s) (Some t) (nrd s) (next s) (prev s) (upd (thr s) t G4), [])
  | G4, ATick => Some (gow s t false Rdy, [WRel t])
  | U1, ATick =>
      Some (mk (writer s) (head s) (nrd s) (next s)
              (match next s t with Some x => upd (prev s) x (prev s t) | None => prev s end) (upd (thr s) t U2), [])
  | U2, ATick =>
      match prev s t with
      | Some x => Some (mk (writer s) (head s) (nrd s) (upd (next s) x (next s t)) (prev s) (upd (thr s) t U3), [])
      | None => Some (mk (writer s) (next s t) (nrd s) (next s) (prev s) (upd (thr s) t U3), [])
      end
  | U3, ATick => Some (gow s t false Out, [WRel t])
  (* read_lock 177-216, read_trylock 218-267: 181-184/225-228 nested entry *)
  | Rdy, ARLock => if N.eqb (nrd s t) 0 then Some (go s t (R1 None 0), []) else Some (gon s t (uinc (nrd s t)) (RCrit 0), [RAcq t])
  | RCrit d, ARLock =>
      if deep d then None (* nesting of 2^32 sections: outside the protocol *)
      else if N.eqb (nrd s t) 0 then Some (go s t (R1 None (S d)), []) else Some (gon s t (uinc (nrd s t)) (RCrit (S d)), [RAcq t])
  | Rdy, ARTry f => if N.eqb (nrd s t) 0 then Some (go s t (R1 (Some (0%N, f)) 0), []) else Some (gon s t (uinc (nrd s t)) (RCrit 0), [RAcq t])
  | RCrit d, ARTry f =>
      if deep d then None
      else if N.eqb (nrd s t) 0 then Some (go s t (R1 (Some (0%N, f)) (S d)), []) else Some (gon s t (uinc (nrd s t)) (RCrit (S d)), [RAcq t])
  | R1 f d, ATick =>
      if writer s then
        match f with
        | Some (st, fa) => if N.leb fa (st + 1) then Some (go s t (match d with O => Rdy | S d => RCrit d end), [RTryFail t])
                           else Some (go s t (R1 (Some ((st + 1)%N, fa)) d), [])
        | None => Some (go s t (R1 None d), [])
        end
      else Some (go s t (R2 f d), [])
  | R2 f d, ATick => Some (gon s t 1 (R3 f d), [])
  | R3 f d, ATick => if writer s then Some (go s t (R4 f d), []) else Some (go s t (RCrit d), [RAcq t])
  | R4 f d, ATick =>
      match f with
      | Some (st, fa) => if N.leb fa (st + 1) then Some (gon s t 0 (match d with O => Rdy | S d => RCrit d end), [RTryFail t])
                         else Some (gon s t 0 (R1 (Some ((st + 1)%N, fa)) d), [])
      | None => Some (gon s t 0 (R1 None d), [])
      end
  (* read_unlock 269-275 *)
  | RCrit d, ARUnlock =>
      Some (gon s t (udec (nrd s t)) (match d with O => Rdy | S d => RCrit d end), [RRel t])
  | _, _ => None
  end.

(** The thread has registered its reader object and not unregistered it since. *)
Definition registered (s : state) (t : nat) : bool :=
  match thr s t with
  | Rdy | R1 _ _ | R2 _ _ | R3 _ _ | R4 _ _ | RCrit _ | U1 | U2 | G4 => true
  | W1 k | W2 k | W3 k _ | W4 k _ => match k with KWr r | KTr r _ _ => r | KReg => false | KUn => true end
  | WF r | WCrit r => r
  | _ => false
  end.
