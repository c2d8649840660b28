(** Model of src/ck_barrier_tournament.c.  Participants are named by the [vpid]
    that subscribe hands them; exactly [n] subscriptions are made (protocol). *)
From Coq Require Import Arith NArith List Bool.
From Verif Require Import Lib BarSpec Helpers_Model.
Import ListNotations.

(** 40-46 *)
Inductive role := Bye | Champion | Dropout | Loser | Winner.

(** What can go wrong in init. *)
Inductive fault :=
| Uninit (i k : nat)     (** reads rounds[i][k].role before anything was stored there *)
| Oob (i k : nat).       (** indexes [rounds] outside 0..nthr-1 while filling rounds[i][k] *)

Section M.
Variable n : nat.

(** 102-107 *)
Definition size : nat := N.to_nat (ck_internal_log (ck_internal_power_2 (N.of_nat n)) + 1).

(** 73: twok and twokm1 in iteration k *)
Definition twok (k : nat) : N := w32 (2 ^ N.of_nat k).
Definition twokm1 (k : nat) : N := w32 (2 ^ N.of_nat (k - 1)).

(** 76-87: the role stored for (i, k), k >= 1, if any *)
Definition assigned (i k : nat) : option role :=
  let I := N.of_nat i in let NT := N.of_nat n in
  let imod2k := N.land I (w32 (twok k + (2 ^ 32 - 1))) in
  let first :=
    if N.eqb imod2k 0 then
      if N.ltb (w32 (I + twokm1 k)) NT && N.ltb (twok k) NT then Some Winner
      else if N.leb NT (w32 (I + twokm1 k)) then Some Bye else None
    else None in
  if N.eqb imod2k (twokm1 k) then Some Loser
  else if Nat.eqb i 0 && N.leb NT (twok k) then Some Champion
  else first.

(** What the caller's arrays held before init: [None] is indeterminate memory. *)
Variable m0 : nat -> nat -> option role.

(** 74-93 for one (i, k), k >= 1: the role read back and the opponent's index *)
Definition slot (i k : nat) : fault + (role * nat) :=
  match (match assigned i k with Some r => Some r | None => m0 i k end) with
  | None => inl (Uninit i k)
  | Some Loser =>
      let j := w32 (N.of_nat i + (2 ^ 32 - twokm1 k)) in
      if N.ltb j (N.of_nat n) then inr (Loser, N.to_nat j) else inl (Oob i k)
  | Some Winner =>
      let j := w32 (N.of_nat i + twokm1 k) in
      if N.ltb j (N.of_nat n) then inr (Winner, N.to_nat j) else inl (Oob i k)
  | Some Champion =>
      let j := w32 (N.of_nat i + twokm1 k) in
      if N.ltb j (N.of_nat n) then inr (Champion, N.to_nat j) else inl (Oob i k)
  | Some r => inr (r, 0)
  end.

(** 69-95: the double loop; the first fault, if any *)
Fixpoint init_rounds (i k cnt : nat) : option fault :=
  match cnt with
  | O => None
  | S c => match slot i k with inl f => Some f | inr _ => init_rounds i (S k) c end
  end.
Fixpoint init_threads (i cnt : nat) : option fault :=
  match cnt with
  | O => None
  | S c => match init_rounds i 1 (size - 1) with Some f => Some f | None => init_threads (S i) c end
  end.
Definition init_fault : option fault := init_threads 0 n.

(** rounds[i][k] after init: role and opponent; [None] outside the arrays *)
Definition tab (i k : nat) : option (role * nat) :=
  if Nat.eqb k 0 then Some (Dropout, 0)
  else if Nat.ltb k size then match slot i k with inr x => Some x | inl _ => None end
  else None.

Inductive pc :=
| Unsub            (** not subscribed yet *)
| Out
| Ret1             (** 115-116: size is 1 *)
| U (r : nat)      (** 118-154: the arrival switch in round r, up to and including the load of its flag or the loser's store *)
| ChS (r : nat)    (** 130: champion's store *)
| LoW (r : nat)    (** 142: loser's load of its flag *)
| D (r : nat)      (** 158-180: the wakeup switch in round r *)
| Bad.             (** a round outside the arrays *)

(** [flag i k] is rounds[i][k].flag (all bits set or clear) *)
Record state := mk { tid : N; flag : nat -> nat -> bool; sns : nat -> bool; thr : nat -> pc }.
Definition init : state := mk 0 (fun _ _ => false) (fun _ => false) (fun _ => Unsub).

Definition go (s : state) (t : nat) (p : pc) : state := mk (tid s) (flag s) (sns s) (upd (thr s) t p).
Definition setf (s : state) (i k : nat) (v : bool) : state := mk (tid s) (upd (flag s) i (upd (flag s i) k v)) (sns s) (thr s).

Inductive act := ASub | AEnter | ATick.

Definition step (s : state) (l : nat * act) : option (state * list bev) :=
  let (t, a) := l in
  if negb (Nat.ltb t n) then None else
  match thr s t, a with
  | _, ASub =>  (** 49-56: subscribe; the counter names the participant *)
      if N.eqb (N.of_nat t) (tid s)
      then Some (mk (w32 (tid s + 1)) (flag s) (upd (sns s) t true) (upd (thr s) t Out), [])
      else None
  | Out, AEnter => Some (go s t (if Nat.eqb size 1 then Ret1 else U 1), [Enter t])
  | Ret1, ATick => Some (go s t Out, [Leave t])
  | U r, ATick =>
      match tab t r with
      | Some (Winner, _) => Some (if Bool.eqb (flag s t r) (sns s t) then go s t (U (S r)) else s, [])
      | Some (Champion, _) => Some (if Bool.eqb (flag s t r) (sns s t) then go s t (ChS r) else s, [])
      | Some (Loser, o) => Some (go (setf s o r (sns s t)) t (LoW r), [])
      | Some (_, _) => Some (go s t (U (S r)), [])
      | None => Some (go s t Bad, [])
      end
  | ChS r, ATick =>
      match tab t r with
      | Some (_, o) => Some (go (setf s o r (sns s t)) t (D (r - 1)), [])
      | None => Some (go s t Bad, [])
      end
  | LoW r, ATick => Some (if Bool.eqb (flag s t r) (sns s t) then go s t (D (r - 1)) else s, [])
  | D r, ATick =>
      match tab t r with
      | Some (Dropout, _) => Some (mk (tid s) (flag s) (upd (sns s) t (negb (sns s t))) (upd (thr s) t Out), [Leave t])
      | Some (Winner, o) => Some (go (setf s o r (sns s t)) t (D (r - 1)), [])
      | Some (_, _) => Some (go s t (if Nat.eqb r 0 then Bad else D (r - 1)), [])
      | None => Some (go s t Bad, [])
      end
  | _, _ => None
  end.
End M.
