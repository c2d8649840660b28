(** What a sequence counter promises when stores are buffered (C75): the specification, independent of
    the counter and of the machine.  The return of write_end and the arrival of the update are separate
    events. *)
From Coq Require Import NArith ZArith Arith List Bool.
From Verif Require Import Lib.
Import ListNotations.

Inductive sev :=
| WSet (t i : nat) (v : Z)     (* the writer changes datum [i] *)
| WGet (t i : nat) (v : Z)     (* the writer reads datum [i] *)
| WEnd (t : nat)               (* write_end returns: an update is complete *)
| Bgn (t : nat)                (* others begin to see the next update of [t] *)
| Pub (t : nat)                (* the oldest complete update, by [t], is visible to others *)
| RBeg (t : nat)               (* read_begin returns *)
| RGet (t i : nat) (v : Z)     (* the reader reads datum [i] *)
| ROk (t : nat)                (* read_retry returns false: the reader keeps what it read *)
| RNo (t : nat).               (* read_retry returns true *)

(** [work]: the data with all changes; [way]: complete updates that are not visible to others, with
    their author; [pub]: the data as others see it; [rd]: the open read sections, with what was read and
    the number of updates by others that others began to see. *)
Record sq := mkS { work : nat -> Z; way : list (nat * (nat -> Z)); pub : nat -> Z; rd : nat -> option (list (nat * Z) * N) }.

Definition set (D : nat -> Z) (i : nat) (v : Z) : nat -> Z := fun j => if Nat.eqb i j then v else D j.
(** the newest complete update that [t] knows of *)
Definition sees (a : sq) (t : nat) : nat -> Z :=
  fold_left (fun D e => if Nat.eqb (fst e) t then snd e else D) (way a) (pub a).

Definition sq_step (a : sq) (e : sev) : option sq :=
  match e with
  | WSet t i v => Some (mkS (set (work a) i v) (way a) (pub a) (rd a))
  | WGet t i v => if (v =? work a i)%Z then Some a else None
  | WEnd t => Some (mkS (work a) (way a ++ [(t, work a)]) (pub a) (rd a))
  | Bgn t =>
      Some (mkS (work a) (way a) (pub a)
              (fun u => match rd a u with Some (r, n) => Some (r, if Nat.eqb u t then n else (n + 1)%N) | None => None end))
  | Pub t => match way a with (u, D) :: r => if Nat.eqb t u then Some (mkS (work a) r D (rd a)) else None | [] => None end
  | RBeg t => match rd a t with None => Some (mkS (work a) (way a) (pub a) (upd (rd a) t (Some ([], 0%N)))) | Some _ => None end
  | RGet t i v =>
      match rd a t with Some (r, n) => Some (mkS (work a) (way a) (pub a) (upd (rd a) t (Some ((i, v) :: r, n)))) | None => None end
  (* either no update has started and all values are of one version, or very many have *)
  | ROk t =>
      match rd a t with
      | Some (r, n) =>
          if (N.eqb n 0 && forallb (fun p => snd p =? sees a t (fst p))%Z r) || N.leb (2 ^ 31) n
          then Some (mkS (work a) (way a) (pub a) (upd (rd a) t None)) else None
      | None => None
      end
  | RNo t =>
      match rd a t with
      | Some (r, n) => if N.eqb n 0 then None else Some (mkS (work a) (way a) (pub a) (upd (rd a) t None))
      | None => None
      end
  end.
Definition sq_legal (D : nat -> Z) (log : list sev) : Prop :=
  exists a, accepts sq_step (mkS D [] D (fun _ => None)) log = Some a.
