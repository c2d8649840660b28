(** What a single-producer single-consumer bounded queue promises when stores are buffered (C74): the
    specification, independent of the ring and of the machine.  The return of an operation and the
    moment its effect reaches the other side are separate events. *)
From Coq Require Import ZArith Arith List Bool.
From Verif Require Import Lib.
Import ListNotations.

Inductive qev :=
| Look                  (* an enqueue observes how much room there is *)
| Enq (x : list Z)      (* it returns true: entry [x] is sent *)
| Full                  (* it returns false *)
| Size (n : nat)        (* the number of entries it reports *)
| Sent                  (* the oldest entry under way reaches the consumer *)
| Deq (x : list Z)      (* a dequeue returns the entry [x] *)
| Empty                 (* a dequeue returns false *)
| Freed.                (* the room of the oldest dequeued entry is known to the producer *)

(** entries under way, oldest first; entries that have arrived; dequeued entries whose room has not come
    back; room taken at the last observation. *)
Record spq := { way : list (list Z); here : list (list Z); out : nat; seen : nat }.
Definition used (a : spq) : nat := length (way a) + length (here a) + out a.

(** [cap] entries fit. *)
Definition q_step (cap : nat) (a : spq) (e : qev) : option spq :=
  match e with
  | Look => Some {| way := way a; here := here a; out := out a; seen := used a |}
  | Enq x => if Nat.ltb (used a) cap then Some {| way := way a ++ [x]; here := here a; out := out a; seen := seen a |} else None
  | Full => if Nat.eqb (seen a) cap then Some a else None
  | Size n => if Nat.eqb n (seen a) then Some a else None
  | Sent => match way a with x :: r => Some {| way := r; here := here a ++ [x]; out := out a; seen := seen a |} | [] => None end
  | Deq x =>
      match here a with
      | y :: r => if list_eq_dec Z.eq_dec x y then Some {| way := way a; here := r; out := S (out a); seen := seen a |} else None
      | [] => None
      end
  | Empty => match here a with [] => Some a | _ => None end
  | Freed => match out a with S n => Some {| way := way a; here := here a; out := n; seen := seen a |} | O => None end
  end.
Definition q_legal (cap : nat) (log : list qev) : Prop :=
  exists a, accepts (q_step cap) {| way := []; here := []; out := 0; seen := 0 |} log = Some a.
