(** What a single-producer single-consumer queue with recycled entries promises when stores are
    buffered (C90): independent of the list and of the machine.  The return of an operation and the
    moment its effect reaches the other side are separate events. *)
From Coq Require Import Arith List Bool.
From Verif Require Import Lib.
Import ListNotations.

Inductive fev :=
| Enq (e v : nat)       (* enqueue issues its last store: entry [e] with value [v] is sent *)
| Sent                  (* the oldest entry under way reaches the consumer *)
| Deq (v : nat)         (* dequeue returns true and the value [v] *)
| NoDeq                 (* dequeue returns false *)
| Freed                 (* the oldest release of an entry reaches the producer *)
| Rec (e : nat)         (* recycle returns entry [e] *)
| NoRec                 (* recycle returns NULL *)
| EmpC (b : bool)       (* isempty of the consumer *)
| Look                  (* isempty of the producer looks at the queue ... *)
| EmpP (b : bool).      (* ... and returns *)

(** entries under way, entries that have arrived (oldest first); the entry emptied last; entries
    emptied before it whose release is under way, and those whose release has arrived; what the
    producer's isempty saw *)
Record fq := { way : list (nat * nat); here : list (nat * nat); stub : nat; out : list nat; used : list nat; seen : bool }.
Definition fq0 (e : nat) : fq := {| way := []; here := []; stub := e; out := []; used := []; seen := false |}.

Definition nil {A} (l : list A) : bool := match l with [] => true | _ => false end.
Definition fq_step (a : fq) (x : fev) : option fq :=
  match x with
  | Enq e v => Some {| way := way a ++ [(e, v)]; here := here a; stub := stub a; out := out a; used := used a; seen := seen a |}
  | Sent => match way a with
            | p :: w => Some {| way := w; here := here a ++ [p]; stub := stub a; out := out a; used := used a; seen := seen a |}
            | [] => None
            end
  | Deq v => match here a with
             | (e, w) :: h => if Nat.eqb v w
                              then Some {| way := way a; here := h; stub := e; out := out a ++ [stub a]; used := used a; seen := seen a |}
                              else None
             | [] => None
             end
  | NoDeq => if nil (here a) then Some a else None
  | Freed => match out a with
             | x :: o => Some {| way := way a; here := here a; stub := stub a; out := o; used := used a ++ [x]; seen := seen a |}
             | [] => None
             end
  | Rec e => match used a with
             | x :: u => if Nat.eqb e x
                         then Some {| way := way a; here := here a; stub := stub a; out := out a; used := u; seen := seen a |}
                         else None
             | [] => None
             end
  | NoRec => if nil (used a) then Some a else None
  | EmpC b => if Bool.eqb b (nil (here a)) then Some a else None
  | Look => Some {| way := way a; here := here a; stub := stub a; out := out a; used := used a;
                    seen := nil (way a) && nil (here a) && nil (out a) |}
  | EmpP b => if Bool.eqb b (seen a) then Some a else None
  end.
Definition fq_legal (e : nat) (log : list fev) : Prop := exists a, accepts fq_step (fq0 e) log = Some a.

(** read off the bare log *)
Fixpoint enqs (log : list fev) : list nat :=
  match log with [] => [] | Enq _ v :: l => v :: enqs l | _ :: l => enqs l end.
Fixpoint deqs (log : list fev) : list nat :=
  match log with [] => [] | Deq v :: l => v :: deqs l | _ :: l => deqs l end.
Fixpoint ents (log : list fev) : list nat :=
  match log with [] => [] | Enq e _ :: l => e :: ents l | _ :: l => ents l end.
Fixpoint recs (log : list fev) : list nat :=
  match log with [] => [] | Rec e :: l => e :: recs l | _ :: l => recs l end.
