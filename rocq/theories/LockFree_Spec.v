(** Progress in terms of steps: how many steps the operations of one thread take, counted against its calls and
    against the operations of all threads that change the structure.

    [steps t ls <= A * calls t log + B * effects log] for all runs is lock-freedom: whatever the schedule, a thread
    that keeps making steps either finishes its calls or other operations keep taking effect.
    [steps t ls <= A * calls t log] is wait-freedom. *)
From Coq Require Import Arith List Bool.
From Verif Require Import Lin.
Import ListNotations.

Definition count {A} (p : A -> bool) (l : list A) : nat := length (filter p l).
(** calls of thread [t] *)
Definition calls {O R} (t : nat) (log : list (lev O R)) : nat :=
  count (fun e => match e with Call u _ => Nat.eqb u t | _ => false end) log.
(** operations that took effect with a result in [chg] *)
Definition effects {O R} (chg : R -> bool) (log : list (lev O R)) : nat :=
  count (fun e => match e with Lin _ r => chg r | _ => false end) log.
(** steps of thread [t] in a schedule of (thread, action) pairs *)
Definition steps {A} (t : nat) (ls : list (nat * A)) : nat := count (fun l => Nat.eqb (fst l) t) ls.
(** ... that satisfy [p] *)
Definition steps_of {A} (p : A -> bool) (t : nat) (ls : list (nat * A)) : nat := count (fun l => Nat.eqb (fst l) t && p (snd l)) ls.
(** all calls that the schedule makes on behalf of [t] satisfy [p] *)
Definition only {A} (p : A -> Prop) (t : nat) (ls : list (nat * A)) : Prop := Forall (fun l => fst l = t -> p (snd l)) ls.
(** steps of a run that satisfy [p] in the state in which they are made *)
Fixpoint work {S L E} (step : S -> L -> option (S * list E)) (p : S -> L -> bool) (s : S) (ls : list L) : nat :=
  match ls with
  | [] => 0
  | l :: ls' => match step s l with Some (s', _) => (if p s l then 1 else 0) + work step p s' ls' | None => 0 end
  end.
