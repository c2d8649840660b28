(** Specification of the stacks: a sequential LIFO list, the conditions under
    which a try operation may give up, and the no-ABA hypothesis of the
    generation counter. *)
From Coq Require Import NArith Arith List Bool.
From Verif Require Import Lib Lin Stack_Model.
Import ListNotations.

(** sequential LIFO stack.  The try variants may give up here; [stk_step] says when. *)
Definition lifo (q : list nat) (o : sop) (r : sres) : option (list nat) :=
  match o, r with
  | Push e, RU => Some (e :: q)
  | TryPush e, RB true => Some (e :: q)
  | TryPush e, RB false => Some q
  | Pop, RV None => match q with [] => Some q | _ => None end
  | TryPop, RV None => Some q
  | (Pop | TryPop), RV (Some x) => match q with y :: q' => if Nat.eqb x y then Some q' else None | [] => None end
  | Batch, RL l => if list_eq_dec Nat.eq_dec l q then Some [] else None
  | _, _ => None
  end.

(** an operation that changed the stack *)
Definition changes (r : sres) : bool :=
  match r with RU | RB true | RV (Some _) | RL (_ :: _) => true | _ => false end.

(** LIFO linearization, and a try operation gives up only if another operation
    changed the stack during the call (or, for trypop, the stack is empty) *)
Record sabs := { a_lin : list nat * (nat -> phase sop sres); a_dirty : nat -> bool }.
Definition a0 : sabs := {| a_lin := ([], idle); a_dirty := fun _ => false |}.
Definition stk_step (a : sabs) (e : sev) : option sabs :=
  match lstep lifo sres_dec (a_lin a) e with
  | None => None
  | Some l =>
      match e with
      | Call t _ => Some {| a_lin := l; a_dirty := upd (a_dirty a) t false |}
      | Ret _ _ => Some {| a_lin := l; a_dirty := a_dirty a |}
      | Lin t r =>
          let ok := match r with
                    | RB false => a_dirty a t
                    | RV None => match fst (a_lin a) with [] => true | _ => a_dirty a t end
                    | _ => true
                    end in
          if ok then Some {| a_lin := l; a_dirty := if changes r then fun _ => true else a_dirty a |} else None
      end
  end.

(** ** The no-ABA hypothesis: fewer than 2^64 pops take effect within one call *)
(** pops that took effect since thread [t]'s current call began *)
Definition span1 (t : nat) (o : option N) (e : sev) : option N :=
  match e with
  | Call u _ => if Nat.eqb u t then Some 0%N else o
  | Ret u _ => if Nat.eqb u t then None else o
  | Lin _ (RV (Some _)) => option_map N.succ o
  | _ => o
  end.
Definition span (t : nat) (log : list sev) : option N := fold_left (span1 t) log None.
Definition short_calls (log : list sev) : Prop :=
  forall t pre suf n, log = pre ++ suf -> span t pre = Some n -> (n < 2 ^ 64)%N.

(** how often an operation puts entry [e] in, a result hands it out *)
Definition puts (e : nat) (o : sop) : nat := match o with Push x | TryPush x => if Nat.eq_dec x e then 1 else 0 | _ => 0 end.
Definition gets (e : nat) (r : sres) : nat :=
  match r with RV (Some x) => if Nat.eq_dec x e then 1 else 0 | RL l => count_occ Nat.eq_dec l e | _ => 0 end.

(** thread 1 has read generation 0, top 0 and its successor 1; thread 0 takes the
    whole stack and pushes 0 again; thread 1's CAS2 succeeds and puts 1 back *)
Definition cB : cfg := {| md := MP; nt := 2; bp := true |}.
Definition push_by (t e : nat) : list (nat * sact) := [(t, ACall (Push e)); (t, ATick); (t, ATick); (t, ATick)].
Definition batch_trace : list (nat * sact) :=
  push_by 0 1 ++ push_by 0 0 ++ [(1, ACall Pop); (1, ATick); (1, ATick); (1, ATick)] ++
  [(0, ACall Batch); (0, ATick)] ++ push_by 0 0 ++ [(1, ATick)] ++ [(0, ACall Pop); (0, ATick); (0, ATick); (0, ATick); (0, ATick)].
