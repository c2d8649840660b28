(** Model of src/ck_barrier_combining.c.  Groups are numbered in the order in
    which they are linked: 0 is the root given to ck_barrier_combining_init, the
    i-th ck_barrier_combining_group_init makes group i.  The spinlock around the
    linking is left out: the calls are taken one after the other. *)
From Coq Require Import Arith NArith List Bool.
From Verif Require Import Lib BarSpec Helpers_Model.
Import ListNotations.

(** include/ck_barrier.h 50-58: the fields that describe the tree *)
Record heap := mkh { kk : nat -> N; par : nat -> option nat; lft : nat -> option nat; rgt : nat -> option nat }.

(** 143-155 *)
Definition heap0 : heap := mkh (fun _ => 0%N) (fun _ => None) (fun _ => None) (fun _ => None).

(** 111-136: level-order search for a free child slot; [false] is left.  The queue
    is the list of nodes linked through [next].  [None]: out of fuel or an empty
    queue (the C code would leave without linking). *)
Fixpoint find (fuel : nat) (h : heap) (q : list nat) : option (nat * bool) :=
  match fuel, q with
  | S f, node :: q' =>
      match lft h node, rgt h node with
      | None, _ => Some (node, false)
      | _, None => Some (node, true)
      | Some l, Some r => find f h (q' ++ [l; r])
      end
  | _, _ => None
  end.

(** 50-65 and 92-140 for the [i]-th group *)
Definition group_init (h : heap) (i : nat) (nthr : N) : option heap :=
  let h1 := mkh (upd (kk h) i nthr) (par h) (upd (lft h) i None) (upd (rgt h) i None) in
  match find (S i) h1 [0] with
  | None => None
  | Some (p, side) =>
      Some (mkh (upd (kk h1) p (w32 (kk h1 p + 1))) (upd (par h1) i (Some p))
                (if side then lft h1 else upd (lft h1) p (Some i)) (if side then upd (rgt h1) p (Some i) else rgt h1))
  end.

(** A sequence of group_init calls; [i] groups exist already. *)
Fixpoint inits (h : heap) (i : nat) (l : list N) : option heap :=
  match l with
  | [] => Some h
  | a :: r => match group_init h i a with Some h' => inits h' (S i) r | None => None end
  end.
Definition build (l : list N) : option heap := inits heap0 1 l.

(** Where a participant is; the list is the stack of ck_barrier_combining_aux
    frames waiting below the current one, innermost caller first. *)
Inductive pc :=
| Out
| F (g : nat) (st : list nat)            (** 166: about to faa the group's count *)
| Sp (g : nat) (st : list nat)           (** 189: spinning on the group's sense *)
| Z (g : nat) (st : list nat)            (** 184: count := 0 *)
| Ld (g : nat) (st : list nat)           (** 186: load of tnode->sense *)
| Fl (g : nat) (v : bool) (st : list nat). (** 186: store of its complement *)

(** senses are all bits set or all clear *)
Record state := mk { count : nat -> N; sense : nat -> bool; lsn : nat -> bool; thr : nat -> pc }.
(** 97-98, 148-149 and CK_BARRIER_COMBINING_STATE_INITIALIZER (~0) *)
Definition init : state := mk (fun _ => 0%N) (fun _ => false) (fun _ => true) (fun _ => Out).

Section M.
Variable h : heap.
Variable n : nat.             (* participants 0..n-1 *)
Variable grp : nat -> nat.    (* the group each of them passes *)

Definition go (s : state) (t : nat) (p : pc) : state := mk (count s) (sense s) (lsn s) (upd (thr s) t p).

(** Return from a frame: into the caller's frame, or from the barrier (197-208),
    flipping the participant's sense. *)
Definition ret (s : state) (t : nat) (st : list nat) : state * list bev :=
  match st with
  | c :: st' => (go s t (Z c st'), [])
  | [] => (mk (count s) (sense s) (upd (lsn s) t (negb (lsn s t))) (upd (thr s) t Out), [Leave t])
  end.

Inductive act := AEnter | ATick.

(** 157-208 *)
Definition step (s : state) (l : nat * act) : option (state * list bev) :=
  let (t, a) := l in
  if negb (Nat.ltb t n) then None else
  match thr s t, a with
  | Out, AEnter => Some (go s t (F (grp t) []), [Enter t])
  | F g st, ATick =>
      let s1 := mk (upd (count s) g (w32 (count s g + 1))) (sense s) (lsn s) (thr s) in
      if N.eqb (count s g) (w32 (kk h g + (2 ^ 32 - 1)))
      then match par h g with
           | Some p => Some (go s1 t (F p (g :: st)), [])
           | None => Some (go s1 t (Z g st), [])
           end
      else Some (go s1 t (Sp g st), [])
  | Sp g st, ATick => if Bool.eqb (lsn s t) (sense s g) then Some (ret s t st) else Some (s, [])
  | Z g st, ATick => Some (go (mk (upd (count s) g 0%N) (sense s) (lsn s) (thr s)) t (Ld g st), [])
  | Ld g st, ATick => Some (go s t (Fl g (sense s g) st), [])
  | Fl g v st, ATick => Some (ret (mk (count s) (upd (sense s) g (negb v)) (lsn s) (thr s)) t st)
  | _, _ => None
  end.
End M.
