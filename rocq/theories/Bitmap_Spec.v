(** Client histories over a family of bitmaps (addressed by [nat]) and the
    abstract sets they should behave like. *)
From Coq Require Import NArith List Bool.
From Verif Require Import Lib Bitmap_Model Bitmap_Proof.
Import ListNotations.
Local Open Scope N_scope.

Inductive op :=
| OInit (x : nat) (n : N) (set : bool)
| OSet (x : nat) (i : N) | OReset (x : nat) (i : N) | OBts (x : nat) (i : N) | OTest (x : nat) (i : N)
| OUnion (d s : nat) | OInter (d s : nat) | ONeg (d s : nat) | OClear (d : nat)
| OEmpty (x : nat) (l : N) | OFull (x : nat) (l : N) | OCount (x : nat) (l : N)
| OCountI (x y : nat) (l : N) | OIter (x : nat).

Inductive res := RUnit | RBool (b : bool) | RNum (n : N) | RList (l : list N).

(** running the model *)
Definition store := nat -> bitmap.
Definition put (st : store) (x : nat) (b : option bitmap) : option (store * res) :=
  match b with Some b => Some (upd st x b, RUnit) | None => None end.
Definition ans {A} (st : store) (f : A -> res) (r : option A) : option (store * res) :=
  match r with Some a => Some (st, f a) | None => None end.
Definition exec (st : store) (o : op) : option (store * res) :=
  match o with
  | OInit x n set => put st x (ck_bitmap_init n set)
  | OSet x i => put st x (ck_bitmap_set (st x) i)
  | OReset x i => put st x (ck_bitmap_reset (st x) i)
  | OBts x i => match ck_bitmap_bts (st x) i with Some (b, r) => Some (upd st x b, RBool r) | None => None end
  | OTest x i => ans st RBool (ck_bitmap_test (st x) i)
  | OUnion d s => put st d (ck_bitmap_union (st d) (st s))
  | OInter d s => put st d (ck_bitmap_intersection (st d) (st s))
  | ONeg d s => put st d (ck_bitmap_intersection_negate (st d) (st s))
  | OClear d => put st d (ck_bitmap_clear (st d))
  | OEmpty x l => ans st RBool (ck_bitmap_empty (st x) l)
  | OFull x l => ans st RBool (ck_bitmap_full (st x) l)
  | OCount x l => ans st RNum (ck_bitmap_count (st x) l)
  | OCountI x y l => ans st RNum (ck_bitmap_count_intersect (st x) (st y) l)
  | OIter x => ans st RList (ck_bitmap_elements (S (N.to_nat (n_bits (st x)))) (st x))
  end.
Fixpoint execs (st : store) (os : list op) : option (list res) :=
  match os with
  | [] => Some []
  | o :: os => match exec st o with
               | Some (st, r) => match execs st os with Some rs => Some (r :: rs) | None => None end
               | None => None
               end
  end.
(** every bitmap starts out with no bits at all *)
Definition init0 : store := fun _ => {| n_bits := 0; map := [] |}.

(** the abstract machine: a length and a set of numbers per name *)
Definition sets := nat -> N * (N -> bool).
Definition below (n : N) (f : N -> bool) : list N := filter f (upto n).
Definition sexec (st : sets) (o : op) : sets * res :=
  match o with
  | OInit x n set => (upd st x (n, fun i => set && (i <? n)), RUnit)
  | OSet x i => (upd st x (fst (st x), fun j => (j =? i) || snd (st x) j), RUnit)
  | OReset x i => (upd st x (fst (st x), fun j => negb (j =? i) && snd (st x) j), RUnit)
  | OBts x i => (upd st x (fst (st x), fun j => (j =? i) || snd (st x) j), RBool (snd (st x) i))
  | OTest x i => (st, RBool (snd (st x) i))
  | OUnion d s => (upd st d (fst (st d), fun j => snd (st d) j || snd (st s) j), RUnit)
  | OInter d s => (upd st d (fst (st d), fun j => snd (st d) j && snd (st s) j), RUnit)
  | ONeg d s => (upd st d (fst (st d), fun j => snd (st d) j && negb (snd (st s) j)), RUnit)
  | OClear d => (upd st d (fst (st d), fun _ => false), RUnit)
  | OEmpty x l => (st, RBool (match below (N.min l (fst (st x))) (snd (st x)) with [] => true | _ => false end))
  | OFull x l => (st, RBool (forallb (snd (st x)) (upto (N.min l (fst (st x))))))
  | OCount x l => (st, RNum (N.of_nat (length (below (N.min l (fst (st x))) (snd (st x))))))
  | OCountI x y l => (st, RNum (N.of_nat (length (filter (snd (st y)) (below (N.min l (N.min (fst (st x)) (fst (st y)))) (snd (st x)))))))
  | OIter x => (st, RList (below (fst (st x)) (snd (st x))))
  end.
Fixpoint sexecs (st : sets) (os : list op) : list res :=
  match os with [] => [] | o :: os => snd (sexec st o) :: sexecs (fst (sexec st o)) os end.
Definition sinit0 : sets := fun _ => (0, fun _ => false).

(** the client's obligations: in-range indices, 32-bit lengths *)
Definition legal (st : sets) (o : op) : Prop :=
  match o with
  | OInit x n _ => n < 2 ^ 32
  | OSet x i | OReset x i | OBts x i | OTest x i => i < fst (st x)
  | _ => True
  end.
(** ... and no union from a longer source *)
Definition no_long_union (st : sets) (o : op) : Prop :=
  match o with OUnion d s => fst (st s) <= fst (st d) | _ => True end.
Fixpoint always (P : sets -> op -> Prop) (st : sets) (os : list op) : Prop :=
  match os with [] => True | o :: os => P st o /\ always P (fst (sexec st o)) os end.
