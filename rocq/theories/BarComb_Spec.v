(** What makes a tree of groups and an assignment of participants to groups proper,
    said without the linking code. *)
From Coq Require Import Arith NArith List Bool.
From Verif Require Import Lib Helpers_Model BarComb_Model.
Import ListNotations.

Definition child_of (h : heap) (g c : nat) : bool := match par h c with Some p => Nat.eqb p g | None => false end.
(** participants and child groups expected at [g] *)
Definition expected (h : heap) (n m : nat) (grp : nat -> nat) (g : nat) : nat :=
  cnt (fun t => Nat.eqb (grp t) g) n + cnt (fun c => child_of h g c) m.

(** [m] groups hang off group 0; each one's [k] is the number of participants and
    child groups it will see, and at least one. *)
Record proper (h : heap) (n m : nat) (grp : nat -> nat) : Prop := mkp {
  p_root : par h 0 = None;
  p_par : forall g, 0 < g -> g < m -> exists p, p < g /\ par h g = Some p;
  p_grp : forall t, t < n -> grp t < m;
  p_k : forall g, g < m -> kk h g = w32 (N.of_nat (expected h n m grp g));
  p_one : forall g, g < m -> 1 <= expected h n m grp g;
  p_fit : forall g, g < m -> (N.of_nat (expected h n m grp g) <= 2 ^ 32)%N }.

(** Participants 0..n-1 use the groups made by group_init with thread counts [l]
    as announced: none uses the root, each group gets as many as it was told, and
    no group is empty. *)
Record announced (l : list N) (n : nat) (grp : nat -> nat) : Prop := mka {
  a_grp : forall t, t < n -> 1 <= grp t <= length l;
  a_cnt : forall i, i < length l -> N.of_nat (cnt (fun t => Nat.eqb (grp t) (S i)) n) = nth i l 0%N;
  a_one : forall i, i < length l -> (1 <= nth i l 0 < 2 ^ 32)%N }.
