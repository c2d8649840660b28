(** What counts for the progress of ck_ring. *)
From Coq Require Import NArith Arith List Bool.
From Verif Require Import Lib Lin LockFree_Spec RingSp_Model RingMp_Model RingMix_Model.
Import ListNotations.

(** the thread of a label *)
Definition who (l : mlab) : nat := match l with MCall t _ | MStep t => t end.
(** the calls and returns in a log *)
Definition lin_of (log : list mev) : list (lev mop res) := flat_map (fun e => match e with ML x => [x] | _ => [] end) log.
(** results of dequeues that removed an entry *)
Definition took (r : res) : bool := match r with RV (Some _) => true | _ => false end.
(** slots that producers took *)
Definition slots (log : list mev) : nat := count (fun e => match e with Resv _ => true | _ => false end) log.
(** thread [t] makes only calls in [p] *)
Definition makes (p : mop -> bool) (t : nat) (ls : list mlab) : Prop := Forall (fun l => match l with MCall u o => u = t -> p o = true | _ => True end) ls.
(** the steps of thread [t] *)
Definition mine (t : nat) (s : xst) (l : mlab) : bool := Nat.eqb (who l) t.
(** 303, 380: the loops that wait for the producers before *)
Definition waiting (p : xpc) : bool := match p with XM (EWait _ _ _) | XM (KWait _ _) => true | _ => false end.
(** the steps of thread [t] that do not wait in these loops *)
Definition unwaited (t : nat) (s : xst) (l : mlab) : bool := Nat.eqb (who l) t && negb (waiting (xthr s t)).
