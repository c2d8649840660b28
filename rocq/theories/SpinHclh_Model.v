(** Model of include/spinlock/hclh.h (hierarchical CLH queue lock with node
    recycling).  Nodes are natural numbers; [cl t] is the cluster whose local
    queue thread [t] passes to lock (any assignment, any number of clusters).
    One step per access to shared memory. *)
From Coq Require Import Arith List Bool.
From Verif Require Import Lib LockSpec.
Import ListNotations.

Inductive pc :=
| Idle
| L1                  (** hclh.h:81 about to store thread->wait = true *)
| L2                  (** hclh.h:82 about to store thread->splice = false *)
| L3                  (** hclh.h:83 about to load *local_queue *)
| L3b (l : nat)       (** hclh.h:83 about to load l->cluster_id *)
| L3c (v : nat)       (** hclh.h:83 about to store thread->cluster_id = v *)
| L4                  (** hclh.h:85 about to load *local_queue *)
| L4b (l : nat)       (** hclh.h:85 about to store thread->previous = l *)
| L5                  (** hclh.h:91 about to swap the local queue tail *)
| L6 (p : nat)        (** hclh.h:92 about to store thread->previous = p *)
| L7 (p : nat)        (** hclh.h:96 about to load previous->previous *)
| L8a (p : nat)       (** hclh.h:97 about to load previous->wait *)
| L8b (p : nat)       (** hclh.h:98 about to compare previous->cluster_id *)
| L8c (p : nat)       (** hclh.h:99 about to load previous->splice *)
| L9a (p : nat)       (** hclh.h:103 about to compare previous->cluster_id *)
| L9b (p : nat)       (** hclh.h:104 about to load previous->splice *)
| L11                 (** hclh.h:109 about to load the local tail *)
| L12 (lt : nat)      (** hclh.h:110 about to swap the global queue tail *)
| L13 (lt g : nat)    (** hclh.h:112 about to store local_tail->splice = true *)
| L14 (g : nat)       (** hclh.h:115 spinning on previous->wait *)
| Crit
| U1                  (** hclh.h:134 about to load thread->previous *)
| U2 (p : nat).       (** hclh.h:138 about to store wait = false, then take [p] (hclh.h:145) *)

Record state := mk {
  glob : nat;                (** *glob_queue *)
  loc : nat -> nat;          (** *local_queue of every cluster *)
  wait : nat -> bool;        (** node->wait *)
  splice : nat -> bool;      (** node->splice *)
  cid : nat -> nat;          (** node->cluster_id *)
  prev : nat -> option nat;  (** node->previous; [None] is NULL *)
  node : nat -> nat;         (** the caller's node pointer *)
  thr : nat -> pc }.

(** hclh.h:47-61 ck_spinlock_hclh_init, run on the global queue with node 0 and
    on the local queue of cluster [c] with node [2c+1] and cluster_id [c].
    Thread [t] brings node [2t+2]. *)
Definition init : state :=
  mk 0 (fun c => 2 * c + 1) (fun _ => false) (fun _ => false) Nat.div2 (fun _ => None)
     (fun t => 2 * t + 2) (fun _ => Idle).

Inductive act := ALock | AUnlock | ATick.

Definition goto (s : state) (t : nat) (p : pc) : state :=
  mk (glob s) (loc s) (wait s) (splice s) (cid s) (prev s) (node s) (upd (thr s) t p).

Section Cl.
Variable cl : nat -> nat.

Definition step (s : state) (l : nat * act) : option (state * list fev) :=
  let (t, a) := l in
  let me := node s t in
  match thr s t, a with
  (* hclh.h:73-121 lock *)
  | Idle, ALock => Some (goto s t L1, [])
  | L1, ATick => Some (mk (glob s) (loc s) (upd (wait s) me true) (splice s) (cid s) (prev s) (node s)
                          (upd (thr s) t L2), [])
  | L2, ATick => Some (mk (glob s) (loc s) (wait s) (upd (splice s) me false) (cid s) (prev s) (node s)
                          (upd (thr s) t L3), [])
  | L3, ATick => Some (goto s t (L3b (loc s (cl t))), [])
  | L3b l, ATick => Some (goto s t (L3c (cid s l)), [])
  | L3c v, ATick => Some (mk (glob s) (loc s) (wait s) (splice s) (upd (cid s) me v) (prev s) (node s)
                             (upd (thr s) t L4), [])
  | L4, ATick => Some (goto s t (L4b (loc s (cl t))), [])
  | L4b l, ATick => Some (mk (glob s) (loc s) (wait s) (splice s) (cid s) (upd (prev s) me (Some l)) (node s)
                             (upd (thr s) t L5), [])
  | L5, ATick => Some (mk (glob s) (upd (loc s) (cl t) me) (wait s) (splice s) (cid s) (prev s) (node s)
                          (upd (thr s) t (L6 (loc s (cl t)))), [FReq t])
  | L6 p, ATick => Some (mk (glob s) (loc s) (wait s) (splice s) (cid s) (upd (prev s) me (Some p)) (node s)
                            (upd (thr s) t (L7 p)), [])
  | L7 p, ATick => match prev s p with
                   | None => Some (goto s t L11, [])
                   | Some _ => Some (goto s t (L8a p), [])
                   end
  | L8a p, ATick => if wait s p then Some (goto s t (L8b p), []) else Some (goto s t (L9a p), [])
  | L8b p, ATick => if Nat.eqb (cid s p) (cid s me) then Some (goto s t (L8c p), [])
                    else Some (goto s t (L9a p), [])
  | L8c p, ATick => if splice s p then Some (goto s t (L9a p), []) else Some (goto s t (L8a p), [])
  | L9a p, ATick => if Nat.eqb (cid s p) (cid s me) then Some (goto s t (L9b p), [])
                    else Some (goto s t L11, [])
  | L9b p, ATick => if splice s p then Some (goto s t L11, []) else Some (goto s t Crit, [FAcq t])
  | L11, ATick => Some (goto s t (L12 (loc s (cl t))), [])
  | L12 lt, ATick => Some (mk lt (loc s) (wait s) (splice s) (cid s) (prev s) (node s)
                              (upd (thr s) t (L13 lt (glob s))), [])
  | L13 lt g, ATick => Some (mk (glob s) (loc s) (wait s) (upd (splice s) lt true) (cid s) (prev s) (node s)
                                (upd (thr s) t (L14 g)), [])
  | L14 g, ATick => if wait s g then Some (goto s t (L14 g), []) else Some (goto s t Crit, [FAcq t])
  (* hclh.h:124-147 unlock *)
  | Crit, AUnlock => Some (goto s t U1, [])
  | U1, ATick => match prev s me with
                 | Some p => Some (goto s t (U2 p), [])
                 | None => None     (* the caller would be handed a NULL node *)
                 end
  | U2 p, ATick => Some (mk (glob s) (loc s) (upd (wait s) me false) (splice s) (cid s) (prev s)
                            (upd (node s) t p) (upd (thr s) t Idle), [FRel t])
  | _, _ => None
  end.

End Cl.

Definition waiting (s : state) (t : nat) : bool :=
  match thr s t with
  | L6 _ | L7 _ | L8a _ | L8b _ | L8c _ | L9a _ | L9b _ | L11 | L12 _ | L13 _ _ | L14 _ => true
  | _ => false
  end.
