(** The stacks of include/ck_stack.h on x86-TSO: Stack_Model with a FIFO store buffer per thread.

    The only plain store of the operations is [entry->next = stack] (58, 62, 82; 170, 174 in the
    MPMC variant): it goes to the storing thread's buffer and arrives in memory at some later
    [TFlush].  Loads of [next] see the thread's own buffer first.  ck_pr_cas_ptr[_value],
    ck_pr_cas_ptr_2_value and ck_pr_fas_ptr are locked instructions: they run with an empty
    buffer.  ck_pr_fence_store, ck_pr_fence_load and ck_pr_fence_store_atomic compile to nothing
    on this platform (include/gcc/x86_64/ck_pr.h). *)
From Coq Require Import NArith Arith List Bool.
From Verif Require Import Lib Lin Stack_Model.
Import ListNotations.

Record tst := { mem : sst; buf : nat -> list (nat * option nat) }.
Definition tinit : tst := {| mem := sinit; buf := fun _ => [] |}.

(** the youngest store to [e] in a buffer, oldest first *)
Fixpoint newest (b : list (nat * option nat)) (e : nat) (d : option nat) : option nat :=
  match b with [] => d | (x, v) :: b => newest b e (if Nat.eqb x e then v else d) end.
Definition vnext (s : tst) (t e : nat) : option nat := newest (buf s t) e (nxt (mem s) e).

Definition tgo (s : tst) (t : nat) (p : spc) : tst := {| mem := go (mem s) t p; buf := buf s |}.
Definition lift (s : tst) (r : option (sst * list sev)) : option (tst * list sev) :=
  match r with Some (m, ev) => Some ({| mem := m; buf := buf s |}, ev) | None => None end.
(** a locked instruction: only with an empty buffer *)
Definition locked (s : tst) (t : nat) (r : option (tst * list sev)) : option (tst * list sev) :=
  match buf s t with [] => r | _ => None end.

Inductive tact := TCall (o : sop) | TTick | TFlush.

Definition ttick (s : tst) (t : nat) : option (tst * list sev) :=
  match thr (mem s) t with
  (* the store of next *)
  | Pu2 b e st => Some ({| mem := go (mem s) t (Pu3 b e st); buf := upd (buf s) t (buf s t ++ [(e, st)]) |}, [])
  (* loads of next *)
  | Po2 b x => Some (tgo s t (Po3 b x (vnext s t x)), [])
  | G3 b g x => Some (tgo s t (G4 b g x (vnext s t x)), [])
  (* locked instructions *)
  | Pu3 _ _ _ | Po3 _ _ _ | G4 _ _ _ _ | Ba => locked s t (lift s (tick (mem s) t))
  (* loads of head and generation, which nobody stores to plainly *)
  | _ => lift s (tick (mem s) t)
  end.

Definition tstep (c : cfg) (s : tst) (l : nat * tact) : option (tst * list sev) :=
  let (t, a) := l in
  if negb (Nat.ltb t (nt c)) then None else
  match a with
  | TCall o => match thr (mem s) t with PIdle => lift s (call c (mem s) t o) | _ => None end
  | TTick => ttick s t
  | TFlush => match buf s t with
              | [] => None
              | (e, v) :: b => Some ({| mem := set_nxt (mem s) e v; buf := upd (buf s) t b |}, [])
              end
  end.
