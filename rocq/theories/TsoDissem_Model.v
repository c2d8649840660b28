(** ck_barrier_dissemination (src/ck_barrier_dissemination.c:96-130) on x86-TSO: the store of *pflag (110)
    goes through the participant's FIFO store buffer, the load of *tflag (113) is satisfied by the newest
    buffered store of the participant to it or else from memory; ck_pr_fence_acquire (128) is a compiler
    barrier.  subscribe (79-87) has a locked instruction and waits for an empty buffer.  The other steps
    touch no shared word and are those of BarDissem_Model.v; [flag] of that state is the memory. *)
From Coq Require Import Arith NArith List Bool.
From Verif Require Import Lib BarSpec BarDissem_Model.
Import ListNotations.

(** a buffered store: flags[p][k].tflag of participant i, and the value *)
Record ent := E { ep : bool; ei : nat; ek : nat; ev : bool }.
Record tst := mkT { b : state; bf : nat -> list ent }.
Definition tinit : tst := mkT init (fun _ => []).

Definition hit (x : ent) (p : bool) (i k : nat) : bool := Bool.eqb (ep x) p && Nat.eqb (ei x) i && Nat.eqb (ek x) k.
(** the newest of the buffered stores to the flag, or [d] *)
Fixpoint fw (l : list ent) (p : bool) (i k : nat) (d : bool) : bool :=
  match l with [] => d | x :: r => fw r p i k (if hit x p i k then ev x else d) end.

Inductive tlab := Go (t : nat) (a : act) | Flush (t : nat).

Section M.
Variable n : nat.
Definition tstep (s : tst) (l : tlab) : option (tst * list bev) :=
  match l with
  | Flush t =>
      match bf s t with
      | [] => None
      | x :: r => Some (mkT (mk (tid (b s)) (set3 (flag (b s)) (ep x) (ei x) (ek x) (ev x)) (par (b s)) (sns (b s)) (thr (b s))) (upd (bf s) t r), [])
      end
  | Go t a =>
      if negb (Nat.ltb t n) then None else
      match thr (b s) t, a with
      | _, ASub => match bf s t, step n (b s) (t, ASub) with [], Some (b', e) => Some (mkT b' (bf s), e) | _, _ => None end
      | Lp k, ATick =>
          if Nat.ltb k (size n)
          then Some (mkT (go (b s) t (Wt k)) (upd (bf s) t (bf s t ++ [E (par (b s) t) (partner n t k) k (sns (b s) t)])), [])
          else match step n (b s) (t, ATick) with Some (b', e) => Some (mkT b' (bf s), e) | None => None end
      | Wt k, ATick =>
          if Bool.eqb (fw (bf s t) (par (b s) t) t k (flag (b s) (par (b s) t) t k)) (sns (b s) t)
          then Some (mkT (go (b s) t (Lp (S k))) (bf s), []) else Some (s, [])
      | _, _ => match step n (b s) (t, a) with Some (b', e) => Some (mkT b' (bf s), e) | None => None end
      end
  end.
End M.
