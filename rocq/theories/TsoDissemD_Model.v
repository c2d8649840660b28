(** The machine of TsoDissem_Model.v with participants that read and write shared data between their
    calls of ck_barrier_dissemination (src/ck_barrier_dissemination.c:96-130): data and flags share the
    FIFO store buffer of the participant. *)
From Coq Require Import Arith NArith ZArith List Bool.
From Verif Require Import Lib BarSpec TsoBar_Spec BarDissem_Model TsoDissem_Model.
Import ListNotations.

Inductive xent := Fl (x : ent) | Da (i : nat) (v : Z).
Record xst := mkX { xb : state; xm : nat -> Z; xbuf : nat -> list xent }.
Definition xinit (D : nat -> Z) : xst := mkX init D (fun _ => []).

(** the buffered flags *)
Fixpoint fls (l : list xent) : list ent := match l with [] => [] | Fl x :: r => x :: fls r | Da _ _ :: r => fls r end.
(** the newest of the buffered stores to datum [i], or [d] *)
Fixpoint dfw (l : list xent) (i : nat) (d : Z) : Z :=
  match l with [] => d | Fl _ :: r => dfw r i d | Da j v :: r => dfw r i (if Nat.eqb j i then v else d) end.
Definition dview (s : xst) (t i : nat) : Z := dfw (xbuf s t) i (xm s i).

Inductive xlab := XGo (t : nat) (a : act) | XFlush (t : nat) | XRd (t i : nat) | XWr (t i : nat) (v : Z).

Section M.
Variable n : nat.
Definition lift (s : xst) (r : option (state * list bev)) : option (xst * list dbev) :=
  match r with Some (b', e) => Some (mkX b' (xm s) (xbuf s), map Bar e) | None => None end.
Definition xstep (s : xst) (l : xlab) : option (xst * list dbev) :=
  match l with
  | XFlush t =>
      match xbuf s t with
      | [] => None
      | Fl x :: r => Some (mkX (mk (tid (xb s)) (set3 (flag (xb s)) (ep x) (ei x) (ek x) (ev x)) (par (xb s)) (sns (xb s)) (thr (xb s))) (xm s) (upd (xbuf s) t r), [])
      | Da i v :: r => Some (mkX (xb s) (upd (xm s) i v) (upd (xbuf s) t r), [])
      end
  | XRd t i =>
      if negb (Nat.ltb t n) then None else
      match thr (xb s) t with Out => Some (s, [DRd t i (dview s t i)]) | _ => None end
  | XWr t i v =>
      if negb (Nat.ltb t n) then None else
      match thr (xb s) t with Out => Some (mkX (xb s) (xm s) (upd (xbuf s) t (xbuf s t ++ [Da i v])), [DWr t i v]) | _ => None end
  | XGo t a =>
      if negb (Nat.ltb t n) then None else
      match thr (xb s) t, a with
      | _, ASub => match xbuf s t with [] => lift s (step n (xb s) (t, ASub)) | _ => None end
      | Lp k, ATick =>
          if Nat.ltb k (size n)
          then Some (mkX (go (xb s) t (Wt k)) (xm s) (upd (xbuf s) t (xbuf s t ++ [Fl (E (par (xb s) t) (partner n t k) k (sns (xb s) t))])), [])
          else lift s (step n (xb s) (t, ATick))
      | Wt k, ATick =>
          if Bool.eqb (fw (fls (xbuf s t)) (par (xb s) t) t k (flag (xb s) (par (xb s) t) t k)) (sns (xb s) t)
          then Some (mkX (go (xb s) t (Lp (S k))) (xm s) (xbuf s), []) else Some (s, [])
      | _, _ => lift s (step n (xb s) (t, a))
      end
  end.
End M.
