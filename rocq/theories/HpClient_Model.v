(** The client of hazard pointers that keeps the entries of a lock-free structure
    (include/ck_hp_stack.h, include/ck_hp_fifo.h): the life of an entry, and the calls of
    src/ck_hp.c that the client makes between operations on the structure (Hp_Model).  An entry is
    handed to the structure while it is the client's; the structure hands it back; then it must
    be retired; it is the client's again when it is destroyed.  Nothing else is assumed. *)
From Coq Require Import Arith List Bool.
From Verif Require Import Lib Hp_Model.
Import ListNotations.

(** [Own]: the client may use or free the memory; [Lib]: handed to the structure; [Out]: handed
    back by the structure; [Retd]: retired and not destroyed *)
Inductive life := Own | Lib | Out | Retd.
(** [obj h]: the pointer that was retired with descriptor [h] last *)
Record cst := mkc { hps : Hp_Model.st; lf : nat -> life; obj : nat -> nat }.
Definition set_lf (s : cst) (e : nat) (l : life) : cst := mkc (hps s) (upd (lf s) e l) (obj s).

(** the destructor gives the memory back *)
Definition landed (ob : nat -> nat) (L : nat -> life) (ev : list event) : nat -> life :=
  fold_left (fun L e => match e with EDes _ _ h _ => upd L (ob h) Own | _ => L end) ev L.
Definition retirable (l : life) : bool := match l with Own | Out => true | _ => false end.
(** one step of src/ck_hp.c by thread [t]; only entries in the client's hands are retired, and
    the destructor makes no calls *)
Definition client (c : cfg) (s : cst) (t : nat) (a : act) : option (cst * list event) :=
  let go ob L :=
    match step c (hps s) (t, a) with Some (h, ev) => Some (mkc h (landed ob L ev) ob, ev) | None => None end in
  match a with
  | ARetire _ h _ p | AFree _ h _ p =>
      if negb (Nat.eqb p 0) && retirable (lf s p) then go (upd (obj s) h p) (upd (lf s) p Retd) else None
  | ANest _ _ _ => None
  | _ => go (obj s) (lf s)
  end.
(** ck_hp_init; all entries are the client's *)
Definition cinit : cst := mkc Hp_Model.init (fun _ => Own) (fun _ => 0).
