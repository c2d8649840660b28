(** Model of the phased stack operations of include/ck_stack.h: push_mpnc (272-285),
    push_spnc (290-297), pop_npsc (302-314), batch_pop_npsc (319-328).

    push_mpnc runs concurrently with itself, one shared access per step.  The
    client works in phases: push_spnc, pop_npsc and batch_pop_npsc are called
    only when no other operation is in progress, and no push_mpnc starts while
    one of them runs; each is therefore one step. *)
From Coq Require Import Arith List Bool.
From Verif Require Import Lib Lin Stack_Model.
Import ListNotations.

Inductive npc :=
| NIdle
| N1 (e : nat)                    (* ck_stack.h:276   entry->next = NULL *)
| N2 (e : nat)                    (* ck_stack.h:278   stack = fas(head, entry) *)
| N3 (e : nat) (st : option nat). (* ck_stack.h:279   entry->next = stack *)

Record nst := { nhead : option nat; nnxt : nat -> option nat; nthr : nat -> npc; nown : nat -> bool; npushes : nat }.
(** ck_stack_init, ck_stack.h:333; every entry belongs to the client *)
Definition ninit : nst :=
  {| nhead := None; nnxt := fun _ => None; nthr := fun _ => NIdle; nown := fun _ => true; npushes := 0 |}.

Definition quiet (n : nat) (s : nst) : bool :=
  forallb (fun t => match nthr s t with NIdle => true | _ => false end) (List.seq 0 n).

(** [KSp e] is push_spnc, [KPop] pop_npsc, [KBatch] batch_pop_npsc *)
Inductive nact := KPush (e : nat) | KSp (e : nat) | KPop | KBatch | KTick.

Definition nset (s : nst) (t : nat) (p : npc) : nst :=
  {| nhead := nhead s; nnxt := nnxt s; nthr := upd (nthr s) t p; nown := nown s; npushes := npushes s |}.

Definition atomically (t : nat) (o : sop) (r : sres) : list sev := [Call t o; Lin t r; Ret t r].

Definition nstep (n : nat) (s : nst) (l : nat * nact) : option (nst * list sev) :=
  let (t, a) := l in
  if negb (Nat.ltb t n) then None else
  match a with
  | KPush e =>
      match nthr s t with
      | NIdle => if nown s e
                 then Some ({| nhead := nhead s; nnxt := nnxt s; nthr := upd (nthr s) t (N1 e); nown := upd (nown s) e false; npushes := npushes s |},
                            [Call t (Push e)])
                 else None
      | _ => None
      end
  | KTick =>
      match nthr s t with
      | NIdle => None
      | N1 e => Some ({| nhead := nhead s; nnxt := upd (nnxt s) e None; nthr := upd (nthr s) t (N2 e); nown := nown s; npushes := npushes s |}, [])
      | N2 e => Some ({| nhead := Some e; nnxt := nnxt s; nthr := upd (nthr s) t (N3 e (nhead s)); nown := nown s; npushes := S (npushes s) |},
                      [Lin t RU])
      | N3 e st => Some ({| nhead := nhead s; nnxt := upd (nnxt s) e st; nthr := upd (nthr s) t NIdle; nown := nown s; npushes := npushes s |},
                         [Ret t RU])
      end
  | KSp e =>
      if quiet n s && nown s e
      then Some ({| nhead := Some e; nnxt := upd (nnxt s) e (nhead s); nthr := nthr s; nown := upd (nown s) e false; npushes := S (npushes s) |},
                 atomically t (Push e) RU)
      else None
  | KPop =>
      if quiet n s
      then match nhead s with
           | None => Some (s, atomically t Pop (RV None))
           | Some x => Some ({| nhead := nnxt s x; nnxt := nnxt s; nthr := nthr s; nown := upd (nown s) x true; npushes := npushes s |},
                             atomically t Pop (RV (Some x)))
           end
      else None
  | KBatch =>
      if quiet n s
      then match walk (npushes s) (nnxt s) (nhead s) with
           | Some l => Some ({| nhead := None; nnxt := nnxt s; nthr := nthr s;
                                nown := fun e => existsb (Nat.eqb e) l || nown s e; npushes := npushes s |},
                             atomically t Batch (RL l))
           | None => Some ({| nhead := None; nnxt := nnxt s; nthr := nthr s; nown := nown s; npushes := npushes s |},
                           atomically t Batch RBad)
           end
      else None
  end.
