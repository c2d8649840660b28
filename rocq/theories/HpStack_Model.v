(** Model of include/ck_hp_stack.h: the stack of include/ck_stack.h with hazard pointers.

    Entries are numbers, 0 is NULL.  One step performs one shared access, or one step of
    src/ck_hp.c as modelled in Hp_Model; the client is that of HpClient_Model: an entry that pop
    returned is retired before it is pushed again, and the memory is the client's again when it
    is destroyed.  The program counters of the try variants have [b] = true.

    Simplifications: sequentially consistent memory; an operation returns with its last access. *)
From Coq Require Import Arith List Bool.
From Verif Require Import Lib Lin Hp_Model HpClient_Model.
From Verif Require Stack_Model.
Import ListNotations.
Notation Push := Stack_Model.Push.
Notation TryPush := Stack_Model.TryPush.
Notation Pop := Stack_Model.Pop.
Notation TryPop := Stack_Model.TryPop.
Notation RU := Stack_Model.RU.
Notation RB := Stack_Model.RB.
Notation RV := Stack_Model.RV.
Notation sev := (lev Stack_Model.sop Stack_Model.sres).

Inductive spc :=
| SIdle
| Su1 (b : bool) (e : nat)               (* ck_stack.h:57, 81   load head (from ck_hp_stack.h:43, 51) *)
| Su2 (b : bool) (e h : nat)             (* ck_stack.h:58, 62, 82   entry->next = head *)
| Su3 (b : bool) (e h : nat)             (* ck_stack.h:61, 85   CAS head *)
| Sp1 (b : bool) (r : nat)               (* ck_hp_stack.h:60, 91   entry = load head *)
| Sp2 (b : bool) (r e : nat)             (* ck_hp_stack.h:64, 95   slot 0 = entry *)
| Sp3 (b : bool) (r e : nat)             (* ck_hp_stack.h:65, 96   entry = load head? *)
| Sp4 (b : bool) (r e : nat)             (* ck_hp_stack.h:67, 99   load entry->next *)
| Sp5 (b : bool) (r e n : nat)           (* ck_hp_stack.h:67, 99   CAS head *)
| Sp6 (r e : nat)                        (* ck_hp_stack.h:71   slot 0 = entry *)
| Sp7 (r e : nat)                        (* ck_hp_stack.h:73-74   update = load head *)
| Sp8 (r u : nat)                        (* ck_hp_stack.h:75   slot 0 = update *)
| Sp9 (r e : nat)                        (* ck_hp_stack.h:77-78, 74   update = load head *)
| Sp10 (r : nat).                        (* ck_hp_stack.h:106   slot 0 = NULL *)

(** struct ck_stack (head), the next fields, the program counters *)
Record sst := mks { cs : cst; hd : nat; nx : nat -> nat; sp : nat -> spc }.
Definition go (s : sst) (t : nat) (p : spc) : sst := mks (cs s) (hd s) (nx s) (upd (sp s) t p).
Definition set_hd (s : sst) (h : nat) : sst := mks (cs s) h (nx s) (sp s).
Definition set_nx (s : sst) (e n : nat) : sst := mks (cs s) (hd s) (upd (nx s) e n) (sp s).
Definition set_cs (s : sst) (c : cst) : sst := mks c (hd s) (nx s) (sp s).
Definition give (s : sst) (e : nat) (l : life) : sst := set_cs s (set_lf (cs s) e l).
(** ck_stack_init, ck_hp_init *)
Definition sinit : sst := mks cinit 0 (fun _ => 0) (fun _ => SIdle).

(** an event of src/ck_hp.c; a call, linearization point or return; an access of thread [t] to the
    memory of entry [e] *)
Inductive sevt := HE (e : event) | LE (e : sev) | AC (t e : nat).
(** what a thread does: a step or call of ck_hp.c, a call, a step of the operation in progress *)
Inductive sact := AHp (a : act) | APush (b : bool) (e : nat) | APop (b : bool) (r : nat) | ATick.

Definition fin (s : sst) (t : nat) (r : Stack_Model.sres) : option (sst * list sevt) := Some (go s t SIdle, [LE (Lin t r); LE (Ret t r)]).
(** ck_hp_set_fence(record, 0, p), ck_hp_set *)
Definition slot (c : cfg) (s : sst) (t r p : nat) (k : spc) : option (sst * list sevt) :=
  match client c (cs s) t (ASet r 0 p) with Some (x, ev) => Some (go (set_cs s x) t k, map HE ev) | None => None end.

Definition hidle (s : sst) (t : nat) : bool := match pcs (hps (cs s)) t with Hp_Model.Idle => true | _ => false end.
Definition owned (s : sst) (e : nat) : bool := match lf (cs s) e with Own => true | _ => false end.

(** the first step of a call: pop is given a record of the caller *)
Definition call (s : sst) (t : nat) (a : sact) : option (sst * list sevt) :=
  if negb (hidle s t) then None else
  match a with
  | APush b e => if negb (Nat.eqb e 0) && owned s e
                 then Some (give (go s t (Su1 b e)) e Lib, [LE (Call t (if b then TryPush e else Push e))]) else None
  | APop b r => if mine (hps (cs s)) t r then Some (go s t (Sp1 b r), [LE (Call t (if b then TryPop else Pop))]) else None
  | _ => None
  end.

Definition tick (c : cfg) (s : sst) (t : nat) : option (sst * list sevt) :=
  match sp s t with
  | SIdle => None
  | Su1 b e => Some (go s t (Su2 b e (hd s)), [])
  | Su2 b e h => Some (go (set_nx s e h) t (Su3 b e h), [AC t e])
  | Su3 b e h =>
      if Nat.eqb (hd s) h then fin (set_hd s e) t (if b then RB true else RU)
      else if b then fin (give s e Own) t (RB false)
      else Some (go s t (Su2 b e (hd s)), [])
  | Sp1 b r => if Nat.eqb (hd s) 0 then fin s t (RV None) else Some (go s t (Sp2 b r (hd s)), [])
  | Sp2 b r e => slot c s t r e (Sp3 b r e)
  | Sp3 b r e => if Nat.eqb (hd s) e then Some (go s t (Sp4 b r e), [])
                 else Some (go s t (if b then Sp10 r else Sp1 b r), [])
  | Sp4 b r e => Some (go s t (Sp5 b r e (nx s e)), [AC t e])
  | Sp5 b r e n =>
      if Nat.eqb (hd s) e then fin (give (set_hd s n) e Out) t (RV (Some e))
      else if b then Some (go s t (Sp10 r), [])
      else if Nat.eqb (hd s) 0 then fin s t (RV None)
      else Some (go s t (Sp6 r (hd s)), [])
  | Sp6 r e => slot c s t r e (Sp7 r e)
  | Sp7 r e => if Nat.eqb (hd s) e then Some (go s t (Sp4 false r e), []) else Some (go s t (Sp8 r (hd s)), [])
  | Sp8 r u => slot c s t r u (Sp9 r u)
  | Sp9 r e => if Nat.eqb (hd s) 0 then fin s t (RV None)
               else if Nat.eqb (hd s) e then Some (go s t (Sp4 false r e), [])
               else Some (go s t (Sp8 r (hd s)), [])
  | Sp10 r => match slot c s t r 0 SIdle with
              | Some (s, ev) => Some (s, ev ++ [LE (Lin t (RV None)); LE (Ret t (RV None))])
              | None => None
              end
  end.

Definition sstep (c : cfg) (s : sst) (l : nat * sact) : option (sst * list sevt) :=
  let (t, a) := l in
  match a with
  | ATick => tick c s t
  | AHp a => match sp s t with
             | SIdle => match client c (cs s) t a with Some (x, ev) => Some (set_cs s x, map HE ev) | None => None end
             | _ => None
             end
  | _ => match sp s t with SIdle => call s t a | _ => None end
  end.
