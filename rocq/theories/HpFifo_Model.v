(** Model of include/ck_hp_fifo.h: the FIFO with hazard pointers.

    Entries are numbers, 0 is NULL.  One step performs one shared access, or one step of
    src/ck_hp.c as modelled in Hp_Model; the client is that of HpClient_Model: an entry that
    dequeue returned is retired before it is enqueued again, and the memory is the client's again
    when it is destroyed.  The operations and results are those of FifoMp_Model.  The flag [b] of a
    program counter is true in tryenqueue and trydequeue.

    Simplifications: sequentially consistent memory; an operation returns with its last access; the
    entry that a dequeue returns is the client's from its compare-and-swap of the head on (that is,
    earlier than in the code); deinit (68-75) and the traversal macros (224-234) are not modelled. *)
From Coq Require Import Arith List Bool.
From Verif Require Import Lib Lin Hp_Model HpClient_Model.
From Verif Require FifoMp_Model.
Import ListNotations.
Notation mop := FifoMp_Model.mop.
Notation mres := FifoMp_Model.mres.
Notation Enq := FifoMp_Model.Enq.
Notation TryEnq := FifoMp_Model.TryEnq.
Notation Deq := FifoMp_Model.Deq.
Notation TryDeq := FifoMp_Model.TryDeq.
Notation RU := FifoMp_Model.RU.
Notation RB := FifoMp_Model.RB.
Notation RD := FifoMp_Model.RD.
Notation mev := (lev mop mres).

Inductive fpc :=
| FIdle
| Q1 (b : bool) (r e v : nat)              (* ck_hp_fifo.h:85, 130   entry->value = value *)
| Q2 (b : bool) (r e v : nat)              (* ck_hp_fifo.h:86, 131   entry->next = NULL *)
| Q3 (b : bool) (r e v : nat)              (* ck_hp_fifo.h:90, 134   tail = load fifo->tail *)
| Q4 (b : bool) (r e v p : nat)            (* ck_hp_fifo.h:91, 135   slot 0 = tail *)
| Q5 (b : bool) (r e v p : nat)            (* ck_hp_fifo.h:92, 136   tail = load fifo->tail? *)
| Q6 (b : bool) (r e v p : nat)            (* ck_hp_fifo.h:96, 139   next = load tail->next *)
| Q7 (r e v p x : nat)                     (* ck_hp_fifo.h:99   tail = load fifo->tail? *)
| Q8 (b : bool) (r e v p x : nat)          (* ck_hp_fifo.h:108, 141   CAS fifo->tail to next *)
| Q9 (b : bool) (r e v p : nat)            (* ck_hp_fifo.h:113, 143   CAS tail->next to entry *)
| Q10 (b : bool) (r e p : nat)             (* ck_hp_fifo.h:118, 147   CAS fifo->tail to entry *)
| K1 (b : bool) (r : nat)                  (* ck_hp_fifo.h:159, 199   head = load fifo->head *)
| K2 (r h : nat)                           (* ck_hp_fifo.h:160   slot 0 = head *)
| K3 (r h : nat)                           (* ck_hp_fifo.h:161   head = load fifo->head? *)
| K4 (r h : nat)                           (* ck_hp_fifo.h:164   tail = load fifo->tail *)
| J2 (r h : nat)                           (* ck_hp_fifo.h:201   tail = load fifo->tail *)
| J3 (r h tl : nat)                        (* ck_hp_fifo.h:202   slot 0 = head *)
| J4 (r h tl : nat)                        (* ck_hp_fifo.h:203   head = load fifo->head? *)
| K5 (b : bool) (r h tl : nat)             (* ck_hp_fifo.h:166, 206   next = load head->next *)
| K6 (b : bool) (r h tl x : nat)           (* ck_hp_fifo.h:167, 207   slot 1 = next *)
| K7 (b : bool) (r h tl x : nat)           (* ck_hp_fifo.h:169, 208   head = load fifo->head? *)
| K8 (b : bool) (r h x : nat)              (* ck_hp_fifo.h:180, 215   CAS fifo->tail to next *)
| K9 (b : bool) (r h x : nat)              (* ck_hp_fifo.h:184, 217   CAS fifo->head to next *)
| KA (r h x : nat)                         (* ck_hp_fifo.h:188, 220   load next->value, return head *)
| Ke1 (r : nat)                            (* ck_hp_fifo.h:174   slot 0 = NULL *)
| Ke2 (r : nat).                           (* ck_hp_fifo.h:175-176   slot 1 = NULL, return NULL *)

(** struct ck_hp_fifo (head, tail; 53-56), the fields of the entries (46-50), the program counters *)
Record fstt := mkf { cs : cst; fh : nat; ft : nat; nx : nat -> nat; vl : nat -> nat; fp : nat -> fpc }.
Definition go (s : fstt) (t : nat) (p : fpc) : fstt := mkf (cs s) (fh s) (ft s) (nx s) (vl s) (upd (fp s) t p).
Definition set_fh (s : fstt) (h : nat) : fstt := mkf (cs s) h (ft s) (nx s) (vl s) (fp s).
Definition set_ft (s : fstt) (p : nat) : fstt := mkf (cs s) (fh s) p (nx s) (vl s) (fp s).
Definition set_nx (s : fstt) (e n : nat) : fstt := mkf (cs s) (fh s) (ft s) (upd (nx s) e n) (vl s) (fp s).
Definition set_vl (s : fstt) (e v : nat) : fstt := mkf (cs s) (fh s) (ft s) (nx s) (upd (vl s) e v) (fp s).
Definition set_cs (s : fstt) (c : cst) : fstt := mkf c (fh s) (ft s) (nx s) (vl s) (fp s).
Definition give (s : fstt) (e : nat) (l : life) : fstt := set_cs s (set_lf (cs s) e l).
(** ck_hp_fifo_init (59-66) with the entry [z], ck_hp_init *)
Definition finit (z : nat) : fstt := mkf (set_lf cinit z Lib) z z (fun _ => 0) (fun _ => 0) (fun _ => FIdle).

(** an event of src/ck_hp.c; a call, linearization point or return; an access of thread [t] to the
    memory of entry [e] *)
Inductive fevt := HE (e : event) | LE (e : mev) | AC (t e : nat).
(** what a thread does: a step or call of ck_hp.c, a call with record [r], a step of the operation in
    progress *)
Inductive fact := AHp (a : act) | AEnq (b : bool) (r e v : nat) | ADeq (b : bool) (r : nat) | ATick.

(** [hpc]: the configuration of ck_hp.c; threads [nt] and above do not call trydequeue;
    [strict]: the client does not enqueue an entry that a trydequeue in progress has loaded from
    the head and not yet protected and validated *)
Record fcfg := { hpc : cfg; nt : nat; strict : bool }.
Definition wind (p : fpc) : option nat := match p with J2 _ h | J3 _ h _ | J4 _ h _ => Some h | _ => None end.
Definition unheld (c : fcfg) (s : fstt) (e : nat) : bool :=
  negb (strict c) || forallb (fun t => match wind (fp s t) with Some h => negb (Nat.eqb h e) | None => true end) (seq 0 (nt c)).

(** ck_hp_set_fence(record, i, p), ck_hp_set *)
Definition slot (c : fcfg) (s : fstt) (t r i p : nat) (k : fpc) : option (fstt * list fevt) :=
  match client (hpc c) (cs s) t (ASet r i p) with Some (x, ev) => Some (go (set_cs s x) t k, map HE ev) | None => None end.
Definition cas_tail (s : fstt) (p x : nat) : fstt := if Nat.eqb (ft s) p then set_ft s x else s.

Definition hidle (s : fstt) (t : nat) : bool := match pcs (hps (cs s)) t with Hp_Model.Idle => true | _ => false end.
Definition owned (s : fstt) (e : nat) : bool := match lf (cs s) e with Own => true | _ => false end.

(** the first step of a call *)
Definition call (c : fcfg) (s : fstt) (t : nat) (a : fact) : option (fstt * list fevt) :=
  if negb (hidle s t) then None else
  match a with
  | AEnq b r e v =>
      if mine (hps (cs s)) t r && negb (Nat.eqb e 0) && owned s e && unheld c s e
      then Some (give (go s t (Q1 b r e v)) e Lib, [LE (Call t (if b then TryEnq e v else Enq e v))]) else None
  | ADeq b r =>
      if mine (hps (cs s)) t r && (negb b || Nat.ltb t (nt c))
      then Some (go s t (K1 b r), [LE (Call t (if b then TryDeq else Deq))]) else None
  | _ => None
  end.

(** the loop of enqueue starts over; tryenqueue returns false and the client keeps the entry *)
Definition again (s : fstt) (t : nat) (b : bool) (r e v : nat) : option (fstt * list fevt) :=
  if b then Some (give (go s t FIdle) e Own, [LE (Lin t (RB false)); LE (Ret t (RB false))]) else Some (go s t (Q3 b r e v), []).
(** the loop of dequeue starts over; trydequeue returns NULL *)
Definition dagain (s : fstt) (t : nat) (b : bool) (r : nat) : option (fstt * list fevt) :=
  if b then Some (go s t FIdle, [LE (Lin t (RD None)); LE (Ret t (RD None))]) else Some (go s t (K1 b r), []).

Definition tick (c : fcfg) (s : fstt) (t : nat) : option (fstt * list fevt) :=
  match fp s t with
  | FIdle => None
  | Q1 b r e v => Some (go (set_vl s e v) t (Q2 b r e v), [AC t e])
  | Q2 b r e v => Some (go (set_nx s e 0) t (Q3 b r e v), [AC t e])
  | Q3 b r e v => Some (go s t (Q4 b r e v (ft s)), [])
  | Q4 b r e v p => slot c s t r 0 p (Q5 b r e v p)
  | Q5 b r e v p => if Nat.eqb (ft s) p then Some (go s t (Q6 b r e v p), []) else again s t b r e v
  | Q6 b r e v p =>
      Some (go s t (if b then if Nat.eqb (nx s p) 0 then Q9 b r e v p else Q8 b r e v p (nx s p) else Q7 r e v p (nx s p)), [AC t p])
  | Q7 r e v p x =>
      if Nat.eqb (ft s) p then Some (go s t (if Nat.eqb x 0 then Q9 false r e v p else Q8 false r e v p x), []) else again s t false r e v
  | Q8 b r e v p x => again (cas_tail s p x) t b r e v
  | Q9 b r e v p =>
      if Nat.eqb (nx s p) 0 then Some (go (set_nx s p e) t (Q10 b r e p), [AC t p; LE (Lin t (if b then RB true else RU))])
      else match again s t b r e v with Some (s', ev) => Some (s', AC t p :: ev) | None => None end
  | Q10 b r e p => Some (go (cas_tail s p e) t FIdle, [LE (Ret t (if b then RB true else RU))])
  | K1 b r => Some (go s t (if b then J2 r (fh s) else K2 r (fh s)), [])
  | K2 r h => slot c s t r 0 h (K3 r h)
  | K3 r h => if Nat.eqb (fh s) h then Some (go s t (K4 r h), []) else dagain s t false r
  | K4 r h => Some (go s t (K5 false r h (ft s)), [])
  | J2 r h => Some (go s t (J3 r h (ft s)), [])
  | J3 r h tl => slot c s t r 0 h (J4 r h tl)
  | J4 r h tl => if Nat.eqb (fh s) h then Some (go s t (K5 true r h tl), []) else dagain s t true r
  | K5 b r h tl => Some (go s t (K6 b r h tl (nx s h)), [AC t h])
  | K6 b r h tl x => slot c s t r 1 x (K7 b r h tl x)
  | K7 b r h tl x =>
      if Nat.eqb (fh s) h
      then if b
           then if Nat.eqb h tl then if Nat.eqb x 0 then dagain s t b r else Some (go s t (K8 b r h x), [])
                else Some (go s t (K9 b r h x), [])
           else if Nat.eqb x 0 then Some (go s t (Ke1 r), [])
                else Some (go s t (if Nat.eqb h tl then K8 b r h x else K9 b r h x), [])
      else dagain s t b r
  | K8 b r h x => dagain (cas_tail s h x) t b r
  | K9 b r h x =>
      if Nat.eqb (fh s) h
      then Some (give (go (set_fh s x) t (KA r h x)) h Out, [LE (Lin t (RD (Some (vl s x, h))))])
      else dagain s t b r
  | KA r h x => Some (go s t FIdle, [AC t x; LE (Ret t (RD (Some (vl s x, h))))])
  | Ke1 r => slot c s t r 0 0 (Ke2 r)
  | Ke2 r => match slot c s t r 1 0 FIdle with
             | Some (s, ev) => Some (s, ev ++ [LE (Lin t (RD None)); LE (Ret t (RD None))])
             | None => None
             end
  end.

Definition fstep (c : fcfg) (s : fstt) (l : nat * fact) : option (fstt * list fevt) :=
  let (t, a) := l in
  match a with
  | ATick => tick c s t
  | AHp a => match fp s t with
             | FIdle => match client (hpc c) (cs s) t a with Some (x, ev) => Some (set_cs s x, map HE ev) | None => None end
             | _ => None
             end
  | _ => match fp s t with FIdle => call c s t a | _ => None end
  end.
