(** Model of the multi-producer multi-consumer linked FIFO, include/ck_fifo.h:205-456.

    An entry is a number, NULL is [None].  One step performs one shared access
    (ck_pr_load_ptr, plain store to the private entry, ck_pr_cas_ptr_2).  The flag
    [b] of a program counter is true in tryenqueue and trydequeue.

    Simplifications: sequentially consistent memory; deinit (236) not modelled.
    The last access of a dequeue also returns, so that the garbage entry is
    available to the client as early as possible. *)
From Coq Require Import NArith Arith List Bool.
From Verif Require Import Lib Lin.
Import ListNotations.

Inductive mop := Enq (e v : nat) | TryEnq (e v : nat) | Deq | TryDeq.
(** [RD (Some (v, g))]: value [v], garbage entry [g]; [RD None]: false *)
Inductive mres := RU | RB (b : bool) | RD (d : option (nat * nat)).
Definition mres_dec : forall a b : mres, {a = b} + {a <> b}.
Proof. decide equality; decide equality; decide equality; decide equality. Defined.
Notation mev := (lev mop mres).

(** struct ck_fifo_mpmc_pointer (205-208); [W] values of the 64-bit generation *)
Definition W : N := 2 ^ 64.

Inductive mpc :=
| PIdle
| Q1 (b : bool) (e v : nat)                               (* ck_fifo.h:254, 307   entry->value = value *)
| Q2 (b : bool) (e v : nat)                               (* ck_fifo.h:255, 308   entry->next.pointer = NULL *)
| Q3 (b : bool) (e v : nat)                               (* ck_fifo.h:256, 309   entry->next.generation = 0 *)
| Q4 (b : bool) (e v : nat)                               (* ck_fifo.h:260, 313   load tail.generation *)
| Q5 (b : bool) (e v : nat) (g : N)                       (* ck_fifo.h:262, 315   load tail.pointer *)
| Q6 (b : bool) (e v : nat) (g : N) (p : nat)             (* ck_fifo.h:263, 316   load p->next.generation *)
| Q7 (b : bool) (e v : nat) (g : N) (p : nat) (ng : N)    (* ck_fifo.h:265, 318   load p->next.pointer *)
| Q8 (b : bool) (e v : nat) (g : N) (p : nat) (ng : N) (x : option nat) (* ck_fifo.h:267, 320   tail.generation unchanged? *)
| Q9 (b : bool) (e v : nat) (g : N) (p x : nat)           (* ck_fifo.h:279, 332   CAS2 tail to next *)
| Q10 (b : bool) (e v : nat) (g : N) (p : nat) (ng : N)   (* ck_fifo.h:287, 341   CAS2 p->next to entry *)
| Q11 (b : bool) (e : nat) (g : N) (p : nat)              (* ck_fifo.h:296, 349   CAS2 tail to entry *)
| K1 (b : bool)                                           (* ck_fifo.h:361, 415   load head.generation *)
| K2 (b : bool) (g : N)                                   (* ck_fifo.h:363, 417   load head.pointer *)
| K3 (b : bool) (g : N) (h : nat)                         (* ck_fifo.h:364, 419   load tail.generation *)
| K4 (b : bool) (g : N) (h : nat) (tg : N)                (* ck_fifo.h:366, 421   load tail.pointer *)
| K5 (b : bool) (g : N) (h : nat) (tg : N) (tp : nat)     (* ck_fifo.h:368, 423   load h->next.generation *)
| K6 (b : bool) (g : N) (h : nat) (tg : N) (tp : nat)     (* ck_fifo.h:370, 425   load h->next.pointer *)
| K7 (b : bool) (h x : nat) (tg : N)                      (* ck_fifo.h:384, 439   CAS2 tail to next *)
| K8 (b : bool) (g : N) (h x : nat)                       (* ck_fifo.h:395, 450   load next->value *)
| K9 (b : bool) (g : N) (h x v : nat).                    (* ck_fifo.h:399, 454   CAS2 head to next *)

(** struct ck_fifo_mpmc (216-220) and the entries (210-213); [own e]: the client has [e] *)
Record mst := { hp : nat; hg : N; tp : nat; tg : N; nx : nat -> option nat; ng : nat -> N; vl : nat -> nat;
                own : nat -> bool; thr : nat -> mpc }.

(** ck_fifo_mpmc_init, ck_fifo.h:224-232 *)
Definition minit (stub : nat) : mst :=
  {| hp := stub; hg := 0; tp := stub; tg := 0; nx := fun _ => None; ng := fun _ => 0%N; vl := fun _ => 0;
     own := fun e => negb (Nat.eqb e stub); thr := fun _ => PIdle |}.

Definition go (s : mst) (t : nat) (p : mpc) : mst :=
  {| hp := hp s; hg := hg s; tp := tp s; tg := tg s; nx := nx s; ng := ng s; vl := vl s; own := own s; thr := upd (thr s) t p |}.
Definition set_own (s : mst) (e : nat) (b : bool) : mst :=
  {| hp := hp s; hg := hg s; tp := tp s; tg := tg s; nx := nx s; ng := ng s; vl := vl s; own := upd (own s) e b; thr := thr s |}.
Definition set_head (s : mst) (p : nat) (g : N) : mst :=
  {| hp := p; hg := g; tp := tp s; tg := tg s; nx := nx s; ng := ng s; vl := vl s; own := own s; thr := thr s |}.
Definition set_tail (s : mst) (p : nat) (g : N) : mst :=
  {| hp := hp s; hg := hg s; tp := p; tg := g; nx := nx s; ng := ng s; vl := vl s; own := own s; thr := thr s |}.
Definition set_nx (s : mst) (e : nat) (x : option nat) : mst :=
  {| hp := hp s; hg := hg s; tp := tp s; tg := tg s; nx := upd (nx s) e x; ng := ng s; vl := vl s; own := own s; thr := thr s |}.
Definition set_ng (s : mst) (e : nat) (g : N) : mst :=
  {| hp := hp s; hg := hg s; tp := tp s; tg := tg s; nx := nx s; ng := upd (ng s) e g; vl := vl s; own := own s; thr := thr s |}.
Definition set_vl (s : mst) (e : nat) (v : nat) : mst :=
  {| hp := hp s; hg := hg s; tp := tp s; tg := tg s; nx := nx s; ng := ng s; vl := upd (vl s) e v; own := own s; thr := thr s |}.

(** ck_pr_cas_ptr_2 on the tail: {p, g} to {x, g + 1} *)
Definition cas_tail (s : mst) (p : nat) (g : N) (x : nat) : mst :=
  if Nat.eqb (tp s) p && N.eqb (tg s) g then set_tail s x ((g + 1) mod W) else s.

(** The client discipline: an entry is enqueued only while it is in the client's
    hands and no operation in progress holds it as its tail or head snapshot. *)
Definition holds (p : mpc) (x : nat) : bool :=
  match p with
  | Q6 _ _ _ _ p | Q7 _ _ _ _ p _ | Q8 _ _ _ _ p _ _ | Q9 _ _ _ _ p _ | Q10 _ _ _ _ p _ | Q11 _ _ _ p => Nat.eqb p x
  | K3 _ _ h | K4 _ _ h _ | K5 _ _ h _ _ | K6 _ _ h _ _ | K7 _ h _ _ | K8 _ _ h _ | K9 _ _ h _ _ => Nat.eqb h x
  | _ => false
  end.
Definition may_enq (n : nat) (s : mst) (e : nat) : bool :=
  own s e && forallb (fun t => negb (holds (thr s t) e)) (List.seq 0 n).

Inductive mact := ACall (o : mop) | ATick.

Definition mcall (n : nat) (s : mst) (t : nat) (o : mop) : option (mst * list mev) :=
  match o with
  | Enq e v => if may_enq n s e then Some (set_own (go s t (Q1 false e v)) e false, [Call t o]) else None
  | TryEnq e v => if may_enq n s e then Some (set_own (go s t (Q1 true e v)) e false, [Call t o]) else None
  | Deq => Some (go s t (K1 false), [Call t o])
  | TryDeq => Some (go s t (K1 true), [Call t o])
  end.

(** the loop of enqueue starts over; tryenqueue returns false and the client keeps the entry *)
Definition again (s : mst) (t : nat) (b : bool) (e v : nat) : option (mst * list mev) :=
  if b then Some (set_own (go s t PIdle) e true, [Lin t (RB false); Ret t (RB false)]) else Some (go s t (Q4 b e v), []).
(** the loop of dequeue starts over; trydequeue returns false *)
Definition dagain (s : mst) (t : nat) (b : bool) : option (mst * list mev) :=
  if b then Some (go s t PIdle, [Lin t (RD None); Ret t (RD None)]) else Some (go s t (K1 b), []).

Definition mtick (s : mst) (t : nat) : option (mst * list mev) :=
  match thr s t with
  | PIdle => None
  | Q1 b e v => Some (go (set_vl s e v) t (Q2 b e v), [])
  | Q2 b e v => Some (go (set_nx s e None) t (Q3 b e v), [])
  | Q3 b e v => Some (go (set_ng s e 0) t (Q4 b e v), [])
  | Q4 b e v => Some (go s t (Q5 b e v (tg s)), [])
  | Q5 b e v g => Some (go s t (Q6 b e v g (tp s)), [])
  | Q6 b e v g p => Some (go s t (Q7 b e v g p (ng s p)), [])
  | Q7 b e v g p n => Some (go s t (Q8 b e v g p n (nx s p)), [])
  | Q8 b e v g p n x =>
      if N.eqb (tg s) g
      then match x with
           | Some y => Some (go s t (Q9 b e v g p y), [])
           | None => Some (go s t (Q10 b e v g p n), [])
           end
      else again s t b e v
  | Q9 b e v g p x => again (cas_tail s p g x) t b e v
  | Q10 b e v g p n =>
      match nx s p with
      | None => if N.eqb (ng s p) n
                then Some (go (set_ng (set_nx s p (Some e)) p ((n + 1) mod W)) t (Q11 b e g p), [Lin t (if b then RB true else RU)])
                else again s t b e v
      | Some _ => again s t b e v
      end
  | Q11 b e g p => Some (go (cas_tail s p g e) t PIdle, [Ret t (if b then RB true else RU)])
  | K1 b => Some (go s t (K2 b (hg s)), [])
  | K2 b g => Some (go s t (K3 b g (hp s)), [])
  | K3 b g h => Some (go s t (K4 b g h (tg s)), [])
  | K4 b g h tg => Some (go s t (K5 b g h tg (tp s)), [])
  | K5 b g h tg tp => Some (go s t (K6 b g h tg tp), [])
  | K6 b g h tg tp =>
      if Nat.eqb h tp
      then match nx s h with
           | None => Some (go s t PIdle, [Lin t (RD None); Ret t (RD None)])
           | Some x => Some (go s t (K7 b h x tg), [])
           end
      else match nx s h with
           | None => dagain s t b
           | Some x => Some (go s t (K8 b g h x), [])
           end
  | K7 b h x tg => dagain (cas_tail s h tg x) t b
  | K8 b g h x => Some (go s t (K9 b g h x (vl s x)), [])
  | K9 b g h x v =>
      if Nat.eqb (hp s) h && N.eqb (hg s) g
      then Some (go (set_own (set_head s x ((g + 1) mod W)) h true) t PIdle, [Lin t (RD (Some (v, h))); Ret t (RD (Some (v, h)))])
      else dagain s t b
  end.

Definition mstep (n : nat) (s : mst) (l : nat * mact) : option (mst * list mev) :=
  let (t, a) := l in
  if negb (Nat.ltb t n) then None else
  match a with
  | ACall o => match thr s t with PIdle => mcall n s t o | _ => None end
  | ATick => mtick s t
  end.

(** ** Specification *)
(** [sq]: the queue, oldest first; [stub]: the entry whose contents were taken out
    last.  Dequeue returns the oldest value, and the previous stub as garbage.
    The try variants may give up; dequeue answers empty only on an empty queue. *)
Record mabs := { sq : list (nat * nat); stub : nat }.
Definition fifo_seq (a : mabs) (o : mop) (r : mres) : option mabs :=
  match o, r with
  | Enq e v, RU | TryEnq e v, RB true => Some {| sq := sq a ++ [(e, v)]; stub := stub a |}
  | TryEnq _ _, RB false => Some a
  | (Deq | TryDeq), RD (Some (v, g)) =>
      match sq a with
      | (e, w) :: q => if Nat.eqb v w && Nat.eqb g (stub a) then Some {| sq := q; stub := e |} else None
      | [] => None
      end
  | Deq, RD None => match sq a with [] => Some a | _ => None end
  | TryDeq, RD None => Some a
  | _, _ => None
  end.
Definition mabs0 (e : nat) : mabs := {| sq := []; stub := e |}.
