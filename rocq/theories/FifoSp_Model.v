(** Model of the single-producer single-consumer linked FIFO, include/ck_fifo.h:39-185.

    An entry is a number, NULL is [None].  Thread 0 is the enqueuer: it calls
    enqueue, recycle and isempty.  Thread 1 is the dequeuer: it calls dequeue and
    isempty.  One step performs one access to memory the other side may access;
    [tail], [head_snapshot] and [garbage] are used by the enqueuer only, and the
    dequeuer alone writes [head].

    Simplifications: sequentially consistent memory.  The optional m_head/m_tail
    spinlocks (56-100), which callers may take around the operations, and deinit
    (114) are not modelled. *)
From Coq Require Import Arith List Bool.
From Verif Require Import Lib Lin.
Import ListNotations.

Inductive fop := Enq (e v : nat) | Deq | Recycle | IsEmpty.
Inductive fres := RU | RV (v : option nat) | RE (e : option nat) | RB (b : bool).
Definition fres_dec : forall a b : fres, {a = b} + {a <> b}.
Proof. decide equality; decide equality; decide equality. Defined.
Notation fev := (lev fop fres).

(** enqueuer *)
Inductive ppc :=
| PIdle
| E1 (e v : nat)        (* ck_fifo.h:129   entry->value = value *)
| E2 (e v : nat)        (* ck_fifo.h:130   entry->next = NULL *)
| E3 (e : nat)          (* ck_fifo.h:134   store tail->next = entry *)
| E4 (e : nat)          (* ck_fifo.h:135   fifo->tail = entry *)
| R1                    (* ck_fifo.h:169   head_snapshot == garbage? *)
| R2                    (* ck_fifo.h:170-172   head_snapshot = load head; == garbage? *)
| R3                    (* ck_fifo.h:175-177   garbage = garbage->next *)
| I1                    (* ck_fifo.h:183   head = load fifo->head *)
| I2 (h : nat).         (* ck_fifo.h:184   load head->next == NULL *)
(** dequeuer *)
Inductive cpc :=
| CIdle
| D1                    (* ck_fifo.h:149   entry = load head->next *)
| D2 (x : nat)          (* ck_fifo.h:154   *value = entry->value *)
| D3 (x v : nat)        (* ck_fifo.h:156   store head = entry *)
| J1                    (* ck_fifo.h:183 *)
| J2 (h : nat).         (* ck_fifo.h:184 *)

(** struct ck_fifo_spsc (45-53), the entries' [next] and [value] fields (39-42);
    [own e]: the enqueuer may enqueue [e] *)
Record fst_ := { hd : nat; tl : nat; snap : nat; garb : nat;
                 nx : nat -> option nat; vl : nat -> nat; own : nat -> bool; pp : ppc; cp : cpc }.

(** ck_fifo_spsc_init, ck_fifo.h:102-112 *)
Definition finit (stub : nat) : fst_ :=
  {| hd := stub; tl := stub; snap := stub; garb := stub; nx := fun _ => None; vl := fun _ => 0;
     own := fun e => negb (Nat.eqb e stub); pp := PIdle; cp := CIdle |}.

Definition gp (s : fst_) (p : ppc) : fst_ :=
  {| hd := hd s; tl := tl s; snap := snap s; garb := garb s; nx := nx s; vl := vl s; own := own s; pp := p; cp := cp s |}.
Definition gc (s : fst_) (p : cpc) : fst_ :=
  {| hd := hd s; tl := tl s; snap := snap s; garb := garb s; nx := nx s; vl := vl s; own := own s; pp := pp s; cp := p |}.

Definition is_none (o : option nat) : bool := match o with None => true | _ => false end.

(** calls and steps of the two threads *)
Inductive flab := PCall (o : fop) | PTick | CCall (o : fop) | CTick.

Definition fcall (s : fst_) (o : fop) : option (fst_ * list fev) :=
  match pp s, o with
  | PIdle, Enq e v => if own s e
                      then Some ({| hd := hd s; tl := tl s; snap := snap s; garb := garb s; nx := nx s; vl := vl s;
                                    own := upd (own s) e false; pp := E1 e v; cp := cp s |}, [Call 0 o])
                      else None
  | PIdle, Recycle => Some (gp s R1, [Call 0 o])
  | PIdle, IsEmpty => Some (gp s I1, [Call 0 o])
  | _, _ => None
  end.
Definition ptick (s : fst_) : option (fst_ * list fev) :=
  match pp s with
  | PIdle => None
  | E1 e v => Some ({| hd := hd s; tl := tl s; snap := snap s; garb := garb s; nx := nx s; vl := upd (vl s) e v;
                       own := own s; pp := E2 e v; cp := cp s |}, [])
  | E2 e v => Some ({| hd := hd s; tl := tl s; snap := snap s; garb := garb s; nx := upd (nx s) e None; vl := vl s;
                       own := own s; pp := E3 e; cp := cp s |}, [])
  | E3 e => Some ({| hd := hd s; tl := tl s; snap := snap s; garb := garb s; nx := upd (nx s) (tl s) (Some e); vl := vl s;
                     own := own s; pp := E4 e; cp := cp s |}, [Lin 0 RU])
  | E4 e => Some ({| hd := hd s; tl := e; snap := snap s; garb := garb s; nx := nx s; vl := vl s;
                     own := own s; pp := PIdle; cp := cp s |}, [Ret 0 RU])
  | R1 => Some (gp s (if Nat.eqb (snap s) (garb s) then R2 else R3), [])
  | R2 => if Nat.eqb (hd s) (garb s)
          then Some ({| hd := hd s; tl := tl s; snap := hd s; garb := garb s; nx := nx s; vl := vl s;
                        own := own s; pp := PIdle; cp := cp s |}, [Lin 0 (RE None); Ret 0 (RE None)])
          else Some ({| hd := hd s; tl := tl s; snap := hd s; garb := garb s; nx := nx s; vl := vl s;
                        own := own s; pp := R3; cp := cp s |}, [])
  | R3 => match nx s (garb s) with
          | Some g' => Some ({| hd := hd s; tl := tl s; snap := snap s; garb := g'; nx := nx s; vl := vl s;
                                own := upd (own s) (garb s) true; pp := PIdle; cp := cp s |},
                             [Lin 0 (RE (Some (garb s))); Ret 0 (RE (Some (garb s)))])
          | None => None (* garbage becomes NULL; proved unreachable in [fifo_spsc_no_stuck] *)
          end
  | I1 => Some (gp s (I2 (hd s)), [Lin 0 (RB (is_none (nx s (hd s))))])
          (* the [Lin] event is ghost; the value returned is the one loaded in the next step *)
  | I2 h => Some (gp s PIdle, [Ret 0 (RB (is_none (nx s h)))])
  end.

Definition ccall (s : fst_) (o : fop) : option (fst_ * list fev) :=
  match cp s, o with
  | CIdle, Deq => Some (gc s D1, [Call 1 o])
  | CIdle, IsEmpty => Some (gc s J1, [Call 1 o])
  | _, _ => None
  end.
Definition ctick (s : fst_) : option (fst_ * list fev) :=
  match cp s with
  | CIdle => None
  | D1 => match nx s (hd s) with
          | None => Some (gc s CIdle, [Lin 1 (RV None); Ret 1 (RV None)])
          | Some x => Some (gc s (D2 x), [])
          end
  | D2 x => Some (gc s (D3 x (vl s x)), [])
  | D3 x v => Some ({| hd := x; tl := tl s; snap := snap s; garb := garb s; nx := nx s; vl := vl s; own := own s; pp := pp s; cp := CIdle |},
                    [Lin 1 (RV (Some v)); Ret 1 (RV (Some v))])
  | J1 => Some (gc s (J2 (hd s)), [])
  | J2 h => Some (gc s CIdle, [Lin 1 (RB (is_none (nx s h))); Ret 1 (RB (is_none (nx s h)))])
  end.

Definition fstep (s : fst_) (l : flab) : option (fst_ * list fev) :=
  match l with PCall o => fcall s o | PTick => ptick s | CCall o => ccall s o | CTick => ctick s end.

(** ** Specification *)
(** The sequential object: [sq] the queue, oldest first; [stub] the entry whose
    contents were taken out last (or the initial stub); [used] the entries whose
    contents were taken out before that and that were not recycled since. *)
Record fabs := { sq : list (nat * nat); stub : nat; used : list nat }.
Definition fifo_seq (a : fabs) (o : fop) (r : fres) : option fabs :=
  match o, r with
  | Enq e v, RU => Some {| sq := sq a ++ [(e, v)]; stub := stub a; used := used a |}
  | Deq, RV (Some v) => match sq a with
                        | (e, w) :: q => if Nat.eqb v w then Some {| sq := q; stub := e; used := used a ++ [stub a] |} else None
                        | [] => None
                        end
  | Deq, RV None => match sq a with [] => Some a | _ => None end
  | Recycle, RE (Some e) => match used a with
                            | x :: l => if Nat.eqb e x then Some {| sq := sq a; stub := stub a; used := l |} else None
                            | [] => None
                            end
  | Recycle, RE None => match used a with [] => Some a | _ => None end
  | IsEmpty, RB b => if Bool.eqb b (match sq a with [] => true | _ => false end) then Some a else None
  | _, _ => None
  end.
Definition fabs0 (e : nat) : fabs := {| sq := []; stub := e; used := [] |}.

(** counting: [e] enters the queue with an enqueue, and leaves with a recycle *)
Definition enq_of (e : nat) (o : fop) : nat := match o with Enq x _ => if Nat.eq_dec x e then 1 else 0 | _ => 0 end.
Definition rec_of (e : nat) (r : fres) : nat := match r with RE (Some x) => if Nat.eq_dec x e then 1 else 0 | _ => 0 end.
