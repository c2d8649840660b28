(** The single-producer single-consumer linked FIFO of include/ck_fifo.h:39-185 on x86-TSO.

    Thread 0 calls enqueue, recycle and isempty, thread 1 dequeue and isempty.  [tail],
    [head_snapshot] and [garbage] are used by the producer only and are kept outside memory.  The
    stores to entries (129, 130, 134) go to the producer's buffer, the store to [head] (156) to the
    consumer's; each arrives at a later flush, oldest first.  A load sees the thread's own buffer
    first.  The fences (133, 155) are compiler barriers on this platform.

    The store of the tail pointer (135) is private, so it is taken together with the store before
    it; the store of the value dequeued (154) goes to the client's own memory.  The spinlocks of the
    structure (56-100) and deinit (114) are not modelled. *)
From Coq Require Import Arith List Bool.
From Verif Require Import Lib TsoFifoSp_Spec.
Import ListNotations.

Inductive sto := SV (e v : nat) | SN (e : nat) (x : option nat).

(** producer *)
Inductive ppc :=
| PIdle
| E1 (e v : nat)        (* 129   entry->value = value *)
| E2 (e v : nat)        (* 130   entry->next = NULL *)
| E3 (e v : nat)        (* 134-135   store tail->next = entry; tail = entry *)
| R1                    (* 169   head_snapshot == garbage? *)
| R2                    (* 170-172   head_snapshot = load head; == garbage? *)
| R3                    (* 175-177   garbage = garbage->next *)
| I1                    (* 183   head = load fifo->head *)
| I2 (h : nat).         (* 184   load head->next == NULL *)
(** consumer *)
Inductive cpc :=
| CIdle
| D1                    (* 149   entry = load head->next *)
| D2 (x : nat)          (* 154   *value = entry->value *)
| D3 (x v : nat)        (* 156   store head = entry *)
| J1                    (* 183 *)
| J2 (h : nat).         (* 184 *)

(** struct ck_fifo_spsc (45-53), the entries' fields (39-42), the buffers;
    [own e]: the client may enqueue [e] *)
Record st := { hd : nat; tl : nat; snap : nat; garb : nat; nx : nat -> option nat; vl : nat -> nat;
               own : nat -> bool; pb : list sto; cb : list nat; pp : ppc; cp : cpc }.

(** ck_fifo_spsc_init, 102-112 *)
Definition init (stub : nat) : st :=
  {| hd := stub; tl := stub; snap := stub; garb := stub; nx := fun _ => None; vl := fun _ => 0;
     own := fun e => negb (Nat.eqb e stub); pb := []; cb := []; pp := PIdle; cp := CIdle |}.

Definition gp (s : st) (p : ppc) : st :=
  {| hd := hd s; tl := tl s; snap := snap s; garb := garb s; nx := nx s; vl := vl s; own := own s; pb := pb s; cb := cb s; pp := p; cp := cp s |}.
Definition gc (s : st) (p : cpc) : st :=
  {| hd := hd s; tl := tl s; snap := snap s; garb := garb s; nx := nx s; vl := vl s; own := own s; pb := pb s; cb := cb s; pp := pp s; cp := p |}.
(** a store of the producer *)
Definition ps (s : st) (x : sto) (p : ppc) : st :=
  {| hd := hd s; tl := tl s; snap := snap s; garb := garb s; nx := nx s; vl := vl s; own := own s; pb := pb s ++ [x]; cb := cb s; pp := p; cp := cp s |}.

(** [next] as the producer sees it: its youngest buffered store, or memory *)
Fixpoint vnx (b : list sto) (e : nat) (d : option nat) : option nat :=
  match b with
  | [] => d
  | SN x o :: b => vnx b e (if Nat.eqb x e then o else d)
  | SV _ _ :: b => vnx b e d
  end.
(** [head] as the consumer sees it *)
Definition chd (s : st) : nat := last (cb s) (hd s).
Definition is_none (o : option nat) : bool := match o with None => true | _ => false end.

Inductive lab := CallEnq (e v : nat) | CallRec | CallEmpP | PTick | PFlush | CallDeq | CallEmpC | CTick | CFlush.

Definition ptick (s : st) : option (st * list fev) :=
  match pp s with
  | PIdle => None
  | E1 e v => Some (ps s (SV e v) (E2 e v), [])
  | E2 e v => Some (ps s (SN e None) (E3 e v), [])
  | E3 e v => Some ({| hd := hd s; tl := e; snap := snap s; garb := garb s; nx := nx s; vl := vl s; own := own s;
                       pb := pb s ++ [SN (tl s) (Some e)]; cb := cb s; pp := PIdle; cp := cp s |}, [Enq e v])
  | R1 => Some (gp s (if Nat.eqb (snap s) (garb s) then R2 else R3), [])
  | R2 => let s' := {| hd := hd s; tl := tl s; snap := hd s; garb := garb s; nx := nx s; vl := vl s; own := own s;
                       pb := pb s; cb := cb s; pp := pp s; cp := cp s |} in
          if Nat.eqb (hd s) (garb s) then Some (gp s' PIdle, [NoRec]) else Some (gp s' R3, [])
  | R3 => match vnx (pb s) (garb s) (nx s (garb s)) with
          | Some g => Some ({| hd := hd s; tl := tl s; snap := snap s; garb := g; nx := nx s; vl := vl s;
                               own := upd (own s) (garb s) true; pb := pb s; cb := cb s; pp := PIdle; cp := cp s |}, [Rec (garb s)])
          | None => None (* garbage becomes NULL: unreachable, [fifo_spsc_tso_no_stuck] *)
          end
  | I1 => Some (gp s (I2 (hd s)), [Look])
  | I2 h => Some (gp s PIdle, [EmpP (is_none (vnx (pb s) h (nx s h)))])
  end.
Definition ctick (s : st) : option (st * list fev) :=
  match cp s with
  | CIdle => None
  | D1 => match nx s (chd s) with None => Some (gc s CIdle, [NoDeq]) | Some x => Some (gc s (D2 x), []) end
  | D2 x => Some (gc s (D3 x (vl s x)), [])
  | D3 x v => Some ({| hd := hd s; tl := tl s; snap := snap s; garb := garb s; nx := nx s; vl := vl s; own := own s;
                       pb := pb s; cb := cb s ++ [x]; pp := pp s; cp := CIdle |}, [Deq v])
  | J1 => Some (gc s (J2 (chd s)), [])
  | J2 h => Some (gc s CIdle, [EmpC (is_none (nx s h))])
  end.

Definition step (s : st) (l : lab) : option (st * list fev) :=
  match l with
  | CallEnq e v => match pp s with
                   | PIdle => if own s e
                              then Some ({| hd := hd s; tl := tl s; snap := snap s; garb := garb s; nx := nx s; vl := vl s;
                                            own := upd (own s) e false; pb := pb s; cb := cb s; pp := E1 e v; cp := cp s |}, [])
                              else None
                   | _ => None
                   end
  | CallRec => match pp s with PIdle => Some (gp s R1, []) | _ => None end
  | CallEmpP => match pp s with PIdle => Some (gp s I1, []) | _ => None end
  | PTick => ptick s
  | PFlush => match pb s with
              | [] => None
              | SV e v :: b => Some ({| hd := hd s; tl := tl s; snap := snap s; garb := garb s; nx := nx s; vl := upd (vl s) e v;
                                        own := own s; pb := b; cb := cb s; pp := pp s; cp := cp s |}, [])
              | SN e x :: b => Some ({| hd := hd s; tl := tl s; snap := snap s; garb := garb s; nx := upd (nx s) e x; vl := vl s;
                                        own := own s; pb := b; cb := cb s; pp := pp s; cp := cp s |},
                                     match x with Some _ => [Sent] | None => [] end)
              end
  | CallDeq => match cp s with CIdle => Some (gc s D1, []) | _ => None end
  | CallEmpC => match cp s with CIdle => Some (gc s J1, []) | _ => None end
  | CTick => ctick s
  | CFlush => match cb s with
              | [] => None
              | x :: b => Some ({| hd := x; tl := tl s; snap := snap s; garb := garb s; nx := nx s; vl := vl s; own := own s;
                                   pb := pb s; cb := b; pp := pp s; cp := cp s |}, [Freed])
              end
  end.
