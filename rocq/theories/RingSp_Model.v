(** Single-producer single-consumer ring: include/ck_ring.h.  Cursors are 32-bit
    words with explicit wrap-around.  memcpy of one entry is one step.  Thread 0
    is the producer, thread 1 the consumer. *)
From Coq Require Import NArith Arith List Bool.
From Verif Require Import Lib Lin.
Import ListNotations.
Local Open Scope N_scope.

Definition w32 (x : N) : N := x mod 2 ^ 32.
(** [a - b] on unsigned int *)
Definition sub32 (a b : N) : N := w32 (a + (2 ^ 32 - w32 b)).

(** include/ck_ring.h:40-49, struct ck_ring *)
Record ring := { c_head : N; p_tail : N; p_head : N; size : N; mask : N }.

(** 119-129 *)
Definition ck_ring_init (sz : N) : ring :=
  {| c_head := 0; p_tail := 0; p_head := 0; size := sz; mask := w32 (sz + (2 ^ 32 - 1)) |}.
(** 56-64 *)
Definition ck_ring_size (r : ring) : N := N.land (sub32 (p_tail r) (c_head r)) (mask r).
(** 66-71 *)
Definition ck_ring_capacity (r : ring) : N := size r.
(** 78-89; result: new ring, whether anything was changed *)
Definition ck_ring_repair (r : ring) : ring * bool :=
  if p_tail r =? p_head r then (r, false)
  else ({| c_head := c_head r; p_tail := p_head r; p_head := p_head r; size := size r; mask := mask r |}, true).
(** 97-117 *)
Definition ck_ring_valid (r : ring) : bool :=
  if negb (N.land (size r) (w32 (size r + (2 ^ 32 - 1))) =? 0) then false
  else if p_head r <? c_head r then false
  else if size r <=? sub32 (p_head r) (c_head r) then false
  else true.

Definition set_c (r : ring) (v : N) : ring :=
  {| c_head := v; p_tail := p_tail r; p_head := p_head r; size := size r; mask := mask r |}.
Definition set_t (r : ring) (v : N) : ring :=
  {| c_head := c_head r; p_tail := v; p_head := p_head r; size := size r; mask := mask r |}.

(** operations and answers *)
Inductive op := OEnq (v : nat) | OReserve | OWrite (v : nat) | OCommit | ODeq.
Inductive res := RB (b : bool) | RU | RV (v : option nat).
Lemma res_dec : forall a b : res, {a = b} + {a <> b}.
Proof. repeat decide equality. Defined.

(** linearizability events, the moment an enqueue/reserve samples the consumer
    cursor, and the occupancy it reports on return *)
Inductive ev := L (e : lev op res) | Look | Size (n : N).

Inductive ppc :=
| PIdle
| PEnq (v : nat)                      (* 183: about to load c_head *)
| PWrite (v : nat) (prod sz : N)      (* 193: about to copy the entry *)
| PPub (v : nat) (prod sz : N)        (* 200: about to store p_tail *)
| PRes                                (* 148: about to load c_head *)
| PGot (w : bool).                    (* holds a reserved slot; written or not *)
Inductive cpc :=
| CIdle
| CLoad (cur : N)                    (* 229: about to load p_tail *)
| CRead (cur : N)                    (* 241: about to copy the entry out *)
| CPub (v : nat) (cur : N).          (* 248: about to store c_head *)

Record state := { rg : ring; buf : N -> nat; pp : ppc; cp : cpc }.
Definition init (k : N) : state :=
  {| rg := ck_ring_init (2 ^ k); buf := fun _ => O; pp := PIdle; cp := CIdle |}.

Inductive lab := PCall (o : op) | PStep | CCall | CStep.

Definition updN {A} (f : N -> A) (k : N) (v : A) : N -> A := fun x => if x =? k then v else f x.
Definition slot (r : ring) (c : N) : N := N.land c (mask r).
Definition full (r : ring) (cur prod : N) : bool :=
  N.land (w32 (prod + 1)) (mask r) =? N.land cur (mask r).
Definition occ (r : ring) (cur prod : N) : N := N.land (sub32 prod cur) (mask r).

Definition setp (s : state) (p : ppc) : state := {| rg := rg s; buf := buf s; pp := p; cp := cp s |}.
Definition setc (s : state) (c : cpc) : state := {| rg := rg s; buf := buf s; pp := pp s; cp := c |}.

Definition step (s : state) (l : lab) : option (state * list ev) :=
  let r := rg s in
  match l with
  | PCall o =>
      match o, pp s with
      (* 173-200 *)
      | OEnq v, PIdle => Some (setp s (PEnq v), [L (Call 0 o)])
      (* 139-158 *)
      | OReserve, PIdle => Some (setp s PRes, [L (Call 0 o)])
      (* the client fills the slot at buffer + ts * (producer & mask) that reserve returned (157) *)
      | OWrite v, PGot _ =>
          Some ({| rg := r; buf := updN (buf s) (slot r (p_tail r)) v; pp := PGot true; cp := cp s |},
                [L (Call 0 o); L (Lin 0 RU); L (Ret 0 RU)])
      (* 164-171 *)
      | OCommit, PGot true =>
          Some ({| rg := set_t r (w32 (p_tail r + 1)); buf := buf s; pp := PIdle; cp := cp s |},
                [L (Call 0 o); L (Lin 0 RU); L (Ret 0 RU)])
      | _, _ => None
      end
  | PStep =>
      match pp s with
      | PEnq v =>
          (* 183-190: c_head is loaded; p_tail is the producer's own *)
          if full r (c_head r) (p_tail r)
          then Some (setp s PIdle, [Look; L (Lin 0 (RB false)); L (Ret 0 (RB false)); Size (occ r (c_head r) (p_tail r))])
          else Some (setp s (PWrite v (p_tail r) (occ r (c_head r) (p_tail r))), [Look])
      | PWrite v prod sz =>
          (* 192-193 *)
          Some ({| rg := r; buf := updN (buf s) (slot r prod) v; pp := PPub v prod sz; cp := cp s |}, [])
      | PPub v prod sz =>
          (* 200 *)
          Some ({| rg := set_t r (w32 (prod + 1)); buf := buf s; pp := PIdle; cp := cp s |},
                [L (Lin 0 (RB true)); L (Ret 0 (RB true)); Size sz])
      | PRes =>
          (* 148-157 *)
          if full r (c_head r) (p_tail r)
          then Some (setp s PIdle, [Look; L (Lin 0 (RB false)); L (Ret 0 (RB false)); Size (occ r (c_head r) (p_tail r))])
          else Some (setp s (PGot false), [Look; L (Lin 0 (RB true)); L (Ret 0 (RB true)); Size (occ r (c_head r) (p_tail r))])
      | _ => None
      end
  | CCall =>
      match cp s with
      (* 219-228: c_head is the consumer's own *)
      | CIdle => Some (setc s (CLoad (c_head r)), [L (Call 1 ODeq)])
      | _ => None
      end
  | CStep =>
      match cp s with
      | CLoad cur =>
          (* 229-232 *)
          if cur =? p_tail r
          then Some (setc s CIdle, [L (Lin 1 (RV None)); L (Ret 1 (RV None))])
          else Some (setc s (CRead cur), [])
      | CRead cur =>
          (* 240-241 *)
          Some (setc s (CPub (buf s (slot r cur)) cur), [])
      | CPub v cur =>
          (* 248 *)
          Some ({| rg := set_c r (w32 (cur + 1)); buf := buf s; pp := pp s; cp := CIdle |},
                [L (Lin 1 (RV (Some v))); L (Ret 1 (RV (Some v)))])
      | CIdle => None
      end
  end.

(** ** Specification: a FIFO of capacity [cap] with a reservation slot *)
Record fifo := { q : list nat; resv : option (option nat) }.
Definition fifo0 : fifo := {| q := []; resv := None |}.
Definition fifo_seq (cap : nat) (f : fifo) (o : op) (r : res) : option fifo :=
  match o, r with
  | OEnq v, RB true => if Nat.ltb (length (q f)) cap then Some {| q := q f ++ [v]; resv := resv f |} else None
  | OEnq v, RB false => if Nat.eqb (length (q f)) cap then Some f else None
  | OReserve, RB true => if Nat.ltb (length (q f)) cap then Some {| q := q f; resv := Some None |} else None
  | OReserve, RB false => if Nat.eqb (length (q f)) cap then Some f else None
  | OWrite v, RU => match resv f with Some _ => Some {| q := q f; resv := Some (Some v) |} | None => None end
  | OCommit, RU => match resv f with
                   | Some (Some v) => if Nat.ltb (length (q f)) cap then Some {| q := q f ++ [v]; resv := None |} else None
                   | _ => None
                   end
  | ODeq, RV None => match q f with [] => Some f | _ => None end
  | ODeq, RV (Some v) => match q f with
                         | x :: q' => if Nat.eqb x v then Some {| q := q'; resv := resv f |} else None
                         | [] => None
                         end
  | _, _ => None
  end.

Fixpoint lin_log (log : list ev) : list (lev op res) :=
  match log with [] => [] | L e :: log => e :: lin_log log | _ :: log => lin_log log end.

(** The whole log: linearizable, and every reported size is the length of the
    abstract queue at the moment the call sampled the consumer cursor. *)
Definition ring_step (cap : nat) (a : (fifo * (nat -> phase op res)) * nat) (e : ev) :
  option ((fifo * (nat -> phase op res)) * nat) :=
  match e with
  | L e => match lstep (fifo_seq cap) res_dec (fst a) e with Some b => Some (b, snd a) | None => None end
  | Look => Some (fst a, length (q (fst (fst a))))
  | Size n => if n =? N.of_nat (snd a) then Some a else None
  end.
