(** Single-producer single-consumer ring on x86-TSO: _ck_ring_enqueue_sp, _ck_ring_enqueue_sp_size and
    _ck_ring_dequeue_sc (include/ck_ring.h:173-250).  The ring has 2^k slots of [w] words; memcpy copies a
    word at a time, in any order.  ck_pr_fence_store and ck_pr_fence_load are compiler barriers here.

    Locations: [CH] is c_head, [PT] is p_tail, [cell c j] is word [j] of the slot for cursor [c].  Cursors
    are unsigned int.  Thread 0 is the producer, thread 1 the consumer.  p_head is not used by these. *)
From Coq Require Import ZArith Arith List Bool.
From Verif Require Import Lib Tso TsoRing_Spec.
Import ListNotations.
Local Open Scope Z_scope.

Definition W : Z := 4294967296.
Definition CH : loc := Reg 0.
Definition PT : loc := Reg 1.

Inductive pc :=
| Idle
| E1 (x : list Z)                                  (* 183: load c_head *)
| E2 (x : list Z) (c : Z)                          (* 184: load p_tail *)
| E3 (x : list Z) (c p : Z) (todo : list nat)      (* 193: words still to be copied *)
| D1                                               (* 228: load c_head *)
| D2 (c : Z)                                       (* 229: load p_tail *)
| D3 (c : Z) (todo : list nat) (got : list (nat * Z)).   (* 241: words still to be copied, words copied *)
Inductive act := AEnq (x : list Z) | ADeq | ATick | ACopy (j : nat).

Section Code.
Variable k : Z.
Variable w : nat.
Definition mask : Z := 2 ^ k - 1.
Definition cell (c : Z) (j : nat) : loc := Dat (Z.to_nat (Z.land c mask) * w + j).
Definition words : list nat := seq 0 w.
Definition memb (j : nat) (l : list nat) : bool := existsb (Nat.eqb j) l.
Definition lookup (j : nat) (got : list (nat * Z)) : Z := match find (fun e => Nat.eqb j (fst e)) got with Some e => snd e | None => 0 end.
Definition entry (got : list (nat * Z)) : list Z := map (fun j => lookup j got) words.
(** 186-187 *)
Definition size (c p : Z) : nat := Z.to_nat (Z.land ((p - c) mod W) mask).

Definition code (t : nat) (q : pc) (a : act) : option (instr pc qev) :=
  match q, a with
  | Idle, AEnq x => if Nat.eqb t 0 && Nat.eqb (length x) w then Some (Local (E1 x) []) else None
  | E1 x, ATick => Some (Ld CH (fun c => (E2 x c, [Look])))
  (* 184-190 *)
  | E2 x c, ATick =>
      Some (Ld PT (fun p => if Z.land ((p + 1) mod W) mask =? Z.land c mask then (Idle, [Size (size c p); Full])
                            else (E3 x c p words, [])))
  (* 192-193 *)
  | E3 x c p todo, ACopy j =>
      if memb j todo then Some (St (cell p j) (nth j x 0) (E3 x c p (remove Nat.eq_dec j todo)) []) else None
  (* 200-201 *)
  | E3 x c p todo, ATick =>
      match todo with [] => Some (St PT ((p + 1) mod W) Idle [Size (size c p); Enq x]) | _ => None end
  | Idle, ADeq => if Nat.eqb t 1 then Some (Local D1 []) else None
  | D1, ATick => Some (Ld CH (fun c => (D2 c, [])))
  (* 229-232 *)
  | D2 c, ATick => Some (Ld PT (fun p => if c =? p then (Idle, [Empty]) else (D3 c words [], [])))
  (* 240-241 *)
  | D3 c todo got, ACopy j =>
      if memb j todo then Some (Ld (cell c j) (fun v => (D3 c (remove Nat.eq_dec j todo) ((j, v) :: got), []))) else None
  (* 248-249 *)
  | D3 c todo got, ATick =>
      match todo with [] => Some (St CH ((c + 1) mod W) Idle [Deq (entry got)]) | _ => None end
  | _, _ => None
  end.
End Code.
Definition arr (t : nat) (x : loc) (v : Z) : list qev :=
  match x with Reg 0 => [Freed] | Reg 1 => [Sent] | _ => [] end.
Definition init : tso pc := mkT (fun _ => 0) (fun _ => []) (fun _ => Idle).
