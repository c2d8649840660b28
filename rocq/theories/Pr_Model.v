(** Model of the portable fallbacks of include/ck_pr.h: the atomic operations that are built from a
    load and compare-and-swap where the architecture does not provide them (222-487 add, sub, and,
    or, xor; 491-620 btc, btr, bts; 624-903 inc, dec and their zero tests; 905-1108 not, neg;
    1110-1270 faa, fas), on one word that any number of threads use, together with plain loads,
    stores and compare-and-swap.

    A word is its bit pattern, a number below 2^w; signed types are two's complement.  One step
    performs one shared access; an operation returns with its last access.

    Simplifications: the primitive load, store and compare-and-swap are atomic and sequentially
    consistent (include/gcc/ck_pr.h:53-76, 150-198); doubles are not modelled; bit offsets are below
    the width; pointers have 64 bits, unsigned int and int 32. *)
From Coq Require Import NArith ZArith Arith List Bool.
From Verif Require Import Lib Lin.
Import ListNotations.
Local Open Scope N_scope.

(** the suffix of the function *)
Inductive knd := K8 | K16 | K32 | K64 | KChar | KInt | KUint | KPtr.
Definition width (k : knd) : N :=
  match k with K8 | KChar => 8 | K16 => 16 | K32 | KInt | KUint => 32 | K64 | KPtr => 64 end.
Definition wrap (k : knd) (x : N) : N := x mod 2 ^ width k.

Inductive binop := BAdd | BSub | BAnd | BOr | BXor.
Inductive btop := BTC | BTR | BTS.
(** [Incz]: ck_pr_inc_*_is_zero and ck_pr_inc_*_zero; [Negz]: ck_pr_neg_*_zero *)
Inductive prop :=
| Load | Store (v : N) | Cas (c v : N) | CasV (c v : N)
| Bin (b : binop) (d : N) | Btx (b : btop) (i : N)
| Inc | Dec | Incz | Decz | Not | Neg | Negz | Faa (d : N) | Fas (v : N).
Inductive pres := RU | RB (b : bool) | RV (v : N) | RBV (b : bool) (v : N).

(** the value of the bit pattern as an int *)
Definition sval (x : N) : Z := if x <? 2 ^ 31 then Z.of_N x else (Z.of_N x - 2 ^ 32)%Z.
(** the result of signed arithmetic on int: undefined if it is not representable.  The other types
    are unsigned, or promoted to int and converted back without overflow. *)
Definition arith (k : knd) (z : Z) (x : N) : option N :=
  match k with
  | KInt => if ((- 2 ^ 31 <=? z) && (z <? 2 ^ 31))%Z then Some x else None
  | _ => Some x
  end.

(** previous P value: ck_pr.h:232 *)
Definition bin (k : knd) (b : binop) (p d : N) : option N :=
  match b with
  | BAdd => arith k (sval p + sval d) (wrap k (p + d))
  | BSub => arith k (sval p - sval d) (wrap k (p + 2 ^ width k - d))
  | BAnd => Some (N.land p d)
  | BOr => Some (N.lor p d)
  | BXor => Some (N.lxor p d)
  end.
(** (T)1 << offset: undefined for the sign bit of an int *)
Definition bit1 (k : knd) (i : N) : option N :=
  match k with KInt => if i =? 31 then None else Some (N.shiftl 1 i) | _ => Some (N.shiftl 1 i) end.
(** ~x, for bit patterns *)
Definition compl (k : knd) (x : N) : N := N.lxor x (N.ones (width k)).
(** previous P (R ((T)1 << offset)): ck_pr.h:500 and the instances at 512-617 *)
Definition btx (k : knd) (b : btop) (p i : N) : option N :=
  match bit1 k i with
  | None => None
  | Some m => Some (match b with BTC => N.lxor p m | BTR => N.land p (compl k m) | BTS => N.lor p m end)
  end.
(** (T)Z in the instances of CK_PR_UNARY_Z for inc: ck_pr.h:670-881 *)
Definition zinc (k : knd) : N :=
  match k with
  | KChar => 255 | KInt => 2 ^ 32 - 1       (* -1 *)
  | KUint => 2 ^ 32 - 1                     (* UINT_MAX *)
  | KPtr => 2 ^ 32 - 1                      (* UINT_MAX: ck_pr.h:769 *)
  | K64 => 2 ^ 64 - 1 | K32 => 2 ^ 32 - 1 | K16 => 2 ^ 16 - 1 | K8 => 2 ^ 8 - 1
  end.
(** -previous: ck_pr.h:915, 932 *)
Definition neg (k : knd) (p : N) : option N := arith k (- sval p) (wrap k (2 ^ width k - p)).

(** the new value that the loop tries to install; None: undefined behaviour *)
Definition newval (k : knd) (o : prop) (p : N) : option N :=
  match o with
  | Bin b d => bin k b p d
  | Btx b i => btx k b p i
  | Inc | Incz => bin k BAdd p 1            (* ck_pr.h:628, 642 *)
  | Dec | Decz => bin k BSub p 1
  | Not => Some (compl k p)                 (* ck_pr.h:915 *)
  | Neg | Negz => neg k p
  | Faa d => bin k BAdd p d                 (* ck_pr.h:1120 *)
  | Fas v => Some v                         (* ck_pr.h:1135 *)
  | Load | Store _ | Cas _ _ | CasV _ _ => None
  end.
(** the result, from the value that was replaced *)
Definition answer (k : knd) (o : prop) (p : N) : pres :=
  match o with
  | Btx _ i => RB (N.odd (N.shiftr p i))    (* ck_pr.h:502 *)
  | Incz => RB (p =? zinc k)                (* ck_pr.h:645 *)
  | Decz => RB (p =? 1)
  | Negz => RB (p =? 0)                     (* ck_pr.h:936 *)
  | Faa _ | Fas _ => RV p                   (* ck_pr.h:1124, 1139 *)
  | _ => RU
  end.

Inductive pc := PIdle | PLoad (o : prop) | PCas (o : prop) (p : N) | PPrim (o : prop) | PUb.
Record st := mk { mem : N; pcs : nat -> pc }.
Definition go (s : st) (t : nat) (p : pc) : st := mk (mem s) (upd (pcs s) t p).
Definition init (v : N) : st := mk v (fun _ => PIdle).
Inductive act := ACall (o : prop) | ATick.

Definition okarg (k : knd) (o : prop) : bool :=
  match o with
  | Store v | Bin _ v | Faa v | Fas v => v <? 2 ^ width k
  | Cas c v | CasV c v => (c <? 2 ^ width k) && (v <? 2 ^ width k)
  | Btx _ i => i <? width k
  | _ => true
  end.
Definition prim (o : prop) : bool := match o with Load | Store _ | Cas _ _ | CasV _ _ => true | _ => false end.
Definition fin (s : st) (v : N) (t : nat) (r : pres) : option (st * list (lev prop pres)) :=
  Some (mk v (upd (pcs s) t PIdle), [Lin t r; Ret t r]).

Definition tick (k : knd) (s : st) (t : nat) : option (st * list (lev prop pres)) :=
  match pcs s t with
  | PIdle | PUb => None
  | PPrim Load => fin s (mem s) t (RV (mem s))
  | PPrim (Store v) => fin s v t RU
  | PPrim (Cas c v) => fin s (if mem s =? c then v else mem s) t (RB (mem s =? c))
  | PPrim (CasV c v) => fin s (if mem s =? c then v else mem s) t (RBV (mem s =? c) (mem s))
  | PPrim _ => None
  | PLoad o => Some (go s t (PCas o (mem s)), [])
  | PCas o p =>
      (* the arguments of ck_pr_cas_*_value are computed first; it sets previous *)
      match newval k o p with
      | None => Some (go s t PUb, [])
      | Some v => if mem s =? p then fin s v t (answer k o p) else Some (go s t (PCas o (mem s)), [])
      end
  end.
Definition pstep (k : knd) (s : st) (l : nat * act) : option (st * list (lev prop pres)) :=
  let (t, a) := l in
  match a with
  | ATick => tick k s t
  | ACall o => match pcs s t with
               | PIdle => if okarg k o then Some (go s t (if prim o then PPrim o else PLoad o), [Call t o]) else None
               | _ => None
               end
  end.
