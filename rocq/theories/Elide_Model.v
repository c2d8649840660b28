(** The adaptive elision policy of include/ck_elide.h: configuration, statistics and the decision taken
    after an aborted transaction.  Conversions: n_fallback and n_elide are unsigned int, skip is an
    unsigned short, retry an int. *)
From Coq Require Import ZArith List Bool.
From Verif Require Import Rtm.
Import ListNotations.
Local Open Scope Z_scope.

(** ck_elide.h:49-56 *)
Record cfg := { skip_busy : Z; retry_busy : Z; skip_other : Z; retry_other : Z; skip_conflict : Z; retry_conflict : Z }.
(** ck_elide.h:58-65 *)
Definition default_cfg : cfg :=
  {| skip_busy := 5; retry_busy := 256; skip_other := 3; retry_other := 3; skip_conflict := 2; retry_conflict := 5 |}.
(** ck_elide.h:67-82 *)
Record stat := { n_fallback : Z; n_elide : Z; skip : Z }.
Definition stat_init : stat := {| n_fallback := 0; n_elide := 0; skip := 0 |}.
Definition UINT : Z := 2 ^ 32.
Definition USHRT_MAX : Z := 2 ^ 16 - 1.
Definition LOCK_BUSY : Z := 255.   (* ck_elide.h:91 *)

Inductive hint := HRetry | HSpin | HStop.

Definition set_skip (st : stat) (v : Z) : stat := {| n_fallback := n_fallback st; n_elide := n_elide st; skip := v |}.

(** _ck_elide_fallback, ck_elide.h:93-132: hint, new retry, new statistics *)
Definition fallback (retry : Z) (st : stat) (c : cfg) (status : Z) : hint * Z * stat :=
  let st := {| n_fallback := (n_fallback st + 1) mod UINT; n_elide := n_elide st; skip := skip st |} in
  if 0 <? retry then (HRetry, retry, st)
  else if negb (skip st =? 0) then (HStop, retry, st)
  else if negb (Z.land status EXPLICIT =? 0) then
    if CODE status =? LOCK_BUSY then (HSpin, retry_busy c, set_skip st (skip_busy c))
    else (HStop, retry, set_skip st (skip_other c))
  else if negb (Z.land status RETRY =? 0) && negb (Z.land status CONFLICT =? 0) then
    (HRetry, retry_conflict c, set_skip st (skip_conflict c))
  else (HStop, retry, set_skip st USHRT_MAX).

(** ck_elide.h:196-197: the statistics after a successful elision *)
Definition elided (st : stat) : stat :=
  {| n_fallback := n_fallback st; n_elide := (n_elide st + 1) mod UINT; skip := 0 |}.

(** * One call of lock_adaptive, ck_elide.h:144-189, alone: what the transactions and L_P do is input *)
Inductive pst :=
| PBegin (retry : Z)   (* 159: about to begin a transaction *)
| PSpin (retry : Z)    (* 172: about to decrement retry *)
| PIn                  (* 164: returned inside a transaction *)
| PAcq                 (* 187: calls L *)
| POver.               (* the decrement at 172 overflows an int *)
Inductive pin :=
| Started              (* the transaction starts and L_P is false *)
| Aborted (status : Z)
| Seen (busy : bool).  (* L_P at 173; not evaluated when retry reaches zero *)
Definition INT_MIN : Z := - 2 ^ 31.

Definition ploop (retry : Z) : pst := if 0 <? retry - 1 then PBegin (retry - 1) else PAcq.   (* 184 *)
Definition penter (c : cfg) (s : stat) : stat * pst :=                                       (* 152-157 *)
  if skip s =? 0 then (s, PBegin (retry_conflict c)) else (set_skip s (skip s - 1), PAcq).
Definition pstep (c : cfg) (x : stat * pst) (i : pin) : option (stat * pst) :=
  let (s, q) := x in
  match q, i with
  | PBegin _, Started => Some (s, PIn)
  | PBegin r, Aborted status =>
      match fallback r s c status with
      | (HRetry, r', s') => Some (s', ploop r')
      | (HSpin, r', s') => Some (s', PSpin r')
      | (HStop, _, s') => Some (s', PAcq)
      end
  | PSpin r, Seen busy =>
      if r =? INT_MIN then Some (s, POver)
      else if r - 1 =? 0 then Some (s, ploop 0)
      else Some (s, if busy then PSpin (r - 1) else ploop (r - 1))
  | _, _ => None
  end.
Fixpoint prun (c : cfg) (x : stat * pst) (l : list pin) : option (stat * pst) :=
  match l with [] => Some x | i :: r => match pstep c x i with Some y => prun c y r | None => None end end.
