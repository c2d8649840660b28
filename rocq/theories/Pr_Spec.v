(** Specification of the atomic operations: what each does to the word, in one step. *)
From Coq Require Import NArith Arith List Bool.
From Verif Require Import Lib Lin Pr_Model.
Local Open Scope N_scope.

Definition pres_dec : forall a b : pres, {a = b} + {a <> b}.
Proof. repeat (decide equality). Defined.

(** addition and subtraction on a circle of [m] values *)
Definition up (m x d : N) : N := if x + d <? m then x + d else x + d - m.
Definition down (m x d : N) : N := if d <=? x then x - d else x + m - d.
(** new value and result *)
Definition effect (m : N) (x : N) (o : prop) : N * pres :=
  match o with
  | Load => (x, RV x)
  | Store v => (v, RU)
  | Cas c v => if x =? c then (v, RB true) else (x, RB false)
  | CasV c v => if x =? c then (v, RBV true x) else (x, RBV false x)
  | Bin BAdd d => (up m x d, RU)
  | Bin BSub d => (down m x d, RU)
  | Bin BAnd d => (N.land x d, RU)
  | Bin BOr d => (N.lor x d, RU)
  | Bin BXor d => (N.lxor x d, RU)
  | Btx BTS i => (N.setbit x i, RB (N.testbit x i))
  | Btx BTR i => (N.clearbit x i, RB (N.testbit x i))
  | Btx BTC i => ((if N.testbit x i then N.clearbit x i else N.setbit x i), RB (N.testbit x i))
  | Inc => (up m x 1, RU)
  | Dec => (down m x 1, RU)
  | Incz => (up m x 1, RB (up m x 1 =? 0))
  | Decz => (down m x 1, RB (down m x 1 =? 0))
  | Not => (m - 1 - x, RU)
  | Neg => (down m 0 x, RU)
  | Negz => (down m 0 x, RB (down m 0 x =? 0))
  | Faa d => (up m x d, RV x)
  | Fas v => (v, RV x)
  end.
Definition pr_seq (m : N) (x : N) (o : prop) (r : pres) : option N :=
  let (y, r') := effect m x o in if pres_dec r r' then Some y else None.
