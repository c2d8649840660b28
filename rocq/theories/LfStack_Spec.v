(** What counts for the progress of ck_stack. *)
From Coq Require Import NArith Arith List Bool.
From Verif Require Import Stack_Model.
Import ListNotations.

(** results of operations that change the stack *)
Definition chg (r : sres) : bool := match r with RU | RB true | RV (Some _) | RL _ | RBad => true | _ => false end.
(** no call of push or pop: only the try variants and batch_pop *)
Definition tryact (a : sact) : Prop := match a with ACall (Push _) | ACall Pop => False | _ => True end.
