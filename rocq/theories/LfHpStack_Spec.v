(** What counts for the progress of ck_hp_stack. *)
From Coq Require Import NArith Arith List Bool.
From Verif Require Import Lin HpStack_Model HpStack_Spec.
From Verif Require Stack_Model.
Import ListNotations.

(** results of operations that change the stack *)
Definition chg (r : Stack_Model.sres) : bool :=
  match r with Stack_Model.RU | Stack_Model.RB true | Stack_Model.RV (Some _) | Stack_Model.RL _ | Stack_Model.RBad => true | _ => false end.
(** the calls and returns in a log *)
Definition ops (log : list sevt) : list sev := flat_map (fun e => match e with LE x => [x] | _ => [] end) log.
(** actions of stack operations, as opposed to those of ck_hp itself *)
Definition opact (a : sact) : bool := match a with AHp _ => false | _ => true end.
(** no call of push or pop: only the try variants *)
Definition tryact (a : sact) : Prop := match a with APush b _ | APop b _ => b = true | _ => True end.
