(** What counts for the progress of ck_hp_fifo. *)
From Coq Require Import NArith Arith List Bool.
From Verif Require Import HpFifo_Model HpFifo_Spec.
From Verif Require FifoMp_Model.
Import ListNotations.

(** results of operations that change the queue *)
Definition chg (r : mres) : bool := match r with FifoMp_Model.RU | FifoMp_Model.RB true | FifoMp_Model.RD (Some _) => true | _ => false end.
(** actions of queue operations, as opposed to those of ck_hp itself *)
Definition opact (a : fact) : bool := match a with AHp _ => false | _ => true end.
