(** Vocabulary for the theorems on elided ck_rwlock. *)
From Coq Require Import ZArith List.
From Verif Require Import Lib Tso Rtm TsoRw_Spec ElideRw_Model.
Import ListNotations.

(** [t] is in a transaction at every moment of the run of [ls] from [s] *)
Fixpoint open (N : nat) (t : nat) (s : rtm lst wev) (ls : list (xlab act)) : Prop :=
  txs s t <> None /\
  match ls with
  | [] => True
  | l :: r => match xstep (code N) arr s l with Some (s1, _) => open N t s1 r | None => True end
  end.

(** only the write side is elided: no elided call is a read call *)
Definition wact (a : act) : Prop := match a with AELock w | AETry w | AEAdapt w _ => w = true | _ => True end.
Definition wlab (l : xlab act) : Prop := match l with XGo _ a => wact a | _ => True end.
