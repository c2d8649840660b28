(** What the Robin Hood hash set owes its clients on TSO; the observer of lookups is that of RhsConc_Spec, fed with what
    arrives in memory. *)
From Coq Require Import NArith List Bool.
From Verif Require Import Rhs_Model Rhs_Spec RhsConc_Model.
Import ListNotations.

Definition iscall (e : ev) : bool := match e with ECall _ _ => true | _ => false end.

(** the abstract set after the calls in [l], made one after the other from [A] *)
Definition after (cmp : option (N -> N -> bool)) (l : list ev) (A : list N) : list N :=
  fold_left (fun A e => match e with ECall o r => aop cmp A o r | _ => A end) l A.
