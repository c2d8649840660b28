(** What the hash set owes its clients on TSO; the observer of lookups is that of HsConc_Spec, fed with what
    arrives in memory. *)
From Coq Require Import NArith List Bool.
From Verif Require Import Hs_Model Hs_Spec HsConc_Model.
Import ListNotations.

Definition iscall (e : ev) : bool := match e with ECall _ _ => true | _ => false end.

(** the abstract set after the calls in [l], made one after the other from [A] *)
Definition after (cmp : option (N -> N -> bool)) (l : list ev) (A : list N) : list N :=
  fold_left (fun A e => match e with ECall o r => aop cmp A o r | _ => A end) l A.
