(** What the hash table owes its clients on TSO; the observer of lookups is that of HtConc_Spec, fed with what
    arrives in memory. *)
From Coq Require Import NArith List Bool.
From Verif Require Import Ht_Model Ht_Spec HtConc_Model.
Import ListNotations.

Definition iscall (e : event) : bool := match e with ECall _ _ _ => true | _ => false end.

(** the abstract map after the calls in [l], made one after the other from [A] *)
Definition after (bs : bool) (len : N -> N) (memeq : N -> N -> N -> bool) (l : list event) (A : list (N * N)) : list (N * N) :=
  fold_left (fun A e => match e with ECall o r _ => aop bs len memeq A o r | _ => A end) l A.
