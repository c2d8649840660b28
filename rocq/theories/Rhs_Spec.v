(** What C59 asks of a hash set: an abstract set is a list of representatives, no two of which
    the comparison identifies. *)
From Coq Require Import Arith NArith List Bool Permutation.
From Verif Require Import Lib Rhs_Model.
Import ListNotations.

Section S.
Variables (rmode pp : bool) (hf : N -> N) (cmp : option (N -> N -> bool)) (oracle : nat -> bool).

(** two keys are the same key *)
Definition same (a b : N) : bool := N.eqb a b || match cmp with Some f => f a b | None => false end.
(** keys that can be stored: not NULL, and with pointer packing 48 bits *)
Definition valid (k : N) : Prop := k <> 0%N /\ (pp = true -> (k < 2 ^ 48)%N).
(** the comparison is an equivalence that hashing respects *)
Record contract : Prop := mkc {
  c_sym : forall a b, valid a -> valid b -> same a b = true -> same b a = true;
  c_trans : forall a b c, valid a -> valid b -> valid c -> same a b = true -> same b c = true -> same a c = true;
  c_hash : forall a b, valid a -> valid b -> same a b = true -> hf a = hf b }.

Inductive op :=
| OPut (k : N) | OPutUnique (k : N) | OSet (k : N) | OFas (k : N) | ORemove (k : N) | OGet (k : N) | OApply (k : N) (fn : N -> N)
| OGrow (c : N) | ORebuild | OGc | OReset | OResetSize (c : N) | OLoad (lf : N).
(** results: the boolean (true for get, remove and gc) and the object or *previous (0: NULL) *)
Definition res := (bool * N)%type.

Definition mem (k : N) (A : list N) : bool := existsb (fun x => same x k) A.
Definition del (k : N) (A : list N) : list N := filter (fun x => negb (same x k)) A.
Definition obj (k : N) (A : list N) : N := match find (fun x => same x k) A with Some x => x | None => 0%N end.

(** the set after an operation that returned [r] *)
Definition aop (A : list N) (o : op) (r : res) : list N :=
  match o with
  | OPut k | OPutUnique k => if fst r then k :: A else A
  | OSet k | OFas k => if fst r then k :: del k A else A
  | ORemove k => del k A
  | OApply k fn =>
      if fst r then
        let d := fn (obj k A) in
        if N.eqb d 0 then del k A else if N.eqb d (obj k A) then A else d :: del k A
      else A
  | OReset | OResetSize _ => if fst r then [] else A
  | OGet _ | OGrow _ | ORebuild | OGc | OLoad _ => A
  end.
(** the results an operation may return; [failed]: memory for a larger map could not be had *)
Definition legal (A : list N) (o : op) (r : res) (failed : Prop) : Prop :=
  match o with
  | OPut k | OPutUnique k => if fst r then mem k A = false else mem k A = true \/ failed
  | OSet k => if fst r then snd r = obj k A else failed
  | OFas k => if fst r then mem k A = true /\ snd r = obj k A else mem k A = false \/ failed
  | ORemove k | OGet k => snd r = obj k A
  | OApply k fn => if fst r then True else failed
  | _ => True
  end.
(** correct use: storable keys; put_unique only of a key that is absent; an apply function
    returns NULL or a representative of the same key *)
Definition pre (A : list N) (o : op) : Prop :=
  match o with
  | OPut k | OSet k | OFas k | ORemove k | OGet k => valid k
  | OPutUnique k => valid k /\ mem k A = false
  | OApply k fn => let d := fn (obj k A) in valid k /\ (d = 0%N \/ valid d /\ same d k = true)
  | _ => True
  end.
(** an apply function deletes a member *)
Definition ap_del (A : list N) (o : op) : bool :=
  match o with OApply k fn => mem k A && N.eqb (fn (obj k A)) 0 | _ => false end.

(** the operations of the model, one result type *)
Definition run1 (fuel : nat) (hs : hset) (o : op) : out (hset * res) :=
  let b (x : out (hset * bool)) : out (hset * res) := bind x (fun y => Ret (fst y, (snd y, 0%N))) in
  match o with
  | OPut k => b (put rmode pp hf cmp oracle fuel hs k)
  | OPutUnique k => b (put_unique rmode pp hf cmp oracle fuel hs k)
  | OSet k => set rmode pp hf cmp oracle fuel hs k
  | OFas k => fas rmode pp hf cmp oracle fuel hs k
  | ORemove k => bind (remove rmode pp hf cmp fuel hs k) (fun y => Ret (fst y, (true, snd y)))
  | OGet k => bind (get rmode pp hf cmp hs k) (fun y => Ret (hs, (true, y)))
  | OApply k fn => b (apply rmode pp hf cmp oracle fuel hs k fn)
  | OGrow c => b (grow_op rmode pp hf oracle fuel hs c)
  | ORebuild => b (rebuild rmode pp hf oracle fuel hs)
  | OGc => Ret (gc hs, (true, 0%N))
  | OReset => b (Ret (reset oracle hs))
  | OResetSize c => b (Ret (reset_size oracle hs c))
  | OLoad lf => b (set_load_factor rmode pp hf oracle fuel hs lf)
  end.

(** memory could not be had: a failed malloc, or maps of all sizes up to 2^64 did not do *)
Definition failed (al al' : nat) : Prop := (exists j, al <= j < al' /\ oracle j = false) \/ al + 32 <= al'.

(** the sets considered: at most 253 members, or 512 in read-mostly mode *)
Definition room (A : list N) : Prop := length A <= if rmode then 512 else 253.
(** ck_rhs_fas did not allocate a map *)
Definition quiet (o : op) (hs hs' : hset) : Prop := match o with OFas _ => alc hs' = alc hs | _ => True end.

(** sets that a single thread can reach with correct use, and what they stand for; the boolean
    says that an apply function has deleted a member *)
Inductive reach : hset -> list N -> bool -> Prop :=
| r_init n al hs : init oracle al n = Some hs -> reach hs [] false
| r_op hs A x o fuel hs' r : reach hs A x -> pre A o -> room A ->
    run1 fuel hs o = Ret (hs', r) -> quiet o hs hs' ->
    reach hs' (aop A o r) (x || ap_del A o).

(** the same without the two restrictions *)
Inductive reach_any : hset -> list N -> Prop :=
| a_init n al hs : init oracle al n = Some hs -> reach_any hs []
| a_op hs A o fuel hs' r : reach_any hs A -> pre A o -> run1 fuel hs o = Ret (hs', r) -> reach_any hs' (aop A o r).

(** no two members are the same key *)
Definition distinct (A : list N) : Prop :=
  forall x R, Permutation A (x :: R) -> forall y, In y R -> same y x = false.
End S.
