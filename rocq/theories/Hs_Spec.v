(** What C52-C55 ask of a hash set: an abstract set is a list of representatives, no two of
    which the comparison identifies. *)
From Coq Require Import Arith NArith List Bool Permutation.
From Verif Require Import Lib Hs_Model.
Import ListNotations.

Section S.
Variables (pp : bool) (hf : N -> N) (cmp : option (N -> N -> bool)).

(** two keys are the same key *)
Definition same (a b : N) : bool := N.eqb a b || match cmp with Some f => f a b | None => false end.
(** keys that can be stored: not NULL, not the tombstone, and with pointer packing 48 bits *)
Definition valid (k : N) : Prop := k <> 0%N /\ (pp = true -> (k < 2 ^ 48)%N) /\ marshal pp k (hf k) <> TOMB.
(** the comparison is an equivalence that hashing respects *)
Record contract : Prop := mkc {
  c_sym : forall a b, valid a -> valid b -> same a b = true -> same b a = true;
  c_trans : forall a b c, valid a -> valid b -> valid c -> same a b = true -> same b c = true -> same a c = true;
  c_hash : forall a b, valid a -> valid b -> same a b = true -> hf a = hf b }.

Inductive op :=
| OPut (k : N) | OPutUnique (k : N) | OSet (k : N) | OFas (k : N) | ORemove (k : N) | OGet (k : N) | OApply (k : N) (fn : N -> N)
| OGrow (c : N) | ORebuild | OGc (cycles seed : N) | OReset | OResetSize (c : N).
(** results: the boolean (true for get and remove) and the object or *previous (0: NULL) *)
Definition res := (bool * N)%type.

Definition mem (k : N) (A : list N) : bool := existsb (fun x => same x k) A.
Definition del (k : N) (A : list N) : list N := filter (fun x => negb (same x k)) A.
Definition obj (k : N) (A : list N) : N := match find (fun x => same x k) A with Some x => x | None => 0%N end.

(** the set after an operation that returned [r] *)
Definition aop (A : list N) (o : op) (r : res) : list N :=
  match o with
  | OPut k | OPutUnique k => if fst r then k :: A else A
  | OSet k | OFas k => if fst r then k :: del k A else A
  | ORemove k => del k A
  | OApply k fn =>
      if fst r then
        let d := fn (obj k A) in
        if N.eqb d 0 then del k A else if N.eqb d (obj k A) then A else d :: del k A
      else A
  | OReset | OResetSize _ => if fst r then [] else A
  | OGet _ | OGrow _ | ORebuild | OGc _ _ => A
  end.
(** the results an operation may return; [failed]: memory for a larger map could not be had *)
Definition legal (A : list N) (o : op) (r : res) (failed : Prop) : Prop :=
  match o with
  | OPut k | OPutUnique k => if fst r then mem k A = false else mem k A = true \/ failed
  | OSet k => snd r = obj k A /\ (fst r = false -> mem k A = false /\ failed)
  | OFas k => snd r = obj k A /\ fst r = mem k A
  | ORemove k | OGet k => snd r = obj k A
  | OApply k fn => fst r = false -> mem k A = false /\ failed
  | _ => True
  end.
(** correct use: storable keys; put_unique only of a key that is absent; an apply function
    returns NULL or a representative of the same key *)
Definition pre (A : list N) (o : op) : Prop :=
  match o with
  | OPut k | OSet k | OFas k | ORemove k | OGet k => valid k
  | OPutUnique k => valid k /\ mem k A = false
  | OApply k fn => let d := fn (obj k A) in valid k /\ (d = 0%N \/ valid d /\ same d k = true)
  | _ => True
  end.
End S.

(** what is stored *)
Definition contents (pp : bool) (m : hmap) : list N := map (val pp) (filter live (map (ents m) (slots m))).
Definition n_tombs (m : hmap) : nat := length (filter (N.eqb TOMB) (map (ents m) (slots m))).

(** the operations of the model, one result type *)
Definition run1 (dl pp : bool) (hf : N -> N) (cmp : option (N -> N -> bool)) (ub : N -> N -> N) (oracle : nat -> option N)
  (fuel : nat) (m : hmap) (al : nat) (o : op) : out res :=
  let b (x : out bool) : out res := match x with Ret tr al r => Ret tr al (r, 0%N) | Loop => Loop | Bad => Bad end in
  match o with
  | OPut k => b (put dl pp hf cmp ub oracle fuel m al k)
  | OPutUnique k => b (put_unique dl pp hf cmp ub oracle fuel m al k)
  | OSet k => set dl pp hf cmp ub oracle fuel m al k
  | OFas k => fas dl pp hf cmp ub m al k
  | ORemove k => match remove dl pp hf cmp ub m al k with Ret tr al r => Ret tr al (true, r) | Loop => Loop | Bad => Bad end
  | OGet k => match get dl pp hf cmp ub m k with Some v => Ret [] al (true, v) | None => Loop end
  | OApply k fn => b (apply dl pp hf cmp ub oracle fuel m al k fn)
  | OGrow c => b (grow dl pp hf ub oracle m al c)
  | ORebuild => b (rebuild dl pp hf ub oracle m al)
  | OGc c s => b (gc dl pp hf cmp ub oracle m al c s)
  | OReset => b (reset oracle m al)
  | OResetSize c => b (reset_size oracle m al c)
  end.

(** memory could not be had: a failed malloc, or maps of all sizes up to 2^64 did not do *)
Definition failed (oracle : nat -> option N) (al al' : nat) : Prop := (exists j, al <= j < al' /\ oracle j = None) \/ al + 32 <= al'.

(** maps that a single thread can reach with correct use, the sets they stand for, and the
    number of calls of malloc made *)
Inductive reach (dl pp : bool) (hf : N -> N) (cmp : option (N -> N -> bool)) (ub : N -> N -> N) (oracle : nat -> option N) :
  hmap -> list N -> nat -> Prop :=
| r_init n al al' m : init oracle al n = (Some m, al') -> reach dl pp hf cmp ub oracle m [] al'
| r_op m A al o fuel tr al' r : reach dl pp hf cmp ub oracle m A al -> pre pp hf cmp A o ->
    run1 dl pp hf cmp ub oracle fuel m al o = Ret tr al' r ->
    reach dl pp hf cmp ub oracle (app m tr) (aop cmp A o r) al'.
(** no two members are the same key *)
Definition distinct (cmp : option (N -> N -> bool)) (A : list N) : Prop :=
  forall x R, Permutation A (x :: R) -> forall y, In y R -> same cmp y x = false.
