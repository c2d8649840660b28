(** What C56 and C57 ask of a hash table: an abstract map is a list of pairs of a key and a
    value, no two keys of which are the same key. *)
From Coq Require Import Arith NArith List Bool Permutation.
From Verif Require Import Lib Ht_Model.
Import ListNotations.

Section S.
(** [len]: the length of the key at a pointer (bytestring mode): pointers determine lengths *)
Variables (bs : bool) (len : N -> N) (memeq : N -> N -> N -> bool) (hf : N -> N).

(** two keys are the same key: equal words, or strings of equal length and contents *)
Definition same (a b : N) : bool := N.eqb a b || bs && N.eqb (len a) (len b) && memeq (len b) a b.
(** keys that can be stored: not EMPTY, not TOMBSTONE, lengths that fit a uint16_t *)
Definition valid (k : N) : Prop := k <> 0%N /\ k <> TOMB /\ (len k < 2 ^ 16)%N.
(** comparison is an equivalence that hashing respects *)
Record contract : Prop := mkc {
  c_sym : forall a b, valid a -> valid b -> same a b = true -> same b a = true;
  c_trans : forall a b c, valid a -> valid b -> valid c -> same a b = true -> same b c = true -> same a c = true;
  c_hash : forall a b, valid a -> valid b -> same a b = true -> hf a = hf b }.

(** [l] is what the field key_length holds: the length in bytestring mode, anything otherwise *)
Inductive op :=
| OPut (k v l : N) | OSet (k v l : N) | OGet (k l : N) | ORemove (k l : N)
| OGrow (c : N) | OGc (cycles seed : N) | OReset | OResetSize (c : N).
(** results: the boolean and the pair returned *)
Definition res := (bool * N * N)%type.

Definition mem (k : N) (A : list (N * N)) : bool := existsb (fun x => same (fst x) k) A.
Definition del (k : N) (A : list (N * N)) : list (N * N) := filter (fun x => negb (same (fst x) k)) A.
Definition pair_of (k : N) (A : list (N * N)) : option (N * N) := find (fun x => same (fst x) k) A.

(** the map after an operation that returned [r] *)
Definition aop (A : list (N * N)) (o : op) (r : res) : list (N * N) :=
  let b := fst (fst r) in
  match o with
  | OPut k v _ => if b then (k, v) :: A else A
  | OSet k v _ => if b then (k, v) :: del k A else A
  | ORemove k _ => del k A
  | OReset | OResetSize _ => if b then [] else A
  | OGet _ _ | OGrow _ | OGc _ _ => A
  end.
(** the results an operation may return; [failed]: memory for a larger map could not be had *)
Definition legal (A : list (N * N)) (o : op) (r : res) (failed : Prop) : Prop :=
  let '(b, k', v') := r in
  match o with
  | OPut k _ _ => if b then mem k A = false else mem k A = true \/ failed
  | OSet k _ _ =>
      if b then match pair_of k A with Some p => (k', v') = p | None => k' = 0%N end else mem k A = false /\ failed
  | OGet k _ | ORemove k _ =>
      match pair_of k A with Some p => b = true /\ (k', v') = p | None => b = false end
  | _ => True
  end.
(** correct use *)
Definition lok (k l : N) : Prop := bs = true -> l = len k.
Definition pre (o : op) : Prop :=
  match o with
  | OPut k _ l | OSet k _ l | OGet k l | ORemove k l => valid k /\ lok k l
  | _ => True
  end.
(** the operation was not a put that succeeded although the key was there *)
Definition sane (A : list (N * N)) (o : op) (r : res) : Prop :=
  match o with OPut k _ _ => fst (fst r) = true -> mem k A = false | _ => True end.
(** no two keys are the same key *)
Definition distinct (A : list (N * N)) : Prop :=
  forall x R, Permutation A (x :: R) -> forall y, In y R -> same (fst y) (fst x) = false.
End S.

(** what is stored *)
Definition kv (e : ent) : N * N := (ek e, ev e).
Definition contents (m : tmap) : list (N * N) := map kv (filter (fun e => live (ek e)) (map (ents m) (slots m))).

(** the operations of the model, one result type *)
Definition run1 (dl bs : bool) (memeq : N -> N -> N -> bool) (hf : N -> N) (ub : N -> N -> N) (oracle : nat -> bool)
  (fuel : nat) (m : tmap) (al : nat) (o : op) : out res :=
  let b (x : out bool) : out res := match x with Ret tr al r => Ret tr al (r, 0%N, 0%N) | Loop => Loop | Bad => Bad end in
  match o with
  | OPut k v l => b (put dl bs memeq ub oracle fuel m al (mke k v l (hf k)) (hf k))
  | OSet k v l => set dl bs memeq ub oracle fuel m al (mke k v l (hf k)) (hf k)
  | OGet k l => match get dl bs memeq ub m k l (hf k) with Some r => Ret [] al r | None => Loop end
  | ORemove k l => remove dl bs memeq ub m al k l (hf k)
  | OGrow c => b (grow dl ub oracle m al c)
  | OGc c s => b (gc dl bs memeq ub oracle m al c s)
  | OReset => b (reset oracle m al)
  | OResetSize c => b (reset_size oracle m al c)
  end.

(** memory could not be had: a failed malloc, or maps of all sizes up to 2^64 did not do *)
Definition failed (oracle : nat -> bool) (al al' : nat) : Prop := (exists j, al <= j < al' /\ oracle j = false) \/ al + 32 <= al'.

(** maps that a single thread can reach with correct use and without a put that should have
    failed, the abstract maps they stand for, and the number of calls of malloc made *)
Inductive reach (dl bs : bool) (len : N -> N) (memeq : N -> N -> N -> bool) (hf : N -> N) (ub : N -> N -> N) (oracle : nat -> bool) :
  tmap -> list (N * N) -> nat -> Prop :=
| r_init n al al' m : init oracle al n = (Some m, al') -> reach dl bs len memeq hf ub oracle m [] al'
| r_op m A al o fuel tr al' r : reach dl bs len memeq hf ub oracle m A al -> pre bs len o ->
    run1 dl bs memeq hf ub oracle fuel m al o = Ret tr al' r -> sane bs len memeq A o r ->
    reach dl bs len memeq hf ub oracle (app m tr) (aop bs len memeq A o r) al'.
