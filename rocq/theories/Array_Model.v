(** ck_array: src/ck_array.c and include/ck_array.h.  A block of values is a
    partial map from indices to values ([None] = never written); reading such a
    cell or any access beyond the block's capacity is undefined behaviour
    (outcome [None]).  Whether an allocation succeeds is part of each call. *)
From Coq Require Import NArith List Bool Arith.
From Verif Require Import Lib.
Import ListNotations.

(** include/ck_array.h:37-41, struct _ck_array; [len] is an unsigned int *)
Record block := { n_committed : nat; len : N; values : nat -> option nat }.
(** include/ck_array.h:43-48, struct ck_array (the allocator is the oracle) *)
Record array := { active : block; n_entries : nat; transaction : option block }.

Definition in_cap (b : block) (i : nat) : bool := (N.of_nat i <? len b)%N.
Definition rd (b : block) (i : nat) : option nat := if in_cap b i then values b i else None.
Definition wr (b : block) (i v : nat) : option block :=
  if in_cap b i then Some {| n_committed := n_committed b; len := len b; values := upd (values b) i (Some v) |} else None.

(** src/ck_array.c:34-47 *)
Definition ck_array_create (length : N) : block :=
  {| n_committed := 0; len := length; values := fun _ => None |}.

(** src/ck_array.c:49-71; [ok]: the allocation succeeded.  [None]: returns false *)
Definition ck_array_init (length : N) (ok : bool) : option array :=
  if (length =? 0)%N || negb ok then None
  else Some {| active := ck_array_create length; n_entries := 0; transaction := None |}.

(** allocator->realloc from [n] used slots to [size] slots: the bytes common to
    both sizes are kept; then the length is stored *)
Definition regrow (b : block) (n : nat) (size : N) : block :=
  {| n_committed := n_committed b; len := size;
     values := fun i => if Nat.ltb i n && (N.of_nat i <? size)%N then values b i else None |}.

(** [length << 1] on unsigned int *)
Definition dbl (l : N) : N := (N.double l mod 2 ^ 32)%N.

(** The grow-then-store part of put (86-105, 109-124): [None] undefined,
    [Some None] allocation failed, [Some (Some b)] the block with the value. *)
Definition put_block (b : block) (n v : nat) (ok : bool) : option (option block) :=
  if (N.of_nat n =? len b)%N then
    if ok then match wr (regrow b n (dbl (len b))) n v with Some b' => Some (Some b') | None => None end
    else Some None
  else match wr b n v with Some b' => Some (Some b') | None => None end.

(** src/ck_array.c:73-126.  Note the constant [false] on line 125. *)
Definition ck_array_put (a : array) (v : nat) (ok : bool) : option (array * bool) :=
  match transaction a with
  | None =>
      match put_block (active a) (n_entries a) v ok with
      | None => None
      | Some None => Some (a, false)
      | Some (Some b) => Some ({| active := b; n_entries := S (n_entries a); transaction := None |}, true)
      end
  | Some t =>
      match put_block t (n_entries a) v ok with
      | None => None
      | Some None => Some (a, false)
      | Some (Some b) => Some ({| active := active a; n_entries := S (n_entries a); transaction := Some b |}, false)
      end
  end.

(** the searches of 141-144, 158-163, 170-173: index of the first occurrence
    among [cnt] entries from [i]; [None] undefined, [Some None] absent *)
Fixpoint search (b : block) (cnt i v : nat) : option (option nat) :=
  match cnt with
  | O => Some None
  | S cnt => match rd b i with
             | None => None
             | Some x => if Nat.eqb x v then Some (Some i) else search b cnt (S i) v
             end
  end.

Definition current (a : array) : block := match transaction a with Some t => t | None => active a end.

(** src/ck_array.c:128-147; the result is the C int: 1, 0 or -1 *)
Inductive uret := U1 | U0 | Um1.
Definition ck_array_put_unique (a : array) (v : nat) (ok : bool) : option (array * uret) :=
  match search (current a) (n_entries a) 0 v with
  | None => None
  | Some (Some _) => Some (a, U1)
  | Some None => match ck_array_put a v ok with
                 | None => None
                 | Some (a', r) => Some (a', if r then U0 else Um1)
                 end
  end.

(** [b->values[i] = b->values[--n_entries]] with [n] the old n_entries *)
Definition swap_out (b : block) (i n : nat) : option block :=
  match rd b (n - 1) with Some x => wr b i x | None => None end.

(** memcpy of the first [n] values into a new block of capacity [n] (189-195) *)
Definition copy_block (b : block) (n : nat) : block :=
  {| n_committed := n; len := N.of_nat n; values := fun i => if Nat.ltb i n then rd b i else None |}.

(** src/ck_array.c:149-200 *)
Definition ck_array_remove (a : array) (v : nat) (ok : bool) : option (array * bool) :=
  match search (current a) (n_entries a) 0 v with
  | None => None
  | Some None => Some (a, false)
  | Some (Some i) =>
      match transaction a with
      | Some t =>
          match swap_out t i (n_entries a) with
          | Some t' => Some ({| active := active a; n_entries := n_entries a - 1; transaction := Some t' |}, true)
          | None => None
          end
      | None =>
          if negb (Nat.eqb (n_committed (active a)) (n_entries a)) then
            match swap_out (active a) i (n_entries a) with
            | Some b => Some ({| active := b; n_entries := n_entries a - 1; transaction := None |}, true)
            | None => None
            end
          else if ok then
            match swap_out (copy_block (active a) (n_entries a)) i (n_entries a) with
            | Some t => Some ({| active := active a; n_entries := n_entries a - 1; transaction := Some t |}, true)
            | None => None
            end
          else Some (a, false)
      end
  end.

Definition set_committed (b : block) (n : nat) : block :=
  {| n_committed := n; len := len b; values := values b |}.

(** src/ck_array.c:202-224 *)
Definition ck_array_commit (a : array) : array :=
  match transaction a with
  | Some m => {| active := set_committed m (n_entries a); n_entries := n_entries a; transaction := None |}
  | None => {| active := set_committed (active a) (n_entries a); n_entries := n_entries a; transaction := None |}
  end.

(** include/ck_array.h:63-80, ck_array_length, and what ck_array_buffer exposes:
    the committed values; CK_ARRAY_FOREACH (87-93) run without interference *)
Definition ck_array_length (a : array) : nat := n_committed (active a).
Fixpoint read_all (b : block) (cnt i : nat) : option (list nat) :=
  match cnt with
  | O => Some []
  | S cnt => match rd b i, read_all b cnt (S i) with
             | Some x, Some l => Some (x :: l)
             | _, _ => None
             end
  end.
Definition visible (a : array) : option (list nat) := read_all (active a) (n_committed (active a)) 0.

(** Writer histories. *)
Inductive op := Put (v : nat) (ok : bool) | PutU (v : nat) (ok : bool) | Remove (v : nat) (ok : bool) | Commit.
Inductive ret := RB (b : bool) | RU (u : uret).
Definition exec (a : array) (o : op) : option (array * ret) :=
  match o with
  | Put v ok => match ck_array_put a v ok with Some (a, r) => Some (a, RB r) | None => None end
  | PutU v ok => match ck_array_put_unique a v ok with Some (a, r) => Some (a, RU r) | None => None end
  | Remove v ok => match ck_array_remove a v ok with Some (a, r) => Some (a, RB r) | None => None end
  | Commit => Some (ck_array_commit a, RB true)
  end.
Fixpoint execs (a : array) (os : list op) : option array :=
  match os with
  | [] => Some a
  | o :: os => match exec a o with Some (a, _) => execs a os | None => None end
  end.

(** CK_ARRAY_FOREACH as written (include/ck_array.h:87-93), one access at a time:
    the snapshot is never used; the bound and the value are both read through
    [(a)->active] in every round.  Reader state: next index, whether the bound
    check of this round has passed, values delivered. *)
Record reader := { idx : nat; checked : bool; got : list nat; done : bool }.
Definition reader0 : reader := {| idx := 0; checked := false; got := []; done := false |}.
Definition rstep (a : array) (r : reader) : option reader :=
  if done r then Some r
  else if checked r then
    match rd (active a) (idx r) with
    | None => None
    | Some x => Some {| idx := S (idx r); checked := false; got := got r ++ [x]; done := false |}
    end
  else if Nat.ltb (idx r) (n_committed (active a))
       then Some {| idx := idx r; checked := true; got := got r; done := false |}
       else Some {| idx := idx r; checked := false; got := got r; done := true |}.
(** interleaving: [Some o] a writer call, [None] a reader step.  The outer result
    is [None] when either side does something undefined. *)
Fixpoint interleave (a : array) (r : reader) (ls : list (option op)) : option (array * reader) :=
  match ls with
  | [] => Some (a, r)
  | Some o :: ls => match exec a o with Some (a, _) => interleave a r ls | None => None end
  | None :: ls => match rstep a r with Some r => interleave a r ls | None => None end
  end.
