(** Model of include/ck_queue.h: the SLIST, STAILQ and LIST macros.

    Memory.  Elements and heads are numbers; element 0 is NULL.  A pointer to a
    "next" pointer is a location: the first field of head [h] ([LH h]) or the next
    field of element [e] ([LE e]).  [nx] holds the pointers stored there (cslh_first,
    csle_next, cstqh_first, cstqe_next, clh_first, cle_next), [lst h] is cstqh_last of
    head [h] and [pv e] is cle_prev of element [e].  Reading or writing a field of NULL
    is the outcome [None].

    A macro is a list of [micro] instructions, each of them one store (or none); the
    plain loads the macro makes to compute the stored value are evaluated together with
    the store.  Only the writer writes these fields, so its own loads return the same
    value whenever they are made between its stores.  Fences are not modelled: the
    stores take effect in program order. *)
From Coq Require Import Arith List Bool.
From Verif Require Import Lib.
Import ListNotations.

Inductive loc := LH (h : nat) | LE (e : nat).
Definition loc_eqb (a b : loc) : bool :=
  match a, b with LH x, LH y => Nat.eqb x y | LE x, LE y => Nat.eqb x y | _, _ => false end.

Record mem := mkm { nx : loc -> nat; lst : nat -> loc; pv : nat -> loc }.

Definition bind {A B} (x : option A) (f : A -> option B) : option B := match x with Some v => f v | None => None end.

Definition null (l : loc) : bool := loc_eqb l (LE 0).
Definition getn (m : mem) (l : loc) : option nat := if null l then None else Some (nx m l).
Definition setn (m : mem) (l : loc) (v : nat) : option mem :=
  if null l then None else Some (mkm (fun x => if loc_eqb x l then v else nx m x) (lst m) (pv m)).
Definition setl (m : mem) (h : nat) (l : loc) : option mem := Some (mkm (nx m) (upd (lst m) h l) (pv m)).
Definition getp (m : mem) (e : nat) : option loc := if Nat.eqb e 0 then None else Some (pv m e).
Definition setp (m : mem) (e : nat) (l : loc) : option mem :=
  if Nat.eqb e 0 then None else Some (mkm (nx m) (lst m) (upd (pv m) e l)).

Inductive kind := Sl | St | Li.

(** The macros, with the heads and elements they are applied to.  [h] of OInsAfter,
    ORemAfter and ORemove is an argument of the STAILQ macros (and of SLIST_REMOVE) only;
    elsewhere it is the list the client knows the element to be in. *)
Inductive op :=
| OInit (h : nat)
| OInsHead (h e : nat)
| OInsTail (h e : nat)
| OInsAfter (h a e : nat)
| OInsBefore (h x e : nat)
| OInsPrev (h : nat) (p : loc) (x e : nat)
| ORemHead (h : nat)
| ORemAfter (h a : nat)
| ORemove (h e : nat)
| ORemPrev (h : nat) (p q : loc) (e : nat)
| OConcat (h1 h2 : nat)
| OMove (h1 h2 : nat)
| OSwap (h1 h2 : nat).

(** The macros each kind of list has. *)
Definition has (k : kind) (o : op) : bool :=
  match o, k with
  | OInit _, _ | OInsHead _ _, _ | OInsAfter _ _ _, _ | ORemove _ _, _ | OMove _ _, _ | OSwap _ _, _ => true
  | OInsTail _ _, St | OConcat _ _, St => true
  | OInsBefore _ _ _, Li => true
  | ORemHead _, (Sl | St) | ORemAfter _ _, (Sl | St) => true
  | OInsPrev _ _ _ _, Sl | ORemPrev _ _ _ _, Sl => true
  | _, _ => false
  end.

(** [Do p f]: one store; [p] marks the store that changes what the list contains.
    [Let]: the rest of the macro depends on a value loaded here.
    [Find]: the search loop of SLIST_REMOVE and STAILQ_REMOVE, curelm = [c]. *)
Inductive micro :=
| Do (p : bool) (f : mem -> option mem)
| Let (f : mem -> option (list micro))
| Find (h c e : nat).

(** SLIST 171-174; STAILQ 281-285; LIST 397-400 *)
Definition p_init (k : kind) (h : nat) : list micro :=
  Do true (fun m => setn m (LH h) 0) ::
  match k with St => [Do false (fun m => setl m h (LH h))] | _ => [] end.

(** SLIST 182-186; STAILQ 295-301; LIST 419-426 *)
Definition p_ins_head (k : kind) (h e : nat) : list micro :=
  Do false (fun m => setn m (LE e) (nx m (LH h))) ::
  match k with
  | Sl => [Do true (fun m => setn m (LH h) e)]
  | St => [Do true (fun m => setn m (LH h) e);
           Do false (fun m => bind (getn m (LE e)) (fun v => if Nat.eqb v 0 then setl m h (LE e) else Some m))]
  | Li => [Do false (fun m => bind (getn m (LE e)) (fun v => if Nat.eqb v 0 then Some m else setp m (nx m (LH h)) (LE e)));
           Do true (fun m => setn m (LH h) e);
           Do false (fun m => setp m e (LH h))]
  end.

(** SLIST 176-180; STAILQ 287-293; LIST 402-409 *)
Definition p_ins_after (k : kind) (h a e : nat) : list micro :=
  Do false (fun m => bind (getn m (LE a)) (fun v => setn m (LE e) v)) ::
  match k with
  | Sl => [Do true (fun m => setn m (LE a) e)]
  | St => [Do true (fun m => setn m (LE a) e);
           Do false (fun m => bind (getn m (LE e)) (fun v => if Nat.eqb v 0 then setl m h (LE e) else Some m))]
  | Li => [Do false (fun m => setp m e (LE a));
           Do false (fun m => bind (getn m (LE a)) (fun v => if Nat.eqb v 0 then Some m else setp m v (LE e)));
           Do true (fun m => setn m (LE a) e)]
  end.

(** STAILQ 303-308 *)
Definition p_ins_tail (h e : nat) : list micro :=
  [Do false (fun m => setn m (LE e) 0);
   Do true (fun m => setn m (lst m h) e);
   Do false (fun m => setl m h (LE e))].

(** LIST 411-417 *)
Definition p_ins_before (x e : nat) : list micro :=
  [Do false (fun m => bind (getp m x) (fun l => setp m e l));
   Do false (fun m => setn m (LE e) x);
   Do true (fun m => bind (getp m x) (fun l => setn m l e));
   Do false (fun m => setp m x (LE e))].

(** SLIST 188-192 *)
Definition p_ins_prev (p : loc) (x e : nat) : list micro :=
  [Do false (fun m => setn m (LE e) x); Do true (fun m => setn m p e)].

(** SLIST 194-197; STAILQ 324-329 *)
Definition p_rem_after (k : kind) (h a : nat) : list micro :=
  Do true (fun m => bind (getn m (LE a)) (fun f => bind (getn m (LE f)) (fun g => setn m (LE a) g))) ::
  match k with
  | St => [Do false (fun m => bind (getn m (LE a)) (fun v => if Nat.eqb v 0 then setl m h (LE a) else Some m))]
  | _ => []
  end.

(** SLIST 210-213; STAILQ 331-336 *)
Definition p_rem_head (k : kind) (h : nat) : list micro :=
  Do true (fun m => bind (getn m (LE (nx m (LH h)))) (fun g => setn m (LH h) g)) ::
  match k with
  | St => [Do false (fun m => if Nat.eqb (nx m (LH h)) 0 then setl m h (LH h) else Some m)]
  | _ => []
  end.

(** SLIST 199-208; STAILQ 313-322; LIST 428-432 *)
Definition p_remove (k : kind) (h e : nat) : list micro :=
  match k with
  | Li => [Do true (fun m => bind (getp m e) (fun l => bind (getn m (LE e)) (fun v => setn m l v)));
           Do false (fun m => bind (getn m (LE e)) (fun v => if Nat.eqb v 0 then Some m else bind (getp m e) (fun l => setp m v l)))]
  | _ => [Let (fun m => Some (if Nat.eqb (nx m (LH h)) e then p_rem_head k h else [Find h (nx m (LH h)) e]))]
  end.

(** SLIST 215-217.  The macro's parameter is called prevp but its body stores through
    [prevptr], whatever variable of that name is in scope where the macro is used: [q].
    [p] is the argument. *)
Definition p_rem_prev (p q : loc) (e : nat) : list micro :=
  [Do true (fun m => bind (getn m (LE e)) (fun v => setn m q v))].

(** STAILQ 252-259 *)
Definition p_concat (h1 h2 : nat) : list micro :=
  [Let (fun m => Some (if Nat.eqb (nx m (LH h2)) 0 then [] else
     Do true (fun m => setn m (lst m h1) (nx m (LH h2))) ::
     Do false (fun m => setl m h1 (lst m h2)) :: p_init St h2))].

(** SLIST 219-221; STAILQ 338-343; LIST 434-438 *)
Definition p_move (k : kind) (h1 h2 : nat) : list micro :=
  Do true (fun m => setn m (LH h1) (nx m (LH h2))) ::
  match k with
  | Sl => []
  | St => [Do false (fun m => setl m h1 (lst m h2));
           Do false (fun m => if loc_eqb (lst m h2) (LH h2) then setl m h1 (LH h1) else Some m)]
  | Li => [Do false (fun m => if Nat.eqb (nx m (LH h1)) 0 then Some m else setp m (nx m (LH h1)) (LH h1))]
  end.

(** SLIST 226-230; STAILQ 348-360; LIST 443-451.  STAILQ_SWAP as written assigns to the
    result of ck_pr_load_ptr (351, 353), which is not an lvalue; it is modelled as the
    assignment to the first field that is evidently meant. *)
Definition p_swap (k : kind) (h1 h2 : nat) : list micro :=
  [Let (fun m => let sf := nx m (LH h1) in let sl := lst m h1 in
     Some (match k with
     | Sl => [Do true (fun m => setn m (LH h1) (nx m (LH h2))); Do false (fun m => setn m (LH h2) sf)]
     | St => [Do true (fun m => setn m (LH h1) (nx m (LH h2)));
              Do false (fun m => setl m h1 (lst m h2));
              Do false (fun m => setn m (LH h2) sf);
              Do false (fun m => setl m h2 sl);
              Do false (fun m => if Nat.eqb (nx m (LH h1)) 0 then setl m h1 (LH h1) else Some m);
              Do false (fun m => if Nat.eqb (nx m (LH h2)) 0 then setl m h2 (LH h2) else Some m)]
     | Li => [Do true (fun m => setn m (LH h1) (nx m (LH h2)));
              Do false (fun m => setn m (LH h2) sf);
              Do false (fun m => if Nat.eqb (nx m (LH h1)) 0 then Some m else setp m (nx m (LH h1)) (LH h1));
              Do false (fun m => if Nat.eqb (nx m (LH h2)) 0 then Some m else setp m (nx m (LH h2)) (LH h2))]
     end))].

Definition prog (k : kind) (o : op) : list micro :=
  match o with
  | OInit h => p_init k h
  | OInsHead h e => p_ins_head k h e
  | OInsTail h e => p_ins_tail h e
  | OInsAfter h a e => p_ins_after k h a e
  | OInsBefore _ x e => p_ins_before x e
  | OInsPrev _ p x e => p_ins_prev p x e
  | ORemHead h => p_rem_head k h
  | ORemAfter h a => p_rem_after k h a
  | ORemove h e => p_remove k h e
  | ORemPrev _ p q e => p_rem_prev p q e
  | OConcat h1 h2 => p_concat h1 h2
  | OMove h1 h2 => p_move k h1 h2
  | OSwap h1 h2 => p_swap k h1 h2
  end.

(** One instruction; the result says whether it was the store that changes the contents. *)
Definition mstep (k : kind) (m : mem) (p : list micro) : option (mem * list micro * bool) :=
  match p with
  | [] => None
  | Do b f :: r => bind (f m) (fun m' => Some (m', r, b))
  | Let f :: r => bind (f m) (fun p' => Some (m, p' ++ r, false))
  | Find h c e :: r => bind (getn m (LE c)) (fun v => Some (m, if Nat.eqb v e then p_rem_after k h c ++ r else Find h v e :: r, false))
  end.

(** The writer alone, [n] instructions. *)
Fixpoint mrun (k : kind) (n : nat) (m : mem) (p : list micro) : option (mem * list micro) :=
  match n with
  | O => Some (m, p)
  | S n => bind (mstep k m p) (fun r => mrun k n (fst (fst r)) (snd (fst r)))
  end.

(** Evaluation of a FOREACH loop (151-154, 265-268, 382-385), nobody writing: the elements
    visited.  [None]: the loop has not ended after [n] iterations. *)
Fixpoint foreach (n : nat) (m : mem) (var : nat) : option (list nat) :=
  if Nat.eqb var 0 then Some [] else
  match n with O => None | S n => bind (foreach n m (nx m (LE var))) (fun r => Some (var :: r)) end.

(** FOREACH_FROM (156-159, 270-273, 387-390): starts at var, or at the head if var is NULL *)
Definition foreach_from (n : nat) (m : mem) (h var : nat) : option (list nat) :=
  foreach n m (if Nat.eqb var 0 then nx m (LH h) else var).
(** SLIST_FOREACH_PREVPTR (166-169): the values of var and varp in each iteration *)
Fixpoint foreach_prevptr (n : nat) (m : mem) (varp : loc) : option (list (nat * loc)) :=
  if Nat.eqb (nx m varp) 0 then Some [] else
  match n with O => None | S n => bind (foreach_prevptr n m (LE (nx m varp))) (fun r => Some ((nx m varp, varp) :: r)) end.
(** EMPTY (142-143, 261, 379) *)
Definition q_empty (m : mem) (h : nat) : bool := Nat.eqb (nx m (LH h)) 0.

(** ** One writer and any number of readers *)

(** FOREACH: [RAt h e]: var = e, the body for e has run and the next field is about to be
    loaded.  FOREACH_SAFE (161-164, 275-279, 392-395): [RS h e]: var = e, tvar about to be
    loaded; [RB h e n]: tvar = n, the body for e has run. *)
Inductive reader := RIdle | RAt (h e : nat) | RS (h e : nat) | RB (h e n : nat).

(** [cl]: the lists as the client (the writer) knows them; [used]: the elements that were
    inserted at some time.  Both restrict the writer's calls only. *)
Record state := mks { sm : mem; todo : list micro; cur : op; cl : nat -> option (list nat); used : nat -> bool; rd : nat -> reader }.

Inductive event :=
| EDo (o : op)               (** the store of [o] that changes the list's contents *)
| EBegin (t h : nat)         (** reader [t] loads the first element of list [h] *)
| EVisit (t e : nat)         (** reader [t] executes the loop body for [e] *)
| EEnd (t : nat).            (** the loop of reader [t] ends *)

(** The list after an operation, as its name says. *)
Fixpoint ins_after (a e : nat) (l : list nat) : list nat :=
  match l with [] => [] | x :: r => if Nat.eqb x a then x :: e :: r else x :: ins_after a e r end.
Fixpoint ins_before (a e : nat) (l : list nat) : list nat :=
  match l with [] => [] | x :: r => if Nat.eqb x a then e :: x :: r else x :: ins_before a e r end.
Fixpoint rem (e : nat) (l : list nat) : list nat :=
  match l with [] => [] | x :: r => if Nat.eqb x e then r else x :: rem e r end.
Fixpoint rem_after (a : nat) (l : list nat) : list nat :=
  match l with [] => [] | x :: r => if Nat.eqb x a then x :: tl r else x :: rem_after a r end.

(** The lists (None: not initialised) after an operation; this is also the specification. *)
Definition aop (A : nat -> option (list nat)) (o : op) : nat -> option (list nat) :=
  let on h f := upd A h (option_map f (A h)) in
  match o with
  | OInit h => upd A h (Some [])
  | OInsHead h e => on h (cons e)
  | OInsTail h e => on h (fun l => l ++ [e])
  | OInsAfter h a e => on h (ins_after a e)
  | OInsBefore h x e => on h (ins_before x e)
  | OInsPrev h p x e => on h (match p with LH _ => cons e | LE a => ins_after a e end)
  | ORemHead h => on h (@tl nat)
  | ORemAfter h a => on h (rem_after a)
  | ORemove h e => on h (rem e)
  | ORemPrev h p q e => on h (rem e)
  | OConcat h1 h2 => upd (upd A h1 (match A h1, A h2 with Some a, Some b => Some (a ++ b) | x, _ => x end)) h2 (Some [])
  | OMove h1 h2 => upd (upd A h1 (A h2)) h2 None
  | OSwap h1 h2 => upd (upd A h1 (A h2)) h2 (A h1)
  end.

Definition inb (x : nat) (l : list nat) : bool := existsb (Nat.eqb x) l.
Fixpoint succ (a : nat) (l : list nat) : option nat :=
  match l with [] => None | x :: r => if Nat.eqb x a then match r with y :: _ => Some y | [] => None end else succ a r end.

(** The writer's protocol of C61: inserts of elements never used before, removes of elements
    that are there; the new element is not NULL. *)
Definition preb (A : nat -> option (list nat)) (used : nat -> bool) (o : op) : bool :=
  let fresh e := negb (Nat.eqb e 0) && negb (used e) in
  let inl h f := match A h with Some l => f l | None => false end in
  match o with
  | OInsHead h e => fresh e && inl h (fun _ => true)
  | OInsTail h e => fresh e && inl h (fun _ => true)
  | OInsAfter h a e => fresh e && inl h (inb a)
  | OInsBefore h x e => fresh e && inl h (inb x)
  | ORemHead h => inl h (fun l => negb (match l with [] => true | _ => false end))
  | ORemAfter h a => inl h (fun l => match succ a l with Some _ => true | None => false end)
  | ORemove h e => inl h (inb e)
  | _ => false
  end.

Definition new_elt (o : op) : option nat :=
  match o with OInsHead _ e | OInsTail _ e | OInsAfter _ _ e | OInsBefore _ _ e | OInsPrev _ _ _ e => Some e | _ => None end.

Inductive label := WCall (o : op) | WTick | RBegin (t h : nat) | RBeginSafe (t h : nat) | RTick (t : nat).

Definition mark (u : nat -> bool) (o : op) : nat -> bool := match new_elt o with Some e => upd u e true | None => u end.

(** the loop test on [e]: run the body or leave the loop *)
Definition enter (s : state) (t h e : nat) : state * list event :=
  if Nat.eqb e 0 then (mks (sm s) (todo s) (cur s) (cl s) (used s) (upd (rd s) t RIdle), [EEnd t])
  else (mks (sm s) (todo s) (cur s) (cl s) (used s) (upd (rd s) t (RAt h e)), [EVisit t e]).
Definition enter_safe (s : state) (t h e : nat) : state * list event :=
  if Nat.eqb e 0 then (mks (sm s) (todo s) (cur s) (cl s) (used s) (upd (rd s) t RIdle), [EEnd t])
  else (mks (sm s) (todo s) (cur s) (cl s) (used s) (upd (rd s) t (RS h e)), []).

Definition step (k : kind) (s : state) (l : label) : option (state * list event) :=
  match l with
  | WCall o =>
      match todo s with
      | [] => if has k o && preb (cl s) (used s) o
              then Some (mks (sm s) (prog k o) o (cl s) (mark (used s) o) (rd s), []) else None
      | _ => None
      end
  | WTick =>
      bind (mstep k (sm s) (todo s)) (fun r =>
        let '(m, p, b) := r in
        Some (mks m p (cur s) (if b then aop (cl s) (cur s) else cl s) (used s) (rd s), if b then [EDo (cur s)] else []))
  | RBegin t h =>
      match rd s t, cl s h with
      | RIdle, Some _ => let '(s1, ev) := enter s t h (nx (sm s) (LH h)) in Some (s1, EBegin t h :: ev)
      | _, _ => None
      end
  | RBeginSafe t h =>
      match rd s t, cl s h with
      | RIdle, Some _ => let '(s1, ev) := enter_safe s t h (nx (sm s) (LH h)) in Some (s1, EBegin t h :: ev)
      | _, _ => None
      end
  | RTick t =>
      match rd s t with
      | RAt h e => Some (enter s t h (nx (sm s) (LE e)))
      | RS h e => Some (mks (sm s) (todo s) (cur s) (cl s) (used s) (upd (rd s) t (RB h e (nx (sm s) (LE e)))), [EVisit t e])
      | RB h e n => Some (enter_safe s t h n)
      | RIdle => None
      end
  end.

(** [n] empty lists; the fields of elements (and of other heads) hold any value *)
Definition empty_lists (n : nat) : nat -> option (list nat) := fun h => if Nat.ltb h n then Some [] else None.
Definition init (n : nat) (g : nat -> nat) (gp : nat -> loc) : state :=
  mks (mkm (fun l => match l with LH h => 0 | LE e => g e end) (fun h => LH h) gp) [] (OInit 0) (empty_lists n) (fun _ => false) (fun _ => RIdle).
