(** What C60 and C61 ask for.  The lists a client has are [A : nat -> option (list nat)]
    (one sequence per head, None for a head that is not initialised); [aop] (Queue_Model.v)
    says what each macro does to these sequences.  Here: when memory represents [A], which
    calls are correct uses, and what concurrent readers may see. *)
From Coq Require Import Arith List Bool.
From Verif Require Import Lib Queue_Model.
Import ListNotations.

(** address of the pointer that ends the list [xs] starting at [l] *)
Fixpoint lastloc (l : loc) (xs : list nat) : loc := match xs with [] => l | x :: r => lastloc (LE x) r end.
(** the pointers along [xs], and for LIST the back pointers *)
Fixpoint seg (k : kind) (m : mem) (l : loc) (xs : list nat) : Prop :=
  match xs with
  | [] => True
  | x :: r => nx m l = x /\ x <> 0 /\ (k = Li -> pv m x = l) /\ seg k m (LE x) r
  end.
Definition rep (k : kind) (m : mem) (h : nat) (xs : list nat) : Prop :=
  seg k m (LH h) xs /\ nx m (lastloc (LH h) xs) = 0 /\ NoDup xs /\ (k = St -> lst m h = lastloc (LH h) xs).
(** memory [m] represents the lists [A]; no element is in two lists *)
Definition Abs (k : kind) (m : mem) (A : nat -> option (list nat)) : Prop :=
  (forall h xs, A h = Some xs -> rep k m h xs) /\
  (forall h h' xs xs' x, A h = Some xs -> A h' = Some xs' -> In x xs -> In x xs' -> h = h').

(** [e] is in no list *)
Definition out (A : nat -> option (list nat)) (e : nat) : Prop := forall h xs, A h = Some xs -> ~ In e xs.
(** [p] is the address of the pointer to [x] in list [xs] of head [h] ([x] = NULL: the last pointer) *)
Definition points (h : nat) (xs : list nat) (p : loc) (x : nat) : Prop :=
  exists a b, xs = a ++ b /\ p = lastloc (LH h) a /\ x = hd 0 b.
(** correct use of each macro *)
Definition pre (A : nat -> option (list nat)) (o : op) : Prop :=
  match o with
  | OInit h => True
  | OInsHead h e | OInsTail h e => e <> 0 /\ out A e /\ exists xs, A h = Some xs
  | OInsAfter h a e | OInsBefore h a e => e <> 0 /\ out A e /\ exists xs, A h = Some xs /\ In a xs
  | OInsPrev h p x e => e <> 0 /\ out A e /\ exists xs, A h = Some xs /\ points h xs p x
  | ORemHead h => exists xs, A h = Some xs /\ xs <> []
  | ORemAfter h a => exists xs, A h = Some xs /\ exists b, succ a xs = Some b
  | ORemove h e => exists xs, A h = Some xs /\ In e xs
  | ORemPrev h p q e => exists xs, A h = Some xs /\ points h xs p e /\ In e xs
  | OConcat h1 h2 => h1 <> h2 /\ (exists xs, A h1 = Some xs) /\ exists xs, A h2 = Some xs
  | OMove h1 h2 => h1 <> h2 /\ exists xs, A h2 = Some xs
  | OSwap h1 h2 => h1 <> h2 /\ (exists xs, A h1 = Some xs) /\ exists xs, A h2 = Some xs
  end.
Definition heads (o : op) : list nat :=
  match o with
  | OInit h | OInsHead h _ | OInsTail h _ | OInsAfter h _ _ | OInsBefore h _ _ | OInsPrev h _ _ _
  | ORemHead h | ORemAfter h _ | ORemove h _ | ORemPrev h _ _ _ => [h]
  | OConcat a b | OMove a b | OSwap a b => [a; b]
  end.
(** what [o] must leave alone: elements in no list (but for the one it inserts) and other heads *)
Definition untouched (A : nat -> option (list nat)) (o : op) (m m' : mem) : Prop :=
  (forall x, out A x -> new_elt o <> Some x -> nx m' (LE x) = nx m (LE x) /\ pv m' x = pv m x) /\
  (forall h, ~ In h (heads o) -> nx m' (LH h) = nx m (LH h) /\ lst m' h = lst m h).

(** a history of macros, each run to its end by a writer that is alone *)
Inductive hist (k : kind) : mem -> list op -> mem -> Prop :=
| hist_nil : forall m, hist k m [] m
| hist_cons : forall m o os n m1 m2, mrun k n m (prog k o) = Some (m1, []) -> hist k m1 os m2 -> hist k m (o :: os) m2.
Fixpoint pres (k : kind) (A : nat -> option (list nat)) (os : list op) : Prop :=
  match os with [] => True | o :: os => has k o = true /\ pre A o /\ pres k (aop A o) os end.

(** ** C61: what readers see.  The observer keeps the lists and, for each traversal, the
    elements that were in the list ever since it began and that it has not visited ([must])
    and the elements that were in the list at some time since it began ([may]). *)
Record trav := mkt { t_h : nat; must : list nat; may : list nat }.
Record gst := mkg { ga : nat -> option (list nat); gt : nat -> option trav }.
Definition elts (A : nat -> option (list nat)) (h : nat) : list nat := match A h with Some l => l | None => [] end.

Definition tnext (A : nat -> option (list nat)) (r : trav) : trav :=
  mkt (t_h r) (filter (fun x => inb x (elts A (t_h r))) (must r)) (elts A (t_h r) ++ may r).
Definition gnext (g : gst) (e : event) : gst :=
  match e with
  | EDo o => let A := aop (ga g) o in mkg A (fun t => option_map (tnext A) (gt g t))
  | EBegin t h => mkg (ga g) (upd (gt g) t (Some (mkt h (elts (ga g) h) (elts (ga g) h))))
  | EVisit t e => mkg (ga g) (upd (gt g) t (option_map (fun r => mkt (t_h r) (remove Nat.eq_dec e (must r)) (may r)) (gt g t)))
  | EEnd t => mkg (ga g) (upd (gt g) t None)
  end.
Definition ok (g : gst) (e : event) : Prop :=
  match e with
  | EDo o => True
  | EBegin t h => gt g t = None
  | EVisit t e => e <> 0 /\ exists r, gt g t = Some r /\ In e (may r)
  | EEnd t => exists r, gt g t = Some r /\ must r = []
  end.
Definition gs0 (n : nat) : gst := mkg (empty_lists n) (fun _ => None).
