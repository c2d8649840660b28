(** Specification of hazard pointers: an observer that reads the log of API events
    and knows which objects are retired, which slots hold what, and which slots
    protect their object; and the conditions its state puts on the next event. *)
From Coq Require Import NArith Arith List Bool.
From Verif Require Import Lib Obs Hp_Model.
Import ListNotations.

(** an outstanding retirement: record, descriptor, data, pointer *)
Definition ret := (nat * nat * nat * nat)%type.
Definition q_r (x : ret) : nat := fst (fst (fst x)).
Definition q_h (x : ret) : nat := snd (fst (fst x)).
Definition q_d (x : ret) : nat := snd (fst x).
Definition q_p (x : ret) : nat := snd x.

Record gs := {
  g_use : nat -> bool;                 (* the record is in a client's hands *)
  g_slot : nat -> nat -> option nat;   (* what the current user of the record published in the slot *)
  g_prot : nat -> nat -> bool;         (* the slot has held its pointer at a moment at which the object was not retired *)
  g_phys : nat -> nat -> nat;          (* the contents of the slot, whoever wrote it *)
  g_out : list ret;                    (* retired, not destroyed, newest first *)
  g_cand : nat -> nat -> Prop          (* descriptors the reclaim of a thread must deal with: pending when it began and
                                          their pointers in no slot since *)
}.
Definition gs0 : gs :=
  {| g_use := fun _ => false; g_slot := fun _ _ => None; g_prot := fun _ _ => false; g_phys := fun _ _ => 0; g_out := []; g_cand := fun _ _ => False |}.

Definition retired (l : list ret) (p : nat) : bool := existsb (fun x => Nat.eqb (q_p x) p) l.
Definition use' (g : gs) (e : event) : nat -> bool :=
  match e with
  | EReg _ r => upd (g_use g) r true
  | ERcy _ r => if Nat.eqb r 0 then g_use g else upd (g_use g) r true
  | EUnr _ r => upd (g_use g) r false
  | _ => g_use g
  end.
Definition slot' (g : gs) (e : event) : nat -> nat -> option nat :=
  match e with
  | EReg _ r | ERcy _ r | EUnr _ r => upd (g_slot g) r (fun _ => None)
  | ESet _ r i p => upd (g_slot g) r (upd (g_slot g r) i (Some p))
  | _ => g_slot g
  end.
Definition phys' (g : gs) (e : event) : nat -> nat -> nat :=
  match e with ESet _ r i p => upd (g_phys g) r (upd (g_phys g r) i p) | _ => g_phys g end.
Definition out' (g : gs) (e : event) : list ret :=
  match e with
  | ERet _ r h d p => (r, h, d, p) :: g_out g
  | EDes _ _ h _ => filter (fun x => negb (Nat.eqb (q_h x) h)) (g_out g)
  | EUnr _ r => filter (fun x => negb (Nat.eqb (q_r x) r)) (g_out g)   (* unregister forgets what is pending *)
  | _ => g_out g
  end.
Definition cand' (g : gs) (e : event) : nat -> nat -> Prop :=
  match e with
  | EBeg t r => fun u h => if Nat.eq_dec u t
                           then exists d p, In (r, h, d, p) (g_out g) /\ forall r' i, g_phys g r' i <> p
                           else g_cand g u h
  | ESet _ _ _ p => fun u h => g_cand g u h /\ forall x, In x (g_out g) -> q_h x = h -> q_p x <> p
  | _ => g_cand g
  end.
Definition sets (e : event) (r i : nat) : bool :=
  match e with ESet _ r' i' _ => Nat.eqb r' r && Nat.eqb i' i | _ => false end.
(** a slot protects from the first moment at which it holds a pointer to an object
    that is not retired, until it is overwritten *)
Definition prot' (g : gs) (e : event) (r i : nat) : bool :=
  match slot' g e r i with
  | None => false
  | Some p => g_prot g r i && negb (sets e r i) || negb (retired (out' g e) p)
  end.
Definition gnext (g : gs) (e : event) : gs :=
  {| g_use := use' g e; g_slot := slot' g e; g_prot := prot' g e; g_phys := phys' g e; g_out := out' g e; g_cand := cand' g e |}.

(** an object is destroyed only when no slot protects it (NULL protects nothing) *)
Definition safe_ok (g : gs) (e : event) : Prop :=
  match e with
  | EDes _ r h d => forall r' i p, p <> 0 -> g_prot g r' i = true -> g_slot g r' i = Some p -> ~ In (r, h, d, p) (g_out g)
  | _ => True
  end.
Definition pend_of (g : gs) (r : nat) : list ret := filter (fun x => Nat.eqb (q_r x) r) (g_out g).
(** destroy is called for an outstanding retirement, with its data, through its record;
    reclaim leaves none of the candidates; purge leaves a multiple of 2^32 *)
Definition once_ok (g : gs) (e : event) : Prop :=
  match e with
  | EDes _ r h d => exists p, In (r, h, d, p) (g_out g)
  | EEnd t r => forall h, g_cand g t h -> ~ In h (map q_h (pend_of g r))
  | EPur _ r => (N.of_nat (length (pend_of g r)) mod 4294967296 = 0)%N
  | _ => True
  end.
(** records are handed to one user at a time, descriptors are retired once at a time *)
Definition excl_ok (g : gs) (e : event) : Prop :=
  match e with
  | EReg _ r => g_use g r = false
  | ERcy _ r => r <> 0 -> g_use g r = false
  | ERet _ r h _ _ => g_use g r = true /\ ~ In h (map q_h (g_out g))
  | _ => True
  end.
Definition hp_ok (g : gs) (e : event) : Prop := safe_ok g e /\ once_ok g e /\ excl_ok g e.

(** ** The same, over logs *)
(** what the log leaves retired and not destroyed *)
Definition pending_after (log : list event) : list ret := g_out (gfold gnext log gs0).
(** the event does not overwrite slot [i] of [r] and does not end or restart the use of [r] *)
Definition keeps (e : event) (r i : nat) : bool :=
  match e with
  | EReg _ r' | ERcy _ r' | EUnr _ r' => negb (Nat.eqb r' r)
  | ESet _ r' i' _ => negb (Nat.eqb r' r && Nat.eqb i' i)
  | _ => true
  end.
Definition n_des (h : nat) (log : list event) : nat := length (filter (fun e => match e with EDes _ _ h' _ => Nat.eqb h' h | _ => false end) log).
Definition n_ret (h : nat) (log : list event) : nat := length (filter (fun e => match e with ERet _ _ h' _ _ => Nat.eqb h' h | _ => false end) log).
(** no record is given up *)
Definition no_unr (e : event) : bool := match e with EUnr _ _ => false | _ => true end.
(** the linked list that starts at [a] *)
Fixpoint chainp (nx : nat -> nat) (a : nat) (l : list nat) : Prop :=
  match l with [] => a = 0 | h :: l => a = h /\ h <> 0 /\ chainp nx (nx h) l end.
