(** * What epoch reclamation promises, as conditions on the log of observable events.
    Only the event type comes from the model file. *)
From Coq Require Import List Arith Bool.
From Verif Require Import Lib Epoch_Model.
Import ListNotations.

(** What an observer remembers: the read sections that are open (with their threads), for every
    thread the sections that were open when it last called synchronize, for every deferred
    callback the sections that were open when it was deferred, the callbacks not yet run (with
    their records), and for every thread the callbacks pending on the record of which it last called
    barrier. *)
Record gs := mkG {
  g_act : list (nat * nat);
  g_wait : nat -> list nat;
  g_set : nat -> list nat;
  g_pend : list (nat * nat);
  g_bar : nat -> list nat }.
Definition gs0 : gs := mkG [] (fun _ => []) (fun _ => []) [] (fun _ => []).

Definition gnext (g : gs) (e : event) : gs :=
  match e with
  | EBegin t s => mkG ((t, s) :: g_act g) (g_wait g) (g_set g) (g_pend g) (g_bar g)
  | EEnd t s => mkG (filter (fun p => negb (Nat.eqb (snd p) s)) (g_act g)) (g_wait g) (g_set g) (g_pend g) (g_bar g)
  | ESync t => mkG (g_act g) (upd (g_wait g) t (map snd (g_act g))) (g_set g) (g_pend g) (g_bar g)
  | EDefer x r => mkG (g_act g) (g_wait g) (upd (g_set g) x (map snd (g_act g))) ((x, r) :: g_pend g) (g_bar g)
  | ERun x => mkG (g_act g) (g_wait g) (g_set g) (filter (fun p => negb (Nat.eqb (fst p) x)) (g_pend g)) (g_bar g)
  | EBar t r => mkG (g_act g) (g_wait g) (g_set g) (g_pend g)
                  (upd (g_bar g) t (map fst (filter (fun p => Nat.eqb (snd p) r) (g_pend g))))
  | _ => g
  end.

Definition over (g : gs) (l : list nat) : bool :=
  forallb (fun s => negb (existsb (fun p => Nat.eqb (snd p) s) (g_act g))) l.
Definition pending (g : gs) (x : nat) : bool := existsb (fun p => Nat.eqb (fst p) x) (g_pend g).

(** when synchronize returns, the sections open when it was called have ended *)
Definition sync_ok (g : gs) (e : event) : bool :=
  match e with ESynced t => over g (g_wait g t) | _ => true end.
(** when a callback runs, the sections open when it was deferred have ended *)
Definition grace_ok (g : gs) (e : event) : bool :=
  match e with ERun x => over g (g_set g x) | _ => true end.
(** a callback that runs was deferred and did not run since *)
Definition run_ok (g : gs) (e : event) : bool := match e with ERun x => pending g x | _ => true end.
(** the same, and when barrier returns, the callbacks
    pending on its record when it was called have run *)
Definition once_ok (g : gs) (e : event) : bool :=
  match e with
  | ERun x => pending g x
  | EBarred t r => forallb (fun x => negb (pending g x)) (g_bar g t)
  | _ => true
  end.
(** the peak counter is at least the pending counter *)
Definition peak_ok (g : gs) (e : event) : bool :=
  match e with EPeak r pk pn => Nat.leb pn pk | _ => true end.
(** end returns true exactly when its caller has no section left *)
Definition end_ok (g : gs) (e : event) : bool :=
  match e with
  | EEndRet t b => Bool.eqb b (negb (existsb (fun p => Nat.eqb (fst p) t) (g_act g)))
  | _ => true
  end.

(** the condition holds of every event of the log *)
Fixpoint legal_from (ok : gs -> event -> bool) (g : gs) (log : list event) : Prop :=
  match log with [] => True | e :: log => ok g e = true /\ legal_from ok (gnext g e) log end.
Definition legal (ok : gs -> event -> bool) (log : list event) : Prop := legal_from ok gs0 log.

(** callbacks of record [r] deferred in the log and not yet run in it *)
Definition waiting (r : nat) (log : list event) : nat :=
  length (filter (fun p => Nat.eqb (snd p) r) (g_pend (fold_left gnext log gs0))).

(** number of advances of the global epoch in the log *)
Fixpoint ticks (log : list event) : nat :=
  match log with [] => 0 | ETick :: log => S (ticks log) | _ :: log => ticks log end.
