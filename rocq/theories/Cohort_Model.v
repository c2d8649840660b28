(** Model of include/ck_cohort.h, macros CK_COHORT_PROTOTYPE and
    CK_COHORT_TRYLOCK_PROTOTYPE.

    The local and global locks are parameters of the macros; here they are any
    correct test-and-set style lock that another thread may release (the cohort
    protocol itself releases the global lock from a thread that need not have
    acquired it): a bit, set by an acquisition that finds it clear.  A trylock of
    theirs may in addition fail spuriously ([ATickFail]).  [coh t] is the cohort
    thread [t] uses and [lim c] the local_pass_limit of cohort [c]. *)
From Coq Require Import Arith NArith List Bool.
From Verif Require Import Lib LockSpec.
Import ListNotations.

Inductive pc :=
| Idle
| L1           (** 85: inc waiting_threads *)
| L2           (** 86: local lock *)
| L3           (** 87: dec waiting_threads *)
| L4           (** 89: load release_state *)
| L5           (** 90: global lock *)
| Crit
| U1           (** 102-103: load waiting_threads, compare acquire_count *)
| U2           (** 104: release_state := LOCAL *)
| U3           (** 106: global unlock *)
| U4           (** 107: release_state := GLOBAL *)
| U5           (** 108: acquire_count := 0 *)
| U6 (g : bool) (** 112: local unlock; [g]: the global lock was released *)
| T1           (** 135: inc waiting_threads *)
| T2           (** 136: local trylock *)
| T3 (r : bool) (** 137-140: dec waiting_threads *)
| T4           (** 142: load release_state *)
| T5           (** 143: global trylock *)
| T6.          (** 144: local unlock *)

Record state := mk { glob : bool; loc : nat -> bool; rel : nat -> bool; wait : nat -> N; acq : nat -> N; thr : nat -> pc }.

(** 67-78; [rel] is true for CK_COHORT_STATE_LOCAL. *)
Definition init : state := mk false (fun _ => false) (fun _ => false) (fun _ => 0%N) (fun _ => 0%N) (fun _ => Idle).

Inductive act := ALock | AUnlock | ATry | ATick | ATickFail.

Definition uinc (x : N) : N := ((x + 1) mod 2 ^ 32)%N.
Definition udec (x : N) : N := ((x + (2 ^ 32 - 1)) mod 2 ^ 32)%N.

Section M.
Variables (n : nat) (coh : nat -> nat) (lim : nat -> N).

Definition go (s : state) (t : nat) (p : pc) : state := mk (glob s) (loc s) (rel s) (wait s) (acq s) (upd (thr s) t p).
Definition setg (s : state) (b : bool) : state := mk b (loc s) (rel s) (wait s) (acq s) (thr s).
Definition setl (s : state) (c : nat) (b : bool) : state := mk (glob s) (upd (loc s) c b) (rel s) (wait s) (acq s) (thr s).
Definition setr (s : state) (c : nat) (b : bool) : state := mk (glob s) (loc s) (upd (rel s) c b) (wait s) (acq s) (thr s).
Definition setw (s : state) (c : nat) (k : N) : state := mk (glob s) (loc s) (rel s) (upd (wait s) c k) (acq s) (thr s).
Definition seta (s : state) (c : nat) (k : N) : state := mk (glob s) (loc s) (rel s) (wait s) (upd (acq s) c k) (thr s).

(** 93/149: ++acquire_count, then return holding the lock *)
Definition enter (s : state) (t : nat) : state * list lev :=
  (go (seta s (coh t) (uinc (acq s (coh t)))) t Crit, [Acq t]).

Definition step (s : state) (l : nat * act) : option (state * list lev) :=
  let (t, a) := l in
  let c := coh t in
  if negb (Nat.ltb t n) then None else
  match thr s t, a with
  (* lock, 80-95 *)
  | Idle, ALock => Some (go s t L1, [])
  | L1, ATick => Some (go (setw s c (uinc (wait s c))) t L2, [])
  | L2, ATick => if loc s c then Some (go s t L2, []) else Some (go (setl s c true) t L3, [])
  | L3, ATick => Some (go (setw s c (udec (wait s c))) t L4, [])
  | L4, ATick => if rel s c then Some (enter s t) else Some (go s t L5, [])
  | L5, ATick => if glob s then Some (go s t L5, []) else Some (enter (setg s true) t)
  (* unlock, 97-115 *)
  | Crit, AUnlock => Some (go s t U1, [])
  | U1, ATick => Some (go s t (if N.ltb 0 (wait s c) && N.ltb (acq s c) (lim c) then U2 else U3), [])
  | U2, ATick => Some (go (setr s c true) t (U6 false), [])
  | U3, ATick => Some (go (setg s false) t U4, [Rel t])
  | U4, ATick => Some (go (setr s c false) t U5, [])
  | U5, ATick => Some (go (seta s c 0%N) t (U6 true), [])
  | U6 g, ATick => Some (go (setl s c false) t Idle, if g then [] else [Rel t])
  (* trylock, 127-151 *)
  | Idle, ATry => Some (go s t T1, [])
  | T1, ATick => Some (go (setw s c (uinc (wait s c))) t T2, [])
  | T2, ATick => if loc s c then Some (go s t (T3 false), []) else Some (go (setl s c true) t (T3 true), [])
  | T2, ATickFail => Some (go s t (T3 false), [])
  | T3 r, ATick => Some (go (setw s c (udec (wait s c))) t (if r then T4 else Idle), [])
  | T4, ATick => if rel s c then Some (enter s t) else Some (go s t T5, [])
  | T5, ATick => if glob s then Some (go s t T6, []) else Some (enter (setg s true) t)
  | T5, ATickFail => Some (go s t T6, [])
  | T6, ATick => Some (go (setl s c false) t Idle, [])
  | _, _ => None
  end.

(** Clients that never call trylock. *)
Definition nstep (s : state) (l : nat * act) : option (state * list lev) :=
  match snd l with ATry => None | _ => step s l end.
End M.

(** locked, 117-123: the predicate arguments are applied as written there; [l]
    and [g] are the representations of the local and of the global lock. *)
Definition locked (A : Type) (GI LI : A -> bool) (l g : A) : bool := GI l || LI g.
