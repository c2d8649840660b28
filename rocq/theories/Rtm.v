(** x86-TSO (see Tso.v) with restricted transactional memory (include/gcc/x86_64/ck_pr_rtm.h).

    A transaction collects its stores, and the locations it touched, until rtm_end makes all of them
    visible at once; like a locked instruction this waits for older stores of the thread to drain.  When a
    store of another thread to a touched location reaches memory the transaction is doomed: it can only
    abort.  It may also abort at any time for any reason.  An abort drops all effects and returns a status
    from the outermost rtm_begin.  Events of a transaction are reported when it commits, and never if it
    aborts.  Conflicts of other threads' loads with a transaction's stores are not assumed to be noticed. *)
From Coq Require Import ZArith Arith List Bool.
From Verif Require Import Lib Tso.
Import ListNotations.

(** ck_pr_rtm.h:55-62 *)
Definition STARTED : Z := (2 ^ 32 - 1)%Z.
Definition EXPLICIT : Z := 1%Z.
Definition RETRY : Z := 2%Z.
Definition CONFLICT : Z := 4%Z.
Definition CODE (x : Z) : Z := Z.land (Z.shiftr x 24) 255.

Inductive xinstr (L E : Type) :=
| Op (i : instr L E)
| Begin (p : L) (k : Z -> L)              (* ck_pr_rtm_begin, 64-75: p if started, else k status *)
| End (p : L) (e : list E)                (* ck_pr_rtm_end, 78-84 *)
| XAbort (code : Z) (p : L).              (* ck_pr_rtm_abort, 86-92; p outside a transaction *)
Arguments Op {L E}. Arguments Begin {L E}. Arguments End {L E}. Arguments XAbort {L E}.

Record txr (L E : Type) := mkX { dead : bool; dep : nat; tch : list loc; wb : list (loc * Z); evs : list E; abt : Z -> L }.
Arguments mkX {L E}. Arguments dead {L E}. Arguments dep {L E}. Arguments tch {L E}. Arguments wb {L E}.
Arguments evs {L E}. Arguments abt {L E}.

Record rtm (L E : Type) := mkR { ts : tso L; txs : nat -> option (txr L E) }.
Arguments mkR {L E}. Arguments ts {L E}. Arguments txs {L E}.

Section Machine.
Context {L E A : Type}.
Variable code : nat -> L -> A -> option (xinstr L E).
Variable arr : nat -> loc -> Z -> list E.

Inductive xlab := XGo (t : nat) (a : A) | XFlush (t : nat) | Abort (t : nat) (status : Z).

Definition hits (xs ys : list loc) : bool := existsb (fun x => existsb (loc_eqb x) ys) xs.
Definition doom (xs : list loc) (r : txr L E) : txr L E :=
  if hits xs (tch r) then mkX true (dep r) (tch r) (wb r) (evs r) (abt r) else r.
(** stores of [t] to [xs] reach memory *)
Definition kill (T : nat -> option (txr L E)) (t : nat) (xs : list loc) : nat -> option (txr L E) :=
  fun u => if Nat.eqb u t then T u else option_map (doom xs) (T u).

Definition setp (s : rtm L E) (t : nat) (p : L) : tso L := next (ts s) t p.
(** what a thread in a transaction reads *)
Definition tview (s : rtm L E) (t : nat) (r : txr L E) (x : loc) : Z := fwd (wb r) x (view (ts s) t x).

(** one instruction inside the transaction [r] *)
Definition inside (s : rtm L E) (t : nat) (r : txr L E) (i : xinstr L E) : option (rtm L E * list E) :=
  if dead r then None else
  match i with
  | Op (Ld x k) =>
      let (p, e) := k (tview s t r x) in
      Some (mkR (setp s t p) (upd (txs s) t (Some (mkX false (dep r) (x :: tch r) (wb r) (evs r ++ e) (abt r)))), [])
  | Op (St x v p e) =>
      Some (mkR (setp s t p) (upd (txs s) t (Some (mkX false (dep r) (x :: tch r) (wb r ++ [(x, v)]) (evs r ++ e) (abt r)))), [])
  | Op (Rmw x f k) =>
      let v := tview s t r x in
      let (p, e) := k v in
      Some (mkR (setp s t p) (upd (txs s) t (Some (mkX false (dep r) (x :: tch r) (wb r ++ [(x, f v)]) (evs r ++ e) (abt r)))), [])
  | Op (Fence p e) | Op (Local p e) =>
      Some (mkR (setp s t p) (upd (txs s) t (Some (mkX false (dep r) (tch r) (wb r) (evs r ++ e) (abt r)))), [])
  | Begin p k =>
      Some (mkR (setp s t p) (upd (txs s) t (Some (mkX false (S (dep r)) (tch r) (wb r) (evs r) (abt r)))), [])
  | End p e =>
      match dep r with
      | S (S d) => Some (mkR (setp s t p) (upd (txs s) t (Some (mkX false (S d) (tch r) (wb r) (evs r ++ e) (abt r)))), [])
      | _ =>
          match buf (ts s) t with
          | [] => Some (mkR (mkT (fun x => fwd (wb r) x (mem (ts s) x)) (buf (ts s)) (upd (pcs (ts s)) t p))
                            (upd (kill (txs s) t (map fst (wb r))) t None), evs r ++ e)
          | _ => None
          end
      end
  | XAbort c p => Some (mkR (setp s t (abt r (Z.lor EXPLICIT (Z.shiftl c 24)))) (upd (txs s) t None), [])
  end.

(** one instruction outside transactions; rtm_end is a fault there *)
Definition outside (s : rtm L E) (t : nat) (a : A) (i : xinstr L E) : option (rtm L E * list E) :=
  match i with
  | Op i =>
      match step (fun _ _ _ => Some i) arr (ts s) (Go t a) with
      | Some (s', e) => Some (mkR s' (match i with Rmw x _ _ => kill (txs s) t [x] | _ => txs s end), e)
      | None => None
      end
  | Begin p k => Some (mkR (setp s t p) (upd (txs s) t (Some (mkX false 1 [] [] [] k))), [])
  | End _ _ => None
  | XAbort _ p => Some (mkR (setp s t p) (txs s), [])
  end.

Definition xstep (s : rtm L E) (l : xlab) : option (rtm L E * list E) :=
  match l with
  | XGo t a =>
      match code t (pcs (ts s) t) a with
      | Some i => match txs s t with Some r => inside s t r i | None => outside s t a i end
      | None => None
      end
  | XFlush t =>
      match buf (ts s) t with
      | [] => None
      | (x, v) :: r => Some (mkR (mkT (setm (mem (ts s)) x v) (upd (buf (ts s)) t r) (pcs (ts s))) (kill (txs s) t [x]), arr t x v)
      end
  | Abort t status =>
      match txs s t with
      | Some r => if Z.eqb status STARTED then None
                  else Some (mkR (setp s t (abt r status)) (upd (txs s) t None), [])
      | None => None
      end
  end.
End Machine.
Arguments xlab : clear implicits.
