(** Model of include/ck_rwcohort.h: the writer-preference (55-138),
    reader-preference (159-239) and neutral (260-311) reader-writer cohort locks,
    on top of the cohort lock of Cohort_Model.v.

    A call of CK_COHORT_LOCK or CK_COHORT_UNLOCK runs the cohort lock's own steps.
    CK_COHORT_LOCKED is two loads; [gp] and [lp] are what the predicates it
    applies to the local and to the global lock yield for a free ([false]) and a
    held ([true]) lock.  CK_COHORT_LOCKED applies the global lock's predicate to
    the local lock and the other way round, so these are the identity only when
    both locks are of the same kind.  The wait_count/wait_limit test is left to
    the schedule ([ARaise]): raising the barrier may happen after any number of
    spins, at most once per call. *)
From Coq Require Import Arith NArith List Bool.
From Verif Require Import Lib LockSpec.
From Verif Require Cohort_Model.
Module C := Cohort_Model.
Import ListNotations.

Inductive kind := WP | RP | NE.

Inductive pc :=
| Out
| W0              (** WP 79: wait for write_barrier = 0 *)
| WL (r : bool)   (** in CK_COHORT_LOCK; [r]: barrier raised *)
| W2 (r : bool)   (** WP 84, RP 190, NE 274: load read_counter *)
| WB (r : bool)   (** RP 193: in CK_COHORT_UNLOCK *)
| W3 (r : bool)   (** RP 194-201: wait for read_counter = 0 *)
| W4              (** RP 205: dec read_barrier *)
| WIn
| WU              (** write_unlock: in CK_COHORT_UNLOCK *)
| R0              (** RP 224: wait for read_barrier = 0 *)
| R1 (r : bool)   (** inc read_counter (WP 109, RP 227) *)
| R2 (r : bool)   (** locked: local lock (WP 111, RP 230) *)
| R3 (r : bool)   (** locked: global lock *)
| R4 (r : bool)   (** WP 115: dec read_counter *)
| R5 (r : bool)   (** WP 116: locked: local lock *)
| R6 (r : bool)   (** WP 116: locked: global lock *)
| R7              (** WP 128: dec write_barrier *)
| RL              (** NE 296: in CK_COHORT_LOCK *)
| R8              (** NE 297: inc read_counter *)
| RU              (** NE 298: in CK_COHORT_UNLOCK *)
| RIn.

Record state := mk { cs : C.state; rc : N; bar : N; rt : nat -> pc }.
Definition init : state := mk C.init 0 0 (fun _ => Out).

Inductive act := AWLock | AWUnlock | ARLock | ARUnlock | ATick | ARaise.

Section M.
Variables (n : nat) (coh : nat -> nat) (lim : nat -> N) (gp lp : bool -> bool) (k : kind).

Definition go (s : state) (t : nat) (p : pc) : state := mk (cs s) (rc s) (bar s) (upd (rt s) t p).
Definition setrc (s : state) (x : N) : state := mk (cs s) x (bar s) (rt s).
Definition setbar (s : state) (x : N) : state := mk (cs s) (rc s) x (rt s).

(** One step of the cohort lock, moving to [p] when it ends in cohort pc [q]
    ([Crit] after lock, [Idle] after unlock) and staying at [p0] otherwise;
    [ev] is emitted when the cohort lock is released. *)
Definition ctick (s : state) (t : nat) (a : C.act) (q : C.pc -> bool) (p0 p : pc) (ev : list rwev) : option (state * list rwev) :=
  match C.step n coh lim (cs s) (t, a) with
  | Some (c, e) =>
      Some (mk c (rc s) (bar s) (upd (rt s) t (if q (C.thr c t) then p else p0)),
            match e with [Rel _] => ev | _ => [] end)
  | None => None
  end.
Definition iscrit (q : C.pc) : bool := match q with C.Crit => true | _ => false end.
Definition isidle (q : C.pc) : bool := match q with C.Idle => true | _ => false end.

Definition step (s : state) (l : nat * act) : option (state * list rwev) :=
  let (t, a) := l in
  if negb (Nat.ltb t n) then None else
  let lockl := gp (C.loc (cs s) (coh t)) in
  let lockg := lp (C.glob (cs s)) in
  match rt s t, a with
  (* write_lock: WP 73-88, RP 178-208, NE 268-278 *)
  | Out, AWLock => match k with
                   | WP => Some (go s t W0, [])
                   | _ => ctick s t C.ALock iscrit (WL false) (W2 false) []
                   end
  | W0, ATick => if N.eqb (bar s) 0 then ctick s t C.ALock iscrit (WL false) (W2 false) [] else Some (s, [])
  | WL r, ATick => ctick s t C.ATick iscrit (WL r) (W2 r) []
  | W2 r, ATick =>
      if N.eqb (rc s) 0 then Some (go s t (match k with RP => if r then W4 else WIn | _ => WIn end), [WAcq t])
      else match k with
           | RP => ctick s t C.AUnlock isidle (WB r) (W3 r) []
           | _ => Some (s, [])
           end
  | WB r, ATick => ctick s t C.ATick isidle (WB r) (W3 r) []
  | W3 r, ATick => if N.eqb (rc s) 0 then ctick s t C.ALock iscrit (WL r) (W2 r) [] else Some (s, [])
  | W3 false, ARaise => Some (go (setbar s (C.uinc (bar s))) t (W3 true), [])
  | W4, ATick => Some (go (setbar s (C.udec (bar s))) t WIn, [])
  (* write_unlock *)
  | WIn, AWUnlock => ctick s t C.AUnlock isidle WU Out []
  | WU, ATick => ctick s t C.ATick isidle WU Out [WRel t]
  (* read_lock: WP 100-131, RP 219-234, NE 290-300 *)
  | Out, ARLock => match k with
                   | WP => Some (go s t (R1 false), [])
                   | RP => Some (go s t R0, [])
                   | NE => ctick s t C.ALock iscrit RL R8 []
                   end
  | R0, ATick => if N.eqb (bar s) 0 then Some (go s t (R1 false), []) else Some (s, [])
  | R1 r, ATick => Some (go (setrc s (C.uinc (rc s))) t (R2 r), [])
  | R2 r, ATick => if lockl then Some (go s t (match k with WP => R4 r | _ => R2 r end), []) else Some (go s t (R3 r), [])
  | R3 r, ATick => if lockg then Some (go s t (match k with WP => R4 r | _ => R2 r end), [])
                   else Some (go s t (if r then R7 else RIn), [RAcq t])
  | R4 r, ATick => Some (go (setrc s (C.udec (rc s))) t (R5 r), [])
  | R5 r, ATick => if lockl then Some (s, []) else Some (go s t (R6 r), [])
  | R6 r, ATick => Some (go s t (if lockg then R5 r else R1 r), [])
  | R5 false, ARaise => Some (go (setbar s (C.uinc (bar s))) t (R5 true), [])
  | R7, ATick => Some (go (setbar s (C.udec (bar s))) t RIn, [])
  | RL, ATick => ctick s t C.ATick iscrit RL R8 []
  | R8, ATick => match ctick s t C.AUnlock isidle RU RIn [] with
                 | Some (s', _) => Some (setrc s' (C.uinc (rc s')), [RAcq t])
                 | None => None
                 end
  | RU, ATick => ctick s t C.ATick isidle RU RIn []
  (* read_unlock: WP 133-138, RP 236-241, NE 302-307 *)
  | RIn, ARUnlock => Some (go (setrc s (C.udec (rc s))) t Out, [RRel t])
  | _, _ => None
  end.
End M.
