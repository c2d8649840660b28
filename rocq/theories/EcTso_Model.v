(** Single-producer event counts on x86-TSO: include/ck_ec.h:624-683, 714-732, 860-880 (the plain
    incl and xadd of the single producer) with the waiters of src/ck_ec.c, on a machine with store
    buffers and a clock.

    The producer is thread 0; waiters are other threads.  Only the producer writes the word with a
    plain store, so its store buffer is the only one that matters: [buf], oldest entry first.  A
    plain read-modify-write is a load, from the newest entry of the buffer or else from memory,
    and a store into the buffer; any other processor may act between the two.  Locked instructions
    (the waiters' compare-and-swap, the waker's and) act on memory, the producer's once its
    buffer is empty; other threads load from memory.

    [D]: no plain update is in flight, from its load to its arrival in memory, longer than this
    (ck_ec.h:211-217 says 1 second at most); the clock stands still rather than break this.  [S]:
    final_wait_time, src/ck_ec.c:31-33.  The clock is read by exponential_backoff; the sleep has no
    deadline ([inf]) once [S] has passed since its first reading, if the client's deadline is
    infinite.  The futex is as in Ec_Model: waiting compares and sleeps in one step, waking wakes
    every sleeper, and a sleeper may return early, as it does when its deadline passes.

    Simplifications: the producer does not wait on its own event count; time is a natural number;
    the busy loops end when the client says so ([AStop]). *)
From Coq Require Import ZArith Arith List Bool.
From Verif Require Import Lib Ec_Model.
Import ListNotations.
Local Open Scope Z_scope.

Inductive tpc :=
| PIdle
| PLd (d : Z) (inc : bool)                       (* about to load *)
| PSt (d : Z) (inc : bool) (w : Z) (e : nat)     (* loaded w at time e; about to store *)
| PWk1                                           (* ck_ec.c:37 / 57, locked and *)
| PWk2                                           (* ck_ec.c:38 / 58, ops->wake *)
| PVal                                           (* ck_ec_value *)
| Q0 (v : Z)                                     (* ck_ec.h:773 *)
| Q1 (v : Z)                                     (* ck_ec.c:395 / 415 *)
| Q2 (v : Z)                                     (* ck_ec.c:330, infinite past deadline *)
| QE (v : Z)                                     (* ck_ec.c:338, wait_easy(unflagged) *)
| QU (v cur : Z)                                 (* ck_ec.c:345, upgrade *)
| QF (v : Z)                                     (* ck_ec.c:359, wait_easy(flagged) *)
| QB (v : Z) (b : option nat)                    (* ck_ec.c:155-163, backoff; b: begin *)
| QX (v : Z) (b : nat) (inf : bool)              (* wait_slow_once: ops->wait *)
| QS (v : Z) (b : nat) (inf : bool)              (* asleep *)
| QC (v : Z) (b : nat)                           (* reload after ops->wait, ck_ec.c:283 / 305 *)
| QV (v : Z).                                    (* ck_ec.c:372 *)

Inductive tact :=
| TAdd (d : Z) | TInc | TValue | TWait (v : Z)
| TTick | TStop | TTimeout | TPred (r : Z).
Inductive tlab := LT (t : nat) (a : tact) | LFlush | LClock.

(** [TE]: the events of Ec_Model; an add happens when it arrives in memory. *)
Inductive tev :=
| TE (e : ev)
| TIss (d old : Z)           (* the producer's add by d is done for the producer and returns old *)
| TOwn (v : Z)               (* the producer reads the value *)
| TChk (t : nat)             (* the waiter has seen the flagged word and enters the backoff *)
| TInf (t : nat).            (* the waiter falls asleep without a deadline *)

Record tst := mkt { mem : Z; buf : list (Z * Z * nat); now : nat; tthr : nat -> tpc }.

Section LTS.
Variable o : wops.
Variables D S : nat.

Definition tinit (v : Z) : tst := mkt (winit o v) [] 0 (fun _ => PIdle).
Definition tgo (s : tst) (t : nat) (p : tpc) (e : list tev) : option (tst * list tev) :=
  Some (mkt (mem s) (buf s) (now s) (upd (tthr s) t p), e).
Definition tset (s : tst) (w : Z) (t : nat) (p : tpc) (e : list tev) : option (tst * list tev) :=
  Some (mkt w (buf s) (now s) (upd (tthr s) t p), e).
(** the word as the producer sees it; an entry is (new word, delta, time of the load) *)
Definition view (s : tst) : Z := last (map (fun x => fst (fst x)) (buf s)) (mem s).
Definition tawake (p : tpc) : tpc := match p with QS v b _ => QC v b | _ => p end.
Definition nobuf (s : tst) : bool := match buf s with [] => true | _ => false end.

Definition tick (s : tst) (t : nat) (a : tact) : option (tst * list tev) :=
  let w := mem s in
  match tthr s t, a with
  | PIdle, TAdd d =>
      if negb (Nat.eqb t 0) || (d <? 0) then None
      else if d =? 0 then tgo s t PVal []             (* ck_ec.h:725, 870 *)
      else tgo s t (PLd d false) []
  | PIdle, TInc => if negb (Nat.eqb t 0) then None else tgo s t (PLd 1 true) []
  | PIdle, TValue => tgo s t PVal []
  | PIdle, TWait v => if Nat.eqb t 0 || (v <? 0) || (M o <=? v) then None else tgo s t (Q0 v) [TE (ECall t v)]
  | PVal, TTick => tgo s t PIdle [if Nat.eqb t 0 then TOwn (wval o (view s)) else TE (EVal t (wval o w))]
  | PLd d i, TTick => tgo s t (PSt d i (view s) (now s)) []
  | PSt d i x e, TTick =>
      Some (mkt w (buf s ++ [(wadd o x d, d, e)]) (now s)
              (upd (tthr s) t (if (if i then wincwake o x else wwake o x) then PWk1 else PIdle)), [TIss d (wold o x)])
  | PWk1, TTick => if nobuf s then tset s (wclear o w) t PWk2 [TE (EClear t)] else None
  | PWk2, TTick => Some (mkt w (buf s) (now s) (upd (fun u => tawake (tthr s u)) t PIdle), [TE EWakeAll])
  | Q0 v, TTick => if wval o w =? v then tgo s t (Q1 v) [] else tgo s t PIdle [TE (ERet t 0)]
  | Q1 v, TTick => if wval o w =? v then tgo s t (Q2 v) [] else tgo s t PIdle [TE (ERet t 0)]
  | Q2 v, TTimeout => tgo s t PIdle [TE (ERet t (-1))]
  | Q2 v, TTick => tgo s t (QE v) []
  | QE v, TTick => if w =? wun o v then tgo s t (QE v) [] else tgo s t (QU v w) []
  | QE v, TStop => tgo s t (QU v w) []
  | QU v cur, TTick =>
      if cur =? wfl o v then tgo s t (QF v) []
      else if negb (cur =? wun o v) then tgo s t PIdle [TE (ERet t 0)]
      else if w =? wun o v then tset s (wfl o v) t (QF v) []
      else if w =? wfl o v then tgo s t (QF v) []
      else tgo s t PIdle [TE (ERet t 0)]
  | QF v, TTick => if w =? wfl o v then tgo s t (QF v) [] else tgo s t PIdle [TE (ERet t 0)]
  | QF v, TStop => if w =? wfl o v then tgo s t (QB v None) [TChk t] else tgo s t PIdle [TE (ERet t 0)]
  | QB v b, TTimeout => tgo s t PIdle [TE (ERet t (-1))]
  | QB v b, TPred r => if r =? 0 then None else tgo s t PIdle [TE (ERet t r)]
  (* 156-189; the client's deadline is infinite *)
  | QB v b, TTick =>
      let b := match b with Some b => b | None => now s end in
      tgo s t (QX v b (Nat.leb (b + S) (now s))) []
  | QX v b inf, TTick =>
      if w =? wfl o v then tgo s t (QS v b inf) (TE (ESleep t) :: if inf then [TInf t] else [])
      else tgo s t (QC v b) []
  (* the client's deadline is finite, or the predicate has set one *)
  | QX v b inf, TStop => if inf then tgo s t (QX v b false) [] else None
  | QS v b inf, TTick => tgo s t (QC v b) []
  | QC v b, TTick => if w =? wfl o v then tgo s t (QB v (Some b)) [] else tgo s t (QV v) []
  | QV v, TTick => if wval o w =? v then tgo s t (QE v) [] else tgo s t PIdle [TE (ERet t 0)]
  | _, _ => None
  end.

(** the updates in flight, by the time of their load *)
Definition flying (s : tst) : list nat :=
  map snd (buf s) ++ match tthr s 0%nat with PSt _ _ _ e => [e] | _ => [] end.

Definition tstep (s : tst) (l : tlab) : option (tst * list tev) :=
  match l with
  | LT t a => tick s t a
  | LFlush =>
      match buf s with
      | (w, d, e) :: r => Some (mkt w r (now s) (tthr s), [TE (EAdd 0 d (wval o (mem s)))])
      | [] => None
      end
  | LClock =>
      if forallb (fun e => Nat.ltb (now s) (e + D)) (flying s)
      then Some (mkt (mem s) (buf s) (1 + now s) (tthr s), []) else None
  end.
End LTS.

(** * Specification *)
(** what the other threads see: the events of Ec_Model *)
Fixpoint seen (log : list tev) : list ev :=
  match log with [] => [] | TE e :: r => e :: seen r | _ :: r => seen r end.
(** what the producer did, and what has arrived *)
Fixpoint issued (log : list tev) : list (Z * Z) :=
  match log with [] => [] | TIss d old :: r => (d, old) :: issued r | _ :: r => issued r end.
Fixpoint arrived (log : list tev) : list (Z * Z) :=
  match log with [] => [] | TE (EAdd _ d old) :: r => (d, old) :: arrived r | _ :: r => arrived r end.
(** the producer's own counter *)
Definition own_step (m : Z) (v : Z) (e : tev) : option Z :=
  match e with
  | TIss d old => if old =? v then Some ((v + d) mod m) else None
  | TOwn x => if x =? v then Some v else None
  | _ => Some v
  end.
(** The sleep that waiter [t] began last, without a deadline, follows a backoff during which no
    waker cleared the flag and the counter did not go round. *)
Definition calm (m : Z) (t : nat) (log : list tev) : Prop :=
  exists l1 l2 l3, log = l1 ++ TChk t :: l2 ++ TInf t :: l3 /\ ~ In (TChk t) l2 /\ (forall u, ~ In (TE (EClear u)) l2) /\
    fold_right Z.add 0 (map fst (arrived l2)) < m /\ ~ In (TInf t) l3.
