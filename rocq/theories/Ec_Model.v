(** Event counts: include/ck_ec.h and src/ck_ec.c, 32- and 64-bit, as an
    interleaving transition system.  The operating system's futex is abstract:
    waiting atomically compares the word and goes to sleep, waking wakes every
    sleeper, and a sleeper may also return early for any reason (as the ops
    contract in include/ck_ec.h:296-330 allows).  Deadlines, the predicate and the
    busy-loop lengths are client choices ([ATimeout], [APred], [AStop]). *)
From Coq Require Import ZArith Arith List Bool.
From Verif Require Import Lib.
Import ListNotations.
Local Open Scope Z_scope.

(** The word-level operations of one width. *)
Record wops := {
  M : Z;                      (* modulus of the value *)
  W : Z;                      (* modulus of the word *)
  winit : Z -> Z;             (* init *)
  wval : Z -> Z;              (* value *)
  wflag : Z -> bool;          (* has_waiters *)
  wadd : Z -> Z -> Z;         (* new word after add delta *)
  wold : Z -> Z;              (* value returned by add from the old word *)
  wwake : Z -> bool;          (* does the add epilogue call wake? (old word) *)
  wincwake : Z -> bool;       (* does inc call wake? (old word) *)
  wclear : Z -> Z;            (* wake's atomic and *)
  wun : Z -> Z;               (* unflagged word of an expected value *)
  wfl : Z -> Z                (* flagged word *)
}.

(** Signed reading of a 32-bit word. *)
Definition s32 (w : Z) : Z := if w <? 2 ^ 31 then w else w - 2 ^ 32.

(** 32-bit: init ck_ec.h:602, value 608, has_waiters 616, add 686-712, inc 624-684
    (the "le" condition after [incl] holds iff the exact signed result is <= 0),
    wake ck_ec.c:34-40, words ck_ec.c:392-393. *)
Definition ops32 : wops := {|
  M := 2 ^ 31; W := 2 ^ 32;
  winit v := Z.land v (2 ^ 31 - 1);
  wval w := Z.land w (2 ^ 31 - 1);
  wflag w := negb (Z.land w (2 ^ 31) =? 0);
  wadd w d := (w + d) mod 2 ^ 32;
  wold w := Z.land w (2 ^ 31 - 1);
  wwake w := negb (w =? Z.land w (2 ^ 31 - 1));
  wincwake w := s32 w + 1 <=? 0;
  wclear w := Z.land w (2 ^ 31 - 1);
  wun v := v;
  wfl v := Z.lor v (2 ^ 31)
|}.

(** 64-bit: init ck_ec.h:806, value 812, has_waiters 820, add 834-856, wake
    ck_ec.c:54-60, words ck_ec.c:412-413. *)
Definition ops64 : wops := {|
  M := 2 ^ 63; W := 2 ^ 64;
  winit v := (v * 2) mod 2 ^ 64;
  wval w := Z.shiftr w 1;
  wflag w := negb (Z.land w 1 =? 0);
  wadd w d := (w + (2 * d) mod 2 ^ 64) mod 2 ^ 64;
  wold w := Z.shiftr w 1;
  wwake w := negb (Z.land w 1 =? 0);
  wincwake w := negb (Z.land w 1 =? 0);
  wclear w := Z.land w (2 ^ 64 - 2);
  wun v := (v * 2) mod 2 ^ 64;
  wfl v := Z.lor ((v * 2) mod 2 ^ 64) 1
|}.

Inductive pc :=
| Idle
| Faa (d : Z) (inc : bool)     (* about to execute the faa / locked incl *)
| SpLd (d : Z) (inc : bool)    (* single producer: load half of the plain xadd / incl *)
| SpSt (d : Z) (inc : bool) (w : Z)  (* store half *)
| Wk1                          (* ck_ec.c:37 / 57, and *)
| Wk2                          (* ck_ec.c:38 / 58, ops->wake *)
| Ld                           (* ck_ec_value *)
| W0 (v : Z)                   (* ck_ec.h:773 *)
| W1 (v : Z)                   (* ck_ec.c:395 / 415 *)
| W2 (v : Z)                   (* ck_ec.c:330, infinite past deadline *)
| E1 (v : Z)                   (* ck_ec.c:338, wait_easy(unflagged) *)
| Up (v cur : Z)               (* ck_ec.c:345, upgrade *)
| E2 (v : Z)                   (* ck_ec.c:359, wait_easy(flagged) *)
| B0 (v : Z)                   (* exponential_backoff: deadline, predicate *)
| Fx (v : Z)                   (* wait_slow_once: ops->wait *)
| Sleep (v : Z)
| Ck (v : Z)                   (* reload after ops->wait, ck_ec.c:283 / 305 *)
| Vl (v : Z).                  (* ck_ec.c:372 *)

Inductive act :=
| AAdd (d : Z) | AInc | AValue | AWait (v : Z)
| ATick | AStop | ATimeout | APred (r : Z).

(** Events: completed counting operations at their atomic instant, the call and
    return of wait, and the clearing of the flag by a waker. *)
Inductive ev :=
| EAdd (t : nat) (d old : Z)    (* add/inc by d; old = value returned *)
| EVal (t : nat) (v : Z)
| ECall (t : nat) (v : Z)
| ERet (t : nat) (r : Z)        (* 0: changed; -1: timeout; other: predicate *)
| EClear (t : nat)
| ESleep (t : nat)
| EWakeAll.

Record st := mk { word : Z; thr : nat -> pc }.

Section LTS.
Variable o : wops.
Variable sp : bool.   (* single-producer mode: only thread 0 increments *)

Definition init (v : Z) : st := mk (winit o v) (fun _ => Idle).

Definition go (s : st) (t : nat) (p : pc) (e : list ev) : option (st * list ev) :=
  Some (mk (word s) (upd (thr s) t p), e).
Definition set (s : st) (w : Z) (t : nat) (p : pc) (e : list ev) : option (st * list ev) :=
  Some (mk w (upd (thr s) t p), e).

(** Waking: every sleeper proceeds to its reload. *)
Definition awake (p : pc) : pc := match p with Sleep v => Ck v | _ => p end.

Definition step (s : st) (l : nat * act) : option (st * list ev) :=
  let '(t, a) := l in
  let w := word s in
  match thr s t, a with
  | Idle, AAdd d =>
      if d <? 0 then None
      else if sp then
        if negb (Nat.eqb t 0) then None
        else if d =? 0 then go s t Ld []            (* ck_ec.h:725: delta 0 returns the value *)
        else go s t (SpLd d false) []
      else go s t (Faa d false) []
  | Idle, AInc =>
      if sp then if negb (Nat.eqb t 0) then None else go s t (SpLd 1 true) []
      else go s t (Faa 1 true) []
  | Idle, AValue => go s t Ld []
  | Idle, AWait v => if (v <? 0) then None else go s t (W0 v) [ECall t v]
  | Faa d i, ATick =>
      set s (wadd o w d) t (if (if i then wincwake o w else wwake o w) then Wk1 else Idle)
          [EAdd t d (wold o w)]
  | SpLd d i, ATick => go s t (SpSt d i w) []
  | SpSt d i x, ATick =>
      set s (wadd o x d) t (if (if i then wincwake o x else wwake o x) then Wk1 else Idle)
          [EAdd t d (wold o x)]
  | Wk1, ATick => set s (wclear o w) t Wk2 [EClear t]
  | Wk2, ATick => Some (mk w (upd (fun u => awake (thr s u)) t Idle), [EWakeAll])
  | Ld, ATick => go s t Idle [EVal t (wval o w)]
  | W0 v, ATick => if wval o w =? v then go s t (W1 v) [] else go s t Idle [ERet t 0]
  | W1 v, ATick => if wval o w =? v then go s t (W2 v) [] else go s t Idle [ERet t 0]
  | W2 v, ATimeout => go s t Idle [ERet t (-1)]
  | W2 v, ATick => go s t (E1 v) []
  | E1 v, ATick => if w =? wun o v then go s t (E1 v) [] else go s t (Up v w) []
  | E1 v, AStop => go s t (Up v w) []               (* iteration limit reached *)
  | Up v cur, ATick =>
      if cur =? wfl o v then go s t (E2 v) []
      else if negb (cur =? wun o v) then go s t Idle [ERet t 0]
      else if w =? wun o v then set s (wfl o v) t (E2 v) []
      else if w =? wfl o v then go s t (E2 v) []
      else go s t Idle [ERet t 0]
  | E2 v, ATick => if w =? wfl o v then go s t (E2 v) [] else go s t Idle [ERet t 0]
  | E2 v, AStop => if w =? wfl o v then go s t (B0 v) [] else go s t Idle [ERet t 0]
  | B0 v, ATimeout => go s t Idle [ERet t (-1)]
  | B0 v, APred r => if r =? 0 then None else go s t Idle [ERet t r]
  | B0 v, ATick => go s t (Fx v) []
  | Fx v, ATick => if w =? wfl o v then go s t (Sleep v) [ESleep t] else go s t (Ck v) []
  | Sleep v, ATick => go s t (Ck v) []              (* early return *)
  | Ck v, ATick => if w =? wfl o v then go s t (B0 v) [] else go s t (Vl v) []
  | Vl v, ATick => if wval o w =? v then go s t (E1 v) [] else go s t Idle [ERet t 0]
  | _, _ => None
  end.
End LTS.

(** * Specification *)

(** The abstract counter: value modulo [m]. *)
Definition count_step (m : Z) (v : Z) (e : ev) : option Z :=
  match e with
  | EAdd _ d old => if old =? v then Some ((v + d) mod m) else None
  | EVal _ x => if x =? v then Some v else None
  | _ => Some v
  end.
Definition counts (m v0 : Z) (log : list ev) : Prop := exists v, accepts (count_step m) v0 log = Some v.

(** Waiting: per waiter, the awaited value and whether it has been different or
    incremented by a non-zero amount since the call.  [clr]: does a concurrent flag clearing also excuse a return? *)
Record wspec := { sv : Z; sw : nat -> option (Z * bool) }.
Definition touch (d : Z) (x : option (Z * bool)) : option (Z * bool) :=
  match x with Some (old, c) => Some (old, c || negb (d =? 0)) | None => None end.
Definition wait_step (m : Z) (clr : bool) (a : wspec) (e : ev) : option wspec :=
  match e with
  | EAdd _ d _ => let v := (sv a + d) mod m in Some {| sv := v; sw := fun u => touch d (sw a u) |}
  | ECall t old => Some {| sv := sv a; sw := upd (sw a) t (Some (old, negb (sv a =? old))) |}
  | EClear _ =>
      if clr then Some {| sv := sv a; sw := fun u => match sw a u with Some (old, _) => Some (old, true) | None => None end |}
      else Some a
  | ERet t r =>
      if r =? 0 then
        match sw a t with
        | Some (_, true) => Some {| sv := sv a; sw := upd (sw a) t None |}
        | _ => None
        end
      else Some {| sv := sv a; sw := upd (sw a) t None |}
  | _ => Some a
  end.
Definition wait_truthful (m : Z) (clr : bool) (v0 : Z) (log : list ev) : Prop :=
  exists a, accepts (wait_step m clr) {| sv := v0; sw := fun _ => None |} log = Some a.
