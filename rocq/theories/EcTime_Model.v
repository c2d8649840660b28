(** Time arithmetic and exponential backoff of the event count:
    src/ck_ec_timeutil.h and exponential_backoff in src/ck_ec.c.
    time_t is 64 bits; undefined behaviour (signed overflow, oversized shift) is
    the outcome [None] / [UB]. *)
From Coq Require Import ZArith List Bool.
Import ListNotations.
Local Open Scope Z_scope.

(** src/ck_ec_timeutil.h:9-10. *)
Definition TIME_MAX : Z := 2 ^ 63 - 1.
Definition NSEC_MAX : Z := 1000000000 - 1.

Record timespec := ts_mk { sec : Z; nsec : Z }.
Definition ts_max : timespec := ts_mk TIME_MAX NSEC_MAX.

(** src/ck_ec_timeutil.h:16-29, wait_time_scale: uint64 arithmetic; a shift of 64
    or more is undefined. *)
Definition wait_time_scale (ns mult shift : Z) : option Z :=
  if shift <? 64 then
    let temp := (ns * mult) mod 2 ^ 64 in
    let max := ((2 ^ 32 - 1) * 2 ^ shift) mod 2 ^ 64 in
    Some (if max <=? temp then 2 ^ 32 - 1 else Z.shiftr temp shift)
  else None.

(** src/ck_ec_timeutil.h:37-71, timespec_add_ns ([ns] is uint32). *)
Definition timespec_add_ns (ts : timespec) (ns : Z) : timespec :=
  if NSEC_MAX <? ns then
    if TIME_MAX <=? sec ts then ts_max else ts_mk (sec ts + 1) (nsec ts)
  else
    let sum_ns := (ns + nsec ts) mod 2 ^ 32 in
    if NSEC_MAX <? sum_ns then
      if TIME_MAX <=? sec ts then ts_max else ts_mk (sec ts + 1) (sum_ns - (NSEC_MAX + 1))
    else ts_mk (sec ts) sum_ns.

(** src/ck_ec_timeutil.h:78-115, timespec_add.  [TIME_MAX - ts.tv_sec] overflows
    for a negative [tv_sec]: undefined. *)
Definition timespec_add (ts inc : timespec) : option timespec :=
  if (sec inc <? 0) || (nsec inc <? 0) || (NSEC_MAX <? nsec inc) then Some ts
  else if TIME_MAX <? TIME_MAX - sec ts then None
  else if TIME_MAX - sec ts <? sec inc then Some ts_max
  else
    let s := sec ts + sec inc in
    let n := (nsec ts + nsec inc) mod 2 ^ 64 in
    if NSEC_MAX <? n then
      if TIME_MAX <=? s then Some ts_max else Some (ts_mk (s + 1) (n - (NSEC_MAX + 1)))
    else Some (ts_mk s n).

(** src/ck_ec_timeutil.h:118-130, timespec_cmp. *)
Definition timespec_cmp (x y : timespec) : Z :=
  if negb (sec x =? sec y) then (if sec x <? sec y then -1 else 1)
  else if negb (nsec x =? nsec y) then (if nsec x <? nsec y then -1 else 1)
  else 0.

(** src/ck_ec_timeutil.h:137-149, check_deadline.  [None] = gettime failed. *)
Definition check_deadline (clock : option timespec) (deadline : timespec) : bool :=
  match clock with
  | None => true
  | Some now => 0 <=? timespec_cmp now deadline
  end.

(** src/ck_ec.c:73-95, ck_ec_deadline_impl; result [Some None] = -1. *)
Definition ck_ec_deadline (clock : option timespec) (timeout : option timespec) : option (option timespec) :=
  match timeout with
  | None => Some (Some ts_max)
  | Some d =>
      match clock with
      | None => Some None
      | Some now => match timespec_add now d with Some r => Some (Some r) | None => None end
      end
  end.

(** * Specification side: an instant in nanoseconds *)
Definition valid (ts : timespec) : Prop := - 2 ^ 63 <= sec ts <= TIME_MAX /\ 0 <= nsec ts <= NSEC_MAX.
Definition instant (ts : timespec) : Z := sec ts * 1000000000 + nsec ts.
Definition max_instant : Z := TIME_MAX * 1000000000 + NSEC_MAX.

(** * Exponential backoff, src/ck_ec.c:125-193 *)

(** src/ck_ec.c:137-147: the configuration fields, zero selecting the defaults of
    lines 12-15. *)
Record config := cfg { initial_wait_ns : Z; wait_scale_factor : Z; wait_shift_count : Z }.
Definition c_init (c : config) : Z := if initial_wait_ns c =? 0 then 2000000 else initial_wait_ns c.
Definition c_scale (c : config) : Z := if wait_scale_factor c =? 0 then 8 else wait_scale_factor c.
Definition c_shift (c : config) : Z := if wait_shift_count c =? 0 then 0 else wait_shift_count c.

(** Local variables that survive a round. *)
Record bstate := bst { b_begin : timespec; b_stop : timespec; b_wait : Z }.

Inductive rres :=
| RTimeout                                   (* return -1, line 156 *)
| RSleep (partial : timespec) (st : bstate)  (* proceeds to pred / sleep *)
| RUndef                                     (* undefined behaviour *)
| RFuel.                                     (* did not finish within the fuel *)

(** src/ck_ec.c:169-176, the do-while loop. *)
Fixpoint grow_loop (fuel : nat) (c : config) (begin now : timespec) (w : Z) : option (option (timespec * Z)) :=
  match fuel with
  | O => None
  | S fuel =>
      let pd := timespec_add_ns begin w in
      match wait_time_scale w (c_scale c) (c_shift c) with
      | None => Some None
      | Some w' =>
          if timespec_cmp pd now <=? 0 then grow_loop fuel c begin now w'
          else Some (Some (pd, w'))
      end
  end.

(** src/ck_ec.c:150-179: one iteration of the outer loop up to the predicate.
    [final_wait_time] is one second (lines 30-32). *)
Definition round (fuel : nat) (c : config) (deadline : timespec) (st : option bstate)
    (clock : option timespec) : rres :=
  if check_deadline clock deadline then RTimeout else
  match clock with
  | None => RTimeout
  | Some now =>
      let st' := match st with
                 | Some b => Some b
                 | None => match timespec_add now (ts_mk 1 0) with
                           | Some stop => Some (bst now stop (c_init c))
                           | None => None
                           end
                 end in
      match st' with
      | None => RUndef
      | Some b =>
          if 0 <=? timespec_cmp now (b_stop b) then RSleep deadline b
          else match grow_loop fuel c (b_begin b) now (b_wait b) with
               | None => RFuel
               | Some None => RUndef
               | Some (Some (pd, w')) => RSleep pd (bst (b_begin b) (b_stop b) w')
               end
      end
  end.

(** Consecutive rounds, each with its own clock reading and (finite) fuel. *)
Inductive rounds (c : config) (deadline : timespec) : list (option timespec) -> option bstate -> Prop :=
| rounds_nil : rounds c deadline [] None
| rounds_snoc : forall cs st clock fuel pd st',
    rounds c deadline cs st -> round fuel c deadline st clock = RSleep pd st' ->
    rounds c deadline (cs ++ [clock]) (Some st').
