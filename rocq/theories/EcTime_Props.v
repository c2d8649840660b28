(** Properties of the event count's time arithmetic (C64) and backoff (C65). *)
From Coq Require Import ZArith List Bool.
From Verif Require Import EcTime_Model EcTime_Proof.
Import ListNotations.
Local Open Scope Z_scope.

(** exact normalised sum (the increment clamped to one second as documented),
    saturating at the maximum *)
Theorem ec_add_ns : forall ts ns, valid ts -> 0 <= ns < 2 ^ 32 ->
  valid (timespec_add_ns ts ns) /\
  instant (timespec_add_ns ts ns) = Z.min (instant ts + Z.min ns 1000000000) max_instant.
Proof. exact add_ns_ok. Qed.
Print Assumptions ec_add_ns.

Theorem ec_add : forall ts inc, valid ts -> 0 <= sec ts -> valid inc ->
  exists r, timespec_add ts inc = Some r /\ valid r /\
    instant r = Z.min (instant ts + (if sec inc <? 0 then 0 else instant inc)) max_instant.
Proof. exact add_ok. Qed.
Print Assumptions ec_add.

Theorem ec_add_invalid : forall ts inc, sec inc < 0 \/ nsec inc < 0 \/ NSEC_MAX < nsec inc ->
  timespec_add ts inc = Some ts.
Proof. exact add_invalid_noop. Qed.
Print Assumptions ec_add_invalid.

Theorem ec_cmp : forall x y, valid x -> valid y ->
  timespec_cmp x y = match Z.compare (instant x) (instant y) with Lt => -1 | Eq => 0 | Gt => 1 end.
Proof. exact cmp_ok. Qed.
Print Assumptions ec_cmp.

Theorem ec_check_deadline : forall now d, valid now -> valid d ->
  check_deadline (Some now) d = (instant d <=? instant now).
Proof. exact deadline_ok. Qed.
Print Assumptions ec_check_deadline.

Theorem ec_deadline : forall now d, valid now -> 0 <= sec now -> valid d ->
  exists r, ck_ec_deadline (Some now) (Some d) = Some (Some r) /\ valid r /\
    instant r = Z.min (instant now + (if sec d <? 0 then 0 else instant d)) max_instant.
Proof. exact ec_deadline_ok. Qed.
Print Assumptions ec_deadline.

Theorem ec_scale : forall ns m sh, 0 <= ns < 2 ^ 32 -> 0 <= m < 2 ^ 32 -> 0 <= sh <= 32 ->
  wait_time_scale ns m sh = Some (Z.min (ns * m / 2 ^ sh) (2 ^ 32 - 1)).
Proof. exact scale_ok. Qed.
Print Assumptions ec_scale.

(** for shifts above 32 the clamp threshold itself overflows *)
Theorem ec_scale_wide_refuted : exists ns m sh, 0 <= ns < 2 ^ 32 /\ 0 <= m < 2 ^ 32 /\ 0 <= sh < 64 /\
  wait_time_scale ns m sh <> Some (Z.min (ns * m / 2 ^ sh) (2 ^ 32 - 1)).
Proof. exact scale_wide_wrong. Qed.
Print Assumptions ec_scale_wide_refuted.

Example ec_time_ex :
  timespec_add (ts_mk 5 999999999) (ts_mk 2 7) = Some (ts_mk 8 6) /\
  timespec_add (ts_mk 5 0) (ts_mk TIME_MAX 0) = Some ts_max /\
  timespec_add_ns (ts_mk 5 999999999) 2 = ts_mk 6 1 /\ valid (ts_mk 5 999999999) /\
  wait_time_scale 2000000 8 0 = Some 16000000 /\ check_deadline (Some (ts_mk 5 1)) (ts_mk 5 2) = false.
Proof. unfold valid. vm_compute. repeat split; discriminate. Qed.

(** For every configuration that makes the wait grow from its initial value,
    every round of the backoff, after any earlier rounds and for every clock
    reading, ends, with a deadline in the future. *)
Theorem ec_backoff_ends_partial : forall c d, sane c -> grows c (c_init c) -> valid d ->
  forall cs st clock, rounds c d cs st ->
  (forall now, In (Some now) (cs ++ [clock]) -> valid now /\ 0 <= sec now) ->
  exists fuel, round fuel c d st clock = RTimeout \/
    exists pd st', round fuel c d st clock = RSleep pd st' /\
      (forall now, clock = Some now -> instant now < instant pd).
Proof. exact backoff_ends. Qed.
Print Assumptions ec_backoff_ends_partial.

(** the default configuration is one of them *)
Theorem ec_backoff_default : grows (cfg 0 0 0) (c_init (cfg 0 0 0)) /\ sane (cfg 0 0 0).
Proof. exact default_grows. Qed.
Print Assumptions ec_backoff_default.

(** Without growth (scale 1, shift 1) the second round never ends: an accepted
    configuration and a monotone clock for which no amount of fuel suffices. *)
Theorem ec_backoff_ends_refuted : exists c d cs st now,
  sane c /\ valid d /\ rounds c d cs st /\ valid now /\
  (forall n, In (Some n) cs -> valid n /\ 0 <= sec n /\ instant n <= instant now) /\
  forall fuel, round fuel c d st (Some now) = RFuel.
Proof. exact backoff_diverges. Qed.
Print Assumptions ec_backoff_ends_refuted.

Example ec_backoff_ex :
  match round 10 (cfg 0 0 0) (ts_mk 100 0) None (Some (ts_mk 5 0)) with
  | RSleep pd st => pd = ts_mk 5 2000000 /\
      match round 10 (cfg 0 0 0) (ts_mk 100 0) (Some st) (Some (ts_mk 5 500000000)) with
      | RSleep pd' _ => pd' = ts_mk 6 0
      | _ => False
      end
  | _ => False
  end.
Proof. vm_compute. split; reflexivity. Qed.
