(** The adaptive elision policy (C79). *)
From Coq Require Import ZArith List Bool.
From Verif Require Import Rtm Elide_Model Elide_Proof.
Import ListNotations.
Local Open Scope Z_scope.

(** A call that finds the lock busy spins for retry_busy, and if it had to take the lock the next skip_busy calls do not
    elide: false of the default configuration.  Five aborts because the lock is busy make the call take the lock
    without spinning, and the next call begins a transaction again. *)
Theorem elide_adapts_refuted : exists l s,
  prun default_cfg (penter default_cfg stat_init) l = Some (s, PAcq) /\
  l <> [] /\ (forall i, In i l -> i = Aborted (explicit LOCK_BUSY)) /\
  snd (penter default_cfg s) = PBegin (retry_conflict default_cfg) /\ skip s <> skip_busy default_cfg.
Proof. exact never_adapts. Qed.
Print Assumptions elide_adapts_refuted.

(** More generally: with a positive retry_conflict a call ignores the reason of every abort.  It never spins, it
    never asks a later call to skip, and it takes the lock after exactly retry_conflict aborts. *)
Theorem elide_static : forall c l s0 s q, 0 < retry_conflict c -> skip s0 = 0 ->
  prun c (penter c s0) l = Some (s, q) ->
  skip s = 0 /\ aborts l <= retry_conflict c /\ (q = PAcq -> aborts l = retry_conflict c) /\ (forall b, ~ In (Seen b) l).
Proof. exact static_all. Qed.
Print Assumptions elide_static.

(** What is left of the adaptation: with retry_conflict at most 0 the reason of the first abort is what later calls skip for. *)
Theorem elide_adapts_partial : forall c s0 status l s q, retry_conflict c <= 0 -> skip s0 = 0 -> reason c status <> 0 ->
  prun c (penter c s0) (Aborted status :: l) = Some (s, q) -> skip s = reason c status.
Proof. exact adapts. Qed.
Print Assumptions elide_adapts_partial.

(** Exactly [skip] further calls take the lock without eliding; the one after them elides. *)
Theorem elide_skips : forall c s n, Z.of_nat n < skip s -> snd (penter c (calls c s n)) = PAcq.
Proof. exact skips. Qed.
Print Assumptions elide_skips.
Theorem elide_skips_end : forall c s, 0 <= skip s -> snd (penter c (calls c s (Z.to_nat (skip s)))) = PBegin (retry_conflict c).
Proof. exact skips_end. Qed.
Print Assumptions elide_skips_end.

(** Spinning ends: with a positive count, after at most that many looks at the busy lock. *)
Theorem elide_spin_bounded_partial : forall c l s0 r s q, 0 < r -> prun c (s0, PSpin r) l = Some (s, q) ->
  (forall i, In i l -> i = Seen true) ->
  q <> POver /\ Z.of_nat (length l) <= r /\ (q = PSpin (r - Z.of_nat (length l)) \/ q = PAcq).
Proof. exact spin_ends. Qed.
Print Assumptions elide_spin_bounded_partial.
(** For other counts it does not: the counter starts at or below zero and overflows. *)
Theorem elide_spin_bounded_refuted : forall c s0, retry_conflict c <= 0 -> INT_MIN <= retry_busy c <= 0 -> skip s0 = 0 ->
  exists l s, prun c (penter c s0) (Aborted (explicit LOCK_BUSY) :: l) = Some (s, POver).
Proof. exact spin_over. Qed.
Print Assumptions elide_spin_bounded_refuted.

(** Spinning ends as soon as the lock is free, and the call begins a transaction, if three looks or more are left. *)
Theorem elide_spin_free : forall c l s0 r, (forall i, In i l -> i = Seen true) -> Z.of_nat (length l) < r - 2 ->
  prun c (s0, PSpin r) (l ++ [Seen false]) = Some (s0, PBegin (r - Z.of_nat (length l) - 2)).
Proof. exact spin_free. Qed.
Print Assumptions elide_spin_free.
(** After a call that elides, whatever it met before, the next call begins a transaction. *)
Theorem elide_success_resets : forall c s0 l s, prun c (penter c s0) l = Some (s, PIn) ->
  penter c (elided s) = (elided s, PBegin (retry_conflict c)).
Proof. exact again. Qed.
Print Assumptions elide_success_resets.

Definition ex_cfg : cfg :=
  {| skip_busy := 5; retry_busy := 4; skip_other := 3; retry_other := 3; skip_conflict := 2; retry_conflict := 0 |}.
Example elide_static_ex : exists s, prun default_cfg (penter default_cfg stat_init) [Aborted 6; Aborted 0; Aborted (explicit 3); Started] = Some (s, PIn).
Proof. eexists. vm_compute. reflexivity. Qed.
Example elide_adapts_ex : exists s, prun ex_cfg (penter ex_cfg stat_init)
    [Aborted (explicit LOCK_BUSY); Seen true; Seen true; Seen true; Seen true] = Some (s, PAcq) /\ skip s = 5.
Proof. eexists. split; vm_compute; reflexivity. Qed.
Example elide_adapts_conflict_ex : exists s q, prun ex_cfg (penter ex_cfg stat_init) [Aborted (Z.lor RETRY CONFLICT)] = Some (s, q) /\ skip s = 2.
Proof. do 2 eexists. split; vm_compute; reflexivity. Qed.
Example elide_skips_ex : snd (penter ex_cfg (calls ex_cfg (set_skip stat_init 5) 4)) = PAcq /\
  snd (penter ex_cfg (calls ex_cfg (set_skip stat_init 5) 5)) = PBegin 0.
Proof. split; vm_compute; reflexivity. Qed.
Example elide_spin_bounded_ex : prun ex_cfg (stat_init, PSpin 4) [Seen true; Seen true] = Some (stat_init, PSpin 2).
Proof. vm_compute. reflexivity. Qed.
Example elide_success_resets_ex : exists s, prun ex_cfg (penter ex_cfg stat_init) [Aborted (explicit LOCK_BUSY); Seen true; Seen false; Started] = Some (s, PIn) /\
  skip s = 5 /\ skip (elided s) = 0.
Proof. eexists. split; [|split]; vm_compute; reflexivity. Qed.
