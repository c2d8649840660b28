(** Properties of the integer helpers and the backoff counter (C01, C02). *)
From Coq Require Import NArith List Bool.
From Verif Require Import Helpers_Model Helpers_Proof.
Local Open Scope N_scope.

(** log of every 32-bit power of two is its exponent *)
Theorem internal_log_pow2 : forall k, k < 32 -> ck_internal_log (2 ^ k) = k.
Proof. exact log_pow2. Qed.
Print Assumptions internal_log_pow2.

(** ... but it is not floor(log2) in general *)
Theorem internal_log_floor_refuted : exists v, v < 2 ^ 32 /\ v <> 0 /\ ck_internal_log v <> N.log2 v.
Proof. exists 6. vm_compute. repeat split; discriminate. Qed.
Print Assumptions internal_log_floor_refuted.

Theorem internal_power_2_least : forall x, 1 <= x <= 2 ^ 31 ->
  exists k, ck_internal_power_2 x = 2 ^ k /\ x <= 2 ^ k /\ forall j, x <= 2 ^ j -> 2 ^ k <= 2 ^ j.
Proof. exact power_2_least. Qed.
Print Assumptions internal_power_2_least.

Theorem internal_power_2_zero : forall x, x = 0 \/ 2 ^ 31 < x < 2 ^ 32 -> ck_internal_power_2 x = 0.
Proof. exact power_2_zero. Qed.
Print Assumptions internal_power_2_zero.

Theorem internal_max : forall w x y, x < 2 ^ w -> y < 2 ^ w -> ck_internal_max w x y = N.max x y.
Proof. exact max_ok. Qed.
Print Assumptions internal_max.

Theorem cc_ffs : forall w v, v < 2 ^ N.of_nat w ->
  (v = 0 /\ ck_cc_ffs w v = Some 0) \/
  exists k, ck_cc_ffs w v = Some (k + 1) /\ N.testbit v k = true /\ (forall j, j < k -> N.testbit v j = false).
Proof. exact ffs_ok. Qed.
Print Assumptions cc_ffs.

Theorem cc_ctz : forall w v, v <> 0 -> v < 2 ^ N.of_nat w ->
  exists k, ck_cc_ctz w v = Some k /\ N.testbit v k = true /\ (forall j, j < k -> N.testbit v j = false).
Proof. exact ctz_ok. Qed.
Print Assumptions cc_ctz.

Theorem cc_popcount : forall w x, x < 2 ^ N.of_nat w -> ck_cc_popcount w x = Some (bits_below w x).
Proof. exact popcount_ok. Qed.
Print Assumptions cc_popcount.

Example helpers_ex :
  ck_internal_log 65536 = 16 /\ ck_internal_power_2 1000 = 1024 /\ ck_internal_power_2 1024 = 1024 /\
  ck_internal_max 32 17 4294967295 = 4294967295 /\ ck_cc_ffs 32 40 = Some 4 /\ ck_cc_ctz 32 40 = Some 3 /\
  ck_cc_popcount 32 0xF0F1 = Some 9.
Proof. vm_compute. repeat split. Qed.

(** each call spins exactly [c] times and doubles the counter below the ceiling *)
Theorem backoff_step : forall fuel c, c <= N.of_nat fuel -> c < 2 ^ 31 ->
  ck_backoff_eb fuel c = Some (c, if c <? CEILING then 2 * c else c).
Proof. exact eb_ok. Qed.
Print Assumptions backoff_step.

(** from the initializer the counter never exceeds the ceiling by more than one *)
Theorem backoff_bounded_partial : forall k, eb_iter k INITIALIZER <= CEILING + 1.
Proof. exact eb_iter_bound. Qed.
Print Assumptions backoff_bounded_partial.

(** "never exceeds the ceiling" is false: the sequence doubles past it by one *)
Theorem backoff_never_exceeds_refuted : exists k, CEILING < eb_iter k INITIALIZER.
Proof. exact eb_iter_exceeds. Qed.
Print Assumptions backoff_never_exceeds_refuted.

(** and from the eleventh call on it is constant *)
Theorem backoff_saturates : forall k, (11 <= k)%nat -> eb_iter k INITIALIZER = CEILING + 1.
Proof. exact eb_iter_stable. Qed.
Print Assumptions backoff_saturates.

Example backoff_ex : eb_iter 3 INITIALIZER = 4096 /\ ck_backoff_eb 600 INITIALIZER = Some (512, 1024).
Proof. vm_compute. split; reflexivity. Qed.
