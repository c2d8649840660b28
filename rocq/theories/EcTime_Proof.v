(** Proofs about the event count's time arithmetic. *)
From Coq Require Import ZArith List Bool Lia.
From Verif Require Import EcTime_Model.
Import ListNotations.
Local Open Scope Z_scope.

Local Arguments Z.sub : simpl never.
Local Arguments Z.add : simpl never.
Local Arguments Z.mul : simpl never.
Local Arguments Z.pow : simpl never.
Local Arguments Z.modulo : simpl never.
Local Arguments timespec_add : simpl never.
Local Arguments timespec_cmp : simpl never.
Ltac consts := unfold valid, instant, max_instant, ts_max, TIME_MAX, NSEC_MAX in *; cbn [sec nsec] in *.

Lemma add_ns_ok : forall ts ns, valid ts -> 0 <= ns < 2 ^ 32 ->
  valid (timespec_add_ns ts ns) /\
  instant (timespec_add_ns ts ns) = Z.min (instant ts + Z.min ns 1000000000) max_instant.
Proof.
  intros [s n] ns Hv Hns. unfold timespec_add_ns. cbn [sec nsec].
  assert (2 ^ 63 = 9223372036854775808) by reflexivity. assert (2 ^ 32 = 4294967296) by reflexivity.
  destruct (Z.ltb_spec NSEC_MAX ns).
  - destruct (Z.leb_spec TIME_MAX s); consts; split; lia.
  - rewrite Z.mod_small by (consts; lia).
    destruct (Z.ltb_spec NSEC_MAX (ns + n)).
    + destruct (Z.leb_spec TIME_MAX s); consts; split; lia.
    + consts; split; lia.
Qed.

Lemma add_ok : forall ts inc, valid ts -> 0 <= sec ts -> valid inc ->
  exists r, timespec_add ts inc = Some r /\ valid r /\
    instant r = Z.min (instant ts + (if sec inc <? 0 then 0 else instant inc)) max_instant.
Proof.
  intros [s n] [s' n'] Hv Hs Hv'. unfold timespec_add. cbn [sec nsec].
  assert (2 ^ 63 = 9223372036854775808) by reflexivity. assert (2 ^ 64 = 18446744073709551616) by reflexivity.
  cbn [sec] in Hs.
  destruct (Z.ltb_spec s' 0); simpl orb.
  { eexists; split; [reflexivity|]. consts; split; lia. }
  destruct (Z.ltb_spec n' 0); [consts; lia|]. destruct (Z.ltb_spec NSEC_MAX n'); [consts; lia|]. simpl orb.
  destruct (Z.ltb_spec TIME_MAX (TIME_MAX - s)); [lia|].
  destruct (Z.ltb_spec (TIME_MAX - s) s').
  { eexists; split; [reflexivity|]. consts; split; lia. }
  rewrite Z.mod_small by (consts; lia).
  destruct (Z.ltb_spec NSEC_MAX (n + n')).
  - destruct (Z.leb_spec TIME_MAX (s + s')); eexists; (split; [reflexivity|]); consts; split; lia.
  - eexists; (split; [reflexivity|]); consts; split; lia.
Qed.

Lemma add_invalid_noop : forall ts inc, sec inc < 0 \/ nsec inc < 0 \/ NSEC_MAX < nsec inc -> timespec_add ts inc = Some ts.
Proof.
  intros ts inc H. unfold timespec_add.
  destruct (Z.ltb_spec (sec inc) 0), (Z.ltb_spec (nsec inc) 0), (Z.ltb_spec NSEC_MAX (nsec inc)); simpl; auto; lia.
Qed.

Lemma cmp_ok : forall x y, valid x -> valid y ->
  timespec_cmp x y = match Z.compare (instant x) (instant y) with Lt => -1 | Eq => 0 | Gt => 1 end.
Proof.
  intros [s n] [s' n'] H1 H2. unfold timespec_cmp. cbn [sec nsec].
  destruct (Z.eqb_spec s s'); simpl.
  - subst. destruct (Z.eqb_spec n n'); simpl.
    + subst. rewrite Z.compare_refl. auto.
    + destruct (Z.ltb_spec n n').
      * replace (_ ?= _) with Lt; auto. symmetry. apply Z.compare_lt_iff. consts; lia.
      * replace (_ ?= _) with Gt; auto. symmetry. apply Z.compare_gt_iff. consts; lia.
  - destruct (Z.ltb_spec s s').
    + replace (_ ?= _) with Lt; auto. symmetry. apply Z.compare_lt_iff. consts; lia.
    + replace (_ ?= _) with Gt; auto. symmetry. apply Z.compare_gt_iff. consts; lia.
Qed.

Lemma cmp_le0 : forall x y, valid x -> valid y -> (timespec_cmp x y <=? 0) = (instant x <=? instant y).
Proof.
  intros. rewrite cmp_ok by auto. destruct (Z.compare_spec (instant x) (instant y)); symmetry.
  - apply Z.leb_le. lia.
  - apply Z.leb_le. lia.
  - apply Z.leb_gt. lia.
Qed.

Lemma cmp_ge0 : forall x y, valid x -> valid y -> (0 <=? timespec_cmp x y) = (instant y <=? instant x).
Proof.
  intros. rewrite cmp_ok by auto. destruct (Z.compare_spec (instant x) (instant y)); symmetry.
  - apply Z.leb_le. lia.
  - apply Z.leb_gt. lia.
  - apply Z.leb_le. lia.
Qed.

Lemma deadline_ok : forall now d, valid now -> valid d ->
  check_deadline (Some now) d = (instant d <=? instant now).
Proof. intros. simpl. apply cmp_ge0; auto. Qed.

Lemma ec_deadline_ok : forall now d, valid now -> 0 <= sec now -> valid d ->
  exists r, ck_ec_deadline (Some now) (Some d) = Some (Some r) /\ valid r /\
    instant r = Z.min (instant now + (if sec d <? 0 then 0 else instant d)) max_instant.
Proof.
  intros. destruct (add_ok now d) as [r [Hr Hv]]; auto. exists r. simpl. rewrite Hr. auto.
Qed.

Lemma scale_ok : forall ns m sh, 0 <= ns < 2 ^ 32 -> 0 <= m < 2 ^ 32 -> 0 <= sh <= 32 ->
  wait_time_scale ns m sh = Some (Z.min (ns * m / 2 ^ sh) (2 ^ 32 - 1)).
Proof.
  intros ns m sh Hn Hm Hs. unfold wait_time_scale.
  destruct (Z.ltb_spec sh 64); [|lia].
  assert (E64 : 2 ^ 64 = 2 ^ 32 * 2 ^ 32) by reflexivity.
  rewrite (Z.mod_small (ns * m)) by nia.
  assert (0 < 2 ^ sh) by (apply Z.pow_pos_nonneg; lia).
  assert (2 ^ sh <= 2 ^ 32) by (apply Z.pow_le_mono_r; lia).
  rewrite (Z.mod_small ((2 ^ 32 - 1) * 2 ^ sh)) by nia.
  rewrite Z.shiftr_div_pow2 by lia. f_equal.
  destruct (Z.leb_spec ((2 ^ 32 - 1) * 2 ^ sh) (ns * m)).
  - assert (2 ^ 32 - 1 <= ns * m / 2 ^ sh) by (apply Z.div_le_lower_bound; lia). lia.
  - assert (ns * m / 2 ^ sh < 2 ^ 32 - 1) by (apply Z.div_lt_upper_bound; lia). lia.
Qed.

Lemma scale_wide_wrong : exists ns m sh, 0 <= ns < 2 ^ 32 /\ 0 <= m < 2 ^ 32 /\ 0 <= sh < 64 /\
  wait_time_scale ns m sh <> Some (Z.min (ns * m / 2 ^ sh) (2 ^ 32 - 1)).
Proof. exists (2 ^ 32 - 1), (2 ^ 32 - 1), 63. vm_compute. repeat split; congruence. Qed.

(** * Backoff termination *)

(** the waiting time grows: [w * scale >> shift > w] *)
Definition grows (c : config) (w : Z) : Prop := 2 ^ c_shift c <= w * (c_scale c - 2 ^ c_shift c).
Definition sane (c : config) : Prop :=
  0 <= initial_wait_ns c < 2 ^ 32 /\ 0 <= wait_scale_factor c < 2 ^ 32 /\ 0 <= wait_shift_count c <= 32.

Lemma sane_c : forall c, sane c -> 0 < c_init c < 2 ^ 32 /\ 0 < c_scale c < 2 ^ 32 /\ 0 <= c_shift c <= 32.
Proof.
  intros c [H1 [H2 H3]]. unfold c_init, c_scale, c_shift.
  destruct (Z.eqb_spec (initial_wait_ns c) 0), (Z.eqb_spec (wait_scale_factor c) 0), (Z.eqb_spec (wait_shift_count c) 0); lia.
Qed.

Lemma scale_grows : forall c w, sane c -> 0 <= w < 2 ^ 32 -> grows c w ->
  exists w', wait_time_scale w (c_scale c) (c_shift c) = Some w' /\ 0 <= w' < 2 ^ 32 /\ grows c w' /\
    (w < w' \/ w' = 2 ^ 32 - 1).
Proof.
  intros c w Hs Hw Hg. destruct (sane_c c Hs) as [_ [Hsc Hsh]]. 
  rewrite scale_ok by lia. eexists; split; [reflexivity|].
  unfold grows in *. set (p := 2 ^ c_shift c) in *.
  assert (0 < p) by (apply Z.pow_pos_nonneg; lia).
  assert (Hq : w + 1 <= w * c_scale c / p) by (apply Z.div_le_lower_bound; nia).
  assert (0 < c_scale c - p) by nia.
  split; [lia|]. split; [|lia]. 
  assert (w <= Z.min (w * c_scale c / p) (2 ^ 32 - 1)) by lia. nia.
Qed.

Lemma grow_loop_ends : forall c begin now, sane c -> valid begin -> valid now ->
  instant now < Z.min (instant begin + 1000000000) max_instant ->
  forall m w, 0 <= w < 2 ^ 32 -> grows c w -> 2 ^ 32 - 1 - w <= Z.of_nat m ->
  exists pd w', grow_loop (S m) c begin now w = Some (Some (pd, w')) /\ valid pd /\ instant now < instant pd /\
    0 <= w' < 2 ^ 32 /\ grows c w'.
Proof.
  intros c begin now Hs Hb Hnow Hlt. induction m as [|m IH]; intros w Hw Hg Hm.
  - assert (w = 2 ^ 32 - 1) by lia. destruct (scale_grows c w Hs Hw Hg) as [w' [Hsw [Hw' [Hg' _]]]].
    cbn [grow_loop]. rewrite Hsw. destruct (add_ns_ok begin w Hb Hw) as [Hv Hi].
    rewrite cmp_le0 by auto. destruct (Z.leb_spec (instant (timespec_add_ns begin w)) (instant now)).
    + rewrite Hi in *. assert (Z.min w 1000000000 = 1000000000) by (subst w; reflexivity). lia.
    + eexists _, _. split; [reflexivity|]. auto.
  - destruct (scale_grows c w Hs Hw Hg) as [w' [Hsw [Hw' [Hg' Hgr]]]].
    change (grow_loop (S (S m)) c begin now w) with
      (match wait_time_scale w (c_scale c) (c_shift c) with
      | None => Some None
      | Some w' =>
          if timespec_cmp (timespec_add_ns begin w) now <=? 0 then grow_loop (S m) c begin now w'
          else Some (Some (timespec_add_ns begin w, w'))
      end). rewrite Hsw. destruct (add_ns_ok begin w Hb Hw) as [Hv Hi].
    rewrite cmp_le0 by auto. destruct (Z.leb_spec (instant (timespec_add_ns begin w)) (instant now)).
    + apply IH; auto. lia.
    + eexists _, _. split; [reflexivity|]. auto.
Qed.

Definition okst (c : config) (st : option bstate) : Prop :=
  match st with
  | None => True
  | Some b => valid (b_begin b) /\ valid (b_stop b) /\
      instant (b_stop b) = Z.min (instant (b_begin b) + 1000000000) max_instant /\
      0 <= b_wait b < 2 ^ 32 /\ grows c (b_wait b)
  end.

Lemma round_ok : forall c deadline st clock, sane c -> grows c (c_init c) -> valid deadline ->
  (forall now, clock = Some now -> valid now /\ 0 <= sec now) -> okst c st ->
  exists fuel, round fuel c deadline st clock = RTimeout \/
    exists pd st', round fuel c deadline st clock = RSleep pd st' /\ valid pd /\ okst c (Some st') /\
      (forall now, clock = Some now -> instant now < instant pd).
Proof.
  intros c deadline st clock Hs Hg Hd Hck Hok. unfold round.
  destruct clock as [now|]; [|exists O; left; reflexivity].
  destruct (Hck now eq_refl) as [Hv Hpos].
  rewrite deadline_ok by auto. destruct (Z.leb_spec (instant deadline) (instant now)); [exists O; left; reflexivity|].
  assert (Hst : exists b, match st with
                 | Some b => Some b
                 | None => match timespec_add now (ts_mk 1 0) with
                           | Some stop => Some (bst now stop (c_init c))
                           | None => None
                           end
                 end = Some b /\ okst c (Some b)).
  { destruct st as [b|]; [eauto|].
    destruct (add_ok now (ts_mk 1 0)) as [r [Hr [Hvr Hi]]]; auto.
    - unfold valid. simpl. unfold TIME_MAX, NSEC_MAX. lia.
    - rewrite Hr. eexists; split; [reflexivity|]. simpl. pose proof (sane_c c Hs).
      repeat split; try apply Hv; try apply Hvr; auto; try lia. }
  destruct Hst as [b [-> Hb]]. simpl in Hb. destruct Hb as [Hvb [Hvs [Hi [Hw Hgw]]]].
  rewrite cmp_ge0 by auto. destruct (Z.leb_spec (instant (b_stop b)) (instant now)).
  - exists O. right. eexists _, _. split; [reflexivity|]. simpl.
    split; [exact Hd|]. split; [repeat split; auto; try apply Hvb; try apply Hvs; lia|].
    intros ? [=]. subst. lia.
  - destruct (grow_loop_ends c (b_begin b) now Hs Hvb Hv) with (m := Z.to_nat (2 ^ 32 - 1 - b_wait b)) (w := b_wait b)
      as [pd [w' [Hgl [Hvp [Hlt [Hw' Hg']]]]]]; auto; try lia.
    exists (S (Z.to_nat (2 ^ 32 - 1 - b_wait b))). right. rewrite Hgl. eexists _, _. split; [reflexivity|]. simpl.
    split; [auto|]. split; [repeat split; auto; try apply Hvb; try apply Hvs; lia|].
    intros ? [=]. subst. lia.
Qed.

(** fuel does not change an answer *)
Lemma grow_loop_mono : forall c b now f1 f2 w r1 r2,
  grow_loop f1 c b now w = Some r1 -> grow_loop f2 c b now w = Some r2 -> r1 = r2.
Proof.
  intros c b now. induction f1; intros f2 w r1 r2 H1 H2; [discriminate|]. destruct f2; [discriminate|].
  cbn [grow_loop] in *. destruct (wait_time_scale w (c_scale c) (c_shift c)); [|congruence].
  destruct (timespec_cmp (timespec_add_ns b w) now <=? 0); [eauto|congruence].
Qed.

Lemma round_mono : forall c d st ck f1 f2 r, round f1 c d st ck = r -> r <> RFuel -> round f2 c d st ck <> RFuel ->
  round f2 c d st ck = r.
Proof.
  intros c d st ck f1 f2 r H1 H2 H3. unfold round in *.
  destruct (check_deadline ck d); auto. destruct ck as [now|]; auto.
  destruct (match st with Some b => _ | None => _ end) as [b|]; auto.
  destruct (0 <=? timespec_cmp now (b_stop b)); auto.
  destruct (grow_loop f1 c (b_begin b) now (b_wait b)) as [r1|] eqn:E1; [|congruence].
  destruct (grow_loop f2 c (b_begin b) now (b_wait b)) as [r2|] eqn:E2; [|congruence].
  rewrite <- (grow_loop_mono _ _ _ _ _ _ _ _ E1 E2) in *. auto.
Qed.

Lemma rounds_okst : forall c d, sane c -> grows c (c_init c) -> valid d ->
  forall cs st, rounds c d cs st -> (forall now, In (Some now) cs -> valid now /\ 0 <= sec now) -> okst c st.
Proof.
  intros c d Hs Hg Hd cs st H. induction H; intros Hck; [exact I|].
  assert (Hok : okst c st) by (apply IHrounds; intros; apply Hck; apply in_or_app; auto).
  destruct (round_ok c d st clock Hs Hg Hd) as [f [Ht|[pd' [st2 [Hr [_ [Ho _]]]]]]]; auto.
  - intros now ->. apply Hck. apply in_or_app. right. simpl. auto.
  - rewrite (round_mono _ _ _ _ _ f _ H0) in Ht; congruence.
  - assert (Hx : round f c d st clock = RSleep pd st') by (apply (round_mono _ _ _ _ _ f _ H0); congruence).
    rewrite Hx in Hr. inversion Hr; subst. auto.
Qed.

Lemma backoff_ends : forall c d, sane c -> grows c (c_init c) -> valid d ->
  forall cs st clock, rounds c d cs st ->
  (forall now, In (Some now) (cs ++ [clock]) -> valid now /\ 0 <= sec now) ->
  exists fuel, round fuel c d st clock = RTimeout \/
    exists pd st', round fuel c d st clock = RSleep pd st' /\
      (forall now, clock = Some now -> instant now < instant pd).
Proof.
  intros c d Hs Hg Hd cs st clock Hr Hck.
  assert (Hok : okst c st) by (eapply rounds_okst; eauto; intros; apply Hck; apply in_or_app; auto).
  destruct (round_ok c d st clock Hs Hg Hd) as [f [Ht|[pd' [st2 [Hx [_ [_ Ho]]]]]]]; auto.
  - intros now ->. apply Hck. apply in_or_app. right. simpl. auto.
  - exists f. left; auto.
  - exists f. right. eauto.
Qed.

Lemma default_grows : grows (cfg 0 0 0) (c_init (cfg 0 0 0)) /\ sane (cfg 0 0 0).
Proof. unfold grows, sane. vm_compute. repeat split; discriminate. Qed.

(** A shrinking configuration diverges. *)
Definition bad_cfg : config := cfg 1 1 1.
Definition bad_deadline : timespec := ts_mk 1000 0.

Lemma bad_loop : forall fuel w, w = 0 \/ w = 1 ->
  grow_loop fuel bad_cfg (ts_mk 5 0) (ts_mk 5 10) w = None.
Proof.
  induction fuel; intros w Hw; [reflexivity|].
  destruct Hw; subst w.
  - change (grow_loop (S fuel) bad_cfg (ts_mk 5 0) (ts_mk 5 10) 0) with (grow_loop fuel bad_cfg (ts_mk 5 0) (ts_mk 5 10) 0). auto.
  - change (grow_loop (S fuel) bad_cfg (ts_mk 5 0) (ts_mk 5 10) 1) with (grow_loop fuel bad_cfg (ts_mk 5 0) (ts_mk 5 10) 0). auto.
Qed.

Lemma backoff_diverges : exists c d cs st now,
  sane c /\ valid d /\ rounds c d cs st /\ valid now /\
  (forall n, In (Some n) cs -> valid n /\ 0 <= sec n /\ instant n <= instant now) /\
  forall fuel, round fuel c d st (Some now) = RFuel.
Proof.
  exists bad_cfg, bad_deadline, [Some (ts_mk 5 0)], (Some (bst (ts_mk 5 0) (ts_mk 6 0) 0)), (ts_mk 5 10).
  split; [unfold sane; vm_compute; repeat split; discriminate|].
  split; [unfold valid; vm_compute; repeat split; discriminate|].
  split.
  { change [Some (ts_mk 5 0)] with ([] ++ [Some (ts_mk 5 0)]).
    eapply rounds_snoc with (fuel := 5%nat) (pd := ts_mk 5 1); [constructor|]. vm_compute. reflexivity. }
  split; [unfold valid; vm_compute; repeat split; discriminate|].
  split. { intros n [H|[]]. inversion H; subst. unfold valid. vm_compute. repeat split; discriminate. }
  intros fuel. unfold round.
  change (check_deadline (Some (ts_mk 5 10)) bad_deadline) with false. cbv iota.
  change (0 <=? timespec_cmp (ts_mk 5 10) (b_stop (bst (ts_mk 5 0) (ts_mk 6 0) 0))) with false. cbv iota.
  simpl b_begin. simpl b_wait. rewrite bad_loop by auto. reflexivity.
Qed.
