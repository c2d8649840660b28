(** Proofs about the single-producer single-consumer ring. *)
From Coq Require Import NArith Arith List Bool Lia.
From Verif Require Import Lib LockProg Lin RingSp_Model.
Import ListNotations.
Local Open Scope N_scope.
Local Arguments N.modulo : simpl never.
Local Arguments N.pow : simpl never.
Local Arguments N.add : simpl never.
Local Arguments N.sub : simpl never.
Local Arguments N.land : simpl never.
Local Arguments upd : simpl never.
Local Arguments Nat.ltb : simpl never.
Local Arguments Nat.eqb : simpl never.
Local Arguments N.eqb : simpl never.
Local Arguments N.of_nat : simpl never.

Section Ring.
Variable k : N.
Hypothesis Hk : k <= 31.
Let SZ := 2 ^ k.
Let cap := N.to_nat (SZ - 1).

Lemma SZ_pos : 1 <= SZ.
Proof. unfold SZ. pose proof (N.pow_nonzero 2 k ltac:(lia)). lia. Qed.
Lemma SZ_le : SZ <= 2 ^ 31.
Proof. unfold SZ. apply N.pow_le_mono_r; lia. Qed.

Lemma pow31 : 2 ^ 31 < 2 ^ 32. Proof. reflexivity. Qed.
Lemma mask_ones : mask (ck_ring_init SZ) = N.ones k.
Proof.
  unfold ck_ring_init, mask, w32. pose proof SZ_pos. pose proof SZ_le. pose proof pow31.
  replace (SZ + (2 ^ 32 - 1)) with (SZ - 1 + 1 * 2 ^ 32) by lia. rewrite N.mod_add by discriminate.
  rewrite N.mod_small by lia. rewrite N.ones_equiv. unfold SZ. lia.
Qed.

Lemma mod_w32 : forall x, (w32 x) mod SZ = x mod SZ.
Proof.
  intros x. unfold w32, SZ. rewrite (N.div_mod x (2 ^ 32)) at 2 by discriminate.
  replace (2 ^ 32) with (2 ^ k * 2 ^ (32 - k)) at 2 by (rewrite <- N.pow_add_r; f_equal; lia).
  rewrite <- N.mul_assoc, N.add_comm. rewrite N.mul_comm at 1. rewrite N.mod_add; auto. apply N.pow_nonzero. lia.
Qed.

Lemma w32_inj : forall a b, a <= b -> b - a < 2 ^ 32 -> w32 a = w32 b -> a = b.
Proof.
  intros a b H1 H2 H. unfold w32 in H.
  pose proof (N.div_mod a (2 ^ 32) ltac:(discriminate)). pose proof (N.div_mod b (2 ^ 32) ltac:(discriminate)).
  set (m := 2 ^ 32) in *. assert (Hm : 0 < m) by reflexivity. clearbody m.
  assert (a / m <= b / m) by (apply N.div_le_mono; lia).
  destruct (N.eq_dec (a / m) (b / m)) as [E|E]; [rewrite H0, H3, E, H; auto|].
  exfalso. assert (a / m + 1 <= b / m) by lia. assert (m * (a / m + 1) <= m * (b / m)) by (apply N.mul_le_mono_l; auto). lia.
Qed.

Lemma modSZ_inj : forall a b, a <= b -> b - a < SZ -> a mod SZ = b mod SZ -> a = b.
Proof.
  intros a b H1 H2 H. pose proof SZ_pos as Hm. set (m := SZ) in *. clearbody m.
  pose proof (N.div_mod a m ltac:(lia)). pose proof (N.div_mod b m ltac:(lia)).
  assert (a / m <= b / m) by (apply N.div_le_mono; lia).
  destruct (N.eq_dec (a / m) (b / m)) as [E|E]; [rewrite H0, H3, E, H; auto|].
  exfalso. assert (a / m + 1 <= b / m) by lia. assert (m * (a / m + 1) <= m * (b / m)) by (apply N.mul_le_mono_l; auto). lia.
Qed.

Lemma w32_w32_1 : forall x, w32 (w32 x + 1) = w32 (x + 1).
Proof. intros. unfold w32. rewrite N.add_mod_idemp_l by discriminate. auto. Qed.

Lemma sub32_ok : forall p c, c <= p -> p - c < 2 ^ 32 -> sub32 (w32 p) (w32 c) = p - c.
Proof.
  intros p c H1 H2. unfold sub32, w32. rewrite N.mod_mod by discriminate.
  pose proof (N.mod_lt c (2 ^ 32) ltac:(discriminate)).
  rewrite N.add_mod_idemp_l by discriminate.
  pose proof (N.div_mod c (2 ^ 32) ltac:(discriminate)) as D.
  replace (p + (2 ^ 32 - c mod 2 ^ 32)) with ((p - c) + (c / 2 ^ 32 + 1) * 2 ^ 32).
  - rewrite N.mod_add by discriminate. apply N.mod_small. auto.
  - set (m := 2 ^ 32) in *. clearbody m. generalize dependent (c / m). generalize dependent (c mod m). intros r Hr d D. subst c. lia.
Qed.

(** Relation between the machine and the abstract queue: [P] and [C] are the
    unbounded cursors. *)
Definition ring_ok (r : ring) (P C : N) : Prop :=
  c_head r = w32 C /\ p_tail r = w32 P /\ mask r = N.ones k /\ size r = SZ /\ C <= P /\ P - C <= SZ - 1.

Definition pph (p : ppc) : phase op res :=
  match p with
  | PIdle | PGot _ => Idle
  | PEnq v | PWrite v _ _ | PPub v _ _ => Called (OEnq v)
  | PRes => Called OReserve
  end.
Definition cph (c : cpc) : phase op res :=
  match c with CIdle => Idle | _ => Called ODeq end.

Definition abs := ((fifo * (nat -> phase op res)) * nat)%type.

Record R (s : state) (a : abs) : Prop := {
  R_th0 : snd (fst a) 0%nat = pph (pp s);
  R_th1 : snd (fst a) 1%nat = cph (cp s);
  R_cur : exists P C, ring_ok (rg s) P C /\ length (q (fst (fst a))) = N.to_nat (P - C) /\
    (forall i v, nth_error (q (fst (fst a))) i = Some v -> buf s ((C + N.of_nat i) mod SZ) = v) /\
    match pp s with
    | PWrite v prod sz => prod = w32 P /\ P - C < SZ - 1 /\ sz = N.of_nat (snd a)
    | PPub v prod sz => prod = w32 P /\ P - C < SZ - 1 /\ sz = N.of_nat (snd a) /\ buf s (P mod SZ) = v
    | PGot w => P - C < SZ - 1 /\ (if w then resv (fst (fst a)) = Some (Some (buf s (P mod SZ))) else exists x, resv (fst (fst a)) = Some x)
    | _ => True
    end /\
    match cp s with
    | CIdle => True
    | CLoad cur => cur = w32 C
    | CRead cur => cur = w32 C /\ C < P
    | CPub v cur => cur = w32 C /\ C < P /\ buf s (C mod SZ) = v
    end }.

Lemma slot_ok : forall r P C x, ring_ok r P C -> slot r (w32 x) = x mod SZ.
Proof. intros r P C x [_ [_ [Hm _]]]. unfold slot. rewrite Hm, N.land_ones. apply mod_w32. Qed.

Lemma occ_ok : forall r P C, ring_ok r P C -> occ r (c_head r) (p_tail r) = P - C.
Proof.
  intros r P C [H1 [H2 [H3 [H4 [H5 H6]]]]]. unfold occ. rewrite H1, H2, H3. pose proof SZ_le. pose proof pow31. pose proof SZ_pos.
  rewrite sub32_ok by lia. rewrite N.land_ones. apply N.mod_small. fold SZ. lia.
Qed.

Lemma full_ok : forall r P C, ring_ok r P C -> full r (c_head r) (p_tail r) = (P - C =? SZ - 1).
Proof.
  intros r P C [H1 [H2 [H3 [H4 [H5 H6]]]]]. unfold full. rewrite H1, H2, H3, !N.land_ones. fold SZ.
  rewrite w32_w32_1, !mod_w32. pose proof SZ_pos as Hp.
  destruct (N.eqb_spec (P - C) (SZ - 1)) as [E|E].
  - apply N.eqb_eq. replace (P + 1) with (C + 1 * SZ) by lia. apply N.mod_add. lia.
  - apply N.eqb_neq. intros F. assert (C = P + 1); [|lia]. apply modSZ_inj; auto; lia.
Qed.

Lemma idx_ne : forall P C i, C <= P -> P - C <= SZ - 1 -> C + N.of_nat i < P -> (C + N.of_nat i) mod SZ <> P mod SZ.
Proof. intros P C i H1 H2 H3 E. pose proof SZ_pos. assert (C + N.of_nat i = P); [|lia]. apply modSZ_inj; auto; lia. Qed.

Lemma updN_same : forall A (f : N -> A) x v, updN f x v x = v.
Proof. intros. unfold updN. rewrite N.eqb_refl. auto. Qed.
Lemma updN_other : forall A (f : N -> A) x v y, y <> x -> updN f x v y = f y.
Proof. intros. unfold updN. destruct (N.eqb_spec y x); congruence. Qed.

Lemma R_step : forall s a l s' evs, R s a -> step s l = Some (s', evs) ->
  exists a', accepts (ring_step cap) a evs = Some a' /\ R s' a'.
Proof.
  intros s [[[qq rv] th] lk] l s' evs [R0 R1 [P [C [RK [RL [RB_ [RP RC]]]]]]] Hs. cbn [fst snd q resv] in *.
  pose proof RK as [K1 [K2 [K3 [K4 [K5 K6]]]]]. pose proof SZ_pos as Hp. pose proof SZ_le as Hle. pose proof pow31 as H31.
  unfold step in Hs. destruct l as [o| | |].
  - destruct o; destruct (pp s) eqn:Ep; try discriminate.
    + injection Hs as <- <-. cbn -[N.mul]. rewrite R0. simpl. eexists. split; [reflexivity|]. constructor; cbn [fst snd q resv pp cp setp rg buf].
      * apply upd_same.
      * rewrite upd_other by auto. auto.
      * exists P, C. split; auto.
    + injection Hs as <- <-. cbn -[N.mul]. rewrite R0. simpl. eexists. split; [reflexivity|]. constructor; cbn [fst snd q resv pp cp setp rg buf].
      * apply upd_same.
      * rewrite upd_other by auto. auto.
      * exists P, C. split; auto.
    + injection Hs as <- <-. cbn -[N.mul]. rewrite R0. simpl. rewrite ?upd_same.
      assert (G : exists x, rv = Some x) by (destruct RP as [_ G]; destruct w; eauto). destruct G as [x ->].
      cbn. rewrite ?upd_same. cbn. eexists. split; [reflexivity|]. constructor; cbn [fst snd q resv pp cp setp rg buf].
      * apply upd_same.
      * rewrite !upd_other by auto. auto.
      * exists P, C. rewrite K2, (slot_ok _ _ _ P RK). split; auto. split; auto. split.
        { intros i u Hi. assert (i < length qq)%nat by (apply nth_error_Some; congruence).
          rewrite updN_other; auto. apply idx_ne; auto. lia. }
        split.
        { rewrite updN_same. tauto. }
        destruct (cp s); auto. destruct RC as [C1 [C2 C3]]. repeat split; auto. rewrite updN_other; auto.
        pose proof (idx_ne P C 0 K5 K6). rewrite N.add_0_r in H. apply H. lia.
    + destruct w; [|discriminate]. injection Hs as <- <-. destruct RP as [RP1 RP2]. cbn -[N.mul]. rewrite R0. simpl. rewrite ?upd_same. rewrite RP2.
      cbn. destruct (Nat.ltb_spec (length qq) cap) as [LT|GE]; [|exfalso; unfold cap in GE; lia].
      cbn. rewrite ?upd_same. cbn. eexists. split; [reflexivity|]. constructor; cbn [fst snd q resv pp cp setp rg buf].
      * apply upd_same.
      * rewrite !upd_other by auto. auto.
      * exists (P + 1), C. split.
        { repeat split; cbn; auto; try lia. rewrite K2. apply w32_w32_1. }
        split; [rewrite app_length; simpl; lia|]. split.
        { intros i u Hi. destruct (Nat.lt_ge_cases i (length qq)).
          - rewrite nth_error_app1 in Hi by auto. auto.
          - rewrite nth_error_app2 in Hi by auto. destruct (i - length qq)%nat eqn:Z; simpl in Hi; [|destruct n; discriminate].
            injection Hi as <-. f_equal. f_equal. lia. }
        split; auto. destruct (cp s); auto; intuition lia.
  - destruct (pp s) eqn:Ep; try discriminate.
    + rewrite (full_ok _ _ _ RK), (occ_ok _ _ _ RK) in Hs. destruct (N.eqb_spec (P - C) (SZ - 1)) as [E|E].
      * injection Hs as <- <-. cbn -[N.mul N.eqb N.of_nat]. rewrite R0. simpl pph. cbn -[N.mul N.eqb N.of_nat].
        destruct (Nat.eqb_spec (length qq) cap) as [_|NE]; [|exfalso; unfold cap in NE; lia].
        cbn -[N.mul N.eqb N.of_nat]. rewrite upd_same. cbn -[N.mul N.eqb N.of_nat].
        destruct (N.eqb_spec (P - C) (N.of_nat (length qq))) as [_|NE]; [|lia].
        eexists. split; [reflexivity|]. constructor; cbn [fst snd q resv pp cp setp rg buf].
        -- apply upd_same.
        -- rewrite !upd_other by auto. auto.
        -- exists P, C. repeat split; auto.
      * injection Hs as <- <-. cbn -[N.mul]. eexists. split; [reflexivity|]. constructor; cbn [fst snd q resv pp cp setp rg buf]; auto.
        exists P, C. repeat split; auto; lia.
    + injection Hs as <- <-. cbn -[N.mul]. eexists. split; [reflexivity|]. constructor; cbn [fst snd q resv pp cp setp rg buf]; auto.
      destruct RP as [-> [RP2 RP3]]. exists P, C. rewrite (slot_ok _ _ _ P RK). split; auto. split; auto. split.
      { intros i u Hi. assert (i < length qq)%nat by (apply nth_error_Some; congruence).
        rewrite updN_other; auto. apply idx_ne; auto. lia. }
      split; [rewrite updN_same; auto|].
      destruct (cp s); auto. destruct RC as [C1 [C2 C3]]. repeat split; auto. rewrite updN_other; auto.
      pose proof (idx_ne P C 0 K5 K6). rewrite N.add_0_r in H. apply H. lia.
    + injection Hs as <- <-. destruct RP as [-> [RP2 [-> RP4]]]. cbn -[N.mul N.eqb N.of_nat]. rewrite R0. simpl pph. cbn -[N.mul N.eqb N.of_nat].
      destruct (Nat.ltb_spec (length qq) cap) as [LT|GE]; [|exfalso; unfold cap in GE; lia].
      cbn -[N.mul N.eqb N.of_nat]. rewrite upd_same. cbn -[N.mul N.eqb N.of_nat]. rewrite N.eqb_refl.
      eexists. split; [reflexivity|]. constructor; cbn [fst snd q resv pp cp setp rg buf].
      * apply upd_same.
      * rewrite !upd_other by auto. auto.
      * exists (P + 1), C. split.
        { repeat split; cbn; auto; try lia. apply w32_w32_1. }
        split; [rewrite app_length; simpl; lia|]. split.
        { intros i u Hi. destruct (Nat.lt_ge_cases i (length qq)).
          - rewrite nth_error_app1 in Hi by auto. auto.
          - rewrite nth_error_app2 in Hi by auto. destruct (i - length qq)%nat eqn:Z; simpl in Hi; [|destruct n; discriminate].
            injection Hi as <-. rewrite <- RP4. f_equal. f_equal. lia. }
        split; auto. destruct (cp s); auto; intuition lia.
    + rewrite (full_ok _ _ _ RK), (occ_ok _ _ _ RK) in Hs. destruct (N.eqb_spec (P - C) (SZ - 1)) as [E|E].
      * injection Hs as <- <-. cbn -[N.mul N.eqb N.of_nat]. rewrite R0. simpl pph. cbn -[N.mul N.eqb N.of_nat].
        destruct (Nat.eqb_spec (length qq) cap) as [_|NE]; [|exfalso; unfold cap in NE; lia].
        cbn -[N.mul N.eqb N.of_nat]. rewrite upd_same. cbn -[N.mul N.eqb N.of_nat].
        destruct (N.eqb_spec (P - C) (N.of_nat (length qq))) as [_|NE]; [|lia].
        eexists. split; [reflexivity|]. constructor; cbn [fst snd q resv pp cp setp rg buf].
        -- apply upd_same.
        -- rewrite !upd_other by auto. auto.
        -- exists P, C. repeat split; auto.
      * injection Hs as <- <-. cbn -[N.mul N.eqb N.of_nat]. rewrite R0. simpl pph. cbn -[N.mul N.eqb N.of_nat].
        destruct (Nat.ltb_spec (length qq) cap) as [LT|GE]; [|exfalso; unfold cap in GE; lia].
        cbn -[N.mul N.eqb N.of_nat]. rewrite upd_same. cbn -[N.mul N.eqb N.of_nat].
        destruct (N.eqb_spec (P - C) (N.of_nat (length qq))) as [_|NE]; [|lia].
        eexists. split; [reflexivity|]. constructor; cbn [fst snd q resv pp cp setp rg buf].
        -- apply upd_same.
        -- rewrite !upd_other by auto. auto.
        -- exists P, C. repeat split; auto; [lia|eauto].
  - destruct (cp s) eqn:Ec; try discriminate. injection Hs as <- <-. cbn -[N.mul]. rewrite R1. simpl.
    eexists. split; [reflexivity|]. constructor; cbn [fst snd q resv pp cp setc rg buf].
    + rewrite upd_other by auto. auto.
    + apply upd_same.
    + exists P, C. repeat split; auto.
  - destruct (cp s) eqn:Ec; try discriminate.
    + subst. destruct (N.eqb_spec (w32 C) (p_tail (rg s))) as [E|E].
      * rewrite K2 in E. assert (C = P) by (apply w32_inj; auto; lia). subst P. rewrite N.sub_diag in RL.
        destruct qq; [|discriminate]. injection Hs as <- <-. cbn -[N.mul]. rewrite R1. simpl. rewrite ?upd_same. cbn.
        eexists. split; [reflexivity|]. constructor; cbn [fst snd q resv pp cp setc rg buf].
        -- rewrite !upd_other by auto. auto.
        -- apply upd_same.
        -- exists C, C. repeat split; auto. rewrite N.sub_diag. auto.
      * injection Hs as <- <-. eexists. split; [reflexivity|]. constructor; cbn [fst snd q resv pp cp setc rg buf]; auto.
        exists P, C. repeat split; auto. destruct (N.eq_dec C P); [subst; congruence|lia].
    + destruct RC as [-> RC2]. injection Hs as <- <-. eexists. split; [reflexivity|]. constructor; cbn [fst snd q resv pp cp setc rg buf]; auto.
      exists P, C. rewrite (slot_ok _ _ _ C RK). repeat split; auto.
    + destruct RC as [-> [RC2 RC3]]. injection Hs as <- <-. destruct qq as [|x qq]; [simpl in RL; lia|].
      assert (x = v). { rewrite <- RC3. symmetry. pose proof (RB_ 0%nat x eq_refl). rewrite N.add_0_r in H. auto. }
      subst x. cbn -[N.mul]. rewrite R1. simpl. rewrite Nat.eqb_refl. cbn -[res_dec N.mul]. rewrite ?upd_same.
      destruct (res_dec (RV (Some v)) (RV (Some v))); [|congruence]. cbn.
      eexists. split; [reflexivity|]. constructor; cbn [fst snd q resv pp cp setc rg buf].
      * rewrite !upd_other by auto. auto.
      * apply upd_same.
      * exists P, (C + 1). split.
        { repeat split; cbn; auto; try lia. apply w32_w32_1. }
        split; [simpl in RL; lia|]. split.
        { intros i u Hi. rewrite <- (RB_ (S i) u Hi). f_equal. f_equal. lia. }
        split; auto. destruct (pp s); auto; intuition lia.
Qed.

Lemma R_init : R (init k) (fifo0, idle, 0%nat).
Proof.
  constructor; auto. exists 0, 0. split.
  - repeat split; auto; [apply mask_ones|lia|pose proof SZ_pos; lia].
  - repeat split; auto. intros i v Hi. destruct i; discriminate.
Qed.

Lemma ring_run : forall ls s log, run step (init k) ls = Some (s, log) ->
  exists a, accepts (ring_step cap) (fifo0, idle, 0%nat) log = Some a /\ R s a.
Proof.
  intros ls s log Hr. eapply (sim_run _ _ _ _ step (ring_step cap) R R_step); eauto. apply R_init.
Qed.
End Ring.

Lemma strip_lin : forall cap log a lk b, accepts (ring_step cap) (a, lk) log = Some b ->
  accepts (lstep (fifo_seq cap) res_dec) a (lin_log log) = Some (fst b).
Proof.
  intros cap. induction log as [|e log IH]; intros a lk b H; simpl in H.
  - injection H as <-. auto.
  - destruct e; simpl in *.
    + destruct (lstep (fifo_seq cap) res_dec a e); [|discriminate]. eapply IH; eauto.
    + eapply IH; eauto.
    + destruct (n =? N.of_nat lk); [|discriminate]. eapply IH; eauto.
Qed.

Lemma ring_linearizable : forall k ls s log, k <= 31 -> run step (init k) ls = Some (s, log) ->
  lin_legal (fifo_seq (N.to_nat (2 ^ k - 1))) res_dec fifo0 (lin_log log).
Proof.
  intros k ls s log Hk Hr. destruct (ring_run k Hk ls s log Hr) as [a [Ha _]]. exists (fst a). eapply strip_lin; eauto.
Qed.

Lemma ring_size_now : forall k ls s log, k <= 31 -> run step (init k) ls = Some (s, log) ->
  exists f th lk, accepts (ring_step (N.to_nat (2 ^ k - 1))) (fifo0, idle, 0%nat) log = Some (f, th, lk) /\
    ck_ring_size (rg s) = N.of_nat (length (q f)) /\ ck_ring_capacity (rg s) = 2 ^ k.
Proof.
  intros k ls s log Hk Hr. destruct (ring_run k Hk ls s log Hr) as [[[f th] lk] [Ha [_ _ [P [C [RK [RL _]]]]]]].
  exists f, th, lk. split; auto. split; [|apply RK]. cbn in RL. rewrite RL.
  pose proof (occ_ok k Hk _ _ _ RK) as O. unfold occ in O. unfold ck_ring_size. rewrite O. lia.
Qed.

(** ** Validity check and repair on a single-producer ring *)
Definition is_deq (e : ev) : bool := match e with L (Ret _ (RV (Some _))) => true | _ => false end.
(** successful dequeues so far *)
Definition deqs (log : list ev) : nat := length (filter is_deq log).

Definition VI (k : N) (s : state) (log : list ev) : Prop :=
  p_head (rg s) = 0 /\ size (rg s) = 2 ^ k /\ c_head (rg s) = w32 (N.of_nat (deqs log)) /\
  match cp s with CIdle => True | CLoad c | CRead c | CPub _ c => c = c_head (rg s) end.

Lemma deqs_app : forall a b, deqs (a ++ b) = (deqs a + deqs b)%nat.
Proof. intros. unfold deqs. rewrite filter_app, app_length. auto. Qed.

Lemma VI_step : forall k s log l s' evs, VI k s log -> step s l = Some (s', evs) -> VI k s' (log ++ evs).
Proof.
  intros k s log l s' evs [I1 [I2 [I3 I4]]] Hs. unfold VI. rewrite deqs_app. unfold step in Hs. destruct l as [o| | |].
  - destruct o; destruct (pp s) as [| | | | |w]; try discriminate; try (destruct w; try discriminate); injection Hs as <- <-; cbn; rewrite ?Nat.add_0_r; auto.
  - destruct (pp s); try discriminate; try destruct (full _ _ _); injection Hs as <- <-; cbn; rewrite ?Nat.add_0_r; auto.
  - destruct (cp s); try discriminate. injection Hs as <- <-. cbn. rewrite ?Nat.add_0_r; auto.
  - destruct (cp s); try discriminate; [destruct (_ =? _)| |]; injection Hs as <- <-; cbn; rewrite ?Nat.add_0_r; auto.
    repeat split; auto. rewrite I4, I3, w32_w32_1. f_equal. lia.
Qed.

Lemma ring_sp_valid : forall k ls s log, k <= 31 -> run step (init k) ls = Some (s, log) ->
  (ck_ring_valid (rg s) = true <-> N.of_nat (deqs log) mod 2 ^ 32 = 0).
Proof.
  intros k ls s log Hk Hr.
  assert (V : VI k s log). { revert Hr. apply (run_inv step (VI k)). { repeat split. } intros. eapply VI_step; eauto. }
  destruct V as [I1 [I2 [I3 _]]]. unfold ck_ring_valid. rewrite I1, I2, I3.
  assert (Hz : N.land (2 ^ k) (w32 (2 ^ k + (2 ^ 32 - 1))) = 0).
  { pose proof (mask_ones k Hk) as M. unfold ck_ring_init, mask in M. rewrite M. rewrite N.land_ones. apply N.mod_same. apply N.pow_nonzero. lia. }
  rewrite Hz, N.eqb_refl. cbn [negb]. fold (w32 (N.of_nat (deqs log))). destruct (N.ltb_spec 0 (w32 (N.of_nat (deqs log)))).
  - split; [discriminate|lia].
  - assert (E : w32 (N.of_nat (deqs log)) = 0) by lia. rewrite E. change (sub32 0 0) with 0.
    destruct (N.leb_spec (2 ^ k) 0); [|tauto]. pose proof (N.pow_nonzero 2 k ltac:(lia)). lia.
Qed.

Lemma ring_sp_repair : forall k ls s log, k <= 31 -> run step (init k) ls = Some (s, log) ->
  p_tail (fst (ck_ring_repair (rg s))) = 0.
Proof.
  intros k ls s log Hk Hr.
  assert (V : VI k s log). { revert Hr. apply (run_inv step (VI k)). { repeat split. } intros. eapply VI_step; eauto. }
  destruct V as [I1 _]. unfold ck_ring_repair. rewrite I1. destruct (N.eqb_spec (p_tail (rg s)) 0); auto.
Qed.
