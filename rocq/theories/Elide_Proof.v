(** Proofs about the adaptive elision policy. *)
From Coq Require Import ZArith List Bool Lia.
From Verif Require Import Rtm Elide_Model.
Import ListNotations.
Local Open Scope Z_scope.

Definition aborts (l : list pin) : Z := Z.of_nat (length (filter (fun i => match i with Aborted _ => true | _ => false end) l)).

Lemma prun_static : forall c l r s0 s q, 0 < r -> skip s0 = 0 -> prun c (s0, PBegin r) l = Some (s, q) ->
  skip s = 0 /\ aborts l <= r /\ (q = PIn \/ q = PAcq /\ aborts l = r \/ q = PBegin (r - aborts l) /\ aborts l < r) /\
  (forall b, ~ In (Seen b) l).
Proof.
  induction l as [|i l IH]; intros r s0 s q Hr Hs H.
  - injection H as <- <-. unfold aborts. simpl. rewrite Z.sub_0_r. split; auto. split; [lia|]. split; [right; right; auto|]. intros b [].
  - simpl in H. destruct i as [|x|b]; [| |discriminate].
    + destruct l as [|j l]; [|simpl in H; discriminate]. injection H as <- <-. unfold aborts. simpl. split; auto. split; [lia|]. split; auto.
      intros b [X|[]]. discriminate.
    + unfold fallback in H. cbn [skip] in H. replace (0 <? r) with true in H by (symmetry; apply Z.ltb_lt; auto).
      unfold ploop in H. assert (Ha : aborts (Aborted x :: l) = aborts l + 1) by (unfold aborts; simpl; lia). rewrite Ha.
      destruct (Z.ltb_spec 0 (r - 1)) as [Hl|Hl].
      * apply IH in H; auto. destruct H as [H1 [H2 [H3 H4]]]. split; auto. split; [lia|]. split.
        -- destruct H3 as [H3|[[H3 H5]|[H3 H5]]]; auto; [right; left; split; auto; lia|]. right. right. split; [|lia]. rewrite H3. f_equal. lia.
        -- intros b [X|X]; [discriminate|]. apply (H4 b X).
      * assert (r = 1) by lia. subst r. destruct l as [|j l]; [|simpl in H; discriminate]. injection H as <- <-. unfold aborts. simpl.
        split; auto. split; [lia|]. split; [right; left; split; auto|]. intros b [X|[]]. discriminate.
Qed.

Lemma static_all : forall c l s0 s q, 0 < retry_conflict c -> skip s0 = 0 -> prun c (penter c s0) l = Some (s, q) ->
  skip s = 0 /\ aborts l <= retry_conflict c /\ (q = PAcq -> aborts l = retry_conflict c) /\ (forall b, ~ In (Seen b) l).
Proof.
  intros c l s0 s q Hc Hs H. unfold penter in H. rewrite Hs in H. simpl in H. apply prun_static in H; auto.
  destruct H as [H1 [H2 [H3 H4]]]. repeat split; auto. intros ->. destruct H3 as [H3|[[_ H3]|[H3 _]]]; [discriminate|auto|discriminate].
Qed.

(** a status with the explicit bit and code [b] *)
Definition explicit (b : Z) : Z := Z.lor EXPLICIT (Z.shiftl b 24).

Lemma never_adapts : exists l s, prun default_cfg (penter default_cfg stat_init) l = Some (s, PAcq) /\
  l <> [] /\ (forall i, In i l -> i = Aborted (explicit LOCK_BUSY)) /\
  snd (penter default_cfg s) = PBegin (retry_conflict default_cfg) /\ skip s <> skip_busy default_cfg.
Proof.
  exists (repeat (Aborted (explicit LOCK_BUSY)) 5). eexists. split; [vm_compute; reflexivity|]. repeat split; try discriminate.
  intros i Hi. apply repeat_spec in Hi. auto.
Qed.

(** the reason recorded for an abort *)
Definition reason (c : cfg) (status : Z) : Z :=
  if negb (Z.land status EXPLICIT =? 0) then (if CODE status =? LOCK_BUSY then skip_busy c else skip_other c)
  else if negb (Z.land status RETRY =? 0) && negb (Z.land status CONFLICT =? 0) then skip_conflict c
  else USHRT_MAX.

Lemma prun_app : forall c l1 l2 x, prun c x (l1 ++ l2) = match prun c x l1 with Some y => prun c y l2 | None => None end.
Proof. induction l1; intros; simpl; auto. destruct (pstep c x a); auto. Qed.

(** after the skip field has been set nothing in the call sets it again *)
Lemma prun_kept : forall c l s0 q0 s q, retry_conflict c <= 0 -> skip s0 <> 0 -> prun c (s0, q0) l = Some (s, q) -> skip s = skip s0.
Proof.
  induction l as [|i l IH]; intros s0 q0 s q Hc Hs H; [injection H as <- <-; auto|].
  simpl in H. destruct q0 as [r|r| | |]; destruct i as [|x|b]; try discriminate H.
  - apply IH in H; auto.
  - unfold fallback in H. cbn [skip n_fallback n_elide] in H. destruct (0 <? r).
    + apply IH in H; auto.
    + replace (skip s0 =? 0) with false in H by (symmetry; apply Z.eqb_neq; auto). simpl in H. apply IH in H; auto.
  - destruct (r =? INT_MIN); [apply IH in H; auto|]. destruct (r - 1 =? 0); [apply IH in H; auto|]. apply IH in H; auto.
Qed.

Lemma adapts : forall c s0 status l s q, retry_conflict c <= 0 -> skip s0 = 0 -> reason c status <> 0 ->
  prun c (penter c s0) (Aborted status :: l) = Some (s, q) -> skip s = reason c status.
Proof.
  intros c s0 status l s q Hc Hs Hr H. unfold penter in H. rewrite Hs in H. simpl in H.
  unfold fallback in H. cbn [skip] in H. replace (0 <? retry_conflict c) with false in H by (symmetry; apply Z.ltb_ge; auto).
  rewrite Hs in H. cbn [Z.eqb negb] in H. unfold reason in *.
  destruct (negb (Z.land status EXPLICIT =? 0)).
  - destruct (CODE status =? LOCK_BUSY).
    + apply prun_kept in H; auto.
    + apply prun_kept in H; auto.
  - destruct (negb (Z.land status RETRY =? 0) && negb (Z.land status CONFLICT =? 0)).
    + apply prun_kept in H; auto.
    + apply prun_kept in H; auto.
Qed.

(** n calls in a row *)
Fixpoint calls (c : cfg) (s : stat) (n : nat) : stat := match n with O => s | S n => calls c (fst (penter c s)) n end.
Lemma skipped : forall c n s, (Z.of_nat n <= skip s) -> skip (calls c s n) = skip s - Z.of_nat n.
Proof.
  induction n as [|n IH]; intros s H; simpl calls; [lia|]. unfold penter. destruct (Z.eqb_spec (skip s) 0) as [E|E]; [lia|].
  cbn [fst]. rewrite IH by (cbn [set_skip skip]; lia). cbn [set_skip skip]. lia.
Qed.
Lemma skips : forall c s n, Z.of_nat n < skip s -> snd (penter c (calls c s n)) = PAcq.
Proof.
  intros c s n H. unfold penter. rewrite skipped by lia. destruct (Z.eqb_spec (skip s - Z.of_nat n) 0) as [E|E]; [lia|]. auto.
Qed.
Lemma skips_end : forall c s, 0 <= skip s -> snd (penter c (calls c s (Z.to_nat (skip s)))) = PBegin (retry_conflict c).
Proof. intros c s H. unfold penter. rewrite skipped by lia. rewrite Z2Nat.id by lia. rewrite Z.sub_diag. auto. Qed.

(** the spin *)
Lemma spin_ends : forall c l s0 r s q, 0 < r -> prun c (s0, PSpin r) l = Some (s, q) -> (forall i, In i l -> i = Seen true) ->
  q <> POver /\ Z.of_nat (length l) <= r /\ (q = PSpin (r - Z.of_nat (length l)) \/ q = PAcq).
Proof.
  induction l as [|i l IH]; intros s0 r s q Hr H Hl.
  - injection H as <- <-. simpl. rewrite Z.sub_0_r. split; [discriminate|]. split; [lia|auto].
  - assert (i = Seen true) as -> by (apply Hl; left; auto). simpl in H.
    destruct (Z.eqb_spec r INT_MIN) as [E|E]; [unfold INT_MIN in E; lia|]. destruct (Z.eqb_spec (r - 1) 0) as [E2|E2].
    + unfold ploop in H. simpl in H. destruct l as [|j l]; [|simpl in H; discriminate]. injection H as <- <-. simpl. split; [discriminate|]. split; [lia|auto].
    + apply IH in H; [|lia|intros j Hj; apply Hl; right; auto]. destruct H as [H1 [H2 H3]]. split; auto. cbn [length]. split; [lia|].
      destruct H3 as [H3|H3]; auto. left. rewrite H3. f_equal. lia.
Qed.

Lemma spin_down : forall n c s0 r, INT_MIN <= r <= 0 -> r - INT_MIN = Z.of_nat n ->
  prun c (s0, PSpin r) (repeat (Seen true) (S n)) = Some (s0, POver).
Proof.
  induction n as [|n IH]; intros c s0 r Hr Hn.
  - simpl. replace (r =? INT_MIN) with true by (symmetry; apply Z.eqb_eq; lia). auto.
  - cbn [repeat prun pstep]. destruct (Z.eqb_spec r INT_MIN) as [E|E]; [lia|]. destruct (Z.eqb_spec (r - 1) 0) as [E2|E2]; [lia|].
    apply (IH c s0 (r - 1)); lia.
Qed.
Lemma spin_over : forall c s0, retry_conflict c <= 0 -> INT_MIN <= retry_busy c <= 0 -> skip s0 = 0 ->
  exists l s, prun c (penter c s0) (Aborted (explicit LOCK_BUSY) :: l) = Some (s, POver).
Proof.
  intros c s0 Hc Hb Hs. exists (repeat (Seen true) (S (Z.to_nat (retry_busy c - INT_MIN)))). eexists.
  unfold penter. rewrite Hs. cbn [Z.eqb prun pstep]. unfold fallback. cbn [skip].
  replace (0 <? retry_conflict c) with false by (symmetry; apply Z.ltb_ge; auto). rewrite Hs. cbn [Z.eqb negb].
  change (Z.land (explicit LOCK_BUSY) EXPLICIT =? 0) with false. change (CODE (explicit LOCK_BUSY) =? LOCK_BUSY) with true. cbn [negb].
  apply spin_down; [lia|]. rewrite Z2Nat.id; lia.
Qed.

Lemma spin_free : forall c l s0 r, (forall i, In i l -> i = Seen true) -> Z.of_nat (length l) < r - 2 ->
  prun c (s0, PSpin r) (l ++ [Seen false]) = Some (s0, PBegin (r - Z.of_nat (length l) - 2)).
Proof.
  induction l as [|i l IH]; intros s0 r HI HL.
  - simpl length in *. cbn [app prun pstep]. destruct (Z.eqb_spec r INT_MIN); [unfold INT_MIN in *; lia|]. destruct (Z.eqb_spec (r - 1) 0); [lia|].
    unfold ploop. destruct (Z.ltb_spec 0 (r - 1 - 1)); [|lia]. do 3 f_equal. lia.
  - rewrite (HI i) by (left; auto). cbn [length] in *. rewrite Nat2Z.inj_succ in *. cbn [app prun pstep].
    destruct (Z.eqb_spec r INT_MIN); [unfold INT_MIN in *; lia|]. destruct (Z.eqb_spec (r - 1) 0); [lia|].
    rewrite IH; [do 3 f_equal; lia|intros; apply HI; right; auto|lia].
Qed.
Lemma again : forall c s0 l s, prun c (penter c s0) l = Some (s, PIn) -> penter c (elided s) = (elided s, PBegin (retry_conflict c)).
Proof. reflexivity. Qed.
