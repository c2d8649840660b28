(** Hash table: probe sequences and what a probe returns. *)
From Coq Require Import Arith NArith List Bool Lia Permutation.
From Verif Require Import Lib Helpers_Model Helpers_Proof Ht_Model Ht_Spec.
Import ListNotations.

Definition ncap (m : tmap) : nat := N.to_nat (cap m).
Definition wf (m : tmap) : Prop := exists k, (1 <= k <= 31)%N /\ cap m = (2 ^ k)%N.
Notation key m s := (ek (ents m s)).

Lemma wf_pos : forall m, wf m -> (0 < cap m)%N.
Proof. intros m (k & H & E). rewrite E. apply N.neq_0_lt_0, N.pow_nonzero. lia. Qed.
Lemma wf_2 : forall m, wf m -> exists c, cap m = (2 * c)%N /\ (0 < c)%N.
Proof.
  intros m (k & H & E). exists (2 ^ (k - 1))%N. split.
  - rewrite E. rewrite <- N.pow_succ_r'. f_equal. lia.
  - apply N.neq_0_lt_0, N.pow_nonzero. lia.
Qed.
Lemma wf_create : forall e, wf (create e).
Proof.
  intros. unfold wf, create. cbn [cap].
  assert (B : (e mod 2 ^ 32 < 2 ^ 32)%N) by (apply N.mod_lt; discriminate).
  generalize dependent (e mod 2 ^ 32)%N. intros x B.
  destruct (N.eq_dec x 0) as [Z | NZ].
  { rewrite (power_2_zero x) by auto. exists 1%N. split; [lia | reflexivity]. }
  destruct (N.le_gt_cases x (2 ^ 31)) as [L | G].
  2: { rewrite (power_2_zero x) by auto. exists 1%N. split; [lia | reflexivity]. }
  rewrite power_2_eq by (split; [lia | auto]).
  destruct (N.ltb_spec (2 ^ N.log2_up x) 2) as [A | A].
  { exists 1%N. split; [lia | reflexivity]. }
  exists (N.log2_up x). split; auto. split.
  - assert (A' : (2 ^ 1 <= 2 ^ N.log2_up x)%N) by exact A. apply N.pow_le_mono_r_iff in A'; [auto | lia].
  - apply N.log2_up_le_pow2; auto. lia.
Qed.

Lemma live_iff : forall w, live w = true <-> w <> 0%N /\ w <> TOMB.
Proof.
  intros. unfold live. destruct (N.eqb_spec w 0), (N.eqb_spec w TOMB); simpl; split; intros; auto; try discriminate; destruct H; contradiction.
Qed.
Lemma live_0 : live 0 = false. Proof. reflexivity. Qed.
Lemma live_T : live TOMB = false. Proof. reflexivity. Qed.

(** ** Slots in probing order *)
Section P.
Variables (ub : N -> N -> N).
Fixpoint offs (m : tmap) (h : N) (i : nat) : N :=
  match i with
  | O => hidx m h
  | S i => probe_next ub m (offs m h i) h (N.of_nat (2 * S i))
  end.
Definition pi (m : tmap) (h : N) (p : nat) : nat := cursor (offs m h (p / 2)) (p mod 2).

Lemma offs_lt : forall m h i, wf m -> (offs m h i < cap m)%N.
Proof. intros m h i W. pose proof (wf_pos m W). destruct i; simpl; unfold hidx, probe_next; apply N.mod_lt; lia. Qed.
Lemma pi_lt : forall m h p, wf m -> pi m h p < ncap m.
Proof.
  intros m h p W. unfold pi, cursor, ncap. pose proof (offs_lt m h (p / 2) W) as L.
  destruct (wf_2 m W) as (c & E & C).
  set (o := offs m h (p / 2)) in *. clearbody o.
  assert (o / 2 < c)%N by (apply N.div_lt_upper_bound; lia).
  pose proof (N.mod_lt (N.of_nat (p mod 2) + o) 2). lia.
Qed.
Lemma offs_cap : forall m m' h i, cap m' = cap m -> offs m' h i = offs m h i.
Proof. induction i; simpl; intros E; unfold hidx, probe_next; rewrite E; auto. rewrite IHi by auto. reflexivity. Qed.
Lemma pi_cap : forall m m' h p, cap m' = cap m -> pi m' h p = pi m h p.
Proof. intros. unfold pi. rewrite (offs_cap m m'); auto. Qed.

(** loop states that have looked at [q_n] slots *)
Definition stok (m : tmap) (h : N) (st : pst) : Prop :=
  q_j st < 2 /\ q_off st = offs m h (q_i st) /\ q_n st = 2 * q_i st + q_j st.
Lemma stok_init : forall m h, stok m h (pinit m h).
Proof. intros. split; simpl; [lia|]. auto. Qed.
Lemma stok_cur : forall m h st, stok m h st -> cursor (q_off st) (q_j st) = pi m h (q_n st).
Proof.
  intros m h st (J & O & N). unfold pi. rewrite O, N.
  replace ((2 * q_i st + q_j st) / 2) with (q_i st). replace ((2 * q_i st + q_j st) mod 2) with (q_j st). reflexivity.
  - rewrite Nat.add_comm, Nat.mul_comm, Nat.mod_add by lia. rewrite Nat.mod_small; auto.
  - rewrite Nat.mul_comm, Nat.div_add_l by lia. rewrite Nat.div_small; lia.
Qed.
Lemma stok_adv : forall m h st pr np, stok m h st -> stok m h (adv ub m h st pr np).
Proof.
  intros m h st pr np (J & O & N). unfold adv, nextb.
  destruct (Nat.eqb_spec (S (q_j st)) 2) as [E | E]; split; cbn [q_j q_off q_n q_i]; try lia; split; try lia; auto.
  cbn [offs]. rewrite O, N. do 2 f_equal. lia.
Qed.
Lemma adv_fields : forall m h st pr np,
  q_n (adv ub m h st pr np) = S (q_n st) /\ q_pr (adv ub m h st pr np) = pr /\ q_np (adv ub m h st pr np) = np.
Proof. intros. unfold adv. destruct (Nat.eqb (S (q_j st)) 2); simpl; auto. Qed.
Lemma stok_end : forall m h st, stok m h st -> q_n st <= 2 * plim m -> (q_i st = plim m <-> q_n st = 2 * plim m).
Proof. intros m h st (J & O & N) L. lia. Qed.
End P.

(** ** Probing *)
Section Q.
Variables (dl bs : bool) (memeq : N -> N -> N -> bool) (ub : N -> N -> N).
Notation pi := (pi ub).
Notation match_ent := (match_ent bs memeq).

Definition clear (m : tmap) (k l h : N) (n : nat) : Prop :=
  forall p, p < n -> key m (pi m h p) <> 0%N /\ (live (key m (pi m h p)) = true -> match_ent (ents m (pi m h p)) k l h = false).
Definition firstt (m : tmap) (h : N) (n : nat) (pr : option nat) (np : nat) : Prop :=
  match pr with
  | None => forall p, p < n -> key m (pi m h p) <> TOMB
  | Some f => exists p, p < n /\ f = pi m h p /\ key m f = TOMB /\ np = S p /\ forall r, r < p -> key m (pi m h r) <> TOMB
  end.

Inductive pspec (m : tmap) (k l h : N) : pres -> Prop :=
| ps_found n pr np : n < 2 * plim m -> clear m k l h n -> firstt m h n pr np -> live (key m (pi m h n)) = true ->
    match_ent (ents m (pi m h n)) k l h = true -> pspec m k l h (mkr (Some (pi m h n)) pr (S n) np)
| ps_empty n pr np : n < 2 * plim m -> clear m k l h n -> firstt m h n pr np -> key m (pi m h n) = 0%N ->
    pspec m k l h (mkr (Some (pi m h n)) pr (S n) np)
| ps_limit pr np : clear m k l h (2 * plim m) -> firstt m h (2 * plim m) pr np -> pspec m k l h (mkr None pr (2 * plim m) np).

Definition linv (m : tmap) (k l h : N) (st : pst) : Prop :=
  stok ub m h st /\ clear m k l h (q_n st) /\ firstt m h (q_n st) (q_pr st) (q_np st) /\ q_n st <= 2 * plim m.

Lemma firstt_S : forall m h n pr np, firstt m h n pr np -> key m (pi m h n) <> TOMB -> firstt m h (S n) pr np.
Proof.
  intros m h n pr np F T. unfold firstt in *. destruct pr as [f|].
  - destruct F as (p & L & R). exists p. split; auto.
  - intros p L. destruct (Nat.eq_dec p n); [subst; auto | apply F; lia].
Qed.
Lemma firstt_w : forall m h n f np, firstt m h n (Some f) np -> firstt m h (S n) (Some f) np.
Proof. intros m h n f np (p & L & R). exists p. split; auto. Qed.
Lemma clear_S : forall m k l h n, clear m k l h n -> key m (pi m h n) <> 0%N ->
  (live (key m (pi m h n)) = true -> match_ent (ents m (pi m h n)) k l h = false) -> clear m k l h (S n).
Proof. intros m k l h n C A B p L. destruct (Nat.eq_dec p n); [subst; auto | apply C; lia]. Qed.

Lemma wr_iter_ok : forall m lim k l h st, linv m k l h st -> match lim with Some b => q_n st < 2 * plim m -> q_n st <= b | None => True end ->
  match wr_iter bs memeq ub m lim k l h st with
  | inl st' => linv m k l h st' /\ q_n st' = S (q_n st)
  | inr r => pspec m k l h r
  end.
Proof.
  intros m lim k l h st (SO & CL & FT & L0) LI. unfold wr_iter.
  destruct (Nat.eqb_spec (q_i st) (plim m)) as [E | E].
  { apply (stok_end ub m h st SO L0) in E. rewrite E in *. apply ps_limit; auto. }
  assert (LN : q_n st < 2 * plim m).
  { destruct (Nat.eq_dec (q_n st) (2 * plim m)) as [X | X]; [|lia]. apply (stok_end ub m h st SO L0) in X. contradiction. }
  replace (match lim with Some b => Nat.ltb b (q_n st) | None => false end) with false.
  2: { destruct lim as [b|]; auto. symmetry. apply Nat.ltb_ge. auto. }
  cbv zeta. rewrite (stok_cur _ _ _ _ SO). remember (q_n st) as n.
  destruct (N.eqb_spec (key m (pi m h n)) TOMB) as [E1 | E1].
  { destruct (q_pr st) as [f|] eqn:EP.
    - destruct (adv_fields ub m h st (Some f) (q_np st)) as (A1 & A3 & A4).
      split; [|congruence]. split; [apply stok_adv; auto|]. rewrite A1, A3, A4, <- Heqn.
      split; [apply clear_S; auto; rewrite E1; discriminate|]. split; [apply firstt_w; auto | lia].
    - destruct (adv_fields ub m h st (Some (pi m h n)) (S n)) as (A1 & A3 & A4).
      split; [|congruence]. split; [apply stok_adv; auto|]. rewrite A1, A3, A4, <- Heqn.
      split; [apply clear_S; auto; rewrite E1; discriminate|]. split; [exists n; repeat split; auto | lia]. }
  destruct (N.eqb_spec (key m (pi m h n)) 0) as [E0 | E0]; simpl orb.
  { apply ps_empty; auto. }
  destruct (match_ent (ents m (pi m h n)) k l h) eqn:EM.
  { apply ps_found; auto. apply live_iff; auto. }
  destruct (adv_fields ub m h st (q_pr st) (q_np st)) as (A1 & A3 & A4).
  split; [|congruence]. split; [apply stok_adv; auto|]. rewrite A1, A3, A4, <- Heqn.
  split; [apply clear_S; auto|]. split; [apply firstt_S; auto | lia].
Qed.
Lemma wr_loop_ok : forall f m lim k l h st, linv m k l h st ->
  (forall n, clear m k l h n -> match lim with Some b => n < 2 * plim m -> n <= b | None => True end) -> 2 * plim m < q_n st + f ->
  exists r, wr_loop bs memeq ub f m lim k l h st = Some r /\ pspec m k l h r.
Proof.
  induction f; intros m lim k l h st I LI F.
  - destruct I as (_ & _ & _ & L). lia.
  - cbn [wr_loop]. pose proof (wr_iter_ok m lim k l h st I (LI _ (proj1 (proj2 I)))) as P.
    destruct (wr_iter bs memeq ub m lim k l h st) as [st' | r]; [|eauto].
    destruct P as (I' & N). apply IHf; auto. lia.
Qed.
Lemma linv_init : forall m k l h, linv m k l h (pinit m h).
Proof. intros. split; [apply stok_init|]. simpl. split; [intros p L; lia|]. split; [intros p L; lia | lia]. Qed.
Lemma probe_wr_ok : forall m k l h, exists r, probe_wr dl bs memeq ub m k l h false = Some r /\ pspec m k l h r.
Proof.
  intros. unfold probe_wr.
  destruct (wr_loop_ok (S (2 * plim m)) m None k l h (pinit m h) (linv_init m k l h)) as (r & E & P); [simpl; auto | simpl; lia |].
  exists r. cbv iota. rewrite E. auto.
Qed.
(** bounded, the key being within the bound *)
Lemma probe_wr_bounded : forall m k l h, (forall n, clear m k l h n -> n < 2 * plim m -> n <= bound_get dl m h) ->
  exists r, probe_wr dl bs memeq ub m k l h true =
    Some (mkr (r_cur r) (r_pr r) (r_n r) (match r_pr r with None => r_n r | Some _ => r_np r end)) /\ pspec m k l h r.
Proof.
  intros m k l h LI. unfold probe_wr.
  destruct (wr_loop_ok (S (2 * plim m)) m (Some (bound_get dl m h)) k l h (pinit m h) (linv_init m k l h)) as (r & E & P); [auto | simpl; lia |].
  exists r. cbv iota. rewrite E. auto.
Qed.

(** readers *)
Inductive rspec (m : tmap) (lim : nat) (k l h : N) : option nat -> Prop :=
| rs_found n : n < 2 * plim m -> clear m k l h n -> live (key m (pi m h n)) = true -> match_ent (ents m (pi m h n)) k l h = true ->
    rspec m lim k l h (Some (pi m h n))
| rs_empty n : clear m k l h n -> key m (pi m h n) = 0%N -> rspec m lim k l h (Some (pi m h n))
| rs_limit n : clear m k l h n -> n = 2 * plim m \/ lim < n -> rspec m lim k l h None.
Lemma rd_loop_ok : forall f m lim k l h st, stok ub m h st -> clear m k l h (q_n st) -> q_n st <= 2 * plim m -> 2 * plim m < q_n st + f ->
  exists r, rd_loop bs memeq ub f m lim k l h st = Some r /\ rspec m lim k l h r.
Proof.
  induction f; intros m lim k l h st SO CL L F; [lia|]. cbn [rd_loop]. unfold rd_iter.
  destruct (Nat.eqb_spec (q_i st) (plim m)) as [E | E].
  { apply (stok_end ub m h st SO L) in E. eexists. split; [reflexivity|]. apply (rs_limit _ _ _ _ _ (q_n st)); auto. }
  assert (LN : q_n st < 2 * plim m).
  { destruct (Nat.eq_dec (q_n st) (2 * plim m)) as [X | X]; [|lia]. apply (stok_end ub m h st SO L) in X. contradiction. }
  destruct (Nat.ltb_spec lim (q_n st)) as [X | X].
  { eexists. split; [reflexivity|]. apply (rs_limit _ _ _ _ _ (q_n st)); auto. }
  cbv zeta. rewrite (stok_cur _ _ _ _ SO).
  destruct (adv_fields ub m h st None 0) as (A1 & _). remember (q_n st) as n.
  destruct (N.eqb_spec (key m (pi m h n)) TOMB) as [E1 | E1].
  { apply IHf; rewrite ?A1; try lia. apply stok_adv; auto. apply clear_S; auto; rewrite E1; discriminate. }
  destruct (N.eqb_spec (key m (pi m h n)) 0) as [E0 | E0]; simpl orb.
  { eexists. split; [reflexivity|]. apply rs_empty; auto. }
  destruct (match_ent (ents m (pi m h n)) k l h) eqn:EM.
  { eexists. split; [reflexivity|]. apply rs_found; auto. apply live_iff; auto. }
  apply IHf; rewrite ?A1; try lia. apply stok_adv; auto. apply clear_S; auto.
Qed.
Lemma probe_rd_ok : forall m k l h, exists r, probe_rd dl bs memeq ub m k l h = Some r /\ rspec m (bound_get dl m h) k l h r.
Proof. intros. apply rd_loop_ok; [apply stok_init | intros p L; simpl in L; lia | simpl; lia | simpl; lia]. Qed.

(** ** placing an entry in a new map *)
Lemma place_ok : forall f u h st, stok ub u h st -> q_n st <= 2 * plim u -> (forall p, p < q_n st -> key u (pi u h p) <> 0%N) ->
  match place ub f u h st with
  | Some (s, n) => exists q, n = S q /\ s = pi u h q /\ n <= 2 * plim u /\ key u s = 0%N /\ forall p, p < q -> key u (pi u h p) <> 0%N
  | None => True
  end.
Proof.
  induction f; intros u h st SO L C; cbn [place]; auto.
  cbv zeta. rewrite (stok_cur _ _ _ _ SO). destruct (Nat.eqb_spec (q_i st) (plim u)) as [E | E]; auto.
  assert (LN : q_n st < 2 * plim u).
  { destruct (Nat.eq_dec (q_n st) (2 * plim u)) as [X | X]; [|lia]. apply (stok_end ub u h st SO L) in X. contradiction. }
  destruct (N.eqb_spec (key u (pi u h (q_n st))) 0) as [E0 | E0].
  - exists (q_n st). repeat split; auto; lia.
  - destruct (adv_fields ub u h st None 0) as (A1 & _).
    apply IHf; [apply stok_adv; auto | lia |]. rewrite A1. intros p P.
    destruct (Nat.eq_dec p (q_n st)); [subst; auto | apply C; lia].
Qed.

(** ** Keys *)
Variables (len : N -> N) (hf : N -> N).
Notation valid := (valid len). Notation same := (same bs len memeq).
Variable CT : contract bs len memeq hf.
Lemma match_same : forall e k l, valid (ek e) -> eh e = hf (ek e) -> (bs = true -> el e = len (ek e)) -> valid k -> lok bs len k l ->
  match_ent e k l (hf k) = same (ek e) k.
Proof.
  intros e k l VE EH EL VK LK. unfold Ht_Model.match_ent, Ht_Spec.same.
  destruct (N.eqb_spec (ek e) k) as [E | NE]; auto. simpl orb.
  destruct bs eqn:EB; auto. simpl andb.
  rewrite EL, (LK eq_refl), EH by auto. rewrite !N.mod_small by (apply VE || apply VK).
  destruct (N.eqb_spec (len (ek e)) (len k)) as [EQ | EQ]; auto. simpl andb.
  destruct (memeq (len k) (ek e) k) eqn:M; [|apply andb_false_r]. rewrite andb_true_r.
  apply N.eqb_eq. apply (c_hash _ _ _ _ CT); auto. unfold Ht_Spec.same. rewrite M, EQ, N.eqb_refl. simpl. apply orb_true_r.
Qed.
Lemma same_refl : forall x, same x x = true.
Proof. intros. unfold Ht_Spec.same. rewrite N.eqb_refl. reflexivity. Qed.
End Q.
