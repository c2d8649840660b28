(** Hash set: words, probe sequences and what a probe returns. *)
From Coq Require Import Arith NArith List Bool Lia Permutation.
From Verif Require Import Lib Helpers_Model Helpers_Proof Hs_Model Hs_Spec.
Import ListNotations.

Definition ncap (m : hmap) : nat := N.to_nat (cap m).
Definition wf (m : hmap) : Prop := exists k, (3 <= k <= 31)%N /\ cap m = (2 ^ k)%N.

Lemma wf_pos : forall m, wf m -> (0 < cap m)%N.
Proof. intros m (k & H & E). rewrite E. apply N.neq_0_lt_0, N.pow_nonzero. lia. Qed.
Lemma wf_8 : forall m, wf m -> exists c, cap m = (8 * c)%N /\ (0 < c)%N.
Proof.
  intros m (k & H & E). exists (2 ^ (k - 3))%N. split.
  - rewrite E. replace 8%N with (2 ^ 3)%N by reflexivity. rewrite <- N.pow_add_r. f_equal. lia.
  - apply N.neq_0_lt_0, N.pow_nonzero. lia.
Qed.
Lemma wf_create : forall g e, wf (create g e).
Proof.
  intros. unfold wf, create. cbn [cap].
  assert (B : (e mod 2 ^ 32 < 2 ^ 32)%N) by (apply N.mod_lt; discriminate).
  generalize dependent (e mod 2 ^ 32)%N. intros x B.
  destruct (N.eq_dec x 0) as [Z | NZ].
  { rewrite (power_2_zero x) by auto. exists 3%N. split; [lia | reflexivity]. }
  destruct (N.le_gt_cases x (2 ^ 31)) as [L | G].
  2: { rewrite (power_2_zero x) by auto. exists 3%N. split; [lia | reflexivity]. }
  rewrite power_2_eq by (split; [lia | auto]).
  destruct (N.ltb_spec (2 ^ N.log2_up x) 8) as [A | A].
  { exists 3%N. split; [lia | reflexivity]. }
  exists (N.log2_up x). split; auto. split.
  - change 8%N with (2 ^ 3)%N in A. apply N.pow_le_mono_r_iff in A; [auto | lia].
  - apply N.log2_up_le_pow2; auto. lia.
Qed.

(** ** Slots in probing order *)
Section P.
Variables (ub : N -> N -> N).
Fixpoint offs (m : hmap) (h : N) (i : nat) : N :=
  match i with
  | O => hidx m h
  | S i => probe_next ub m (offs m h i) h (N.of_nat i) (N.of_nat (8 * S i))
  end.
Definition pi (m : hmap) (h : N) (p : nat) : nat := cursor (offs m h (p / 8)) (p mod 8).

Lemma offs_lt : forall m h i, wf m -> (offs m h i < cap m)%N.
Proof. intros m h i W. pose proof (wf_pos m W). destruct i; simpl; unfold hidx, probe_next; apply N.mod_lt; lia. Qed.
Lemma pi_lt : forall m h p, wf m -> pi m h p < ncap m.
Proof.
  intros m h p W. unfold pi, cursor, ncap. pose proof (offs_lt m h (p / 8) W) as L.
  destruct (wf_8 m W) as (c & E & C).
  set (o := offs m h (p / 8)) in *. clearbody o.
  assert (o / 8 < c)%N by (apply N.div_lt_upper_bound; lia).
  pose proof (N.mod_lt (N.of_nat (p mod 8) + o) 8). lia.
Qed.
Lemma offs_cap : forall m m' h i, cap m' = cap m -> offs m' h i = offs m h i.
Proof. induction i; simpl; intros E; unfold hidx, probe_next; rewrite E; auto. rewrite IHi by auto. reflexivity. Qed.
Lemma pi_cap : forall m m' h p, cap m' = cap m -> pi m' h p = pi m h p.
Proof. intros. unfold pi. rewrite (offs_cap m m'); auto. Qed.

(** loop states that have looked at [q_n] slots *)
Definition stok (m : hmap) (h : N) (st : pst) : Prop :=
  q_j st < 8 /\ exists i, q_i st = N.of_nat i /\ q_off st = offs m h i /\ q_n st = 8 * i + q_j st.
Lemma stok_init : forall m h l, stok m h (pinit m h l).
Proof. intros. split; simpl; [lia|]. exists 0. auto. Qed.
Lemma stok_cur : forall m h st, stok m h st -> cursor (q_off st) (q_j st) = pi m h (q_n st).
Proof.
  intros m h st (J & i & I & O & N). unfold pi. rewrite O, N.
  replace ((8 * i + q_j st) / 8) with i. replace ((8 * i + q_j st) mod 8) with (q_j st). reflexivity.
  - rewrite Nat.add_comm, Nat.mul_comm, Nat.mod_add by lia. rewrite Nat.mod_small; auto.
  - rewrite Nat.mul_comm, Nat.div_add_l by lia. rewrite Nat.div_small; lia.
Qed.
Lemma stok_adv : forall m h st l pr np, stok m h st -> stok m h (adv ub m h st l pr np).
Proof.
  intros m h st l pr np (J & i & I & O & N). unfold adv.
  destruct (Nat.eqb_spec (S (q_j st)) 8) as [E | E]; split; simpl; try lia.
  - exists (S i). split; [lia|]. split; [|lia]. simpl offs. rewrite O, I, N. do 2 f_equal. lia.
  - exists i. repeat split; auto. lia.
Qed.
Lemma adv_fields : forall m h st l pr np,
  q_n (adv ub m h st l pr np) = S (q_n st) /\ q_lim (adv ub m h st l pr np) = l /\
  q_pr (adv ub m h st l pr np) = pr /\ q_np (adv ub m h st l pr np) = np.
Proof. intros. unfold adv. destruct (Nat.eqb (S (q_j st)) 8); simpl; auto. Qed.
End P.

(** ** Probing *)
Section Q.
Variables (dl pp : bool) (hf : N -> N) (cmp : option (N -> N -> bool)) (ub : N -> N -> N).
Notation pi := (pi ub).
Notation val := (val pp). Notation match_word := (match_word pp cmp).

Definition clear (m : hmap) (h k : N) (n : nat) : Prop :=
  forall p, p < n -> ents m (pi m h p) <> 0%N /\ (live (ents m (pi m h p)) = true -> match_word (ents m (pi m h p)) k h = false).
Definition firstt (m : hmap) (h : N) (n : nat) (pr : option nat) (np : nat) : Prop :=
  match pr with
  | None => forall p, p < n -> ents m (pi m h p) <> TOMB
  | Some f => exists p, p < n /\ f = pi m h p /\ ents m f = TOMB /\ np = S p /\ forall r, r < p -> ents m (pi m h r) <> TOMB
  end.
Definition npr (pr : option nat) (np n : nat) : nat := match pr with None => S n | Some _ => np end.

Inductive pspec (m : hmap) (h k : N) (lim opl : nat) (b : behavior) : pres -> Prop :=
| ps_found n pr np : n < opl -> clear m h k n -> firstt m h n pr np -> live (ents m (pi m h n)) = true ->
    match_word (ents m (pi m h n)) k h = true -> pspec m h k lim opl b (mkr (Some (pi m h n)) (val (ents m (pi m h n))) pr (npr pr np n))
| ps_empty n pr np : n < opl -> clear m h k n -> firstt m h n pr np -> ents m (pi m h n) = 0%N ->
    pspec m h k lim opl b (mkr (Some (pi m h n)) 0 pr (npr pr np n))
| ps_limit n pr np : lim <= n <= opl -> clear m h k n -> firstt m h n pr np -> n = opl \/ pr <> None ->
    pspec m h k lim opl b (mkr None 0 pr (npr pr np n))
| ps_tomb n : b = BTomb -> n < opl -> clear m h k n -> firstt m h n None 0 -> ents m (pi m h n) = TOMB ->
    pspec m h k lim opl b (mkr (Some (pi m h n)) 0 (Some (pi m h n)) (S n)).

Lemma live_iff : forall w, live w = true <-> w <> 0%N /\ w <> TOMB.
Proof.
  intros. unfold live. destruct (N.eqb_spec w 0), (N.eqb_spec w TOMB); simpl; split; intros; auto; try discriminate; destruct H; contradiction.
Qed.
Lemma live_0 : live 0 = false. Proof. reflexivity. Qed.
Lemma live_T : live TOMB = false. Proof. reflexivity. Qed.

Definition linv (m : hmap) (h k : N) (lim opl : nat) (st : pst) : Prop :=
  stok ub m h st /\ clear m h k (q_n st) /\ firstt m h (q_n st) (q_pr st) (q_np st) /\ lim <= q_lim st /\ q_n st <= q_lim st <= opl /\
  (q_lim st <> opl -> q_lim st = lim).

Lemma firstt_S : forall m h n pr np, firstt m h n pr np -> ents m (pi m h n) <> TOMB -> firstt m h (S n) pr np.
Proof.
  intros m h n pr np F T. unfold firstt in *. destruct pr as [f|].
  - destruct F as (p & L & R). exists p. split; auto.
  - intros p L. destruct (Nat.eq_dec p n); [subst; auto | apply F; lia].
Qed.
Lemma firstt_w : forall m h n f np, firstt m h n (Some f) np -> firstt m h (S n) (Some f) np.
Proof. intros m h n f np (p & L & R). exists p. split; auto. Qed.
Lemma clear_S : forall m h k n, clear m h k n -> ents m (pi m h n) <> 0%N ->
  (live (ents m (pi m h n)) = true -> match_word (ents m (pi m h n)) k h = false) -> clear m h k (S n).
Proof. intros m h k n C A B p L. destruct (Nat.eq_dec p n); [subst; auto | apply C; lia]. Qed.

Lemma piter_ok : forall m h k lim opl b st, linv m h k lim opl st ->
  match piter pp cmp ub m opl b h k st with
  | inl st' => linv m h k lim opl st' /\ q_n st' = S (q_n st)
  | inr r => pspec m h k lim opl b r
  end.
Proof.
  intros m h k lim opl b st (SO & CL & FT & L0 & L1 & L2). unfold piter. rewrite (stok_cur _ _ _ _ SO).
  remember (q_n st) as n. destruct (Nat.eqb_spec n (q_lim st)) as [HE | HE]; simpl.
  1: destruct (Nat.eqb_spec (q_lim st) opl) as [HO | HO]; simpl.
  2: destruct (q_pr st) as [f|] eqn:EP; simpl.
  - (* n = lim = opl *) unfold leave. rewrite (proj2 (Nat.ltb_lt (q_lim st) (S n))) by lia.
    apply (ps_limit m h k lim opl b n (q_pr st) (q_np st)); auto; lia.
  - unfold leave. rewrite (proj2 (Nat.ltb_lt (q_lim st) (S n))) by lia.
    apply (ps_limit m h k lim opl b n (Some f) (q_np st)); auto; [lia | right; discriminate].
  - (* extended *)
    specialize (L2 HO). assert (NO : n < opl) by lia.
    destruct (N.eqb_spec (ents m (pi m h n)) 0) as [E0 | E0].
    { unfold leave. rewrite (proj2 (Nat.ltb_ge opl (S n))) by lia. apply (ps_empty m h k lim opl b n None 0); auto. }
    destruct (N.eqb_spec (ents m (pi m h n)) TOMB) as [E1 | E1].
    { destruct b.
      1,3: destruct (adv_fields ub m h st opl (Some (pi m h n)) (S n)) as (A1 & A2 & A3 & A4);
        split; [|congruence]; split; [apply stok_adv; auto|]; rewrite A1, A2, A3, A4, <- Heqn;
        split; [apply clear_S; auto; rewrite E1; discriminate|]; split; [exists n; repeat split; auto | lia].
      unfold leave. rewrite (proj2 (Nat.ltb_ge opl (S n))) by lia. apply ps_tomb; auto. }
    destruct (match_word (ents m (pi m h n)) k h) eqn:EM.
    { unfold leave. rewrite (proj2 (Nat.ltb_ge opl (S n))) by lia. apply (ps_found m h k lim opl b n None 0); auto. apply live_iff; auto. }
    destruct (adv_fields ub m h st opl None (q_np st)) as (A1 & A2 & A3 & A4).
    split; [|congruence]. split; [apply stok_adv; auto|]. rewrite A1, A2, A3, A4, <- Heqn.
    split; [apply clear_S; auto|]. split; [apply firstt_S; auto | lia].
  - assert (NO : n < opl) by lia.
    destruct (N.eqb_spec (ents m (pi m h n)) 0) as [E0 | E0].
    { unfold leave. rewrite (proj2 (Nat.ltb_ge (q_lim st) (S n))) by lia. apply (ps_empty m h k lim opl b n (q_pr st) (q_np st)); auto. }
    destruct (N.eqb_spec (ents m (pi m h n)) TOMB) as [E1 | E1].
    { destruct (q_pr st) as [f|] eqn:EP.
      { destruct (adv_fields ub m h st (q_lim st) (Some f) (q_np st)) as (A1 & A2 & A3 & A4);
        split; [|congruence]; split; [apply stok_adv; auto|]; rewrite A1, A2, A3, A4, <- Heqn;
        split; [apply clear_S; auto; rewrite E1; discriminate|]; split; [apply firstt_w; auto | lia]. }
      destruct b.
      1,3: destruct (adv_fields ub m h st (q_lim st) (Some (pi m h n)) (S n)) as (A1 & A2 & A3 & A4);
        split; [|congruence]; split; [apply stok_adv; auto|]; rewrite A1, A2, A3, A4, <- Heqn;
        split; [apply clear_S; auto; rewrite E1; discriminate|]; split; [exists n; repeat split; auto | lia].
      unfold leave. rewrite (proj2 (Nat.ltb_ge (q_lim st) (S n))) by lia. apply ps_tomb; auto. }
    destruct (match_word (ents m (pi m h n)) k h) eqn:EM.
    { unfold leave. rewrite (proj2 (Nat.ltb_ge (q_lim st) (S n))) by lia.
      apply (ps_found m h k lim opl b n (q_pr st) (q_np st)); auto. apply live_iff; auto. }
    destruct (adv_fields ub m h st (q_lim st) (q_pr st) (q_np st)) as (A1 & A2 & A3 & A4).
    split; [|congruence]. split; [apply stok_adv; auto|]. rewrite A1, A2, A3, A4, <- Heqn.
    split; [apply clear_S; auto|]. split; [apply firstt_S; auto | lia].
Qed.

Lemma ploop_ok : forall f m h k lim opl b st, linv m h k lim opl st -> opl < q_n st + f ->
  exists r, ploop pp cmp ub f m opl b h k st = Some r /\ pspec m h k lim opl b r.
Proof.
  induction f; intros m h k lim opl b st I F.
  - destruct I as (_ & _ & _ & _ & L & _). lia.
  - simpl. pose proof (piter_ok m h k lim opl b st I) as P.
    destruct (piter pp cmp ub m opl b h k st) as [st' | r]; [|eauto].
    destruct P as (I' & N). apply IHf; auto. lia.
Qed.
Lemma probe_ok : forall m h k limit b, bound_get dl m h <= limit ->
  exists r, probe dl pp cmp ub m h k limit b = Some r /\
            pspec m h k (match b with BInsert => bound_get dl m h | _ => limit end) limit b r.
Proof.
  intros. unfold probe. apply ploop_ok; [|simpl; lia].
  split; [apply stok_init|]. simpl. split; [intros p L; lia|]. split; [intros p L; lia|].
  destruct b; lia.
Qed.

(** ** placing a word in a new map *)
Lemma place_ok : forall f u h st, stok ub u h st -> q_n st <= plim u -> (forall p, p < q_n st -> ents u (pi u h p) <> 0%N) ->
  match place ub f u h st with
  | Some (s, n) => exists q, n = S q /\ s = pi u h q /\ n <= plim u /\ ents u s = 0%N /\ forall p, p < q -> ents u (pi u h p) <> 0%N
  | None => True
  end.
Proof.
  induction f; intros u h st SO L C; simpl; auto.
  rewrite (stok_cur _ _ _ _ SO). destruct (Nat.eqb_spec (q_n st) (plim u)) as [E | E]; auto.
  destruct (N.eqb_spec (ents u (pi u h (q_n st))) 0) as [E0 | E0].
  - exists (q_n st). repeat split; auto; lia.
  - destruct (adv_fields ub u h st (plim u) None 0) as (A1 & _).
    apply IHf; [apply stok_adv; auto | lia |]. rewrite A1. intros p P.
    destruct (Nat.eq_dec p (q_n st)); [subst; auto | apply C; lia].
Qed.

(** ** Words *)
Notation valid := (valid pp hf). Notation same := (same cmp). Notation marshal := (marshal pp).

Lemma hv_lt : forall h, (hv h < 2 ^ 16)%N.
Proof. intros. unfold hv. apply N.mod_lt. discriminate. Qed.
Lemma val_marshal : forall k h, (pp = true -> (k < 2 ^ 48)%N) -> val (marshal k h) = k.
Proof.
  intros k h H. unfold Hs_Model.val, Hs_Model.marshal. destruct pp; auto.
  rewrite N.mod_add by discriminate. rewrite N.mod_mod by discriminate. apply N.mod_small; auto.
Qed.
Lemma live_marshal : forall k, valid k -> live (marshal k (hf k)) = true.
Proof.
  intros k (V0 & V1 & V2). apply live_iff. split; auto. unfold Hs_Model.marshal. destruct pp; auto.
  rewrite N.mod_small by auto. lia.
Qed.
Lemma val_k : forall k, valid k -> val (marshal k (hf k)) = k.
Proof. intros k (V0 & V1 & V2). apply val_marshal; auto. Qed.
Variable CT : contract pp hf cmp.
Lemma match_same : forall x k, valid x -> valid k -> match_word (marshal x (hf x)) k (hf k) = same x k.
Proof.
  intros x k VX VK. unfold Hs_Model.match_word. rewrite val_k by auto.
  assert (EK : val k = k).
  { destruct VK as (_ & V & _). unfold Hs_Model.val. destruct pp; auto. apply N.mod_small; auto. }
  rewrite EK. fold (same x k). destruct (same x k) eqn:S.
  - rewrite andb_true_r. rewrite <- (c_hash _ _ _ CT x k) by auto. unfold Hs_Model.marshal. destruct pp eqn:EP; auto.
    apply N.eqb_eq. rewrite N.div_add by discriminate. rewrite N.div_small; auto.
    apply N.mod_lt. discriminate.
  - apply andb_false_r.
Qed.
Lemma same_refl : forall x, same x x = true.
Proof. intros. unfold Hs_Spec.same. rewrite N.eqb_refl. reflexivity. Qed.
End Q.
