(** Proofs about ck_array. *)
From Coq Require Import NArith List Bool Arith Lia Permutation.
From Verif Require Import Lib Array_Model.
Import ListNotations.

(** ** Specification vocabulary *)

(** what a commit issued now would publish *)
Definition scheduled (a : array) : option (list nat) := visible (ck_array_commit a).

(** abstract multisets: multiplicity functions *)
Definition occ (l : list nat) (v : nat) : nat := count_occ Nat.eq_dec l v.
Definition add1 (M : nat -> nat) (v : nat) : nat -> nat := upd M v (S (M v)).
Definition del1 (M : nat -> nat) (v : nat) : nat -> nat := upd M v (M v - 1).

(** effect of an operation that is carried out *)
Definition effect (M : nat -> nat) (o : op) : nat -> nat :=
  match o with
  | Put v _ => add1 M v
  | PutU v _ => if Nat.eqb (M v) 0 then add1 M v else M
  | Remove v _ => del1 M v
  | Commit => M
  end.
Definition alloc_ok (o : op) : bool :=
  match o with Put _ ok | PutU _ ok | Remove _ ok => ok | Commit => true end.
(** an operation is carried out, or had its allocation refused and does nothing *)
Inductive spec_run : (nat -> nat) -> list op -> (nat -> nat) -> Prop :=
| spec_nil : forall M, spec_run M [] M
| spec_do : forall M o os M', spec_run (effect M o) os M' -> spec_run M (o :: os) M'
| spec_fail : forall M o os M', alloc_ok o = false -> spec_run M os M' -> spec_run M (o :: os) M'.

(** ** Blocks *)

Definition holds (b : block) (l : list nat) : Prop := forall i x, nth_error l i = Some x -> rd b i = Some x.

Lemma read_all_holds : forall l b i, (forall j x, nth_error l j = Some x -> rd b (i + j) = Some x) ->
  read_all b (length l) i = Some l.
Proof.
  induction l as [|x l IH]; intros b i H; simpl; auto.
  pose proof (H 0 x eq_refl) as H0. rewrite Nat.add_0_r in H0. rewrite H0. rewrite IH; auto.
  intros j y Hj. replace (S i + j) with (i + S j) by lia. apply H. auto.
Qed.

Lemma holds_read : forall b l, holds b l -> read_all b (length l) 0 = Some l.
Proof. intros. apply read_all_holds. auto. Qed.

Lemma search_holds : forall l b i v, (forall j x, nth_error l j = Some x -> rd b (i + j) = Some x) ->
  (search b (length l) i v = Some None /\ ~ In v l) \/
  (exists l1 l2, l = l1 ++ v :: l2 /\ search b (length l) i v = Some (Some (i + length l1)) /\ ~ In v l1).
Proof.
  induction l as [|x l IH]; intros b i v H; simpl; [left; auto|].
  pose proof (H 0 x eq_refl) as H0. rewrite Nat.add_0_r in H0. rewrite H0.
  destruct (Nat.eqb_spec x v) as [->|E].
  - right. exists [], l. simpl. rewrite Nat.add_0_r. auto.
  - destruct (IH b (S i) v) as [[S1 S2]|[l1 [l2 [S1 [S2 S3]]]]].
    + intros j y Hj. replace (S i + j) with (i + S j) by lia. apply H. auto.
    + left. split; auto. intros [F|F]; auto.
    + right. exists (x :: l1), l2. subst. split; auto. split.
      * rewrite S2. simpl. do 2 f_equal. lia.
      * simpl. intros [F|F]; auto.
Qed.

Lemma holds_cap : forall b l, holds b l -> (N.of_nat (length l) <= len b)%N.
Proof.
  intros b l H. destruct l as [|x l] using rev_ind; simpl; [lia|]. clear IHl.
  specialize (H (length l) x). rewrite nth_error_app2, Nat.sub_diag in H by lia. specialize (H eq_refl).
  unfold rd, in_cap in H. destruct (N.ltb_spec (N.of_nat (length l)) (len b)); [|discriminate].
  rewrite app_length. simpl. lia.
Qed.

Lemma wr_ok : forall b i v, (N.of_nat i < len b)%N -> exists b', wr b i v = Some b' /\ n_committed b' = n_committed b /\ len b' = len b /\
  rd b' i = Some v /\ forall j, j <> i -> rd b' j = rd b j.
Proof.
  intros b i v H. unfold wr, in_cap. destruct (N.ltb_spec (N.of_nat i) (len b)); [|lia].
  eexists. split; [reflexivity|]. repeat split; auto.
  - unfold rd, in_cap. simpl. destruct (N.ltb_spec (N.of_nat i) (len b)); [|lia]. apply upd_same.
  - intros j Hj. unfold rd, in_cap. simpl. rewrite upd_other by auto. auto.
Qed.

Lemma put_block_ok : forall b l v ok, holds b l -> (0 < len b)%N -> (N.of_nat (length l) < 2 ^ 31)%N ->
  (exists b', put_block b (length l) v ok = Some (Some b') /\ holds b' (l ++ [v]) /\ (0 < len b')%N /\ n_committed b' = n_committed b /\
     forall i, i < length l -> rd b' i = rd b i) \/
  (ok = false /\ put_block b (length l) v ok = Some None).
Proof.
  intros b l v ok H H0 Hs. unfold put_block. destruct (N.eqb_spec (N.of_nat (length l)) (len b)) as [E|E].
  - destruct ok; [left|right; auto].
    assert (Dbl : dbl (len b) = (2 * len b)%N).
    { unfold dbl. rewrite N.double_spec. apply N.mod_small. rewrite <- E. change (2 ^ 32)%N with (2 * 2 ^ 31)%N. lia. }
    rewrite Dbl. destruct (wr_ok (regrow b (length l) (2 * len b)) (length l) v) as [b' [W1 [W2 [W3 [W4 W5]]]]]; [cbn [len regrow]; lia|].
    rewrite W1. exists b'. split; auto.
    assert (Q : forall i, i < length l -> rd b' i = rd b i).
    { intros i Hi. rewrite W5 by lia. unfold rd, in_cap, regrow. cbn [len values].
      destruct (N.ltb_spec (N.of_nat i) (2 * len b)); [|lia]. destruct (Nat.ltb_spec i (length l)); [|lia].
      destruct (N.ltb_spec (N.of_nat i) (len b)); [|lia]. auto. }
    split; [|repeat split; auto; rewrite W3; cbn [len regrow]; lia].
    intros i x Hi. destruct (Nat.lt_ge_cases i (length l)).
    + rewrite nth_error_app1 in Hi by auto. rewrite Q by auto. auto.
    + rewrite nth_error_app2 in Hi by auto. destruct (i - length l) eqn:Z; simpl in Hi; [|destruct n; discriminate].
      injection Hi as <-. replace i with (length l) by lia. auto.
  - left. pose proof (holds_cap b l H).
    destruct (wr_ok b (length l) v) as [b' [W1 [W2 [W3 [W4 W5]]]]]; [lia|]. rewrite W1. exists b'. split; auto. split; [|repeat split; auto].
    + intros i x Hi. destruct (Nat.lt_ge_cases i (length l)).
      * rewrite nth_error_app1 in Hi by auto. rewrite W5 by lia. auto.
      * rewrite nth_error_app2 in Hi by auto. destruct (i - length l) eqn:Z; simpl in Hi; [|destruct n; discriminate].
        injection Hi as <-. replace i with (length l) by lia. auto.
    + lia.
    + intros. apply W5. lia.
Qed.

(** swapping the last entry into the hole *)
Lemma swap_out_ok : forall b l1 v l2, holds b (l1 ++ v :: l2) ->
  exists b' l', swap_out b (length l1) (length (l1 ++ v :: l2)) = Some b' /\ holds b' l' /\
    Permutation (l1 ++ v :: l2) (v :: l') /\ S (length l') = length (l1 ++ v :: l2) /\
    len b' = len b /\ n_committed b' = n_committed b /\ (forall i, i <> length l1 -> rd b' i = rd b i).
Proof.
  intros b l1 v l2 H. unfold swap_out.
  pose proof (holds_cap _ _ H) as Hc. rewrite app_length in Hc. simpl in Hc.
  destruct l2 as [|x l2] using rev_ind.
  - assert (R : rd b (length l1) = Some v) by (apply H; rewrite nth_error_app2, Nat.sub_diag by lia; auto).
    rewrite app_length. simpl. replace (length l1 + 1 - 1) with (length l1) by lia. rewrite R.
    destruct (wr_ok b (length l1) v) as [b' [W1 [W2 [W3 [W4 W5]]]]]; [lia|]. exists b', l1. split; auto.
    split; [|repeat split; auto; [symmetry; apply Permutation_cons_append|lia]].
    intros i y Hi. assert (i < length l1) by (apply nth_error_Some; congruence). rewrite W5 by lia. apply H. rewrite nth_error_app1; auto.
  - clear IHl2. set (l := l1 ++ v :: l2 ++ [x]) in *. assert (Hl : length l = length l1 + S (length l2 + 1)).
    { unfold l. rewrite app_length. simpl. rewrite app_length. simpl. lia. }
    assert (R : rd b (length l - 1) = Some x).
    { apply H. rewrite Hl. unfold l. rewrite nth_error_app2 by lia.
      replace (length l1 + S (length l2 + 1) - 1 - length l1) with (S (length l2)) by lia. simpl.
      rewrite nth_error_app2, Nat.sub_diag by lia. auto. }
    rewrite R. destruct (wr_ok b (length l1) x) as [b' [W1 [W2 [W3 [W4 W5]]]]]; [lia|].
    exists b', (l1 ++ x :: l2). split; auto. split.
    + intros i y Hi. destruct (Nat.lt_trichotomy i (length l1)) as [L|[L|L]].
      * rewrite W5 by lia. apply H. unfold l. rewrite nth_error_app1 in * by auto. auto.
      * subst i. rewrite nth_error_app2, Nat.sub_diag in Hi by lia. injection Hi as <-. auto.
      * rewrite W5 by lia. apply H. unfold l. rewrite nth_error_app2 in * by lia.
        destruct (i - length l1) as [|k] eqn:Z; [lia|]. simpl in *. rewrite nth_error_app1; auto.
        apply nth_error_Some. congruence.
    + split; [|repeat split; auto; rewrite Hl, app_length; simpl; lia].
      unfold l. transitivity (v :: l1 ++ l2 ++ [x]); [symmetry; apply Permutation_middle|]. apply perm_skip.
      apply Permutation_app_head. symmetry. apply Permutation_cons_append.
Qed.

Lemma copy_holds : forall b l, holds b l -> holds (copy_block b (length l)) l.
Proof.
  intros b l H i x Hi. assert (i < length l) by (apply nth_error_Some; congruence).
  unfold rd, in_cap, copy_block. cbn [len values]. destruct (N.ltb_spec (N.of_nat i) (N.of_nat (length l))); [|lia].
  destruct (Nat.ltb_spec i (length l)); [|lia]. auto.
Qed.

(** ** The invariant: [l] is the pending contents, [w] the published ones *)

Record Inv (a : array) (l w : list nat) : Prop := {
  I_cur : holds (current a) l;
  I_n : n_entries a = length l;
  I_act : holds (active a) w;
  I_c : n_committed (active a) = length w;
  I_len : (0 < len (current a))%N;
  I_le : transaction a = None -> length w <= length l }.

Lemma inv_visible : forall a l w, Inv a l w -> visible a = Some w.
Proof. intros a l w H. unfold visible. rewrite (I_c _ _ _ H). apply holds_read, (I_act _ _ _ H). Qed.

Lemma holds_committed : forall b n l, holds b l -> holds (set_committed b n) l.
Proof. auto. Qed.

Lemma inv_commit : forall a l w, Inv a l w -> Inv (ck_array_commit a) l l.
Proof.
  intros a l w [I1 I2 I3 I4 I5 I6]. unfold ck_array_commit, current in *.
  destruct (transaction a); constructor; simpl; auto.
Qed.

Lemma inv_scheduled : forall a l w, Inv a l w -> scheduled a = Some l.
Proof. intros a l w H. unfold scheduled. eapply inv_visible, inv_commit, H. Qed.

Lemma holds_keep : forall b b' w n, holds b w -> length w <= n -> (forall i, i < n -> rd b' i = rd b i) -> holds b' w.
Proof.
  intros b b' w n H Hn E i x Hi. assert (i < length w) by (apply nth_error_Some; congruence). rewrite E by lia. auto.
Qed.

Lemma put_ok : forall a l w v ok, Inv a l w -> (N.of_nat (length l) < 2 ^ 31)%N ->
  (exists a', ck_array_put a v ok = Some (a', match transaction a with None => true | Some _ => false end) /\
     Inv a' (l ++ [v]) w /\ (transaction a = None <-> transaction a' = None)) \/
  (ok = false /\ ck_array_put a v ok = Some (a, false)).
Proof.
  intros a l w v ok [I1 I2 I3 I4 I5 I6] Hs. unfold ck_array_put. unfold current in *. destruct (transaction a) as [t|] eqn:Et.
  - rewrite I2. destruct (put_block_ok t l v ok I1 I5 Hs) as [[b' [P1 [P2 [P3 [P4 P5]]]]]|[P1 P2]].
    + left. rewrite P1. eexists. split; [reflexivity|]. split; [|split; discriminate].
      constructor; simpl; auto; [rewrite app_length; simpl; lia|discriminate].
    + right. rewrite P2. auto.
  - rewrite I2. destruct (put_block_ok (active a) l v ok I1 I5 Hs) as [[b' [P1 [P2 [P3 [P4 P5]]]]]|[P1 P2]].
    + left. rewrite P1. eexists. split; [reflexivity|]. split; [|split; auto].
      constructor; simpl; auto.
      * rewrite app_length; simpl; lia.
      * apply (holds_keep (active a) b' w (length l)); auto.
      * lia.
      * intros _. rewrite app_length. specialize (I6 eq_refl). lia.
    + right. rewrite P2. auto.
Qed.

Lemma search_ok : forall a l w v, Inv a l w ->
  (search (current a) (n_entries a) 0 v = Some None /\ ~ In v l) \/
  (exists l1 l2, l = l1 ++ v :: l2 /\ search (current a) (n_entries a) 0 v = Some (Some (length l1)) /\ ~ In v l1).
Proof. intros a l w v [I1 I2 I3 I4 I5 I6]. rewrite I2. apply (search_holds l (current a) 0 v). exact I1. Qed.

Lemma putu_ok : forall a l w v ok, Inv a l w -> (N.of_nat (length l) < 2 ^ 31)%N ->
  (In v l /\ ck_array_put_unique a v ok = Some (a, U1)) \/
  (~ In v l /\ exists a', ck_array_put_unique a v ok = Some (a', match transaction a with None => U0 | Some _ => Um1 end) /\
     Inv a' (l ++ [v]) w /\ (transaction a = None <-> transaction a' = None)) \/
  (~ In v l /\ ok = false /\ ck_array_put_unique a v ok = Some (a, Um1)).
Proof.
  intros a l w v ok HI Hs. unfold ck_array_put_unique. destruct (search_ok a l w v HI) as [[S1 S2]|[l1 [l2 [S1 [S2 _]]]]].
  - rewrite S1. right. destruct (put_ok a l w v ok HI Hs) as [[a' [P1 P2]]|[P1 P2]].
    + left. split; auto. rewrite P1. exists a'. destruct (transaction a); auto.
    + right. rewrite P2. auto.
  - left. rewrite S2. split; auto. subst. apply in_elt.
Qed.

(** removal: [w'] is what readers see afterwards *)
Lemma remove_ok : forall a l w v ok, Inv a l w ->
  (~ In v l /\ ck_array_remove a v ok = Some (a, false)) \/
  (In v l /\ ok = false /\ ck_array_remove a v ok = Some (a, false)) \/
  (In v l /\ exists a' l' w', ck_array_remove a v ok = Some (a', true) /\ Inv a' l' w' /\ Permutation l (v :: l') /\
     (~ (transaction a = None /\ n_committed (active a) <> n_entries a) -> w' = w /\ transaction a' <> None)).
Proof.
  intros a l w v ok HI. pose proof HI as [I1 I2 I3 I4 I5 I6]. unfold ck_array_remove.
  destruct (search_ok a l w v HI) as [[S1 S2]|[l1 [l2 [S1 [S2 _]]]]].
  - rewrite S1. auto.
  - rewrite S2. right. assert (Hin : In v l) by (subst; apply in_elt).
    unfold current in *. destruct (transaction a) as [t|] eqn:Et.
    + right. split; auto. rewrite S1 in I1. destruct (swap_out_ok t l1 v l2 I1) as [b' [l' [O1 [O2 [O3 [O4 [O5 [O6 O7]]]]]]]].
      rewrite I2, S1, O1. eexists _, l', w. split; [reflexivity|]. split; [|split; [auto|intros _; split; [auto|discriminate]]].
      constructor; unfold current; simpl; auto; [lia|rewrite O5; auto|discriminate].
    + specialize (I6 eq_refl). destruct (Nat.eqb_spec (n_committed (active a)) (n_entries a)) as [E|E]; simpl.
      * destruct ok; [right|left; auto]. split; auto.
        pose proof (copy_holds _ _ I1) as C. rewrite S1 in C at 2.
        destruct (swap_out_ok (copy_block (active a) (length l)) l1 v l2 C) as [b' [l' [O1 [O2 [O3 [O4 [O5 [O6 O7]]]]]]]].
        rewrite I2. rewrite <- S1 in O1. rewrite O1. eexists _, l', w. split; [reflexivity|].
        split; [|split; [rewrite S1; auto|intros _; split; [auto|discriminate]]].
        constructor; unfold current; simpl; auto; [rewrite S1; lia|rewrite O5; simpl; rewrite S1, app_length; simpl; lia|discriminate].
      * right. split; auto. rewrite S1 in I1. destruct (swap_out_ok (active a) l1 v l2 I1) as [b' [l' [O1 [O2 [O3 [O4 [O5 [O6 O7]]]]]]]].
        rewrite I2, S1, O1. rewrite <- S1 in *.
        assert (Hlt : length w <= length l') by lia.
        eexists _, l', (firstn (length w) l'). split; [reflexivity|]. split; [|split; [auto|intros F; elim F; split; auto; lia]].
        constructor; unfold current; simpl; auto; try lia.
        -- intros i x Hi. apply O2. rewrite <- (firstn_skipn (length w) l'). rewrite nth_error_app1; auto. apply nth_error_Some. congruence.
        -- rewrite firstn_length. lia.

        -- intros _. rewrite firstn_length. lia.
Qed.

(** ** Histories *)

Lemma occ_app1 : forall l v, forall u, occ (l ++ [v]) u = add1 (occ l) v u.
Proof.
  intros. unfold occ, add1, upd. rewrite count_occ_app. simpl. destruct (Nat.eq_dec v u), (Nat.eq_dec u v); subst; try congruence; try lia.
Qed.
Lemma occ_del1 : forall l l' v, Permutation l (v :: l') -> forall u, occ l' u = del1 (occ l) v u.
Proof.
  intros l l' v H u. unfold occ, del1, upd. rewrite (Permutation_count_occ Nat.eq_dec) in H.
  pose proof (H u). pose proof (H v). simpl in *. destruct (Nat.eq_dec v v); [|congruence].
  destruct (Nat.eq_dec v u), (Nat.eq_dec u v); subst; try congruence; lia.
Qed.

Definition eqM (M M' : nat -> nat) : Prop := forall v, M v = M' v.
Lemma effect_ext : forall o M M', eqM M M' -> eqM (effect M o) (effect M' o).
Proof.
  intros o M M' H u. destruct o; simpl; auto.
  - unfold add1, upd. destruct (Nat.eq_dec u v); subst; rewrite H; auto.
  - rewrite H. destruct (Nat.eqb (M' v) 0); auto. unfold add1, upd. destruct (Nat.eq_dec u v); subst; rewrite H; auto.
  - unfold del1, upd. destruct (Nat.eq_dec u v); subst; rewrite H; auto.
Qed.
Lemma spec_run_ext : forall M os M' N, spec_run M os M' -> eqM M N -> exists N', spec_run N os N' /\ eqM M' N'.
Proof.
  intros M os M' N H. revert N. induction H; intros N HN.
  - exists N. split; auto. constructor.
  - destruct (IHspec_run (effect N o)) as [N' [A B]]; [apply effect_ext; auto|]. exists N'. split; auto. apply spec_do; auto.
  - destruct (IHspec_run N HN) as [N' [A B]]. exists N'. split; auto. apply spec_fail; auto.
Qed.

Lemma occ_in : forall l v, In v l -> occ l v <> 0.
Proof. intros l v H. apply (count_occ_In Nat.eq_dec) in H. unfold occ. lia. Qed.
Lemma occ_notin : forall l v, ~ In v l -> occ l v = 0.
Proof. intros l v H. apply (count_occ_not_In Nat.eq_dec) in H. auto. Qed.

Lemma exec_ok : forall a l w o, Inv a l w -> (N.of_nat (length l) < 2 ^ 31)%N ->
  exists a' r l' w', exec a o = Some (a', r) /\ Inv a' l' w' /\ length l' <= S (length l) /\
    (eqM (occ l') (effect (occ l) o) \/ alloc_ok o = false /\ l' = l).
Proof.
  intros a l w o HI Hs. destruct o as [v ok|v ok|v ok|].
  - simpl. destruct (put_ok a l w v ok HI Hs) as [[a' [P1 [P2 _]]]|[P1 P2]].
    + rewrite P1. eexists _, _, (l ++ [v]), w. split; [reflexivity|]. split; auto. split; [rewrite app_length; simpl; lia|].
      left. intros u. apply occ_app1.
    + rewrite P2. eexists _, _, l, w. split; [reflexivity|]. split; auto.
  - simpl. destruct (putu_ok a l w v ok HI Hs) as [[P0 P1]|[[P0 [a' [P1 [P2 _]]]]|[P0 [P1 P2]]]].
    + rewrite P1. eexists _, _, l, w. split; [reflexivity|]. split; auto. split; auto. left. intros u.
      apply occ_in in P0. destruct (Nat.eqb_spec (occ l v) 0); [congruence|auto].
    + rewrite P1. eexists _, _, (l ++ [v]), w. split; [reflexivity|]. split; auto. split; [rewrite app_length; simpl; lia|].
      left. intros u. rewrite (occ_notin l v) by auto. simpl. apply occ_app1.
    + rewrite P2. eexists _, _, l, w. split; [reflexivity|]. split; auto.
  - simpl. destruct (remove_ok a l w v ok HI) as [[P0 P1]|[[P0 [P1 P2]]|[P0 [a' [l' [w' [P1 [P2 [P3 _]]]]]]]]].
    + rewrite P1. eexists _, _, l, w. split; [reflexivity|]. split; auto. split; auto. left. intros u.
      unfold del1, upd. destruct (Nat.eq_dec u v); auto. subst. rewrite occ_notin; auto.
    + rewrite P2. eexists _, _, l, w. split; [reflexivity|]. split; auto.
    + rewrite P1. eexists _, _, l', w'. split; [reflexivity|]. split; auto. split.
      * apply Permutation_length in P3. simpl in P3. lia.
      * left. intros u. apply occ_del1; auto.
  - simpl. eexists _, _, l, l. split; [reflexivity|]. split; [eapply inv_commit; eauto|]. split; auto. left. intros u. auto.
Qed.

Lemma execs_ok : forall os a l w, Inv a l w -> (N.of_nat (length l + length os) < 2 ^ 31)%N ->
  exists a' l' w' M, execs a os = Some a' /\ Inv a' l' w' /\ length l' <= length l + length os /\ spec_run (occ l) os M /\ eqM (occ l') M.
Proof.
  induction os as [|o os IH]; intros a l w HI Hs; simpl.
  - exists a, l, w, (occ l). split; auto. split; auto. split; [lia|]. split; [constructor|intros u; auto].
  - simpl in Hs. destruct (exec_ok a l w o HI) as [a1 [r [l1 [w1 [E1 [E2 [E3 E4]]]]]]]; [lia|]. rewrite E1.
    destruct (IH a1 l1 w1 E2) as [a' [l' [w' [M [F1 [F2 [F3 [F4 F5]]]]]]]]; [lia|].
    destruct E4 as [E4|[E4 ->]].
    + destruct (spec_run_ext _ _ _ _ F4 E4) as [M' [G1 G2]]. exists a', l', w', M'. do 3 (split; [auto; try lia|]); split; [apply spec_do; auto|].
      intros u. rewrite F5. auto.
    + exists a', l', w', M. do 3 (split; [auto; try lia|]); split; [apply spec_fail; auto|auto].
Qed.

Lemma inv_init : forall length a, ck_array_init length true = Some a -> Inv a [] [].
Proof.
  intros len0 a H. unfold ck_array_init in H. destruct (N.eqb_spec len0 0); simpl in H; [discriminate|].
  injection H as <-. constructor; simpl; auto; try lia; intros i x Hi; destruct i; discriminate.
Qed.

Lemma execs_app : forall os1 os2 a, execs a (os1 ++ os2) = match execs a os1 with Some a => execs a os2 | None => None end.
Proof. induction os1; simpl; intros; auto. destruct (exec a0 a) as [[a1 r]|]; auto. Qed.

Lemma commit_publishes : forall cap a os, ck_array_init cap true = Some a -> (N.of_nat (length os) < 2 ^ 31)%N ->
  exists a' l M, execs a (os ++ [Commit]) = Some a' /\ visible a' = Some l /\ spec_run (fun _ => 0) os M /\ forall v, occ l v = M v.
Proof.
  intros cap a os Hi Hs. destruct (execs_ok os a [] [] (inv_init _ _ Hi)) as [a' [l' [w' [M [H1 [H2 [H3 [H4 H5]]]]]]]]; [simpl; auto|].
  rewrite execs_app, H1. simpl. exists (ck_array_commit a'), l', M. split; auto. split; [eapply inv_visible, inv_commit; eauto|]. split; auto.
Qed.

Lemma spec_run_det : forall M os M', spec_run M os M' -> (forall o, In o os -> alloc_ok o = true) -> M' = fold_left effect os M.
Proof.
  intros M os M' H. induction H; intros Hok; simpl; auto.
  - apply IHspec_run. intros. apply Hok. right; auto.
  - rewrite (Hok o) in H by (left; auto). discriminate.
Qed.

(** [reach a]: some history leads to [a] *)
Definition reach (a : array) : Prop := exists cap a0 os, ck_array_init cap true = Some a0 /\ execs a0 os = Some a /\ (N.of_nat (length os) < 2 ^ 31 - 1)%N.

Lemma reach_inv : forall a, reach a -> exists l w, Inv a l w /\ (N.of_nat (length l) < 2 ^ 31)%N.
Proof.
  intros a [cap [a0 [os [H1 [H2 H3]]]]]. destruct (execs_ok os a0 [] [] (inv_init _ _ H1)) as [a' [l' [w' [M [G1 [G2 [G3 _]]]]]]]; [simpl; lia|].
  rewrite H2 in G1. injection G1 as <-. exists l', w'. split; auto. simpl in G3. lia.
Qed.

Lemma put_reports : forall a v ok, reach a -> transaction a = None -> exists a' r l,
  ck_array_put a v ok = Some (a', r) /\ scheduled a = Some l /\
  if r then scheduled a' = Some (l ++ [v]) else ok = false /\ a' = a.
Proof.
  intros a v ok Hr Ht. destruct (reach_inv a Hr) as [l [w [HI Hs]]].
  destruct (put_ok a l w v ok HI Hs) as [[a' [P1 [P2 P3]]]|[P1 P2]].
  - rewrite Ht in P1. exists a', true, l. split; auto. split; [eapply inv_scheduled; eauto|]. eapply inv_scheduled; eauto.
  - exists a, false, l. split; auto. split; auto. eapply inv_scheduled; eauto.
Qed.

Lemma put_transaction : forall a v, reach a -> transaction a <> None -> exists a' l,
  ck_array_put a v true = Some (a', false) /\ scheduled a = Some l /\ scheduled a' = Some (l ++ [v]).
Proof.
  intros a v Hr Ht. destruct (reach_inv a Hr) as [l [w [HI Hs]]].
  destruct (put_ok a l w v true HI Hs) as [[a' [P1 [P2 P3]]]|[P1 P2]]; [|discriminate].
  destruct (transaction a); [|congruence]. exists a', l. split; auto. split; eapply inv_scheduled; eauto.
Qed.

Lemma putu_reports : forall a v ok, reach a -> transaction a = None -> exists a' r l,
  ck_array_put_unique a v ok = Some (a', r) /\ scheduled a = Some l /\
  match r with
  | U1 => In v l /\ a' = a
  | U0 => ~ In v l /\ scheduled a' = Some (l ++ [v])
  | Um1 => ~ In v l /\ ok = false /\ a' = a
  end.
Proof.
  intros a v ok Hr Ht. destruct (reach_inv a Hr) as [l [w [HI Hs]]].
  destruct (putu_ok a l w v ok HI Hs) as [[P0 P1]|[[P0 [a' [P1 [P2 P3]]]]|[P0 [P1 P2]]]].
  - exists a, U1, l. repeat split; auto. eapply inv_scheduled; eauto.
  - rewrite Ht in P1. exists a', U0, l. repeat split; auto; eapply inv_scheduled; eauto.
  - exists a, Um1, l. repeat split; auto. eapply inv_scheduled; eauto.
Qed.

Lemma remove_reports : forall a v ok, reach a -> exists a' r l,
  ck_array_remove a v ok = Some (a', r) /\ scheduled a = Some l /\
  if r then exists l', scheduled a' = Some l' /\ Permutation l (v :: l') else a' = a /\ (~ In v l \/ ok = false).
Proof.
  intros a v ok Hr. destruct (reach_inv a Hr) as [l [w [HI Hs]]].
  destruct (remove_ok a l w v ok HI) as [[P0 P1]|[[P0 [P1 P2]]|[P0 [a' [l' [w' [P1 [P2 [P3 _]]]]]]]]].
  - exists a, false, l. split; auto. split; [eapply inv_scheduled; eauto|]. auto.
  - exists a, false, l. split; auto. split; [eapply inv_scheduled; eauto|]. auto.
  - exists a', true, l. split; auto. split; [eapply inv_scheduled; eauto|]. exists l'. split; auto. eapply inv_scheduled; eauto.
Qed.

(** ** What readers see between commits *)

(** the one situation that leaks: removing while additions are pending *)
Definition leaky (a : array) (o : op) : Prop :=
  match o with Remove _ _ => transaction a = None /\ n_committed (active a) <> n_entries a | _ => False end.

Lemma step_visible : forall a o a' r, reach a -> o <> Commit -> ~ leaky a o -> exec a o = Some (a', r) -> visible a' = visible a.
Proof.
  intros a o a' r Hr Hc Hl He. destruct (reach_inv a Hr) as [l [w [HI Hs]]]. rewrite (inv_visible _ _ _ HI).
  destruct o as [v ok|v ok|v ok|]; [| | |congruence]; simpl in He, Hl.
  - destruct (put_ok a l w v ok HI Hs) as [[a1 [P1 [P2 _]]]|[P1 P2]].
    + rewrite P1 in He. injection He as <- <-. eapply inv_visible; eauto.
    + rewrite P2 in He. injection He as <- <-. eapply inv_visible; eauto.
  - destruct (putu_ok a l w v ok HI Hs) as [[P0 P1]|[[P0 [a1 [P1 [P2 _]]]]|[P0 [P1 P2]]]].
    + rewrite P1 in He. injection He as <- <-. eapply inv_visible; eauto.
    + rewrite P1 in He. injection He as <- <-. eapply inv_visible; eauto.
    + rewrite P2 in He. injection He as <- <-. eapply inv_visible; eauto.
  - destruct (remove_ok a l w v ok HI) as [[P0 P1]|[[P0 [P1 P2]]|[P0 [a1 [l' [w' [P1 [P2 [P3 P4]]]]]]]]].
    + rewrite P1 in He. injection He as <- <-. eapply inv_visible; eauto.
    + rewrite P2 in He. injection He as <- <-. eapply inv_visible; eauto.
    + rewrite P1 in He. injection He as <- <-. destruct (P4 Hl) as [-> _]. eapply inv_visible; eauto.
Qed.

Definition is_remove (o : op) : Prop := match o with Remove _ _ => True | _ => False end.
Definition is_put (o : op) : Prop := match o with Put _ _ | PutU _ _ => True | _ => False end.

Lemma removes_vis : forall rs a l w, Inv a l w -> (transaction a = None -> n_committed (active a) = n_entries a) -> Forall is_remove rs ->
  exists a' l', execs a rs = Some a' /\ Inv a' l' w /\ length l' <= length l.
Proof.
  induction rs as [|o rs IH]; intros a l w HI Ht HF; simpl; [exists a, l; auto|].
  inversion HF as [|? ? F1 F2]; subst. destruct o as [v ok|v ok|v ok|]; try contradiction. simpl.
  destruct (remove_ok a l w v ok HI) as [[P0 P1]|[[P0 [P1 P2]]|[P0 [a1 [l' [w' [P1 [P2 [P3 P4]]]]]]]]].
  - rewrite P1. eapply IH; eauto.
  - rewrite P2. eapply IH; eauto.
  - rewrite P1. destruct P4 as [-> P4]; [intros [A B]; auto|].
    destruct (IH a1 l' w P2) as [a' [l2 [Q1 [Q2 Q3]]]]; auto; [intros; congruence|].
    exists a', l2. split; auto. split; auto. apply Permutation_length in P3. simpl in P3. lia.
Qed.

Lemma puts_vis : forall ps a l w, Inv a l w -> (N.of_nat (length l + length ps) < 2 ^ 31)%N -> Forall is_put ps ->
  exists a' l', execs a ps = Some a' /\ Inv a' l' w.
Proof.
  induction ps as [|o ps IH]; intros a l w HI Hs HF; simpl; [exists a, l; auto|].
  simpl in Hs. inversion HF as [|? ? F1 F2]; subst. assert (Hs' : (N.of_nat (length l) < 2 ^ 31)%N) by lia.
  destruct o as [v ok|v ok|v ok|]; try contradiction; simpl.
  - destruct (put_ok a l w v ok HI Hs') as [[a1 [P1 [P2 _]]]|[P1 P2]].
    + rewrite P1. apply (IH a1 (l ++ [v])); auto. rewrite app_length. simpl. lia.
    + rewrite P2. apply (IH a l); auto. lia.
  - destruct (putu_ok a l w v ok HI Hs') as [[P0 P1]|[[P0 [a1 [P1 [P2 _]]]]|[P0 [P1 P2]]]].
    + rewrite P1. apply (IH a l); auto. lia.
    + rewrite P1. apply (IH a1 (l ++ [v])); auto. rewrite app_length. simpl. lia.
    + rewrite P2. apply (IH a l); auto. lia.
Qed.

Lemma isolation : forall cap a0 os rs ps, ck_array_init cap true = Some a0 -> (N.of_nat (length os + length rs + length ps) < 2 ^ 31)%N ->
  Forall is_remove rs -> Forall is_put ps ->
  exists a a', execs a0 (os ++ [Commit]) = Some a /\ execs a (rs ++ ps) = Some a' /\ visible a' = visible a /\ visible a <> None.
Proof.
  intros cap a0 os rs ps Hi Hs HR HP.
  destruct (execs_ok os a0 [] [] (inv_init _ _ Hi)) as [a1 [l [w [M [H1 [H2 [H3 _]]]]]]]; [simpl; lia|]. simpl in H3.
  pose proof (inv_commit _ _ _ H2) as HC.
  assert (Ht : transaction (ck_array_commit a1) = None) by (unfold ck_array_commit; destruct (transaction a1); auto).
  destruct (removes_vis rs _ _ _ HC) as [a2 [l2 [R1 [R2 R3]]]]; auto.
  { intros _. rewrite (I_c _ _ _ HC), (I_n _ _ _ HC). auto. }
  destruct (puts_vis ps _ _ _ R2) as [a3 [l3 [P1 P2]]]; auto; [lia|].
  exists (ck_array_commit a1), a3. rewrite !execs_app, H1, R1. simpl. split; auto. split; auto.
  rewrite (inv_visible _ _ _ P2), (inv_visible _ _ _ HC). split; auto. discriminate.
Qed.
