From Coq Require Import Arith List ZArith Bool Lia ZifyBool ZifyNat.
From Verif Require Import Lib LockSpec SpinDec_Model.
Import ListNotations.
Local Open Scope Z_scope.

Lemma W_val : W = 4294967296. Proof. reflexivity. Qed.

Definition isload (p : pc) : bool := match p with LkLoad => true | _ => false end.
Definition nload (n : nat) (f : nat -> pc) : nat := cnt (fun t => isload (f t)) n.

Lemma nload_upd : forall n f t p, (t < n)%nat ->
  (nload n (upd f t p) + (if isload (f t) then 1 else 0)
   = nload n f + (if isload p then 1 else 0))%nat.
Proof.
  intros. unfold nload.
  pose proof (cnt_change (fun x => isload (f x)) (fun x => isload (upd f t p x)) n t H) as C.
  simpl in C. rewrite upd_same in C. apply C. intros. rewrite upd_other; auto.
Qed.

Definition R (n : nat) (s : state) (h : option nat) : Prop :=
  match h with
  | None => value s = 1 /\ forall t, thr s t <> Crit
  | Some u => (u < n)%nat /\ thr s u = Crit /\ (forall t, thr s t = Crit -> t = u) /\
      exists k, value s = (- k) mod W /\ 0 <= k <= Z.of_nat (nload n (thr s))
  end.

Lemma R_value : forall n s u, Z.of_nat n < W -> R n s (Some u) -> value s <> 1 /\ 0 <= value s < W.
Proof.
  intros n s u Hn [Hu [Hc [Hall [k [Hv Hk]]]]].
  assert ((nload n (thr s) < n)%nat).
  { apply cnt_strict with (k := u); auto. rewrite Hc. auto. }
  rewrite W_val in *.
  destruct (Z.eq_dec k 0).
  - subst k. simpl in Hv. rewrite Z.mod_0_l in Hv by lia. lia.
  - assert (value s = 4294967296 - k).
    { rewrite Hv. symmetry. apply Z.mod_unique with (q := -1); lia. }
    lia.
Qed.

Lemma R_step : forall n s h l s' ev, Z.of_nat n < W -> R n s h -> step n s l = Some (s', ev) ->
  exists h', accepts lock_step h ev = Some h' /\ R n s' h'.
Proof.
  intros n s h [t a] s' ev Hn HR H. unfold step in H.
  destruct (Nat.ltb t n) eqn:Hlt; simpl in H; [|discriminate]. apply Nat.ltb_lt in Hlt.
  destruct h as [u|].
  - destruct (R_value _ _ _ Hn HR) as [Hv1 Hvr]. destruct HR as [Hu [Hc [Hall [k [Hv Hk]]]]].
    assert (E1 : Z.eqb (value s) 1 = false) by (apply Z.eqb_neq; auto). rewrite E1 in H.
    destruct (thr s t) eqn:Ht, a; try discriminate.
    + (* lock entry *)
      inversion H; subst; clear H. exists (Some u). split; auto. simpl. unfold goto; simpl.
      assert (t <> u) by congruence. rewrite upd_other by auto. repeat split; auto.
      * intros x Hx. upd_cases; auto; discriminate.
      * exists k. pose proof (nload_upd n (thr s) t LkDec Hlt). rewrite Ht in H0. simpl in H0.
        split; auto. lia.
    + (* trylock fails *)
      inversion H; subst; clear H. exists (Some u). split; auto. simpl. repeat split; auto.
      exists 0. split; [reflexivity|]. lia.
    + (* locked, idle *)
      inversion H; subst; clear H. exists (Some u). split; auto. repeat split; auto. eauto.
    + (* decrement: cannot acquire *)
      assert (t <> u) by congruence.
      assert (Hnz : Z.eqb ((value s - 1) mod W) 0 = false).
      { apply Z.eqb_neq. rewrite W_val in *. destruct (Z.eq_dec (value s) 0).
        - rewrite e. cbv. discriminate.
        - rewrite Z.mod_small by lia. lia. }
      cbv zeta in H. rewrite Hnz in H. inversion H; subst; clear H. exists (Some u). split; auto. simpl.
      rewrite upd_other by auto. repeat split; auto.
      * intros x Hx. upd_cases; auto; discriminate.
      * exists (k + 1). pose proof (nload_upd n (thr s) t LkLoad Hlt). rewrite Ht in H. simpl in H.
        split; [|lia]. rewrite Hv. rewrite Zminus_mod_idemp_l. f_equal. lia.
    + (* load: keeps waiting *)
      inversion H; subst; clear H. exists (Some u). split; auto. unfold goto; simpl.
      assert (t <> u) by congruence. rewrite upd_other by auto. repeat split; auto.
      * intros x Hx. upd_cases; auto; discriminate.
      * exists k. pose proof (nload_upd n (thr s) t LkLoad Hlt). rewrite Ht in H0. simpl in H0.
        split; auto. lia.
    + (* unlock *)
      assert (t = u) by auto. subst t. inversion H; subst; clear H. exists None. simpl.
      rewrite Nat.eqb_refl. split; auto. split; auto. intros x Hx. upd_cases; try discriminate. apply Hall in Hx. contradiction.
    + (* locked by holder *)
      inversion H; subst; clear H. exists (Some u). split; auto. repeat split; auto. eauto.
  - destruct HR as [Hv Hall]. rewrite Hv in *.
    destruct (thr s t) eqn:Ht, a; simpl in H; try discriminate; try (exfalso; eapply Hall; eauto; fail);
      inversion H; subst; clear H; eexists; (split; [reflexivity|]); simpl;
      try (split; auto; intros x; upd_cases; auto; congruence).
    + rewrite upd_same. repeat split; auto.
      * intros x Hx. upd_cases; auto. exfalso; eapply Hall; eauto.
      * exists 0. split; [reflexivity|]. lia.
    + rewrite upd_same. repeat split; auto.
      * intros x Hx. upd_cases; auto. exfalso; eapply Hall; eauto.
      * exists 0. split; [reflexivity|]. lia.
Qed.

Lemma R_init : forall n, R n init None.
Proof. simpl. split; auto. congruence. Qed.

Lemma dec_refines : forall n ls s log, Z.of_nat n < W ->
  run (step n) init ls = Some (s, log) -> lock_legal log.
Proof.
  intros n ls s log Hn H.
  destruct (run_refines (step n) lock_step (R n) init None (R_init n)
              (fun s a l s' ev => R_step n s a l s' ev Hn) _ _ _ H) as [h [? _]].
  exists h; auto.
Qed.

Lemma dec_reach_R : forall n s, Z.of_nat n < W -> reachable (step n) init s -> exists h, R n s h.
Proof.
  intros n s Hn [ls [log H]].
  destruct (run_refines (step n) lock_step (R n) init None (R_init n)
              (fun s a l s' ev => R_step n s a l s' ev Hn) _ _ _ H) as [h [_ ?]]. eauto.
Qed.

Lemma free_acquire : forall n s t, (t < n)%nat -> value s = 1 -> waiting s t = true ->
  exists ls s' log, run (step n) s ls = Some (s', log) /\ In (Acq t) log.
Proof.
  intros n s t Hlt H H0. apply Nat.ltb_lt in Hlt. unfold waiting in H0.
  destruct (thr s t) eqn:Ht; try discriminate.
  - exists [(t, ATick)]. simpl. rewrite Hlt, Ht, H. simpl. eexists _, _. split; [reflexivity|]. simpl; auto.
  - exists [(t, ATick); (t, ATick)]. simpl. rewrite Hlt, Ht, H. simpl. rewrite upd_same.
    rewrite H. simpl. eexists _, _. split; [reflexivity|]. simpl; auto.
Qed.

Lemma dec_progress : forall n s t, Z.of_nat n < W -> (t < n)%nat ->
  reachable (step n) init s -> waiting s t = true ->
  exists ls s' log, run (step n) s ls = Some (s', log) /\ In (Acq t) log.
Proof.
  intros n s t Hn Ht Hr Hw. destruct (dec_reach_R _ _ Hn Hr) as [[u|] HR].
  - destruct HR as [Hu [Hc _]].
    assert (Hs : step n s (u, AUnlock) = Some (mk 1 (upd (thr s) u Idle), [Rel u])).
    { unfold step. apply Nat.ltb_lt in Hu. rewrite Hu, Hc. auto. }
    destruct (free_acquire n (mk 1 (upd (thr s) u Idle)) t) as [ls [s' [log [Hrun Hin]]]]; auto.
    { unfold waiting in *. simpl. unfold upd. destruct (Nat.eq_dec t u); subst; auto.
      rewrite Hc in Hw. discriminate. }
    exists ((u, AUnlock) :: ls), s', ([Rel u] ++ log). split; [eapply run_cons; eauto|]. apply in_or_app; auto.
  - destruct HR. apply free_acquire; auto.
Qed.

(** ** The bound is tight: with 2^32 threads exclusion fails. *)

Lemma many_decs : forall k n s, (k < n)%nat -> Z.of_nat k < W ->
  value s = 0 -> thr s 0%nat = Crit -> (forall t, t <> 0%nat -> thr s t = Idle) ->
  exists ls s', run (step n) s ls = Some (s', []) /\ value s' = (- Z.of_nat k) mod W /\
    thr s' 0%nat = Crit /\ (forall t, (0 < t <= k)%nat -> thr s' t = LkLoad) /\
    (forall t, (k < t)%nat -> thr s' t = Idle).
Proof.
  induction k; intros n s Hk HW Hv H0 Hi.
  - exists [], s. simpl. repeat split; auto; intros; try lia. apply Hi; lia.
  - destruct (IHk n s) as [ls [s1 [Hr [Hv1 [Hc [Hl Hid]]]]]]; auto; try lia.
    exists (ls ++ [(S k, ALock); (S k, ATick)]).
    assert (Hlt : Nat.ltb (S k) n = true) by (apply Nat.ltb_lt; auto).
    assert (S1 : step n s1 (S k, ALock) = Some (goto s1 (S k) LkDec, [])).
    { unfold step. rewrite Hlt, Hid by lia. auto. }
    assert (Hnz : (value s1 - 1) mod W = (- Z.of_nat (S k)) mod W).
    { rewrite Hv1, Zminus_mod_idemp_l. f_equal. lia. }
    assert (S2 : step n (goto s1 (S k) LkDec) (S k, ATick) =
      Some (mk ((- Z.of_nat (S k)) mod W) (upd (upd (thr s1) (S k) LkDec) (S k) LkLoad), [])).
    { unfold step. rewrite Hlt. unfold goto; cbn [thr value]. rewrite upd_same. cbv zeta. cbn [negb].
      rewrite Hnz. replace (Z.eqb ((- Z.of_nat (S k)) mod W) 0) with false; auto.
      symmetry. apply Z.eqb_neq. rewrite W_val in *.
      replace ((- Z.of_nat (S k)) mod 4294967296) with (4294967296 - Z.of_nat (S k)); [lia|].
      apply Z.mod_unique with (q := -1); lia. }
    eexists. split.
    { change (@nil lev) with ([] ++ @nil lev). eapply run_app; eauto.
      change (@nil lev) with ([] ++ [] ++ @nil lev). eapply run_cons; eauto. eapply run_cons; eauto. reflexivity. }
    cbn [thr value]. repeat split; auto.
    + intros. upd_goal; auto. apply Hl. lia.
    + intros. upd_goal; auto; try lia. apply Hid. lia.
Qed.

Lemma run1 : forall n s l s' e, step n s l = Some (s', e) -> run (step n) s [l] = Some (s', e).
Proof. intros. simpl. unfold step in *. rewrite H. rewrite app_nil_r. auto. Qed.

Lemma dec_too_many : exists n ls s log,
  Z.of_nat n = W /\ run (step n) init ls = Some (s, log) /\ ~ lock_legal log.
Proof.
  set (n := Z.to_nat W).
  assert (Hn : Z.of_nat n = W) by (subst n; apply Z2Nat.id; rewrite W_val; lia).
  assert (Hpos : (1 < n)%nat) by (rewrite W_val in Hn; lia).
  assert (Hlt0 : Nat.ltb 0 n = true) by (apply Nat.ltb_lt; lia).
  assert (Hlt1 : Nat.ltb 1 n = true) by (apply Nat.ltb_lt; lia).
  clearbody n.
  set (s0 := mk 0 (upd (thr init) 0%nat Crit)).
  assert (T0 : step n init (0%nat, ATry) = Some (s0, [Acq 0])).
  { unfold step. rewrite Hlt0. reflexivity. }
  destruct (many_decs (n - 1) n s0) as [ls [s1 [Hr [Hv [Hc [Hl _]]]]]]; auto; try lia.
  { intros t Ht. unfold s0; cbn [thr]. rewrite upd_other; auto. }
  assert (Hv1 : value s1 = 1).
  { rewrite Hv. symmetry. rewrite W_val in *. apply Z.mod_unique with (q := -1); lia. }
  assert (T1 : step n s1 (1%nat, ATick) = Some (goto s1 1 LkDec, [])).
  { unfold step. rewrite Hlt1, Hl by lia. rewrite Hv1. auto. }
  assert (T2 : step n (goto s1 1 LkDec) (1%nat, ATick) =
    Some (mk 0 (upd (upd (thr s1) 1%nat LkDec) 1%nat Crit), [Acq 1])).
  { unfold step. rewrite Hlt1. unfold goto; cbn [thr value]. rewrite upd_same, Hv1. reflexivity. }
  exists n, ((0%nat, ATry) :: ls ++ [(1%nat, ATick); (1%nat, ATick)]).
  exists (mk 0 (upd (upd (thr s1) 1%nat LkDec) 1%nat Crit)), [Acq 0; Acq 1].
  split; auto. split.
  - change [Acq 0; Acq 1] with ([Acq 0] ++ [] ++ [] ++ [Acq 1]).
    eapply run_cons; eauto. eapply run_app; eauto. eapply run_cons; eauto. apply run1; auto.
  - intros [h Hh]. simpl in Hh. discriminate.
Qed.
