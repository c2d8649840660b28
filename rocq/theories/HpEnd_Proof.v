(** Proofs about hazard pointers, part 5: statements over the log, and what re-entrant
    destructors and 2^32 pending objects do. *)
From Coq Require Import NArith Arith List Bool Lia.
From Verif Require Import Lib Obs Hp_Model Hp_Spec Hp_Proof HpPend_Proof HpOnce_Proof HpSafe_Proof.
Import ListNotations.

(** ** Protection over the log *)
Lemma keeps_slot : forall g e r i p, keeps e r i = true -> g_slot g r i = Some p -> g_slot (gnext g e) r i = Some p.
Proof.
  intros g e r i p K S. destruct e; cbn in *; auto; unfold upd;
    try (destruct (Nat.eq_dec r r0) as [->|]; auto; rewrite Nat.eqb_refl in K; discriminate).
  destruct (Nat.eq_dec r r0) as [->|]; auto. destruct (Nat.eq_dec i i0) as [->|]; auto. rewrite !Nat.eqb_refl in K. discriminate.
Qed.
Lemma keeps_sets : forall e r i, keeps e r i = true -> sets e r i = false.
Proof. destruct e; cbn; auto. intros. destruct (Nat.eqb r r0) eqn:A, (Nat.eqb i i0) eqn:B; cbn in *; try discriminate; rewrite ?(Nat.eqb_sym r0), ?A, ?(Nat.eqb_sym i0), ?B; auto. Qed.
Lemma keeps_slots : forall b g r i p, forallb (fun e => keeps e r i) b = true -> g_slot g r i = Some p -> g_slot (gf b g) r i = Some p.
Proof.
  induction b as [|e b IH]; cbn; intros g r i p K S; auto. apply andb_true_iff in K. destruct K. apply IH; auto. apply keeps_slot; auto.
Qed.
Lemma keeps_prot : forall b g r i p, forallb (fun e => keeps e r i) b = true -> g_slot g r i = Some p -> g_prot g r i = true -> g_prot (gf b g) r i = true.
Proof.
  induction b as [|e b IH]; cbn; intros g r i p K S P; auto. apply andb_true_iff in K. destruct K as [K1 K2].
  pose proof (keeps_slot g e r i p K1 S) as S'. eapply IH; eauto. cbn. unfold prot'. cbn in S'. rewrite S', P, (keeps_sets _ _ _ K1). reflexivity.
Qed.
Lemma prot_now : forall g e r i p, g_slot (gnext g e) r i = Some p -> retired (g_out (gnext g e)) p = false -> g_prot (gnext g e) r i = true.
Proof. intros g e r i p S R. cbn [gnext g_slot g_out g_prot] in *. unfold prot'. rewrite S, R. apply orb_true_r. Qed.
Lemma hp_protected : forall c, reent c = false -> forall ls s log, run (step c) init ls = Some (s, log) ->
  forall a t r i p b1 b2 u r' h d rest, log = a ++ ESet t r i p :: b1 ++ b2 ++ EDes u r' h d :: rest ->
  p <> 0 -> forallb (fun e => keeps e r i) (b1 ++ b2) = true -> ~ In p (map q_p (pending_after (a ++ ESet t r i p :: b1))) ->
  forall x, In x (pending_after (a ++ ESet t r i p :: b1 ++ b2)) -> q_h x = h -> q_r x = r' -> q_d x = d -> q_p x <> p.
Proof.
  intros c Hr ls s log H a t r i p b1 b2 u r' h d rest -> Np K NR x X <- <- <- Q.
  pose proof (hp_safe c Hr ls s _ H) as L. replace (a ++ ESet t r i p :: b1 ++ b2 ++ EDes u (q_r x) (q_h x) (q_d x) :: rest) with ((a ++ ESet t r i p :: b1 ++ b2) ++ EDes u (q_r x) (q_h x) (q_d x) :: rest) in L
    by (rewrite <- app_assoc; cbn; rewrite <- app_assoc; auto).
  apply legal_at in L. cbn [safe_ok] in L. rewrite forallb_app in K. apply andb_true_iff in K. destruct K as [K1 K2].
  set (g1 := gf (a ++ ESet t r i p :: b1) gs0).
  assert (E : gf (a ++ ESet t r i p :: b1 ++ b2) gs0 = gf b2 g1).
  { unfold g1. rewrite <- gfold_app. f_equal. rewrite <- app_assoc. auto. }
  assert (S1 : g_slot g1 r i = Some p).
  { unfold g1. rewrite gfold_app. cbn [gfold fold_left]. apply (keeps_slots b1 (gnext (gf a gs0) (ESet t r i p))); auto. cbn. rewrite !upd_same. auto. }
  assert (R1 : retired (g_out g1) p = false).
  { destruct (retired (g_out g1) p) eqn:R; auto. exfalso. apply NR. unfold retired in R. apply existsb_exists in R. destruct R as [z [Z1 Z2]]. apply Nat.eqb_eq in Z2.
    apply in_map_iff. exists z. split; [exact Z2|exact Z1]. }
  assert (P1 : g_prot g1 r i = true).
  { unfold g1 in *. destruct b1 as [|e b1 _] using rev_ind.
    - rewrite gfold_app in *. cbn [gfold fold_left] in *. eapply prot_now; eauto.
    - rewrite app_comm_cons, app_assoc in *. rewrite gfold_app in *. cbn [gfold fold_left] in *. eapply prot_now; eauto. }
  rewrite E in L. apply (L r i p Np); [eapply keeps_prot; eauto|apply keeps_slots; auto|].
  unfold pending_after in X. rewrite E in X. rewrite <- Q. destruct x as [[[? ?] ?] ?]. exact X.
Qed.

(** ** Exactly once over the log *)
Definition has (h : nat) (l : list ret) : nat := if in_dec Nat.eq_dec h (map q_h l) then 1 else 0.
Lemma has_cons : forall h x l, ~ In (q_h x) (map q_h l) -> has h (x :: l) = (if Nat.eqb (q_h x) h then 1 else 0) + has h l.
Proof.
  intros h x l N. unfold has. cbn [map]. destruct (in_dec Nat.eq_dec h (q_h x :: map q_h l)) as [I|I], (in_dec Nat.eq_dec h (map q_h l)) as [J|J], (Nat.eqb (q_h x) h) eqn:E; cbn in I; auto;
    rewrite ?Nat.eqb_eq, ?Nat.eqb_neq in E; subst; tauto.
Qed.
Lemma has_filter : forall h f l, has h (filter f l) <= has h l.
Proof.
  intros h f l. unfold has. destruct (in_dec Nat.eq_dec h (map q_h (filter f l))) as [I|I]; [|lia].
  destruct (in_dec Nat.eq_dec h (map q_h l)) as [J|J]; [lia|]. exfalso. apply J. apply in_map_iff in I. destruct I as [x [E I]]. apply filter_In in I. rewrite <- E. apply in_map. tauto.
Qed.
Lemma has_des : forall h l, has h (filter (fun x => negb (Nat.eqb (q_h x) h)) l) = 0.
Proof.
  intros. unfold has. destruct (in_dec Nat.eq_dec h _) as [I|I]; auto. apply in_map_iff in I. destruct I as [x [E I]]. apply filter_In in I.
  destruct I as [_ I]. rewrite E, Nat.eqb_refl in I. discriminate.
Qed.
Lemma once_count : forall h log g, legal_from gnext (fun g e => once_ok g e /\ excl_ok g e) g log ->
  n_des h log + has h (g_out (gf log g)) <= n_ret h log + has h (g_out g).
Proof.
  intros h. induction log as [|e log IH]; intros g; cbn [legal_from]; [cbn; lia|]. intros [[O X] L]. specialize (IH _ L). cbn [gfold fold_left] in *.
  change (fold_left gnext log (gnext g e)) with (gf log (gnext g e)) in *.
  assert (Q : n_des h (e :: log) = (match e with EDes _ _ h' _ => if Nat.eqb h' h then 1 else 0 | _ => 0 end) + n_des h log) by (destruct e; cbn; auto; destruct (Nat.eqb _ _); auto).
  assert (Q2 : n_ret h (e :: log) = (match e with ERet _ _ h' _ _ => if Nat.eqb h' h then 1 else 0 | _ => 0 end) + n_ret h log) by (destruct e; cbn; auto; destruct (Nat.eqb _ _); auto).
  rewrite Q, Q2. destruct e; cbn [gnext g_out out'] in IH; try lia.
  - pose proof (has_filter h (fun x => negb (Nat.eqb (q_r x) r)) (g_out g)). lia.
  - destruct X as [_ X]. rewrite has_cons in IH by exact X. change (q_h (r, h0, d, p)) with h0 in IH. lia.
  - destruct (Nat.eqb h0 h) eqn:E.
    + apply Nat.eqb_eq in E. subst. rewrite has_des in IH. destruct O as [p O]. assert (has h (g_out g) = 1); [|lia]. unfold has. destruct (in_dec Nat.eq_dec h _) as [I|I]; auto.
      exfalso. apply I. apply in_map_iff. exists (r, h, d, p). auto.
    + pose proof (has_filter h (fun x => negb (Nat.eqb (q_h x) h0)) (g_out g)). lia.
Qed.
Lemma has_other : forall h h0 l, h0 <> h -> has h (filter (fun x => negb (Nat.eqb (q_h x) h0)) l) = has h l.
Proof.
  intros h h0 l N. unfold has. destruct (in_dec Nat.eq_dec h (map q_h (filter _ l))) as [I|I], (in_dec Nat.eq_dec h (map q_h l)) as [J|J]; auto; exfalso.
  - apply J. apply in_map_iff in I. destruct I as [x [E I]]. apply filter_In in I. rewrite <- E. apply in_map. tauto.
  - apply I. apply in_map_iff in J. destruct J as [x [E J]]. rewrite <- E. apply in_map. apply filter_In. split; auto. apply negb_true_iff, Nat.eqb_neq. congruence.
Qed.
Lemma once_exact : forall h log g, forallb no_unr log = true -> legal_from gnext (fun g e => once_ok g e /\ excl_ok g e) g log ->
  n_des h log + has h (g_out (gf log g)) = n_ret h log + has h (g_out g).
Proof.
  intros h. induction log as [|e log IH]; intros g; cbn [legal_from forallb]; [cbn; lia|]. intros U [[O X] L]. apply andb_true_iff in U. destruct U as [U U'].
  specialize (IH _ U' L). cbn [gfold fold_left] in *.
  change (fold_left gnext log (gnext g e)) with (gf log (gnext g e)) in *.
  assert (Q : n_des h (e :: log) = (match e with EDes _ _ h' _ => if Nat.eqb h' h then 1 else 0 | _ => 0 end) + n_des h log) by (destruct e; cbn; auto; destruct (Nat.eqb _ _); auto).
  assert (Q2 : n_ret h (e :: log) = (match e with ERet _ _ h' _ _ => if Nat.eqb h' h then 1 else 0 | _ => 0 end) + n_ret h log) by (destruct e; cbn; auto; destruct (Nat.eqb _ _); auto).
  rewrite Q, Q2. destruct e; cbn [gnext g_out out'] in IH; try lia; try discriminate U.
  - destruct X as [_ X]. rewrite has_cons in IH by exact X. change (q_h (r, h0, d, p)) with h0 in IH. lia.
  - destruct (Nat.eqb h0 h) eqn:E.
    + apply Nat.eqb_eq in E. subst. rewrite has_des in IH. destruct O as [p O]. assert (has h (g_out g) = 1); [|lia]. unfold has. destruct (in_dec Nat.eq_dec h _) as [I|I]; auto.
      exfalso. apply I. apply in_map_iff. exists (r, h, d, p). auto.
    + apply Nat.eqb_neq in E. rewrite has_other in IH by auto. lia.
Qed.
Lemma hp_count : forall c, reent c = false -> forall ls s log, run (step c) init ls = Some (s, log) -> forall h,
  n_des h log <= n_ret h log /\ n_ret h log = n_des h log + (if in_dec Nat.eq_dec h (map q_h (pending_after log)) then 1 else 0) \/ forallb no_unr log = false /\ n_des h log <= n_ret h log.
Proof.
  intros c Hr ls s log H h. destruct (hp_run c Hr ls s log H) as [L _].
  assert (L' : legal_from gnext (fun g e => once_ok g e /\ excl_ok g e) gs0 log) by (eapply legal_imp; [|apply L]; intros g e [_ Y]; auto).
  pose proof (once_count h log gs0 L') as X. change (has h (g_out gs0)) with 0 in X. destruct (forallb no_unr log) eqn:U.
  - left. pose proof (once_exact h log gs0 U L') as Y. change (has h (g_out gs0)) with 0 in Y. unfold has in *. unfold pending_after. split; lia.
  - right. split; auto. lia.
Qed.
Lemma hp_at_most_once : forall c, reent c = false -> forall ls s log, run (step c) init ls = Some (s, log) -> forall h, n_des h log <= n_ret h log.
Proof. intros c Hr ls s log H h. destruct (hp_count c Hr ls s log H h); tauto. Qed.
Lemma hp_accounted : forall c, reent c = false -> forall ls s log, run (step c) init ls = Some (s, log) -> forallb no_unr log = true -> forall h,
  n_ret h log = n_des h log + (if in_dec Nat.eq_dec h (map q_h (pending_after log)) then 1 else 0).
Proof. intros c Hr ls s log H U h. destruct (hp_count c Hr ls s log H h) as [[_ X]|[X _]]; [auto|congruence]. Qed.

(** ** What is pending is on the record's list *)
Lemma hp_list : forall c, reent c = false -> forall ls s log, run (step c) init ls = Some (s, log) ->
  forall r t, own s r = Some t -> pcs s t = Idle ->
  exists L, chainp (pnext s) (pfirst s r) L /\ L = map q_h (filter (fun x => Nat.eqb (q_r x) r) (pending_after log)) /\
            (forall x, In x (pending_after log) -> q_r x = r -> hptr s (q_h x) = q_p x /\ hdat s (q_h x) = q_d x) /\
            npend s r = (N.of_nat (length L) mod 4294967296)%N.
Proof.
  intros c Hr ls s log H r t O P. destruct (hp_run c Hr ls s log H) as [_ [A [B _]]].
  pose proof (b_rec s _ B r t O) as R. pose proof (b_cnt s _ B r t O) as C. rewrite P in *. unfold adjr, PR, ouse in *. cbn in R, C.
  destruct R as [R1 R2]. eexists. split; [|split; [reflexivity|split]].
  - clear -R1. unfold pending_after. fold (pend_of (gf log gs0) r). revert R1. generalize (pfirst s r). induction (pend_of (gf log gs0) r) as [|x l IH]; cbn; intros a Q; auto.
  - intros x X Q. apply R2. apply pend_in. auto.
  - rewrite C, Nat.sub_0_r. unfold pending_after, W32. fold (pend_of (gf log gs0) r). rewrite map_length. auto.
Qed.
Lemma hp_purge : forall c, reent c = false -> forall ls s log, run (step c) init ls = Some (s, log) ->
  forall a t r b, log = a ++ EPur t r :: b -> (N.of_nat (length (pending_after a)) < 4294967296)%N ->
  forall x, In x (pending_after a) -> q_r x <> r.
Proof.
  intros c Hr ls s log H a t r b -> B x X Q. pose proof (hp_once c Hr ls s _ H) as L. apply legal_at in L. cbn [once_ok] in L. unfold pending_after in *.
  assert (length (pend_of (gf a gs0) r) <= length (g_out (gf a gs0))) by (unfold pend_of; clear; induction (g_out (gf a gs0)) as [|z l IH]; cbn; auto; destruct (Nat.eqb _ _); cbn; lia).
  rewrite N.mod_small in L by lia. assert (Y : In x (pend_of (gf a gs0) r)) by (apply pend_in; auto). destruct (pend_of (gf a gs0) r); [contradiction|]. cbn in L. lia.
Qed.

(** ** A destructor that retires to the record being reclaimed *)
Definition retire6 (r h d p : nat) : list (nat * act) := (0, ARetire r h d p) :: repeat (0, ATau) 5.
Definition reg1 : list (nat * act) := (0, ARegister 1) :: repeat (0, ATau) 4.
Definition cR : cfg := {| deg := 1; lim := 4; reent := true |}.
Definition lR : list (nat * act) :=
  reg1 ++ retire6 1 1 11 21 ++ retire6 1 3 13 23 ++ (0, AReclaim 1) :: repeat (0, ATau) 10 ++ (0, ANest 2 12 22) :: repeat (0, ATau) 7 ++ (0, AReclaim 1) :: repeat (0, ATau) 7.
Definition eR : list event :=
  [EReg 0 1; ERet 0 1 1 11 21; ERet 0 1 3 13 23; EBeg 0 1; EDes 0 1 3 13; ERet 0 1 2 12 22; EDes 0 1 1 11; EEnd 0 1; EBeg 0 1; EEnd 0 1].
Lemma oR_eq : exists s, run (step cR) init lR = Some (s, eR) /\
  (shead s, snext s 1, rfree s 1, hz s 1 0, pfirst s 1, npend s 1, pcs s 0, mine s 0 1) = (1, 0, false, 0, 0, 1%N, Idle, true).
Proof. eexists. vm_compute. split; reflexivity. Qed.
Lemma eR_illegal : ~ legal_from gnext once_ok gs0 eR.
Proof.
  intros L. change eR with (firstn 9 eR ++ EEnd 0 1 :: []) in L. apply legal_at in L. cbn in L. apply (L 2).
  - exists 12, 22. split; [left; auto|]. intros _ _. discriminate.
  - left. auto.
Qed.
(** purge without end *)
Definition JR (s : st) : Prop :=
  shead s = 1 /\ snext s 1 = 0 /\ rfree s 1 = false /\ hz s 1 0 = 0 /\ pfirst s 1 = 0 /\ npend s 1 = 1%N /\
  match pcs s 0 with
  | Pu1 r => r = 1 | Mc1 r k => r = 1 /\ k = KPurge | Mc2 r k C e => r = 1 /\ k = KPurge /\ C = [] /\ e = 1
  | Mc3 r k C e i => r = 1 /\ k = KPurge /\ C = [] /\ e = 1 | Mc4 r k C e => r = 1 /\ k = KPurge /\ C = [] /\ e = 1
  | Lp0 x => xr x = 1 /\ xk x = KPurge /\ xm x = 0 | Lp1 x => xr x = 1 /\ xk x = KPurge /\ xm x = 0 /\ xe x = 0
  | _ => False
  end.
Lemma JR_tick : forall s s' ev, JR s -> tick cR s 0 = Some (s', ev) -> JR s' /\ ~ In (EPur 0 1) ev /\ n_des 2 ev = 0.
Proof.
  intros s s' ev [H1 [H2 [H3 [H4 [H5 [H6 P]]]]]] H. unfold tick in H.
  destruct (pcs s 0); try contradiction; repeat match goal with X : _ /\ _ |- _ => destruct X end; subst.
  - rewrite H1 in H. cbn in H. injection H as <- <-. unfold JR. cbn. rewrite ?upd_same. repeat split; auto.
  - rewrite H3 in H. injection H as <- <-. unfold JR. cbn. repeat split; auto.
  - destruct (i <? deg cR) eqn:E; [|injection H as <- <-; unfold JR; cbn; repeat split; auto].
    apply Nat.ltb_lt in E. cbn in E. assert (i = 0) by lia. subst. cbn in H. rewrite H4 in H. cbn in H. injection H as <- <-. unfold JR. cbn. repeat split; auto.
  - rewrite H2 in H. cbn in H. injection H as <- <-. unfold JR. cbn. repeat split; auto.
  - rename H into HT. destruct x as [a b c0 d e f g0]. cbn in *. injection HT as <- <-. subst. unfold JR. cbn. repeat split; auto.
  - rename H into HT. destruct x as [a b c0 d e f g0]. cbn in *. subst. cbn in HT. injection HT as <- <-. unfold JR. cbn. repeat split; auto. intros [X|[]]. discriminate.
  - rewrite H6 in H. cbn in H. injection H as <- <-. unfold JR. cbn. repeat split; auto. intros [X|[]]. discriminate.
Qed.
Lemma JR_run : forall n s s' log, JR s -> run (step cR) s (repeat (0, ATau) n) = Some (s', log) -> ~ In (EPur 0 1) log /\ n_des 2 log = 0.
Proof.
  induction n as [|n IH]; intros s s' log J H.
  - cbn in H. injection H as <- <-. auto.
  - cbn [repeat run step] in H. destruct (tick cR s 0) as [[s1 e1]|] eqn:T; [|discriminate].
    destruct (run (step cR) s1 (repeat (0, ATau) n)) as [[s2 e2]|] eqn:R; [|discriminate]. injection H as <- <-.
    destruct (JR_tick _ _ _ J T) as [J1 [A B]]. destruct (IH _ _ _ J1 R) as [C D]. split; [rewrite in_app_iff; tauto|].
    unfold n_des in *. rewrite filter_app, app_length. lia.
Qed.
Lemma lost_gen : forall s, (shead s, snext s 1, rfree s 1, hz s 1 0, pfirst s 1, npend s 1, pcs s 0, mine s 0 1) = (1, 0, false, 0, 0, 1%N, Idle, true) ->
  forall n s' log', run (step cR) s ((0, APurge 1) :: repeat (0, ATau) n) = Some (s', log') -> ~ In (EPur 0 1) log' /\ n_des 2 log' = 0.
Proof.
  intros s Q n s' log' H. injection Q as Q1 Q2 Q3 Q4 Q5 Q6 Q7 Q8.
  cbn [run step] in H. rewrite Q7 in H. cbn [call] in H. rewrite Q8 in H.
  destruct (run (step cR) (go s 0 (Pu1 1)) (repeat (0, ATau) n)) as [[s2 e2]|] eqn:R; [|discriminate]. injection H as <- <-.
  eapply JR_run in R; [exact R|]. unfold JR. cbn. repeat split; auto.
Qed.
Lemma lost : exists ls s log, run (step cR) init ls = Some (s, log) /\ n_ret 2 log = 1 /\ n_des 2 log = 0 /\
  forall n s' log', run (step cR) s ((0, APurge 1) :: repeat (0, ATau) n) = Some (s', log') -> ~ In (EPur 0 1) log' /\ n_des 2 log' = 0.
Proof.
  destruct oR_eq as [s [H Q]]. exists lR, s, eR. split; [exact H|]. split; [reflexivity|]. split; [reflexivity|]. exact (lost_gen s Q).
Qed.

(** ** The counter of pending objects is 32 bits wide *)
Definition cP : cfg := {| deg := 1; lim := 4; reent := false |}.
Definition MP (n : nat) (s : st) (log : list event) : Prop :=
  pcs s 0 = Idle /\ own s 1 = Some 0 /\ (forall h, n < h -> out s h = false) /\ npend s 1 = (N.of_nat n mod W32)%N /\ length (pend_of (gf log gs0) 1) = n.
Lemma MP_step : forall n s log, MP n s log -> exists s' log', run (step cP) s (retire6 1 (S n) 0 7) = Some (s', log') /\ MP (S n) s' (log ++ log').
Proof.
  intros n s log [H1 [H2 [H3 [H4 H5]]]].
  assert (M : mine s 0 1 = true) by (unfold mine; rewrite H2; auto).
  assert (O : out s (S n) = false) by (apply H3; lia).
  assert (T1 : step cP s (0, ARetire 1 (S n) 0 7) = Some (go (s_out s (upd (out s) (S n) true)) 0 (Rt1 false 1 (S n) 0 7), [ERet 0 1 (S n) 0 7])).
  { unfold step. rewrite H1. unfold call. rewrite M, O. reflexivity. }
  match type of T1 with _ = Some (?x, _) => set (s1 := x) in * end.
  assert (P1 : pcs s1 0 = Rt1 false 1 (S n) 0 7) by reflexivity.
  assert (Q1 : own s1 1 = Some 0 /\ out s1 = upd (out s) (S n) true /\ npend s1 = npend s) by (repeat split; auto). clearbody s1.
  assert (T2 : exists s2, step cP s1 (0, ATau) = Some (s2, []) /\ pcs s2 0 = Rt2 false 1 (S n) 0 7 /\ own s2 = own s1 /\ out s2 = out s1 /\ npend s2 = npend s1).
  { eexists. unfold step, tick. rewrite P1. repeat split. }
  destruct T2 as [s2 [T2 [P2 [A2 [B2 C2]]]]].
  assert (T3 : exists s3, step cP s2 (0, ATau) = Some (s3, []) /\ pcs s3 0 = Rt3 false 1 (S n) /\ own s3 = own s2 /\ out s3 = out s2 /\ npend s3 = npend s2).
  { eexists. unfold step, tick. rewrite P2. repeat split. }
  destruct T3 as [s3 [T3 [P3 [A3 [B3 C3]]]]].
  assert (T4 : exists s4, step cP s3 (0, ATau) = Some (s4, []) /\ pcs s4 0 = Rt4 false 1 (S n) /\ own s4 = own s3 /\ out s4 = out s3 /\ npend s4 = npend s3).
  { eexists. unfold step, tick. rewrite P3. repeat split. }
  destruct T4 as [s4 [T4 [P4 [A4 [B4 C4]]]]].
  assert (T5 : exists s5, step cP s4 (0, ATau) = Some (s5, []) /\ pcs s5 0 = Rt5 false 1 /\ own s5 = own s4 /\ out s5 = out s4 /\ npend s5 = npend s4).
  { eexists. unfold step, tick. rewrite P4. repeat split. }
  destruct T5 as [s5 [T5 [P5 [A5 [B5 C5]]]]].
  assert (T6 : exists s6, step cP s5 (0, ATau) = Some (s6, []) /\ pcs s6 0 = Idle /\ own s6 = own s5 /\ out s6 = out s5 /\ npend s6 = upd (npend s5) 1 (inc (npend s5 1))).
  { eexists. unfold step, tick. rewrite P5. repeat split. }
  destruct T6 as [s6 [T6 [P6 [A6 [B6 C6]]]]].
  exists s6, [ERet 0 1 (S n) 0 7]. split.
  - unfold retire6. cbn [repeat run]. rewrite T1, T2, T3, T4, T5, T6. reflexivity.
  - destruct Q1 as [Q1 [Q2 Q3]]. unfold MP. rewrite gfold_app. cbn [gfold fold_left]. rewrite pend_ret. cbn [Nat.eqb length].
    rewrite C6, upd_same, C5, C4, C3, C2, Q3, H4, B6, B5, B4, B3, B2, Q2, A6, A5, A4, A3, A2, Q1. split; [auto|]. split; [auto|]. split; [|split].
    + intros h L. rewrite upd_other by lia. apply H3. lia.
    + unfold inc. rewrite N.add_mod_idemp_l by discriminate. replace (N.of_nat (S n)) with (N.of_nat n + 1)%N by lia. reflexivity.
    + f_equal. exact H5.
Qed.
Lemma MP_init : exists ls s log, run (step cP) init ls = Some (s, log) /\ MP 0 s log.
Proof. exists reg1. vm_compute. eexists. eexists. split; [reflexivity|]. repeat split; auto. Qed.
Lemma MP_all : forall n, exists ls s log, run (step cP) init ls = Some (s, log) /\ MP n s log.
Proof.
  induction n as [|n [ls [s [log [R M]]]]]; [apply MP_init|]. destruct (MP_step n s log M) as [s' [log' [R' M']]].
  exists (ls ++ retire6 1 (S n) 0 7), s', (log ++ log'). split; auto. eapply run_app; eauto.
Qed.
Lemma purge_wrap : forall n, n <> 0 -> (N.of_nat n mod 4294967296 = 0)%N ->
  exists ls s a b, run (step cP) init ls = Some (s, a ++ EPur 0 1 :: b) /\ exists x, In x (pending_after a) /\ q_r x = 1.
Proof.
  intros n Hn Hm. destruct (MP_all n) as [ls [s [log [R [H1 [H2 [H3 [H4 H5]]]]]]]].
  exists (ls ++ [(0, APurge 1); (0, ATau)]). eexists. exists log, []. split.
  - eapply run_app; [exact R|]. cbn [run step]. rewrite H1. cbn [call]. unfold mine. rewrite H2. cbn [Nat.eqb]. unfold tick. cbn. rewrite H4. unfold W32. rewrite Hm. cbn. reflexivity.
  - destruct (pend_of (gf log gs0) 1) as [|x l] eqn:E; [cbn in H5; congruence|]. exists x. apply pend_in. rewrite E. left. auto.
Qed.
Lemma purge_wrap32 : exists ls s a b, run (step cP) init ls = Some (s, a ++ EPur 0 1 :: b) /\ exists x, In x (pending_after a) /\ q_r x = 1.
Proof.
  apply (purge_wrap (N.to_nat 4294967296)).
  - intros E. apply (f_equal N.of_nat) in E. rewrite N2Nat.id in E. discriminate.
  - rewrite N2Nat.id. reflexivity.
Qed.
