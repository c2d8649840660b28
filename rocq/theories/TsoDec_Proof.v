(** Proofs about ck_spinlock_dec on x86-TSO. *)
From Coq Require Import ZArith Arith List Bool Lia.
From Verif Require Import Lib Tso TsoLock_Spec TsoDec_Model.
Import ListNotations.
Local Open Scope Z_scope.

Definition alldat (b : list (loc * Z)) : Prop := forall x v, In (x, v) b -> isdat x.
Definition owner (h : own) : option nat := match h with Free => None | Held t | Left t => Some t end.
Definition spin (p : pc) : bool := match p with LkLoad => true | _ => false end.

Section N.
Variable n : nat.
Hypothesis small : Z.of_nat n < 2 ^ 32.

(** decremented [k] times since it was taken, at most once by each thread that spins *)
Definition low (s : tso pc) : Prop := exists k : nat, mem s (Reg 0) = (- Z.of_nat k) mod W /\ (k <= cnt (fun t => spin (pcs s t)) n)%nat.

Record I (s : tso pc) (a : dlock) : Prop := {
  i_dat : data (owner (hold a)) (dat a) s;
  i_buf : forall u, owner (hold a) <> Some u -> buf s u = [];
  i_cs : forall u, pcs s u = CS <-> hold a = Held u;
  i_lt : forall u, owner (hold a) = Some u -> (u < n)%nat /\ pcs s u <> LkLoad;
  i_lock : match hold a with
    | Free => mem s (Reg 0) = 1
    | Held t => low s /\ alldat (buf s t)
    | Left t => low s /\ exists ds, buf s t = ds ++ [(Reg 0, 1)] /\ alldat ds
    end
}.

Lemma I_init : forall D, I (init D) {| hold := Free; dat := D |}.
Proof.
  intros D. constructor; simpl; auto.
  - split; auto. intros u i v [].
  - intros u. split; discriminate.
  - discriminate.
Qed.

Lemma modW : forall k : nat, (0 < k)%nat -> Z.of_nat k < W -> (- Z.of_nat k) mod W = W - Z.of_nat k.
Proof. intros k H0 H. symmetry. apply Z.mod_unique with (q := -1); [left|]; unfold W in *; lia. Qed.

Lemma low_dec : forall s o, low s -> (o < n)%nat -> pcs s o <> LkLoad ->
  mem s (Reg 0) <> 1 /\ (mem s (Reg 0) - 1) mod W <> 0 /\
  exists k : nat, (mem s (Reg 0) - 1) mod W = (- Z.of_nat (S k)) mod W /\ (k <= cnt (fun t => spin (pcs s t)) n)%nat.
Proof.
  intros s o (k & Hk & Hc) Ho Hs.
  assert (Hlt : (cnt (fun t => spin (pcs s t)) n < n)%nat).
  { apply cnt_strict with o; [exact Ho|]. destruct (pcs s o); auto; congruence. }
  assert (Ek : (mem s (Reg 0) - 1) mod W = (- Z.of_nat (S k)) mod W).
  { rewrite Hk, Zminus_mod_idemp_l. f_equal. lia. }
  assert (W2 : 2 < W) by (unfold W; lia). change (2 ^ 32) with W in small.
  refine (conj _ (conj _ (ex_intro _ k (conj Ek Hc)))).
  - rewrite Hk. destruct k as [|k]; [simpl; rewrite Zmod_0_l; lia|]. rewrite modW by lia. lia.
  - rewrite Ek, modW by lia. lia.
Qed.

Lemma low_keep : forall s s' t p, low s -> pcs s' = upd (pcs s) t p -> (spin (pcs s t) = true -> spin p = true) ->
  mem s' (Reg 0) = mem s (Reg 0) -> low s'.
Proof.
  intros s s' t p (k & Hk & Hc) Hp Hs Hm. exists k. rewrite Hm. split; [exact Hk|].
  eapply Nat.le_trans; [exact Hc|]. apply cnt_mono. intros i Hi. rewrite Hp. upd_cases; auto.
Qed.

Lemma low_zero : forall s, mem s (Reg 0) = 0 -> low s.
Proof. intros s H. exists 0%nat. rewrite H. split; [reflexivity|lia]. Qed.

(** a waiter decrements the word of a lock that is held *)
Lemma low_more : forall s s' t o, low s -> (t < n)%nat -> (o < n)%nat -> pcs s o <> LkLoad -> pcs s t <> LkLoad ->
  pcs s' = upd (pcs s) t LkLoad -> mem s' (Reg 0) = (mem s (Reg 0) - 1) mod W -> low s'.
Proof.
  intros s s' t o Hl Ht Ho Hs Hst Hp Hm. destruct (low_dec s o Hl Ho Hs) as (_ & _ & k & Ek & Hc). exists (S k). rewrite Hm. split; [exact Ek|].
  pose proof (cnt_change (fun u => spin (pcs s u)) (fun u => spin (pcs s' u)) n t Ht) as C. cbv beta in C. rewrite Hp in *.
  rewrite upd_same in C. cbn [spin] in C. assert (E : spin (pcs s t) = false) by (destruct (pcs s t); auto; congruence). rewrite E in C.
  specialize (C ltac:(intros i Hi; rewrite upd_other by auto; reflexivity)). lia.
Qed.

Lemma alldat_reg : forall b j d, alldat b -> fwd b (Reg j) d = d.
Proof. intros b j d H. apply fwd_none. intros v Hv. apply (H _ _ Hv). Qed.

(** whether the lock looks free to a thread *)
Lemma see : forall s a t, I s a -> (view s t (Reg 0) =? 1) =
  match hold a with Free => true | Held _ => false | Left u => Nat.eqb t u end.
Proof.
  intros s a t [A B C L E]. unfold view. destruct (hold a) as [|u|u] eqn:Eh; simpl in *.
  - rewrite B by discriminate. simpl. rewrite E. reflexivity.
  - destruct E as [E F], (L u eq_refl) as [L1 L2]. destruct (low_dec s u E L1 L2) as (N1 & _). apply Z.eqb_neq.
    destruct (Nat.eq_dec u t) as [->|Hn]; [rewrite alldat_reg by auto; auto|rewrite B by congruence; auto].
  - destruct E as [E [ds [F G]]], (L u eq_refl) as [L1 L2]. destruct (low_dec s u E L1 L2) as (N1 & _).
    destruct (Nat.eqb_spec t u) as [->|Hn]; [rewrite F, fwd_app; reflexivity|]. apply Z.eqb_neq. rewrite B by congruence. auto.
Qed.

(** local moves outside the critical section *)
Lemma I_next : forall s a t p, I s a -> pcs s t <> CS -> p <> CS -> (spin (pcs s t) = true -> spin p = true \/ hold a = Free) ->
  (spin p = true -> spin (pcs s t) = true) -> I (next s t p) a.
Proof.
  intros s a t p [A B C L E] H1 H2 H3 H4. constructor; auto.
  - intros u. cbn [next pcs]. upd_cases; auto. split; [congruence|]. intros H. apply C in H. congruence.
  - intros u Hu. destruct (L u Hu) as [L1 L2]. split; [exact L1|]. cbn [next pcs]. upd_cases; auto. intros ->. specialize (H4 eq_refl).
    destruct (pcs s t); try discriminate H4. congruence.
  - destruct (hold a) as [|u|u] eqn:Eh; [exact E| |]; destruct E as [E F]; (split; [|exact F]); eapply low_keep; [exact E|reflexivity| |reflexivity|exact E|reflexivity| |reflexivity];
      intros X; destruct (H3 X); auto; discriminate.
Qed.

Lemma I_take : forall s a t f, I s a -> hold a = Free -> (t < n)%nat -> buf s t = [] -> f (mem s (Reg 0)) = 0 ->
  I (mkT (setm (mem s) (Reg 0) (f (mem s (Reg 0)))) (buf s) (upd (pcs s) t CS)) {| hold := Held t; dat := dat a |}.
Proof.
  intros s a t f [A B C L E] Eh Ht Hb Hf. rewrite Eh in *. constructor; cbn [hold dat owner mem buf pcs].
  - apply data_take. apply data_rmw. exact A.
  - intros u Hu. apply B. discriminate.
  - intros u. upd_cases; [tauto|]. split; [intros X; apply C in X; discriminate|congruence].
  - intros u Hu. injection Hu as <-. split; [exact Ht|]. rewrite upd_same. discriminate.
  - split; [apply low_zero; cbn [mem]; rewrite setm_same; exact Hf|]. rewrite Hb. intros x v [].
Qed.

(** a locked instruction of a thread that does not get the lock *)
Lemma I_miss : forall s a t p v, I s a -> hold a <> Free -> (t < n)%nat -> pcs s t = Idle \/ pcs s t = LkDec -> p <> CS ->
  buf s t = [] ->
  (p = LkLoad /\ v = (mem s (Reg 0) - 1) mod W) \/ (p <> LkLoad /\ v = 0) ->
  I (mkT (setm (mem s) (Reg 0) v) (buf s) (upd (pcs s) t p)) a.
Proof.
  intros s a t p v HI Hh Ht Hp Hc Hb Hv. pose proof HI as [A B C L E].
  assert (Ho : exists o, owner (hold a) = Some o) by (destruct (hold a); simpl; eauto; congruence). destruct Ho as [o Ho].
  destruct (L o Ho) as [L1 L2].
  assert (Hlow : low s) by (destruct (hold a); [congruence|apply E|apply E]).
  assert (Hlow' : low (mkT (setm (mem s) (Reg 0) v) (buf s) (upd (pcs s) t p))).
  { destruct Hv as [[-> ->]|[_ ->]]; [|apply low_zero; cbn [mem]; apply setm_same].
    eapply low_more with (s := s) (t := t) (o := o); auto; try (cbn [mem]; apply setm_same). destruct Hp; congruence. }
  constructor; cbn [mem buf pcs].
  - apply data_rmw. exact A.
  - exact B.
  - intros u. upd_cases; auto. split; [congruence|]. intros X. apply C in X. destruct Hp; congruence.
  - intros u Hu. assert (u = o) by congruence. subst u. split; [exact L1|]. upd_cases; auto.
    destruct Hv as [[-> _]|[X _]]; [|exact X]. exfalso.
    destruct (hold a) as [|w|w] eqn:Eh; simpl in Ho; [discriminate|injection Ho as ->|injection Ho as ->].
    + pose proof (proj2 (C t) eq_refl). destruct Hp; congruence.
    + destruct E as [_ [ds [F _]]]. rewrite Hb in F. destruct ds; discriminate.
  - destruct (hold a) as [|w|w]; [congruence| |]; (split; [exact Hlow'|apply E]).
Qed.

Lemma I_step : forall s a l s' e, I s a -> step (code n) arr s l = Some (s', e) ->
  exists a', accepts dl_step a e = Some a' /\ I s' a'.
Proof.
  intros s a l s' e HI H. pose proof HI as [A B C L E]. destruct l as [t x|t]; cbn [step] in H.
  - unfold code in H. destruct (Nat.ltb_spec t n) as [Ht|Ht]; [|discriminate]. cbn [negb] in H.
    destruct (pcs s t) eqn:Et; destruct x; try discriminate H.
    + injection H as <- <-. exists a. split; auto. apply I_next; auto; rewrite ?Et; simpl; try discriminate; auto.
    + (* trylock *)
      destruct (buf s t) eqn:Eb; [|discriminate]. destruct (hold a) as [|u|u] eqn:Eh; simpl in E.
      * rewrite E in H. simpl in H. injection H as <- <-. exists {| hold := Held t; dat := dat a |}. split; [simpl; rewrite Eh; auto|].
        pose proof (I_take s a t (fun _ => 0) HI Eh Ht Eb eq_refl) as K. exact K.
      * assert (Ev : (mem s (Reg 0) =? 1) = false). { destruct E as [E F], (L u eq_refl) as [L1 L2]. apply Z.eqb_neq. apply (low_dec s u E L1 L2). }
        rewrite Ev in H. injection H as <- <-. exists a. split; [simpl; rewrite Eh; auto|]. apply I_miss; auto; try congruence. right. split; congruence.
      * assert (Ev : (mem s (Reg 0) =? 1) = false). { destruct E as [E F], (L u eq_refl) as [L1 L2]. apply Z.eqb_neq. apply (low_dec s u E L1 L2). }
        rewrite Ev in H. injection H as <- <-. exists a. split; [simpl; rewrite Eh; auto|]. apply I_miss; auto; try congruence. right. split; congruence.
    + (* locked *)
      rewrite (see s a t HI) in H. injection H as <- <-. exists a. split; [|apply I_next; auto; rewrite ?Et; simpl; try discriminate; auto].
      simpl. destruct (hold a) as [|u|u]; simpl; auto. destruct (Nat.eqb t u); auto.
    + (* decrement *)
      destruct (buf s t) eqn:Eb; [|discriminate]. destruct (hold a) as [|u|u] eqn:Eh; simpl in E.
      * rewrite E in H. change ((1 - 1) mod W) with 0 in H. simpl in H. injection H as <- <-. exists {| hold := Held t; dat := dat a |}. split; [simpl; rewrite Eh; auto|].
        pose proof (I_take s a t (fun v => (v - 1) mod W) HI Eh Ht Eb) as K. rewrite E in K. apply K. reflexivity.
      * assert (Ev : ((mem s (Reg 0) - 1) mod W =? 0) = false). { destruct E as [E F], (L u eq_refl) as [L1 L2]. apply Z.eqb_neq. apply (low_dec s u E L1 L2). }
        rewrite Ev in H. injection H as <- <-. exists a. split; auto. apply I_miss; auto; try congruence.
      * assert (Ev : ((mem s (Reg 0) - 1) mod W =? 0) = false). { destruct E as [E F], (L u eq_refl) as [L1 L2]. apply Z.eqb_neq. apply (low_dec s u E L1 L2). }
        rewrite Ev in H. injection H as <- <-. exists a. split; auto. apply I_miss; auto; try congruence.
    + (* spin *)
      rewrite (see s a t HI) in H. destruct (hold a) as [|u|u] eqn:Eh; injection H as <- <-; exists a; (split; [auto|]).
      * apply I_next; auto; rewrite ?Et; simpl; try discriminate; auto.
      * apply I_next; auto; rewrite ?Et; simpl; try discriminate; auto.
      * destruct (Nat.eqb_spec t u) as [->|Hn]; [exfalso; apply (L u eq_refl); exact Et|].
        apply I_next; auto; rewrite ?Et; simpl; try discriminate; auto.
    + (* read *) pose proof (proj1 (C t) Et) as Eh. rewrite Eh in *. injection H as <- <-. exists a. split.
      * simpl. rewrite Eh, Nat.eqb_refl. destruct A as [A _]. rewrite A, Z.eqb_refl. auto.
      * constructor; rewrite ?Eh; auto.
        -- cbn [next pcs]. intros u. upd_cases; [|rewrite C]; split; congruence.
        -- intros u Hu. destruct (L u Hu) as [L1 L2]. split; auto. cbn [next pcs]. upd_cases; auto. discriminate.
        -- destruct E as [E F]. split; [|exact F]. eapply low_keep; [exact E|reflexivity|rewrite Et; discriminate|reflexivity].
    + (* write *) pose proof (proj1 (C t) Et) as Eh. rewrite Eh in *. destruct E as [E F]. injection H as <- <-.
      exists {| hold := Held t; dat := fun j => if Nat.eqb i j then v else dat a j |}. split; [simpl; rewrite Eh, Nat.eqb_refl; auto|].
      constructor; cbn [hold dat owner mem buf pcs].
      * apply data_write. exact A.
      * intros u Hu. rewrite upd_other by congruence. auto.
      * intros u. upd_cases; [tauto|]. rewrite C. split; congruence.
      * intros u Hu. injection Hu as <-. split; auto. rewrite upd_same. discriminate.
      * split; [eapply low_keep; [exact E|reflexivity|rewrite Et; discriminate|reflexivity]|]. rewrite upd_same.
        intros y w Hy. apply in_app_iff in Hy. destruct Hy as [Hy|[Hy|[]]]; [eapply F; eauto|]. injection Hy as <- <-. exact Logic.I.
    + (* unlock *) pose proof (proj1 (C t) Et) as Eh. rewrite Eh in *. destruct E as [E F]. injection H as <- <-.
      exists {| hold := Left t; dat := dat a |}. split; [simpl; rewrite Eh, Nat.eqb_refl; auto|].
      constructor; cbn [hold dat owner mem buf pcs].
      * apply (data_reg (Some t)). exact A.
      * intros u Hu. rewrite upd_other by congruence. auto.
      * intros u. upd_cases; [split; discriminate|]. rewrite C. split; congruence.
      * intros u Hu. injection Hu as <-. split; auto. rewrite upd_same. discriminate.
      * split; [eapply low_keep; [exact E|reflexivity|rewrite Et; discriminate|reflexivity]|]. rewrite upd_same. eauto.
  - (* a store arrives *)
    destruct (buf s t) as [|[x v] r] eqn:Eb; [discriminate|]. injection H as <- <-.
    destruct (hold a) as [|u|u] eqn:Eh; simpl in E, B.
    + rewrite B in Eb by discriminate. discriminate.
    + destruct (Nat.eq_dec u t) as [->|Hn]; [|rewrite B in Eb by congruence; discriminate]. destruct E as [E F].
      assert (Hd : isdat x) by (apply (F x v); rewrite Eb; left; auto). destruct x as [i|i]; [|destruct Hd].
      exists a. split; auto. constructor; rewrite ?Eh; cbn [mem buf pcs owner].
      * apply data_flush; auto.
      * intros u Hu. rewrite upd_other by congruence. auto.
      * auto.
      * auto.
      * split; [destruct E as (k & K1 & K2); exists k; cbn [mem pcs]; rewrite setm_other by discriminate; auto|].
        rewrite upd_same. intros y w Hy. apply (F y w). rewrite Eb. right. auto.
    + destruct (Nat.eq_dec u t) as [->|Hn]; [|rewrite B in Eb by congruence; discriminate]. destruct E as [E [ds [F G]]].
      destruct ds as [|[y w] ds].
      * rewrite Eb in F. injection F as -> -> ->. exists {| hold := Free; dat := dat a |}. simpl. rewrite Eh, Nat.eqb_refl. split; auto.
        constructor; cbn [hold dat owner mem buf pcs].
        -- eapply data_drop with t; [|cbn [buf]; rewrite upd_same; intros j z []].
           eapply data_flush; [exact A|exact Eb].
        -- intros u _. destruct (Nat.eq_dec u t) as [->|]; [apply upd_same|rewrite upd_other by auto; apply B; congruence].
        -- intros u. rewrite C. split; discriminate.
        -- discriminate.
        -- apply setm_same.
      * rewrite Eb in F. injection F as <- <- F.
        assert (Hd : isdat x) by (apply (G x v); left; auto). destruct x as [i|i]; [|destruct Hd].
        exists a. split; auto. constructor; rewrite ?Eh; cbn [mem buf pcs owner].
        -- apply data_flush; auto.
        -- intros u Hu. rewrite upd_other by congruence. auto.
        -- auto.
        -- auto.
        -- split; [destruct E as (k & K1 & K2); exists k; cbn [mem pcs]; rewrite setm_other by discriminate; auto|].
           rewrite upd_same. exists ds. split; auto. intros y w Hy. apply (G y w). right. auto.
Qed.

Lemma dec_all : forall D ls s log, run (step (code n) arr) (init D) ls = Some (s, log) -> dl_legal D log.
Proof.
  intros D ls s log H.
  assert (K : exists a, accepts dl_step {| hold := Free; dat := D |} log = Some a /\ I s a).
  { eapply (run_inv (step (code n) arr) (fun s log => exists a, accepts dl_step {| hold := Free; dat := D |} log = Some a /\ I s a)); [| |exact H].
    - eexists. split; [reflexivity|]. apply I_init.
    - intros s1 l1 l s2 e [a [H1 H2]] Hs. destruct (I_step _ _ _ _ _ H2 Hs) as [a' [K1 K2]]. exists a'. split; auto.
      rewrite accepts_app, H1. auto. }
  destruct K as [a [K _]]. exists a. auto.
Qed.

(** * Progress: whenever nobody is inside, stores drain and a thread that wants the lock gets it *)
Lemma drain : forall s t, exists s' log, run (step (code n) arr) s (repeat (Flush t) (length (buf s t))) = Some (s', log) /\
  buf s' t = [] /\ pcs s' = pcs s /\ forall u, u <> t -> buf s' u = buf s u.
Proof.
  intros s t. remember (length (buf s t)) as m eqn:Hn. revert s Hn. induction m as [|m IH]; intros s Hn.
  - exists s, []. split; [reflexivity|]. destruct (buf s t); [auto|discriminate].
  - destruct (buf s t) as [|[x v] r] eqn:Eb; [discriminate|].
    destruct (IH (mkT (setm (mem s) x v) (upd (buf s) t r) (pcs s))) as [s' [log [H1 [H2 [H3 H4]]]]].
    { cbn [buf]. rewrite upd_same. simpl in Hn. lia. }
    exists s'. eexists. split; [|split; [exact H2|split; [exact H3|]]].
    + cbn [repeat]. eapply run_cons; [|exact H1]. cbn [step]. rewrite Eb. reflexivity.
    + intros u Hu. rewrite H4 by auto. cbn [buf]. apply upd_other. auto.
Qed.

Lemma dec_gets : forall D s t, (t < n)%nat -> reachable (step (code n) arr) (init D) s -> (pcs s t = LkDec \/ pcs s t = LkLoad) -> (forall u, pcs s u <> CS) ->
  exists ls s' log, run (step (code n) arr) s ls = Some (s', log) /\ In (Enter t) log /\
    forall l, In l ls -> l = Go t ATick \/ exists u, l = Flush u.
Proof.
  intros D s t Htn [ls0 [log0 H0]] Ht Hcs.
  assert (Hinv : forall ls s log, run (step (code n) arr) (init D) ls = Some (s, log) -> exists a, I s a).
  { intros ls1 s1 log1 Hr. eapply (run_inv (step (code n) arr) (fun s _ => exists a, I s a)); [| |exact Hr].
    - eexists. apply I_init.
    - intros s2 l1 l s3 e [a Ha] Hs. destruct (I_step _ _ _ _ _ Ha Hs) as [a' [_ K]]. eauto. }
  (* the word is free in memory and every buffer is empty *)
  assert (Hfree : exists m u, exists s1 log1, run (step (code n) arr) s (repeat (Flush u) m) = Some (s1, log1) /\
     mem s1 (Reg 0) = 1 /\ (forall u, buf s1 u = []) /\ pcs s1 = pcs s).
  { destruct (Hinv _ _ _ H0) as [a Ha]. pose proof Ha as [A B C L E]. destruct (hold a) as [|u|u] eqn:Eh; simpl in E, B.
    - exists 0%nat, 0%nat, s, []. split; [reflexivity|]. repeat split; auto. intros u. apply B. discriminate.
    - exfalso. apply (Hcs u). apply C. auto.
    - destruct (drain s u) as [s1 [log1 [R1 [R2 [R3 R4]]]]]. exists (length (buf s u)), u, s1, log1. split; [exact R1|].
      assert (Hb : forall v, buf s1 v = []).
      { intros v. destruct (Nat.eq_dec v u) as [->|]; auto. rewrite R4 by auto. apply B. congruence. }
      destruct (Hinv (ls0 ++ repeat (Flush u) (length (buf s u))) s1 (log0 ++ log1)) as [a1 Ha1]; [eapply run_app; eauto|].
      pose proof Ha1 as [A1 B1 C1 L1 E1]. repeat split; auto. destruct (hold a1) as [|w|w] eqn:Eh1; auto.
      + exfalso. apply (Hcs w). rewrite <- R3. apply C1. auto.
      + destruct E1 as [_ [ds [F _]]]. rewrite Hb in F. destruct ds; discriminate. }
  destruct Hfree as [m [u [s1 [log1 [R1 [R2 [R3 R4]]]]]]].
  assert (Hacq : forall s1, mem s1 (Reg 0) = 1 -> (forall u, buf s1 u = []) -> pcs s1 t = LkDec ->
     exists s2, step (code n) arr s1 (Go t ATick) = Some (s2, [Enter t])).
  { intros s2 M1 M2 M3. eexists. cbn [step]. rewrite M3. unfold code. rewrite (proj2 (Nat.ltb_lt t n) Htn). cbn [negb]. rewrite M2, M1. reflexivity. }
  destruct Ht as [Ht|Ht].
  - destruct (Hacq s1) as [s2 K]; auto; [congruence|]. exists (repeat (Flush u) m ++ [Go t ATick]), s2. eexists. split; [|split].
    + eapply run_app; [exact R1|]. eapply run_cons; [exact K|reflexivity].
    + apply in_app_iff. right. simpl. auto.
    + intros l Hl. apply in_app_iff in Hl. destruct Hl as [Hl|[<-|[]]]; auto. apply repeat_spec in Hl. eauto.
  - assert (K1 : step (code n) arr s1 (Go t ATick) = Some (next s1 t LkDec, [])).
    { cbn [step]. rewrite R4, Ht. unfold code. rewrite (proj2 (Nat.ltb_lt t n) Htn). cbn [negb]. unfold view. rewrite R3. simpl. rewrite R2. reflexivity. }
    destruct (Hacq (next s1 t LkDec)) as [s2 K]; auto; [cbn [next pcs]; apply upd_same|].
    exists (repeat (Flush u) m ++ [Go t ATick; Go t ATick]), s2. eexists. split; [|split].
    + eapply run_app; [exact R1|]. eapply run_cons; [exact K1|]. eapply run_cons; [exact K|reflexivity].
    + apply in_app_iff. right. simpl. auto.
    + intros l Hl. apply in_app_iff in Hl. destruct Hl as [Hl|[<-|[<-|[]]]]; auto. apply repeat_spec in Hl. eauto.
Qed.
End N.
