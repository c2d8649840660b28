(** Proofs about ck_spinlock_fas and ck_spinlock_cas on x86-TSO. *)
From Coq Require Import ZArith Arith List Bool Lia.
From Verif Require Import Lib Tso TsoLock_Spec TsoSpin_Model.
Import ListNotations.
Local Open Scope Z_scope.

Definition alldat (b : list (loc * Z)) : Prop := forall x v, In (x, v) b -> isdat x.
Definition owner (h : own) : option nat := match h with Free => None | Held t | Left t => Some t end.

Record I (s : tso pc) (a : dlock) : Prop := {
  i_dat : data (owner (hold a)) (dat a) s;
  i_buf : forall u, owner (hold a) <> Some u -> buf s u = [];
  i_cs : forall u, pcs s u = CS <-> hold a = Held u;
  i_lock : match hold a with
    | Free => mem s (Reg 0) = 0
    | Held t => mem s (Reg 0) = 1 /\ alldat (buf s t)
    | Left t => mem s (Reg 0) = 1 /\ exists ds, buf s t = ds ++ [(Reg 0, 0)] /\ alldat ds
    end
}.

Lemma I_init : forall D, I (init D) {| hold := Free; dat := D |}.
Proof.
  intros D. constructor; simpl; auto.
  - split; auto. intros u i v [].
  - intros u. split; discriminate.
Qed.

Lemma alldat_reg : forall b j d, alldat b -> fwd b (Reg j) d = d.
Proof. intros b j d H. apply fwd_none. intros v Hv. apply (H _ _ Hv). Qed.

(** what a thread sees of the lock word *)
Lemma see : forall s a t, I s a -> view s t (Reg 0) =
  match hold a with Free => 0 | Held _ => 1 | Left u => if Nat.eqb t u then 0 else 1 end.
Proof.
  intros s a t [A B C E]. unfold view. destruct (hold a) as [|u|u]; simpl in *.
  - rewrite B by discriminate. auto.
  - destruct E as [E F]. destruct (Nat.eq_dec u t) as [->|Hn].
    + rewrite alldat_reg by auto. auto.
    + rewrite B by congruence. auto.
  - destruct E as [E [ds [F G]]]. destruct (Nat.eqb_spec t u) as [->|Hn].
    + rewrite F, fwd_app. reflexivity.
    + rewrite B by congruence. auto.
Qed.

(** local moves outside the critical section *)
Lemma I_next : forall s a t p, I s a -> pcs s t <> CS -> p <> CS -> I (next s t p) a.
Proof.
  intros s a t p [A B C E] H1 H2. constructor; auto.
  intros u. cbn [next pcs]. upd_cases; auto. split; [congruence|]. intros H. apply C in H. congruence.
Qed.

Lemma I_step : forall k s a l s' e, I s a -> step (code k) arr s l = Some (s', e) ->
  exists a', accepts dl_step a e = Some a' /\ I s' a'.
Proof.
  intros k s a l s' e HI H. pose proof HI as [A B C E]. destruct l as [t x|t]; cbn [step] in H.
  - destruct (pcs s t) eqn:Et; destruct x; try discriminate H; cbn [code] in H.
    + injection H as <- <-. exists a. split; auto. apply I_next; auto; congruence.
    + (* trylock *)
      destruct (buf s t) eqn:Eb; [|discriminate]. destruct (hold a) as [|u|u] eqn:Eh; simpl in E.
      * rewrite E in H. simpl in H. injection H as <- <-. exists {| hold := Held t; dat := dat a |}. split; [simpl; rewrite Eh; auto|].
        constructor; cbn [hold dat owner mem buf pcs].
        -- apply data_take. apply data_rmw. exact A.
        -- intros u Hu. apply B. discriminate.
        -- intros u. upd_cases; [tauto|]. split; [intros X; apply C in X; discriminate|congruence].
        -- split; [apply setm_same|]. rewrite Eb. intros x v [].
      * destruct E as [E F]. rewrite E in H. simpl in H. injection H as <- <-. exists a. split; [simpl; rewrite Eh; auto|].
        constructor; cbn [mem buf pcs]; rewrite ?Eh; [apply data_rmw; exact A|exact B| |].
        -- intros v. upd_cases; auto. split; [discriminate|]. intros X. apply C in X. congruence.
        -- split; [apply setm_same|auto].
      * destruct E as [E F]. rewrite E in H. simpl in H. injection H as <- <-. exists a. split; [simpl; rewrite Eh; auto|].
        constructor; cbn [mem buf pcs]; rewrite ?Eh; [apply data_rmw; exact A|exact B| |].
        -- intros v. upd_cases; auto. split; [discriminate|]. intros X. apply C in X. congruence.
        -- split; [apply setm_same|auto].
    + (* locked *)
      rewrite (see s a t HI) in H. injection H as <- <-. exists a. split; [|apply I_next; auto; congruence].
      simpl. destruct (hold a) as [|u|u]; simpl; auto. destruct (Nat.eqb t u); auto.
    + (* acquire *)
      destruct (buf s t) eqn:Eb; [|discriminate]. destruct (hold a) as [|u|u] eqn:Eh; simpl in E.
      * rewrite E in H. simpl in H. injection H as <- <-. exists {| hold := Held t; dat := dat a |}. split; [simpl; rewrite Eh; auto|].
        constructor; cbn [hold dat owner mem buf pcs].
        -- apply data_take. apply data_rmw. exact A.
        -- intros u Hu. apply B. discriminate.
        -- intros u. upd_cases; [tauto|]. split; [intros X; apply C in X; discriminate|congruence].
        -- split; [rewrite setm_same; destruct k; auto|]. rewrite Eb. intros x v [].
      * destruct E as [E F]. rewrite E in H. simpl in H. injection H as <- <-. exists a. split; auto.
        constructor; cbn [mem buf pcs]; rewrite ?Eh; [apply data_rmw; exact A|exact B| |].
        -- intros v. upd_cases; auto. split; [discriminate|]. intros X. apply C in X. congruence.
        -- split; [rewrite setm_same; destruct k; auto|auto].
      * destruct E as [E F]. rewrite E in H. simpl in H. injection H as <- <-. exists a. split; auto.
        constructor; cbn [mem buf pcs]; rewrite ?Eh; [apply data_rmw; exact A|exact B| |].
        -- intros v. upd_cases; auto. split; [discriminate|]. intros X. apply C in X. congruence.
        -- split; [rewrite setm_same; destruct k; auto|auto].
    + (* spin *) destruct (view s t (Reg 0) =? 1); injection H as <- <-; exists a; (split; [auto|]); apply I_next; auto; congruence.
    + injection H as <- <-. exists a. split; auto. apply I_next; auto; congruence.
    + (* read *) pose proof (proj1 (C t) Et) as Eh. rewrite Eh in *. injection H as <- <-. exists a. split.
      * simpl. rewrite Eh, Nat.eqb_refl. destruct A as [A _]. rewrite A, Z.eqb_refl. auto.
      * constructor; rewrite ?Eh; auto. cbn [next pcs]. intros u. upd_cases; [|rewrite C]; split; congruence.
    + (* write *) pose proof (proj1 (C t) Et) as Eh. rewrite Eh in *. destruct E as [E F]. injection H as <- <-.
      exists {| hold := Held t; dat := fun j => if Nat.eqb i j then v else dat a j |}. split; [simpl; rewrite Eh, Nat.eqb_refl; auto|].
      constructor; cbn [hold dat owner mem buf pcs].
      * apply data_write. exact A.
      * intros u Hu. rewrite upd_other by congruence. auto.
      * intros u. upd_cases; [tauto|]. rewrite C. split; congruence.
      * split; auto. rewrite upd_same. intros y w Hy. apply in_app_iff in Hy. destruct Hy as [Hy|[Hy|[]]]; [eapply F; eauto|].
        injection Hy as <- <-. exact Logic.I.
    + (* unlock *) pose proof (proj1 (C t) Et) as Eh. rewrite Eh in *. destruct E as [E F]. injection H as <- <-.
      exists {| hold := Left t; dat := dat a |}. split; [simpl; rewrite Eh, Nat.eqb_refl; auto|].
      constructor; cbn [hold dat owner mem buf pcs].
      * apply (data_reg (Some t)). exact A.
      * intros u Hu. rewrite upd_other by congruence. auto.
      * intros u. upd_cases; [split; discriminate|]. rewrite C. split; congruence.
      * split; auto. rewrite upd_same. eauto.
  - (* a store arrives *)
    destruct (buf s t) as [|[x v] r] eqn:Eb; [discriminate|]. injection H as <- <-.
    destruct (hold a) as [|u|u] eqn:Eh; simpl in E, B.
    + rewrite B in Eb by discriminate. discriminate.
    + destruct (Nat.eq_dec u t) as [->|Hn]; [|rewrite B in Eb by congruence; discriminate]. destruct E as [E F].
      assert (Hd : isdat x) by (apply (F x v); rewrite Eb; left; auto). destruct x as [i|i]; [|destruct Hd].
      exists a. split; auto. constructor; rewrite ?Eh; cbn [mem buf pcs owner].
      * apply data_flush; auto.
      * intros u Hu. rewrite upd_other by congruence. auto.
      * auto.
      * rewrite setm_other by discriminate. split; auto. rewrite upd_same. intros y w Hy. apply (F y w). rewrite Eb. right. auto.
    + destruct (Nat.eq_dec u t) as [->|Hn]; [|rewrite B in Eb by congruence; discriminate]. destruct E as [E [ds [F G]]].
      destruct ds as [|[y w] ds].
      * rewrite Eb in F. injection F as -> -> ->. exists {| hold := Free; dat := dat a |}. simpl. rewrite Eh, Nat.eqb_refl. split; auto.
        constructor; cbn [hold dat owner mem buf pcs].
        -- eapply data_drop with t; [|cbn [buf]; rewrite upd_same; intros j z []].
           eapply data_flush; [exact A|exact Eb].
        -- intros u _. destruct (Nat.eq_dec u t) as [->|]; [apply upd_same|rewrite upd_other by auto; apply B; congruence].
        -- intros u. rewrite C. split; discriminate.
        -- apply setm_same.
      * rewrite Eb in F. injection F as <- <- F.
        assert (Hd : isdat x) by (apply (G x v); left; auto). destruct x as [i|i]; [|destruct Hd].
        exists a. split; auto. constructor; rewrite ?Eh; cbn [mem buf pcs owner].
        -- apply data_flush; auto.
        -- intros u Hu. rewrite upd_other by congruence. auto.
        -- auto.
        -- rewrite setm_other by discriminate. split; auto. rewrite upd_same. exists ds. split; auto. intros y w Hy. apply (G y w). right. auto.
Qed.

Lemma spin_all : forall k D ls s log, run (step (code k) arr) (init D) ls = Some (s, log) -> dl_legal D log.
Proof.
  intros k D ls s log H.
  assert (K : exists a, accepts dl_step {| hold := Free; dat := D |} log = Some a /\ I s a).
  { eapply (run_inv (step (code k) arr) (fun s log => exists a, accepts dl_step {| hold := Free; dat := D |} log = Some a /\ I s a)); [| |exact H].
    - eexists. split; [reflexivity|]. apply I_init.
    - intros s1 l1 l s2 e [a [H1 H2]] Hs. destruct (I_step _ _ _ _ _ _ H2 Hs) as [a' [K1 K2]]. exists a'. split; auto.
      rewrite accepts_app, H1. auto. }
  destruct K as [a [K _]]. exists a. auto.
Qed.

(** * Progress: whenever nobody is inside, stores drain and a thread that wants the lock gets it *)
Lemma drain : forall k s t, exists s' log, run (step (code k) arr) s (repeat (Flush t) (length (buf s t))) = Some (s', log) /\
  buf s' t = [] /\ pcs s' = pcs s /\ forall u, u <> t -> buf s' u = buf s u.
Proof.
  intros k s t. remember (length (buf s t)) as n eqn:Hn. revert s Hn. induction n as [|n IH]; intros s Hn.
  - exists s, []. split; [reflexivity|]. destruct (buf s t); [auto|discriminate].
  - destruct (buf s t) as [|[x v] r] eqn:Eb; [discriminate|].
    destruct (IH (mkT (setm (mem s) x v) (upd (buf s) t r) (pcs s))) as [s' [log [H1 [H2 [H3 H4]]]]].
    { cbn [buf]. rewrite upd_same. simpl in Hn. lia. }
    exists s'. eexists. split; [|split; [exact H2|split; [exact H3|]]].
    + cbn [repeat]. eapply run_cons; [|exact H1]. cbn [step]. rewrite Eb. reflexivity.
    + intros u Hu. rewrite H4 by auto. cbn [buf]. apply upd_other. auto.
Qed.

Lemma spin_gets : forall k D s t, reachable (step (code k) arr) (init D) s -> (pcs s t = Acq \/ pcs s t = Spin) -> (forall u, pcs s u <> CS) ->
  exists ls s' log, run (step (code k) arr) s ls = Some (s', log) /\ In (Enter t) log /\
    forall l, In l ls -> l = Go t ATick \/ exists u, l = Flush u.
Proof.
  intros k D s t [ls0 [log0 H0]] Ht Hcs.
  assert (Hinv : forall ls s log, run (step (code k) arr) (init D) ls = Some (s, log) -> exists a, I s a).
  { intros ls1 s1 log1 Hr. eapply (run_inv (step (code k) arr) (fun s _ => exists a, I s a)); [| |exact Hr].
    - eexists. apply I_init.
    - intros s2 l1 l s3 e [a Ha] Hs. destruct (I_step _ _ _ _ _ _ Ha Hs) as [a' [_ K]]. eauto. }
  (* the word is free in memory and every buffer is empty *)
  assert (Hfree : exists n u, exists s1 log1, run (step (code k) arr) s (repeat (Flush u) n) = Some (s1, log1) /\
     mem s1 (Reg 0) = 0 /\ (forall u, buf s1 u = []) /\ pcs s1 = pcs s).
  { destruct (Hinv _ _ _ H0) as [a Ha]. pose proof Ha as [A B C E]. destruct (hold a) as [|u|u] eqn:Eh; simpl in E, B.
    - exists 0%nat, 0%nat, s, []. split; [reflexivity|]. repeat split; auto. intros u. apply B. discriminate.
    - exfalso. apply (Hcs u). apply C. auto.
    - destruct (drain k s u) as [s1 [log1 [R1 [R2 [R3 R4]]]]]. exists (length (buf s u)), u, s1, log1. split; [exact R1|].
      assert (Hb : forall v, buf s1 v = []).
      { intros v. destruct (Nat.eq_dec v u) as [->|]; auto. rewrite R4 by auto. apply B. congruence. }
      destruct (Hinv (ls0 ++ repeat (Flush u) (length (buf s u))) s1 (log0 ++ log1)) as [a1 Ha1]; [eapply run_app; eauto|].
      pose proof Ha1 as [A1 B1 C1 E1]. repeat split; auto. destruct (hold a1) as [|w|w] eqn:Eh1; auto.
      + exfalso. apply (Hcs w). rewrite <- R3. apply C1. auto.
      + destruct E1 as [_ [ds [F _]]]. rewrite Hb in F. destruct ds; discriminate. }
  destruct Hfree as [n [u [s1 [log1 [R1 [R2 [R3 R4]]]]]]].
  assert (Hacq : forall s1, mem s1 (Reg 0) = 0 -> (forall u, buf s1 u = []) -> pcs s1 t = Acq ->
     exists s2, step (code k) arr s1 (Go t ATick) = Some (s2, [Enter t])).
  { intros s2 M1 M2 M3. eexists. cbn [step]. rewrite M3. cbn [code]. rewrite M2, M1. reflexivity. }
  destruct Ht as [Ht|Ht].
  - destruct (Hacq s1) as [s2 K]; auto; [congruence|]. exists (repeat (Flush u) n ++ [Go t ATick]), s2. eexists. split; [|split].
    + eapply run_app; [exact R1|]. eapply run_cons; [exact K|reflexivity].
    + apply in_app_iff. right. simpl. auto.
    + intros l Hl. apply in_app_iff in Hl. destruct Hl as [Hl|[<-|[]]]; auto. apply repeat_spec in Hl. eauto.
  - assert (K1 : step (code k) arr s1 (Go t ATick) = Some (next s1 t Acq, [])).
    { cbn [step]. rewrite R4, Ht. cbn [code]. unfold view. rewrite R3. simpl. rewrite R2. reflexivity. }
    destruct (Hacq (next s1 t Acq)) as [s2 K]; auto; [cbn [next pcs]; apply upd_same|].
    exists (repeat (Flush u) n ++ [Go t ATick; Go t ATick]), s2. eexists. split; [|split].
    + eapply run_app; [exact R1|]. eapply run_cons; [exact K1|]. eapply run_cons; [exact K|reflexivity].
    + apply in_app_iff. right. simpl. auto.
    + intros l Hl. apply in_app_iff in Hl. destruct Hl as [Hl|[<-|[<-|[]]]]; auto. apply repeat_spec in Hl. eauto.
Qed.
