From Coq Require Import Arith NArith List Bool Lia.
From Verif Require Import Lib LockProg BarSpec BarProg BarCentral_Model.
Import ListNotations.
Local Arguments upd : simpl never.
Local Arguments Nat.odd : simpl never.

Section P.
Variable n : nat.
Hypothesis Hn : (N.of_nat n < 2 ^ 32)%N.

Definition zg (p : pc) : bool := match p with Z | G => true | _ => false end.
Definition spz (p : pc) : bool := match p with Z | G | Sp => true | _ => false end.
Definition arr (E : nat) (thr : nat -> pc) (en : nat -> nat) (t : nat) : bool := spz (thr t) && Nat.eqb (en t) (S E).

Record RE (E : nat) (s : state) (en lv : nat -> nat) : Prop := mkR {
  r_s : sense s = Nat.odd E;
  r_l : forall t, lsense s t = Nat.odd (en t);
  r_t : forall t, t < n -> match thr s t with
        | Out => en t = E /\ lv t = E
        | Sp => en t = S E /\ lv t = E \/ en t = E /\ S (lv t) = E
        | _ => en t = S E /\ lv t = E
        end;
  r_v : True /\
        ((forall t, t < n -> zg (thr s t) = false) /\ value s = N.of_nat (cnt (arr E (thr s) en) n) /\ cnt (arr E (thr s) en) n < n \/ n = 0 \/
         exists z, z < n /\ (thr s z = Z /\ value s = N.of_nat n \/ thr s z = G /\ value s = 0%N) /\ cnt (arr E (thr s) en) n = n /\
                   forall t, t < n -> t <> z -> zg (thr s t) = false) }.
Definition R s en lv := exists E, RE E s en lv.

Lemma last_val : 0 < n -> last n = N.of_nat (n - 1).
Proof.
  intros. unfold last. change (2 ^ 32)%N with 4294967296%N in *.
  replace (N.of_nat n + (4294967296 - 1))%N with (N.of_nat (n - 1) + 1 * 4294967296)%N by lia. rewrite N.mod_add, N.mod_small by lia. auto.
Qed.

Lemma R_init : R init (fun _ => 0) (fun _ => 0).
Proof.
  exists 0. constructor; cbn; auto. split; auto. destruct n as [|m]; auto. left.
  rewrite cnt_all_false by auto. split; auto. split; auto. lia.
Qed.

Lemma R_step : forall s en lv l s' e, R s en lv -> step n s l = Some (s', e) ->
  (e = [] /\ R s' en lv) \/ (exists t, e = [Enter t] /\ R s' (upd en t (S (en t))) lv) \/
  (exists t, e = [Leave t] /\ R s' en (upd lv t (S (lv t)))).
Proof.
  intros s en lv [t a] s' e [E HR] Hs. unfold step in Hs. destruct (Nat.ltb_spec t n) as [Hlt|]; [|discriminate]. cbn [negb] in Hs.
  destruct HR as [S1 S2 S3 [_ S4]]. assert (Ht := S3 t Hlt).
  assert (S4' : (forall t, t < n -> zg (thr s t) = false) /\ value s = N.of_nat (cnt (arr E (thr s) en) n) /\ cnt (arr E (thr s) en) n < n \/
         exists z, z < n /\ (thr s z = Z /\ value s = N.of_nat n \/ thr s z = G /\ value s = 0%N) /\ cnt (arr E (thr s) en) n = n /\
                   forall t, t < n -> t <> z -> zg (thr s t) = false).
  { destruct S4 as [?|[?|?]]; auto. lia. }
  clear S4. rename S4' into S4.
  assert (Hall : cnt (arr E (thr s) en) n = n -> forall u, u < n -> spz (thr s u) = true /\ en u = S E).
  { intros Hc u Hu. assert (X := cnt_full _ _ Hc u Hu). unfold arr in X. apply andb_prop in X. destruct X as [X Y]. apply Nat.eqb_eq in Y. auto. }
  destruct (thr s t) eqn:Et; destruct a; try discriminate.
  - (* enter *)
    injection Hs as <- <-. right. left. exists t. split; auto. exists E. destruct Ht as [T1 T2]. constructor; cbn; auto.
    + intros u. upd_goal; subst; auto. rewrite S2, Nat.odd_succ, <- Nat.negb_odd. auto.
    + intros u Hu. unfold upd. destruct (Nat.eq_dec u t); [subst; auto|apply S3; auto].
    + split; [auto|]. 
      assert (Ec : cnt (arr E (upd (thr s) t A) (upd en t (S (en t)))) n = cnt (arr E (thr s) en) n).
      { apply cnt_ext. intros u Hu. unfold arr, upd. destruct (Nat.eq_dec u t); auto. subst. rewrite Et. auto. }
      rewrite Ec. destruct S4 as [[H1 H2]|[z [Hz [H1 [H2 H3]]]]].
      * left. split; auto. intros u Hu. upd_goal; auto.
      * exfalso. destruct (Hall H2 t Hlt) as [X _]. rewrite Et in X. discriminate.
  - (* faa *)
    injection Hs as <- <-. left. split; auto. exists E. destruct Ht as [T1 T2].
    destruct S4 as [[H1 [H2 H3]]|[z [Hz [H1 [H2 H3]]]]]; [|exfalso; destruct (Hall H2 t Hlt) as [X _]; rewrite Et in X; discriminate].
    assert (Eb : N.eqb (value s) (last n) = Nat.eqb (S (cnt (arr E (thr s) en) n)) n).
    { rewrite H2, last_val by lia. destruct (N.eqb_spec (N.of_nat (cnt (arr E (thr s) en) n)) (N.of_nat (n - 1))), (Nat.eqb_spec (S (cnt (arr E (thr s) en) n)) n); auto; lia. }
    rewrite Eb. set (p := if Nat.eqb (S (cnt (arr E (thr s) en) n)) n then Z else Sp).
    assert (Hp : spz p = true /\ p <> G) by (unfold p; destruct (Nat.eqb _ n); split; auto; discriminate).
    assert (Ec : cnt (arr E (upd (thr s) t p) en) n = S (cnt (arr E (thr s) en) n)).
    { assert (X := cnt_change (arr E (thr s) en) (arr E (upd (thr s) t p) en) n t Hlt). assert (X1 : arr E (thr s) en t = false) by (unfold arr; rewrite Et; auto).
      assert (X2 : arr E (upd (thr s) t p) en t = true) by (unfold arr; rewrite upd_same, T1, Nat.eqb_refl; destruct Hp as [Hp _]; rewrite Hp; auto).
      rewrite X1, X2 in X. assert (Y : forall i, i <> t -> arr E (thr s) en i = arr E (upd (thr s) t p) en i) by (intros u Hu; unfold arr; rewrite upd_other; auto). specialize (X Y). lia. }
    assert (Ev : ((value s + 1) mod 2 ^ 32 = N.of_nat (S (cnt (arr E (thr s) en) n)))%N).
    { rewrite H2, N.mod_small; [lia|]. change (2 ^ 32)%N with 4294967296%N in *. lia. }
    constructor; cbn [thr value sense lsense]; auto.
    + intros u Hu. unfold upd. destruct (Nat.eq_dec u t); [subst|apply S3; auto]. destruct Hp as [Hp1 Hp2]. destruct p; try discriminate; auto.
    + rewrite Ec. split; [auto|].
      change (N.pos (2 ^ 32)) with (2 ^ 32)%N. rewrite Ev. unfold p in *. destruct (Nat.eqb_spec (S (cnt (arr E (thr s) en) n)) n).
      * right. right. exists t. rewrite upd_same. split; auto. split; [left; split; [auto|lia]|]. split; auto. intros u Hu Hut. rewrite upd_other; auto.
      * left. split; [|split; [auto|lia]]. intros u Hu. upd_goal; subst; auto.
  - (* store value *)
    injection Hs as <- <-. left. split; auto. exists E. destruct Ht as [T1 T2].
    destruct S4 as [[H1 _]|[z [Hz [H1 [H2 H3]]]]]; [specialize (H1 t Hlt); rewrite Et in H1; discriminate|].
    assert (z = t). { destruct (Nat.eq_dec z t); auto. assert (X := H3 t Hlt (not_eq_sym n0)). rewrite Et in X. discriminate. } subst z.
    constructor; cbn [thr value sense lsense]; auto.
    + intros u Hu. unfold upd. destruct (Nat.eq_dec u t); [subst; auto|apply S3; auto].
    + split; auto. right. right. exists t. rewrite upd_same. split; auto. split; auto. split.
      * rewrite <- H2 at 2. apply cnt_ext. intros u Hu. unfold arr, upd. destruct (Nat.eq_dec u t); auto. subst. rewrite Et. auto.
      * intros u Hu Hut. rewrite upd_other; auto.
  - (* store sense *)
    injection Hs as <- <-. right. right. exists t. split; auto. exists (S E). destruct Ht as [T1 T2].
    destruct S4 as [[H1 _]|[z [Hz [H1 [H2 H3]]]]]; [specialize (H1 t Hlt); rewrite Et in H1; discriminate|].
    assert (z = t). { destruct (Nat.eq_dec z t); auto. assert (X := H3 t Hlt (not_eq_sym n0)). rewrite Et in X. discriminate. } subst z.
    destruct H1 as [[H1 _]|[_ H1]]; [congruence|].
    constructor; cbn [thr value sense lsense]; auto.
    + rewrite S2, T1. auto.
    + intros u Hu. destruct (Hall H2 u Hu) as [X1 X2]. unfold upd. destruct (Nat.eq_dec u t); [subst; split; [auto|lia]|].
      assert (X3 := H3 u Hu n0). destruct (thr s u) eqn:Eu; try discriminate. right. split; auto. specialize (S3 u Hu). rewrite Eu in S3. lia.
    + split; [auto|]. left. split; [|rewrite H1].
      * intros u Hu. upd_goal; auto.
      * rewrite cnt_all_false; [split; [auto|lia]|]. intros u Hu. unfold arr. destruct (Hall H2 u Hu) as [X1 X2]. rewrite X2.
        destruct (Nat.eqb_spec (S E) (S (S E))); [lia|apply andb_false_r].
  - (* spin *)
    rewrite S1, S2 in Hs. destruct Ht as [[T1 T2]|[T1 T2]]; rewrite T1 in Hs.
    + rewrite Nat.odd_succ, <- Nat.negb_odd in Hs. destruct (Nat.odd E) eqn:Eo; cbn in Hs; injection Hs as <- <-; left; (split; [auto|]); exists E; constructor; auto;
      try (rewrite Eo; auto); (split; [auto|tauto]).
    + rewrite eqb_reflx in Hs. injection Hs as <- <-. right. right. exists t. split; auto. exists E. constructor; cbn; auto.
      * intros u Hu. unfold upd. destruct (Nat.eq_dec u t); [subst; split; auto; lia|apply S3; auto].
      * split; [auto|].
        assert (Ec : cnt (arr E (upd (thr s) t Out) en) n = cnt (arr E (thr s) en) n).
        { apply cnt_ext. intros u Hu. unfold arr, upd. destruct (Nat.eq_dec u t); auto. subst u. rewrite Et, T1. cbn. destruct (Nat.eqb_spec E (S E)); auto. lia. }
        rewrite Ec. destruct S4 as [[H1 H2]|[z [Hz [H1 [H2 H3]]]]].
        -- left. split; auto. intros u Hu. upd_goal; auto.
        -- exfalso. destruct (Hall H2 t Hlt). lia.
Qed.

Lemma R_safe : forall s en lv t u, R s en lv -> t < n -> u < n -> lv t <= en u.
Proof.
  intros s en lv t u [E HR] Ht Hu. assert (X := r_t _ _ _ _ HR t Ht). assert (Y := r_t _ _ _ _ HR u Hu).
  destruct (thr s t), (thr s u); lia.
Qed.

Definition w (p : pc) : nat := match p with Out => 0 | Sp => 1 | G => 2 | Z => 3 | A => 4 end.
Definition mu (s : state) : nat := wsum (fun t => w (thr s t)) n.

Lemma R_prog : forall s en lv k t, R s en lv -> (forall u, u < n -> k <= en u) -> t < n -> lv t < k ->
  exists l s' e, step n s l = Some (s', e) /\ (forall u, ~ In (Enter u) e) /\ (e = [Leave t] \/ mu s' < mu s).
Proof.
  intros s en lv k t [E HR] Hk Ht Hl. destruct HR as [S1 S2 S3 [_ S4]]. assert (Tt := S3 t Ht). assert (Kt := Hk t Ht).
  assert (Hb : forall u, u < n -> negb (Nat.ltb u n) = false) by (intros u Hu; destruct (Nat.ltb_spec u n); auto; lia).
  assert (Hnone : forall u : nat, ~ In (Enter u) []) by (intros u []).
  assert (Hlv : forall v u, ~ In (Enter u) [Leave v]) by (intros v u [X|[]]; discriminate).
  destruct (Nat.eq_dec (en t) E) as [He|He].
  - (* released already *)
    assert (thr s t = Sp) by (destruct (thr s t); auto; lia). rewrite H in Tt.
    exists (t, ATick), (go s t Out), [Leave t]. unfold step. rewrite Hb, H, S1, S2, He, eqb_reflx by auto. auto.
  - assert (en t = S E /\ lv t = E) by (destruct (thr s t); lia). destruct H as [H1 H2]. assert (k = S E) by lia. subst k.
    destruct (ex_dec (fun u => match thr s u with A => true | _ => false end) n) as [[a [Ha1 Ha2]]|HnoA].
    { destruct (thr s a) eqn:Ea; try discriminate. exists (a, ATick). eexists. exists []. unfold step. rewrite Hb, Ea by auto. split; [reflexivity|]. split; auto.
      right. unfold mu. cbn [thr]. apply wsum_drop; auto. rewrite Ea. destruct (N.eqb _ _); cbn; lia. }
    assert (Hfull : cnt (arr E (thr s) en) n = n).
    { apply cnt_all_true. intros u Hu. unfold arr. assert (X := S3 u Hu). assert (Y := Hk u Hu). specialize (HnoA u Hu).
      destruct (thr s u); try discriminate; try lia; cbn [spz andb]; apply Nat.eqb_eq; lia. }
    destruct S4 as [[_ [_ S4]]|[S4|[z [Hz [D [_ _]]]]]]; try lia.
    destruct D as [[Ez _]|[Ez _]].
    + exists (z, ATick). eexists. exists []. unfold step. rewrite Hb, Ez by auto. split; [reflexivity|]. split; auto.
      right. unfold mu. cbn [thr]. apply wsum_drop; auto. rewrite Ez. cbn; lia.
    + exists (z, ATick). eexists. exists [Leave z]. unfold step. rewrite Hb, Ez by auto. split; [reflexivity|]. split; auto.
      right. unfold mu. cbn [thr]. apply wsum_drop; auto. rewrite Ez. cbn; lia.
Qed.

Theorem sep : forall ls s log, run (step n) init ls = Some (s, log) -> separated n log /\ returns_after_all n log.
Proof. intros ls s log H. split; [apply (bar_separated (step n) init n R R_init R_step R_safe ls s)|apply (bar_returns (step n) init n R R_init R_step R_safe ls s)]; auto. Qed.

Theorem prog : forall ls s log k t, run (step n) init ls = Some (s, log) -> (forall u, u < n -> k <= enters u log) -> t < n -> leaves t log < k ->
  exists ls' s' log', run (step n) s ls' = Some (s', log') /\ In (Leave t) log' /\ (forall u, ~ In (Enter u) log').
Proof. exact (bar_progress (step n) init n R R_init R_step mu R_prog). Qed.
End P.
