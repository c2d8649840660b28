From Coq Require Import Arith NArith ZArith List Bool Lia.
From Verif Require Import Lib LockProg BarSpec BarProg TsoBar_Spec BarDissem_Model BarDissem_Proof TsoDissem_Model TsoDissem_Proof TsoDissemD_Model.
Import ListNotations.
Local Arguments upd : simpl never.
Local Arguments Nat.ltb : simpl never.
Local Arguments Nat.leb : simpl never.
Local Arguments Nat.odd : simpl never.
Local Arguments Nat.pow : simpl never.

Section P.
Variable n : nat.
Hypothesis Hn : (1 <= N.of_nat n <= 2 ^ 31)%N.
Notation size := (size n). Notation partner := (partner n). Notation dist := (dist n).
Notation C := BarDissem_Proof.C. Notation D := BarDissem_Proof.D.
Notation R' := (R' n).

Definition proj (s : xst) : tst := mkT (xb s) (fun t => fls (xbuf s t)).
Lemma fls_app : forall l1 l2, fls (l1 ++ l2) = fls l1 ++ fls l2.
Proof. induction l1 as [|[x|i v] l1 IH]; intros; cbn; auto. rewrite IH. auto. Qed.
Lemma fls_in : forall l x, In x (fls l) <-> In (Fl x) l.
Proof.
  induction l as [|[y|i v] l IH]; intros x; cbn; [tauto| |].
  - rewrite IH. split; intros [H|H]; auto; left; congruence.
  - rewrite IH. split; [auto|intros [H|H]; auto; discriminate].
Qed.
Lemma bars_map : forall e, bars (map Bar e) = e.
Proof. induction e; cbn; auto. rewrite IHe. auto. Qed.
Lemma bars_app : forall l1 l2, bars (l1 ++ l2) = bars l1 ++ bars l2.
Proof. induction l1 as [|[e| |] l1 IH]; intros; cbn; auto. rewrite IH. auto. Qed.

Lemma R'_ext : forall s s' en lv, R' s en lv -> b s' = b s -> (forall t, bf s' t = bf s t) -> R' s' en lv.
Proof.
  intros s s' en lv [F [[B1 B2 B3] HR]] E1 E2. exists F. rewrite E1. split; auto. constructor; rewrite ?E1.
  - intros t x. rewrite E2. auto.
  - intros t. rewrite E2. auto.
  - intros p i k H. apply B3. intros t x Hx. apply (H t). rewrite E2. auto.
Qed.

(** without the data it is the machine of C92 *)
Lemma proj_step : forall s l s' e, xstep n s l = Some (s', e) ->
  (bars e = [] /\ xb s' = xb s /\ forall t, fls (xbuf s' t) = fls (xbuf s t)) \/
  exists l' c', tstep n (proj s) l' = Some (c', bars e) /\ b c' = xb s' /\ forall t, bf c' t = fls (xbuf s' t).
Proof.
  intros s l s' e H. destruct l as [t a|t|t i|t i v]; cbn [xstep] in H.
  - right. exists (Go t a). cbn [tstep proj b bf]. destruct (negb (Nat.ltb t n)) eqn:Hb; [discriminate|].
    assert (Lf : forall r, lift s r = Some (s', e) -> exists b' e', r = Some (b', e') /\ s' = mkX b' (xm s) (xbuf s) /\ e = map Bar e').
    { intros [[b' e']|] X; [|discriminate]. injection X as <- <-. eauto. }
    destruct (thr (xb s) t) eqn:Et; destruct a; try (destruct (xbuf s t) eqn:Ex; [|discriminate]); cbn [fls];
    try (apply Lf in H; destruct H as [b' [e' [H [-> ->]]]]; rewrite H, bars_map; eexists; split; [reflexivity|]; cbn; auto; fail).
    + destruct (Nat.ltb k size).
      * injection H as <- <-. eexists. split; [reflexivity|]. cbn. split; auto. intros u. unfold upd. destruct (Nat.eq_dec u t) as [->|]; auto. rewrite fls_app. auto.
      * apply Lf in H; destruct H as [b' [e' [H [-> ->]]]]; rewrite H, bars_map; eexists; split; [reflexivity|]; cbn; auto.
    + destruct (Bool.eqb _ _); injection H as <- <-; eexists; (split; [reflexivity|]); cbn; auto.
  - destruct (xbuf s t) as [|[x|i v] r] eqn:Ex; [discriminate| |]; injection H as <- <-.
    + right. exists (Flush t). cbn [tstep proj b bf]. rewrite Ex. cbn [fls]. eexists. split; [reflexivity|]. cbn. split; auto.
      intros u. unfold upd. destruct (Nat.eq_dec u t); auto.
    + left. cbn. split; auto. split; auto. intros u. unfold upd. destruct (Nat.eq_dec u t) as [->|]; auto. rewrite Ex. auto.
  - left. destruct (negb _); [discriminate|]. destruct (thr (xb s) t); try discriminate. injection H as <- <-. auto.
  - left. destruct (negb _); [discriminate|]. destruct (thr (xb s) t); try discriminate. injection H as <- <-. cbn. split; auto. split; auto.
    intros u. unfold upd. destruct (Nat.eq_dec u t) as [->|]; auto. rewrite fls_app. cbn. apply app_nil_r.
Qed.

Definition XR (s : xst) (en lv : nat -> nat) : Prop := R' (proj s) en lv.
Lemma XR_step : forall s en lv l s' e, XR s en lv -> xstep n s l = Some (s', e) ->
  (bars e = [] /\ XR s' en lv) \/ (exists t, bars e = [Enter t] /\ XR s' (upd en t (S (en t))) lv) \/
  (exists t, bars e = [Leave t] /\ XR s' en (upd lv t (S (lv t)))).
Proof.
  intros s en lv l s' e HR H. destruct (proj_step s l s' e H) as [[E1 [E2 E3]]|[l' [c' [E1 [E2 E3]]]]].
  - left. split; auto. apply R'_ext with (s := proj s); auto.
  - assert (K : forall en' lv', R' c' en' lv' -> XR s' en' lv') by (intros en' lv' X; apply R'_ext with (s := c'); auto; intros; cbn; auto).
    destruct (R'_step n Hn _ _ _ _ _ _ HR E1) as [[X1 X]|[[t [X1 X]]|[t [X1 X]]]]; eauto 6.
Qed.
Definition bstep (s : xst) (l : xlab) : option (xst * list bev) :=
  match xstep n s l with Some (s', e) => Some (s', bars e) | None => None end.
Lemma run_bars : forall ls s s' log, run (xstep n) s ls = Some (s', log) -> run bstep s ls = Some (s', bars log).
Proof.
  induction ls as [|l ls IH]; intros s s' log H; cbn [run] in *; [injection H as <- <-; auto|]. unfold bstep at 1.
  destruct (xstep n s l) as [[s1 e]|]; [|discriminate]. destruct (run (xstep n) s1 ls) as [[s2 lg]|] eqn:Er; [|discriminate].
  injection H as <- <-. rewrite (IH _ _ _ Er), bars_app. auto.
Qed.
Lemma XR_init : forall M, XR (xinit M) (fun _ => 0) (fun _ => 0).
Proof. intros M. apply R'_ext with (s := tinit); auto. apply R'_init; auto. Qed.
Theorem xsep : forall M ls s log, run (xstep n) (xinit M) ls = Some (s, log) -> separated n (bars log) /\ returns_after_all n (bars log).
Proof.
  intros M ls s log H. apply run_bars in H.
  assert (St : forall s en lv l s' e, XR s en lv -> bstep s l = Some (s', e) ->
    (e = [] /\ XR s' en lv) \/ (exists t, e = [Enter t] /\ XR s' (upd en t (S (en t))) lv) \/ (exists t, e = [Leave t] /\ XR s' en (upd lv t (S (lv t))))).
  { intros s0 en lv l s' e HR Hs. unfold bstep in Hs. destruct (xstep n s0 l) as [[s1 e1]|] eqn:E1; [|discriminate]. injection Hs as <- <-. eapply XR_step; eauto. }
  assert (Sa : forall s en lv t u, XR s en lv -> t < n -> u < n -> lv t <= en u) by (intros s0 en lv t u X; eapply R'_safe; eauto).
  split; [apply (bar_separated bstep (xinit M) n XR (XR_init M) St Sa ls s)|apply (bar_returns bstep (xinit M) n XR (XR_init M) St Sa ls s)]; auto.
Qed.

(** * Data *)
Definition pend (s : xst) (u i : nat) : Prop := exists v, In (Da i v) (xbuf s u).
(** nobody else relies on what [u] wrote after [q] calls *)
Definition KN (thr : nat -> pc) (en lv : nat -> nat) (u q : nat) : Prop :=
  forall t, t < n -> t <> u -> lv t <= q /\ (q < en t -> 2 ^ prg n (thr t) <= dist u t).
(** whatever [u] signalled since is buffered behind it *)
Definition BH (l : list xent) (thr : nat -> pc) (en lv : nat -> nat) (u q i : nat) : Prop :=
  forall l1 v l2, l = l1 ++ Da i v :: l2 -> forall k, k < size -> q < D lv en thr u k -> exists x, In (Fl x) l2 /\ ep x = Nat.odd q /\ ek x = k.
Definition DI (s : xst) (en lv : nat -> nat) (a : dst) (i : nat) : Prop :=
  match lw a i with
  | None => (forall u, dview s u i = dv a i) /\ forall u, ~ pend s u i
  | Some (u, q) => u < n /\ dview s u i = dv a i /\ (forall v, v <> u -> ~ pend s v i) /\
      (pend s u i -> KN (thr (xb s)) en lv u q /\ BH (xbuf s u) (thr (xb s)) en lv u q i)
  end.

Lemma dfw_none : forall l i d, (forall v, ~ In (Da i v) l) -> dfw l i d = d.
Proof.
  induction l as [|[x|j v] l IH]; intros i d H; cbn; auto.
  - apply IH. intros w Hw. apply (H w). right. auto.
  - destruct (Nat.eqb_spec j i) as [->|]; [exfalso; apply (H v); left; auto|]. apply IH. intros w Hw. apply (H w). right. auto.
Qed.
Lemma dfw_app : forall l1 l2 i d, dfw (l1 ++ l2) i d = dfw l2 i (dfw l1 i d).
Proof. induction l1 as [|[x|j v] l1 IH]; intros; cbn; auto. Qed.

Lemma DI_gen : forall s en lv a s' en' lv' a' i, DI s en lv a i -> dv a' i = dv a i -> lw a' i = lw a i ->
  (forall u, pend s' u i -> pend s u i) ->
  (forall u, lw a i = None \/ (exists q, lw a i = Some (u, q)) -> dview s' u i = dview s u i) ->
  (forall u q, u < n -> pend s' u i -> KN (thr (xb s)) en lv u q -> BH (xbuf s u) (thr (xb s)) en lv u q i ->
     KN (thr (xb s')) en' lv' u q /\ BH (xbuf s' u) (thr (xb s')) en' lv' u q i) -> DI s' en' lv' a' i.
Proof.
  intros s en lv a s' en' lv' a' i H E1 E2 Hp Hv Ho. unfold DI in *. rewrite E1, E2. destruct (lw a i) as [[u q]|] eqn:El.
  - destruct H as [H0 [H1 [H2 H3]]]. split; auto. split; [rewrite Hv; eauto|]. split.
    + intros v Hne X. apply (H2 v Hne). auto.
    + intros X. destruct (H3 (Hp _ X)). apply Ho; auto.
  - destruct H as [H1 H2]. split; [intros u; rewrite Hv; auto|]. intros u X. apply (H2 u). auto.
Qed.

Lemma BH_ext : forall l thr en lv thr' en' lv' u q i, BH l thr en lv u q i -> (forall k, k < size -> D lv' en' thr' u k = D lv en thr u k) -> BH l thr' en' lv' u q i.
Proof. intros l thr0 en lv thr' en' lv' u q i H HD l1 v l2 E k Hk Hq. rewrite HD in Hq by auto. eapply H; eauto. Qed.
Lemma BH_app : forall l y thr en lv u q i, BH l thr en lv u q i -> (forall v, y <> Da i v) -> BH (l ++ [y]) thr en lv u q i.
Proof.
  intros l y thr0 en lv u q i H Hy l1 v l2 E k Hk Hq. destruct (exists_last (l := Da i v :: l2)) as [m [z Ez]]; [discriminate|].
  assert (E' : l ++ [y] = (l1 ++ m) ++ [z]) by (rewrite E, Ez, app_assoc; auto). apply app_inj_tail in E'. destruct E' as [E1 E2].
  destruct m as [|c m]; cbn in Ez; injection Ez as Ec Em; [exfalso; apply (Hy v); congruence|].
  destruct (H l1 v m) with (k := k) as [x [X1 X2]]; auto; [rewrite E1, <- Ec; auto|]. exists x. split; auto. rewrite Em. apply in_app_iff. auto.
Qed.

Lemma DI_acc : forall s en lv a t i F, R n (sf (xb s) F) en lv -> DI s en lv a i -> ph a = en -> t < n -> thr (xb s) t = Out -> ordered a t i = true ->
  (forall u, u <> t -> ~ pend s u i) /\ dview s t i = dv a i.
Proof.
  intros s en lv a t i F HR Hd Hph Ht Ho Hor. unfold DI, ordered in *. destruct (lw a i) as [[u q]|]; [|destruct Hd; auto].
  destruct Hd as [H0 [H1 [H2 H3]]]. destruct (Nat.eqb_spec u t) as [->|Hne]; auto. cbn [orb] in Hor. apply Nat.ltb_lt in Hor. rewrite Hph in Hor.
  assert (X : ~ pend s u i).
  { intros Hp. destruct (H3 Hp) as [K _]. destruct (K t Ht ltac:(auto)) as [K1 _]. assert (Y := r_el _ _ _ _ HR t Ht). cbn in Y. rewrite Ho in Y. cbn in Y. lia. }
  split.
  - intros v _. destruct (Nat.eq_dec v u) as [->|]; auto.
  - rewrite <- H1. unfold dview. rewrite !dfw_none; auto; intros v Hv.
    + apply X. exists v. auto.
    + apply (H2 t); auto. exists v. auto.
Qed.

Definition nph (en : nat -> nat) (e : list dbev) : nat -> nat := match e with [Bar (Enter t)] => upd en t (S (en t)) | _ => en end.
Definition nlv (lv : nat -> nat) (e : list dbev) : nat -> nat := match e with [Bar (Leave t)] => upd lv t (S (lv t)) | _ => lv end.

Lemma dist_pos : forall u t, u < n -> t < n -> u <> t -> 1 <= dist u t < n.
Proof. intros u t Hu Ht Hne. unfold BarDissem_Proof.dist. destruct (Nat.leb_spec u t); lia. Qed.

Lemma DI_step : forall s en lv a l s' e, XR s en lv -> ph a = en -> (forall i, DI s en lv a i) -> xstep n s l = Some (s', e) ->
  exists x, accepts d_step (Some a) e = Some x /\
    match x with None => True | Some a' => ph a' = nph en e /\ forall i, DI s' (nph en e) (nlv lv e) a' i end.
Proof.
  intros s en lv a l s' e [F [HB HR]] Hph Hd Hs. cbn [proj b] in HR. destruct l as [t c|t|t i|t i v]; cbn [xstep] in Hs.
  - destruct (Nat.ltb_spec t n) as [Ht|]; [|discriminate]. cbn [negb] in Hs.
    assert (Htb : negb (Nat.ltb t n) = false) by (destruct (Nat.ltb_spec t n); auto; lia).
    assert (Rpc := r_pc _ _ _ _ HR t Ht). assert (Rel := r_el _ _ _ _ HR t Ht). cbn [sf thr] in Rpc, Rel.
    assert (Sub : match thr (xb s) t with Unsub => False | _ => True end -> N.eqb (N.of_nat t) (tid (xb s)) = true -> False).
    { intros X Y. apply N.eqb_eq in Y. destruct (r_tid _ _ _ _ HR) as [m [M1 [M2 M3]]]. cbn in M1, M3. rewrite (M3 t Ht) in X by lia. auto. }
    destruct (thr (xb s) t) eqn:Et; destruct c; unfold step in Hs; rewrite ?Htb, ?Et in Hs; try discriminate Hs;
      try (exfalso; destruct (xbuf s t); [|discriminate]; destruct (N.eqb _ _) eqn:Eq; [exact (Sub I eq_refl)|discriminate]).
    + (* subscribe *)
      destruct (xbuf s t); [|discriminate]. destruct (N.eqb (N.of_nat t) (tid (xb s))); [|discriminate]. injection Hs as <- <-.
      exists (Some a). split; auto. split; auto. intros i. apply DI_gen with (s := s) (en := en) (lv := lv) (a := a); auto. cbn [xb thr xbuf nph nlv].
      intros u q Hu _ K B. split.
      * intros w Hw Hne. destruct (K w Hw Hne) as [K1 K2]. split; auto. unfold upd. destruct (Nat.eq_dec w t) as [->|]; auto. rewrite Et in K2. auto.
      * eapply BH_ext; [exact B|]. intros k Hk. unfold D, upd. destruct (Nat.eq_dec u t) as [->|]; auto. rewrite Et. auto.
    + (* enter *)
      injection Hs as <- <-. exists (Some {| ph := upd (ph a) t (S (ph a t)); dv := dv a; lw := lw a |}). split; [reflexivity|]. split; [cbn; rewrite Hph; auto|].
      intros i. apply DI_gen with (s := s) (en := en) (lv := lv) (a := a); auto. cbn [xb thr xbuf go map nph nlv]. cbn in Rel.
      intros u q Hu _ K B. split.
      * intros w Hw Hne. destruct (K w Hw Hne) as [K1 K2]. split; auto. unfold upd. destruct (Nat.eq_dec w t) as [->|]; auto. intros _. cbn.
        change (2 ^ 0) with 1. apply dist_pos; auto.
      * eapply BH_ext; [exact B|]. intros k Hk. unfold D, upd. destruct (Nat.eq_dec u t) as [->|]; auto. rewrite Et. cbn. destruct (Nat.leb_spec 0 k); lia.
    + (* loop head *)
      destruct (Nat.ltb_spec k size) as [Hk|Hk].
      * injection Hs as <- <-. exists (Some a). split; auto. split; auto. cbn in Rel. destruct (r_ps _ _ _ _ HR t Ht) as [P1 P2]; [cbn; congruence|]. cbn in P1.
        set (x := TsoDissem_Model.E (par (xb s) t) (partner t k) k (sns (xb s) t)) in *.
        intros i. apply DI_gen with (s := s) (en := en) (lv := lv) (a := a); auto; cbn [nph nlv].
        -- intros u [z Hz]. exists z. cbn [xbuf] in Hz. unfold upd in Hz. destruct (Nat.eq_dec u t) as [->|]; auto. apply in_app_iff in Hz. destruct Hz as [Hz|[Hz|[]]]; auto. discriminate.
        -- intros u _. unfold dview. cbn [xbuf xm]. unfold upd. destruct (Nat.eq_dec u t) as [->|]; auto. rewrite dfw_app. auto.
        -- cbn [xb thr xbuf go]. intros u q Hu _ K B. split.
           ++ intros w Hw Hne. destruct (K w Hw Hne) as [K1 K2]. split; auto. unfold upd. destruct (Nat.eq_dec w t) as [->|]; auto. rewrite Et in K2. auto.
           ++ unfold upd at 1. destruct (Nat.eq_dec u t) as [->|Hne].
              ** intros l1 z l2 E1 j Hj Hq.
                 assert (B' := BH_app _ (Fl x) _ _ _ _ _ _ B ltac:(discriminate) l1 z l2 E1 j Hj).
                 destruct (Nat.eq_dec j k) as [->|Hjk].
                 --- unfold D in Hq. rewrite upd_same in Hq. cbn in Hq. rewrite Nat.ltb_irrefl in Hq.
                     destruct (Nat.eq_dec q (lv t)) as [->|Hql].
                     +++ exists x. split; [|auto].
                         destruct (exists_last (l := Da i z :: l2)) as [m [y Ey]]; [discriminate|].
                         assert (E' : xbuf s t ++ [Fl x] = (l1 ++ m) ++ [y]) by (rewrite E1, Ey, app_assoc; auto). apply app_inj_tail in E'. destruct E' as [_ E2].
                         destruct m as [|c m]; cbn in Ey; injection Ey as Ec Em; [congruence|]. rewrite Em, <- E2. apply in_app_iff. right. left. auto.
                     +++ apply B'. unfold D. rewrite Et. cbn. rewrite Nat.leb_refl. lia.
                 --- apply B'. unfold D in *. rewrite upd_same in Hq. rewrite Et. cbn in *. destruct (Nat.ltb_spec k j), (Nat.leb_spec k j); lia.
              ** eapply BH_ext; [exact B|]. intros j Hj. unfold D, upd. destruct (Nat.eq_dec u t); congruence.
      * destruct (Nat.ltb_spec k size); [lia|]. injection Hs as <- <-. exists (Some a). split; auto. split; auto. cbn in Rel. assert (k = size) by lia. subst k.
        intros i. apply DI_gen with (s := s) (en := en) (lv := lv) (a := a); auto. cbn [xb thr xbuf map nph nlv].
        intros u q Hu _ K B. split.
        -- intros w Hw Hne. destruct (K w Hw Hne) as [K1 K2]. unfold upd. destruct (Nat.eq_dec w t) as [->|]; auto. rewrite Et in K2. cbn in K2.
           assert (Y := dist_pos u t Hu Ht ltac:(auto)). assert (Z := size_cover n Hn).
           assert (~ q < en t) by (intros X; specialize (K2 X); lia). split; [lia|]. intros X. lia.
        -- eapply BH_ext; [exact B|]. intros j Hj. unfold D, upd. destruct (Nat.eq_dec u t) as [->|]; auto. rewrite Et. cbn. destruct (Nat.leb_spec size j); lia.
    + (* wait *)
      assert (Own : forall x, In x (fls (xbuf s t)) -> hit x (par (xb s) t) t k = false).
      { intros x Hx. destruct (hit x _ _ _) eqn:Eh; auto. apply hit_eq in Eh. destruct Eh as [E1 [E2 E3]]. destruct (b_in _ _ _ _ _ HB t x Hx) as [Q1 [Q2 [Q3 _]]].
        exfalso. apply (partner_ne n Hn t k); auto. congruence. }
      rewrite (fw_none _ _ _ _ _ Own) in Hs.
      destruct (r_ps _ _ _ _ HR t Ht) as [P1 P2]; [cbn; congruence|]. cbn in P1, P2, Rel.
      destruct (Bool.eqb (flag (xb s) (par (xb s) t) t k) (sns (xb s) t)) eqn:Eb; injection Hs as <- <-; exists (Some a); (split; [auto|]); (split; [auto|]); [|exact Hd].
      apply eqb_prop in Eb. destruct (partner_surj n Hn t k Ht Rpc) as [w [Hw Hpw]].
      (* the store has arrived, so it is not buffered *)
      assert (Np : forall x, In x (fls (xbuf s w)) -> ep x = Nat.odd (lv t) -> ek x = k -> False).
      { intros x Hx Ex Ek. destruct (b_in _ _ _ _ _ HB w x Hx) as [Q1 [Q2 [Q3 [Q4 [Q5 [e [Q6 [Q7 Q8]]]]]]]]. cbn [proj b] in *.
        assert (Ah := ahead n Hn _ en lv w k HR Hw Rpc). cbn [sf thr] in Ah. rewrite Ek, Hpw in Q3. rewrite Hpw in Ah. rewrite Q3, Ek in *. rewrite Ex in *.
        assert (Ct : C lv en (thr (xb s)) t k = lv t) by (unfold C; rewrite Et; cbn; rewrite Nat.leb_refl; auto). rewrite Ct in *.
        assert (e = lv t) by (apply (odd_ne2 n Hn); [congruence|lia|lia]). subst e.
        assert (Fl := r_fl _ _ _ _ HR w k (Nat.odd (lv t)) Hw Rpc). cbn [sf flag thr] in Fl. rewrite Hpw in Fl.
        assert (HDc : D lv en (thr (xb s)) w k = S (lv t) \/ D lv en (thr (xb s)) w k = S (S (lv t))) by lia.
        assert (F1 : F (Nat.odd (lv t)) t k = sn (lv t)) by (destruct HDc as [Z|Z]; rewrite Z in Fl; [rewrite fl_at in Fl|rewrite fl_after in Fl]; auto).
        rewrite P1 in Eb. rewrite Q4, F1, Eb, P2 in Q5. destruct (sn (lv t)); discriminate. }
      (* it is this episode's *)
      assert (M : flag (xb s) (par (xb s) t) t k = F (par (xb s) t) t k).
      { apply (b_no _ _ _ _ _ HB). cbn [proj bf]. intros u x Hx. destruct (hit x _ _ _) eqn:Eh; auto. exfalso. apply hit_eq in Eh. destruct Eh as [E1 [E2 E3]].
        destruct (b_in _ _ _ _ _ HB u x Hx) as [Q1 [Q2 [Q3 _]]]. assert (u = w). { apply (partner_inj n Hn u w k); auto. rewrite Hpw, <- E3, <- Q3. auto. } subst u.
        apply (Np x Hx); congruence. }
      assert (HD : S (lv t) <= D lv en (thr (xb s)) w k).
      { destruct (see n Hn (sf (xb s) F) en lv t w k HR Ht Hw Rpc Hpw Et) as [_ S2]. cbn in S2. apply S2. rewrite <- M. auto. }
      intros i. apply DI_gen with (s := s) (en := en) (lv := lv) (a := a); auto. cbn [xb thr xbuf go nph nlv].
      intros u q Hu Hp K B. split.
      * intros v Hv Hne. destruct (K v Hv Hne) as [K1 K2]. split; auto. unfold upd. destruct (Nat.eq_dec v t) as [->|]; auto. rewrite Et in K2. cbn [prg] in *.
        intros Hq. specialize (K2 Hq). destruct (Nat.lt_ge_cases (dist u t) (2 ^ S k)) as [Hc|Hc]; auto. exfalso.
        assert (q = lv t) by lia. subst q.
        assert (Hdw : dist u w < 2 ^ k) by (apply (dist_partner n Hn u w k); rewrite ?Hpw; auto).
        destruct (Nat.eq_dec w u) as [->|Hwu].
        -- destruct Hp as [z Hz]. cbn [xbuf] in Hz. apply in_split in Hz. destruct Hz as [l1 [l2 Ez]].
           destruct (B l1 z l2 Ez k Rpc ltac:(lia)) as [x [X1 [X2 X3]]]. apply (Np x); auto. apply fls_in. rewrite Ez. apply in_app_iff. right. right. auto.
        -- destruct (K w Hw Hwu) as [W1 W2]. assert (Ew := r_el _ _ _ _ HR w Hw). cbn in Ew.
           assert (Z : lv t < en w) by (unfold D in HD; destruct (nst (thr (xb s) w) k); lia). specialize (W2 Z).
           assert (k <= prg n (thr (xb s) w)).
           { unfold D in HD. destruct (thr (xb s) w) as [| |j|j] eqn:Ew2; cbn in *; try lia.
             - destruct (Nat.leb_spec j k); lia.
             - destruct (Nat.ltb_spec j k); lia. }
           assert (2 ^ k <= 2 ^ prg n (thr (xb s) w)) by (apply Nat.pow_le_mono_r; lia). lia.
      * eapply BH_ext; [exact B|]. intros j Hj. unfold D, upd. destruct (Nat.eq_dec u t) as [->|]; auto. rewrite Et. cbn [nst]. destruct (Nat.ltb_spec k j), (Nat.leb_spec (S k) j); lia.
  - (* arrival *)
    assert (Sub : forall y r, xbuf s t = y :: r -> forall u i, (exists v, In (Da i v) (upd (xbuf s) t r u)) -> pend s u i).
    { intros y r Ex u i [z Hz]. exists z. unfold upd in Hz. destruct (Nat.eq_dec u t) as [->|]; auto. rewrite Ex. right. auto. }
    assert (Bt : forall y r, xbuf s t = y :: r -> forall u q i, BH (xbuf s u) (thr (xb s)) en lv u q i -> BH (upd (xbuf s) t r u) (thr (xb s)) en lv u q i).
    { intros y r Ex u q i B. unfold upd. destruct (Nat.eq_dec u t) as [->|]; auto. intros l1 z l2 E1. apply (B (y :: l1) z l2). rewrite Ex, E1. auto. }
    destruct (xbuf s t) as [|[x|j v] r] eqn:Ex; [discriminate| |]; injection Hs as <- <-; exists (Some a); (split; [auto|]); (split; [auto|]); intros i;
      (apply DI_gen with (s := s) (en := en) (lv := lv) (a := a); auto; cbn [nph nlv]);
      try (intros u Hu; eapply Sub; [reflexivity|exact Hu]); try (cbn [xb thr xbuf]; intros u q Hu _ K B; split; [exact K|]; eapply Bt; [reflexivity|exact B]).
    + intros u _. unfold dview. cbn [xbuf xm]. unfold upd. destruct (Nat.eq_dec u t) as [->|]; auto. rewrite Ex. auto.
    + intros u Hl. unfold dview. cbn [xbuf xm]. unfold upd at 1. destruct (Nat.eq_dec u t) as [->|Hne].
      * rewrite Ex. cbn. unfold upd. destruct (Nat.eq_dec i j) as [->|Hij]; [rewrite Nat.eqb_refl; auto|]. destruct (Nat.eqb_spec j i); congruence.
      * f_equal. unfold upd. destruct (Nat.eq_dec i j) as [->|]; auto. exfalso. assert (Hp : pend s t j) by (exists v; rewrite Ex; left; auto).
        specialize (Hd j). unfold DI in Hd. destruct Hl as [Hl|[q Hl]]; rewrite Hl in Hd.
        -- destruct Hd as [_ Hd]. apply (Hd t). auto.
        -- destruct Hd as [_ [_ [Hd _]]]. apply (Hd t); auto.
  - (* read *)
    destruct (Nat.ltb_spec t n) as [Ht|]; [|discriminate]. cbn [negb] in Hs. destruct (thr (xb s) t) eqn:Et; try discriminate. injection Hs as <- <-.
    cbn [accepts d_step]. destruct (ordered a t i) eqn:Eo; [|exists None; auto].
    destruct (DI_acc s en lv a t i F HR (Hd i) Hph Ht Et Eo) as [_ ->]. rewrite Z.eqb_refl. exists (Some a). auto.
  - (* write *)
    destruct (Nat.ltb_spec t n) as [Ht|]; [|discriminate]. cbn [negb] in Hs. destruct (thr (xb s) t) eqn:Et; try discriminate. injection Hs as <- <-.
    cbn [accepts d_step]. destruct (ordered a t i) eqn:Eo; [|exists None; auto].
    destruct (DI_acc s en lv a t i F HR (Hd i) Hph Ht Et Eo) as [A1 _]. eexists. split; [reflexivity|]. split; [exact Hph|]. intros j. cbn [nph nlv].
    destruct (Nat.eq_dec j i) as [->|Hj].
    + unfold DI. cbn [lw dv]. rewrite !upd_same. split; auto. split; [|split].
      * unfold dview. cbn [xbuf xm]. rewrite upd_same, dfw_app. cbn. rewrite Nat.eqb_refl. auto.
      * intros u Hne [z Hz]. cbn [xbuf] in Hz. rewrite upd_other in Hz by auto. apply (A1 u Hne). exists z. auto.
      * intros _. cbn [xb thr]. rewrite Hph. split.
        -- intros u Hu Hne. split; [exact (r_sf _ _ _ _ HR u t Hu Ht)|]. intros Hq.
           destruct (Nat.lt_ge_cases (dist t u) (2 ^ prg n (thr (xb s) u))) as [Hc|Hc]; auto.
           assert (Z := r_kn _ _ _ _ HR u t Hu Ht Hc). lia.
        -- intros l1 z l2 _ k Hk Hq. exfalso. unfold D in Hq. rewrite Et in Hq. cbn in Hq. lia.
    + apply DI_gen with (s := s) (en := en) (lv := lv) (a := a); auto; cbn [dv lw]; try (rewrite upd_other; auto; fail).
      * intros u [z Hz]. exists z. cbn [xbuf] in Hz. unfold upd in Hz. destruct (Nat.eq_dec u t) as [->|]; auto.
        apply in_app_iff in Hz. destruct Hz as [Hz|[Hz|[]]]; auto. congruence.
      * intros u _. unfold dview. cbn [xbuf xm]. unfold upd. destruct (Nat.eq_dec u t) as [->|]; auto. rewrite dfw_app. cbn. destruct (Nat.eqb_spec i j); congruence.
      * cbn [xb thr xbuf]. intros u q Hu _ K B. split; auto. unfold upd. destruct (Nat.eq_dec u t) as [->|]; auto. apply BH_app; auto. intros z Hz. congruence.
Qed.

Lemma accepts_none : forall e, accepts d_step None e = Some None.
Proof. induction e; cbn; auto. Qed.
Lemma bars_one : forall s l s' e, xstep n s l = Some (s', e) -> length e <= 1.
Proof.
  intros s l s' e H. assert (St : forall x c, match step n x c with Some (_, e0) => length e0 <= 1 | None => True end).
  { intros x [t c]. unfold step. destruct (negb _); auto. destruct (thr x t), c; auto; try destruct (N.eqb _ _); try destruct (Nat.ltb _ _); try destruct (Bool.eqb _ _); cbn; auto. }
  assert (Lf : forall x c, lift s (step n x c) = Some (s', e) -> length e <= 1).
  { intros x c X. specialize (St x c). destruct (step n x c) as [[b' e']|]; [|discriminate]. injection X as <- <-. rewrite map_length. auto. }
  destruct l as [t a|t|t i|t i v]; cbn [xstep] in H.
  - destruct (negb _); [discriminate|]. destruct (thr (xb s) t), a; try (destruct (xbuf s t); [|discriminate]); try (eapply Lf; eauto; fail).
    + destruct (Nat.ltb _ _); [injection H as <- <-; cbn; auto|eapply Lf; eauto].
    + destruct (Bool.eqb _ _); injection H as <- <-; cbn; auto.
  - destruct (xbuf s t) as [|[x|i v] r]; [discriminate| |]; injection H as <- <-; cbn; auto.
  - destruct (negb _); [discriminate|]. destruct (thr (xb s) t); try discriminate. injection H as <- <-. auto.
  - destruct (negb _); [discriminate|]. destruct (thr (xb s) t); try discriminate. injection H as <- <-. auto.
Qed.

Theorem data_ok : forall M ls s log, run (xstep n) (xinit M) ls = Some (s, log) -> data_legal M log.
Proof.
  intros M ls s log Hr. unfold data_legal.
  destruct (run_refines (xstep n) d_step
    (fun s x => exists en lv, XR s en lv /\ match x with None => True | Some a => ph a = en /\ forall i, DI s en lv a i end)
    (xinit M) (Some {| ph := fun _ => 0; dv := M; lw := fun _ => None |})) with (ls := ls) (s := s) (log := log) as [x [X _]]; auto; [| |exists x; auto].
  - exists (fun _ => 0), (fun _ => 0). split; [apply XR_init|]. split; auto. intros i. unfold DI. cbn. split; auto. intros u [v []].
  - intros s1 x l s2 ev [en [lv [HR Hx]]] Hs. assert (HR2 := XR_step _ _ _ _ _ _ HR Hs).
    assert (HR3 : XR s2 (nph en ev) (nlv lv ev)).
    { assert (L1 := bars_one _ _ _ _ Hs). destruct HR2 as [[E1 X]|[[t [E1 X]]|[t [E1 X]]]]; destruct ev as [|[[u|u]| |] [|? ?]]; cbn in *; try discriminate; try lia; auto; injection E1 as ->; auto. }
    destruct x as [a|].
    + destruct Hx as [Hp Hd]. destruct (DI_step s1 en lv a l s2 ev HR Hp Hd Hs) as [x [Hx Hy]]. exists x. split; auto.
      exists (nph en ev), (nlv lv ev). split; auto.
    + exists None. rewrite accepts_none. split; auto. eauto.
Qed.
End P.
