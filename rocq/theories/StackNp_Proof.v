(** Proofs about the phased stack operations. *)
From Coq Require Import Arith List Bool Lia.
From Verif Require Import Lib Lin Stack_Model Stack_Spec Stack_Proof StackNp_Model.
Import ListNotations.
Local Arguments Nat.eqb : simpl never.
Local Arguments Nat.ltb : simpl never.
Local Arguments upd : simpl never.

Definition nphase (p : npc) : phase sop sres :=
  match p with NIdle => Idle | N1 e | N2 e => Called (Push e) | N3 _ _ => Done RU end.
(** the entry a thread is pushing *)
Definition npush (p : npc) : option nat := match p with N1 e | N2 e | N3 e _ => Some e | NIdle => None end.
Definition pre (p : npc) : option nat := match p with N1 e | N2 e => Some e | _ => None end.

Section Np.
Variable n : nat.

(** [ef] is the next field as it will be once the pushes in progress complete *)
Record NR (s : nst) (a : list nat * (nat -> phase sop sres)) : Prop := {
  NR_ef : exists ef, chain ef (nhead s) (fst a) /\
     (forall t e st, nthr s t = N3 e st -> ef e = st) /\
     (forall e, In e (fst a) -> (forall t st, nthr s t <> N3 e st) -> ef e = nnxt s e);
  NR_nd : NoDup (fst a);
  NR_len : length (fst a) <= npushes s;
  NR_own : forall e, nown s e = true -> ~ In e (fst a) /\ forall t, npush (nthr s t) <> Some e;
  NR_uni : forall t u e, npush (nthr s t) = Some e -> npush (nthr s u) = Some e -> t = u;
  NR_pre : forall t e, pre (nthr s t) = Some e -> ~ In e (fst a);
  NR_th : forall t, snd a t = nphase (nthr s t);
  NR_nt : forall t, n <= t -> nthr s t = NIdle }.

Lemma NR_init : NR ninit ([], idle).
Proof.
  constructor; simpl; auto; try discriminate.
  - exists (fun _ => None). repeat split; auto. discriminate.
  - constructor.
  - intros e _. split; [auto|discriminate].
Qed.

Lemma quiet_all : forall s a, NR s a -> quiet n s = true -> forall t, nthr s t = NIdle.
Proof.
  intros s a HR Q t. destruct (Nat.lt_ge_cases t n) as [L|L]; [|apply (NR_nt _ _ HR); auto].
  unfold quiet in Q. rewrite forallb_forall in Q. specialize (Q t). rewrite in_seq in Q. specialize (Q ltac:(lia)).
  destruct (nthr s t); auto; discriminate.
Qed.

(** in a quiet state the memory chain is the abstract stack *)
Lemma quiet_chain : forall s a, NR s a -> (forall t, nthr s t = NIdle) -> chain (nnxt s) (nhead s) (fst a).
Proof.
  intros s a HR Q. destruct (NR_ef _ _ HR) as [ef [C [_ E]]]. apply chain_ext with (nx := ef); auto.
  intros e He. symmetry. apply E; auto. intros t st. rewrite Q. discriminate.
Qed.

(** an operation performed in a quiet state *)
Lemma NR_quiet : forall s a t o r q' s', NR s a -> (forall t, nthr s t = NIdle) -> lifo (fst a) o r = Some q' ->
  nthr s' = nthr s -> chain (nnxt s') (nhead s') q' -> NoDup q' -> length q' <= npushes s' ->
  (forall e, nown s' e = true -> ~ In e q') ->
  exists a', accepts (lstep lifo sres_dec) a (atomically t o r) = Some a' /\ NR s' a'.
Proof.
  intros s [q th] t o r q' s' HR Q Hl E C ND L O.
  pose proof (NR_th _ _ HR) as TH. cbn [snd fst] in *.
  eexists. split.
  - unfold atomically. cbn [accepts lstep]. rewrite TH, Q. cbn [nphase lstep]. rewrite upd_same, Hl. cbn [lstep]. rewrite upd_same.
    destruct (sres_dec r r) as [_|]; [|congruence]. reflexivity.
  - constructor; cbn [fst snd]; auto; rewrite ?E.
    + exists (nnxt s'). repeat split; auto. intros u e st. rewrite Q. discriminate.
    + intros e He. split; auto. intros u. rewrite Q. discriminate.
    + intros u v e. rewrite Q. discriminate.
    + intros u e. rewrite Q. discriminate.
    + intros u. rewrite Q, !upd_eqv. destruct (Nat.eq_dec u t); auto. rewrite TH, Q. auto.
    + intros u Hu. apply Q.
Qed.

Lemma NR_step : forall s a l s' ev, NR s a -> nstep n s l = Some (s', ev) ->
  exists a', accepts (lstep lifo sres_dec) a ev = Some a' /\ NR s' a'.
Proof.
  intros s a [t ac] s' ev HR Hst. unfold nstep in Hst.
  destruct (Nat.ltb_spec t n) as [Ht|]; [|discriminate]. cbn [negb] in Hst.
  destruct ac as [e|e| | |].
  - (* push_mpnc call *)
    destruct (nthr s t) eqn:Et; try discriminate. destruct (nown s e) eqn:Eo; [|discriminate]. injection Hst as <- <-.
    destruct a as [q th]. destruct HR as [[ef [C [E1 E2]]] ND L O U PR TH NT]. cbn [fst snd] in *.
    destruct (O e Eo) as [O1 O2].
    eexists. split; [cbn [accepts lstep]; rewrite TH, Et; reflexivity|].
    constructor; cbn [fst snd nhead nnxt nthr nown npushes]; auto.
    + exists ef. split; auto. split.
      * intros u x st. rewrite upd_eqv. destruct (Nat.eq_dec u t); [discriminate|apply E1].
      * intros x Hx Hn. apply E2; auto. intros u st Hu. apply (Hn u st). rewrite upd_other; auto. intros ->. congruence.
    + intros x Hx. rewrite upd_eqv in Hx. destruct (Nat.eq_dec x e); [discriminate|]. destruct (O x Hx) as [X1 X2]. split; auto.
      intros u. rewrite upd_eqv. destruct (Nat.eq_dec u t); simpl; [congruence|auto].
    + intros u v x. rewrite !upd_eqv. destruct (Nat.eq_dec u t); destruct (Nat.eq_dec v t); simpl; intros H1 H2; subst; auto.
      * injection H1 as <-. destruct (O2 _ H2).
      * injection H2 as <-. destruct (O2 _ H1).
      * eapply U; eauto.
    + intros u x. rewrite upd_eqv. destruct (Nat.eq_dec u t); simpl; [congruence|apply PR].
    + intros u. rewrite !upd_eqv. destruct (Nat.eq_dec u t); auto.
    + intros u Hu. rewrite upd_other by lia. auto.
  - (* push_spnc *)
    destruct (quiet n s) eqn:Eq; [|discriminate]. destruct (nown s e) eqn:Eo; [|discriminate]. cbn [andb] in Hst. injection Hst as <- <-.
    pose proof (quiet_all _ _ HR Eq) as Q. pose proof (quiet_chain _ _ HR Q) as C. destruct (NR_own _ _ HR e Eo) as [O1 _].
    apply NR_quiet with (s := s) (q' := e :: fst a); auto; cbn [nhead nnxt nthr nown npushes].
    + cbn [chain]. split; auto. rewrite upd_same. apply chain_ext with (nx := nnxt s); auto. intros x Hx. rewrite upd_other; auto. congruence.
    + constructor; auto. apply HR.
    + simpl. pose proof (NR_len _ _ HR). lia.
    + intros x Hx [<- |Hi]; [rewrite upd_same in Hx; discriminate|]. rewrite upd_eqv in Hx. destruct (Nat.eq_dec x e); [discriminate|].
      exact (proj1 (NR_own _ _ HR x Hx) Hi).
  - (* pop_npsc *)
    destruct (quiet n s) eqn:Eq; [|discriminate].
    pose proof (quiet_all _ _ HR Eq) as Q. pose proof (quiet_chain _ _ HR Q) as C. pose proof (NR_nd _ _ HR) as ND. pose proof (NR_len _ _ HR) as L.
    destruct (fst a) as [|y q'] eqn:Ea; cbn [chain] in C.
    + rewrite C in Hst. injection Hst as <- <-. apply NR_quiet with (s := s) (q' := []); auto.
      * rewrite Ea. auto.
    + destruct C as [C0 C]. rewrite C0 in Hst. injection Hst as <- <-. inversion ND; subst.
      apply NR_quiet with (s := s) (q' := q'); auto; cbn [nhead nnxt nthr nown npushes].
      * rewrite Ea. cbn [lifo]. rewrite Nat.eqb_refl. auto.
      * simpl in L. lia.
      * intros x Hx Hi. rewrite upd_eqv in Hx. destruct (Nat.eq_dec x y); [congruence|]. apply (proj1 (NR_own _ _ HR x Hx)). rewrite Ea. right. auto.
  - (* batch_pop_npsc *)
    destruct (quiet n s) eqn:Eq; [|discriminate].
    pose proof (quiet_all _ _ HR Eq) as Q. pose proof (quiet_chain _ _ HR Q) as C.
    rewrite (walk_chain _ _ _ _ C (NR_len _ _ HR)) in Hst. injection Hst as <- <-.
    apply NR_quiet with (s := s) (q' := []); auto; cbn [nhead nnxt nthr nown npushes].
    + cbn [lifo]. destruct (list_eq_dec Nat.eq_dec (fst a) (fst a)); congruence.
    + reflexivity.
    + constructor.
    + simpl. lia.
  - (* ticks of push_mpnc *)
    destruct a as [q th]. destruct HR as [[ef [C [E1 E2]]] ND L O U PR TH NT]. cbn [fst snd] in *.
    destruct (nthr s t) as [|e|e|e st] eqn:Et; [discriminate| | |]; injection Hst as <- <-.
    + assert (Pt : npush (nthr s t) = Some e) by (rewrite Et; auto).
      assert (Ne : ~ In e q) by (apply (PR t); rewrite Et; auto).
      eexists. split; [reflexivity|].
      constructor; cbn [fst snd nhead nnxt nthr nown npushes]; auto.
      * exists ef. split; auto. split.
        -- intros u x st. rewrite upd_eqv. destruct (Nat.eq_dec u t); [discriminate|apply E1].
        -- intros x Hx Hn. rewrite upd_other by congruence. apply E2; auto. intros u st Hu. apply (Hn u st). rewrite upd_other; auto. intros ->. congruence.
      * intros x Hx. destruct (O x Hx) as [X1 X2]. split; auto. intros u. rewrite upd_eqv. destruct (Nat.eq_dec u t) as [->|]; auto. specialize (X2 t). rewrite Et in X2. auto.
      * intros u v x. rewrite !upd_eqv. destruct (Nat.eq_dec u t); destruct (Nat.eq_dec v t); simpl; intros H1 H2; subst; auto.
        -- symmetry. apply (U v t x); congruence.
        -- apply (U u t x); congruence.
        -- eapply U; eauto.
      * intros u x. rewrite upd_eqv. destruct (Nat.eq_dec u t); simpl; [congruence|apply PR].
      * intros u. rewrite !upd_eqv, TH. destruct (Nat.eq_dec u t) as [->|]; auto. rewrite Et. auto.
      * intros u Hu. rewrite upd_other by lia. auto.
    + assert (Pt : npush (nthr s t) = Some e) by (rewrite Et; auto).
      assert (Ne : ~ In e q) by (apply (PR t); rewrite Et; auto).
      eexists. split; [cbn [accepts lstep]; rewrite TH, Et; reflexivity|].
      constructor; cbn [fst snd nhead nnxt nthr nown npushes]; auto.
      * exists (upd ef e (nhead s)). split; [|split].
        -- cbn [chain]. split; auto. rewrite upd_same. apply chain_ext with (nx := ef); auto. intros x Hx. rewrite upd_other; congruence.
        -- intros u x st. rewrite upd_eqv. destruct (Nat.eq_dec u t) as [->|ne].
           ++ intros H. injection H as <- <-. apply upd_same.
           ++ intros H. rewrite upd_other; [apply (E1 u); auto|]. intros ->. apply ne. apply (U u t e); auto. rewrite H. auto.
        -- intros x Hx Hn. destruct Hx as [<- |Hx].
           ++ destruct (Hn t (nhead s)). apply upd_same.
           ++ rewrite upd_other by congruence. apply E2; auto. intros u st Hu. apply (Hn u st). rewrite upd_other; auto. intros ->. congruence.
      * constructor; auto.
      * simpl. lia.
      * intros x Hx. destruct (O x Hx) as [X1 X2]. split.
        -- intros [<- |Hi]; auto. exact (X2 t Pt).
        -- intros u. rewrite upd_eqv. destruct (Nat.eq_dec u t) as [->|]; auto. specialize (X2 t). rewrite Et in X2. auto.
      * intros u v x. rewrite !upd_eqv. destruct (Nat.eq_dec u t); destruct (Nat.eq_dec v t); simpl; intros H1 H2; subst; auto.
        -- symmetry. apply (U v t x); congruence.
        -- apply (U u t x); congruence.
        -- eapply U; eauto.
      * intros u x. rewrite upd_eqv. destruct (Nat.eq_dec u t) as [->|ne]; simpl; [discriminate|]. intros Hu [<- |Hi]; [|exact (PR u x Hu Hi)].
        apply ne. apply (U u t e); auto. destruct (nthr s u); auto; discriminate.
      * intros u. rewrite !upd_eqv, TH. destruct (Nat.eq_dec u t) as [->|]; auto.
      * intros u Hu. rewrite upd_other by lia. auto.
    + assert (Pt : npush (nthr s t) = Some e) by (rewrite Et; auto).
      eexists. split; [cbn [accepts lstep]; rewrite TH, Et; cbn [nphase]; destruct (sres_dec RU RU) as [_|]; [reflexivity|congruence]|].
      constructor; cbn [fst snd nhead nnxt nthr nown npushes]; auto.
      * exists ef. split; auto. split.
        -- intros u x st'. rewrite upd_eqv. destruct (Nat.eq_dec u t); [discriminate|apply E1].
        -- intros x Hx Hn. rewrite upd_eqv. destruct (Nat.eq_dec x e) as [->|ne]; [apply (E1 t); auto|].
           apply E2; auto. intros u st' Hu. apply (Hn u st'). rewrite upd_other; auto. intros ->. congruence.
      * intros x Hx. destruct (O x Hx) as [X1 X2]. split; auto. intros u. rewrite upd_eqv. destruct (Nat.eq_dec u t) as [->|]; auto. discriminate.
      * intros u v x. rewrite !upd_eqv. destruct (Nat.eq_dec u t); destruct (Nat.eq_dec v t); simpl; intros H1 H2; subst; auto; try discriminate. eapply U; eauto.
      * intros u x. rewrite upd_eqv. destruct (Nat.eq_dec u t); simpl; [congruence|apply PR].
      * intros u. rewrite !upd_eqv, TH. destruct (Nat.eq_dec u t) as [->|]; auto.
      * intros u Hu. rewrite upd_other by lia. auto.
Qed.

Lemma np_run : forall ls s log, run (nstep n) ninit ls = Some (s, log) ->
  exists a, accepts (lstep lifo sres_dec) ([], idle) log = Some a /\ NR s a.
Proof. intros ls s log Hr. apply (run_refines (nstep n) (lstep lifo sres_dec) NR ninit ([], idle) NR_init NR_step ls). auto. Qed.
End Np.

Lemma np_linearizable : forall n ls s log, run (nstep n) ninit ls = Some (s, log) -> linearizable lifo sres_dec [] (history log).
Proof. intros n ls s log Hr. destruct (np_run n ls s log Hr) as [a [Ha _]]. apply lin_legal_history. exists a. auto. Qed.

(** ** Conservation *)
Definition calm (o : sop) : Prop := match o with TryPush _ => False | _ => True end.
Lemma lifo_conserves : forall e q o r q1, calm o -> lifo q o r = Some q1 ->
  gets e r + count_occ Nat.eq_dec q1 e = puts e o + count_occ Nat.eq_dec q e.
Proof.
  intros e q o r q1 Hc El. destruct o as [x|x| | |]; destruct r as [|[|]|[v|]| |]; simpl in El |- *; try discriminate; try contradiction.
  - injection El as <-. simpl. destruct (Nat.eq_dec x e); lia.
  - destruct q as [|y q2]; [discriminate|]. destruct (Nat.eqb_spec v y); [|discriminate]. injection El as <-. subst. simpl. destruct (Nat.eq_dec y e); lia.
  - destruct q as [|y q2]; [|discriminate]. injection El as <-. simpl. lia.
  - destruct q as [|y q2]; [discriminate|]. destruct (Nat.eqb_spec v y); [|discriminate]. injection El as <-. subst. simpl. destruct (Nat.eq_dec y e); lia.
  - injection El as <-. lia.
  - destruct (list_eq_dec Nat.eq_dec l q); [|discriminate]. injection El as <-. subst. simpl. lia.
Qed.

Lemma conserve : forall e n log q th q' th',
  (forall x, In x log -> tid x < n /\ match x with Call _ o => calm o | _ => True end) -> (forall t o, th t = Called o -> calm o) ->
  accepts (lstep lifo sres_dec) (q, th) log = Some (q', th') ->
  called (puts e) log + tsum (pend (puts e)) th n + tsum (due (gets e)) th n + count_occ Nat.eq_dec q e =
  returned (gets e) log + tsum (pend (puts e)) th' n + tsum (due (gets e)) th' n + count_occ Nat.eq_dec q' e.
Proof.
  intros e n. induction log as [|x log IH]; intros q th q' th' Hn Hc H; simpl in H.
  - injection H as <- <-. simpl. lia.
  - assert (Hn' : forall x, In x log -> tid x < n /\ match x with Call _ o => calm o | _ => True end) by (intros; apply Hn; right; auto).
    destruct (Hn x (or_introl eq_refl)) as [Ht Hx]. 
    destruct x as [t o|t r|t r]; simpl in Ht |- *.
    + destruct (th t) eqn:Et; try discriminate. apply IH in H; auto.
      * pose proof (tsum_upd (pend (puts e)) th t (Called o) n Ht) as X. pose proof (tsum_upd (due (gets e)) th t (Called o) n Ht) as Y. rewrite Et in X, Y. cbn [pend due] in *. lia.
      * intros u p. rewrite upd_eqv. destruct (Nat.eq_dec u t); [intros E; injection E as <-; auto|eauto].
    + destruct (th t) eqn:Et; try discriminate. destruct (lifo q o r) as [q1|] eqn:E; try discriminate.
      pose proof (lifo_conserves e _ _ _ _ (Hc _ _ Et) E) as Z. apply IH in H; auto.
      * pose proof (tsum_upd (pend (puts e)) th t (Done r) n Ht) as X. pose proof (tsum_upd (due (gets e)) th t (Done r) n Ht) as Y. rewrite Et in X, Y. cbn [pend due] in *. lia.
      * intros u p. rewrite upd_eqv. destruct (Nat.eq_dec u t); [discriminate|eauto].
    + destruct (th t) eqn:Et; try discriminate. destruct (sres_dec r r0) as [->|]; try discriminate. apply IH in H; auto.
      * pose proof (tsum_upd (pend (puts e)) th t Idle n Ht) as X. pose proof (tsum_upd (due (gets e)) th t Idle n Ht) as Y. rewrite Et in X, Y. cbn [pend due] in *. lia.
      * intros u p. rewrite upd_eqv. destruct (Nat.eq_dec u t); [discriminate|eauto].
Qed.

Lemma tsum_zero : forall (w : phase sop sres -> nat) th n, (forall t, w (th t) = 0) -> tsum w th n = 0.
Proof. intros w th n H. induction n; simpl; auto. rewrite H. auto. Qed.

Lemma np_calm : forall n ls s log, run (nstep n) ninit ls = Some (s, log) ->
  forall x, In x log -> tid x < n /\ match x with Call _ o => calm o | _ => True end.
Proof.
  intros n ls s log Hr. refine (run_inv (nstep n) (fun _ log => forall x, In x log -> tid x < n /\ match x with Call _ o => calm o | _ => True end) ninit _ _ ls s log Hr).
  - intros x [].
  - clear. intros s log [t ac] s' ev IH Hst x Hx. apply in_app_or in Hx. destruct Hx as [Hx|Hx]; auto. clear IH. unfold nstep in Hst.
    destruct (Nat.ltb_spec t n) as [Ht|]; [|discriminate]. cbn [negb] in Hst.
    assert (At : forall o r, calm o -> In x (atomically t o r) -> tid x < n /\ match x with Call _ o => calm o | _ => True end).
    { intros o r Ho [<- |[<- |[<- |[]]]]; simpl; auto. }
    destruct ac as [e|e| | |].
    + destruct (nthr s t); try discriminate. destruct (nown s e); [|discriminate]. injection Hst as <- <-. destruct Hx as [<- |[]]. simpl. auto.
    + destruct (quiet n s && nown s e); [|discriminate]. injection Hst as <- <-. eapply At; eauto. exact I.
    + destruct (quiet n s); [|discriminate]. destruct (nhead s); injection Hst as <- <-; (eapply At; [|eauto]; exact I).
    + destruct (quiet n s); [|discriminate]. destruct (walk _ _ _); injection Hst as <- <-; (eapply At; [|eauto]; exact I).
    + destruct (nthr s t); [discriminate| | |]; injection Hst as <- <-; simpl in Hx; [contradiction| |]; destruct Hx as [<- |[]]; simpl; auto.
Qed.

Lemma np_pops : forall n t l s a, t < n -> NR n s a -> (forall u, nthr s u = NIdle) -> fst a = l ->
  exists s', run (nstep n) s (repeat (t, KPop) (length l)) = Some (s', concat (map (fun x => atomically t Pop (RV (Some x))) l)) /\ nhead s' = None.
Proof.
  intros n t. induction l as [|x l IH]; intros s a Ht HR Q Ea.
  - exists s. split; auto. pose proof (quiet_chain _ _ _ HR Q) as C. rewrite Ea in C. auto.
  - pose proof (quiet_chain _ _ _ HR Q) as C. rewrite Ea in C. destruct C as [C0 C].
    assert (Qn : quiet n s = true). { unfold quiet. apply forallb_forall. intros u _. rewrite Q. auto. }
    destruct (nstep n s (t, KPop)) as [[s1 e1]|] eqn:Es.
    + destruct (NR_step n _ _ _ _ _ HR Es) as [a1 [Ha HR1]]. pose proof Es as Es'. unfold nstep in Es'.
      rewrite (proj2 (Nat.ltb_lt t n)), Qn, C0 in Es' by auto. cbn [negb] in Es'. injection Es' as <- <-.
      destruct a as [q th]. cbn [fst] in Ea. subst q. unfold atomically in Ha. cbn [accepts lstep] in Ha.
      pose proof (NR_th _ _ _ HR t) as E. cbn [snd] in E. rewrite Q in E. cbn [nphase] in E. rewrite E in Ha. cbn [lstep] in Ha.
      rewrite upd_same in Ha. cbn [lifo] in Ha. rewrite Nat.eqb_refl in Ha. cbn [lstep] in Ha. rewrite upd_same in Ha.
      destruct (sres_dec _ _) in Ha; [|discriminate]. injection Ha as <-.
      destruct (IH _ _ Ht HR1 Q eq_refl) as [s' [Hr Hh]]. exists s'. split; auto. cbn [length repeat map concat].
      apply run_cons with (s1 := {| nhead := nnxt s x; nnxt := nnxt s; nthr := nthr s; nown := upd (nown s) x true; npushes := npushes s |}); auto.
    + unfold nstep in Es. rewrite (proj2 (Nat.ltb_lt t n)), Qn, C0 in Es by auto. discriminate.
Qed.

Lemma np_drain : forall n ls s log t, run (nstep n) ninit ls = Some (s, log) -> quiet n s = true -> t < n ->
  exists l, NoDup l /\ (forall e, called (puts e) log = returned (gets e) log + count_occ Nat.eq_dec l e) /\
    (exists s', nstep n s (t, KBatch) = Some (s', atomically t Batch (RL l)) /\ nhead s' = None) /\
    (exists s', run (nstep n) s (repeat (t, KPop) (length l)) = Some (s', concat (map (fun x => atomically t Pop (RV (Some x))) l)) /\ nhead s' = None).
Proof.
  intros n ls s log t Hr Hq Ht. destruct (np_run n ls s log Hr) as [[q th] [Ha HR]]. pose proof (quiet_all _ _ _ HR Hq) as Q. exists q.
  split; [apply HR|]. split; [|split].
  - intros e. pose proof (conserve e n log [] idle q th (np_calm n ls s log Hr)) as X. specialize (X ltac:(discriminate) Ha).
    assert (Hi : forall u, th u = Idle). { intros u. pose proof (NR_th _ _ _ HR u) as Y. cbn [snd] in Y. rewrite Y, Q. auto. }
    rewrite !tsum_zero in X by (intros u; rewrite ?Hi; reflexivity). simpl in X. lia.
  - pose proof (quiet_chain _ _ _ HR Q) as C. unfold nstep. rewrite (proj2 (Nat.ltb_lt t n)), Hq by auto. cbn [negb].
    rewrite (walk_chain _ _ _ _ C (NR_len _ _ _ HR)). eexists. split; [reflexivity|]. reflexivity.
  - apply np_pops with (a := (q, th)); auto.
Qed.
