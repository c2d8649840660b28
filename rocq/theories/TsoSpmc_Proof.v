(** A run on TSO is, as memory sees it, a sequentially consistent run in which the writer's calls come later. *)
From Coq Require Import Arith List Bool Lia.
From Verif Require Import Lib Obs TsoSpmc_Model.
Import ListNotations.

Lemma vis_app : forall E (a b : list (tev E)), vis (a ++ b) = vis a ++ vis b.
Proof. intros. unfold vis. apply flat_map_app. Qed.
Lemma issued_app : forall E (a b : list (tev E)), issued (a ++ b) = issued a ++ issued b.
Proof. intros. unfold issued. apply flat_map_app. Qed.
Lemma vis_Vis : forall E (a : list E), vis (map Vis a) = a.
Proof. induction a; simpl; f_equal; auto. Qed.
Lemma issued_Vis : forall E (a : list E), issued (map (@Vis E) a) = [].
Proof. induction a; simpl; auto. Qed.

Section P.
Context {M C St O R RL E : Type}.
Variables (app : M -> St -> M * list E) (exec : M -> C -> O -> option (outcome St C E)) (fin : E)
          (rstep : M -> R -> RL -> option (R * list E)).
Notation tstep := (tstep app exec fin rstep).
Notation gstep := (gstep app exec fin rstep).
Notation see := (see app (E := E)).

Lemma run_app1 : forall S L (E' : Type) (st : S -> L -> option (S * list E')) ls s s1 l1 l s2 l2,
  run st s ls = Some (s1, l1) -> st s1 l = Some (s2, l2) -> run st s (ls ++ [l]) = Some (s2, l1 ++ l2).
Proof.
  induction ls as [|a ls IH]; intros s s1 l1 l s2 l2 H1 H2; simpl in *.
  - injection H1 as <- <-. rewrite H2. rewrite app_nil_r. auto.
  - destruct (st s a) as [[s' e']|]; try discriminate. destruct (run st s' ls) as [[s'' e'']|] eqn:Er; try discriminate.
    injection H1 as <- <-. erewrite IH; eauto. rewrite app_assoc. auto.
Qed.

(** [ops m c b c']: [b] holds whole operations, executed from memory [m] and private state [c], ending in [c'] *)
Inductive ops : M -> C -> list (item St E) -> C -> Prop :=
| ops_nil : forall m c, ops m c [] c
| ops_done : forall m c o tr c1 e b c', exec m c o = Some (Done tr c1 e) -> ops (see m (map ISt tr)) c1 b c' ->
    ops m c (IBeg e :: map ISt tr ++ IEnd :: b) c'
| ops_crash : forall m c o e b c', exec m c o = Some (Crash e) -> ops m c b c' -> ops m c (ICrash e :: b) c'.

Lemma ops_inv : forall m c b c', ops m c b c' -> b = [] \/
  (exists o tr c1 e b', b = IBeg e :: map ISt tr ++ IEnd :: b' /\ exec m c o = Some (Done tr c1 e) /\ ops (see m (map ISt tr)) c1 b' c') \/
  (exists o e b', b = ICrash e :: b' /\ exec m c o = Some (Crash e) /\ ops m c b' c').
Proof. intros m c b c' H. destruct H; [left; auto|right; left|right; right]; repeat eexists; eauto. Qed.

Lemma see_app : forall a b m, see m (a ++ b) = see (see m a) b.
Proof. intros. unfold TsoSpmc_Model.see. apply fold_left_app. Qed.

Lemma ops_app : forall m c b c1 b' c2, ops m c b c1 -> ops (see m b) c1 b' c2 -> ops m c (b ++ b') c2.
Proof.
  intros m c b c1 b' c2 H. induction H; intros H'.
  - auto.
  - cbn [List.app]. rewrite <- app_assoc. cbn [List.app]. eapply ops_done; [eauto|]. apply IHops.
    unfold TsoSpmc_Model.see in H'. cbn [fold_left] in H'. fold (see m (map ISt tr ++ IEnd :: b)) in H'.
    rewrite see_app in H'. exact H'.
  - cbn [List.app]. eapply ops_crash; [eauto|]. apply IHops. exact H'.
Qed.

(** the sequentially consistent state that stands for a state on TSO *)
Definition rel (s : @tst M C St R E) (g : @gst M C St R) : Prop :=
  g_mem g = t_mem s /\ g_rd g = t_rd s /\
  match g_todo g with
  | None => ops (g_mem g) (g_c g) (t_buf s) (t_c s)
  | Some tr => exists b, t_buf s = map ISt tr ++ IEnd :: b /\ ops (see (g_mem g) (map ISt tr)) (g_c g) b (t_c s)
  end.

Lemma rel_step : forall s g l s' ev, rel s g -> tstep s l = Some (s', ev) ->
  rel s' g /\ vis ev = [] \/ exists gl g', gstep g gl = Some (g', vis ev) /\ rel s' g'.
Proof.
  intros s g l s' ev (Hm & Hr & Ht) H. destruct l as [o| | |l]; cbn [TsoSpmc_Model.tstep] in H.
  - left.
    assert (A : forall b c', ops (see (t_mem s) (t_buf s)) (t_c s) b c' -> rel (mkt (t_mem s) (t_buf s ++ b) c' (t_rd s)) g).
    { intros b c' Hb. split; [|split]; auto. cbn [t_buf t_c]. destruct (g_todo g) as [tr|].
      - destruct Ht as (b0 & E0 & Ho). exists (b0 ++ b). rewrite E0, <- app_assoc. split; auto.
        eapply ops_app; [exact Ho|]. rewrite E0, see_app in Hb. rewrite Hm. exact Hb.
      - eapply ops_app; [exact Ht|]. rewrite Hm. exact Hb. }
    destruct (exec (see (t_mem s) (t_buf s)) (t_c s) o) as [[tr c e|e]|] eqn:Ee; try discriminate; injection H as <- <-; split; auto; apply A.
    + eapply ops_done; [eauto|apply ops_nil].
    + eapply ops_crash; [eauto|apply ops_nil].
  - right. destruct (g_todo g) as [tr|] eqn:Et.
    + destruct Ht as (b0 & E0 & Ho). rewrite E0 in H. destruct tr as [|x tr]; cbn [map List.app] in H.
      * injection H as <- <-. exists GDone. cbn [TsoSpmc_Model.gstep]. rewrite Et. eexists. split; [reflexivity|].
        split; [|split]; cbn; auto.
      * destruct (app (t_mem s) x) as [m e] eqn:Ea. injection H as <- <-. rewrite vis_Vis.
        exists GStore. cbn [TsoSpmc_Model.gstep]. rewrite Et, Hm, Ea. eexists. split; [reflexivity|].
        split; [|split]; cbn [g_mem g_rd g_todo t_mem t_rd t_buf]; auto. exists b0. split; auto.
        rewrite Hm in Ho. unfold TsoSpmc_Model.see in Ho. cbn [map fold_left] in Ho. rewrite Ea in Ho. exact Ho.
    + destruct (ops_inv _ _ _ _ Ht) as [Eb|[(o & tr & c1 & e & b & Eb & He & Ho)|(o & e & b & Eb & He & Ho)]]; rewrite Eb in H; try discriminate;
        injection H as <- <-; exists (GCall o); cbn [TsoSpmc_Model.gstep]; rewrite Et, He; eexists; (split; [reflexivity|]).
      * split; [|split]; cbn; auto. exists b. auto.
      * split; [|split]; cbn; auto. rewrite Et. auto.
  - left. destruct (t_buf s) eqn:Eb; try discriminate. injection H as <- <-. split; auto. split; [|split]; auto. rewrite Eb. auto.
  - right. exists (GRd l). cbn [TsoSpmc_Model.gstep]. rewrite Hm, Hr. destruct (rstep (t_mem s) (t_rd s) l) as [[r e]|] eqn:Er; try discriminate.
    injection H as <- <-. rewrite vis_Vis. eexists. split; [reflexivity|]. split; [|split]; auto. cbn [g_todo g_mem g_c]. 
    rewrite Hm in Ht. exact Ht.
Qed.

Lemma run_snoc : forall S L (E' : Type) (st : S -> L -> option (S * list E')) ls l s s' log,
  run st s (ls ++ [l]) = Some (s', log) ->
  exists s1 l1 l2, run st s ls = Some (s1, l1) /\ st s1 l = Some (s', l2) /\ log = l1 ++ l2.
Proof.
  induction ls as [|a ls IH]; intros l s s' log H; simpl in *.
  - destruct (st s l) as [[s1 e1]|] eqn:E1; try discriminate. injection H as <- <-.
    exists s, [], e1. rewrite app_nil_r. auto.
  - destruct (st s a) as [[s1 e1]|]; try discriminate. destruct (run st s1 (ls ++ [l])) as [[s2 e2]|] eqn:E2; try discriminate.
    injection H as <- <-. apply IH in E2. destruct E2 as (s3 & l1 & l2 & A & B & ->). rewrite A.
    exists s3, (e1 ++ l1), l2. rewrite app_assoc. auto.
Qed.

Lemma rel_run : forall m c r ls s log, run tstep (tinit m c r) ls = Some (s, log) ->
  exists gls g, run gstep (ginit m c r) gls = Some (g, vis log) /\ rel s g.
Proof.
  intros m c r. induction ls as [|l ls IH] using rev_ind; intros s log H.
  - injection H as <- <-. exists [], (ginit m c r). split; auto. split; [|split]; cbn; auto. apply ops_nil.
  - apply run_snoc in H. destruct H as (s1 & l1 & l2 & A & B & ->). apply IH in A. destruct A as (gls & g & Hg & Hr).
    destruct (rel_step _ _ _ _ _ Hr B) as [[H1 H2]|(gl & g' & H1 & H2)]; rewrite vis_app.
    + exists gls, g. rewrite H2, app_nil_r. auto.
    + exists (gls ++ [gl]), g'. split; auto. eapply run_app1; eauto.
Qed.

(** at a fence the buffer is empty *)
Lemma fence_split : forall m c r ls s a b, run tstep (tinit m c r) ls = Some (s, a ++ Fenced :: b) ->
  exists ls1 s1, run tstep (tinit m c r) ls1 = Some (s1, a) /\ t_buf s1 = [].
Proof.
  intros m c r. induction ls as [|l ls IH] using rev_ind; intros s a b H.
  - destruct a; discriminate.
  - apply run_snoc in H. destruct H as (s1 & l1 & l2 & A & B & E0).
    destruct b as [|b0 b] using rev_ind; [|clear IHb].
    + destruct l2 as [|x l2] using rev_ind; [|clear IHl2].
      * rewrite app_nil_r in E0. subst l1. eapply IH; eauto.
      * rewrite app_assoc in E0. apply app_inj_tail in E0. destruct E0 as [-> <-].
        destruct l as [o| | |l]; cbn [TsoSpmc_Model.tstep] in B.
        -- exfalso. destruct (exec _ _ _) as [[? ? ?|?]|]; try discriminate; injection B as _ B; destruct l2 as [|? [|]]; discriminate.
        -- exfalso. assert (In (@Fenced E) (l2 ++ [Fenced])) by (apply in_app_iff; right; left; auto).
           destruct (t_buf s1) as [|[e|x| |e] b]; try discriminate; [| destruct (app _ _)| |]; injection B as _ B; rewrite <- B in H; 
             try (destruct H as [H|[]]; discriminate). apply in_map_iff in H. destruct H as (? & H & _). discriminate.
        -- destruct (t_buf s1) eqn:Eb; try discriminate. injection B as _ B. destruct l2 as [|? [|]]; try discriminate.
           rewrite app_nil_r. eauto.
        -- exfalso. assert (In (@Fenced E) (l2 ++ [Fenced])) by (apply in_app_iff; right; left; auto).
           destruct (rstep _ _ _) as [[? ?]|]; try discriminate. injection B as _ B. rewrite <- B in H.
           apply in_map_iff in H. destruct H as (? & H & _). discriminate.
    + (* the fence is not the last event *)
      destruct (le_lt_dec (length l1) (length a)) as [Hl|Hl].
      * (* it is among the last step's events: impossible unless alone *)
        exfalso. assert (H : In (@Fenced E) l2 /\ 2 <= length l2).
        { assert (E1 : skipn (length l1) (a ++ Fenced :: b ++ [b0]) = l2) by (rewrite E0, skipn_app, skipn_all, Nat.sub_diag; auto).
          rewrite skipn_app in E1. replace (length l1 - length a) with 0 in E1 by lia. cbn [skipn] in E1. rewrite <- E1. split.
          - apply in_app_iff. right. left. auto.
          - rewrite app_length. cbn [length]. rewrite app_length. cbn [length]. lia. }
        destruct H as [H H']. destruct l as [o| | |l]; cbn [TsoSpmc_Model.tstep] in B.
        -- destruct (exec _ _ _) as [[? ? ?|?]|]; try discriminate; injection B as _ B; rewrite <- B in H; destruct H as [H|[]]; discriminate.
        -- destruct (t_buf s1) as [|[e|x| |e] b1]; try discriminate; [| destruct (app _ _)| |]; injection B as _ B; rewrite <- B in H; 
             try (destruct H as [H|[]]; discriminate). apply in_map_iff in H. destruct H as (? & H & _). discriminate.
        -- destruct (t_buf s1); try discriminate. injection B as _ B. rewrite <- B in H'. cbn in H'. lia.
        -- destruct (rstep _ _ _) as [[? ?]|]; try discriminate. injection B as _ B. rewrite <- B in H.
           apply in_map_iff in H. destruct H as (? & H & _). discriminate.
      * assert (E1 : l1 = a ++ Fenced :: firstn (length l1 - S (length a)) (b ++ [b0])).
        { assert (E1 : firstn (length l1) (a ++ Fenced :: b ++ [b0]) = l1) by (rewrite E0, firstn_app, firstn_all, Nat.sub_diag; cbn; apply app_nil_r).
          rewrite firstn_app in E1. rewrite firstn_all2 in E1 by lia.
          replace (length l1 - length a) with (S (length l1 - S (length a))) in E1 by lia. cbn [firstn] in E1. auto. }
        rewrite E1 in A. eapply IH; eauto.
Qed.

(** and so the sequentially consistent run is between operations *)
Lemma fence_quiet : forall m c r ls s a b, run tstep (tinit m c r) ls = Some (s, a ++ Fenced :: b) ->
  exists gls g, run gstep (ginit m c r) gls = Some (g, vis a) /\ g_todo g = None.
Proof.
  intros m c r ls s a b H. apply fence_split in H. destruct H as (ls1 & s1 & A & Eb). apply rel_run in A.
  destruct A as (gls & g & Hg & _ & _ & Ht). exists gls, g. split; auto. destruct (g_todo g) as [tr|]; auto.
  destruct Ht as (b0 & E0 & _). rewrite Eb in E0. destruct tr; discriminate.
Qed.

(** * Calls become visible in order, and all of them before a fence *)
Section Calls.
Variables (call : E -> bool) (mark : E -> bool).
Hypothesis Happ : forall m x, filter call (snd (app m x)) = [] /\ filter mark (snd (app m x)) = [].
Hypothesis Hrd : forall m r l r' e, rstep m r l = Some (r', e) -> filter call e = [] /\ filter mark e = [].
Hypothesis Hdone : forall m c o tr c' e, exec m c o = Some (Done tr c' e) -> call e = true /\ mark e = false.
Hypothesis Hcrash : forall m c o e, exec m c o = Some (Crash e) -> call e = false /\ mark e = false.
Hypothesis Hfin : call fin = false /\ mark fin = true.

Definition begs (b : list (item St E)) : list E := flat_map (fun i => match i with IBeg e => [e] | _ => [] end) b.
Definition goodb (i : item St E) : Prop :=
  match i with IBeg e => call e = true /\ mark e = false | ICrash e => call e = false /\ mark e = false | _ => True end.
Definition ends (b : list (item St E)) : nat := length (filter (fun i => match i with IEnd => true | _ => false end) b).

Lemma begs_sts : forall tr, begs (map ISt tr) = [].
Proof. induction tr; auto. Qed.
Lemma ends_sts : forall tr, ends (map ISt tr) = 0.
Proof. induction tr; auto. Qed.
Lemma begs_app : forall a b, begs (a ++ b) = begs a ++ begs b.
Proof. intros. apply flat_map_app. Qed.
Lemma ends_app : forall a b, ends (a ++ b) = ends a + ends b.
Proof. intros. unfold ends. rewrite filter_app, app_length. auto. Qed.

Lemma begs_cons : forall i b, begs (i :: b) = match i with IBeg e => e :: begs b | _ => begs b end.
Proof. intros [] b; reflexivity. Qed.
Lemma ends_cons : forall i b, ends (i :: b) = match i with IEnd => S (ends b) | _ => ends b end.
Proof. intros [] b; reflexivity. Qed.

Definition inv (s : @tst M C St R E) (log : list (tev E)) : Prop :=
  Forall goodb (t_buf s) /\
  filter call (issued log) = filter call (vis log) ++ begs (t_buf s) /\
  length (filter mark (vis log)) + ends (t_buf s) = length (filter call (vis log)) + length (begs (t_buf s)).

Lemma inv_step : forall s log l s' ev, inv s log -> tstep s l = Some (s', ev) -> inv s' (log ++ ev).
Proof.
  intros s log l s' ev (Hg & Hi & Hc) H. unfold inv. rewrite vis_app, issued_app, !filter_app, !app_length.
  destruct l as [o| | |l]; cbn [TsoSpmc_Model.tstep] in H.
  - destruct (exec (see (t_mem s) (t_buf s)) (t_c s) o) as [[tr c e|e]|] eqn:Ee; try discriminate; injection H as <- <-;
      cbn [t_buf vis issued flat_map List.app filter length].
    + destruct (Hdone _ _ _ _ _ _ Ee) as [C1 C2]. rewrite C1. split; [|split].
      * apply Forall_app. split; auto. constructor; [cbn; auto|]. apply Forall_app. split; [|repeat constructor].
        clear. induction tr; constructor; cbn; auto.
      * rewrite app_nil_r, begs_app, Hi, <- app_assoc. f_equal. f_equal. cbn. fold (begs (map ISt tr ++ [IEnd])). rewrite begs_app, begs_sts. reflexivity.
      * rewrite begs_app, ends_app, app_length. change (IBeg e :: map ISt tr ++ [IEnd]) with ([IBeg e] ++ map ISt tr ++ [IEnd]).
        rewrite !ends_app, !begs_app, ends_sts, begs_sts. cbn. lia.
    + destruct (Hcrash _ _ _ _ Ee) as [C1 C2]. rewrite C1. split; [|split].
      * apply Forall_app. split; auto. constructor; [cbn; auto|constructor].
      * rewrite !app_nil_r, begs_app, Hi. cbn. rewrite app_nil_r. auto.
      * rewrite begs_app, ends_app, app_length. cbn. lia.
  - destruct (t_buf s) as [|i b] eqn:Eb; try discriminate. inversion Hg as [|? ? G1 G2]; subst.
    rewrite begs_cons in Hi, Hc. rewrite ends_cons in Hc. destruct i as [e|x| |e].
    + injection H as <- <-. cbn [t_buf vis issued flat_map List.app filter length]. cbn in G1. destruct G1 as [C1 C2]. rewrite C1, C2.
      split; [auto|]. cbn [length] in *. rewrite app_nil_r. split; [rewrite Hi, <- app_assoc; auto|lia].
    + destruct (Happ (t_mem s) x) as [C1 C2]. destruct (app (t_mem s) x) as [m e]. cbn [snd] in *. injection H as <- <-.
      rewrite vis_Vis, issued_Vis, C1, C2. cbn [filter t_buf length]. rewrite !app_nil_r. split; [auto|]. split; [exact Hi|]. lia.
    + injection H as <- <-. destruct Hfin as [C1 C2]. cbn [t_buf vis issued flat_map List.app filter length]. rewrite C1, C2.
      rewrite !app_nil_r. cbn [length]. split; [auto|]. split; [exact Hi|]. lia.
    + injection H as <- <-. cbn in G1. destruct G1 as [C1 C2]. cbn [t_buf vis issued flat_map List.app filter length]. rewrite C1, C2.
      rewrite !app_nil_r. split; [auto|]. split; [exact Hi|]. cbn [length]. lia.
  - destruct (t_buf s) eqn:Eb; try discriminate. injection H as <- <-. rewrite Eb. cbn [vis issued flat_map filter length]. rewrite !app_nil_r.
    split; [constructor|]. split; [cbn in *; rewrite app_nil_r in Hi; auto|]. unfold ends, begs in *. cbn in *. lia.
  - destruct (rstep (t_mem s) (t_rd s) l) as [[r e]|] eqn:Er; try discriminate. injection H as <- <-.
    destruct (Hrd _ _ _ _ _ Er) as [C1 C2]. rewrite vis_Vis, issued_Vis, C1, C2. cbn [filter t_buf length]. rewrite !app_nil_r.
    split; [auto|]. split; [exact Hi|]. lia.
Qed.

Lemma inv_runs : forall m c r ls s log, run tstep (tinit m c r) ls = Some (s, log) -> inv s log.
Proof.
  intros m c r. induction ls as [|l ls IH] using rev_ind; intros s log H.
  - injection H as <- <-. split; [constructor|]. split; reflexivity.
  - apply run_snoc in H. destruct H as (s1 & l1 & l2 & A & B & ->). eapply inv_step; eauto.
Qed.

Lemma calls_prefix : forall m c r ls s log, run tstep (tinit m c r) ls = Some (s, log) ->
  exists rest, filter call (issued log) = filter call (vis log) ++ rest.
Proof. intros. apply inv_runs in H. destruct H as (_ & H & _). eauto. Qed.

Lemma fence_run : forall m c r ls s a b, run tstep (tinit m c r) ls = Some (s, a ++ Fenced :: b) ->
  filter call (issued a) = filter call (vis a) /\ length (filter mark (vis a)) = length (filter call (vis a)).
Proof.
  intros m c r ls s a b H. apply fence_split in H. destruct H as (ls1 & s1 & A & Eb).
  apply inv_runs in A. destruct A as (_ & A1 & A2). rewrite Eb in *. cbn in A1, A2. rewrite app_nil_r in A1. split; auto. lia.
Qed.
End Calls.

(** * The buffer can be drained *)
Lemma drain : forall s, exists ls s' log, run tstep s ls = Some (s', log) /\
  forall e, In (IBeg e) (t_buf s) \/ In (ICrash e) (t_buf s) -> In e (vis log).
Proof.
  intros s. remember (t_buf s) as b eqn:Eb. revert s Eb. induction b as [|i b IH]; intros s Eb.
  - exists [], s, []. split; auto. intros e [[]|[]].
  - assert (H : exists s1 ev, tstep s TFlush = Some (s1, ev) /\ t_buf s1 = b /\ (forall e, i = IBeg e \/ i = ICrash e -> In e (vis ev))).
    { cbn [TsoSpmc_Model.tstep]. rewrite <- Eb. destruct i as [e|x| |e]; [| destruct (app (t_mem s) x) as [m ev]| |]; eexists; eexists; (split; [reflexivity|]); (split; [reflexivity|]);
        intros e0 [H|H]; try discriminate; injection H as <-; left; auto. }
    destruct H as (s1 & ev & H1 & H2 & H3). destruct (IH s1 (eq_sym H2)) as (ls & s' & log & H4 & H5).
    exists (TFlush :: ls), s', (ev ++ log). cbn [run]. rewrite H1, H4. split; auto.
    intros e He. rewrite vis_app. apply in_app_iff. destruct He as [[He|He]|[He|He]]; auto.
Qed.

Lemma run_join : forall S L (E' : Type) (st : S -> L -> option (S * list E')) a b s s1 l1 s2 l2,
  run st s a = Some (s1, l1) -> run st s1 b = Some (s2, l2) -> run st s (a ++ b) = Some (s2, l1 ++ l2).
Proof.
  induction a as [|x a IH]; intros b s s1 l1 s2 l2 H1 H2; simpl in *.
  - injection H1 as <- <-. auto.
  - destruct (st s x) as [[s' e']|]; try discriminate. destruct (run st s' a) as [[s'' e'']|] eqn:Er; try discriminate.
    injection H1 as <- <-. erewrite IH; eauto. rewrite app_assoc. auto.
Qed.

(** what the writer issues, some run makes visible *)
Lemma issued_visible : forall m c r ls s log e, run tstep (tinit m c r) ls = Some (s, log) -> In (Issue e) log ->
  exists ls' s' log', run tstep (tinit m c r) ls' = Some (s', log') /\ In e (vis log').
Proof.
  intros m c r. induction ls as [|l ls IH] using rev_ind; intros s log e H Hin.
  - injection H as <- <-. destruct Hin.
  - pose proof H as H0. apply run_snoc in H. destruct H as (s1 & l1 & l2 & A & B & ->). apply in_app_iff in Hin. destruct Hin as [Hin|Hin]; [eauto|].
    destruct (drain s) as (ls' & s' & log' & D1 & D2). exists ((ls ++ [l]) ++ ls'), s', ((l1 ++ l2) ++ log'). split; [eapply run_join; eauto|].
    rewrite vis_app. apply in_app_iff. right. apply D2. clear - B Hin.
    destruct l as [o| | |l]; cbn [TsoSpmc_Model.tstep] in B.
    + destruct (exec _ _ _) as [[? ? ?|?]|]; try discriminate; injection B as <- <-; destruct Hin as [Hin|[]]; injection Hin as ->; cbn [t_buf];
        [left|right]; apply in_app_iff; right; left; auto.
    + exfalso. destruct (t_buf s1) as [|[x|x| |x] b1]; try discriminate; [| destruct (app _ _)| |]; injection B as _ <-;
        try (destruct Hin as [H|[]]; discriminate). apply in_map_iff in Hin. destruct Hin as (? & H & _). discriminate.
    + exfalso. destruct (t_buf s1); try discriminate. injection B as _ <-. destruct Hin as [H|[]]; discriminate.
    + exfalso. destruct (rstep _ _ _) as [[? ?]|]; try discriminate. injection B as _ <-. apply in_map_iff in Hin. destruct Hin as (? & H & _). discriminate.
Qed.

(** * After a fence, until the writer's next call, only readers act *)
Lemma step_fenced : forall s l s' e, tstep s l = Some (s', e) -> ~ In Fenced e \/ e = [Fenced] /\ s' = s /\ t_buf s = [].
Proof.
  intros s l s' e B. destruct l as [o| | |l]; cbn [TsoSpmc_Model.tstep] in B.
  - left. destruct (exec _ _ _) as [[? ? ?|?]|]; try discriminate; injection B as _ <-; intros [H|[]]; discriminate.
  - left. destruct (t_buf s) as [|[x|x| |x] b1]; try discriminate; [| destruct (app _ _)| |]; injection B as _ <-; intros H;
      try (destruct H as [H|[]]; discriminate). apply in_map_iff in H. destruct H as (? & H & _). discriminate.
  - right. destruct (t_buf s); try discriminate. injection B as <- <-. auto.
  - left. destruct (rstep _ _ _) as [[? ?]|]; try discriminate. injection B as _ <-. intros H. apply in_map_iff in H. destruct H as (? & H & _). discriminate.
Qed.

Lemma fence_cut : forall ls s s' a b, run tstep s ls = Some (s', a ++ Fenced :: b) ->
  exists ls1 s1 ls2, run tstep s ls1 = Some (s1, a) /\ t_buf s1 = [] /\ run tstep s1 ls2 = Some (s', b).
Proof.
  induction ls as [|l ls IH]; intros s s' a b H; cbn [run] in H.
  - destruct a; discriminate.
  - destruct (tstep s l) as [[s1 e1]|] eqn:E1; try discriminate. destruct (run tstep s1 ls) as [[s2 e2]|] eqn:E2; try discriminate.
    injection H as <- H. destruct (step_fenced _ _ _ _ E1) as [Hn|(-> & -> & Hb)].
    + apply app_eq_app in H. destruct H as (l0 & [[Ha Hb]|[Ha Hb]]).
      * destruct l0 as [|x l0].
        -- rewrite app_nil_r in Ha. subst e1. cbn [List.app] in Hb. subst e2. destruct (IH s1 s2 [] b E2) as (ls1 & s3 & ls2 & A & B & C0).
           exists (l :: ls1), s3, ls2. cbn [run]. rewrite E1, A, app_nil_r. auto.
        -- exfalso. injection Hb as <- _. apply Hn. rewrite Ha. apply in_app_iff. right. left. auto.
      * subst. destruct (IH _ _ _ _ E2) as (ls1 & s3 & ls2 & A & B & C0). exists (l :: ls1), s3, ls2. cbn [run]. rewrite E1, A. auto.
    + destruct a as [|x a]; cbn [List.app] in H.
      * injection H as <-. exists [], s, ls. auto.
      * injection H as <- H. subst e2. destruct (IH _ _ _ _ E2) as (ls1 & s3 & ls2 & A & B & C0). exists (l :: ls1), s3, ls2. cbn [run]. rewrite E1, A. auto.
Qed.

Lemma fence_calm : forall (Q : E -> Prop), (forall m r l r' e, rstep m r l = Some (r', e) -> Forall Q e) ->
  forall m c r ls s a b d, run tstep (tinit m c r) ls = Some (s, a ++ Fenced :: b ++ d) -> issued b = [] -> Forall Q (vis b).
Proof.
  intros Q HQ m c r ls s a b d H Hi. apply fence_cut in H. destruct H as (ls1 & s1 & ls2 & A & Hb & H).
  clear A. revert s1 b d Hb H Hi. induction ls2 as [|l ls2 IH]; intros s1 b d Hb H Hi; cbn [run] in H.
  - injection H as _ H. symmetry in H. apply app_eq_nil in H. destruct H as [-> ->]. constructor.
  - destruct (tstep s1 l) as [[s2 e1]|] eqn:E1; try discriminate. destruct (run tstep s2 ls2) as [[s3 e2]|] eqn:E2; try discriminate.
    injection H as -> H. apply app_eq_app in H. destruct H as (l0 & [[Ha Hd]|[Ha Hd]]).
    + (* the part ends within this step *)
      assert (Forall Q (vis e1)).
      { destruct l as [o| | |l]; cbn [TsoSpmc_Model.tstep] in E1.
        - destruct (exec _ _ _) as [[? ? ?|?]|]; try discriminate; injection E1 as _ <-; constructor.
        - rewrite Hb in E1. discriminate.
        - rewrite Hb in E1. injection E1 as _ <-. constructor.
        - destruct (rstep _ _ _) as [[? ?]|] eqn:Er; try discriminate. injection E1 as _ <-. rewrite vis_Vis. eapply HQ; eauto. }
      rewrite Ha, vis_app in H. apply Forall_app in H. tauto.
    + subst b. rewrite issued_app in Hi. apply app_eq_nil in Hi. destruct Hi as [Hi1 Hi2]. rewrite vis_app. apply Forall_app.
      assert (t_buf s2 = [] /\ Forall Q (vis e1)) as [B1 B2].
      { destruct l as [o| | |l]; cbn [TsoSpmc_Model.tstep] in E1.
        - exfalso. destruct (exec _ _ _) as [[? ? ?|?]|]; try discriminate; injection E1 as _ <-; discriminate.
        - rewrite Hb in E1. discriminate.
        - rewrite Hb in E1. injection E1 as <- <-. split; auto. constructor.
        - destruct (rstep _ _ _) as [[? ?]|] eqn:Er; try discriminate. injection E1 as <- <-. rewrite vis_Vis. split; auto. eapply HQ; eauto. }
      split; auto. eapply IH; [exact B1| |exact Hi2]. rewrite <- Hd. exact E2.
Qed.
End P.

Lemma legal_in : forall E G (gn : G -> E -> G) ok log g e, legal_from gn ok g log -> In e log -> exists g', ok g' e.
Proof.
  induction log as [|x log IH]; intros g e H Hin; [destruct Hin|]. destruct H as [H1 H2]. destruct Hin as [->|Hin]; eauto.
Qed.
