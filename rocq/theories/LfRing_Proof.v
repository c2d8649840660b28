(** Progress of ck_ring: the functions for one producer and for one consumer and trydequeue are wait-free, dequeue for
    many consumers is lock-free, and the functions for many producers are lock-free except where they wait for the
    producers before them. *)
From Coq Require Import NArith Arith List Bool Lia.
From Verif Require Import Lib Lin LockFree_Spec LockFree_Proof LfRing_Spec RingSp_Model RingMp_Model RingMix_Model.
Import ListNotations.


Lemma lin_app : forall a b, lin_of (a ++ b) = lin_of a ++ lin_of b.
Proof. intros. apply flat_map_app. Qed.

(** potentials *)
Definition pot_sp (p : xpc) : nat := match p with XEnq _ => 3 | XWrite _ _ _ => 2 | XPub _ _ _ => 1 | _ => 0 end.
Definition pot_sc (p : xpc) : nat := match p with XLoad _ => 3 | XRead _ => 2 | XCpub _ _ => 1 | _ => 0 end.
Definition pot_try (p : xpc) : nat := match p with XM (DHead _) => 4 | XM (DTail _ _) => 3 | XM (DCopy _ _) => 2 | XM (DCas _ _ _) => 1 | _ => 0 end.
Definition pot_mc (r : ring) (p : xpc) : nat :=
  match p with
  | XM (DHead _) => 4
  | XM (DTail _ c) => if N.eqb (c_head r) c then 3 else 6
  | XM (DCopy _ c) => if N.eqb (c_head r) c then 2 else 5
  | XM (DCas _ c _) => if N.eqb (c_head r) c then 1 else 4
  | _ => 0
  end.
Definition pot_mp (r : ring) (p : xpc) : nat :=
  match p with
  | XM (EHead _) => 5
  | XM (ECons _ h) => if N.eqb (p_head r) h then 4 else 6
  | XM (ECas _ h _) | XM (ERe _ h _) => if N.eqb (p_head r) h then 3 else 5
  | XM (EWrite _ _ _) => 2
  | XM (EWait _ _ _) | XM (EPub _ _ _) | XM (KWait _ _) | XM (KPub _ _) => 1
  | _ => 0
  end.
Definition ph_sp (p : xpc) : bool := match p with XM MIdle | XEnq _ | XWrite _ _ _ | XPub _ _ _ | XGot _ => true | _ => false end.
Definition ph_sc (p : xpc) : bool := match p with XM MIdle | XLoad _ | XRead _ | XCpub _ _ => true | _ => false end.
Definition ph_try (p : xpc) : bool := match p with XM MIdle | XM (DHead true) | XM (DTail true _) | XM (DCopy true _) | XM (DCas true _ _) => true | _ => false end.
Definition ph_mc (p : xpc) : bool := match p with XM MIdle | XM (DHead _) | XM (DTail _ _) | XM (DCopy _ _) | XM (DCas _ _ _) => true | _ => false end.
Definition ph_mp (p : xpc) : bool :=
  match p with XM MIdle | XM (EHead _) | XM (ECons _ _) | XM (ECas _ _ _) | XM (ERe _ _ _) | XM (EWrite _ _ _) | XM (EWait _ _ _) | XM (EPub _ _ _)
             | XM (MGot _ _) | XM (KWait _ _) | XM (KPub _ _) => true | _ => false end.

Ltac crack H :=
  cbn [mthr mrg mbuf xthr xrg xbuf] in H;
  repeat (match type of H with
         | context [if ?b then _ else _] => destruct b eqn:?
         | context [match ?o with MEnq _ => _ | _ => _ end] => destruct o eqn:?
         | context [match ?o with Some _ => _ | None => _ end] => is_var o; destruct o
         | context [match ?o with Some _ => _ | None => _ end] => destruct o eqn:?
         end; cbn [mthr mrg mbuf xthr xrg xbuf] in H).
Ltac open H :=
  unfold xstep, sp_call, sc_call, many, mstep, mview, mset, xgo, is_deq in H; cbn [mthr mrg mbuf xthr xrg xbuf] in H.

Lemma others : forall sp sc s l s' e t, xstep sp sc s l = Some (s', e) -> t <> who l -> xthr s' t = xthr s t.
Proof.
  intros sp sc s [u o|u] s' e t H Hn; cbn [who] in Hn; open H; destruct (xthr s u) as [p|o'|v a b|v a b|w|cu|cu|v cu] eqn:Eu; try destruct p; crack H; try discriminate; injection H as <- <-;
    cbn [xthr]; apply upd_other; auto.
Qed.
Lemma moves : forall sp sc s l s' e, xstep sp sc s l = Some (s', e) ->
  (c_head (xrg s') = c_head (xrg s) \/ 1 <= effects took (lin_of e)) /\ (p_head (xrg s') = p_head (xrg s) \/ 1 <= slots e).
Proof.
  intros sp sc s [u o|u] s' e H; open H; destruct (xthr s u) as [p|o'|v a b|v a b|w|cu|cu|v cu] eqn:Eu; try destruct p; crack H; try discriminate; injection H as <- <-;
    cbn [xrg c_head p_head set_h set_c set_t]; split; auto; right; unfold effects, slots, count; simpl; lia.
Qed.

Section Bounds.
Variables sp sc : bool.
Variable t : nat.
Section Gen.
Variable ph : xpc -> bool.
Variable allow : mop -> bool.
Variable pot : ring -> xpc -> nat.
Variable cost : xst -> mlab -> bool.
Variables A B C : nat.
Definition gain (log : list mev) : nat := A * calls t (lin_of log) + B * effects took (lin_of log) + C * slots log.
Hypothesis idle_ph : ph (XM MIdle) = true.
Hypothesis pot_max : forall r p, pot r p <= 6.
Hypothesis cost_mine : forall s l, cost s l = true -> who l = t.
Hypothesis own : forall s l s' e, who l = t -> ph (xthr s t) = true -> match l with MCall _ o => allow o = true | _ => True end -> xstep sp sc s l = Some (s', e) ->
  ph (xthr s' t) = true /\ pot (xrg s') (xthr s' t) + (if cost s l then 1 else 0) <= pot (xrg s) (xthr s t) + gain e.
Hypothesis other : forall r r' p, pot r' p <= pot r p + (if N.eqb (c_head r') (c_head r) then 0 else B) + (if N.eqb (p_head r') (p_head r) then 0 else C).

Lemma bound : forall k pre s0 l0 ls s log, makes allow t (pre ++ ls) -> run (xstep sp sc) (xinit k) pre = Some (s0, l0) -> run (xstep sp sc) s0 ls = Some (s, log) ->
  work (xstep sp sc) cost s0 ls <= 6 + gain log.
Proof.
  intros k pre s0 l0 ls s log HO H0 H. apply Forall_app in HO. destruct HO as [O1 O2].
  assert (S : forall s l s' e, ph (xthr s t) = true -> match l with MCall u o => u = t -> allow o = true | _ => True end -> xstep sp sc s l = Some (s', e) ->
    ph (xthr s' t) = true /\ pot (xrg s') (xthr s' t) + (if cost s l then 1 else 0) <= pot (xrg s) (xthr s t) + gain e).
  { clear - own other cost_mine. intros s0 l s' e I O E. destruct (Nat.eq_dec (who l) t) as [W|W].
    - apply own; auto. destruct l; auto.
    - assert (cost s0 l = false) as -> by (destruct (cost s0 l) eqn:K; auto; elim W; eauto).
      rewrite (others _ _ _ _ _ _ t E) by auto. split; auto. destruct (moves _ _ _ _ _ _ E) as [M1 M2]. specialize (other (xrg s0) (xrg s') (xthr s0 t)). unfold gain.
      destruct (N.eqb_spec (c_head (xrg s')) (c_head (xrg s0))), (N.eqb_spec (p_head (xrg s')) (p_head (xrg s0))); destruct M1, M2; try congruence; nia. }
  assert (I : ph (xthr s0 t) = true).
  { apply (inv_run _ _ _ (xstep sp sc) (fun s => ph (xthr s t) = true) (fun l => match l with MCall u o => u = t -> allow o = true | _ => True end)) with (3 := O1) (4 := H0); [|exact idle_ph].
    intros; eapply S; eauto. }
  cut (pot (xrg s) (xthr s t) + work (xstep sp sc) cost s0 ls <= pot (xrg s0) (xthr s0 t) + gain log); [pose proof (pot_max (xrg s0) (xthr s0 t)); lia|].
  apply (potential_work _ _ _ (xstep sp sc) (fun s => ph (xthr s t) = true) (fun l => match l with MCall u o => u = t -> allow o = true | _ => True end)
    (fun s => pot (xrg s) (xthr s t)) cost gain); auto.
  - unfold gain, calls, effects, slots, count; simpl; lia.
  - intros a b. unfold gain, calls, effects, slots. rewrite lin_app, !count_app. lia.
Qed.
End Gen.
End Bounds.

Lemma mine_who : forall t s l, mine t s l = true -> who l = t.
Proof. intros. apply Nat.eqb_eq. auto. Qed.
Lemma unwaited_who : forall t s l, unwaited t s l = true -> who l = t.
Proof. intros t s l H. apply andb_true_iff in H. apply Nat.eqb_eq. tauto. Qed.
Ltac own_tac W I O H :=
  cbn [who] in W; subst; open H; unfold mine, unwaited, gain, calls, effects, slots, count; cbn [who]; rewrite Nat.eqb_refl;
  destruct (xthr _ _) as [p|o'|v a b|v a b|w|cu|cu|v cu] eqn:Eu; try destruct p; try discriminate; crack H; try discriminate; injection H as <- <-;
  cbn [xthr xrg mthr]; rewrite ?upd_same; cbn [ph_sp ph_sc ph_try ph_mc ph_mp] in *; try discriminate; (split; [auto|]); simpl; rewrite ?N.eqb_refl, ?Nat.eqb_refl; simpl;
  repeat match goal with |- context [if ?z then _ else _] => destruct z eqn:? end; try lia.

Lemma sp_bound : forall sc t k pre s0 l0 ls s log, makes (fun o => negb (is_deq o)) t (pre ++ ls) -> run (xstep true sc) (xinit k) pre = Some (s0, l0) -> run (xstep true sc) s0 ls = Some (s, log) -> work (xstep true sc) (mine t) s0 ls <= 6 + 4 * calls t (lin_of log).
Proof.
  intros sc t k pre s0 l0 ls s log HM H0 H. pose proof (bound true sc t ph_sp (fun o => negb (is_deq o)) (fun _ => pot_sp) (mine t) 4 0 0) as X. unfold gain in X.
  cut (work (xstep true sc) (mine t) s0 ls <= 6 + 4 * calls t (lin_of log) + 0 * effects took (lin_of log) + 0 * slots log); [lia|].
  eapply X; eauto; [clear; destruct p; simpl; try lia; destruct p; lia|apply mine_who| |intros; lia]. clear. intros s [u o|u] s' e W I O H; own_tac W I O H.
Qed.
Lemma sc_bound : forall sp t k pre s0 l0 ls s log, makes is_deq t (pre ++ ls) -> run (xstep sp true) (xinit k) pre = Some (s0, l0) -> run (xstep sp true) s0 ls = Some (s, log) -> work (xstep sp true) (mine t) s0 ls <= 6 + 4 * calls t (lin_of log).
Proof.
  intros sp t k pre s0 l0 ls s log HM H0 H. pose proof (bound sp true t ph_sc is_deq (fun _ => pot_sc) (mine t) 4 0 0) as X. unfold gain in X.
  cut (work (xstep sp true) (mine t) s0 ls <= 6 + 4 * calls t (lin_of log) + 0 * effects took (lin_of log) + 0 * slots log); [lia|].
  eapply X; eauto; [clear; destruct p; simpl; try lia; destruct p; lia|apply mine_who| |intros; lia]. clear. intros s [u o|u] s' e W I O H; own_tac W I O H.
Qed.
Lemma try_bound : forall sp t k pre s0 l0 ls s log, makes (fun o => match o with MTry => true | _ => false end) t (pre ++ ls) -> run (xstep sp false) (xinit k) pre = Some (s0, l0) -> run (xstep sp false) s0 ls = Some (s, log) ->
  work (xstep sp false) (mine t) s0 ls <= 6 + 5 * calls t (lin_of log).
Proof.
  intros sp t k pre s0 l0 ls s log HM H0 H. pose proof (bound sp false t ph_try (fun o => match o with MTry => true | _ => false end) (fun _ => pot_try) (mine t) 5 0 0) as X. unfold gain in X.
  cut (work (xstep sp false) (mine t) s0 ls <= 6 + 5 * calls t (lin_of log) + 0 * effects took (lin_of log) + 0 * slots log); [lia|].
  eapply X; eauto; [clear; destruct p; simpl; try lia; destruct p; lia|apply mine_who| |intros; lia]. clear. intros s [u o|u] s' e W I O H; own_tac W I O H.
Qed.
Lemma mc_bound : forall sp t k pre s0 l0 ls s log, makes is_deq t (pre ++ ls) -> run (xstep sp false) (xinit k) pre = Some (s0, l0) -> run (xstep sp false) s0 ls = Some (s, log) ->
  work (xstep sp false) (mine t) s0 ls <= 6 + 5 * calls t (lin_of log) + 3 * effects took (lin_of log).
Proof.
  intros sp t k pre s0 l0 ls s log HM H0 H. pose proof (bound sp false t ph_mc is_deq pot_mc (mine t) 5 3 0) as X. unfold gain in X.
  cut (work (xstep sp false) (mine t) s0 ls <= 6 + 5 * calls t (lin_of log) + 3 * effects took (lin_of log) + 0 * slots log); [lia|].
  eapply X; eauto; [|apply mine_who| |]; clear.
  - intros r p. destruct p; simpl; try lia; destruct p; repeat match goal with |- context [if ?z then _ else _] => destruct z end; lia.
  - intros s [u o|u] s' e W I O H; own_tac W I O H.
  - intros r r' p. destruct (N.eqb_spec (c_head r') (c_head r)) as [E|E]; unfold pot_mc; [rewrite E; lia|].
    destruct p; try lia; destruct p; try lia; repeat match goal with |- context [if ?z then _ else _] => destruct z end; lia.
Qed.
Lemma mp_bound : forall sc t k pre s0 l0 ls s log, makes (fun o => negb (is_deq o)) t (pre ++ ls) -> run (xstep false sc) (xinit k) pre = Some (s0, l0) -> run (xstep false sc) s0 ls = Some (s, log) ->
  work (xstep false sc) (unwaited t) s0 ls <= 6 + 6 * calls t (lin_of log) + 2 * slots log.
Proof.
  intros sc t k pre s0 l0 ls s log HM H0 H. pose proof (bound false sc t ph_mp (fun o => negb (is_deq o)) pot_mp (unwaited t) 6 0 2) as X. unfold gain in X.
  cut (work (xstep false sc) (unwaited t) s0 ls <= 6 + 6 * calls t (lin_of log) + 0 * effects took (lin_of log) + 2 * slots log); [lia|].
  eapply X; eauto; [|apply unwaited_who| |]; clear.
  - intros r p. destruct p; simpl; try lia; destruct p; repeat match goal with |- context [if ?z then _ else _] => destruct z end; lia.
  - intros s [u o|u] s' e W I O H; own_tac W I O H; try (exfalso; rewrite N.eqb_sym in Heqb; congruence); rewrite ?Eu; simpl; auto.
  - intros r r' p. destruct (N.eqb_spec (p_head r') (p_head r)) as [E|E]; unfold pot_mp; [rewrite E; destruct p; try lia; destruct p; lia|].
    destruct p; try lia; destruct p; try lia; repeat match goal with |- context [if ?z then _ else _] => destruct z end; lia.
Qed.
(** thread 2 waits for thread 1 *)
Definition block_ls : list mlab := [MCall 1 (MEnq 5); MStep 1; MStep 1; MStep 1; MCall 2 (MEnq 6); MStep 2; MStep 2; MStep 2; MStep 2].
Definition calm (p : xpc) : Prop :=
  match p with
  | XM MIdle | XM (EHead _) | XM (ERe _ _ _) | XM (DHead _) => True
  | XM (ECons _ h) => (h <= 3)%N
  | XM (ECas _ h _) => (h < 3)%N
  | XM (EWrite _ h _) | XM (EWait _ h _) | XM (MGot h _) | XM (KWait _ h) => (h <> 0)%N
  | XM (DTail _ c) => c = 0%N
  | _ => False
  end.
Definition blocked (s : xst) : Prop :=
  c_head (xrg s) = 0%N /\ p_tail (xrg s) = 0%N /\ mask (xrg s) = 3%N /\ (1 <= p_head (xrg s) <= 3)%N /\ (forall u, u <> 1 -> calm (xthr s u)) /\ exists v c, xthr s 2 = XM (EWait v 1 c).
Definition noret (e : mev) : Prop := forall r, e <> ML (Ret 2 r).
Lemma blocked_go : forall s u p r b, u <> 1 -> u <> 2 -> blocked s -> calm p -> c_head r = 0%N -> p_tail r = 0%N -> mask r = 3%N -> (1 <= p_head r <= 3)%N ->
  blocked (mkx r b (upd (xthr s) u p)).
Proof.
  intros s u p r b H1 H2 [_ [_ [_ [_ [B5 [v [c B6]]]]]]] C R1 R2 R3 R4. refine (conj R1 (conj R2 (conj R3 (conj R4 (conj _ _))))).
  - intros w W. cbn [xthr]. unfold upd. destruct (Nat.eq_dec w u); auto.
  - exists v, c. cbn [xthr]. rewrite upd_other; auto.
Qed.
Lemma w32_small : forall h, (h < 3)%N -> w32 (h + 1) = (h + 1)%N.
Proof. intros h H. unfold w32. apply N.mod_small. lia. Qed.
Lemma sub_small : forall h, (h <= 3)%N -> sub32 h 0 = h.
Proof. intros h H. assert (X : h = 0%N \/ h = 1%N \/ h = 2%N \/ h = 3%N) by lia. destruct X as [->|[->|[->| ->]]]; reflexivity. Qed.
Lemma blocked_step : forall s l s' e, blocked s -> who l <> 1 -> xstep false false s l = Some (s', e) -> blocked s' /\ Forall noret e.
Proof.
  intros s l s' e HB W H. pose proof HB as [B1 [B2 [B3 [B4 [B5 [v [c B6]]]]]]].
  destruct (Nat.eq_dec (who l) 2) as [W2|W2].
  - destruct l as [u o|u]; cbn [who] in W2; subst u; open H; rewrite B6 in H; [destruct o; discriminate|].
    rewrite B2 in H. cbn in H. rewrite B6 in H. injection H as <- <-. split; auto.
    refine (conj B1 (conj B2 (conj B3 (conj B4 (conj _ _))))).
    + intros w Hw. cbn [xthr]. unfold upd. destruct (Nat.eq_dec w 2); auto. simpl. discriminate.
    + exists v, c. reflexivity.
  - assert (NR : forall u x, u <> 2 -> noret (ML (Ret u x))) by (intros u x U r E; injection E; intros; auto).
    assert (N1 : forall u x, noret (ML (Call u x))) by (intros u x r E; discriminate).
    assert (N2 : forall u x, noret (ML (Lin u x))) by (intros u x r E; discriminate).
    assert (N3 : forall u, noret (Resv u)) by (intros u r E; discriminate).
    assert (N4 : forall u, noret (MLook u)) by (intros u r E; discriminate).
    assert (N5 : forall u x, noret (MSize u x)) by (intros u x r E; discriminate).
    destruct l as [u o|u]; cbn [who] in W, W2; pose proof (B5 u W) as C; open H; destruct (xthr s u) as [p|o'|v' a b|v' a b|w|cu|cu|v' cu] eqn:Eu; try destruct p; try exact (False_ind _ C); cbn [calm] in C;
      rewrite ?B1, ?B2, ?B3 in H; crack H; try discriminate; injection H as <- <-; (split; [|repeat (apply Forall_cons; [auto|]); apply Forall_nil]);
      try (exfalso; match goal with E : N.eqb 0 ?x = true |- _ => apply N.eqb_eq in E; congruence | E : N.eqb ?x 0 = false |- _ => apply N.eqb_neq in E; congruence end);
      try apply blocked_go; auto; cbn [xthr mthr]; rewrite ?upd_same; cbn [c_head p_tail p_head mask set_h calm]; auto; try lia; rewrite ?Eu; auto;
      try (match goal with E : N.eqb (p_head _) _ = true |- _ => apply N.eqb_eq in E end; rewrite ?w32_small by auto; lia).
    apply N.ltb_lt in Heqb. rewrite sub_small in Heqb by auto. auto.
Qed.
Lemma blocked_run : forall ls s s' log, blocked s -> Forall (fun l => who l <> 1) ls -> run (xstep false false) s ls = Some (s', log) -> Forall noret log.
Proof.
  induction ls as [|l ls IH]; intros s s' log HB HF H.
  - injection H as <- <-. constructor.
  - inversion HF as [|? ? F1 F2]; subst. cbn [run] in H. destruct (xstep false false s l) as [[s1 e1]|] eqn:E1; [|discriminate].
    destruct (run (xstep false false) s1 ls) as [[s2 e2]|] eqn:E2; [|discriminate]. injection H as <- <-.
    destruct (blocked_step _ _ _ _ HB F1 E1) as [B N]. apply Forall_app. eauto.
Qed.
Lemma mp_blocks : exists pre s0 l0, run (xstep false false) (xinit 2) pre = Some (s0, l0) /\ In (ML (Call 2 (MEnq 6))) l0 /\ ~ In (ML (Ret 2 (RB true))) l0 /\
  forall ls s log, Forall (fun l => who l <> 1) ls -> run (xstep false false) s0 ls = Some (s, log) -> forall r, ~ In (ML (Ret 2 r)) log.
Proof.
  exists block_ls. destruct (run (xstep false false) (xinit 2) block_ls) as [[s0 l0]|] eqn:E; [|vm_compute in E; discriminate].
  exists s0, l0. split; auto. vm_compute in E. injection E as <- <-. split; [simpl; auto 10|]. split; [intros X; simpl in X; repeat destruct X as [X|X]; try discriminate; auto|].
  intros ls s log HF H r Hr. refine (proj1 (Forall_forall noret log) (blocked_run ls _ s log _ HF H) _ Hr r eq_refl).
  refine (conj eq_refl (conj eq_refl (conj eq_refl (conj _ (conj _ _))))).
  - cbn [xrg p_head]. lia.
  - intros u U. destruct u as [|[|[|u]]]; simpl; auto; try lia.
  - eexists. eexists. reflexivity.
Qed.
