(** * Epoch model: where deferred callbacks are kept *)
From Coq Require Import List Arith NArith Bool Lia FinFun.
From Verif Require Import Lib RingMp_Proof Epoch_Model Epoch_Spec Epoch_Proof EpochSync_Proof EpochOwn_Proof.
Import ListNotations.
Local Open Scope nat_scope.
Local Arguments N.add : simpl never. Local Arguments N.sub : simpl never. Local Arguments N.modulo : simpl never.
Local Arguments N.eqb : simpl never. Local Arguments N.leb : simpl never. Local Arguments N.ltb : simpl never.
Local Arguments Nat.modulo : simpl never. Local Arguments Nat.ltb : simpl never.
Local Arguments upd : simpl never. Local Arguments N.to_nat : simpl never.

Definition rp (s : st) (r b : nat) : list nat := rpend (rc s r) b.
(** callbacks popped by a dispatch and not yet run *)
Definition displ (p : pc) : list (nat * nat) := match p with DR r l _ _ _ => map (fun x => (x, r)) l | _ => [] end.
Definition nopend (e : event) : bool := match e with EDefer _ _ | ERun _ => false | _ => true end.

Inductive place := PCall (t : nat) | PPend (r b : nat) | PDisp (t : nat).
Definition at_ (s : st) (x r : nat) (p : place) : Prop :=
  match p with
  | PCall t => callp (thr s t) = Some (r, x)
  | PPend q b => r = q /\ In x (rp s q b)
  | PDisp t => In (x, r) (displ (thr s t))
  end.

(** ** Steps, sorted by what they do to deferred callbacks *)
Inductive pdelta (c : cfg) (t : nat) (s s' : st) (ev : list event) : Prop :=
| pd_keep : (forall r b, rp s' r b = rp s r b) -> callp (thr s' t) = callp (thr s t) -> displ (thr s' t) = displ (thr s t) ->
    nent s' = nent s -> forallb nopend ev = true -> pdelta c t s s' ev
| pd_call b r : thr s t = Idle -> thr s' t = C1 b r (nent s) -> nent s' = S (nent s) -> (forall q b, rp s' q b = rp s q b) ->
    may_call c s b r = true -> ev = [EDefer (nent s) r] -> pdelta c t s s' ev
| pd_push b r x e : thr s t = C4 b r x e -> thr s' t = Idle -> (forall q k, rp s' q k = if Nat.eq_dec q r then if Nat.eq_dec k (slot e) then x :: rp s r (slot e) else rp s q k else rp s q k) ->
    nent s' = nent s -> ev = [] -> pdelta c t s s' ev
| pd_pop r b bs k : thr s t = D0 r (b :: bs) k -> thr s' t = DR r (rp s r b) 0 bs k ->
    (forall q j, rp s' q j = if Nat.eq_dec q r then if Nat.eq_dec j b then [] else rp s q j else rp s q j) ->
    nent s' = nent s -> ev = [] -> pdelta c t s s' ev
| pd_run r x l n bs k : thr s t = DR r (x :: l) n bs k -> thr s' t = DR r l (S n) bs k -> (forall q b, rp s' q b = rp s q b) ->
    nent s' = nent s -> ev = [ERun x] -> pdelta c t s s' ev
| pd_clr r : (thr s t = N1 /\ own s t = Some r) \/ r = length (recs s) -> (forall q b, rp s' q b = if Nat.eq_dec q r then [] else rp s q b) ->
    callp (thr s t) = None -> callp (thr s' t) = None -> displ (thr s t) = [] -> displ (thr s' t) = [] ->
    nent s' = nent s -> ev = [] -> pdelta c t s s' ev.

Lemma displ_snext : forall k d af rest, displ (snext k d af rest) = [].
Proof. intros. unfold snext. destruct rest; auto. destruct k, af; auto. Qed.
Lemma displ_sfound : forall k d rest, displ (sfound k d rest) = [].
Proof. intros. destruct k; auto. Qed.
Lemma displ_dnext : forall r n bs k, displ (dnext r n bs k) = [].
Proof. intros. unfold dnext; destruct bs, k; auto. Qed.
Lemma displ_dcount : forall r n bs k, displ (dcount r n bs k) = [].
Proof. intros. unfold dcount. destruct n; auto. apply displ_dnext. Qed.

Ltac pdk := apply pd_keep; fc; rewrite ?upd_same; auto;
  try (let q := fresh "q" in intros q ?; unfold rp; fc; rewrite ?updE; destruct (Nat.eq_dec q _) as [->|]; fc; auto; fail).

Lemma step_pd : forall c s l s' ev, step c s l = Some (s', ev) -> pdelta c (lthr l) s s' ev.
Proof.
  intros c s l s' ev H. destruct l as [t o|t]; cbn [step lthr] in *.
  - destruct (thr s t) eqn:Et; try discriminate. destruct o; cbn [call] in H; cbv zeta in H.
    + destruct (own s t) eqn:Eo; try discriminate. injection H as <- <-. apply (pd_clr _ _ _ _ _ (length (recs s))); fc; rewrite ?Et; auto.
      intros q b. unfold rp. fc. rewrite updE. destruct (Nat.eq_dec q (length (recs s))); auto.
    + break H; injection H as <- <-. pdk. all: rewrite Et; auto.
    + break H; injection H as <- <-. pdk. all: rewrite Et; auto.
    + break H; injection H as <- <-. pdk. all: rewrite Et; auto.
    + break H; injection H as <- <-. pdk. all: rewrite Et; auto.
    + destruct (may_call c s strict r) eqn:M; [|discriminate]. injection H as <- <-. eapply pd_call; fc; rewrite ?upd_same; eauto.
    + break H; injection H as <- <-. pdk. all: rewrite Et; auto.
    + break H; injection H as <- <-. pdk. all: rewrite Et; auto.
    + break H; injection H as <- <-. pdk. all: rewrite Et; auto.
  - unfold tick, entered in H. cbv zeta in H. destruct (thr s t) eqn:Et; try discriminate H.
    all: try (break H; injection H as <- <-; pdk; rewrite ?Et, ?callp_snext, ?callp_sfound, ?callp_dnext, ?callp_dcount, ?displ_snext, ?displ_sfound, ?displ_dnext, ?displ_dcount; auto; fail).
    + injection H as <- <-; pdk; rewrite ?Et; destruct (rfree (rc s r)); auto.
    + destruct (own s t) eqn:Eo; [|discriminate]. injection H as <- <-. apply (pd_clr _ _ _ _ _ n); fc; rewrite ?upd_same, ?Et; auto.
      intros q b. unfold rp. fc. rewrite updE. destruct (Nat.eq_dec q n); auto.
    + destruct (own s t); [|discriminate]. break H; injection H as <- <-; pdk; rewrite ?Et; auto.
      intros q b. unfold rp. fc. rewrite updE. destruct (Nat.eq_dec q n) as [->|]; auto. destruct (_ && _); auto.
    + injection H as <- <-. eapply pd_push; fc; rewrite ?upd_same; eauto.
      intros q k. unfold rp. fc. rewrite updE. destruct (Nat.eq_dec q r) as [->|]; auto. 
    + break H; injection H as <- <-; pdk; rewrite ?Et; destruct (S i <? 2); auto.
    + break H; injection H as <- <-; pdk; rewrite ?Et; destruct (rfree _); rewrite ?callp_snext, ?displ_snext; auto.
    + break H; injection H as <- <-; pdk; rewrite ?Et; destruct (ract _); rewrite ?callp_snext, ?displ_snext; auto.
    + break H; injection H as <- <-; pdk; rewrite ?Et; destruct (_ =? _)%N; rewrite ?callp_snext, ?displ_snext, ?callp_sfound, ?displ_sfound; auto.
    + destruct bs as [|b bs]; [discriminate|]. injection H as <- <-. eapply pd_pop; fc; rewrite ?upd_same; eauto.
      intros q j. unfold rp. fc. rewrite updE. destruct (Nat.eq_dec q r) as [->|]; auto.
    + destruct l; injection H as <- <-.
      * pdk; rewrite Et; auto.
      * eapply pd_run; fc; rewrite ?upd_same; eauto.
Qed.

(** ** Each callback is in one place (any configuration) *)
Record IP (s : st) (g : gs) : Prop := {
  p_in : forall x r p, at_ s x r p -> In (x, r) (g_pend g);
  p_u : forall x r q p p', at_ s x r p -> at_ s x q p' -> p = p';
  p_n1 : forall r b, NoDup (rp s r b);
  p_n2 : forall t, NoDup (displ (thr s t));
  p_lt : forall x r, In (x, r) (g_pend g) -> x < nent s;
  p_nx : NoDup (map fst (g_pend g)) }.

Lemma IP_init : IP init gs0.
Proof.
  assert (A : forall x r p, ~ at_ init x r p). { intros x r [t|q b|t]; cbn; intuition discriminate. }
  constructor; cbn; intros; try contradiction; try constructor; exfalso; eapply A; eauto.
Qed.

Lemma gpend_keep : forall ev g, forallb nopend ev = true -> g_pend (gfold ev g) = g_pend g.
Proof. induction ev as [|e ev IH]; intros g H; auto. cbn in H. apply andb_true_iff in H. destruct H as [A B]. cbn. rewrite IH; auto. destruct e; auto; discriminate. Qed.

Lemma IP_sub : forall s s' g g', IP s g -> (forall x r p, at_ s' x r p -> at_ s x r p) ->
  (forall r b, NoDup (rp s' r b)) -> (forall t, NoDup (displ (thr s' t))) -> nent s' = nent s -> g_pend g' = g_pend g -> IP s' g'.
Proof.
  intros s s' g g' I A B C D E. constructor; rewrite ?D, ?E; auto; try apply I.
  - intros x r p X. apply (p_in _ _ I _ _ p). auto.
  - intros x r q p p' X Y. eapply (p_u _ _ I); eauto.
Qed.

Lemma pending_in : forall g x, pending g x = true <-> exists r, In (x, r) (g_pend g).
Proof.
  intros g x. unfold pending. rewrite existsb_exists. split.
  - intros [[y r] [A B]]. cbn in B. apply Nat.eqb_eq in B. subst y. eauto.
  - intros [r A]. exists (x, r). split; auto. apply Nat.eqb_refl.
Qed.
Lemma pend_fun : forall (l : list (nat * nat)) x r q, NoDup (map fst l) -> In (x, r) l -> In (x, q) l -> r = q.
Proof.
  induction l as [|[y k] l IH]; intros x r q N A B; [contradiction|]. cbn in N. apply NoDup_cons_iff in N. destruct N as [N1 N2].
  destruct A as [A|A], B as [B|B]; try congruence.
  - injection A as -> ->. exfalso. apply N1. apply in_map_iff. exists (x, q). auto.
  - injection B as -> ->. exfalso. apply N1. apply in_map_iff. exists (x, r). auto.
  - eauto.
Qed.

Definition moves (s s' : st) (t : nat) : Prop := forall u, u <> t -> thr s' u = thr s u.

Lemma IP_step : forall c s t s' ev g, moves s s' t -> IP s g -> pdelta c t s s' ev -> legal_from run_ok g ev /\ IP s' (gfold ev g).
Proof.
  intros c s t s' ev g M I D. destruct D as [Dr Dc Dd Dn De|b r Dt Dt' Dn Dr Dm De|b r x e Dt Dt' Dr Dn De|r b bs k Dt Dt' Dr Dn De|r x l n bs k Dt Dt' Dr Dn De|r Dw Dr Dc Dc' Dd Dd' Dn De].
  - split.
    + clear - De. revert g. induction ev as [|e ev IH]; intros g; cbn; auto. cbn in De. apply andb_true_iff in De. destruct De as [A B].
      split; auto. destruct e; auto; discriminate.
    + apply (IP_sub s s' g); auto; [| | |apply gpend_keep; auto].
      * intros x r [u|q b|u]; cbn; rewrite ?Dr; auto; destruct (Nat.eq_dec u t) as [->|N]; rewrite ?Dc, ?Dd, ?(M u N); auto.
      * intros r b. rewrite Dr. apply (p_n1 _ _ I).
      * intros u. destruct (Nat.eq_dec u t) as [->|N]; rewrite ?Dd, ?(M u N); apply (p_n2 _ _ I).
  - subst ev. split; [cbn; auto|]. cbn [gfold fold_left gnext].
    assert (A : forall x q p, at_ s' x q p -> (p = PCall t /\ x = nent s /\ q = r) \/ at_ s x q p).
    { intros x q [u|q' b'|u]; cbn; rewrite ?Dr; auto; destruct (Nat.eq_dec u t) as [->|N]; rewrite ?(M u N); auto; rewrite Dt'; cbn.
      - intros X. injection X as <- <-. auto.
      - contradiction. }
    assert (F : forall q p, ~ at_ s (nent s) q p). { intros q p X. apply (p_in _ _ I) in X. apply (p_lt _ _ I) in X. lia. }
    constructor; cbn [g_pend]; rewrite ?Dn.
    + intros x q p X. destruct (A _ _ _ X) as [[-> [-> ->]]|Y]; [left; auto|right; eapply (p_in _ _ I); eauto].
    + intros x q q' p p' X Y. destruct (A _ _ _ X) as [[-> [-> ->]]|X'], (A _ _ _ Y) as [[-> [Ex ->]]|Y']; auto; try (subst; exfalso; eapply F; eauto; fail).
      eapply (p_u _ _ I); eauto.
    + intros q b'. rewrite Dr. apply (p_n1 _ _ I).
    + intros u. destruct (Nat.eq_dec u t) as [->|N]; rewrite ?(M u N); try apply (p_n2 _ _ I). rewrite Dt'. constructor.
    + intros x q [X|X]; [injection X as <- <-; lia|]. apply (p_lt _ _ I) in X. lia.
    + cbn. constructor; [|apply (p_nx _ _ I)]. intros X. apply in_map_iff in X. destruct X as [[y q] [X Y]]. cbn in X. subst y. apply (p_lt _ _ I) in Y. lia.
  - subst ev. split; [cbn; auto|]. cbn [gfold fold_left].
    assert (X0 : at_ s x r (PCall t)) by (cbn; rewrite Dt; auto).
    assert (A : forall y q p, at_ s' y q p -> (p = PPend r (slot e) /\ y = x /\ q = r) \/ (p <> PCall t /\ at_ s y q p)).
    { intros y q [u|q' b'|u]; cbn.
      - destruct (Nat.eq_dec u t) as [->|N]; rewrite ?(M u N); [rewrite Dt'; discriminate|]. intros X. right. split; auto. congruence.
      - rewrite Dr. destruct (Nat.eq_dec q' r) as [->|]; [destruct (Nat.eq_dec b' (slot e)) as [->|]|].
        + intros [-> [X|X]]; auto. right. split; auto; discriminate.
        + intros; right; split; auto; discriminate.
        + intros; right; split; auto; discriminate.
      - destruct (Nat.eq_dec u t) as [->|N]; rewrite ?(M u N); [rewrite Dt'; contradiction|]. intros X. right. split; auto. discriminate. }
    assert (F : forall q p, p <> PCall t -> ~ at_ s x q p). { intros q p N X. apply N. eapply (p_u _ _ I); eauto. }
    constructor; rewrite ?Dn; try apply I.
    + intros y q p Y. destruct (A _ _ _ Y) as [[-> [-> ->]]|[_ Y']]; eapply (p_in _ _ I); eauto.
    + intros y q q' p p' Y Z. destruct (A _ _ _ Y) as [[-> [-> ->]]|[N Y']], (A _ _ _ Z) as [[-> [Ex ->]]|[N' Z']]; auto; try (subst; exfalso; eapply F; eauto; fail).
      eapply (p_u _ _ I); eauto.
    + intros q k. rewrite Dr. destruct (Nat.eq_dec q r) as [->|]; [destruct (Nat.eq_dec k (slot e)) as [->|]|]; try apply (p_n1 _ _ I).
      constructor; [|apply (p_n1 _ _ I)]. intros X. apply (F r (PPend r (slot e))); [discriminate|cbn; auto].
    + intros u. destruct (Nat.eq_dec u t) as [->|N]; rewrite ?(M u N); try apply (p_n2 _ _ I). rewrite Dt'. constructor.
  - subst ev. split; [cbn; auto|]. cbn [gfold fold_left].
    assert (A : forall y q p, at_ s' y q p -> (p = PDisp t /\ at_ s y q (PPend r b)) \/ (p <> PPend r b /\ p <> PDisp t /\ at_ s y q p)).
    { intros y q [u|q' b'|u]; cbn.
      - destruct (Nat.eq_dec u t) as [->|N]; rewrite ?(M u N); [rewrite Dt'; discriminate|]. intros X. right. repeat split; auto; congruence.
      - rewrite Dr. destruct (Nat.eq_dec q' r) as [->|]; [destruct (Nat.eq_dec b' b) as [->|]|].
        + intros [_ []].
        + intros; right; repeat split; try tauto; congruence.
        + intros; right; repeat split; try tauto; congruence.
      - destruct (Nat.eq_dec u t) as [->|N]; rewrite ?(M u N).
        + rewrite Dt'. cbn. intros X. apply in_map_iff in X. destruct X as [z [X Y]]. injection X as <- <-. left; auto.
        + intros X. right. repeat split; auto; congruence. }
    constructor; rewrite ?Dn; try apply I.
    + intros y q p Y. destruct (A _ _ _ Y) as [[-> Y']|[_ [_ Y']]]; eapply (p_in _ _ I); eauto.
    + intros y q q' p p' Y Z. destruct (A _ _ _ Y) as [[-> Y']|[N [N2 Y']]], (A _ _ _ Z) as [[-> Z']|[N' [N2' Z']]]; auto.
      * exfalso. apply N'. eapply (p_u _ _ I); eauto.
      * exfalso. apply N. eapply (p_u _ _ I); eauto.
      * eapply (p_u _ _ I); eauto.
    + intros q k'. rewrite Dr. destruct (Nat.eq_dec q r) as [->|]; [destruct (Nat.eq_dec k' b) as [->|]|]; try apply (p_n1 _ _ I). constructor.
    + intros u. destruct (Nat.eq_dec u t) as [->|N]; rewrite ?(M u N); try apply (p_n2 _ _ I). rewrite Dt'. cbn.
      apply FinFun.Injective_map_NoDup; [|apply (p_n1 _ _ I)]. intros y z E. congruence.
  - assert (X0 : at_ s x r (PDisp t)) by (cbn; rewrite Dt; left; auto).
    subst ev. split.
    + cbn. split; auto. apply pending_in. exists r. eapply (p_in _ _ I); eauto.
    + cbn [gfold fold_left gnext].
      pose proof (p_n2 _ _ I t) as ND. rewrite Dt in ND. cbn in ND. apply NoDup_cons_iff in ND. destruct ND as [ND1 ND2].
      assert (A : forall y q p, at_ s' y q p -> y <> x /\ at_ s y q p).
      { intros y q p Y. assert (B : at_ s y q p).
        { destruct p as [u|q' b'|u]; cbn in *; rewrite ?Dr in Y; auto; destruct (Nat.eq_dec u t) as [->|N]; rewrite ?(M u N) in Y; auto; rewrite Dt' in Y; cbn in Y; [discriminate|].
          rewrite Dt. right. auto. }
        split; auto. intros ->. assert (E := p_u _ _ I _ _ _ _ _ B X0). subst p. cbn in Y. rewrite Dt' in Y. cbn in Y.
        assert (q = r). { apply in_map_iff in Y. destruct Y as [z [Y _]]. congruence. } subst q. auto. }
      constructor; cbn [g_pend]; rewrite ?Dn.
      * intros y q p Y. apply A in Y. destruct Y as [N Y]. apply filter_In. split; [eapply (p_in _ _ I); eauto|]. cbn. apply negb_true_iff. apply Nat.eqb_neq. auto.
      * intros y q q' p p' Y Z. apply A in Y. apply A in Z. eapply (p_u _ _ I); [apply Y|apply Z].
      * intros q b'. rewrite Dr. apply (p_n1 _ _ I).
      * intros u. destruct (Nat.eq_dec u t) as [->|N]; rewrite ?(M u N); try apply (p_n2 _ _ I). rewrite Dt'. cbn. auto.
      * intros y q Y. apply filter_In in Y. eapply (p_lt _ _ I). apply Y.
      * pose proof (p_nx _ _ I) as NX. clear - NX. induction (g_pend g) as [|[y q] l' IH]; cbn; [constructor|]. cbn in NX. apply NoDup_cons_iff in NX. destruct NX as [N1 N2].
        destruct (Nat.eqb y x); cbn; auto. constructor; auto. intros X. apply N1. apply in_map_iff in X. destruct X as [z [X Y]]. apply filter_In in Y. apply in_map_iff. exists z. tauto.
  - subst ev. split; [cbn; auto|]. apply (IP_sub s s' g); auto.
    + intros y q [u|q' b'|u]; cbn; rewrite ?Dr; auto.
      * destruct (Nat.eq_dec u t) as [->|N]; rewrite ?(M u N); auto. rewrite Dc'. discriminate.
      * destruct (Nat.eq_dec q' r); auto. intros [_ []].
      * destruct (Nat.eq_dec u t) as [->|N]; rewrite ?(M u N); auto. rewrite Dd'. contradiction.
    + intros q b. rewrite Dr. destruct (Nat.eq_dec q r); [constructor|apply (p_n1 _ _ I)].
    + intros u. destruct (Nat.eq_dec u t) as [->|N]; rewrite ?(M u N); [rewrite Dd'; constructor|apply (p_n2 _ _ I)].
Qed.
