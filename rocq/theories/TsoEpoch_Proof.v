(** Proofs about epoch reclamation on x86-TSO. *)
From Coq Require Import ZArith Arith List Bool Lia.
From Verif Require Import Lib Tso TsoSmr_Spec TsoEpoch_Model.
Import ListNotations.
Local Open Scope Z_scope.

Local Arguments W : simpl never.

Local Arguments ACT : simpl never.
Local Arguments REP : simpl never.

Section Proof.
Variable recs : list nat.
Variable wr : nat -> option nat.
Notation st := (tso thr).

(** the global epoch; inside a section, with which epoch; where an object can be found *)
Definition G (s : st) : Z := mem s (Reg 0).
Definition isin (l : thr) : Prop := 1 <= nst l /\ at_ l <> B2.
Definition gs (l : thr) : Z := match at_ l with B3 g => g | _ => ent l end.
Definition occ (s : st) (x : Z) (i : nat) : Prop := mem s (Dat i) = x \/ exists t, In (Dat i, x) (buf s t).
Definition unr (s : st) (x : Z) : Prop := forall i, ~ occ s x i.
Definition hd (a : smr) (r : nat) (x : Z) : Prop := In (r, x) (held a).

Record GI (s : st) (a : smr) (A : list Z) : Prop := {
  g_own : forall t x v, In (x, v) (buf s t) -> (exists i, x = Dat i /\ wr i = Some t) \/ x = ACT t \/ x = REP t;
  g_act : forall t, 1 <= nst (pcs s t) -> mem s (ACT t) <> 0 /\ forall v, In (ACT t, v) (buf s t) -> v <> 0;
  g_rep : forall t v, mem s (REP t) = v \/ In (REP t, v) (buf s t) -> v <= G s /\ (isin (pcs s t) -> v <= gs (pcs s t));
  g_ep : forall t, isin (pcs s t) -> gs (pcs s t) <= G s <= gs (pcs s t) + 1;
  g_in : forall r x, hd a r x -> isin (pcs s r);
  g_freed : forall x, In x (freed a) -> In x A /\ unr s x;
  g_occ : forall x i, occ s x i -> x <> 0 -> In x A /\ forall j, occ s x j -> j = i;
  g_recs : forall t, 1 <= nst (pcs s t) -> In t recs
}.

Definition gone (s : st) (A : list Z) (x : Z) : Prop := In x A /\ unr s x.
Definition dead (s : st) (a : smr) (A : list Z) (x : Z) : Prop := gone s A x /\ forall r, ~ hd a r x.
Definition ward (s : st) (a : smr) (A : list Z) (x e : Z) : Prop := gone s A x /\ e <= G s /\ forall r, hd a r x -> gs (pcs s r) <= e.
Definition plain (s : st) (A : list Z) (t : nat) (x : Z) : Prop :=
  In x A /\ forall i, occ s x i -> wr i = Some t /\ x <> view s t (Dat i).

Definition wards (l : thr) (k : sk) : list Z := map fst (pend l) ++ match k with KS _ _ xs _ => xs | KP => [] end.
Definition scanned (s : st) (a : smr) (t : nat) (k : sk) (d : Z) (af : bool) (pre : list nat) : Prop :=
  d <= G s /\
  (forall r, In r pre -> G s = d -> isin (pcs s r) -> gs (pcs s r) = d) /\
  (af = false -> forall r x, In r pre -> In x (wards (pcs s t) k) -> ~ hd a r x) /\
  (af = false -> In t pre -> nst (pcs s t) = 0).
Definition kinv (s : st) (a : smr) (A : list Z) (t : nat) (k : sk) (d : Z) : Prop :=
  match k with
  | KP => In t recs /\ forall x e, In (x, e) (pend (pcs s t)) -> e <= d
  | KS e0 i xs b => 0 <= e0 /\ e0 + Z.of_nat i <= d /\ (forall x, In x xs -> ward s a A x e0) /\ forall x e, In (x, e) (pend (pcs s t)) -> e <= e0
  end.
Definition ks (k : sk) : Prop := match k with KP => False | KS _ _ _ _ => True end.

Definition at_ok (s : st) (a : smr) (A : list Z) (t : nat) (l : thr) : Prop :=
  match at_ l with
  | Idle => True
  | B2 | B3 _ => 1 <= nst l
  | P1 => In t recs
  | U1 i x => wr i = Some t
  | U2 i x v => wr i = Some t /\ v = view s t (Dat i)
  | C1 x => gone s A x
  | P2 e => e <= G s /\ kinv s a A t KP e
  | PC e => scanned s a t KP e true recs /\ kinv s a A t KP e
  | PW e => e <= G s /\ nst l = 0 /\ forall x e', In (x, e') (pend l) -> dead s a A x
  | Dp xs k => (forall x, In x xs -> dead s a A x) /\ match k with KScan e => e <= G s /\ kinv s a A t KP e | KEnd => True end
  | Sa k d af rest => (exists pre, recs = pre ++ rest /\ scanned s a t k d af pre) /\ kinv s a A t k d
  | Sr k d rest => (exists pre, recs = pre ++ rest /\ scanned s a t k d true pre) /\ kinv s a A t k d
  | Y1 xs b => forall x, In x xs -> gone s A x \/ plain s A t x
  | Y2 xs b => forall x, In x xs -> gone s A x
  | Y4 k d rest => ks k /\ (exists pre, recs = pre ++ rest /\ scanned s a t k d true pre) /\ kinv s a A t k d
  | YC k d => ks k /\ scanned s a t k d true recs /\ kinv s a A t k d
  | YL xs b => forall x, In x (map fst (pend l) ++ xs) -> dead s a A x
  end.
Definition TI (s : st) (a : smr) (A : list Z) (t : nat) : Prop :=
  at_ok s a A t (pcs s t) /\ 0 <= nst (pcs s t) /\
  (forall x e, In (x, e) (pend (pcs s t)) -> ward s a A x e) /\
  (forall x, In x (got (pcs s t)) -> gone s A x) /\ (forall x, In x (gotp (pcs s t)) -> plain s A t x).

(** * Stability *)
Record Stab (s : st) (a : smr) (A : list Z) (s' : st) (a' : smr) (A' : list Z) : Prop := {
  s_G : G s <= G s';
  s_occ : forall x i, In x A -> occ s' x i -> occ s x i;
  s_hd : forall r x, In x A -> unr s x -> hd a' r x -> hd a r x;
  s_in : forall r, isin (pcs s' r) -> (isin (pcs s r) /\ gs (pcs s' r) = gs (pcs s r)) \/ (gs (pcs s' r) = G s' /\ ~ isin (pcs s r));
  s_A : incl A A'
}.

Section Stable.
Variables (s s' : st) (a a' : smr) (A A' : list Z).
Hypothesis HG : GI s a A.
Hypothesis HG' : GI s' a' A'.
Hypothesis HS : Stab s a A s' a' A'.

Lemma gone_st : forall x, gone s A x -> gone s' A' x.
Proof. intros x [H1 H2]. split; [apply (s_A _ _ _ _ _ _ HS); auto|]. intros i Hi. apply (H2 i). eapply s_occ; eauto. Qed.
Lemma dead_st : forall x, dead s a A x -> dead s' a' A' x.
Proof. intros x [[H1 H2] H3]. split; [apply gone_st; split; auto|]. intros r Hr. apply (H3 r). eapply s_hd; eauto. Qed.
Lemma hd_gs : forall r x, gone s A x -> hd a' r x -> hd a r x /\ gs (pcs s' r) = gs (pcs s r).
Proof.
  intros r x [H1 H2] Hr. assert (Hr0 : hd a r x) by (eapply s_hd; eauto). split; auto.
  destruct (s_in _ _ _ _ _ _ HS r) as [[_ E]|[_ E]]; auto; [eapply g_in; eauto|]. exfalso. apply E. eapply g_in; eauto.
Qed.
Lemma ward_st : forall x e, ward s a A x e -> ward s' a' A' x e.
Proof.
  intros x e [H1 [H2 H3]]. pose proof (s_G _ _ _ _ _ _ HS). split; [apply gone_st; auto|]. split; [lia|].
  intros r Hr. destruct (hd_gs r x H1 Hr) as [K1 K2]. rewrite K2. auto.
Qed.
Lemma scanned_st : forall t k d af pre, pend (pcs s' t) = pend (pcs s t) -> nst (pcs s' t) = nst (pcs s t) ->
  (forall x, In x (wards (pcs s t) k) -> gone s A x) -> scanned s a t k d af pre -> scanned s' a' t k d af pre.
Proof.
  intros t k d af pre E1 E2 Hw [H1 [H2 [H3 H4]]]. pose proof (s_G _ _ _ _ _ _ HS). split; [lia|]. split; [|split].
  - intros r Hr Hd Hi. destruct (s_in _ _ _ _ _ _ HS r Hi) as [[K1 K2]|[K1 K2]]; [|congruence].
    rewrite K2. apply H2; auto. lia.
  - intros Ha r x Hr Hx Hh. unfold wards in *. rewrite E1 in Hx. apply (H3 Ha r x Hr Hx). eapply hd_gs; eauto.
  - intros Ha Ht. rewrite E2. auto.
Qed.
Lemma kinv_st : forall t k d, pend (pcs s' t) = pend (pcs s t) -> kinv s a A t k d -> kinv s' a' A' t k d.
Proof.
  intros t k d E. unfold kinv. rewrite E. destruct k; auto. intros [H0 [H1 [H2 H3]]]. split; auto. split; auto. split; auto. intros x Hx. apply ward_st. auto.
Qed.
Lemma wards_gone : forall t k d, TI s a A t -> kinv s a A t k d -> forall x, In x (wards (pcs s t) k) -> gone s A x.
Proof.
  intros t k d [_ [_ [H _]]] K x Hx. unfold wards in Hx. apply in_app_iff in Hx. destruct Hx as [Hx|Hx].
  - apply in_map_iff in Hx. destruct Hx as [[y e] [<- Hx]]. apply (H y e Hx).
  - destruct k; [destruct Hx|]. apply (proj1 (proj2 (proj2 K)) x Hx).
Qed.
Lemma plain_st : forall t x, (forall i, wr i = Some t -> view s' t (Dat i) = view s t (Dat i)) -> plain s A t x -> plain s' A' t x.
Proof.
  intros t x Hv [H1 H2]. split; [apply (s_A _ _ _ _ _ _ HS); auto|]. intros i Hi.
  destruct (H2 i) as [K1 K2]; [eapply s_occ; eauto|]. split; auto. rewrite Hv; auto.
Qed.
Lemma TI_st : forall u, pcs s' u = pcs s u -> (forall i, wr i = Some u -> view s' u (Dat i) = view s u (Dat i)) ->
  TI s a A u -> TI s' a' A' u.
Proof.
  intros u E Hv HT. pose proof HT as [H1 [H2 [H3 [H4 H5]]]]. pose proof (s_G _ _ _ _ _ _ HS) as HGe.
  pose proof (wards_gone u) as Hw. unfold TI. rewrite E. split; [|split; [auto|split; [|split]]].
  2: intros x e Hx; apply ward_st; auto.
  2: intros x Hx; apply gone_st; auto.
  2: intros x Hx; apply plain_st; auto.
  assert (SC : forall k d af pre, kinv s a A u k d -> scanned s a u k d af pre -> scanned s' a' u k d af pre).
  { intros k d af pre K. apply scanned_st; try congruence. eapply Hw; eauto. }
  assert (KI : forall k d, kinv s a A u k d -> kinv s' a' A' u k d) by (intros; apply kinv_st; auto; congruence).
  unfold at_ok in *. destruct (at_ (pcs s u)); auto.
  - destruct H1 as [K1 K2]. split; auto. rewrite Hv; auto.
  - apply gone_st; auto.
  - destruct H1 as [K1 K2]. split; [lia|auto].
  - destruct H1 as [K1 K2]. eauto.
  - destruct H1 as [K1 [K2 K3]]. split; [lia|]. split; auto. intros x e' Hx. apply dead_st. eauto.
  - destruct H1 as [K1 K2]. split; [intros x Hx; apply dead_st; auto|]. destruct k; auto. destruct K2. split; [lia|auto].
  - destruct H1 as [[pre [K1 K2]] K3]. eauto 6.
  - destruct H1 as [[pre [K1 K2]] K3]. eauto 6.
  - intros x Hx. destruct (H1 x Hx); [left; apply gone_st|right; apply plain_st]; auto.
  - intros x Hx. apply gone_st; auto.
  - destruct H1 as [K0 [[pre [K1 K2]] K3]]. split; auto. eauto 6.
  - destruct H1 as [K0 [K2 K3]]. split; auto.
  - intros x Hx. apply dead_st; auto.
Qed.
End Stable.

(** no thread refers to an object whose holders would have to be in too old an epoch *)
Lemma old_dead : forall s a A x e, GI s a A -> ward s a A x e -> e + 2 <= G s -> dead s a A x.
Proof.
  intros s a A x e HG [H1 [H2 H3]] He. split; auto. intros r Hr. specialize (H3 r Hr).
  pose proof (g_ep _ _ _ HG r (g_in _ _ _ HG r x Hr)). lia.
Qed.
Lemma scan_dead : forall s a A t k d x e, GI s a A -> scanned s a t k d true recs -> ward s a A x e -> e + 1 <= d -> dead s a A x.
Proof.
  intros s a A t k d x e HG [K1 [K2 _]] [H1 [H2 H3]] He. split; auto. intros r Hr. specialize (H3 r Hr).
  pose proof (g_in _ _ _ HG r x Hr) as Hi. pose proof (g_ep _ _ _ HG r Hi).
  destruct (Z.eq_dec (G s) d) as [E|E]; [|lia]. rewrite (K2 r) in H3; auto; [lia|]. eapply g_recs; eauto. apply Hi.
Qed.
Lemma scan0_dead : forall s a A t k d x, GI s a A -> scanned s a t k d false recs -> In x (wards (pcs s t) k) -> gone s A x -> dead s a A x.
Proof.
  intros s a A t k d x HG [_ [_ [K3 _]]] Hx H1. split; auto. intros r Hr. apply (K3 eq_refl r x); auto.
  eapply g_recs; eauto. apply (g_in _ _ _ HG r x Hr).
Qed.

Definition INV (s : st) (a : smr) (A : list Z) : Prop := GI s a A /\ forall u, TI s a A u.

Lemma assemble : forall s a A s' a' A' t, INV s a A -> GI s' a' A' -> Stab s a A s' a' A' ->
  (forall u, u <> t -> pcs s' u = pcs s u) -> (forall u i, u <> t -> wr i = Some u -> view s' u (Dat i) = view s u (Dat i)) ->
  TI s' a' A' t -> INV s' a' A'.
Proof.
  intros s a A s' a' A' t [HG HT] HG' HS Hp Hv Ht. split; auto. intros u. destruct (Nat.eq_dec u t) as [->|Hn]; auto.
  eapply (TI_st s s' a a' A A'); eauto.
Qed.

Lemma isin_eq : forall l l', nst l' = nst l -> at_ l' <> B2 -> at_ l <> B2 -> (isin l' <-> isin l).
Proof. intros l l' E H1 H2. unfold isin. rewrite E. tauto. Qed.

(** * Steps that touch no memory *)
Lemma quiet : forall s a A s' a' t l', GI s a A -> (forall x, mem s' x = mem s x) -> (forall u, buf s' u = buf s u) ->
  pcs s' = upd (pcs s) t l' -> nst l' = nst (pcs s t) -> (isin l' <-> isin (pcs s t)) -> gs l' = gs (pcs s t) ->
  held a' = held a -> (forall x, In x (freed a') -> In x (freed a) \/ gone s A x) ->
  GI s' a' A /\ Stab s a A s' a' A.
Proof.
  intros s a A s' a' t l' HG Em Eb Ep En Ei Eg Eh Ef.
  assert (Ho : forall x i, occ s' x i <-> occ s x i).
  { intros x i. unfold occ. rewrite Em. split; intros [H|[u H]]; auto; right; exists u; rewrite Eb in *; auto. }
  assert (Hn : forall u, nst (pcs s' u) = nst (pcs s u)) by (intros u; rewrite Ep; upd_cases; auto).
  assert (Hi : forall u, isin (pcs s' u) <-> isin (pcs s u)) by (intros u; rewrite Ep; upd_cases; tauto).
  assert (Hs : forall u, gs (pcs s' u) = gs (pcs s u)) by (intros u; rewrite Ep; upd_cases; auto).
  assert (Hh : forall r x, hd a' r x <-> hd a r x) by (intros; unfold hd; rewrite Eh; tauto).
  destruct HG. split; constructor; unfold G in *; intros.
  - rewrite Eb in *. eauto.
  - rewrite Em, Eb, Hn in *. auto.
  - rewrite !Em, Eb, Hi, Hs in *. eauto.
  - rewrite Em, Hi, Hs in *. auto.
  - rewrite Hh, Hi in *. eauto.
  - destruct (Ef x H) as [K|[K1 K2]]; [destruct (g_freed0 x K) as [K1 K2]|]; split; auto; intros i; rewrite Ho; apply K2.
  - rewrite Ho in *. destruct (g_occ0 x i H H0) as [K1 K2]. split; auto. intros j Hj. apply K2. apply Ho. auto.
  - rewrite Hn in *. auto.
  - rewrite Em. lia.
  - apply Ho. auto.
  - apply Hh. auto.
  - left. rewrite Hs. split; auto. apply Hi. auto.
  - intros x Hx. auto.
Qed.

(** * Stores to the fields of the record *)
Lemma view_reg : forall (s : st) t j v (p : nat -> thr) i u, view (mkT (mem s) (upd (buf s) t (buf s t ++ [(Reg j, v)])) p) u (Dat i) = view s u (Dat i).
Proof.
  intros. unfold view. cbn [mem buf]. upd_cases; auto. rewrite fwd_app. reflexivity.
Qed.
Lemma occ_reg : forall (s : st) t j v (p : nat -> thr) x i, occ (mkT (mem s) (upd (buf s) t (buf s t ++ [(Reg j, v)])) p) x i <-> occ s x i.
Proof.
  intros. unfold occ. cbn [mem buf]. split; intros [H|[u H]]; auto; right; exists u; upd_cases; auto.
  - apply in_app_iff in H. destruct H as [H|[H|[]]]; auto. discriminate.
  - apply in_app_iff. auto.
Qed.

Lemma occ_act : forall (s : st) t v (p : nat -> thr) x i, occ (mkT (mem s) (upd (buf s) t (buf s t ++ [(ACT t, v)])) p) x i <-> occ s x i.
Proof. intros. apply occ_reg. Qed.
Lemma occ_rep : forall (s : st) t v (p : nat -> thr) x i, occ (mkT (mem s) (upd (buf s) t (buf s t ++ [(REP t, v)])) p) x i <-> occ s x i.
Proof. intros. apply occ_reg. Qed.

Lemma ACT_inj : forall t u, ACT t = ACT u -> t = u.
Proof. unfold ACT. intros t u H. injection H. lia. Qed.
Lemma REP_inj : forall t u, REP t = REP u -> t = u.
Proof. unfold REP. intros t u H. injection H. lia. Qed.
Lemma ACT_REP : forall t u, ACT t <> REP u.
Proof. unfold ACT, REP. intros t u H. injection H. lia. Qed.
Lemma ACT_0 : forall t, ACT t <> Reg 0.
Proof. unfold ACT. intros t H. injection H. lia. Qed.
Lemma REP_0 : forall t, REP t <> Reg 0.
Proof. unfold REP. intros t H. injection H. lia. Qed.

Lemma st_act : forall s a A a' t v l', GI s a A ->
  at_ l' = Idle -> at_ (pcs s t) = Idle -> ent l' = ent (pcs s t) -> (1 <= nst l' -> v <> 0 /\ 1 <= nst (pcs s t)) ->
  (forall r x, hd a' r x -> hd a r x /\ (r = t -> 1 <= nst l')) -> freed a' = freed a ->
  let s' := mkT (mem s) (upd (buf s) t (buf s t ++ [(ACT t, v)])) (upd (pcs s) t l') in
  GI s' a' A /\ Stab s a A s' a' A.
Proof.
  intros s a A a' t v l' HG E1 E2 E3 Hn Hh Hf s'. subst s'.
  assert (Hi : isin l' -> isin (pcs s t)) by (unfold isin; rewrite E2; intros [K _]; split; [apply Hn; auto|discriminate]).
  assert (Hg : gs l' = gs (pcs s t)) by (unfold gs; rewrite E1, E2; auto).
  destruct HG. split; constructor; unfold G in *; cbn [mem buf pcs] in *; intros.
  - upd_cases; eauto. apply in_app_iff in H. destruct H as [H|[H|[]]]; eauto. apply (f_equal fst) in H. cbn [fst] in H. subst. auto.
  - upd_cases; auto. destruct (Hn H) as [K1 K2]. destruct (g_act0 t K2) as [K3 K4]. split; auto. intros w Hw.
    apply in_app_iff in Hw. destruct Hw as [Hw|[Hw|[]]]; auto. apply (f_equal snd) in Hw. cbn in Hw. subst. auto.
  - assert (Hx : mem s (REP t0) = v0 \/ In (REP t0, v0) (buf s t0)).
    { upd_cases; auto. destruct H as [H|H]; auto. apply in_app_iff in H. destruct H as [H|[H|[]]]; auto.
      exfalso. apply (f_equal fst) in H. eapply ACT_REP; exact H. }
    destruct (g_rep0 t0 v0 Hx) as [K1 K2]. split; auto. upd_cases; auto. rewrite Hg. auto.
  - upd_cases; auto. rewrite Hg. auto.
  - destruct (Hh r x H) as [K1 K2]. upd_cases; eauto. split; [auto|congruence].
  - rewrite Hf in H. destruct (g_freed0 x H) as [K1 K2]. split; auto. intros i. rewrite occ_act. apply K2.
  - rewrite occ_act in H. destruct (g_occ0 x i H H0) as [K1 K2]. split; auto. intros j Hj. apply occ_act in Hj. auto.
  - upd_cases; auto. apply g_recs0. apply Hn. auto.
  - lia.
  - apply occ_act in H0. auto.
  - apply Hh. auto.
  - upd_cases; auto.
  - intros x Hx. auto.
Qed.

Lemma st_rep : forall s a A t v l', GI s a A -> nst l' = nst (pcs s t) -> (isin l' <-> isin (pcs s t)) -> gs l' = gs (pcs s t) ->
  v <= G s -> (isin l' -> v <= gs l') ->
  let s' := mkT (mem s) (upd (buf s) t (buf s t ++ [(REP t, v)])) (upd (pcs s) t l') in
  GI s' a A /\ Stab s a A s' a A.
Proof.
  intros s a A t v l' HG Hn Hi Hg Hv Hv' s'. subst s'.
  destruct HG. split; constructor; unfold G in *; cbn [mem buf pcs] in *; intros.
  - upd_cases; eauto. apply in_app_iff in H. destruct H as [H|[H|[]]]; eauto. apply (f_equal fst) in H. cbn [fst] in H. subst. auto.
  - assert (Hx : forall w, In (ACT t0, w) (upd (buf s) t (buf s t ++ [(REP t, v)]) t0) -> In (ACT t0, w) (buf s t0)).
    { intros w Hw. upd_cases; auto. apply in_app_iff in Hw. destruct Hw as [Hw|[Hw|[]]]; auto.
      exfalso. apply (f_equal fst) in Hw. eapply ACT_REP; symmetry; exact Hw. }
    destruct (g_act0 t0) as [K1 K2]; [upd_cases; auto; congruence|]. split; auto.
  - destruct (Nat.eq_dec t0 t) as [->|Ht].
    + rewrite !upd_same in *. destruct H as [H|H].
      * destruct (g_rep0 t v0) as [K1 K2]; auto. split; auto. rewrite Hg. intros K. apply K2. apply Hi. auto.
      * apply in_app_iff in H. destruct H as [H|[H|[]]].
        -- destruct (g_rep0 t v0) as [K1 K2]; auto. split; auto. rewrite Hg. intros K. apply K2. apply Hi. auto.
        -- apply (f_equal snd) in H. cbn in H. subst. auto.
    + rewrite !upd_other in * by auto. auto.
  - upd_cases; auto. rewrite Hg. apply g_ep0. apply Hi. auto.
  - upd_cases; eauto. apply Hi. eauto.
  - destruct (g_freed0 x H) as [K1 K2]. split; auto. intros i. rewrite occ_rep. apply K2.
  - rewrite occ_rep in H. destruct (g_occ0 x i H H0) as [K1 K2]. split; auto. intros j Hj. apply occ_rep in Hj. auto.
  - upd_cases; auto. apply g_recs0. congruence.
  - lia.
  - apply occ_rep in H0. auto.
  - auto.
  - left. upd_cases; auto. split; auto. apply Hi; auto.
  - intros x Hx. auto.
Qed.

(** * Atomic instructions on the fields *)
Lemma rmw_act : forall s a A t l', GI s a A -> nst (pcs s t) = 0 -> at_ l' = B2 -> nst l' = 1 -> In t recs -> buf s t = [] ->
  let s' := mkT (setm (mem s) (ACT t) 1) (buf s) (upd (pcs s) t l') in
  GI s' a A /\ Stab s a A s' a A.
Proof.
  intros s a A t l' HG Hn Ha Hn' Ht Hb s'. subst s'.
  assert (Hi : ~ isin l') by (unfold isin; tauto).
  assert (Hi0 : ~ isin (pcs s t)) by (unfold isin; rewrite Hn; intros [K _]; lia).
  assert (Ho : forall x i (p : nat -> thr), occ (mkT (setm (mem s) (ACT t) 1) (buf s) p) x i <-> occ s x i) by (intros; unfold occ; tauto).
  destruct HG. split; constructor; unfold G in *; cbn [mem buf pcs] in *; intros.
  - eauto.
  - destruct (Nat.eq_dec t0 t) as [->|Hd].
    + rewrite setm_same, Hb. split; [discriminate|intros v []].
    + rewrite setm_other by (intros E; apply ACT_inj in E; auto). rewrite upd_other in H by auto. auto.
  - rewrite setm_other in H by apply ACT_REP. rewrite setm_other by apply ACT_0. destruct (g_rep0 t0 v H) as [K1 K2]. split; auto.
    upd_cases; auto. tauto.
  - rewrite setm_other by apply ACT_0. upd_cases; auto. tauto.
  - upd_cases; eauto. exfalso. eauto.
  - destruct (g_freed0 x H) as [K1 K2]. split; auto.
  - eapply g_occ0; eauto.
  - upd_cases; auto.
  - rewrite setm_other by apply ACT_0. lia.
  - auto.
  - auto.
  - left. upd_cases; tauto.
  - intros x Hx. auto.
Qed.

(** the global epoch advances from [d]: every section is in epoch [d] *)
Lemma rmw_tick : forall s a A t l', GI s a A -> nst l' = nst (pcs s t) -> (isin l' <-> isin (pcs s t)) -> gs l' = gs (pcs s t) ->
  (forall r, isin (pcs s r) -> gs (pcs s r) = G s) ->
  let s' := mkT (setm (mem s) (Reg 0) (G s + 1)) (buf s) (upd (pcs s) t l') in
  GI s' a A /\ Stab s a A s' a A.
Proof.
  intros s a A t l' HG Hn Hi Hg Hall s'. subst s'.
  assert (EG : forall (p : nat -> thr), G (mkT (setm (mem s) (Reg 0) (G s + 1)) (buf s) p) = G s + 1) by (intros; unfold G; cbn [mem]; apply setm_same).
  assert (Hi' : forall u, isin (upd (pcs s) t l' u) <-> isin (pcs s u)) by (intros; upd_cases; tauto).
  assert (Hg' : forall u, gs (upd (pcs s) t l' u) = gs (pcs s u)) by (intros; upd_cases; auto).
  destruct HG. split; constructor; rewrite ?EG; cbn [mem buf pcs] in *; intros.
  - eauto.
  - rewrite setm_other by (intros E; symmetry in E; revert E; apply ACT_0). apply g_act0. upd_cases; auto. congruence.
  - rewrite setm_other in H by (intros E; symmetry in E; revert E; apply REP_0). destruct (g_rep0 t0 v H) as [K1 K2]. rewrite Hi', Hg'. split; auto. lia.
  - rewrite Hi' in H. rewrite Hg', (Hall _ H). lia.
  - rewrite Hi'. eauto.
  - destruct (g_freed0 x H) as [K1 K2]. split; auto.
  - eapply g_occ0; eauto.
  - apply g_recs0. upd_cases; auto. congruence.
  - lia.
  - auto.
  - auto.
  - left. rewrite Hi' in H. rewrite Hg'. auto.
  - intros x Hx. auto.
Qed.

(** * A section begins in the current epoch *)
Lemma enter : forall s a A t l', GI s a A -> at_ (pcs s t) = B2 -> at_ l' = B3 (G s) -> nst l' = nst (pcs s t) ->
  let s' := next s t l' in GI s' a A /\ Stab s a A s' a A.
Proof.
  intros s a A t l' HG H0 H1 H2 s'. subst s'.
  assert (Hi0 : ~ isin (pcs s t)) by (unfold isin; tauto).
  assert (Hg : gs l' = G s) by (unfold gs; rewrite H1; auto).
  destruct HG. split; constructor; unfold G in *; cbn [next mem buf pcs] in *; intros.
  - eauto.
  - apply g_act0. upd_cases; auto. congruence.
  - destruct (g_rep0 t0 v H) as [K1 K2]. split; auto. upd_cases; auto. lia.
  - upd_cases; auto. lia.
  - upd_cases; eauto. exfalso. eauto.
  - destruct (g_freed0 x H) as [K1 K2]. split; auto.
  - eapply g_occ0; eauto.
  - apply g_recs0. upd_cases; auto. congruence.
  - lia.
  - auto.
  - auto.
  - upd_cases; auto.
  - intros x Hx. auto.
Qed.

(** * Reading a pointer *)
Lemma view_occ : forall (s : st) t i, occ s (view s t (Dat i)) i.
Proof.
  intros s t i. unfold occ, view. destruct (fwd_in (buf s t) (Dat i) (mem s (Dat i))) as [E|E]; eauto.
Qed.
Lemma refer : forall s a A t x, GI s a A -> isin (pcs s t) -> x <> 0 -> (exists i, occ s x i) ->
  let a' := {| held := (t, x) :: held a; freed := freed a |} in GI s a' A /\ Stab s a A s a' A.
Proof.
  intros s a A t x HG Ht Hx [i Hi] a'. subst a'. destruct HG. split; constructor; unfold hd in *; cbn [held freed] in *; intros; eauto.
  - destruct H as [H|H]; eauto. injection H as <- <-. auto.
  - lia.
  - destruct H1 as [H1|H1]; auto. injection H1 as <- <-. exfalso. apply (H0 i). auto.
  - intros y Hy. auto.
Qed.

(** * Writing a pointer *)
Lemma st_dat : forall s a A t i x l', GI s a A -> wr i = Some t -> (x = 0 \/ ~ In x A) ->
  nst l' = nst (pcs s t) -> (isin l' <-> isin (pcs s t)) -> gs l' = gs (pcs s t) -> ~ In 0 A ->
  let s' := mkT (mem s) (upd (buf s) t (buf s t ++ [(Dat i, x)])) (upd (pcs s) t l') in
  GI s' a (A ++ obj x) /\ Stab s a A s' a (A ++ obj x).
Proof.
  intros s a A t i x l' HG Hw Hx Hn Hi Hg H0 s'.
  assert (Ho : forall y j, occ s' y j -> occ s y j \/ (y = x /\ j = i)).
  { subst s'. intros y j. unfold occ. cbn [mem buf]. intros [K|[u K]]; auto. upd_cases; eauto.
    apply in_app_iff in K. destruct K as [K|[K|[]]]; eauto. injection K as <- <-. auto. }
  assert (Ho' : forall y j, In y A -> occ s' y j -> occ s y j).
  { intros y j Hy K. destruct (Ho y j K) as [K1|[-> _]]; auto. exfalso. destruct Hx; congruence. }
  assert (Hnew : x <> 0 -> forall j, ~ occ s x j).
  { intros E j K. destruct Hx as [Hx|Hx]; auto. apply Hx. eapply g_occ; eauto. }
  assert (HA : incl A (A ++ obj x)) by (intros y Hy; apply in_app_iff; auto).
  assert (Hobj : x <> 0 -> In x (A ++ obj x)).
  { intros E. apply in_app_iff. right. unfold obj. apply Z.eqb_neq in E. rewrite E. left. auto. }
  subst s'. destruct HG. split; constructor; unfold G in *; cbn [mem buf pcs] in *; intros.
  - upd_cases; eauto. apply in_app_iff in H. destruct H as [H|[H|[]]]; eauto. injection H as <- <-. eauto.
  - destruct (g_act0 t0) as [K1 K2]; [upd_cases; auto; congruence|]. split; auto. intros v Hv. upd_cases; auto.
    apply in_app_iff in Hv. destruct Hv as [Hv|[Hv|[]]]; auto. discriminate.
  - assert (Hy : mem s (REP t0) = v \/ In (REP t0, v) (buf s t0)).
    { upd_cases; auto. destruct H as [H|H]; auto. apply in_app_iff in H. destruct H as [H|[H|[]]]; auto. discriminate. }
    destruct (g_rep0 t0 v Hy) as [K1 K2]. split; auto. upd_cases; auto. rewrite Hg. intros K. apply K2. apply Hi. auto.
  - upd_cases; auto. rewrite Hg. apply g_ep0. apply Hi. auto.
  - upd_cases; eauto. apply Hi. eauto.
  - destruct (g_freed0 x0 H) as [K1 K2]. split; auto. intros j K. apply (K2 j). auto.
  - destruct (Ho _ _ H) as [K|[-> ->]].
    + destruct (g_occ0 x0 i0 K H1) as [K1 K2]. split; auto.
    + split; auto. intros j K. destruct (Ho _ _ K) as [K1|[_ K1]]; auto. exfalso. eapply Hnew; eauto.
  - apply g_recs0. upd_cases; auto. congruence.
  - lia.
  - eauto.
  - auto.
  - left. upd_cases; auto. split; auto. apply Hi; auto.
  - auto.
Qed.

Lemma rmw_dat : forall s a A t i x l', GI s a A -> wr i = None -> (x = 0 \/ ~ In x A) ->
  nst l' = nst (pcs s t) -> (isin l' <-> isin (pcs s t)) -> gs l' = gs (pcs s t) -> ~ In 0 A ->
  let s' := mkT (setm (mem s) (Dat i) x) (buf s) (upd (pcs s) t l') in
  GI s' a (A ++ obj x) /\ Stab s a A s' a (A ++ obj x) /\ (mem s (Dat i) <> 0 -> gone s' (A ++ obj x) (mem s (Dat i))).
Proof.
  intros s a A t i x l' HG Hw Hx Hn Hi Hg H0 s'.
  assert (Ho : forall y j, occ s' y j -> (occ s y j /\ (j = i -> y = x \/ exists u, In (Dat i, y) (buf s u))) \/ (y = x /\ j = i)).
  { subst s'. intros y j. unfold occ. cbn [mem buf]. unfold setm. simpl. destruct (Nat.eqb_spec i j) as [->|].
    - intros [K|[u K]]; [right; auto|left]. split; eauto.
    - intros [K|[u K]]; left; split; eauto; congruence. }
  assert (Hnb : forall y u, ~ In (Dat i, y) (buf s u)).
  { intros y u K. destruct (g_own _ _ _ HG u _ _ K) as [[j [K1 K2]]|[K1|K1]]; try discriminate. congruence. }
  assert (Ho' : forall y j, In y A -> occ s' y j -> occ s y j).
  { intros y j Hy K. destruct (Ho y j K) as [[K1 _]|[-> _]]; auto. exfalso. destruct Hx; congruence. }
  assert (Hnew : x <> 0 -> forall j, ~ occ s x j).
  { intros E j K. destruct Hx as [Hx|Hx]; auto. apply Hx. eapply g_occ; eauto. }
  assert (HA : incl A (A ++ obj x)) by (intros y Hy; apply in_app_iff; auto).
  assert (Hobj : x <> 0 -> In x (A ++ obj x)).
  { intros E. apply in_app_iff. right. unfold obj. apply Z.eqb_neq in E. rewrite E. left. auto. }
  pose proof HG as HG0. subst s'. destruct HG. split; [|split].
  1,2: constructor; unfold G in *; cbn [mem buf pcs] in *; intros.
  - eauto.
  - rewrite setm_other by discriminate. apply g_act0. upd_cases; auto. congruence.
  - rewrite setm_other in H by discriminate. rewrite setm_other by discriminate. destruct (g_rep0 t0 v H) as [K1 K2]. split; auto. upd_cases; auto.
    rewrite Hg. intros K. apply K2. apply Hi. auto.
  - rewrite setm_other by discriminate. upd_cases; auto. rewrite Hg. apply g_ep0. apply Hi. auto.
  - upd_cases; eauto. apply Hi. eauto.
  - destruct (g_freed0 x0 H) as [K1 K2]. split; auto. intros j K. apply (K2 j). auto.
  - destruct (Ho _ _ H) as [[K _]|[-> ->]].
    + destruct (g_occ0 x0 i0 K H1) as [K1 K2]. split; auto.
    + split; auto. intros j K. destruct (Ho _ _ K) as [[K1 _]|[_ K1]]; auto. exfalso. eapply Hnew; eauto.
  - apply g_recs0. upd_cases; auto. congruence.
  - rewrite setm_other by discriminate. lia.
  - eauto.
  - auto.
  - left. upd_cases; auto. split; auto. apply Hi; auto.
  - auto.
  - intros Hz. assert (Hc : occ s (mem s (Dat i)) i) by (left; auto). destruct (g_occ0 _ _ Hc Hz) as [K1 K2].
    split; auto. intros j K. pose proof (Ho' _ _ K1 K) as K3. pose proof (K2 j K3). subst j.
    destruct (Ho _ _ K) as [[_ K4]|[K4 _]].
    + destruct (K4 eq_refl) as [K5|[u K5]]; [|apply (Hnb _ _ K5)]. rewrite K5 in *. destruct Hx; auto.
    + rewrite K4 in *. destruct Hx; auto.
Qed.

(** * Arrival of a store *)
Lemma flush : forall s a A t x v r, GI s a A -> buf s t = (x, v) :: r ->
  let s' := mkT (setm (mem s) x v) (upd (buf s) t r) (pcs s) in
  GI s' a A /\ Stab s a A s' a A /\ forall u i, wr i = Some u -> view s' u (Dat i) = view s u (Dat i).
Proof.
  intros s a A t x v r HG Hb s'.
  assert (Hown : (exists i, x = Dat i /\ wr i = Some t) \/ x = ACT t \/ x = REP t).
  { apply (g_own _ _ _ HG t x v). rewrite Hb. left. auto. }
  assert (Ho : forall y j, occ s' y j -> occ s y j).
  { subst s'. intros y j. unfold occ. cbn [mem buf]. intros [K|[u K]].
    - unfold setm in K. destruct (loc_eqb_spec x (Dat j)) as [->|]; auto. subst y. right. exists t. rewrite Hb. left. auto.
    - right. upd_cases; eauto. exists t. rewrite Hb. right. auto. }
  assert (Hin : forall u y w, In (y, w) (upd (buf s) t r u) -> In (y, w) (buf s u)).
  { intros u y w K. upd_cases; auto. rewrite Hb. right. auto. }
  assert (Hm : forall u y, (y = ACT u \/ y = REP u) -> setm (mem s) x v y = mem s y \/ In (y, setm (mem s) x v y) (buf s u)).
  { intros u y Hy. unfold setm. destruct (loc_eqb_spec x y) as [->|]; auto. right.
    assert (u = t). { destruct Hown as [[i [-> _]]|[->| ->]].
      - destruct Hy; discriminate.
      - destruct Hy as [Hy|Hy]; [apply ACT_inj in Hy; auto|exfalso; eapply ACT_REP; eauto].
      - destruct Hy as [Hy|Hy]; [exfalso; eapply ACT_REP; eauto|apply REP_inj in Hy; auto]. }
    subst u. rewrite Hb. left. auto. }
  assert (H0 : setm (mem s) x v (Reg 0) = mem s (Reg 0)).
  { apply setm_other. destruct Hown as [[i [-> _]]|[->| ->]]; [discriminate|apply ACT_0|apply REP_0]. }
  pose proof HG as HG0. destruct HG. split; [|split].
  1,2: subst s'; constructor; unfold G in *; cbn [mem buf pcs] in *; rewrite ?H0; intros.
  - eauto.
  - destruct (g_act0 t0 H) as [K1 K2]. split.
    + destruct (Hm t0 (ACT t0)) as [E|E]; auto. congruence.
    + intros w Hw. apply K2. eauto.
  - apply g_rep0. destruct H as [H|H]; [|right; auto]. destruct (Hm t0 (REP t0)) as [E|E]; auto; rewrite H in E; auto.
  - auto.
  - eauto.
  - destruct (g_freed0 x0 H) as [K1 K2]. split; auto. intros j K. apply (K2 j). auto.
  - destruct (g_occ0 x0 i (Ho _ _ H) H1) as [K1 K2]. split; auto.
  - auto.
  - lia.
  - auto.
  - auto.
  - auto.
  - intros y Hy. auto.
  - intros u i Hw. subst s'. unfold view. cbn [mem buf]. destruct (Nat.eq_dec u t) as [->|Hn].
    + rewrite upd_same, <- fwd_flush, <- Hb. auto.
    + rewrite upd_other by auto. f_equal. apply setm_other. destruct Hown as [[j [-> K]]|[->| ->]]; try discriminate. congruence.
Qed.

(** * The scan *)
Lemma snext_ok : forall s a A t k d af rest, GI s a A -> at_ (pcs s t) = snext k d af rest ->
  (exists pre, recs = pre ++ rest /\ scanned s a t k d af pre) -> kinv s a A t k d ->
  (forall x, In x (wards (pcs s t) k) -> gone s A x) -> at_ok s a A t (pcs s t).
Proof.
  intros s a A t k d af rest HG E H K Hw. unfold at_ok. rewrite E. unfold snext. destruct rest as [|r rest]; [|split; auto].
  destruct H as [pre [E1 H]]. rewrite app_nil_r in E1. subst pre. unfold sdone. destruct k; destruct af; cbn [ks]; auto.
  - pose proof H as [K1 [_ [_ K2]]]. split; auto. split; [apply K2; auto; apply K|]. intros x e Hx.
    eapply (scan0_dead s a A t KP d); [auto|exact H|apply in_app_iff; left; apply (in_map fst _ _ Hx)|].
    apply Hw. apply in_app_iff. left. apply (in_map fst _ _ Hx).
  - intros x Hx. eapply scan0_dead; eauto.
Qed.

Lemma scan_more : forall s a t k d af af' pre r, scanned s a t k d af pre -> (af' = false -> af = false) ->
  (G s = d -> isin (pcs s r) -> gs (pcs s r) = d) ->
  (af' = false -> forall x, In x (wards (pcs s t) k) -> ~ hd a r x) -> (af' = false -> r = t -> nst (pcs s t) = 0) ->
  scanned s a t k d af' (pre ++ [r]).
Proof.
  intros s a t k d af af' pre r [H1 [H2 [H3 H4]]] Ha K1 K2 K3. split; auto. split; [|split].
  - intros u Hu. apply in_app_iff in Hu. destruct Hu as [Hu|[<-|[]]]; auto.
  - intros E u x Hu. apply in_app_iff in Hu. destruct Hu as [Hu|[<-|[]]]; auto.
  - intros E Hu. apply in_app_iff in Hu. destruct Hu as [Hu|[Hu|[]]]; auto.
Qed.
Lemma scan_start : forall s a t k d, d <= G s -> scanned s a t k d false [].
Proof. intros. split; auto. split; [|split]; intros; contradiction. Qed.

Lemma view_0 : forall s a A t, GI s a A -> view s t (Reg 0) = G s.
Proof.
  intros s a A t HG. unfold view, G. apply fwd_none. intros v Hv.
  destruct (g_own _ _ _ HG _ _ _ Hv) as [[i [E _]]|[E|E]]; [discriminate|symmetry in E; revert E; apply ACT_0|symmetry in E; revert E; apply REP_0].
Qed.
Lemma view_act : forall s a A t r, GI s a A -> 1 <= nst (pcs s r) -> view s t (ACT r) <> 0.
Proof.
  intros s a A t r HG Hr. destruct (g_act _ _ _ HG r Hr) as [K1 K2]. unfold view.
  destruct (fwd_in (buf s t) (ACT r) (mem s (ACT r))) as [E|E]; [rewrite E; auto|].
  destruct (g_own _ _ _ HG _ _ _ E) as [[i [X _]]|[X|X]]; [discriminate|apply ACT_inj in X; subst; auto|exfalso; eapply ACT_REP; eauto].
Qed.
Lemma view_rep : forall s a A t r, GI s a A -> mem s (REP r) = view s t (REP r) \/ In (REP r, view s t (REP r)) (buf s r).
Proof.
  intros s a A t r HG. unfold view.
  destruct (fwd_in (buf s t) (REP r) (mem s (REP r))) as [E|E]; [left; auto|].
  pose proof (g_own _ _ _ HG _ _ _ E) as [[i [X _]]|[X|X]]; [discriminate|exfalso; eapply ACT_REP; eauto|apply REP_inj in X; subst; auto].
Qed.

Lemma quiet_step : forall s a A s' a' t l', INV s a A -> (forall x, mem s' x = mem s x) -> (forall u, buf s' u = buf s u) ->
  pcs s' = upd (pcs s) t l' -> nst l' = nst (pcs s t) -> at_ l' <> B2 -> at_ (pcs s t) <> B2 -> gs l' = gs (pcs s t) ->
  held a' = held a -> (forall x, In x (freed a') -> In x (freed a) \/ gone s A x) ->
  (forall x e, In (x, e) (pend l') -> In (x, e) (pend (pcs s t)) \/ ward s a A x e) ->
  (forall x, In x (got l') -> In x (got (pcs s t))) -> (forall x, In x (gotp l') -> In x (gotp (pcs s t))) ->
  (GI s' a' A -> Stab s a A s' a' A -> pcs s' t = l' -> (forall i, view s' t (Dat i) = view s t (Dat i)) -> at_ok s' a' A t (pcs s' t)) -> INV s' a' A.
Proof.
  intros s a A s' a' t l' HI Em Eb Ep En Hl Hl0 Hgs Eh Ef Hpe Hgo Hgp Hat. pose proof HI as [HG HT].
  destruct (quiet s a A s' a' t l' HG Em Eb Ep En (isin_eq _ _ En Hl Hl0) Hgs Eh Ef) as [HG' HS].
  assert (Hv : forall u i, view s' u (Dat i) = view s u (Dat i)) by (intros; unfold view; rewrite Em, Eb; auto).
  assert (Et : pcs s' t = l') by (rewrite Ep; apply upd_same).
  eapply assemble with (t := t); eauto.
  - intros u Hu. rewrite Ep. apply upd_other. auto.
  - pose proof (HT t) as [_ [T2 [T3 [T4 T5]]]]. split; [apply Hat; auto|]. rewrite Et. split; [lia|]. split; [|split].
    + intros x e Hx. apply (ward_st s s' a a' A A HG HG' HS). destruct (Hpe x e Hx); auto.
    + intros x Hx. apply (gone_st s s' a a' A A HS). auto.
    + intros x Hx. apply (plain_st s s' a a' A A HS); auto.
Qed.

Lemma allocs_al : forall x, allocs (al x) = obj x.
Proof. intros x. unfold al, obj. destruct (x =? 0); auto. Qed.
Lemma accepts_al : forall a x, accepts smr_step a (al x) = Some a.
Proof. intros a x. unfold al, obj. destruct (x =? 0); auto. Qed.
Lemma In_obj : forall x y, In y (obj x) -> y = x /\ x <> 0.
Proof. intros x y. unfold obj. destruct (Z.eqb_spec x 0); [intros []|intros [<-|[]]; auto]. Qed.

Lemma take_slot : forall e c E, e mod 4 = ((E - c) mod W) mod 4 -> e <= E -> (c = 1 \/ c = 2) -> e <= E - c.
Proof.
  intros e c E H H1 H2. assert (HW : W = 1073741824 * 4) by reflexivity. rewrite HW in H.
  rewrite <- Znumtheory.Zmod_div_mod in H; [|lia|lia|exists 1073741824; lia].
  pose proof (Z.div_mod e 4). pose proof (Z.div_mod (E - c) 4). pose proof (Z.mod_pos_bound e 4). lia.
Qed.

Ltac nb := cbn [at_ to take take_all]; congruence.
Local Arguments kinv : simpl never.
Local Arguments scanned : simpl never.
Local Arguments dead : simpl never.
Local Arguments ward : simpl never.
Local Arguments gone : simpl never.
Local Arguments G : simpl never.
Ltac qst t := match goal with
  | |- INV (next _ _ ?L) _ _ => eapply (quiet_step _ _ _ _ _ t L)
  | |- INV (mkT _ _ (upd _ _ ?L)) _ _ => eapply (quiet_step _ _ _ _ _ t L) end; [eassumption|..].
Ltac gse E := unfold gs; rewrite E; reflexivity.

Lemma INV_step : forall s a A l s' e, INV s a A -> ~ In 0 A -> 0 <= G s -> G s + 16 < W ->
  step (code recs wr false) arr s l = Some (s', e) -> (forall x, In x (allocs e) -> ~ In x A) ->
  exists a', accepts smr_step a e = Some a' /\ INV s' a' (A ++ allocs e).
Proof.
  intros s a A l s' e HI H0 Hpos HW H Hfr. pose proof HI as [HG HT]. destruct l as [t ac|t]; cbn [step] in H.
  2: { (* arrival *)
    destruct (buf s t) as [|[x v] r] eqn:Eb; [discriminate|]. injection H as <- <-. exists a. split; auto. rewrite app_nil_r.
    destruct (flush s a A t x v r HG Eb) as [K1 [K2 K3]]. split; auto. intros u.
    eapply (TI_st s _ a a A A HG K1 K2); auto. }
  pose proof (HT t) as [Hat [Hn [Hpe [Hgo Hgp]]]]. unfold at_ok in Hat.
  assert (Hq : forall l', at_ l' <> B2 -> at_ (pcs s t) <> B2 -> nst l' = nst (pcs s t) -> gs l' = gs (pcs s t) ->
     pend l' = pend (pcs s t) -> (forall x, In x (got l') -> In x (got (pcs s t))) -> (forall x, In x (gotp l') -> In x (gotp (pcs s t))) ->
     (let s' := next s t l' in GI s' a A -> Stab s a A s' a A -> pcs s' t = l' -> (forall i, view s' t (Dat i) = view s t (Dat i)) -> at_ok s' a A t (pcs s' t)) ->
     exists a', accepts smr_step a [] = Some a' /\ INV (next s t l') a' (A ++ allocs [])).
  { intros l' Q1 Q2 Q3 Q4 Q5 Q6 Q7 Q8. exists a. split; auto. simpl allocs. rewrite app_nil_r.
    eapply quiet_step with (t := t) (l' := l'); eauto. intros y e' Hy. left. rewrite <- Q5. auto. }
  destruct (at_ (pcs s t)) eqn:Et; destruct ac; try discriminate H; unfold code in H; rewrite Et in H; try discriminate H.
  all: try (match goal with
    | E : at_ _ = Dp ?l ?k |- _ => destruct l; [destruct k|]; discriminate H
    | E : at_ _ = Sa _ _ _ ?r |- _ => destruct r; discriminate H
    | E : at_ _ = Sr _ _ ?r |- _ => destruct r; discriminate H
    | E : at_ _ = Y4 ?k _ _ |- _ => destruct k; discriminate H
    | E : at_ _ = YC ?k _ |- _ => destruct k; discriminate H end).
  - (* begin *)
    destruct (mem_nat t recs) eqn:Er; cbn [negb] in H; [|discriminate].
    apply existsb_exists in Er. destruct Er as [t' [Er E']]. apply Nat.eqb_eq in E'. subst t'.
    destruct (Z.eqb_spec (nst (pcs s t)) 0) as [E0|E0].
    + destruct (buf s t) eqn:Eb; [|discriminate]. injection H as <- <-. exists a. split; auto. rewrite app_nil_r.
      match goal with |- INV (mkT _ _ (upd _ _ ?L)) _ _ => destruct (rmw_act s a A t L HG E0 eq_refl eq_refl Er Eb) as [K1 K2] end.
      eapply assemble with (t := t); eauto.
      * intros u Hu. cbn [pcs]. apply upd_other. auto.
      * split; [|cbn [pcs]; rewrite upd_same; cbn [nst pend got gotp]; split; [lia|split; [|split]]].
        -- unfold at_ok. cbn [pcs]. rewrite upd_same. cbn. lia.
        -- intros y e Hy. eapply (ward_st s _ a a A A HG K1 K2); eauto.
        -- intros y Hy. eapply (gone_st s _ a a A A K2); eauto.
        -- intros y Hy. eapply (plain_st s _ a a A A K2); eauto.
    + destruct (Z.ltb_spec (nst (pcs s t) + 1) W); [|discriminate]. injection H as <- <-. exists a. split; auto. rewrite app_nil_r.
      match goal with |- INV (mkT _ _ (upd _ _ ?L)) _ _ =>
        destruct (st_act s a A a t (nst (pcs s t) + 1) L HG) as [K1 K2]; auto; [cbn [nst]; lia|split; auto; intros ->; cbn [nst]; lia|] end.
      eapply assemble with (t := t); eauto.
      * intros u Hu. cbn [pcs]. apply upd_other. auto.
      * intros u i Hu Hw. apply view_reg.
      * split; [|cbn [pcs]; rewrite upd_same; cbn [nst pend got gotp]; split; [lia|split; [|split]]].
        -- unfold at_ok. cbn [pcs]. rewrite upd_same. cbn. auto.
        -- intros y e Hy. eapply (ward_st s _ a a A A HG K1 K2); eauto.
        -- intros y Hy. eapply (gone_st s _ a a A A K2); eauto.
        -- intros y Hy. eapply (plain_st s _ a a A A K2); eauto. intros. apply view_reg.
  - (* end *)
    destruct (Z.eqb_spec (nst (pcs s t)) 0) as [E0|E0]; [discriminate|]. injection H as <- <-.
    assert (Ka : exists a', accepts smr_step a (if nst (pcs s t) =? 1 then [Done t] else []) = Some a' /\ freed a' = freed a /\
      (forall r x, hd a' r x -> hd a r x /\ (r = t -> 1 <= nst (pcs s t) - 1)) /\ allocs (if nst (pcs s t) =? 1 then [Done t] else []) = []).
    { destruct (Z.eqb_spec (nst (pcs s t)) 1) as [E1|E1].
      - eexists. split; [reflexivity|]. split; [reflexivity|]. split; auto. intros r x Hx. unfold hd in *. cbn [held] in Hx.
        apply filter_In in Hx. destruct Hx as [Hx Hb]. split; auto. intros ->. cbn [fst] in Hb. rewrite Nat.eqb_refl in Hb. discriminate.
      - exists a. split; auto. split; auto. split; auto. intros r x Hx. split; auto. intros _. lia. }
    destruct Ka as [a' [Ka1 [Ka2 [Ka3 Ka4]]]]. exists a'. split; auto. rewrite Ka4, app_nil_r.
    match goal with |- INV (mkT _ _ (upd _ _ ?L)) _ _ =>
      destruct (st_act s a A a' t (nst (pcs s t) - 1) L HG) as [K1 K2]; auto; [cbn [nst]; lia|] end.
    eapply assemble with (t := t); eauto.
    + intros u Hu. cbn [pcs]. apply upd_other. auto.
    + intros u i Hu Hw. apply view_reg.
    + split; [|cbn [pcs]; rewrite upd_same; cbn [nst pend got gotp]; split; [lia|split; [|split]]].
      * unfold at_ok. cbn [pcs]. rewrite upd_same. cbn. auto.
      * intros y e Hy. eapply (ward_st s _ a a' A A HG K1 K2); eauto.
      * intros y Hy. eapply (gone_st s _ a a' A A K2); eauto.
      * intros y Hy. eapply (plain_st s _ a a' A A K2); eauto. intros. apply view_reg.
  - (* read *)
    destruct (Z.eqb_spec (nst (pcs s t)) 0) as [E0|E0]; [discriminate|]. injection H as <- <-.
    assert (Hsame : INV (next s t (pcs s t)) a A).
    { eapply quiet_step with (t := t) (l' := pcs s t); eauto; try congruence. intros HG' HS E Hv. rewrite E. unfold at_ok. rewrite Et. auto. }
    unfold obj. destruct (Z.eqb_spec (view s t (Dat i)) 0) as [Ez|Ez].
    + exists a. split; auto. simpl. rewrite app_nil_r. auto.
    + pose proof (view_occ s t i) as Ho. cbn [map accepts smr_step allocs]. rewrite app_nil_r.
      destruct (existsb (Z.eqb (view s t (Dat i))) (freed a)) eqn:Ef.
      { exfalso. apply existsb_exists in Ef. destruct Ef as [y [Hy Ey]]. apply Z.eqb_eq in Ey. subst y.
        apply (proj2 (g_freed _ _ _ HG _ Hy) i). auto. }
      eexists. split; [reflexivity|]. destruct Hsame as [HG1 HT1].
      assert (Hi1 : isin (pcs (next s t (pcs s t)) t)).
      { cbn [next pcs]. rewrite upd_same. split; [lia|congruence]. }
      destruct (refer (next s t (pcs s t)) a A t (view s t (Dat i)) HG1 Hi1 Ez) as [K1 K2]; [exists i; auto|].
      split; auto. intros u. eapply TI_st; [exact HG1|exact K1|exact K2|auto..].
  - (* exchange *)
    destruct (wr i) eqn:Ew; [discriminate|]. destruct (buf s t) eqn:Eb; [|discriminate]. injection H as <- <-. exists a.
    split; [apply accepts_al|]. rewrite allocs_al in *.
    assert (Hx0 : x = 0 \/ ~ In x A).
    { destruct (Z.eq_dec x 0) as [|Hz]; auto. right. apply Hfr. unfold obj. apply Z.eqb_neq in Hz. rewrite Hz. left. auto. }
    match goal with |- INV (mkT _ _ (upd _ _ ?L)) _ _ => destruct (rmw_dat s a A t i x L HG Ew Hx0) as [K1 [K2 K3]]; auto end.
    { apply isin_eq; auto; cbn [at_]; congruence. }
    { unfold gs. rewrite Et. auto. }
    eapply assemble with (t := t); eauto.
    + intros u Hu. cbn [pcs]. apply upd_other. auto.
    + intros u j Hu Hw. unfold view. cbn [mem buf]. f_equal. apply setm_other. congruence.
    + split; [|cbn [pcs]; rewrite upd_same; cbn [nst pend got gotp]; split; [lia|split; [|split]]].
      * unfold at_ok. cbn [pcs]. rewrite upd_same. cbn. auto.
      * intros y e Hy. eapply (ward_st s _ a a A _ HG K1 K2); eauto.
      * intros y Hy. apply in_app_iff in Hy. destruct Hy as [Hy|Hy]; [|eapply (gone_st s _ a a A _ K2); eauto].
        apply In_obj in Hy. destruct Hy as [-> Hy]. auto.
      * intros y Hy. eapply (plain_st s _ a a A _ K2); eauto. intros j Hw. unfold view. cbn [mem buf]. f_equal. apply setm_other. congruence.
  - (* store a pointer: call *)
    destruct (wr i) as [u|] eqn:Ew; [|discriminate]. destruct (Nat.eqb_spec u t) as [->|]; [|discriminate]. injection H as <- <-.
    apply Hq; auto; try nb; try gse Et. intros s' HG' HS E Hv. rewrite E. cbn. auto.
  - (* call *)
    rewrite orb_false_r in H. destruct (mem_nat t recs) eqn:Er; cbn [andb] in H; [|discriminate].
    destruct (mem_Z x (got (pcs s t))) eqn:Eg; [|discriminate]. injection H as <- <-.
    apply existsb_exists in Eg. destruct Eg as [y [Hy E']]. apply Z.eqb_eq in E'. subst y.
    apply Hq; auto; try nb; try gse Et.
    + cbn [got]. intros y Hy'. apply in_remove in Hy'. tauto.
    + cbn [gotp]. intros y Hy'. apply in_remove in Hy'. tauto.
    + intros s' HG' HS E Hv. rewrite E. cbn. eapply (gone_st s s' a a A A HS); eauto.
  - (* poll *)
    destruct (mem_nat t recs) eqn:Er; [|discriminate]. injection H as <- <-.
    apply existsb_exists in Er. destruct Er as [t' [Er E']]. apply Nat.eqb_eq in E'. subst t'.
    apply Hq; auto; try nb; try gse Et. intros s' HG' HS E Hv. rewrite E. cbn. auto.
  - (* synchronize *)
    destruct (Z.eqb_spec (nst (pcs s t)) 0) as [E0|E0]; [|discriminate]. injection H as <- <-.
    apply Hq; auto; try nb; try gse Et; try solve [intros y []]. intros s' HG' HS E Hv. rewrite E. cbn.
    intros y Hy. apply in_app_iff in Hy. destruct Hy as [Hy|Hy].
    + left. eapply (gone_st s s' a a A A HS); eauto.
    + right. eapply (plain_st s s' a a A A HS); eauto.
  - (* barrier *)
    destruct ((nst (pcs s t) =? 0) && mem_nat t recs); [|discriminate]. injection H as <- <-.
    apply Hq; auto; try nb; try gse Et; try solve [intros y []]. intros s' HG' HS E Hv. rewrite E. cbn.
    intros y Hy. apply in_app_iff in Hy. destruct Hy as [Hy|Hy].
    + left. eapply (gone_st s s' a a A A HS); eauto.
    + right. eapply (plain_st s s' a a A A HS); eauto.
  - (* B2 *)
    rewrite (view_0 s a A t HG) in H. injection H as <- <-. exists a. split; auto. rewrite app_nil_r.
    destruct (enter s a A t (to (pcs s t) (B3 (G s))) HG Et) as [K1 K2]; auto.
    eapply assemble with (t := t); eauto.
    + intros u Hu. cbn [next pcs]. apply upd_other. auto.
    + split; [|cbn [next pcs]; rewrite upd_same; cbn [to nst pend got gotp]; split; [lia|split; [|split]]].
      * unfold at_ok. cbn [next pcs]. rewrite upd_same. cbn. auto.
      * intros y e Hy. eapply (ward_st s _ a a A A HG K1 K2); eauto.
      * intros y Hy. eapply (gone_st s _ a a A A K2); eauto.
      * intros y Hy. eapply (plain_st s _ a a A A K2); eauto.
  - (* B3 *)
    injection H as <- <-. exists a. split; auto. rewrite app_nil_r.
    assert (Hin : isin (pcs s t)) by (split; [auto|congruence]).
    assert (Hgs : gs (pcs s t) = g) by (unfold gs; rewrite Et; auto).
    match goal with |- INV (mkT _ _ (upd _ _ ?L)) _ _ => destruct (st_rep s a A t g L HG) as [K1 K2]; auto end.
    { apply isin_eq; auto; cbn [at_]; congruence. }
    { pose proof (g_ep _ _ _ HG t Hin). lia. }
    { unfold gs. cbn. lia. }
    eapply assemble with (t := t); eauto.
    + intros u Hu. cbn [pcs]. apply upd_other. auto.
    + intros u i Hu Hw. apply view_reg.
    + split; [|cbn [pcs]; rewrite upd_same; cbn [nst pend got gotp]; split; [lia|split; [|split]]].
      * unfold at_ok. cbn [pcs]. rewrite upd_same. cbn. auto.
      * intros y e Hy. eapply (ward_st s _ a a A A HG K1 K2); eauto.
      * intros y Hy. eapply (gone_st s _ a a A A K2); eauto.
      * intros y Hy. eapply (plain_st s _ a a A A K2); eauto. intros. apply view_reg.
  - (* U1 *)
    injection H as <- <-. apply Hq; auto; try nb; try gse Et. intros s' HG' HS E Hv. rewrite E. cbn. auto.
  - (* U2 *)
    injection H as <- <-. destruct Hat as [Hw Hold]. exists a. split; [apply accepts_al|]. rewrite allocs_al in *.
    assert (Hx0 : x = 0 \/ ~ In x A).
    { destruct (Z.eq_dec x 0) as [|Hz]; auto. right. apply Hfr. unfold obj. apply Z.eqb_neq in Hz. rewrite Hz. left. auto. }
    match goal with |- INV (mkT _ _ (upd _ _ ?L)) _ _ => destruct (st_dat s a A t i x L HG Hw Hx0) as [K1 K2]; auto end.
    { apply isin_eq; auto; cbn [at_]; congruence. }
    { unfold gs. rewrite Et. auto. }
    assert (Hvw : forall p j, view (mkT (mem s) (upd (buf s) t (buf s t ++ [(Dat i, x)])) p : st) t (Dat j) = if Nat.eqb i j then x else view s t (Dat j)).
    { intros p j. unfold view. cbn [mem buf]. rewrite upd_same, fwd_app. reflexivity. }
    assert (Hneq : forall y j, In y A -> y <> view s t (Dat j) -> y <> if Nat.eqb i j then x else view s t (Dat j)).
    { intros y j Hy Hne. destruct (Nat.eqb_spec i j); auto. intros ->. destruct Hx0; congruence. }
    eapply assemble with (t := t); eauto.
    + intros u Hu. cbn [pcs]. apply upd_other. auto.
    + intros u j Hu _. unfold view. cbn [mem buf]. rewrite upd_other by auto. auto.
    + split; [|cbn [pcs]; rewrite upd_same; cbn [nst pend got gotp]; split; [lia|split; [|split]]].
      * unfold at_ok. cbn [pcs]. rewrite upd_same. cbn. auto.
      * intros y e Hy. eapply (ward_st s _ a a A _ HG K1 K2); eauto.
      * intros y Hy. eapply (gone_st s _ a a A _ K2); eauto.
      * intros y Hy. apply in_app_iff in Hy. destruct Hy as [Hy|Hy].
        -- apply In_obj in Hy. destruct Hy as [-> Hz]. subst old. pose proof (view_occ s t i) as Ho.
           destruct (g_occ _ _ _ HG _ _ Ho Hz) as [L1 L2]. split; [apply in_app_iff; auto|]. intros j Hj.
           pose proof (L2 j (s_occ _ _ _ _ _ _ K2 _ _ L1 Hj)). subst j. split; auto. rewrite Hvw, Nat.eqb_refl. intros E. rewrite E in *. destruct Hx0; auto.
        -- destruct (Hgp y Hy) as [L1 L2]. split; [apply in_app_iff; auto|]. intros j Hj.
           destruct (L2 j (s_occ _ _ _ _ _ _ K2 _ _ L1 Hj)) as [L3 L4]. split; auto. rewrite Hvw. auto.
  - (* C1 *)
    rewrite (view_0 s a A t HG) in H. injection H as <- <-. exists a. split; auto. simpl allocs. rewrite app_nil_r.
    qst t; try reflexivity; auto; try nb; try gse Et.
    + cbn [pend]. intros y e [E|Hy]; [|auto]. injection E as <- <-. right. split; auto. split; [lia|].
      intros r Hr. pose proof (g_ep _ _ _ HG r (g_in _ _ _ HG r _ Hr)). lia.
    + intros HG' HS E Hv. rewrite E. cbn. auto.
  - (* P1 *)
    rewrite (view_0 s a A t HG) in H. injection H as <- <-.
    apply Hq; auto; try nb; try gse Et. intros s' HG' HS E Hv. rewrite E. cbn. pose proof (s_G _ _ _ _ _ _ HS). split; auto.
    split; auto. intros y e Hy. rewrite E in Hy. cbn in Hy. apply (Hpe y e Hy).
  - (* P2: dispatch *)
    destruct (buf s t) eqn:Eb; [|discriminate]. injection H as <- <-. destruct Hat as [He [Hr Hk]]. exists a. split; auto. simpl allocs. rewrite app_nil_r.
    qst t; try reflexivity; auto; try nb; try gse Et.
    + unfold take. cbn [pend]. intros y e' Hy. apply filter_In in Hy. tauto.
    + intros HG' HS E Hv. rewrite E. unfold take. cbn. pose proof (s_G _ _ _ _ _ _ HS). split; [|split; [exact (Z.le_trans _ _ _ He (s_G _ _ _ _ _ _ HS))|split; auto]].
      * intros y Hy. apply in_map_iff in Hy. destruct Hy as [[y' e'] [<- Hy]]. apply filter_In in Hy. destruct Hy as [Hy Hs].
        apply Z.eqb_eq in Hs. cbn [snd fst] in *. eapply (dead_st s _ a a A A HS). eapply old_dead; [exact HG|apply (Hpe _ _ Hy)|].
        pose proof (Hk _ _ Hy). pose proof (take_slot e' 2 e0 Hs). lia.
      * intros y e' Hy. cbn [next pcs] in Hy. rewrite upd_same in Hy. cbn in Hy. apply filter_In in Hy. eapply Hk. apply Hy.
  - (* PC *)
    destruct (buf s t) eqn:Eb; [|discriminate]. destruct Hat as [Hsc [Hr Hk]]. fold (G s) in H.
    assert (Hdead : forall y, In y (map fst (filter (fun p => slot (snd p) =? slot ((e0 - 1) mod W)) (pend (pcs s t)))) -> dead s a A y).
    { intros y Hy. apply in_map_iff in Hy. destruct Hy as [[y' e'] [<- Hy]]. apply filter_In in Hy. destruct Hy as [Hy Hs].
      apply Z.eqb_eq in Hs. cbn [snd fst] in *. eapply scan_dead; [exact HG|exact Hsc|apply (Hpe _ _ Hy)|].
      pose proof (Hk _ _ Hy). pose proof (take_slot e' 1 e0 Hs). lia. }
    destruct (Z.eqb_spec (G s) e0) as [Ee|Ee]; injection H as <- <-.
    + exists a. split; auto. simpl allocs. rewrite app_nil_r. rewrite <- Ee. rewrite (Z.mod_small (G s + 1)) by lia.
      match goal with |- INV (mkT _ _ (upd _ _ ?L)) _ _ => destruct (rmw_tick s a A t L HG) as [K1 K2]; auto end.
      { apply isin_eq; auto; cbn; congruence. }
      { unfold gs. rewrite Et. auto. }
      { intros r Hi. destruct Hsc as [_ [Hsc _]]. rewrite Ee. apply Hsc; auto. eapply g_recs; eauto. apply Hi. }
      eapply assemble with (t := t); eauto.
      * intros u Hu. cbn [pcs]. apply upd_other. auto.
      * unfold take. split; [|cbn [pcs]; rewrite upd_same; cbn [nst pend got gotp]; split; [lia|split; [|split]]].
        -- unfold at_ok. cbn [pcs]. rewrite upd_same. cbn. split; auto. intros y Hy. eapply (dead_st s _ a a A A K2). apply Hdead. rewrite <- Ee. auto.
        -- intros y e Hy. apply filter_In in Hy. eapply (ward_st s _ a a A A HG K1 K2); eauto. apply Hpe. apply Hy.
        -- intros y Hy. eapply (gone_st s _ a a A A K2); eauto.
        -- intros y Hy. eapply (plain_st s _ a a A A K2); eauto.
    + exists a. split; auto. simpl allocs. rewrite app_nil_r.
      qst t; try reflexivity; auto; try nb; try gse Et.
      * intros y. cbn [mem]. unfold setm. destruct (loc_eqb_spec (Reg 0) y) as [<-|]; auto.
      * unfold take. cbn [pend]. intros y e' Hy. apply filter_In in Hy. tauto.
      * intros HG' HS E Hv. rewrite E. unfold take. cbn. split; [|auto]. intros y Hy. eapply (dead_st s _ a a A A HS). auto.
  - (* PW *)
    injection H as <- <-. destruct Hat as [He [Hz Hd]]. exists a. split; auto. rewrite app_nil_r.
    match goal with |- INV (mkT _ _ (upd _ _ ?L)) _ _ => destruct (st_rep s a A t e0 L HG) as [K1 K2]; auto end.
    { apply isin_eq; auto; cbn; congruence. }
    { unfold gs. rewrite Et. auto. }
    { intros [K _]. cbn in K. lia. }
    eapply assemble with (t := t); eauto.
    + intros u Hu. cbn [pcs]. apply upd_other. auto.
    + intros u i Hu Hw. apply view_reg.
    + unfold take_all. split; [|cbn [pcs]; rewrite upd_same; cbn [nst pend got gotp]; split; [lia|split; [|split]]].
      * unfold at_ok. cbn [pcs]. rewrite upd_same. cbn. split; auto. intros y Hy. apply in_map_iff in Hy. destruct Hy as [[y' e'] [<- Hy]].
        eapply (dead_st s _ a a A A K2). eauto.
      * intros y e [].
      * intros y Hy. eapply (gone_st s _ a a A A K2); eauto.
      * intros y Hy. eapply (plain_st s _ a a A A K2); eauto. intros. apply view_reg.
  - (* dispatch *)
    destruct l as [|x l].
    + destruct k as [e0|].
      * injection H as <- <-. destruct Hat as [_ [He Hk]]. apply Hq; auto; try gse Et; try nb.
        -- unfold snext, sdone. destruct recs; discriminate.
        -- unfold gs. rewrite Et. cbn. unfold snext, sdone. destruct recs; auto.
        -- intros s' HG' HS E Hv.
           assert (Hk' : kinv s' a A t KP e0) by (eapply (kinv_st s s' a a A A HG HG' HS); [rewrite E; auto|exact Hk]).
           eapply snext_ok; [exact HG'|rewrite E; reflexivity| |exact Hk'|].
           ++ exists []. split; auto. apply scan_start. pose proof (s_G _ _ _ _ _ _ HS). lia.
           ++ rewrite E. cbn. intros y Hy. rewrite app_nil_r in Hy. apply in_map_iff in Hy. destruct Hy as [[y' e'] [<- Hy]].
              eapply (gone_st s s' a a A A HS). apply (Hpe _ _ Hy).
      * injection H as <- <-. apply Hq; auto; try gse Et; try nb. intros s' HG' HS E Hv. rewrite E. cbn. auto.
    + injection H as <- <-. destruct Hat as [Hd Hk]. pose proof (Hd x (or_introl eq_refl)) as [Hx1 Hx2].
      cbn [accepts smr_step]. destruct (existsb (fun p => x =? snd p) (held a)) eqn:Ex.
      { exfalso. apply existsb_exists in Ex. destruct Ex as [[r y] [Hy E']]. apply Z.eqb_eq in E'. cbn in E'. subst y. apply (Hx2 r). auto. }
      eexists. split; [reflexivity|]. simpl allocs. rewrite app_nil_r.
      qst t; try reflexivity; auto; try nb; try gse Et.
      * cbn [freed]. intros y [<-|Hy]; auto.
      * intros HG' HS E Hv. rewrite E. cbn. split.
        -- intros y Hy. eapply dead_st; [exact HS|]. apply Hd. right. auto.
        -- destruct k; auto. pose proof (s_G _ _ _ _ _ _ HS). destruct Hk as [Hk1 Hk2]. split; [lia|]. destruct Hk2 as [Hk2 Hk3]. split; auto.
           rewrite E. cbn. auto.
  - (* scan: active *)
    destruct rest as [|r rest]; [discriminate|]. injection H as <- <-. destruct Hat as [[pre [Er Hsc]] Hk].
    pose proof (wards_gone s a A t k d (HT t) Hk) as Hw.
    destruct (Z.eqb_spec (view s t (ACT r)) 0) as [Ez|Ez].
    + assert (Hr0 : ~ 1 <= nst (pcs s r)) by (intros K; apply (view_act s a A t r HG K); auto).
      assert (Hsc' : scanned s a t k d af (pre ++ [r])).
      { eapply scan_more; eauto.
        - intros _ [K _]. contradiction.
        - intros _ y _ Hh. apply Hr0. apply (g_in _ _ _ HG _ _ Hh).
        - intros _ ->. lia. }
      apply Hq; auto; try gse Et; try nb.
      * cbn. unfold snext, sdone. destruct rest, k; try destruct af; discriminate.
      * unfold gs. rewrite Et. cbn. unfold snext, sdone. destruct rest, k; try destruct af; auto.
      * intros s' HG' HS E Hv. eapply snext_ok with (k := k); [exact HG'|rewrite E; reflexivity| | |].
        -- exists (pre ++ [r]). split; [rewrite <- app_assoc; auto|]. eapply (scanned_st s s' a a A A HG HG' HS); eauto; rewrite E; auto.
        -- eapply (kinv_st s s' a a A A HG HG' HS); eauto. rewrite E. auto.
        -- rewrite E. intros y Hy. eapply (gone_st s s' a a A A HS). apply Hw. exact Hy.
    + apply Hq; auto; try gse Et; try nb. intros s' HG' HS E Hv. rewrite E. cbn. split.
      * exists pre. split; auto. eapply (scanned_st s s' a a A A HG HG' HS); eauto; [rewrite E; auto..|].
        destruct Hsc as [S1 [S2 _]]. split; auto. split; auto. split; discriminate.
      * eapply (kinv_st s s' a a A A HG HG' HS); eauto. rewrite E. auto.
  - (* scan: epoch *)
    destruct rest as [|r rest]; [discriminate|]. injection H as <- <-. destruct Hat as [[pre [Er Hsc]] Hk].
    pose proof (wards_gone s a A t k d (HT t) Hk) as Hw.
    destruct (Z.eqb_spec (view s t (REP r)) d) as [Ez|Ez].
    + assert (Hsc' : scanned s a t k d true (pre ++ [r])).
      { eapply scan_more; eauto; try discriminate. intros Ed Hi. destruct (g_rep _ _ _ HG r _ (view_rep s a A t r HG)) as [_ K].
        specialize (K Hi). pose proof (g_ep _ _ _ HG r Hi). lia. }
      apply Hq; auto; try gse Et; try nb.
      * cbn. unfold snext, sdone. destruct rest, k; discriminate.
      * unfold gs. rewrite Et. cbn. unfold snext, sdone. destruct rest, k; auto.
      * intros s' HG' HS E Hv. eapply snext_ok with (k := k); [exact HG'|rewrite E; reflexivity| | |].
        -- exists (pre ++ [r]). split; [rewrite <- app_assoc; auto|]. eapply (scanned_st s s' a a A A HG HG' HS); eauto; rewrite E; auto.
        -- eapply (kinv_st s s' a a A A HG HG' HS); eauto. rewrite E. auto.
        -- rewrite E. intros y Hy. eapply (gone_st s s' a a A A HS). apply Hw. exact Hy.
    + apply Hq; auto; try nb.
      * cbn. destruct k; discriminate.
      * unfold gs. rewrite Et. cbn. destruct k; auto.
      * intros s' HG' HS E Hv. rewrite E. unfold at_ok. cbn. destruct k as [|e0 i xs b]; cbn; auto. split; auto. split.
        -- exists pre. split; auto. eapply (scanned_st s s' a a A A HG HG' HS); eauto; rewrite E; auto.
        -- eapply (kinv_st s s' a a A A HG HG' HS t (KS e0 i xs b)); eauto. rewrite E. auto.
  - (* Y1: fence *)
    destruct (buf s t) eqn:Eb; [|discriminate]. injection H as <- <-. apply Hq; auto; try gse Et; try nb.
    intros s' HG' HS E Hv. rewrite E. cbn. intros y Hy. eapply (gone_st s s' a a A A HS).
    destruct (Hat y Hy) as [K|[K1 K2]]; auto. split; auto. intros i Ho. destruct (K2 i Ho) as [L1 L2].
    unfold view in L2. rewrite Eb in L2. cbn in L2. destruct Ho as [Ho|[u Ho]]; [congruence|].
    destruct (g_own _ _ _ HG _ _ _ Ho) as [[j [X1 X2]]|[X|X]]; try discriminate. injection X1 as <-.
    assert (u = t) by congruence. subst u. rewrite Eb in Ho. destruct Ho.
  - (* Y2 *)
    rewrite (view_0 s a A t HG) in H. injection H as <- <-. apply Hq; auto; try nb.
    + cbn. unfold snext, sdone. destruct recs; discriminate.
    + unfold gs. rewrite Et. cbn. unfold snext, sdone. destruct recs; auto.
    + intros s' HG' HS E Hv. assert (EG : G s' = G s) by reflexivity. eapply snext_ok with (k := KS (G s) 0 xs b); [exact HG'|rewrite E; reflexivity| | |].
      * exists []. split; auto. apply scan_start. lia.
      * unfold kinv. split; [auto|]. split; [lia|]. split.
        -- intros y Hy. split; [eapply (gone_st s s' a a A A HS); auto|]. split; [lia|].
           intros r Hr. rewrite <- EG. apply (g_ep _ _ _ HG' r). apply (g_in _ _ _ HG' r y Hr).
        -- rewrite E. cbn. intros y e Hy. apply (Hpe y e Hy).
      * rewrite E. unfold wards. cbn. intros y Hy. eapply (gone_st s s' a a A A HS). apply in_app_iff in Hy. destruct Hy as [Hy|Hy]; auto.
        apply in_map_iff in Hy. destruct Hy as [[y' e'] [<- Hy]]. apply (Hpe _ _ Hy).
  - (* Y4 *)
    destruct k as [|e0 i xs b]; [discriminate|]. rewrite (view_0 s a A t HG) in H. injection H as <- <-. destruct Hat as [_ [[pre [Er Hsc]] Hk]].
    pose proof (wards_gone s a A t _ d (HT t) Hk) as Hw. destruct Hk as [Hk0 [Hk1 [Hk2 Hk3]]]. pose proof Hsc as [Hd _].
    destruct (Z.eqb_spec (G s) d) as [Ed|Ed]; [|destruct ((e0 <? (e0 + 3) mod W) && ((e0 + 3) mod W <=? G s)) eqn:Eg].
    + apply Hq; auto; try nb.
      * cbn. unfold snext, sdone. destruct rest; discriminate.
      * unfold gs. rewrite Et. cbn. unfold snext, sdone. destruct rest; auto.
      * intros s' HG' HS E Hv. eapply snext_ok with (k := KS e0 i xs b); [exact HG'|rewrite E; reflexivity| | |].
        -- exists pre. split; auto. eapply (scanned_st s s' a a A A HG HG' HS); eauto; rewrite E; auto.
        -- eapply (kinv_st s s' a a A A HG HG' HS); [rewrite E; auto|]. split; auto.
        -- rewrite E. intros y Hy. eapply (gone_st s s' a a A A HS). apply Hw. exact Hy.
    + apply andb_true_iff in Eg. destruct Eg as [_ Eg]. apply Z.leb_le in Eg. rewrite Z.mod_small in Eg by lia.
      apply Hq; auto; try nb; try gse Et. intros s' HG' HS E Hv. rewrite E. cbn. intros y Hy. eapply (dead_st s s' a a A A HS).
      apply in_app_iff in Hy. destruct Hy as [Hy|Hy].
      * apply in_map_iff in Hy. destruct Hy as [[y' e'] [<- Hy]]. eapply old_dead; [exact HG|apply (Hpe _ _ Hy)|]. pose proof (Hk3 _ _ Hy). lia.
      * eapply old_dead; [exact HG|apply (Hk2 _ Hy)|]. lia.
    + apply Hq; auto; try nb.
      * cbn. unfold snext, sdone. destruct recs; discriminate.
      * unfold gs. rewrite Et. cbn. unfold snext, sdone. destruct recs; auto.
      * intros s' HG' HS E Hv. assert (EG : G s' = G s) by reflexivity. eapply snext_ok with (k := KS e0 i xs b); [exact HG'|rewrite E; reflexivity| | |].
        -- exists []. split; auto. apply scan_start. lia.
        -- eapply (kinv_st s s' a a A A HG HG' HS); [rewrite E; auto|]. split; auto. split; [lia|]. split; auto.
        -- rewrite E. intros y Hy. eapply (gone_st s s' a a A A HS). apply Hw. exact Hy.
  - (* YC *)
    destruct k as [|e0 i xs b]; [discriminate|]. destruct (buf s t) eqn:Eb; [|discriminate]. fold (G s) in H. destruct Hat as [_ [Hsc Hk]].
    pose proof (wards_gone s a A t _ d (HT t) Hk) as Hw. destruct Hk as [Hk0 [Hk1 [Hk2 Hk3]]]. pose proof Hsc as [Hd [Hsc2 _]].
    assert (Hfin : forall s' a', GI s' a' A -> Stab s a A s' a' A -> (exists d', pcs s' t = to (pcs s t) (if Nat.ltb (S i) 2 then snext (KS e0 (S i) xs b) d' false recs else YL xs b) /\
        d + 1 <= d' <= G s') -> at_ok s' a' A t (pcs s' t)).
    { intros s1 a1 HG' HS [d' [E Ed]]. destruct (Nat.ltb_spec (S i) 2).
      - eapply snext_ok with (k := KS e0 (S i) xs b); [exact HG'|rewrite E; reflexivity| | |].
        + exists []. split; auto. apply scan_start. lia.
        + split; auto. split; [lia|]. split; [|rewrite E; auto]. intros y Hy. eapply (ward_st s s1 a a1 A A HG HG' HS). auto.
        + rewrite E. intros y Hy. eapply (gone_st s s1 a a1 A A HS). apply Hw. exact Hy.
      - rewrite E. unfold at_ok. cbn. intros y Hy. apply in_app_iff in Hy. destruct Hy as [Hy|Hy].
        + apply in_map_iff in Hy. destruct Hy as [[y' e'] [<- Hy]]. eapply old_dead with (e := e'); [exact HG'|eapply (ward_st s s1 a a1 A A HG HG' HS); apply (Hpe _ _ Hy)|].
          pose proof (Hk3 _ _ Hy). lia.
        + eapply old_dead with (e := e0); [exact HG'|eapply (ward_st s s1 a a1 A A HG HG' HS); apply (Hk2 _ Hy)|]. lia. }
    destruct (Z.eqb_spec (G s) d) as [Ee|Ee]; injection H as <- <-.
    + exists a. split; auto. simpl allocs. rewrite app_nil_r. rewrite <- Ee. rewrite (Z.mod_small (G s + 1)) by lia.
      match goal with |- INV (mkT _ _ (upd _ _ ?L)) _ _ => destruct (rmw_tick s a A t L HG) as [K1 K2]; auto end.
      { apply isin_eq; auto; [|congruence]. cbn [at_ to]. destruct (Nat.ltb (S i) 2); [unfold snext, sdone; destruct recs; discriminate|discriminate]. }
      { unfold gs. rewrite Et. cbn [at_ to]. destruct (Nat.ltb (S i) 2); [unfold snext, sdone; destruct recs; auto|auto]. }
      { intros r Hi. rewrite Ee. apply Hsc2; auto. eapply g_recs; eauto. apply Hi. }
      eapply assemble with (t := t); eauto.
      * intros u Hu. cbn [pcs]. apply upd_other. auto.
      * split; [|cbn [pcs]; rewrite upd_same; cbn [to nst pend got gotp]; split; [lia|split; [|split]]].
        -- apply Hfin; auto. exists (G s + 1). split; [cbn [pcs]; rewrite upd_same; auto|]. unfold G. cbn [mem]. rewrite setm_same. fold (G s). lia.
        -- intros y e Hy. eapply (ward_st s _ a a A A HG K1 K2); eauto.
        -- intros y Hy. eapply (gone_st s _ a a A A K2); eauto.
        -- intros y Hy. eapply (plain_st s _ a a A A K2); eauto.
    + exists a. split; auto. simpl allocs. rewrite app_nil_r.
      qst t; try reflexivity; auto; try nb.
      * intros y. cbn [mem]. unfold setm. destruct (loc_eqb_spec (Reg 0) y) as [<-|]; auto.
      * cbn [at_ to]. destruct (Nat.ltb (S i) 2); [unfold snext, sdone; destruct recs; discriminate|discriminate].
      * unfold gs. rewrite Et. cbn [at_ to]. destruct (Nat.ltb (S i) 2); [unfold snext, sdone; destruct recs; auto|auto].
      * intros HG' HS E Hv. apply Hfin; auto. exists (G s). split; auto. unfold G. cbn [mem]. rewrite setm_same. fold (G s). lia.
  - (* YL *)
    destruct (buf s t) eqn:Eb; [|discriminate]. injection H as <- <-. exists a. split; auto. simpl allocs. rewrite app_nil_r.
    qst t; try reflexivity; auto; try (destruct b; nb); try (destruct b; gse Et).
    + destruct b; auto.
    + destruct b; cbn; auto. intros y e [].
    + destruct b; auto.
    + destruct b; auto.
    + intros HG' HS E Hv. rewrite E. destruct b; cbn; (split; [|auto]); intros y Hy; eapply (dead_st s _ a a A A HS); apply Hat; apply in_app_iff;
        [apply in_app_iff in Hy; tauto|auto].
Qed.

Lemma allocs_app : forall l m, allocs (l ++ m) = allocs l ++ allocs m.
Proof. induction l as [|[] l IH]; intros; simpl; rewrite ?IH; auto. Qed.
Lemma ticks_app : forall l m, ticks (l ++ m) = (ticks l + ticks m)%nat.
Proof. induction l as [|[] l IH]; intros; simpl; rewrite ?IH; auto. Qed.

(** the global epoch counts the advances *)
Lemma code_G : forall lax t l ac i, code recs wr lax t l ac = Some i ->
  match i with
  | Ld x k => forall v, ticks (snd (k v)) = 0%nat
  | St x v p e => x <> Reg 0 /\ ticks e = 0%nat
  | Rmw x f k => (x <> Reg 0 /\ forall v, ticks (snd (k v)) = 0%nat) \/
                 (x = Reg 0 /\ forall v, 0 <= v -> v + 1 < W -> f v = v + Z.of_nat (ticks (snd (k v))))
  | Fence p e | Local p e => ticks e = 0%nat
  end.
Proof.
  intros lax t l ac i H.
  assert (Hal : forall x, ticks (al x) = 0%nat) by (intros; unfold al, obj; destruct (x =? 0); auto).
  assert (Hrf : forall t x, ticks (map (Ref t) (obj x)) = 0%nat) by (intros; unfold obj; destruct (x =? 0); auto).
  unfold code in H. destruct (at_ l) eqn:Et; destruct ac; try discriminate H;
  repeat match type of H with match ?x with _ => _ end = _ => destruct x eqn:?; try discriminate H end;
  injection H as <-; cbn [snd ticks]; auto.
  all: try (split; [first [apply ACT_0|apply REP_0|discriminate]|auto]; fail).
  all: try (left; split; [first [apply ACT_0|discriminate]|auto]; fail).
  - split; [apply ACT_0|]. destruct (nst l =? 1); auto.
  - right. split; auto. intros v H1 H2. destruct (Z.eqb_spec v e) as [->|]; [|simpl; lia]. rewrite Z.mod_small by lia. simpl. lia.
  - right. split; auto. intros v H1 H2. destruct (Z.eqb_spec v d) as [->|]; [|simpl; lia]. rewrite Z.mod_small by lia. simpl. lia.
Qed.
Lemma G_step : forall lax s l s' e, (forall t x v, In (x, v) (buf s t) -> x <> Reg 0) -> 0 <= G s -> G s + 1 < W ->
  step (code recs wr lax) arr s l = Some (s', e) -> G s' = G s + Z.of_nat (ticks e).
Proof.
  intros lax s l s' e Hb H0 HW H. destruct l as [t ac|t]; cbn [step] in H.
  2: { destruct (buf s t) as [|[x v] r] eqn:Eb; [discriminate|]. injection H as <- <-. unfold G, arr. cbn [mem ticks].
       rewrite setm_other; [lia|]. apply (Hb t x v). rewrite Eb. left. auto. }
  destruct (code recs wr lax t (pcs s t) ac) as [i|] eqn:Ec; [|discriminate]. apply code_G in Ec. unfold G in *.
  destruct i as [x k|x v p e1|x f k|p e1|p e1].
  - specialize (Ec (view s t x)). destruct (k (view s t x)) as [p e1]. injection H as <- <-. cbn in *. rewrite Ec. lia.
  - injection H as <- <-. destruct Ec as [_ ->]. cbn. lia.
  - destruct (buf s t); [|discriminate]. destruct (k (mem s x)) as [p e1] eqn:Ek. injection H as <- <-. cbn [mem].
    destruct Ec as [[E1 E2]|[-> E2]].
    + specialize (E2 (mem s x)). rewrite Ek in E2. cbn in E2. rewrite setm_other, E2 by auto. lia.
    + specialize (E2 (mem s (Reg 0)) H0 HW). rewrite Ek in E2. rewrite setm_same. auto.
  - destruct (buf s t); [|discriminate]. injection H as <- <-. cbn. rewrite Ec. lia.
  - injection H as <- <-. cbn. rewrite Ec. lia.
Qed.

Lemma INV_init : INV init {| held := []; freed := [] |} [].
Proof.
  assert (Ho : forall x i, occ init x i -> x = 0) by (intros x i [H|[t []]]; auto).
  split.
  - constructor; cbn; auto; try (intros; contradiction); try lia.
    + intros t v [<-|[]]. unfold G, REP, isin. cbn. split; [|lia]. destruct (t + (t + 0) + 2)%nat; lia.
    + intros t [H _]. cbn in H. lia.
    + intros x i H Hx. exfalso. apply Hx. eapply Ho; eauto.
  - intros u. repeat split; cbn; try (intros; contradiction); lia.
Qed.

Lemma epoch_all : forall ls s log, run (step (code recs wr false) arr) init ls = Some (s, log) ->
  fresh log -> Z.of_nat (ticks log) + 20 < W -> smr_legal log.
Proof.
  intros ls s log H Hf Ht.
  assert (K : fresh log -> Z.of_nat (ticks log) + 20 < W ->
     exists a, accepts smr_step {| held := []; freed := [] |} log = Some a /\ INV s a (allocs log) /\ G s = 1 + Z.of_nat (ticks log)).
  { clear Hf Ht. eapply (run_inv (step (code recs wr false) arr) (fun s log => fresh log -> Z.of_nat (ticks log) + 20 < W ->
      exists a, accepts smr_step {| held := []; freed := [] |} log = Some a /\ INV s a (allocs log) /\ G s = 1 + Z.of_nat (ticks log))); [| |exact H].
    - intros _ _. eexists. split; [reflexivity|]. split; [apply INV_init|reflexivity].
    - intros s1 l1 l s2 e IH Hs [F1 F2] Ht. rewrite ticks_app in Ht. rewrite allocs_app in F1, F2.
      destruct IH as [a [I1 [I2 I3]]]; [split; [|intros X; apply F2; apply in_app_iff; auto]|lia|].
      { clear -F1. induction (allocs l1); simpl in *; [constructor|]. inversion F1; subst. constructor; auto. intros X. apply H1. apply in_app_iff. auto. }
      destruct (INV_step s1 a (allocs l1) l s2 e I2) as [a' [K1 K2]]; auto; try lia.
      + intros X. apply F2. apply in_app_iff. auto.
      + intros x Hx Hx'. clear -F1 Hx Hx'. induction (allocs l1) as [|y r IHr]; [destruct Hx'|]. simpl in F1. inversion F1; subst.
        destruct Hx' as [->|Hx']; [apply H1; apply in_app_iff; auto|auto].
      + exists a'. split; [rewrite accepts_app, I1; auto|]. split; [rewrite allocs_app; auto|].
        rewrite (G_step false s1 l s2 e); auto; try lia; [rewrite ticks_app; lia|].
        intros t x v Hv ->. destruct I2 as [I2 _]. destruct (g_own _ _ _ I2 _ _ _ Hv) as [[j [E _]]|[E|E]]; [discriminate|eapply ACT_0; symmetry; eauto|eapply REP_0; symmetry; eauto]. }
  destruct (K Hf Ht) as [a [K1 _]]. exists a. auto.
Qed.
End Proof.

(** * An unlink by a plain store, still in the buffer when ck_epoch_call looks at the epoch *)
Fixpoint rep {A} (n : nat) (x : A) : list A := match n with O => [] | S n => x :: rep n x end.
Definition bad : list (lab act) :=
  (* thread 0 publishes object 1, enters a section, replaces it with object 2 (still buffered) and defers its destruction *)
  [Go 0 (AStore 0 1); Go 0 ATick; Go 0 ATick; Flush 0; Go 0 ABegin; Go 0 ATick; Go 0 ATick; Flush 0;
   Go 0 (AStore 0 2); Go 0 ATick; Go 0 ATick; Go 0 (ACall 1); Go 0 ATick] ++
  (* thread 2 advances the epoch to 2; thread 1 enters in epoch 2 and reads object 1 *)
  Go 2 APoll :: rep 9 (Go 2 ATick) ++ [Go 1 ABegin; Go 1 ATick; Go 1 ATick; Flush 1; Go 1 (ARead 0)] ++
  (* thread 0 leaves; its stores arrive; thread 2 advances the epoch to 3 *)
  [Go 0 AEnd; Flush 0; Flush 0] ++ Go 2 APoll :: rep 9 (Go 2 ATick) ++
  (* thread 0 polls *)
  Go 0 APoll :: rep 3 (Go 0 ATick).
Lemma bad_run : match run (step (code [0; 1; 2]%nat (fun _ => Some 0%nat) true) arr) init bad with
  | Some (s, log) => log = [Alloc 1; Alloc 2; Tick; Ref 1 1; Done 0; Tick; Free 1]
  | None => False
  end.
Proof. vm_compute. reflexivity. Qed.
Lemma epoch_bad : exists recs wr ls s log, run (step (code recs wr true) arr) init ls = Some (s, log) /\
  fresh log /\ Z.of_nat (ticks log) + 20 < W /\ ~ smr_legal log.
Proof.
  exists [0; 1; 2]%nat, (fun _ => Some 0%nat), bad. pose proof bad_run as H.
  destruct (run (step (code [0; 1; 2]%nat (fun _ => Some 0%nat) true) arr) init bad) as [[s log]|]; [|destruct H].
  exists s, log. subst log. split; auto. split; [split; [repeat constructor; cbn; intuition discriminate|cbn; intuition discriminate]|].
  split; [reflexivity|]. intros [a H]. vm_compute in H. discriminate.
Qed.
