(** Epoch reclamation on x86-TSO: every object is destroyed at most once. *)
From Coq Require Import ZArith Arith List Bool Lia Permutation.
From Verif Require Import Lib Tso TsoSmr_Spec TsoEpoch_Model TsoEpoch_Proof.
Import ListNotations.
Local Open Scope Z_scope.

Local Arguments W : simpl never.
Local Arguments ACT : simpl never.
Local Arguments REP : simpl never.

Section Proof.
Variable recs : list nat.
Variable wr : nat -> option nat.
Notation st := (tso thr).

(** * The objects a thread is going to destroy *)
Definition skl (k : sk) : list Z := match k with KP => [] | KS _ _ xs _ => xs end.
Definition pcl (p : pc) : list Z :=
  match p with
  | C1 x => [x] | Dp xs _ => xs
  | Sa k _ _ _ | Sr k _ _ | Y4 k _ _ | YC k _ => skl k
  | Y1 xs _ | Y2 xs _ | YL xs _ => xs
  | _ => []
  end.
Definition toks (l : thr) : list Z := pcl (at_ l) ++ map fst (pend l) ++ got l ++ gotp l.
Definition cur (s : st) (i : nat) : Z := match wr i with Some t => view s t (Dat i) | None => mem s (Dat i) end.

Record OWN (s : st) (A F : list Z) : Prop := {
  o_nd : forall t, NoDup (toks (pcs s t));
  o_ex : forall t u x, t <> u -> In x (toks (pcs s t)) -> ~ In x (toks (pcs s u));
  o_fr : forall t x, In x (toks (pcs s t)) -> ~ In x F /\ x <> 0 /\ In x A;
  o_cu : forall i x, cur s i = x -> x <> 0 -> In x A /\ ~ In x F /\ forall t, ~ In x (toks (pcs s t));
  o_un : forall i j x, cur s i = x -> cur s j = x -> x <> 0 -> i = j;
  o_F : NoDup F /\ incl F A
}.

Lemma allocs_al : forall x, allocs (al x) = obj x.
Proof. intros. unfold al, obj. destruct (x =? 0); auto. Qed.
Lemma frees_al : forall x, frees (al x) = [].
Proof. intros. unfold al, obj. destruct (x =? 0); auto. Qed.
Lemma frees_ref : forall t x, frees (map (Ref t) (obj x)) = [].
Proof. intros. unfold obj. destruct (x =? 0); auto. Qed.
Lemma allocs_ref : forall t x, allocs (map (Ref t) (obj x)) = [].
Proof. intros. unfold obj. destruct (x =? 0); auto. Qed.
Lemma frees_app : forall l1 l2, frees (l1 ++ l2) = frees l1 ++ frees l2.
Proof. induction l1 as [|[] l1 IH]; intros; simpl; auto. f_equal. auto. Qed.
Lemma obj_in : forall x y, In y (obj x) <-> y = x /\ x <> 0.
Proof. intros. unfold obj. destruct (Z.eqb_spec x 0); simpl; intuition congruence. Qed.

Lemma pcl_sdone : forall k d af, pcl (sdone k d af) = skl k.
Proof. intros [|e0 i xs b] d []; reflexivity. Qed.
Lemma pcl_snext : forall k d af r, pcl (snext k d af r) = skl k.
Proof. intros k d af [|]; [apply pcl_sdone|reflexivity]. Qed.

Lemma rem_perm : forall x l, NoDup l -> In x l -> Permutation (x :: remove Z.eq_dec x l) l.
Proof.
  intros x. induction l as [|y l IH]; intros H1 H2; [destruct H2|]. inversion H1; subst. simpl.
  destruct (Z.eq_dec x y) as [->|Hn].
  - rewrite notin_remove; auto.
  - destruct H2 as [->|H2]; [congruence|]. rewrite perm_swap. constructor. auto.
Qed.
Lemma take_perm : forall l b k, pcl (at_ l) = [] -> Permutation (toks (take l b k)) (toks l).
Proof.
  intros l b k H. unfold toks, take. cbn [at_ pend got gotp pcl]. rewrite H. simpl. rewrite app_assoc. apply Permutation_app_tail.
  induction (pend l) as [|[x e] r IH]; simpl; auto. destruct (slot e =? b); simpl.
  - constructor. auto.
  - rewrite <- Permutation_middle. constructor. auto.
Qed.
Lemma NoDup_app_l : forall (l1 l2 : list Z), NoDup (l1 ++ l2) -> NoDup l1.
Proof. induction l1 as [|y l1 IH]; intros l2 H; [constructor|]. inversion H; subst. constructor; [intros X; apply H2; apply in_app_iff; auto|eauto]. Qed.
Lemma NoDup_app_r : forall (l1 l2 : list Z), NoDup (l1 ++ l2) -> NoDup l2.
Proof. induction l1 as [|y l1 IH]; intros l2 H; auto. inversion H; subst. auto. Qed.
Lemma NoDup_app_x : forall (l1 l2 : list Z) x, NoDup (l1 ++ l2) -> In x l1 -> ~ In x l2.
Proof. induction l1 as [|y l1 IH]; intros l2 x H Hx X; [destruct Hx|]. inversion H; subst. destruct Hx as [->|Hx]; [apply H2; apply in_app_iff; auto|eapply IH; eauto]. Qed.

Definition keeps (l p : thr) (e : list rev) : Prop := Permutation (toks p ++ frees e) (toks l) /\ allocs e = [].
Lemma code_O : forall t l ac i, code recs wr false t l ac = Some i -> NoDup (toks l) ->
  match i with
  | Ld x k => forall v, keeps l (fst (k v)) (snd (k v))
  | Fence p e | Local p e => keeps l p e
  | St x v p e => (x = ACT t \/ x = REP t) /\ keeps l p e \/
      exists j old, x = Dat j /\ at_ l = U2 j v old /\ Permutation (toks p) (obj old ++ toks l) /\ allocs e = obj v /\ frees e = []
  | Rmw x f k => (x = ACT t \/ x = Reg 0) /\ (forall v, keeps l (fst (k v)) (snd (k v))) \/
      exists j y, x = Dat j /\ wr j = None /\ forall v, f v = y /\ Permutation (toks (fst (k v))) (obj v ++ toks l) /\ allocs (snd (k v)) = obj y /\ frees (snd (k v)) = []
  end.
Proof.
  intros t l ac i H ND.
  assert (Hk : forall p e, frees e = [] -> allocs e = [] -> pcl p = pcl (at_ l) -> keeps l (to l p) e).
  { intros p e H1 H2 H3. split; auto. rewrite H1, app_nil_r. unfold toks, to. cbn [at_ pend got gotp]. rewrite H3. auto. }
  unfold code in H. destruct (at_ l) eqn:Et; destruct ac; try discriminate H;
  repeat match type of H with match ?x with _ => _ end = _ => destruct x eqn:?; try discriminate H end;
  injection H as <-; cbn [fst snd frees allocs]; auto.
  all: try (apply Hk; rewrite ?Et; auto; fail).
  all: try (intros v; apply Hk; rewrite ?Et; auto; fail).
  all: try (left; split; [auto|]; split; cbn [frees allocs]; auto; unfold toks; rewrite Et, app_nil_r; cbn; auto; fail).
  all: try (left; split; [auto|]; intros; split; cbn [frees allocs]; auto; unfold toks; rewrite Et, app_nil_r; cbn; auto; fail).

  - left. split; [auto|]. split; [|destruct (nst l =? 1); auto]. unfold toks; rewrite Et; cbn. destruct (nst l =? 1); cbn; rewrite app_nil_r; auto.
  - intros v. split; [rewrite frees_ref, app_nil_r; auto|apply allocs_ref].
  - right. exists i0, x. split; auto. split; auto. intros v. split; auto. split; [|split; [apply allocs_al|apply frees_al]].
    unfold toks. rewrite Et. cbn. rewrite <- app_assoc, !app_assoc. do 2 apply Permutation_app_tail. apply Permutation_app_comm.
  - split; auto. rewrite app_nil_r. apply andb_true_iff in Heqb. destruct Heqb as [_ Hm]. rewrite orb_false_r in Hm.
    apply existsb_exists in Hm. destruct Hm as [y [Hy E]]. apply Z.eqb_eq in E. subst y.
    unfold toks in *. rewrite Et in *. cbn in *. apply NoDup_app_r in ND.
    rewrite (notin_remove Z.eq_dec (gotp l) x) by (eapply NoDup_app_x; eauto).
    rewrite Permutation_middle. apply Permutation_app_head. rewrite app_comm_cons. apply Permutation_app_tail.
    apply rem_perm; auto. eapply NoDup_app_l; eauto.
  - split; auto. rewrite app_nil_r. unfold toks. rewrite Et. cbn. rewrite app_nil_r. apply Permutation_app_comm.
  - split; auto. rewrite app_nil_r. unfold toks. rewrite Et. cbn. rewrite app_nil_r. apply Permutation_app_comm.
  - right. exists i0, old. split; auto. split; auto. split; [|split; [apply allocs_al|apply frees_al]].
    unfold toks. rewrite Et. cbn. rewrite (app_assoc (map fst (pend l)) (got l)), Permutation_app_swap_app, <- app_assoc. auto.
  - intros v. split; auto. rewrite app_nil_r. unfold toks. rewrite Et. cbn. auto.
  - split; auto. rewrite app_nil_r. apply take_perm. rewrite Et. auto.
  - left. split; [auto|]. intros v. split; [|destruct (v =? e); auto].
    rewrite take_perm by (rewrite Et; auto). destruct (v =? e); cbn; rewrite app_nil_r; auto.
  - apply Hk; auto. apply pcl_snext.
  - split; auto. unfold toks. rewrite Et. cbn. rewrite Permutation_app_comm. cbn. auto.
  - intros v. apply Hk; auto. destruct (v =? 0); [apply pcl_snext|reflexivity].
  - intros v. apply Hk; auto. destruct (v =? d); [apply pcl_snext|destruct k; reflexivity].
  - intros v. apply Hk; auto. apply pcl_snext.
  - intros v. apply Hk; auto. destruct (v =? d); [apply pcl_snext|]. destruct (_ && _); [reflexivity|apply pcl_snext].
  - left. split; [auto|]. intros v. apply Hk; try (destruct (v =? d); reflexivity). destruct (S i0 <? 2)%nat; [apply pcl_snext|reflexivity].
  - destruct b; [|apply Hk; auto]. split; auto. unfold toks, take_all. rewrite Et. cbn. rewrite app_nil_r, <- !app_assoc. auto.
Qed.

Lemma own_keep : forall s A F t p fr s', OWN s A F -> (forall u, pcs s' u = upd (pcs s) t p u) -> (forall i, cur s' i = cur s i) ->
  Permutation (toks p ++ fr) (toks (pcs s t)) -> OWN s' A (F ++ fr).
Proof.
  intros s A F t p fr s' H Ep Ec HP.
  assert (Hin : forall x, In x (toks p) \/ In x fr <-> In x (toks (pcs s t))).
  { intros x. rewrite <- in_app_iff. split; apply Permutation_in; [auto|symmetry; auto]. }
  assert (Hsub : forall u x, In x (toks (pcs s' u)) -> In x (toks (pcs s u))).
  { intros u x. rewrite Ep. destruct (Nat.eq_dec u t) as [->|Hn]; [rewrite upd_same; intros; apply Hin; auto|rewrite upd_other by auto; auto]. }
  assert (ND : NoDup (toks p ++ fr)) by (eapply Permutation_NoDup; [symmetry; eauto|apply (o_nd _ _ _ H)]).
  assert (Hfr : forall u x, In x (toks (pcs s' u)) -> ~ In x fr).
  { intros u x. rewrite Ep. destruct (Nat.eq_dec u t) as [->|Hn]; [rewrite upd_same; intros; eapply NoDup_app_x; eauto|rewrite upd_other by auto].
    intros Hx Hf. eapply (o_ex _ _ _ H u t); eauto. apply Hin. auto. }
  constructor.
  - intros u. rewrite Ep. destruct (Nat.eq_dec u t) as [->|Hn]; [rewrite upd_same; eapply NoDup_app_l; eauto|rewrite upd_other by auto; apply (o_nd _ _ _ H)].
  - intros u w x Hn Hx Hy. eapply (o_ex _ _ _ H u w); eauto.
  - intros u x Hx. destruct (o_fr _ _ _ H u x) as [K1 [K2 K3]]; auto. split; auto. intros X. apply in_app_iff in X. destruct X as [X|X]; [tauto|eapply Hfr; eauto].
  - intros i x. rewrite Ec. intros E0 Hx. destruct (o_cu _ _ _ H i x E0 Hx) as [K1 [K2 K3]]. split; auto. split.
    + intros X. apply in_app_iff in X. destruct X as [X|X]; auto. apply (K3 t). apply Hin. auto.
    + intros u Hu. eapply K3; eauto.
  - intros i j x. rewrite !Ec. apply (o_un _ _ _ H).
  - destruct (o_F _ _ _ H) as [K1 K2]. split.
    + assert (K : forall x, In x fr -> ~ In x F) by (intros x Hx; eapply (o_fr _ _ _ H t x); apply Hin; auto).
      apply NoDup_app_r in ND. clear -K1 K ND. induction F as [|y F IH]; simpl; auto. inversion K1; subst. constructor.
      * intros X. apply in_app_iff in X. destruct X as [X|X]; [auto|]. apply (K y X). left. auto.
      * apply IH; auto. intros x Hx Hy. apply (K x Hx). right. auto.
    + intros x Hx. apply in_app_iff in Hx. destruct Hx as [Hx|Hx]; auto. eapply (o_fr _ _ _ H t x). apply Hin. auto.
Qed.

Lemma own_swap : forall s A F t p s' j y, OWN s A F -> (forall u, pcs s' u = upd (pcs s) t p u) -> cur s' j = y ->
  (forall i, i <> j -> cur s' i = cur s i) -> Permutation (toks p) (obj (cur s j) ++ toks (pcs s t)) -> (forall x, In x (obj y) -> ~ In x A) ->
  OWN s' (A ++ obj y) F.
Proof.
  intros s A F t p s' j y H Ep Ej Ec HP Hy.
  assert (Hin : forall x, In x (toks p) <-> x = cur s j /\ x <> 0 \/ In x (toks (pcs s t))).
  { intros x. rewrite (Permutation_in' eq_refl HP), in_app_iff, obj_in. intuition congruence. }
  assert (Hsub : forall u x, In x (toks (pcs s' u)) -> In x (toks (pcs s u)) \/ x = cur s j /\ x <> 0 /\ u = t).
  { intros u x. rewrite Ep. destruct (Nat.eq_dec u t) as [->|Hn]; [rewrite upd_same, Hin|rewrite upd_other by auto]; tauto. }
  destruct (o_F _ _ _ H) as [F1 F2].
  assert (HA : forall u x, In x (toks (pcs s' u)) -> In x A /\ ~ In x F /\ x <> 0).
  { intros u x Hx. destruct (Hsub _ _ Hx) as [K|[K1 [K2 K3]]]; [destruct (o_fr _ _ _ H _ _ K) as [? [? ?]]; auto|].
    destruct (o_cu _ _ _ H j x) as [? [? ?]]; auto. }
  constructor.
  - intros u. rewrite Ep. destruct (Nat.eq_dec u t) as [->|Hn]; [rewrite upd_same|rewrite upd_other by auto; apply (o_nd _ _ _ H)].
    eapply Permutation_NoDup; [symmetry; eauto|]. unfold obj. destruct (Z.eqb_spec (cur s j) 0) as [E|E]; [apply (o_nd _ _ _ H)|].
    simpl. constructor; [|apply (o_nd _ _ _ H)]. eapply (o_cu _ _ _ H j); eauto.
  - intros u w x Hn Hx Hx'. destruct (Hsub _ _ Hx) as [K|[K1 [K2 K3]]]; destruct (Hsub _ _ Hx') as [L|[L1 [L2 L3]]].
    + eapply (o_ex _ _ _ H u w); eauto.
    + subst. destruct (o_cu _ _ _ H j _ eq_refl L2) as [_ [_ X]]. eapply X; eauto.
    + subst. destruct (o_cu _ _ _ H j _ eq_refl K2) as [_ [_ X]]. eapply X; eauto.
    + congruence.
  - intros u x Hx. destruct (HA _ _ Hx) as [K1 [K2 K3]]. split; auto. split; auto. apply in_app_iff. auto.
  - intros i x E Hx. destruct (Nat.eq_dec i j) as [->|Hn].
    + assert (Hx' : In x (obj y)) by (apply obj_in; split; congruence). specialize (Hy _ Hx'). split; [apply in_app_iff; auto|]. split; [intros X; apply Hy; auto|].
      intros u Hu. apply Hy. eapply HA; eauto.
    + rewrite Ec in E by auto. destruct (o_cu _ _ _ H i x E Hx) as [K1 [K2 K3]]. split; [apply in_app_iff; auto|]. split; auto.
      intros u Hu. destruct (Hsub _ _ Hu) as [K|[L1 _]]; [eapply K3; eauto|]. apply Hn. eapply (o_un _ _ _ H); eauto.
  - assert (X : forall i x, i <> j -> cur s' i = x -> x <> 0 -> cur s' j <> x).
    { intros i x Hn E Hx E2. rewrite Ec in E by auto. apply (Hy x); [apply obj_in; split; congruence|]. eapply (o_cu _ _ _ H i); eauto. }
    intros i k x E1 E2 Hx. destruct (Nat.eq_dec i j) as [->|Hi]; destruct (Nat.eq_dec k j) as [->|Hk]; auto.
    + exfalso. eapply (X k x); eauto.
    + exfalso. eapply (X i x); eauto.
    + rewrite Ec in E1, E2 by auto. eapply (o_un _ _ _ H); eauto.
  - split; auto. intros x Hx. apply in_app_iff. auto.
Qed.

Lemma own_step : forall s a A F l s' e, INV recs wr s a A -> OWN s A F ->
  step (code recs wr false) arr s l = Some (s', e) -> (forall x, In x (allocs e) -> ~ In x A) ->
  OWN s' (A ++ allocs e) (F ++ frees e).
Proof.
  intros s a A F l s' e [HG HT] H Hs Hf. destruct l as [t ac|t]; cbn [step] in Hs.
  2: { destruct (buf s t) as [|[x v] r] eqn:Eb; [discriminate|]. injection Hs as <- <-. cbn [arr allocs frees]. unfold arr. rewrite app_nil_r. cbn [frees].
       assert (Hown : forall i, x = Dat i -> wr i = Some t).
       { intros i ->. destruct (g_own _ _ _ _ _ HG t (Dat i) v) as [[k [E1 E2]]|[E|E]]; [rewrite Eb; left; auto| |discriminate|discriminate]. congruence. }
       apply own_keep with (s := s) (t := t) (p := pcs s t); auto; [| |rewrite app_nil_r; auto].
       - intros u. cbn. upd_cases; auto.
       - intros i. unfold cur. destruct (wr i) as [u|] eqn:Ew.
         + unfold view. cbn [mem buf]. destruct (Nat.eq_dec u t) as [->|Hn]; [rewrite upd_same, <- fwd_flush, <- Eb; auto|rewrite upd_other by auto].
           rewrite setm_other; auto. intros ->. rewrite (Hown i eq_refl) in Ew. congruence.
         + cbn [mem]. rewrite setm_other; auto. intros ->. rewrite (Hown i eq_refl) in Ew. congruence. }
  destruct (code recs wr false t (pcs s t) ac) as [i|] eqn:Ec; [|discriminate].
  pose proof (code_O _ _ _ _ Ec (o_nd _ _ _ H t)) as K. clear Ec.
  assert (Q : forall p fr s', pcs s' = upd (pcs s) t p -> (forall i, cur s' i = cur s i) -> Permutation (toks p ++ fr) (toks (pcs s t)) -> OWN s' (A ++ []) (F ++ fr)).
  { intros p fr s1 E1 E2 E3. rewrite app_nil_r. eapply own_keep; eauto. intros u. rewrite E1. auto. }
  destruct i as [x k|x v p e1|x f k|p e1|p e1].
  - specialize (K (view s t x)). destruct (k (view s t x)) as [p e1]. injection Hs as <- <-. destruct K as [K1 K2]. cbn in K1, K2. rewrite K2. eapply Q; eauto. reflexivity.
  - injection Hs as <- <-. destruct K as [[Hx [K1 K2]]|[j [old [-> [Et [K1 [K2 K3]]]]]]].
    + rewrite K2. eapply Q; eauto; [reflexivity|]. intros i. unfold cur, view. cbn [mem buf]. destruct (wr i) as [u|]; auto.
      destruct (Nat.eq_dec u t) as [->|Hn]; [rewrite upd_same, fwd_app; cbn|rewrite upd_other; auto].
      destruct (loc_eqb_spec x (Dat i)); auto. destruct Hx; subst; discriminate.
    + destruct (HT t) as [Hat _]. unfold at_ok in Hat. rewrite Et in Hat. destruct Hat as [Ew Ev].
      rewrite K2, K3, app_nil_r. rewrite K2 in Hf. eapply (own_swap s A F t p _ j v); eauto.
      * unfold cur, view. rewrite Ew. cbn [mem buf]. rewrite upd_same, fwd_app. cbn. rewrite Nat.eqb_refl. auto.
      * intros i Hn. unfold cur, view. cbn [mem buf]. destruct (wr i) as [u|]; auto.
        destruct (Nat.eq_dec u t) as [->|Hu]; [rewrite upd_same, fwd_app; cbn|rewrite upd_other; auto]. destruct (Nat.eqb_spec j i); auto. congruence.
      * unfold cur. rewrite Ew, <- Ev. auto.
  - destruct (buf s t) eqn:Eb; [|discriminate]. destruct (k (mem s x)) as [p e1] eqn:Ek. injection Hs as <- <-.
    destruct K as [[Hx K]|[j [y [-> [Ew K]]]]].
    + specialize (K (mem s x)). rewrite Ek in K. destruct K as [K1 K2]. cbn in K1, K2. rewrite K2. eapply Q; eauto; [reflexivity|].
      intros i. unfold cur, view. cbn [mem buf]. rewrite setm_other; auto. destruct Hx; subst; discriminate.
    + specialize (K (mem s (Dat j))). rewrite Ek in K. cbn in K. destruct K as [E [K1 [K2 K3]]]. rewrite K2, K3, app_nil_r. rewrite K2 in Hf.
      eapply (own_swap s A F t p _ j y); eauto.
      * unfold cur. rewrite Ew. cbn [mem]. rewrite setm_same. auto.
      * intros i Hn. unfold cur, view. cbn [mem buf]. rewrite setm_other; auto. congruence.
      * unfold cur. rewrite Ew. auto.
  - destruct (buf s t); [|discriminate]. injection Hs as <- <-. destruct K as [K1 K2]. rewrite K2. eapply Q; eauto. reflexivity.
  - injection Hs as <- <-. destruct K as [K1 K2]. rewrite K2. eapply Q; eauto. reflexivity.
Qed.

Lemma OWN_init : OWN init [] [].
Proof.
  assert (E : forall i, cur init i = 0) by (intros i; unfold cur, view; cbn; destruct (wr i); auto).
  constructor.
  - intros t. constructor.
  - intros t u x _ [].
  - intros t x [].
  - intros i x Hx H0. rewrite E in Hx. congruence.
  - intros i j x Hi _ H0. rewrite E in Hi. congruence.
  - split; [constructor|intros x []].
Qed.

Lemma epoch_once : forall ls s log, run (step (code recs wr false) arr) init ls = Some (s, log) ->
  fresh log -> Z.of_nat (ticks log) + 20 < W -> NoDup (frees log) /\ incl (frees log) (allocs log).
Proof.
  intros ls s log H Hf Ht.
  assert (K : fresh log -> Z.of_nat (ticks log) + 20 < W ->
     (exists a, INV recs wr s a (allocs log)) /\ G s = 1 + Z.of_nat (ticks log) /\ OWN s (allocs log) (frees log)).
  { clear Hf Ht. eapply (run_inv (step (code recs wr false) arr) (fun s log => fresh log -> Z.of_nat (ticks log) + 20 < W ->
      (exists a, INV recs wr s a (allocs log)) /\ G s = 1 + Z.of_nat (ticks log) /\ OWN s (allocs log) (frees log))); [| |exact H].
    - intros _ _. split; [eexists; apply INV_init|]. split; [reflexivity|apply OWN_init].
    - intros s1 l1 l s2 e IH Hs [F1 F2] Ht. rewrite ticks_app in Ht. rewrite allocs_app in F1, F2.
      destruct IH as [[a I2] [I3 I4]]; [split; [eapply NoDup_app_l; eauto|intros X; apply F2; apply in_app_iff; auto]|lia|].
      assert (Hn : forall x, In x (allocs e) -> ~ In x (allocs l1)).
      { intros x Hx Hx'. eapply NoDup_app_x; eauto. }
      destruct (INV_step recs wr s1 a (allocs l1) l s2 e I2) as [a' [K1 K2]]; auto; try lia.
      { intros X. apply F2. apply in_app_iff. auto. }
      split; [exists a'; rewrite allocs_app; auto|]. split.
      + rewrite (G_step recs wr false s1 l s2 e); auto; try lia; [rewrite ticks_app; lia|].
        intros t x v Hv ->. destruct I2 as [I2 _]. destruct (g_own _ _ _ _ _ I2 _ _ _ Hv) as [[j [E _]]|[E|E]]; [discriminate|eapply ACT_0; symmetry; eauto|eapply REP_0; symmetry; eauto].
      + rewrite allocs_app, frees_app. eapply own_step; eauto. }
  destruct (K Hf Ht) as [_ [_ K1]]. apply (o_F _ _ _ K1).
Qed.
End Proof.
