(** Hazard pointers on x86-TSO: invariants. *)
From Coq Require Import ZArith Arith List Bool Lia.
From Verif Require Import Lib Tso TsoHp_Spec TsoHp_Model.
Import ListNotations.
Local Open Scope Z_scope.

(** where an object is (ghost) *)
Inductive place := Nowhere | InLoc (j : nat) | Got (t : nat) | GotP (t : nat) | Pend (t : nat).

Section Proof.
Variable recs : list (list nat).
Variable own : nat -> nat.
Variable wr : nat -> option nat.
Variable cache : nat.
Notation st := (tso thr).
Notation slots := (concat recs).
Notation code := (code recs own wr false cache).

(** the last value given to pointer [j] *)
Definition cur (s : st) (j : nat) : Z := match wr j with None => mem s (Dat j) | Some u => view s u (Dat j) end.
Definition ovr (P : Z -> place) (x : Z) (p : place) (y : Z) : place := if x =? y then p else P y.

Definition pc_ok (s : st) (a : hst) (t : nat) (l : thr) : Prop :=
  match at_ l with
  | Idle => True
  | H1 h j => own h = t /\ In h slots
  | H2 h j p => own h = t /\ In h slots /\ p <> 0
  | H3 h j p => own h = t /\ In h slots /\ p <> 0 /\ mem s (HZ h) = p /\ forall v, ~ In (HZ h, v) (buf s t)
  | U1 j x => wr j = Some t
  | U2 j x v => wr j = Some t /\ v = cur s j
  | Ca c rest cu more => incl rest cu /\
      forall h, In h slots -> In h rest \/ In h (concat more) \/ forall x, In x (pend l) -> ~ In x c -> ~ In (h, x) (held a)
  | Dp c mk todo => NoDup todo /\ incl todo (pend l) /\
      forall h, In h slots -> In h mk \/ forall x, In x todo -> ~ In x c -> ~ In (h, x) (held a)
  | Sc c mk todo rest => NoDup todo /\ incl todo (pend l) /\
      (forall h, In h slots -> In h mk \/ forall x, In x todo -> ~ In x c -> ~ In (h, x) (held a)) /\
      match todo with
      | [] => False
      | x :: _ => ~ In x c /\ forall h, In h mk -> In h rest \/ ~ In (h, x) (held a)
      end
  end.

Record I (P : Z -> place) (s : st) (a : hst) : Prop := {
  i_live : forall x, In x (live a) <-> P x <> Nowhere;
  i_0 : P 0 = Nowhere;
  i_own : forall t j v, In (Dat j, v) (buf s t) -> wr j = Some t;
  i_cur : forall j, cur s j <> 0 -> P (cur s j) = InLoc j;
  i_mem : forall j u, wr j = Some u -> mem s (Dat j) = 0 \/ mem s (Dat j) = cur s j \/ P (mem s (Dat j)) = GotP u;
  i_buf : forall j t v, In (Dat j, v) (buf s t) -> v = 0 \/ v = cur s j \/ P v = GotP t;
  i_got : forall t x, In x (got (pcs s t)) -> P x = Got t;
  i_gotp : forall t x, In x (gotp (pcs s t)) <-> P x = GotP t;
  i_pend : forall t x, In x (pend (pcs s t)) -> P x = Pend t;
  i_nd : forall t, NoDup (pend (pcs s t));
  i_hbuf : forall t h v, In (HZ h, v) (buf s t) -> own h = t;
  i_held : forall h x, In (h, x) (held a) -> In h slots /\ x <> 0 /\ mem s (HZ h) = x /\ forall t v, ~ In (HZ h, v) (buf s t);
  i_pc : forall t, pc_ok s a t (pcs s t)
}.

(** * Basics *)
Lemma ovr_same : forall P x p, ovr P x p x = p.
Proof. intros. unfold ovr. rewrite Z.eqb_refl. auto. Qed.
Lemma ovr_other : forall P x p y, y <> x -> ovr P x p y = P y.
Proof. intros. unfold ovr. destruct (Z.eqb_spec x y); congruence. Qed.
Lemma in_obj : forall x v, In x (obj v) <-> x = v /\ v <> 0.
Proof. intros x v. unfold obj. destruct (Z.eqb_spec v 0); simpl; intuition congruence. Qed.
Lemma mem_Z_in : forall x l, mem_Z x l = true <-> In x l.
Proof. intros. unfold mem_Z. rewrite existsb_exists. split; [intros [y [H E]]; apply Z.eqb_eq in E; subst; auto|intros H; exists x; split; auto; apply Z.eqb_refl]. Qed.
Lemma case_upd : forall {A : Type} (f : nat -> A) t p u, upd f t p u = if Nat.eq_dec u t then p else f u.
Proof. intros A f t p u. destruct (Nat.eq_dec u t) as [->|]; [apply upd_same|apply upd_other; auto]. Qed.
Lemma In_push : forall (b : nat -> list (loc * Z)) t e u x, In x (upd b t (b t ++ [e]) u) <-> In x (b u) \/ u = t /\ x = e.
Proof. intros b t e u x. rewrite case_upd. destruct (Nat.eq_dec u t) as [->|]; [rewrite in_app_iff; simpl; intuition|intuition congruence]. Qed.

(** what a thread loads from a pointer is reachable *)
Lemma load_dat : forall P s a t j, I P s a -> view s t (Dat j) <> 0 ->
  (exists i, P (view s t (Dat j)) = InLoc i) \/ (exists u, P (view s t (Dat j)) = GotP u).
Proof.
  intros P s a t j H Hv. destruct (wr j) as [u|] eqn:Ew.
  - destruct (Nat.eq_dec u t) as [->|Hn].
    + left. exists j. pose proof (i_cur _ _ _ H j) as C. unfold cur in C. rewrite Ew in C. auto.
    + assert (E : view s t (Dat j) = mem s (Dat j)).
      { apply fwd_none. intros v Hi. apply (i_own _ _ _ H) in Hi. congruence. }
      rewrite E in *. destruct (i_mem _ _ _ H j u Ew) as [X|[X|X]]; [congruence| |eauto].
      left. exists j. rewrite X. apply (i_cur _ _ _ H). rewrite <- X. auto.
  - assert (E : view s t (Dat j) = mem s (Dat j)).
    { apply fwd_none. intros v Hi. apply (i_own _ _ _ H) in Hi. congruence. }
    left. exists j. pose proof (i_cur _ _ _ H j) as C. unfold cur in C. rewrite Ew in C. rewrite E in *. auto.
Qed.

(** the program counter of a thread other than the one moving *)
Lemma pc_mono : forall s a s' a' u l, pc_ok s a u l ->
  (forall h, own h = u -> (forall v, ~ In (HZ h, v) (buf s u)) -> mem s' (HZ h) = mem s (HZ h) /\ forall v, ~ In (HZ h, v) (buf s' u)) ->
  (forall j, wr j = Some u -> cur s' j = cur s j) ->
  (forall h x, In x (pend l) -> In (h, x) (held a') -> In (h, x) (held a)) -> pc_ok s' a' u l.
Proof.
  intros s a s' a' u l H Hz Hc Hh. unfold pc_ok in *. destruct (at_ l); auto.
  - destruct H as [H1 [H2 [H3 [H4 H5]]]]. destruct (Hz h H1 H5) as [K1 K2]. rewrite K1. auto.
  - destruct H as [H1 H2]. rewrite Hc; auto.
  - destruct H as [H1 H2]. split; auto. intros h Hs. destruct (H2 h Hs) as [?|[?|K]]; auto. right. right. intros x Hx Hn X. apply (K x Hx Hn). auto.
  - destruct H as [H0 [H1 H2]]. split; auto. split; auto. intros h Hs. destruct (H2 h Hs) as [?|K]; auto. right. intros x Hx Hn X. apply (K x Hx Hn). apply Hh; auto.
  - destruct H as [H0 [H1 [H2 H3]]]. split; auto. split; auto. split.
    + intros h Hs. destruct (H2 h Hs) as [?|K]; auto. right. intros x Hx Hn X. apply (K x Hx Hn). apply Hh; auto.
    + destruct todo as [|x todo]; auto. destruct H3 as [H3 H4]. split; auto. intros h Hs. destruct (H4 h Hs) as [?|K]; auto. right. intros X. apply K. apply Hh; auto. apply H1. left. auto.
Qed.

(** a thread moves on; pointers, buffers and references are as before *)
Lemma I_quiet : forall P s a t l', I P s a -> got l' = got (pcs s t) -> gotp l' = gotp (pcs s t) -> pend l' = pend (pcs s t) ->
  pc_ok s a t l' -> I P (next s t l') a.
Proof.
  intros P s a t l' H E1 E2 E3 Hp. destruct H. constructor; auto; unfold next; cbn [mem buf pcs].
  - intros u x. rewrite case_upd. destruct (Nat.eq_dec u t) as [->|]; auto. rewrite E1. auto.
  - intros u x. rewrite case_upd. destruct (Nat.eq_dec u t) as [->|]; auto. rewrite E2. auto.
  - intros u x. rewrite case_upd. destruct (Nat.eq_dec u t) as [->|]; auto. rewrite E3. auto.
  - intros u. rewrite case_upd. destruct (Nat.eq_dec u t) as [->|]; auto. rewrite E3. auto.
  - intros u. rewrite case_upd. destruct (Nat.eq_dec u t) as [->|]; [exact Hp|exact (i_pc0 u)].
Qed.

Lemma cur_flush : forall s t x v r p j, (forall u i w, In (Dat i, w) (buf s u) -> wr i = Some u) -> buf s t = (x, v) :: r -> cur (mkT (setm (mem s) x v) (upd (buf s) t r) p) j = cur s j.
Proof.
  intros s t x v r p j Ho Eb. assert (Hx : forall i, x = Dat i -> wr i = Some t) by (intros i ->; apply (Ho t i v); rewrite Eb; left; auto).
  unfold cur, view. cbn [mem buf]. destruct (wr j) as [u|] eqn:Ew.
  - destruct (Nat.eq_dec u t) as [->|Hn].
    + rewrite upd_same, <- fwd_flush, <- Eb. auto.
    + rewrite upd_other by auto. rewrite setm_other; auto. intros ->. apply Hn. specialize (Hx j eq_refl). congruence.
  - apply setm_other. intros ->. specialize (Hx j eq_refl). congruence.
Qed.

Lemma I_flush : forall P s a t x v r, I P s a -> buf s t = (x, v) :: r -> I P (mkT (setm (mem s) x v) (upd (buf s) t r) (pcs s)) a.
Proof.
  intros P s a t x v r H Eb. assert (Hc : forall j, cur (mkT (setm (mem s) x v) (upd (buf s) t r) (pcs s)) j = cur s j) by (intros j; apply cur_flush; auto; apply (i_own _ _ _ H)).
  assert (Hb : forall u y, In y (upd (buf s) t r u) -> In y (buf s u)).
  { intros u y. rewrite case_upd. destruct (Nat.eq_dec u t) as [->|]; auto. rewrite Eb. right. auto. }
  assert (Hin : In (x, v) (buf s t)) by (rewrite Eb; left; auto).
  destruct H. constructor; auto; cbn [mem buf pcs].
  - intros u j w X. apply (i_own0 u j w). auto.
  - intros j. rewrite Hc. auto.
  - intros j u Ew. rewrite Hc. unfold setm. destruct (loc_eqb_spec x (Dat j)) as [->|]; auto.
    assert (u = t) as -> by (specialize (i_own0 _ _ _ Hin); congruence). eauto.
  - intros j u w X. rewrite Hc. eauto.
  - intros u h w X. eauto.
  - intros h y X. destruct (i_held0 h y X) as [K1 [K2 [K3 K4]]]. split; auto. split; auto. split; [|intros u w Y; apply (K4 u w); auto].
    rewrite setm_other; auto. intros ->. apply (K4 t v). auto.
  - intros u. apply pc_mono with (s := s) (a := a); auto.
    intros h Ho Hn. cbn [mem buf]. split; [|intros w X; apply (Hn w); auto].
    rewrite setm_other; auto. intros ->. assert (own h = t) by eauto. apply (Hn v). replace u with t by congruence. auto.
Qed.
Lemma mine_in : forall t h, mine recs own t h = true -> own h = t /\ In h slots.
Proof.
  intros t h H. apply andb_true_iff in H. destruct H as [H1 H2]. apply Nat.eqb_eq in H1. apply existsb_exists in H2. destruct H2 as [x [H2 E]]. apply Nat.eqb_eq in E. subst. auto.
Qed.
Lemma in_drop : forall h g x (l : list (nat * Z)), In (g, x) (filter (fun p => negb (Nat.eqb h (fst p))) l) <-> In (g, x) l /\ g <> h.
Proof. intros. rewrite filter_In. cbn [fst]. destruct (Nat.eqb_spec h g); cbn [negb]; intuition congruence. Qed.
Definition drop (a : hst) (h : nat) : hst := {| held := filter (fun p => negb (Nat.eqb h (fst p))) (held a); live := live a |}.

(** clear a hazard pointer *)
Lemma I_clear : forall P s a t h l', I P s a -> own h = t -> l' = pcs s t -> at_ l' = Idle ->
  I P (mkT (mem s) (upd (buf s) t (buf s t ++ [(HZ h, 0)])) (upd (pcs s) t l')) (drop a h).
Proof.
  intros P s a t h l' H Ho -> Hat.
  assert (Hpc : forall u, upd (pcs s) t (pcs s t) u = pcs s u) by (intros u; rewrite case_upd; destruct (Nat.eq_dec u t) as [->|]; auto).
  assert (Hc : forall j, cur (mkT (mem s) (upd (buf s) t (buf s t ++ [(HZ h, 0)])) (upd (pcs s) t (pcs s t))) j = cur s j).
  { intros j. unfold cur, view. cbn [mem buf]. destruct (wr j) as [u|]; auto. rewrite case_upd. destruct (Nat.eq_dec u t) as [->|]; auto. rewrite fwd_app. reflexivity. }
  destruct H. constructor; auto; cbn [mem buf pcs].
  - intros u j v X. apply In_push in X. destruct X as [X|[_ X]]; [eauto|discriminate].
  - intros j. rewrite Hc. auto.
  - intros j u. rewrite Hc. auto.
  - intros j u v X. rewrite Hc. apply In_push in X. destruct X as [X|[_ X]]; [eauto|discriminate].
  - intros u. rewrite Hpc. auto.
  - intros u. rewrite Hpc. auto.
  - intros u. rewrite Hpc. auto.
  - intros u. rewrite Hpc. auto.
  - intros u g v X. apply In_push in X. destruct X as [X|[-> X]]; [eauto|]. injection X. congruence.
  - intros g x X. apply in_drop in X. destruct X as [X Hn]. destruct (i_held0 g x X) as [K1 [K2 [K3 K4]]]. split; auto. split; auto. split; auto.
    intros u v Y. apply In_push in Y. destruct Y as [Y|[_ Y]]; [eapply K4; eauto|]. injection Y. congruence.
  - intros u. rewrite Hpc. destruct (Nat.eq_dec u t) as [->|Hn]; [unfold pc_ok; rewrite Hat; exact Logic.I|].
    apply pc_mono with (s := s) (a := a); auto.
    + intros g Hg Hnb. cbn [mem buf]. split; auto. intros v. rewrite upd_other by auto. auto.
    + intros g x _ X. apply in_drop in X. tauto.
Qed.

(** publish a hazard pointer *)
Lemma I_set : forall P s a t h j p l', I P s a -> buf s t = [] -> own h = t -> In h slots -> p <> 0 -> l' = to (pcs s t) (H3 h j p) ->
  I P (mkT (setm (mem s) (HZ h) p) (buf s) (upd (pcs s) t l')) (drop a h).
Proof.
  intros P s a t h j p l' H Eb Ho Hs Hp ->.
  assert (Hpc : forall (A : Type) (g : thr -> A) u, g (to (pcs s t) (H3 h j p)) = g (pcs s t) -> g (upd (pcs s) t (to (pcs s t) (H3 h j p)) u) = g (pcs s u)).
  { intros A g u E. rewrite case_upd; destruct (Nat.eq_dec u t) as [->|]; auto. }
  assert (Hc : forall i, cur (mkT (setm (mem s) (HZ h) p) (buf s) (upd (pcs s) t (to (pcs s t) (H3 h j p)))) i = cur s i) by (intros i; reflexivity).
  destruct H. constructor; auto; cbn [mem buf pcs].
  - intros u. rewrite (Hpc _ got) by auto. auto.
  - intros u. rewrite (Hpc _ gotp) by auto. auto.
  - intros u. rewrite (Hpc _ pend) by auto. auto.
  - intros u. rewrite (Hpc _ pend) by auto. auto.
  - intros g x X. apply in_drop in X. destruct X as [X Hn]. destruct (i_held0 g x X) as [K1 [K2 [K3 K4]]]. split; auto. split; auto. split; auto.
    rewrite setm_other; auto. unfold HZ. congruence.
  - intros u. rewrite case_upd. destruct (Nat.eq_dec u t) as [->|Hn].
    + cbn. rewrite setm_same, Eb. split; auto.
    + apply pc_mono with (s := s) (a := a); auto.
      * intros g Hg Hnb. cbn [mem buf]. split; auto. apply setm_other. unfold HZ. congruence.
      * intros g x _ X. apply in_drop in X. tauto.
Qed.

(** a reference is obtained *)
Lemma I_ref : forall P s a t h j p, I P s a -> at_ (pcs s t) = H3 h j p -> view s t (Dat j) = p ->
  In p (live a) /\ I P (next s t (to (pcs s t) Idle)) {| held := (h, p) :: held a; live := live a |}.
Proof.
  intros P s a t h j p H Hat Ev. pose proof (i_pc _ _ _ H t) as Hp. unfold pc_ok in Hp. rewrite Hat in Hp. destruct Hp as [H1 [H2 [H3 [H4 H5]]]].
  assert (Hl : (exists i, P p = InLoc i) \/ (exists u, P p = GotP u)) by (rewrite <- Ev; eapply load_dat; eauto; congruence).
  split.
  - apply (i_live _ _ _ H). destruct Hl as [[i ->]|[u ->]]; discriminate.
  - assert (K : I P (next s t (to (pcs s t) Idle)) a) by (apply I_quiet; auto; exact Logic.I).
    assert (Hpd : forall u x, In x (pend (pcs s u)) -> x <> p).
    { intros u x X ->. apply (i_pend _ _ _ H) in X. destruct Hl as [[i E]|[w E]]; congruence. }
    pose proof (i_pc _ _ _ K) as Kp. pose proof (i_hbuf _ _ _ H) as Hb. destruct K. constructor; auto.
    + intros g x [X|X]; auto. injection X as <- <-. split; auto. split; auto. split; auto. intros u v X. specialize (Hb _ _ _ X). apply (H5 v). replace t with u by congruence. auto.
    + intros u. apply pc_mono with (s := next s t (to (pcs s t) Idle)) (a := a); auto. intros g x X [Y|Y]; auto. exfalso. injection Y as _ E. apply (Hpd u x); auto.
      unfold next in X. cbn [pcs] in X. rewrite case_upd in X. destruct (Nat.eq_dec u t) as [->|]; auto.
Qed.

(** * Publishing and unlinking *)
Definition newp (P : Z -> place) (x : Z) (j : nat) (v : Z) (q : place) (y : Z) : place :=
  if y =? 0 then Nowhere else if y =? x then InLoc j else if y =? v then q else P y.
Definition alloc (a : hst) (x : Z) : hst := {| held := held a; live := obj x ++ live a |}.
Lemma accepts_al : forall a x, accepts hp_step a (al x) = Some (alloc a x).
Proof. intros [h l] x. unfold al, alloc, obj. destruct (x =? 0); reflexivity. Qed.

Lemma np_inv : forall P j x v q y p, newp P x j v q y = p -> p <> Nowhere -> (p = InLoc j /\ y = x \/ p = q /\ y = v /\ v <> 0 \/ P y = p) /\ y <> 0.
Proof.
  intros P j x v q y p. unfold newp. destruct (Z.eqb_spec y 0) as [->|]; [congruence|]. destruct (Z.eqb_spec y x) as [->|]; [intuition congruence|].
  destruct (Z.eqb_spec y v) as [->|]; intuition congruence.
Qed.

Section Move.
Variables (P : Z -> place) (s : st) (a : hst) (t j : nat) (x v : Z) (q : place).
Hypothesis H : I P s a.
Hypothesis Hx : x = 0 \/ P x = Nowhere.
Hypothesis Hv : v = cur s j.
Hypothesis Hq : q <> Nowhere.

Lemma np_keep : forall y, y <> 0 -> P y <> Nowhere -> P y <> InLoc j -> newp P x j v q y = P y.
Proof.
  intros y H0 H1 H2. unfold newp. destruct (Z.eqb_spec y 0); [congruence|]. destruct (Z.eqb_spec y x) as [->|]; [destruct Hx; congruence|].
  destruct (Z.eqb_spec y v) as [->|]; auto. exfalso. apply H2. rewrite Hv in *. apply (i_cur _ _ _ H). auto.
Qed.
Lemma np_v : v <> 0 -> newp P x j v q v = q.
Proof.
  intros H0. unfold newp. destruct (Z.eqb_spec v 0); [congruence|]. destruct (Z.eqb_spec v x) as [E|]; [|rewrite Z.eqb_refl; auto].
  exfalso. assert (P v = InLoc j) by (rewrite Hv in *; apply (i_cur _ _ _ H); auto). destruct Hx; congruence.
Qed.
Lemma np_x : x <> 0 -> newp P x j v q x = InLoc j.
Proof. intros H0. unfold newp. destruct (Z.eqb_spec x 0); [congruence|]. rewrite Z.eqb_refl. auto. Qed.
Lemma np_live : forall y, In y (live (alloc a x)) <-> newp P x j v q y <> Nowhere.
Proof.
  intros y. cbn. rewrite in_app_iff, in_obj, (i_live _ _ _ H). unfold newp. pose proof (i_0 _ _ _ H) as H0.
  destruct (Z.eqb_spec y 0) as [->|]; [intuition congruence|]. destruct (Z.eqb_spec y x) as [->|]; [intuition congruence|].
  destruct (Z.eqb_spec y v) as [->|]; [|tauto]. split; [auto|]. intros _. right. rewrite Hv in *. rewrite (i_cur _ _ _ H); congruence.
Qed.
(** what is somewhere else than in a pointer is not 0 *)
Lemma n0 : forall y p, P y = p -> p <> Nowhere -> y <> 0.
Proof. intros y p E Hp ->. rewrite (i_0 _ _ _ H) in E. congruence. Qed.
Lemma np_eq : forall y p, P y = p -> p <> Nowhere -> p <> InLoc j -> newp P x j v q y = p.
Proof. intros y p E H1 H2. rewrite np_keep; try congruence. eapply n0; eauto. Qed.
End Move.

Lemma I_xchg : forall P s a t j x, I P s a -> buf s t = [] -> wr j = None -> at_ (pcs s t) = Idle -> x = 0 \/ P x = Nowhere ->
  let v := mem s (Dat j) in
  I (newp P x j v (Got t)) (mkT (setm (mem s) (Dat j) x) (buf s) (upd (pcs s) t (mkL Idle (pend (pcs s t)) (obj v ++ got (pcs s t)) (gotp (pcs s t))))) (alloc a x).
Proof.
  intros P s a t j x H Eb Ew Hat Hx v.
  assert (Hv : v = cur s j) by (unfold cur; rewrite Ew; auto).
  assert (Hc : forall p i, cur (mkT (setm (mem s) (Dat j) x) (buf s) p) i = if Nat.eq_dec i j then x else cur s i).
  { intros p i. unfold cur, view. cbn [mem buf]. destruct (Nat.eq_dec i j) as [->|Hn]; [rewrite Ew; apply setm_same|].
    destruct (wr i); rewrite setm_other by congruence; auto. }
  assert (Hk := np_eq P s a j x v (Got t) H Hx Hv).
  constructor; cbn [mem buf pcs].
  - apply np_live with s; auto. discriminate.
  - unfold newp. auto.
  - apply (i_own _ _ _ H).
  - intros i. rewrite Hc. destruct (Nat.eq_dec i j) as [->|Hn]; [apply np_x|]. intros X. apply Hk; try discriminate; [apply (i_cur _ _ _ H); auto|congruence].
  - intros i u Ei. rewrite Hc. destruct (Nat.eq_dec i j) as [->|Hn]; [congruence|]. rewrite setm_other by congruence.
    destruct (i_mem _ _ _ H i u Ei) as [K|[K|K]]; auto. right. right. apply Hk; auto; discriminate.
  - intros i u w X. rewrite Hc. assert (wr i = Some u) by (eapply (i_own _ _ _ H); eauto). destruct (Nat.eq_dec i j) as [->|Hn]; [congruence|].
    destruct (i_buf _ _ _ H i u w X) as [K|[K|K]]; auto. right. right. apply Hk; auto; discriminate.
  - intros u y. rewrite case_upd. destruct (Nat.eq_dec u t) as [->|Hn].
    + cbn [got]. rewrite in_app_iff, in_obj. intros [[-> X]|X]; [apply (np_v P s a); auto|]. apply Hk; try discriminate. apply (i_got _ _ _ H); auto.
    + intros X. apply Hk; try discriminate. apply (i_got _ _ _ H); auto.
  - intros u y. assert (E : In y (gotp (upd (pcs s) t (mkL Idle (pend (pcs s t)) (obj v ++ got (pcs s t)) (gotp (pcs s t))) u)) <-> In y (gotp (pcs s u))).
    { rewrite case_upd. destruct (Nat.eq_dec u t) as [->|Hn]; [cbn [gotp]|]; tauto. }
    rewrite E, (i_gotp _ _ _ H). split; [intros X; apply Hk; auto; discriminate|]. intros X. destruct (np_inv P j x v _ y _ X ltac:(discriminate)) as [[[X1 _]|[[X1 _]|X1]] _]; auto; discriminate.
  - intros u y X. apply Hk; try discriminate. apply (i_pend _ _ _ H). rewrite case_upd in X. destruct (Nat.eq_dec u t) as [->|Hn]; auto.
  - intros u. rewrite case_upd. destruct (Nat.eq_dec u t) as [->|Hn]; apply (i_nd _ _ _ H).
  - apply (i_hbuf _ _ _ H).
  - intros h y X. apply (i_held _ _ _ H) in X. rewrite setm_other by discriminate. auto.
  - intros u. rewrite case_upd. destruct (Nat.eq_dec u t) as [->|Hn]; [exact Logic.I|]. apply pc_mono with (s := s) (a := a); auto.
    + apply (i_pc _ _ _ H).
    + intros i Ei. rewrite Hc. destruct (Nat.eq_dec i j) as [->|]; [congruence|auto].
Qed.

Lemma I_store : forall P s a t j x v, I P s a -> at_ (pcs s t) = U2 j x v -> x = 0 \/ P x = Nowhere ->
  I (newp P x j v (GotP t)) (mkT (mem s) (upd (buf s) t (buf s t ++ [(Dat j, x)])) (upd (pcs s) t (mkL Idle (pend (pcs s t)) (got (pcs s t)) (obj v ++ gotp (pcs s t))))) (alloc a x).
Proof.
  intros P s a t j x v H Hat Hx. pose proof (i_pc _ _ _ H t) as Hp. unfold pc_ok in Hp. rewrite Hat in Hp. destruct Hp as [Ew Hv].
  assert (Hc : forall p i, cur (mkT (mem s) (upd (buf s) t (buf s t ++ [(Dat j, x)])) p) i = if Nat.eq_dec i j then x else cur s i).
  { intros p i. unfold cur, view. cbn [mem buf]. destruct (Nat.eq_dec i j) as [->|Hn]; [rewrite Ew, upd_same, fwd_app; simpl; rewrite Nat.eqb_refl; auto|].
    destruct (wr i) as [u|]; auto. rewrite case_upd. destruct (Nat.eq_dec u t) as [->|]; auto. rewrite fwd_app. simpl. destruct (Nat.eqb_spec j i); congruence. }
  assert (Hk := np_eq P s a j x v (GotP t) H Hx Hv).
  assert (Hnv := np_v P s a j x v (GotP t) H Hx Hv).
  constructor; cbn [mem buf pcs].
  - apply np_live with s; auto. discriminate.
  - unfold newp. auto.
  - intros u i w X. apply In_push in X. destruct X as [X|[-> X]]; [eapply (i_own _ _ _ H); eauto|]. injection X as -> _. auto.
  - intros i. rewrite Hc. destruct (Nat.eq_dec i j) as [->|Hn]; [apply np_x|]. intros X. apply Hk; try discriminate; [apply (i_cur _ _ _ H); auto|congruence].
  - intros i u Ei. rewrite Hc. destruct (i_mem _ _ _ H i u Ei) as [K|[K|K]]; auto.
    + destruct (Nat.eq_dec i j) as [->|]; auto. assert (u = t) as -> by congruence. destruct (Z.eq_dec v 0); [left; congruence|]. right. right. rewrite K, <- Hv. auto.
    + right. right. apply Hk; auto; discriminate.
  - intros i u w X. rewrite Hc. apply In_push in X. destruct X as [X|[-> X]].
    + destruct (i_buf _ _ _ H i u w X) as [K|[K|K]]; auto.
      * destruct (Nat.eq_dec i j) as [->|]; auto. assert (u = t) as -> by (pose proof (i_own _ _ _ H _ _ _ X); congruence).
        destruct (Z.eq_dec v 0); [left; congruence|]. right. right. rewrite K, <- Hv. auto.
      * right. right. apply Hk; auto; discriminate.
    + injection X as -> ->. destruct (Nat.eq_dec j j); [auto|congruence].
  - intros u y X. apply Hk; try discriminate. apply (i_got _ _ _ H). rewrite case_upd in X. destruct (Nat.eq_dec u t) as [->|Hn]; auto.
  - intros u y. rewrite case_upd. destruct (Nat.eq_dec u t) as [->|Hn].
    + cbn [gotp]. rewrite in_app_iff, in_obj, (i_gotp _ _ _ H). split.
      * intros [[-> X]|X]; [auto|apply Hk; auto; discriminate].
      * intros X. destruct (np_inv P j x v _ y _ X ltac:(discriminate)) as [[[X1 _]|[[_ X1]|X1]] _]; auto; discriminate.
    + rewrite (i_gotp _ _ _ H). split; [intros X; apply Hk; auto; discriminate|].
      intros X. destruct (np_inv P j x v _ y _ X ltac:(discriminate)) as [[[X1 _]|[[X1 _]|X1]] _]; auto; [discriminate|congruence].
  - intros u y X. apply Hk; try discriminate. apply (i_pend _ _ _ H). rewrite case_upd in X. destruct (Nat.eq_dec u t) as [->|Hn]; auto.
  - intros u. rewrite case_upd. destruct (Nat.eq_dec u t) as [->|Hn]; apply (i_nd _ _ _ H).
  - intros u h w X. apply In_push in X. destruct X as [X|[-> X]]; [eapply (i_hbuf _ _ _ H); eauto|discriminate].
  - intros h y X. apply (i_held _ _ _ H) in X. destruct X as [K1 [K2 [K3 K4]]]. split; auto. split; auto. split; auto. intros u w X. apply In_push in X.
    destruct X as [X|[_ X]]; [eapply K4; eauto|discriminate].
  - intros u. rewrite case_upd. destruct (Nat.eq_dec u t) as [->|Hn]; [exact Logic.I|]. apply pc_mono with (s := s) (a := a); auto.
    + apply (i_pc _ _ _ H).
    + intros h Ho Hb. cbn [mem buf]. split; auto. intros w. rewrite upd_other by auto. auto.
    + intros i Ei. rewrite Hc. destruct (Nat.eq_dec i j) as [->|]; [congruence|auto].
Qed.

(** a fence: what was unlinked by plain stores is out of reach *)
Definition fencep (P : Z -> place) (t : nat) (y : Z) : place := match P y with GotP u => if Nat.eqb u t then Got t else GotP u | p => p end.
Lemma I_fence : forall P s a t, I P s a -> buf s t = [] -> at_ (pcs s t) = Idle ->
  I (fencep P t) (next s t (mkL Idle (pend (pcs s t)) (gotp (pcs s t) ++ got (pcs s t)) [])) a.
Proof.
  intros P s a t H Eb Hat.
  assert (Hk : forall y p, P y = p -> (forall u, p = GotP u -> u <> t) -> fencep P t y = p).
  { intros y p E Hp. unfold fencep. rewrite E. destruct p; auto. destruct (Nat.eqb_spec t0 t) as [->|]; auto. exfalso. apply (Hp t); auto. }
  assert (Hm : forall j, wr j = Some t -> mem s (Dat j) = cur s j).
  { intros j E. unfold cur, view. rewrite E, Eb. reflexivity. }
  constructor; cbn [mem buf pcs next].
  - intros x. rewrite (i_live _ _ _ H). unfold fencep. destruct (P x); try tauto. destruct (Nat.eqb t0 t); split; discriminate.
  - apply Hk; [apply (i_0 _ _ _ H)|discriminate].
  - apply (i_own _ _ _ H).
  - intros j X. apply Hk; [apply (i_cur _ _ _ H); auto|discriminate].
  - intros j u E. change (cur (next s t (mkL Idle (pend (pcs s t)) (gotp (pcs s t) ++ got (pcs s t)) []))) with (cur s).
    destruct (Nat.eq_dec u t) as [->|Hn]; [right; left; apply Hm; auto|]. destruct (i_mem _ _ _ H j u E) as [K|[K|K]]; auto.
    right. right. apply Hk; auto. intros w X. congruence.
  - intros j u v X. change (cur (next s t (mkL Idle (pend (pcs s t)) (gotp (pcs s t) ++ got (pcs s t)) []))) with (cur s).
    destruct (Nat.eq_dec u t) as [->|Hn]; [rewrite Eb in X; destruct X|]. destruct (i_buf _ _ _ H j u v X) as [K|[K|K]]; auto.
    right. right. apply Hk; auto. intros w Y. congruence.
  - intros u x. rewrite case_upd. destruct (Nat.eq_dec u t) as [->|Hn]; cbn [got].
    + rewrite in_app_iff, (i_gotp _ _ _ H). intros [X|X]; [unfold fencep; rewrite X, Nat.eqb_refl; auto|].
      apply Hk; [apply (i_got _ _ _ H); auto|discriminate].
    + intros X. apply Hk; [apply (i_got _ _ _ H); auto|discriminate].
  - intros u x. rewrite case_upd. destruct (Nat.eq_dec u t) as [->|Hn]; cbn [gotp].
    + split; [intros []|]. unfold fencep. destruct (P x) eqn:E; try discriminate. destruct (Nat.eqb_spec t0 t); [discriminate|]. congruence.
    + rewrite (i_gotp _ _ _ H). split; [intros X; apply Hk; auto; intros w Y; congruence|].
      unfold fencep. destruct (P x) eqn:E; try discriminate. destruct (Nat.eqb_spec t0 t); [discriminate|]. congruence.
  - intros u x X. apply Hk; [|discriminate]. apply (i_pend _ _ _ H). rewrite case_upd in X. destruct (Nat.eq_dec u t) as [->|Hn]; auto.
  - intros u. rewrite case_upd. destruct (Nat.eq_dec u t) as [->|Hn]; apply (i_nd _ _ _ H).
  - apply (i_hbuf _ _ _ H).
  - apply (i_held _ _ _ H).
  - intros u. rewrite case_upd. destruct (Nat.eq_dec u t) as [->|Hn]; [exact Logic.I|]. exact (i_pc _ _ _ H u).
Qed.

(** hand an object to the pending list; destroy it *)
Lemma I_retire : forall P s a t x, I P s a -> at_ (pcs s t) = Idle -> In x (got (pcs s t)) ->
  I (ovr P x (Pend t)) (next s t (mkL Idle (x :: pend (pcs s t)) (remove Z.eq_dec x (got (pcs s t))) (remove Z.eq_dec x (gotp (pcs s t))))) a.
Proof.
  intros P s a t x H Hat Hg. apply (i_got _ _ _ H) in Hg.
  assert (Hk : forall y p, P y = p -> p <> Got t -> ovr P x (Pend t) y = p).
  { intros y p E Hp. rewrite ovr_other; auto. congruence. }
  constructor; cbn [mem buf pcs next].
  - intros y. rewrite (i_live _ _ _ H). unfold ovr. destruct (Z.eqb_spec x y) as [<-|]; [|tauto]. rewrite Hg. split; discriminate.
  - apply Hk; [apply (i_0 _ _ _ H)|discriminate].
  - apply (i_own _ _ _ H).
  - intros j X. apply Hk; [apply (i_cur _ _ _ H); auto|discriminate].
  - intros j u E. destruct (i_mem _ _ _ H j u E) as [K|[K|K]]; auto. right. right. apply Hk; auto. discriminate.
  - intros j u v X. destruct (i_buf _ _ _ H j u v X) as [K|[K|K]]; auto. right. right. apply Hk; auto. discriminate.
  - intros u y. rewrite case_upd. destruct (Nat.eq_dec u t) as [->|Hn]; cbn [got]; intros X.
    + apply in_remove in X. destruct X as [X Y]. rewrite ovr_other by auto. apply (i_got _ _ _ H); auto.
    + apply Hk; [apply (i_got _ _ _ H); auto|congruence].
  - intros u y. assert (E : ovr P x (Pend t) y = GotP u <-> P y = GotP u).
    { unfold ovr. destruct (Z.eqb_spec x y) as [<-|]; [|tauto]. rewrite Hg. split; discriminate. }
    rewrite E, <- (i_gotp _ _ _ H), case_upd. destruct (Nat.eq_dec u t) as [->|Hn]; cbn [gotp]; [|tauto].
    split; intros X; [apply in_remove in X; tauto|apply in_in_remove; auto]. intros ->. apply (i_gotp _ _ _ H) in X. congruence.
  - intros u y. rewrite case_upd. destruct (Nat.eq_dec u t) as [->|Hn]; cbn [pend].
    + intros [<-|X]; [apply ovr_same|]. apply Hk; [apply (i_pend _ _ _ H); auto|discriminate].
    + intros X. apply Hk; [apply (i_pend _ _ _ H); auto|discriminate].
  - intros u. rewrite case_upd. destruct (Nat.eq_dec u t) as [->|Hn]; [|apply (i_nd _ _ _ H)]. cbn [pend]. constructor; [|apply (i_nd _ _ _ H)].
    intros X. apply (i_pend _ _ _ H) in X. congruence.
  - apply (i_hbuf _ _ _ H).
  - apply (i_held _ _ _ H).
  - intros u. rewrite case_upd. destruct (Nat.eq_dec u t) as [->|Hn]; [exact Logic.I|]. exact (i_pc _ _ _ H u).
Qed.

Lemma nodup_remove : forall (l : list Z) x, NoDup l -> NoDup (remove Z.eq_dec x l).
Proof.
  induction l as [|y l IH]; intros x H; simpl; [constructor|]. inversion H; subst. destruct (Z.eq_dec x y); auto. constructor; auto.
  intros X. apply in_remove in X. tauto.
Qed.
Lemma I_free : forall P s a t x c mk todo, I P s a -> at_ (pcs s t) = Sc c mk (x :: todo) [] ->
  accepts hp_step a [Free x] = Some {| held := held a; live := remove Z.eq_dec x (live a) |} /\
  I (ovr P x Nowhere) (next s t (mkL (Dp c mk todo) (remove Z.eq_dec x (pend (pcs s t))) (got (pcs s t)) (gotp (pcs s t)))) {| held := held a; live := remove Z.eq_dec x (live a) |}.
Proof.
  intros P s a t x c mk todo H Hat. pose proof (i_pc _ _ _ H t) as Hp. unfold pc_ok in Hp. rewrite Hat in Hp. destruct Hp as [H1 [H2 [H3 [H4 H5]]]].
  assert (Hx : P x = Pend t) by (apply (i_pend _ _ _ H); apply H2; left; auto).
  assert (Hh : forall h, ~ In (h, x) (held a)).
  { intros h X. destruct (i_held _ _ _ H h x X) as [Hs _]. destruct (H3 h Hs) as [K|K]; [destruct (H5 h K) as [[]|L]; auto|]. apply (K x); auto. left. auto. }
  assert (Hk : forall y p, P y = p -> p <> Pend t -> ovr P x Nowhere y = p).
  { intros y p E Hp. rewrite ovr_other; auto. congruence. }
  split.
  - cbn [accepts hp_step]. assert (E1 : mem_Z x (live a) = true) by (apply mem_Z_in; apply (i_live _ _ _ H); rewrite Hx; discriminate).
    assert (E2 : existsb (fun p => x =? snd p) (held a) = false).
    { destruct (existsb _ (held a)) eqn:E; auto. apply existsb_exists in E. destruct E as [[h y] [X Y]]. apply Z.eqb_eq in Y. cbn in Y. subst y. destruct (Hh h X). }
    rewrite E1, E2. reflexivity.
  - inversion H1; subst. constructor; cbn [mem buf pcs next held live].
    + intros y. unfold ovr. destruct (Z.eqb_spec x y) as [<-|]; [split; [intros X; apply in_remove in X; tauto|congruence]|].
      rewrite <- (i_live _ _ _ H). split; intros X; [apply in_remove in X; tauto|apply in_in_remove; auto].
    + apply Hk; [apply (i_0 _ _ _ H)|discriminate].
    + apply (i_own _ _ _ H).
    + intros j X. apply Hk; [apply (i_cur _ _ _ H); auto|discriminate].
    + intros j u E. destruct (i_mem _ _ _ H j u E) as [K|[K|K]]; auto. right. right. apply Hk; auto. discriminate.
    + intros j u v X. destruct (i_buf _ _ _ H j u v X) as [K|[K|K]]; auto. right. right. apply Hk; auto. discriminate.
    + intros u y X. apply Hk; [|discriminate]. apply (i_got _ _ _ H). rewrite case_upd in X. destruct (Nat.eq_dec u t) as [->|Hn]; auto.
    + intros u y. assert (E : ovr P x Nowhere y = GotP u <-> P y = GotP u).
      { unfold ovr. destruct (Z.eqb_spec x y) as [<-|]; [|tauto]. rewrite Hx. split; discriminate. }
      rewrite E, <- (i_gotp _ _ _ H), case_upd. destruct (Nat.eq_dec u t) as [->|Hn]; cbn [gotp]; tauto.
    + intros u y. rewrite case_upd. destruct (Nat.eq_dec u t) as [->|Hn]; cbn [pend]; intros X.
      * apply in_remove in X. destruct X as [X Y]. rewrite ovr_other by auto. apply (i_pend _ _ _ H); auto.
      * apply Hk; [apply (i_pend _ _ _ H); auto|congruence].
    + intros u. rewrite case_upd. destruct (Nat.eq_dec u t) as [->|Hn]; [|apply (i_nd _ _ _ H)]. cbn [pend]. apply nodup_remove. apply (i_nd _ _ _ H).
    + apply (i_hbuf _ _ _ H).
    + apply (i_held _ _ _ H).
    + intros u. rewrite case_upd. destruct (Nat.eq_dec u t) as [->|Hn]; [|exact (i_pc _ _ _ H u)].
      cbn. split; auto. split.
      * intros y Y. apply in_in_remove; [congruence|]. apply H2. right. auto.
      * intros h Hs. destruct (H3 h Hs) as [K|K]; auto. right. intros y Y. apply K. right. auto.
Qed.

(** * All steps *)
Lemma hz_view : forall P s a t h x, I P s a -> In (h, x) (held a) -> view s t (HZ h) = x.
Proof. intros P s a t h x H X. destruct (i_held _ _ _ H h x X) as [_ [_ [E K]]]. rewrite <- E. apply fwd_none. auto. Qed.

Lemma I_step : forall P s a l s' e, I P s a -> step code arr s l = Some (s', e) -> (exists l', accepts env_step (live a) e = Some l') ->
  exists P' a', accepts hp_step a e = Some a' /\ accepts env_step (live a) e = Some (live a') /\ I P' s' a'.
Proof.
  intros P s a l s' e H Hs [l' Hl]. destruct l as [t ac|t]; cbn [step] in Hs.
  2: { destruct (buf s t) as [|[x v] r] eqn:Eb; [discriminate|]. injection Hs as <- <-. exists P, a. split; auto. split; auto. eapply I_flush; eauto. }
  unfold TsoHp_Model.code in Hs. pose proof (i_pc _ _ _ H t) as Hp. unfold pc_ok in Hp.
  assert (Hq : forall p', pc_ok s a t (to (pcs s t) p') -> exists P' a', accepts hp_step a [] = Some a' /\ accepts env_step (live a) [] = Some (live a') /\ I P' (next s t (to (pcs s t) p')) a').
  { intros p' X. exists P, a. split; auto. split; auto. apply I_quiet; auto. }
  assert (Hnew : forall x, (exists l', accepts env_step (live a) (al x) = Some l') -> (x = 0 \/ P x = Nowhere) /\ accepts env_step (live a) (al x) = Some (live (alloc a x))).
  { intros x [w X]. unfold al, obj in *. cbn. unfold obj. destruct (Z.eqb_spec x 0) as [|Hx]; [auto|]. cbn in *. destruct (Z.eqb_spec x 0); [congruence|].
    destruct (mem_Z x (live a)) eqn:E; [discriminate|]. split; auto. right. destruct (P x) eqn:EP; auto; exfalso;
    (assert (Y : In x (live a)) by (apply (i_live _ _ _ H); congruence)); apply mem_Z_in in Y; congruence. }
  assert (Hcn : forall c more, (forall h, In h slots -> In h (concat more) \/ forall x, In x (pend (pcs s t)) -> ~ In x c -> ~ In (h, x) (held a)) ->
     pc_ok s a t (to (pcs s t) (cnext c more (pend (pcs s t))))).
  { intros c more X. unfold cnext. destruct more as [|r more]; cbn.
    - split; [apply (i_nd _ _ _ H)|]. split; [apply incl_refl|]. exact X.
    - split; [apply incl_refl|]. intros h Hh. destruct (X h Hh) as [K|K]; auto. cbn in K. apply in_app_iff in K. tauto. }
  destruct (at_ (pcs s t)) eqn:Hat.
  - destruct ac.
    + destruct (mine recs own t h) eqn:Em; [|discriminate]. injection Hs as <- <-. apply mine_in in Em. apply Hq. exact Em.
    + destruct (mine recs own t h) eqn:Em; [|discriminate]. injection Hs as <- <-. apply mine_in in Em. exists P, (drop a h). split; auto. split; auto. apply I_clear; tauto.
    + destruct (wr j) eqn:Ew; [discriminate|]. destruct (buf s t) eqn:Eb; [|discriminate]. injection Hs as <- <-. destruct (Hnew x) as [Hx He]; [eauto|].
      eexists. exists (alloc a x). split; [apply accepts_al|]. split; auto. apply (I_xchg P); auto.
    + destruct (wr j) eqn:Ew; [|discriminate]. destruct (Nat.eqb_spec n t) as [->|]; [|discriminate]. injection Hs as <- <-. apply Hq. exact Ew.
    + destruct (buf s t) eqn:Eb; [|discriminate]. injection Hs as <- <-. exists (fencep P t), a. split; auto. split; auto. apply I_fence; auto.
    + destruct (mem_Z x (got (pcs s t)) || false && mem_Z x (gotp (pcs s t))) eqn:E; [|discriminate]. injection Hs as <- <-. rewrite orb_false_r in E. apply mem_Z_in in E.
      eexists. exists a. split; auto. split; auto. apply (I_retire P); auto.
    + injection Hs as <- <-. apply Hq. apply Hcn. auto.
    + discriminate.
  - destruct ac; try discriminate. injection Hs as <- <-. apply Hq. destruct (Z.eqb_spec (view s t (Dat j)) 0); [exact Logic.I|]. cbn. tauto.
  - destruct ac; try discriminate. destruct (buf s t) eqn:Eb; [|discriminate]. injection Hs as <- <-. destruct Hp as [H1 [H2 H3]]. exists P, (drop a h). split; auto. split; auto.
    eapply I_set; eauto.
  - destruct ac; try discriminate. injection Hs as <- <-. destruct (Z.eqb_spec (view s t (Dat j)) p) as [Ev|]; [|apply Hq; exact Logic.I].
    destruct (I_ref P s a t h j p H Hat Ev) as [K1 K2]. exists P. eexists. split; [|split; [|exact K2]]; auto. cbn. apply mem_Z_in in K1. rewrite K1. auto.
  - destruct ac; try discriminate. injection Hs as <- <-. apply Hq. cbn. split; auto. unfold cur. rewrite Hp. auto.
  - destruct ac; try discriminate. injection Hs as <- <-. destruct (Hnew x) as [Hx He]; [eauto|]. eexists. exists (alloc a x). split; [apply accepts_al|]. split; auto. apply (I_store P); auto.
  - destruct ac; try discriminate. destruct Hp as [H1 H2]. destruct rest as [|h rest].
    + injection Hs as <- <-. apply Hq. apply Hcn. intros h Hh. destruct (H2 h Hh) as [[]|K]; auto.
    + destruct (Nat.leb cache (length c)).
      * injection Hs as <- <-. apply Hq. cbn. split; [apply (i_nd _ _ _ H)|]. split; [apply incl_refl|]. intros g Hg. rewrite in_app_iff. destruct (H2 g Hg) as [K|[K|K]]; auto.
      * injection Hs as <- <-. apply Hq. cbn. split; [intros g Hg; apply H1; right; auto|]. intros g Hg. destruct (H2 g Hg) as [[<-|K]|[K|K]]; auto.
        -- right. right. intros x X Y Z. apply Y. apply in_app_iff. left. apply in_obj. rewrite (hz_view P s a t h x H Z). split; auto. apply (i_held _ _ _ H h x Z).
        -- right. right. intros x X Y. apply K; auto. intros Z. apply Y. apply in_app_iff. auto.
  - destruct ac; try discriminate. destruct Hp as [H1 [H2 H3]]. destruct todo as [|x todo]; [injection Hs as <- <-; apply Hq; exact Logic.I|].
    destruct (mem_Z x c) eqn:E; injection Hs as <- <-; apply Hq; cbn.
    + inversion H1; subst. split; auto. split; [intros y Y; apply H2; right; auto|]. intros h Hh. destruct (H3 h Hh) as [K|K]; auto. right. intros y Y. apply K. right. auto.
    + split; auto. split; auto. split; auto. split; [intros X; apply mem_Z_in in X; congruence|auto].
  - destruct ac; try discriminate. destruct Hp as [H1 [H2 [H3 H4]]]. destruct todo as [|x todo]; [discriminate|]. destruct rest as [|h rest].
    + injection Hs as <- <-. destruct (I_free P s a t x c mk todo H Hat) as [K1 K2]. eexists. eexists. split; [exact K1|]. split; [|exact K2]. reflexivity.
    + injection Hs as <- <-. apply Hq. destruct H4 as [H4 H5]. destruct (Z.eqb_spec (view s t (HZ h)) x) as [Ev|Ev]; cbn.
      * inversion H1; subst. split; auto. split; [intros y Y; apply H2; right; auto|]. intros g Hg. destruct (H3 g Hg) as [K|K]; auto. right. intros y Y. apply K. right. auto.
      * split; auto. split; auto. split; auto. split; auto. intros g Hg. destruct (H5 g Hg) as [[<-|K]|K]; auto. right. intros X. apply Ev. eapply hz_view; eauto.
Qed.

Lemma hp_all : forall ls s log, run (step code arr) init ls = Some (s, log) -> fresh log -> hp_legal log.
Proof.
  intros ls s log H Hf.
  assert (K : fresh log -> exists P a, accepts hp_step {| held := []; live := [] |} log = Some a /\ accepts env_step [] log = Some (live a) /\ I P s a).
  { eapply (run_inv (step code arr) (fun s log => fresh log -> exists P a, accepts hp_step {| held := []; live := [] |} log = Some a /\ accepts env_step [] log = Some (live a) /\ I P s a)); [| |exact H].
    - intros _. exists (fun _ => Nowhere). eexists. split; [reflexivity|]. split; [reflexivity|].
      constructor; cbn; auto; try (intros; contradiction); try tauto; try (intros; split; [intros []|discriminate]).
      + intros j. unfold cur, view. cbn. destruct (wr j); congruence.
      + constructor.
    - intros s1 l1 l s2 e IH Hs [w Hw]. rewrite accepts_app in Hw. destruct (accepts env_step [] l1) as [w1|] eqn:E1; [|discriminate].
      destruct IH as [P [a [I1 [I2 I3]]]]; [exists w1; auto|]. injection I2 as ->. destruct (I_step P s1 a l s2 e I3 Hs) as [P' [a' [K1 [K2 K3]]]]; [eauto|].
      exists P', a'. split; [rewrite accepts_app, I1; auto|]. split; auto. rewrite accepts_app, E1. auto. }
  destruct (K Hf) as [P [a [K1 _]]]. exists a. auto.
Qed.
End Proof.
