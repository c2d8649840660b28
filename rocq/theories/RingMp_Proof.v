(** Proofs about the multi-producer multi-consumer ring. *)
From Coq Require Import NArith Arith List Bool Lia.
From Verif Require Import Lib LockProg Lin RingSp_Model RingSp_Proof RingMp_Model.
Import ListNotations.
Local Open Scope N_scope.
Local Arguments N.modulo : simpl never.
Local Arguments N.pow : simpl never.
Local Arguments N.add : simpl never.
Local Arguments N.sub : simpl never.
Local Arguments N.land : simpl never.
Local Arguments N.eqb : simpl never.
Local Arguments N.ltb : simpl never.
Local Arguments N.of_nat : simpl never.
Local Arguments Nat.eqb : simpl never.
Local Arguments Nat.ltb : simpl never.
Local Arguments upd : simpl never.

(** simulation with a hypothesis on the log that holds of its prefixes *)
Lemma sim_run_guard : forall (S L E A : Type) (step : S -> L -> option (S * list E)) (as_ : A -> E -> option A)
  (R : S -> A -> list E -> Prop) (G : list E -> Prop),
  (forall l1 l2, G (l1 ++ l2) -> G l1) ->
  (forall s a log l s' ev, R s a log -> G log -> step s l = Some (s', ev) -> exists a', accepts as_ a ev = Some a' /\ R s' a' (log ++ ev)) ->
  forall ls s a s' log log0, R s a log0 -> run step s ls = Some (s', log) -> G (log0 ++ log) ->
  exists a', accepts as_ a log = Some a' /\ R s' a' (log0 ++ log).
Proof.
  intros S L E A step as_ R G HG Hs. induction ls as [|l ls IH]; intros s a s' log log0 HR Hr Hg.
  - simpl in Hr. injection Hr as <- <-. exists a. rewrite app_nil_r. auto.
  - simpl in Hr. destruct (step s l) as [[s1 ev]|] eqn:Es; [|discriminate].
    destruct (run step s1 ls) as [[s2 log2]|] eqn:Er; [|discriminate]. injection Hr as <- <-.
    destruct (Hs _ _ _ _ _ _ HR (HG _ _ Hg) Es) as [a1 [Ha1 HR1]]. rewrite app_assoc in *.
    destruct (IH _ _ _ _ _ HR1 Er Hg) as [a2 [Ha2 HR2]].
    exists a2. split; auto. rewrite accepts_app, Ha1. auto.
Qed.

Lemma span_app : forall t a b, span t (a ++ b) = fold_left (span1 t) b (span t a).
Proof. intros. unfold span. apply fold_left_app. Qed.

Lemma short_prefix : forall a b, short_calls (a ++ b) -> short_calls a.
Proof. intros a b H t pre suf n E Hn. apply (H t pre (suf ++ b) n); auto. rewrite E, app_assoc. auto. Qed.
Lemma short_now : forall a t n, short_calls a -> span t a = Some n -> n < 2 ^ 32.
Proof. intros a t n H Hn. apply (H t a [] n); auto. rewrite app_nil_r. auto. Qed.

Section Ring.
Variable k : N.
Hypothesis Hk : k <= 31.
Let SZ := 2 ^ k.
Let cap := N.to_nat (SZ - 1).

(** the slot ticket a thread owns *)
Definition tick (p : mpc) : option N :=
  match p with
  | EWrite _ h _ | EWait _ h _ | EPub _ h _ | MGot h _ | KWait _ h | KPub _ h => Some h
  | _ => None
  end.

Record TK (thr : nat -> mpc) (H T : N) : Prop := {
  TK_u : forall t u x, tick (thr t) = Some x -> tick (thr u) = Some x -> t = u;
  TK_c : forall i, T <= i < H -> exists t, tick (thr t) = Some (w32 i);
  TK_r : forall t x, tick (thr t) = Some x -> exists g, x = w32 g /\ T <= g < H }.

Lemma TK_same : forall thr H T t p, TK thr H T -> tick p = tick (thr t) -> TK (upd thr t p) H T.
Proof.
  intros thr H T t p [U C R] E. assert (G : forall u, tick (upd thr t p u) = tick (thr u)).
  { intros u. destruct (Nat.eq_dec u t) as [->|n]; [rewrite upd_same; auto|rewrite upd_other; auto]. }
  constructor.
  - intros a b x. rewrite !G. apply U.
  - intros i Hi. destruct (C i Hi) as [a Ha]. exists a. rewrite G. auto.
  - intros a x. rewrite G. apply R.
Qed.

Lemma TK_gain : forall thr H T t p, TK thr H T -> tick (thr t) = None -> tick p = Some (w32 H) -> T <= H -> H + 1 - T <= SZ ->
  TK (upd thr t p) (H + 1) T.
Proof.
  intros thr H T t p [U C R] E E' L1 L2. pose proof (SZ_le k Hk) as HS. fold SZ in HS. pose proof pow31.
  assert (F : forall u, tick (thr u) <> Some (w32 H)).
  { intros u Hu. destruct (R u _ Hu) as [g [G1 G2]]. assert (g = H); [|lia]. apply (w32_inj k Hk); auto; lia. }
  constructor.
  - intros a b x Ha Hb. destruct (Nat.eq_dec a t) as [->|na], (Nat.eq_dec b t) as [->|nb]; auto.
    + rewrite upd_same in Ha. rewrite upd_other in Hb by auto. exfalso. apply (F b). congruence.
    + rewrite upd_same in Hb. rewrite upd_other in Ha by auto. exfalso. apply (F a). congruence.
    + rewrite upd_other in Ha, Hb by auto. eauto.
  - intros i Hi. destruct (N.eq_dec i H) as [->|n].
    + exists t. rewrite upd_same. auto.
    + destruct (C i ltac:(lia)) as [u Hu]. exists u. rewrite upd_other; auto. congruence.
  - intros u x Hu. destruct (Nat.eq_dec u t) as [->|n]; rewrite ?upd_same, ?upd_other in Hu by auto.
    + exists H. split; [congruence|lia].
    + destruct (R _ _ Hu) as [g [G1 G2]]. exists g. split; auto. lia.
Qed.

Lemma TK_lose : forall thr H T t p, TK thr H T -> tick (thr t) = Some (w32 T) -> tick p = None -> H - T <= SZ ->
  TK (upd thr t p) H (T + 1).
Proof.
  intros thr H T t p [U C R] E E' L2. pose proof (SZ_le k Hk) as HS. fold SZ in HS. pose proof pow31.
  constructor.
  - intros a b x Ha Hb. destruct (Nat.eq_dec a t) as [->|na], (Nat.eq_dec b t) as [->|nb]; auto.
    + rewrite upd_same in Ha. congruence.
    + rewrite upd_same in Hb. congruence.
    + rewrite upd_other in Ha, Hb by auto. eauto.
  - intros i Hi. destruct (C i ltac:(lia)) as [u Hu]. exists u. rewrite upd_other; auto.
    intros ->. rewrite E in Hu. injection Hu as Hu. assert (T = i); [|lia]. apply (w32_inj k Hk); auto; lia.
  - intros u x Hu. destruct (Nat.eq_dec u t) as [->|n]; rewrite ?upd_same, ?upd_other in Hu by auto; [congruence|].
    destruct (R _ _ Hu) as [g [G1 G2]]. exists g. split; auto.
    destruct (N.eq_dec g T) as [->|]; [|lia]. exfalso. apply n. apply (U u t x); auto. congruence.
Qed.

Definition age (sp : option N) (x y : N) : Prop := exists n, sp = Some n /\ x + y <= n.
Definition eo (t : nat) (o : mop) : Prop := match o with MEnq _ => True | MReserve u => u = t | _ => False end.

Definition TI (t : nat) (th : phase mop res) (look : nat) (lost : bool) (w : option nat) (sp : option N)
  (buf : N -> nat) (H T C : N) (p : mpc) : Prop :=
  match p with
  | MIdle => th = Idle
  | EHead o => th = Called o /\ eo t o /\ exists n, sp = Some n
  | ECons o h => th = Called o /\ eo t o /\ exists g c0, h = w32 g /\ g <= H /\ c0 <= C /\ c0 <= g /\ g <= c0 + (SZ - 1) /\ age sp (H - g) (C - c0)
  | ECas o h c => th = Called o /\ eo t o /\ exists g c0 gc, h = w32 g /\ g <= H /\ c0 <= C /\ age sp (H - g) (C - c0) /\
      c = w32 gc /\ gc <= C /\ gc <= g /\ g - gc < SZ - 1 /\ (g = H -> look = N.to_nat (g - gc))
  | ERe o h c => th = Called o /\ eo t o /\ exists g c0 gc, h = w32 g /\ g <= H /\ c0 <= C /\ age sp (H - g) (C - c0) /\
      c = w32 gc /\ gc <= H /\ (gc <= g -> gc + (SZ - 1) = g) /\ (g = H -> look = N.to_nat (g - gc))
  | EWrite v h c => th = Called (MEnq v) /\ exists g gc, h = w32 g /\ T <= g < H /\ c = w32 gc /\ gc <= g /\ g - gc < SZ - 1 /\ look = N.to_nat (g - gc)
  | EWait v h c => th = Called (MEnq v) /\ exists g gc, h = w32 g /\ T <= g < H /\ c = w32 gc /\ gc <= g /\ g - gc < SZ - 1 /\ look = N.to_nat (g - gc) /\
      buf (g mod SZ) = v
  | EPub v h c => th = Called (MEnq v) /\ exists g gc, h = w32 g /\ T <= g < H /\ c = w32 gc /\ gc <= g /\ g - gc < SZ - 1 /\ look = N.to_nat (g - gc) /\
      buf (g mod SZ) = v /\ g = T
  | MGot h w' => th = Idle /\ w = w' /\ exists g, h = w32 g /\ T <= g < H /\ (forall v, w' = Some v -> buf (g mod SZ) = v)
  | KWait v h => th = Called (MCommit t) /\ w = Some v /\ exists g, h = w32 g /\ T <= g < H /\ buf (g mod SZ) = v
  | KPub v h => th = Called (MCommit t) /\ w = Some v /\ exists g, h = w32 g /\ T <= g < H /\ buf (g mod SZ) = v /\ g = T
  | DHead b => th = Called (dop b) /\ exists n, sp = Some n
  | DTail b c => th = Called (dop b) /\ exists g h0, c = w32 g /\ g <= C /\ h0 <= H /\ h0 <= g + (SZ - 1) /\ age sp (H - h0) (C - g) /\ (g < C -> lost = true)
  | DCopy b c => th = Called (dop b) /\ exists g h0, c = w32 g /\ g <= C /\ h0 <= H /\ h0 <= g + (SZ - 1) /\ age sp (H - h0) (C - g) /\ (g < C -> lost = true) /\ g < T
  | DCas b c v => th = Called (dop b) /\ exists g h0, c = w32 g /\ g <= C /\ h0 <= H /\ h0 <= g + (SZ - 1) /\ age sp (H - h0) (C - g) /\ (g < C -> lost = true) /\ g < T /\
      (g = C -> buf (g mod SZ) = v)
  end.

Lemma TI_frame : forall t th look lost w sp buf H T C p lost' sp' buf' H' T' C',
  TI t th look lost w sp buf H T C p ->
  H <= H' -> C <= C' -> T <= T' -> (lost = true -> lost' = true) -> (C < C' -> lost' = true) ->
  (forall n, sp = Some n -> exists n', sp' = Some n' /\ n + (H' - H) + (C' - C) <= n') ->
  (forall g, tick p = Some (w32 g) -> T <= g < H -> T' <= g /\ buf' (g mod SZ) = buf (g mod SZ)) ->
  (C < T -> buf' (C mod SZ) = buf (C mod SZ)) ->
  TI t th look lost' w sp' buf' H' T' C' p.
Proof.
  intros t th look lost w sp buf H T C p lost' sp' buf' H' T' C' HT LH LC LT L1 L2 Hsp Htk Hb.
  assert (AG : forall x y x' y', x' <= x + (H' - H) -> y' <= y + (C' - C) -> age sp x y -> age sp' x' y').
  { intros x y x' y' Hx Hy [n [Hn Le]]. destruct (Hsp n Hn) as [n' [Hn' Le']]. exists n'. split; auto. lia. }
  destruct p; cbn [TI tick] in *.
  - auto.
  - destruct HT as [? [? [n Hn]]]. destruct (Hsp n Hn) as [n' [? _]]. eauto.
  - destruct HT as [? [? [g [c0 [? [? [? [? [? HA]]]]]]]]]. repeat split; auto. exists g, c0. repeat split; auto; try lia.
    revert HA. apply AG; lia.
  - destruct HT as [? [? [g [c0 [gc [? [? [? [HA [? [? [? [? Hl]]]]]]]]]]]]]. repeat split; auto. exists g, c0, gc. repeat split; auto; try lia.
    revert HA. apply AG; lia.
  - destruct HT as [? [? [g [c0 [gc [? [? [? [HA [? [? [? Hl]]]]]]]]]]]]. repeat split; auto. exists g, c0, gc. repeat split; auto; try lia.
    revert HA. apply AG; lia.
  - destruct HT as [? [g [gc [-> [? ?]]]]]. destruct (Htk g eq_refl) as [? ?]; auto. split; auto. exists g, gc. intuition lia.
  - destruct HT as [? [g [gc [-> [? HH]]]]]. destruct (Htk g eq_refl) as [? E]; auto. split; auto. exists g, gc. rewrite E. intuition lia.
  - destruct HT as [? [g [gc [-> [? HH]]]]]. destruct (Htk g eq_refl) as [? E]; auto. split; auto. exists g, gc. rewrite E. intuition lia.
  - destruct HT as [? [? [g [-> [? HH]]]]]. destruct (Htk g eq_refl) as [? E]; auto. split; auto. split; auto. exists g. rewrite E. intuition lia.
  - destruct HT as [? [? [g [-> [? HH]]]]]. destruct (Htk g eq_refl) as [? E]; auto. split; auto. split; auto. exists g. rewrite E. intuition lia.
  - destruct HT as [? [? [g [-> [? HH]]]]]. destruct (Htk g eq_refl) as [? E]; auto. split; auto. split; auto. exists g. rewrite E. intuition lia.
  - destruct HT as [? [n Hn]]. destruct (Hsp n Hn) as [n' [? _]]. eauto.
  - destruct HT as [? [g [h0 [? [? [? [? [HA Hl]]]]]]]]. split; auto. exists g, h0. repeat split; auto; try lia.
    + revert HA. apply AG; lia.
    + intros Hg. destruct (N.eq_dec g C); [apply L2; lia|apply L1, Hl; lia].
  - destruct HT as [? [g [h0 [? [? [? [? [HA [Hl ?]]]]]]]]]. split; auto. exists g, h0. repeat split; auto; try lia.
    + revert HA. apply AG; lia.
    + intros Hg. destruct (N.eq_dec g C); [apply L2; lia|apply L1, Hl; lia].
  - destruct HT as [? [g [h0 [? [? [? [? [HA [Hl [? Hv]]]]]]]]]]. split; auto. exists g, h0. repeat split; auto; try lia.
    + revert HA. apply AG; lia.
    + intros Hg. destruct (N.eq_dec g C); [apply L2; lia|apply L1, Hl; lia].
    + intros Hg. assert (g = C) by lia. subst C. rewrite Hb by lia. auto.
Qed.

Definition ring_ok (r : ring) (H T C : N) : Prop :=
  c_head r = w32 C /\ p_tail r = w32 T /\ p_head r = w32 H /\ mask r = N.ones k /\ size r = SZ /\ C <= T /\ T <= H /\ H - C <= SZ - 1.

Definition Q (s : mstate) (a : mabs) (log : list mev) (H T C : N) : Prop :=
  let f := fst (m_lin a) in
  ring_ok (mrg s) H T C /\ length (mq_q f) = N.to_nat (T - C) /\ mq_n f = N.to_nat (H - T) /\
  (forall i v, nth_error (mq_q f) i = Some v -> mbuf s ((C + N.of_nat i) mod SZ) = v) /\
  TK (mthr s) H T /\
  (forall t, TI t (snd (m_lin a) t) (m_look a t) (m_lost a t) (mq_w f t) (span t log) (mbuf s) H T C (mthr s t)).
Definition R (s : mstate) (a : mabs) (log : list mev) : Prop := exists H T C, Q s a log H T C.

(** accepting the usual event patterns *)
Lemma acc_call : forall f th lk ls t o, th t = Idle ->
  accepts (mring_step cap) {| m_lin := (f, th); m_look := lk; m_lost := ls |} [ML (Call t o)] =
  Some {| m_lin := (f, upd th t (Called o)); m_look := lk; m_lost := upd ls t false |}.
Proof. intros. cbn. rewrite H. reflexivity. Qed.

Definition lost_after (r : res) (ls : nat -> bool) : nat -> bool := match r with RV (Some _) => fun _ => true | _ => ls end.
Lemma acc_linret : forall f th lk ls t o r f', th t = Called o -> mfifo_seq f o r = Some f' ->
  match r with
  | RB false => lk t = cap
  | RV None => mq_q f = [] \/ ls t = true
  | _ => True
  end ->
  accepts (mring_step cap) {| m_lin := (f, th); m_look := lk; m_lost := ls |} [ML (Lin t r); ML (Ret t r)] =
  Some {| m_lin := (f', upd (upd th t (Done r)) t Idle); m_look := lk; m_lost := lost_after r ls |}.
Proof.
  intros f th lk ls t o r f' H1 H2 H3.
  assert (E : mring_step cap {| m_lin := (f, th); m_look := lk; m_lost := ls |} (ML (Lin t r)) =
    Some {| m_lin := (f', upd th t (Done r)); m_look := lk; m_lost := lost_after r ls |}).
  { unfold mring_step. cbn [m_lin lstep]. rewrite H1, H2. cbn [fst m_look m_lost]. destruct r as [[|]| |[|]]; auto.
    - rewrite H3, Nat.eqb_refl. reflexivity.
    - destruct H3 as [->| ->]; [reflexivity|rewrite orb_true_r; reflexivity]. }
  cbn [accepts]. rewrite E. unfold mring_step. cbn [m_lin lstep]. rewrite upd_same.
  destruct (res_dec r r); [|congruence]. reflexivity.
Qed.

Lemma acc_size : forall a t n, n = N.of_nat (m_look a t) -> accepts (mring_step cap) a [MSize t n] = Some a.
Proof. intros a t n ->. cbn. rewrite N.eqb_refl. auto. Qed.

Lemma size_word : forall r g gc, mask r = N.ones k -> gc <= g -> g - gc <= SZ - 1 -> N.land (sub32 (w32 g) (w32 gc)) (mask r) = g - gc.
Proof.
  intros r g gc Hm H1 H2. pose proof (SZ_le k Hk) as S1. pose proof (SZ_pos k Hk) as S2. pose proof pow31. fold SZ in S1, S2.
  rewrite Hm, (sub32_ok k Hk) by lia. rewrite N.land_ones. apply N.mod_small. fold SZ. lia.
Qed.

Lemma slot_word : forall r g, mask r = N.ones k -> slot r (w32 g) = g mod SZ.
Proof. intros r g Hm. unfold slot. rewrite Hm, N.land_ones. apply (mod_w32 k Hk). Qed.

Lemma mod_ne : forall a b, a <> b -> a - b < SZ -> b - a < SZ -> a mod SZ <> b mod SZ.
Proof.
  intros a b N1 H1 H2 E. apply N1. destruct (N.le_ge_cases a b).
  - apply (modSZ_inj k Hk); auto.
  - symmetry. apply (modSZ_inj k Hk); auto.
Qed.

Lemma sub32_neg : forall g gc, g < gc -> gc - g <= 2 ^ 31 -> 2 ^ 31 <= sub32 (w32 g) (w32 gc).
Proof.
  intros g gc H1 H2. pose proof pow31.
  assert (E : sub32 (w32 g) (w32 gc) = 2 ^ 32 - (gc - g)); [|lia].
  replace (w32 g) with (w32 (g + 2 ^ 32)).
  - rewrite (sub32_ok k Hk) by lia. lia.
  - unfold w32. replace (g + 2 ^ 32) with (g + 1 * 2 ^ 32) by lia. rewrite N.mod_add by discriminate. auto.
Qed.


(** a step of thread [t] that leaves the ring and the queue alone *)
Lemma Q_local : forall s f th lk ls log H T C t p f' th' lk' ls' evs,
  Q s {| m_lin := (f, th); m_look := lk; m_lost := ls |} log H T C ->
  mq_q f' = mq_q f -> mq_n f' = mq_n f -> tick p = tick (mthr s t) ->
  (forall u, u <> t -> mq_w f' u = mq_w f u /\ th' u = th u /\ lk' u = lk u /\ ls' u = ls u /\ fold_left (span1 u) evs (span u log) = span u log) ->
  TI t (th' t) (lk' t) (ls' t) (mq_w f' t) (span t (log ++ evs)) (mbuf s) H T C p ->
  R (mset s t p) {| m_lin := (f', th'); m_look := lk'; m_lost := ls' |} (log ++ evs).
Proof.
  intros s f th lk ls log H T C t p f' th' lk' ls' evs [K [RL [RN [RB_ [RK RT]]]]] E1 E2 E3 Ho Ht.
  cbn [m_lin m_look m_lost fst snd] in *. exists H, T, C. unfold Q, mset. cbn [m_lin m_look m_lost fst snd mrg mbuf mthr].
  rewrite E1, E2. split; auto. split; auto. split; auto. split; auto. split; [apply TK_same; auto|].
  intros u. destruct (Nat.eq_dec u t) as [->|n]; [rewrite upd_same; auto|].
  destruct (Ho u n) as [-> [-> [-> [-> Hsp]]]]. rewrite span_app, Hsp, upd_other by auto. apply RT.
Qed.

Ltac spo u t := let n0 := fresh in let Hn := fresh in intros n0 Hn; rewrite span_app; cbn [app fold_left span1];
  rewrite ?(proj2 (Nat.eqb_neq t u)) by congruence; rewrite Hn; eexists; split; [reflexivity|lia].
Ltac oth := let u := fresh "u" in let n := fresh "n" in intros u n; cbn [mq_w]; unfold lost_after; rewrite ?upd_other by auto;
  do 4 (split; [reflexivity|]); cbn [app fold_left span1];
  repeat match goal with |- context [Nat.eqb ?x u] => rewrite (proj2 (Nat.eqb_neq x u)) by congruence end; reflexivity.

Lemma span_self : forall t o log, span t (log ++ [ML (Call t o)]) = Some 0.
Proof. intros. rewrite span_app. cbn. rewrite Nat.eqb_refl. auto. Qed.

Lemma R_call : forall s a log t o s' evs, R s a log -> mstep s (MCall t o) = Some (s', evs) ->
  exists a', accepts (mring_step cap) a evs = Some a' /\ R s' a' (log ++ evs).
Proof.
  intros s [[f th] lk ls] log t o s' evs [H [T [C HQ]]] Hs.
  pose proof HQ as [K [RL [RN [RB_ [RK RT]]]]].
  cbn [m_lin m_look m_lost fst snd] in *.
  pose proof K as [K1 [K2 [K3 [K4 [K5 [K6 [K7 K8]]]]]]].
  pose proof (SZ_le k Hk) as S1. pose proof (SZ_pos k Hk) as S2. pose proof pow31 as S3. fold SZ in S1, S2.
  unfold mstep in Hs. pose proof (RT t) as Ht.
  destruct o as [v|t'|t' v|t'| |]; destruct (mthr s t) as [| | | | | | | |h w| | | | | |] eqn:Ep; try discriminate; cbn [TI] in Ht.
  - injection Hs as <- <-. rewrite acc_call by auto. eexists. split; [reflexivity|].
    eapply Q_local; [exact HQ|reflexivity|reflexivity|rewrite Ep; reflexivity|oth|]. rewrite span_self, !upd_same. cbn. eauto.
  - destruct (Nat.eqb_spec t t') as [<-|]; [|discriminate]. injection Hs as <- <-. rewrite acc_call by auto. eexists. split; [reflexivity|].
    eapply Q_local; [exact HQ|reflexivity|reflexivity|rewrite Ep; reflexivity|oth|]. rewrite span_self, !upd_same. cbn. eauto.
  - destruct (Nat.eqb_spec t t') as [<-|]; [|discriminate]. injection Hs as <- <-.
    destruct Ht as [Hth [Hw [g [-> [Hg Hv]]]]].
    change [ML (Call t (MWrite t v)); ML (Lin t RU); ML (Ret t RU)] with ([ML (Call t (MWrite t v))] ++ [ML (Lin t RU); ML (Ret t RU)]).
    rewrite accepts_app, acc_call by auto. erewrite acc_linret; [|apply upd_same|reflexivity|exact I].
    eexists. split; [reflexivity|]. exists H, T, C. unfold Q. cbn [m_lin m_look m_lost fst snd mrg mbuf mthr mq_q mq_n mq_w lost_after].
    rewrite (slot_word _ g K4). split; auto. split; auto. split; auto. split.
    { intros i u Hi. rewrite updN_other; auto. assert (i < length (mq_q f))%nat by (apply nth_error_Some; congruence).
      apply mod_ne; lia. }
    split; [apply TK_same; auto; rewrite Ep; auto|].
    intros u. destruct (Nat.eq_dec u t) as [->|n].
    + rewrite !upd_same. cbn [TI]. split; auto. split; auto. exists g. split; auto. split; auto.
      intros x [= <-]. apply updN_same.
    + rewrite !upd_other by auto. apply (TI_frame _ _ _ (ls u) _ (span u log) (mbuf s) H T C); auto; try lia; try (intros; lia).
      * spo u t.
      * intros g' Hu Hg'. split; [lia|]. apply updN_other. apply mod_ne; try lia. intros ->.
        apply n. apply (TK_u _ _ _ RK u t (w32 g)); auto. rewrite Ep. auto.
      * intros. apply updN_other. apply mod_ne; lia.
  - destruct w; [|discriminate]. destruct (Nat.eqb_spec t t') as [<-|]; [|discriminate]. injection Hs as <- <-.
    destruct Ht as [Hth [Hw [g [-> [Hg Hv]]]]]. rewrite acc_call by auto. eexists. split; [reflexivity|].
    eapply Q_local; [exact HQ|reflexivity|reflexivity|rewrite Ep; reflexivity|oth|]. rewrite !upd_same. cbn [TI]. split; auto. split; auto. eauto.
  - injection Hs as <- <-. rewrite acc_call by auto. eexists. split; [reflexivity|].
    eapply Q_local; [exact HQ|reflexivity|reflexivity|rewrite Ep; reflexivity|oth|]. rewrite span_self, !upd_same. cbn. eauto.
  - injection Hs as <- <-. rewrite acc_call by auto. eexists. split; [reflexivity|].
    eapply Q_local; [exact HQ|reflexivity|reflexivity|rewrite Ep; reflexivity|oth|]. rewrite span_self, !upd_same. cbn. eauto.
Qed.

Lemma ones_k : N.ones k = SZ - 1.
Proof. rewrite N.ones_equiv. unfold SZ. lia. Qed.

(** publication of the oldest reserved slot *)
Lemma Q_pub : forall s f th lk ls log H T C t th' evs v,
  Q s {| m_lin := (f, th); m_look := lk; m_lost := ls |} log H T C ->
  tick (mthr s t) = Some (w32 T) -> T < H -> mbuf s (T mod SZ) = v ->
  (forall u, u <> t -> th' u = th u /\ fold_left (span1 u) evs (span u log) = span u log) -> th' t = Idle ->
  exists f', mpush f v = Some f' /\
  R {| mrg := set_t (mrg s) (w32 (T + 1)); mbuf := mbuf s; mthr := upd (mthr s) t MIdle |}
    {| m_lin := (f', th'); m_look := lk; m_lost := ls |} (log ++ evs).
Proof.
  intros s f th lk ls log H T C t th' evs v [K [RL [RN [RB_ [RK RT]]]]] Et Lt Hv Ho Hi.
  cbn [m_lin m_look m_lost fst snd] in *. destruct K as [K1 [K2 [K3 [K4 [K5 [K6 [K7 K8]]]]]]].
  unfold mpush. destruct (mq_n f) as [|n'] eqn:En; [lia|]. eexists. split; [reflexivity|].
  exists H, (T + 1), C. unfold Q. cbn [m_lin m_look m_lost fst snd mrg mbuf mthr mq_q mq_n mq_w].
  split; [repeat split; cbn; auto; lia|]. split; [rewrite app_length; cbn; lia|]. split; [lia|]. split.
  { intros i u Hu. destruct (Nat.lt_ge_cases i (length (mq_q f))).
    - rewrite nth_error_app1 in Hu by auto. auto.
    - rewrite nth_error_app2 in Hu by auto. destruct (i - length (mq_q f))%nat eqn:Z; simpl in Hu; [|destruct n; discriminate].
      injection Hu as <-. rewrite <- Hv. f_equal. f_equal. lia. }
  split; [apply TK_lose; auto; lia|].
  intros u. destruct (Nat.eq_dec u t) as [->|n]; [rewrite upd_same; auto|].
  destruct (Ho u n) as [-> Hsp]. rewrite span_app, Hsp, upd_other by auto.
  apply (TI_frame _ _ _ (ls u) _ (span u log) (mbuf s) H T C); auto; try lia; try (intros; lia).
  - intros n0 Hn. exists n0. split; auto. lia.
  - intros g Hu Hg. split; auto. destruct (N.eq_dec g T) as [->|]; [|lia]. exfalso. apply n.
    apply (TK_u _ _ _ RK u t (w32 T)); auto.
Qed.

Lemma R_step : forall s a log t s' evs, R s a log -> short_calls log -> mstep s (MStep t) = Some (s', evs) ->
  exists a', accepts (mring_step cap) a evs = Some a' /\ R s' a' (log ++ evs).
Proof.
  intros s [[f th] lk ls] log t s' evs [H [T [C HQ]]] Hsh Hs.
  pose proof HQ as [K [RL [RN [RB_ [RK RT]]]]].
  cbn [m_lin m_look m_lost fst snd] in *.
  pose proof K as [K1 [K2 [K3 [K4 [K5 [K6 [K7 K8]]]]]]].
  pose proof (SZ_le k Hk) as S1. pose proof (SZ_pos k Hk) as S2. pose proof pow31 as S3. fold SZ in S1, S2.
  assert (SN : forall x y, age (span t log) x y -> x + y < 2 ^ 32).
  { intros x y [n [Hn L]]. pose proof (short_now log t n Hsh Hn). lia. }
  unfold mstep in Hs. pose proof (RT t) as Ht.
  destruct (mthr s t) as [|o|o h|o h c|o h c|v h c|v h c|v h c|h w|v h|v h|b|b c|b c|b c v] eqn:Ep; try discriminate; cbn [TI] in Ht.
  - (* EHead *)
    injection Hs as <- <-. eexists. split; [reflexivity|].
    eapply Q_local; [exact HQ|reflexivity|reflexivity|rewrite Ep; reflexivity|oth|]. destruct Ht as [Hth [He [n Hn]]].
    rewrite app_nil_r. cbn [TI]. split; auto. split; auto. exists H, C. repeat split; auto; try lia. exists n. split; auto. lia.
  - (* ECons *)
    destruct Ht as [Hth [He [g [c0 [-> [G1 [G2 [G3 [G4 HA]]]]]]]]]. pose proof (SN _ _ HA) as B.
    assert (LK : g = H -> occupied f = N.to_nat (g - C)) by (intros ->; unfold occupied; rewrite RL, RN; lia).
    rewrite K1, K4, ones_k in Hs. destruct (N.ltb_spec (sub32 (w32 g) (w32 C)) (SZ - 1)) as [Lt|Ge].
    + injection Hs as <- <-. eexists. split; [reflexivity|]. cbn [m_lin fst].
      assert (Cg : C <= g). { destruct (N.le_gt_cases C g); auto. pose proof (sub32_neg g C ltac:(lia) ltac:(lia)). lia. }
      rewrite (sub32_ok k Hk) in Lt by lia.
      eapply Q_local; [exact HQ|reflexivity|reflexivity|rewrite Ep; reflexivity|oth|]. rewrite span_app, upd_same. cbn [fold_left span1 TI].
      split; auto. split; auto. exists g, c0, C. repeat split; auto; lia.
    + injection Hs as <- <-. eexists. split; [reflexivity|]. cbn [m_lin fst].
      eapply Q_local; [exact HQ|reflexivity|reflexivity|rewrite Ep; reflexivity|oth|]. rewrite span_app, upd_same. cbn [fold_left span1 TI].
      split; auto. split; auto. exists g, c0, C. repeat split; auto; try lia.
      intros Cg. rewrite (sub32_ok k Hk) in Ge by lia. lia.
  - (* ECas *)
    destruct Ht as [Hth [He [g [c0 [gc [-> [G1 [G2 [HA [-> [G3 [G4 [G5 G6]]]]]]]]]]]]]. pose proof (SN _ _ HA) as B.
    destruct (N.eqb_spec (p_head (mrg s)) (w32 g)) as [E|E].
    + rewrite K3 in E. symmetry in E. apply (w32_inj k Hk) in E; [|lia|lia]. subst g. rewrite w32_w32_1 in Hs.
      assert (OC : (occupied f < cap)%nat) by (unfold occupied, cap; rewrite RL, RN; lia).
      assert (RS : accepts (mring_step cap) {| m_lin := (f, th); m_look := lk; m_lost := ls |} [Resv t] =
        Some {| m_lin := ({| mq_q := mq_q f; mq_n := S (mq_n f); mq_w := mq_w f |}, th); m_look := lk; m_lost := ls |}).
      { cbn. destruct (Nat.ltb_spec (occupied f) cap); [reflexivity|lia]. }
      assert (OT : forall u evs1, u <> t -> (forall n, span u log = Some n -> exists n', span u (log ++ evs1) = Some n' /\ n + 1 <= n') ->
        TI u (th u) (lk u) (ls u) (mq_w f u) (span u (log ++ evs1)) (mbuf s) (H + 1) T C (mthr s u)).
      { intros u evs1 n Hn. apply (TI_frame _ _ _ (ls u) _ (span u log) (mbuf s) H T C); auto; try lia; try (intros; lia).
        intros n0 H0. destruct (Hn n0 H0) as [n' [-> Le]]. exists n'. split; auto. lia. }
      destruct o as [v|t'| | | |]; cbn [eo] in He; try contradiction.
      * injection Hs as <- <-. rewrite RS. eexists. split; [reflexivity|]. exists (H + 1), T, C. unfold Q.
        cbn [m_lin m_look m_lost fst snd mrg mbuf mthr mq_q mq_n mq_w].
        split; [repeat split; cbn; auto; lia|]. split; auto. split; [lia|]. split; auto.
        split; [apply TK_gain; auto; [rewrite Ep; auto|lia]|].
        intros u. destruct (Nat.eq_dec u t) as [->|n].
        { rewrite upd_same. cbn [TI]. split; auto. exists H, gc. repeat split; auto; lia. }
        rewrite upd_other by auto. apply OT; auto. intros n0 Hn. rewrite span_app, Hn. cbn. eexists. split; [reflexivity|lia].
      * subst t'. injection Hs as <- <-.
        change [Resv t; ML (Lin t (RB true)); ML (Ret t (RB true)); MSize t (N.land (sub32 (w32 H) (w32 gc)) (mask (mrg s)))]
          with ([Resv t] ++ [ML (Lin t (RB true)); ML (Ret t (RB true))] ++ [MSize t (N.land (sub32 (w32 H) (w32 gc)) (mask (mrg s)))]).
        rewrite accepts_app, RS. cbv beta iota. rewrite accepts_app. erewrite acc_linret; [|exact Hth|reflexivity|exact I]. cbv beta iota.
        rewrite acc_size; [|cbn [m_look]; rewrite (size_word _ H gc) by (auto; lia); rewrite G6; auto; lia].
        eexists. split; [reflexivity|]. exists (H + 1), T, C. unfold Q.
        cbn [m_lin m_look m_lost fst snd mrg mbuf mthr mq_q mq_n mq_w lost_after].
        split; [repeat split; cbn; auto; lia|]. split; auto. split; [lia|]. split; auto.
        split; [apply TK_gain; auto; [rewrite Ep; auto|lia]|].
        intros u. destruct (Nat.eq_dec u t) as [->|n].
        { rewrite !upd_same. cbn [TI]. split; auto. split; auto. exists H. repeat split; auto; try lia. discriminate. }
        rewrite !upd_other by auto. apply OT; auto. intros n0 Hn. rewrite span_app, Hn. cbn.
        rewrite (proj2 (Nat.eqb_neq t u)) by congruence. eexists. split; [reflexivity|lia].
    + injection Hs as <- <-. eexists. split; [reflexivity|].
      eapply Q_local; [exact HQ|reflexivity|reflexivity|rewrite Ep; reflexivity|oth|]. rewrite app_nil_r. cbn [TI].
      split; auto. split; auto. exists H, C. repeat split; auto; try lia.
      destruct HA as [n [Hn _]]. exists n. split; auto. lia.
  - (* ERe *)
    destruct Ht as [Hth [He [g [c0 [gc [-> [G1 [G2 [HA [-> [G3 [G4 G5]]]]]]]]]]]]. pose proof (SN _ _ HA) as B.
    destruct (N.eqb_spec (w32 g) (p_head (mrg s))) as [E|E].
    + rewrite K3 in E. apply (w32_inj k Hk) in E; [|lia|lia]. subst g. specialize (G4 G3). specialize (G5 eq_refl).
      injection Hs as <- <-.
      change [ML (Lin t (RB false)); ML (Ret t (RB false)); MSize t (N.land (sub32 (w32 H) (w32 gc)) (mask (mrg s)))]
          with ([ML (Lin t (RB false)); ML (Ret t (RB false))] ++ [MSize t (N.land (sub32 (w32 H) (w32 gc)) (mask (mrg s)))]).
      rewrite accepts_app. rewrite (acc_linret f th lk ls t o (RB false) f Hth); [|destruct o; cbn in He; try contradiction; auto|unfold cap; lia]. cbv beta iota.
      rewrite acc_size; [|cbn [m_look]; rewrite (size_word _ H gc) by (auto; lia); rewrite G5; auto; lia].
      eexists. split; [reflexivity|]. cbn [lost_after].
      eapply Q_local; [exact HQ|reflexivity|reflexivity|rewrite Ep; reflexivity|oth|]. rewrite upd_same. reflexivity.
    + injection Hs as <- <-. eexists. split; [reflexivity|].
      eapply Q_local; [exact HQ|reflexivity|reflexivity|rewrite Ep; reflexivity|oth|]. rewrite app_nil_r. cbn [TI].
      split; auto. split; auto. exists H, C. repeat split; auto; try lia.
      destruct HA as [n [Hn _]]. exists n. split; auto. lia.
  - (* EWrite *)
    destruct Ht as [Hth [g [gc [-> [Hg [-> [G1 [G2 G3]]]]]]]]. injection Hs as <- <-. eexists. split; [reflexivity|].
    exists H, T, C. unfold Q. cbn [m_lin m_look m_lost fst snd mrg mbuf mthr].
    rewrite (slot_word _ g K4), app_nil_r. split; auto. split; auto. split; auto. split.
    { intros i u Hi. rewrite updN_other; auto. assert (i < length (mq_q f))%nat by (apply nth_error_Some; congruence).
      apply mod_ne; lia. }
    split; [apply TK_same; auto; rewrite Ep; auto|].
    intros u. destruct (Nat.eq_dec u t) as [->|n].
    + rewrite !upd_same. cbn [TI]. split; auto. exists g, gc. do 6 (split; auto). apply updN_same.
    + rewrite !upd_other by auto. apply (TI_frame _ _ _ (ls u) _ (span u log) (mbuf s) H T C); auto; try lia; try (intros; lia).
      * intros n0 Hn. exists n0. split; auto. lia.
      * intros g' Hu Hg'. split; [lia|]. apply updN_other. apply mod_ne; try lia. intros ->.
        apply n. apply (TK_u _ _ _ RK u t (w32 g)); auto. rewrite Ep. auto.
      * intros. apply updN_other. apply mod_ne; lia.
  - (* EWait *)
    destruct Ht as [Hth [g [gc [-> [Hg [-> [G1 [G2 [G3 G4]]]]]]]]].
    destruct (N.eqb_spec (p_tail (mrg s)) (w32 g)) as [E|E].
    + injection Hs as <- <-. eexists. split; [reflexivity|].
      eapply Q_local; [exact HQ|reflexivity|reflexivity|rewrite Ep; reflexivity|oth|]. rewrite app_nil_r. cbn [TI].
      split; auto. exists g, gc. do 7 (split; auto). rewrite K2 in E. symmetry. apply (w32_inj k Hk); auto; lia.
    + injection Hs as <- <-. eexists. split; [reflexivity|]. rewrite app_nil_r. exists H, T, C. auto.
  - (* EPub *)
    destruct Ht as [Hth [g [gc [-> [Hg [-> [G1 [G2 [G3 [G4 ->]]]]]]]]]]. rewrite w32_w32_1 in Hs. injection Hs as <- <-.
    destruct (Q_pub s f th lk ls log H T C t (upd (upd th t (Done (RB true))) t Idle)
      [ML (Lin t (RB true)); ML (Ret t (RB true)); MSize t (N.land (sub32 (w32 T) (w32 gc)) (mask (mrg s)))] v HQ) as [f' [F1 F2]]; auto; try lia.
    { rewrite Ep. auto. }
    { intros u n. rewrite !upd_other by auto. split; auto. cbn. rewrite (proj2 (Nat.eqb_neq t u)) by congruence. auto. }
    { apply upd_same. }
    change [ML (Lin t (RB true)); ML (Ret t (RB true)); MSize t (N.land (sub32 (w32 T) (w32 gc)) (mask (mrg s)))]
      with ([ML (Lin t (RB true)); ML (Ret t (RB true))] ++ [MSize t (N.land (sub32 (w32 T) (w32 gc)) (mask (mrg s)))]) at 1.
    rewrite accepts_app. rewrite (acc_linret f th lk ls t (MEnq v) (RB true) f' Hth F1 I). cbv beta iota.
    rewrite acc_size; [|cbn [m_look]; rewrite (size_word _ T gc) by (auto; lia); rewrite G3; lia].
    eexists. split; [reflexivity|]. exact F2.
  - (* KWait *)
    destruct Ht as [Hth [Hw [g [-> [Hg G4]]]]].
    destruct (N.eqb_spec (p_tail (mrg s)) (w32 g)) as [E|E].
    + injection Hs as <- <-. eexists. split; [reflexivity|].
      eapply Q_local; [exact HQ|reflexivity|reflexivity|rewrite Ep; reflexivity|oth|]. rewrite app_nil_r. cbn [TI].
      split; auto. split; auto. exists g. do 3 (split; auto). rewrite K2 in E. symmetry. apply (w32_inj k Hk); auto; lia.
    + injection Hs as <- <-. eexists. split; [reflexivity|]. rewrite app_nil_r. exists H, T, C. auto.
  - (* KPub *)
    destruct Ht as [Hth [Hw [g [-> [Hg [G4 ->]]]]]]. rewrite w32_w32_1 in Hs. injection Hs as <- <-.
    destruct (Q_pub s f th lk ls log H T C t (upd (upd th t (Done RU)) t Idle) [ML (Lin t RU); ML (Ret t RU)] v HQ) as [f' [F1 F2]]; auto; try lia.
    { rewrite Ep. auto. }
    { intros u n. rewrite !upd_other by auto. split; auto. cbn. rewrite (proj2 (Nat.eqb_neq t u)) by congruence. auto. }
    { apply upd_same. }
    rewrite (acc_linret f th lk ls t (MCommit t) RU f' Hth); [|cbn; rewrite Hw; auto|exact I].
    eexists. split; [reflexivity|]. exact F2.
  - (* DHead *)
    injection Hs as <- <-. eexists. split; [reflexivity|].
    eapply Q_local; [exact HQ|reflexivity|reflexivity|rewrite Ep; reflexivity|oth|]. destruct Ht as [Hth [n Hn]].
    rewrite app_nil_r. cbn [TI]. split; auto. exists C, H. repeat split; auto; try lia. exists n. split; auto. lia.
  - (* DTail *)
    destruct Ht as [Hth [g [h0 [-> [G1 [G2 [G3 [HA G4]]]]]]]]. pose proof (SN _ _ HA) as B.
    destruct (N.eqb_spec (w32 g) (p_tail (mrg s))) as [E|E].
    + rewrite K2 in E. apply (w32_inj k Hk) in E; [|lia|lia]. subst g. assert (C = T) by lia. subst C.
      injection Hs as <- <-. assert (Q0 : mq_q f = []) by (apply length_zero_iff_nil; lia).
      rewrite (acc_linret f th lk ls t (dop b) (RV None) f Hth); [|destruct b; cbn; rewrite ?Q0; auto|auto].
      eexists. split; [reflexivity|]. cbn [lost_after].
      eapply Q_local; [exact HQ|reflexivity|reflexivity|rewrite Ep; reflexivity|oth|]. rewrite upd_same. reflexivity.
    + injection Hs as <- <-. eexists. split; [reflexivity|].
      eapply Q_local; [exact HQ|reflexivity|reflexivity|rewrite Ep; reflexivity|oth|]. rewrite app_nil_r. cbn [TI].
      split; auto. exists g, h0. do 6 (split; auto). destruct (N.eq_dec g T); [subst; congruence|lia].
  - (* DCopy *)
    destruct Ht as [Hth [g [h0 [-> [G1 [G2 [G3 [HA [G4 G5]]]]]]]]].
    injection Hs as <- <-. eexists. split; [reflexivity|].
    eapply Q_local; [exact HQ|reflexivity|reflexivity|rewrite Ep; reflexivity|oth|]. rewrite app_nil_r. cbn [TI].
    split; auto. exists g, h0. do 7 (split; auto). intros ->. rewrite (slot_word _ C K4). auto.
  - (* DCas *)
    destruct Ht as [Hth [g [h0 [-> [G1 [G2 [G3 [HA [G4 [G5 G6]]]]]]]]]]. pose proof (SN _ _ HA) as B.
    destruct (N.eqb_spec (c_head (mrg s)) (w32 g)) as [E|E].
    + rewrite K1 in E. symmetry in E. apply (w32_inj k Hk) in E; [|lia|lia]. subst g. rewrite w32_w32_1 in Hs. injection Hs as <- <-.
      specialize (G6 eq_refl). destruct (mq_q f) as [|x qq] eqn:Eq; [cbn in RL; lia|].
      assert (x = v). { pose proof (RB_ 0%nat x eq_refl) as Hx. rewrite N.add_0_r in Hx. congruence. } subst x.
      rewrite (acc_linret f th lk ls t (dop b) (RV (Some v)) {| mq_q := qq; mq_n := mq_n f; mq_w := mq_w f |} Hth);
        [|destruct b; cbn; rewrite Eq, Nat.eqb_refl; auto|exact I].
      eexists. split; [reflexivity|]. exists H, T, (C + 1). unfold Q. cbn [m_lin m_look m_lost fst snd mrg mbuf mthr mq_q mq_n mq_w lost_after].
      split; [repeat split; cbn; auto; lia|]. split; [cbn in RL; lia|]. split; [auto|]. split.
      { intros i u Hi. rewrite <- (RB_ (S i) u Hi). f_equal. f_equal. lia. }
      split; [apply TK_same; auto; rewrite Ep; auto|].
      intros u. destruct (Nat.eq_dec u t) as [->|n]; [rewrite !upd_same; reflexivity|].
      rewrite !upd_other by auto. apply (TI_frame _ _ _ (ls u) _ (span u log) (mbuf s) H T C); auto; try lia; try (intros; lia).
      intros n0 Hn. rewrite span_app, Hn. cbn. rewrite (proj2 (Nat.eqb_neq t u)) by congruence. eexists. split; [reflexivity|lia].
    + destruct b.
      * injection Hs as <- <-. rewrite (acc_linret f th lk ls t MTry (RV None) f Hth); [|auto|right; apply G4; destruct (N.eq_dec g C); [subst; congruence|lia]].
        eexists. split; [reflexivity|]. cbn [lost_after].
        eapply Q_local; [exact HQ|reflexivity|reflexivity|rewrite Ep; reflexivity|oth|]. rewrite upd_same. reflexivity.
      * injection Hs as <- <-. eexists. split; [reflexivity|].
        eapply Q_local; [exact HQ|reflexivity|reflexivity|rewrite Ep; reflexivity|oth|]. rewrite app_nil_r. cbn [TI].
        split; auto. exists C, H. repeat split; auto; try lia. destruct HA as [n [Hn _]]. exists n. split; auto. lia.
Qed.

Lemma R_init : R (minit k) mabs0 [].
Proof.
  pose proof (SZ_pos k Hk) as S2. fold SZ in S2. exists 0, 0, 0. unfold Q. cbn. split.
  - pose proof (mask_ones k Hk) as M. cbn in M. repeat split; cbn; auto; lia.
  - split; auto. split; auto. split; [intros i v Hi; destruct i; discriminate|]. split; auto.
    constructor; cbn; intros; try discriminate. lia.
Qed.

Lemma mring_run : forall ls s log, run mstep (minit k) ls = Some (s, log) -> short_calls log ->
  exists a, accepts (mring_step cap) mabs0 log = Some a /\ R s a log.
Proof.
  intros ls s log Hr Hs. apply (sim_run_guard _ _ _ _ mstep (mring_step cap) R short_calls short_prefix) with (ls := ls) (s := minit k) (log0 := []); auto.
  - intros s1 a log1 l s2 ev HR HG E. destruct l; [eapply R_call; eauto|eapply R_step; eauto].
  - apply R_init.
Qed.
End Ring.

Fixpoint mlin_log (log : list mev) : list (lev mop res) :=
  match log with [] => [] | ML e :: log => e :: mlin_log log | _ :: log => mlin_log log end.

(** ** A plain bounded FIFO *)
Definition bq := (list nat * (nat -> option nat))%type.
Definition bq0 : bq := ([], fun _ => None).
(** enqueue, reserve and trydequeue may fail spuriously here; when they may is in [mring_step] *)
Definition bq_seq (cap : nat) (f : bq) (o : mop) (r : res) : option bq :=
  let push v := if Nat.ltb (length (fst f)) cap then Some (fst f ++ [v], snd f) else None in
  match o, r with
  | MEnq v, RB true => push v
  | MReserve t, RB true => Some (fst f, upd (snd f) t None)
  | MEnq _, RB false | MReserve _, RB false | MTry, RV None => Some f
  | MWrite t v, RU => Some (fst f, upd (snd f) t (Some v))
  | MCommit t, RU => match snd f t with Some v => push v | None => None end
  | MDeq, RV None => match fst f with [] => Some f | _ => None end
  | MDeq, RV (Some v) | MTry, RV (Some v) =>
      match fst f with x :: q' => if Nat.eqb x v then Some (q', snd f) else None | [] => None end
  | _, _ => None
  end.

Lemma bq_push : forall cap f v f', mpush f v = Some f' -> (occupied f <= cap)%nat ->
  Nat.ltb (length (mq_q f)) cap = true /\ mq_q f' = mq_q f ++ [v] /\ mq_w f' = mq_w f /\ occupied f' = occupied f.
Proof.
  intros cap f v f' H Ho. unfold mpush, occupied in *. destruct (mq_n f) eqn:E; [discriminate|]. injection H as <-. cbn.
  rewrite app_length. cbn. split; [apply Nat.ltb_lt; lia|]. repeat split. lia.
Qed.

Lemma bq_sim : forall cap f o r f', mfifo_seq f o r = Some f' -> (occupied f <= cap)%nat ->
  bq_seq cap (mq_q f, mq_w f) o r = Some (mq_q f', mq_w f') /\
  (occupied f' + (match r with RV (Some _) => 1 | _ => 0 end) = occupied f)%nat.
Proof.
  intros cap f o r f' H Ho. unfold mfifo_seq in H. unfold bq_seq. cbn [fst snd].
  destruct o, r as [[|]| |[v0|]]; try discriminate; try (injection H as <-; cbn; split; auto; unfold occupied; cbn; lia).
  - destruct (bq_push cap f v f' H Ho) as [-> [-> [-> ->]]]. split; auto.
  - destruct (mq_w f t) eqn:E; [|discriminate]. destruct (bq_push cap f n f' H Ho) as [-> [-> [-> ->]]]. split; auto.
  - unfold occupied. destruct (mq_q f) as [|x q']; [discriminate|]. destruct (Nat.eqb x v0); [|discriminate]. injection H as <-. cbn. split; auto. lia.
  - destruct (mq_q f) eqn:E; [|discriminate]. injection H as <-. rewrite E. split; auto.
  - unfold occupied. destruct (mq_q f) as [|x q']; [discriminate|]. destruct (Nat.eqb x v0); [|discriminate]. injection H as <-. cbn. split; auto. lia.
Qed.

Definition resvs (log : list mev) : nat := length (filter (fun e => match e with Resv _ => true | _ => false end) log).
Definition deqs (log : list mev) : nat := length (filter (fun e => match e with ML (Lin _ (RV (Some _))) => true | _ => false end) log).

Lemma plain_lin : forall cap log a a', accepts (mring_step cap) a log = Some a' -> (occupied (fst (m_lin a)) <= cap)%nat ->
  accepts (lstep (bq_seq cap) res_dec) ((mq_q (fst (m_lin a)), mq_w (fst (m_lin a))), snd (m_lin a)) (mlin_log log) =
    Some ((mq_q (fst (m_lin a')), mq_w (fst (m_lin a'))), snd (m_lin a')) /\
  (occupied (fst (m_lin a')) <= cap)%nat /\ (occupied (fst (m_lin a)) + resvs log = occupied (fst (m_lin a')) + deqs log)%nat.
Proof.
  intros cap. induction log as [|e log IH]; intros a a' H Ho.
  - cbn in H. injection H as <-. cbn. auto.
  - cbn [accepts] in H. destruct (mring_step cap a e) as [a1|] eqn:E; [|discriminate].
    destruct a as [[f th] lk ls]. cbn [m_lin fst snd] in *.
    destruct e as [e|t|t|t n]; unfold mring_step in E; cbn [m_lin fst snd m_look m_lost] in E.
    + destruct (lstep mfifo_seq res_dec (f, th) e) as [[f1 th1]|] eqn:El; [|discriminate].
      assert (E1 : m_lin a1 = (f1, th1)) by (destruct (match e with Lin _ _ => _ | _ => _ end); [injection E as <-; auto|discriminate]). clear E.
      cbn [mlin_log accepts]. unfold lstep in El at 1. unfold lstep at 1.
      destruct e as [t o|t r|t r].
      * destruct (th t); try discriminate. injection El as <- <-. specialize (IH a1 a' H). rewrite E1 in IH. cbn [fst snd] in IH.
        destruct (IH Ho) as [I1 [I2 I3]]. split; auto.
      * destruct (th t) eqn:Et; try discriminate. destruct (mfifo_seq f o r) as [f2|] eqn:Ef; [|discriminate].
        injection El as <- <-. destruct (bq_sim cap f o r f2 Ef Ho) as [B1 B2]. rewrite B1.
        specialize (IH a1 a' H). rewrite E1 in IH. cbn [fst snd] in IH.
        destruct (IH ltac:(lia)) as [I1 [I2 I3]]. split; auto. split; auto. unfold resvs, deqs in *. destruct r as [| |[|]]; cbn; lia.
      * destruct (th t); try discriminate. destruct (res_dec r r0); try discriminate. injection El as <- <-.
        specialize (IH a1 a' H). rewrite E1 in IH. cbn [fst snd] in IH.
        destruct (IH Ho) as [I1 [I2 I3]]. split; auto.
    + destruct (Nat.ltb_spec (occupied f) cap) as [Lt|]; [|discriminate]. injection E as <-.
      specialize (IH _ _ H). cbn [m_lin fst snd mq_q mq_w] in IH. unfold occupied at 1 in IH. cbn [mq_q mq_n] in IH. unfold occupied in Lt.
      destruct (IH ltac:(lia)) as [I1 [I2 I3]]. split; [exact I1|]. split; auto. unfold occupied, resvs, deqs in *. cbn in *. lia.
    + injection E as <-. specialize (IH _ _ H). cbn [m_lin fst snd mq_q mq_w] in IH. destruct (IH Ho) as [I1 [I2 I3]]. split; [exact I1|]. split; auto.
    + destruct (n =? N.of_nat (lk t)); [|discriminate]. injection E as <-. specialize (IH _ _ H). cbn [m_lin fst snd mq_q mq_w] in IH.
      destruct (IH Ho) as [I1 [I2 I3]]. split; [exact I1|]. split; auto.
Qed.

Lemma mring_linearizable : forall k ls s log, k <= 31 -> run mstep (minit k) ls = Some (s, log) -> short_calls log ->
  lin_legal (bq_seq (N.to_nat (2 ^ k - 1))) res_dec bq0 (mlin_log log).
Proof.
  intros k ls s log Hk Hr Hs. destruct (mring_run k Hk ls s log Hr Hs) as [a [Ha _]].
  destruct (plain_lin _ _ _ _ Ha ltac:(cbn; lia)) as [H _]. eexists. exact H.
Qed.

(** ** Quiescent rings *)
Definition quiescent (s : mstate) : Prop := forall t, mthr s t = MIdle.

Lemma mring_quiescent : forall k ls s log, k <= 31 -> run mstep (minit k) ls = Some (s, log) -> short_calls log -> quiescent s ->
  exists a, accepts (mring_step (N.to_nat (2 ^ k - 1))) mabs0 log = Some a /\ mq_n (fst (m_lin a)) = 0%nat /\
    ck_ring_size (mrg s) = N.of_nat (length (mq_q (fst (m_lin a)))) /\ ck_ring_capacity (mrg s) = 2 ^ k /\
    ck_ring_repair (mrg s) = (mrg s, false).
Proof.
  intros k ls s log Hk Hr Hs Hq. destruct (mring_run k Hk ls s log Hr Hs) as [a [Ha HR]]. exists a. split; auto.
  destruct HR as [H [T [C [K [RL [RN [_ [RK _]]]]]]]]. pose proof K as [K1 [K2 [K3 [K4 [K5 [K6 [K7 K8]]]]]]].
  assert (H = T). { destruct (N.eq_dec H T); auto. destruct (TK_c _ _ _ RK T ltac:(lia)) as [t Ht]. rewrite Hq in Ht. discriminate. }
  subst H. split; [rewrite RN; lia|]. split.
  { rewrite RL. unfold ck_ring_size. rewrite K2, K1, (size_word k Hk) by (auto; lia). lia. }
  split; auto. unfold ck_ring_repair. rewrite K2, K3, N.eqb_refl. auto.
Qed.

Definition MV (k : N) (s : mstate) (log : list mev) : Prop :=
  size (mrg s) = 2 ^ k /\ p_head (mrg s) = w32 (N.of_nat (resvs log)) /\ c_head (mrg s) = w32 (N.of_nat (deqs log)).

Lemma cnts_app : forall a b, resvs (a ++ b) = (resvs a + resvs b)%nat /\ deqs (a ++ b) = (deqs a + deqs b)%nat.
Proof. intros. unfold resvs, deqs. rewrite !filter_app, !app_length. auto. Qed.

Lemma MV_step : forall k s log l s' evs, MV k s log -> mstep s l = Some (s', evs) -> MV k s' (log ++ evs).
Proof.
  intros k s log l s' evs [I1 [I2 I3]] Hs. unfold MV. destruct (cnts_app log evs) as [-> ->]. unfold mstep in Hs.
  destruct l as [t o|t].
  - destruct o, (mthr s t) as [| | | | | | | |h [w|]| | | | | |]; try discriminate; try destruct (Nat.eqb t t0); try discriminate;
      injection Hs as <- <-; cbn; rewrite ?Nat.add_0_r; auto.
  - destruct (mthr s t) as [|o|o h|o h c|o h c|v h c|v h c|v h c|h w|v h|v h|b|b c|b c|b c v]; try discriminate.
    + injection Hs as <- <-; cbn; rewrite ?Nat.add_0_r; auto.
    + destruct (_ <? _); injection Hs as <- <-; cbn; rewrite ?Nat.add_0_r; auto.
    + destruct (N.eqb_spec (p_head (mrg s)) h) as [<-|].
      * assert (E : w32 (p_head (mrg s) + 1) = w32 (N.of_nat (resvs log + 1))) by (rewrite I2, w32_w32_1; f_equal; lia).
        destruct o; injection Hs as <- <-; cbn; rewrite ?Nat.add_0_r, E; auto.
      * injection Hs as <- <-; cbn; rewrite ?Nat.add_0_r; auto.
    + destruct (_ =? _); injection Hs as <- <-; cbn; rewrite ?Nat.add_0_r; auto.
    + injection Hs as <- <-; cbn; rewrite ?Nat.add_0_r; auto.
    + destruct (_ =? _); injection Hs as <- <-; cbn; rewrite ?Nat.add_0_r; auto.
    + injection Hs as <- <-; cbn; rewrite ?Nat.add_0_r; auto.
    + destruct (_ =? _); injection Hs as <- <-; cbn; rewrite ?Nat.add_0_r; auto.
    + injection Hs as <- <-; cbn; rewrite ?Nat.add_0_r; auto.
    + injection Hs as <- <-; cbn; rewrite ?Nat.add_0_r; auto.
    + destruct (_ =? _); injection Hs as <- <-; cbn; rewrite ?Nat.add_0_r; auto.
    + injection Hs as <- <-; cbn; rewrite ?Nat.add_0_r; auto.
    + destruct (N.eqb_spec (c_head (mrg s)) c) as [<-|]; [|destruct b]; injection Hs as <- <-; cbn; rewrite ?Nat.add_0_r; auto.
      repeat split; auto. rewrite I3, w32_w32_1. f_equal. lia.
Qed.

Lemma mring_valid : forall k ls s log, k <= 31 -> run mstep (minit k) ls = Some (s, log) -> short_calls log ->
  N.of_nat (resvs log) < 2 ^ 32 -> ck_ring_valid (mrg s) = true.
Proof.
  intros k ls s log Hk Hr Hs Hb.
  assert (V : MV k s log). { revert Hr. apply (run_inv mstep (MV k)). { repeat split. } intros. eapply MV_step; eauto. }
  destruct V as [I1 [I2 I3]]. destruct (mring_run k Hk ls s log Hr Hs) as [a [Ha _]].
  destruct (plain_lin _ _ _ _ Ha ltac:(cbn; lia)) as [_ [P1 P2]]. cbn [mabs0 m_lin fst mfifo0] in P2. change (occupied mfifo0) with 0%nat in P2.
  pose proof (SZ_pos k Hk) as S2. pose proof (SZ_le k Hk) as S1. pose proof pow31.
  unfold ck_ring_valid. rewrite I1, I2, I3.
  assert (Hz : N.land (2 ^ k) (w32 (2 ^ k + (2 ^ 32 - 1))) = 0).
  { pose proof (mask_ones k Hk) as M. unfold ck_ring_init, mask in M. rewrite M. rewrite N.land_ones. apply N.mod_same. apply N.pow_nonzero. lia. }
  rewrite Hz, N.eqb_refl. cbn [negb].
  rewrite (sub32_ok k Hk) by lia. unfold w32. rewrite !N.mod_small by lia.
  destruct (N.ltb_spec (N.of_nat (resvs log)) (N.of_nat (deqs log))); [lia|].
  destruct (N.leb_spec (2 ^ k) (N.of_nat (resvs log) - N.of_nat (deqs log))); auto. lia.
Qed.

(** a single thread enqueuing and dequeuing in turn *)
Definition at_ (x y : N) (s : mstate) : Prop :=
  quiescent s /\ mrg s = {| c_head := w32 x; p_tail := w32 y; p_head := w32 y; size := 4; mask := 3 |}.
Definition reach (P : mstate -> Prop) : Prop := exists ls s log, run mstep (minit 2) ls = Some (s, log) /\ P s.
Definition qfun (s : mstate) (p : mpc) : Prop := mthr s 0%nat = p /\ forall t, t <> 0%nat -> mthr s t = MIdle.

Lemma reach_step : forall (P Q : mstate -> Prop) l, reach P -> (forall s, P s -> exists s' ev, mstep s l = Some (s', ev) /\ Q s') -> reach Q.
Proof.
  intros P Q l [ls [s [log [Hr HP]]]] H. destruct (H s HP) as [s' [ev [Hs HQ]]].
  exists (ls ++ [l]), s', (log ++ ev). split; auto. eapply run_app; eauto. apply run_last. auto.
Qed.

Definition rgx (x y h : N) : ring := {| c_head := w32 x; p_tail := w32 y; p_head := w32 h; size := 4; mask := 3 |}.
Definition st (r : ring) (p : mpc) (s : mstate) : Prop := mrg s = r /\ qfun s p.
Lemma st_upd : forall s p q b, qfun s p -> forall r, st r q {| mrg := r; mbuf := b; mthr := upd (mthr s) 0%nat q |}.
Proof. intros s p q b [H1 H2] r. split; auto. split; cbn; [apply upd_same|]. intros. rewrite upd_other; auto. Qed.

Ltac stp l := eapply (reach_step _ _ l); [eassumption|];
  let s := fresh "s" in let E := fresh "E" in let Hq := fresh "Hq" in
  intros s [E Hq]; unfold mstep; rewrite (proj1 Hq), ?E; cbn [rgx p_head c_head p_tail mask set_h set_c set_t size].

Lemma pump_enq : forall x, reach (st (rgx x x x) MIdle) -> reach (st (rgx x (x + 1) (x + 1)) MIdle).
Proof.
  intros x H0.
  assert (H1 : reach (st (rgx x x x) (EHead (MEnq 0)))).
  { stp (MCall 0 (MEnq 0)). eexists. eexists. split; [reflexivity|]. rewrite <- E. unfold mset. eapply st_upd; eauto. }
  assert (H2 : reach (st (rgx x x x) (ECons (MEnq 0) (w32 x)))).
  { stp (MStep 0). eexists. eexists. split; [reflexivity|]. rewrite <- E. unfold mset. eapply st_upd; eauto. }
  assert (H3 : reach (st (rgx x x x) (ECas (MEnq 0) (w32 x) (w32 x)))).
  { stp (MStep 0). rewrite (sub32_ok 0 ltac:(lia)) by lia. rewrite N.sub_diag. change (0 <? 3) with true. cbv iota. eexists. eexists. split; [reflexivity|].
    rewrite <- E. unfold mset. eapply st_upd; eauto. }
  assert (H4 : reach (st (rgx x x (x + 1)) (EWrite 0 (w32 x) (w32 x)))).
  { stp (MStep 0). rewrite N.eqb_refl. eexists. eexists. split; [reflexivity|]. rewrite w32_w32_1. eapply st_upd; eauto. }
  assert (H5 : reach (st (rgx x x (x + 1)) (EWait 0 (w32 x) (w32 x)))).
  { stp (MStep 0). eexists. eexists. split; [reflexivity|]. eapply st_upd; eauto. }
  assert (H6 : reach (st (rgx x x (x + 1)) (EPub 0 (w32 x) (w32 x)))).
  { stp (MStep 0). rewrite N.eqb_refl. eexists. eexists. split; [reflexivity|]. rewrite <- E. unfold mset. eapply st_upd; eauto. }
  stp (MStep 0). eexists. eexists. split; [reflexivity|]. rewrite w32_w32_1. eapply st_upd; eauto.
Qed.

Lemma pump_deq : forall x, reach (st (rgx x (x + 1) (x + 1)) MIdle) -> reach (st (rgx (x + 1) (x + 1) (x + 1)) MIdle).
Proof.
  intros x H0.
  assert (H1 : reach (st (rgx x (x + 1) (x + 1)) (DHead false))).
  { stp (MCall 0 MDeq). eexists. eexists. split; [reflexivity|]. rewrite <- E. unfold mset. eapply st_upd; eauto. }
  assert (H2 : reach (st (rgx x (x + 1) (x + 1)) (DTail false (w32 x)))).
  { stp (MStep 0). eexists. eexists. split; [reflexivity|]. rewrite <- E. unfold mset. eapply st_upd; eauto. }
  assert (H3 : reach (st (rgx x (x + 1) (x + 1)) (DCopy false (w32 x)))).
  { stp (MStep 0). destruct (N.eqb_spec (w32 x) (w32 (x + 1))) as [F|_].
    - apply (w32_inj 0 ltac:(lia)) in F; pose proof pow31; lia.
    - eexists. eexists. split; [reflexivity|]. rewrite <- E. unfold mset. eapply st_upd; eauto. }
  assert (H4 : exists v, reach (st (rgx x (x + 1) (x + 1)) (DCas false (w32 x) v))).
  { destruct H3 as [ls [s [log [Hr [E Hq]]]]]. exists (mbuf s (slot (mrg s) (w32 x))).
    exists (ls ++ [MStep 0]). eexists. exists (log ++ []). split; [eapply run_app; [eauto|]; apply run_last; unfold mstep; rewrite (proj1 Hq); reflexivity|].
    rewrite E. unfold mset. rewrite E. eapply st_upd; eauto. }
  destruct H4 as [v H4].
  stp (MStep 0). rewrite N.eqb_refl. eexists. eexists. split; [reflexivity|]. rewrite w32_w32_1. eapply st_upd; eauto.
Qed.

Lemma pump : forall n : nat, reach (st (rgx (N.of_nat n) (N.of_nat n) (N.of_nat n)) MIdle).
Proof.
  induction n as [|n IH].
  - exists [], (minit 2), []. split; auto. split; [reflexivity|split; auto].
  - rewrite Nnat.Nat2N.inj_succ, <- N.add_1_r. apply pump_deq, pump_enq. auto.
Qed.

Lemma mring_valid_wrap : exists ls s log, run mstep (minit 2) ls = Some (s, log) /\ quiescent s /\
  ck_ring_size (mrg s) = 1 /\ ck_ring_valid (mrg s) = false.
Proof.
  pose proof (pump_enq _ (pump (N.to_nat (2 ^ 32 - 1)))) as [ls [s [log [Hr [E [Q1 Q2]]]]]].
  rewrite Nnat.N2Nat.id in E. exists ls, s, log. split; auto. split.
  - intros t. destruct t; auto.
  - rewrite E. split; reflexivity.
Qed.

Lemma span_le : forall t log n, span t log = Some n -> n <= N.of_nat (length log).
Proof.
  intros t log. induction log as [|e log IH] using rev_ind; intros n H; [discriminate|].
  rewrite span_app in H. cbn [fold_left] in H. rewrite app_length. cbn [length]. unfold span1 in H.
  assert (G : forall o, span t log = o -> forall m, option_map N.succ o = Some m -> m <= N.of_nat (length log + 1)).
  { intros o E m. destruct o; [|discriminate]. intros [= <-]. specialize (IH _ E). lia. }
  destruct e as [[u o|u r|u r]|u|u|u x].
  - destruct (Nat.eqb u t); [injection H as <-; lia|]. specialize (IH _ H). lia.
  - destruct r as [| |[v|]]; try (specialize (IH _ H); lia). eapply G; eauto.
  - destruct (Nat.eqb u t); [discriminate|]. specialize (IH _ H). lia.
  - eapply G; eauto.
  - specialize (IH _ H). lia.
  - specialize (IH _ H). lia.
Qed.

Lemma short_small : forall log, N.of_nat (length log) < 2 ^ 32 -> short_calls log.
Proof.
  intros log H t pre suf n E Hn. apply span_le in Hn. subst. rewrite app_length in H. lia.
Qed.
