(** The rings with one producer or one consumer are simulated by the ring for many, with the same
    log. *)
From Coq Require Import NArith Arith List Bool Lia.
From Verif Require Import Lib Lin RingSp_Model RingSp_Proof RingMp_Model RingMp_Proof RingMix_Model.
Import ListNotations.
Local Open Scope N_scope.
Local Arguments N.modulo : simpl never.
Local Arguments N.pow : simpl never.
Local Arguments N.add : simpl never.
Local Arguments N.sub : simpl never.
Local Arguments N.land : simpl never.
Local Arguments N.eqb : simpl never.
Local Arguments N.ltb : simpl never.
Local Arguments upd : simpl never.
Local Arguments w32 : simpl never.

(** states equal up to the representation of functions *)
Definition meq (a b : mstate) : Prop := mrg a = mrg b /\ (forall i, mbuf a i = mbuf b i) /\ forall t, mthr a t = mthr b t.
Lemma meq_refl : forall a, meq a a. Proof. intros. split; auto. Qed.
Lemma meq_trans : forall a b c, meq a b -> meq b c -> meq a c.
Proof. intros a b c [A1 [A2 A3]] [B1 [B2 B3]]. split; [congruence|]. split; intros; [rewrite A2|rewrite A3]; auto. Qed.
Lemma upd_ext : forall {A} (f g : nat -> A) t v u, (forall x, f x = g x) -> upd f t v u = upd g t v u.
Proof. intros. unfold upd. destruct (Nat.eq_dec u t); auto. Qed.
Lemma updN_ext : forall {A} (f g : N -> A) t v u, (forall x, f x = g x) -> updN f t v u = updN g t v u.
Proof. intros. unfold updN. destruct (u =? t); auto. Qed.

Lemma mstep_meq : forall a b l a' ev, meq a b -> mstep a l = Some (a', ev) -> exists b', mstep b l = Some (b', ev) /\ meq a' b'.
Proof.
  intros a b l a' ev [E1 [E2 E3]] H.
  assert (G : forall r f g t p, (forall i, f i = g i) -> meq {| mrg := r; mbuf := f; mthr := upd (mthr a) t p |} {| mrg := r; mbuf := g; mthr := upd (mthr b) t p |}).
  { intros r f g t p F. split; [reflexivity|]. split; cbn; auto. intros. apply upd_ext. auto. }
  unfold mstep, mset in *. rewrite <- E1. destruct l as [t o|t].
  - rewrite <- E3. destruct o; destruct (mthr a t) as [| | | | | | | |h0 [w|]| | | | | |]; try discriminate; try destruct (Nat.eqb t _); try discriminate;
    assert (V' : forall (x y : mstate * list mev), Some x = Some y -> x = y) by congruence; apply V' in H; injection H as H1 H2; subst a' ev;
    (eexists; split; [reflexivity|]; apply G; auto); intros; apply updN_ext; auto.
  - rewrite <- E3. destruct (mthr a t) as [|o|o h|o h c|o h c| | | |h0 [w|]| | | | | |] eqn:P; try discriminate; try destruct o;
    repeat match type of H with context [if ?c then _ else _] => destruct c end;
    try (injection H as H1 H2; subst a' ev; rewrite <- ?E2; eexists; split; [reflexivity|]; (apply G; auto; intros; apply updN_ext; auto) || (split; [auto|split; cbn; auto])).
Qed.
Lemma run_meq : forall ls a b a' ev, meq a b -> run mstep a ls = Some (a', ev) -> exists b', run mstep b ls = Some (b', ev) /\ meq a' b'.
Proof.
  induction ls as [|l ls IH]; intros a b a' ev E H; cbn in *.
  - injection H as <- <-. eauto.
  - destruct (mstep a l) as [[a1 e1]|] eqn:S; [|discriminate]. destruct (run mstep a1 ls) as [[a2 e2]|] eqn:S2; [|discriminate]. injection H as <- <-.
    destruct (mstep_meq _ _ _ _ _ E S) as [b1 [T1 E1]]. destruct (IH _ _ _ _ E1 S2) as [b2 [T2 E2]]. rewrite T1, T2. eauto.
Qed.

(** ** The simulation *)
Definition busy (p : xpc) : bool := match p with XWrite _ _ _ | XPub _ _ _ | XGot _ => true | _ => false end.
Definition ab (r : ring) (p : xpc) : mpc :=
  match p with
  | XM p => p
  | XEnq o => EHead o
  | XWrite v prod c => EWrite v prod c
  | XPub v prod c => EWait v prod c
  | XGot w => MGot (p_tail r) w
  | XLoad cur => DHead false
  | XRead cur => DCopy false cur
  | XCpub v cur => DCas false cur v
  end.
Definition abr (sp : bool) (s : xst) : ring :=
  if sp then set_h (xrg s) (if busy (xthr s O) then w32 (p_tail (xrg s) + 1) else p_tail (xrg s)) else xrg s.
Definition abst (sp : bool) (s : xst) : mstate :=
  {| mrg := abr sp s; mbuf := xbuf s; mthr := fun t => ab (xrg s) (xthr s t) |}.

Definition consP (p : mpc) : Prop := match p with MIdle | DHead _ | DTail _ _ | DCopy _ _ | DCas _ _ _ => True | _ => False end.
Definition prodP (p : mpc) : Prop := match p with DHead _ | DTail _ _ | DCopy _ _ | DCas _ _ _ => False | _ => True end.
Definition pcI (sp sc : bool) (r : ring) (t : nat) (p : xpc) : Prop :=
  match p with
  | XM p => (sp = true -> consP p) /\ (sc = true -> prodP p)
  | XEnq o => sp = true /\ t = O /\ match o with MEnq _ => True | MReserve u => u = t | _ => False end
  | XWrite v prod c | XPub v prod c => sp = true /\ t = O /\ prod = p_tail r
  | XGot w => sp = true /\ t = O
  | XLoad cur | XRead cur | XCpub _ cur => sc = true /\ t = 1%nat /\ cur = c_head r
  end.
Definition XI (sp sc : bool) (s : xst) : Prop := forall t, pcI sp sc (xrg s) t (xthr s t).

Definition lthr (l : mlab) : nat := match l with MCall t _ => t | MStep t => t end.
Definition lok (sp sc : bool) (l : mlab) : Prop :=
  match l with MCall _ o => if is_deq o then sc = false else sp = false | _ => True end.

(** a thread whose cell and cursors are unchanged keeps its invariant *)
Lemma pcI_frame : forall sp sc r r' u p, pcI sp sc r u p -> (sp = true -> u = O -> p_tail r' = p_tail r) -> (sc = true -> u = 1%nat -> c_head r' = c_head r) ->
  pcI sp sc r' u p.
Proof.
  intros sp sc r r' u p H A B. destruct p; cbn in *; auto; destruct H as [H1 [H2 H3]]; repeat split; auto; rewrite ?A, ?B; auto.
Qed.
Lemma ab_frame : forall sp sc r r' u p, pcI sp sc r u p -> (sp = true -> u = O -> p_tail r' = p_tail r) -> ab r' p = ab r p.
Proof. intros sp sc r r' u p H A. destruct p; cbn in *; auto. destruct H. rewrite A; auto. Qed.

Lemma many_sim : forall sp sc s l s' ev, XI sp sc s -> lok sp sc l -> many s (lthr l) l = Some (s', ev) ->
  (exists m, mstep (abst sp s) l = Some (m, ev) /\ meq (abst sp s') m) /\ XI sp sc s'.
Proof.
  intros sp sc s l s' ev I L H. unfold many in H. destruct (xthr s (lthr l)) as [p| | | | | | |] eqn:P; try discriminate.
  pose proof (I (lthr l)) as It. rewrite P in It. cbn [pcI] in It. destruct It as [I1 I2].
  destruct (mstep (mview s) l) as [[m e]|] eqn:M; [|discriminate]. injection H as <- <-.
  (* the outcome of the step: own cell, ring and buffer *)
  assert (F : exists r' b' p', mrg m = r' /\ mbuf m = b' /\ mthr m (lthr l) = p' /\
     (sp = true -> consP p' /\ p_tail r' = p_tail (xrg s)) /\ (sc = true -> prodP p' /\ c_head r' = c_head (xrg s)) /\
     exists m1, mstep (abst sp s) l = Some (m1, e) /\ mbuf m1 = b' /\
       mrg m1 = (if sp then set_h r' (p_head (abr sp s)) else r') /\ (forall u, mthr m1 u = upd (mthr (abst sp s)) (lthr l) p' u)).
  { assert (G : forall u p', upd (mthr (abst sp s)) (lthr l) p' u = upd (mthr (abst sp s)) (lthr l) p' u) by reflexivity.
    unfold mstep, mset in M |- *. cbn [mview mrg mbuf mthr abst] in M |- *. unfold lthr in *.
    destruct l as [t o|t]; rewrite P in M |- *; cbn [ab].
    - cbn [lok] in L. destruct o; cbn [is_deq] in L; destruct p as [| | | | | | | |h0 [w0|]| | | | | |]; try discriminate; try destruct (Nat.eqb t _); try discriminate;
      injection M as <- <-; do 3 eexists; (split; [reflexivity|]); (split; [reflexivity|]); (split; [cbn [mthr]; apply upd_same|]); rewrite L;
      (split; [intro; try discriminate; cbn; auto|]); (split; [intro; try discriminate; cbn; auto|]);
      eexists; (split; [unfold abr; rewrite ?L; reflexivity|]); unfold abr; rewrite ?L; cbn; auto;
      destruct sp; auto.
    - assert (K : mask (abr sp s) = mask (xrg s) /\ c_head (abr sp s) = c_head (xrg s) /\ p_tail (abr sp s) = p_tail (xrg s)) by (unfold abr; destruct sp; cbn; auto).
      destruct K as [K1 [K2 K3]].
      destruct p as [|o|o h|o h c|o h c| | | |h0 [w0|]| | | | | |]; try discriminate; cbn [consP prodP] in I1, I2;
      (assert (NS : sp = false) by (destruct sp; auto; exfalso; auto)) || (assert (NC : sc = false) by (destruct sc; auto; exfalso; auto));
      try (rewrite NS in K1, K2, K3 |- *; cbn [abr] in K1, K2, K3 |- *; clear I1); try (rewrite NC; clear I2); unfold slot; rewrite ?K1, ?K2, ?K3.
      all: repeat match type of M with context [if ?c then _ else _] => destruct c eqn:? end; try destruct o.
      all: injection M as <- <-; do 3 eexists.
      all: split; [reflexivity|]. all: split; [reflexivity|].
      all: split; [cbn [mthr mview]; try apply upd_same; try (rewrite P; reflexivity)|].
      all: split; [intros X; try discriminate X; cbn; auto|]. all: split; [intros X; try discriminate X; cbn; auto|].
      all: eexists; split; [reflexivity|]. all: split; [reflexivity|].
      all: split; [cbn; unfold abr; destruct sp; try discriminate; reflexivity|].
      all: intros u; cbn; unfold upd; destruct (Nat.eq_dec u t); subst; rewrite ?P; auto. }
  destruct F as [r' [b' [p' [F1 [F2 [F3 [F4 [F5 [m1 [F6 [F7 [F8 F9]]]]]]]]]]]]. rewrite F1, F2, F3.
  split.
  - exists m1. split; [exact F6|]. unfold meq. cbn [abst mrg mbuf mthr].
    split; [|split].
    + rewrite F8. unfold abr. cbn [xrg xthr]. destruct sp; [|reflexivity]. destruct (F4 eq_refl) as [_ F4'].
      assert (B : busy (upd (xthr s) (lthr l) (XM p') O) = busy (xthr s O)).
      { unfold upd. destruct (Nat.eq_dec 0 (lthr l)) as [E|E]; auto. rewrite E, P. reflexivity. }
      rewrite B, F4'. reflexivity.
    + intros. rewrite F7. reflexivity.
    + intros u. rewrite F9. cbn [xthr xrg abst mthr]. unfold upd. destruct (Nat.eq_dec u (lthr l)); [reflexivity|].
      apply (ab_frame sp sc) with (u := u); [apply I|]. intros S _. apply F4, S.
  - intros u. cbn [xthr xrg]. unfold upd. destruct (Nat.eq_dec u (lthr l)) as [->|N].
    + cbn. split; [apply F4|apply F5].
    + eapply pcI_frame; [apply I| |]; intros S _; [apply F4, S|apply F5, S].
Qed.

Lemma full_lt : forall k r H T C, k <= 31 -> RingMp_Proof.ring_ok k r H T C -> full r (c_head r) (p_tail r) = negb (sub32 (p_tail r) (c_head r) <? mask r).
Proof.
  intros k r H T C Hk [K1 [K2 [K3 [K4 [K5 [K6 [K7 K8]]]]]]].
  rewrite (RingSp_Proof.full_ok k Hk r T C) by (repeat split; auto; lia).
  pose proof (RingSp_Proof.SZ_le k Hk) as S1. assert (S2 : 2 ^ 31 < 2 ^ 32) by reflexivity. pose proof (RingSp_Proof.SZ_pos k Hk) as S3.
  rewrite K1, K2, K4, (RingSp_Proof.sub32_ok k Hk) by lia. rewrite N.ones_equiv.
  destruct (N.eqb_spec (T - C) (2 ^ k - 1)), (N.ltb_spec (T - C) (N.pred (2 ^ k))); cbn; auto; lia.
Qed.

(** the goals left by the frame lemma for the stepping thread *)
Ltac fin P MEQ :=
  apply MEQ; cbn;
  [intros; try congruence; auto
  |try reflexivity
  |unfold abr; cbn; try match goal with |- context [if ?b then set_h _ _ else _] => destruct b end; cbn; rewrite ?upd_same; try (rewrite upd_other by discriminate); rewrite ?P; reflexivity
  |rewrite upd_same; unfold slot, abr; try match goal with |- context [if ?b then set_h _ _ else _] => destruct b end; reflexivity
  |intros; rewrite !upd_other by auto; auto].
Local Arguments abr : simpl never.
Lemma xsim_step : forall k sp sc s l s' ev, k <= 31 -> XI sp sc s -> (exists H T C, RingMp_Proof.ring_ok k (abr sp s) H T C) -> xstep sp sc s l = Some (s', ev) ->
  (exists ls m, run mstep (abst sp s) ls = Some (m, ev) /\ meq (abst sp s') m) /\ XI sp sc s'.
Proof.
  intros k sp sc s l s' ev Hk I [H [T [C K]]] E.
  assert (ONE : forall l s' ev, lok sp sc l -> many s (lthr l) l = Some (s', ev) -> (exists ls m, run mstep (abst sp s) ls = Some (m, ev) /\ meq (abst sp s') m) /\ XI sp sc s').
  { intros l0 s0 e0 L M. destruct (many_sim sp sc s l0 s0 e0 I L M) as [[m [M1 M2]] J]. split; auto.
    exists [l0], m. cbn. rewrite M1, app_nil_r. auto. }
  (* thread [t] moves to [p], ring [r'] *)
  assert (MEQ : forall t p r' b' m, (sp = true -> t <> O -> p_tail r' = p_tail (xrg s)) -> mbuf m = b' -> 
     mrg m = abr sp (mkx r' b' (upd (xthr s) t p)) -> mthr m t = ab r' p -> (forall u, u <> t -> mthr m u = ab (xrg s) (xthr s u)) ->
     meq (abst sp (mkx r' b' (upd (xthr s) t p))) m).
  { intros t p r' b' m A B M1 M2 M3. unfold meq. cbn [abst mrg mbuf mthr xrg xbuf xthr]. rewrite M1, B. split; [reflexivity|]. split; [reflexivity|].
    intros u. destruct (Nat.eq_dec u t) as [->|N]; [rewrite upd_same; auto|]. rewrite upd_other by auto. rewrite M3 by auto.
    apply (ab_frame sp sc) with (u := u); [apply I|]. intros S ->. auto. }
  assert (INV : forall t p r' b', pcI sp sc r' t p -> (sp = true -> t <> O -> p_tail r' = p_tail (xrg s)) -> (sc = true -> t <> 1%nat -> c_head r' = c_head (xrg s)) ->
     XI sp sc (mkx r' b' (upd (xthr s) t p))).
  { intros t p r' b' A B D u. cbn [xrg xthr]. destruct (Nat.eq_dec u t) as [->|N]; [rewrite upd_same; auto|]. rewrite upd_other by auto.
    eapply pcI_frame; [apply I| |]; intros; subst; auto. }
  unfold xstep in E. destruct l as [t o|t].
  - destruct (is_deq o) eqn:D.
    + destruct sc eqn:SC.
      * unfold sc_call in E. destruct (Nat.eqb_spec t 1) as [->|]; [|discriminate]. cbn [negb] in E.
        destruct o; try discriminate. destruct (xthr s 1) as [[]| | | | | | |] eqn:P; try discriminate. injection E as <- <-. unfold xgo.
        split; [|apply INV; cbn; auto].
        exists [MCall 1 MDeq]. eexists. split.
        { cbn. rewrite P. cbn. reflexivity. }
        fin P MEQ.
      * apply ONE with (l := MCall t o); auto. cbn. rewrite D. auto.
    + destruct sp eqn:SP; [|apply ONE with (l := MCall t o); auto; cbn; rewrite D; auto].
      unfold sp_call in E. destruct (Nat.eqb_spec t 0) as [->|]; [|discriminate]. cbn [negb] in E.
      destruct o as [v|u|u v|u| |]; try discriminate; destruct (xthr s 0) as [[]| | | |w| | |] eqn:P; try discriminate.
      * injection E as <- <-. unfold xgo. split; [|apply INV; cbn; auto].
        exists [MCall 0%nat (MEnq v)]. eexists. split; [cbn; rewrite P; cbn; reflexivity|].
        fin P MEQ.
      * destruct (Nat.eqb_spec 0 u) as [<-|]; [|discriminate].
        injection E as <- <-. unfold xgo. split; [|apply INV; cbn; auto].
        exists [MCall 0%nat (MReserve 0)]. eexists. split; [cbn; rewrite P; cbn; reflexivity|].
        fin P MEQ.
      * destruct (Nat.eqb_spec 0 u) as [<-|]; [|discriminate].
        injection E as <- <-. split; [|apply INV; cbn; auto].
        exists [MCall 0%nat (MWrite 0 v)]. eexists. split; [cbn; rewrite P; cbn; reflexivity|].
        fin P MEQ.
      * destruct w as [v|]; [|discriminate]. destruct (Nat.eqb_spec 0 u) as [<-|]; [|discriminate].
        injection E as <- <-. split; [|apply INV; cbn; auto; intros; congruence].
        exists [MCall 0%nat (MCommit 0); MStep 0; MStep 0]. eexists. split.
        { cbn. rewrite P. cbn. rewrite upd_same, N.eqb_refl. cbn. rewrite upd_same. cbn. reflexivity. }
        fin P MEQ.
  - pose proof (I t) as It. destruct (xthr s t) as [p|o|v prod c|v prod c|w|cur|cur|v cur] eqn:P; cbn [pcI] in It.
    + apply ONE with (l := MStep t); cbn; auto.
    + destruct It as [-> [-> Io]]. 
      assert (AR : abr true s = set_h (xrg s) (p_tail (xrg s))) by (unfold abr; rewrite P; reflexivity).
      pose proof (full_lt k _ H T C Hk K) as F. rewrite AR in F. cbn in F. unfold full in F; cbn in F. fold (full (xrg s) (c_head (xrg s)) (p_tail (xrg s))) in F.
      rewrite F in E. destruct (sub32 (p_tail (xrg s)) (c_head (xrg s)) <? mask (xrg s)) eqn:LT; cbn [negb] in E.
      * destruct o as [v|u|u v|u| |]; try contradiction; injection E as <- <-; unfold xgo; (split; [|apply INV; cbn; auto]);
        exists [MStep 0; MStep 0; MStep 0]; eexists; (split; [cbn; rewrite P; cbn; rewrite upd_same; cbn; rewrite AR; cbn; rewrite LT; cbn; rewrite upd_same; cbn; rewrite AR; cbn; rewrite N.eqb_refl; cbn; reflexivity|]);
        fin P MEQ.
      * injection E as <- <-; unfold xgo; (split; [|apply INV; cbn; auto]).
        exists [MStep 0; MStep 0; MStep 0]; eexists; (split; [cbn; rewrite P; cbn; rewrite upd_same; cbn; rewrite AR; cbn; rewrite LT; cbn; rewrite upd_same; cbn; rewrite AR; cbn; rewrite N.eqb_refl; cbn; reflexivity|]).
        fin P MEQ.
    + destruct It as [-> [-> ->]]. injection E as <- <-. split; [|apply INV; cbn; auto].
      exists [MStep 0]. eexists. split; [cbn; rewrite P; cbn; reflexivity|].
      fin P MEQ.
    + destruct It as [-> [-> ->]]. injection E as <- <-. split; [|apply INV; cbn; auto; intros; congruence].
      exists [MStep 0; MStep 0]. eexists. split; [cbn; rewrite P; cbn; rewrite N.eqb_refl; cbn; rewrite upd_same; cbn; reflexivity|].
      fin P MEQ.
    + discriminate.
    + destruct It as [-> [-> ->]].
      assert (AC : c_head (abr sp s) = c_head (xrg s) /\ p_tail (abr sp s) = p_tail (xrg s)) by (unfold abr; destruct sp; auto). destruct AC as [AC AT].
      destruct (c_head (xrg s) =? p_tail (xrg s)) eqn:EM; injection E as <- <-; unfold xgo; (split; [|apply INV; cbn; auto]);
      exists [MStep 1; MStep 1]; eexists; (split; [cbn; rewrite P; cbn; rewrite upd_same; cbn; rewrite AC, AT, EM; cbn; reflexivity|]);
      fin P MEQ.
    + destruct It as [-> [-> ->]].
      injection E as <- <-; unfold xgo; (split; [|apply INV; cbn; auto]).
      exists [MStep 1]; eexists; (split; [cbn; rewrite P; cbn; reflexivity|]).
      fin P MEQ.
    + destruct It as [-> [-> ->]].
      assert (AC : c_head (abr sp s) = c_head (xrg s)) by (unfold abr; destruct sp; auto).
      injection E as <- <-; (split; [|apply INV; cbn; auto; intros; congruence]).
      exists [MStep 1]; eexists; (split; [cbn; rewrite P; cbn; rewrite AC, N.eqb_refl; reflexivity|]).
      fin P MEQ.
Qed.

Theorem xsim : forall k sp sc ls s log, k <= 31 -> run (xstep sp sc) (xinit k) ls = Some (s, log) -> short_calls log ->
  exists ls' m, run mstep (minit k) ls' = Some (m, log) /\ meq (abst sp s) m.
Proof.
  intros k sp sc ls s log Hk.
  enough (G : forall ls s0 s log0 log, run (xstep sp sc) s0 ls = Some (s, log) -> short_calls (log0 ++ log) -> XI sp sc s0 ->
    (exists ls' m, run mstep (minit k) ls' = Some (m, log0) /\ meq (abst sp s0) m) ->
    exists ls' m, run mstep (minit k) ls' = Some (m, log0 ++ log) /\ meq (abst sp s) m).
  { intros Hr Hs. apply (G ls (xinit k) s [] log); auto.
    - intros t. cbn. auto.
    - exists [], (minit k). split; [reflexivity|]. split; [|split; reflexivity]. unfold abst, abr. cbn. destruct sp; reflexivity. }
  clear ls s log. induction ls as [|l ls IH]; intros s0 s log0 log Hr Hs I [ls' [m [R1 M1]]]; cbn in Hr.
  - injection Hr as <- <-. rewrite app_nil_r. eauto.
  - destruct (xstep sp sc s0 l) as [[s1 e1]|] eqn:S; [|discriminate]. destruct (run (xstep sp sc) s1 ls) as [[s2 e2]|] eqn:S2; [|discriminate].
    injection Hr as <- <-. rewrite app_assoc in Hs |- *.
    assert (K : exists H T C, RingMp_Proof.ring_ok k (abr sp s0) H T C).
    { destruct (mring_run k Hk ls' m log0 R1) as [a [_ [H [T [C [K _]]]]]].
      - apply short_prefix with (b := e1 ++ e2). rewrite app_assoc. auto.
      - exists H, T, C. destruct M1 as [M1 _]. cbn in M1. rewrite M1. auto. }
    destruct (xsim_step k sp sc s0 l s1 e1 Hk I K S) as [[ls1 [m1 [R2 M2]]] I1].
    destruct (run_meq _ _ _ _ _ M1 R2) as [m2 [R3 M3]].
    apply (IH s1 s2 (log0 ++ e1) e2); auto.
    exists (ls' ++ ls1), m2. split; [|eapply meq_trans; eauto].
    eapply run_app; eauto.
Qed.

Theorem xlin : forall k sp sc ls s log, k <= 31 -> run (xstep sp sc) (xinit k) ls = Some (s, log) -> short_calls log ->
  linearizable (bq_seq (N.to_nat (2 ^ k - 1))) res_dec bq0 (history (mlin_log log)).
Proof.
  intros k sp sc ls s log Hk Hr Hs. destruct (xsim k sp sc ls s log Hk Hr Hs) as [ls' [m [R1 _]]].
  apply lin_legal_history. exact (mring_linearizable k ls' m log Hk R1 Hs).
Qed.
Theorem xfail : forall k sp sc ls s log, k <= 31 -> run (xstep sp sc) (xinit k) ls = Some (s, log) -> short_calls log ->
  exists a, accepts (mring_step (N.to_nat (2 ^ k - 1))) mabs0 log = Some a.
Proof.
  intros k sp sc ls s log Hk Hr Hs. destruct (xsim k sp sc ls s log Hk Hr Hs) as [ls' [m [R1 _]]].
  destruct (mring_run k Hk ls' m log R1 Hs) as [a [Ha _]]. eauto.
Qed.
Theorem xquiescent : forall k sp sc ls s log, k <= 31 -> run (xstep sp sc) (xinit k) ls = Some (s, log) -> short_calls log -> xquiet s ->
  exists a, accepts (mring_step (N.to_nat (2 ^ k - 1))) mabs0 log = Some a /\ mq_n (fst (m_lin a)) = 0%nat /\
    ck_ring_size (xrg s) = N.of_nat (length (mq_q (fst (m_lin a)))) /\ ck_ring_capacity (xrg s) = 2 ^ k.
Proof.
  intros k sp sc ls s log Hk Hr Hs Q. destruct (xsim k sp sc ls s log Hk Hr Hs) as [ls' [m [R1 [M1 [_ M3]]]]].
  destruct (mring_quiescent k ls' m log Hk R1 Hs) as [a [A1 [A2 [A3 [A4 _]]]]].
  { intros t. rewrite <- M3. cbn. rewrite Q. reflexivity. }
  exists a. split; auto. split; auto. cbn in M1. rewrite <- M1 in A3, A4.
  assert (E : ck_ring_size (xrg s) = ck_ring_size (abr sp s) /\ ck_ring_capacity (xrg s) = ck_ring_capacity (abr sp s)) by (unfold abr; destruct sp; split; reflexivity).
  destruct E as [-> ->]. auto.
Qed.
