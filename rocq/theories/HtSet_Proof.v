(** Hash table: set, get, remove, garbage collection, iteration, and all operations together. *)
From Coq Require Import Arith NArith List Bool Lia Permutation.
From Verif Require Import Lib Helpers_Model Ht_Model Ht_Spec Ht_Proof HtInv_Proof HtOps_Proof.
Import ListNotations.

Section O.
Variables (dl bs : bool) (len : N -> N) (memeq : N -> N -> N -> bool) (hf : N -> N) (ub : N -> N -> N) (oracle : nat -> bool).
Variable CT : contract bs len memeq hf.
Notation pi := (pi ub). Notation valid := (valid len). Notation same := (same bs len memeq). Notation lok := (lok bs len).
Notation Core := (Core dl bs len hf ub). Notation Inv := (Inv dl bs len memeq hf ub). Notation okq := (okq dl). Notation noempty := (noempty ub).
Notation posn := (posn dl ub). Notation entok := (entok dl bs len hf ub). Notation okent := (okent bs len hf). Notation wtr := (wtr bs len memeq).
Notation pspec := (pspec bs memeq ub). Notation rspec := (rspec bs memeq ub). Notation clear := (clear bs memeq ub). Notation firstt := (firstt ub).
Notation uniq := (distinct bs len memeq). Notation fresh := (fresh bs len memeq). Notation le_b := (le_b dl).
Notation mem := (mem bs len memeq). Notation del := (del bs len memeq). Notation pair_of := (pair_of bs len memeq).
Notation assoc := (assoc bs len memeq). Notation fits := (fits bs len memeq). Notation chg := (chg dl).
Notation failed := (failed oracle). Notation okx := (okx dl bs len memeq hf ub).

Lemma same_len : forall a b, bs = true -> same a b = true -> len a = len b.
Proof.
  intros a b B S. unfold Ht_Spec.same in S. rewrite B in S. apply orb_prop in S. destruct S as [S | S].
  - apply N.eqb_eq in S. subst. auto.
  - apply andb_prop in S. destruct S as (S & _). simpl in S. apply N.eqb_eq in S. auto.
Qed.

(** ** set *)
(** the slot the entry is moved to, when it is moved *)
Definition pend0 (m : tmap) (k l : N) : option nat :=
  match probe_wr dl bs memeq ub m k l (hf k) false with
  | Some r => match r_pr r, r_cur r with Some f, Some s => if N.eqb (key m s) 0 then None else Some f | _, _ => None end
  | None => None
  end.
Lemma pend0_dead : forall m k l f, pend0 m k l = Some f -> key m f = TOMB.
Proof.
  intros m k l f H. unfold pend0 in H. destruct (probe_wr_ok dl bs memeq ub m k l (hf k)) as (r & E & P). rewrite E in H.
  assert (G : forall n np, firstt m (hf k) n (r_pr r) np -> match r_pr r with Some f => key m f = TOMB | None => True end).
  { intros n np F. destruct (r_pr r); auto. destruct F as (p & _ & _ & T & _). auto. }
  destruct P; simpl in *; destruct pr as [f0|]; try discriminate.
  - destruct (N.eqb (key m (pi m (hf k) n)) 0); inversion H; subst. eapply G; eauto.
  - destruct (N.eqb (key m (pi m (hf k) n)) 0); inversion H; subst. eapply G; eauto.
Qed.
Lemma pend0_absent : forall m k l, Inv m -> valid k -> lok k l -> fresh k (contents m) -> pend0 m k l = None.
Proof.
  intros m k l I VK LK F. unfold pend0. destruct (probe_wr_ok dl bs memeq ub m k l (hf k)) as (r & E & P). rewrite E.
  pose proof (ins_facts dl bs len memeq hf ub CT m k l r (proj1 I) VK LK P F) as IF. destruct (r_pr r); auto.
  destruct IF as (q & _ & _ & _ & _ & _ & _ & X). destruct (r_cur r); auto. rewrite X. reflexivity.
Qed.

Lemma set_store : forall A m e s q pr, Inv m -> Permutation (contents m) A -> okent e -> fresh (ek e) (contents m) ->
  s < ncap m -> s = pi m (hf (ek e)) q -> noempty m (hf (ek e)) q -> S q <= 2 * plim m -> pr = [] /\ key m s = 0%N \/ pr = [SDel] /\ key m s = TOMB ->
  let tr0 := pr ++ fill s e ++ [SCnt (nent m + 1)] in
  let tr := tr0 ++ bound_set dl (app m tr0) (hf (ek e)) (S q) in
  wtr A (kv e :: A) None m tr /\ Inv (app m tr) /\ Permutation (contents (app m tr)) (kv e :: A).
Proof.
  intros A m e s q pr I P OE F SL ES NO L HP tr0 tr. pose proof (valid_live len _ (proj1 OE)) as LE.
  assert (FI : fits A (kv e :: A) e).
  { split; [apply in_assoc; apply in_or_app; right; left; auto|]. split; apply OE. }
  assert (W : wtr A (kv e :: A) None m tr).
  { unfold tr. apply wtr_app; [|apply wtr_bound'].
    assert (G : forall m1, wtr A (kv e :: A) (Some s) m1 (fill s e ++ [SCnt (nent m + 1)])).
    { intros m1. apply wtr_app; [apply wtr_fill; auto|]. apply w_quiet; [exact Logic.I | constructor]. }
    unfold tr0. destruct HP as [(E & K) | (E & K)]; subst pr; simpl List.app.
    - apply (w_empty bs len memeq A (kv e :: A) None m s); [auto | apply G].
    - apply (w_dead bs len memeq A (kv e :: A) None m s); [auto | apply G]. }
  split; auto.
  assert (HB : exists n m0, but m m0 s e /\ app m tr0 = app1 m0 (SCnt n) /\ n = (nent m + 1)%N).
  { exists (nent m + 1)%N, (app m (pr ++ fill s e)). split; [apply but_fill; destruct HP as [(E & _) | (E & _)]; auto|]. split; auto.
    unfold tr0. rewrite app_assoc, app_app. reflexivity. }
  destruct HB as (n & m0 & B & EB & EN).
  destruct (chg_after dl bs len hf ub m (app m tr0) s e q (hf (ek e)) (proj1 I)) as (CH & OQ & EN'); eauto.
  unfold tr. rewrite app_app.
  destruct (ins_inv dl bs len memeq hf ub CT m _ s e q I CH OE F SL ES OQ NO) as (I' & P'); auto.
  { destruct HP as [(_ & K) | (_ & K)]; rewrite K; reflexivity. }
  { rewrite EN', EB. simpl. auto. }
  split; auto. rewrite <- P. exact P'.
Qed.

Notation setA A o := (fun r : res => aop bs len memeq A o r).
Notation setL A o := (fun al r al' => legal bs len memeq A o r (failed al al')).
Lemma legal_le : forall A o r a b c, a <= b -> legal bs len memeq A o r (failed b c) -> legal bs len memeq A o r (failed a c).
Proof.
  intros A o ((b0 & k) & v) a b c L H. destruct o; simpl in *; auto.
  - destruct b0; auto. destruct H; auto. right. eapply failed_le; eauto.
  - destruct b0; auto. destruct H; split; auto. eapply failed_le; eauto.
Qed.
Lemma set_absent : forall f m al e A, Inv m -> Permutation (contents m) A -> okent e -> fresh (ek e) A ->
  okx None A (setA A (OSet (ek e) (ev e) (el e))) (setL A (OSet (ek e) (ev e) (el e))) m al (set dl bs memeq ub oracle f m al e (hf (ek e))).
Proof.
  induction f; intros m al e A I P OE FA; [exact Logic.I|]. cbn [set].
  pose proof I as (C & U & NE). pose proof (proj1 OE) as VK. assert (LK : lok (ek e) (el e)) by exact (proj2 (proj2 OE)).
  assert (F : fresh (ek e) (contents m)) by (apply (fresh_perm bs len memeq (ek e) A); auto; symmetry; auto).
  destruct (probe_wr_ok dl bs memeq ub m (ek e) (el e) (hf (ek e))) as (r & EP & PS). rewrite EP.
  pose proof (ins_facts dl bs len memeq hf ub CT m (ek e) (el e) r C VK LK PS F) as IF. cbv zeta.
  assert (MF : mem (ek e) A = false) by (apply fresh_mem; auto).
  assert (DF : del (ek e) A = A) by (apply fresh_del; auto).
  assert (PF : pair_of (ek e) A = None) by (apply fresh_pair; auto).
  assert (ST : forall s q pr v, s < ncap m -> s = pi m (hf (ek e)) q -> noempty m (hf (ek e)) q -> S q <= 2 * plim m -> pr = [] /\ key m s = 0%N \/ pr = [SDel] /\ key m s = TOMB ->
    let tr0 := pr ++ fill s e ++ [SCnt (nent m + 1)] in
    okx None A (setA A (OSet (ek e) (ev e) (el e))) (setL A (OSet (ek e) (ev e) (el e))) m al
      (postgrow dl ub oracle m (tr0 ++ bound_set dl (app m tr0) (hf (ek e)) (S q)) al (true, 0%N, v))).
  { intros s q pr v SL ES NO L HP tr0.
    destruct (set_store A m e s q pr I P OE F SL ES NO L HP) as (W & I1 & P1). fold tr0 in W, I1, P1.
    pose proof (post_ok dl bs len memeq hf ub oracle CT (bool * N * N)%type None A (kv e :: A) m _ al (true, 0%N, v) W I1 P1) as PO.
    destruct (postgrow dl ub oracle m (tr0 ++ bound_set dl (app m tr0) (hf (ek e)) (S q)) al (true, 0%N, v)) as [tr' al' r'| |]; try contradiction.
    destruct PO as (ER & W' & IV & PC & LE). subst r'. unfold HtOps_Proof.okx. cbn [aop fst]. rewrite DF. fold (kv e). unfold legal. rewrite PF. auto. }
  destruct (r_pr r) as [f0|].
  - destruct IF as (q & NP & EF & FL & NO & L & T & CU). rewrite NP.
    assert (EC : match r_cur r with Some s => if N.eqb (key m s) 0 then None else Some s | None => None end = None).
    { destruct (r_cur r); auto. rewrite CU. reflexivity. }
    rewrite EC, T. change (N.eqb TOMB TOMB) with true. cbv iota.
    destruct (r_cur r) as [s|]; [rewrite CU|]; apply (ST f0 q [SDel]); auto.
  - destruct (r_cur r) as [s|].
    + destruct IF as (q & NP & EF & FL & NO & L & Z). rewrite Z, NP. cbn [live N.eqb negb andb]. apply (ST s q []); auto.
    + pose proof (grow_ok dl bs len memeq hf ub oracle CT m al (cap m * 2) I) as G. pose proof (grow2_failed dl ub oracle m al) as GF.
      destruct (grow dl ub oracle m al (cap m * 2)) as [tr al1 [|]| |]; auto; destruct G as (LE & G).
      * destruct G as (u & ET & IU & PU). subst tr. apply (okx_after dl bs len memeq hf ub res A _ _ None m u al al1); auto.
        -- rewrite PU; auto.
        -- intros r0 al' H. eapply legal_le; eauto.
        -- simpl. apply IHf; auto. rewrite PU; auto.
      * subst tr. simpl. split; [constructor|]. split; auto. split; auto. split; auto. split; auto. eapply GF; [apply C | reflexivity].
Qed.

Lemma set_present : forall f m al e A, Inv m -> Permutation (contents m) A -> okent e -> mem (ek e) A = true ->
  okx (pend0 m (ek e) (el e)) A (setA A (OSet (ek e) (ev e) (el e))) (setL A (OSet (ek e) (ev e) (el e))) m al (set dl bs memeq ub oracle f m al e (hf (ek e))).
Proof.
  intros f m al e A I P OE M. destruct f; [exact Logic.I|]. cbn [set].
  pose proof I as (C & U & NE). pose proof (proj1 OE) as VK. assert (LK : lok (ek e) (el e)) by exact (proj2 (proj2 OE)).
  pose proof (valid_live len _ VK) as LE.
  destruct (probe_wr_ok dl bs memeq ub m (ek e) (el e) (hf (ek e))) as (r & EP & PS). rewrite EP.
  destruct (present_slot dl bs len memeq hf ub m A (ek e) C P M) as (s & LV & SM).
  destruct (found_facts dl bs len memeq hf ub CT m (ek e) (el e) r s I VK LK PS LV SM) as (RC & n & ES & RN & LN & NO & OQ & FT).
  destruct (proj2 (proj2 C) s LV) as ((VS & HS & LS) & SL & PO0).
  destruct (find_split dl bs len hf ub m s C LV) as (R & PR).
  assert (PA : Permutation A (kv (ents m s) :: R)) by (rewrite <- P; auto).
  assert (VA : forall y, In y A -> valid (fst y)) by (intros y Y; apply (core_valid dl bs len hf ub m); auto; rewrite P; auto).
  assert (UA : uniq A) by (apply (uniq_perm bs len memeq (contents m)); auto).
  assert (DA : Permutation (del (ek e) A) R) by (apply (found_del bs len memeq hf CT (ek e) (kv (ents m s))); auto).
  assert (PF : pair_of (ek e) A = Some (kv (ents m s))) by (apply (found_pair bs len memeq hf CT (ek e) (kv (ents m s)) A R); auto).
  assert (NZ : N.eqb (key m s) 0 = false) by (apply N.eqb_neq; apply live_iff in LV; apply LV).
  set (A1 := kv e :: del (ek e) A).
  assert (FIN : forall p tr, wtr A A1 p m tr -> Inv (app m tr) /\ Permutation (contents (app m tr)) (kv e :: R) ->
    okx p A (setA A (OSet (ek e) (ev e) (el e))) (setL A (OSet (ek e) (ev e) (el e))) m al
      (postgrow dl ub oracle m tr al (true, key m s, ev (ents m s)))).
  { intros p tr W (I1 & P1). assert (P1' : Permutation (contents (app m tr)) A1) by (rewrite P1; unfold A1; rewrite DA; auto).
    pose proof (post_ok dl bs len memeq hf ub oracle CT (bool * N * N)%type p A A1 m tr al (true, key m s, ev (ents m s)) W I1 P1') as PO.
    destruct (postgrow dl ub oracle m tr al (true, key m s, ev (ents m s))) as [tr' al' r'| |]; try contradiction.
    destruct PO as (ER & W' & IV & PC & LE'). subst r'. unfold HtOps_Proof.okx. cbn [aop fst]. fold (kv e). fold A1. unfold legal. rewrite PF. auto. }
  assert (FI : fits A A1 e).
  { split; [apply in_assoc; apply in_or_app; right; left; auto|]. split; apply OE. }
  assert (AS : assoc (A ++ A1) (key m s) (ev e)).
  { exists (ek e). split; [apply in_or_app; right; left; auto|]. rewrite (same_sym bs len memeq hf CT); auto. }
  unfold pend0. rewrite EP, RC. destruct (r_pr r) as [f0|] eqn:RP.
  - destruct FT as (q & LQ & EF & T & NP & _). rewrite NZ. cbv zeta. rewrite NP.
    set (d := if N.eqb (ev (ents m f0)) TOMB then [SDel] else []).
    set (tr0 := [SLen f0 (el e); SHash f0 (eh e)] ++ d ++ [SVal f0 (ev e); SKey f0 (ek e); SDel; SKey s TOMB]).
    assert (FS : f0 <> s) by (intros X; subst f0; rewrite <- X, T in LV; discriminate).
    apply FIN.
    + apply wtr_app; [|apply wtr_bound']. unfold tr0.
      assert (G : forall m1, ek (ents m1 f0) = TOMB -> el (ents m1 f0) = el e -> wtr A A1 (Some f0) m1 [SVal f0 (ev e); SKey f0 (ek e); SDel; SKey s TOMB]).
      { intros m1 K L. apply w_field; [reflexivity|]. apply w_pub; auto.
        - simpl. repeat (rewrite upd_same; simpl). rewrite L. destruct FI as (F1 & F2 & F3). split; auto.
        - apply w_del. apply w_kill. constructor. }
      simpl List.app. do 2 (apply w_field; [reflexivity|]). unfold d.
      destruct (N.eqb (ev (ents m f0)) TOMB); simpl List.app.
      * apply (w_dead bs len memeq A A1 _ _ f0); [simpl; repeat (rewrite upd_same; simpl); auto|]. apply G; simpl; repeat (rewrite upd_same; simpl); auto.
      * apply G; simpl; repeat (rewrite upd_same; simpl); auto.
    + set (m1 := app m tr0). set (m' := app m (tr0 ++ bound_set dl m1 (hf (ek e)) (S q))).
      assert (E1 : cap m1 = cap m /\ plim m1 = plim m /\ pmax m1 = pmax m /\ bnd m1 = bnd m /\ nent m1 = nent m /\ ents m1 f0 = e /\ ek (ents m1 s) = TOMB /\
        forall t, t <> f0 -> t <> s -> ents m1 t = ents m t).
      { unfold m1, tr0, d. destruct (N.eqb (ev (ents m f0)) TOMB); simpl; repeat (split; [reflexivity|]).
        - split; [|split; [rewrite upd_same; reflexivity | intros t T1 T2; rewrite !upd_other by auto; auto]].
          rewrite upd_other by auto. repeat (rewrite upd_same; simpl). destruct e; reflexivity.
        - split; [|split; [rewrite upd_same; reflexivity | intros t T1 T2; rewrite !upd_other by auto; auto]].
          rewrite upd_other by auto. repeat (rewrite upd_same; simpl). destruct e; reflexivity. }
      destruct E1 as (E1 & E2 & E3 & E4 & E5 & E6 & E7 & E8).
      destruct (bound_set_ok dl m1 (hf (ek e)) q) as (LB & B1 & B2 & B3 & B4 & B5).
      assert (EM : m' = app m1 (bound_set dl m1 (hf (ek e)) (S q))) by (unfold m'; rewrite app_app; reflexivity). rewrite <- EM in LB, B1, B2, B3, B4, B5.
      assert (L1 : le_b m m1) by (split; auto; split; auto; intros; apply (okq_ext dl m); auto).
      pose proof (proj1 (proj2 C)) as PMX.
      apply (move_inv dl bs len memeq hf ub CT m m' f0 s e (ents m1 s) q R); auto; try (rewrite B1; auto; fail).
      * apply (le_trans dl m m1); auto.
      * lia.
      * subst f0. apply pi_lt, C.
      * intros x X. apply NO. lia.
      * congruence.
  - rewrite LV, app_nil_r. cbv zeta. rewrite RN. apply FIN.
    + apply wtr_app; [|apply wtr_bound']. unfold fill.
      apply (w_in bs len memeq A A1 _ _ s); [auto | split; auto; intros B; rewrite (same_len (key m s) (ek e)); auto; apply OE |].
      apply (w_in bs len memeq A A1 _ _ s); [simpl; repeat (rewrite upd_same; simpl); auto | simpl; auto |].
      apply (w_in bs len memeq A A1 _ _ s); [simpl; repeat (rewrite upd_same; simpl); auto | simpl; repeat (rewrite upd_same; simpl); auto |].
      apply (w_in bs len memeq A A1 _ _ s); [simpl; repeat (rewrite upd_same; simpl); auto | simpl; repeat (rewrite upd_same; simpl); auto |]. constructor.
    + pose proof (but_fill m s e [] (or_introl eq_refl)) as B. change ([] ++ fill s e) with (fill s e) in B.
      destruct (chg_after dl bs len hf ub m (app m (fill s e)) s e n (hf (ek e)) C (or_introl B) LN) as (CH & OQ' & EN').
      rewrite app_app. apply (rep_inv dl bs len memeq hf ub CT m _ s e R); auto. 
Qed.
Lemma set_ok : forall f m al e A, Inv m -> Permutation (contents m) A -> okent e ->
  okx (pend0 m (ek e) (el e)) A (setA A (OSet (ek e) (ev e) (el e))) (setL A (OSet (ek e) (ev e) (el e))) m al (set dl bs memeq ub oracle f m al e (hf (ek e))).
Proof.
  intros f m al e A I P OE. destruct (mem (ek e) A) eqn:M; [apply set_present; auto|].
  apply fresh_mem in M. rewrite pend0_absent; auto. - apply set_absent; auto. - apply OE. - exact (proj2 (proj2 OE)).
  - apply (fresh_perm bs len memeq (ek e) A); auto. symmetry; auto.
Qed.

(** ** get, remove *)
Lemma rd_ok : forall m k l A, Inv m -> Permutation (contents m) A -> valid k -> lok k l ->
  exists r, probe_rd dl bs memeq ub m k l (hf k) = Some r /\
  match r with
  | Some s => if N.eqb (key m s) 0 then pair_of k A = None /\ del k A = A
              else live (key m s) = true /\ same (key m s) k = true /\ pair_of k A = Some (kv (ents m s)) /\
                   Permutation (contents m) (kv (ents m s) :: del k A)
  | None => pair_of k A = None /\ del k A = A
  end.
Proof.
  intros m k l A I P VK LK. pose proof I as (C & U & NE).
  destruct (probe_rd_ok dl bs memeq ub m k l (hf k)) as (r & E & RS). exists r. split; auto.
  assert (FR : forall n, clear m k l (hf k) n -> n = 2 * plim m \/ bound_get dl m (hf k) < n \/ key m (pi m (hf k) n) = 0%N ->
    pair_of k A = None /\ del k A = A).
  { intros n CL H. assert (F : fresh k A). { apply (fresh_perm bs len memeq k (contents m)); auto. eapply absent_clear; eauto. }
    split; [apply fresh_pair; auto | apply fresh_del; auto]. }
  destruct RS.
  - assert (NZ : N.eqb (key m (pi m (hf k) n)) 0 = false) by (apply N.eqb_neq; apply live_iff in H1; apply H1). rewrite NZ.
    rewrite (match_core dl bs len memeq hf ub CT m _ k l) in H2 by auto. set (s := pi m (hf k) n) in *.
    destruct (find_split dl bs len hf ub m s C H1) as (R & PR). destruct (proj2 (proj2 C) s H1) as ((VS & _) & _).
    assert (PA : Permutation A (kv (ents m s) :: R)) by (rewrite <- P; auto).
    assert (VA : forall y, In y A -> valid (fst y)) by (intros y Y; apply (core_valid dl bs len hf ub m); auto; rewrite P; auto).
    assert (UA : uniq A) by (apply (uniq_perm bs len memeq (contents m)); auto).
    split; auto. split; auto. split; [apply (found_pair bs len memeq hf CT k (kv (ents m s)) A R); auto|].
    rewrite PR. apply perm_skip. symmetry. apply (found_del bs len memeq hf CT k (kv (ents m s))); auto.
  - rewrite H0. apply (FR n); auto.
  - apply (FR n); auto. destruct H0; auto.
Qed.
Lemma get_ok : forall m k l A, Inv m -> Permutation (contents m) A -> valid k -> lok k l ->
  exists r, get dl bs memeq ub m k l (hf k) = Some r /\ legal bs len memeq A (OGet k l) r True.
Proof.
  intros m k l A I P VK LK. destruct (rd_ok m k l A I P VK LK) as (r & E & H). unfold get. rewrite E. eexists. split; [reflexivity|].
  destruct r as [s|].
  - destruct (N.eqb (key m s) 0); simpl.
    + destruct H as (H & _). rewrite H. auto.
    + destruct H as (_ & _ & H & _). rewrite H. auto.
  - simpl. destruct H as (H & _). rewrite H. auto.
Qed.
Lemma remove_ok : forall m al k l A, Inv m -> Permutation (contents m) A -> valid k -> lok k l ->
  exists tr r, remove dl bs memeq ub m al k l (hf k) = Ret tr al r /\ legal bs len memeq A (ORemove k l) r True /\
  wtr A (del k A) None m tr /\ Inv (app m tr) /\ Permutation (contents (app m tr)) (del k A).
Proof.
  intros m al k l A I P VK LK. destruct (rd_ok m k l A I P VK LK) as (r & E & H). unfold remove. rewrite E.
  destruct r as [s|].
  - cbv zeta. destruct (N.eqb (key m s) 0).
    + destruct H as (H & D). eexists. eexists. split; [reflexivity|]. simpl. rewrite H, D. split; auto. split; [constructor | auto].
    + destruct H as (LV & S & H & PR). eexists. eexists. split; [reflexivity|]. unfold legal. rewrite H. split; auto.
      split; [apply w_kill, w_quiet; [exact Logic.I | constructor]|].
      apply (kill_inv dl bs len memeq hf ub m _ s (mke TOMB (ev (ents m s)) (el (ents m s)) (eh (ents m s))) (del k A)); auto.
      split; [split; [reflexivity | split; [reflexivity | intros h q Q; exact Q]] |].
      split; [apply (proj1 I)|]. simpl. split; [apply upd_same | intros t T; apply upd_other; auto].
  - destruct H as (H & D). eexists. eexists. split; [reflexivity|]. simpl. rewrite H, D. split; auto. split; [constructor | auto].
Qed.
End O.
