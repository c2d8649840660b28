(** Hash set: garbage collection, iteration, and all operations together. *)
From Coq Require Import Arith NArith List Bool Lia Permutation.
From Verif Require Import Lib Helpers_Model Hs_Model Hs_Spec Hs_Proof HsInv_Proof HsOps_Proof HsSet_Proof.
Import ListNotations.

Section O.
Variables (dl pp : bool) (hf : N -> N) (cmp : option (N -> N -> bool)) (ub : N -> N -> N) (oracle : nat -> option N).
Variable CT : contract pp hf cmp.
Notation pi := (pi ub). Notation val := (val pp). Notation valid := (valid pp hf). Notation same := (same cmp).
Notation marshal := (marshal pp). Notation contents := (contents pp).
Notation Core := (Core dl pp hf ub). Notation Inv := (Inv dl pp hf cmp ub). Notation okq := (okq dl). Notation noempty := (noempty ub).
Notation posn := (posn dl hf ub). Notation entok := (entok dl pp hf ub). Notation wtr := (wtr dl pp hf cmp ub).
Notation pspec := (pspec pp cmp ub). Notation clear := (clear pp cmp ub). Notation firstt := (firstt ub).
Notation uniq := (uniq cmp). Notation fresh := (fresh cmp). Notation eff := (eff dl pp hf cmp ub).
Notation mem := (mem cmp). Notation del := (del cmp). Notation obj := (obj cmp). Notation failed := (failed oracle).

(** ** gc *)
Definition good2 (m : hmap) (s : nat) (x : N) (mx : nat) (bs : nat -> nat) : Prop :=
  exists q, pi m (hf x) q = s /\ noempty m (hf x) q /\ q < mx /\ (dl = true -> bs (bidx m (hf x)) = 255 \/ q < bs (bidx m (hf x))).
Definition bsok (pl : nat) (bs : nat -> nat) : Prop := forall o, bs o <= 255 /\ (bs o <= pl \/ bs o = 255).

Lemma good2_mono : forall m m' s x mx mx' bs bs', good2 m s x mx bs -> cap m' = cap m -> (forall t, ents m t <> 0%N -> ents m' t <> 0%N) ->
  mx <= mx' -> (forall o, bs o <= bs' o <= 255) -> good2 m' s x mx' bs'.
Proof.
  intros m m' s x mx mx' bs bs' (q & Q1 & Q2 & Q3 & Q4) C E L B. exists q. rewrite (pi_cap ub m) by auto. split; auto.
  split; [intros r R; rewrite (pi_cap ub m) by auto; apply E, Q2; auto|]. split; [lia|].
  intros D. unfold bidx, hidx in *. rewrite C. specialize (B (N.to_nat (hf x mod cap m))). destruct (Q4 D); lia.
Qed.

Lemma gc_loop_ok : forall ks m full cycles mx bs A, Inv m -> Permutation (contents m) A -> (forall s, In s ks -> s < ncap m) ->
  mx <= plim m -> bsok (plim m) bs ->
  (full = true -> forall s, s < ncap m -> live (ents m s) = true -> In s ks \/ good2 m s (val (ents m s)) mx bs) ->
  match gc_loop dl pp hf cmp ub m full cycles ks mx bs with
  | Ret tr _ (mx', bs') => let m' := app m tr in
      wtr A A m tr /\ Inv m' /\ Permutation (contents m') A /\ cap m' = cap m /\ plim m' = plim m /\ pmax m' = pmax m /\
      mx' <= plim m /\ bsok (plim m) bs' /\ (full = false -> mx' = mx) /\
      (full = true -> forall s, s < ncap m -> live (ents m' s) = true -> good2 m' s (val (ents m' s)) mx' bs')
  | _ => False
  end.
Proof.
  induction ks as [|k ks IH]; intros m full cycles mx bs A I P KL LM LB HG; cbn [gc_loop].
  - cbv zeta. split; [constructor|]. repeat (split; auto). intros F s S L. destruct (HG F s S L) as [[] | G]; auto.
  - destruct (live (ents m k)) eqn:LV.
    2: { apply IH; auto. intros s S; apply KL; right; auto. intros F s S L. destruct (HG F s S L) as [[E | G] | G]; auto. subst. congruence. }
    assert (KC : k < ncap m) by (apply KL; left; auto). pose proof I as (C & U & NE).
    destruct (proj2 (proj2 C) k KC LV) as (VE & M & _). set (e := val (ents m k)) in *.
    destruct (probe_bnd dl pp hf cmp ub m e C) as (r & EP & PS). rewrite EP.
    assert (Z : r_obj r <> 0%N).
    { intros Z. assert (F : fresh e (contents m)) by (eapply absent_info; eauto; discriminate).
      assert (Q : same e e = false) by (apply F; apply in_contents; exists k; auto). rewrite same_refl in Q. discriminate. }
    destruct (found_info dl pp hf cmp ub CT m e _ _ _ r C VE PS Z) as (n & s & np & RC & ES & SL & LVS & EV & SM & VX & NL & CL & FT & NP).
    assert (SK : s = k) by (apply (slot_uniq pp cmp m s k U SL KC LVS LV); rewrite EV; auto).
    destruct (found_okq dl pp hf cmp ub CT m e _ _ _ r C VE PS Z) as (d & q & D & NPQ & ED & NO & QL & OQ & DL).
    destruct (find_split pp m k KC LV) as (R & PR). fold e in PR.
    assert (PA : Permutation A (e :: R)) by (rewrite <- P; auto).
    pose proof (bound_lim dl m (hf e) (proj1 (proj2 C))) as BL.
    assert (BD : bidx m (hf e) = N.to_nat (hidx m (hf e))) by reflexivity.
    (* the stores *)
    assert (X : exists tr, match r_pr r with
                   | None => Some []
                   | Some f => match r_cur r with Some s => Some [SEnt f (marshal e (hf e)); SGen (N.odd (hf e)); SEnt s TOMB] | None => None end
                   end = Some tr /\ wtr A A m tr /\ Inv (app m tr) /\ Permutation (contents (app m tr)) A /\ cap (app m tr) = cap m /\
                   plim (app m tr) = plim m /\ pmax (app m tr) = pmax m /\ (forall t, ents m t <> 0%N -> ents (app m tr) t <> 0%N) /\
                   ents (app m tr) d = ents m k /\ (forall t, t <> d -> live (ents (app m tr) t) = true -> t <> k /\ ents (app m tr) t = ents m t)).
    { rewrite RC. destruct (r_pr r) as [f|] eqn:RP.
      - unfold dest in D. rewrite RP in D. inversion D; subst f. clear D. rewrite SK. eexists. split; [reflexivity|].
        assert (TD : ents m d = TOMB) by (destruct FT as (p & _ & EF & T & _); auto).
        assert (DK : d <> k) by (intros Y; rewrite Y in TD; rewrite TD in LV; discriminate).
        destruct (eff_move dl pp hf cmp ub CT A A m e d k q e R C U VE KC DL LV eq_refl (same_refl cmp e) PR PA TD ED OQ NO) as (E1 & E2 & E3 & E4 & E5).
        split; auto. split.
        { split; auto. split; auto. rewrite (len_perm _ _ E4), <- (len_perm _ _ P). exact NE. }
        split; auto. split; auto. split; auto. split; auto. simpl. split; [|split].
        + intros t T. upd_goal; auto. discriminate. subst t. rewrite TD in T. apply (marshal_nz pp hf); auto.
        + rewrite upd_other by auto. rewrite upd_same. auto.
        + intros t T L. revert L. upd_goal; intros L; try congruence; auto. discriminate.
      - eexists. split; [reflexivity|]. assert (DK : d = k).
        { unfold dest in D. rewrite RP in D. congruence. }
        split; [constructor|]. subst d. simpl. split; auto. repeat (split; auto). congruence. }
    destruct X as (tr & ET & W & I1 & P1 & C1 & PL1 & PM1 & NZ1 & ED1 & EO1). rewrite ET. clear ET.
    assert (NC : ncap (app m tr) = ncap m) by (unfold ncap; congruence).
    destruct full.
    + set (n' := if Nat.ltb 255 (r_np r) then 255 else r_np r).
      set (mx1 := if Nat.ltb mx (r_np r) then r_np r else mx).
      set (bs1 := if dl && Nat.ltb (bs (N.to_nat (hidx m (hf e)))) n' then upd bs (N.to_nat (hidx m (hf e))) n' else bs).
      assert (N' : n' <= 255 /\ (n' = r_np r \/ n' = 255) /\ n' <= r_np r) by (unfold n'; destruct (Nat.ltb_spec 255 (r_np r)); lia).
      assert (MB : forall o, bs o <= bs1 o <= 255).
      { intros o. unfold bs1. destruct (dl && Nat.ltb (bs (N.to_nat (hidx m (hf e)))) n') eqn:EB; [|split; [auto | apply LB]].
        apply andb_prop in EB. destruct EB as (_ & EB). apply Nat.ltb_lt in EB. pose proof (LB o). unfold upd. destruct (Nat.eq_dec o (N.to_nat (hidx m (hf e)))) as [Y | Y]; [rewrite Y in *|]; lia. }
      assert (MM : mx <= mx1 /\ r_np r <= mx1 /\ mx1 <= plim m).
      { unfold mx1. destruct (Nat.ltb_spec mx (r_np r)); lia. }
      assert (LB1 : bsok (plim m) bs1).
      { intros o. split; [apply MB|]. unfold bs1. destruct (dl && Nat.ltb (bs (N.to_nat (hidx m (hf e)))) n'); [|apply LB].
        pose proof (LB o). unfold upd. destruct (Nat.eq_dec o (N.to_nat (hidx m (hf e)))) as [Y | Y]; [rewrite Y in *|]; lia. }
      assert (GD : good2 (app m tr) d e mx1 bs1).
      { exists q. rewrite (pi_cap ub m) by auto. split; auto. split; [intros x X; rewrite (pi_cap ub m) by auto; apply NZ1, NO; auto|].
        split; [lia|]. intros DD. assert (EB : bidx (app m tr) (hf e) = N.to_nat (hidx m (hf e))) by (unfold bidx, hidx; rewrite C1; auto). rewrite EB.
        unfold bs1. rewrite DD. simpl andb. destruct (Nat.ltb_spec (bs (N.to_nat (hidx m (hf e)))) n') as [Y | Y].
        - change (true && true) with true. cbv iota. rewrite upd_same. lia.
        - change (true && false) with false. cbv iota. pose proof (LB (N.to_nat (hidx m (hf e)))). lia. }
      assert (IHX : match gc_loop dl pp hf cmp ub (app m tr) true cycles ks mx1 bs1 with
        | Ret tr' _ (mx', bs') => let m' := app (app m tr) tr' in
            wtr A A (app m tr) tr' /\ Inv m' /\ Permutation (contents m') A /\ cap m' = cap (app m tr) /\ plim m' = plim (app m tr) /\ pmax m' = pmax (app m tr) /\
            mx' <= plim (app m tr) /\ bsok (plim (app m tr)) bs' /\ (true = false -> mx' = mx1) /\
            (true = true -> forall s, s < ncap (app m tr) -> live (ents m' s) = true -> good2 m' s (val (ents m' s)) mx' bs')
        | _ => False end).
      { apply IH; auto.
        - intros t T. rewrite NC. apply KL. right; auto. - rewrite PL1. apply MM. - rewrite PL1. auto.
        - intros _ t T LT. destruct (Nat.eq_dec t d) as [TD | TD].
          + right. subst t. rewrite ED1. exact GD.
          + destruct (EO1 t TD LT) as (TK & TE). rewrite TE in LT. rewrite NC in T.
            destruct (HG eq_refl t T LT) as [[Y | Y] | G]; [congruence | auto |]. right. rewrite TE.
            apply (good2_mono m _ t _ mx _ bs); auto; lia. }
      destruct (gc_loop dl pp hf cmp ub (app m tr) true cycles ks mx1 bs1) as [tr' al' [mx' bs']| |]; try contradiction.
      unfold after. cbv zeta in *. rewrite app_app, C1, PL1, PM1, NC in *. destruct IHX as (H1 & H2 & H3 & H4 & H5 & H6 & H7 & H8 & H9 & H10).
      split; [apply wtr_app; auto|]. repeat (split; auto). intros; discriminate.
    + destruct (N.eqb cycles 1).
      * cbv zeta. repeat (split; auto). intros; discriminate.
      * assert (IHX := IH (app m tr) false (cycles - 1)%N mx bs A I1 P1). rewrite NC, PL1 in IHX.
        specialize (IHX (fun t T => KL t (or_intror T)) LM LB). assert (IHY := IHX (fun X => False_ind _ (diff_false_true X))). clear IHX.
        destruct (gc_loop dl pp hf cmp ub (app m tr) false (cycles - 1) ks mx bs) as [tr' al' [mx' bs']| |]; try contradiction.
        unfold after. cbv zeta in *. rewrite app_app, C1, PM1 in *. destruct IHY as (H1 & H2 & H3 & H4 & H5 & H6 & H7 & H8 & H9 & H10).
        split; [apply wtr_app; auto|]. repeat (split; auto); try (intros; discriminate).
Qed.

(** the final stores to the bounds *)
Section F.
Variables (m0 : hmap) (mx : nat) (bs : nat -> nat).
Hypothesis (I0 : Inv m0) (LM : mx <= plim m0) (LB : bsok (plim m0) bs)
  (G : forall s, s < ncap m0 -> live (ents m0 s) = true -> good2 m0 s (val (ents m0 s)) mx bs).
Definition mix (m : hmap) : Prop := cap m = cap m0 /\ ents m = ents m0 /\ plim m = plim m0 /\ nent m = nent m0 /\
  (pmax m = pmax m0 \/ pmax m = mx) /\ forall o, bnd m o = bnd m0 o \/ bnd m o = bs o.
Lemma mix_core : forall m, mix m -> Core m.
Proof.
  intros m (M1 & M2 & M3 & M4 & M5 & M6). destruct I0 as (C & _). pose proof C as (W & (L1 & L2) & CE).
  apply (core_bnd dl pp hf ub m0); auto.
  - split; rewrite M3. lia. intros o. pose proof (L2 o). pose proof (LB o). destruct (M6 o) as [E | E]; rewrite E; lia.
  - intros s S LV. destruct (CE s S LV) as (_ & _ & q1 & A1 & (A2 & A3) & A4). destruct (G s S LV) as (q2 & B1 & B2 & B3 & B4).
    set (x := val (ents m0 s)) in *. exists (Nat.min q1 q2).
    rewrite (pi_cap ub m0) by auto. split.
    { destruct (Nat.min_dec q1 q2) as [E | E]; rewrite E; auto. }
    split.
    + split; [lia|]. intros DD. assert (EB : bidx m (hf x) = bidx m0 (hf x)) by (unfold bidx, hidx; rewrite M1; auto). rewrite EB.
      specialize (A3 DD). specialize (B4 DD). destruct (M6 (bidx m0 (hf x))) as [E | E]; rewrite E; lia.
    + intros r R. rewrite M2, (pi_cap ub m0) by auto. apply A4. lia.
Qed.
Lemma mix_inv : forall m, mix m -> Inv m.
Proof.
  intros m M. pose proof (mix_core m M) as C. destruct M as (M1 & M2 & M3 & M4 & M5 & M6). destruct I0 as (_ & U & NE).
  assert (EC : contents m = contents m0) by (apply contents_ents; auto; intros; rewrite M2; auto).
  split; auto. rewrite EC, M4. auto.
Qed.
Lemma mix_contents : forall m, mix m -> contents m = contents m0.
Proof. intros m (M1 & M2 & _). apply contents_ents; auto; intros; rewrite M2; auto. Qed.
Lemma mix_bounds : forall A l m, mix m -> wtr A A m (map (fun o => SBnd o (bs o)) l) /\ mix (app m (map (fun o => SBnd o (bs o)) l)).
Proof.
  intros A. induction l; intros m M; simpl; [split; auto; constructor|].
  assert (M1 : mix (app1 m (SBnd a (bs a)))).
  { destruct M as (M1 & M2 & M3 & M4 & M5 & M6). repeat (split; auto). intros o. simpl. upd_goal; subst; auto. }
  destruct (IHl _ M1). split; auto. apply w_quiet; auto. exact Logic.I. apply mix_core; auto.
Qed.
Lemma mix_max : forall m, mix m -> mix (app1 m (SMax mx)).
Proof. intros m (M1 & M2 & M3 & M4 & M5 & M6). repeat (split; auto). Qed.
Lemma mix_0 : mix m0.
Proof. repeat (split; auto). Qed.
Lemma mix_all : forall A (b1 b2 : bool), let tr := (if b1 then [] else [SMax mx]) ++ (if b2 then all_bounds m0 bs else []) in
  wtr A A m0 tr /\ mix (app m0 tr).
Proof.
  intros A b1 b2 tr. unfold tr, all_bounds. set (m1 := app m0 (if b1 then [] else [SMax mx])).
  assert (M1 : mix m1) by (unfold m1; destruct b1; [apply mix_0 | apply (mix_max m0), mix_0]).
  assert (W1 : wtr A A m0 (if b1 then [] else [SMax mx])).
  { destruct b1; [constructor|]. apply w_quiet; [exact Logic.I | apply mix_core; exact M1 | constructor]. }
  rewrite app_app. fold m1. destruct b2; [|rewrite app_nil_r; split; auto].
  destruct (mix_bounds A (slots m0) m1 M1). split; auto. apply wtr_app; auto.
Qed.
End F.

Lemma slots_onto : forall m seed s, wf m -> s < ncap m -> In s (map (fun i => N.to_nat ((N.of_nat i + seed) mod cap m)) (slots m)).
Proof.
  intros m seed s W S. pose proof (wf_pos m W) as CP. apply in_map_iff.
  set (c := cap m) in *. set (t := (seed mod c)%N). assert (T : (t < c)%N) by (apply N.mod_lt; lia).
  assert (SC : (N.of_nat s < c)%N) by (unfold ncap in S; fold c in S; lia).
  exists (N.to_nat ((N.of_nat s + (c - t)) mod c)). split.
  - rewrite N2Nat.id. rewrite N.add_mod_idemp_l by lia.
    replace (N.of_nat s + (c - t) + seed)%N with (N.of_nat s + ((seed / c) + 1) * c)%N.
    + rewrite N.mod_add by lia. rewrite N.mod_small by auto. apply Nat2N.id.
    + pose proof (N.div_mod seed c). fold t in H. nia.
  - apply in_seq. fold c. assert (X : ((N.of_nat s + (c - t)) mod c < c)%N) by (apply N.mod_lt; lia).
    generalize dependent ((N.of_nat s + (c - t)) mod c)%N. intros y Y. clearbody c. lia.
Qed.
Lemma slots_in : forall m seed s, wf m -> In s (map (fun i => N.to_nat ((N.of_nat i + seed) mod cap m)) (slots m)) -> s < ncap m.
Proof.
  intros m seed s W I. pose proof (wf_pos m W) as CP. apply in_map_iff in I. destruct I as (i & E & _). subst. unfold ncap.
  assert (X : ((N.of_nat i + seed) mod cap m < cap m)%N) by (apply N.mod_lt; lia).
  generalize dependent ((N.of_nat i + seed) mod cap m)%N. intros. lia.
Qed.
Lemma gc_ok : forall m al cycles seed A, Inv m -> Permutation (contents m) A ->
  exists tr al' b, gc dl pp hf cmp ub oracle m al cycles seed = Ret tr al' b /\ al <= al' /\
    wtr A A m tr /\ Inv (app m tr) /\ Permutation (contents (app m tr)) A /\ (b = false -> tr = []).
Proof.
  intros m al cycles seed A I P. unfold gc. pose proof I as (C & U & NE).
  destruct (N.eqb_spec (nent m) 0) as [Z | Z].
  - assert (EC : contents m = []) by (rewrite Z in NE; destruct (contents m); auto; simpl in NE; lia).
    assert (GG : forall s, s < ncap m -> live (ents m s) = true -> good2 m s (val (ents m s)) 0 (fun _ => 0)).
    { intros s S L. assert (X : In (val (ents m s)) (contents m)) by (apply in_contents; exists s; auto). rewrite EC in X. destruct X. }
    assert (BO : bsok (plim m) (fun _ => 0)) by (intros o; lia).
    pose proof (mix_all m 0 (fun _ => 0) I (Nat.le_0_l _) BO GG A false dl) as (W & M). cbv zeta iota in W, M.
    change ([SMax 0] ++ (if dl then all_bounds m (fun _ => 0) else [])) with (SMax 0 :: (if dl then all_bounds m (fun _ => 0) else [])) in W, M.
    eexists. exists al, true. split; [reflexivity|]. split; auto. split; auto.
    pose proof (mix_inv _ _ _ I (Nat.le_0_l _) BO GG _ M). pose proof (mix_contents _ _ _ _ M) as MC. split; auto.
    split; [rewrite MC; auto | intros; discriminate].
  - set (full := N.eqb cycles 0).
    assert (KS : forall s, In s (map (fun i => N.to_nat ((N.of_nat i + seed) mod cap m)) (slots m)) -> s < ncap m).
    { intros s S. eapply slots_in; eauto. apply C. }
    assert (LMX : (if full then 0 else pmax m) <= plim m) by (destruct full; [lia | apply C]).
    assert (BO : bsok (plim m) (fun _ => 0)) by (intros o; lia).
    pose proof (gc_loop_ok _ m full cycles (if full then 0 else pmax m) (fun _ => 0) A I P KS LMX BO
      (fun _ s S _ => or_introl (slots_onto m seed s (proj1 C) S))) as GL.
    destruct (if full && dl then match malloc oracle al with (Some _, al0) => (true, al0) | (None, al0) => (false, al0) end else (true, al)) as [ok al1] eqn:EO.
    assert (LE : al <= al1).
    { unfold malloc in EO. destruct (full && dl); [destruct (oracle al)|]; inversion EO; subst; auto. }
    destruct ok.
    2: { eexists. exists al1, false. split; [reflexivity|]. split; auto. split; [constructor|]. repeat (split; auto). }
    destruct (gc_loop dl pp hf cmp ub m full cycles (map (fun i => N.to_nat ((N.of_nat i + seed) mod cap m)) (slots m)) (if full then 0 else pmax m) (fun _ => 0)) as [tr x [mx bs]| |]; try contradiction.
    cbv zeta in GL. destruct GL as (H1 & H2 & H3 & H4 & H5 & H6 & H7 & H8 & H9 & H10).
    eexists. exists al1, true. split; [reflexivity|]. split; auto.
    assert (NC : ncap (app m tr) = ncap m) by (unfold ncap; congruence).
    assert (AB : all_bounds m bs = all_bounds (app m tr) bs) by (unfold all_bounds, slots; rewrite H4; auto).
    destruct full eqn:FU.
    + rewrite AB. rewrite <- H5 in H7, H8. rewrite <- NC in H10.
      destruct (mix_all (app m tr) mx bs H2 H7 H8 (H10 eq_refl) A (Nat.eqb mx (pmax m)) (true && dl)) as (W & M).
      rewrite app_app. split; [apply wtr_app; auto|]. split; [apply (mix_inv (app m tr) mx bs); auto|].
      split; [rewrite (mix_contents (app m tr) mx bs); auto | intros; discriminate].
    + rewrite (H9 eq_refl), Nat.eqb_refl. simpl. rewrite app_nil_r. repeat (split; auto). intros; discriminate.
Qed.

(** ** Iteration *)
Definition from (m : hmap) (off : nat) : list N := map val (filter live (map (ents m) (seq off (ncap m - off)))).
Lemma next_loop_ok : forall f m off, 0 < f -> off + f = ncap m ->
  match next_loop pp f m off with Some (k, o') => off < o' <= ncap m /\ from m off = k :: from m o' | None => from m off = [] end.
Proof.
  induction f; intros m off F E; [lia|]. simpl.
  assert (X : from m off = (if live (ents m off) then [val (ents m off)] else []) ++ from m (S off)).
  { unfold from. replace (ncap m - off) with (S (ncap m - S off)) by lia. simpl. destruct (live (ents m off)); auto. }
  destruct (live (ents m off)) eqn:LV; [rewrite X; split; [lia | reflexivity]|]. simpl in X.
  change (N.to_nat (cap m)) with (ncap m). destruct (Nat.ltb_spec (S off) (ncap m)) as [L | L].
  - specialize (IHf m (S off)). destruct (next_loop pp f m (S off)) as [[k o']|].
    + destruct IHf as (A & B); try lia. rewrite X. split; [lia | auto].
    + rewrite X. apply IHf; lia.
  - rewrite X. unfold from. replace (ncap m - S off) with 0 by lia. reflexivity.
Qed.
Lemma iterate_ok : forall f m off, ncap m - off < f -> iterate pp f m off = Some (from m off).
Proof.
  induction f; intros m off F; [lia|]. simpl. unfold next. change (N.to_nat (cap m)) with (ncap m).
  destruct (Nat.leb_spec (ncap m) off) as [L | L].
  - unfold from. replace (ncap m - off) with 0 by lia. reflexivity.
  - pose proof (next_loop_ok (ncap m - off) m off) as N. destruct (next_loop pp (ncap m - off) m off) as [[k o']|].
    + destruct N as (A & B); try lia. rewrite IHf by lia. rewrite B. reflexivity.
    + rewrite N by lia. reflexivity.
Qed.
Lemma iterate_all : forall m, iterate pp (S (ncap m)) m 0 = Some (contents m).
Proof.
  intros m. rewrite iterate_ok by lia. unfold from. rewrite Nat.sub_0_r. reflexivity.
Qed.

(** ** All operations *)
Lemma op_ok : forall fuel m al o A, Inv m -> Permutation (contents m) A -> pre pp hf cmp A o ->
  okx dl pp hf cmp ub A (aop cmp A o) (fun al r al' => legal cmp A o r (failed al al')) m al (run1 dl pp hf cmp ub oracle fuel m al o).
Proof.
  intros fuel m al o A I P PR. destruct o; unfold run1; simpl pre in PR.
  - pose proof (put_ok dl pp hf cmp ub oracle CT fuel m al k BInsert A I P PR (or_introl eq_refl)) as H. unfold put.
    destruct (put_loop dl pp hf cmp ub oracle fuel m al k BInsert); auto.
  - destruct PR as (V & F). assert (FR : fresh k A) by (apply fresh_mem; auto).
    pose proof (put_ok dl pp hf cmp ub oracle CT fuel m al k BTomb A I P V (or_intror (conj eq_refl FR))) as H. unfold put_unique.
    destruct (put_loop dl pp hf cmp ub oracle fuel m al k BTomb); auto.
  - apply (set_ok dl pp hf cmp ub oracle CT fuel m al k A I P PR).
  - destruct (fas_ok dl pp hf cmp ub CT m al k A I P PR) as (tr & r & E & ER & H). subst r. rewrite E.
    unfold okx. simpl. destruct H as (H1 & H2 & H3). repeat (split; auto).
  - destruct (remove_ok dl pp hf cmp ub CT m al k A I P PR) as (tr & E & H1 & H2 & H3). rewrite E.
    unfold okx. simpl. repeat (split; auto).
  - rewrite (get_ok dl pp hf cmp ub CT m k A I P PR). unfold okx. simpl. split; [constructor|]. auto.
  - destruct PR as (V & F). pose proof (apply_ok dl pp hf cmp ub oracle CT fuel m al k fn A I P V F) as H.
    destruct (apply dl pp hf cmp ub oracle fuel m al k fn); auto.
  - pose proof (grow_ok dl pp hf cmp ub oracle CT m al c I) as G.
    destruct (grow dl pp hf ub oracle m al c) as [tr al' b| |]; auto. destruct G as (L & G). unfold okx. simpl. destruct b.
    + destruct G as (u & E & IU & PU). subst tr. simpl. assert (PA : Permutation (contents u) A) by (rewrite PU; auto).
      split; [apply (wtr_swap dl pp hf cmp ub); auto; constructor | auto].
    + subst tr. split; [constructor | auto].
  - unfold rebuild. pose proof (grow_ok dl pp hf cmp ub oracle CT m al (cap m) I) as G.
    destruct (grow dl pp hf ub oracle m al (cap m)) as [tr al' b| |]; auto. destruct G as (L & G). unfold okx. simpl. destruct b.
    + destruct G as (u & E & IU & PU). subst tr. simpl. assert (PA : Permutation (contents u) A) by (rewrite PU; auto).
      split; [apply (wtr_swap dl pp hf cmp ub); auto; constructor | auto].
    + subst tr. split; [constructor | auto].
  - destruct (gc_ok m al cycles seed A I P) as (tr & al' & b & E & L & H1 & H2 & H3 & _). rewrite E. unfold okx. simpl. auto.
  - unfold reset, reset_size, malloc. destruct (oracle al); unfold okx; simpl.
    + split; [apply w_map; [apply (create_inv dl pp hf cmp ub) | rewrite create_contents; intros x [] | intros; discriminate | constructor]|].
      split; [apply (create_inv dl pp hf cmp ub)|]. rewrite create_contents. auto.
    + split; [constructor | auto].
  - unfold reset, reset_size, malloc. destruct (oracle al); unfold okx; simpl.
    + split; [apply w_map; [apply (create_inv dl pp hf cmp ub) | rewrite create_contents; intros x [] | intros; discriminate | constructor]|].
      split; [apply (create_inv dl pp hf cmp ub)|]. rewrite create_contents. auto.
    + split; [constructor | auto].
Qed.
Lemma reach_inv : forall m A al, reach dl pp hf cmp ub oracle m A al -> Inv m /\ Permutation (contents m) A.
Proof.
  intros m A al R. induction R.
  - unfold init, malloc in H. destruct (oracle al); inversion H; subst. split; [apply create_inv | rewrite create_contents; auto].
  - destruct IHR as (I & P). pose proof (op_ok fuel m al o A I P H) as K. rewrite H0 in K. destruct K as (_ & K1 & K2 & _). auto.
Qed.
End O.

(** * Statements for the property file *)
Section T.
Variables (dl pp : bool) (hf : N -> N) (cmp : option (N -> N -> bool)) (ub : N -> N -> N) (oracle : nat -> option N).
Variable CT : contract pp hf cmp.
Notation reach := (reach dl pp hf cmp ub oracle). Notation run1 := (run1 dl pp hf cmp ub oracle). Notation contents := (contents pp).

Lemma t_semantics : forall m A al o fuel tr al' r, reach m A al -> pre pp hf cmp A o -> run1 fuel m al o = Ret tr al' r ->
  legal cmp A o r (failed oracle al al') /\ Permutation (contents (app m tr)) (aop cmp A o r) /\ distinct cmp (aop cmp A o r).
Proof.
  intros m A al o fuel tr al' r R P E. destruct (reach_inv dl pp hf cmp ub oracle CT m A al R) as (I & PC).
  pose proof (op_ok dl pp hf cmp ub oracle CT fuel m al o A I PC P) as K. rewrite E in K. destruct K as (_ & (C & U & NE) & K2 & K3 & _).
  split; auto. split; auto. exact (uniq_perm cmp _ _ K2 U).
Qed.
Lemma t_no_bad : forall m A al o fuel, reach m A al -> pre pp hf cmp A o -> run1 fuel m al o <> Bad.
Proof.
  intros m A al o fuel R P E. destruct (reach_inv dl pp hf cmp ub oracle CT m A al R) as (I & PC).
  pose proof (op_ok dl pp hf cmp ub oracle CT fuel m al o A I PC P) as K. rewrite E in K. destruct K.
Qed.
Definition inserting (o : op) : bool := match o with OPut _ | OPutUnique _ | OSet _ | OApply _ _ => true | _ => false end.
Lemma t_returns : forall m A al o fuel, reach m A al -> pre pp hf cmp A o -> inserting o = false -> exists tr al' r, run1 fuel m al o = Ret tr al' r.
Proof.
  intros m A al o fuel R P N. destruct (reach_inv dl pp hf cmp ub oracle CT m A al R) as (I & PC).
  pose proof (t_no_bad m A al o fuel R P) as NB.
  assert (NL : run1 fuel m al o <> Loop).
  { pose proof (grow_not_loop dl pp hf ub oracle m al) as GL. assert (CP : (0 < cap m)%N) by (apply wf_pos, I).
    destruct o; try discriminate; unfold Hs_Spec.run1; simpl in P.
    - destruct (fas_ok dl pp hf cmp ub CT m al k A I PC P) as (tr & r & E & _). rewrite E. discriminate.
    - destruct (remove_ok dl pp hf cmp ub CT m al k A I PC P) as (tr & E & _). rewrite E. discriminate.
    - rewrite (get_ok dl pp hf cmp ub CT m k A I PC P). discriminate.
    - specialize (GL c CP). destruct (grow dl pp hf ub oracle m al c); congruence.
    - specialize (GL (cap m) CP). unfold rebuild. destruct (grow dl pp hf ub oracle m al (cap m)); congruence.
    - destruct (gc_ok dl pp hf cmp ub oracle CT m al cycles seed A I PC) as (tr & al' & b & E & _). rewrite E. discriminate.
    - unfold reset, reset_size, malloc. destruct (oracle al); discriminate.
    - unfold reset_size, malloc. destruct (oracle al); discriminate. }
  destruct (run1 fuel m al o) as [tr al' r| |]; [eauto | congruence | congruence].
Qed.
Lemma t_maintain : forall m A al o fuel tr al' b v, reach m A al -> run1 fuel m al o = Ret tr al' (b, v) ->
  match o with
  | OGrow _ | ORebuild | OGc _ _ => Permutation (contents (app m tr)) (contents m) /\ (b = false -> app m tr = m)
  | OReset | OResetSize _ => if b then contents (app m tr) = [] else app m tr = m
  | _ => True
  end.
Proof.
  intros m A al o fuel tr al' b v R E. destruct (reach_inv dl pp hf cmp ub oracle CT m A al R) as (I & PC).
  destruct o; auto; unfold Hs_Spec.run1 in E.
  - pose proof (grow_ok dl pp hf cmp ub oracle CT m al c I) as G. destruct (grow dl pp hf ub oracle m al c) as [tr0 al0 b0| |]; inversion E; subst.
    destruct G as (_ & G). destruct b; [destruct G as (u & E1 & _ & PU); subst; split; [exact PU | intros; discriminate] | subst; split; auto].
  - unfold rebuild in E. pose proof (grow_ok dl pp hf cmp ub oracle CT m al (cap m) I) as G. destruct (grow dl pp hf ub oracle m al (cap m)) as [tr0 al0 b0| |]; inversion E; subst.
    destruct G as (_ & G). destruct b; [destruct G as (u & E1 & _ & PU); subst; split; [exact PU | intros; discriminate] | subst; split; auto].
  - destruct (gc_ok dl pp hf cmp ub oracle CT m al cycles seed A I PC) as (tr0 & al0 & b0 & E0 & _ & _ & _ & H & F). rewrite E0 in E. inversion E; subst.
    split; [rewrite H; symmetry; auto | intros X; rewrite (F X); auto].
  - unfold reset, reset_size, malloc in E. destruct (oracle al); inversion E; subst; auto. apply create_contents.
  - unfold reset_size, malloc in E. destruct (oracle al); inversion E; subst; auto. apply create_contents.
Qed.
Lemma t_iterate : forall m A al, reach m A al ->
  exists l, iterate pp (S (N.to_nat (cap m))) m 0 = Some l /\ Permutation l A /\ distinct cmp l /\ count m = N.of_nat (length A) /\ fst (fst (stat m)) = N.of_nat (length A).
Proof.
  intros m A al R. destruct (reach_inv dl pp hf cmp ub oracle CT m A al R) as ((C & U & NE) & PC).
  exists (contents m). split; [apply iterate_all|]. split; auto. split; auto. unfold count, stat. simpl. rewrite NE, (Permutation_length PC). auto.
Qed.
End T.

Definition h0 (k : N) : N := (k * 0)%N.
Definition okmem (i : nat) : option N := Some 0%N.

Lemma t_hs_stat_tombstones_refuted : exists m A al,
  reach true false h0 None (fun _ _ => 0%N) okmem m A al /\ snd (fst (stat m)) = 1%N /\ n_tombs m = 0.
Proof.
  eexists. eexists. eexists. split; [|split].
  - eapply (r_op true false h0 None (fun _ _ => 0%N) okmem _ []%N _ (OPut 5) 1 _ _ (true, 0%N)).
    + eapply (r_op true false h0 None (fun _ _ => 0%N) okmem _ [5]%N _ (ORemove 5) 1 _ _ (true, 5%N)).
      * eapply (r_op true false h0 None (fun _ _ => 0%N) okmem _ []%N _ (OPut 5) 1 _ _ (true, 0%N)).
        -- eapply (r_init _ _ _ _ _ _ 8 0). reflexivity.
        -- repeat split; discriminate.
        -- vm_compute. reflexivity.
      * repeat split; discriminate.
      * vm_compute. reflexivity.
    + repeat split; discriminate.
    + vm_compute. reflexivity.
  - vm_compute. reflexivity.
  - vm_compute. reflexivity.
Qed.
Lemma t_hs_stat_uninitialised_refuted : forall g, exists m al,
  reach true false h0 None (fun _ _ => 0%N) (fun _ => Some g) m [] al /\ snd (fst (stat m)) = g /\ n_tombs m = 0.
Proof.
  intros g. eexists. eexists. split; [apply (r_init _ _ _ _ _ _ 8 0); reflexivity|]. split; vm_compute; reflexivity.
Qed.
