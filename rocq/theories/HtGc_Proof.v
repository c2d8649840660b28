(** Hash table: garbage collection, iteration, and all operations together. *)
From Coq Require Import Arith NArith List Bool Lia Permutation.
From Verif Require Import Lib Helpers_Model Ht_Model Ht_Spec Ht_Proof HtInv_Proof HtOps_Proof HtSet_Proof.
Import ListNotations.

Section O.
Variables (dl bs : bool) (len : N -> N) (memeq : N -> N -> N -> bool) (hf : N -> N) (ub : N -> N -> N) (oracle : nat -> bool).
Variable CT : contract bs len memeq hf.
Notation pi := (pi ub). Notation valid := (valid len). Notation same := (same bs len memeq). Notation lok := (lok bs len).
Notation Core := (Core dl bs len hf ub). Notation Inv := (Inv dl bs len memeq hf ub). Notation okq := (okq dl). Notation noempty := (noempty ub).
Notation posn := (posn dl ub). Notation entok := (entok dl bs len hf ub). Notation okent := (okent bs len hf). Notation wtr := (wtr bs len memeq).
Notation pspec := (pspec bs memeq ub). Notation clear := (clear bs memeq ub). Notation firstt := (firstt ub).
Notation uniq := (distinct bs len memeq). Notation fresh := (fresh bs len memeq). Notation le_b := (le_b dl).
Notation mem := (mem bs len memeq). Notation del := (del bs len memeq). Notation pair_of := (pair_of bs len memeq).
Notation assoc := (assoc bs len memeq). Notation fits := (fits bs len memeq).
Notation failed := (failed oracle). Notation okx := (okx dl bs len memeq hf ub).

(** ** gc *)
Definition good2 (m : tmap) (s : nat) (h : N) (mx : nat) (bds : nat -> nat) : Prop :=
  exists q, pi m h q = s /\ noempty m h q /\ q < mx /\ (dl = true -> bds (bidx m h) = 255 \/ q < bds (bidx m h)).

Lemma good2_mono : forall m m' s h mx mx' bds bds', good2 m s h mx bds -> cap m' = cap m -> (forall t, key m t <> 0%N -> key m' t <> 0%N) ->
  mx <= mx' -> (forall o, bds o <= bds' o <= 255) -> good2 m' s h mx' bds'.
Proof.
  intros m m' s h mx mx' bds bds' (q & Q1 & Q2 & Q3 & Q4) C E L B. exists q. rewrite (pi_cap ub m) by auto. split; auto.
  split; [intros r R; rewrite (pi_cap ub m) by auto; apply E, Q2; auto|]. split; [lia|].
  intros D. unfold bidx, hidx in *. rewrite C. specialize (B (N.to_nat (h mod cap m))). destruct (Q4 D); lia.
Qed.

Lemma gc_loop_ok : forall ks m full cycles mx bds A, Inv m -> Permutation (contents m) A ->
  mx <= 2 * plim m -> (forall o, bds o <= 255) ->
  (full = true -> forall s, live (key m s) = true -> In s ks \/ good2 m s (hf (key m s)) mx bds) ->
  match gc_loop dl bs memeq ub m full cycles ks mx bds with
  | Ret tr _ (mx', bds') => let m' := app m tr in
      wtr A A None m tr /\ Inv m' /\ Permutation (contents m') A /\ cap m' = cap m /\ plim m' = plim m /\ pmax m' = pmax m /\
      mx' <= 2 * plim m /\ (forall o, bds' o <= 255) /\ (full = false -> mx' = mx) /\
      (full = true -> forall s, live (key m' s) = true -> good2 m' s (hf (key m' s)) mx' bds')
  | _ => False
  end.
Proof.
  induction ks as [|k ks IH]; intros m full cycles mx bds A I P LM LB HG; cbn [gc_loop].
  - cbv zeta. split; [constructor|]. repeat (split; auto). intros F s L. destruct (HG F s L) as [[] | G]; auto.
  - cbv zeta. destruct (live (key m k)) eqn:LV.
    2: { apply IH; auto. intros F s L. destruct (HG F s L) as [[E | G] | G]; auto. subst. congruence. }
    pose proof I as (C & U & NE).
    destruct (proj2 (proj2 C) k LV) as (OE & KC & PO). pose proof OE as (VE & EH & EL). set (e := ents m k) in *. rewrite EH.
    assert (SE : same (ek e) (ek e) = true) by apply same_refl.
    destruct (probe_wr_bounded dl bs memeq ub m (ek e) (el e) (hf (ek e))) as (r & EP & PS).
    { intros n CL LN. destruct (not_passed dl bs len memeq hf ub CT m (ek e) (el e) n k C VE EL CL LV SE) as (q & Q1 & Q2 & Q3 & Q4 & Q5).
      pose proof (okq_bound _ _ _ _ Q2). lia. }
    rewrite EP. cbn [r_pr r_cur r_np].
    destruct (found_facts dl bs len memeq hf ub CT m (ek e) (el e) r k I VE EL PS LV SE) as (RC & n & ES & RN & LN & NO & OQ & FT).
    rewrite RC.
    destruct (find_split dl bs len hf ub m k C LV) as (R & PR). fold e in PR.
    assert (PA : Permutation A (kv e :: R)) by (rewrite <- P; auto).
    set (np := match r_pr r with None => r_n r | Some _ => r_np r end).
    (* the destination and the stores *)
    assert (X : exists d q tr, match r_pr r with
                   | None => Some []
                   | Some f => Some [SDel; SLen f (el e); SHash f (eh e); SVal f (ev e); SKey f (ek e); SDel; SKey k TOMB]
                   end = Some tr /\ np = S q /\ d = pi m (hf (ek e)) q /\ S q <= 2 * plim m /\ noempty m (hf (ek e)) q /\
                   wtr A A None m tr /\ Inv (app m tr) /\ Permutation (contents (app m tr)) A /\ cap (app m tr) = cap m /\
                   plim (app m tr) = plim m /\ pmax (app m tr) = pmax m /\ (forall t, key m t <> 0%N -> key (app m tr) t <> 0%N) /\
                   ents (app m tr) d = e /\ (forall t, t <> d -> live (key (app m tr) t) = true -> t <> k /\ ents (app m tr) t = ents m t)).
    { unfold np. destruct (r_pr r) as [f|].
      - destruct FT as (q & LQ & EF & T & NP & _). rewrite NP.
        assert (FK : f <> k) by (intros Y; unfold e in LV; rewrite <- Y, T in LV; discriminate).
        set (tr := [SDel; SLen f (el e); SHash f (eh e); SVal f (ev e); SKey f (ek e); SDel; SKey k TOMB]).
        assert (EF1 : ents (app m tr) f = e).
        { simpl. rewrite upd_other by auto. repeat (rewrite upd_same; simpl). destruct e; reflexivity. }
        assert (EK1 : key (app m tr) k = TOMB) by (simpl; rewrite upd_same; reflexivity).
        assert (EO1 : forall t, t <> f -> t <> k -> ents (app m tr) t = ents m t).
        { intros t T1 T2. simpl. rewrite !upd_other by auto. auto. }
        assert (FL : f < ncap m) by (subst f; apply pi_lt, C).
        assert (NQ : noempty m (hf (ek e)) q) by (intros x X; apply NO; lia).
        assert (OQ' : okq m (hf (ek e)) q) by (apply (okq_le dl m _ n); auto; lia).
        assert (MI : Inv (app m tr) /\ Permutation (contents (app m tr)) (kv e :: R)).
        { apply (move_inv dl bs len memeq hf ub CT m (app m tr) f k e (ents (app m tr) k) q R); auto.
          - split; [reflexivity | split; [reflexivity | intros h0 q0 Q; exact Q]]. - apply C. }
        destruct MI as (I1 & P1).
        exists f, q, tr. split; [reflexivity|]. split; auto. split; auto. split; [lia|]. split; auto.
        split.
        { unfold tr. apply (w_dead bs len memeq A A None m f); auto. do 3 (apply w_field; [reflexivity|]). apply w_pub; [apply (valid_live len); auto| |].
          - simpl. repeat (rewrite upd_same; simpl). split; [|split; auto]. simpl. apply in_assoc. apply in_or_app. left. rewrite PA. left; auto.
          - apply w_del, w_kill. constructor. }
        split; auto. split; [rewrite P1; symmetry; auto|]. split; [reflexivity|]. split; [reflexivity|]. split; [reflexivity|].
        split; [|split; auto].
        + intros t T1. destruct (Nat.eq_dec t f) as [Y | Y]; [subst t; rewrite EF1; apply VE|].
          destruct (Nat.eq_dec t k) as [Z | Z]; [subst t; rewrite EK1; discriminate | rewrite EO1; auto].
        + intros t T1 T2. destruct (Nat.eq_dec t k) as [Z | Z]; [subst t; rewrite EK1 in T2; discriminate | auto].
      - exists k, n, []. split; auto. split; auto. split; auto. split; [lia|]. split; auto. split; [constructor|].
        split; auto. split; auto. do 3 (split; [reflexivity|]). split; auto. }
    destruct X as (d & q & tr & ET & NP & ED & QL & NQ & W & I1 & P1 & C1 & PL1 & PM1 & NZ1 & ED1 & EO1).
    replace (match r_pr r with
      | Some f => Some [SDel; SLen f (el (ents m k)); SHash f (eh (ents m k)); SVal f (ev (ents m k)); SKey f (ek (ents m k)); SDel; SKey k TOMB]
      | None => Some [] end) with (Some tr) by (rewrite <- ET; reflexivity). clear ET.
    assert (NC : ncap (app m tr) = ncap m) by (unfold ncap; congruence).
    destruct full.
    + fold np. set (n' := if Nat.leb 255 np then 255 else np).
      set (mx1 := if Nat.ltb mx np then np else mx).
      set (o := N.to_nat (hidx m (hf (ek e)))).
      set (bs1 := if dl && Nat.ltb (bds o) n' then upd bds o n' else bds).
      assert (N' : n' <= 255 /\ (n' = np \/ n' = 255) /\ n' <= np) by (unfold n'; destruct (Nat.leb_spec 255 np); lia).
      assert (MB : forall o, bds o <= bs1 o <= 255).
      { intros o'. unfold bs1. destruct (dl && Nat.ltb (bds o) n') eqn:EB; [|split; [auto | apply LB]].
        apply andb_prop in EB. destruct EB as (_ & EB). apply Nat.ltb_lt in EB. pose proof (LB o'). unfold upd. destruct (Nat.eq_dec o' o) as [Y | Y]; [rewrite Y in *|]; lia. }
      assert (MM : mx <= mx1 /\ np <= mx1 /\ mx1 <= 2 * plim m).
      { unfold mx1. destruct (Nat.ltb_spec mx np); lia. }
      assert (GD : good2 (app m tr) d (hf (ek e)) mx1 bs1).
      { exists q. rewrite (pi_cap ub m) by auto. split; auto. split; [intros x X; rewrite (pi_cap ub m) by auto; apply NZ1, NQ; auto|].
        split; [lia|]. intros DD. assert (EB : bidx (app m tr) (hf (ek e)) = o) by (unfold bidx, hidx; rewrite C1; auto). rewrite EB.
        unfold bs1. rewrite DD. simpl andb. destruct (Nat.ltb_spec (bds o) n') as [Y | Y].
        - change (true && true) with true. cbv iota. rewrite upd_same. lia.
        - change (true && false) with false. cbv iota. pose proof (LB o). lia. }
      assert (IHX : match gc_loop dl bs memeq ub (app m tr) true cycles ks mx1 bs1 with
        | Ret tr' _ (mx', bds') => let m' := app (app m tr) tr' in
            wtr A A None (app m tr) tr' /\ Inv m' /\ Permutation (contents m') A /\ cap m' = cap (app m tr) /\ plim m' = plim (app m tr) /\ pmax m' = pmax (app m tr) /\
            mx' <= 2 * plim (app m tr) /\ (forall o, bds' o <= 255) /\ (true = false -> mx' = mx1) /\
            (true = true -> forall s, live (key m' s) = true -> good2 m' s (hf (key m' s)) mx' bds')
        | _ => False end).
      { apply IH; auto.
        - rewrite PL1. apply MM. - intros o'. apply MB.
        - intros _ t LT. destruct (Nat.eq_dec t d) as [TD | TD].
          + right. subst t. rewrite ED1. exact GD.
          + destruct (EO1 t TD LT) as (TK & TE). rewrite TE in LT.
            destruct (HG eq_refl t LT) as [[Y | Y] | G]; [congruence | auto |]. right. rewrite TE.
            apply (good2_mono m _ t _ mx _ bds); auto; lia. }
      destruct (gc_loop dl bs memeq ub (app m tr) true cycles ks mx1 bs1) as [tr' al' [mx' bds']| |]; try contradiction.
      unfold after. cbv zeta in *. rewrite app_app, C1, PL1, PM1 in *. destruct IHX as (H1 & H2 & H3 & H4 & H5 & H6 & H7 & H8 & H9 & H10).
      split; [apply wtr_app; auto|]. repeat (split; auto). intros; discriminate.
    + destruct (N.eqb cycles 1).
      * cbv zeta. repeat (split; auto). intros; discriminate.
      * assert (IHX := IH (app m tr) false (cycles - 1)%N mx bds A I1 P1). rewrite PL1 in IHX.
        assert (IHY := IHX LM LB (fun X => False_ind _ (diff_false_true X))). clear IHX.
        destruct (gc_loop dl bs memeq ub (app m tr) false (cycles - 1) ks mx bds) as [tr' al' [mx' bds']| |]; try contradiction.
        unfold after. cbv zeta in *. rewrite app_app, C1, PM1 in *. destruct IHY as (H1 & H2 & H3 & H4 & H5 & H6 & H7 & H8 & H9 & H10).
        split; [apply wtr_app; auto|]. repeat (split; auto); try (intros; discriminate).
Qed.

(** the final stores to the bounds *)
Lemma bounds_app : forall l bds m, let m' := app m (map (fun o => SBnd o (bds o)) l) in
  cap m' = cap m /\ ents m' = ents m /\ plim m' = plim m /\ nent m' = nent m /\ pmax m' = pmax m /\ forall o, bnd m' o = if in_dec Nat.eq_dec o l then bds o else bnd m o.
Proof.
  induction l; intros bds m; [simpl; repeat (split; auto)|]. cbn [map]. cbv zeta. change (app m (?x :: ?t)) with (app (app1 m x) t).
  destruct (IHl bds (app1 m (SBnd a (bds a)))) as (H1 & H2 & H3 & H4 & H5 & H6). 
  change (app m (SBnd a (bds a) :: map (fun o => SBnd o (bds o)) l)) with (app (app1 m (SBnd a (bds a))) (map (fun o => SBnd o (bds o)) l)).
  repeat (split; [assumption|]). intros o. rewrite H6. simpl. unfold upd.
  destruct (in_dec Nat.eq_dec o l), (Nat.eq_dec o a), (Nat.eq_dec a o); subst; auto; congruence.
Qed.
Lemma hidx_lt : forall m h, wf m -> bidx m h < ncap m.
Proof.
  intros m h W. pose proof (wf_pos m W). unfold bidx, hidx, ncap. assert (h mod cap m < cap m)%N by (apply N.mod_lt; lia).
  generalize dependent (h mod cap m)%N. intros. lia.
Qed.
Lemma set_bounds : forall m mx bds (b2 : bool), Inv m -> mx <= 2 * plim m -> (dl = true -> b2 = true) ->
  (forall s, live (key m s) = true -> good2 m s (hf (key m s)) mx bds) ->
  forall b1 : bool, (b1 = true -> mx = pmax m) ->
  let m' := app m ((if b1 then [] else [SMax mx]) ++ (if b2 then all_bounds m bds else [])) in Inv m' /\ contents m' = contents m.
Proof.
  intros m mx bds b2 (C & U & NE) LM B2 G b1 B1 m'. pose proof C as (W & PM & CE).
  set (m1 := app m (if b1 then [] else [SMax mx])).
  assert (E1 : cap m1 = cap m /\ ents m1 = ents m /\ plim m1 = plim m /\ nent m1 = nent m /\ pmax m1 = mx).
  { unfold m1. destruct b1; simpl; auto. rewrite B1 by auto. auto. }
  destruct E1 as (E1 & E2 & E3 & E4 & E5).
  assert (E6 : cap m' = cap m /\ ents m' = ents m /\ plim m' = plim m /\ nent m' = nent m /\ pmax m' = mx /\ (dl = true -> forall o, o < ncap m -> bnd m' o = bds o)).
  { unfold m'. rewrite app_app. fold m1. destruct b2.
    - unfold all_bounds. destruct (bounds_app (slots m) bds m1) as (H1 & H2 & H3 & H4 & H5 & H6). repeat (split; [congruence|]).
      intros _ o L. rewrite H6. destruct (in_dec Nat.eq_dec o (slots m)) as [|NI]; auto. exfalso. apply NI, in_seq. unfold ncap in L. lia.
    - simpl. repeat (split; auto). intros D. specialize (B2 D). discriminate. }
  destruct E6 as (F1 & F2 & F3 & F4 & F5 & F6).
  assert (EC : contents m' = contents m) by (apply contents_ents; auto; intros; rewrite F2; auto).
  split; auto. split; [|rewrite EC, F4; auto].
  split; [destruct W as (j & J); exists j; rewrite F1; auto|]. split; [lia|].
  intros s LV. rewrite F2 in *. destruct (CE s LV) as (O & SL & _). split; auto. split; [unfold ncap; rewrite F1; auto|].
  destruct (G s LV) as (q & Q1 & Q2 & Q3 & Q4). exists q. rewrite (pi_cap ub m) by auto. split; auto. split.
  - split; [lia|]. intros D. assert (EB : bidx m' (hf (key m s)) = bidx m (hf (key m s))) by (unfold bidx, hidx; rewrite F1; auto).
    rewrite EB, F6; auto. apply hidx_lt; auto.
  - intros r R. rewrite F2, (pi_cap ub m) by auto. auto.
Qed.

Lemma slots_onto : forall m seed s, wf m -> s < ncap m -> In s (map (fun i => N.to_nat ((N.of_nat i + seed) mod cap m)) (slots m)).
Proof.
  intros m seed s W S. pose proof (wf_pos m W) as CP. apply in_map_iff.
  set (c := cap m) in *. set (t := (seed mod c)%N). assert (T : (t < c)%N) by (apply N.mod_lt; lia).
  assert (SC : (N.of_nat s < c)%N) by (unfold ncap in S; fold c in S; lia).
  exists (N.to_nat ((N.of_nat s + (c - t)) mod c)). split.
  - rewrite N2Nat.id. rewrite N.add_mod_idemp_l by lia.
    replace (N.of_nat s + (c - t) + seed)%N with (N.of_nat s + ((seed / c) + 1) * c)%N.
    + rewrite N.mod_add by lia. rewrite N.mod_small by auto. apply Nat2N.id.
    + pose proof (N.div_mod seed c). fold t in H. nia.
  - apply in_seq. fold c. assert (X : ((N.of_nat s + (c - t)) mod c < c)%N) by (apply N.mod_lt; lia).
    generalize dependent ((N.of_nat s + (c - t)) mod c)%N. intros y Y. clearbody c. lia.
Qed.
Lemma gc_ok : forall m al cycles seed A, Inv m -> Permutation (contents m) A ->
  exists tr al' b, gc dl bs memeq ub oracle m al cycles seed = Ret tr al' b /\ al <= al' /\
    wtr A A None m tr /\ Inv (app m tr) /\ Permutation (contents (app m tr)) A /\ (b = false -> tr = []).
Proof.
  intros m al cycles seed A I P. unfold gc. pose proof I as (C & U & NE).
  destruct (N.eqb_spec (nent m) 0) as [Z | Z].
  - assert (EC : contents m = []) by (rewrite Z in NE; destruct (contents m); auto; simpl in NE; lia).
    assert (GG : forall s, live (key m s) = true -> good2 m s (hf (key m s)) 0 (fun _ => 0)).
    { intros s L. assert (X : In (kv (ents m s)) (contents m)) by (apply in_contents; exists s; repeat split; auto; apply (proj2 (proj2 C) s L)). rewrite EC in X. destruct X. }
    destruct (set_bounds m 0 (fun _ => 0) dl I (Nat.le_0_l _) (fun D => D) GG false (fun X => False_ind _ (diff_false_true X))) as (I1 & P1).
    eexists. exists al, true. split; [reflexivity|]. split; auto.
    split; [apply w_quiet; [exact Logic.I|]; destruct dl; [apply wtr_bounds | constructor]|].
    split; [exact I1|]. split; [|intros; discriminate]. rewrite <- P, <- P1. auto.
  - set (full := N.eqb cycles 0).
    assert (LMX : (if full then 0 else pmax m) <= 2 * plim m) by (destruct full; [lia | apply C]).
    assert (HK : full = true -> forall s, live (key m s) = true -> In s (map (fun i => N.to_nat ((N.of_nat i + seed) mod cap m)) (slots m)) \/
      good2 m s (hf (key m s)) (if full then 0 else pmax m) (fun _ => 0)).
    { intros _ s L. left. apply slots_onto; [apply C | apply (proj2 (proj2 C) s L)]. }
    pose proof (gc_loop_ok _ m full cycles (if full then 0 else pmax m) (fun _ => 0) A I P LMX (fun _ => Nat.le_0_l _) HK) as GL.
    destruct (if full && dl then (oracle al, S al) else (true, al)) as [ok al1] eqn:EO.
    assert (LE : al <= al1) by (destruct (full && dl); inversion EO; subst; auto).
    destruct ok.
    2: { eexists. exists al1, false. split; [reflexivity|]. split; auto. split; [constructor|]. repeat (split; auto). }
    destruct (gc_loop dl bs memeq ub m full cycles (map (fun i => N.to_nat ((N.of_nat i + seed) mod cap m)) (slots m)) (if full then 0 else pmax m) (fun _ => 0)) as [tr x [mx bds]| |]; try contradiction.
    cbv zeta in GL. destruct GL as (H1 & H2 & H3 & H4 & H5 & H6 & H7 & H8 & H9 & H10).
    eexists. exists al1, true. split; [reflexivity|]. split; auto.
    assert (NC : ncap (app m tr) = ncap m) by (unfold ncap; congruence).
    assert (AB : all_bounds m bds = all_bounds (app m tr) bds) by (unfold all_bounds, slots; rewrite H4; auto).
    split.
    { apply wtr_app; auto. apply wtr_app.
      - destruct (Nat.eqb mx (pmax m)); [constructor | apply w_quiet; [exact Logic.I | constructor]].
      - destruct (full && dl); [apply wtr_bounds | constructor]. }
    destruct full eqn:FU.
    + rewrite AB, app_app. rewrite <- H5 in H7. rewrite <- H6.
      destruct (set_bounds (app m tr) mx bds (true && dl) H2 H7 (fun D => D) (H10 eq_refl) (Nat.eqb mx (pmax (app m tr)))) as (I1 & P1).
      { intros X. apply Nat.eqb_eq in X. auto. }
      split; auto. split; [rewrite P1; auto | intros; discriminate].
    + rewrite (H9 eq_refl), Nat.eqb_refl. simpl. rewrite app_nil_r. repeat (split; auto). intros; discriminate.
Qed.

(** ** Iteration *)
Definition from (m : tmap) (off : nat) : list ent := filter (fun e => live (ek e)) (map (ents m) (seq off (ncap m - off))).
Lemma next_loop_ok : forall f m off, 0 < f -> off + f = ncap m ->
  match next_loop f m off with Some (k, o') => off < o' <= ncap m /\ from m off = k :: from m o' | None => from m off = [] end.
Proof.
  induction f; intros m off F E; [lia|]. simpl.
  assert (X : from m off = (if live (key m off) then [ents m off] else []) ++ from m (S off)).
  { unfold from. replace (ncap m - off) with (S (ncap m - S off)) by lia. simpl. destruct (live (key m off)); auto. }
  destruct (live (key m off)) eqn:LV; [rewrite X; split; [lia | reflexivity]|]. simpl in X.
  change (N.to_nat (cap m)) with (ncap m). destruct (Nat.ltb_spec (S off) (ncap m)) as [L | L].
  - specialize (IHf m (S off)). destruct (next_loop f m (S off)) as [[k o']|].
    + destruct IHf as (A & B); try lia. rewrite X. split; [lia | auto].
    + rewrite X. apply IHf; lia.
  - rewrite X. unfold from. replace (ncap m - S off) with 0 by lia. reflexivity.
Qed.
Lemma iterate_ok : forall f m off, ncap m - off < f -> iterate f m off = Some (from m off).
Proof.
  induction f; intros m off F; [lia|]. simpl. unfold next. change (N.to_nat (cap m)) with (ncap m).
  destruct (Nat.leb_spec (ncap m) off) as [L | L].
  - unfold from. replace (ncap m - off) with 0 by lia. reflexivity.
  - pose proof (next_loop_ok (ncap m - off) m off) as N. destruct (next_loop (ncap m - off) m off) as [[k o']|].
    + destruct N as (A & B); try lia. rewrite IHf by lia. rewrite B. reflexivity.
    + rewrite N by lia. reflexivity.
Qed.
Lemma iterate_all : forall m, exists l, iterate (S (ncap m)) m 0 = Some l /\ map kv l = contents m.
Proof.
  intros m. rewrite iterate_ok by lia. eexists. split; [reflexivity|]. unfold from, contents, slots. rewrite Nat.sub_0_r. reflexivity.
Qed.

(** ** All operations *)
Definition pend_of (m : tmap) (o : op) : option nat := match o with OSet k _ l => pend0 dl bs memeq hf ub m k l | _ => None end.
Lemma mke_ok : forall k v l, valid k -> lok k l -> okent (mke k v l (hf k)).
Proof. intros k v l V L. split; auto. Qed.
Lemma op_ok : forall fuel m al o A tr al' r, Inv m -> Permutation (contents m) A -> pre bs len o ->
  run1 dl bs memeq hf ub oracle fuel m al o = Ret tr al' r -> sane bs len memeq A o r ->
  legal bs len memeq A o r (failed al al') /\ wtr A (aop bs len memeq A o r) (pend_of m o) m tr /\ Inv (app m tr) /\
  Permutation (contents (app m tr)) (aop bs len memeq A o r).
Proof.
  intros fuel m al o A tr al' r I P PR E SA. destruct o; unfold run1 in E; simpl pre in PR.
  - destruct PR as (VK & LK). pose proof (mke_ok k v l VK LK) as OE. set (e := mke k v l (hf k)) in *.
    destruct (mem k A) eqn:M.
    + destruct (put dl bs memeq ub oracle fuel m al e (hf k)) as [tr0 al0 r0| |] eqn:EP; inversion E; subst.
      destruct (put_present dl bs len memeq hf ub oracle CT fuel m al e A tr al' r0 I P OE M EP) as [(ER & _) | (ER & ET & EA)].
      * subst r0. simpl in SA. rewrite SA in M by auto. discriminate.
      * subst. simpl. rewrite M. split; auto. split; [constructor | auto].
    + assert (F : fresh k A) by (apply fresh_mem; auto).
      pose proof (put_absent dl bs len memeq hf ub oracle CT fuel m al e A I P OE F) as H. change (ek e) with k in H.
      destruct (put dl bs memeq ub oracle fuel m al e (hf k)) as [tr0 al0 r0| |] eqn:EP; inversion E; subst.
      destruct H as (H1 & H2 & H3 & H4 & H5). unfold putL in H4. simpl. destruct r0; auto.
  - destruct PR as (VK & LK). pose proof (mke_ok k v l VK LK) as OE.
    pose proof (set_ok dl bs len memeq hf ub oracle CT fuel m al (mke k v l (hf k)) A I P OE) as H. cbn [ek] in H.
    rewrite E in H. destruct H as (H1 & H2 & H3 & H4 & H5). cbn [ek ev el] in *. auto.
  - destruct PR as (VK & LK). destruct (get_ok dl bs len memeq hf ub CT m k l A I P VK LK) as (r0 & EG & L). rewrite EG in E. inversion E; subst.
    split; [destruct r as ((b & k') & v'); exact L|]. split; [constructor|]. simpl. auto.
  - destruct PR as (VK & LK). destruct (remove_ok dl bs len memeq hf ub CT m al k l A I P VK LK) as (tr0 & r0 & EG & L & W & I1 & P1). rewrite EG in E. inversion E; subst.
    split; [destruct r as ((b & k') & v'); exact L|]. auto.
  - pose proof (grow_ok dl bs len memeq hf ub oracle CT m al c I) as G.
    destruct (grow dl ub oracle m al c) as [tr0 al0 b| |]; inversion E; subst. destruct G as (L & G). simpl. split; auto. destruct b.
    + destruct G as (u & EU & IU & PU). subst tr. simpl. assert (PA : Permutation (contents u) A) by (rewrite PU; auto).
      split; [apply (wtr_swap dl bs len memeq hf ub); auto; constructor | auto].
    + subst tr. split; [constructor | auto].
  - destruct (gc_ok m al cycles seed A I P) as (tr0 & al0 & b & EG & L & H1 & H2 & H3 & _). rewrite EG in E. inversion E; subst. simpl. auto.
  - unfold reset, reset_size in E. destruct (oracle al); inversion E; subst; simpl; split; auto.
    + split; [apply w_map; [apply (fits_map dl bs len memeq hf ub); [apply create_inv | rewrite create_contents; intros x []] | constructor]|].
      split; [apply create_inv|]. rewrite create_contents. auto.
    + split; [constructor | auto].
  - unfold reset_size in E. destruct (oracle al); inversion E; subst; simpl; split; auto.
    + split; [apply w_map; [apply (fits_map dl bs len memeq hf ub); [apply create_inv | rewrite create_contents; intros x []] | constructor]|].
      split; [apply create_inv|]. rewrite create_contents. auto.
    + split; [constructor | auto].
Qed.
Lemma reach_inv : forall m A al, reach dl bs len memeq hf ub oracle m A al -> Inv m /\ Permutation (contents m) A.
Proof.
  intros m A al R. induction R.
  - unfold init in H. destruct (oracle al); inversion H; subst. split; [apply create_inv | rewrite create_contents; auto].
  - destruct IHR as (I & P). destruct (op_ok fuel m al o A tr al' r I P H H0 H1) as (_ & _ & K1 & K2). auto.
Qed.
End O.

(** * Statements for the property file *)
Section T.
Variables (dl bs : bool) (len : N -> N) (memeq : N -> N -> N -> bool) (hf : N -> N) (ub : N -> N -> N) (oracle : nat -> bool).
Variable CT : contract bs len memeq hf.
Notation reach := (reach dl bs len memeq hf ub oracle). Notation run1 := (run1 dl bs memeq hf ub oracle).
Notation INV := (reach_inv dl bs len memeq hf ub oracle CT).

Lemma t_semantics : forall m A al o fuel tr al' r, reach m A al -> pre bs len o -> run1 fuel m al o = Ret tr al' r -> sane bs len memeq A o r ->
  legal bs len memeq A o r (failed oracle al al') /\ Permutation (contents (app m tr)) (aop bs len memeq A o r) /\
  distinct bs len memeq (aop bs len memeq A o r).
Proof.
  intros m A al o fuel tr al' r R P E SA. destruct (INV m A al R) as (I & PC).
  destruct (op_ok dl bs len memeq hf ub oracle CT fuel m al o A tr al' r I PC P E SA) as (K1 & _ & (C & U & NE) & K2).
  split; auto. split; auto. exact (uniq_perm bs len memeq _ _ K2 U).
Qed.
Lemma t_put : forall m A al k v l fuel tr al' r, reach m A al -> valid len k -> lok bs len k l -> mem bs len memeq k A = true ->
  (forall s, s < N.to_nat (cap m) -> ek (ents m s) <> TOMB) ->
  run1 fuel m al (OPut k v l) = Ret tr al' r -> r = (false, 0%N, 0%N) /\ tr = [] /\ al' = al.
Proof.
  intros m A al k v l fuel tr al' r R V L M NT E. destruct (INV m A al R) as (I & PC). unfold Ht_Spec.run1 in E.
  destruct (put dl bs memeq ub oracle fuel m al (mke k v l (hf k)) (hf k)) as [tr0 al0 r0| |] eqn:EP; inversion E; subst.
  destruct (put_present dl bs len memeq hf ub oracle CT fuel m al (mke k v l (hf k)) A tr al' r0 I PC (mke_ok bs len hf k v l V L) M EP) as [(_ & s & S1 & S2) | (E1 & E2 & E3)].
  - exfalso. exact (NT s S1 S2).
  - subst. auto.
Qed.
Lemma no_bad : forall m A al o fuel, Inv dl bs len memeq hf ub m -> Permutation (contents m) A -> pre bs len o -> run1 fuel m al o <> Bad.
Proof.
  intros m A al o fuel I PC P E. destruct o; unfold Ht_Spec.run1 in E; simpl in P.
  - destruct P as (V & L). pose proof (mke_ok bs len hf k v l V L) as OE. destruct (mem bs len memeq k A) eqn:M.
    + pose proof (put_present_ok dl bs len memeq hf ub oracle CT fuel m al (mke k v l (hf k)) A I PC OE M) as H. cbn [ek] in H.
      destruct (put dl bs memeq ub oracle fuel m al (mke k v l (hf k)) (hf k)); congruence.
    + assert (F : fresh bs len memeq k A) by (apply fresh_mem; auto).
      pose proof (put_absent dl bs len memeq hf ub oracle CT fuel m al (mke k v l (hf k)) A I PC OE F) as H. cbn [ek] in H.
      destruct (put dl bs memeq ub oracle fuel m al (mke k v l (hf k)) (hf k)); [discriminate | discriminate | destruct H].
  - destruct P as (V & L). pose proof (set_ok dl bs len memeq hf ub oracle CT fuel m al (mke k v l (hf k)) A I PC (mke_ok bs len hf k v l V L)) as H. cbn [ek] in H. rewrite E in H. destruct H.
  - destruct P as (V & L). destruct (get_ok dl bs len memeq hf ub CT m k l A I PC V L) as (r & EG & _). rewrite EG in E. discriminate.
  - destruct P as (V & L). destruct (remove_ok dl bs len memeq hf ub CT m al k l A I PC V L) as (tr & r & EG & _). rewrite EG in E. discriminate.
  - pose proof (grow_ok dl bs len memeq hf ub oracle CT m al c I) as G. destruct (grow dl ub oracle m al c); try discriminate. destruct G.
  - destruct (gc_ok dl bs len memeq hf ub oracle CT m al cycles seed A I PC) as (tr & al' & b & EG & _). rewrite EG in E. discriminate.
  - unfold reset, reset_size in E. destruct (oracle al); discriminate.
  - unfold reset_size in E. destruct (oracle al); discriminate.
Qed.
Lemma t_no_bad : forall m A al o fuel, reach m A al -> pre bs len o -> run1 fuel m al o <> Bad.
Proof. intros m A al o fuel R P. destruct (INV m A al R) as (I & PC). exact (no_bad m A al o fuel I PC P). Qed.
Definition inserting (o : op) : bool := match o with OPut _ _ _ | OSet _ _ _ => true | _ => false end.
Lemma t_returns : forall m A al o fuel, reach m A al -> pre bs len o -> inserting o = false -> exists tr al' r, run1 fuel m al o = Ret tr al' r.
Proof.
  intros m A al o fuel R P N. destruct (INV m A al R) as (I & PC). pose proof (t_no_bad m A al o fuel R P) as NB.
  assert (NL : run1 fuel m al o <> Loop).
  { pose proof (grow_not_loop dl ub oracle m al) as GL. assert (CP : (0 < cap m)%N) by (apply wf_pos, I).
    destruct o; try discriminate; unfold Ht_Spec.run1; simpl in P.
    - destruct P as (V & L). destruct (get_ok dl bs len memeq hf ub CT m k l A I PC V L) as (r & EG & _). rewrite EG. discriminate.
    - destruct P as (V & L). destruct (remove_ok dl bs len memeq hf ub CT m al k l A I PC V L) as (tr & r & EG & _). rewrite EG. discriminate.
    - specialize (GL c CP). destruct (grow dl ub oracle m al c); congruence.
    - destruct (gc_ok dl bs len memeq hf ub oracle CT m al cycles seed A I PC) as (tr & al' & b & E & _). rewrite E. discriminate.
    - unfold reset, reset_size. destruct (oracle al); discriminate.
    - unfold reset_size. destruct (oracle al); discriminate. }
  destruct (run1 fuel m al o) as [tr al' r| |]; [eauto | congruence | congruence].
Qed.
Lemma t_maintain : forall m A al o fuel tr al' b k v, reach m A al -> run1 fuel m al o = Ret tr al' (b, k, v) ->
  match o with
  | OGrow _ | OGc _ _ => Permutation (contents (app m tr)) (contents m) /\ (b = false -> app m tr = m)
  | OReset | OResetSize _ => if b then contents (app m tr) = [] else app m tr = m
  | _ => True
  end.
Proof.
  intros m A al o fuel tr al' b k v R E. destruct (INV m A al R) as (I & PC).
  destruct o; auto; unfold Ht_Spec.run1 in E.
  - pose proof (grow_ok dl bs len memeq hf ub oracle CT m al c I) as G. destruct (grow dl ub oracle m al c) as [tr0 al0 b0| |]; inversion E; subst.
    destruct G as (_ & G). destruct b; [destruct G as (u & E1 & _ & PU); subst; split; [exact PU | intros; discriminate] | subst; split; auto].
  - destruct (gc_ok dl bs len memeq hf ub oracle CT m al cycles seed A I PC) as (tr0 & al0 & b0 & E0 & _ & _ & _ & H & F). rewrite E0 in E. inversion E; subst.
    split; [rewrite H; symmetry; auto | intros X; rewrite (F X); auto].
  - unfold reset, reset_size in E. destruct (oracle al); inversion E; subst; auto. apply create_contents.
  - unfold reset_size in E. destruct (oracle al); inversion E; subst; auto. apply create_contents.
Qed.
Lemma t_iterate : forall m A al, reach m A al ->
  exists l, iterate (S (N.to_nat (cap m))) m 0 = Some l /\ Permutation (map kv l) A /\ distinct bs len memeq (map kv l) /\
            count m = N.of_nat (length A) /\ snd (stat m) = N.of_nat (length A).
Proof.
  intros m A al R. destruct (INV m A al R) as ((C & U & NE) & PC).
  destruct (iterate_all m) as (l & E1 & E2). exists l. split; auto. rewrite E2. split; auto. split; auto. unfold count, stat. simpl. rewrite NE, (Permutation_length PC). auto.
Qed.
End T.

Definition h0 (k : N) : N := (k * 0)%N.
Definition okmem (i : nat) : bool := true.
Definition eqd (n a b : N) : bool := N.eqb a b.
Notation rop := (r_op false false (fun _ => 1%N) eqd h0 (fun _ _ => 0%N) okmem).
Ltac vc := vm_compute; reflexivity.

(** put 5, put 6, remove 5, put 6 again *)
Lemma t_put_refuted : exists m A al tr al' r,
  reach false false (fun _ => 1%N) eqd h0 (fun _ _ => 0%N) okmem m A al /\ mem false (fun _ => 1%N) eqd 6 A = true /\
  run1 false false eqd h0 (fun _ _ => 0%N) okmem 1 m al (OPut 6 99 1) = Ret tr al' r /\ fst (fst r) = true /\
  contents (app m tr) = [(6, 99); (6, 60)]%N /\ count (app m tr) = 2%N /\
  exists tr2 al2, run1 false false eqd h0 (fun _ _ => 0%N) okmem 1 (app m tr) al' (ORemove 6 1) = Ret tr2 al2 (true, 6, 99)%N /\
                  get false false eqd (fun _ _ => 0%N) (app (app m tr) tr2) 6 1 (h0 6) = Some (true, 6, 60)%N.
Proof.
  do 6 eexists. split.
  - eapply (rop _ [(6, 60); (5, 50)]%N _ (ORemove 5 1) 1 _ _ (true, 5, 50)%N).
    + eapply (rop _ [(5, 50)]%N _ (OPut 6 60 1) 1 _ _ (true, 0, 0)%N).
      * eapply (rop _ []%N _ (OPut 5 50 1) 1 _ _ (true, 0, 0)%N).
        -- eapply (r_init _ _ _ _ _ _ _ 8 0). reflexivity.
        -- repeat split; discriminate. -- vc. -- intros _. vc.
      * repeat split; discriminate. * vc. * intros _. vc.
    + repeat split; discriminate. + vc. + exact I.
  - split; [vc|]. split; [vc|]. split; [vc|]. split; [vc|]. split; [vc|]. do 2 eexists. split; vc.
Qed.
(** two bytestrings at one address: "abc" is stored, "ab" is not, and get of "ab" finds "abc" *)
Lemma t_alias_refuted : exists tr al',
  put false true (fun _ _ _ => true) (fun _ _ => 0%N) okmem 1 (create 8) 0 (mke 8 70 3 5) 5 = Ret tr al' true /\
  get false true (fun _ _ _ => true) (fun _ _ => 0%N) (app (create 8) tr) 8 2 5 = Some (true, 8, 70)%N.
Proof. do 2 eexists. split; vc. Qed.
Definition h3 (k : N) : N := (k * 0 + 3)%N.
Notation rop3 := (r_op false false (fun _ => 1%N) eqd h3 (fun _ _ => 0%N) okmem).
(** put 5, put 6, remove 5, put 6 again, grow *)
Lemma t_grow_refuted : exists m A al tr al' tr2 al2,
  reach false false (fun _ => 1%N) eqd h3 (fun _ _ => 0%N) okmem m A al /\
  run1 false false eqd h3 (fun _ _ => 0%N) okmem 1 m al (OPut 6 99 1) = Ret tr al' (true, 0, 0)%N /\
  get false false eqd (fun _ _ => 0%N) (app m tr) 6 1 (h3 6) = Some (true, 6, 99)%N /\
  run1 false false eqd h3 (fun _ _ => 0%N) okmem 1 (app m tr) al' (OGrow 16) = Ret tr2 al2 (true, 0, 0)%N /\
  get false false eqd (fun _ _ => 0%N) (app (app m tr) tr2) 6 1 (h3 6) = Some (true, 6, 60)%N.
Proof.
  do 7 eexists. split.
  - eapply (rop3 _ [(6, 60); (5, 50)]%N _ (ORemove 5 1) 1 _ _ (true, 5, 50)%N).
    + eapply (rop3 _ [(5, 50)]%N _ (OPut 6 60 1) 1 _ _ (true, 0, 0)%N).
      * eapply (rop3 _ []%N _ (OPut 5 50 1) 1 _ _ (true, 0, 0)%N).
        -- eapply (r_init _ _ _ _ _ _ _ 8 0). reflexivity.
        -- repeat split; discriminate. -- vc. -- intros _. vc.
      * repeat split; discriminate. * vc. * intros _. vc.
    + repeat split; discriminate. + vc. + exact I.
  - split; [vc|]. split; [vc|]. split; vc.
Qed.
