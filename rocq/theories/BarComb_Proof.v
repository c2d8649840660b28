From Coq Require Import Arith NArith List Bool Lia.
From Verif Require Import Lib LockProg BarSpec BarProg Helpers_Model BarComb_Model BarComb_Spec.
Import ListNotations.
Local Arguments upd : simpl never.
Local Arguments Nat.ltb : simpl never.
Local Arguments Nat.leb : simpl never.
Local Arguments Nat.odd : simpl never.
Local Arguments N.modulo : simpl never.
Local Arguments N.add : simpl never.
Local Arguments N.sub : simpl never.

Lemma odd_S : forall m, Nat.odd (S m) = negb (Nat.odd m).
Proof. intros. rewrite Nat.odd_succ, <- Nat.negb_odd. auto. Qed.
Lemma cnt_and_le : forall P Q n, cnt (fun i => P i && Q i) n <= cnt P n.
Proof. intros. apply cnt_mono. intros i _ H. apply andb_prop in H. tauto. Qed.
Lemma cnt_and_full : forall P Q n, cnt (fun i => P i && Q i) n = cnt P n -> forall i, i < n -> P i = true -> Q i = true.
Proof.
  intros P Q. induction n as [|n IH]; intros H i Hi Hp; [lia|]. cbn [cnt] in H. assert (L := cnt_and_le P Q n).
  destruct (Nat.eq_dec i n); [subst i|apply IH; auto; try lia].
  - rewrite Hp in H. destruct (Q n); auto. cbn in H. lia.
  - destruct (P n), (Q n); cbn in H; lia.
Qed.
Lemma cnt_and_all : forall P Q n, (forall i, i < n -> P i = true -> Q i = true) -> cnt (fun i => P i && Q i) n = cnt P n.
Proof. intros. apply cnt_ext. intros i Hi. destruct (P i) eqn:E; cbn; auto. Qed.

Section Pf.
Variables (h : heap) (n m : nat) (grp : nat -> nat).
Hypothesis HP : proper h n m grp.
Notation exp := (expected h n m grp). Notation step := (step h n grp). Notation childb := (child_of h).

Lemma par_lt : forall c g, c < m -> par h c = Some g -> g < c.
Proof.
  intros c g Hc E. destruct (Nat.eq_dec c 0) as [->|H0]; [rewrite (p_root _ _ _ _ HP) in E; discriminate|].
  destruct (p_par _ _ _ _ HP c ltac:(lia) Hc) as [p [A B]]. congruence.
Qed.
Lemma childb_t : forall g c, childb g c = true <-> par h c = Some g.
Proof. intros. unfold child_of. destruct (par h c); [|split; discriminate]. rewrite Nat.eqb_eq. split; congruence. Qed.
Lemma last_eq : forall g a, g < m -> a < exp g -> N.eqb (N.of_nat a) (w32 (kk h g + (2 ^ 32 - 1))) = Nat.eqb (S a) (exp g).
Proof.
  intros g a Hg Ha. rewrite (p_k _ _ _ _ HP g Hg). assert (F := p_fit _ _ _ _ HP g Hg). assert (O := p_one _ _ _ _ HP g Hg).
  assert (E : w32 (w32 (N.of_nat (exp g)) + (2 ^ 32 - 1)) = N.of_nat (exp g - 1)).
  { unfold w32. set (x := exp g) in *. clearbody x. change (2 ^ 32)%N with 4294967296%N in *. rewrite N.add_mod_idemp_l by lia.
    replace (N.of_nat x + (4294967296 - 1))%N with (N.of_nat (x - 1) + 1 * 4294967296)%N by lia. rewrite N.mod_add, N.mod_small by lia. auto. }
  rewrite E. destruct (N.eqb_spec (N.of_nat a) (N.of_nat (exp g - 1))), (Nat.eqb_spec (S a) (exp g)); auto; lia.
Qed.

Definition frames (p : pc) : list nat := match p with Out => [] | F _ st | Sp _ st => st | Z g st | Ld g st | Fl g _ st => g :: st end.
Definition inside (p : pc) : bool := match p with Out => false | _ => true end.
Fixpoint chain (t g : nat) (st : list nat) : Prop :=
  match st with [] => g = grp t | c :: st' => par h c = Some g /\ c < m /\ chain t c st' end.
Definition at_ (en lv : nat -> nat) (thr : nat -> pc) (t : nat) : nat := match thr t with F _ [] => lv t | _ => en t end.
Definition lvl (E UP : nat -> nat) (v : nat) (c : nat) : Prop := E c = v /\ UP c = S v.
Definition downI (t g : nat) (st : list nat) (v : nat) (E UP : nat -> nat) : Prop :=
  g < m /\ chain t g st /\ Forall (lvl E UP v) (g :: st) /\ (forall p, par h g = Some p -> E p = S v).
Definition pcI (t : nat) (p : pc) (v : nat) (E UP : nat -> nat) : Prop :=
  match p with
  | Out => E (grp t) = v
  | F g st => g < m /\ chain t g st /\ E g = v /\ match st with [] => True | c :: st' => E c = v /\ UP c = v /\ Forall (lvl E UP v) st' end
  | Sp g st => g < m /\ chain t g st /\ (E g = v \/ E g = S v) /\ Forall (lvl E UP v) st
  | Z g st | Ld g st | Fl g _ st => downI t g st v E UP
  end.
Definition auxI (cn : nat -> N) (sn : nat -> bool) (p : pc) : Prop :=
  match p with Ld g _ => cn g = 0%N | Fl g v _ => cn g = 0%N /\ v = sn g | _ => True end.
Definition arrived (E UP at_ : nat -> nat) (g : nat) : nat :=
  cnt (fun t => Nat.eqb (grp t) g && Nat.eqb (at_ t) (S (E g))) n + cnt (fun c => childb g c && Nat.eqb (UP c) (S (E g))) m.
Definition allarr (E UP at_ : nat -> nat) (g : nat) : Prop :=
  (forall u, u < n -> grp u = g -> at_ u = S (E g)) /\ (forall c, c < m -> par h c = Some g -> UP c = S (E g)).

Record RG (E UP : nat -> nat) (H : nat -> option nat) (s : state) (en lv : nat -> nat) : Prop := mkR {
  r_sn : forall t, t < n -> lsn s t = Nat.odd (S (lv t));
  r_se : forall g, g < m -> sense s g = Nat.odd (E g);
  r_pc : forall t, t < n -> pcI t (thr s t) (lv t) E UP;
  r_ax : forall t, t < n -> auxI (count s) (sense s) (thr s t);
  r_el : forall t, t < n -> en t = if inside (thr s t) then S (lv t) else lv t;
  r_h : forall g t, H g = Some t <-> t < n /\ In g (frames (thr s t));
  r_free : forall g, g < m -> H g = None -> UP g = E g /\ (forall p, par h g = Some p -> E g = E p) /\
           count s g = N.of_nat (arrived E UP (at_ en lv (thr s)) g) /\ arrived E UP (at_ en lv (thr s)) g < exp g;
  r_held : forall g t, g < m -> H g = Some t -> allarr E UP (at_ en lv (thr s)) g }.
Definition R s en lv := exists E UP H, RG E UP H s en lv.

Lemma R_init : R init (fun _ => 0) (fun _ => 0).
Proof.
  exists (fun _ => 0), (fun _ => 0), (fun _ => None). 
  assert (HA : forall g, arrived (fun _ => 0) (fun _ => 0) (at_ (fun _ => 0) (fun _ => 0) (fun _ => Out)) g = 0).
  { intros g. unfold arrived. rewrite !cnt_all_false; auto; intros; cbn; apply andb_false_r. }
  constructor; cbn [thr count sense lsn init]; auto; try (cbn; auto; fail); try discriminate.
  - intros g t. split; [discriminate|intros [_ []]].
  - intros g Hg _. rewrite HA. repeat split; auto. assert (X := p_one _ _ _ _ HP g Hg). lia.
Qed.

Lemma chain_gt : forall st t g, chain t g st -> forall c, In c st -> g < c /\ c < m.
Proof.
  induction st as [|c st IH]; intros t g Hc x Hx; [destruct Hx|]. destruct Hc as [A [B C]]. assert (G := par_lt c g B A). destruct Hx as [<-|Hx]; auto.
  destruct (IH t c C x Hx). split; auto. lia.
Qed.
Lemma allarr_full : forall E UP a g, arrived E UP a g = exp g -> allarr E UP a g.
Proof.
  intros E UP a g Hf. unfold arrived, expected in Hf.
  assert (X := cnt_and_le (fun t => Nat.eqb (grp t) g) (fun t => Nat.eqb (a t) (S (E g))) n).
  assert (Y := cnt_and_le (fun c => childb g c) (fun c => Nat.eqb (UP c) (S (E g))) m).
  assert (X1 := cnt_and_full (fun t => Nat.eqb (grp t) g) (fun t => Nat.eqb (a t) (S (E g))) n ltac:(lia)).
  assert (Y1 := cnt_and_full (fun c => childb g c) (fun c => Nat.eqb (UP c) (S (E g))) m ltac:(lia)).
  split.
  - intros u Hu Hg. apply Nat.eqb_eq. apply X1; auto. apply Nat.eqb_eq. auto.
  - intros c Hc Hp. apply Nat.eqb_eq. apply Y1; auto. apply childb_t. auto.
Qed.
Lemma arrived_le : forall E UP a g, arrived E UP a g <= exp g.
Proof. intros. unfold arrived, expected. assert (X := cnt_and_le (fun t => Nat.eqb (grp t) g) (fun t => Nat.eqb (a t) (S (E g))) n).
  assert (Y := cnt_and_le (fun c => childb g c) (fun c => Nat.eqb (UP c) (S (E g))) m). lia. Qed.

Section Facts.
Variables (E UP : nat -> nat) (H : nat -> option nat) (s : state) (en lv : nat -> nat).
Hypothesis HR : RG E UP H s en lv.
Notation AT := (at_ en lv (thr s)).

Lemma hold_lt : forall g t, H g = Some t -> t < n.
Proof. intros g t Hh. apply (r_h _ _ _ _ _ _ HR) in Hh. tauto. Qed.

(* what a holder's position says about a held group and its parent *)
Lemma held_info : forall c t, c < m -> H c = Some t ->
  E c = lv t /\ (UP c = S (lv t) \/ UP c = lv t /\ exists g st, thr s t = F g (c :: st)) /\
  forall g, par h c = Some g ->
    (E g = lv t /\ H g = Some t) \/
    (exists st, thr s t = F g (c :: st) /\ E g = lv t) \/
    (exists st, thr s t = Sp g (c :: st) /\ (E g = lv t \/ E g = S (lv t))) \/
    (E g = S (lv t) /\ exists st, thr s t = Z c st \/ thr s t = Ld c st \/ exists v, thr s t = Fl c v st).
Proof.
  intros c t Hc Hh. assert (Hh' := Hh). apply (r_h _ _ _ _ _ _ HR) in Hh'. destruct Hh' as [Ht Hin]. assert (P := r_pc _ _ _ _ _ _ HR t Ht).
  assert (Hup : forall g, H g = Some t <-> In g (frames (thr s t))) by (intros g; rewrite (r_h _ _ _ _ _ _ HR); tauto).
  (* inside the stack *)
  assert (Hst : forall st g0, Forall (lvl E UP (lv t)) st -> chain t g0 st -> (forall x, In x st -> H x = Some t) -> In c st ->
            E c = lv t /\ UP c = S (lv t) /\ forall g, par h c = Some g -> (E g = lv t /\ H g = Some t) \/ (g = g0 /\ exists st', st = c :: st')).
  { induction st as [|x st IH]; intros g0 Hf Hch Hx Hi; [destruct Hi|]. inversion Hf as [|x' l' Hv Hvs]; subst. destruct Hch as [C1 [C2 C3]]. destruct Hi as [<-|Hi].
    - destruct Hv as [V1 V2]. repeat split; auto. intros g Hg. right. split; [congruence|eauto].
    - destruct (IH x Hvs C3 ltac:(intros; apply Hx; right; auto) Hi) as [A [B C]]. repeat split; auto. intros g Hg. destruct (C g Hg) as [D|[-> [st' D]]]; auto.
      left. destruct Hv as [V1 V2]. split; auto. apply Hx. left. auto. }
  assert (Hdown : forall g0 st, downI t g0 st (lv t) E UP -> frames (thr s t) = g0 :: st -> (exists st, thr s t = Z g0 st \/ thr s t = Ld g0 st \/ exists v, thr s t = Fl g0 v st) ->
     E c = lv t /\ (UP c = S (lv t) \/ UP c = lv t /\ exists g st, thr s t = F g (c :: st)) /\
     forall g, par h c = Some g -> (E g = lv t /\ H g = Some t) \/ (exists st, thr s t = F g (c :: st) /\ E g = lv t) \/
        (exists st, thr s t = Sp g (c :: st) /\ (E g = lv t \/ E g = S (lv t))) \/
        (E g = S (lv t) /\ exists st, thr s t = Z c st \/ thr s t = Ld c st \/ exists v, thr s t = Fl c v st)).
  { intros g0 st [D1 [D2 [D3 D4]]] Hfr Hpc. rewrite Hfr in Hin. inversion D3 as [|x' l' Hv Hvs]; subst. destruct Hin as [<-|Hin].
    - destruct Hv as [V1 V2]. repeat split; auto. intros g Hg. right. right. right. split; auto.
    - destruct (Hst st g0 Hvs D2) as [A [B C]]; auto. { intros x Hx. apply Hup. rewrite Hfr. right. auto. }
      repeat split; auto. intros g Hg. left. destruct (C g Hg) as [D|[-> _]]; auto. destruct Hv as [V1 V2]. split; auto. apply Hup. rewrite Hfr. left. auto. }
  destruct (thr s t) eqn:Et; cbn [frames] in Hin; cbn [pcI] in P.
  - destruct Hin.
  - destruct P as [P1 [P2 [P3 P4]]]. destruct st as [|x st]; [destruct Hin|]. destruct P4 as [P4 [P5 P6]]. destruct P2 as [C1 [C2 C3]]. destruct Hin as [<-|Hin].
    + repeat split; auto. { right. eauto. } intros g' Hg. right. left. exists st. rewrite C1 in Hg. injection Hg as <-. auto.
    + destruct (Hst st x P6 C3) as [A [B C]]; auto. { intros y Hy. apply Hup. cbn. auto. }
      repeat split; auto. intros g' Hg. left. destruct (C g' Hg) as [D|[-> _]]; auto. split; auto. apply Hup. cbn. auto.
  - destruct P as [P1 [P2 [P3 P4]]]. destruct (Hst st g P4 P2) as [A [B C]]; auto. { intros y Hy. apply Hup. cbn. auto. }
    repeat split; auto. intros g' Hg. destruct (C g' Hg) as [D|[-> [st' D]]]; auto. subst st. right. right. left. eauto.
  - apply (Hdown g st P); auto. exists st. auto.
  - apply (Hdown g st P); auto. exists st. auto.
  - apply (Hdown g st P); auto. exists st. eauto.
Qed.

Lemma E_par : forall c g, c < m -> par h c = Some g -> E c <= E g <= UP c.
Proof.
  intros c g Hc Hg. destruct (H c) as [t|] eqn:Eh.
  - destruct (held_info c t Hc Eh) as [A [B C]]. destruct (C g Hg) as [[D D2]|[[st [D1 D2]]|[[st [D1 D2]]|[D1 [st D2]]]]].
    + lia.
    + lia.
    + assert (UP c = S (lv t)) by (destruct B as [B|[_ [g' [st' B]]]]; [auto|congruence]). lia.
    + assert (UP c = S (lv t)). { destruct B as [B|[_ [g' [st' B]]]]; [auto|]. destruct D2 as [D2|[D2|[v D2]]]; congruence. } lia.
  - destruct (r_free _ _ _ _ _ _ HR c Hc Eh) as [A [B _]]. rewrite <- (B g Hg). lia.
Qed.
Lemma UP_le : forall g, g < m -> UP g <= S (E g).
Proof.
  intros g Hg. destruct (H g) as [t|] eqn:Eh.
  - destruct (held_info g t Hg Eh) as [A [B _]]. lia.
  - destruct (r_free _ _ _ _ _ _ HR g Hg Eh) as [A _]. lia.
Qed.
Lemma E_at : forall u, u < n -> lv u <= E (grp u) <= AT u /\ AT u <= S (E (grp u)).
Proof.
  intros u Hu. assert (P := r_pc _ _ _ _ _ _ HR u Hu). assert (L := r_el _ _ _ _ _ _ HR u Hu).
  assert (Hst : forall st g, Forall (lvl E UP (lv u)) st -> chain u g st -> st <> [] -> E (grp u) = lv u).
  { induction st as [|x st IH]; intros g Hf Hch Hx; [congruence|]. inversion Hf as [|x' l' Hv Hvs]; subst. destruct Hch as [C1 [C2 C3]].
    destruct st as [|y st]; [cbn in C3; subst x; apply Hv|]. apply (IH x); auto. discriminate. }
  unfold at_. destruct (thr s u) eqn:Et; cbn [inside] in L; cbn [pcI] in P.
  - lia.
  - destruct P as [P1 [P2 [P3 P4]]]. destruct st as [|x st]; [cbn in P2; subst g; lia|]. destruct P4 as [P4 [P5 P6]]. destruct P2 as [C1 [C2 C3]].
    destruct st as [|y st]; [cbn in C3; subst x; lia|]. assert (E (grp u) = lv u) by (apply (Hst (y :: st) x); auto; discriminate). lia.
  - destruct P as [P1 [P2 [P3 P4]]]. destruct st as [|x st]; [cbn in P2; subst g; lia|]. assert (E (grp u) = lv u) by (apply (Hst (x :: st) g); auto; discriminate). lia.
  - destruct P as [P1 [P2 [P3 P4]]]. inversion P3 as [|x' l' Hv Hvs]; subst. destruct st as [|x st]; [cbn in P2; subst g; destruct Hv; lia|]. assert (E (grp u) = lv u) by (apply (Hst (x :: st) g); auto; discriminate). lia.
  - destruct P as [P1 [P2 [P3 P4]]]. inversion P3 as [|x' l' Hv Hvs]; subst. destruct st as [|x st]; [cbn in P2; subst g; destruct Hv; lia|]. assert (E (grp u) = lv u) by (apply (Hst (x :: st) g); auto; discriminate). lia.
  - destruct P as [P1 [P2 [P3 P4]]]. inversion P3 as [|x' l' Hv Hvs]; subst. destruct st as [|x st]; [cbn in P2; subst g; destruct Hv; lia|]. assert (E (grp u) = lv u) by (apply (Hst (x :: st) g); auto; discriminate). lia.
Qed.
Lemma E_root : forall g, g < m -> E g <= E 0 /\ E 0 <= UP g /\ (g = 0 \/ 0 < g).
Proof.
  intros g. induction g as [g IH] using lt_wf_ind. intros Hg. destruct (Nat.eq_dec g 0) as [->|H0].
  - split; auto. split; auto. destruct (H 0) as [t|] eqn:Eh.
    + destruct (held_info 0 t Hg Eh) as [A [B _]]. lia.
    + destruct (r_free _ _ _ _ _ _ HR 0 Hg Eh) as [A _]. lia.
  - destruct (p_par _ _ _ _ HP g ltac:(lia) Hg) as [p [P1 P2]]. assert (X := E_par g p Hg P2). destruct (IH p P1 ltac:(lia)) as [A [B _]]. repeat split; try lia.
    destruct (H p) as [t|] eqn:Eh.
    + destruct (r_held _ _ _ _ _ _ HR p t ltac:(lia) Eh) as [_ C]. rewrite (C g Hg P2). assert (Y := UP_le p ltac:(lia)). lia.
    + destruct (r_free _ _ _ _ _ _ HR p ltac:(lia) Eh) as [C _]. lia.
Qed.
Lemma safe : forall t u, t < n -> u < n -> lv t <= en u.
Proof.
  intros t u Ht Hu. assert (A := E_at t Ht). assert (B := E_at u Hu). assert (Gt := p_grp _ _ _ _ HP t Ht). assert (Gu := p_grp _ _ _ _ HP u Hu).
  destruct (E_root (grp t) Gt) as [A1 [A2 _]]. destruct (E_root (grp u) Gu) as [B1 [B2 _]].
  assert (AT u <= en u) by (assert (L := r_el _ _ _ _ _ _ HR u Hu); unfold at_; destruct (thr s u); try destruct st; cbn in L; lia).
  assert (UP (grp u) <= AT u).
  { destruct (H (grp u)) as [x|] eqn:Eh.
    - destruct (r_held _ _ _ _ _ _ HR _ x Gu Eh) as [C _]. rewrite (C u Hu eq_refl). apply UP_le. auto.
    - destruct (r_free _ _ _ _ _ _ HR _ Gu Eh) as [C _]. lia. }
  lia.
Qed.
(* nobody is about to arrive at a held group *)
Lemma F_free : forall t g st, t < n -> thr s t = F g st -> H g = None.
Proof.
  intros t g st Ht Et. destruct (H g) as [u|] eqn:Eh; auto. exfalso. assert (P := r_pc _ _ _ _ _ _ HR t Ht). rewrite Et in P. destruct P as [P1 [P2 [P3 P4]]].
  destruct (r_held _ _ _ _ _ _ HR g u P1 Eh) as [A B]. destruct st as [|c st].
  - cbn in P2. specialize (A t Ht (eq_sym P2)). unfold at_ in A. rewrite Et in A. lia.
  - destruct P2 as [C1 [C2 C3]]. destruct P4 as [P4 [P5 P6]]. specialize (B c C2 C1). lia.
Qed.
End Facts.

Lemma R_safe : forall s en lv t u, R s en lv -> t < n -> u < n -> lv t <= en u.
Proof. intros s en lv t u [E [UP [H HR]]]. exact (safe E UP H s en lv HR t u). Qed.

Lemma arrived_ext : forall E UP a E' UP' a' g, E' g = E g -> (forall u, u < n -> grp u = g -> a' u = a u) -> (forall c, c < m -> par h c = Some g -> UP' c = UP c) ->
  arrived E' UP' a' g = arrived E UP a g.
Proof.
  intros E UP a E' UP' a' g HE Ha HU. unfold arrived. rewrite HE. f_equal; apply cnt_ext.
  - intros u Hu. destruct (Nat.eqb_spec (grp u) g); [rewrite Ha|]; auto.
  - intros c Hc. destruct (childb g c) eqn:Ec; auto. apply childb_t in Ec. rewrite HU; auto.
Qed.
Lemma Forall_lvl_UP : forall E UP UP' v st, (forall x, In x st -> UP' x = UP x) -> Forall (lvl E UP v) st -> Forall (lvl E UP' v) st.
Proof. intros E UP UP' v st Hx Hf. rewrite Forall_forall in *. intros x Hi. destruct (Hf x Hi). split; auto. rewrite Hx; auto. Qed.
Lemma pcI_UP : forall t p v E UP UP', (forall x, In x (frames p) -> UP' x = UP x) -> pcI t p v E UP -> pcI t p v E UP'.
Proof.
  intros t p v E UP UP' Hx Hp. destruct p; cbn [pcI frames] in *; auto.
  - destruct Hp as [A [B [C D]]]. repeat split; auto. destruct st; auto. destruct D as [D1 [D2 D3]]. repeat split; auto; [rewrite Hx; [auto|left; auto]|]. apply Forall_lvl_UP with UP; auto. intros; apply Hx; right; auto.
  - destruct Hp as [A [B [C D]]]. repeat split; auto. apply Forall_lvl_UP with UP; auto.
  - destruct Hp as [A [B [C D]]]. repeat split; auto. apply Forall_lvl_UP with UP; auto.
  - destruct Hp as [A [B [C D]]]. repeat split; auto. apply Forall_lvl_UP with UP; auto.
  - destruct Hp as [A [B [C D]]]. repeat split; auto. apply Forall_lvl_UP with UP; auto.
Qed.

(* arrival of t at g *)
Definition newUP (UP : nat -> nat) (st : list nat) (v : nat) : nat -> nat := match st with [] => UP | c :: _ => upd UP c (S v) end.
Lemma newUP_other : forall E UP H s en lv t g st, RG E UP H s en lv -> t < n -> thr s t = F g st ->
  forall u, u < n -> u <> t -> forall x, In x (frames (thr s u)) -> newUP UP st (lv t) x = UP x.
Proof.
  intros E UP H s en lv t g st HR Ht Et u Hu Hut x Hx. destruct st as [|c st]; auto. cbn. rewrite upd_other; auto. intros ->.
  assert (A : H c = Some u) by (apply (r_h _ _ _ _ _ _ HR); auto).
  assert (B : H c = Some t) by (apply (r_h _ _ _ _ _ _ HR); rewrite Et; cbn; auto). congruence.
Qed.
Lemma arrive : forall E UP H s en lv t g st p', RG E UP H s en lv -> t < n -> thr s t = F g st -> (match p' with F _ [] => False | Out => False | _ => True end) ->
  let a' := at_ en lv (upd (thr s) t p') in
  arrived E (newUP UP st (lv t)) a' g = S (arrived E UP (at_ en lv (thr s)) g) /\
  (forall g', g' <> g -> arrived E (newUP UP st (lv t)) a' g' = arrived E UP (at_ en lv (thr s)) g') /\
  (forall u, u < n -> a' u = at_ en lv (thr s) u \/ u = t /\ grp t = g /\ a' u = S (E g)) /\
  (forall c, newUP UP st (lv t) c = UP c \/ par h c = Some g /\ newUP UP st (lv t) c = S (E g)).
Proof.
  intros E UP H s en lv t g st p' HR Ht Et Hp' a'. assert (P := r_pc _ _ _ _ _ _ HR t Ht). rewrite Et in P. destruct P as [P1 [P2 [P3 P4]]].
  assert (L := r_el _ _ _ _ _ _ HR t Ht). rewrite Et in L. cbn in L.
  assert (A1 : a' t = S (lv t)) by (unfold a', at_; rewrite upd_same; destruct p'; try destruct st0; tauto).
  assert (A2 : forall u, u <> t -> a' u = at_ en lv (thr s) u) by (intros u Hu; unfold a', at_; rewrite upd_other; auto).
  destruct st as [|c st]; cbn [newUP].
  - cbn in P2. assert (A3 : at_ en lv (thr s) t = lv t) by (unfold at_; rewrite Et; auto). split; [|split; [|split]].
    + unfold arrived. 
      assert (X := cnt_change (fun t0 => Nat.eqb (grp t0) g && Nat.eqb (at_ en lv (thr s) t0) (S (E g))) (fun t0 => Nat.eqb (grp t0) g && Nat.eqb (a' t0) (S (E g))) n t Ht).
      cbv beta in X. rewrite A1, A3, <- P2, P3, !Nat.eqb_refl in X. destruct (Nat.eqb_spec (lv t) (S (lv t))); [lia|]. cbn [andb] in X. rewrite P3.
      assert (Y : forall i, i <> t -> Nat.eqb (grp i) g && Nat.eqb (at_ en lv (thr s) i) (S (lv t)) = Nat.eqb (grp i) g && Nat.eqb (a' i) (S (lv t))) by (intros; rewrite A2; auto).
      specialize (X Y). lia.
    + intros g' Hg'. apply arrived_ext; auto. intros u Hu Hg. apply A2. intros ->. congruence.
    + intros u Hu. destruct (Nat.eq_dec u t); [right; subst; repeat split; auto; congruence|auto].
    + auto.
  - destruct P2 as [C1 [C2 C3]]. destruct P4 as [P4 [P5 P6]]. assert (A3 : at_ en lv (thr s) t = S (lv t)) by (unfold at_; rewrite Et; auto). split; [|split; [|split]].
    + unfold arrived. rewrite (cnt_ext (fun t0 => Nat.eqb (grp t0) g && Nat.eqb (a' t0) (S (E g))) (fun t0 => Nat.eqb (grp t0) g && Nat.eqb (at_ en lv (thr s) t0) (S (E g)))).
      2: { intros u Hu. destruct (Nat.eq_dec u t); [subst u; rewrite A1, A3; auto|rewrite A2; auto]. }
      assert (X := cnt_change (fun c0 => childb g c0 && Nat.eqb (UP c0) (S (E g))) (fun c0 => childb g c0 && Nat.eqb (upd UP c (S (lv t)) c0) (S (E g))) m c C2).
      cbv beta in X. assert (Hc : childb g c = true) by (apply childb_t; auto). rewrite upd_same, P5, P3, Hc, Nat.eqb_refl in X. destruct (Nat.eqb_spec (lv t) (S (lv t))); [lia|]. cbn [andb] in X. rewrite P3.
      assert (Y : forall i, i <> c -> childb g i && Nat.eqb (UP i) (S (lv t)) = childb g i && Nat.eqb (upd UP c (S (lv t)) i) (S (lv t))) by (intros; rewrite upd_other; auto).
      specialize (X Y). lia.
    + intros g' Hg'. apply arrived_ext; auto.
      * intros u Hu _. destruct (Nat.eq_dec u t); [subst u; lia|apply A2; auto].
      * intros x Hx Hp. rewrite upd_other; auto. intros ->. congruence.
    + intros u Hu. left. destruct (Nat.eq_dec u t); [subst u; lia|apply A2; auto].
    + intros x. destruct (Nat.eq_dec x c); [right; subst x; rewrite upd_same; split; auto; congruence|left; apply upd_other; auto].
Qed.

(* return of t from the frame of an already flipped group *)
Lemma release : forall E UP H s en lv t g st s', RG E UP H s en lv -> t < n -> thr s t = Sp g st -> E g = S (lv t) ->
  count s' = count s -> sense s' = sense s -> (forall u, thr s' u = if Nat.eq_dec u t then match st with [] => Out | c :: st' => Z c st' end else thr s u) ->
  (forall u, lsn s' u = if Nat.eq_dec u t then match st with [] => negb (lsn s t) | _ => lsn s t end else lsn s u) ->
  RG E UP H s' en (match st with [] => upd lv t (S (lv t)) | _ => lv end).
Proof.
  intros E UP H s en lv t g st s' HR Ht Et HE Hc Hse Hth Hls.
  assert (P := r_pc _ _ _ _ _ _ HR t Ht). rewrite Et in P. destruct P as [P1 [P2 [P3 P4]]].
  assert (L := r_el _ _ _ _ _ _ HR t Ht). rewrite Et in L. cbn in L. set (lv' := match st with [] => upd lv t (S (lv t)) | _ => lv end).
  assert (Lo : forall u, u <> t -> lv' u = lv u) by (intros u Hu; unfold lv'; destruct st; auto; apply upd_other; auto).
  assert (Fr : forall u, frames (thr s' u) = frames (thr s u)).
  { intros u. rewrite Hth. destruct (Nat.eq_dec u t); auto. subst u. rewrite Et. destruct st; auto. }
  assert (AT : forall u, at_ en lv' (thr s') u = at_ en lv (thr s) u).
  { intros u. unfold at_. rewrite Hth. destruct (Nat.eq_dec u t).
    - subst u. rewrite Et. destruct st; auto.
    - rewrite Lo; auto. }
  assert (AR : forall g', arrived E UP (at_ en lv' (thr s')) g' = arrived E UP (at_ en lv (thr s)) g') by (intros g'; apply arrived_ext; auto).
  constructor.
  - intros u Hu. rewrite Hls. destruct (Nat.eq_dec u t); [subst u|rewrite Lo by auto; apply (r_sn _ _ _ _ _ _ HR); auto].
    assert (X := r_sn _ _ _ _ _ _ HR t Ht). unfold lv'. destruct st; [|auto]. rewrite upd_same, X, odd_S, (odd_S (S (lv t))), (odd_S (lv t)). auto.
  - rewrite Hse. apply (r_se _ _ _ _ _ _ HR).
  - intros u Hu. rewrite Hth. destruct (Nat.eq_dec u t); [subst u|rewrite Lo by auto; apply (r_pc _ _ _ _ _ _ HR); auto].
    unfold lv'. destruct st as [|c st]; cbn [pcI].
    + cbn in P2. subst g. rewrite upd_same. auto.
    + destruct P2 as [C1 [C2 C3]]. repeat split; auto. intros p Hp. rewrite C1 in Hp. injection Hp as <-. auto.
  - intros u Hu. rewrite Hth, Hc, Hse. destruct (Nat.eq_dec u t); [destruct st; cbn; auto|apply (r_ax _ _ _ _ _ _ HR); auto].
  - intros u Hu. rewrite Hth. destruct (Nat.eq_dec u t); [subst u|rewrite Lo by auto; apply (r_el _ _ _ _ _ _ HR); auto].
    unfold lv'. destruct st; cbn [inside]; [rewrite upd_same|]; auto.
  - intros x u. rewrite Fr. apply (r_h _ _ _ _ _ _ HR).
  - intros x Hx Hh. rewrite AR, Hc. apply (r_free _ _ _ _ _ _ HR); auto.
  - intros x u Hx Hh. destruct (r_held _ _ _ _ _ _ HR x u Hx Hh) as [A B]. split; auto. intros v Hv Hg. rewrite AT. auto.
Qed.

(* the flip of g by its holder t *)
Lemma flip : forall E UP H s en lv t g v st, RG E UP H s en lv -> t < n -> thr s t = Fl g v st ->
  RG (upd E g (S (E g))) UP (upd H g None) (mk (count s) (upd (sense s) g (negb v)) (lsn s) (upd (thr s) t (Sp g st))) en lv /\ E g = lv t.
Proof.
  intros E UP H s en lv t g v st HR Ht Et.
  assert (P := r_pc _ _ _ _ _ _ HR t Ht). rewrite Et in P. destruct P as [P1 [P2 [P3 P4]]]. inversion P3 as [|x' l' Hv Hvs]; subst. destruct Hv as [V1 V2].
  assert (Hh : H g = Some t) by (apply (r_h _ _ _ _ _ _ HR); rewrite Et; cbn; auto).
  destruct (r_held _ _ _ _ _ _ HR g t P1 Hh) as [A1 A2].
  assert (Gst : forall x, In x st -> g < x /\ x < m) by (intros x Hx; eapply chain_gt; eauto).
  assert (Ax := r_ax _ _ _ _ _ _ HR t Ht). rewrite Et in Ax. destruct Ax as [X1 X2].
  assert (AT : forall u, at_ en lv (upd (thr s) t (Sp g st)) u = at_ en lv (thr s) u).
  { intros u. unfold at_, upd. destruct (Nat.eq_dec u t); auto. subst u. rewrite Et. auto. }
  assert (Hn : forall u x, u <> t -> In x (frames (thr s u)) -> u < n -> x <> g).
  { intros u x Hu Hx Hun ->. assert (H g = Some u) by (apply (r_h _ _ _ _ _ _ HR); auto). congruence. }
  assert (Hlv : forall u l, u <> t -> u < n -> (forall x, In x l -> In x (frames (thr s u))) -> Forall (lvl E UP (lv u)) l -> Forall (lvl (upd E g (S (E g))) UP (lv u)) l).
  { intros u l Hu Hun Hi Hf. rewrite Forall_forall in *. intros x Hx. destruct (Hf x Hx). split; auto. rewrite upd_other; auto. eapply Hn; eauto. }
  assert (Hdn : forall u c l, u <> t -> u < n -> frames (thr s u) = c :: l -> downI u c l (lv u) E UP -> downI u c l (lv u) (upd E g (S (E g))) UP).
  { intros u c l Hu Hun Hfr [D1 [D2 [D3 D4]]]. repeat split; auto.
    - apply Hlv; auto. intros x Hx. rewrite Hfr. auto.
    - intros p Hp. specialize (D4 p Hp). unfold upd. destruct (Nat.eq_dec p g); auto. subst p. exfalso. specialize (A2 c D1 Hp). inversion D3 as [|y l' Hv' _]; subst. destruct Hv'. lia. }
  split; [|exact V1]. constructor; cbn [count sense lsn thr].
  - apply (r_sn _ _ _ _ _ _ HR).
  - intros x Hx. unfold upd. destruct (Nat.eq_dec x g); [subst x|apply (r_se _ _ _ _ _ _ HR); auto]. rewrite X2, (r_se _ _ _ _ _ _ HR), odd_S; auto.
  - intros u Hu. unfold upd at 1. destruct (Nat.eq_dec u t).
    + subst u. cbn [pcI]. rewrite upd_same. repeat split; auto.
      rewrite Forall_forall in *. intros x Hx. destruct (Hvs x Hx). split; auto. rewrite upd_other; auto. specialize (Gst x Hx). lia.
    + assert (P := r_pc _ _ _ _ _ _ HR u Hu). assert (L := r_el _ _ _ _ _ _ HR u Hu). specialize (A1 u Hu). unfold at_ in A1. destruct (thr s u) eqn:Eu; cbn [pcI frames inside] in *.
      * unfold upd. destruct (Nat.eq_dec (grp u) g) as [Eg|]; auto. specialize (A1 Eg). rewrite Eg in *. lia.
      * assert (X := F_free E UP H s en lv HR u g0 st0 Hu Eu). assert (g0 <> g) by congruence. destruct P as [B1 [B2 [B3 B4]]]. repeat split; auto; [rewrite upd_other; auto|].
        destruct st0 as [|c st0]; auto. destruct B4 as [B4 [B5 B6]]. assert (c <> g) by (apply (Hn u c); auto; rewrite Eu; cbn; auto).
        repeat split; auto; [rewrite upd_other; auto|]. apply Hlv; auto. rewrite Eu. cbn. auto.
      * destruct P as [B1 [B2 [B3 B4]]]. repeat split; auto; [|apply Hlv; auto; rewrite Eu; cbn; auto].
        unfold upd. destruct (Nat.eq_dec g0 g); auto. subst g0. destruct st0 as [|c st0].
        -- cbn in B2. specialize (A1 (eq_sym B2)). lia.
        -- destruct B2 as [C1 [C2 C3]]. specialize (A2 c C2 C1). inversion B4 as [|y l' Hv' _]; subst. destruct Hv'. lia.
      * apply Hdn; auto. rewrite Eu. auto.
      * apply Hdn; auto. rewrite Eu. auto.
      * apply Hdn; auto. rewrite Eu. auto.
  - intros u Hu. unfold upd at 2. destruct (Nat.eq_dec u t); [cbn; auto|]. assert (X := r_ax _ _ _ _ _ _ HR u Hu). destruct (thr s u) eqn:Eu; cbn [auxI] in *; auto.
    destruct X. split; auto. rewrite upd_other; auto. apply (Hn u g0); auto. rewrite Eu. cbn. auto.
  - intros u Hu. assert (L := r_el _ _ _ _ _ _ HR u Hu). unfold upd. destruct (Nat.eq_dec u t); auto. subst u. rewrite Et in L. auto.
  - intros x u. assert (X := r_h _ _ _ _ _ _ HR x u). unfold upd. destruct (Nat.eq_dec x g) as [Exg|Exg]; destruct (Nat.eq_dec u t) as [Eut|Eut]; try subst x; try subst u.
    + split; [discriminate|]. intros [_ Hi]. cbn in Hi. specialize (Gst g Hi). lia.
    + split; [discriminate|]. intros Hi. apply X in Hi. congruence.
    + rewrite Et in X. cbn [frames] in *. rewrite X. cbn [In]. split; [intros [Y [Y2|Y2]]; auto; congruence|tauto].
    + auto.
  - intros x Hx. unfold upd at 1. destruct (Nat.eq_dec x g).
    + intros _. subst x. rewrite upd_same. repeat split; try lia.
      * intros p Hp. rewrite upd_other by (intros ->; assert (Y := par_lt g g P1 Hp); lia). rewrite (P4 p Hp). lia.
      * rewrite X1. unfold arrived. rewrite !cnt_all_false; auto.
        -- intros c Hc. destruct (childb g c) eqn:Ec; auto. apply childb_t in Ec. rewrite (A2 c Hc Ec), upd_same. cbn [andb]. apply Nat.eqb_neq. lia.
        -- intros u Hu. destruct (Nat.eqb_spec (grp u) g) as [Eg|]; auto. rewrite AT, (A1 u Hu Eg), upd_same. cbn [andb]. apply Nat.eqb_neq. lia.
      * unfold arrived. rewrite !cnt_all_false; [assert (Y := p_one _ _ _ _ HP g P1); lia| |].
        -- intros c Hc. destruct (childb g c) eqn:Ec; auto. apply childb_t in Ec. rewrite (A2 c Hc Ec), upd_same. cbn [andb]. apply Nat.eqb_neq. lia.
        -- intros u Hu. destruct (Nat.eqb_spec (grp u) g) as [Eg|]; auto. rewrite AT, (A1 u Hu Eg), upd_same. cbn [andb]. apply Nat.eqb_neq. lia.
    + intros Hh'. destruct (r_free _ _ _ _ _ _ HR x Hx Hh') as [B1 [B2 [B3 B4]]]. rewrite (upd_other _ E) by auto.
      assert (AR : arrived (upd E g (S (E g))) UP (at_ en lv (upd (thr s) t (Sp g st))) x = arrived E UP (at_ en lv (thr s)) x) by (apply arrived_ext; auto; apply upd_other; auto).
      rewrite AR. repeat split; auto. intros p Hp. unfold upd. destruct (Nat.eq_dec p g); auto. subst p. exfalso. specialize (A2 x Hx Hp). specialize (B2 g Hp). lia.
  - intros x u Hx. unfold upd at 1. destruct (Nat.eq_dec x g); [discriminate|]. intros Hh'. destruct (r_held _ _ _ _ _ _ HR x u Hx Hh') as [B1 B2].
    split; rewrite (upd_other _ E) by auto; auto. intros u' Hu' Hg. rewrite AT. auto.
Qed.

Lemma upd_z : forall (f : nat -> nat) x v y, y <> x -> upd f x v y = f y.
Proof. intros. apply upd_other. auto. Qed.

Lemma R_step : forall s en lv l s' e, R s en lv -> step s l = Some (s', e) ->
  (e = [] /\ R s' en lv) \/ (exists t, e = [Enter t] /\ R s' (upd en t (S (en t))) lv) \/
  (exists t, e = [Leave t] /\ R s' en (upd lv t (S (lv t)))).
Proof.
  intros s en lv [t a] s' e [E [UP [H HR]]] Hs. unfold BarComb_Model.step in Hs. destruct (Nat.ltb_spec t n) as [Ht|]; [|discriminate]. cbn [negb] in Hs.
  assert (P := r_pc _ _ _ _ _ _ HR t Ht). assert (L := r_el _ _ _ _ _ _ HR t Ht).
  destruct (thr s t) eqn:Et; destruct a; try discriminate; cbn [pcI inside] in P, L.
  - (* enter *)
    injection Hs as <- <-. right. left. exists t. split; auto. exists E, UP, H.
    assert (AT : forall u, at_ (upd en t (S (en t))) lv (upd (thr s) t (F (grp t) [])) u = at_ en lv (thr s) u).
    { intros u. unfold at_, upd. destruct (Nat.eq_dec u t); auto. subst u. rewrite Et. auto. }
    assert (AR : forall g', arrived E UP (at_ (upd en t (S (en t))) lv (upd (thr s) t (F (grp t) []))) g' = arrived E UP (at_ en lv (thr s)) g') by (intros g'; apply arrived_ext; auto).
    constructor; cbn [count sense lsn thr go]; try apply HR.
    + intros u Hu. unfold upd. destruct (Nat.eq_dec u t); [subst u|apply (r_pc _ _ _ _ _ _ HR); auto]. cbn. repeat split; auto. apply (p_grp _ _ _ _ HP); auto.
    + intros u Hu. unfold upd. destruct (Nat.eq_dec u t); [cbn; auto|apply (r_ax _ _ _ _ _ _ HR); auto].
    + intros u Hu. unfold upd. destruct (Nat.eq_dec u t); [subst u; cbn; lia|apply (r_el _ _ _ _ _ _ HR); auto].
    + intros x u. rewrite (r_h _ _ _ _ _ _ HR). unfold upd. destruct (Nat.eq_dec u t); [subst u; rewrite Et; cbn|]; tauto.
    + intros x Hx Hh. rewrite AR. apply (r_free _ _ _ _ _ _ HR); auto.
    + intros x u Hx Hh. destruct (r_held _ _ _ _ _ _ HR x u Hx Hh) as [A B]. split; auto. intros v Hv Hg. rewrite AT. auto.
  - (* arrive *)
    left. destruct P as [P1 [P2 [P3 P4]]]. assert (Hfr := F_free E UP H s en lv HR t g st Ht Et). destruct (r_free _ _ _ _ _ _ HR g P1 Hfr) as [F1 [F2 [F3 F4]]].
    rewrite F3, last_eq in Hs by auto. assert (Fit := p_fit _ _ _ _ HP g P1).
    assert (Hin : forall x, In x st -> x <> g) by (intros x Hx; assert (Y := chain_gt st t g P2 x Hx); lia).
    assert (Hoth : forall u, u < n -> u <> t -> forall x, In x (frames (thr s u)) -> x <> g).
    { intros u Hu Hut x Hx ->. assert (H g = Some u) by (apply (r_h _ _ _ _ _ _ HR); auto). congruence. }
    destruct (Nat.eqb_spec (S (arrived E UP (at_ en lv (thr s)) g)) (exp g)) as [Hl|Hl].
    + (* the last one *)
      assert (Hgen : forall p' UP2, frames p' = g :: st -> (match p' with F _ [] => False | Out => False | _ => True end) ->
         (forall x, x <> g -> UP2 x = newUP UP st (lv t) x) -> (forall c, par h c = Some g -> UP2 c = newUP UP st (lv t) c) -> (par h g <> None -> UP2 g = newUP UP st (lv t) g) -> pcI t p' (lv t) E UP2 -> auxI (upd (count s) g (w32 (N.of_nat (arrived E UP (at_ en lv (thr s)) g) + 1))) (sense s) p' ->
         RG E UP2 (upd H g (Some t)) (mk (upd (count s) g (w32 (N.of_nat (arrived E UP (at_ en lv (thr s)) g) + 1))) (sense s) (lsn s) (upd (thr s) t p')) en lv).
      { intros p' UP2 Hf Hp' HU1 HU2 HU3 Hpc Hax. destruct (arrive E UP H s en lv t g st p' HR Ht Et Hp') as [A1 [A2 [A3 A4]]].
        assert (HU : forall c x, par h c = Some x -> UP2 c = newUP UP st (lv t) c) by (intros c x Hc; destruct (Nat.eq_dec c g); [subst c; apply HU3; congruence|auto]).
        constructor; cbn [count sense lsn thr].
        - apply (r_sn _ _ _ _ _ _ HR).
        - apply (r_se _ _ _ _ _ _ HR).
        - intros u Hu. unfold upd. destruct (Nat.eq_dec u t); [subst u; auto|]. apply pcI_UP with UP; [|apply (r_pc _ _ _ _ _ _ HR); auto].
          intros x Hx. rewrite HU1 by (eapply Hoth; eauto). eapply newUP_other; eauto.
        - intros u Hu. unfold upd at 2. destruct (Nat.eq_dec u t); [subst u; auto|]. assert (X := r_ax _ _ _ _ _ _ HR u Hu).
          assert (Y := Hoth u Hu n0). destruct (thr s u) eqn:Eu; cbn [auxI frames] in *; auto; rewrite upd_other; auto; apply Y; left; auto.
        - intros u Hu. unfold upd. destruct (Nat.eq_dec u t); [subst u|apply (r_el _ _ _ _ _ _ HR); auto]. destruct p'; cbn in *; auto. discriminate.
        - intros x u. assert (X := r_h _ _ _ _ _ _ HR x u). unfold upd. destruct (Nat.eq_dec x g) as [Exg|Exg]; destruct (Nat.eq_dec u t) as [Eut|Eut]; try subst x; try subst u.
          + rewrite Hf. cbn. tauto.
          + split; [intros Y; congruence|]. intros [Y1 Y2]. exfalso. apply (Hoth u Y1 Eut g Y2). auto.
          + rewrite Hf, X, Et. cbn. split; [intros [Y1 Y2]; auto|intros [Y1 [Y2|Y2]]; auto; congruence].
          + auto.
        - intros x Hx. unfold upd at 1. destruct (Nat.eq_dec x g); [discriminate|]. intros Hh. destruct (r_free _ _ _ _ _ _ HR x Hx Hh) as [B1 [B2 [B3 B4]]].
          rewrite (arrived_ext E (newUP UP st (lv t)) (at_ en lv (upd (thr s) t p')) E UP2) by (auto; intros; eapply HU; eauto).
          rewrite A2 by auto. rewrite upd_other by auto. repeat split; auto. rewrite HU1 by auto. destruct (A4 x) as [Y|[Y1 Y2]]; [congruence|].
          (* x free cannot be the frame below g *)
          destruct st as [|c st]; cbn in Y2; auto. unfold upd in Y2. unfold newUP. unfold upd. destruct (Nat.eq_dec x c); auto. subst x. exfalso.
          assert (H c = Some t) by (apply (r_h _ _ _ _ _ _ HR); rewrite Et; cbn; auto). congruence.
        - intros x u Hx. unfold upd at 1. destruct (Nat.eq_dec x g).
          + subst x. intros Y. assert (FA := allarr_full E (newUP UP st (lv t)) (at_ en lv (upd (thr s) t p')) g ltac:(lia)). destruct FA as [FA1 FA2]. split; auto. intros c Hc Hg. rewrite (HU c g Hg). auto.
          + intros Hh. destruct (r_held _ _ _ _ _ _ HR x u Hx Hh) as [B1 B2]. split.
            * intros v Hv Hg. destruct (A3 v Hv) as [Y|[Y1 [Y2 Y3]]]; [rewrite Y; auto|]. subst v. congruence.
            * intros c Hc Hg. rewrite (HU c x Hg). destruct (A4 c) as [Y|[Y1 Y2]]; [rewrite Y; auto|congruence]. }
      destruct (par h g) as [p|] eqn:Ep; injection Hs as <- <-; (split; [auto|]).
      * exists E, (newUP UP st (lv t)), (upd H g (Some t)). apply Hgen; auto; [|cbn; auto]. cbn [pcI].
        assert (Hp := par_lt g p P1 Ep). specialize (F2 p eq_refl). split; [lia|]. split; [cbn; auto|]. split; [lia|]. split; [auto|].
        assert (Hng : newUP UP st (lv t) g = UP g) by (destruct st as [|c st]; auto; cbn; apply upd_other; apply not_eq_sym, Hin; left; auto).
        split; [lia|]. destruct st as [|c st]; auto. destruct P4 as [P4 [P5 P6]]. constructor; [split; [auto|cbn; apply upd_same]|].
        destruct P2 as [C1 [C2 C3]]. apply Forall_lvl_UP with UP; auto. intros x Hx. cbn. apply upd_other. assert (Y := chain_gt st t c C3 x Hx). lia.
      * exists E, (upd (newUP UP st (lv t)) g (S (lv t))), (upd H g (Some t)). apply Hgen; auto.
        -- intros x Hx. apply upd_other. auto.
        -- intros c Hc. apply upd_other. congruence.
        -- congruence.
        -- cbn [pcI]. split; auto. split; auto. split; [|congruence]. constructor; [split; [auto|apply upd_same]|].
           destruct st as [|c st]; auto. destruct P4 as [P4 [P5 P6]]. destruct P2 as [C1 [C2 C3]]. assert (Hcg := Hin c (or_introl eq_refl)).
           constructor; [split; [auto|rewrite upd_other by auto; cbn; apply upd_same]|]. apply Forall_lvl_UP with UP; auto. intros x Hx.
           rewrite upd_other by (apply Hin; right; auto). cbn. apply upd_other. assert (Y := chain_gt st t c C3 x Hx). lia.
        -- cbn. auto.
    + (* not the last one *)
      injection Hs as <- <-. split; auto. exists E, (newUP UP st (lv t)), H. destruct (arrive E UP H s en lv t g st (Sp g st) HR Ht Et I) as [A1 [A2 [A3 A4]]].
      assert (Hnf : forall x, H x = None -> newUP UP st (lv t) x = UP x).
      { intros x Hx. destruct st as [|c st]; auto. cbn. apply upd_other. intros ->. assert (H c = Some t) by (apply (r_h _ _ _ _ _ _ HR); rewrite Et; cbn; auto). congruence. }
      constructor; cbn [count sense lsn thr go].
      * apply (r_sn _ _ _ _ _ _ HR).
      * apply (r_se _ _ _ _ _ _ HR).
      * intros u Hu. unfold upd. destruct (Nat.eq_dec u t); [subst u|apply pcI_UP with UP; [eapply newUP_other; eauto|apply (r_pc _ _ _ _ _ _ HR); auto]].
        cbn [pcI]. repeat split; auto. destruct st as [|c st]; auto. destruct P4 as [P4 [P5 P6]]. constructor; [split; [auto|cbn; apply upd_same]|].
        destruct P2 as [C1 [C2 C3]]. apply Forall_lvl_UP with UP; auto. intros x Hx. cbn. apply upd_other. assert (Y := chain_gt st t c C3 x Hx). lia.
      * intros u Hu. unfold upd at 2. destruct (Nat.eq_dec u t); [cbn; auto|]. assert (X := r_ax _ _ _ _ _ _ HR u Hu).
        assert (Y := Hoth u Hu n0). destruct (thr s u) eqn:Eu; cbn [auxI frames] in *; auto; rewrite upd_other; auto; apply Y; left; auto.
      * intros u Hu. unfold upd. destruct (Nat.eq_dec u t); [subst u; cbn; auto|apply (r_el _ _ _ _ _ _ HR); auto].
      * intros x u. rewrite (r_h _ _ _ _ _ _ HR). unfold upd. destruct (Nat.eq_dec u t); [subst u; rewrite Et; cbn|]; tauto.
      * intros x Hx Hh. destruct (r_free _ _ _ _ _ _ HR x Hx Hh) as [B1 [B2 [B3 B4]]]. rewrite Hnf by auto. destruct (Nat.eq_dec x g).
        -- subst x. rewrite A1, upd_same. repeat split; auto; [|lia]. unfold w32. change (2 ^ 32)%N with 4294967296%N in *. rewrite N.mod_small by lia. lia.
        -- rewrite A2, upd_other by auto. auto.
      * intros x u Hx Hh. destruct (r_held _ _ _ _ _ _ HR x u Hx Hh) as [B1 B2]. assert (x <> g) by congruence. split.
        -- intros v Hv Hg. destruct (A3 v Hv) as [Y|[Y1 [Y2 Y3]]]; [rewrite Y; auto|]. subst v. congruence.
        -- intros c Hc Hg. destruct (A4 c) as [Y|[Y1 Y2]]; [rewrite Y; auto|congruence].
  - (* spin *)
    destruct P as [P1 [P2 [P3 P4]]]. rewrite (r_sn _ _ _ _ _ _ HR t Ht), (r_se _ _ _ _ _ _ HR g P1) in Hs.
    destruct P3 as [P3|P3].
    + rewrite P3, odd_S in Hs. destruct (Nat.odd (lv t)); cbn [negb Bool.eqb] in Hs; injection Hs as <- <-; left; (split; [auto|]); exists E, UP, H; exact HR.
    + rewrite P3, eqb_reflx in Hs. injection Hs as Hs. unfold ret in *.
      assert (X := release E UP H s en lv t g st s' HR Ht Et P3). destruct st as [|c st]; injection Hs as <- <-.
      * right. right. exists t. split; auto. exists E, UP, H. apply X; cbn [count sense lsn thr]; auto.
      * left. split; auto. exists E, UP, H. apply X; cbn [count sense lsn thr go]; auto. intros u. destruct (Nat.eq_dec u t); subst; auto.
  - (* count := 0 *)
    injection Hs as <- <-. left. split; auto. exists E, UP, H.
    assert (Hh : H g = Some t) by (apply (r_h _ _ _ _ _ _ HR); rewrite Et; cbn; auto).
    assert (AT : forall u, at_ en lv (upd (thr s) t (Ld g st)) u = at_ en lv (thr s) u).
    { intros u. unfold at_, upd. destruct (Nat.eq_dec u t); auto. subst u. rewrite Et. auto. }
    assert (AR : forall g', arrived E UP (at_ en lv (upd (thr s) t (Ld g st))) g' = arrived E UP (at_ en lv (thr s)) g') by (intros g'; apply arrived_ext; auto).
    constructor; cbn [count sense lsn thr go]; try apply HR.
    + intros u Hu. unfold upd. destruct (Nat.eq_dec u t); [subst u; auto|apply (r_pc _ _ _ _ _ _ HR); auto].
    + intros u Hu. unfold upd at 2. destruct (Nat.eq_dec u t); [cbn; apply upd_same|]. assert (X := r_ax _ _ _ _ _ _ HR u Hu).
      unfold upd. destruct (thr s u) eqn:Eu; cbn [auxI] in *; auto; destruct (Nat.eq_dec g0 g); auto; split; tauto.
    + intros u Hu. unfold upd. destruct (Nat.eq_dec u t); [subst u; cbn; auto|apply (r_el _ _ _ _ _ _ HR); auto].
    + intros x u. rewrite (r_h _ _ _ _ _ _ HR). unfold upd. destruct (Nat.eq_dec u t); [subst u; rewrite Et; cbn|]; tauto.
    + intros x Hx Hh'. rewrite AR, upd_other by congruence. apply (r_free _ _ _ _ _ _ HR); auto.
    + intros x u Hx Hh'. destruct (r_held _ _ _ _ _ _ HR x u Hx Hh') as [A B]. split; auto. intros v Hv Hg. rewrite AT. auto.
  - (* load *)
    injection Hs as <- <-. left. split; auto. exists E, UP, H. assert (X0 := r_ax _ _ _ _ _ _ HR t Ht). rewrite Et in X0. cbn in X0.
    assert (AT : forall u, at_ en lv (upd (thr s) t (Fl g (sense s g) st)) u = at_ en lv (thr s) u).
    { intros u. unfold at_, upd. destruct (Nat.eq_dec u t); auto. subst u. rewrite Et. auto. }
    assert (AR : forall g', arrived E UP (at_ en lv (upd (thr s) t (Fl g (sense s g) st))) g' = arrived E UP (at_ en lv (thr s)) g') by (intros g'; apply arrived_ext; auto).
    constructor; cbn [count sense lsn thr go]; try apply HR.
    + intros u Hu. unfold upd. destruct (Nat.eq_dec u t); [subst u; auto|apply (r_pc _ _ _ _ _ _ HR); auto].
    + intros u Hu. unfold upd. destruct (Nat.eq_dec u t); [cbn; auto|apply (r_ax _ _ _ _ _ _ HR); auto].
    + intros u Hu. unfold upd. destruct (Nat.eq_dec u t); [subst u; cbn; auto|apply (r_el _ _ _ _ _ _ HR); auto].
    + intros x u. rewrite (r_h _ _ _ _ _ _ HR). unfold upd. destruct (Nat.eq_dec u t); [subst u; rewrite Et; cbn|]; tauto.
    + intros x Hx Hh'. rewrite AR. apply (r_free _ _ _ _ _ _ HR); auto.
    + intros x u Hx Hh'. destruct (r_held _ _ _ _ _ _ HR x u Hx Hh') as [A B]. split; auto. intros w Hw Hg. rewrite AT. auto.
  - (* flip *)
    injection Hs as Hs. destruct (flip E UP H s en lv t g v st HR Ht Et) as [HF HE].
    assert (X := release _ _ _ _ en lv t g st s' HF Ht). cbn [thr count sense lsn] in X. rewrite upd_same in X. specialize (X eq_refl). rewrite upd_same in X. specialize (X ltac:(lia)).
    unfold ret in *. destruct st as [|c st]; injection Hs as <- <-.
    + right. right. exists t. split; auto. do 3 eexists. apply X; cbn [count sense lsn thr]; auto. intros u. unfold upd. destruct (Nat.eq_dec u t); auto.
    + left. split; auto. do 3 eexists. apply X; cbn [count sense lsn thr go]; auto; intros u; unfold upd; destruct (Nat.eq_dec u t); subst; auto.
Qed.

Definition w (p : pc) : nat :=
  match p with Out => 0 | F g st => 10 * (g + 1) + 5 * length st | Sp _ st => 5 * length st + 1 | Z _ st => 5 * length st + 4 | Ld _ st => 5 * length st + 3 | Fl _ _ st => 5 * length st + 2 end.
Definition mu (s : state) : nat := wsum (fun t => w (thr s t)) n.

Lemma R_prog : forall s en lv k t, R s en lv -> (forall u, u < n -> k <= en u) -> t < n -> lv t < k ->
  exists l s' e, step s l = Some (s', e) /\ (forall u, ~ In (Enter u) e) /\ (e = [Leave t] \/ mu s' < mu s).
Proof.
  intros s en lv k t [E [UP [H HR]]] HK Ht Hl.
  assert (Hb : forall u, u < n -> negb (Nat.ltb u n) = false) by (intros u Hu; destruct (Nat.ltb_spec u n); auto; lia).
  assert (Hret : forall s0 u g st, u < n -> thr s0 = thr s -> frames (thr s u) = st \/ frames (thr s u) = g :: st -> inside (thr s u) = true -> 5 * length st < w (thr s u) ->
     (forall x, ~ In (Enter x) (snd (ret s0 u st))) /\ mu (fst (ret s0 u st)) < mu s).
  { intros s0 u g st Hu Hth _ Hi Hw. unfold ret. destruct st as [|c st]; cbn [fst snd]; split.
    - intros x [X|[]]. discriminate.
    - unfold mu. cbn [thr]. rewrite Hth. apply wsum_drop; auto.
    - intros x [].
    - unfold mu. cbn [thr go]. rewrite Hth. apply wsum_drop; auto. cbn [w length] in *. lia. }
  (* who can move at once *)
  destruct (ex_dec (fun u => match thr s u with F _ _ | Z _ _ | Ld _ _ | Fl _ _ _ => true | _ => false end) n) as [[x [Hx Hx2]]|Hno].
  { exists (x, ATick). unfold BarComb_Model.step. rewrite Hb by auto. destruct (thr s x) eqn:Ex; try discriminate.
    - assert (P := r_pc _ _ _ _ _ _ HR x Hx). rewrite Ex in P. destruct P as [P1 [P2 [P3 P4]]].
      destruct (N.eqb _ _); [destruct (par h g) as [p|] eqn:Ep|]; do 2 eexists; (split; [reflexivity|]); (split; [intros u []|]); right; unfold mu; cbn [thr go]; (apply wsum_drop; [auto|]); rewrite Ex; cbn [w length]; try lia.
      assert (Y := par_lt g p P1 Ep). lia.
    - do 2 eexists; (split; [reflexivity|]); (split; [intros u []|]); right; unfold mu; cbn [thr go]; (apply wsum_drop; [auto|]); rewrite Ex; cbn [w length]; lia.
    - do 2 eexists; (split; [reflexivity|]); (split; [intros u []|]); right; unfold mu; cbn [thr go]; (apply wsum_drop; [auto|]); rewrite Ex; cbn [w length]; lia.
    - set (s0 := mk (count s) (upd (sense s) g (negb v)) (lsn s) (thr s)). destruct (Hret s0 x g st Hx eq_refl) as [A B]; try (rewrite Ex; cbn; auto; fail); [rewrite Ex; cbn [w]; lia|].
      exists (fst (ret s0 x st)), (snd (ret s0 x st)). rewrite <- surjective_pairing. auto. }
  (* or is released *)
  destruct (ex_dec (fun u => match thr s u with Sp g _ => Bool.eqb (lsn s u) (sense s g) | _ => false end) n) as [[x [Hx Hx2]]|HnoR].
  { destruct (thr s x) eqn:Ex; try discriminate. exists (x, ATick). unfold BarComb_Model.step. rewrite Hb, Ex, Hx2 by auto.
    destruct (Hret s x g st Hx eq_refl) as [A B]; try (rewrite Ex; cbn; auto; fail); [rewrite Ex; cbn [w]; lia|].
    exists (fst (ret s x st)), (snd (ret s x st)). rewrite <- surjective_pairing. auto. }
  exfalso.
  assert (Hsp : forall u, u < n -> inside (thr s u) = true -> exists g st, thr s u = Sp g st /\ g < m /\ E g = lv u).
  { intros u Hu Hi. assert (A := Hno u Hu). assert (B := HnoR u Hu). assert (P := r_pc _ _ _ _ _ _ HR u Hu). destruct (thr s u) eqn:Eu; try discriminate.
    destruct P as [P1 [P2 [P3 P4]]]. exists g, st. repeat split; auto. destruct P3 as [P3|P3]; auto.
    rewrite (r_sn _ _ _ _ _ _ HR u Hu), (r_se _ _ _ _ _ _ HR g P1), P3, eqb_reflx in B. discriminate. }
  assert (Hheld : forall g u, H g = Some u -> u < n /\ exists g' st, thr s u = Sp g' st /\ g' < m /\ E g' = lv u /\ In g st /\ chain u g' st).
  { intros g u Hh. apply (r_h _ _ _ _ _ _ HR) in Hh. destruct Hh as [Hu Hi]. split; auto. destruct (Hsp u Hu) as [g' [st [A [B C]]]].
    { destruct (thr s u); auto. }
    exists g', st. rewrite A in Hi. assert (P := r_pc _ _ _ _ _ _ HR u Hu). rewrite A in P. destruct P as [_ [P _]]. auto. }
  (* a group that has not finished episode k is complete *)
  assert (Hfull : forall g, g < m -> E g < k -> H g <> None).
  { assert (G : forall d g, m - g < d -> g < m -> E g < k -> H g <> None).
    { induction d as [|d IH]; intros g Hd Hg He Hh; [lia|]. destruct (r_free _ _ _ _ _ _ HR g Hg Hh) as [A1 [A2 [A3 A4]]].
      enough (arrived E UP (at_ en lv (thr s)) g = exp g) by lia. unfold arrived, expected. f_equal; apply cnt_and_all.
      - intros u Hu Hgu. apply Nat.eqb_eq in Hgu. apply Nat.eqb_eq. destruct (E_at E UP H s en lv HR u Hu) as [B1 B2]. rewrite Hgu in *.
        assert (at_ en lv (thr s) u = en u). { unfold at_. assert (Y := Hno u Hu). destruct (thr s u); auto. discriminate. }
        specialize (HK u Hu). lia.
      - intros c Hc Hcg. apply childb_t in Hcg. apply Nat.eqb_eq. assert (Hcp := par_lt c g Hc Hcg). destruct (H c) as [u|] eqn:Ehc.
        + destruct (held_info E UP H s en lv HR c u Hc Ehc) as [B1 [B2 B3]]. destruct (Hheld c u Ehc) as [Hu [g' [st [C1 [C2 [C3 [C4 C5]]]]]]].
          assert (UP c = S (lv u)) by (destruct B2 as [B2|[_ [x [y B2]]]]; [auto|congruence]).
          destruct (B3 g Hcg) as [[D1 D2]|[[st' [D1 D2]]|[[st' [D1 D2]]|[D1 [st' D2]]]]]; try congruence.
          destruct D2 as [D2|[D2|[v D2]]]; congruence.
        + exfalso. destruct (r_free _ _ _ _ _ _ HR c Hc Ehc) as [B1 [B2 _]]. apply (IH c); auto; try lia. rewrite (B2 g Hcg). auto. }
    intros g Hg. apply (G (S (m - g))); auto. }
  assert (Hdone : forall g, g < m -> k <= E g).
  { intros g. induction g as [g IH] using lt_wf_ind. intros Hg. destruct (Nat.le_gt_cases k (E g)) as [|He]; auto. exfalso.
    destruct (H g) as [u|] eqn:Eh; [|apply (Hfull g Hg He); auto]. destruct (Hheld g u Eh) as [Hu [g' [st [C1 [C2 [C3 [C4 C5]]]]]]].
    destruct (chain_gt st u g' C5 g C4) as [D1 D2]. specialize (IH g' D1 C2). destruct (held_info E UP H s en lv HR g u Hg Eh) as [B1 _]. lia. }
  assert (L := r_el _ _ _ _ _ _ HR t Ht). specialize (HK t Ht). destruct (inside (thr s t)) eqn:Ei; [|lia].
  destruct (Hsp t Ht Ei) as [g [st [A1 [A2 A3]]]]. specialize (Hdone g A2). lia.
Qed.

Theorem sep : forall ls s log, run step init ls = Some (s, log) -> separated n log /\ returns_after_all n log.
Proof. intros ls s log H. split; [apply (bar_separated step init n R R_init R_step R_safe ls s)|apply (bar_returns step init n R R_init R_step R_safe ls s)]; auto. Qed.

Theorem prog : forall ls s log k t, run step init ls = Some (s, log) -> (forall u, u < n -> k <= enters u log) -> t < n -> leaves t log < k ->
  exists ls' s' log', run step s ls' = Some (s', log') /\ In (Leave t) log' /\ (forall u, ~ In (Enter u) log').
Proof. exact (bar_progress step init n R R_init R_step mu R_prog). Qed.
End Pf.

(* ---------- the tree made by group_init ---------- *)
Local Arguments Nat.div : simpl never.
Local Arguments Nat.mul : simpl never.
Record shape (h : heap) (i : nat) (nt : nat -> N) : Prop := mks {
  s_par : forall g, par h g = if Nat.ltb 0 g && Nat.ltb g i then Some ((g - 1) / 2) else None;
  s_l : forall g, lft h g = if Nat.ltb (2 * g + 1) i then Some (2 * g + 1) else None;
  s_r : forall g, rgt h g = if Nat.ltb (2 * g + 2) i then Some (2 * g + 2) else None;
  s_k : forall g, g < i -> kk h g = w32 (nt g + N.of_nat (cnt (child_of h g) i)) }.

Lemma seq_app1 : forall a len, seq (S a) (len) ++ [S (a + len)] = seq (S a) (S len).
Proof. intros. rewrite (seq_S len). f_equal. Qed.

Lemma find_ok : forall h i f j, 1 <= i -> (forall g, lft h g = if Nat.ltb (2 * g + 1) i then Some (2 * g + 1) else None) ->
  (forall g, rgt h g = if Nat.ltb (2 * g + 2) i then Some (2 * g + 2) else None) -> 2 * j + 1 <= i -> i < j + f ->
  find f h (seq j (S j)) = Some ((i - 1) / 2, Nat.even i).
Proof.
  intros h i. induction f as [|f IH]; intros j Hi HL HR0 Hj Hf; [lia|]. change (seq j (S j)) with (j :: seq (S j) j). cbn [find]. rewrite HL, HR0.
  destruct (Nat.ltb_spec (2 * j + 1) i) as [A|A].
  - destruct (Nat.ltb_spec (2 * j + 2) i) as [B|B].
    + replace (seq (S j) j ++ [2 * j + 1; 2 * j + 2]) with (seq (S j) (S (S j))).
      * apply IH; auto; lia.
      * rewrite (seq_S (S j)), (seq_S j), <- app_assoc. f_equal. cbn [app]. f_equal; [lia|f_equal; lia].
    + assert (i = 2 * (j + 1)) by lia. subst i. replace (2 * (j + 1) - 1) with (1 + j * 2) by lia. rewrite Nat.div_add by lia. rewrite Nat.even_mul. cbn. auto.
  - assert (i = 2 * j + 1) by lia. subst i. replace (2 * j + 1 - 1) with (j * 2) by lia. rewrite Nat.div_mul by lia. rewrite Nat.add_1_r, Nat.even_succ, <- Nat.negb_even, Nat.even_mul. cbn. auto.
Qed.

Lemma group_ok : forall h i nt a, 1 <= i -> (a < 2 ^ 32)%N -> shape h i nt -> exists h', group_init h i a = Some h' /\ shape h' (S i) (upd nt i a).
Proof.
  intros h i nt a Hi Ha HS. unfold group_init. set (h1 := mkh (upd (kk h) i a) (par h) (upd (lft h) i None) (upd (rgt h) i None)).
  assert (HL : forall g, lft h1 g = if Nat.ltb (2 * g + 1) i then Some (2 * g + 1) else None).
  { intros g. cbn. unfold upd. destruct (Nat.eq_dec g i); [subst|apply (s_l _ _ _ HS)]. destruct (Nat.ltb_spec (2 * i + 1) i); auto. lia. }
  assert (HR0 : forall g, rgt h1 g = if Nat.ltb (2 * g + 2) i then Some (2 * g + 2) else None).
  { intros g. cbn. unfold upd. destruct (Nat.eq_dec g i); [subst|apply (s_r _ _ _ HS)]. destruct (Nat.ltb_spec (2 * i + 2) i); auto. lia. }
  change [0] with (seq 0 1). rewrite (find_ok h1 i (S i) 0) by (auto; lia). set (p := (i - 1) / 2).
  assert (Hp : p < i) by (apply Nat.div_lt_upper_bound; lia).
  assert (Hpi : i = 2 * p + 1 /\ Nat.even i = false \/ i = 2 * p + 2 /\ Nat.even i = true).
  { unfold p. destruct (Nat.Even_or_Odd i) as [[q E]|[q E]]; subst i.
    - right. replace (2 * q - 1) with (1 + (q - 1) * 2) by lia. rewrite Nat.div_add, Nat.even_mul by lia. change (1 / 2) with 0. cbn. split; auto. lia.
    - left. replace (2 * q + 1 - 1) with (q * 2) by lia. rewrite Nat.div_mul by lia. rewrite Nat.add_1_r, Nat.even_succ, <- Nat.negb_even, Nat.even_mul. auto. }
  eexists. split; [reflexivity|]. constructor; cbn [kk par lft rgt].
  - intros g. unfold upd. destruct (Nat.eq_dec g i).
    + subst g. destruct (Nat.ltb_spec 0 i), (Nat.ltb_spec i (S i)); try lia. auto.
    + cbn. rewrite (s_par _ _ _ HS). destruct (Nat.ltb_spec 0 g), (Nat.ltb_spec g i), (Nat.ltb_spec g (S i)); auto; lia.
  - intros g. destruct Hpi as [[E1 E2]|[E1 E2]]; rewrite E2; [unfold upd at 1; destruct (Nat.eq_dec g p); [subst g; destruct (Nat.ltb_spec (2 * p + 1) (S i)); [f_equal; auto|lia]|]|];
    rewrite HL; destruct (Nat.ltb_spec (2 * g + 1) i), (Nat.ltb_spec (2 * g + 1) (S i)); auto; lia.
  - intros g. destruct Hpi as [[E1 E2]|[E1 E2]]; rewrite E2; [|unfold upd at 1; destruct (Nat.eq_dec g p); [subst g; destruct (Nat.ltb_spec (2 * p + 2) (S i)); [f_equal; auto|lia]|]];
    rewrite HR0; destruct (Nat.ltb_spec (2 * g + 2) i), (Nat.ltb_spec (2 * g + 2) (S i)); auto; lia.
  - intros g Hg. cbn [cnt]. set (h' := mkh _ _ _ _).
    assert (Ec : cnt (child_of h' g) i = cnt (child_of h g) i).
    { apply cnt_ext. intros c Hc. unfold child_of, h'. cbn. rewrite upd_other by lia. auto. }
    assert (Ei : child_of h' g i = Nat.eqb p g) by (unfold child_of, h'; cbn; rewrite upd_same; auto).
    rewrite Ec, Ei. unfold upd. destruct (Nat.eq_dec g p).
    + subst g. rewrite Nat.eqb_refl. cbn [kk h1]. unfold upd. destruct (Nat.eq_dec p i); [lia|]. rewrite (s_k _ _ _ HS) by auto.
      unfold w32. change (2 ^ 32)%N with 4294967296%N. rewrite N.add_mod_idemp_l by lia. f_equal. lia.
    + destruct (Nat.eqb_spec p g); [congruence|]. rewrite Nat.add_0_l. cbn [kk h1]. unfold upd. destruct (Nat.eq_dec g i).
      * subst g. rewrite cnt_all_false.
        -- unfold w32. rewrite N.mod_small; lia.
        -- intros c Hc. unfold child_of. rewrite (s_par _ _ _ HS). destruct (Nat.ltb 0 c && Nat.ltb c i); auto. apply Nat.eqb_neq. assert ((c - 1) / 2 < i) by (apply Nat.div_lt_upper_bound; lia). lia.
      * apply (s_k _ _ _ HS). lia.
Qed.

Lemma inits_ok : forall l h i nt, 1 <= i -> (forall a, In a l -> (a < 2 ^ 32)%N) -> shape h i nt ->
  exists h' nt', inits h i l = Some h' /\ shape h' (i + length l) nt' /\ (forall g, g < i -> nt' g = nt g) /\ (forall j, j < length l -> nt' (i + j) = nth j l 0%N).
Proof.
  induction l as [|a l IH]; intros h i nt Hi Ha HS.
  - exists h, nt. cbn. rewrite Nat.add_0_r. split; [auto|]. split; [auto|]. split; [auto|]. intros; lia.
  - destruct (group_ok h i nt a Hi) as [h1 [E1 S1]]; auto. { apply Ha. left. auto. }
    destruct (IH h1 (S i) (upd nt i a)) as [h' [nt' [E2 [S2 [N1 N2]]]]]; auto. { intros x Hx. apply Ha. right. auto. }
    exists h', nt'. cbn [inits length]. rewrite E1. rewrite Nat.add_succ_r. split; auto. split; auto. split.
    + intros g Hg. rewrite N1 by lia. apply upd_other. lia.
    + intros [|j] Hj; [rewrite Nat.add_0_r, N1, upd_same by lia; auto|]. cbn [nth]. rewrite <- N2 by lia. f_equal. lia.
Qed.

Lemma build_ok : forall l, (forall a, In a l -> (a < 2 ^ 32)%N) ->
  exists h nt, build l = Some h /\ shape h (S (length l)) nt /\ nt 0 = 0%N /\ (forall j, j < length l -> nt (S j) = nth j l 0%N).
Proof.
  intros l Ha. destruct (inits_ok l heap0 1 (fun _ => 0%N)) as [h [nt [E [S0 [N1 N2]]]]]; auto.
  - constructor; intros g; cbn [par lft rgt kk heap0].
    + destruct (Nat.ltb_spec 0 g), (Nat.ltb_spec g 1); auto; lia.
    + destruct (Nat.ltb_spec (2 * g + 1) 1); auto; lia.
    + destruct (Nat.ltb_spec (2 * g + 2) 1); auto; lia.
    + intros _. reflexivity.
  - exists h, nt. split; [auto|]. split; [exact S0|]. split; [apply N1; lia|exact N2].
Qed.

Lemma built_shape : forall l h, (forall a, In a l -> (a < 2 ^ 32)%N) -> build l = Some h -> par h 0 = None /\ forall g, 0 < g -> g <= length l -> par h g = Some ((g - 1) / 2).
Proof.
  intros l h Ha E. destruct (build_ok l Ha) as [h' [nt [E' [S0 _]]]]. rewrite E in E'. injection E' as <-. split.
  - rewrite (s_par _ _ _ S0). auto.
  - intros g H1 H2. rewrite (s_par _ _ _ S0). destruct (Nat.ltb_spec 0 g), (Nat.ltb_spec g (S (length l))); auto; lia.
Qed.

Lemma child_le2 : forall h i nt g, shape h i nt -> cnt (child_of h g) i <= 2.
Proof.
  intros h i nt g HS. 
  assert (G : forall j, cnt (child_of h g) j <= (if Nat.ltb (2 * g + 1) j then 1 else 0) + (if Nat.ltb (2 * g + 2) j then 1 else 0)).
  { induction j as [|j IH]; [cbn; lia|]. cbn [cnt]. unfold child_of at 1. rewrite (s_par _ _ _ HS).
    destruct (Nat.ltb_spec 0 j), (Nat.ltb_spec j i); cbn [andb]; [destruct (Nat.eqb_spec ((j - 1) / 2) g) as [E|E]| | |];
    try (destruct (Nat.ltb_spec (2 * g + 1) j), (Nat.ltb_spec (2 * g + 2) j), (Nat.ltb_spec (2 * g + 1) (S j)), (Nat.ltb_spec (2 * g + 2) (S j)); lia).
    assert (j = 2 * g + 1 \/ j = 2 * g + 2).
    { assert (D := Nat.div_mod (j - 1) 2 ltac:(lia)). assert (M := Nat.mod_upper_bound (j - 1) 2 ltac:(lia)). rewrite E in D. lia. }
    destruct (Nat.ltb_spec (2 * g + 1) j), (Nat.ltb_spec (2 * g + 2) j), (Nat.ltb_spec (2 * g + 1) (S j)), (Nat.ltb_spec (2 * g + 2) (S j)); lia. }
  specialize (G i). destruct (Nat.ltb (2 * g + 1) i), (Nat.ltb (2 * g + 2) i); lia.
Qed.

Lemma built_proper : forall l n grp h, 1 <= n -> announced l n grp -> (forall i, i < length l -> (nth i l 0 + 2 <= 2 ^ 32)%N) -> build l = Some h ->
  proper h n (S (length l)) grp.
Proof.
  intros l n grp h Hn [A1 A2 A3] Hf E.
  assert (Ha : forall a, In a l -> (a < 2 ^ 32)%N) by (intros a Hi; apply In_nth with (d := 0%N) in Hi; destruct Hi as [i [Hi <-]]; apply A3; auto).
  destruct (build_ok l Ha) as [h' [nt [E' [S0 [N0 N1]]]]]. rewrite E in E'. injection E' as <-.
  assert (Hth : forall g, g < S (length l) -> nt g = N.of_nat (cnt (fun t => Nat.eqb (grp t) g) n)).
  { intros [|g] Hg.
    - rewrite N0, cnt_all_false; auto. intros t Ht. specialize (A1 t Ht). apply Nat.eqb_neq. lia.
    - rewrite N1, A2 by lia. auto. }
  assert (Hc2 := child_le2 h (S (length l)) nt).
  constructor.
  - rewrite (s_par _ _ _ S0). auto.
  - intros g H1 H2. exists ((g - 1) / 2). split; [apply Nat.div_lt_upper_bound; lia|]. rewrite (s_par _ _ _ S0). destruct (Nat.ltb_spec 0 g), (Nat.ltb_spec g (S (length l))); auto; lia.
  - intros t Ht. specialize (A1 t Ht). lia.
  - intros g Hg. rewrite (s_k _ _ _ S0) by auto. f_equal. unfold expected. change (fun c => child_of h g c) with (child_of h g). rewrite (Hth g Hg). lia.
  - intros [|g] Hg; unfold expected.
    + specialize (A1 0 Hn). assert (0 < cnt (fun c => child_of h 0 c) (S (length l))).
      { apply cnt_pos with 1; [lia|]. unfold child_of. rewrite (s_par _ _ _ S0). destruct (Nat.ltb_spec 0 1), (Nat.ltb_spec 1 (S (length l))); auto; lia. }
      lia.
    + assert (X := A2 g ltac:(lia)). destruct (A3 g ltac:(lia)) as [Y _]. lia.
  - intros g Hg. unfold expected. specialize (Hc2 g S0). change (fun c => child_of h g c) with (child_of h g). destruct g as [|g].
    + rewrite (cnt_all_false (fun t => Nat.eqb (grp t) 0)); [change (2 ^ 32)%N with 4294967296%N; lia|]. intros t Ht. specialize (A1 t Ht). apply Nat.eqb_neq. lia.
    + assert (X := A2 g ltac:(lia)). specialize (Hf g ltac:(lia)). lia.
Qed.

(* a group whose k wraps *)
Section Big.
Variable n : nat.
Hypothesis Hn : N.of_nat n = (2 ^ 32 + 2)%N.
Definition bgrp (t : nat) : nat := if Nat.ltb t 3 then t + 2 else 1.
Definition bl : list N := [2 ^ 32 - 1; 1; 1; 1]%N.
Lemma big_n : 3 < n.
Proof. change (2 ^ 32 + 2)%N with 4294967298%N in Hn. lia. Qed.
Lemma big_cnt1 : forall j, 3 <= j -> cnt (fun t => Nat.eqb (bgrp t) 1) j = j - 3.
Proof.
  induction j as [|j IH]; intros Hj; [lia|]. destruct (Nat.eq_dec j 2) as [->|]; [reflexivity|]. cbn [cnt]. rewrite IH by lia. unfold bgrp at 1. destruct (Nat.ltb_spec j 3); [lia|]. cbn. lia.
Qed.
Lemma big_cnt : forall i, 1 <= i -> i <= 3 -> forall j, 3 <= j -> cnt (fun t => Nat.eqb (bgrp t) (S i)) j = 1.
Proof.
  intros i Hi Hi3. induction j as [|j IH]; intros Hj; [lia|]. destruct (Nat.eq_dec j 2) as [->|].
  - destruct i as [|[|[|[|i]]]]; try lia; reflexivity.
  - cbn [cnt]. rewrite IH by lia. unfold bgrp. destruct (Nat.ltb_spec j 3); [lia|]. destruct (Nat.eqb_spec 1 (S i)); [lia|]. lia.
Qed.
Lemma big_ann : announced bl n bgrp.
Proof.
  assert (X := big_n). constructor.
  - intros t _. unfold bgrp. destruct (Nat.ltb_spec t 3); cbn [length bl]; lia.
  - intros [|i] Hi; cbn [length bl] in Hi.
    + rewrite big_cnt1 by lia. change (nth 0 bl 0%N) with 4294967295%N. change (2 ^ 32 + 2)%N with 4294967298%N in Hn. lia.
    + rewrite big_cnt by lia. destruct i as [|[|[|i]]]; try lia; reflexivity.
  - intros [|[|[|[|i]]]] Hi; cbn [length bl] in Hi; try lia; cbn [nth bl]; split; try discriminate; reflexivity.
Qed.
Definition bh : heap := match build bl with Some h => h | None => heap0 end.
Lemma big_sep : exists ls s log, build bl = Some bh /\ run (step bh n bgrp) init ls = Some (s, log) /\ ~ separated n log.
Proof.
  assert (X := big_n). assert (H0 : Nat.ltb 0 n = true) by (apply Nat.ltb_lt; lia). assert (H3 : Nat.ltb 3 n = true) by (apply Nat.ltb_lt; lia).
  assert (K0 : w32 (kk bh 0 + (2 ^ 32 - 1)) = 1%N) by reflexivity. assert (K1 : w32 (kk bh 1 + (2 ^ 32 - 1)) = 0%N) by reflexivity. assert (K2 : w32 (kk bh 2 + (2 ^ 32 - 1)) = 0%N) by reflexivity.
  assert (P0 : par bh 0 = None) by reflexivity. assert (P1 : par bh 1 = Some 0) by reflexivity. assert (P2 : par bh 2 = Some 0) by reflexivity.
  assert (G0 : bgrp 0 = 2) by reflexivity. assert (G3 : bgrp 3 = 1) by reflexivity.
  eexists [(3, AEnter); (3, ATick); (3, ATick); (0, AEnter); (0, ATick); (0, ATick); (0, ATick); (0, ATick); (0, ATick); (0, ATick); (0, ATick); (0, ATick)], _, _.
  split; [reflexivity|]. split.
  - do 11 (eapply run_cons; [unfold step; rewrite ?H0, ?H3; unfold go, ret; cbn; rewrite ?G0, ?G3, ?K0, ?K1, ?K2; cbn; rewrite ?P0, ?P1, ?P2; cbn; reflexivity|]).
    eapply run_last. unfold step; rewrite ?H0, ?H3; unfold go, ret; cbn; reflexivity.
  - cbn. intros Y. specialize (Y 0 1 ltac:(lia) ltac:(lia)). cbn in Y. lia.
Qed.
End Big.
