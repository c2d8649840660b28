(** * Proofs about the epoch model (Epoch_Model.v) *)
From Coq Require Import List Arith NArith Bool Lia.
From Verif Require Import Lib Epoch_Model Epoch_Spec.
Import ListNotations.
Local Open Scope N_scope.
Local Arguments N.add : simpl never. Local Arguments N.sub : simpl never. Local Arguments N.modulo : simpl never.
Local Arguments N.eqb : simpl never. Local Arguments N.leb : simpl never. Local Arguments N.ltb : simpl never.
Local Arguments Nat.modulo : simpl never. Local Arguments Nat.ltb : simpl never.
Local Arguments upd : simpl never.

Ltac fc := cbn [ep recs rc own opn nsec nent cls bpl thr u_ep u_recs u_rc u_own u_opn u_nsec u_nent u_cls u_bpl go
  rfree ract rrep rbc rbe rnpend rnpeak rndisp rpend w_free w_act w_rep w_bkt w_npend w_npeak w_ndisp w_pend
  sid skind sep fst snd] in *.

Lemma updE : forall A (f : nat -> A) k v x, upd f k v x = if Nat.eq_dec x k then v else f x.
Proof. reflexivity. Qed.
Ltac du := rewrite ?updE in *; repeat match goal with
  | |- context [Nat.eq_dec ?x ?y] => destruct (Nat.eq_dec x y); [subst|]
  | H : context [Nat.eq_dec ?x ?y] |- _ => destruct (Nat.eq_dec x y); [subst|]
  end; try congruence.

(** ** What a program counter says about its thread *)
Definition extra (p : pc) : nat := match p with B2 _ | B3 _ _ | B4 | E1 _ => 1 | _ => 0 end.
Definition ext2 (p : pc) (i : nat) : nat :=
  match p with E1 (Some j) | E2 j => if Nat.eqb j i then 1 else 0 | _ => 0 end.
Definition pcld (p : pc) : bool := match p with B3 _ _ | B4 | E1 _ => true | _ => false end.
Definition pkind (p : pc) : option bool :=
  match p with B1 b | B2 b | B3 b _ => Some b | B4 | E2 _ => Some true | E1 k => Some (is_some k) | _ => None end.
Definition pcown (p : pc) : bool :=
  match p with B1 _ | B2 _ | B3 _ _ | B4 | E1 _ | E2 _ | N1 | N2 => true | _ => false end.
Definition pcemp (p : pc) : bool := match p with B2 _ | B3 _ _ | N1 | N2 => true | _ => false end.
Definition pcx (p : pc) : option nat := match p with X1 r | X2 r => Some r | _ => None end.
Definition pcg (p : pc) : option N := match p with B3 _ g => Some g | _ => None end.
Definition quiet2 (p : pc) : bool :=
  match p with B1 _ | B2 _ | B3 _ _ | B4 | E1 _ | E2 _ | N1 | N2 => false | _ => true end.
Definition quiet (p : pc) : bool :=
  match p with B1 _ | B2 _ | B3 _ _ | B4 | E1 _ | E2 _ | N1 | N2 | X1 _ | X2 _ => false | _ => true end.

(** epoch a scan or poll works with, and the records still to be visited *)
Definition kview (k : dkd) : option (N * option (list nat)) := match k with KScan e => Some (e, None) | _ => None end.
Definition view (p : pc) : option (N * option (list nat)) :=
  match p with
  | D0 _ _ k | DR _ _ _ _ k | DN _ _ _ _ k | DP _ _ _ _ _ k | DA _ _ _ k | DS _ _ _ k => kview k
  | S0 _ d => Some (d, None)
  | Sc _ d _ rest | Sa _ d _ rest | Sr _ d rest | Y4 _ _ _ d rest => Some (d, Some rest)
  | PC _ e | PW _ e => Some (e, Some [])
  | YC _ _ _ d => Some (d, Some [])
  | _ => None
  end.

Definition cntk (i : nat) (l : list sec) : nat :=
  length (filter (fun x => match skind x with Some j => Nat.eqb j i | None => false end) l).

(** the thread is in a read section (or about to be) and its record's epoch protects it *)
Definition ld (s : st) (t : nat) : Prop := opn s t <> [] \/ pcld (thr s t) = true.

Definition V (s : st) (lo : nat -> N) (p : pc) : Prop :=
  match view p with
  | None => True
  | Some (d, o) => d <= ep s /\
      match o with
      | None => True
      | Some rest => forall v u, ~ In v rest -> own s u = Some v -> ld s u -> d <= lo v
      end
  end.

Record I0 (s : st) (lo : nat -> N) : Prop := {
  i_own : forall t u r, own s t = Some r -> own s u = Some r -> t = u;
  i_rec : forall t r, own s t = Some r -> In r (recs s);
  i_len : forall r, In r (recs s) -> (r < length (recs s))%nat;
  i_free : forall t r, own s t = Some r -> rfree (rc s r) = false;
  i_none : forall t, own s t = None -> opn s t = [] /\ pcown (thr s t) = false;
  i_xn : forall t r, pcx (thr s t) = Some r -> own s t = None /\ In r (recs s);
  i_act : forall t r, own s t = Some r -> ract (rc s r) = (length (opn s t) + extra (thr s t))%nat;
  i_bc : forall t r i, own s t = Some r -> rbc (rc s r) i = (cntk i (opn s t) + ext2 (thr s t) i)%nat;
  i_be : forall t r x i, own s t = Some r -> In x (opn s t) -> skind x = Some i -> sep x = rbe (rc s r) i;
  i_bk : forall t r i, own s t = Some r -> ld s t -> rbc (rc s r) i <> 0%nat ->
         lo r <= rbe (rc s r) i <= ep s /\ sense (rbe (rc s r) i) = i;
  i_sep : forall t r x, own s t = Some r -> In x (opn s t) -> lo r <= sep x <= ep s;
  i_lo : forall t r, own s t = Some r -> ld s t -> rrep (rc s r) <= lo r /\ lo r <= ep s <= lo r + 1;
  i_rep : forall r, rrep (rc s r) <= ep s;
  i_emp : forall t, pcemp (thr s t) = true -> opn s t = [];
  i_g : forall t r g, own s t = Some r -> pcg (thr s t) = Some g -> lo r = g;
  i_mix : forall t x y, In x (opn s t) -> In y (opn s t) -> is_some (skind x) = is_some (skind y);
  i_pk : forall t x b, In x (opn s t) -> pkind (thr s t) = Some b -> is_some (skind x) = b;
  i_nd : forall t, NoDup (map sid (opn s t));
  i_id : forall t u x y, In x (opn s t) -> In y (opn s u) -> sid x = sid y -> t = u;
  i_ns : forall t x, In x (opn s t) -> (sid x < nsec s)%nat;
  i_fr : forall r, rfree (rc s r) = true -> ract (rc s r) = 0%nat /\ forall i, rbc (rc s r) i = 0%nat;
  i_v : forall t, V s lo (thr s t) }.

Lemma I0_init : I0 init (fun _ => 0).
Proof. constructor; cbn; intros; try discriminate; try contradiction; auto; try lia. constructor. Qed.

(** consequences used everywhere *)
Lemma I0_open : forall s lo t r x, I0 s lo -> own s t = Some r -> In x (opn s t) ->
  ep s <= sep x + 1 /\ sep x <= ep s /\ rrep (rc s r) <= sep x /\ ract (rc s r) <> 0%nat /\ rfree (rc s r) = false.
Proof.
  intros s lo t r x I Ho Hx. assert (L : ld s t) by (left; intros E; rewrite E in Hx; contradiction).
  destruct (i_lo _ _ I _ _ Ho L) as [A B]. pose proof (i_sep _ _ I _ _ _ Ho Hx).
  pose proof (i_act _ _ I _ _ Ho). pose proof (i_free _ _ I _ _ Ho).
  repeat (split; auto; try lia). destruct (opn s t); [contradiction|]. cbn in *. lia.
Qed.

Lemma sense_eq : forall a b, sense a = sense b -> a <= b <= a + 1 -> a = b.
Proof.
  intros a b H L. unfold sense in H. apply N2Nat.inj in H. assert (C : b = a \/ b = a + 1) by lia.
  destruct C as [C|C]; auto. subst b. exfalso.
  pose proof (N.div_mod a 2 ltac:(lia)). pose proof (N.div_mod (a + 1) 2 ltac:(lia)).
  pose proof (N.mod_lt a 2 ltac:(lia)). pose proof (N.mod_lt (a + 1) 2 ltac:(lia)). lia.
Qed.

Lemma quiet_attrs : forall p, quiet2 p = true -> extra p = 0%nat /\ (forall i, ext2 p i = 0%nat) /\ pcld p = false /\
  pkind p = None /\ pcown p = false /\ pcemp p = false /\ pcg p = None.
Proof. destruct p; cbn; intros; try discriminate; auto 10. Qed.

Lemma quiet_2 : forall p, quiet p = true -> quiet2 p = true /\ pcx p = None.
Proof. destruct p; cbn; intros; try discriminate; auto. Qed.

Definition core (q q' : erec) : Prop :=
  rfree q' = rfree q /\ ract q' = ract q /\ rrep q' = rrep q /\ rbc q' = rbc q /\ rbe q' = rbe q.

(** steps that touch neither sections nor the fields scans read *)
Lemma I0_frame2 : forall s s' lo t p, I0 s lo ->
  ep s' = ep s -> recs s' = recs s -> own s' = own s -> opn s' = opn s -> nsec s' = nsec s ->
  (forall r, core (rc s r) (rc s' r)) -> thr s' = upd (thr s) t p ->
  quiet2 (thr s t) = true -> quiet2 p = true -> (forall r, pcx p = Some r -> own s t = None /\ In r (recs s)) -> V s lo p -> I0 s' lo.
Proof.
  intros s s' lo t p I He Hr Ho Hp Hn Hc Ht Q Q' Hx HV.
  destruct (quiet_attrs _ Q) as [a1 [a2 [a3 [a4 [a5 [a6 a7]]]]]].
  destruct (quiet_attrs _ Q') as [b1 [b2 [b3 [b4 [b5 [b6 b7]]]]]].
  assert (L : forall u, ld s' u <-> ld s u).
  { intros u. unfold ld. rewrite Hp, Ht. du; try tauto. rewrite a3, b3. tauto. }
  constructor; rewrite ?He, ?Hr, ?Ho, ?Hp, ?Hn.
  - apply (i_own _ _ I).
  - apply (i_rec _ _ I).
  - apply (i_len _ _ I).
  - intros u r X. destruct (Hc r) as [-> _]. apply (i_free _ _ I _ _ X).
  - intros u X. destruct (i_none _ _ I _ X). split; auto. rewrite Ht. du.
  - intros u r. rewrite Ht. du; auto. apply (i_xn _ _ I).
  - intros u r X. destruct (Hc r) as [_ [-> _]]. rewrite (i_act _ _ I _ _ X), Ht. du.
  - intros u r i X. destruct (Hc r) as [_ [_ [_ [-> _]]]]. rewrite (i_bc _ _ I _ _ i X), Ht. du.
  - intros u r x i X Y Z. destruct (Hc r) as [_ [_ [_ [_ ->]]]]. apply (i_be _ _ I _ _ _ _ X Y Z).
  - intros u r i X Y Z. destruct (Hc r) as [_ [_ [_ [E ->]]]]. rewrite E in Z. apply (i_bk _ _ I _ _ _ X (proj1 (L u) Y) Z).
  - apply (i_sep _ _ I).
  - intros u r X Y. destruct (Hc r) as [_ [_ [-> _]]]. apply (i_lo _ _ I _ _ X (proj1 (L u) Y)).
  - intros r. destruct (Hc r) as [_ [_ [-> _]]]. apply (i_rep _ _ I).
  - intros u. rewrite Ht. du. apply (i_emp _ _ I).
  - intros u r g X. rewrite Ht. du. apply (i_g _ _ I _ _ _ X).
  - apply (i_mix _ _ I).
  - intros u x b X. rewrite Ht. du. apply (i_pk _ _ I _ _ _ X).
  - apply (i_nd _ _ I).
  - apply (i_id _ _ I).
  - apply (i_ns _ _ I).
  - intros r. destruct (Hc r) as [-> [-> [_ [-> _]]]]. apply (i_fr _ _ I).
  - intros u. assert (X : V s lo (thr s' u)) by (rewrite Ht; du; apply (i_v _ _ I)).
    revert X. unfold V. rewrite He, Ho. destruct (view (thr s' u)) as [[d [rest|]]|]; auto.
    intros [X Y]. split; auto. intros v w A B C. apply (Y v w A B). apply L; auto.
Qed.

Lemma I0_frame : forall s s' lo t p, I0 s lo ->
  ep s' = ep s -> recs s' = recs s -> own s' = own s -> opn s' = opn s -> nsec s' = nsec s ->
  (forall r, core (rc s r) (rc s' r)) -> thr s' = upd (thr s) t p ->
  quiet (thr s t) = true -> quiet p = true -> V s lo p -> I0 s' lo.
Proof.
  intros. destruct (quiet_2 (thr s t)) as [A _]; auto. destruct (quiet_2 p) as [B C]; auto.
  apply (I0_frame2 s s' lo t p); auto. congruence.
Qed.

(** steps of a thread on its own record *)
Lemma I0_self : forall s s' lo t r q o p l, I0 s lo -> own s t = Some r ->
  ep s' = ep s -> recs s' = recs s -> own s' = own s -> (forall v, rc s' v = upd (rc s) r q v) ->
  (forall u, opn s' u = upd (opn s) t o u) -> (forall u, thr s' u = upd (thr s) t p u) ->
  (forall x, In x o -> In x (opn s t) \/ sid x = nsec s /\ (nsec s < nsec s')%nat) -> (nsec s <= nsec s')%nat ->
  rfree q = false ->
  ract q = (length o + extra p)%nat ->
  (forall i, rbc q i = (cntk i o + ext2 p i)%nat) ->
  (forall x i, In x o -> skind x = Some i -> sep x = rbe q i) ->
  (forall i, o <> [] \/ pcld p = true -> rbc q i <> 0%nat -> l <= rbe q i <= ep s /\ sense (rbe q i) = i) ->
  (forall x, In x o -> l <= sep x <= ep s) ->
  (o <> [] \/ pcld p = true -> rrep q <= l /\ l <= ep s <= l + 1) ->
  rrep q <= ep s ->
  (pcemp p = true -> o = []) -> (forall g, pcg p = Some g -> l = g) ->
  (forall x y, In x o -> In y o -> is_some (skind x) = is_some (skind y)) ->
  (forall x b, In x o -> pkind p = Some b -> is_some (skind x) = b) ->
  NoDup (map sid o) -> pcx p = None -> view p = None ->
  (o <> [] \/ pcld p = true -> (ld s t /\ lo r <= l) \/ ep s <= l) ->
  I0 s' (upd lo r l).
Proof.
  intros s s' lo t r q o p l I Hr He Hrs Ho Hq Hp Ht Hid Hn F A BC BE BK SP LO RP EM G MX PK ND XN VW MONO.
  assert (Nu : forall u v, u <> t -> own s u = Some v -> v <> r).
  { intros u v X Y E. subst v. apply X. apply (i_own _ _ I _ _ _ Y Hr). }
  assert (Lt : ld s' t <-> (o <> [] \/ pcld p = true)).
  { unfold ld. rewrite Hp, Ht, !upd_same. tauto. }
  assert (Lu : forall u, u <> t -> (ld s' u <-> ld s u)).
  { intros u X. unfold ld. rewrite Hp, Ht, !upd_other by auto. tauto. }
  constructor; rewrite ?He, ?Hrs, ?Ho.
  - apply (i_own _ _ I).
  - apply (i_rec _ _ I).
  - apply (i_len _ _ I).
  - intros u v X. rewrite Hq. du. apply (i_free _ _ I _ _ X).
  - intros u X. rewrite Hp, Ht. du. apply (i_none _ _ I _ X).
  - intros u v. rewrite Ht. du. apply (i_xn _ _ I).
  - intros u v X. rewrite Hq, Hp, Ht. destruct (Nat.eq_dec u t) as [->|Y].
    + rewrite Hr in X. injection X as <-. rewrite !upd_same. auto.
    + rewrite !upd_other by eauto. apply (i_act _ _ I _ _ X).
  - intros u v i X. rewrite Hq, Hp, Ht. destruct (Nat.eq_dec u t) as [->|Y].
    + rewrite Hr in X. injection X as <-. rewrite !upd_same. auto.
    + rewrite !upd_other by eauto. apply (i_bc _ _ I _ _ _ X).
  - intros u v x i X. rewrite Hq, Hp. destruct (Nat.eq_dec u t) as [->|Y].
    + rewrite Hr in X. injection X as <-. rewrite !upd_same. auto.
    + rewrite !upd_other by eauto. apply (i_be _ _ I _ _ _ _ X).
  - intros u v i X. rewrite Hq. destruct (Nat.eq_dec u t) as [->|Y].
    + rewrite Hr in X. injection X as <-. rewrite !upd_same, Lt. auto.
    + rewrite !upd_other by eauto. rewrite Lu by auto. apply (i_bk _ _ I _ _ _ X).
  - intros u v x X. rewrite Hp. destruct (Nat.eq_dec u t) as [->|Y].
    + rewrite Hr in X. injection X as <-. rewrite !upd_same. auto.
    + rewrite !upd_other by eauto. apply (i_sep _ _ I _ _ _ X).
  - intros u v X. rewrite Hq. destruct (Nat.eq_dec u t) as [->|Y].
    + rewrite Hr in X. injection X as <-. rewrite !upd_same, Lt. auto.
    + rewrite !upd_other by eauto. rewrite Lu by auto. apply (i_lo _ _ I _ _ X).
  - intros v. rewrite Hq. du. apply (i_rep _ _ I).
  - intros u. rewrite Hp, Ht. du; auto. apply (i_emp _ _ I).
  - intros u v g X. rewrite Ht. destruct (Nat.eq_dec u t) as [->|Y].
    + rewrite Hr in X. injection X as <-. rewrite !upd_same. auto.
    + rewrite !upd_other by eauto. apply (i_g _ _ I _ _ _ X).
  - intros u. rewrite Hp. du; auto. apply (i_mix _ _ I).
  - intros u. rewrite Hp, Ht. du; auto. apply (i_pk _ _ I).
  - intros u. rewrite Hp. du; auto. apply (i_nd _ _ I).
  - intros u w x y. rewrite !Hp. destruct (Nat.eq_dec u t) as [->|X], (Nat.eq_dec w t) as [->|Y]; auto;
      rewrite ?upd_same, ?upd_other by auto; intros P Q E.
    + destruct (Hid _ P) as [P'|[P' _]]; [apply (i_id _ _ I _ _ _ _ P' Q E)|].
      pose proof (i_ns _ _ I _ _ Q). lia.
    + destruct (Hid _ Q) as [Q'|[Q' _]]; [apply (i_id _ _ I _ _ _ _ P Q' E)|].
      pose proof (i_ns _ _ I _ _ P). lia.
    + apply (i_id _ _ I _ _ _ _ P Q E).
  - intros u x. rewrite Hp. destruct (Nat.eq_dec u t) as [->|X]; rewrite ?upd_same, ?upd_other by auto; intros P.
    + destruct (Hid _ P) as [P'|[P' ?]]; [pose proof (i_ns _ _ I _ _ P')|]; lia.
    + pose proof (i_ns _ _ I _ _ P). lia.
  - intros v. rewrite Hq. destruct (Nat.eq_dec v r) as [->|X]; rewrite ?upd_same, ?upd_other by auto.
    + congruence.
    + apply (i_fr _ _ I).
  - intros u. destruct (Nat.eq_dec u t) as [->|X].
    + unfold V. rewrite Ht, upd_same, VW. auto.
    + rewrite Ht, upd_other by auto. pose proof (i_v _ _ I u) as Y. revert Y. unfold V. rewrite He, Ho.
      destruct (view (thr s u)) as [[d [rest|]]|]; auto. intros [Y Z]. split; auto. intros v w P Q R.
      destruct (Nat.eq_dec w t) as [->|S].
      * rewrite Hr in Q. injection Q as <-. rewrite upd_same. apply Lt in R. destruct (MONO R) as [[M1 M2]|M]; [|lia].
        pose proof (Z r t P Hr M1). lia.
      * rewrite upd_other by eauto. apply (Z v w P Q). apply Lu; auto.
Qed.

(** calls of functions that work on the thread's own record *)
Lemma I0_self0 : forall s s' lo t r p, I0 s lo -> own s t = Some r -> thr s t = Idle ->
  ep s' = ep s -> recs s' = recs s -> own s' = own s -> rc s' = rc s -> opn s' = opn s -> nsec s' = nsec s ->
  thr s' = upd (thr s) t p ->
  extra p = 0%nat -> (forall i, ext2 p i = 0%nat) -> pcld p = false -> pcg p = None -> pcx p = None -> view p = None ->
  (pcemp p = true -> opn s t = []) -> (forall x b, In x (opn s t) -> pkind p = Some b -> is_some (skind x) = b) ->
  I0 s' (upd lo r (lo r)).
Proof.
  intros s s' lo t r p I Ho Hi He Hrs Hos Hrc Hop Hn Ht X1 X2 X3 X4 X5 X6 X7 X8.
  assert (LD : forall P : Prop, (ld s t -> P) -> (opn s t <> [] \/ pcld p = true) -> P).
  { intros P K [Y|Y]; [apply K; left; auto|congruence]. }
  apply (I0_self s s' lo t r (rc s r) (opn s t) p (lo r)); auto; try congruence.
  - intros v. rewrite Hrc. du.
  - intros u. rewrite Hop. du.
  - rewrite Hn. auto.
  - apply (i_free _ _ I _ _ Ho).
  - rewrite (i_act _ _ I _ _ Ho), Hi, X1. auto.
  - intros i. rewrite (i_bc _ _ I _ _ i Ho), Hi, X2. auto.
  - intros x i. apply (i_be _ _ I _ _ _ _ Ho).
  - intros i. refine (LD _ _). intros Y. apply (i_bk _ _ I _ _ _ Ho Y).
  - intros x. apply (i_sep _ _ I _ _ _ Ho).
  - refine (LD _ _). intros Y. apply (i_lo _ _ I _ _ Ho Y).
  - apply (i_rep _ _ I).
  - apply (i_mix _ _ I).
  - apply (i_nd _ _ I).
  - refine (LD _ _). intros Y. left. split; auto. lia.
Qed.

(** scans *)
Lemma V_snext : forall s lo k d af rest, d <= ep s ->
  (forall v u, ~ In v rest -> own s u = Some v -> ld s u -> d <= lo v) -> V s lo (snext k d af rest).
Proof.
  intros s lo k d af rest A B. unfold V, snext. destruct rest as [|w rest]; [|cbn [view]; auto].
  unfold sdone. destruct k, af; cbn [view]; auto.
Qed.
Lemma V_dnext : forall s lo r n bs k, match kview k with Some (d, _) => d <= ep s | None => True end ->
  V s lo (dnext r n bs k) /\ V s lo (dcount r n bs k) /\ quiet (dnext r n bs k) = true /\ quiet (dcount r n bs k) = true.
Proof.
  intros. assert (A : V s lo (dnext r n bs k)). { unfold V, dnext. destruct bs; destruct k; cbn in *; auto. }
  assert (B : quiet (dnext r n bs k) = true). { unfold dnext. destruct bs; destruct k; auto. }
  repeat (split; auto); unfold dcount; destruct n; auto. unfold V. cbn. destruct k; cbn in *; auto.
Qed.
Lemma quiet_snext : forall k d af rest, quiet (snext k d af rest) = true.
Proof. intros. destruct rest; cbn; auto. destruct k, af; auto. Qed.

Lemma core_refl : forall q, core q q.
Proof. intros. repeat split. Qed.

(** the global epoch moves on *)
Lemma I0_tick : forall s s' lo t p d, I0 s lo -> ep s = d ->
  ep s' = d + 1 -> recs s' = recs s -> own s' = own s -> opn s' = opn s -> nsec s' = nsec s -> rc s' = rc s ->
  thr s' = upd (thr s) t p ->
  quiet (thr s t) = true -> quiet p = true ->
  (forall v u, own s u = Some v -> ld s u -> d <= lo v) ->
  V s' lo p -> I0 s' lo.
Proof.
  intros s s' lo t p d I E He Hr Ho Hp Hn Hc Ht Q Q' AL HV.
  destruct (quiet_2 _ Q) as [Q2 Qx]. destruct (quiet_2 _ Q') as [Q2' Qx'].
  destruct (quiet_attrs _ Q2) as [a1 [a2 [a3 [a4 [a5 [a6 a7]]]]]].
  destruct (quiet_attrs _ Q2') as [b1 [b2 [b3 [b4 [b5 [b6 b7]]]]]].
  assert (L : forall u, ld s' u <-> ld s u).
  { intros u. unfold ld. rewrite Hp, Ht. du; try tauto. rewrite a3, b3. tauto. }
  constructor; rewrite ?He, ?Hr, ?Ho, ?Hp, ?Hn, ?Hc.
  - apply (i_own _ _ I).
  - apply (i_rec _ _ I).
  - apply (i_len _ _ I).
  - apply (i_free _ _ I).
  - intros u X. destruct (i_none _ _ I _ X). split; auto. rewrite Ht. du.
  - intros u r. rewrite Ht. du. apply (i_xn _ _ I).
  - intros u r X. rewrite (i_act _ _ I _ _ X), Ht. du.
  - intros u r i X. rewrite (i_bc _ _ I _ _ i X), Ht. du.
  - apply (i_be _ _ I).
  - intros u r i X Y Z. pose proof (i_bk _ _ I _ _ _ X (proj1 (L u) Y) Z). split; [lia|tauto].
  - intros u r x X Y. pose proof (i_sep _ _ I _ _ _ X Y). lia.
  - intros u r X Y. pose proof (i_lo _ _ I _ _ X (proj1 (L u) Y)). pose proof (AL _ _ X (proj1 (L u) Y)). lia.
  - intros r. pose proof (i_rep _ _ I r). lia.
  - intros u. rewrite Ht. du. apply (i_emp _ _ I).
  - intros u r g X. rewrite Ht. du. apply (i_g _ _ I _ _ _ X).
  - apply (i_mix _ _ I).
  - intros u x b X. rewrite Ht. du. apply (i_pk _ _ I _ _ _ X).
  - apply (i_nd _ _ I).
  - apply (i_id _ _ I).
  - apply (i_ns _ _ I).
  - apply (i_fr _ _ I).
  - intros u. rewrite Ht. du; auto. pose proof (i_v _ _ I u) as X.
    revert X. unfold V. rewrite He, Ho. destruct (view (thr s u)) as [[e [rest|]]|]; auto; [|intros [X Y]; split; auto; lia].
    intros [X Y]. split; [lia|]. intros v w A B C. apply (Y v w A B). apply L; auto.
Qed.

(** a poller resets the epoch of the record it polls *)
Lemma I0_low : forall s s' lo t p r e, I0 s lo ->
  ep s' = ep s -> recs s' = recs s -> own s' = own s -> opn s' = opn s -> nsec s' = nsec s ->
  rc s' = upd (rc s) r (w_rep (rc s r) e) -> thr s' = upd (thr s) t p ->
  quiet (thr s t) = true -> quiet p = true -> view p = None -> e <= ep s ->
  (forall u, own s u = Some r -> ld s u -> e <= lo r) -> I0 s' lo.
Proof.
  intros s s' lo t p r e I He Hr Ho Hp Hn Hc Ht Q Q' HV Ee EL.
  destruct (quiet_2 _ Q) as [Q2 Qx]. destruct (quiet_2 _ Q') as [Q2' Qx'].
  destruct (quiet_attrs _ Q2) as [a1 [a2 [a3 [a4 [a5 [a6 a7]]]]]].
  destruct (quiet_attrs _ Q2') as [b1 [b2 [b3 [b4 [b5 [b6 b7]]]]]].
  assert (L : forall u, ld s' u <-> ld s u).
  { intros u. unfold ld. rewrite Hp, Ht. du; try tauto. rewrite a3, b3. tauto. }
  assert (C : forall v, rfree (rc s' v) = rfree (rc s v) /\ ract (rc s' v) = ract (rc s v) /\ rbc (rc s' v) = rbc (rc s v) /\ rbe (rc s' v) = rbe (rc s v)).
  { intros v. rewrite Hc, updE. destruct (Nat.eq_dec v r) as [->|]; auto. }
  constructor; rewrite ?He, ?Hr, ?Ho, ?Hp, ?Hn.
  - apply (i_own _ _ I).
  - apply (i_rec _ _ I).
  - apply (i_len _ _ I).
  - intros u v X. destruct (C v) as [-> _]. apply (i_free _ _ I _ _ X).
  - intros u X. destruct (i_none _ _ I _ X). split; auto. rewrite Ht. du.
  - intros u v. rewrite Ht. du. apply (i_xn _ _ I).
  - intros u v X. destruct (C v) as [_ [-> _]]. rewrite (i_act _ _ I _ _ X), Ht. du.
  - intros u v i X. destruct (C v) as [_ [_ [-> _]]]. rewrite (i_bc _ _ I _ _ i X), Ht. du.
  - intros u v x i X Y Z. destruct (C v) as [_ [_ [_ ->]]]. apply (i_be _ _ I _ _ _ _ X Y Z).
  - intros u v i X Y Z. destruct (C v) as [_ [_ [E ->]]]. rewrite E in Z. apply (i_bk _ _ I _ _ _ X (proj1 (L u) Y) Z).
  - apply (i_sep _ _ I).
  - intros u v X Y. apply L in Y. pose proof (i_lo _ _ I _ _ X Y). rewrite Hc, updE. destruct (Nat.eq_dec v r) as [->|]; fc; [|lia].
    pose proof (EL u X Y). lia.
  - intros v. rewrite Hc, updE. destruct (Nat.eq_dec v r) as [->|]; fc; auto. apply (i_rep _ _ I).
  - intros u. rewrite Ht. du. apply (i_emp _ _ I).
  - intros u v g X. rewrite Ht. du. apply (i_g _ _ I _ _ _ X).
  - apply (i_mix _ _ I).
  - intros u x b X. rewrite Ht. du. apply (i_pk _ _ I _ _ _ X).
  - apply (i_nd _ _ I).
  - apply (i_id _ _ I).
  - apply (i_ns _ _ I).
  - intros v. destruct (C v) as [-> [-> [-> _]]]. apply (i_fr _ _ I).
  - intros u. rewrite Ht. du; [unfold V; rewrite HV; auto|]. pose proof (i_v _ _ I u) as X.
    revert X. unfold V. rewrite He, Ho. destruct (view (thr s u)) as [[d [rest|]]|]; auto.
    intros [X Y]. split; [lia|]. intros v w A B D. apply (Y v w A B). apply L; auto.
Qed.

(** removing a section from the list of open ones *)
Lemma find_sec_in : forall i l x, find_sec i l = Some x -> In x l /\ sid x = i.
Proof. intros i l x H. apply find_some in H. destruct H as [H E]. apply Nat.eqb_eq in E. auto. Qed.
Lemma drop_in : forall i l x, In x (drop_sec i l) <-> In x l /\ sid x <> i.
Proof.
  intros. unfold drop_sec. rewrite filter_In. split; intros [A B]; split; auto.
  - apply Nat.eqb_neq. destruct (Nat.eqb (sid x) i); auto; discriminate.
  - apply Nat.eqb_neq in B. rewrite B. auto.
Qed.
Lemma drop_none : forall i l, ~ In i (map sid l) -> drop_sec i l = l.
Proof.
  induction l as [|x l IH]; intros H; cbn; auto. unfold drop_sec in *. cbn.
  destruct (Nat.eqb_spec (sid x) i) as [E|E]; [exfalso; apply H; left; auto|]. cbn. f_equal. apply IH. intros C. apply H. right; auto.
Qed.
Lemma drop_spec : forall i l x, NoDup (map sid l) -> find_sec i l = Some x ->
  length l = S (length (drop_sec i l)) /\
  (forall j, cntk j l = (cntk j (drop_sec i l) + match skind x with Some k => if Nat.eqb k j then 1 else 0 | None => 0 end)%nat) /\
  NoDup (map sid (drop_sec i l)).
Proof.
  induction l as [|y l IH]; intros x ND H; [discriminate|]. cbn in ND. inversion ND as [|a b N1 N2]; subst.
  unfold find_sec in H. cbn in H. unfold drop_sec. cbn [filter]. destruct (Nat.eqb_spec (sid y) i) as [E|E]; cbn [negb].
  - injection H as <-. subst i. change (filter _ l) with (drop_sec (sid y) l). rewrite (drop_none _ _ N1).
    split; auto. split; auto. intros j. unfold cntk. cbn [filter]. destruct (skind y) as [k|]; [|lia]. destruct (Nat.eqb k j); cbn; lia.
  - destruct (IH x N2 H) as [A [B C]]. change (filter _ l) with (drop_sec i l). split; [cbn; lia|]. split.
    + intros j. specialize (B j). unfold cntk in *. cbn [filter]. destruct (skind y) as [k|]; [destruct (Nat.eqb k j)|]; cbn [length]; lia.
    + cbn. constructor; auto. intros X. apply in_map_iff in X. destruct X as [z [Z1 Z2]]. apply drop_in in Z2.
      apply N1. rewrite <- Z1. apply in_map, Z2.
Qed.
Lemma cntk_zero : forall i l x, cntk i l = 0%nat -> In x l -> skind x = Some i -> False.
Proof.
  intros i l x H Hx E. unfold cntk in H. apply length_zero_iff_nil in H.
  assert (C : In x (filter (fun y => match skind y with Some j => Nat.eqb j i | None => false end) l)).
  { apply filter_In. split; auto. rewrite E. apply Nat.eqb_refl. }
  rewrite H in C. contradiction.
Qed.
Lemma cntk_cons : forall i x l, cntk i (x :: l) = ((match skind x with Some j => if Nat.eqb j i then 1 else 0 | None => 0 end) + cntk i l)%nat.
Proof. intros. unfold cntk. cbn [filter]. destruct (skind x) as [j|]; auto. destruct (Nat.eqb j i); auto. Qed.
Lemma existsb_in : forall r l, existsb (Nat.eqb r) l = true <-> In r l.
Proof.
  intros. rewrite existsb_exists. split.
  - intros [x [A B]]. apply Nat.eqb_eq in B. subst. auto.
  - intros. exists r. split; auto. apply Nat.eqb_refl.
Qed.

Lemma before_near : forall a b, a < W -> b < W -> a <= b + 1 -> b <= a + 1 -> before a b = (a <? b).
Proof.
  intros a b A B C D. unfold before, esub, W in *. change (4294967296 / 2) with 2147483648.
  assert (X : b = a \/ b = a + 1 \/ a = b + 1) by lia. destruct X as [->|[->| ->]].
  - replace (a + 4294967296 - a) with (1 * 4294967296) by lia. rewrite N.mod_mul by lia. rewrite N.ltb_irrefl. auto.
  - replace (a + 4294967296 - (a + 1)) with 4294967295 by lia. rewrite N.mod_small by lia.
    destruct (N.ltb_spec a (a + 1)); [|lia]. auto.
  - replace (b + 1 + 4294967296 - b) with (1 + 1 * 4294967296) by lia. rewrite N.mod_add by lia. rewrite N.mod_small by lia.
    destruct (N.ltb_spec (b + 1) b); [lia|]. auto.
Qed.
Lemma eadd_small : forall e k, e + k < W -> eadd e k = e + k.
Proof. intros. unfold eadd. apply N.mod_small. auto. Qed.

Section Step0.
Variable c : cfg.
Hypothesis Hmix : c_mix c = false.

Ltac upde := intros; fc; rewrite ?upd_same; auto.

Lemma I0_call : forall s lo t o s' ev, I0 s lo -> thr s t = Idle -> call c s t o = Some (s', ev) -> exists lo', I0 s' lo'.
Proof.
  intros s lo t o s' ev I Hi H. destruct o; cbn [call] in H.
  - (* register *)
    destruct (own s t) eqn:Eo; [discriminate|]. injection H as <- <-. exists lo.
    set (r := length (recs s)).
    assert (Nr : forall u v, own s u = Some v -> v <> r).
    { intros u v X. pose proof (i_len _ _ I _ (i_rec _ _ I _ _ X)). subst r. lia. }
    assert (Nt : forall u v, own s u = Some v -> u <> t) by (intros u v X E; subst; congruence).
    destruct (i_none _ _ I _ Eo) as [O1 O2].
    assert (NL : ~ ld s t) by (unfold ld; rewrite O1, Hi; cbn; intros [X|X]; [apply X; auto|discriminate]).
    constructor; fc.
    + intros u w v. du; auto; intros A B; [injection A as <-|injection B as <-|]; try (exfalso; eapply Nr; eauto; fail).
      apply (i_own _ _ I _ _ _ A B).
    + intros u v. du; intros A; [injection A as <-; left; auto|right; apply (i_rec _ _ I _ _ A)].
    + intros v [<-|X]; cbn; [subst r; lia|]. pose proof (i_len _ _ I _ X). lia.
    + intros u v A. rewrite !updE in *. destruct (Nat.eq_dec v r); auto. destruct (Nat.eq_dec u t); [congruence|]. apply (i_free _ _ I _ _ A).
    + intros u. du. apply (i_none _ _ I).
    + intros u v X. destruct (i_xn _ _ I _ _ X) as [Y Z]. split; [|right; auto]. du. rewrite Hi in X. discriminate.
    + intros u v A. rewrite !updE in *. destruct (Nat.eq_dec u t) as [->|X].
      * injection A as <-. destruct (Nat.eq_dec r r); [|congruence]. rewrite O1, Hi. auto.
      * destruct (Nat.eq_dec v r); [exfalso; eapply Nr; eauto|]. apply (i_act _ _ I _ _ A).
    + intros u v i A. rewrite !updE in *. destruct (Nat.eq_dec u t) as [->|X].
      * injection A as <-. destruct (Nat.eq_dec r r); [|congruence]. rewrite O1, Hi. auto.
      * destruct (Nat.eq_dec v r); [exfalso; eapply Nr; eauto|]. apply (i_bc _ _ I _ _ _ A).
    + intros u v x i A B. rewrite !updE in *. destruct (Nat.eq_dec u t) as [->|X]; [rewrite O1 in B; contradiction|].
      destruct (Nat.eq_dec v r); [exfalso; eapply Nr; eauto|]. apply (i_be _ _ I _ _ _ _ A B).
    + intros u v i A B. rewrite !updE in *. destruct (Nat.eq_dec u t) as [->|X]; [contradiction|].
      destruct (Nat.eq_dec v r); [exfalso; eapply Nr; eauto|]. apply (i_bk _ _ I _ _ _ A B).
    + intros u v x A B. rewrite !updE in *. destruct (Nat.eq_dec u t) as [->|X]; [rewrite O1 in B; contradiction|]. apply (i_sep _ _ I _ _ _ A B).
    + intros u v A B. rewrite !updE in *. destruct (Nat.eq_dec u t) as [->|X]; [contradiction|].
      destruct (Nat.eq_dec v r); [exfalso; eapply Nr; eauto|]. apply (i_lo _ _ I _ _ A B).
    + intros v. du; [cbn; lia|]. apply (i_rep _ _ I).
    + apply (i_emp _ _ I).
    + intros u v g A B. rewrite !updE in *. destruct (Nat.eq_dec u t) as [->|X]; [rewrite Hi in B; discriminate|]. apply (i_g _ _ I _ _ _ A B).
    + apply (i_mix _ _ I).
    + apply (i_pk _ _ I).
    + apply (i_nd _ _ I).
    + apply (i_id _ _ I).
    + apply (i_ns _ _ I).
    + intros v. du; [discriminate|]. apply (i_fr _ _ I).
    + intros u. pose proof (i_v _ _ I u) as X. revert X. unfold V. fc. destruct (view (thr s u)) as [[d [rest|]]|]; auto.
      intros [X Y]. split; auto. intros v w A B C. change (ld s w) in C. rewrite updE in B.
      destruct (Nat.eq_dec w t) as [->|Z]; [contradiction|]. apply (Y v w A B C).
  - (* recycle *)
    destruct (own s t) eqn:Eo; [discriminate|]. destruct (existsb _ _) eqn:X; [|discriminate]. injection H as <- <-. exists lo.
    eapply (I0_frame2 s _ lo t); fc; eauto using core_refl; try (rewrite Hi; reflexivity); cbn; auto.
    intros v E. injection E as <-. split; auto. apply existsb_in; auto.
  - (* unregister *)
    destruct (own s t) as [r|] eqn:Eo; [|discriminate]. destruct (may_unregister s t r) eqn:M; [|discriminate].
    injection H as <- <-. exists (upd lo r (lo r)).
    assert (O : opn s t = []) by (unfold may_unregister in M; destruct (opn s t); auto; discriminate).
    apply (I0_self0 s _ lo t r N1); auto. intros; discriminate.
  - (* begin *)
    destruct (own s t) as [r|] eqn:Eo; [|discriminate]. destruct (may_begin c s t sc) eqn:M; [|discriminate].
    injection H as <- <-. exists (upd lo r (lo r)).
    apply (I0_self0 s _ lo t r (B1 sc)); auto; try discriminate. cbn. intros x b Hx E. injection E as <-.
    unfold may_begin in M. rewrite Hmix in M. cbn in M. rewrite forallb_forall in M. specialize (M x Hx). apply eqb_prop in M. auto.
  - (* end *)
    destruct (own s t) as [r|] eqn:Eo; [|discriminate]. destruct (find_sec s0 (opn s t)) as [x|] eqn:F; [|discriminate].
    injection H as <- <-. exists (upd lo r (lo r)).
    destruct (drop_spec _ _ _ (i_nd _ _ I t) F) as [D1 [D2 D3]]. destruct (find_sec_in _ _ _ F) as [F1 F2].
    assert (LD : ld s t) by (left; intros E; rewrite E in F1; contradiction).
    assert (SUB : forall y, In y (drop_sec s0 (opn s t)) -> In y (opn s t)) by (intros y Y; apply drop_in in Y; tauto).
    apply (I0_self s _ lo t r (rc s r) (drop_sec s0 (opn s t)) (E1 (skind x)) (lo r)); auto; fc; auto; try (cbn; congruence).
    + intros v. du.
    + apply (i_free _ _ I _ _ Eo).
    + rewrite (i_act _ _ I _ _ Eo), Hi. cbn. lia.
    + intros i. rewrite (i_bc _ _ I _ _ i Eo), Hi, D2. cbn. destruct (skind x); lia.
    + intros y i Y. apply (i_be _ _ I _ _ _ _ Eo (SUB _ Y)).
    + intros i _. apply (i_bk _ _ I _ _ _ Eo LD).
    + intros y Y. apply (i_sep _ _ I _ _ _ Eo (SUB _ Y)).
    + intros _. apply (i_lo _ _ I _ _ Eo LD).
    + apply (i_rep _ _ I).
    + intros y z Y Z. apply (i_mix _ _ I t); auto.
    + cbn. intros y b Y E. injection E as <-. apply (i_mix _ _ I t); auto.
    + intros _. left. split; auto. lia.
  - destruct (may_call c s strict r); [|discriminate]. injection H as <- <-. exists lo.
    eapply (I0_frame s _ lo t); fc; eauto using core_refl; try (rewrite Hi; reflexivity); cbn; auto.
  - destruct (may_poll c s r); [|discriminate]. injection H as <- <-. exists lo.
    eapply (I0_frame s _ lo t); fc; eauto using core_refl; try (rewrite Hi; reflexivity); cbn; auto.
  - injection H as <- <-. exists lo.
    eapply (I0_frame s _ lo t); fc; eauto using core_refl; try (rewrite Hi; reflexivity); cbn; auto.
  - destruct (may_poll c s r); [|discriminate]. injection H as <- <-. exists lo.
    eapply (I0_frame s _ lo t); fc; eauto using core_refl; try (rewrite Hi; reflexivity); cbn; auto.
Qed.

Ltac quietly I t Et := match type of I with I0 ?s ?lo =>
  exists lo; eapply (I0_frame s _ lo t); fc; eauto using core_refl; try (rewrite Et; reflexivity); try reflexivity;
  try exact Logic.I end.

Lemma core_upd : forall f r q, core (f r) q -> forall v : nat, core (f v) (upd f r q v).
Proof. intros. rewrite updE. destruct (Nat.eq_dec v r) as [->|]; auto. apply core_refl. Qed.

Lemma ld_not : forall s lo t r, I0 s lo -> own s t = Some r -> ract (rc s r) = 0%nat -> ~ ld s t.
Proof.
  intros s lo t r I Ho E [X|X]; pose proof (i_act _ _ I _ _ Ho) as A; rewrite E in A.
  - destruct (opn s t); [apply X; auto|cbn in A; lia].
  - destruct (thr s t); cbn in *; try discriminate; lia.
Qed.

Lemma I0_step : forall s lo t s' ev, I0 s lo -> ep s + 8 < W -> tick s t = Some (s', ev) -> exists lo', I0 s' lo'.
Proof.
  intros s lo t s' ev I Hg H. unfold tick in H. destruct (thr s t) eqn:Et; try discriminate.
  - (* X1 *)
    destruct (i_xn _ _ I t r ltac:(rewrite Et; reflexivity)) as [Eo Er]. injection H as <- <-. exists lo.
    eapply (I0_frame2 s _ lo t); fc; eauto using core_refl; try (rewrite Et; reflexivity).
    + destruct (rfree (rc s r)); auto.
    + destruct (rfree (rc s r)); cbn; intros v E; [injection E as <-; auto|discriminate].
    + destruct (rfree (rc s r)); cbn; auto.
  - (* X2 *)
    destruct (i_xn _ _ I t r ltac:(rewrite Et; reflexivity)) as [Eo Er].
    destruct (i_none _ _ I _ Eo) as [O1 O2]. exists lo.
    assert (NL : ~ ld s t) by (unfold ld; rewrite O1, Et; cbn; intros [X|X]; [apply X; auto|discriminate]).
    assert (L : forall u, opn s' u = opn s u -> thr s' u = upd (thr s) t Idle u -> (ld s' u <-> ld s u)).
    { intros u X Y. unfold ld. rewrite X, Y, updE. destruct (Nat.eq_dec u t) as [->|]; [|tauto]. rewrite Et. cbn. tauto. }
    destruct (rfree (rc s r)) eqn:F; injection H as <- <-; fc.
    + assert (Nr : forall u v, own s u = Some v -> v <> r).
      { intros u v X E. subst v. rewrite (i_free _ _ I _ _ X) in F. discriminate. }
      destruct (i_fr _ _ I _ F) as [A0 B0].
      constructor; fc.
      * intros u w v. rewrite !updE. destruct (Nat.eq_dec u t), (Nat.eq_dec w t); subst; auto; intros A B;
          [injection A as <-|injection B as <-|]; try (exfalso; eapply Nr; eauto; fail). apply (i_own _ _ I _ _ _ A B).
      * intros u v. rewrite updE. destruct (Nat.eq_dec u t); intros A; [|apply (i_rec _ _ I _ _ A)].
        injection A as <-. auto.
      * apply (i_len _ _ I).
      * intros u v A. rewrite !updE in *. destruct (Nat.eq_dec v r); auto. destruct (Nat.eq_dec u t); [congruence|]. apply (i_free _ _ I _ _ A).
      * intros u. rewrite !updE. destruct (Nat.eq_dec u t); [discriminate|]. apply (i_none _ _ I).
      * intros u v. rewrite !updE. destruct (Nat.eq_dec u t); [discriminate|]. apply (i_xn _ _ I).
      * intros u v A. rewrite !updE in *. destruct (Nat.eq_dec u t) as [->|X].
        -- injection A as <-. destruct (Nat.eq_dec r r); [|congruence]. fc. rewrite O1. auto.
        -- destruct (Nat.eq_dec v r); [exfalso; eapply Nr; eauto|]. apply (i_act _ _ I _ _ A).
      * intros u v i A. rewrite !updE in *. destruct (Nat.eq_dec u t) as [->|X].
        -- injection A as <-. destruct (Nat.eq_dec r r); [|congruence]. fc. rewrite O1. auto.
        -- destruct (Nat.eq_dec v r); [exfalso; eapply Nr; eauto|]. apply (i_bc _ _ I _ _ _ A).
      * intros u v x i A B. rewrite !updE in *. destruct (Nat.eq_dec u t) as [->|X]; [rewrite O1 in B; contradiction|].
        destruct (Nat.eq_dec v r); [exfalso; eapply Nr; eauto|]. apply (i_be _ _ I _ _ _ _ A B).
      * intros u v i A B. apply L in B; auto. rewrite !updE in *. destruct (Nat.eq_dec u t) as [->|X]; [contradiction|].
        destruct (Nat.eq_dec v r); [exfalso; eapply Nr; eauto|]. apply (i_bk _ _ I _ _ _ A B).
      * intros u v x A B. rewrite !updE in *. destruct (Nat.eq_dec u t) as [->|X]; [rewrite O1 in B; contradiction|]. apply (i_sep _ _ I _ _ _ A B).
      * intros u v A B. apply L in B; auto. rewrite !updE in *. destruct (Nat.eq_dec u t) as [->|X]; [contradiction|].
        destruct (Nat.eq_dec v r); [exfalso; eapply Nr; eauto|]. apply (i_lo _ _ I _ _ A B).
      * intros v. rewrite updE. destruct (Nat.eq_dec v r) as [->|]; apply (i_rep _ _ I).
      * intros u. rewrite updE. destruct (Nat.eq_dec u t); [discriminate|]. apply (i_emp _ _ I).
      * intros u v g A B. rewrite !updE in *. destruct (Nat.eq_dec u t) as [->|X]; [discriminate|]. apply (i_g _ _ I _ _ _ A B).
      * apply (i_mix _ _ I).
      * intros u x b A. rewrite updE. destruct (Nat.eq_dec u t); [discriminate|]. apply (i_pk _ _ I _ _ _ A).
      * apply (i_nd _ _ I).
      * apply (i_id _ _ I).
      * apply (i_ns _ _ I).
      * intros v. rewrite updE. destruct (Nat.eq_dec v r); [discriminate|]. apply (i_fr _ _ I).
      * intros u. rewrite updE. destruct (Nat.eq_dec u t) as [->|]; [exact Logic.I|].
        pose proof (i_v _ _ I u) as X. revert X. unfold V. fc. destruct (view (thr s u)) as [[d [rest|]]|]; auto.
        intros [X Y]. split; auto. intros v w A B C. apply L in C; auto. rewrite updE in B.
        destruct (Nat.eq_dec w t) as [->|Z]; [contradiction|]. apply (Y v w A B C).
    + eapply (I0_frame2 s _ lo t); fc; eauto; try (rewrite Et; reflexivity); try reflexivity; try (cbn; auto; fail); try (intros; discriminate).
      apply core_upd. repeat split; auto.
  - (* N1 *)
    destruct (own s t) as [r|] eqn:Eo; [|discriminate]. injection H as <- <-. exists (upd lo r (lo r)).
    pose proof (i_emp _ _ I t ltac:(rewrite Et; reflexivity)) as O.
    apply (I0_self s _ lo t r rec0 [] N2 (lo r)); auto; fc; auto; try discriminate; try (intros; contradiction);
      try (intros; discriminate); try reflexivity; try (cbn; lia); try apply NoDup_nil; try (intros [X|X]; [congruence|discriminate]);
      try (intros i [X|X]; [congruence|discriminate]).
    intros u. du.
  - (* N2 *)
    destruct (own s t) as [r|] eqn:Eo; [|discriminate]. injection H as <- <-. exists lo.
    pose proof (i_emp _ _ I t ltac:(rewrite Et; reflexivity)) as O.
    pose proof (i_act _ _ I _ _ Eo) as A0. pose proof (fun i => i_bc _ _ I _ _ i Eo) as B0. rewrite O, Et in *. cbn in A0, B0.
    assert (Nu : forall u v, u <> t -> own s u = Some v -> v <> r).
    { intros u v X Y E. subst v. apply X. apply (i_own _ _ I _ _ _ Y Eo). }
    assert (L : forall u, ld (go (u_bpl (u_own (u_rc s r (w_free (rc s r) true)) t None) r false) t Idle) u <-> ld s u).
    { intros u. unfold ld. fc. rewrite updE. destruct (Nat.eq_dec u t) as [->|]; [|tauto]. rewrite Et. cbn. tauto. }
    constructor; fc.
    + intros u w v. rewrite !updE. destruct (Nat.eq_dec u t), (Nat.eq_dec w t); try discriminate. apply (i_own _ _ I).
    + intros u v. rewrite updE. destruct (Nat.eq_dec u t); [discriminate|]. apply (i_rec _ _ I).
    + apply (i_len _ _ I).
    + intros u v A. rewrite !updE in *. destruct (Nat.eq_dec u t); [congruence|]. destruct (Nat.eq_dec v r); [exfalso; eapply Nu; eauto|].
      apply (i_free _ _ I _ _ A).
    + intros u A. rewrite !updE in *. destruct (Nat.eq_dec u t) as [->|]; [rewrite O; auto|]. apply (i_none _ _ I _ A).
    + intros u v A. rewrite !updE in *. destruct (Nat.eq_dec u t) as [->|]; [discriminate|]. apply (i_xn _ _ I _ _ A).
    + intros u v A. rewrite !updE in *. destruct (Nat.eq_dec u t); [congruence|]. destruct (Nat.eq_dec v r); [exfalso; eapply Nu; eauto|].
      apply (i_act _ _ I _ _ A).
    + intros u v i A. rewrite !updE in *. destruct (Nat.eq_dec u t); [congruence|]. destruct (Nat.eq_dec v r); [exfalso; eapply Nu; eauto|].
      apply (i_bc _ _ I _ _ _ A).
    + intros u v x i A. rewrite !updE in *. destruct (Nat.eq_dec u t); [congruence|]. destruct (Nat.eq_dec v r); [exfalso; eapply Nu; eauto|].
      apply (i_be _ _ I _ _ _ _ A).
    + intros u v i A B. apply L in B. rewrite !updE in *. destruct (Nat.eq_dec u t); [congruence|]. destruct (Nat.eq_dec v r); [exfalso; eapply Nu; eauto|].
      apply (i_bk _ _ I _ _ _ A B).
    + intros u v x A. rewrite !updE in *. destruct (Nat.eq_dec u t); [congruence|]. apply (i_sep _ _ I _ _ _ A).
    + intros u v A B. apply L in B. rewrite !updE in *. destruct (Nat.eq_dec u t); [congruence|]. destruct (Nat.eq_dec v r); [exfalso; eapply Nu; eauto|].
      apply (i_lo _ _ I _ _ A B).
    + intros v. rewrite updE. destruct (Nat.eq_dec v r) as [->|]; apply (i_rep _ _ I).
    + intros u. rewrite updE. destruct (Nat.eq_dec u t); [discriminate|]. apply (i_emp _ _ I).
    + intros u v g A. rewrite !updE in *. destruct (Nat.eq_dec u t); [congruence|]. apply (i_g _ _ I _ _ _ A).
    + apply (i_mix _ _ I).
    + intros u x b A. rewrite updE. destruct (Nat.eq_dec u t); [discriminate|]. apply (i_pk _ _ I _ _ _ A).
    + apply (i_nd _ _ I).
    + apply (i_id _ _ I).
    + apply (i_ns _ _ I).
    + intros v. rewrite updE. destruct (Nat.eq_dec v r); fc; [intros _; split; auto; intros; rewrite B0; auto|]. apply (i_fr _ _ I).
    + intros u. rewrite updE. destruct (Nat.eq_dec u t) as [->|]; [exact Logic.I|].
      pose proof (i_v _ _ I u) as X. revert X. unfold V. fc. destruct (view (thr s u)) as [[d [rest|]]|]; auto.
      intros [X Y]. split; auto. intros v w A B C. apply L in C. rewrite updE in B.
      destruct (Nat.eq_dec w t) as [->|Z]; [discriminate|]. apply (Y v w A B C).
  - (* B1 *)
    destruct (own s t) as [r|] eqn:Eo; [|discriminate]. pose proof (i_act _ _ I _ _ Eo) as A0.
    pose proof (fun i => i_bc _ _ I _ _ i Eo) as B0. rewrite Et in A0, B0. cbn in A0, B0. destruct (ract (rc s r)) as [|n] eqn:Ea.
    + (* outermost *)
      injection H as <- <-. exists (upd lo r (lo r)).
      assert (O : opn s t = []) by (destruct (opn s t); auto; cbn in A0; lia). rewrite O in *.
      apply (I0_self s _ lo t r (w_act (rc s r) 1) [] (B2 sc) (lo r)); auto; fc; auto; try discriminate; try (intros; contradiction);
        try (intros; discriminate); try reflexivity; try (cbn; lia); try apply NoDup_nil; try (intros [X|X]; [congruence|discriminate]);
        try (intros i [X|X]; [congruence|discriminate]).
      * intros u. du.
      * apply (i_free _ _ I _ _ Eo).
      * apply (i_rep _ _ I).
    + (* nested *)
      assert (LD : ld s t) by (left; intros X; rewrite X in A0; cbn in A0; lia).
      destruct sc; injection H as <- <-; exists (upd lo r (lo r)).
      * apply (I0_self s _ lo t r (w_act (rc s r) (S (S n))) (opn s t) B4 (lo r)); auto; fc; auto; try discriminate; try reflexivity.
        -- intros u. du.
        -- apply (i_free _ _ I _ _ Eo).
        -- cbn. lia.
        -- intros x i. apply (i_be _ _ I _ _ _ _ Eo).
        -- intros i _. apply (i_bk _ _ I _ _ _ Eo LD).
        -- intros x. apply (i_sep _ _ I _ _ _ Eo).
        -- intros _. apply (i_lo _ _ I _ _ Eo LD).
        -- apply (i_rep _ _ I).
        -- apply (i_mix _ _ I).
        -- intros x b Hx E. apply (i_pk _ _ I t x b Hx). rewrite Et. auto.
        -- apply (i_nd _ _ I).
        -- intros _. left. split; auto. lia.
      * pose proof (i_lo _ _ I _ _ Eo LD) as [L1 L2].
        assert (K : forall x, In x (opn s t) -> skind x = None).
        { intros x Hx. pose proof (i_pk _ _ I t x false Hx ltac:(rewrite Et; auto)). destruct (skind x); auto; discriminate. }
        apply (I0_self s _ lo t r (w_act (rc s r) (S (S n))) (mkS (nsec s) None (ep s) :: opn s t) Idle (lo r)); auto; fc; auto; try discriminate; try reflexivity.
        -- intros x [<-|Hx]; [right; cbn; lia|left; auto].
        -- apply (i_free _ _ I _ _ Eo).
        -- cbn. lia.
        -- intros x i [<-|Hx]; [discriminate|]. apply (i_be _ _ I _ _ _ _ Eo Hx).
        -- intros i _. apply (i_bk _ _ I _ _ _ Eo LD).
        -- intros x [<-|Hx]; [cbn; lia|]. apply (i_sep _ _ I _ _ _ Eo Hx).
        -- apply (i_rep _ _ I).
        -- assert (K' : forall x, In x (mkS (nsec s) None (ep s) :: opn s t) -> skind x = None) by (intros x [<-|Hx]; auto).
           intros x y X Y. rewrite (K' x X), (K' y Y). auto.
        -- cbn. constructor; [|apply (i_nd _ _ I)]. intros X. apply in_map_iff in X. destruct X as [y [Y1 Y2]].
           pose proof (i_ns _ _ I _ _ Y2). lia.
        -- intros _. left. split; auto. lia.
  - (* B2 *)
    injection H as <- <-.
    destruct (own s t) as [r|] eqn:Eo; [|destruct (i_none _ _ I _ Eo) as [_ X]; rewrite Et in X; discriminate].
    pose proof (i_emp _ _ I t ltac:(rewrite Et; reflexivity)) as O.
    exists (upd lo r (ep s)). pose proof (i_act _ _ I _ _ Eo) as A0.
    pose proof (fun i => i_bc _ _ I _ _ i Eo) as B0. rewrite Et, O in *. cbn in A0, B0.
    apply (I0_self s _ lo t r (rc s r) [] (B3 sc (ep s)) (ep s)); auto; fc; auto; try discriminate; try reflexivity; try (intros; contradiction).
    + intros v. du.
    + intros u. du.
    + apply (i_free _ _ I _ _ Eo).
    + intros i _ X. exfalso. apply X. auto.
    + intros _. split; [apply (i_rep _ _ I)|lia].
    + apply (i_rep _ _ I).
    + cbn. congruence.
    + constructor.
    + intros _. right. lia.
  - (* B3 *)
    destruct (own s t) as [r|] eqn:Eo; [|discriminate].
    pose proof (i_emp _ _ I t ltac:(rewrite Et; reflexivity)) as O. pose proof (i_g _ _ I t r g Eo ltac:(rewrite Et; reflexivity)) as G.
    assert (LD : ld s t) by (right; rewrite Et; auto). pose proof (i_lo _ _ I _ _ Eo LD) as [L1 L2].
    pose proof (i_act _ _ I _ _ Eo) as A0. pose proof (fun i => i_bc _ _ I _ _ i Eo) as B0. rewrite Et, O in *. cbn in A0, B0.
    destruct sc; injection H as <- <-; exists (upd lo r (lo r)).
    + apply (I0_self s _ lo t r (w_rep (rc s r) g) [] B4 (lo r)); auto; fc; auto; try discriminate; try reflexivity; try (intros; contradiction).
      * intros u. du.
      * apply (i_free _ _ I _ _ Eo).
      * intros i _ X. exfalso. apply X. auto.
      * intros _. lia.
      * lia.
      * constructor.
      * intros _. left. split; auto. lia.
    + apply (I0_self s _ lo t r (w_rep (rc s r) g) [mkS (nsec s) None g] Idle (lo r)); auto; fc; auto; try discriminate; try reflexivity; try (intros; contradiction).
      * intros u. du.
      * intros x [<-|[]]. right; cbn; lia.
      * apply (i_free _ _ I _ _ Eo).
      * intros x i [<-|[]]. discriminate.
      * intros i _ X. exfalso. apply X. auto.
      * intros x [<-|[]]. cbn. lia.
      * intros _. lia.
      * lia.
      * intros x y [<-|[]] [<-|[]]. auto.
      * cbn. constructor; [intros []|constructor].
      * intros _. left. split; auto. lia.
  - (* B4 *)
    destruct (own s t) as [r|] eqn:Eo; [|discriminate]. injection H as <- <-. exists (upd lo r (lo r)).
    assert (LD : ld s t) by (right; rewrite Et; auto). pose proof (i_lo _ _ I _ _ Eo LD) as [L1 L2].
    pose proof (i_act _ _ I _ _ Eo) as A0. pose proof (fun i => i_bc _ _ I _ _ i Eo) as B0. rewrite Et in A0, B0. cbn in A0, B0.
    pose proof (fun i => i_bk _ _ I _ _ i Eo LD) as BK.
    set (i := sense (ep s)) in *. set (q := rc s r) in *.
    set (be := match rbc q i with O => upd (rbe q) i (ep s) | _ => rbe q end).
    assert (Bi : be i = ep s).
    { subst be. destruct (rbc q i) eqn:Ec; [apply upd_same|]. destruct (BK i ltac:(lia)) as [X Y]. apply sense_eq; [exact Y|]. lia. }
    assert (Bj : forall j, j <> i -> be j = rbe q j).
    { intros j X. subst be. destruct (rbc q i); auto. apply upd_other; auto. }
    assert (Bo : forall x j, In x (opn s t) -> skind x = Some j -> sep x = be j).
    { intros x j Hx E. rewrite (i_be _ _ I _ _ _ _ Eo Hx E). fold q. subst be. destruct (rbc q i) eqn:Ec; auto. rewrite updE.
      destruct (Nat.eq_dec j i) as [->|]; auto. exfalso. apply (cntk_zero i (opn s t) x); auto. specialize (B0 i). lia. }
    assert (K : forall x, In x (opn s t) -> is_some (skind x) = true).
    { intros x Hx. apply (i_pk _ _ I t x true Hx). rewrite Et. auto. }
    clearbody be.
    apply (I0_self s _ lo t r (w_bkt q (upd (rbc q) i (S (rbc q i))) be) (mkS (nsec s) (Some i) (ep s) :: opn s t) Idle (lo r)); auto; fc; auto; try discriminate; try reflexivity.
    + intros x [<-|Hx]; [right; cbn; lia|left; auto].
    + apply (i_free _ _ I _ _ Eo).
    + cbn. lia.
    + intros j. rewrite cntk_cons. cbn. rewrite updE, B0. destruct (Nat.eq_dec j i) as [->|X].
      * rewrite Nat.eqb_refl. lia.
      * destruct (Nat.eqb_spec i j); [congruence|]. rewrite B0. lia.
    + intros x j [<-|Hx] E; [cbn in *; injection E as <-; auto|]. auto.
    + intros j _. rewrite updE. destruct (Nat.eq_dec j i) as [->|X]; intros Y.
      * rewrite Bi. split; [lia|reflexivity].
      * rewrite Bj by auto. apply BK; auto.
    + intros x [<-|Hx]; [cbn; lia|]. apply (i_sep _ _ I _ _ _ Eo Hx).
    + apply (i_rep _ _ I).
    + assert (K' : forall x, In x (mkS (nsec s) (Some i) (ep s) :: opn s t) -> is_some (skind x) = true) by (intros x [<-|Hx]; auto).
      intros x y X Y. rewrite (K' x X), (K' y Y). auto.
    + cbn. constructor; [|apply (i_nd _ _ I)]. intros X. apply in_map_iff in X. destruct X as [y [Y1 Y2]].
      pose proof (i_ns _ _ I _ _ Y2). lia.
    + intros _. left. split; auto. lia.
  - (* E1 *)
    destruct (own s t) as [r|] eqn:Eo; [|discriminate].
    assert (LD : ld s t) by (right; rewrite Et; auto). pose proof (i_lo _ _ I _ _ Eo LD) as [L1 L2].
    pose proof (i_act _ _ I _ _ Eo) as A0. pose proof (fun i => i_bc _ _ I _ _ i Eo) as B0. rewrite Et in A0, B0. cbn [extra] in A0.
    assert (M : forall p, extra p = 0%nat -> (forall i, ext2 p i = ext2 (E1 k) i) -> pcemp p = false -> pcg p = None -> pcld p = false ->
      (forall x b, In x (opn s t) -> pkind p = Some b -> is_some (skind x) = b) -> pcx p = None -> view p = None ->
      I0 (go (u_rc s r (w_act (rc s r) (Nat.pred (ract (rc s r))))) t p) (upd lo r (lo r))).
    { intros p P1 P2 P3 P4 P5 P6 P7 P8.
      apply (I0_self s _ lo t r (w_act (rc s r) (Nat.pred (ract (rc s r)))) (opn s t) p (lo r)); auto; fc; auto; try congruence.
      - intros u. du.
      - apply (i_free _ _ I _ _ Eo).
      - rewrite A0, P1. lia.
      - intros x i. apply (i_be _ _ I _ _ _ _ Eo).
      - intros i _. apply (i_bk _ _ I _ _ _ Eo LD).
      - intros x. apply (i_sep _ _ I _ _ _ Eo).
      - apply (i_rep _ _ I).
      - apply (i_mix _ _ I).
      - apply (i_nd _ _ I).
      - intros _. left. split; auto. lia. }
    destruct k as [i|]; injection H as <- <-; exists (upd lo r (lo r)); apply M; auto; try (intros; discriminate).
    intros x b Hx E. apply (i_pk _ _ I t x b Hx). rewrite Et. auto.
  - (* E2 *)
    destruct (own s t) as [r|] eqn:Eo; [|discriminate].
    pose proof (i_act _ _ I _ _ Eo) as A0. pose proof (fun i => i_bc _ _ I _ _ i Eo) as B0. rewrite Et in A0, B0. cbn [extra ext2] in A0, B0.
    set (q := rc s r) in *.
    assert (LD : opn s t <> [] \/ pcld Idle = true -> ld s t) by (intros [X|X]; [left; auto|discriminate]).
    assert (K : forall x, In x (opn s t) -> is_some (skind x) = true).
    { intros x Hx. apply (i_pk _ _ I t x true Hx). rewrite Et. auto. }
    assert (Bi : rbc q i = S (cntk i (opn s t))) by (rewrite B0, Nat.eqb_refl; lia).
    assert (Bj : forall j, j <> i -> rbc q j = cntk j (opn s t)) by (intros j X; rewrite B0; destruct (Nat.eqb_spec i j); [congruence|lia]).
    assert (C : forall j, upd (rbc q) i (Nat.pred (rbc q i)) j = (cntk j (opn s t) + 0)%nat).
    { intros j. rewrite updE. destruct (Nat.eq_dec j i) as [->|X]; [rewrite Bi; cbn; lia|rewrite Bj; auto]. }
    (* the new epoch of the record: [l] bounds it and the open sections *)
    assert (M : forall e l, (ld s t -> e <= l /\ lo r <= l <= ep s) -> e <= ep s ->
      (forall x, In x (opn s t) -> l <= sep x) -> (forall j, ld s t -> cntk j (opn s t) <> 0%nat -> l <= rbe q j) ->
      I0 (go (u_rc s r (w_rep (w_bkt q (upd (rbc q) i (Nat.pred (rbc q i))) (rbe q)) e)) t Idle) (upd lo r l)).
    { intros e l P1 P2 P3 P4.
      apply (I0_self s _ lo t r (w_rep (w_bkt q (upd (rbc q) i (Nat.pred (rbc q i))) (rbe q)) e) (opn s t) Idle l); auto; fc; auto; try discriminate.
      - intros u. du.
      - apply (i_free _ _ I _ _ Eo).
      - intros x j. apply (i_be _ _ I _ _ _ _ Eo).
      - intros j X Y. apply LD in X. rewrite C in Y.
        destruct (i_bk _ _ I _ _ j Eo X) as [Z1 Z2]; [fold q; rewrite B0; lia|]. fold q in Z1, Z2. pose proof (P4 j X ltac:(lia)). split; auto. lia.
      - intros x Hx. pose proof (i_sep _ _ I _ _ _ Eo Hx). pose proof (P3 x Hx). lia.
      - intros X. apply LD in X. pose proof (i_lo _ _ I _ _ Eo X). specialize (P1 X). lia.
      - apply (i_mix _ _ I).
      - apply (i_nd _ _ I).
      - intros X. apply LD in X. left. split; auto. apply P1; auto. }
    assert (SAME : I0 (go (u_rc s r (w_rep (w_bkt q (upd (rbc q) i (Nat.pred (rbc q i))) (rbe q)) (rrep q))) t Idle) (upd lo r (lo r))).
    { apply M.
      - intros X. pose proof (i_lo _ _ I _ _ Eo X). fold q in H0. lia.
      - apply (i_rep _ _ I).
      - intros x Hx. apply (i_sep _ _ I _ _ _ Eo Hx).
      - intros j X Y. destruct (i_bk _ _ I _ _ j Eo X) as [Z1 Z2]; [fold q; rewrite B0; lia|]. fold q in Z1. lia. }
    fc. destruct (Nat.pred (rbc q i)) as [|m] eqn:Em.
    + (* the bucket is empty now *)
      set (o := Nat.modulo (S i) 2) in *.
      destruct (Nat.ltb 0 (upd (rbc q) i 0%nat o) && before (rbe q i) (rbe q o)) eqn:T; injection H as <- <-.
      * apply andb_true_iff in T. destruct T as [T1 T2]. apply Nat.ltb_lt in T1. rewrite updE in T1.
        destruct (Nat.eq_dec o i) as [E|NE]; [lia|]. rewrite (Bj o NE) in T1.
        assert (ON : opn s t <> []) by (intros X; rewrite X in T1; cbn in T1; lia).
        assert (L : ld s t) by (left; auto). pose proof (i_lo _ _ I _ _ Eo L) as [L1 L2].
        destruct (i_bk _ _ I _ _ o Eo L) as [O1 O2]; [fold q; rewrite (Bj o NE); lia|].
        destruct (i_bk _ _ I _ _ i Eo L) as [I1 I2]; [fold q; lia|]. fold q in O1, O2, I1, I2.
        assert (ALL : forall x, In x (opn s t) -> skind x = Some o).
        { intros x Hx. pose proof (K x Hx) as KX. destruct (skind x) as [j|] eqn:Ej; [|discriminate].
          pose proof (i_be _ _ I _ _ _ _ Eo Hx Ej) as BE.
          assert (CJ : cntk j (opn s t) <> 0%nat) by (intros Z; apply (cntk_zero _ _ _ Z Hx Ej)).
          assert (CI : cntk i (opn s t) = 0%nat) by lia.
          assert (J2 : (j < 2)%nat).
          { destruct (i_bk _ _ I _ _ j Eo L) as [_ Z]; [fold q; rewrite B0; lia|]. rewrite <- Z. unfold sense.
            assert (Q : forall n, n mod 2 < 2) by (intros; apply N.mod_lt; lia). specialize (Q (rbe (rc s r) j)). lia. }
          assert (I3 : (i < 2)%nat).
          { rewrite <- I2. unfold sense. assert (Q : forall n, n mod 2 < 2) by (intros; apply N.mod_lt; lia). specialize (Q (rbe q i)). lia. }
          f_equal. subst o. destruct j as [|[|]], i as [|[|]]; try lia; auto; congruence. }
        exists (upd lo r (rbe q o)). apply M; auto; try lia.
        -- intros x Hx. rewrite (i_be _ _ I _ _ _ _ Eo Hx (ALL x Hx)). fold q. lia.
        -- intros j _ Y. destruct (opn s t) as [|x l] eqn:El; [congruence|].
           assert (Z : exists x, In x (opn s t) /\ skind x = Some j).
           { unfold cntk in Y. rewrite El. destruct (filter _ (x :: l)) as [|y l'] eqn:Ef; [exfalso; apply Y; auto|].
             assert (W1 : In y (y :: l')) by (left; auto). rewrite <- Ef in W1. apply filter_In in W1. destruct W1 as [W1 W2]. exists y. split; auto.
             destruct (skind y) as [j'|]; [|discriminate]. apply Nat.eqb_eq in W2. subst. auto. }
           destruct Z as [z [Z1 Z2]]. rewrite El in Z1. rewrite (ALL z Z1) in Z2. injection Z2 as <-. lia.
      * exists (upd lo r (lo r)). exact SAME.
    + injection H as <- <-. exists (upd lo r (lo r)). exact SAME.
  - (* C1 *) injection H as <- <-. quietly I t Et.
  - (* C2 *) destruct st; injection H as <- <-; quietly I t Et. apply core_upd. repeat split.
  - (* C3 *) injection H as <- <-. quietly I t Et. apply core_upd. repeat split.
  - (* C4 *) injection H as <- <-. quietly I t Et. apply core_upd. repeat split.
  - (* P1 *) injection H as <- <-. quietly I t Et. cbn. split; auto. lia.
  - (* PC *)
    pose proof (i_v _ _ I t) as X. rewrite Et in X. destruct X as [X Y]. cbn in X, Y.
    destruct (N.eqb_spec (ep s) e) as [E|E]; injection H as <- <-; [|quietly I t Et].
    exists lo. rewrite eadd_small by lia. eapply (I0_tick s _ lo t _ e); fc; eauto; try (rewrite Et; reflexivity); try reflexivity; try exact Logic.I.
  - (* PW *)
    pose proof (i_v _ _ I t) as X. rewrite Et in X. destruct X as [X Y]. cbn in X, Y.
    injection H as <- <-. exists lo. apply (I0_low s _ lo t (D0 r [0; 1; 2; 3]%nat KPoll) r e I); auto; fc; auto.
    + rewrite Et. auto.
    + intros u U1 U2. apply (Y r u); auto.
  - (* PR *) injection H as <- <-. quietly I t Et.
  - (* Y1 *) injection H as <- <-. quietly I t Et. cbn. split; auto. lia.
  - (* Y4 *)
    pose proof (i_v _ _ I t) as X. rewrite Et in X. destruct X as [X Y]. cbn in X, Y.
    destruct (N.eqb (ep s) d); [|destruct ((e0 <? eadd e0 3) && (eadd e0 3 <=? ep s))]; injection H as <- <-; quietly I t Et.
    + apply quiet_snext.
    + apply V_snext; auto.
    + cbn. split; auto. lia.
  - (* YC *)
    pose proof (i_v _ _ I t) as X. rewrite Et in X. destruct X as [X Y]. cbn in X, Y.
    destruct (N.eqb_spec (ep s) d) as [E|E]; injection H as <- <-.
    + exists lo. rewrite eadd_small by lia. eapply (I0_tick s _ lo t _ d); fc; eauto; try (rewrite Et; reflexivity).
      * destruct (Nat.ltb (S i) 2); auto.
      * destruct (Nat.ltb (S i) 2); cbn; auto. split; auto. fc. lia.
    + quietly I t Et; destruct (Nat.ltb (S i) 2); cbn; auto. split; auto. lia.
  - (* YL *) destruct b; injection H as <- <-; quietly I t Et.
  - (* PB *) injection H as <- <-. quietly I t Et.
  - (* S0 *)
    pose proof (i_v _ _ I t) as X. rewrite Et in X. destruct X as [X _].
    injection H as <- <-. quietly I t Et; [apply quiet_snext|]. apply V_snext; auto.
    intros v u A B. exfalso. apply A. apply (i_rec _ _ I _ _ B).
  - (* Sc *)
    pose proof (i_v _ _ I t) as X. rewrite Et in X. destruct X as [X Y]. cbn in X, Y.
    destruct rest as [|v rest]; [discriminate|]. injection H as <- <-. quietly I t Et.
    + destruct (rfree (rc s v)); auto. apply quiet_snext.
    + destruct (rfree (rc s v)) eqn:F; [|cbn; auto]. apply V_snext; auto. intros w u A B C.
      destruct (Nat.eq_dec w v) as [->|N].
      * rewrite (i_free _ _ I _ _ B) in F. discriminate.
      * apply (Y w u); auto. cbn. intros [Z|Z]; auto.
  - (* Sa *)
    pose proof (i_v _ _ I t) as X. rewrite Et in X. destruct X as [X Y]. cbn in X, Y.
    destruct rest as [|v rest]; [discriminate|]. injection H as <- <-. quietly I t Et.
    + destruct (ract (rc s v)); auto. apply quiet_snext.
    + destruct (ract (rc s v)) eqn:F; [|cbn; auto]. apply V_snext; auto. intros w u A B C.
      destruct (Nat.eq_dec w v) as [->|N].
      * exfalso. apply (ld_not _ _ _ _ I B F C).
      * apply (Y w u); auto. cbn. intros [Z|Z]; auto.
  - (* Sr *)
    pose proof (i_v _ _ I t) as X. rewrite Et in X. destruct X as [X Y]. cbn in X, Y.
    destruct rest as [|v rest]; [discriminate|]. injection H as <- <-. quietly I t Et.
    + destruct (N.eqb (rrep (rc s v)) d); [apply quiet_snext|]. destruct k; auto.
    + destruct (N.eqb_spec (rrep (rc s v)) d) as [F|F].
      * apply V_snext; auto. intros w u A B C.
        destruct (Nat.eq_dec w v) as [->|N].
        -- pose proof (i_lo _ _ I _ _ B C). lia.
        -- apply (Y w u); auto. cbn. intros [Z|Z]; auto.
      * destruct k; cbn; auto.
  - (* D0 *)
    pose proof (i_v _ _ I t) as X. rewrite Et in X.
    destruct bs; [discriminate|]. injection H as <- <-. quietly I t Et. apply core_upd. repeat split.
  - (* DR *)
    pose proof (i_v _ _ I t) as X. rewrite Et in X.
    destruct l; injection H as <- <-; quietly I t Et.
  - (* DN *)
    pose proof (i_v _ _ I t) as X. rewrite Et in X.
    destruct (V_dnext s lo r n bs k) as [D1 [D2 [D3 D4]]]; [unfold V in X; cbn in X; destruct k; cbn in *; tauto|].
    destruct (Nat.ltb pk (rnpend (rc s r))); injection H as <- <-; quietly I t Et.
  - (* DP *)
    pose proof (i_v _ _ I t) as X. rewrite Et in X.
    destruct (V_dnext s lo r n bs k) as [D1 [D2 [D3 D4]]]; [unfold V in X; cbn in X; destruct k; cbn in *; tauto|].
    injection H as <- <-; quietly I t Et. apply core_upd. repeat split.
  - (* DA *)
    pose proof (i_v _ _ I t) as X. rewrite Et in X.
    injection H as <- <-; quietly I t Et. apply core_upd. repeat split.
  - (* DS *)
    pose proof (i_v _ _ I t) as X. rewrite Et in X.
    destruct (V_dnext s lo r n bs k) as [D1 [D2 [D3 D4]]]; [unfold V in X; cbn in X; destruct k; cbn in *; tauto|].
    injection H as <- <-; quietly I t Et. apply core_upd. repeat split.
Qed.

End Step0.
