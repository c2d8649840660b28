(** Specification automata for fair reader-writer locks, over events observable
    at the API plus the arrival of each request.  Independent of every model. *)
From Coq Require Import Arith List Lia Bool.
From Verif Require Import Lib LockSpec.
Import ListNotations.

(** * Phase-fair lock *)
Inductive pev :=
| PWReq (t : nat)   (** the write request of [t] took its place among the writers *)
| PWAcq (t : nat) | PWRel (t : nat)
| PRReq (t : nat)   (** the read request of [t] arrived *)
| PRAcq (t : nat) | PRRel (t : nat).

(** [pf_w]: waiting readers, each with whether a write phase has already begun
    since its arrival (or was running when it arrived). *)
Record pfst := { pf_h : option nat; pf_q : list nat; pf_r : list nat; pf_w : list (nat * bool) }.
Definition pf_init : pfst := {| pf_h := None; pf_q := []; pf_r := []; pf_w := [] |}.

Definition pf_step (a : pfst) (e : pev) : option pfst :=
  match e with
  | PWReq t => Some {| pf_h := pf_h a; pf_q := pf_q a ++ [t]; pf_r := pf_r a; pf_w := pf_w a |}
  | PWAcq t =>
      match pf_h a, pf_q a, pf_r a with
      | None, u :: q, [] =>
          if Nat.eqb t u && forallb (fun x => negb (snd x)) (pf_w a)
          then Some {| pf_h := Some t; pf_q := q; pf_r := []; pf_w := map (fun x => (fst x, true)) (pf_w a) |}
          else None
      | _, _, _ => None
      end
  | PWRel t =>
      match pf_h a with
      | Some u => if Nat.eqb t u then Some {| pf_h := None; pf_q := pf_q a; pf_r := pf_r a; pf_w := pf_w a |} else None
      | None => None
      end
  | PRReq t =>
      Some {| pf_h := pf_h a; pf_q := pf_q a; pf_r := pf_r a;
              pf_w := (t, match pf_h a with Some _ => true | None => false end) :: pf_w a |}
  | PRAcq t =>
      match pf_h a with
      | None => if existsb (fun x => Nat.eqb t (fst x)) (pf_w a)
                then Some {| pf_h := None; pf_q := pf_q a; pf_r := t :: pf_r a;
                             pf_w := filter (fun x => negb (Nat.eqb t (fst x))) (pf_w a) |}
                else None
      | Some _ => None
      end
  | PRRel t =>
      match remove1 t (pf_r a) with
      | Some r => Some {| pf_h := pf_h a; pf_q := pf_q a; pf_r := r; pf_w := pf_w a |}
      | None => None
      end
  end.

Definition pf_legal (log : list pev) : Prop := exists a, accepts pf_step pf_init log = Some a.

(** Reading the automaton. *)
Definition pev_rw (e : pev) : list rwev :=
  match e with
  | PWAcq t => [WAcq t] | PWRel t => [WRel t] | PRAcq t => [RAcq t] | PRRel t => [RRel t] | _ => []
  end.

Lemma pf_rw_gen : forall log a a', accepts pf_step a log = Some a' ->
  accepts rw_step {| rw_w := pf_h a; rw_r := pf_r a |} (flat_map pev_rw log) = Some {| rw_w := pf_h a'; rw_r := pf_r a' |}.
Proof.
  induction log as [|e log IH]; simpl; intros a a' H.
  - inversion H; auto.
  - destruct (pf_step a e) as [a1|] eqn:E; [|discriminate]. specialize (IH _ _ H).
    destruct e; simpl in E.
    + injection E as <-. exact IH.
    + destruct (pf_h a) eqn:E1; [discriminate|]. destruct (pf_q a); [discriminate|]. destruct (pf_r a); [|discriminate].
      destruct (Nat.eqb t n && _); [|discriminate]. injection E as <-. exact IH.
    + destruct (pf_h a) eqn:E1; [|discriminate]. simpl. destruct (Nat.eqb t n); [|discriminate]. injection E as <-. exact IH.
    + injection E as <-. exact IH.
    + destruct (pf_h a) eqn:E1; [discriminate|]. simpl. destruct (existsb _ _); [|discriminate]. injection E as <-. exact IH.
    + simpl. destruct (remove1 t (pf_r a)); [|discriminate]. injection E as <-. exact IH.
Qed.

Lemma pf_legal_rw : forall log, pf_legal log -> rw_legal (flat_map pev_rw log).
Proof. intros log [a H]. eexists. apply (pf_rw_gen _ _ _ H). Qed.

Definition pwreqs (log : list pev) : list nat := flat_map (fun e => match e with PWReq t => [t] | _ => [] end) log.
Definition pwacqs (log : list pev) : list nat := flat_map (fun e => match e with PWAcq t => [t] | _ => [] end) log.

Lemma pf_prefix_gen : forall log a a', accepts pf_step a log = Some a' -> pf_q a ++ pwreqs log = pwacqs log ++ pf_q a'.
Proof.
  induction log as [|e log IH]; simpl; intros a a' H.
  - inversion H; subst. apply app_nil_r.
  - destruct (pf_step a e) as [a1|] eqn:E; [|discriminate]. specialize (IH _ _ H).
    destruct e; simpl in *.
    + injection E as <-. simpl in IH. rewrite <- app_assoc in IH. exact IH.
    + destruct (pf_h a) eqn:E1; [discriminate|]. destruct (pf_q a); [discriminate|]. destruct (pf_r a); [|discriminate].
      destruct (Nat.eqb t n && _) eqn:Et; [|discriminate]. apply andb_true_iff in Et. destruct Et as [Et _]. apply Nat.eqb_eq in Et. subst.
      injection E as <-. simpl in *. rewrite IH. auto.
    + destruct (pf_h a) eqn:E1; [|discriminate]. destruct (Nat.eqb t n); [|discriminate]. injection E as <-. exact IH.
    + injection E as <-. exact IH.
    + destruct (pf_h a) eqn:E1; [discriminate|]. destruct (existsb _ _); [|discriminate]. injection E as <-. exact IH.
    + destruct (remove1 t (pf_r a)); [|discriminate]. injection E as <-. exact IH.
Qed.

(** Writers acquire in the order of their requests. *)
Lemma pf_prefix : forall log, pf_legal log -> exists rest, pwreqs log = pwacqs log ++ rest.
Proof. intros log [a H]. exists (pf_q a). apply (pf_prefix_gen _ _ _ H). Qed.

Lemma pf_wait_gen : forall log a a' t b, accepts pf_step a log = Some a' -> In (t, b) (pf_w a) -> ~ In (PRAcq t) log ->
  length (pwacqs log) <= (if b then 0 else 1).
Proof.
  induction log as [|e log IH]; simpl; intros a a' t b H Hin Hno; [lia|].
  destruct (pf_step a e) as [a1|] eqn:E; [|discriminate].
  assert (Hno' : ~ In (PRAcq t) log) by tauto.
  destruct e; simpl in *.
  - injection E as <-. apply (IH _ _ t b H); auto.
  - destruct (pf_h a) eqn:E1; [discriminate|]. destruct (pf_q a); [discriminate|]. destruct (pf_r a); [|discriminate].
    destruct (Nat.eqb t0 n && _) eqn:Et; [|discriminate]. apply andb_true_iff in Et. destruct Et as [_ Et].
    rewrite forallb_forall in Et. specialize (Et _ Hin). simpl in Et. destruct b; [discriminate|].
    injection E as <-. assert (length (pwacqs log) <= 0); [|unfold pwacqs in *; lia].
    apply (IH _ _ t true H); auto. simpl. apply in_map_iff. exists (t, false). auto.
  - destruct (pf_h a) eqn:E1; [|discriminate]. destruct (Nat.eqb t0 n); [|discriminate]. injection E as <-. apply (IH _ _ t b H); auto.
  - injection E as <-. apply (IH _ _ t b H); simpl; auto.
  - destruct (pf_h a) eqn:E1; [discriminate|]. destruct (existsb _ _); [|discriminate]. injection E as <-.
    apply (IH _ _ t b H); simpl; auto. apply filter_In. split; auto. simpl. apply negb_true_iff, Nat.eqb_neq. intros ->. tauto.
  - destruct (remove1 t0 (pf_r a)); [|discriminate]. injection E as <-. apply (IH _ _ t b H); auto.
Qed.

(** A waiting reader sees at most one write phase begin before it gets in, and
    none at all if a writer was inside when it arrived. *)
Lemma pf_wait : forall l1 t l2, pf_legal (l1 ++ PRReq t :: l2) -> ~ In (PRAcq t) l2 ->
  length (pwacqs l2) <= 1 /\ ((exists u, rw_winside (flat_map pev_rw l1) u) -> length (pwacqs l2) = 0).
Proof.
  intros l1 t l2 [a' H] Hno. rewrite accepts_app in H.
  destruct (accepts pf_step pf_init l1) as [a|] eqn:E; [|discriminate]. simpl in H. split.
  - eapply Nat.le_trans; [apply (pf_wait_gen _ _ _ t (match pf_h a with Some _ => true | None => false end) H); simpl; auto|]. destruct (pf_h a); lia.
  - intros [u Hu]. pose proof (pf_rw_gen _ _ _ E) as G. destruct (rw_inside_gen _ _ G u) as [G1 _]. simpl in G1.
    unfold rw_winside in Hu. destruct (pf_h a) eqn:Eh; [|lia].
    assert (length (pwacqs l2) <= 0); [|lia]. apply (pf_wait_gen _ _ _ t true H); simpl; auto.
Qed.

(** * Task-fair lock: requests are granted in arrival order *)
Inductive tev := TReq (w : bool) (t : nat) | TAcq (w : bool) (t : nat) | TRel (w : bool) (t : nat).

Record tfst := { tf_h : option nat; tf_r : list nat; tf_q : list (bool * nat) }.
Definition tf_init : tfst := {| tf_h := None; tf_r := []; tf_q := [] |}.

(** Remove [t]'s read request if only read requests precede it. *)
Fixpoint take_reader (t : nat) (q : list (bool * nat)) : option (list (bool * nat)) :=
  match q with
  | (false, u) :: r => if Nat.eqb t u then Some r else option_map (cons (false, u)) (take_reader t r)
  | _ => None
  end.

Definition tf_step (a : tfst) (e : tev) : option tfst :=
  match e with
  | TReq w t => Some {| tf_h := tf_h a; tf_r := tf_r a; tf_q := tf_q a ++ [(w, t)] |}
  | TAcq true t =>
      match tf_h a, tf_r a, tf_q a with
      | None, [], (true, u) :: q => if Nat.eqb t u then Some {| tf_h := Some t; tf_r := []; tf_q := q |} else None
      | _, _, _ => None
      end
  | TAcq false t =>
      match tf_h a, take_reader t (tf_q a) with
      | None, Some q => Some {| tf_h := None; tf_r := t :: tf_r a; tf_q := q |}
      | _, _ => None
      end
  | TRel true t =>
      match tf_h a with
      | Some u => if Nat.eqb t u then Some {| tf_h := None; tf_r := tf_r a; tf_q := tf_q a |} else None
      | None => None
      end
  | TRel false t =>
      match remove1 t (tf_r a) with
      | Some r => Some {| tf_h := tf_h a; tf_r := r; tf_q := tf_q a |}
      | None => None
      end
  end.

Definition tf_legal (log : list tev) : Prop := exists a, accepts tf_step tf_init log = Some a.

Definition tev_rw (e : tev) : list rwev :=
  match e with
  | TAcq true t => [WAcq t] | TRel true t => [WRel t] | TAcq false t => [RAcq t] | TRel false t => [RRel t] | _ => []
  end.

Lemma tf_rw_gen : forall log a a', accepts tf_step a log = Some a' ->
  accepts rw_step {| rw_w := tf_h a; rw_r := tf_r a |} (flat_map tev_rw log) = Some {| rw_w := tf_h a'; rw_r := tf_r a' |}.
Proof.
  induction log as [|e log IH]; simpl; intros a a' H.
  - inversion H; auto.
  - destruct (tf_step a e) as [a1|] eqn:E; [|discriminate]. specialize (IH _ _ H).
    destruct e as [w t|w t|w t]; simpl in E.
    + injection E as <-. exact IH.
    + destruct w.
      * destruct (tf_h a) eqn:E1; [discriminate|]. destruct (tf_r a); [|discriminate]. destruct (tf_q a) as [|[[|] u] q]; try discriminate.
        destruct (Nat.eqb t u); [|discriminate]. injection E as <-. exact IH.
      * destruct (tf_h a) eqn:E1; [discriminate|]. destruct (take_reader t (tf_q a)); [|discriminate]. injection E as <-. exact IH.
    + destruct w.
      * destruct (tf_h a) eqn:E1; [|discriminate]. simpl. destruct (Nat.eqb t n); [|discriminate]. injection E as <-. exact IH.
      * simpl. destruct (remove1 t (tf_r a)); [|discriminate]. injection E as <-. exact IH.
Qed.

Lemma tf_legal_rw : forall log, tf_legal log -> rw_legal (flat_map tev_rw log).
Proof. intros log [a H]. eexists. apply (tf_rw_gen _ _ _ H). Qed.

(** Reading the order off the log. *)
Definition tacqs (k : bool -> bool) (log : list tev) : nat :=
  length (filter (fun e => match e with TAcq w _ => k w | _ => false end) log).
Definition treqs (k : bool -> bool) (log : list tev) : nat :=
  length (filter (fun e => match e with TReq w _ => k w | _ => false end) log).

(** The kinds of request that conflict with a request of kind [w]. *)
Definition conflicts (w w' : bool) : bool := w || w'.

Definition qn (k : bool -> bool) (q : list (bool * nat)) : nat := length (filter (fun x => k (fst x)) q).

Lemma qn_app : forall k q1 q2, qn k (q1 ++ q2) = qn k q1 + qn k q2.
Proof. intros. unfold qn. rewrite filter_app, app_length. auto. Qed.

Lemma take_reader_qn : forall k t q q', take_reader t q = Some q' -> qn k q = qn k q' + (if k false then 1 else 0).
Proof.
  unfold qn. induction q as [|[[|] x] q IH]; simpl; intros q' H; try discriminate.
  destruct (Nat.eqb t x) eqn:E; [injection H as <-; destruct (k false); simpl; lia|].
  destruct (take_reader t q) as [r|]; [|discriminate]. injection H as <-. simpl. specialize (IH _ eq_refl).
  destruct (k false); simpl; lia.
Qed.

Lemma tf_count : forall k log a a', accepts tf_step a log = Some a' ->
  qn k (tf_q a') + tacqs k log = qn k (tf_q a) + treqs k log.
Proof.
  induction log as [|e log IH]; simpl; intros a a' H.
  - injection H as <-. unfold tacqs, treqs. simpl. lia.
  - destruct (tf_step a e) as [a1|] eqn:E; [|discriminate]. specialize (IH _ _ H). unfold tacqs, treqs in *.
    destruct e as [w t|w t|w t]; simpl in *.
    + injection E as <-. simpl in IH. rewrite qn_app in IH. unfold qn in IH at 3. simpl in IH. destruct (k w); simpl in *; lia.
    + destruct w.
      * destruct (tf_h a) eqn:E1; [discriminate|]. destruct (tf_r a); [|discriminate]. destruct (tf_q a) as [|[[|] u] q]; try discriminate.
        destruct (Nat.eqb t u); [|discriminate]. injection E as <-. simpl in IH. unfold qn in *. simpl. destruct (k true); simpl; lia.
      * destruct (tf_h a) eqn:E1; [discriminate|]. destruct (take_reader t (tf_q a)) as [q|] eqn:Eq; [|discriminate]. injection E as <-.
        simpl in IH. rewrite (take_reader_qn k _ _ _ Eq). destruct (k false); simpl; lia.
    + destruct w.
      * destruct (tf_h a) eqn:E1; [|discriminate]. destruct (Nat.eqb t n); [|discriminate]. injection E as <-. exact IH.
      * destruct (remove1 t (tf_r a)); [|discriminate]. injection E as <-. exact IH.
Qed.

Lemma take_reader_split : forall u q1 w t q2 q', take_reader u (q1 ++ (w, t) :: q2) = Some q' -> u <> t ->
  (exists q1', q' = q1' ++ (w, t) :: q2 /\ take_reader u q1 = Some q1') \/
  (exists q2', q' = q1 ++ (w, t) :: q2' /\ w = false).
Proof.
  induction q1 as [|[[|] x] q1 IH]; simpl; intros w t q2 q' H Hne; try discriminate.
  - destruct w; [discriminate|]. destruct (Nat.eqb u t) eqn:E; [apply Nat.eqb_eq in E; contradiction|].
    destruct (take_reader u q2) as [r|]; [|discriminate]. injection H as <-. right. exists r. auto.
  - destruct (Nat.eqb u x) eqn:E.
    + injection H as <-. left. exists q1. auto.
    + destruct (take_reader u (q1 ++ (w, t) :: q2)) as [r|] eqn:Er; [|discriminate]. injection H as <-.
      destruct (IH _ _ _ _ Er Hne) as [[q1' [-> Hq]]|[q2' [-> Hw]]].
      * left. exists ((false, x) :: q1'). rewrite Hq. auto.
      * right. exists q2'. auto.
Qed.

Lemma tf_bound_gen : forall log a a' pre w t post, accepts tf_step a log = Some a' ->
  tf_q a = pre ++ (w, t) :: post -> (forall x, ~ In (TAcq x t) log) ->
  tacqs (conflicts w) log <= qn (conflicts w) pre.
Proof.
  induction log as [|e log IH]; simpl; intros a a' pre w t post H Hq Hno; [unfold tacqs; simpl; lia|].
  destruct (tf_step a e) as [a1|] eqn:E; [|discriminate].
  assert (Hno' : forall x, ~ In (TAcq x t) log) by (intros x Hx; apply (Hno x); auto).
  unfold tacqs in *. destruct e as [w' u|w' u|w' u]; simpl in *.
  - injection E as <-. eapply (IH _ _ pre w t (post ++ [(w', u)]) H); auto. simpl. rewrite Hq, <- app_assoc. auto.
  - assert (Hut : u <> t) by (intros ->; apply (Hno w'); auto).
    destruct w'.
    + destruct (tf_h a) eqn:E1; [discriminate|]. destruct (tf_r a); [|discriminate].
      destruct (tf_q a) as [|[[|] v] q] eqn:Eq; try discriminate.
      destruct (Nat.eqb u v) eqn:Ev; [|discriminate]. apply Nat.eqb_eq in Ev. subst v. injection E as <-.
      destruct pre as [|x pre]; simpl in Hq; [congruence|]. injection Hq as <- ->.
      pose proof (IH _ _ pre w t post H eq_refl Hno') as IH'.
      unfold qn in *. simpl. replace (conflicts w true) with true by (destruct w; reflexivity). simpl. lia.
    + destruct (tf_h a) eqn:E1; [discriminate|]. destruct (take_reader u (tf_q a)) as [q|] eqn:Eq; [|discriminate]. injection E as <-.
      rewrite Hq in Eq. destruct (take_reader_split _ _ _ _ _ _ Eq Hut) as [[q1' [-> Hq1]]|[q2' [-> Hw]]].
      * pose proof (IH _ _ q1' w t post H eq_refl Hno') as IH'.
        rewrite (take_reader_qn (conflicts w) _ _ _ Hq1). destruct (conflicts w false); simpl; lia.
      * subst w. pose proof (IH _ _ pre false t q2' H eq_refl Hno') as IH'. simpl. exact IH'.
  - destruct w'.
    + destruct (tf_h a) eqn:E1; [|discriminate]. destruct (Nat.eqb u n); [|discriminate]. injection E as <-. apply (IH _ _ _ _ t post H); auto.
    + destruct (remove1 u (tf_r a)); [|discriminate]. injection E as <-. apply (IH _ _ _ _ t post H); auto.
Qed.

(** While a request waits, only conflicting requests that arrived before it are
    granted: their number never exceeds the number then outstanding. *)
Lemma tf_bound : forall l1 w t l2, tf_legal (l1 ++ TReq w t :: l2) -> (forall x, ~ In (TAcq x t) l2) ->
  tacqs (conflicts w) l1 + tacqs (conflicts w) l2 <= treqs (conflicts w) l1.
Proof.
  intros l1 w t l2 [a' H] Hno. rewrite accepts_app in H.
  destruct (accepts tf_step tf_init l1) as [a|] eqn:E; [|discriminate]. simpl in H.
  pose proof (tf_count (conflicts w) _ _ _ E) as C. unfold qn in C at 2. simpl in C.
  pose proof (tf_bound_gen _ _ _ (tf_q a) w t [] H eq_refl Hno). lia.
Qed.
