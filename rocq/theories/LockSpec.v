(** Specification automata for locks, over events observable at the API.
    Independent of every lock model. *)
From Coq Require Import Arith List Lia Bool.
From Verif Require Import Lib.
Import ListNotations.

(** * Mutual exclusion locks *)

Inductive lev :=
| Acq (t : nat)                 (** lock/trylock returned holding the lock *)
| Rel (t : nat)                 (** unlock took effect *)
| TryFail (t : nat)             (** trylock reported failure *)
| Locked (t : nat) (b : bool).  (** locked() answered [b] *)

(** The abstract lock: who holds it.  An acquisition is only legal when nobody
    holds the lock, a release only by the holder, a failing trylock only when
    somebody holds it, and [locked] must be truthful. *)
Definition lock_step (h : option nat) (e : lev) : option (option nat) :=
  match e, h with
  | Acq t, None => Some (Some t)
  | Rel t, Some u => if Nat.eqb t u then Some None else None
  | TryFail _, Some _ => Some h
  | Locked _ b, Some _ => if b then Some h else None
  | Locked _ b, None => if b then None else Some h
  | _, _ => None
  end.

Definition lock_legal (log : list lev) : Prop :=
  exists h, accepts lock_step None log = Some h.

(** Number of threads inside the critical section according to a log. *)
Definition is_acq_of (t : nat) (e : lev) : bool :=
  match e with Acq u => Nat.eqb t u | _ => false end.
Definition is_rel_of (t : nat) (e : lev) : bool :=
  match e with Rel u => Nat.eqb t u | _ => false end.

(** [inside log t]: [t] has acquired more often than it has released. *)
Definition inside (log : list lev) (t : nat) : Prop :=
  length (filter (is_rel_of t) log) < length (filter (is_acq_of t) log).

(** * First-come-first-served locks *)

Inductive fev :=
| FReq (t : nat)                (** the request of [t] entered the queue *)
| FAcq (t : nat)                (** lock returned *)
| FRel (t : nat)                (** unlock took effect *)
| FTryFail (t : nat)
| FLocked (t : nat) (b : bool).

(** Abstract FCFS lock: queue of requests (in request order); the holder, if
    any, is kept separately. *)
Record fcfs := { f_holder : option nat; f_queue : list nat }.

Definition fcfs_init : fcfs := {| f_holder := None; f_queue := [] |}.

Definition fcfs_step (a : fcfs) (e : fev) : option fcfs :=
  match e with
  | FReq t => Some {| f_holder := f_holder a; f_queue := f_queue a ++ [t] |}
  | FAcq t =>
      match f_holder a, f_queue a with
      | None, u :: q => if Nat.eqb t u then Some {| f_holder := Some t; f_queue := q |} else None
      | _, _ => None
      end
  | FRel t =>
      match f_holder a with
      | Some u => if Nat.eqb t u then Some {| f_holder := None; f_queue := f_queue a |} else None
      | None => None
      end
  | FTryFail _ => Some a
  | FLocked _ b =>
      match f_holder a, f_queue a with
      | None, [] => if b then None else Some a
      | _, _ => if b then Some a else None
      end
  end.

Definition fcfs_legal (log : list fev) : Prop :=
  exists a, accepts fcfs_step fcfs_init log = Some a.

(** The mutual-exclusion view of an FCFS log. *)
Definition fev_lock (e : fev) : list lev :=
  match e with
  | FAcq t => [Acq t]
  | FRel t => [Rel t]
  | _ => []
  end.

(** * Reader-writer locks *)

Inductive rwev :=
| WAcq (t : nat) | WRel (t : nat)
| RAcq (t : nat) | RRel (t : nat)
| Down (t : nat)                     (** writer became a reader *)
| WTryFail (t : nat) | RTryFail (t : nat).

Record rwst := { rw_w : option nat; rw_r : list nat }.
Definition rw_init : rwst := {| rw_w := None; rw_r := [] |}.

Fixpoint remove1 (t : nat) (l : list nat) : option (list nat) :=
  match l with
  | [] => None
  | u :: r => if Nat.eqb t u then Some r
              else match remove1 t r with None => None | Some r' => Some (u :: r') end
  end.

Definition rw_step (a : rwst) (e : rwev) : option rwst :=
  match e with
  | WAcq t => match rw_w a, rw_r a with
              | None, [] => Some {| rw_w := Some t; rw_r := [] |}
              | _, _ => None
              end
  | WRel t => match rw_w a with
              | Some u => if Nat.eqb t u then Some {| rw_w := None; rw_r := rw_r a |} else None
              | None => None
              end
  | RAcq t => match rw_w a with
              | None => Some {| rw_w := None; rw_r := t :: rw_r a |}
              | Some _ => None
              end
  | RRel t => match remove1 t (rw_r a) with
              | Some r => Some {| rw_w := rw_w a; rw_r := r |}
              | None => None
              end
  | Down t => match rw_w a with
              | Some u => if Nat.eqb t u then Some {| rw_w := None; rw_r := t :: rw_r a |} else None
              | None => None
              end
  | WTryFail _ | RTryFail _ => Some a
  end.

Definition rw_legal (log : list rwev) : Prop :=
  exists a, accepts rw_step rw_init log = Some a.

(** * Consequences of legality, used to read the automata *)

Lemma lock_inside_holder : forall log h,
  accepts lock_step None log = Some h ->
  forall t, length (filter (is_acq_of t) log)
            = length (filter (is_rel_of t) log)
              + (match h with Some u => if Nat.eqb t u then 1 else 0 | None => 0 end).
Proof.
  induction log as [|e log IH] using rev_ind; intros h H t.
  - simpl in H. inversion H; subst. auto.
  - rewrite accepts_app in H.
    destruct (accepts lock_step None log) as [h1|] eqn:E; [|discriminate].
    specialize (IH _ eq_refl t). rewrite !filter_app, !app_length.
    destruct e; simpl in *; destruct h1 as [u0|]; try discriminate;
      repeat match goal with
      | H : context [if ?b then _ else _] |- _ => destruct b eqn:?
      end; try discriminate; inversion H; subst; simpl in *;
      repeat match goal with
      | H : Nat.eqb _ _ = true |- _ => apply Nat.eqb_eq in H; subst
      end; rewrite ?Nat.eqb_refl in *;
      repeat match goal with
      | |- context [if Nat.eqb ?a ?b then _ else _] => destruct (Nat.eqb a b) eqn:?
      end; simpl; try lia; try congruence.
Qed.

(** In a legal log two threads are never inside at once. *)
Lemma lock_legal_mutex : forall log, lock_legal log ->
  forall t u, inside log t -> inside log u -> t = u.
Proof.
  intros log [h H] t u Ht Hu. unfold inside in *.
  pose proof (lock_inside_holder _ _ H t). pose proof (lock_inside_holder _ _ H u).
  destruct h as [v|]; [|lia].
  destruct (Nat.eqb t v) eqn:E1; [|lia]. destruct (Nat.eqb u v) eqn:E2; [|lia].
  apply Nat.eqb_eq in E1, E2. congruence.
Qed.

(** A legal FCFS log is a legal lock log. *)
Lemma fcfs_lock_gen : forall log a a', accepts fcfs_step a log = Some a' ->
  accepts lock_step (f_holder a) (flat_map fev_lock log) = Some (f_holder a').
Proof.
  induction log as [|e log IH]; simpl; intros a a' H.
  - inversion H; auto.
  - destruct (fcfs_step a e) as [a1|] eqn:E; [|discriminate].
    specialize (IH _ _ H).
    destruct e; simpl in *.
    + inversion E; subst. exact IH.
    + destruct (f_holder a); [discriminate|]. destruct (f_queue a) as [|u q]; [discriminate|].
      destruct (Nat.eqb t u); [|discriminate]. inversion E; subst. exact IH.
    + destruct (f_holder a) as [u|]; [|discriminate]. destruct (Nat.eqb t u); [|discriminate].
      inversion E; subst. exact IH.
    + inversion E; subst. exact IH.
    + destruct (f_holder a) eqn:E1, (f_queue a); destruct b; try discriminate;
        inversion E; subst; rewrite E1 in IH; exact IH.
Qed.

Lemma fcfs_legal_lock : forall log, fcfs_legal log -> lock_legal (flat_map fev_lock log).
Proof. intros log [a H]. exists (f_holder a). apply (fcfs_lock_gen _ _ _ H). Qed.

(** First-come-first-served, read off a legal log without the automaton:
    the acquisitions are a prefix of the requests. *)
Definition reqs (log : list fev) : list nat :=
  flat_map (fun e => match e with FReq t => [t] | _ => [] end) log.
Definition acqs (log : list fev) : list nat :=
  flat_map (fun e => match e with FAcq t => [t] | _ => [] end) log.

Lemma fcfs_prefix_gen : forall log a a', accepts fcfs_step a log = Some a' ->
  f_queue a ++ reqs log = acqs log ++ f_queue a'.
Proof.
  induction log as [|e log IH]; simpl; intros a a' H.
  - inversion H; subst. apply app_nil_r.
  - destruct (fcfs_step a e) as [a1|] eqn:E; [|discriminate].
    specialize (IH _ _ H).
    destruct e; simpl in *.
    + inversion E; subst; simpl in IH. rewrite <- app_assoc in IH. exact IH.
    + destruct (f_holder a); [discriminate|]. destruct (f_queue a) as [|u q]; [discriminate|].
      destruct (Nat.eqb t u) eqn:Et; [|discriminate]. apply Nat.eqb_eq in Et. inversion E; subst.
      simpl in *. rewrite IH. auto.
    + destruct (f_holder a) as [u|]; [|discriminate]. destruct (Nat.eqb t u); [|discriminate].
      inversion E; subst. exact IH.
    + inversion E; subst. exact IH.
    + destruct (f_holder a), (f_queue a) eqn:E2; destruct b; try discriminate;
        inversion E; subst; rewrite E2 in IH; exact IH.
Qed.

Lemma fcfs_prefix : forall log, fcfs_legal log -> exists rest, reqs log = acqs log ++ rest.
Proof. intros log [a H]. exists (f_queue a). apply (fcfs_prefix_gen _ _ _ H). Qed.

(** Consequences of legality of reader-writer logs, read off the events. *)
Definition rw_winside (log : list rwev) (t : nat) : Prop :=
  (length (filter (fun e => match e with WRel u | Down u => Nat.eqb t u | _ => false end) log)
   < length (filter (fun e => match e with WAcq u => Nat.eqb t u | _ => false end) log))%nat.
Definition rw_rinside (log : list rwev) (t : nat) : Prop :=
  (length (filter (fun e => match e with RRel u => Nat.eqb t u | _ => false end) log)
   < length (filter (fun e => match e with RAcq u | Down u => Nat.eqb t u | _ => false end) log))%nat.

Definition countn (t : nat) (l : list nat) : nat := length (filter (Nat.eqb t) l).

Lemma remove1_countn : forall u l l' t, remove1 u l = Some l' ->
  countn t l = (countn t l' + if Nat.eqb t u then 1 else 0)%nat.
Proof.
  unfold countn. induction l as [|v l IH]; simpl; intros l' t H; [discriminate|].
  destruct (Nat.eqb u v) eqn:E.
  - apply Nat.eqb_eq in E. inversion H; subst. destruct (Nat.eqb t v); simpl; lia.
  - destruct (remove1 u l) as [r|] eqn:Er; [|discriminate]. inversion H; subst. simpl.
    specialize (IH _ t eq_refl). destruct (Nat.eqb t v); simpl; lia.
Qed.

Lemma rw_inside_gen : forall log a, accepts rw_step rw_init log = Some a -> forall t,
  length (filter (fun e => match e with WAcq u => Nat.eqb t u | _ => false end) log)
  = (length (filter (fun e => match e with WRel u | Down u => Nat.eqb t u | _ => false end) log)
    + match rw_w a with Some u => if Nat.eqb t u then 1 else 0 | None => 0 end)%nat /\
  length (filter (fun e => match e with RAcq u | Down u => Nat.eqb t u | _ => false end) log)
  = (length (filter (fun e => match e with RRel u => Nat.eqb t u | _ => false end) log) + countn t (rw_r a))%nat /\
  (rw_w a <> None -> rw_r a = []).
Proof.
  induction log as [|e log IH] using rev_ind; intros a H t.
  - simpl in H. inversion H; subst. simpl. auto.
  - rewrite accepts_app in H. destruct (accepts rw_step rw_init log) as [a1|] eqn:E; [|discriminate].
    destruct (IH _ eq_refl t) as [H1 [H2 H3]]. rewrite !filter_app, !app_length. rewrite H1, H2. clear IH H1 H2.
    simpl in H. destruct (rw_step a1 e) as [a2|] eqn:Es; [|discriminate]. inversion H; subst a2. clear H.
    unfold countn in *.
    destruct e as [u|u|u|u|u|u|u]; simpl in Es.
    + destruct (rw_w a1) eqn:Ew; [discriminate|]. destruct (rw_r a1) eqn:Er; [|discriminate].
      inversion Es; subst; simpl. destruct (Nat.eqb t u); simpl; repeat split; auto; lia.
    + destruct (rw_w a1) as [v|] eqn:Ew; [|discriminate]. destruct (Nat.eqb u v) eqn:Eu; [|discriminate].
      apply Nat.eqb_eq in Eu. inversion Es; subst; simpl. destruct (Nat.eqb t v); simpl; repeat split; auto; try lia; congruence.
    + destruct (rw_w a1) eqn:Ew; [discriminate|]. inversion Es; subst; simpl.
      destruct (Nat.eqb t u); simpl; repeat split; auto; try lia; congruence.
    + destruct (remove1 u (rw_r a1)) as [r|] eqn:Er; [|discriminate]. inversion Es; subst; simpl.
      pose proof (remove1_countn _ _ _ t Er) as C. unfold countn in C. rewrite C.
      destruct (Nat.eqb t u); simpl; repeat split; auto; try lia; intros Hx; rewrite H3 in Er by auto; discriminate.
    + destruct (rw_w a1) as [v|] eqn:Ew; [|discriminate]. destruct (Nat.eqb u v) eqn:Eu; [|discriminate].
      apply Nat.eqb_eq in Eu. inversion Es; subst; simpl. destruct (Nat.eqb t v); simpl; repeat split; auto; try lia; congruence.
    + inversion Es; subst; simpl. repeat split; auto; lia.
    + inversion Es; subst; simpl. repeat split; auto; lia.
Qed.

(** In a legal log a writer excludes every other writer and every reader. *)
Lemma rw_legal_excl : forall log, rw_legal log -> forall t, rw_winside log t ->
  (forall u, rw_winside log u -> u = t) /\ (forall u, ~ rw_rinside log u).
Proof.
  intros log [a H] t Ht. unfold rw_winside, rw_rinside in *.
  destruct (rw_inside_gen _ _ H t) as [H1 [H2 H3]].
  destruct (rw_w a) as [v|] eqn:Ew; [|lia]. destruct (Nat.eqb t v) eqn:E; [|lia]. apply Nat.eqb_eq in E. subst v.
  split.
  - intros u Hu. destruct (rw_inside_gen _ _ H u) as [H1' _]. rewrite Ew in H1'.
    destruct (Nat.eqb u t) eqn:E; [apply Nat.eqb_eq; auto|lia].
  - intros u Hu. destruct (rw_inside_gen _ _ H u) as [_ [H2' H3']]. rewrite H3' in H2' by congruence.
    unfold countn in H2'. simpl in H2'. lia.
Qed.
