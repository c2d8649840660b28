(** x86-TSO: one memory, and per thread a FIFO buffer of its plain stores.

    A plain load is satisfied by the newest store to the location in the thread's own buffer, or else
    from memory.  A locked read-modify-write instruction and a full fence (mfence) wait for the
    thread's buffer to drain.  Stores arrive in memory at any time, oldest first.

    The instructions stand for the primitives of include/gcc/x86_64/ck_pr.h: ck_pr_load_* (plain mov,
    173-201), ck_pr_store_* (plain mov, 256-283), ck_pr_fas_* (xchg, 140-168), ck_pr_cas_*, ck_pr_faa_*,
    ck_pr_inc_*, ck_pr_dec_* and others (lock prefix).  With CK_MD_TSO (include/ck_pr.h:144-166)
    ck_pr_fence_store_load and ck_pr_fence_memory are mfence, every other fence is a compiler
    barrier and does not occur in the models. *)
From Coq Require Import ZArith Arith List Bool Lia.
From Verif Require Import Lib.
Import ListNotations.

(** The client's data, and the words of the component. *)
Inductive loc := Dat (i : nat) | Reg (i : nat).
Definition loc_eqb (x y : loc) : bool :=
  match x, y with Dat i, Dat j | Reg i, Reg j => Nat.eqb i j | _, _ => false end.
Lemma loc_eqb_spec : forall x y, reflect (x = y) (loc_eqb x y).
Proof.
  intros [i|i] [j|j]; simpl; try (constructor; congruence); destruct (Nat.eqb_spec i j); constructor; congruence.
Qed.
Definition setm (m : loc -> Z) (x : loc) (v : Z) : loc -> Z := fun y => if loc_eqb x y then v else m y.

(** Instructions of a thread with local states [L] and events [E]. *)
Inductive instr (L E : Type) :=
| Ld (x : loc) (k : Z -> L * list E)                    (* load *)
| St (x : loc) (v : Z) (p : L) (e : list E)             (* store *)
| Rmw (x : loc) (f : Z -> Z) (k : Z -> L * list E)      (* locked; k is given the old value *)
| Fence (p : L) (e : list E)                            (* mfence *)
| Local (p : L) (e : list E).
Arguments Ld {L E}. Arguments St {L E}. Arguments Rmw {L E}. Arguments Fence {L E}. Arguments Local {L E}.

Record tso (L : Type) := mkT { mem : loc -> Z; buf : nat -> list (loc * Z); pcs : nat -> L }.
Arguments mkT {L}. Arguments mem {L}. Arguments buf {L}. Arguments pcs {L}.

(** the newest of the buffered stores to [x], or [d] *)
Fixpoint fwd (b : list (loc * Z)) (x : loc) (d : Z) : Z :=
  match b with [] => d | (y, v) :: r => fwd r x (if loc_eqb y x then v else d) end.

Section Machine.
Context {L E A : Type}.
(** [code t p a]: the next instruction of thread [t] in local state [p] when the client chooses [a];
    [arr t x v]: the event of the arrival of a store. *)
Variable code : nat -> L -> A -> option (instr L E).
Variable arr : nat -> loc -> Z -> list E.

Inductive lab := Go (t : nat) (a : A) | Flush (t : nat).

Definition view (s : tso L) (t : nat) (x : loc) : Z := fwd (buf s t) x (mem s x).
Definition next (s : tso L) (t : nat) (p : L) : tso L := mkT (mem s) (buf s) (upd (pcs s) t p).

Definition step (s : tso L) (l : lab) : option (tso L * list E) :=
  match l with
  | Flush t =>
      match buf s t with
      | [] => None
      | (x, v) :: r => Some (mkT (setm (mem s) x v) (upd (buf s) t r) (pcs s), arr t x v)
      end
  | Go t a =>
      match code t (pcs s t) a with
      | None => None
      | Some (Ld x k) => let (p, e) := k (view s t x) in Some (next s t p, e)
      | Some (St x v p e) => Some (mkT (mem s) (upd (buf s) t (buf s t ++ [(x, v)])) (upd (pcs s) t p), e)
      | Some (Rmw x f k) =>
          match buf s t with
          | [] => let (p, e) := k (mem s x) in Some (mkT (setm (mem s) x (f (mem s x))) (buf s) (upd (pcs s) t p), e)
          | _ => None
          end
      | Some (Fence p e) => match buf s t with [] => Some (next s t p, e) | _ => None end
      | Some (Local p e) => Some (next s t p, e)
      end
  end.
End Machine.
Arguments lab : clear implicits.

(** * Facts about buffers *)
Lemma setm_same : forall m x v, setm m x v x = v.
Proof. intros. unfold setm. destruct (loc_eqb_spec x x); congruence. Qed.
Lemma setm_other : forall m x v y, x <> y -> setm m x v y = m y.
Proof. intros. unfold setm. destruct (loc_eqb_spec x y); congruence. Qed.

Lemma fwd_app : forall b c x d, fwd (b ++ c) x d = fwd c x (fwd b x d).
Proof. induction b as [|[y v] b IH]; intros; simpl; auto. Qed.
Lemma fwd_none : forall b x d, (forall v, ~ In (x, v) b) -> fwd b x d = d.
Proof.
  induction b as [|[y v] b IH]; intros x d H; simpl; auto. destruct (loc_eqb_spec y x).
  - subst. exfalso. apply (H v). left. auto.
  - apply IH. intros w Hw. apply (H w). right. auto.
Qed.
Lemma fwd_in : forall b x d, fwd b x d = d \/ In (x, fwd b x d) b.
Proof.
  induction b as [|[y v] b IH]; intros x d; simpl; auto. destruct (loc_eqb_spec y x) as [->|H].
  - destruct (IH x v) as [E|E]; rewrite ?E; auto.
  - destruct (IH x d) as [E|E]; auto.
Qed.
(** flushing does not change what the thread itself sees *)
Lemma fwd_flush : forall y v r x (m : loc -> Z), fwd ((y, v) :: r) x (m x) = fwd r x (setm m y v x).
Proof. intros. simpl. unfold setm. destruct (loc_eqb y x); auto. Qed.

(** * Data that one thread at a time may write *)
Definition isdat (x : loc) : Prop := match x with Dat _ => True | Reg _ => False end.
Definition nodat (b : list (loc * Z)) : Prop := forall i v, ~ In (Dat i, v) b.

(** [data o D s]: the data is [D]; thread [o], if any, is the only one that may have data in its buffer. *)
Definition data {L : Type} (o : option nat) (D : nat -> Z) (s : tso L) : Prop :=
  match o with
  | Some t => (forall i, view s t (Dat i) = D i) /\ forall u, u <> t -> nodat (buf s u)
  | None => (forall i, mem s (Dat i) = D i) /\ forall u, nodat (buf s u)
  end.

Section Data.
Context {L : Type}.
Implicit Types s : tso L.

Lemma nodat_cons : forall x b, nodat (x :: b) -> nodat b.
Proof. intros x b H i v Hi. apply (H i v). right. auto. Qed.

Lemma data_pcs : forall o D s s', data o D s -> mem s' = mem s -> buf s' = buf s -> data o D s'.
Proof. intros [t|] D s s' H E1 E2; unfold data, view in *; rewrite E1, E2; auto. Qed.

Lemma data_flush : forall o D s t x v r (p : nat -> L), data o D s -> buf s t = (x, v) :: r ->
  data o D (mkT (setm (mem s) x v) (upd (buf s) t r) p).
Proof.
  intros [o|] D s t x v r p [H1 H2] Hb; split; cbn [mem buf]; intros.
  - unfold view in *. cbn [mem buf]. destruct (Nat.eq_dec o t) as [->|Hn].
    + rewrite upd_same, <- fwd_flush, <- Hb. auto.
    + rewrite upd_other by auto. rewrite <- H1. f_equal. destruct x as [j|j]; [|apply setm_other; discriminate].
      exfalso. eapply (H2 t); [auto|]. rewrite Hb. left. eauto.
  - destruct (Nat.eq_dec u t) as [->|Hn]; [rewrite upd_same|rewrite upd_other by auto; auto].
    apply nodat_cons with (x, v). rewrite <- Hb. auto.
  - rewrite <- H1. destruct x as [j|j]; [|apply setm_other; discriminate].
    exfalso. eapply (H2 t). rewrite Hb. left. eauto.
  - destruct (Nat.eq_dec u t) as [->|Hn]; [rewrite upd_same|rewrite upd_other by auto; auto].
    apply nodat_cons with (x, v). rewrite <- Hb. auto.
Qed.

Lemma nodat_app : forall b x v, nodat b -> nodat (b ++ [(Reg x, v)]).
Proof. intros b x v H i w Hi. apply in_app_iff in Hi. destruct Hi as [Hi|[Hi|[]]]; [eapply H; eauto|discriminate]. Qed.

Lemma data_reg : forall o D s t x v (p : nat -> L), data o D s ->
  data o D (mkT (mem s) (upd (buf s) t (buf s t ++ [(Reg x, v)])) p).
Proof.
  intros [o|] D s t x v p [H1 H2]; split; cbn [mem buf]; intros; auto.
  - unfold view in *. cbn [mem buf]. destruct (Nat.eq_dec o t) as [->|Hn].
    + rewrite upd_same, fwd_app. simpl. auto.
    + rewrite upd_other by auto. auto.
  - destruct (Nat.eq_dec u t) as [->|Hn]; [rewrite upd_same; apply nodat_app; auto|rewrite upd_other by auto; auto].
  - destruct (Nat.eq_dec u t) as [->|Hn]; [rewrite upd_same; apply nodat_app; auto|rewrite upd_other by auto; auto].
Qed.

Lemma data_rmw : forall o D s x v (p : nat -> L), data o D s -> data o D (mkT (setm (mem s) (Reg x) v) (buf s) p).
Proof.
  intros [o|] D s x v p [H1 H2]; split; cbn [mem buf]; intros; auto.
  - unfold view in *. cbn [mem buf]. rewrite setm_other by discriminate. auto.
  - rewrite setm_other by discriminate. auto.
Qed.

Lemma data_write : forall t D s i v (p : nat -> L), data (Some t) D s ->
  data (Some t) (fun j => if Nat.eqb i j then v else D j) (mkT (mem s) (upd (buf s) t (buf s t ++ [(Dat i, v)])) p).
Proof.
  intros t D s i v p [H1 H2]; split; cbn [mem buf]; intros.
  - unfold view in *. cbn [mem buf]. rewrite upd_same, fwd_app. simpl. rewrite H1; auto.
  - rewrite upd_other by auto. auto.
Qed.

Lemma data_take : forall t D s, data None D s -> data (Some t) D s.
Proof.
  intros t D s [H1 H2]. split; auto. intros i. unfold view. rewrite fwd_none; [auto|intros v; apply H2].
Qed.
Lemma data_drop : forall t D s, data (Some t) D s -> nodat (buf s t) -> data None D s.
Proof.
  intros t D s [H1 H2] H3. split.
  - intros i. rewrite <- H1. unfold view. rewrite fwd_none; [auto|intros v; apply H3].
  - intros u. destruct (Nat.eq_dec u t) as [->|]; auto.
Qed.
End Data.
