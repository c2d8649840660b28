(** Linearizability by linearization points.  A log records calls, returns and,
    for each operation, the point ([Lin]) at which it takes effect.  It is
    accepted when every thread alternates call, one linearization point, return
    with the linearized result, and the linearization points in log order are a
    legal execution of the sequential object. *)
From Coq Require Import Arith List Bool Lia.
From Verif Require Import Lib.
Import ListNotations.

Section Lin.
Context {Q op res : Type}.
(** sequential object: [seq q o r] is the next state when [o] may answer [r] in [q] *)
Variable seq : Q -> op -> res -> option Q.
Variable req : forall a b : res, {a = b} + {a <> b}.

Inductive lev := Call (t : nat) (o : op) | Lin (t : nat) (r : res) | Ret (t : nat) (r : res).
Inductive phase := Idle | Called (o : op) | Done (r : res).

Definition lstep (a : Q * (nat -> phase)) (e : lev) : option (Q * (nat -> phase)) :=
  let (q, th) := a in
  match e with
  | Call t o => match th t with Idle => Some (q, upd th t (Called o)) | _ => None end
  | Lin t r => match th t with
               | Called o => match seq q o r with Some q' => Some (q', upd th t (Done r)) | None => None end
               | _ => None
               end
  | Ret t r => match th t with
               | Done r' => if req r r' then Some (q, upd th t Idle) else None
               | _ => None
               end
  end.

Definition idle : nat -> phase := fun _ => Idle.
Definition lin_legal (q0 : Q) (log : list lev) : Prop := exists a, accepts lstep (q0, idle) log = Some a.

(** the observable history: calls and returns *)
Definition observable (e : lev) : bool := match e with Lin _ _ => false | _ => true end.
Definition history (log : list lev) : list lev := filter observable log.
Definition linearizable (q0 : Q) (h : list lev) : Prop := exists log, lin_legal q0 log /\ history log = h.

(** the sequential execution formed by the linearization points *)
Fixpoint lin_ops (th : nat -> phase) (log : list lev) : list (op * res) :=
  match log with
  | [] => []
  | Call t o :: log => lin_ops (upd th t (Called o)) log
  | Lin t r :: log => match th t with
                      | Called o => (o, r) :: lin_ops (upd th t (Done r)) log
                      | _ => lin_ops th log
                      end
  | Ret t r :: log => lin_ops (upd th t Idle) log
  end.
Fixpoint seq_run (q : Q) (l : list (op * res)) : option Q :=
  match l with
  | [] => Some q
  | (o, r) :: l => match seq q o r with Some q => seq_run q l | None => None end
  end.

Lemma lin_legal_history : forall q0 log, lin_legal q0 log -> linearizable q0 (history log).
Proof. intros q0 log H. exists log. auto. Qed.

Lemma lin_seq_gen : forall log q th q' th', accepts lstep (q, th) log = Some (q', th') -> seq_run q (lin_ops th log) = Some q'.
Proof.
  induction log as [|e log IH]; intros q th q' th' H; simpl in H.
  - injection H as <- <-. reflexivity.
  - destruct e as [t o|t r|t r]; simpl.
    + destruct (th t); try discriminate. eapply IH; eauto.
    + destruct (th t); try discriminate. destruct (seq q o r) eqn:E; try discriminate. simpl. rewrite E. eapply IH; eauto.
    + destruct (th t); try discriminate. destruct (req r r0); try discriminate. eapply IH; eauto.
Qed.
End Lin.
Arguments lev : clear implicits.
Arguments phase : clear implicits.

(** ** Counting: a linearization has no more operations than calls, and covers every return *)
Section Count.
Context {Q op res : Type}.
Variable seq : Q -> op -> res -> option Q.
Variable req : forall a b : res, {a = b} + {a <> b}.
Variable f : op -> nat.
Variable g : res -> nat.

Definition tid (e : lev op res) : nat := match e with Call t _ | Lin t _ | Ret t _ => t end.
Fixpoint called (h : list (lev op res)) : nat :=
  match h with [] => 0 | Call _ o :: h => f o + called h | _ :: h => called h end.
Fixpoint returned (h : list (lev op res)) : nat :=
  match h with [] => 0 | Ret _ r :: h => g r + returned h | _ :: h => returned h end.
Fixpoint opsum (l : list (op * res)) : nat := match l with [] => 0 | (o, _) :: l => f o + opsum l end.
Fixpoint ressum (l : list (op * res)) : nat := match l with [] => 0 | (_, r) :: l => g r + ressum l end.

Definition pend (p : phase op res) : nat := match p with Called o => f o | _ => 0 end.
Definition due (p : phase op res) : nat := match p with Done r => g r | _ => 0 end.
Fixpoint tsum (w : phase op res -> nat) (th : nat -> phase op res) (n : nat) : nat :=
  match n with O => 0 | S n => w (th n) + tsum w th n end.

Lemma tsum_upd : forall w th t p n, t < n -> tsum w (upd th t p) n + w (th t) = tsum w th n + w p.
Proof.
  intros w th t p.
  assert (E : forall n, n <= t -> tsum w (upd th t p) n = tsum w th n).
  { induction n as [|n IH]; intros L; simpl; auto. rewrite upd_other by lia. rewrite IH by lia. auto. }
  induction n as [|n IH]; intros L; [lia|]. simpl. destruct (Nat.eq_dec t n) as [->|ne].
  - rewrite upd_same, E by lia. lia.
  - rewrite upd_other by auto. specialize (IH ltac:(lia)). lia.
Qed.

Lemma count_gen : forall n log q th a', (forall e, In e log -> tid e < n) -> accepts (lstep seq req) (q, th) log = Some a' ->
  opsum (lin_ops th log) <= called log + tsum pend th n /\ returned log <= ressum (lin_ops th log) + tsum due th n.
Proof.
  intros n. induction log as [|e log IH]; intros q th a' Hn H; simpl in H.
  - simpl. lia.
  - assert (Hn' : forall e, In e log -> tid e < n) by (intros; apply Hn; right; auto).
    pose proof (Hn e (or_introl eq_refl)) as Ht.
    destruct e as [t o|t r|t r]; simpl in Ht |- *.
    + destruct (th t) eqn:Et; try discriminate. destruct (IH _ _ _ Hn' H) as [A B].
      pose proof (tsum_upd pend th t (Called o) n Ht) as X. pose proof (tsum_upd due th t (Called o) n Ht) as Y. rewrite Et in X, Y. simpl in *. lia.
    + destruct (th t) eqn:Et; try discriminate. destruct (seq q o r) eqn:E; try discriminate. destruct (IH _ _ _ Hn' H) as [A B].
      pose proof (tsum_upd pend th t (Done r) n Ht) as X. pose proof (tsum_upd due th t (Done r) n Ht) as Y. rewrite Et in X, Y. simpl in *. lia.
    + destruct (th t) eqn:Et; try discriminate. destruct (req r r0) as [->|]; try discriminate. destruct (IH _ _ _ Hn' H) as [A B].
      pose proof (tsum_upd pend th t Idle n Ht) as X. pose proof (tsum_upd due th t Idle n Ht) as Y. rewrite Et in X, Y. simpl in *. lia.
Qed.

Lemma called_history : forall log, called (history log) = called log.
Proof. induction log as [|e log IH]; auto. destruct e; simpl; auto. Qed.
Lemma returned_history : forall log, returned (history log) = returned log.
Proof. induction log as [|e log IH]; auto. destruct e; simpl; auto. Qed.

(** if the sequential object never gives out more than was put in, neither does a linearizable history *)
Lemma linearizable_count : forall q0 h,
  (forall l q, seq_run seq q0 l = Some q -> ressum l <= opsum l) ->
  linearizable seq req q0 h -> returned h <= called h.
Proof.
  intros q0 h Hs [log [[[q th] Ha] <-]]. rewrite called_history, returned_history.
  assert (E : exists n, forall e, In e log -> tid e < n).
  { clear. induction log as [|e log [n IH]]; [exists 0; intros e []|]. exists (Nat.max n (S (tid e))).
    intros e' [<- |H]; [lia|]. apply IH in H. lia. }
  destruct E as [n Hn]. destruct (count_gen n log q0 idle _ Hn Ha) as [A B].
  pose proof (Hs _ _ (lin_seq_gen seq req _ _ _ _ _ Ha)) as C.
  assert (Z : forall w, w Idle = 0 -> tsum w idle n = 0). { intros w Hw. clear -Hw. induction n as [|n IH]; simpl; auto. unfold idle at 1. lia. }
  rewrite (Z pend), (Z due) in * by auto. lia.
Qed.
End Count.
