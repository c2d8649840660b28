(** Robin Hood hash set: what a probe finds. *)
From Coq Require Import Arith NArith List Bool Permutation Lia.
From Verif Require Import Lib Helpers_Model Rhs_Model Rhs_Spec Rhs_Proof RhsInv_Proof.
Import ListNotations.

Section PR.
Variables (rmode pp : bool) (hf : N -> N) (cmp : option (N -> N -> bool)).
Notation pi := (pi rmode).
Notation val := (val pp).
Notation bound_get := (bound_get rmode).
Notation mw := (match_word pp cmp).

(** slots [a], ... before [n] of the sequence of [g] hold words, and none that matches *)
Definition clear (m : rmap) (g : N) (b : behavior) (h k : N) (a n : nat) : Prop :=
  forall j, a <= j < n -> ent m (pi m g j) <> 0%N /\ (b <> BRobin -> mw (ent m (pi m g j)) k h = false).
(** a priority is a slot before the [n]-th that may be taken *)
Definition prok (m : rmap) (g : N) (b : behavior) (a n : nat) (pr : option N) (np : nat) : Prop :=
  match pr with
  | None => True
  | Some f => b <> BNoRh /\ exists j, a <= j < n /\ f = pi m g j /\ np = S j /\ irh m f = false /\ prb m f < S j /\ ent m f <> 0%N
  end.
Definition npr (pr : option N) (np n : nat) : nat := match pr with None => S n | Some _ => np end.
Inductive pspec (m : rmap) (g : N) (b : behavior) (h k : N) (a lim0 opl : nat) : pres -> Prop :=
| P_over n pr np : n = opl \/ n = lim0 /\ pr <> None -> a <= n -> n <= opl -> clear m g b h k a n -> prok m g b a n pr np ->
    pspec m g b h k a lim0 opl (mkr None 0 pr (npr pr np n))
| P_empty n pr np : a <= n < opl -> clear m g b h k a n -> ent m (pi m g n) = 0%N -> prok m g b a n pr np ->
    pspec m g b h k a lim0 opl (mkr (Some (pi m g n)) 0 pr (npr pr np n))
| P_match n pr np : a <= n < opl -> b <> BRobin -> clear m g b h k a n -> ent m (pi m g n) <> 0%N -> mw (ent m (pi m g n)) k h = true ->
    prok m g b a (S n) pr np -> pspec m g b h k a lim0 opl (mkr (Some (pi m g n)) (val (ent m (pi m g n))) pr (npr pr np n))
| P_cand n : a <= n < opl -> b = BRh \/ b = BRobin -> clear m g b h k a n -> prok m g b a (S n) (Some (pi m g n)) (S n) ->
    pspec m g b h k a lim0 opl (mkr (Some (pi m g n)) 0 (Some (pi m g n)) (S n)).

Definition linv (m : rmap) (g : N) (b : behavior) (h k : N) (a lim0 opl : nat) (st : pst) : Prop :=
  q_off st = pi m g (q_n st) /\ a <= q_n st <= q_lim st /\ q_lim st <= opl /\ (q_lim st = lim0 \/ q_lim st = opl) /\
  clear m g b h k a (q_n st) /\ prok m g b a (q_n st) (q_pr st) (q_np st).

Lemma prok_S : forall m g b a n pr np, prok m g b a n pr np -> prok m g b a (S n) pr np.
Proof. intros m g b a n [f|] np; simpl; auto. intros (B & j & J & R). split; auto. exists j. split; [lia | auto]. Qed.

Lemma piter_ok : forall m g b h k a lim0 opl st, linv m g b h k a lim0 opl st ->
  match piter rmode pp cmp m opl b h k st with
  | inr r => pspec m g b h k a lim0 opl r
  | inl st' => linv m g b h k a lim0 opl st' /\ q_n st' = S (q_n st)
  end.
Proof.
  intros m g b h k a lim0 opl [off n lim pr np] (E & A & L & L2 & C & P). simpl in *. unfold piter. cbn [q_off q_n q_lim q_pr q_np].
  destruct (Nat.eqb_spec n lim) as [Hit | Nh]; cbn [andb].
  - destruct (Nat.eqb_spec lim opl) as [O | O]; cbn [orb].
    + unfold leave. destruct (Nat.ltb_spec lim (S n)); [|lia]. replace (match pr with Some _ => np | None => S n end) with (npr pr np n) by (destruct pr; auto).
      apply P_over; auto; lia.
    + destruct pr as [f|].
      * unfold leave. destruct (Nat.ltb_spec lim (S n)); [|lia]. apply (P_over m g b h k a lim0 opl n (Some f) np); auto; try lia. right. split; [lia | discriminate].
      * destruct (N.eqb_spec (ent m off) 0) as [Z | NZ].
        { unfold leave. destruct (Nat.ltb_spec opl (S n)); [lia|]. rewrite E in *. apply (P_empty m g b h k a lim0 opl n None np); auto. lia. }
        set (cand := _ && negb (irh m off) && Nat.ltb (prb m off) (S n)).
        destruct (cand && match b with BRh | BRobin => true | _ => false end) eqn:K1.
        { apply andb_prop in K1. destruct K1 as (K1 & K2). rewrite K1. unfold leave. destruct (Nat.ltb_spec opl (S n)); [lia|].
          unfold cand in K1. apply andb_prop in K1. destruct K1 as (K1 & K4). apply andb_prop in K1. destruct K1 as (K1 & K5).
          rewrite E in *. apply P_cand; auto; [lia | destruct b; try discriminate; auto|]. split; [destruct b; discriminate|].
          exists n. split; [lia|]. do 2 (split; auto). split; [destruct (irh m (pi m g n)); auto; discriminate|]. split; auto. apply Nat.ltb_lt; auto. }
        set (pr1 := if cand then Some off else None). set (np1 := if cand then S n else np).
        assert (P1 : prok m g b a (S n) pr1 np1).
        { unfold pr1, np1. destruct cand eqn:K; simpl; auto. unfold cand in K. apply andb_prop in K. destruct K as (K & K4). apply andb_prop in K. destruct K as (K & K5).
          split; [destruct b; discriminate|]. exists n. split; [lia|]. do 2 (split; auto). split; [destruct (irh m off); auto; discriminate|]. split; auto. apply Nat.ltb_lt; auto. }
        destruct (match b with BRobin => false | _ => true end && mw (ent m off) k h) eqn:K2.
        { apply andb_prop in K2. destruct K2 as (K2 & K3). unfold leave. destruct (Nat.ltb_spec opl (S n)); [lia|]. rewrite E in *.
          apply P_match; auto; [lia|]. destruct b; discriminate. }
        split; auto. unfold linv. cbn [q_off q_n q_lim q_pr q_np]. split; [rewrite E; reflexivity|]. split; [lia|]. split; [lia|]. split; auto. split; auto.
        intros j J. destruct (Nat.eq_dec j n); [subst j|apply C; lia]. rewrite <- E. split; auto. intros B. destruct b; try congruence; exact K2.
  - destruct (N.eqb_spec (ent m off) 0) as [Z | NZ].
    { unfold leave. destruct (Nat.ltb_spec lim (S n)); [lia|]. rewrite E in *.
      replace (match pr with Some _ => np | None => S n end) with (npr pr np n) by (destruct pr; auto). apply P_empty; auto. lia. }
    set (cand := _ && negb (irh m off) && Nat.ltb (prb m off) (S n)).
    destruct (cand && match b with BRh | BRobin => true | _ => false end) eqn:K1.
    { apply andb_prop in K1. destruct K1 as (K1 & K2). rewrite K1. unfold leave. destruct (Nat.ltb_spec lim (S n)); [lia|].
      unfold cand in K1. apply andb_prop in K1. destruct K1 as (K1 & K4). apply andb_prop in K1. destruct K1 as (K1 & K5).
      rewrite E in *. apply P_cand; auto; [lia | destruct b; try discriminate; auto|]. split; [destruct b; discriminate|].
      exists n. split; [lia|]. do 2 (split; auto). split; [destruct (irh m (pi m g n)); auto; discriminate|]. split; auto. apply Nat.ltb_lt; auto. }
    set (pr1 := if cand then Some off else pr). set (np1 := if cand then S n else np).
    assert (P1 : prok m g b a (S n) pr1 np1).
    { unfold pr1, np1. destruct cand eqn:K; [|apply prok_S; auto]. unfold cand in K. apply andb_prop in K. destruct K as (K & K4). apply andb_prop in K. destruct K as (K & K5).
      split; [destruct b; discriminate|]. exists n. split; [lia|]. do 2 (split; auto). split; [destruct (irh m off); auto; discriminate|]. split; auto. apply Nat.ltb_lt; auto. }
    destruct (match b with BRobin => false | _ => true end && mw (ent m off) k h) eqn:K2.
    { apply andb_prop in K2. destruct K2 as (K2 & K3). unfold leave. destruct (Nat.ltb_spec lim (S n)); [lia|]. rewrite E in *.
      replace (match pr1 with Some _ => np1 | None => S n end) with (npr pr1 np1 n) by (destruct pr1; auto).
      apply P_match; auto; [lia|]. destruct b; discriminate. }
    split; auto. unfold linv. cbn [q_off q_n q_lim q_pr q_np]. split; [rewrite E; reflexivity|]. split; [lia|]. split; [lia|]. split; auto. split; auto.
    intros j J. destruct (Nat.eq_dec j n); [subst j|apply C; lia]. rewrite <- E. split; auto. intros B. destruct b; try congruence; exact K2.
Qed.
Lemma ploop_ok : forall f m g b h k a lim0 opl st, linv m g b h k a lim0 opl st -> opl < q_n st + f ->
  exists r, ploop rmode pp cmp f m opl b h k st = Ret r /\ pspec m g b h k a lim0 opl r.
Proof.
  induction f; intros m g b h k a lim0 opl st I F.
  - destruct I as (_ & A & L & _). lia.
  - simpl. pose proof (piter_ok m g b h k a lim0 opl st I) as P. destruct (piter rmode pp cmp m opl b h k st) as [st' | r].
    + destruct P as (I' & E). apply IHf; auto. lia.
    + eauto.
Qed.
Lemma probe_ok : forall m h k limit b, (b = BInsert -> bound_get m h <= limit) ->
  exists r, probe rmode pp cmp m h k limit b = Ret r /\
    pspec m h b h k 0 (match b with BInsert => if rmode then limit else bound_get m h | _ => limit end) limit r.
Proof.
  intros m h k limit b B. unfold probe. apply ploop_ok; [|simpl; lia].
  unfold linv. cbn [q_off q_n q_lim q_pr q_np].
  assert (L : match b with BInsert => if rmode then limit else bound_get m h | _ => limit end <= limit) by (destruct b; auto; destruct rmode; auto).
  split; auto. split; [lia|]. split; auto. split; auto. split; [|exact I]. intros j J. lia.
Qed.
Lemma probe_robin_ok : forall m g i h k limit, S i <= limit ->
  exists r, probe_robin rmode pp cmp m (pi m g i) (S i) h k limit = Ret r /\ pspec m g BRobin h k (S i) limit limit r.
Proof.
  intros m g i h k limit L. unfold probe_robin. apply ploop_ok; [|simpl; lia].
  unfold linv. cbn [q_off q_n q_lim q_pr q_np]. split; auto. split; [lia|]. split; auto. split; auto. split; [|exact I]. intros j J. lia.
Qed.
End PR.
