(** Every run of the stacks on TSO has the events of a run of Stack_Model: the store to [next]
    takes effect when it arrives, which is before the CAS that follows it. *)
From Coq Require Import NArith Arith List Bool.
From Verif Require Import Lib Lin Stack_Model Stack_Spec Stack_Proof TsoStack_Model.
Import ListNotations.

Definition retag (s : sst) (th : nat -> spc) : sst :=
  {| head := head s; gen := gen s; nxt := nxt s; thr := th; own := own s; pushes := pushes s |}.

Definition Rt (T : tst) (th : nat -> spc) : Prop := forall t,
  match buf T t with
  | [] => th t = thr (mem T) t
  | [(e, st)] => exists b, thr (mem T) t = Pu3 b e st /\ th t = Pu2 b e st
  | _ => False
  end.

Lemma tick_retag : forall s th t, th t = thr s t ->
  tick (retag s th) t = match tick s t with Some (s', ev) => Some (retag s' (upd th t (thr s' t)), ev) | None => None end.
Proof.
  intros s th t E. unfold tick. cbn [thr retag]. rewrite E. cbn [head gen nxt own pushes retag].
  destruct (thr s t); try reflexivity; unfold fin;
    repeat match goal with
    | |- context [match ?x with _ => _ end] =>
        match x with
        | _ => match type of x with
               | bool => destruct x
               | option nat => destruct x
               | option (list nat) => destruct x
               end
        end
    end; cbn; try reflexivity; rewrite ?upd_same; reflexivity.
Qed.

Lemma tick_thr : forall s t s' ev u, tick s t = Some (s', ev) -> u <> t -> thr s' u = thr s u.
Proof.
  intros s t s' ev u H N. unfold tick, fin in H. destruct (thr s t); try discriminate;
    repeat match type of H with
    | context [match ?x with _ => _ end] => destruct x
    end; injection H as <- _; cbn; apply upd_other; auto.
Qed.

Lemma holds_eq : forall T th, Rt T th -> forall t e, holds (th t) e = holds (thr (mem T) t) e.
Proof.
  intros T th R t e. specialize (R t). destruct (buf T t) as [|[x v] [|? ?]].
  - rewrite R. reflexivity.
  - destruct R as [b [-> ->]]. reflexivity.
  - contradiction.
Qed.

Lemma may_push_eq : forall c T th e, Rt T th -> may_push c (retag (mem T) th) e = may_push c (mem T) e.
Proof.
  intros c T th e R. unfold may_push. cbn [own retag thr]. f_equal. destruct (md c); [|reflexivity].
  generalize (List.seq 0 (nt c)). induction l as [|t l IH]; [reflexivity|]. cbn [forallb].
  rewrite IH, (holds_eq T th R). reflexivity.
Qed.

Lemma Rt_upd : forall T th t m' p, Rt T th -> buf T t = [] -> thr m' t = p -> (forall u, u <> t -> thr m' u = thr (mem T) u) ->
  Rt {| mem := m'; buf := buf T |} (upd th t p).
Proof.
  intros T th t m' p R Eb Et Eo u. cbn [buf mem]. destruct (Nat.eq_dec u t) as [->|N].
  - rewrite Eb, upd_same. symmetry. exact Et.
  - rewrite upd_other by auto. rewrite (Eo u N). exact (R u).
Qed.

Lemma sim_step : forall c T th l T' ev, Rt T th -> tstep c T l = Some (T', ev) ->
  exists ls th', run (sstep c) (retag (mem T) th) ls = Some (retag (mem T') th', ev) /\ Rt T' th'.
Proof.
  intros c T th [t a] T' ev R H. cbn [tstep] in H. destruct (Nat.ltb t (nt c)) eqn:Et; cbn [negb] in H; [|discriminate].
  assert (one : forall x s', sstep c (retag (mem T) th) (t, x) = Some (s', ev) ->
            run (sstep c) (retag (mem T) th) [(t, x)] = Some (s', ev)).
  { intros x s' E. cbn [run]. rewrite E. rewrite app_nil_r. reflexivity. }
  destruct a as [o| |].
  - (* call *)
    destruct (thr (mem T) t) eqn:Ep; try discriminate.
    assert (Eb : buf T t = []).
    { specialize (R t). destruct (buf T t) as [|[x v] [|? ?]]; [reflexivity| |contradiction].
      destruct R as [b [X _]]. congruence. }
    assert (Eth : th t = PIdle) by (specialize (R t); rewrite Eb, Ep in R; exact R).
    assert (X : exists m', call c (mem T) t o = Some (m', ev) /\ T' = {| mem := m'; buf := buf T |}).
    { unfold lift in H. destruct (call c (mem T) t o) as [[m' e']|]; [|discriminate]. injection H as <- <-. eauto. }
    destruct X as [m' [Ec ->]]. exists [(t, ACall o)], (upd th t (thr m' t)). split.
    + apply one. cbn [sstep]. rewrite Et. cbn [negb thr retag]. rewrite Eth.
      destruct o; cbn [call] in Ec |- *; rewrite ?(may_push_eq c T th _ R);
        repeat match type of Ec with context [if ?x then _ else _] => destruct x; [|discriminate] end;
        injection Ec as <- <-; cbn; rewrite ?upd_same; reflexivity.
    + apply Rt_upd; [exact R|exact Eb|reflexivity|]. intros u N.
      destruct o; cbn [call] in Ec;
        repeat match type of Ec with context [if ?x then _ else _] => destruct x; [|discriminate] end;
        injection Ec as <- _; cbn; apply upd_other; auto.
  - (* tick *)
    unfold ttick in H.
    assert (G : buf T t = [] -> forall m', tick (mem T) t = Some (m', ev) -> T' = {| mem := m'; buf := buf T |} ->
              exists ls th', run (sstep c) (retag (mem T) th) ls = Some (retag (mem T') th', ev) /\ Rt T' th').
    { intros Eb m' Ek ->. assert (Eth : th t = thr (mem T) t) by (specialize (R t); rewrite Eb in R; exact R).
      exists [(t, ATick)], (upd th t (thr m' t)). split.
      - apply one. cbn [sstep]. rewrite Et. cbn [negb]. rewrite tick_retag, Ek by exact Eth. reflexivity.
      - apply Rt_upd; [exact R|exact Eb|reflexivity|]. intros u N. eapply tick_thr; eauto. }
    assert (NB : (forall b e st, thr (mem T) t <> Pu3 b e st) -> buf T t = []).
    { intros N. specialize (R t). destruct (buf T t) as [|[x v] [|? ?]]; [reflexivity| |contradiction].
      destruct R as [b [X _]]. exfalso. exact (N _ _ _ X). }
    assert (L : buf T t = [] -> lift T (tick (mem T) t) = Some (T', ev) ->
              exists ls th', run (sstep c) (retag (mem T) th) ls = Some (retag (mem T') th', ev) /\ Rt T' th').
    { intros Eb E. unfold lift in E. destruct (tick (mem T) t) as [[m' e']|] eqn:Ek; [|discriminate].
      injection E as <- <-. exact (G Eb m' eq_refl eq_refl). }
    assert (K : locked T t (lift T (tick (mem T) t)) = Some (T', ev) ->
              exists ls th', run (sstep c) (retag (mem T) th) ls = Some (retag (mem T') th', ev) /\ Rt T' th').
    { intros E. unfold locked in E. destruct (buf T t) eqn:Eb; [|discriminate]. exact (L eq_refl E). }
    destruct (thr (mem T) t) eqn:Ep; try (apply L; [apply NB; intros; discriminate|exact H]); try (exact (K H)).
    + (* Pu2: the store is buffered *)
      injection H as <- <-. exists [], th. split; [cbn; reflexivity|].
      assert (Eb : buf T t = []) by (apply NB; intros; discriminate).
      intros u. cbn [mem buf thr go]. destruct (Nat.eq_dec u t) as [->|N].
      * rewrite !upd_same, Eb. cbn [app]. exists b. split; [reflexivity|].
        specialize (R t). rewrite Eb, Ep in R. exact R.
      * rewrite !upd_other by auto. exact (R u).
    + (* Po2 *)
      assert (Eb : buf T t = []) by (apply NB; intros; discriminate).
      unfold vnext in H. rewrite Eb in H. cbn [newest] in H. injection H as <- <-.
      apply (G Eb (go (mem T) t (Po3 b x (nxt (mem T) x)))); [|reflexivity]. unfold tick. rewrite Ep. reflexivity.
    + (* G3 *)
      assert (Eb : buf T t = []) by (apply NB; intros; discriminate).
      unfold vnext in H. rewrite Eb in H. cbn [newest] in H. injection H as <- <-.
      apply (G Eb (go (mem T) t (G4 b g x (nxt (mem T) x)))); [|reflexivity]. unfold tick. rewrite Ep. reflexivity.
  - (* flush: the store happens *)
    destruct (buf T t) as [|[e v] b'] eqn:Eb; [discriminate|]. injection H as <- <-.
    pose proof (R t) as Rt0. rewrite Eb in Rt0. destruct b' as [|? ?]; [|contradiction].
    destruct Rt0 as [b [Ep Eth]].
    exists [(t, ATick)], (upd th t (Pu3 b e v)). split.
    + apply one. cbn [sstep]. rewrite Et. cbn [negb]. unfold tick. cbn [thr retag]. rewrite Eth. cbn. reflexivity.
    + intros u. cbn [mem buf]. destruct (Nat.eq_dec u t) as [->|N].
      * rewrite !upd_same. cbn. symmetry. exact Ep.
      * rewrite !upd_other by auto. cbn. exact (R u).
Qed.

Lemma sim_all : forall c ls T th T' log, Rt T th -> run (tstep c) T ls = Some (T', log) ->
  exists ls' th', run (sstep c) (retag (mem T) th) ls' = Some (retag (mem T') th', log) /\ Rt T' th'.
Proof.
  intros c. induction ls as [|l ls IH]; intros T th T' log R H; cbn [run] in H.
  - injection H as <- <-. exists [], th. auto.
  - destruct (tstep c T l) as [[T1 e1]|] eqn:E1; [|discriminate].
    destruct (run (tstep c) T1 ls) as [[T2 e2]|] eqn:E2; [|discriminate]. injection H as <- <-.
    destruct (sim_step c T th l T1 e1 R E1) as [l1 [th1 [A1 R1]]].
    destruct (IH T1 th1 T2 e2 R1 E2) as [l2 [th2 [A2 R2]]].
    exists (l1 ++ l2), th2. split; [|exact R2]. eapply run_app; [exact A1|exact A2].
Qed.

Lemma sim : forall c ls T log, run (tstep c) tinit ls = Some (T, log) ->
  exists ls' s, run (sstep c) sinit ls' = Some (s, log) /\
    head s = head (mem T) /\ gen s = gen (mem T) /\ nxt s = nxt (mem T) /\ own s = own (mem T) /\ pushes s = pushes (mem T).
Proof.
  intros c ls T log H.
  destruct (sim_all c ls tinit (fun _ => PIdle) T log (fun _ => eq_refl) H) as [ls' [th' [A _]]].
  exists ls', (retag (mem T) th'). split; [exact A|]. cbn. auto.
Qed.

Lemma tso_up_lin : forall n b ls T log, run (tstep {| md := UP; nt := n; bp := b |}) tinit ls = Some (T, log) ->
  linearizable lifo sres_dec [] (history log).
Proof. intros n b ls T log H. destruct (sim _ _ _ _ H) as [ls' [s [A _]]]. exact (up_linearizable _ _ _ _ _ A). Qed.

Lemma tso_up_fail : forall n b ls T log, run (tstep {| md := UP; nt := n; bp := b |}) tinit ls = Some (T, log) ->
  exists a, accepts stk_step a0 log = Some a /\ walk (pushes (mem T)) (nxt (mem T)) (head (mem T)) = Some (fst (a_lin a)).
Proof.
  intros n b ls T log H. destruct (sim _ _ _ _ H) as [ls' [s (A & Eh & Eg & En & Eo & Ec)]].
  destruct (up_failures _ _ _ _ _ A) as [a [X Y]]. exists a. split; [exact X|]. rewrite <- Eh, <- En, <- Ec. exact Y.
Qed.

Lemma tso_mp_lin : forall n ls T log, run (tstep {| md := MP; nt := n; bp := false |}) tinit ls = Some (T, log) ->
  short_calls log -> linearizable lifo sres_dec [] (history log).
Proof. intros n ls T log H S. destruct (sim _ _ _ _ H) as [ls' [s [A _]]]. exact (mp_linearizable _ _ _ _ A S). Qed.

Lemma tso_mp_fail : forall n ls T log, run (tstep {| md := MP; nt := n; bp := false |}) tinit ls = Some (T, log) ->
  short_calls log ->
  exists a, accepts stk_step a0 log = Some a /\ walk (pushes (mem T)) (nxt (mem T)) (head (mem T)) = Some (fst (a_lin a)).
Proof.
  intros n ls T log H S. destruct (sim _ _ _ _ H) as [ls' [s (A & Eh & Eg & En & Eo & Ec)]].
  destruct (mp_failures _ _ _ _ A S) as [a [X Y]]. exists a. split; [exact X|]. rewrite <- Eh, <- En, <- Ec. exact Y.
Qed.

(** when an operation has returned, its thread has nothing left in its buffer *)
Lemma tso_idle : forall c ls T log, run (tstep c) tinit ls = Some (T, log) ->
  forall t, thr (mem T) t = PIdle -> buf T t = [].
Proof.
  intros c ls T log H t Et.
  destruct (sim_all c ls tinit (fun _ => PIdle) T log (fun _ => eq_refl) H) as [ls' [th' [_ R]]].
  specialize (R t). destruct (buf T t) as [|[x v] [|? ?]]; [reflexivity| |contradiction].
  destruct R as [b [X _]]. congruence.
Qed.
