(** Properties of single-producer event counts on x86-TSO (C69).  [w] selects the 64- or 32-bit
    variant; an update is in flight for at most [D], and [S] is the time after which a waiter
    sleeps without a deadline. *)
From Coq Require Import ZArith List Bool.
From Verif Require Import Lib Ec_Model Ec_Proof EcTso_Model EcTso_Proof.
Import ListNotations.
Local Open Scope Z_scope.

(** No update is forgotten or doubled although the producer's read-modify-write is not atomic and
    its stores are buffered: the updates arrive in memory in the order of the program, each on the
    value left by the one before, the loads of other threads see the sum of those that arrived,
    and the producer itself sees all of its own. *)
Theorem ec_sp_tso_counts : forall w D S v0 ls s log, 0 <= v0 < M (ops w) ->
  run (tstep (ops w) D S) (tinit (ops w) v0) ls = Some (s, log) ->
  counts (M (ops w)) v0 (seen log) /\ (exists v, accepts (own_step (M (ops w))) v0 log = Some v) /\
  exists rest, issued log = arrived log ++ rest /\ length rest = length (buf s).
Proof. exact tso_counts_all. Qed.
Print Assumptions ec_sp_tso_counts.

(** wait returns success only if the value in memory was different at the call, or an update has
    arrived since, or the waker cleared the flag since. *)
Theorem ec_sp_tso_wait_success_partial : forall w D S v0 ls s log, 0 <= v0 < M (ops w) ->
  run (tstep (ops w) D S) (tinit (ops w) v0) ls = Some (s, log) -> wait_truthful (M (ops w)) true v0 (seen log).
Proof. exact tso_wait_all. Qed.
Print Assumptions ec_sp_tso_wait_success_partial.

(** Let no update be in flight as long as [S].  A waiter asleep without a deadline, for which no
    waker cleared the flag between the check of the flag that began its backoff and the sleep (and
    the counter did not go round in between), is woken: once the producer's value differs, the
    producer is about to wake everybody, by its own steps and the arrival of its stores.
    Missing: the condition on the flag. *)
Theorem ec_sp_tso_no_lost_wakeup_partial : forall w D S v0 ls s log, (D < S)%nat -> 0 <= v0 < M (ops w) ->
  run (tstep (ops w) D S) (tinit (ops w) v0) ls = Some (s, log) ->
  forall t v b, tthr s t = QS v b true -> calm (M (ops w)) t log -> wval (ops w) (view s) <> v ->
  exists ls' s' log', run (tstep (ops w) D S) s ls' = Some (s', log') /\ (forall l, In l ls' -> l = LFlush \/ l = LT 0%nat TTick) /\
    forall t v b i, tthr s' t <> QS v b i.
Proof. exact tso_no_lost_all. Qed.
Print Assumptions ec_sp_tso_no_lost_wakeup_partial.

(** Without that condition a wake-up can be lost, however short updates are in flight and however
    long the backoff lasts: waiter 1 is asleep for value 1 without a deadline, the value is 2, all
    stores have arrived, and every other thread is idle. *)
Theorem ec_sp_tso_no_lost_wakeup_refuted : forall w D S, exists ls s log b,
  run (tstep (ops w) D S) (tinit (ops w) 0) ls = Some (s, log) /\
  tthr s 1%nat = QS 1 b true /\ wval (ops w) (mem s) = 2 /\ buf s = [] /\ forall t, t <> 1%nat -> tthr s t = PIdle.
Proof. exact lost. Qed.
Print Assumptions ec_sp_tso_no_lost_wakeup_refuted.

(** Two updates are buffered while another thread flags the word and looks at it; the first of them
    arrives and overwrites the flag; the waiter notices. *)
Example ec_sp_tso_ex :
  match run (tstep ops32 1 2) (tinit ops32 (2 ^ 31 - 2))
    [LT 0 (TAdd 1); LT 0 TTick; LT 0 TTick; LT 0 (TAdd 3); LT 0 TTick; LT 0 TTick; LT 0 TValue; LT 0 TTick; LT 2 TValue; LT 2 TTick;
     LT 1 (TWait (2 ^ 31 - 2)); LT 1 TTick; LT 1 TTick; LT 1 TTick; LT 1 TStop; LT 1 TTick; LClock; LFlush; LT 1 TTick; LT 2 TValue; LT 2 TTick]%nat with
  | Some (s, log) => log = [TIss 1 (2 ^ 31 - 2); TIss 3 (2 ^ 31 - 1); TOwn 2; TE (EVal 2 (2 ^ 31 - 2)); TE (ECall 1 (2 ^ 31 - 2));
        TE (EAdd 0 1 (2 ^ 31 - 2)); TE (ERet 1 0); TE (EVal 2 (2 ^ 31 - 1))]%nat /\ length (buf s) = 1%nat
  | None => False
  end.
Proof. vm_compute. split; reflexivity. Qed.

(** The hypotheses of the wake-up theorem: the waiter flags the word, sleeps once with a deadline,
    waits out the backoff and sleeps without one; the producer's update is still buffered and it is
    about to wake the waiter. *)
Example ec_sp_tso_wakeup_ex : exists ls s log,
  run (tstep ops64 1 2) (tinit ops64 0) ls = Some (s, log) /\ tthr s 1%nat = QS 1 0 true /\ calm (M ops64) 1 log /\
  wval ops64 (view s) = 2 /\ wval ops64 (mem s) = 1 /\ tthr s 0%nat = PWk1.
Proof.
  exists [LT 0 TInc; LT 0 TTick; LT 0 TTick; LFlush;
    LT 1 (TWait 1); LT 1 TTick; LT 1 TTick; LT 1 TTick; LT 1 TStop; LT 1 TTick; LT 1 TStop; LT 1 TTick; LT 1 TTick;
    LClock; LClock; LT 1 TTick; LT 1 TTick; LT 1 TTick; LT 1 TTick; LT 0 TInc; LT 0 TTick; LT 0 TTick]%nat.
  eexists. eexists. split; [vm_compute; reflexivity|]. split; [reflexivity|]. split; [|repeat split; reflexivity].
  exists [TIss 1 0; TE (EAdd 0 1 0); TE (ECall 1 1)]%nat, [TE (ESleep 1); TE (ESleep 1)]%nat, [TIss 1 1].
  split; [reflexivity|]. split; [intros [X|[X|[]]]; discriminate|].
  split; [intros u [X|[X|[]]]; discriminate|]. split; [reflexivity|]. intros [X|[]]; discriminate.
Qed.
