(** Properties of hazard pointers (C48, C49).  [reent c = false]: the client's destructor
    does not itself retire objects; the last two theorems say what happens when it does
    and when 2^32 objects are pending. *)
From Coq Require Import NArith Arith List Bool.
From Verif Require Import Lib Obs Hp_Model Hp_Spec HpSafe_Proof HpEnd_Proof.
Import ListNotations.

(** C48: a slot that held the pointer at a moment at which the object was not retired
    keeps the object from being destroyed until the slot is overwritten. *)
Theorem hp_protected_not_destroyed : forall c, reent c = false -> forall ls s log, run (step c) init ls = Some (s, log) ->
  legal_from gnext safe_ok gs0 log.
Proof. exact hp_safe. Qed.
Print Assumptions hp_protected_not_destroyed.

(** the same without the observer's protection flags: the log contains a store of [p] to the
    slot, after some more events ([b1]) [p] is not retired, and nothing overwrites the slot or
    ends the use of the record until a destroy.  That destroy is not of an object whose
    retirement named [p]. *)
Theorem hp_published_then_unretired : forall c, reent c = false -> forall ls s log, run (step c) init ls = Some (s, log) ->
  forall a t r i p b1 b2 u r' h d rest, log = a ++ ESet t r i p :: b1 ++ b2 ++ EDes u r' h d :: rest ->
  p <> 0 -> forallb (fun e => keeps e r i) (b1 ++ b2) = true -> ~ In p (map q_p (pending_after (a ++ ESet t r i p :: b1))) ->
  forall x, In x (pending_after (a ++ ESet t r i p :: b1 ++ b2)) -> q_h x = h -> q_r x = r' -> q_d x = d -> q_p x <> p.
Proof. exact hp_protected. Qed.
Print Assumptions hp_published_then_unretired.

(** C49: destroy is called for outstanding retirements only, with their data; a reclaim deals
    with everything that was pending when it began and whose pointer was in no slot since. *)
Theorem hp_destroy_outstanding : forall c, reent c = false -> forall ls s log, run (step c) init ls = Some (s, log) ->
  legal_from gnext once_ok gs0 log.
Proof. exact hp_once. Qed.
Print Assumptions hp_destroy_outstanding.

(** records have one user at a time *)
Theorem hp_records_exclusive : forall c, reent c = false -> forall ls s log, run (step c) init ls = Some (s, log) ->
  legal_from gnext excl_ok gs0 log.
Proof. exact hp_excl. Qed.
Print Assumptions hp_records_exclusive.

(** C49: at most once *)
Theorem hp_destroyed_at_most_once : forall c, reent c = false -> forall ls s log, run (step c) init ls = Some (s, log) ->
  forall h, n_des h log <= n_ret h log.
Proof. exact hp_at_most_once. Qed.
Print Assumptions hp_destroyed_at_most_once.

(** C49: each retirement is destroyed or pending, as long as no record is unregistered
    (ck_hp_unregister forgets what is pending, src/ck_hp.c:120-127) *)
Theorem hp_destroyed_or_pending : forall c, reent c = false -> forall ls s log, run (step c) init ls = Some (s, log) ->
  forallb no_unr log = true -> forall h,
  n_ret h log = n_des h log + (if in_dec Nat.eq_dec h (map q_h (pending_after log)) then 1 else 0).
Proof. exact hp_accounted. Qed.
Print Assumptions hp_destroyed_or_pending.

(** C49: what the log leaves pending is what the record's list in memory holds, and n_pending counts it *)
Theorem hp_pending_list : forall c, reent c = false -> forall ls s log, run (step c) init ls = Some (s, log) ->
  forall r t, own s r = Some t -> pcs s t = Idle ->
  exists L, chainp (pnext s) (pfirst s r) L /\ L = map q_h (filter (fun x => Nat.eqb (q_r x) r) (pending_after log)) /\
            (forall x, In x (pending_after log) -> q_r x = r -> hptr s (q_h x) = q_p x /\ hdat s (q_h x) = q_d x) /\
            npend s r = (N.of_nat (length L) mod 4294967296)%N.
Proof. exact hp_list. Qed.
Print Assumptions hp_pending_list.

(** C49: after purge nothing is pending, if fewer than 2^32 objects were *)
Theorem hp_purge_empties : forall c, reent c = false -> forall ls s log, run (step c) init ls = Some (s, log) ->
  forall a t r b, log = a ++ EPur t r :: b -> (N.of_nat (length (pending_after a)) < 4294967296)%N ->
  forall x, In x (pending_after a) -> q_r x <> r.
Proof. exact hp_purge. Qed.
Print Assumptions hp_purge_empties.

(** With 2^32 objects pending n_pending is 0 and purge returns at once. *)
Theorem hp_purge_empties_refuted : exists ls s a b, run (step cP) init ls = Some (s, a ++ EPur 0 1 :: b) /\ exists x, In x (pending_after a) /\ q_r x = 1.
Proof. exact purge_wrap32. Qed.
Print Assumptions hp_purge_empties_refuted.

(** A destructor that retires an object to the record being reclaimed loses it: the
    object is neither destroyed nor on the pending list, and a purge never returns
    (src/ck_hp.c:279-283 writes over the head the destructor installed). *)
Theorem hp_reentrant_destroy_refuted : exists ls s log, run (step cR) init ls = Some (s, log) /\ n_ret 2 log = 1 /\ n_des 2 log = 0 /\
  forall n s' log', run (step cR) s ((0, APurge 1) :: repeat (0, ATau) n) = Some (s', log') -> ~ In (EPur 0 1) log' /\ n_des 2 log' = 0.
Proof. exact lost. Qed.
Print Assumptions hp_reentrant_destroy_refuted.

(** thread 1 protects pointer 7, thread 0 retires it and reclaims in vain; after thread 1 clears its slot
    a purge destroys it *)
Definition ex_ls : list (nat * act) :=
  reg1 ++ (1, ARegister 2) :: repeat (1, ATau) 4 ++ (1, ASet 2 0 7) :: retire6 1 5 6 7 ++ (0, AReclaim 1) :: repeat (0, ATau) 12
  ++ (1, AClear 2) :: repeat (1, ATau) 2 ++ (0, APurge 1) :: repeat (0, ATau) 18.
Example hp_ex_run : option_map snd (run (step cP) init ex_ls) =
  Some [EReg 0 1; EReg 1 2; ESet 1 2 0 7; ERet 0 1 5 6 7; EBeg 0 1; EEnd 0 1; ESet 1 2 0 0; EBeg 0 1; EDes 0 1 5 6; EEnd 0 1; EPur 0 1].
Proof. vm_compute. reflexivity. Qed.
(** the hypotheses of the second theorem are met up to the (vain) reclaim *)
Example hp_ex_protect : forallb (fun e => keeps e 2 0) [ERet 0 1 5 6 7; EBeg 0 1; EEnd 0 1] = true /\
  ~ In 7 (map q_p (pending_after [EReg 0 1; EReg 1 2; ESet 1 2 0 7])) /\
  pending_after [EReg 0 1; EReg 1 2; ESet 1 2 0 7; ERet 0 1 5 6 7; EBeg 0 1; EEnd 0 1] = [(1, 5, 6, 7)].
Proof. vm_compute. tauto. Qed.
(** a destroy at that moment would be illegal, and one of another descriptor too *)
Example hp_ex_bad : ~ legal_from gnext safe_ok gs0 [EReg 0 1; EReg 1 2; ESet 1 2 0 7; ERet 0 1 5 6 7; EBeg 0 1; EDes 0 1 5 6].
Proof. intros L. do 5 destruct L as [_ L]. destruct L as [L _]. apply (L 2 0 7); cbn; auto. Qed.
Example hp_ex_bad2 : ~ legal_from gnext once_ok gs0 [EReg 0 1; ERet 0 1 5 6 7; EBeg 0 1; EDes 0 1 5 6; EDes 0 1 5 6].
Proof. intros L. do 4 destruct L as [_ L]. destruct L as [[p L] _]. exact L. Qed.
