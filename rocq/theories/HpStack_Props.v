(** C50: the stack with hazard pointers, include/ck_hp_stack.h.  [reent c = false]: the client's
    destructor does not itself retire objects. *)
From Coq Require Import NArith Arith List Bool.
From Verif Require Import Lib Obs Lin Hp_Model Hp_Spec HpClient_Model HpStack_Model HpStack_Spec HpStack_Proof Stack_Spec.
Import ListNotations.

(** C50.  Whatever the threads do with push, trypush, pop, trypop and the hazard pointers, as long
    as an entry that was popped is retired and destroyed before it is pushed again, the history is
    linearizable to a LIFO stack. *)
Theorem hp_stack_linearizable : forall c, reent c = false -> forall ls s log, run (sstep c) sinit ls = Some (s, log) ->
  linearizable lifo Stack_Model.sres_dec [] (history (lin_of log)).
Proof. exact hs_linearizable. Qed.
Print Assumptions hp_stack_linearizable.

(** C50.  No operation accesses an entry that is destroyed (or NULL, or not yet pushed). *)
Theorem hp_stack_accesses_live : forall c, reent c = false -> forall ls s log, run (sstep c) sinit ls = Some (s, log) ->
  legal_from wnext wok w0 log.
Proof. exact hs_accesses. Qed.
Print Assumptions hp_stack_accesses_live.

(** The try operations give up only if another operation changed the stack during the call (or,
    for trypop, on an empty stack); the memory holds the linearized contents. *)
Theorem hp_stack_failures : forall c, reent c = false -> forall ls s log, run (sstep c) sinit ls = Some (s, log) ->
  exists a, accepts stk_step a0 (lin_of log) = Some a /\ chainp (nx s) (hd s) (fst (a_lin a)).
Proof. exact hs_failures. Qed.
Print Assumptions hp_stack_failures.

(** The hazard pointers still do what C48 and C49 promise. *)
Theorem hp_stack_hazards : forall c, reent c = false -> forall ls s log, run (sstep c) sinit ls = Some (s, log) ->
  legal_from gnext hp_ok gs0 (hp_of log).
Proof. exact hs_hazards. Qed.
Print Assumptions hp_stack_hazards.

(** thread 1 has validated 6 when thread 0 pops and retires it; the reclaim does not destroy 6;
    thread 1 pops 5; then 6 is destroyed and pushed again *)
Definition c1 : cfg := {| deg := 1; lim := 4; reent := false |}.
Definition tau (t n : nat) : list (nat * sact) := repeat (t, AHp ATau) n.
Definition tk (t n : nat) : list (nat * sact) := repeat (t, ATick) n.
Definition ex_ls : list (nat * sact) :=
  (0, AHp (ARegister 1)) :: tau 0 4 ++ (1, AHp (ARegister 2)) :: tau 1 4 ++
  (0, APush false 5) :: tk 0 3 ++ (0, APush true 6) :: tk 0 3 ++
  (1, APop false 2) :: tk 1 4 ++                                  (* 1: validated 6, read its next *)
  (0, APop true 1) :: tk 0 5 ++ (0, AHp (ASet 1 0 0)) :: (0, AHp (ARetire 1 9 60 6)) :: tau 0 5 ++ (0, AHp (AReclaim 1)) :: tau 0 12 ++
  tk 1 5 ++ (0, AHp (AReclaim 1)) :: tau 0 16 ++ (0, APush false 6) :: tk 0 3.
Example hp_stack_ex : option_map snd (run (sstep c1) sinit ex_ls) = Some
  [HE (EReg 0 1); HE (EReg 1 2); LE (Call 0 (Push 5)); AC 0 5; LE (Lin 0 RU); LE (Ret 0 RU);
   LE (Call 0 (TryPush 6)); AC 0 6; LE (Lin 0 (RB true)); LE (Ret 0 (RB true));
   LE (Call 1 Pop); HE (ESet 1 2 0 6); AC 1 6;
   LE (Call 0 TryPop); HE (ESet 0 1 0 6); AC 0 6; LE (Lin 0 (RV (Some 6))); LE (Ret 0 (RV (Some 6)));
   HE (ESet 0 1 0 0); HE (ERet 0 1 9 60 6); HE (EBeg 0 1); HE (EEnd 0 1);
   HE (ESet 1 2 0 5); AC 1 5; LE (Lin 1 (RV (Some 5))); LE (Ret 1 (RV (Some 5)));
   HE (EBeg 0 1); HE (EDes 0 1 9 60); HE (EEnd 0 1); LE (Call 0 (Push 6)); AC 0 6; LE (Lin 0 RU); LE (Ret 0 RU)].
Proof. vm_compute. reflexivity. Qed.
(** an access after the destruction would be illegal *)
Example hp_stack_ex_bad : ~ legal_from wnext wok w0
  [LE (Call 0 (Push 6)); AC 0 6; LE (Lin 0 RU); LE (Ret 0 RU); LE (Call 0 TryPop); AC 0 6; LE (Lin 0 (RV (Some 6))); LE (Ret 0 (RV (Some 6)));
   HE (ERet 0 1 9 60 6); HE (EDes 0 1 9 60); AC 1 6].
Proof. intros L. do 10 destruct L as [_ L]. destruct L as [[L _] _]. vm_compute in L. discriminate. Qed.
