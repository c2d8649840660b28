(** C18: the phased stack operations. *)
From Coq Require Import Arith List Bool.
From Verif Require Import Lib Lin Stack_Model Stack_Spec StackNp_Model StackNp_Proof.
Import ListNotations.

(** C18.  Concurrent push_mpnc, and push_spnc, pop_npsc, batch_pop_npsc in quiet
    phases, are linearizable to a LIFO stack. *)
Theorem stack_np_linearizable : forall n ls s log, run (nstep n) ninit ls = Some (s, log) -> linearizable lifo sres_dec [] (history log).
Proof. exact np_linearizable. Qed.
Print Assumptions stack_np_linearizable.

(** C18.  Once the producers have returned, the stack holds a list [l] without
    repetitions, with every entry pushed as often as it was handed out before plus
    once if it is in [l]; batch_pop returns the chain [l] and empties the stack, and
    single pops return [l] entry by entry in the same order. *)
Theorem stack_np_drain : forall n ls s log t, run (nstep n) ninit ls = Some (s, log) -> quiet n s = true -> t < n ->
  exists l, NoDup l /\ (forall e, called (puts e) log = returned (gets e) log + count_occ Nat.eq_dec l e) /\
    (exists s', nstep n s (t, KBatch) = Some (s', atomically t Batch (RL l)) /\ nhead s' = None) /\
    (exists s', run (nstep n) s (repeat (t, KPop) (length l)) = Some (s', concat (map (fun x => atomically t Pop (RV (Some x))) l)) /\ nhead s' = None).
Proof. exact np_drain. Qed.
Print Assumptions stack_np_drain.

(** two overlapping pushes, a third, then a pop and a batch *)
Example np_example :
  let ls := [(0, KPush 4); (1, KPush 5); (0, KTick); (1, KTick); (1, KTick); (0, KTick); (1, KTick); (0, KTick); (0, KSp 6)] in
  exists s log, run (nstep 2) ninit ls = Some (s, log) /\ quiet 2 s = true /\
    exists s', nstep 2 s (1, KBatch) = Some (s', atomically 1 Batch (RL [6; 4; 5])).
Proof. eexists. eexists. split; [vm_compute; reflexivity|]. split; [reflexivity|]. eexists. vm_compute. reflexivity. Qed.
