(** Epoch reclamation on x86-TSO (C71). *)
From Coq Require Import ZArith List Bool.
From Verif Require Import Lib Tso TsoSmr_Spec TsoEpoch_Model TsoEpoch_Proof TsoEpochOnce_Proof.
Import ListNotations.
Local Open Scope Z_scope.

(** Whatever the store buffers do, no object is destroyed while a read section refers to it, and no
    section finds an object that is destroyed already.  The client unlinks by an atomic exchange and
    uses ck_epoch_call, or unlinks in any way and uses ck_epoch_synchronize or ck_epoch_barrier.
    Every object is published once and the epoch does not wrap. *)
Theorem epoch_tso_safe : forall recs wr ls s log, run (step (code recs wr false) arr) init ls = Some (s, log) ->
  fresh log -> Z.of_nat (ticks log) + 20 < 2 ^ 32 -> smr_legal log.
Proof. exact epoch_all. Qed.
Print Assumptions epoch_tso_safe.

(** Under the same conditions only published objects are destroyed, each at most once. *)
Theorem epoch_tso_once : forall recs wr ls s log, run (step (code recs wr false) arr) init ls = Some (s, log) ->
  fresh log -> Z.of_nat (ticks log) + 20 < 2 ^ 32 -> NoDup (frees log) /\ incl (frees log) (allocs log).
Proof. exact epoch_once. Qed.
Print Assumptions epoch_tso_once.

(** It is false if ck_epoch_call may follow an unlink by a plain store: the unlink waits in the store
    buffer while the epoch advances twice. *)
Theorem epoch_tso_call_refuted : exists recs wr ls s log, run (step (code recs wr true) arr) init ls = Some (s, log) /\
  fresh log /\ Z.of_nat (ticks log) + 20 < 2 ^ 32 /\ ~ smr_legal log.
Proof. exact epoch_bad. Qed.
Print Assumptions epoch_tso_call_refuted.

(** Thread 0 unlinks object 1 by a plain store that is in flight while thread 1 reads it; synchronize of
    thread 0 waits for thread 1, and the object is destroyed.  Object 3 is exchanged away and destroyed
    by a callback that poll runs. *)
Example epoch_tso_ex : exists s log,
  run (step (code [0; 1]%nat (fun i => match i with O => Some 0%nat | _ => None end) false) arr) init
    ([Go 0 (AStore 0 1); Go 0 ATick; Go 0 ATick; Flush 0; Go 1 ABegin; Go 1 ATick; Go 1 ATick; Go 0 (AStore 0 2); Go 0 ATick; Go 0 ATick;
      Go 1 (ARead 0); Flush 1; Go 0 ASync; Flush 0] ++ rep 6 (Go 0 ATick) ++ [Go 0 ATick; Go 0 ATick; Go 1 AEnd; Flush 1] ++ rep 7 (Go 0 ATick) ++
     [Go 1 (AXchg 1 3); Go 1 (AXchg 1 0); Go 1 (ACall 3); Go 1 ATick; Go 1 APoll] ++ rep 8 (Go 1 ATick))%nat = Some (s, log) /\
  log = [Alloc 1; Alloc 2; Ref 1 1; Tick; Done 1; Tick; Free 1; Alloc 3; Free 3] /\ fresh log.
Proof.
  eexists _, _. split; [vm_compute; reflexivity|]. split; [reflexivity|].
  split; [repeat constructor; cbn; intuition discriminate|cbn; intuition discriminate].
Qed.
