(** ck_spinlock_fas and ck_spinlock_cas on x86-TSO (C70). *)
From Coq Require Import ZArith List Bool.
From Verif Require Import Lib Tso TsoLock_Spec TsoSpin_Model TsoSpin_Proof.
Import ListNotations.
Local Open Scope Z_scope.

(** Whatever the store buffers do, one thread at a time is inside, a release is visible before the
    next thread enters, trylock and locked tell the truth about that, and the client's reads
    return the last values written inside. *)
Theorem spin_tso_protects : forall k D ls s log, run (step (code k) arr) (init D) ls = Some (s, log) -> dl_legal D log.
Proof. exact spin_all. Qed.
Print Assumptions spin_tso_protects.

(** When nobody is inside, a thread in lock gets the lock by its own steps, once the stores in
    flight have arrived. *)
Theorem spin_tso_progress : forall k D s t, reachable (step (code k) arr) (init D) s ->
  (pcs s t = Acq \/ pcs s t = Spin) -> (forall u, pcs s u <> CS) ->
  exists ls s' log, run (step (code k) arr) s ls = Some (s', log) /\ In (Enter t) log /\
    forall l, In l ls -> l = Go t ATick \/ exists u, l = Flush u.
Proof. exact spin_gets. Qed.
Print Assumptions spin_tso_progress.

(** Thread 1 releases; its two stores are still in flight while 2 spins and 3 tries; then 2 enters and reads. *)
Example spin_tso_ex : forall k,
  match run (step (code k) arr) (init (fun _ => 0))
    [Go 1 ALock; Go 1 ATick; Go 2 ALock; Go 2 ATick; Go 1 (AWr 5 7); Go 1 (ARd 5); Go 1 AUnlock; Go 1 ALocked; Go 3 ALocked; Go 3 ATry;
     Flush 1; Go 2 ATick; Flush 1; Go 2 ATick; Go 2 ATick; Go 2 (ARd 5)]%nat with
  | Some (s, log) => log = [Enter 1; DWr 1 5 7; DRd 1 5 7; Leave 1; Locked 1 false; Locked 3 true; Fail 3; Visible 1; Enter 2; DRd 2 5 7]
  | None => False
  end.
Proof. intros []; vm_compute; reflexivity. Qed.
Example spin_tso_progress_ex : exists s, reachable (step (code Fas) arr) (init (fun _ => 0)) s /\ pcs s 2%nat = Spin /\ buf s 1%nat <> [] /\ pcs s 1%nat = Idle.
Proof.
  eexists. split.
  - exists [Go 1 ALock; Go 1 ATick; Go 2 ALock; Go 2 ATick; Go 1 (AWr 5 7); Go 1 AUnlock]%nat. eexists. vm_compute. reflexivity.
  - vm_compute. repeat split. discriminate.
Qed.
