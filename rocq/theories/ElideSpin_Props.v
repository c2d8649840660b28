(** Elided ck_spinlock_fas and ck_spinlock_cas on x86-TSO with transactional memory (C78). *)
From Coq Require Import ZArith List Bool.
From Verif Require Import Lib Tso Rtm TsoLock_Spec Elide_Model ElideSpin_Model ElideSpin_Proof.
Import ListNotations.
Local Open Scope Z_scope.

(** Critical sections that are elided, that fall back to the lock, and that use the lock directly together
    satisfy the specification of a lock that is always taken: one thread at a time is inside, and reads
    return the last values written inside, whatever aborts, whatever the statistics and configurations. *)
Theorem elide_spin_protects : forall k D S ls s log,
  run (xstep (code k) arr) (init D S) ls = Some (s, log) -> dl_legal D log.
Proof. exact elide_all. Qed.
Print Assumptions elide_spin_protects.

(** Lock and unlock agree on whether the section was elided: no transaction is left open after unlock, rtm_end
    is only executed in a transaction, and the lock word is only stored outside one. *)
Theorem elide_spin_closed : forall k D S s t, reachable (xstep (code k) arr) (init D S) s ->
  (p (pcs (ts s) t) = Idle -> txs s t = None) /\
  (forall ad, p (pcs (ts s) t) = UEnd ad -> txs s t <> None) /\
  (p (pcs (ts s) t) = URel -> txs s t = None).
Proof. exact elide_ends. Qed.
Print Assumptions elide_spin_closed.

(** Thread 1 elides and commits; threads 2 and 3 are in transactions on different data; 3's commit dooms 2, which
    has read what 3 wrote; 2 falls back, and dooms 4. *)
Example elide_spin_ex : forall k,
  match run (xstep (code k) arr) (init (fun _ => 0) (fun _ => stat_init))
    [XGo 1 AELock; XGo 1 ATick; XGo 1 (AWr 5 7); XGo 1 (ARd 5); XGo 1 (AEUnlock false); XGo 1 ATick;
     XGo 2 AELock; XGo 2 ATick; XGo 3 (AEAdapt default_cfg); XGo 3 ATick; XGo 3 ATick; XGo 2 (ARd 5); XGo 3 (AWr 5 8);
     XGo 3 (AEUnlock true); XGo 3 ATick; Abort 2 6; XGo 4 AETry; XGo 4 ATick; XGo 2 ATick; XGo 2 (ARd 5); XGo 2 (AWr 6 9);
     Abort 4 6; XGo 2 (AEUnlock false); XGo 2 ATick; XFlush 2; XFlush 2; XGo 4 AELock; XGo 4 ATick; XGo 4 (ARd 6);
     XGo 4 (AEUnlock false); XGo 4 ATick]%nat with
  | Some (s, log) => log = [Enter 1; DWr 1 5 7; DRd 1 5 7; Leave 1; Visible 1; Enter 3; DWr 3 5 8; Leave 3; Visible 3;
                            Enter 2; DRd 2 5 8; DWr 2 6 9; Leave 2; Visible 2; Enter 4; DRd 4 6 9; Leave 4; Visible 4]%nat
                     /\ n_elide (st (pcs (ts s) 3%nat)) = 1
  | None => False
  end.
Proof. intros []; vm_compute; split; reflexivity. Qed.
(** A doomed transaction cannot commit. *)
Example elide_spin_doomed_ex : run (xstep (code Fas) arr) (init (fun _ => 0) (fun _ => stat_init))
    [XGo 1 AELock; XGo 1 ATick; XGo 2 ALock; XGo 2 ATick; XGo 1 (ARd 5)]%nat = None.
Proof. vm_compute. reflexivity. Qed.
