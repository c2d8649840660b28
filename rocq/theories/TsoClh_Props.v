(** ck_spinlock_clh on x86-TSO (C77). *)
From Coq Require Import ZArith List Bool.
From Verif Require Import Lib Tso TsoQueue_Spec TsoClh_Model TsoClh_Proof.
Import ListNotations.
Local Open Scope Z_scope.

(** Whatever the store buffers do, one thread at a time is inside, in the order of the swaps, a
    release is visible before the next thread enters, and the client's reads return the last values
    written inside. *)
Theorem clh_tso_fcfs : forall D G ls s log, run (step code arr) (init D G) ls = Some (s, log) -> q_legal D log.
Proof. exact clh_all. Qed.
Print Assumptions clh_tso_fcfs.

(** A thread that has swapped gets the lock without any further request. *)
Theorem clh_tso_progress : forall D G s t p, reachable (step code arr) (init D G) s ->
  snd (pcs s t) = L3 p \/ snd (pcs s t) = L4 p ->
  exists ls s' log, run (step code arr) s ls = Some (s', log) /\
    (forall l, In l ls -> match l with Flush _ | Go _ ATick | Go _ AUnlock => True | _ => False end) /\ In (Enter t) log.
Proof. exact clh_gets. Qed.
Print Assumptions clh_tso_progress.

(** 1 releases while 2 and 3 wait, and starts over with the node it took from the queue before its release is visible. *)
Example clh_tso_ex : match run (step code arr) (init (fun _ => 0) (fun _ => 77))
    [Go 1 ALock; Flush 1; Go 1 ATick; Go 1 ATick; Go 1 ATick; Go 2 ALock; Flush 2; Go 2 ATick; Go 2 ATick; Go 3 ALock; Flush 3; Go 3 ATick; Go 3 ATick;
     Go 2 ATick; Go 1 (AWr 5 7); Go 1 AUnlock; Go 1 ATick; Go 2 ATick; Go 1 ALock; Flush 1; Flush 1; Go 2 ATick; Flush 1; Go 3 ATick; Go 2 ATick; Go 2 (ARd 5);
     Flush 1; Go 1 ATick; Go 1 ATick; Go 2 AUnlock; Go 2 ATick; Go 1 ATick; Flush 2; Flush 2; Go 1 ATick; Go 3 ATick; Go 3 AUnlock; Go 3 ATick; Flush 3; Flush 3; Go 1 ATick; Go 1 (ARd 5)]%nat with
  | Some (_, log) => log = [Req 1; Enter 1; Req 2; Req 3; DWr 1 5 7; Leave 1; Visible 1; Enter 2; DRd 2 5 7; Req 1; Leave 2; Visible 2; Enter 3;
      Leave 3; Visible 3; Enter 1; DRd 1 5 7]%nat
  | None => False
  end.
Proof. vm_compute. reflexivity. Qed.
Example clh_tso_progress_ex : exists s, reachable (step code arr) (init (fun _ => 0) (fun _ => 77)) s /\ snd (pcs s 2%nat) = L4 2 /\ buf s 1%nat = [(Pv 2, 0); (Dat 5, 7); (Wt 2, 0)].
Proof.
  eexists. split.
  - exists [Go 1 ALock; Flush 1; Go 1 ATick; Go 1 ATick; Go 1 ATick; Go 2 ALock; Flush 2; Go 2 ATick; Go 2 ATick; Go 1 (AWr 5 7); Go 1 AUnlock; Go 1 ATick]%nat.
    eexists. vm_compute. reflexivity.
  - vm_compute. split; reflexivity.
Qed.
