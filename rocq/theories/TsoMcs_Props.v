(** ck_spinlock_mcs on x86-TSO (C77). *)
From Coq Require Import ZArith List Bool.
From Verif Require Import Lib Tso TsoQueue_Spec TsoMcs_Model TsoMcs_Proof.
Import ListNotations.
Local Open Scope Z_scope.

(** Whatever the store buffers do, one thread at a time is inside, in the order of the swaps, a
    release is visible before the next thread enters, trylock and locked tell the truth, and the
    client's reads return the last values written inside. *)
Theorem mcs_tso_fcfs : forall D G ls s log, run (step code arr) (init D G) ls = Some (s, log) -> q_legal D log.
Proof. exact mcs_all. Qed.
Print Assumptions mcs_tso_fcfs.

(** A thread that has swapped itself into the queue gets the lock without any further request. *)
Theorem mcs_tso_progress : forall D G s t, reachable (step code arr) (init D G) s -> (exists p, pcs s t = L4 p) \/ pcs s t = L5 ->
  exists ls s' log, run (step code arr) s ls = Some (s', log) /\
    (forall l, In l ls -> match l with Flush _ | Go _ ATick | Go _ AUnlock => True | _ => False end) /\ In (Enter t) log.
Proof. exact mcs_gets. Qed.
Print Assumptions mcs_tso_progress.

(** 1 finds no successor because the link of 2 is still buffered, waits for it, releases, and prepares
    its node for the next round while the release is in flight. *)
Example mcs_tso_ex : match run (step code arr) (init (fun _ => 0) (fun _ => 77))
    [Go 1 ALock; Go 1 ATick; Flush 1; Flush 1; Go 1 ATick; Go 2 ALock; Go 2 ATick; Flush 2; Flush 2; Go 2 ATick; Go 2 ATick; Go 2 ATick;
     Go 1 (AWr 5 7); Go 1 AUnlock; Go 1 ATick; Go 1 ATick; Flush 2; Go 1 ATick; Go 1 ATick; Go 1 ALock; Go 1 ATick; Go 2 ATick; Flush 1; Go 2 ATick; Flush 1; Go 2 ATick; Go 2 (ARd 5);
     Go 3 ALocked; Go 3 ATry; Go 3 ATick; Flush 3; Flush 3; Go 3 ATick; Flush 1; Flush 1; Go 2 AUnlock; Go 2 ATick; Go 2 ATick; Go 2 ALocked; Go 1 ATick]%nat with
  | Some (_, log) => log = [Req 1; Enter 1; Req 2; DWr 1 5 7; Leave 1; Visible 1; Enter 2; DRd 2 5 7; Locked 3 true; Fail 3; Leave 2; Visible 2; Locked 2 false; Req 1; Enter 1]%nat
  | None => False
  end.
Proof. vm_compute. reflexivity. Qed.
Example mcs_tso_progress_ex : exists s, reachable (step code arr) (init (fun _ => 0) (fun _ => 77)) s /\ pcs s 2%nat = L5 /\ pcs s 1%nat = U3 /\
  buf s 1%nat = [(Dat 5, 7)] /\ buf s 2%nat = [(Nx 1, ptr 2)].
Proof.
  eexists. split.
  - exists [Go 1 ALock; Go 1 ATick; Flush 1; Flush 1; Go 1 ATick; Go 2 ALock; Go 2 ATick; Flush 2; Flush 2; Go 2 ATick; Go 2 ATick; Go 1 (AWr 5 7); Go 1 AUnlock; Go 1 ATick]%nat.
    eexists. vm_compute. reflexivity.
  - vm_compute. repeat split; reflexivity.
Qed.
