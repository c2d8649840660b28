(** ck_spinlock_anderson on x86-TSO (C77). *)
From Coq Require Import ZArith List Bool.
From Verif Require Import Lib Tso TsoQueue_Spec TsoAnderson_Model TsoAnderson_Proof.
Import ListNotations.
Local Open Scope Z_scope.

(** At most as many threads as slots: whatever the store buffers do, one thread at a time is inside, in
    the order of the requests, a release is visible before the next thread enters, and the client's
    reads return the last values written inside.  The mark of the own slot may still be buffered. *)
Theorem anderson_tso_fcfs : forall count n, 0 < count -> count <= UINT_MAX -> Z.of_nat n <= count ->
  forall D ls s log, run (step (code count n) arr) (init D) ls = Some (s, log) -> q_legal D log.
Proof. exact anderson_all. Qed.
Print Assumptions anderson_tso_fcfs.

(** A thread that has a slot gets the lock without any further request. *)
Theorem anderson_tso_progress : forall count n, 0 < count -> count <= UINT_MAX -> Z.of_nat n <= count ->
  forall D s t j, reachable (step (code count n) arr) (init D) s -> pcs s t = Wait j \/ pcs s t = Mark j ->
  exists ls s' log, run (step (code count n) arr) s ls = Some (s', log) /\
    (forall l, In l ls -> match l with Flush _ | Go _ ATick | Go _ AUnlock => True | _ => False end) /\ In (Enter t) log.
Proof. exact anderson_gets. Qed.
Print Assumptions anderson_tso_progress.

(** Three slots (compare-and-swap variant): 2 spins on its slot while the mark, the data and the release of 1 are buffered. *)
Example anderson_tso_ex : match run (step (code 3 3) arr) (init (fun _ => 0))
    [Go 1 ALock; Go 2 ALock; Go 1 ATick; Go 2 ATick; Go 2 ATick; Go 1 ATick; Go 1 ATick; Go 2 ATick; Go 1 (AWr 5 7); Go 1 AUnlock; Go 0 ALock; Go 0 ATick; Go 1 ALock; Go 2 ATick;
     Flush 1; Flush 1; Go 2 ATick; Flush 1; Go 0 ATick; Go 2 ATick; Go 2 ATick; Go 2 (ARd 5); Go 1 ATick; Go 2 AUnlock; Flush 2; Flush 2; Go 1 ATick; Go 0 ATick; Go 0 ATick]%nat with
  | Some (_, log) => log = [Req 1; Req 2; Enter 1; DWr 1 5 7; Leave 1; Req 0; Visible 1; Enter 2; DRd 2 5 7; Req 1; Leave 2; Visible 2; Enter 0]%nat
  | None => False
  end.
Proof. vm_compute. reflexivity. Qed.
(** Two slots (fetch-and-add variant), the first slot used again. *)
Example anderson_tso_ex2 : match run (step (code 2 2) arr) (init (fun _ => 0))
    [Go 1 ALock; Go 0 ALock; Go 1 ATick; Go 1 ATick; Go 1 AUnlock; Flush 1; Flush 1; Go 1 ALock; Go 1 ATick; Go 0 ATick; Go 0 ATick; Go 0 AUnlock; Go 1 ATick; Flush 0; Flush 0; Go 1 ATick; Go 1 ATick]%nat with
  | Some (s, log) => log = [Req 1; Req 0; Enter 1; Leave 1; Visible 1; Req 1; Enter 0; Leave 0; Visible 0; Enter 1]%nat
  | None => False
  end.
Proof. vm_compute. reflexivity. Qed.
Example anderson_tso_progress_ex : exists s, reachable (step (code 3 3) arr) (init (fun _ => 0)) s /\ pcs s 2%nat = Wait 1 /\ buf s 1%nat = [(Sl 0, 1); (Dat 5, 7); (Sl 1, 0)].
Proof.
  eexists. split.
  - exists [Go 1 ALock; Go 2 ALock; Go 1 ATick; Go 2 ATick; Go 2 ATick; Go 1 ATick; Go 1 ATick; Go 1 (AWr 5 7); Go 1 AUnlock]%nat. eexists. vm_compute. reflexivity.
  - vm_compute. split; reflexivity.
Qed.
