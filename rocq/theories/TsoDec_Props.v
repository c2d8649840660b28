(** ck_spinlock_dec on x86-TSO (C84). *)
From Coq Require Import ZArith List Bool.
From Verif Require Import Lib Tso TsoLock_Spec TsoDec_Model TsoDec_Proof.
Import ListNotations.
Local Open Scope Z_scope.

(** With fewer than 2^32 threads, whatever the store buffers do: one thread at a time is inside, a release is
    visible before the next thread enters, trylock and locked tell the truth about that, and the client's reads
    return the last values written inside; although waiters keep decrementing the word while a release is in flight. *)
Theorem dec_tso_protects : forall n, Z.of_nat n < 2 ^ 32 -> forall D ls s log,
  run (step (code n) arr) (init D) ls = Some (s, log) -> dl_legal D log.
Proof. exact dec_all. Qed.
Print Assumptions dec_tso_protects.

(** When nobody is inside, a thread in lock gets the lock by its own steps, once the stores in flight have arrived. *)
Theorem dec_tso_progress : forall n, Z.of_nat n < 2 ^ 32 -> forall D s t, (t < n)%nat ->
  reachable (step (code n) arr) (init D) s -> (pcs s t = LkDec \/ pcs s t = LkLoad) -> (forall u, pcs s u <> CS) ->
  exists ls s' log, run (step (code n) arr) s ls = Some (s', log) /\ In (Enter t) log /\
    forall l, In l ls -> l = Go t ATick \/ exists u, l = Flush u.
Proof. exact dec_gets. Qed.
Print Assumptions dec_tso_progress.

(** Thread 1 releases; while the store is in flight 2 and 0 decrement the word and 3 tries; then 2 enters and reads. *)
Example dec_tso_ex :
  match run (step (code 4) arr) (init (fun _ => 0))
    [Go 1 ALock; Go 1 ATick; Go 2 ALock; Go 2 ATick; Go 1 (AWr 5 7); Go 1 (ARd 5); Go 1 AUnlock; Go 1 ALocked; Go 3 ALocked; Go 0 ALock; Go 0 ATick; Go 3 ATry;
     Flush 1; Go 2 ATick; Flush 1; Go 2 ATick; Go 2 ATick; Go 0 ATick; Go 2 (ARd 5)]%nat with
  | Some (s, log) => log = [Enter 1; DWr 1 5 7; DRd 1 5 7; Leave 1; Locked 1 false; Locked 3 true; Fail 3; Visible 1; Enter 2; DRd 2 5 7]
  | None => False
  end.
Proof. vm_compute. reflexivity. Qed.
Example dec_tso_progress_ex : exists s, reachable (step (code 3) arr) (init (fun _ => 0)) s /\ pcs s 2%nat = LkLoad /\ buf s 1%nat <> [] /\ forall u, pcs s u <> CS.
Proof.
  eexists. split.
  - exists [Go 1 ALock; Go 1 ATick; Go 2 ALock; Go 2 ATick; Go 1 (AWr 5 7); Go 1 AUnlock]%nat. eexists. vm_compute. reflexivity.
  - split; [vm_compute; reflexivity|]. split; [vm_compute; discriminate|]. intros [|[|[|u]]]; vm_compute; discriminate.
Qed.
