(** C75: sequence counters under store buffering. *)
From Coq Require Import NArith ZArith Arith List Bool.
From Verif Require Import Lib Tso TsoSeq_Spec TsoSeq_Model TsoSeq_Proof.
Import ListNotations.
Local Open Scope Z_scope.

(** [sq_legal] (TsoSeq_Spec): a read section that is accepted saw one complete update, the newest that is
    visible or that the reader made itself, unless 2^31 updates began in it; a section is refused only if an
    update by somebody else began to be visible in it; the writer reads its own changes. *)
Theorem sequence_tso_consistent : forall D ls s log, run (step code arr) (init D) ls = Some (s, log) -> sq_legal D log.
Proof. exact seq_all. Qed.
Print Assumptions sequence_tso_consistent.

(** Once the store buffers have emptied, the complete updates are visible; if no update is open, so are
    all changes. *)
Theorem sequence_tso_drained : forall D ls s log, run (step code arr) (init D) ls = Some (s, log) -> (forall t, buf s t = []) ->
  exists a, accepts sq_step (mkS D [] D (fun _ => None)) log = Some a /\ way a = [] /\
    ((forall t, pcs s t <> Upd /\ pcs s t <> E1 /\ forall v, pcs s t <> E2 v) -> forall i, pub a i = work a i).
Proof. exact seq_drained. Qed.
Print Assumptions sequence_tso_drained.

(** Thread 0 makes two updates; its buffer drains while thread 1 reads: the first section reads the old
    data although write_end has returned, the second is refused, the third reads the second update while the
    writer, whose lock release is still buffered, reads it too. *)
Example sequence_tso_ex : exists s log, run (step code arr) (init (fun _ => 0))
  ([Go 0%nat ALock; Go 0%nat ATick; Go 0%nat AWBegin; Go 0%nat ATick; Go 0%nat ATick; Go 0%nat (ASet 0 5); Go 0%nat (ASet 1 6); Go 0%nat AWEnd; Go 0%nat ATick; Go 0%nat ATick]
   ++ [Go 0%nat AWBegin; Go 0%nat ATick; Go 0%nat ATick; Go 0%nat (ASet 0 7); Go 0%nat (AGet 1); Go 0%nat AWEnd; Go 0%nat ATick; Go 0%nat ATick; Go 0%nat AUnlock]
   ++ [Go 1%nat ARBegin; Go 1%nat ATick; Go 1%nat (AGet 0); Go 1%nat (AGet 1); Go 1%nat ARetry; Go 1%nat ATick]
   ++ [Go 1%nat ARBegin; Go 1%nat ATick; Go 1%nat (AGet 1); Flush 0%nat; Flush 0%nat; Go 1%nat (AGet 0); Go 1%nat ARetry; Go 1%nat ATick]
   ++ repeat (Flush 0%nat) 5
   ++ [Go 1%nat ARBegin; Go 1%nat ATick; Go 1%nat (AGet 0); Go 1%nat (AGet 1); Go 0%nat ARBegin; Go 0%nat ATick; Go 0%nat (AGet 0); Go 1%nat ARetry; Go 1%nat ATick; Go 0%nat ARetry; Go 0%nat ATick])
  = Some (s, log) /\ log = [WSet 0 0 5; WSet 0 1 6; WEnd 0; WSet 0 0 7; WGet 0 1 6; WEnd 0; RBeg 1; RGet 1 0 0; RGet 1 1 0; ROk 1;
      RBeg 1; RGet 1 1 0; Bgn 0; RGet 1 0 5; RNo 1; Pub 0; Bgn 0; Pub 0; RBeg 1; RGet 1 0 7; RGet 1 1 6; RBeg 0; RGet 0 0 7; ROk 1; ROk 0]
  /\ buf s 0%nat = [(LK, 0)].
Proof. do 2 eexists. split; [vm_compute; reflexivity|]. repeat split. Qed.
