(** C72: reader-writer locks protect data under store buffering. *)
From Coq Require Import ZArith Arith List Bool.
From Verif Require Import Lib Tso TsoRw_Spec TsoRw_Model TsoRw_Proof.
Import ListNotations.
Local Open Scope Z_scope.

(** [rw_legal] (TsoRw_Spec): a writer is alone, readers share, a downgraded writer is a reader without a
    gap, and whoever is inside reads the values last written inside, by whichever thread. *)
Theorem rw_tso_protects : forall k N D ls s log, Z.of_nat N < 4294967296 ->
  run (step (code k N) arr) (init D) ls = Some (s, log) -> rw_legal D log.
Proof. intros k N D ls s log HN. exact (rw_all k N HN D ls s log). Qed.
Print Assumptions rw_tso_protects.

Definition D0 (i : nat) : Z := 0.

(** The stores of a ck_rwlock writer, and its release, sit in its buffer; a reader that came early goes back
    and waits, and reads the written values; the count is back at zero for a writer that downgrades. *)
Example rw_tso_rw_ex : exists s, run (step (code Rw 2) arr) (init D0)
  [Go 0%nat (AWrite false); Go 1%nat (ARead false); Go 1%nat ATick; Go 0%nat ATick; Go 1%nat ATick; Go 1%nat ATick; Go 1%nat ATick;
   Go 0%nat ATick; Go 0%nat (AWr 5 7); Go 0%nat (AWr 6 8); Go 0%nat (ARd 5); Go 0%nat AUnlock;
   Flush 0%nat; Flush 0%nat; Go 1%nat ATick; Flush 0%nat; Go 1%nat ATick; Go 1%nat ATick; Go 1%nat ATick; Go 1%nat (ARd 5); Go 1%nat (ARd 6);
   Go 1%nat AUnlock; Go 1%nat (AWrite true); Go 1%nat ATick; Go 1%nat ATick; Go 1%nat (AWr 5 9); Flush 1%nat; Go 1%nat ADown; Go 1%nat ATick;
   Go 0%nat (ARead true); Flush 1%nat; Go 0%nat ATick; Go 0%nat ATick; Go 0%nat ATick; Go 0%nat (ARd 5); Go 1%nat (ARd 5)]
  = Some (s, [WEnter 0; DWr 0 5 7; DWr 0 6 8; DRd 0 5 7; WLeave 0; REnter 1; DRd 1 5 7; DRd 1 6 8; RLeave 1;
              WEnter 1; DWr 1 5 9; Down 1; REnter 0; DRd 0 5 9; DRd 1 5 9]).
Proof. eexists. vm_compute. reflexivity. Qed.
(** Nested readers of a ck_brlock; the writer sees the inner unlock arrive and keeps waiting. *)
Example rw_tso_br_ex : exists s, run (step (code (Br [1; 2]%nat) 3) arr) (init D0)
  [Go 1%nat (ARead false); Go 1%nat ATick; Go 1%nat ATick; Go 1%nat ATick; Go 1%nat (ARead true); Go 0%nat (AWrite false); Go 0%nat ATick;
   Go 0%nat ATick; Go 1%nat AUnlock; Flush 1%nat; Flush 1%nat; Go 0%nat ATick; Go 1%nat (ARd 3); Go 1%nat AUnlock; Go 0%nat ATick;
   Flush 1%nat; Go 0%nat ATick; Go 0%nat ATick; Go 0%nat (AWr 3 4); Go 0%nat AUnlock]
  = Some (s, [REnter 1; DRd 1 3 0; RLeave 1; WEnter 0; DWr 0 3 4; WLeave 0]).
Proof. eexists. vm_compute. reflexivity. Qed.
(** A ck_bytelock reader upgrades, writes, downgrades; a thread without a slot reads after it. *)
Example rw_tso_byte_ex : exists s, run (step (code Byte 61) arr) (init D0)
  ([Go 3%nat (ARead false); Go 3%nat ATick; Go 3%nat ATick; Go 3%nat ATick; Go 3%nat (AWrite false); Go 3%nat ATick; Go 3%nat ATick; Flush 3%nat]
   ++ repeat (Go 3%nat ATick) 57 ++
   [Go 3%nat (AWr 1 2); Go 60%nat (ARead false); Go 60%nat ATick; Go 60%nat ATick; Go 60%nat ATick; Go 60%nat ATick; Go 3%nat ADown; Go 3%nat ATick; Go 3%nat ATick;
    Go 3%nat (ARd 1); Go 60%nat ATick; Flush 3%nat; Flush 3%nat; Flush 3%nat; Go 60%nat ATick; Go 60%nat ATick; Go 60%nat ATick; Go 60%nat (ARd 1); Go 60%nat AUnlock])
  = Some (s, [REnter 3; RLeave 3; WEnter 3; DWr 3 1 2; Down 3; DRd 3 1 2; REnter 60; DRd 60 1 2; RLeave 60]).
Proof. eexists. vm_compute. reflexivity. Qed.
