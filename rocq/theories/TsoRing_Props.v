(** C74: the single-producer single-consumer ring under store buffering. *)
From Coq Require Import ZArith Arith List Bool.
From Verif Require Import Lib Tso TsoRing_Spec TsoRing_Model TsoRing_Proof.
Import ListNotations.
Local Open Scope Z_scope.

(** [q_legal] (TsoRing_Spec): dequeue returns the entries unchanged, in the order they were enqueued, each
    once, and not before they arrived; it fails only if none has arrived; at most 2^k - 1 entries are in
    the ring; enqueue fails only if it saw that many; the reported size is what it saw. *)
Theorem ring_tso_fifo : forall k w, 0 <= k <= 31 -> forall ls s log,
  run (step (code k w) arr) init ls = Some (s, log) -> q_legal (Z.to_nat (2 ^ k - 1)) log.
Proof. exact ring_all. Qed.
Print Assumptions ring_tso_fifo.

(** Once the store buffers have emptied everything has arrived. *)
Theorem ring_tso_drained : forall k w, 0 <= k <= 31 -> forall ls s log,
  run (step (code k w) arr) init ls = Some (s, log) -> (forall t, buf s t = []) ->
  exists a, accepts (q_step (Z.to_nat (2 ^ k - 1))) {| way := []; here := []; out := 0; seen := 0 |} log = Some a /\ way a = [] /\ out a = 0%nat.
Proof. exact ring_drained. Qed.
Print Assumptions ring_tso_drained.

(** Two slots of two words: an entry is not seen while it is buffered; the ring stays full until the
    consumer's cursor arrives; the second entry goes to the other slot, copied in the other order. *)
Example ring_tso_ex : exists s log, run (step (code 1 2) arr) init
  ([Go 0%nat (AEnq [7; 8]); Go 0%nat ATick; Go 0%nat ATick; Go 0%nat (ACopy 0); Go 0%nat (ACopy 1); Go 0%nat ATick]
   ++ [Go 1%nat ADeq; Go 1%nat ATick; Go 1%nat ATick] ++ [Flush 0%nat; Flush 0%nat; Flush 0%nat]
   ++ [Go 1%nat ADeq; Go 1%nat ATick; Go 1%nat ATick; Go 1%nat (ACopy 1); Go 1%nat (ACopy 0); Go 1%nat ATick]
   ++ [Go 0%nat (AEnq [9; 10]); Go 0%nat ATick; Go 0%nat ATick; Flush 1%nat]
   ++ [Go 0%nat (AEnq [9; 10]); Go 0%nat ATick; Go 0%nat ATick; Go 0%nat (ACopy 1); Go 0%nat (ACopy 0); Go 0%nat ATick; Flush 0%nat; Flush 0%nat; Flush 0%nat]
   ++ [Go 1%nat ADeq; Go 1%nat ATick; Go 1%nat ATick; Go 1%nat (ACopy 0); Go 1%nat (ACopy 1); Go 1%nat ATick; Flush 1%nat])
  = Some (s, log) /\ log = [Look; Size 0; Enq [7; 8]; Empty; Sent; Deq [7; 8]; Look; Size 1; Full; Freed; Look; Size 0; Enq [9; 10]; Sent; Deq [9; 10]; Freed]
  /\ buf s 0%nat = [] /\ buf s 1%nat = [] /\ mem s PT = 2.
Proof. do 2 eexists. split; [vm_compute; reflexivity|]. repeat split. Qed.
