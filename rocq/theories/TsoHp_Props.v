(** C73: hazard pointers survive store buffers. *)
From Coq Require Import ZArith Arith List Bool.
From Verif Require Import Lib Tso TsoHp_Spec TsoHp_Model TsoHp_Proof.
Import ListNotations.
Local Open Scope Z_scope.

(** [hp_legal] (TsoHp_Spec): references are obtained only to objects that exist, nothing is destroyed
    while there is a reference to it, and nothing is destroyed twice.  [fresh] is what is asked of the
    allocator: an address is given out only while no object is there.  [lax = false]: what is retired was
    unlinked by an atomic instruction, or by a plain store followed by a full fence. *)
Theorem hp_tso_safe : forall recs own wr cache ls s log,
  run (step (code recs own wr false cache) arr) init ls = Some (s, log) -> fresh log -> hp_legal log.
Proof. exact hp_all. Qed.
Print Assumptions hp_tso_safe.

Definition own2 (h : nat) : nat := Nat.div h 2.
Definition wr2 (j : nat) : option nat := match j with O => Some 0%nat | _ => None end.
Definition recs2 : list (list nat) := [[2; 3]; [0; 1]]%nat.

(** With room for one hazard in the cache: thread 1 protects 5 and 6; thread 0 unlinks both, 5 by a plain
    store and a fence; 6 is kept because of the cache, then 5 because of the scan; both are destroyed after
    the clear has arrived, and address 5 is used again. *)
Example hp_tso_safe_ex : exists s log, run (step (code recs2 own2 wr2 false 1) arr) init
  ([Go 0%nat (AStore 0 5); Go 0%nat ATick; Go 0%nat ATick; Go 0%nat (AClear 0); Flush 0%nat; Flush 0%nat; Go 0%nat (AXchg 1 6)]
   ++ [Go 1%nat (AProtect 3 0); Go 1%nat ATick; Go 1%nat ATick; Go 1%nat ATick; Go 1%nat (AProtect 2 1); Go 1%nat ATick; Go 1%nat ATick; Go 1%nat ATick]
   ++ [Go 0%nat (AStore 0 0); Go 0%nat ATick; Go 0%nat ATick; Flush 0%nat; Go 0%nat AFence; Go 0%nat (ARetire 5); Go 0%nat (AXchg 1 7); Go 0%nat (ARetire 6)]
   ++ Go 0%nat AReclaim :: repeat (Go 0%nat ATick) 7
   ++ [Go 1%nat (AClear 3); Go 1%nat (AClear 2)]
   ++ Go 0%nat AReclaim :: repeat (Go 0%nat ATick) 7
   ++ [Flush 1%nat; Flush 1%nat] ++ Go 0%nat AReclaim :: repeat (Go 0%nat ATick) 11
   ++ [Go 0%nat (AStore 0 5); Go 0%nat ATick; Go 0%nat ATick])
  = Some (s, log) /\ log = [Alloc 5; Done 0; Alloc 6; Done 3; Ref 3 5; Done 2; Ref 2 6; Alloc 7; Done 3; Done 2; Free 6; Free 5; Alloc 5]
  /\ fresh log /\ mem s (HZ 2) = 0.
Proof. do 2 eexists. split; [vm_compute; reflexivity|]. split; [reflexivity|]. split; [eexists|]; reflexivity. Qed.

(** After an unlink by a plain store, ck_hp_free needs a fence that it does not have: the store may
    still be buffered when the hazards are scanned, and a reader finds the object destroyed. *)
Theorem hp_tso_free_refuted : exists recs own wr ls s log,
  run (step (code recs own wr true CACHE) arr) init ls = Some (s, log) /\ fresh log /\ ~ hp_legal log.
Proof.
  exists recs2, own2, wr2, ([Go 0%nat (AStore 0 5); Go 0%nat ATick; Go 0%nat ATick; Flush 0%nat;
     Go 0%nat (AStore 0 0); Go 0%nat ATick; Go 0%nat ATick; Go 0%nat (ARetire 5); Go 0%nat AReclaim]
   ++ repeat (Go 0%nat ATick) 8 ++ [Go 1%nat (AProtect 3 0); Go 1%nat ATick; Go 1%nat ATick; Go 1%nat ATick]).
  do 2 eexists. split; [vm_compute; reflexivity|]. split; [eexists; reflexivity|]. intros [a H]. vm_compute in H. discriminate.
Qed.
Print Assumptions hp_tso_free_refuted.
