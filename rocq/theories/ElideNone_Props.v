(** The elision wrappers in a build without transactional memory (C78). *)
From Coq Require Import ZArith List Bool.
From Verif Require Import Lib Tso TsoLock_Spec TsoSpin_Model ElideNone_Model ElideNone_Proof.
Import ListNotations.
Local Open Scope Z_scope.

(** The wrappers protect the data as the lock does: false, because the trylock wrapper asks whether the lock is
    held instead of trying to take it.  Two threads are inside at once. *)
Theorem elide_none_protects_refuted : forall k, exists ls s log,
  run (step (ncode k) arr) (init (fun _ => 0)) ls = Some (s, log) /\
  pcs s 1%nat = CS /\ pcs s 2%nat = CS /\ ~ dl_legal (fun _ => 0) log.
Proof. exact none_bad. Qed.
Print Assumptions elide_none_protects_refuted.

(** The trylock wrapper never obtains a free lock. *)
Theorem elide_none_trylock_fails : forall k D s t, reachable (step (ncode k) arr) (init D) s ->
  mem s (Reg 0) = 0 -> buf s t = [] ->
  forall s' e, step (ncode k) arr s (Go t ETry) = Some (s', e) -> e = [Fail t].
Proof. exact none_never. Qed.
Print Assumptions elide_none_trylock_fails.

(** What is left of it: clients that do not use the trylock wrapper are protected. *)
Theorem elide_none_protects_partial : forall k D ls s log, (forall t, ~ In (Go t ETry) ls) ->
  run (step (ncode k) arr) (init D) ls = Some (s, log) -> dl_legal D log.
Proof. exact none_good. Qed.
Print Assumptions elide_none_protects_partial.

Example elide_none_ex : exists s log, run (step (ncode Cas) arr) (init (fun _ => 0))
    [Go 1 (Base ALock); Go 1 (Base ATick); Go 1 (Base (AWr 5 7)); Go 1 (Base AUnlock); Flush 1; Flush 1; Go 2 (Base ALock);
     Go 2 (Base ATick); Go 2 (Base (ARd 5))]%nat = Some (s, log) /\
  log = [Enter 1; DWr 1 5 7; Leave 1; Visible 1; Enter 2; DRd 2 5 7]%nat.
Proof. do 2 eexists. split; [vm_compute; reflexivity|reflexivity]. Qed.
Example elide_none_trylock_ex : exists s e, step (ncode Fas) arr (init (fun _ => 0)) (Go 1%nat ETry) = Some (s, e) /\ e = [Fail 1%nat].
Proof. do 2 eexists. split; [vm_compute; reflexivity|reflexivity]. Qed.
