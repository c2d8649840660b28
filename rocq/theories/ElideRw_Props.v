(** Elided ck_rwlock on x86-TSO with transactional memory (C80). *)
From Coq Require Import ZArith List Bool.
From Verif Require Import Lib Tso Rtm TsoRw_Spec Elide_Model ElideRw_Model ElideRw_Spec ElideRw_Proof.
Import ListNotations.
Local Open Scope Z_scope.

(** Read and write sections that are elided, that fall back to the lock, and that use the lock directly together satisfy the
    specification of a reader-writer lock: a writer is alone, and whoever is inside reads the last values written. *)
Theorem elide_rw_protects : forall N D S ls s log, Z.of_nat N < W ->
  run (xstep (code N) arr) (init D S) ls = Some (s, log) -> rw_legal D log.
Proof. exact elide_rw_all. Qed.
Print Assumptions elide_rw_protects.

(** rtm_end is only executed in a transaction. *)
Theorem elide_rw_no_fault : forall N D S s t, Z.of_nat N < W -> reachable (xstep (code N) arr) (init D S) s ->
  (forall w ad, p (pcs (ts s) t) = UEnd w ad -> txs s t <> None).
Proof. exact elide_rw_ends. Qed.
Print Assumptions elide_rw_no_fault.

(** No transaction is left open after unlock: false of the read side, when another reader holds the lock. *)
Theorem elide_rw_closed_refuted : exists ls s log,
  run (xstep (code 3) arr) (init (fun _ => 0) (fun _ => stat_init)) ls = Some (s, log) /\
  p (pcs (ts s) 2%nat) = Idle /\ txs s 2%nat <> None.
Proof. exact elide_rw_open. Qed.
Print Assumptions elide_rw_closed_refuted.

(** Such a transaction never commits: whatever the thread does afterwards, through any sections and
    elisions, none of its events takes effect before it is back where the first call began. *)
Theorem elide_rw_discarded : forall N D S s t r ls s1 log a s2 e, Z.of_nat N < W ->
  reachable (xstep (code N) arr) (init D S) s ->
  p (pcs (ts s) t) = Idle -> txs s t = Some r -> run (xstep (code N) arr) s ls = Some (s1, log) -> open N t s ls ->
  xstep (code N) arr s1 (XGo t a) = Some (s2, e) ->
  e = [] /\ (txs s2 t <> None \/ exists y, pcs (ts s2) t = abt r y).
Proof. exact elide_rw_lost. Qed.
Print Assumptions elide_rw_discarded.

(** What is left of it: if only the write side is elided, no transaction is left open. *)
Theorem elide_rw_closed_partial : forall N D S ls s log t, Z.of_nat N < W -> Forall wlab ls ->
  run (xstep (code N) arr) (init D S) ls = Some (s, log) -> p (pcs (ts s) t) = Idle -> txs s t = None.
Proof. exact elide_rw_wends. Qed.
Print Assumptions elide_rw_closed_partial.

(** 1 writes in an elided section; 2 and 3 read in elided sections at the same time; 2 commits; 4 takes the write
    lock, which dooms 3; 3 falls back. *)
Example elide_rw_ex :
  match run (xstep (code 5) arr) (init (fun _ => 0) (fun _ => stat_init))
    [XGo 1 (AELock true); XGo 1 ATick; XGo 1 ATick; XGo 1 (AWr 5 7); XGo 1 (ARd 5); XGo 1 (AEUnlock false); XGo 1 ATick;
     XGo 2 (AELock false); XGo 2 ATick; XGo 3 (AELock false); XGo 3 ATick; XGo 2 (ARd 5); XGo 3 (ARd 5); XGo 2 (AEUnlock false); XGo 2 ATick;
     XGo 4 AWrite; XGo 4 ATick; XGo 4 ATick; XGo 4 (AWr 5 8); Abort 3 6; XGo 3 ATick; XGo 4 (AEUnlock false); XGo 4 ATick; XFlush 4; XFlush 4;
     XGo 3 ATick; XGo 3 ATick; XGo 3 ATick; XGo 3 (ARd 5); XGo 3 (AEUnlock false); XGo 3 ATick]%nat with
  | Some (s, log) => log = [WEnter 1; DWr 1 5 7; DRd 1 5 7; WLeave 1; REnter 2; DRd 2 5 7; RLeave 2; WEnter 4; DWr 4 5 8; WLeave 4;
                            REnter 3; DRd 3 5 8; RLeave 3]%nat
  | None => False
  end.
Proof. vm_compute. reflexivity. Qed.
(** The hypotheses of the last theorem but one: 2 reads a second time inside the transaction that was left open. *)
Example elide_rw_discarded_ex :
  let s0 := init (fun _ => 0) (fun _ => stat_init) in
  let l1 := [XGo 1 ARead; XGo 1 ATick; XGo 1 ATick; XGo 1 ATick; XGo 2 (AELock false); XGo 2 ATick; XGo 2 (ARd 5); XGo 2 (AEUnlock false); XGo 2 ATick]%nat in
  let l2 := [XGo 2 (AELock false); XGo 2 ATick; XGo 2 (AEUnlock false)]%nat in
  match run (xstep (code 3) arr) s0 l1 with
  | Some (s, _) =>
      p (pcs (ts s) 2%nat) = Idle /\ option_map evs (txs s 2%nat) = Some [REnter 2; DRd 2 5 0; RLeave 2]%nat /\ open 3 2 s l2 /\
      match run (xstep (code 3) arr) s l2 with
      | Some (s1, _) => match xstep (code 3) arr s1 (XGo 2%nat ATick) with Some (_, e) => e = [] | None => False end
      | None => False
      end
  | None => False
  end.
Proof. vm_compute. repeat split; discriminate. Qed.
