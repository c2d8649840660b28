(** C84: ck_pflock, ck_tflock and ck_swlock (without its latch) on x86-TSO. *)
From Coq Require Import ZArith Arith List Bool.
From Verif Require Import Lib LockSpec RwFairSpec Tso TsoRw_Spec TsoRwf_Spec TsoRwf_Model.
From Verif Require PfLock_Model TfLock_Model SwLock_Model TsoRwfPf_Proof TsoRwfTf_Proof TsoRwfSw_Proof.
Import ListNotations.
Local Open Scope Z_scope.

(** ** ck_pflock *)
(** exclusion, writers in ticket order, phase fairness: the automaton of C30 accepts the events of the lock *)
Theorem pf_tso_fair : forall n, Z.of_nat n < 2 ^ 24 -> forall D ls s log, run (pf_tso n) (TsoRwf_Model.pf_init D) ls = Some (s, log) ->
  pf_legal (lock_log log).
Proof. exact TsoRwfPf_Proof.pf_fair. Qed.
Print Assumptions pf_tso_fair.

(** the data: whoever is inside reads the values last written inside (the automaton of C72) *)
Theorem pf_tso_protects : forall n, Z.of_nat n < 2 ^ 24 -> forall D ls s log, run (pf_tso n) (TsoRwf_Model.pf_init D) ls = Some (s, log) ->
  TsoRw_Spec.rw_legal D (data_log pev_rw log).
Proof. exact TsoRwfPf_Proof.pf_data. Qed.
Print Assumptions pf_tso_protects.

(** a waiting thread can always acquire, whatever is still in buffers *)
Theorem pf_tso_writer_can_acquire : forall n, Z.of_nat n < 2 ^ 24 -> forall D s, reachable (pf_tso n) (TsoRwf_Model.pf_init D) s -> forall t,
  (exists k, pcs s t = PfLock_Model.W1 k \/ pcs s t = PfLock_Model.W2 k \/ pcs s t = PfLock_Model.W3 k) ->
  exists ls s' log, run (pf_tso n) s ls = Some (s', log) /\ In (Lk (PWAcq t)) log.
Proof. exact TsoRwfPf_Proof.pf_gets_w. Qed.
Print Assumptions pf_tso_writer_can_acquire.

Theorem pf_tso_reader_can_acquire : forall n, Z.of_nat n < 2 ^ 24 -> forall D s, reachable (pf_tso n) (TsoRwf_Model.pf_init D) s -> forall t,
  (exists k, pcs s t = PfLock_Model.RWait k) -> exists ls s' log, run (pf_tso n) s ls = Some (s', log) /\ In (Lk (PRAcq t)) log.
Proof. exact TsoRwfPf_Proof.pf_gets_r. Qed.
Print Assumptions pf_tso_reader_can_acquire.

(** ** ck_tflock: the automaton of C31, the data, progress *)
Theorem tf_tso_fair : forall n, Z.of_nat n < 2 ^ 15 -> forall D ls s log, run (tf_tso n) (tf_init D) ls = Some (s, log) -> tf_legal (lock_log log).
Proof. exact TsoRwfTf_Proof.tf_fair. Qed.
Print Assumptions tf_tso_fair.

Theorem tf_tso_protects : forall n, Z.of_nat n < 2 ^ 15 -> forall D ls s log, run (tf_tso n) (tf_init D) ls = Some (s, log) ->
  TsoRw_Spec.rw_legal D (data_log tev_rw log).
Proof. exact TsoRwfTf_Proof.tf_data. Qed.
Print Assumptions tf_tso_protects.

Theorem tf_tso_can_acquire : forall n, Z.of_nat n < 2 ^ 15 -> forall D s, reachable (tf_tso n) (tf_init D) s -> forall (w : bool) t,
  (exists k, pcs s t = (if w then TfLock_Model.WQ k else TfLock_Model.RQ k) \/ pcs s t = (if w then TfLock_Model.WWait k else TfLock_Model.RWait k)) ->
  exists ls s' log, run (tf_tso n) s ls = Some (s', log) /\ In (Lk (TAcq w t)) log.
Proof. exact TsoRwfTf_Proof.tf_gets. Qed.
Print Assumptions tf_tso_can_acquire.

(** ** ck_swlock without write_latch and write_unlatch *)
Theorem sw_tso_protects : forall n, Z.of_nat n < 2 ^ 30 -> forall D ls s log, run (sw_tso n) (sw_init D) ls = Some (s, log) ->
  TsoRw_Spec.rw_legal D (data_log (fun e => [e]) log).
Proof. exact TsoRwfSw_Proof.sw_data. Qed.
Print Assumptions sw_tso_protects.

(** ** Examples *)
Definition D0 (i : nat) : Z := 0.
Definition tick {A : Type} (a : A) (t n : nat) : list (lab (xact A)) := repeat (Go t (AL a)) n.
(** Writer 0's stores are in its buffer when it wants to unlock, which waits for them; reader 1 waits, then reads them. *)
Example pf_tso_ex :
  let K := PfLock_Model.ATick in
  match run (pf_tso 2) (TsoRwf_Model.pf_init D0)
    (Go 0 (AL PfLock_Model.AWLock) :: tick K 0 3 ++ [Go 1 (AL PfLock_Model.ARLock); Go 0 (AWr 5 7); Go 0 (ARd 5); Go 1 (AL K); Flush 0;
     Go 0 (AL PfLock_Model.AWUnlock); Go 1 (AL K); Go 1 (ARd 5)])%nat with
  | Some (s, log) => log = [Lk (PWReq 0); Lk (PWAcq 0); Lk (PRReq 1); XWr 0 5 7; XRd 0 5 7; Lk (PWRel 0); Lk (PRAcq 1); XRd 1 5 7]
  | None => False
  end /\
  run (pf_tso 2) (TsoRwf_Model.pf_init D0)
    (Go 0 (AL PfLock_Model.AWLock) :: tick K 0 3 ++ [Go 0 (AWr 5 7); Go 0 (AL PfLock_Model.AWUnlock)])%nat = None.
Proof. split; vm_compute; reflexivity. Qed.

Example tf_tso_ex :
  let K := TfLock_Model.ATick in
  match run (tf_tso 2) (tf_init D0)
    (Go 0 (AL TfLock_Model.AWLock) :: tick K 0 2 ++ [Go 1 (AL TfLock_Model.ARLock); Go 1 (AL K); Go 0 (AWr 5 7); Go 0 (AL TfLock_Model.AWUnlock); Go 1 (AL K); Flush 0;
     Go 0 (AL K); Go 1 (AL K); Go 1 (ARd 5)])%nat with
  | Some (s, log) => log = [Lk (TReq true 0); Lk (TAcq true 0); Lk (TReq false 1); XWr 0 5 7; Lk (TRel true 0); Lk (TAcq false 1); XRd 1 5 7]
  | None => False
  end.
Proof. vm_compute. reflexivity. Qed.

(** the writer downgrades and reads on beside reader 1 *)
Example sw_tso_ex :
  let K := SwLock_Model.ATick in
  match run (sw_tso 2) (sw_init D0)
    (Go 0 (AL SwLock_Model.AWLock) :: tick K 0 2 ++ [Go 1 (AL SwLock_Model.ARLock); Go 0 (AWr 5 7); Go 1 (AL K); Flush 0; Go 0 (AL SwLock_Model.ADown);
     Go 0 (AL K); Go 1 (AL K); Go 1 (AL K); Go 1 (ARd 5); Go 0 (ARd 5)])%nat with
  | Some (s, log) => log = [Lk (WAcq 0); XWr 0 5 7; Lk (LockSpec.Down 0); Lk (RAcq 1); XRd 1 5 7; XRd 0 5 7]
  | None => False
  end.
Proof. vm_compute. reflexivity. Qed.
