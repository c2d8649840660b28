(** ck_spinlock_ticket on x86-TSO (C77). *)
From Coq Require Import ZArith List Bool.
From Verif Require Import Lib Tso TsoQueue_Spec TsoTicket_Model TsoTicket_Proof.
Import ListNotations.
Local Open Scope Z_scope.

(** Fewer threads than tickets: whatever the store buffers do, one thread at a time is inside, in the
    order of the requests, a release is visible before the next thread enters, trylock and locked
    tell the truth, and the client's reads return the last values written inside. *)
Theorem ticket_tso_fcfs : forall k n, 0 <= k -> Z.of_nat n < 2 ^ k -> forall D ls s log,
  run (step (pcode k n) parr) (init D) ls = Some (s, log) -> q_legal D log.
Proof. exact packed_all. Qed.
Print Assumptions ticket_tso_fcfs.

(** The generic variant, whose unlock is a plain store. *)
Theorem ticketg_tso_fcfs : forall W n, Z.of_nat n < W -> forall D ls s log,
  run (step (gcode W n) garr) (init D) ls = Some (s, log) -> q_legal D log.
Proof. exact generic_all. Qed.
Print Assumptions ticketg_tso_fcfs.

(** A waiting thread gets the lock without any further request, once those before it leave and the
    stores in flight arrive. *)
Theorem ticket_tso_progress : forall k n, 0 <= k -> Z.of_nat n < 2 ^ k -> forall D s t r,
  reachable (step (pcode k n) parr) (init D) s -> pcs s t = Wait r ->
  exists ls s' log, run (step (pcode k n) parr) s ls = Some (s', log) /\
    (forall l, In l ls -> match l with Flush _ | Go _ ATick | Go _ AUnlock => True | _ => False end) /\ In (Enter t) log.
Proof. exact packed_gets. Qed.
Print Assumptions ticket_tso_progress.
Theorem ticketg_tso_progress : forall W n, Z.of_nat n < W -> forall D s t r,
  reachable (step (gcode W n) garr) (init D) s -> pcs s t = Wait r ->
  exists ls s' log, run (step (gcode W n) garr) s ls = Some (s', log) /\
    (forall l, In l ls -> match l with Flush _ | Go _ ATick | Go _ AUnlock => True | _ => False end) /\ In (Enter t) log.
Proof. exact generic_gets. Qed.
Print Assumptions ticketg_tso_progress.

(** Two waiters in order; the release drains the buffer because it is a locked instruction. *)
Example ticket_tso_ex : match run (step (pcode 16 5) parr) (init (fun _ => 0))
    [Go 1 ALock; Go 2 ALock; Go 4 ALock; Go 3 ATry; Go 3 ALocked; Go 1 (AWr 5 7); Go 4 ATick; Flush 1; Go 1 AUnlock; Go 4 ATick; Go 2 ATick; Go 2 (ARd 5);
     Go 2 AUnlock; Go 4 ATick; Go 4 AUnlock; Go 3 ATry; Go 3 ATick]%nat with
  | Some (_, log) => log = [Req 1; Enter 1; Req 2; Req 4; Fail 3; Locked 3 true; DWr 1 5 7; Leave 1; Visible 1; Enter 2; DRd 2 5 7;
      Leave 2; Visible 2; Enter 4; Leave 4; Visible 4; Req 3; Enter 3]%nat
  | None => False
  end.
Proof. vm_compute. reflexivity. Qed.
(** The generic release waits in the buffer behind the data, and the word wraps (W = 4, 3 threads). *)
Example ticketg_tso_ex : match run (step (gcode 4 3) garr) (init (fun _ => 0))
    [Go 1 ALock; Go 1 ATick; Go 2 ALock; Go 0 ALock; Go 1 (AWr 5 7); Go 1 AUnlock; Go 1 ATick; Go 2 ATick; Flush 1; Go 2 ATick; Flush 1;
     Go 0 ATick; Go 2 ATick; Go 2 (ARd 5); Go 2 AUnlock; Go 2 ATick; Flush 2; Go 0 ATick; Go 0 AUnlock; Go 0 ATick; Flush 0;
     Go 1 ALock; Go 1 ATick; Go 1 AUnlock; Go 1 ATick; Flush 1; Go 2 ALock; Go 2 ATick]%nat with
  | Some (s, log) => log = [Req 1; Enter 1; Req 2; Req 0; DWr 1 5 7; Leave 1; Visible 1; Enter 2; DRd 2 5 7; Leave 2; Visible 2; Enter 0;
      Leave 0; Visible 0; Req 1; Enter 1; Leave 1; Visible 1; Req 2; Enter 2]%nat /\ mem s (Reg 0) = 1
  | None => False
  end.
Proof. vm_compute. split; reflexivity. Qed.
Example ticketg_tso_progress_ex : exists s, reachable (step (gcode 4 3) garr) (init (fun _ => 0)) s /\ pcs s 2%nat = Wait 1 /\ buf s 1%nat = [(Dat 5, 7); (Reg 1, 1)].
Proof.
  eexists. split.
  - exists [Go 1 ALock; Go 1 ATick; Go 2 ALock; Go 1 (AWr 5 7); Go 1 AUnlock; Go 1 ATick]%nat. eexists. vm_compute. reflexivity.
  - vm_compute. split; reflexivity.
Qed.
