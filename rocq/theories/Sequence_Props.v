(** Properties of the sequence counter (C37). *)
From Coq Require Import Arith NArith ZArith List Bool.
From Verif Require Import Lib Sequence_Model SeqSpec Sequence_Proof.
Import ListNotations.

(** An accepted read section: no write section was open when it began, none
    started or stored anything in it, and every value read is the content of that
    datum at the moment the section began. *)
Theorem sequence_consistent : forall m ls s log, run step (init m) ls = Some (s, log) ->
  forall l1 t l2 l3, log = l1 ++ RBeg t :: l2 ++ REnd t true :: l3 -> ~ In (RBeg t) l2 -> (writes_begun l2 < 2 ^ 31)%N ->
  open_write l1 = false /\ (forall e, In e l2 -> is_write e = false) /\ (forall i v, In (RRead t i v) l2 -> v = replay m l1 i).
Proof. exact consistent. Qed.
Print Assumptions sequence_consistent.

(** A refused section did overlap a write section: readers retry only for cause. *)
Theorem sequence_refused : forall m ls s log, run step (init m) ls = Some (s, log) ->
  forall l1 t l2 l3, log = l1 ++ RBeg t :: l2 ++ REnd t false :: l3 -> ~ In (RBeg t) l2 -> (0 < writes_begun l2)%N.
Proof. exact refused. Qed.
Print Assumptions sequence_refused.

(** The CK_SEQUENCE_READ loop ends only after an accepted section, its last one. *)
Theorem sequence_loop : forall m ls s log, run step (init m) ls = Some (s, log) ->
  forall l1 t l2, log = l1 ++ Done t :: l2 -> exists k1 k2, l1 = k1 ++ REnd t true :: k2 /\ ~ In (RBeg t) k2 /\ ~ In (REnd t false) k2.
Proof. exact loop_done. Qed.
Print Assumptions sequence_loop.

(** Writer 0 changes two data while reader 1 loops: the first section is refused
    with torn values, the second accepted with consistent ones. *)
Example sequence_ex :
  match run step (init (fun _ => 0%Z))
    [(1, ALoop); (1, ATick); (1, ATick); (1, ARead 0); (0, ALock); (0, AWBegin); (0, ATick); (0, ATick); (0, ASet 0 5%Z); (0, ASet 1 6%Z);
     (1, ARead 1); (1, ARetry); (0, AWEnd); (1, ATick); (1, ATick); (1, ATick); (0, ATick); (0, ATick); (1, ATick); (1, ARead 0); (1, ARead 1);
     (1, ARetry); (1, ATick); (1, ATick)] with
  | Some (s, log) => log = [RBeg 1; RRead 1 0 0; WBeg 0; WSet 0 0 5; WSet 0 1 6; RRead 1 1 6; REnd 1 false; WEnd 0;
                            RBeg 1; RRead 1 0 5; RRead 1 1 6; REnd 1 true; Done 1]%Z
  | None => False
  end.
Proof. vm_compute. reflexivity. Qed.
