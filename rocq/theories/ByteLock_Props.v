(** Properties of the byte lock (C32). *)
From Coq Require Import Arith NArith List Bool Lia.
From Verif Require Import Lib LockSpec ByteLock_Model ByteLock_Proof.
Import ListNotations.

(** Slots are non-zero and every slotted thread has its own slot; threads that
    pass the same unslotted value do not mix one that writes with another that
    reads.  Then every execution is accepted by the reader-writer automaton
    (upgrades and downgrades included: an upgrade releases its read lock and
    acquires the write lock with no other writer in between) and no store leaves
    the reader array.  Without the last hypothesis the claim is false, see below. *)
Theorem bytelock_legal_partial : forall n W L sl wr rdr,
  (N.of_nat n < 2 ^ 32)%N -> 0 < L -> (forall t, t < n -> (1 <= sl t)%N) ->
  (forall t u, t < n -> u < n -> slotted W L sl t = true -> sl t = sl u -> t = u) ->
  (forall t u, t < n -> u < n -> slotted W L sl t = false -> sl t = sl u -> wr t = true -> rdr u = true -> t = u) ->
  forall ls s log, run (cstep n W L sl wr rdr) init ls = Some (s, log) -> rw_legal log /\ oob s = false.
Proof. exact bl_refines. Qed.
Print Assumptions bytelock_legal_partial.

(** The hypotheses hold of 4 slotted threads that all read and write and two
    unslotted readers; the run upgrades, downgrades and drains an unslotted reader. *)
Definition ex_sl (t : nat) : N := nth t [1; 2; 3; 4; 4294967295; 4294967295]%N 0%N.
Definition ex_wr (t : nat) : bool := Nat.ltb t 4.

Example bytelock_ex_hyps :
  (forall t, t < 6 -> (1 <= ex_sl t)%N) /\
  (forall t u, t < 6 -> u < 6 -> slotted 7 8 ex_sl t = true -> ex_sl t = ex_sl u -> t = u) /\
  (forall t u, t < 6 -> u < 6 -> slotted 7 8 ex_sl t = false -> ex_sl t = ex_sl u -> ex_wr t = true -> true = true -> t = u).
Proof.
  split; [|split].
  - intros t Ht. do 6 (destruct t as [|t]; [vm_compute; discriminate|]). lia.
  - intros t u Ht Hu. do 6 (destruct t as [|t]; [do 6 (destruct u as [|u]; [vm_compute; intros; discriminate || reflexivity|]); lia|]). lia.
  - intros t u Ht Hu. do 6 (destruct t as [|t]; [do 6 (destruct u as [|u]; [vm_compute; intros; discriminate || reflexivity|]); lia|]). lia.
Qed.

Example bytelock_ex :
  match run (cstep 6 7 8 ex_sl ex_wr (fun _ => true)) init
    ([(0, ARLock); (0, ATick); (0, ATick); (4, ARLock); (4, ATick); (4, ATick); (0, AWLock); (0, ATick); (0, ATick)] ++
     repeat (0, ATick) 7 ++ [(0, ATick); (4, ARUnlock); (0, ATick); (1, ARLock); (1, ATick); (1, ATick); (1, ATick); (0, ARLock); (0, ATick); (0, ATick);
     (1, ATick); (1, ATick); (1, ATick)]) with
  | Some (s, log) => log = [RAcq 0; RAcq 4; RRel 4; RRel 0; WAcq 0; Down 0; RAcq 1]
  | None => False
  end.
Proof. vm_compute. reflexivity. Qed.

(** Two unslotted threads, one writing: the other's read_lock finds owner equal
    to its own slot argument, takes the downgrade path, writes outside the reader
    array and releases the writer's lock: reader and writer are inside together. *)
Theorem bytelock_unslotted_refuted : exists n W L sl, (forall t, t < n -> sl t = (2 ^ 32 - 1)%N) /\ W * L = 56 /\
  exists ls s log, run (step n W L sl) init ls = Some (s, log) /\ oob s = true /\ ~ rw_legal log.
Proof.
  exists 2, 7, 8, (fun _ => (2 ^ 32 - 1)%N). split; [auto|]. split; [reflexivity|].
  exists ([(0, AWLock); (0, ATick)] ++ repeat (0, ATick) 8 ++ [(1, ARLock); (1, ATick); (1, ATick)]).
  eexists _, [WAcq 0; RAcq 1]. split; [vm_compute; reflexivity|]. split; [reflexivity|].
  intros [a H]. discriminate H.
Qed.
Print Assumptions bytelock_unslotted_refuted.
