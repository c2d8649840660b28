(** Sequence counter (include/ck_sequence.h) on x86-TSO, with clients that write data inside
    ck_sequence_write_begin and ck_sequence_write_end, holding a fetch-and-store spinlock
    (include/spinlock/fas.h:49-111; its spin loop is folded into the retry), and clients that read it
    inside ck_sequence_read_begin and ck_sequence_read_retry.

    Locations: [LK] is the client's lock, [SEQ] is sequence, an unsigned int.  ck_pr_fence_store and
    ck_pr_fence_load are compiler barriers here. *)
From Coq Require Import ZArith Arith List Bool.
From Verif Require Import Lib Tso TsoSeq_Spec.
Import ListNotations.
Local Open Scope Z_scope.

Definition W : Z := 4294967296.
Definition LK : loc := Reg 0.
Definition SEQ : loc := Reg 1.

Inductive pc :=
| Idle
| Acq                   (* the client's lock *)
| Own                   (* holding it *)
| B1 | B2 (v : Z)       (* write_begin 104: load, store *)
| Upd                   (* between write_begin and write_end *)
| E1 | E2 (v : Z)       (* write_end 121: load, store *)
| G                     (* read_begin 55 *)
| Sec (v : Z)           (* in the read section *)
| Rt (v : Z).           (* read_retry 85 *)
Inductive act := ALock | AUnlock | AWBegin | AWEnd | ASet (i : nat) (v : Z) | AGet (i : nat) | ARBegin | ARetry | ATick.

Definition code (t : nat) (p : pc) (a : act) : option (instr pc sev) :=
  match p, a with
  | Idle, ALock => Some (Local Acq [])
  | Acq, ATick => Some (Rmw LK (fun _ => 1) (fun v => (if v =? 0 then Own else Acq, [])))
  | Own, AUnlock => Some (St LK 0 Idle [])
  (* write_begin, 96-107 *)
  | Own, AWBegin => Some (Local B1 [])
  | B1, ATick => Some (Ld SEQ (fun v => (B2 v, [])))
  | B2 v, ATick => Some (St SEQ ((v + 1) mod W) Upd [])
  | Upd, ASet i v => Some (St (Dat i) v Upd [WSet t i v])
  | Upd, AGet i => Some (Ld (Dat i) (fun v => (Upd, [WGet t i v])))
  (* write_end, 112-123 *)
  | Upd, AWEnd => Some (Local E1 [])
  | E1, ATick => Some (Ld SEQ (fun v => (E2 v, [])))
  | E2 v, ATick => Some (St SEQ ((v + 1) mod W) Own [WEnd t])
  (* read_begin, 49-74 *)
  | Idle, ARBegin => Some (Local G [])
  | G, ATick => Some (Ld SEQ (fun v => if Z.land v 1 =? 0 then (Sec v, [RBeg t]) else (G, [])))
  | Sec v, AGet i => Some (Ld (Dat i) (fun x => (Sec v, [RGet t i x])))
  | Sec v, ARetry => Some (Local (Rt v) [])
  (* read_retry, 76-86 *)
  | Rt v, ATick => Some (Ld SEQ (fun x => (Idle, [if x =? v then ROk t else RNo t])))
  | _, _ => None
  end.
(** arrival of an odd and of an even sequence *)
Definition arr (t : nat) (x : loc) (v : Z) : list sev :=
  match x with Reg 1 => [if Z.land v 1 =? 0 then Pub t else Bgn t] | _ => [] end.
(** 41-47 *)
Definition init (D : nat -> Z) : tso pc :=
  mkT (fun x => match x with Dat i => D i | Reg _ => 0 end) (fun _ => []) (fun _ => Idle).
