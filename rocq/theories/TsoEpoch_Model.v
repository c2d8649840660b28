(** Epoch reclamation (src/ck_epoch.c, include/ck_epoch.h) on x86-TSO, with clients that publish
    objects in shared pointers, read them inside read sections, unlink and destroy them.

    Locations: [Reg 0] is the global epoch, [ACT r] and [REP r] are the fields active and epoch of record
    [r], [Dat i] is a pointer of the client (0 is NULL).  Record [r] belongs to thread [r]; the records
    [recs] are registered from the start and stay so (register, recycle and unregister are in
    Epoch_Model.v), so the state field is never FREE.  The pending lists, the nesting count and the
    client's lists are private to the thread and kept in its local state.  Sections are plain
    (section == NULL); ck_epoch_call_strict, statistics and wait callbacks are not modelled here. *)
From Coq Require Import ZArith Arith List Bool.
From Verif Require Import Lib Tso TsoSmr_Spec.
Import ListNotations.
Local Open Scope Z_scope.

Definition W : Z := 4294967296.
Definition ACT (r : nat) : loc := Reg (2 * r + 1).
Definition REP (r : nat) : loc := Reg (2 * r + 2).
(** include/ck_epoch.h:202, src/ck_epoch.c:363: e & (CK_EPOCH_LENGTH - 1) *)
Definition slot (e : Z) : Z := e mod 4.

(** Who scans: poll, or synchronize with [epoch] and [i] of src/ck_epoch.c:429 on behalf of a client
    that is going to destroy [xs], [b]: as part of ck_epoch_barrier. *)
Inductive sk := KP | KS (e0 : Z) (i : nat) (xs : list Z) (b : bool).
Inductive dk := KScan (e : Z) | KEnd.

Inductive pc :=
| Idle
| B2 | B3 (g : Z)                                  (* ck_epoch_begin *)
| U1 (i : nat) (x : Z) | U2 (i : nat) (x old : Z)  (* the client: load the pointer, then store x *)
| C1 (x : Z)                                       (* ck_epoch_call *)
| P1 | P2 (e : Z) | PC (e : Z) | PW (e : Z)        (* ck_epoch_poll *)
| Dp (l : list Z) (k : dk)                         (* callbacks to be run by ck_epoch_dispatch *)
| Sa (k : sk) (d : Z) (af : bool) (rest : list nat)  (* ck_epoch_scan: load active of the first of [rest] *)
| Sr (k : sk) (d : Z) (rest : list nat)              (* load its epoch *)
| Y1 (xs : list Z) (b : bool) | Y2 (xs : list Z) (b : bool)     (* ck_epoch_synchronize_wait *)
| Y4 (k : sk) (d : Z) (rest : list nat) | YC (k : sk) (d : Z) | YL (xs : list Z) (b : bool).

(** [nst]: record->active as its owner sees it; [ent]: the epoch loaded by the outermost begin
    (specification only); [pend]: pending callbacks (object, epoch loaded by ck_epoch_call), the list
    pending[b] being the entries whose epoch has slot [b]; [got], [gotp]: objects the client has
    unlinked by an atomic exchange, by a plain store. *)
Record thr := mkL { at_ : pc; nst : Z; ent : Z; pend : list (Z * Z); got : list Z; gotp : list Z }.
Definition to (l : thr) (p : pc) : thr := mkL p (nst l) (ent l) (pend l) (got l) (gotp l).

Inductive act :=
| ABegin | AEnd | ARead (i : nat)
| AXchg (i : nat) (x : Z) | AStore (i : nat) (x : Z)
| ACall (x : Z) | APoll | ASync | ABarrier | ATick.

Definition obj (x : Z) : list Z := if x =? 0 then [] else [x].
Definition al (x : Z) : list rev := map Alloc (obj x).

Section Code.
Variable recs : list nat.            (* the records in the order of global->records *)
Variable wr : nat -> option nat.     (* pointer i is stored to by that thread only, or exchanged by anybody *)
Variable lax : bool.                 (* ck_epoch_call may follow an unlink by a plain store *)

Definition mem_nat (t : nat) (l : list nat) : bool := existsb (Nat.eqb t) l.
Definition mem_Z (x : Z) (l : list Z) : bool := existsb (Z.eqb x) l.

(** end of ck_epoch_scan (src/ck_epoch.c:356): 491 (synchronize), 596 (poll) *)
Definition sdone (k : sk) (d : Z) (af : bool) : pc :=
  match k with
  | KP => if af then PC d else PW d
  | KS e0 i xs b => if af then YC k d else YL xs b
  end.
Definition snext (k : sk) (d : Z) (af : bool) (rest : list nat) : pc :=
  match rest with [] => sdone k d af | _ => Sa k d af rest end.
(** ck_epoch_dispatch (src/ck_epoch.c:360-394): take a list, or all of them, then run the callbacks *)
Definition take (l : thr) (b : Z) (k : dk) : thr :=
  mkL (Dp (map fst (filter (fun p => slot (snd p) =? b) (pend l))) k) (nst l) (ent l)
      (filter (fun p => negb (slot (snd p) =? b)) (pend l)) (got l) (gotp l).
Definition take_all (l : thr) (xs : list Z) : thr := mkL (Dp (xs ++ map fst (pend l)) KEnd) (nst l) (ent l) [] (got l) (gotp l).

Definition code (t : nat) (l : thr) (a : act) : option (instr thr rev) :=
  match at_ l, a with
  (* ck_epoch_begin, include/ck_epoch.h:126-165: fas active (TSO), or active + 1 *)
  | Idle, ABegin =>
      if negb (mem_nat t recs) then None
      else if nst l =? 0 then Some (Rmw (ACT t) (fun _ => 1) (fun _ => (mkL B2 1 (ent l) (pend l) (got l) (gotp l), [])))
      else if nst l + 1 <? W then Some (St (ACT t) (nst l + 1) (mkL Idle (nst l + 1) (ent l) (pend l) (got l) (gotp l)) [])
      else None
  (* 157-158: load the global epoch, store it in the record *)
  | B2, ATick => Some (Ld (Reg 0) (fun g => (to l (B3 g), [])))
  | B3 g, ATick => Some (St (REP t) g (mkL Idle (nst l) g (pend l) (got l) (gotp l)) [])
  (* ck_epoch_end, 171-186 *)
  | Idle, AEnd =>
      if nst l =? 0 then None
      else Some (St (ACT t) (nst l - 1) (mkL Idle (nst l - 1) (ent l) (pend l) (got l) (gotp l)) (if nst l =? 1 then [Done t] else []))
  (* the client reads a pointer inside a section *)
  | Idle, ARead i => if nst l =? 0 then None else Some (Ld (Dat i) (fun v => (l, map (Ref t) (obj v))))
  (* the client unlinks: atomic exchange of a pointer everybody writes *)
  | Idle, AXchg i x =>
      match wr i with
      | None => Some (Rmw (Dat i) (fun _ => x) (fun v => (mkL Idle (nst l) (ent l) (pend l) (obj v ++ got l) (gotp l), al x)))
      | Some _ => None
      end
  (* load and plain store of a pointer that only this thread writes *)
  | Idle, AStore i x =>
      match wr i with Some u => if Nat.eqb u t then Some (Local (to l (U1 i x)) []) else None | None => None end
  | U1 i x, ATick => Some (Ld (Dat i) (fun v => (to l (U2 i x v), [])))
  | U2 i x v, ATick => Some (St (Dat i) x (mkL Idle (nst l) (ent l) (pend l) (got l) (obj v ++ gotp l)) (al x))
  (* ck_epoch_call, include/ck_epoch.h:195-208 *)
  | Idle, ACall x =>
      if mem_nat t recs && (mem_Z x (got l) || (lax && mem_Z x (gotp l))) then
        Some (Local (mkL (C1 x) (nst l) (ent l) (pend l) (remove Z.eq_dec x (got l)) (remove Z.eq_dec x (gotp l))) [])
      else None
  | C1 x, ATick => Some (Ld (Reg 0) (fun e => (mkL Idle (nst l) (ent l) ((x, e) :: pend l) (got l) (gotp l), [])))
  (* ck_epoch_poll_deferred, src/ck_epoch.c:566-616: 574 load, 577 fence, 589 dispatch epoch - 2 *)
  | Idle, APoll => if mem_nat t recs then Some (Local (to l P1) []) else None
  | P1, ATick => Some (Ld (Reg 0) (fun e => (to l (P2 e), [])))
  | P2 e, ATick => Some (Fence (take l (slot ((e - 2) mod W)) (KScan e)) [])
  | Dp (x :: r) k, ATick => Some (Local (to l (Dp r k)) [Free x])
  (* 591: scan *)
  | Dp [] (KScan e), ATick => Some (Local (to l (snext KP e false recs)) [])
  | Dp [] KEnd, ATick => Some (Local (to l Idle) [])
  (* 596-601 *)
  | PW e, ATick => Some (St (REP t) e (take_all l []) [])
  (* 612-614 *)
  | PC e, ATick =>
      Some (Rmw (Reg 0) (fun v => if v =? e then (e + 1) mod W else v)
                (fun v => (take l (slot ((e - 1) mod W)) KEnd, if v =? e then [Tick] else [])))
  (* ck_epoch_scan, src/ck_epoch.c:320-357: 347 load active, 350 load epoch *)
  | Sa k d af (r :: rest), ATick =>
      Some (Ld (ACT r) (fun v => (to l (if v =? 0 then snext k d af rest else Sr k d (r :: rest)), [])))
  | Sr k d (r :: rest), ATick =>
      Some (Ld (REP r) (fun v => (to l (if v =? d then snext k d true rest
                                        else match k with KP => Idle | KS _ _ _ _ => Y4 k d (r :: rest) end), [])))
  (* ck_epoch_synchronize_wait, src/ck_epoch.c:424-526, of a client that then destroys what it has
     unlinked; 432 fence, 443 load *)
  | Idle, ASync => if nst l =? 0 then Some (Local (mkL (Y1 (got l ++ gotp l) false) (nst l) (ent l) (pend l) [] []) []) else None
  | Idle, ABarrier =>
      if (nst l =? 0) && mem_nat t recs then Some (Local (mkL (Y1 (got l ++ gotp l) true) (nst l) (ent l) (pend l) [] []) []) else None
  | Y1 xs b, ATick => Some (Fence (to l (Y2 xs b)) [])
  | Y2 xs b, ATick => Some (Ld (Reg 0) (fun e => (to l (snext (KS e 0 xs b) e false recs), [])))
  (* 463-487 *)
  | Y4 (KS e0 i xs b) d rest, ATick =>
      Some (Ld (Reg 0) (fun e => (to l (if e =? d then snext (KS e0 i xs b) d true rest
              else if (e0 <? (e0 + 3) mod W) && ((e0 + 3) mod W <=? e) then YL xs b
              else snext (KS e0 i xs b) e false recs), [])))
  (* 505-515 *)
  | YC (KS e0 i xs b) d, ATick =>
      Some (Rmw (Reg 0) (fun v => if v =? d then (d + 1) mod W else v)
                (fun v => let d' := if v =? d then (d + 1) mod W else v in
                          (to l (if Nat.ltb (S i) 2 then snext (KS e0 (S i) xs b) d' false recs else YL xs b),
                           if v =? d then [Tick] else [])))
  (* 523-525; the client destroys its objects, ck_epoch_barrier (536-543) runs all pending callbacks *)
  | YL xs b, ATick => Some (Fence (if b then take_all l xs else to l (Dp xs KEnd)) [])
  | _, _ => None
  end.
End Code.

Definition arr (t : nat) (x : loc) (v : Z) : list rev := [].
(** ck_epoch_init: the epoch is 1; records as registered, pointers NULL *)
Definition init : tso thr :=
  mkT (fun x => match x with Reg 0 => 1 | _ => 0 end) (fun _ => []) (fun _ => mkL Idle 0 0 [] [] []).
