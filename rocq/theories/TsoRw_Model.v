(** Reader-writer locks on x86-TSO, with a client that reads and writes shared data inside them:
    - [Rw]: ck_rwlock (include/ck_rwlock.h:53-202): a writer word and a count of readers;
    - [Br recs]: ck_brlock (include/ck_brlock.h:74-277): a writer word and a counter per reader, for the
      registered readers [recs] (registration is not modelled; the reader of thread [r] is its own);
    - [Byte]: ck_bytelock (include/ck_bytelock.h:69-194): an owner word, a flag for each of the 56 threads
      with a slot (slot [t + 1] for [t < 56], 64-byte cache lines), and a count of the other readers.

    [N] threads.  Locations: [WRD] is writer or owner, [CNT] is n_readers, [SLT r] is the counter or flag of
    [r].  ck_pr_fence_lock, unlock, load, acquire, atomic_load, load_atomic and strict_store are compiler barriers
    here.  A trylock is a lock that may give up whenever the code tests its step count (more often in the model);
    ck_bytelock loads eight flags at a time, the model one.  Threads without a slot do not write-lock a
    byte lock (see C32).  Elision and the locked queries are not modelled. *)
From Coq Require Import ZArith Arith List Bool.
From Verif Require Import Lib Tso TsoRw_Spec.
Import ListNotations.
Local Open Scope Z_scope.

Inductive kind := Rw | Br (recs : list nat) | Byte.
Definition W : Z := 4294967296.
Definition WRD : loc := Reg 0.
Definition CNT : loc := Reg 1.
Definition SLT (r : nat) : loc := Reg (r + 2).

Inductive pc :=
| Idle
| WA (tr up : bool)               (* atomic acquisition of the writer word; [up]: holding a read lock (bytelock) *)
| WU (up : bool)                  (* bytelock.h:92-93: clear the own flag *)
| WS (tr : bool) (rest : list nat)  (* wait for the readers with a counter or flag *)
| WN (tr : bool)                  (* wait for n_readers *)
| WC                              (* holding the write lock *)
| DB                              (* bytelock.h:131-132: owner is us, set the own flag *)
| DW                              (* downgrade: clear the writer word *)
| RB                              (* bytelock.h:131: load owner *)
| RS (tr : bool)                  (* wait for the writer *)
| RA (tr : bool)                  (* announce *)
| RC (tr : bool)                  (* check the writer word *)
| RX (tr : bool)                  (* take the announcement back *)
| RI (n : Z).                     (* holding the read lock [n] times *)
Inductive act := AWrite (tr : bool) | ARead (tr : bool) | ATick | AGive | AUnlock | ADown | ARd (i : nat) | AWr (i : nat) (v : Z).

Section Code.
Variable k : kind.
Variable N : nat.

Definition slots : list nat := match k with Rw => [] | Br recs => recs | Byte => seq 0 56 end.
Definition slotted (t : nat) : bool := existsb (Nat.eqb t) slots.
Definition isByte : bool := match k with Byte => true | _ => false end.
Definition isBr : bool := match k with Br _ => true | _ => false end.
(** the value of the writer word: true, or the slot number *)
Definition mine (t : nat) : Z := if isByte then (if slotted t then Z.of_nat t + 1 else W - 1) else 1.
(** brlock compares with true, the others with 0 *)
Definition taken (v : Z) : bool := if isBr then v =? 1 else negb (v =? 0).
Definition can_write (t : nat) : bool := if isByte then slotted t else true.
Definition can_read (t : nat) : bool := if isBr then slotted t else true.

Definition wscan (t : nat) (tr : bool) (rest : list nat) : pc * list wev :=
  match rest with
  | [] => if isBr then (WC, [WEnter t]) else (WN tr, [])
  | _ => (WS tr rest, [])
  end.

Definition code (t : nat) (p : pc) (a : act) : option (instr pc wev) :=
  if negb (Nat.ltb t N) then None else
  match p, a with
  (* write_lock, write_trylock: ck_rwlock.h:93-108, 114-127; ck_brlock.h:75-96, 108-139; ck_bytelock.h:82-112 *)
  | Idle, AWrite tr => if can_write t && negb (isByte && tr) then Some (Local (WA tr false) []) else None
  | RI n, AWrite tr => if isByte && slotted t && negb tr then Some (Local (WA false true) []) else None
  | WA tr up, ATick =>
      Some (Rmw WRD (fun v => if isByte then (if v =? 0 then mine t else v) else 1)
                (fun v => if taken v then (WA tr up, [])
                          else if isByte then (WU up, []) else wscan t tr slots))
  | WA tr up, AGive => if tr then Some (Local Idle []) else None
  | WU up, ATick => Some (St (SLT t) 0 (WS false slots) (if up then [RLeave t] else []))
  | WS tr rs, ATick =>
      match rs with
      | [] => None
      | r :: rest => Some (Ld (SLT r) (fun v => if v =? 0 then wscan t tr rest else (WS tr rs, [])))
      end
  | WN tr, ATick => Some (Ld CNT (fun v => if v =? 0 then (WC, [WEnter t]) else (WN tr, [])))
  | WS tr _, AGive | WN tr, AGive => if tr then Some (St WRD 0 Idle []) else None
  (* the client writing *)
  | WC, ARd i => Some (Ld (Dat i) (fun v => (WC, [DRd t i v])))
  | WC, AWr i v => Some (St (Dat i) v WC [DWr t i v])
  (* write_unlock: ck_rwlock.h:54-60; ck_brlock.h:99-105; ck_bytelock.h:119-125 *)
  | WC, AUnlock => Some (St WRD 0 Idle [WLeave t])
  (* downgrade: ck_rwlock.h:73-79; ck_bytelock.h:131-136 *)
  | WC, ADown =>
      match k with
      | Rw => Some (Rmw CNT (fun v => (v + 1) mod W) (fun _ => (DW, [])))
      | Byte => Some (Ld WRD (fun v => (if v =? mine t then DB else RA false, [])))
      | Br _ => None
      end
  | DB, ATick => Some (St (SLT t) 1 DW [])
  | DW, ATick => Some (St WRD 0 (RI 1) [Down t])
  (* read_lock, read_trylock: ck_rwlock.h:134-185; ck_brlock.h:179-268; ck_bytelock.h:128-180 *)
  | Idle, ARead tr =>
      if can_read t then
        if isByte then (if tr then None else Some (Local RB [])) else Some (Local (RS tr) [])
      else None
  | RB, ATick => Some (Ld WRD (fun v => (if v =? mine t then DB else RA false, [])))
  | RS tr, ATick => Some (Ld WRD (fun v => (if taken v then RS tr else RA tr, [])))
  | RS tr, AGive => if tr then Some (Local Idle []) else None
  | RA tr, ATick =>
      Some (if slotted t then Rmw (SLT t) (fun _ => 1) (fun _ => (RC tr, []))
            else Rmw CNT (fun v => (v + 1) mod W) (fun _ => (RC tr, [])))
  | RC tr, ATick => Some (Ld WRD (fun v => if v =? 0 then (RI 1, [REnter t]) else (RX tr, [])))
  | RX tr, ATick =>
      Some (if slotted t then St (SLT t) 0 (RS tr) [] else Rmw CNT (fun v => (v - 1) mod W) (fun _ => (RS tr, [])))
  (* nested read locks: ck_brlock.h:182-185, 226-229 *)
  | RI n, ARead _ => if isBr && (n + 1 <? W) then Some (St (SLT t) (n + 1) (RI (n + 1)) []) else None
  | RI n, ARd i => Some (Ld (Dat i) (fun v => (RI n, [DRd t i v])))
  (* read_unlock: ck_rwlock.h:196-202; ck_brlock.h:271-277; ck_bytelock.h:183-194 *)
  | RI n, AUnlock =>
      Some (if slotted t then St (SLT t) (n - 1) (if n =? 1 then Idle else RI (n - 1)) (if n =? 1 then [RLeave t] else [])
            else Rmw CNT (fun v => (v - 1) mod W) (fun _ => (Idle, [RLeave t])))
  | _, _ => None
  end.
End Code.
Definition arr (t : nat) (x : loc) (v : Z) : list wev := [].
Definition init (D : nat -> Z) : tso pc :=
  mkT (fun x => match x with Dat i => D i | Reg _ => 0 end) (fun _ => []) (fun _ => Idle).
