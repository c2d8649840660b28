(** * Epoch reclamation: src/ck_epoch.c, include/ck_epoch.h

    Every thread runs the API functions of the epoch interface; one label is one atomic
    memory operation (ck_pr load, store, CAS, FAS, stack operation) or the call of a function.
    Interleaving semantics (sequential consistency): see DESIGN.md for the memory model.

    Not modelled: the [ct] context pointers, [n_free] (ck_epoch_recycle may try any record of the
    list at any time, a superset of the loop at src/ck_epoch.c 249-268), the [cb] wait callback
    (src/ck_epoch.c 410-419, it has no effect on the epoch), re-entrant use of the interface from
    inside a deferred callback.  Pending lists are ck_stacks; their pushes and batch pops are
    one atomic step each (ck_stack is verified in Stack_Proof.v).  The statistics counters
    [n_pending], [n_peak], [n_dispatch] and the nesting counters are unbounded naturals; the epoch
    words wrap modulo 2^32. *)
From Coq Require Import List Arith NArith Bool Lia.
From Verif Require Import Lib.
Import ListNotations.
Local Open Scope N_scope.

(** unsigned int arithmetic on epochs *)
Definition W : N := 4294967296.
Definition eadd (e k : N) : N := (e + k) mod W.
Definition esub (e k : N) : N := (e + W - k) mod W.
(** src/ck_epoch.c 174: [(int)(a - b) < 0] *)
Definition before (a b : N) : bool := W / 2 <=? esub a b.
(** src/ck_epoch.c 363, include/ck_epoch.h 202: [e & (CK_EPOCH_LENGTH - 1)], CK_EPOCH_LENGTH = 4 *)
Definition slot (e : N) : nat := N.to_nat (e mod 4).
(** src/ck_epoch.c 194: [epoch & CK_EPOCH_SENSE_MASK], CK_EPOCH_SENSE = 2 *)
Definition sense (e : N) : nat := N.to_nat (e mod 2).

(** ck_epoch_record (include/ck_epoch.h 85-99); [rbc]/[rbe] are local.bucket[i].count/.epoch *)
Record erec := mkR {
  rfree : bool;            (* state == CK_EPOCH_STATE_FREE *)
  ract : nat;              (* active *)
  rrep : N;                (* epoch *)
  rbc : nat -> nat;
  rbe : nat -> N;
  rnpend : nat; rnpeak : nat; rndisp : nat;
  rpend : nat -> list nat  (* pending[0..3] *) }.

(** src/ck_epoch.c 279-290 *)
Definition rec0 : erec := mkR false 0 0 (fun _ => 0%nat) (fun _ => 0) 0 0 0 (fun _ => []).

Definition w_free r x := mkR x (ract r) (rrep r) (rbc r) (rbe r) (rnpend r) (rnpeak r) (rndisp r) (rpend r).
Definition w_act r x := mkR (rfree r) x (rrep r) (rbc r) (rbe r) (rnpend r) (rnpeak r) (rndisp r) (rpend r).
Definition w_rep r x := mkR (rfree r) (ract r) x (rbc r) (rbe r) (rnpend r) (rnpeak r) (rndisp r) (rpend r).
Definition w_bkt r c e := mkR (rfree r) (ract r) (rrep r) c e (rnpend r) (rnpeak r) (rndisp r) (rpend r).
Definition w_npend r x := mkR (rfree r) (ract r) (rrep r) (rbc r) (rbe r) x (rnpeak r) (rndisp r) (rpend r).
Definition w_npeak r x := mkR (rfree r) (ract r) (rrep r) (rbc r) (rbe r) (rnpend r) x (rndisp r) (rpend r).
Definition w_ndisp r x := mkR (rfree r) (ract r) (rrep r) (rbc r) (rbe r) (rnpend r) (rnpeak r) x (rpend r).
Definition w_pend r x := mkR (rfree r) (ract r) (rrep r) (rbc r) (rbe r) (rnpend r) (rnpeak r) (rndisp r) x.

(** An open read section as its thread sees it: an identifier for the specification, the
    section object's [bucket] field (None: begin was called with section == NULL), and the epoch
    the section was entered in: the value the outermost begin or addref loaded, for a nested
    plain begin the global epoch at that moment (specification only). *)
Record sec := mkS { sid : nat; skind : option nat; sep : N }.

(** who called synchronize_wait: ck_epoch_synchronize, or ck_epoch_barrier of a record *)
Definition bar := option nat.
(** who called ck_epoch_scan: poll of a record (with [n_dispatch > 0] so far), or synchronize
    ([epoch] and [i] of src/ck_epoch.c 429) *)
Inductive skd := KP (r : nat) (f : bool) | KS (b : bar) (e0 : N) (i : nat).
(** what follows a series of ck_epoch_dispatch calls *)
Inductive dkd := KScan (e : N) | KPoll | KBar.

Inductive pc :=
| Idle
| X1 (r : nat) | X2 (r : nat)                                     (* ck_epoch_recycle *)
| N1 | N2                                                         (* ck_epoch_unregister *)
| B1 (sc : bool) | B2 (sc : bool) | B3 (sc : bool) (g : N) | B4   (* ck_epoch_begin *)
| E1 (k : option nat) | E2 (i : nat)                              (* ck_epoch_end *)
| C1 (st : bool) (r x : nat) | C2 (st : bool) (r x : nat) (e : N)
| C3 (r x : nat) (e : N) (n : nat) | C4 (st : bool) (r x : nat) (e : N)     (* ck_epoch_call[_strict] *)
| P1 (r : nat) | PC (r : nat) (e : N) | PW (r : nat) (e : N) | PR (r : nat) (f : bool)  (* poll *)
| Y1 (b : bar) | Y4 (b : bar) (e0 : N) (i : nat) (d : N) (rest : list nat)
| YC (b : bar) (e0 : N) (i : nat) (d : N) | YL (b : bar) | PB (r : nat)     (* synchronize, barrier *)
| S0 (k : skd) (d : N)                                            (* ck_epoch_scan *)
| Sc (k : skd) (d : N) (af : bool) (rest : list nat)
| Sa (k : skd) (d : N) (af : bool) (rest : list nat)
| Sr (k : skd) (d : N) (rest : list nat)
| D0 (r : nat) (bs : list nat) (k : dkd)                          (* ck_epoch_dispatch *)
| DR (r : nat) (l : list nat) (n : nat) (bs : list nat) (k : dkd)
| DN (r pk : nat) (n : nat) (bs : list nat) (k : dkd)
| DP (r pk pn : nat) (n : nat) (bs : list nat) (k : dkd)
| DA (r : nat) (n : nat) (bs : list nat) (k : dkd)
| DS (r : nat) (n : nat) (bs : list nat) (k : dkd).

(** Shared state and the client's own bookkeeping: [own t] is the record thread [t] registered or
    recycled, [opn t] its open sections, [cls r] the threads inside ck_epoch_call[_strict] on
    [r], [bpl r] whether a poll, barrier or unregister of [r] is in progress. *)
Record st := mk {
  ep : N; recs : list nat; rc : nat -> erec;
  own : nat -> option nat; opn : nat -> list sec;
  nsec : nat; nent : nat;
  cls : nat -> list nat; bpl : nat -> bool;
  thr : nat -> pc }.

Definition u_ep s x := mk x (recs s) (rc s) (own s) (opn s) (nsec s) (nent s) (cls s) (bpl s) (thr s).
Definition u_recs s x := mk (ep s) x (rc s) (own s) (opn s) (nsec s) (nent s) (cls s) (bpl s) (thr s).
Definition u_rc s r x := mk (ep s) (recs s) (upd (rc s) r x) (own s) (opn s) (nsec s) (nent s) (cls s) (bpl s) (thr s).
Definition u_own s t x := mk (ep s) (recs s) (rc s) (upd (own s) t x) (opn s) (nsec s) (nent s) (cls s) (bpl s) (thr s).
Definition u_opn s t x := mk (ep s) (recs s) (rc s) (own s) (upd (opn s) t x) (nsec s) (nent s) (cls s) (bpl s) (thr s).
Definition u_nsec s x := mk (ep s) (recs s) (rc s) (own s) (opn s) x (nent s) (cls s) (bpl s) (thr s).
Definition u_nent s x := mk (ep s) (recs s) (rc s) (own s) (opn s) (nsec s) x (cls s) (bpl s) (thr s).
Definition u_cls s r x := mk (ep s) (recs s) (rc s) (own s) (opn s) (nsec s) (nent s) (upd (cls s) r x) (bpl s) (thr s).
Definition u_bpl s r x := mk (ep s) (recs s) (rc s) (own s) (opn s) (nsec s) (nent s) (cls s) (upd (bpl s) r x) (thr s).
Definition go s t p := mk (ep s) (recs s) (rc s) (own s) (opn s) (nsec s) (nent s) (cls s) (bpl s) (upd (thr s) t p).

(** ck_epoch_init (src/ck_epoch.c 228-236) *)
Definition init : st := mk 1 [] (fun _ => rec0) (fun _ => None) (fun _ => []) 0 0 (fun _ => []) (fun _ => false) (fun _ => Idle).

Inductive op :=
| ORegister | ORecycle (r : nat) | OUnregister
| OBegin (sc : bool) | OEnd (s : nat)
| OCall (strict : bool) (r : nat)
| OPoll (r : nat) | OSync | OBarrier (r : nat).
Inductive label := LCall (t : nat) (o : op) | LStep (t : nat).

(** What an observer sees.  [EBegin]: begin returned; [EEnd]: end is called; [ESync]/[ESynced]:
    synchronize (alone or inside barrier) is called/returns; [EDefer]: ck_epoch_call[_strict] is
    called; [ERun]: a deferred callback is run (or handed to the caller of
    ck_epoch_poll_deferred); [EBar]/[EBarred]: barrier is called/returns; [ETick]: the
    global epoch was advanced; [EPeak r pk pn]: a dispatch on [r] saw [n_pending = pn] and left
    [n_peak = pk]; [EEndRet]: end returns its result; [EPollRet]: poll returns its result. *)
Inductive event :=
| EBegin (t s : nat) | EEnd (t s : nat) | EEndRet (t : nat) (b : bool)
| ESync (t : nat) | ESynced (t : nat)
| EDefer (x r : nat) | ERun (x : nat)
| EBar (t r : nat) | EBarred (t r : nat)
| ETick | EPeak (r pk pn : nat) | EPollRet (t : nat) (b : bool).

(** The client protocol.  [c_mix]: a thread may have plain sections and section objects open at
    the same time.  [c_excl]: calls on a record do not overlap polls and barriers of that record,
    and those do not overlap each other (always so when only the owner uses the record). *)
Record cfg := mkC { c_mix : bool; c_excl : bool }.

Definition is_some {A} (o : option A) : bool := match o with Some _ => true | None => false end.
Definition strict_pc (p : pc) : bool :=
  match p with C1 b _ _ | C2 b _ _ _ | C4 b _ _ _ => b | _ => false end.
Definition usable (s : st) (r : nat) : bool := existsb (Nat.eqb r) (recs s) && negb (rfree (rc s r)).
Definition may_poll (c : cfg) (s : st) (r : nat) : bool :=
  usable s r && (negb (c_excl c) || (negb (bpl s r) && match cls s r with [] => true | _ => false end)).
Definition may_call (c : cfg) (s : st) (strict : bool) (r : nat) : bool :=
  usable s r && (negb (c_excl c) || negb (bpl s r)) &&
  (if strict then forallb (fun u => strict_pc (thr s u)) (cls s r) else match cls s r with [] => true | _ => false end).
Definition may_begin (c : cfg) (s : st) (t : nat) (sc : bool) : bool :=
  c_mix c || forallb (fun x => Bool.eqb sc (is_some (skind x))) (opn s t).
Definition no_pending (r : erec) : bool :=
  forallb (fun b => match rpend r b with [] => true | _ => false end) [0; 1; 2; 3]%nat.
Definition may_unregister (s : st) (t r : nat) : bool :=
  match opn s t with [] => true | _ => false end && negb (bpl s r) &&
  match cls s r with [] => true | _ => false end && no_pending (rc s r).

Definition find_sec (i : nat) (l : list sec) : option sec := find (fun x => Nat.eqb (sid x) i) l.
Definition drop_sec (i : nat) (l : list sec) : list sec := filter (fun x => negb (Nat.eqb (sid x) i)) l.

Definition call (c : cfg) (s : st) (t : nat) (o : op) : option (st * list event) :=
  match o with
  | ORegister => (* ck_epoch_register, src/ck_epoch.c 273-295: fill in a new record, push it on the list *)
      match own s t with
      | None => let r := length (recs s) in
                Some (u_own (u_rc (u_recs s (r :: recs s)) r rec0) t (Some r), [])
      | Some _ => None
      end
  | ORecycle r =>
      match own s t with
      | None => if existsb (Nat.eqb r) (recs s) then Some (go s t (X1 r), []) else None
      | Some _ => None
      end
  | OUnregister =>
      match own s t with
      | Some r => if may_unregister s t r then Some (go (u_bpl s r true) t N1, []) else None
      | None => None
      end
  | OBegin sc =>
      match own s t with
      | Some _ => if may_begin c s t sc then Some (go s t (B1 sc), []) else None
      | None => None
      end
  | OEnd i =>
      match own s t, find_sec i (opn s t) with
      | Some _, Some x => Some (go (u_opn s t (drop_sec i (opn s t))) t (E1 (skind x)), [EEnd t i])
      | _, _ => None
      end
  | OCall strict r =>
      if may_call c s strict r then
        let x := nent s in
        Some (go (u_cls (u_nent s (S x)) r (t :: cls s r)) t (C1 strict r x), [EDefer x r])
      else None
  | OPoll r => if may_poll c s r then Some (go (u_bpl s r true) t (P1 r), []) else None
  | OSync => Some (go s t (Y1 None), [ESync t])
  | OBarrier r =>
      if may_poll c s r then Some (go (u_bpl s r true) t (Y1 (Some r)), [EBar t r; ESync t]) else None
  end.

(** ck_epoch_scan reached the end of the list: src/ck_epoch.c 356 and the callers' tests at
    491 (synchronize) and 596 (poll) *)
Definition sdone (k : skd) (d : N) (af : bool) : pc :=
  match k with
  | KP r _ => if af then PC r d else PW r d
  | KS b e0 i => if af then YC b e0 i d else YL b
  end.
(** advance the cursor of ck_epoch_scan (src/ck_epoch.c 343, 353) *)
Definition snext (k : skd) (d : N) (af : bool) (rest : list nat) : pc :=
  match rest with [] => sdone k d af | _ => Sc k d af rest end.
(** ck_epoch_scan returns a record: src/ck_epoch.c 351, callers at 592 (poll) and 454 (synchronize) *)
Definition sfound (k : skd) (d : N) (rest : list nat) : pc :=
  match k with KP r f => PR r f | KS b e0 i => Y4 b e0 i d rest end.
(** return from ck_epoch_dispatch with result [n] *)
Definition dnext (r : nat) (n : nat) (bs : list nat) (k : dkd) : pc :=
  match bs with
  | [] => match k with KScan e => S0 (KP r (Nat.ltb 0 n)) e | KPoll => PR r true | KBar => PB r end
  | _ => D0 r bs k
  end.
(** src/ck_epoch.c 388-391 *)
Definition dcount (r : nat) (n : nat) (bs : list nat) (k : dkd) : pc :=
  match n with O => dnext r n bs k | _ => DA r n bs k end.

(** a read section was entered: begin returns *)
Definition entered (s : st) (t : nat) (k : option nat) (e : N) : st * list event :=
  (go (u_nsec (u_opn s t (mkS (nsec s) k e :: opn s t)) (S (nsec s))) t Idle, [EBegin t (nsec s)]).

Definition tick (s : st) (t : nat) : option (st * list event) :=
  let setr r x := u_rc s r x in
  match thr s t with
  | Idle => None
  (* ck_epoch_recycle, src/ck_epoch.c 252: load state *)
  | X1 r => Some (go s t (if rfree (rc s r) then X2 r else Idle), [])
  (* 255-265: fas state, keep the record if it was free *)
  | X2 r => if rfree (rc s r) then Some (go (u_own (setr r (w_free (rc s r) false)) t (Some r)) t Idle, [])
            else Some (go (setr r (w_free (rc s r) false)) t Idle, [])
  (* ck_epoch_unregister, src/ck_epoch.c 303-311 *)
  | N1 => match own s t with
          | Some r => Some (go (setr r rec0) t N2, [])
          | None => None
          end
  (* 315: state = FREE *)
  | N2 => match own s t with
          | Some r => Some (go (u_bpl (u_own (setr r (w_free (rc s r) true)) t None) r false) t Idle, [])
          | None => None
          end
  (* ck_epoch_begin, include/ck_epoch.h 134-148 (active := 1) or 160 (active + 1) *)
  | B1 sc => match own s t with
             | Some r =>
                 match ract (rc s r) with
                 | O => Some (go (setr r (w_act (rc s r) 1)) t (B2 sc), [])
                 | S n => let s' := setr r (w_act (rc s r) (S (S n))) in
                          if sc then Some (go s' t B4, []) else Some (entered s' t None (ep s))
                 end
             | None => None
             end
  (* 157: load the global epoch *)
  | B2 sc => Some (go s t (B3 sc (ep s)), [])
  (* 158: store it in the record *)
  | B3 sc g => match own s t with
               | Some r => let s' := setr r (w_rep (rc s r) g) in
                           if sc then Some (go s' t B4, []) else Some (entered s' t None g)
               | None => None
               end
  (* _ck_epoch_addref, src/ck_epoch.c 185-226 (the buckets are private to the owner) *)
  | B4 => match own s t with
          | Some r =>
              let e := ep s in let i := sense e in let q := rc s r in
              let q' := w_bkt q (upd (rbc q) i (S (rbc q i)))
                                (match rbc q i with O => upd (rbe q) i e | _ => rbe q end) in
              Some (entered (setr r q') t (Some i) e)
          | None => None
          end
  (* ck_epoch_end, include/ck_epoch.h 178: active - 1; 183 *)
  | E1 k => match own s t with
            | Some r =>
                let a := Nat.pred (ract (rc s r)) in let s' := setr r (w_act (rc s r) a) in
                match k with
                | Some i => Some (go s' t (E2 i), [])
                | None => Some (go s' t Idle, [EEndRet t (Nat.eqb a 0)])
                end
            | None => None
            end
  (* _ck_epoch_delref, src/ck_epoch.c 150-183 *)
  | E2 i => match own s t with
            | Some r =>
                let q := rc s r in let c := Nat.pred (rbc q i) in
                let q' := w_bkt q (upd (rbc q) i c) (rbe q) in
                match c with
                | S _ => Some (go (setr r q') t Idle, [EEndRet t false])
                | O => let o := Nat.modulo (S i) 2 in
                       let q'' := if Nat.ltb 0 (rbc q' o) && before (rbe q' i) (rbe q' o)
                                  then w_rep q' (rbe q' o) else q' in
                       Some (go (setr r q'') t Idle, [EEndRet t true])
                end
            | None => None
            end
  (* ck_epoch_call, include/ck_epoch.h 201; ck_epoch_call_strict, 219: load the global epoch *)
  | C1 b r x => Some (go s t (C2 b r x (ep s)), [])
  (* 204: n_pending++ (load); 222: atomic increment *)
  | C2 false r x e => Some (go s t (C3 r x e (rnpend (rc s r))), [])
  | C2 true r x e => Some (go (setr r (w_npend (rc s r) (S (rnpend (rc s r))))) t (C4 true r x e), [])
  (* 204: n_pending++ (store) *)
  | C3 r x e n => Some (go (setr r (w_npend (rc s r) (S n))) t (C4 false r x e), [])
  (* 206, 226: push *)
  | C4 b r x e =>
      let q := rc s r in
      Some (go (u_cls (setr r (w_pend q (upd (rpend q) (slot e) (x :: rpend q (slot e))))) r
                      (remove Nat.eq_dec t (cls s r))) t Idle, [])
  (* ck_epoch_poll_deferred, src/ck_epoch.c 574-589 *)
  | P1 r => Some (go s t (D0 r [slot (esub (ep s) 2)] (KScan (ep s))), [])
  (* 612-614 *)
  | PC r e =>
      let s' := go s t (D0 r [slot (esub e 1)] KPoll) in
      if N.eqb (ep s) e then Some (u_ep s' (eadd e 1), [ETick]) else Some (s', [])
  (* 596-599 *)
  | PW r e => Some (go (setr r (w_rep (rc s r) e)) t (D0 r [0; 1; 2; 3]%nat KPoll), [])
  (* 593, 601, 615: return *)
  | PR r f => Some (go (u_bpl s r false) t Idle, [EPollRet t f])
  (* ck_epoch_synchronize_wait, src/ck_epoch.c 443-446 *)
  | Y1 b => Some (go s t (S0 (KS b (ep s) 0) (ep s)), [])
  (* 463-487: the scan met a record that has not caught up *)
  | Y4 b e0 i d rest =>
      let e := ep s in
      if N.eqb e d then Some (go s t (snext (KS b e0 i) d true rest), [])
      else let goal := eadd e0 3 in
           if (e0 <? goal) && (goal <=? e) then Some (go s t (YL b), [])
           else Some (go s t (S0 (KS b e0 i) e), [])
  (* 505-515: CAS; end of the loop body 446 *)
  | YC b e0 i d =>
      let ok := N.eqb (ep s) d in
      let d' := if ok then eadd d 1 else ep s in
      let p := if Nat.ltb (S i) 2 then S0 (KS b e0 (S i)) d' else YL b in
      if ok then Some (u_ep (go s t p) (eadd d 1), [ETick]) else Some (go s t p, [])
  (* 523-525; ck_epoch_barrier 536-543 goes on with ck_epoch_reclaim 399-408 *)
  | YL None => Some (go s t Idle, [ESynced t])
  | YL (Some r) => Some (go s t (D0 r [0; 1; 2; 3]%nat KBar), [ESynced t])
  | PB r => Some (go (u_bpl s r false) t Idle, [EBarred t r])
  (* ck_epoch_scan, src/ck_epoch.c 328-330 *)
  | S0 k d => Some (go s t (snext k d false (recs s)), [])
  (* 341-342: load state *)
  | Sc k d af (v :: rest) => Some (go s t (if rfree (rc s v) then snext k d af rest else Sa k d af (v :: rest)), [])
  | Sc k d af [] => None
  (* 347-348: load active *)
  | Sa k d af (v :: rest) =>
      Some (go s t (match ract (rc s v) with O => snext k d af rest | _ => Sr k d (v :: rest) end), [])
  | Sa k d af [] => None
  (* 350: load epoch *)
  | Sr k d (v :: rest) =>
      Some (go s t (if N.eqb (rrep (rc s v)) d then snext k d true rest else sfound k d (v :: rest)), [])
  | Sr k d [] => None
  (* ck_epoch_dispatch, src/ck_epoch.c 367: batch pop *)
  | D0 r (b :: bs) k =>
      let q := rc s r in
      Some (go (setr r (w_pend q (upd (rpend q) b []))) t (DR r (rpend q b) 0 bs k), [])
  | D0 r [] k => None
  (* 368-379: run the callbacks; 381: load n_peak *)
  | DR r (x :: l) n bs k => Some (go s t (DR r l (S n) bs k), [ERun x])
  | DR r [] n bs k => Some (go s t (DN r (rnpeak (rc s r)) n bs k), [])
  (* 382-385: load n_pending, compare *)
  | DN r pk n bs k =>
      let pn := rnpend (rc s r) in
      if Nat.ltb pk pn then Some (go s t (DP r pk pn n bs k), [])
      else Some (go s t (dcount r n bs k), [EPeak r (rnpeak (rc s r)) pn])
  (* 386: ck_pr_store_uint(&record->n_peak, n_peak) *)
  | DP r pk pn n bs k => Some (go (setr r (w_npeak (rc s r) pk)) t (dcount r n bs k), [EPeak r pk pn])
  (* 389-390 *)
  | DA r n bs k => Some (go (setr r (w_ndisp (rc s r) (rndisp (rc s r) + n))) t (DS r n bs k), [])
  | DS r n bs k => Some (go (setr r (w_npend (rc s r) (rnpend (rc s r) - n))) t (dnext r n bs k), [])
  end.

Definition step (c : cfg) (s : st) (l : label) : option (st * list event) :=
  match l with
  | LCall t o => match thr s t with Idle => call c s t o | _ => None end
  | LStep t => tick s t
  end.
