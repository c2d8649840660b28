(** Model of hazard pointers, src/ck_hp.c and include/ck_hp.h.

    Records, hazard descriptors (struct ck_hp_hazard) and pointers are numbers, 0 is
    NULL.  One step of a thread performs one access to memory shared between threads
    (ck_pr_* or the plain loads of the list walks); accesses to memory that only the
    owner of a record touches (its pending list and counters) are also separate steps
    except where noted.

    Simplifications: sequentially consistent memory (fences are no-ops);
    record->pointers is never NULL (it is set before the record is published, so the
    NULL tests of lines 177 and 209 never fire); qsort and bsearch over the cache are
    membership in the cache; the slots have indices below [deg], and memset at
    registration clears all of them at once (the record is still private);
    ck_backoff_eb in purge is a no-op. *)
From Coq Require Import NArith Arith List Bool.
From Verif Require Import Lib.
Import ListNotations.

(** the degree given to ck_hp_init, CK_HP_CACHE (include/ck_hp.h:35-37; any limit), and whether
    the client's destructor may itself retire objects to the record being reclaimed *)
Record cfg := { deg : nat; lim : nat; reent : bool }.

(** where a reclaim was called from *)
Inductive kont := KRecl | KFree | KPurge.
(** the locals of ck_hp_reclaim (src/ck_hp.c:232-236): thread, caller, cache, marker, previous, entry, next *)
Record rcx := { xr : nat; xk : kont; xC : list nat; xm : nat; xp : nat; xe : nat; xn : nat }.

Inductive pc :=
| Idle
| Reg1 (r : nat)                    (* ck_stack.h:57   load subscribers.head (from ck_hp.c:148) *)
| Reg2 (r h : nat)                  (* ck_stack.h:58, 62   global_entry.next = head *)
| Reg3 (r h : nat)                  (* ck_stack.h:61   CAS head *)
| Reg4 (r : nat)                    (* ck_hp.c:149   n_subscribers++ *)
| Rcy1                              (* ck_hp.c:100   load n_free *)
| Rcy2                              (* ck_hp.c:103   load head *)
| Rcy3 (e : nat)                    (* ck_hp.c:106   load state *)
| Rcy4 (e : nat)                    (* ck_hp.c:108   fas state USED *)
| Rcy5 (e : nat)                    (* ck_hp.c:110   n_free-- *)
| Rcy6 (e : nat)                    (* ck_hp.c:103   next *)
| Un1 (r : nat)                     (* ck_hp.c:128   state = FREE *)
| Un2 (r : nat)                     (* ck_hp.c:129   n_free++ *)
| Clr (r i : nat)                   (* ck_hp.h:106   *pointers++ = NULL *)
| Rt1 (f : bool) (r h d p : nat)    (* ck_hp.c:301, 320   hazard->pointer ([f]: inside ck_hp_free) *)
| Rt2 (f : bool) (r h d p : nat)    (* ck_hp.c:302, 319   hazard->data *)
| Rt3 (f : bool) (r h : nat)        (* ck_stack.h:294   entry->next = head *)
| Rt4 (f : bool) (r h : nat)        (* ck_stack.h:295   head = entry *)
| Rt5 (f : bool) (r : nat)          (* ck_hp.c:305-307, 323-325   n_pending, n_peak *)
| Rt6 (r : nat)                     (* ck_hp.c:327   n_pending >= threshold *)
| Mc1 (r : nat) (k : kont)                                (* ck_hp.c:203   load head *)
| Mc2 (r : nat) (k : kont) (C : list nat) (e : nat)       (* ck_hp.c:205   load state *)
| Mc3 (r : nat) (k : kont) (C : list nat) (e i : nat)     (* ck_hp.c:211-221   load slot i *)
| Mc4 (r : nat) (k : kont) (C : list nat) (e : nat)       (* ck_hp.c:203   next *)
| Lp0 (x : rcx)                     (* ck_hp.c:253   entry = first of pending *)
| Lp1 (x : rcx)                     (* ck_hp.c:253-271   next; search the cache *)
| Ms1 (x : rcx) (e : nat)           (* ck_hp.c:174   member_scan: load state *)
| Ms2 (x : rcx) (e i : nat)         (* ck_hp.c:180-184   load slot i *)
| Ms3 (x : rcx) (e : nat)           (* ck_hp.c:185   next *)
| De1 (x : rcx)                     (* ck_hp.c:277   n_pending-- *)
| De2 (x : rcx)                     (* ck_hp.c:280-283   unlink *)
| De3 (x : rcx)                     (* ck_hp.c:286   destroy(hazard->data) *)
| De4 (x : rcx)                     (* the destructor is running; then ck_hp.c:287 *)
| Pu1 (r : nat).                    (* ck_hp.c:339   n_pending > 0 *)

(** struct ck_hp, the records and the hazard descriptors.  [own], [reg] and [out] are
    the client's: who uses a record, which records were registered, which descriptors
    are in the library's hands. *)
Record st := {
  shead : nat; snext : nat -> nat; nsub : N; nfree : N; thr : N;
  rfree : nat -> bool;                   (* record->state == CK_HP_FREE *)
  hz : nat -> nat -> nat;                (* record->pointers[i] *)
  pfirst : nat -> nat; pnext : nat -> nat; hptr : nat -> nat; hdat : nat -> nat;
  npend : nat -> N; npeak : nat -> N; nrecl : nat -> N;
  own : nat -> option nat; reg : nat -> bool; out : nat -> bool;
  pcs : nat -> pc }.

Definition go (s : st) (t : nat) (p : pc) : st :=
  {| shead := shead s; snext := snext s; nsub := nsub s; nfree := nfree s; thr := thr s; rfree := rfree s; hz := hz s;
     pfirst := pfirst s; pnext := pnext s; hptr := hptr s; hdat := hdat s; npend := npend s; npeak := npeak s; nrecl := nrecl s;
     own := own s; reg := reg s; out := out s; pcs := upd (pcs s) t p |}.
Definition s_subs (s : st) (h : nat) (n : nat -> nat) (k : N) : st :=
  {| shead := h; snext := n; nsub := k; nfree := nfree s; thr := thr s; rfree := rfree s; hz := hz s;
     pfirst := pfirst s; pnext := pnext s; hptr := hptr s; hdat := hdat s; npend := npend s; npeak := npeak s; nrecl := nrecl s;
     own := own s; reg := reg s; out := out s; pcs := pcs s |}.
Definition s_free (s : st) (f : nat -> bool) (k : N) : st :=
  {| shead := shead s; snext := snext s; nsub := nsub s; nfree := k; thr := thr s; rfree := f; hz := hz s;
     pfirst := pfirst s; pnext := pnext s; hptr := hptr s; hdat := hdat s; npend := npend s; npeak := npeak s; nrecl := nrecl s;
     own := own s; reg := reg s; out := out s; pcs := pcs s |}.
Definition s_thr (s : st) (n : N) : st :=
  {| shead := shead s; snext := snext s; nsub := nsub s; nfree := nfree s; thr := n; rfree := rfree s; hz := hz s;
     pfirst := pfirst s; pnext := pnext s; hptr := hptr s; hdat := hdat s; npend := npend s; npeak := npeak s; nrecl := nrecl s;
     own := own s; reg := reg s; out := out s; pcs := pcs s |}.
Definition s_hz (s : st) (f : nat -> nat -> nat) : st :=
  {| shead := shead s; snext := snext s; nsub := nsub s; nfree := nfree s; thr := thr s; rfree := rfree s; hz := f;
     pfirst := pfirst s; pnext := pnext s; hptr := hptr s; hdat := hdat s; npend := npend s; npeak := npeak s; nrecl := nrecl s;
     own := own s; reg := reg s; out := out s; pcs := pcs s |}.
Definition s_pend (s : st) (f n : nat -> nat) : st :=
  {| shead := shead s; snext := snext s; nsub := nsub s; nfree := nfree s; thr := thr s; rfree := rfree s; hz := hz s;
     pfirst := f; pnext := n; hptr := hptr s; hdat := hdat s; npend := npend s; npeak := npeak s; nrecl := nrecl s;
     own := own s; reg := reg s; out := out s; pcs := pcs s |}.
Definition s_desc (s : st) (p d : nat -> nat) : st :=
  {| shead := shead s; snext := snext s; nsub := nsub s; nfree := nfree s; thr := thr s; rfree := rfree s; hz := hz s;
     pfirst := pfirst s; pnext := pnext s; hptr := p; hdat := d; npend := npend s; npeak := npeak s; nrecl := nrecl s;
     own := own s; reg := reg s; out := out s; pcs := pcs s |}.
Definition s_cnt (s : st) (n k l : nat -> N) : st :=
  {| shead := shead s; snext := snext s; nsub := nsub s; nfree := nfree s; thr := thr s; rfree := rfree s; hz := hz s;
     pfirst := pfirst s; pnext := pnext s; hptr := hptr s; hdat := hdat s; npend := n; npeak := k; nrecl := l;
     own := own s; reg := reg s; out := out s; pcs := pcs s |}.
Definition s_own (s : st) (o : nat -> option nat) : st :=
  {| shead := shead s; snext := snext s; nsub := nsub s; nfree := nfree s; thr := thr s; rfree := rfree s; hz := hz s;
     pfirst := pfirst s; pnext := pnext s; hptr := hptr s; hdat := hdat s; npend := npend s; npeak := npeak s; nrecl := nrecl s;
     own := o; reg := reg s; out := out s; pcs := pcs s |}.
Definition s_reg (s : st) (g : nat -> bool) : st :=
  {| shead := shead s; snext := snext s; nsub := nsub s; nfree := nfree s; thr := thr s; rfree := rfree s; hz := hz s;
     pfirst := pfirst s; pnext := pnext s; hptr := hptr s; hdat := hdat s; npend := npend s; npeak := npeak s; nrecl := nrecl s;
     own := own s; reg := g; out := out s; pcs := pcs s |}.
Definition s_out (s : st) (o : nat -> bool) : st :=
  {| shead := shead s; snext := snext s; nsub := nsub s; nfree := nfree s; thr := thr s; rfree := rfree s; hz := hz s;
     pfirst := pfirst s; pnext := pnext s; hptr := hptr s; hdat := hdat s; npend := npend s; npeak := npeak s; nrecl := nrecl s;
     own := own s; reg := reg s; out := o; pcs := pcs s |}.

(** ck_hp_init, src/ck_hp.c:68-83 (the threshold is set with [AThresh]) *)
Definition init : st :=
  {| shead := 0; snext := fun _ => 0; nsub := 0; nfree := 0; thr := 0; rfree := fun _ => false; hz := fun _ _ => 0;
     pfirst := fun _ => 0; pnext := fun _ => 0; hptr := fun _ => 0; hdat := fun _ => 0;
     npend := fun _ => 0%N; npeak := fun _ => 0%N; nrecl := fun _ => 0%N;
     own := fun _ => None; reg := fun _ => false; out := fun _ => false; pcs := fun _ => Idle |}.

(** unsigned int and uint64_t arithmetic *)
Definition W32 : N := 4294967296.
Definition W64 : N := 18446744073709551616.
Definition inc (n : N) : N := ((n + 1) mod W32)%N.
Definition dec (n : N) : N := ((n + (W32 - 1)) mod W32)%N.

(** what the client asks for; [ANest] is a retire made by the destructor itself *)
Inductive act :=
| ATau
| ARegister (r : nat) | ARecycle | AUnregister (r : nat) | AThresh (n : N)
| ASet (r i p : nat) | AClear (r : nat)
| ARetire (r h d p : nat) | AFree (r h d p : nat) | AReclaim (r : nat) | APurge (r : nat)
| ANest (h d p : nat).

Inductive event :=
| EReg (t r : nat)           (* register returns *)
| ERcy (t r : nat)           (* recycle takes a record (0: it returns NULL) *)
| EUnr (t r : nat)           (* unregister is called *)
| ESet (t r i p : nat)       (* slot i of r := p (ck_hp_set, ck_hp_set_fence, ck_hp_clear) *)
| ERet (t r h d p : nat)     (* retire or free is called *)
| EDes (t r h d : nat)       (* destroy(d) is called for descriptor h *)
| EBeg (t r : nat)           (* reclaim begins *)
| EEnd (t r : nat)           (* reclaim ends *)
| EPur (t r : nat).          (* purge returns *)

Definition mine (s : st) (t r : nat) : bool := match own s r with Some u => Nat.eqb u t | None => false end.
Definition upd2 (f : nat -> nat -> nat) (r i p : nat) : nat -> nat -> nat := upd f r (upd (f r) i p).

(** The first step of a call, with the calling protocol: a record is used by the
    thread that registered or recycled it; it is registered once; a descriptor is
    handed over only while it is not in the library's hands; slots are in range. *)
Definition call (c : cfg) (s : st) (t : nat) (a : act) : option (st * list event) :=
  match a with
  | ARegister r =>                                                (* ck_hp.c:134-147 *)
      if Nat.eqb r 0 || reg s r then None
      else Some (go (s_reg (s_free (s_cnt (s_pend (s_hz s (upd (hz s) r (fun _ => 0))) (upd (pfirst s) r 0) (pnext s))
             (upd (npend s) r 0%N) (upd (npeak s) r 0%N) (upd (nrecl s) r 0%N)) (upd (rfree s) r false) (nfree s))
             (upd (reg s) r true)) t (Reg1 r), [])
  | ARecycle => Some (go s t Rcy1, [])
  | AUnregister r =>                                              (* ck_hp.c:120-127 *)
      if mine s t r
      then Some (go (s_own (s_cnt (s_pend s (upd (pfirst s) r 0) (pnext s))
             (upd (npend s) r 0%N) (upd (npeak s) r 0%N) (upd (nrecl s) r 0%N)) (upd (own s) r None)) t (Un1 r), [EUnr t r])
      else None
  | AThresh n => Some (s_thr s n, [])                             (* ck_hp.c:89 *)
  | ASet r i p =>                                                 (* ck_hp.h:79, 88-92 *)
      if mine s t r && Nat.ltb i (deg c) then Some (s_hz s (upd2 (hz s) r i p), [ESet t r i p]) else None
  | AClear r => if mine s t r then Some (go s t (Clr r 0), []) else None
  | ARetire r h d p =>
      if mine s t r && negb (Nat.eqb h 0) && negb (out s h)
      then Some (go (s_out s (upd (out s) h true)) t (Rt1 false r h d p), [ERet t r h d p]) else None
  | AFree r h d p =>
      if mine s t r && negb (Nat.eqb h 0) && negb (out s h)
      then Some (go (s_out s (upd (out s) h true)) t (Rt1 true r h d p), [ERet t r h d p]) else None
  | AReclaim r => if mine s t r then Some (go s t (Mc1 r KRecl), [EBeg t r]) else None
  | APurge r => if mine s t r then Some (go s t (Pu1 r), []) else None
  | ATau | ANest _ _ _ => None
  end.

Definition memb (p : nat) (C : list nat) : bool := existsb (Nat.eqb p) C.
Definition ctx (r : nat) (k : kont) (C : list nat) (m : nat) : rcx := {| xr := r; xk := k; xC := C; xm := m; xp := 0; xe := 0; xn := 0 |}.
Definition x_ent (x : rcx) (p e : nat) : rcx := {| xr := xr x; xk := xk x; xC := xC x; xm := xm x; xp := p; xe := e; xn := xn x |}.
Definition x_nxt (x : rcx) (n : nat) : rcx := {| xr := xr x; xk := xk x; xC := xC x; xm := xm x; xp := xp x; xe := xe x; xn := n |}.

(** ck_hp_reclaim returns to its caller *)
Definition after (x : rcx) : pc := match xk x with KPurge => Pu1 (xr x) | _ => Idle end.

(** one access of the operation in progress *)
Definition tick (c : cfg) (s : st) (t : nat) : option (st * list event) :=
  match pcs s t with
  | Idle => None
  | Reg1 r => Some (go s t (Reg2 r (shead s)), [])
  | Reg2 r h => Some (go (s_subs s (shead s) (upd (snext s) r h) (nsub s)) t (Reg3 r h), [])
  | Reg3 r h => if Nat.eqb (shead s) h then Some (go (s_subs s r (snext s) (nsub s)) t (Reg4 r), [])
                else Some (go s t (Reg2 r (shead s)), [])
  | Reg4 r => Some (go (s_own (s_subs s (shead s) (snext s) (inc (nsub s))) (upd (own s) r (Some t))) t Idle, [EReg t r])
  | Rcy1 => if N.eqb (nfree s) 0 then Some (go s t Idle, [ERcy t 0]) else Some (go s t Rcy2, [])
  | Rcy2 => if Nat.eqb (shead s) 0 then Some (go s t Idle, [ERcy t 0]) else Some (go s t (Rcy3 (shead s)), [])
  | Rcy3 e => if rfree s e then Some (go s t (Rcy4 e), []) else Some (go s t (Rcy6 e), [])
  | Rcy4 e => if rfree s e
              then Some (go (s_own (s_free s (upd (rfree s) e false) (nfree s)) (upd (own s) e (Some t))) t (Rcy5 e), [ERcy t e])
              else Some (go (s_free s (upd (rfree s) e false) (nfree s)) t (Rcy6 e), [])
  | Rcy5 e => Some (go (s_free s (rfree s) (dec (nfree s))) t Idle, [])
  | Rcy6 e => if Nat.eqb (snext s e) 0 then Some (go s t Idle, [ERcy t 0]) else Some (go s t (Rcy3 (snext s e)), [])
  | Un1 r => Some (go (s_free s (upd (rfree s) r true) (nfree s)) t (Un2 r), [])
  | Un2 r => Some (go (s_free s (rfree s) (inc (nfree s))) t Idle, [])
  | Clr r i => if Nat.ltb i (deg c) then Some (go (s_hz s (upd2 (hz s) r i 0)) t (Clr r (S i)), [ESet t r i 0])
               else Some (go s t Idle, [])
  | Rt1 f r h d p => Some (go (s_desc s (upd (hptr s) h p) (hdat s)) t (Rt2 f r h d p), [])
  | Rt2 f r h d p => Some (go (s_desc s (hptr s) (upd (hdat s) h d)) t (Rt3 f r h), [])
  | Rt3 f r h => Some (go (s_pend s (pfirst s) (upd (pnext s) h (pfirst s r))) t (Rt4 f r h), [])
  | Rt4 f r h => Some (go (s_pend s (upd (pfirst s) r h) (pnext s)) t (Rt5 f r), [])
  | Rt5 f r =>
      let n := inc (npend s r) in
      Some (go (s_cnt s (upd (npend s) r n) (if N.ltb (npeak s r) n then upd (npeak s) r n else npeak s) (nrecl s)) t
              (if f then Rt6 r else Idle), [])
  | Rt6 r => if N.leb (thr s) (npend s r) then Some (go s t (Mc1 r KFree), [EBeg t r]) else Some (go s t Idle, [])
  | Mc1 r k => if Nat.eqb (shead s) 0 then Some (go s t (Lp0 (ctx r k [] 0)), []) else Some (go s t (Mc2 r k [] (shead s)), [])
  | Mc2 r k C e => if rfree s e then Some (go s t (Mc4 r k C e), []) else Some (go s t (Mc3 r k C e 0), [])
  | Mc3 r k C e i =>
      if Nat.ltb i (deg c)
      then if Nat.leb (lim c) (length C) then Some (go s t (Lp0 (ctx r k C e)), [])
           else if Nat.eqb (hz s e i) 0 then Some (go s t (Mc3 r k C e (S i)), [])
           else Some (go s t (Mc3 r k (C ++ [hz s e i]) e (S i)), [])
      else Some (go s t (Mc4 r k C e), [])
  | Mc4 r k C e => if Nat.eqb (snext s e) 0 then Some (go s t (Lp0 (ctx r k C 0)), []) else Some (go s t (Mc2 r k C (snext s e)), [])
  | Lp0 x => Some (go s t (Lp1 (x_ent x 0 (pfirst s (xr x)))), [])
  | Lp1 x =>
      if Nat.eqb (xe x) 0 then Some (go s t (after x), [EEnd t (xr x)])
      else let x := x_nxt x (pnext s (xe x)) in
           if memb (hptr s (xe x)) (xC x) then Some (go s t (Lp1 (x_ent x (xe x) (xn x))), [])
           else if Nat.eqb (xm x) 0 then Some (go s t (De1 x), [])
           else Some (go s t (Ms1 x (xm x)), [])
  | Ms1 x e => if rfree s e then Some (go s t (Ms3 x e), []) else Some (go s t (Ms2 x e 0), [])
  | Ms2 x e i =>
      if Nat.ltb i (deg c)
      then if Nat.eqb (hz s e i) (hptr s (xe x)) then Some (go s t (Lp1 (x_ent x (xe x) (xn x))), [])
           else Some (go s t (Ms2 x e (S i)), [])
      else Some (go s t (Ms3 x e), [])
  | Ms3 x e => if Nat.eqb (snext s e) 0 then Some (go s t (De1 x), []) else Some (go s t (Ms1 x (snext s e)), [])
  | De1 x => Some (go (s_cnt s (upd (npend s) (xr x) (dec (npend s (xr x)))) (npeak s) (nrecl s)) t (De2 x), [])
  | De2 x => Some (go (if Nat.eqb (xp x) 0 then s_pend s (upd (pfirst s) (xr x) (pnext s (xe x))) (pnext s)
                       else s_pend s (pfirst s) (upd (pnext s) (xp x) (pnext s (xe x)))) t (De3 x), [])
  | De3 x => Some (go (s_out s (upd (out s) (xe x) false)) t (De4 x), [EDes t (xr x) (xe x) (hdat s (xe x))])
  | De4 x => Some (go (s_cnt s (npend s) (npeak s) (upd (nrecl s) (xr x) ((nrecl s (xr x) + 1) mod W64)%N)) t
                     (Lp1 (x_ent x (xp x) (xn x))), [])
  | Pu1 r => if N.eqb (npend s r) 0 then Some (go s t Idle, [EPur t r]) else Some (go s t (Mc1 r KPurge), [EBeg t r])
  end.

(** a retire made by the destructor while [t] is inside ck_hp_reclaim (src/ck_hp.c:301-307) *)
Definition nest (c : cfg) (s : st) (t : nat) (h d p : nat) : option (st * list event) :=
  match pcs s t with
  | De4 x =>
      let r := xr x in let n := inc (npend s r) in
      if reent c && negb (Nat.eqb h 0) && negb (out s h)
      then Some (s_out (s_cnt (s_pend (s_desc s (upd (hptr s) h p) (upd (hdat s) h d)) (upd (pfirst s) r h) (upd (pnext s) h (pfirst s r)))
                  (upd (npend s) r n) (if N.ltb (npeak s r) n then upd (npeak s) r n else npeak s) (nrecl s)) (upd (out s) h true),
                 [ERet t r h d p])
      else None
  | _ => None
  end.

Definition step (c : cfg) (s : st) (l : nat * act) : option (st * list event) :=
  let (t, a) := l in
  match a with
  | ATau => tick c s t
  | ANest h d p => nest c s t h d p
  | _ => match pcs s t with Idle => call c s t a | _ => None end
  end.
