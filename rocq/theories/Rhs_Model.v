(** Model of src/ck_rhs.c (Robin Hood hash set), used by one thread; 64-bit platform,
    CK_MD_CACHELINE = 64, 8-bit probe bounds.

    Pointers are [N], 0 is CK_RHS_EMPTY (NULL).  [rmode] is CK_RHS_MODE_READ_MOSTLY, [pp] says
    that pointers are packed (CK_RHS_PP is defined and the mode is CK_RHS_MODE_OBJECT;
    CK_MD_VMA_BITS = 48), [hf] is the hash function with the seed of the set, [cmp] the
    comparison function (None: NULL).  The hash a client passes is [hf] of the key it passes.
    [oracle i] says whether the i-th call of malloc succeeds.

    [hist] is the history of the stores that concurrent readers can see, the newest first; it
    does not influence any result (see RhsConc_Model for readers).  The generation counters are
    only increments in [hist].  Not modelled: fences.  Memory given to free with [defer] stays
    valid until the operation returns. *)
From Coq Require Import Arith NArith List Bool FMapPositive.
From Verif Require Import Lib Helpers_Model.
Import ListNotations.

(** arrays, zero where nothing was stored (memset, 386-401) *)
Definition arr (A : Type) := PositiveMap.t A.
Definition aget {A} (d : A) (a : arr A) (i : N) : A := match PositiveMap.find (N.succ_pos i) a with Some v => v | None => d end.
Definition aset {A} (a : arr A) (i : N) (v : A) : arr A := PositiveMap.add (N.succ_pos i) v a.

(** what readers look at: capacity, words, probe bounds and probe_maximum *)
Record vmap := mkv { v_cap : N; v_ent : arr N; v_bnd : arr nat; v_max : nat }.
(** stores: a word, a probe bound, probe_maximum, an increment of generation[i], hs->map *)
Inductive store := SEnt (s w : N) | SBnd (s : N) (n : nat) | SMax (n : nat) | SGen (i : N) | SMap (v : vmap).

(** struct ck_rhs_map 105-126, struct ck_rhs_entry_desc 84-90 and ck_rhs_no_entry_desc 92-97
    as one array per member, and the accessors 128-235.  [mask] is cap - 1. *)
Record rmap := mkm {
  cap : N; plim : nat; maxe : N;
  a_ent : arr N; a_prb : arr nat; a_wnt : arr N; a_bnd : arr nat; a_irh : arr bool;
  pmax : nat; nent : N; hist : list store }.
Definition ent (m : rmap) (i : N) : N := aget 0%N (a_ent m) i.
Definition prb (m : rmap) (i : N) : nat := aget 0 (a_prb m) i.
Definition wnt (m : rmap) (i : N) : N := aget 0%N (a_wnt m) i.
Definition bnd (m : rmap) (i : N) : nat := aget 0 (a_bnd m) i.
Definition irh (m : rmap) (i : N) : bool := aget false (a_irh m) i.
Definition set_ent (m : rmap) (i : N) (v : N) : rmap := mkm (cap m) (plim m) (maxe m) (aset (a_ent m) i v) (a_prb m) (a_wnt m) (a_bnd m) (a_irh m) (pmax m) (nent m) (SEnt i v :: hist m).
Definition set_prb (m : rmap) (i : N) (v : nat) : rmap := mkm (cap m) (plim m) (maxe m) (a_ent m) (aset (a_prb m) i v) (a_wnt m) (a_bnd m) (a_irh m) (pmax m) (nent m) (hist m).
Definition set_wnt (m : rmap) (i : N) (v : N) : rmap := mkm (cap m) (plim m) (maxe m) (a_ent m) (a_prb m) (aset (a_wnt m) i v) (a_bnd m) (a_irh m) (pmax m) (nent m) (hist m).
Definition set_bnd (m : rmap) (i : N) (v : nat) : rmap := mkm (cap m) (plim m) (maxe m) (a_ent m) (a_prb m) (a_wnt m) (aset (a_bnd m) i v) (a_irh m) (pmax m) (nent m) (SBnd i v :: hist m).
Definition set_irh (m : rmap) (i : N) (v : bool) : rmap := mkm (cap m) (plim m) (maxe m) (a_ent m) (a_prb m) (a_wnt m) (a_bnd m) (aset (a_irh m) i v) (pmax m) (nent m) (hist m).
Definition set_pmax (m : rmap) (v : nat) : rmap := mkm (cap m) (plim m) (maxe m) (a_ent m) (a_prb m) (a_wnt m) (a_bnd m) (a_irh m) v (nent m) (SMax v :: hist m).
Definition set_nent (m : rmap) (v : N) : rmap := mkm (cap m) (plim m) (maxe m) (a_ent m) (a_prb m) (a_wnt m) (a_bnd m) (a_irh m) (pmax m) v (hist m).
Definition set_maxe (m : rmap) (v : N) : rmap := mkm (cap m) (plim m) v (a_ent m) (a_prb m) (a_wnt m) (a_bnd m) (a_irh m) (pmax m) (nent m) (hist m).

Definition view (m : rmap) : vmap := mkv (cap m) (a_ent m) (a_bnd m) (pmax m).
(** an increment of map->generation[h & CK_RHS_G_MASK] (53-56, 976, 989, 1037, 1115, 1221, 1298) *)
Definition bump (m : rmap) (h : N) : rmap := mkm (cap m) (plim m) (maxe m) (a_ent m) (a_prb m) (a_wnt m) (a_bnd m) (a_irh m) (pmax m) (nent m) (SGen (h mod 1024) :: hist m).
(** hs->map, which was [m], becomes the new map [u] (410, 418, 566) *)
Definition publish (m u : rmap) : rmap := mkm (cap u) (plim u) (maxe u) (a_ent u) (a_prb u) (a_wnt u) (a_bnd u) (a_irh u) (pmax u) (nent u) (SMap (view u) :: hist m).

(** CK_RHS_MAX_WANTED 76, CK_RHS_WORD_MAX 62, CK_RHS_MAX_RH 903 *)
Definition MAX_WANTED : N := 65535.
Definition WORD_MAX : nat := 255.
Definition MAX_RH : nat := 512.

(** outcomes: [Loop]: the fuel ran out; [Null]: access through slot -1 of an array;
    [Stale]: ck_rhs_fas would go on changing the map that it has replaced *)
Inductive out (A : Type) := Ret (r : A) | Loop | Null | Stale.
Arguments Ret {A}. Arguments Loop {A}. Arguments Null {A}. Arguments Stale {A}.
Definition bind {A B} (x : out A) (f : A -> out B) : out B :=
  match x with Ret r => f r | Loop => Loop | Null => Null | Stale => Stale end.
Notation "'do' p <- x ; f" := (bind x (fun p => f)) (at level 200, p pattern, x at level 100, f at level 200).

Section RHS.
Variables (rmode pp : bool) (hf : N -> N) (cmp : option (N -> N -> bool)) (oracle : nat -> bool).

(** entries per cache line: 16-byte descriptors, or 8-byte pointers (offset_mask + 1, 389, 395) *)
Definition LN : N := if rmode then 8%N else 4%N.

(** CK_RHS_VMA 50-52, ck_rhs_marshal 805-823 *)
Definition val (w : N) : N := if pp then (w mod 2 ^ 48)%N else w.
Definition hv (h : N) : N := ((h / 2 ^ 25) mod 2 ^ 16)%N.
Definition marshal (k h : N) : N := if pp then (k mod 2 ^ 48 + hv h * 2 ^ 48)%N else k.
(** 660-678, 766-784: does the stored word match *)
Definition match_word (w k h : N) : bool :=
  (if pp then N.eqb (w / 2 ^ 48) (hv h) else true) &&
  (N.eqb (val w) (val k) || match cmp with Some f => f (val w) k | None => false end).

(** ck_rhs_map_create, 336-405, after a successful malloc; [lf] is hs->load_factor *)
Definition create (lf entries : N) : rmap :=
  let n := ck_internal_power_2 (entries mod 2 ^ 32) in
  let n := if N.ltb n 8 then 8%N else n in
  let limit := N.max (N.shiftr n 5) 64 in
  let limit := if N.ltb (2 ^ 32 - 1) limit then (2 ^ 32 - 1)%N else limit in
  mkm n (N.to_nat limit) (n * lf / 100) (PositiveMap.empty _) (PositiveMap.empty _) (PositiveMap.empty _) (PositiveMap.empty _) (PositiveMap.empty _) 0 0 [].

(** ck_rhs_map_probe_next 425-437, ck_rhs_map_probe_prev 439-450 *)
Definition next (m : rmap) (off : N) (probes : nat) : N :=
  if N.eqb (N.of_nat probes mod LN) 0 then ((off + N.of_nat probes) mod cap m)%N
  else (off / LN * LN + (off + 1) mod LN)%N.
Definition prev (m : rmap) (off : N) (probes : nat) : N :=
  if N.eqb (N.of_nat probes mod LN) 0 then ((off + (cap m - N.of_nat probes mod cap m)) mod cap m)%N
  else (off / LN * LN + (off + (LN - 1)) mod LN)%N.

(** ck_rhs_map_bound_set, 453-475 *)
Definition bound_set (m : rmap) (h : N) (n : nat) : rmap :=
  let m := if Nat.ltb (pmax m) n then set_pmax m n else m in
  let o := (h mod cap m)%N in
  if negb rmode && Nat.ltb (bnd m o) n then set_bnd m o (if Nat.ltb WORD_MAX n then WORD_MAX else n) else m.
(** ck_rhs_map_bound_get, 477-491 *)
Definition bound_get (m : rmap) (h : N) : nat :=
  if rmode then pmax m
  else let r := bnd m (h mod cap m)%N in if Nat.eqb r WORD_MAX then pmax m else r.

(** ** Probing, ck_rhs_map_probe_rm 579-690 and ck_rhs_map_probe 692-803; they differ in the
    layout of the arrays and in 738-739 *)
Inductive behavior := BProbe | BRh | BInsert | BRobin | BNoRh.
(** offset, probes, probe_limit, pr, n_probes *)
Record pst := mkp { q_off : N; q_n : nat; q_lim : nat; q_pr : option N; q_np : nat }.
(** the slot returned (None: -1), object, priority (None: -1), n_probes *)
Record pres := mkr { r_slot : option N; r_obj : N; r_pr : option N; r_np : nat }.
(** 681-690, 788-797 *)
Definition leave (off : N) (k : N) (probes lim : nat) (pr : option N) (np : nat) : pres :=
  let over := Nat.ltb lim probes in
  mkr (if over then None else Some off) (if over then 0%N else k) pr (match pr with None => probes | Some _ => np end).
(** one iteration, 622-680, 741-787 *)
Definition piter (m : rmap) (opl : nat) (b : behavior) (h k : N) (st : pst) : pst + pres :=
  let off := q_off st in
  let probes := S (q_n st) in
  let hit := Nat.eqb (q_n st) (q_lim st) in
  if hit && (Nat.eqb (q_lim st) opl || match q_pr st with Some _ => true | None => false end)
  then inr (leave off 0 probes (q_lim st) (q_pr st) (q_np st))
  else
    let lim := if hit then opl else q_lim st in
    let w := ent m off in
    if N.eqb w 0 then inr (leave off 0 probes lim (q_pr st) (q_np st))
    else
      let cand := match b with BNoRh => false | _ => true end
                  && match q_pr st with None => true | Some _ => false end
                  && negb (irh m off) && Nat.ltb (prb m off) probes in
      let pr := if cand then Some off else q_pr st in
      let np := if cand then probes else q_np st in
      if cand && match b with BRh | BRobin => true | _ => false end
      then inr (leave off 0 probes lim pr np)
      else if match b with BRobin => false | _ => true end && match_word w k h
      then inr (leave off (val w) probes lim pr np)
      else inl (mkp (next m off probes) probes lim pr np).
Fixpoint ploop (fuel : nat) (m : rmap) (opl : nat) (b : behavior) (h k : N) (st : pst) : out pres :=
  match fuel with
  | O => Loop
  | S fuel => match piter m opl b h k st with inr r => Ret r | inl st => ploop fuel m opl b h k st end
  end.
Definition probe (m : rmap) (h k : N) (limit : nat) (b : behavior) : out pres :=
  ploop (S limit) m limit b h k
    (mkp (h mod cap m)%N 0 (match b with BInsert => if rmode then limit else bound_get m h | _ => limit end) None 0).
(** the same with CK_RHS_PROBE_ROBIN_HOOD, which starts after slot [*priority] = [p] that is the
    [n]-th of the sequence *)
Definition probe_robin (m : rmap) (p : N) (n : nat) (h k : N) (limit : nat) : out pres :=
  ploop (S limit) m limit BRobin h k (mkp (next m p n) n limit None 0).

(** ** ck_rhs_grow, 493-570 *)
(** placing one word in the new map, 525-561.  [None]: the probe limit was hit *)
Definition wanted_inc (m : rmap) (off : N) : rmap := set_wnt m off ((wnt m off + 1) mod 65536).
Fixpoint place (fuel : nat) (u : rmap) (off : N) (p : nat) (h w : N) : out (option rmap) :=
  match fuel with
  | O => Loop
  | S fuel =>
      if Nat.eqb p (plim u) then Ret None
      else
        let p := S p in
        if N.eqb (ent u off) 0 then
          let u := set_ent u off w in
          let u := set_nent u ((nent u + 1) mod 2 ^ 64) in
          Ret (Some (bound_set (set_prb u off p) h p))
        else if Nat.ltb (prb u off) p then
          let w' := ent u off in
          let old := prb u off in
          place fuel (set_prb (bound_set (set_ent u off w) h p) off p) off (old - 1) (hf (val w')) w'
        else place fuel (wanted_inc u off) (next u off p) p h w
  end.
(** 508-563 *)
Fixpoint rehash (fuel : nat) (m u : rmap) (ks : list N) : out (option rmap) :=
  match ks with
  | [] => Ret (Some u)
  | k :: ks =>
      let w := ent m k in
      if N.eqb w 0 then rehash fuel m u ks
      else
        let h := hf (val w) in
        do r <- place fuel u (h mod cap u) 0 h w;
        match r with None => Ret None | Some u => rehash fuel m u ks end
  end.
Definition slots (m : rmap) : list N := map N.of_nat (seq 0 (N.to_nat (cap m))).
(** the restart loop; [capacity] is an unsigned long; [al] counts the calls of malloc *)
Fixpoint grow_loop (n fuel : nat) (lf : N) (m : rmap) (al : nat) (capacity : N) : out (rmap * nat * bool) :=
  match n with
  | O => Loop
  | S n =>
      if N.ltb capacity (cap m) then Ret (m, al, false)
      else if oracle al then
        do r <- rehash fuel m (create lf capacity) (slots m);
        match r with
        | Some u => Ret (publish m u, S al, true)
        | None => grow_loop n fuel lf m (S al) (capacity * 2 mod 2 ^ 64)%N
        end
      else Ret (m, S al, false)
  end.
Definition grow (fuel : nat) (lf : N) (m : rmap) (al : nat) (capacity : N) : out (rmap * nat * bool) := grow_loop 66 fuel lf m al capacity.

(** ck_rhs_add_wanted, 841-866 *)
Fixpoint add_wanted_loop (fuel : nat) (m : rmap) (off endo : N) (old : option N) (found : bool) (probes : nat) : out rmap :=
  match fuel with
  | O => Loop
  | S fuel =>
      if N.eqb off endo then Ret m
      else
        let found := match old with Some o => found || N.eqb off o | None => found end in
        let m := if found && N.ltb (wnt m off) MAX_WANTED then set_wnt m off (wnt m off + 1) else m in
        add_wanted_loop fuel m (next m off probes) endo old found (S probes)
  end.
Definition add_wanted (m : rmap) (endo : N) (old : option N) (h : N) : out rmap :=
  add_wanted_loop (S (plim m)) m (h mod cap m)%N endo old (match old with None => true | Some _ => false end) 1.
(** ck_rhs_remove_wanted, 868-888: the new map and the offset where the sequence began *)
Fixpoint remove_wanted_loop (probes : nat) (m : rmap) (off : N) (limit : option N) (rem : bool) : rmap * N :=
  match probes with
  | O | S O => (m, off)
  | S probes =>
      let off := prev m off probes in
      let rem := match limit with Some l => rem && negb (N.eqb off l) | None => rem end in
      let m := if rem && negb (N.eqb (wnt m off) MAX_WANTED) then set_wnt m off ((wnt m off + 65535) mod 65536) else m in
      remove_wanted_loop probes m off limit rem
  end.
Definition remove_wanted (m : rmap) (off : N) (limit : option N) : rmap * N := remove_wanted_loop (prb m off) m off limit true.

(** ck_rhs_get_first_offset, 890-901; (offset - x) & mask is taken modulo *)
Fixpoint first_offset_loop (fuel : nat) (m : rmap) (off : N) (probes : nat) : N :=
  let L := N.to_nat LN in
  match fuel with
  | O => off
  | S fuel =>
      if Nat.ltb L probes then
        let j := (probes - 1) - (probes - 1) mod L in
        let off := ((off + (cap m - N.of_nat j mod cap m)) mod cap m)%N in
        let off := (off / LN * LN + (off + 1) mod LN)%N in
        first_offset_loop fuel m off (probes - L)
      else (off / LN * LN + (off + (LN - N.of_nat (probes - 1) mod LN)) mod LN)%N
  end.
Definition first_offset (m : rmap) (off : N) (probes : nat) : N := first_offset_loop (S probes) m off probes.

(** ** ck_rhs_put_robin_hood, 905-996 *)
Inductive rh_res := RhOk (m : rmap) | RhFail (m : rmap) (al : nat) | RhGrown (old new : rmap) (al : nat).
(** 985-995: [prevs] are the slots of the chain, the last one first, each with the probes that
    the slot after it had *)
Fixpoint rh_up (m : rmap) (orig : N) (prevs : list (N * nat)) : out rmap :=
  match prevs with
  | [] => Ret m
  | (p, _) :: prevs =>
      let m := set_ent m orig (ent m p) in
      let h := first_offset m orig (prb m orig) in
      do m <- add_wanted m orig (Some p) h;
      rh_up (set_irh (bump m h) orig false) p prevs
  end.
(** 944-953: the slots are distinct, the order does not matter *)
Fixpoint rh_restore (m : rmap) (cur : N) (prevs : list (N * nat)) : rmap :=
  match prevs with
  | [] => m
  | (p, old) :: prevs => rh_restore (set_irh (set_prb m cur old) p false) p prevs
  end.
(** from label restart; [orig] is [first] there, [np] is n_probes; [desc] is always the
    descriptor of [orig] *)
Fixpoint rh_loop (n fuel : nat) (lf : N) (m : rmap) (al : nat) (orig : N) (np : nat) (h : N) (prevs : list (N * nat)) : out rh_res :=
  match n with
  | O => Loop
  | S n =>
      let insert := ent m orig in
      let key := val insert in
      let m := set_irh m orig true in
      do r <- (if Nat.eqb (length prevs) MAX_RH then probe m h key (plim m) BNoRh else probe_robin m orig np h key (plim m));
      match r_slot r, r_pr r with
      | None, None =>
          do g <- grow fuel lf m al (cap m * 2);
          let '(u, al, ok) := g in
          if ok then Ret (RhGrown m u al) else Ret (RhFail (rh_restore (set_irh m orig false) orig prevs) al)
      | _, Some f =>
          let old := prb m f in
          let m := set_prb m f (r_np r) in
          let h := first_offset m f (r_np r) in
          rh_loop n fuel lf (bound_set m h (r_np r)) al f old h ((orig, old) :: prevs)
      | Some s, None =>
          let h := first_offset m s (r_np r) in
          let m := bound_set m h (r_np r) in
          let m := bump (set_ent m s insert) h in
          let m := set_prb m s (r_np r) in
          let m := set_irh m orig false in
          do m <- add_wanted m s (Some orig) h;
          do m <- rh_up m orig prevs;
          Ret (RhOk m)
      end
  end.
(** the chain has at most CK_RHS_MAX_RH slots: a probe with CK_RHS_PROBE_NO_RH returns no priority *)
Definition put_robin_hood (fuel : nat) (lf : N) (m : rmap) (al : nat) (first : N) : out rh_res :=
  rh_loop (S (S MAX_RH)) fuel lf m al first (prb m first) 0 [].

(** ** ck_rhs_do_backward_shift_delete, 998-1076 *)
(** 1018-1025; [None]: [probe] reached the maximum *)
Fixpoint succ_in (fuel : nat) (m : rmap) (off : N) (probe : nat) : option (N * nat) :=
  match fuel with
  | O => None
  | S fuel =>
      if Nat.ltb probe (pmax m) then
        if Nat.eqb (prb m off) (S probe) then Some (off, probe)
        else succ_in fuel m (next m off (S probe)) (S probe)
      else None
  end.
(** 1015-1029: wanted_probes, offset, probe *)
Fixpoint succ_out (fuel : nat) (m : rmap) (slot : N) (wp : nat) : option (nat * N * nat) :=
  match fuel with
  | O => None
  | S fuel =>
      if Nat.ltb wp (pmax m) then
        match succ_in (S (pmax m)) m (next m slot wp) wp with
        | Some (off, probe) => Some (wp, off, probe)
        | None => succ_out fuel m slot (S wp)
        end
      else None
  end.
(** 1057-1063: the final value of [probe] *)
Fixpoint bound_scan (fuel : nat) (m : rmap) (h off : N) (probe mx : nat) : nat :=
  match fuel with
  | O => probe
  | S fuel =>
      if Nat.ltb probe mx then
        if N.eqb h (first_offset m off probe) then probe
        else bound_scan fuel m h (next m off (S probe)) (S probe) mx
      else probe
  end.
(** 1041-1067 *)
Definition new_bound (m : rmap) (h off : N) (wp probe : nat) : rmap :=
  if Nat.ltb wp WORD_MAX then
    if N.eqb (wnt m h) 1 then set_bnd m h wp
    else if Nat.eqb (bnd m h) WORD_MAX || Nat.eqb (bnd m h) (prb m off) then
      let probe := S probe in
      let mx := if Nat.eqb (bnd m h) WORD_MAX then pmax m else bnd m h - 1 in
      if Nat.eqb (bound_scan (S mx) m h (next m off probe) probe mx) mx then set_bnd m h wp else m
    else m
  else m.
(** 1072-1075; [h] is the first offset *)
Definition bsd_end (m : rmap) (slot h : N) : rmap :=
  let m := set_ent m slot 0 in
  let m := match prb m slot with O => m | S p => if Nat.ltb p WORD_MAX then set_bnd m h p else m end in
  set_prb m slot 0.
Fixpoint bsd_loop (fuel : nat) (m : rmap) (slot h : N) : out rmap :=
  match fuel with
  | O => Loop
  | S fuel =>
      if N.eqb (wnt m slot) 0 then Ret (bsd_end m slot h)
      else match succ_out (pmax m) m slot 1 with
      | None => Ret (bsd_end (set_wnt m slot 0) slot h)
      | Some (wp, off, probe) =>
          let m := set_prb m slot wp in
          let '(m, h) := remove_wanted m off (Some slot) in
          let m := bump (set_ent m slot (ent m off)) h in
          let m := new_bound m h off wp probe in
          let m := if N.ltb (wnt m slot) MAX_WANTED then set_wnt m slot (wnt m slot - 1) else m in
          bsd_loop fuel m off h
      end
  end.
Definition shift_delete (fuel : nat) (m : rmap) (slot : N) : out rmap :=
  let '(m, h) := remove_wanted m slot None in bsd_loop fuel m slot h.

(** ** The operations; the state of the set is hs->map, hs->load_factor and the calls of malloc *)
Record hset := mks { mp : rmap; lfac : N; alc : nat }.
Definition with_map (hs : hset) (m : rmap) : hset := mks m (lfac hs) (alc hs).

(** ck_rhs_grow and ck_rhs_rebuild 572-577, seen from outside *)
Definition grow_op (fuel : nat) (hs : hset) (capacity : N) : out (hset * bool) :=
  do g <- grow fuel (lfac hs) (mp hs) (alc hs) capacity;
  let '(m, al, ok) := g in Ret (mks m (lfac hs) al, ok).
Definition rebuild (fuel : nat) (hs : hset) : out (hset * bool) := grow_op fuel hs (cap (mp hs)).

(** 1232-1236, 1313-1317, 1374-1376: the result of growing is ignored *)
Definition count_up (fuel : nat) (hs : hset) (m : rmap) : out hset :=
  let m := set_nent m ((nent m + 1) mod 2 ^ 64) in
  let hs := with_map hs m in
  if N.ltb (maxe m) (nent m) then do x <- grow_op fuel hs (cap m * 2); Ret (fst x) else Ret hs.

(** installing [w] = insert in the first slot after making room there, 1354-1366, and for
    ck_rhs_set and ck_rhs_apply removing the object found, 1186-1220, 1274-1305.  [mark]: these
    two set in_rh in the slot found meanwhile.  [Again]: restart with the new map *)
Inductive inst := Done (m : rmap) | Failed (hs : hset) | Again (hs : hset).
Definition install (mark : bool) (fuel : nat) (hs : hset) (m : rmap) (h w : N) (r : pres) : out inst :=
  match r_pr r with
  | Some f =>
      let m := if mark then match r_slot r with Some s => set_irh m s true | None => m end else m in
      do x <- put_robin_hood fuel (lfac hs) m (alc hs) f;
      match x with
      | RhGrown _ u al => Ret (Again (mks u (lfac hs) al))
      | RhFail m al =>
          Ret (Failed (mks (if mark then match r_slot r with Some s => set_irh m s false | None => m end else m) (lfac hs) al))
      | RhOk m =>
          let m := if mark then match r_slot r with Some s => set_irh m s false | None => m end else m in
          let m := set_ent m f w in
          let m := set_prb m f (r_np r) in
          do m <- add_wanted m f None h;
          if N.eqb (r_obj r) 0 then Ret (Done m)
          else match r_slot r with Some s => do m <- shift_delete fuel (bump m h) s; Ret (Done m) | None => Null end
      end
  | None =>
      match r_slot r with
      | Some s =>
          let m := set_ent m s w in
          let m := set_prb m s (r_np r) in
          if N.eqb (r_obj r) 0 then do m <- add_wanted m s None h; Ret (Done m) else Ret (Done m)
      | None => Null
      end
  end.

(** ck_rhs_put_internal, 1324-1378 *)
Fixpoint put_loop (n fuel : nat) (hs : hset) (k : N) (b : behavior) : out (hset * bool) :=
  match n with
  | O => Loop
  | S n =>
      let m := mp hs in
      let h := hf k in
      do r <- probe m h k (plim m) b;
      match r_slot r, r_pr r with
      | None, None =>
          do g <- grow_op fuel hs (cap m * 2);
          let '(hs, ok) := g in if ok then put_loop n fuel hs k b else Ret (hs, false)
      | _, _ =>
          if N.eqb (r_obj r) 0 then
            do i <- install false fuel hs (bound_set m h (r_np r)) h (marshal k h) r;
            match i with
            | Again hs => put_loop n fuel hs k b
            | Failed hs => Ret (hs, false)
            | Done m => do hs <- count_up fuel hs m; Ret (hs, true)
            end
          else Ret (hs, false)
      end
  end.
(** 1380-1387, 1389-1396 *)
Definition put (fuel : nat) (hs : hset) (k : N) : out (hset * bool) := put_loop fuel fuel hs k BInsert.
Definition put_unique (fuel : nat) (hs : hset) (k : N) : out (hset * bool) := put_loop fuel fuel hs k BRh.

(** ck_rhs_set, 1244-1322: result and *previous *)
Fixpoint set_loop (n fuel : nat) (hs : hset) (k : N) : out (hset * (bool * N)) :=
  match n with
  | O => Loop
  | S n =>
      let m := mp hs in
      let h := hf k in
      do r <- probe m h k (plim m) BInsert;
      match r_slot r, r_pr r with
      | None, None =>
          do g <- grow_op fuel hs (cap m * 2);
          let '(hs, ok) := g in if ok then set_loop n fuel hs k else Ret (hs, (false, 0%N))
      | _, _ =>
          do i <- install true fuel hs (bound_set m h (r_np r)) h (marshal k h) r;
          match i with
          | Again hs => set_loop n fuel hs k
          | Failed hs => Ret (hs, (false, 0%N))
          | Done m =>
              if N.eqb (r_obj r) 0 then do hs <- count_up fuel hs m; Ret (hs, (true, 0%N))
              else Ret (with_map hs m, (true, r_obj r))
          end
      end
  end.
Definition set (fuel : nat) (hs : hset) (k : N) : out (hset * (bool * N)) := set_loop fuel fuel hs k.

(** ck_rhs_fas, 1078-1124.  [map] is read once, before label restart: after growing, the
    function goes on with the old map.  If it then finds no priority it stores into the old map
    and returns (1116-1121), otherwise it makes room in the new map at an offset of the old
    one: [Stale]. *)
Definition fas (fuel : nat) (hs : hset) (k : N) : out (hset * (bool * N)) :=
  let m := mp hs in
  let h := hf k in
  do r <- probe m h k (bound_get m h) BProbe;
  if N.eqb (r_obj r) 0 then Ret (hs, (false, 0%N))
  else match r_slot r with
  | None => Null
  | Some s =>
      match r_pr r with
      | Some f =>
          do x <- put_robin_hood fuel (lfac hs) (set_irh m s true) (alc hs) f;
          match x with
          | RhGrown old u al =>
              let old := set_irh old s false in
              do r <- probe old h k (bound_get old h) BProbe;
              if N.eqb (r_obj r) 0 then Ret (mks u (lfac hs) al, (false, 0%N))
              else match r_pr r with
              | None => Ret (mks u (lfac hs) al, (true, r_obj r))
              | Some _ => Stale
              end
          | RhFail m al => Ret (mks (set_irh m s false) (lfac hs) al, (false, 0%N))
          | RhOk m =>
              let m := set_irh m s false in
              let m := bump (set_ent m f (marshal k h)) h in
              let m := set_prb m f (r_np r) in
              do m <- add_wanted m f None h;
              do m <- shift_delete fuel m s;
              Ret (with_map hs m, (true, r_obj r))
          end
      | None =>
          let m := set_ent m s (marshal k h) in
          let m := set_prb m s (r_np r) in
          Ret (with_map hs m, (true, r_obj r))
      end
  end.

(** ck_rhs_apply, 1140-1242; [fn] is the apply function with its argument, [delta] what it
    returned if it has been called *)
Fixpoint apply_loop (n fuel : nat) (hs : hset) (k : N) (fn : N -> N) (delta : option N) : out (hset * bool) :=
  match n with
  | O => Loop
  | S n =>
      let m := mp hs in
      let h := hf k in
      do r <- probe m h k (plim m) BInsert;
      match r_slot r, r_pr r with
      | None, None =>
          do g <- grow_op fuel hs (cap m * 2);
          let '(hs, ok) := g in if ok then apply_loop n fuel hs k fn delta else Ret (hs, false)
      | _, _ =>
          let d := match delta with Some d => d | None => fn (r_obj r) end in
          if N.eqb d 0 then
            if N.eqb (r_obj r) 0 then Ret (hs, true)
            else match r_slot r with
            | Some s => do m <- shift_delete fuel m s; Ret (with_map hs m, true)
            | None => Null
            end
          else if N.eqb d (r_obj r) then Ret (hs, true)
          else
            do i <- install true fuel hs (bound_set m h (r_np r)) h (marshal d h) r;
            match i with
            | Again hs => apply_loop n fuel hs k fn (Some d)
            | Failed hs => Ret (hs, false)
            | Done m =>
                if N.eqb (r_obj r) 0 then do hs <- count_up fuel hs m; Ret (hs, true)
                else Ret (with_map hs m, true)
            end
      end
  end.
Definition apply (fuel : nat) (hs : hset) (k : N) (fn : N -> N) : out (hset * bool) := apply_loop fuel fuel hs k fn None.

(** ck_rhs_get, 1398-1425, the writer being idle *)
Definition get (hs : hset) (k : N) : out N :=
  do r <- probe (mp hs) (hf k) k (bound_get (mp hs) (hf k)) BNoRh; Ret (r_obj r).
(** ck_rhs_remove, 1427-1445; n_entries is an unsigned long *)
Definition remove (fuel : nat) (hs : hset) (k : N) : out (hset * N) :=
  let m := mp hs in
  let h := hf k in
  do r <- probe m h k (bound_get m h) BNoRh;
  if N.eqb (r_obj r) 0 then Ret (hs, 0%N)
  else match r_slot r with
  | Some s =>
      let m := set_nent m ((nent m + (2 ^ 64 - 1)) mod 2 ^ 64) in
      do m <- shift_delete fuel m s;
      Ret (with_map hs m, r_obj r)
  | None => Null
  end.

(** ck_rhs_gc, 825-838 *)
Definition gc (hs : hset) : hset :=
  with_map hs (set_pmax (mp hs) (fold_left (fun mx i => if Nat.ltb mx (prb (mp hs) i) then prb (mp hs) i else mx) (slots (mp hs)) 0)).
(** ck_rhs_set_load_factor, 251-269 *)
Fixpoint load_loop (n fuel : nat) (hs : hset) : out (hset * bool) :=
  match n with
  | O => Loop
  | S n =>
      if N.ltb (maxe (mp hs)) (nent (mp hs)) then
        do g <- grow_op fuel hs (cap (mp hs) * 2);
        let '(hs, ok) := g in if ok then load_loop n fuel hs else Ret (hs, false)
      else Ret (hs, true)
  end.
Definition set_load_factor (fuel : nat) (hs : hset) (lf : N) : out (hset * bool) :=
  if N.eqb lf 0 || N.ltb 100 lf then Ret (hs, false)
  else load_loop fuel fuel (mks (set_maxe (mp hs) (cap (mp hs) * lf / 100)) lf (alc hs)).
(** ck_rhs_reset_size 400-413, ck_rhs_reset 415-422 *)
Definition reset_size (hs : hset) (capacity : N) : hset * bool :=
  if oracle (alc hs) then (mks (publish (mp hs) (create (lfac hs) capacity)) (lfac hs) (S (alc hs)), true)
  else (mks (mp hs) (lfac hs) (S (alc hs)), false).
Definition reset (hs : hset) : hset * bool := reset_size hs (cap (mp hs)).
(** ck_rhs_init, 1468-1490, with valid arguments; CK_RHS_DEFAULT_LOAD_FACTOR 245 *)
Definition init (al : nat) (n : N) : option hset :=
  if oracle al then Some (mks (create 50 n) 50 (S al)) else None.

(** ck_rhs_next 278-301, called until it returns false: the keys *)
Definition iterate (hs : hset) : list N := map val (filter (fun w => negb (N.eqb w 0)) (map (ent (mp hs)) (slots (mp hs)))).
(** ck_rhs_count 313-318 *)
Definition count (hs : hset) : N := nent (mp hs).
End RHS.
