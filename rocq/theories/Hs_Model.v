(** Model of src/ck_hs.c (hash set) and of the types of include/ck_hs.h, 64-bit platform,
    8-byte slots, CK_MD_CACHELINE = 64 (8 slots per bucket, entries aligned), 8-bit bounds.

    Words stored in slots are [N]: 0 is CK_HS_EMPTY, 2^64-1 is CK_HS_TOMBSTONE.  [del] is
    CK_HS_MODE_DELETE, [pp] says that pointers are packed (CK_HS_PP is defined and the mode
    is CK_HS_MODE_OBJECT; CK_MD_VMA_BITS = 48).  [hf] is the hash function with the seed of
    the set, [cmp] the comparison function (None: NULL).  The hash a client passes is [hf] of
    the key it passes.

    ck_hs_map_probe_next shifts by its [level], the number of buckets left behind; from the
    64th on that is undefined behaviour in C.  The value obtained then is [ub], any function.

    The single writer's operations compute the list of stores they make, in program order
    ([store]); [app] applies them.  [oracle i] is the result of the i-th call of malloc: None
    is failure, [Some g] success with [g] in the field map->tombstones, which
    ck_hs_map_create does not initialise.  Operations are given the number [al] of calls made
    before and return the number of calls made after them. *)
From Coq Require Import Arith NArith List Bool.
From Verif Require Import Lib Helpers_Model.
Import ListNotations.

Definition TOMB : N := 2 ^ 64 - 1.
Definition live (w : N) : bool := negb (N.eqb w 0) && negb (N.eqb w TOMB).

(** struct ck_hs_map, 80-92.  [mask] is cap - 1, [step] is log2 cap + 1. *)
Record hmap := mkh { cap : N; ents : nat -> N; pmax : nat; bnd : nat -> nat; plim : nat; nent : N; tmb : N; gen : bool -> N }.

(** [S1 s w]: slot; [SGen p]: ++generation; [SMax], [SBnd]: probe_maximum and probe_bound;
    [SCnt], [STmb]: n_entries and tombstones; [SMap]: hs->map. *)
Inductive store := SEnt (s : nat) (w : N) | SGen (p : bool) | SMax (v : nat) | SBnd (o v : nat) | SCnt (n : N) | STmb (n : N) | SMap (m : hmap).

Definition app1 (m : hmap) (x : store) : hmap :=
  match x with
  | SEnt s w => mkh (cap m) (upd (ents m) s w) (pmax m) (bnd m) (plim m) (nent m) (tmb m) (gen m)
  | SGen p => mkh (cap m) (ents m) (pmax m) (bnd m) (plim m) (nent m) (tmb m)
                (fun q => if Bool.eqb q p then ((gen m q + 1) mod 2 ^ 32)%N else gen m q)
  | SMax v => mkh (cap m) (ents m) v (bnd m) (plim m) (nent m) (tmb m) (gen m)
  | SBnd o v => mkh (cap m) (ents m) (pmax m) (upd (bnd m) o v) (plim m) (nent m) (tmb m) (gen m)
  | SCnt n => mkh (cap m) (ents m) (pmax m) (bnd m) (plim m) n (tmb m) (gen m)
  | STmb n => mkh (cap m) (ents m) (pmax m) (bnd m) (plim m) (nent m) n (gen m)
  | SMap m' => m'
  end.
Definition app (m : hmap) (tr : list store) : hmap := fold_left app1 tr m.

(** outcomes: [Loop]: the fuel for restarts ran out; [Bad]: store through NULL *)
Inductive out (A : Type) := Ret (tr : list store) (al : nat) (r : A) | Loop | Bad.
Arguments Ret {A}. Arguments Loop {A}. Arguments Bad {A}.

Section HS.
Variables (del pp : bool) (hf : N -> N) (cmp : option (N -> N -> bool)) (ub : N -> N -> N) (oracle : nat -> option N).

Definition malloc (al : nat) : option N * nat := (oracle al, S al).

(** CK_HS_VMA 49-51, ck_hs_marshal 533-552: the low 48 bits are the pointer, the high 16 bits
    are bits 25..40 of the hash *)
Definition val (w : N) : N := if pp then (w mod 2 ^ 48)%N else w.
Definition hv (h : N) : N := ((h / 2 ^ 25) mod 2 ^ 16)%N.
Definition marshal (k h : N) : N := if pp then (k mod 2 ^ 48 + hv h * 2 ^ 48)%N else k.
(** 506-519: does the stored word match *)
Definition match_word (w k h : N) : bool :=
  (if pp then N.eqb (w / 2 ^ 48) (hv h) else true) &&
  (N.eqb (val w) (val k) || match cmp with Some f => f (val w) k | None => false end).

(** ck_hs_map_create, 198-252, after a successful malloc *)
Definition create (g entries : N) : hmap :=
  let n := ck_internal_power_2 (entries mod 2 ^ 32) in
  let n := if N.ltb n 8 then 8%N else n in
  let limit := N.max (N.shiftr n 5) 64 in
  let limit := if N.ltb (2 ^ 32 - 1) limit then (2 ^ 32 - 1)%N else limit in
  mkh n (fun _ => 0%N) 0 (fun _ => 0) (N.to_nat limit) 0 g (fun _ => 0%N).

(** h & mask *)
Definition hidx (m : hmap) (h : N) : N := (h mod cap m)%N.

(** ck_hs_map_probe_next, 278-292 *)
Definition probe_next (m : hmap) (offset h level probes : N) : N :=
  let r0 := N.shiftr h (N.log2 (cap m) + 1) in
  let r := if N.ltb level 64 then N.shiftr r0 level else ub r0 level in
  let stride := N.lor (N.shiftl (r - r mod 8) 1) (r mod 8) in
  ((offset + N.shiftr probes 3 + N.lor stride 8) mod cap m)%N.

(** ck_hs_map_bound_set, 294-313 *)
Definition bound_set (m : hmap) (h : N) (n : nat) : list store :=
  let o := N.to_nat (hidx m h) in
  (if Nat.ltb (pmax m) n then [SMax n] else []) ++
  (if del && Nat.ltb (bnd m o) n then [SBnd o (if Nat.ltb 255 n then 255 else n)] else []).
(** ck_hs_map_bound_get, 315-330 *)
Definition bound_get (m : hmap) (h : N) : nat :=
  if del then let r := bnd m (N.to_nat (hidx m h)) in if Nat.eqb r 255 then pmax m else r else pmax m.

(** ** Probing, 423-531 *)
Inductive behavior := BProbe | BTomb | BInsert.
(** offset, i, j, probes, probe_limit, pr, n_probes *)
Record pst := mkp { q_off : N; q_i : N; q_j : nat; q_n : nat; q_lim : nat; q_pr : option nat; q_np : nat }.
(** cursor, object, priority, n_probes *)
Record pres := mkr { r_cur : option nat; r_obj : N; r_pr : option nat; r_np : nat }.

(** 458-461, 466: the slot looked at *)
Definition cursor (off : N) (j : nat) : nat := N.to_nat (off / 8 * 8 + (N.of_nat j + off) mod 8).
(** the end of an iteration: 465 j++, 514 next bucket *)
Definition adv (m : hmap) (h : N) (st : pst) (lim : nat) (pr : option nat) (np : nat) : pst :=
  if Nat.eqb (S (q_j st)) 8
  then mkp (probe_next m (q_off st) h (q_i st) (N.of_nat (S (q_n st)))) (q_i st + 1) 0 (S (q_n st)) lim pr np
  else mkp (q_off st) (q_i st) (S (q_j st)) (S (q_n st)) lim pr np.
(** 519-530 *)
Definition leave (cur : nat) (k : N) (probes lim : nat) (pr : option nat) (np : nat) : pres :=
  let over := Nat.ltb lim probes in
  mkr (if over then None else Some cur) (if over then 0%N else k) pr (match pr with None => probes | Some _ => np end).
(** one iteration of the inner loop, 465-515 *)
Definition piter (m : hmap) (opl : nat) (b : behavior) (h k : N) (st : pst) : pst + pres :=
  let cur := cursor (q_off st) (q_j st) in
  let probes := S (q_n st) in
  let hit := Nat.eqb (q_n st) (q_lim st) in
  if hit && (Nat.eqb (q_lim st) opl || match q_pr st with Some _ => true | None => false end)
  then inr (leave cur 0 probes (q_lim st) (q_pr st) (q_np st))
  else
    let lim := if hit then opl else q_lim st in
    let w := ents m cur in
    if N.eqb w 0 then inr (leave cur 0 probes lim (q_pr st) (q_np st))
    else if N.eqb w TOMB then
      match q_pr st, b with
      | None, BTomb => inr (leave cur 0 probes lim (Some cur) probes)
      | None, _ => inl (adv m h st lim (Some cur) probes)
      | Some _, _ => inl (adv m h st lim (q_pr st) (q_np st))
      end
    else if match_word w k h then inr (leave cur (val w) probes lim (q_pr st) (q_np st))
    else inl (adv m h st lim (q_pr st) (q_np st)).
Fixpoint ploop (fuel : nat) (m : hmap) (opl : nat) (b : behavior) (h k : N) (st : pst) : option pres :=
  match fuel with
  | O => None
  | S fuel => match piter m opl b h k st with inr r => Some r | inl st => ploop fuel m opl b h k st end
  end.
(** 449-456 *)
Definition pinit (m : hmap) (h : N) (lim : nat) : pst := mkp (hidx m h) 0 0 0 lim None 0.
(** [None]: the loop does not end within the probe limit *)
Definition probe (m : hmap) (h k : N) (limit : nat) (b : behavior) : option pres :=
  ploop (S limit) m limit b h k (pinit m h (match b with BInsert => bound_get m h | _ => limit end)).

(** ** ck_hs_grow, 332-403 *)
(** placing one word in the new map, 362-385: [inr] the slot and the number of probes *)
Fixpoint place (fuel : nat) (u : hmap) (h : N) (st : pst) : option (nat * nat) :=
  match fuel with
  | O => None
  | S fuel =>
      let cur := cursor (q_off st) (q_j st) in
      if Nat.eqb (q_n st) (plim u) then None
      else if N.eqb (ents u cur) 0 then Some (cur, S (q_n st))
      else place fuel u h (adv u h st (plim u) None 0)
  end.
Fixpoint rehash (m u : hmap) (ks : list nat) : option hmap :=
  match ks with
  | [] => Some u
  | k :: ks =>
      let w := ents m k in
      if live w then
        let h := hf (val w) in
        match place (S (plim u)) u h (pinit u h (plim u)) with
        | None => None
        | Some (s, n) =>
            let u1 := app u [SEnt s w; SCnt (nent u + 1)] in
            rehash m (app u1 (bound_set u1 h n)) ks
        end
      else rehash m u ks
  end.
Definition slots (m : hmap) : list nat := seq 0 (N.to_nat (cap m)).
(** the restart loop; [capacity] is an unsigned long *)
Fixpoint grow_loop (fuel : nat) (m : hmap) (al : nat) (capacity : N) : out bool :=
  match fuel with
  | O => Loop
  | S fuel =>
      if N.ltb capacity (cap m) then Ret [] al false
      else match malloc al with
      | (None, al) => Ret [] al false
      | (Some g, al) =>
          match rehash m (create g capacity) (slots m) with
          | Some u => Ret [SMap u] al true
          | None => grow_loop fuel m al (capacity * 2 mod 2 ^ 64)%N
          end
      end
  end.
Definition grow (m : hmap) (al : nat) (capacity : N) : out bool := grow_loop 66 m al capacity.
(** ck_hs_rebuild, 416-421 *)
Definition rebuild (m : hmap) (al : nat) : out bool := grow m al (cap m).

(** ck_hs_reset_size 254-268, ck_hs_reset 270-276 *)
Definition reset_size (m : hmap) (al : nat) (capacity : N) : out bool :=
  match malloc al with
  | (None, al) => Ret [] al false
  | (Some g, al) => Ret [SMap (create g capacity)] al true
  end.
Definition reset (m : hmap) (al : nat) : out bool := reset_size m al (cap m).

(** [tr] has been stored; go on with the result of [x] *)
Definition after {A} (tr : list store) (x : out A) : out A :=
  match x with Ret tr2 al r => Ret (tr ++ tr2) al r | Loop => Loop | Bad => Bad end.

(** ck_hs_map_postinsert, 405-414: the result of growing is ignored *)
Definition postinsert {A} (m : hmap) (tr : list store) (al : nat) (r : A) : out A :=
  let m1 := app m tr in
  let n := (nent m1 + 1)%N in
  let tr := tr ++ [SCnt n] in
  if N.ltb (cap m) (n * 2) then
    match grow (app m tr) al (cap m * 2) with Ret tr2 al _ => Ret (tr ++ tr2) al r | Loop => Loop | Bad => Bad end
  else Ret tr al r.

(** the store of [w] and, if an object was found behind an earlier tombstone, its removal:
    670-677, 732-747, 785-806 *)
Definition install (h w : N) (r : pres) : option (list store) :=
  match r_pr r, r_cur r with
  | Some f, Some s => Some (SEnt f w :: if N.eqb (r_obj r) 0 then [] else [SGen (N.odd h); SEnt s TOMB])
  | Some f, None => if N.eqb (r_obj r) 0 then Some [SEnt f w] else None
  | None, Some s => Some [SEnt s w]
  | None, None => None
  end.

(** ck_hs_put_internal, 815-855 *)
Fixpoint put_loop (fuel : nat) (m : hmap) (al : nat) (k : N) (b : behavior) : out bool :=
  match fuel with
  | O => Loop
  | S fuel =>
      let h := hf k in
      match probe m h k (plim m) b with
      | None => Loop
      | Some r =>
          match r_cur r, r_pr r with
          | None, None =>
              match grow m al (cap m * 2) with
              | Ret tr al true => after tr (put_loop fuel (app m tr) al k b)
              | Ret tr al false => Ret tr al false
              | Loop => Loop
              | Bad => Bad
              end
          | _, _ =>
              if N.eqb (r_obj r) 0 then
                match match r_pr r with Some f => Some f | None => r_cur r end with
                | Some s => postinsert m (bound_set m h (r_np r) ++ [SEnt s (marshal k h)]) al true
                | None => Bad
                end
              else Ret [] al false
          end
      end
  end.
(** 857-864, 866-873 *)
Definition put (fuel : nat) (m : hmap) (al : nat) (k : N) : out bool := put_loop fuel m al k BInsert.
Definition put_unique (fuel : nat) (m : hmap) (al : nat) (k : N) : out bool := put_loop fuel m al k BTomb.

(** ck_hs_set, 759-813: result and *previous *)
Fixpoint set (fuel : nat) (m : hmap) (al : nat) (k : N) : out (bool * N) :=
  match fuel with
  | O => Loop
  | S fuel =>
      let h := hf k in
      match probe m h k (plim m) BInsert with
      | None => Loop
      | Some r =>
          match r_cur r, r_pr r with
          | None, None =>
              match grow m al (cap m * 2) with
              | Ret tr al true => after tr (set fuel (app m tr) al k)
              | Ret tr al false => Ret tr al (false, 0%N)
              | Loop => Loop
              | Bad => Bad
              end
          | _, _ =>
              match install h (marshal k h) r with
              | Some tr =>
                  let tr := bound_set m h (r_np r) ++ tr in
                  if N.eqb (r_obj r) 0 then postinsert m tr al (true, 0%N) else Ret tr al (true, r_obj r)
              | None => Bad
              end
          end
      end
  end.

(** ck_hs_fas, 644-673 *)
Definition fas (m : hmap) (al : nat) (k : N) : out (bool * N) :=
  let h := hf k in
  match probe m h k (bound_get m h) BProbe with
  | None => Loop
  | Some r =>
      if N.eqb (r_obj r) 0 then Ret [] al (false, 0%N)
      else match install h (marshal k h) r with Some tr => Ret tr al (true, r_obj r) | None => Bad end
  end.

(** ck_hs_apply, 688-757; [fn] is the apply function with its argument *)
Fixpoint apply (fuel : nat) (m : hmap) (al : nat) (k : N) (fn : N -> N) : out bool :=
  match fuel with
  | O => Loop
  | S fuel =>
      let h := hf k in
      match probe m h k (plim m) BInsert with
      | None => Loop
      | Some r =>
          match r_cur r, r_pr r with
          | None, None =>
              match grow m al (cap m * 2) with
              | Ret tr al true => after tr (apply fuel (app m tr) al k fn)
              | Ret tr al false => Ret tr al false
              | Loop => Loop
              | Bad => Bad
              end
          | _, _ =>
              let delta := fn (r_obj r) in
              if N.eqb delta 0 then
                if N.eqb (r_obj r) 0 then Ret [] al true
                else match r_cur r with
                | Some s => Ret [SEnt s TOMB; SCnt (nent m - 1); STmb ((tmb m + 1) mod 2 ^ 32)] al true
                | None => Bad
                end
              else if N.eqb delta (r_obj r) then Ret [] al true
              else match install h (marshal delta h) r with
              | Some tr =>
                  let tr := bound_set m h (r_np r) ++ tr in
                  if N.eqb (r_obj r) 0 then postinsert m tr al true else Ret tr al true
              | None => Bad
              end
          end
      end
  end.

(** ck_hs_get, 875-900, the writer being idle *)
Definition get (m : hmap) (k : N) : option N :=
  option_map r_obj (probe m (hf k) k (bound_get m (hf k)) BProbe).

(** ck_hs_remove, 902-920 *)
Definition remove (m : hmap) (al : nat) (k : N) : out N :=
  let h := hf k in
  match probe m h k (bound_get m h) BProbe with
  | None => Loop
  | Some r =>
      if N.eqb (r_obj r) 0 then Ret [] al 0%N
      else match r_cur r with
      | Some s => Ret [SEnt s TOMB; SCnt (nent m - 1); STmb ((tmb m + 1) mod 2 ^ 32)] al (r_obj r)
      | None => Bad
      end
  end.

(** ** ck_hs_gc, 555-642 *)
(** the loop, 591-627, over the remaining slots; [full]: cycles was 0.  Result: stores,
    maximum, bounds *)
Fixpoint gc_loop (m : hmap) (full : bool) (cycles : N) (ks : list nat) (mx : nat) (bs : nat -> nat) : out (nat * (nat -> nat)) :=
  match ks with
  | [] => Ret [] 0 (mx, bs)
  | k :: ks =>
      let w := ents m k in
      if live w then
        let e := val w in
        let h := hf e in
        match probe m h e (bound_get m h) BProbe with
        | None => Loop
        | Some r =>
            match (match r_pr r with
                   | None => Some []
                   | Some f => match r_cur r with Some s => Some [SEnt f (marshal e h); SGen (N.odd h); SEnt s TOMB] | None => None end
                   end) with
            | None => Bad
            | Some tr =>
                if full then
                  let o := N.to_nat (hidx m h) in
                  let n := r_np r in
                  let mx := if Nat.ltb mx n then n else mx in
                  let n := if Nat.ltb 255 n then 255 else n in
                  after tr (gc_loop (app m tr) full cycles ks mx (if del && Nat.ltb (bs o) n then upd bs o n else bs))
                else if N.eqb cycles 1 then Ret tr 0 (mx, bs)
                else after tr (gc_loop (app m tr) full (cycles - 1) ks mx bs)
            end
        end
      else gc_loop m full cycles ks mx bs
  end.
Definition all_bounds (m : hmap) (bs : nat -> nat) : list store := map (fun o => SBnd o (bs o)) (slots m).
Definition gc (m : hmap) (al : nat) (cycles seed : N) : out bool :=
  if N.eqb (nent m) 0 then Ret (SMax 0 :: if del then all_bounds m (fun _ => 0) else []) al true
  else
    let full := N.eqb cycles 0 in
    let '(ok, al) := if full && del then (match malloc al with (Some _, al) => (true, al) | (None, al) => (false, al) end) else (true, al) in
    if ok then
      match gc_loop m full cycles (map (fun i => N.to_nat ((N.of_nat i + seed) mod cap m)) (slots m)) (if full then 0 else pmax m) (fun _ => 0) with
      | Ret tr _ (mx, bs) =>
          Ret (tr ++ (if Nat.eqb mx (pmax m) then [] else [SMax mx]) ++ (if full && del then all_bounds m bs else [])) al true
      | Loop => Loop
      | Bad => Bad
      end
    else Ret [] al false.

(** ** Iteration, 108-155: the key and the iterator's new offset *)
Fixpoint next_loop (fuel : nat) (m : hmap) (off : nat) : option (N * nat) :=
  match fuel with
  | O => None
  | S fuel => if live (ents m off) then Some (val (ents m off), S off)
              else if Nat.ltb (S off) (N.to_nat (cap m)) then next_loop fuel m (S off) else None
  end.
Definition next (m : hmap) (off : nat) : option (N * nat) :=
  if Nat.leb (N.to_nat (cap m)) off then None else next_loop (N.to_nat (cap m) - off) m off.
(** a loop around ck_hs_next until it returns false; [None]: not within [fuel] calls *)
Fixpoint iterate (fuel : nat) (m : hmap) (off : nat) : option (list N) :=
  match fuel with
  | O => None
  | S fuel => match next m off with
              | None => Some []
              | Some (k, off) => option_map (cons k) (iterate fuel m off)
              end
  end.
(** ck_hs_count 175-180; ck_hs_stat 164-173 *)
Definition count (m : hmap) : N := nent m.
Definition stat (m : hmap) : N * N * nat := (nent m, tmb m, pmax m).
(** ck_hs_init, 942-966, with valid arguments *)
Definition init (al : nat) (n : N) : option hmap * nat :=
  match malloc al with (None, al) => (None, al) | (Some g, al) => (Some (create g n), al) end.
End HS.
