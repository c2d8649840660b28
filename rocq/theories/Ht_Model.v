(** Model of src/ck_ht.c (hash table) and of the types of include/ck_ht.h, 64-bit platform,
    CK_HT_PP not defined (the default: no pointer packing), CK_HT_TYPE = uint64_t, 32-byte
    entries, CK_MD_CACHELINE = 64 (2 slots per bucket, entries aligned), 8-bit bounds.

    [dl] is CK_HT_WORKLOAD_DELETE, [bs] is CK_HT_MODE_BYTESTRING (otherwise CK_HT_MODE_DIRECT).
    [memeq n a b] is memcmp(a, b, n) == 0; the bytes of keys do not change.
    As in Hs_Model: [ub] is the value of a shift by 64 or more (undefined behaviour in C), the
    writer's operations compute the list of their stores in program order, [app] applies them,
    and [oracle i] tells whether the i-th call of malloc succeeds. *)
From Coq Require Import Arith NArith List Bool.
From Verif Require Import Lib Helpers_Model.
Import ListNotations.

Definition TOMB : N := 2 ^ 64 - 1.
Definition live (w : N) : bool := negb (N.eqb w 0) && negb (N.eqb w TOMB).

(** struct ck_ht_entry, ck_ht.h 71-80 *)
Record ent := mke { ek : N; ev : N; el : N; eh : N }.
(** struct ck_ht_map, 81-94.  [mask] is cap - 1, [step] is log2 cap + 1 (ck_cc_ffsll). *)
Record tmap := mkt { cap : N; ents : nat -> ent; pmax : nat; bnd : nat -> nat; plim : nat; nent : N; dlt : N }.

(** [SDel]: ++deletions; [SMax], [SBnd]: probe_maximum and probe_bound; [SCnt]: n_entries;
    [SMap]: table->map *)
Inductive store :=
| SKey (s : nat) (k : N) | SVal (s : nat) (v : N) | SLen (s : nat) (l : N) | SHash (s : nat) (h : N)
| SDel | SMax (v : nat) | SBnd (o v : nat) | SCnt (n : N) | SMap (m : tmap).

Definition set_ent (m : tmap) (s : nat) (e : ent) : tmap := mkt (cap m) (upd (ents m) s e) (pmax m) (bnd m) (plim m) (nent m) (dlt m).
Definition app1 (m : tmap) (x : store) : tmap :=
  match x with
  | SKey s k => let e := ents m s in set_ent m s (mke k (ev e) (el e) (eh e))
  | SVal s v => let e := ents m s in set_ent m s (mke (ek e) v (el e) (eh e))
  | SLen s l => let e := ents m s in set_ent m s (mke (ek e) (ev e) l (eh e))
  | SHash s h => let e := ents m s in set_ent m s (mke (ek e) (ev e) (el e) h)
  | SDel => mkt (cap m) (ents m) (pmax m) (bnd m) (plim m) (nent m) ((dlt m + 1) mod 2 ^ 64)%N
  | SMax v => mkt (cap m) (ents m) v (bnd m) (plim m) (nent m) (dlt m)
  | SBnd o v => mkt (cap m) (ents m) (pmax m) (upd (bnd m) o v) (plim m) (nent m) (dlt m)
  | SCnt n => mkt (cap m) (ents m) (pmax m) (bnd m) (plim m) n (dlt m)
  | SMap m' => m'
  end.
Definition app (m : tmap) (tr : list store) : tmap := fold_left app1 tr m.

(** outcomes: [Loop]: the fuel for restarts ran out; [Bad]: access through NULL *)
Inductive out (A : Type) := Ret (tr : list store) (al : nat) (r : A) | Loop | Bad.
Arguments Ret {A}. Arguments Loop {A}. Arguments Bad {A}.

(** an entry a client passes to put or set, made by ck_ht_entry_set or ck_ht_entry_set_direct
    (ck_ht.h 174-213): key, value, length and hash *)
Definition fill (s : nat) (e : ent) : list store := [SLen s (el e); SHash s (eh e); SVal s (ev e); SKey s (ek e)].

Section HT.
Variables (dl bs : bool) (memeq : N -> N -> N -> bool) (ub : N -> N -> N) (oracle : nat -> bool).

(** ck_ht_map_create, 138-187, after a successful malloc; ck_internal_power_2 takes 32 bits *)
Definition create (entries : N) : tmap :=
  let n := ck_internal_power_2 (entries mod 2 ^ 32) in
  let n := if N.ltb n 2 then 2%N else n in
  mkt n (fun _ => mke 0 0 0 0) 0 (fun _ => 0) (N.to_nat (N.max (N.shiftr n 3) 64)) 0 0.

(** h & mask *)
Definition hidx (m : tmap) (h : N) : N := (h mod cap m)%N.

(** ck_ht_map_probe_next, 236-248 *)
Definition probe_next (m : tmap) (offset h probes : N) : N :=
  let level := N.shiftr probes 1 in
  let r0 := N.shiftr h (N.log2 (cap m) + 1) in
  let r := if N.ltb level 64 then N.shiftr r0 level else ub r0 level in
  let stride := N.lor (N.shiftl (r mod 2 ^ 32 - r mod 2) 1) (r mod 2) in
  ((offset + level + N.lor stride 2) mod cap m)%N.

(** ck_ht_map_bound_set, 189-208 *)
Definition bound_set (m : tmap) (h : N) (n : nat) : list store :=
  let o := N.to_nat (hidx m h) in
  (if Nat.ltb (pmax m) n then [SMax n] else []) ++
  (if dl && Nat.ltb (bnd m o) n then [SBnd o (if Nat.leb 255 n then 255 else n)] else []).
(** ck_ht_map_bound_get, 210-225 *)
Definition bound_get (m : tmap) (h : N) : nat :=
  if dl then let r := bnd m (N.to_nat (hidx m h)) in if Nat.eqb r 255 then pmax m else r else pmax m.

(** ** Probing *)
(** offset, i, j, probes, first, *probe_wr *)
Record pst := mkp { q_off : N; q_i : nat; q_j : nat; q_n : nat; q_pr : option nat; q_np : nat }.
(** 303-313, 514-524: the slot looked at *)
Definition cursor (off : N) (j : nat) : nat := N.to_nat (off / 2 * 2 + (N.of_nat j + off) mod 2).
(** the next bucket, [n] probes having been counted *)
Definition nextb (m : tmap) (h : N) (st : pst) (n : nat) (pr : option nat) (np : nat) : pst :=
  mkp (probe_next m (q_off st) h (N.of_nat n)) (S (q_i st)) 0 n pr np.
(** the end of an iteration of the inner loop *)
Definition adv (m : tmap) (h : N) (st : pst) (pr : option nat) (np : nat) : pst :=
  if Nat.eqb (S (q_j st)) 2 then nextb m h st (S (q_n st)) pr np
  else mkp (q_off st) (q_i st) (S (q_j st)) (S (q_n st)) pr np.
Definition pinit (m : tmap) (h : N) : pst := mkp (hidx m h) 0 0 0 None 0.
(** 331-357, 545-576: does a live entry match; lengths are compared as uint16_t *)
Definition match_ent (e : ent) (k l h : N) : bool :=
  N.eqb (ek e) k ||
  bs && N.eqb (el e mod 2 ^ 16) (l mod 2 ^ 16) && N.eqb (eh e) h && memeq (l mod 2 ^ 16) (ek e) k.

(** cursor, available, probes, *probe_wr *)
Record pres := mkr { r_cur : option nat; r_pr : option nat; r_n : nat; r_np : nat }.
(** ck_ht_map_probe_wr 277-380, one iteration of the inner loop; [lim] None: CK_HT_TYPE_MAX.
    The break of 308 leaves only the inner loop. *)
Definition wr_iter (m : tmap) (lim : option nat) (k l h : N) (st : pst) : pst + pres :=
  if Nat.eqb (q_i st) (plim m) then inr (mkr None (q_pr st) (q_n st) (q_np st))
  else if match lim with Some b => Nat.ltb b (q_n st) | None => false end
  then inl (nextb m h st (S (q_n st)) (q_pr st) (q_np st))
  else
    let s := cursor (q_off st) (q_j st) in
    let e := ents m s in
    if N.eqb (ek e) TOMB then
      match q_pr st with
      | None => inl (adv m h st (Some s) (S (q_n st)))
      | Some f => inl (adv m h st (Some f) (q_np st))
      end
    else if N.eqb (ek e) 0 || match_ent e k l h then inr (mkr (Some s) (q_pr st) (S (q_n st)) (q_np st))
    else inl (adv m h st (q_pr st) (q_np st)).
Fixpoint wr_loop (fuel : nat) (m : tmap) (lim : option nat) (k l h : N) (st : pst) : option pres :=
  match fuel with
  | O => None
  | S fuel => match wr_iter m lim k l h st with inr r => Some r | inl st => wr_loop fuel m lim k l h st end
  end.
(** 367-371: with a limit, and no tombstone, *probe_wr is the number of probes.  [None]: the
    loop does not end within 2 * probe_limit slots. *)
Definition probe_wr (m : tmap) (k l h : N) (bounded : bool) : option pres :=
  option_map (fun r => if bounded then mkr (r_cur r) (r_pr r) (r_n r) (match r_pr r with None => r_n r | Some _ => r_np r end) else r)
    (wr_loop (S (2 * plim m)) m (if bounded then Some (bound_get m h) else None) k l h (pinit m h)).
(** ck_ht_map_probe_rd 494-598, no other thread being active: deletions does not change *)
Definition rd_iter (m : tmap) (lim : nat) (k l h : N) (st : pst) : pst + option nat :=
  if Nat.eqb (q_i st) (plim m) then inr None
  else if Nat.ltb lim (q_n st) then inr None
  else
    let s := cursor (q_off st) (q_j st) in
    let e := ents m s in
    if N.eqb (ek e) TOMB then inl (adv m h st None 0)
    else if N.eqb (ek e) 0 || match_ent e k l h then inr (Some s)
    else inl (adv m h st None 0).
Fixpoint rd_loop (fuel : nat) (m : tmap) (lim : nat) (k l h : N) (st : pst) : option (option nat) :=
  match fuel with
  | O => None
  | S fuel => match rd_iter m lim k l h st with inr r => Some r | inl st => rd_loop fuel m lim k l h st end
  end.
Definition probe_rd (m : tmap) (k l h : N) : option (option nat) :=
  rd_loop (S (2 * plim m)) m (bound_get m h) k l h (pinit m h).

(** ** ck_ht_grow_spmc, 655-741 *)
(** placing one entry in the new map, 700-722: the slot and the number of probes *)
Fixpoint place (fuel : nat) (u : tmap) (h : N) (st : pst) : option (nat * nat) :=
  match fuel with
  | O => None
  | S fuel =>
      let s := cursor (q_off st) (q_j st) in
      if Nat.eqb (q_i st) (plim u) then None
      else if N.eqb (ek (ents u s)) 0 then Some (s, S (q_n st))
      else place fuel u h (adv u h st None 0)
  end.
Fixpoint rehash (m u : tmap) (ks : list nat) : option tmap :=
  match ks with
  | [] => Some u
  | k :: ks =>
      let e := ents m k in
      if live (ek e) then
        let h := eh e in
        match place (S (2 * plim u)) u h (pinit u h) with
        | None => None
        | Some (s, n) =>
            let u1 := app1 (set_ent u s e) (SCnt (nent u + 1)) in
            rehash m (app u1 (bound_set u1 h n)) ks
        end
      else rehash m u ks
  end.
Definition slots (m : tmap) : list nat := seq 0 (N.to_nat (cap m)).
Fixpoint grow_loop (fuel : nat) (m : tmap) (al : nat) (capacity : N) : out bool :=
  match fuel with
  | O => Loop
  | S fuel =>
      if N.leb capacity (cap m) then Ret [] al false
      else if oracle al then
          match rehash m (create capacity) (slots m) with
          | Some u => Ret [SMap u] (S al) true
          | None => grow_loop fuel m (S al) (capacity * 2 mod 2 ^ 64)%N
          end
      else Ret [] (S al) false
  end.
Definition grow (m : tmap) (al : nat) (capacity : N) : out bool := grow_loop 66 m al capacity.

(** ck_ht_reset_size_spmc 632-645, ck_ht_reset_spmc 647-653 *)
Definition reset_size (m : tmap) (al : nat) (size : N) : out bool :=
  if oracle al then Ret [SMap (create size)] (S al) true else Ret [] (S al) false.
Definition reset (m : tmap) (al : nat) : out bool := reset_size m al (cap m).

(** [tr] has been stored; go on with the result of [x] *)
Definition after {A} (tr : list store) (x : out A) : out A :=
  match x with Ret tr2 al r => Ret (tr ++ tr2) al r | Loop => Loop | Bad => Bad end.
(** 941-943, 1019-1021: enforce a load factor of 0.5; the result of growing is ignored *)
Definition postgrow {A} (m : tmap) (tr : list store) (al : nat) (r : A) : out A :=
  let m1 := app m tr in
  if N.ltb (cap m1) (nent m1 * 2) then
    match grow m1 al (cap m1 * 2) with Ret tr2 al _ => Ret (tr ++ tr2) al r | Loop => Loop | Bad => Bad end
  else Ret tr al r.

(** ck_ht_put_spmc, 955-1025; the client passes the entry [e] and the hash [h] *)
Fixpoint put (fuel : nat) (m : tmap) (al : nat) (e : ent) (h : N) : out bool :=
  match fuel with
  | O => Loop
  | S fuel =>
      match probe_wr m (ek e) (el e) h false with
      | None => Loop
      | Some r =>
          let store_at (tr : list store) (s n : nat) :=
            let tr := tr ++ bound_set m h n ++ fill s e in
            postgrow m (tr ++ [SCnt (nent m + 1)]) al true in
          match r_pr r, r_cur r with
          | None, None =>
              match grow m al (cap m * 2) with
              | Ret tr al true => after tr (put fuel (app m tr) al e h)
              | Ret tr al false => Ret tr al false
              | Loop => Loop
              | Bad => Bad
              end
          | Some f, _ => store_at [SDel] f (r_np r)
          | None, Some s => if live (ek (ents m s)) then Ret [] al false else store_at [] s (r_n r)
          end
      end
  end.

(** ck_ht_set_spmc, 818-953: the boolean, and key and value of *entry on return *)
Fixpoint set (fuel : nat) (m : tmap) (al : nat) (e : ent) (h : N) : out (bool * N * N) :=
  match fuel with
  | O => Loop
  | S fuel =>
      match probe_wr m (ek e) (el e) h false with
      | None => Loop
      | Some r =>
          match r_pr r, r_cur r with
          | None, None =>
              match grow m al (cap m * 2) with
              | Ret tr al true => after tr (set fuel (app m tr) al e h)
              | Ret tr al false => Ret tr al (false, ek e, ev e)
              | Loop => Loop
              | Bad => Bad
              end
          | Some f, c =>
              match (match c with Some s => if N.eqb (ek (ents m s)) 0 then None else Some s | None => None end) with
              | Some s => (* 868-897: moved; [s] is live, so it is not the tombstone [f] *)
                  let tr := [SLen f (el e); SHash f (eh e)] ++ (if N.eqb (ev (ents m f)) TOMB then [SDel] else []) ++
                            [SVal f (ev e); SKey f (ek e); SDel; SKey s TOMB] in
                  postgrow m (tr ++ bound_set (app m tr) h (r_np r)) al (true, ek (ents m s), ev (ents m s))
              | None => (* 898-935: the tombstone is used *)
                  let tr := (if N.eqb (ek (ents m f)) TOMB then [SDel] else []) ++ fill f e ++ [SCnt (nent m + 1)] in
                  postgrow m (tr ++ bound_set (app m tr) h (r_np r)) al
                    (match c with Some s => (true, ek (ents m s), ev (ents m s)) | None => (true, 0%N, ev e) end)
              end
          | None, Some s =>
              let old := ents m s in
              let tr := fill s e ++ (if live (ek old) then [] else [SCnt (nent m + 1)]) in
              postgrow m (tr ++ bound_set (app m tr) h (r_n r)) al (true, ek old, ev old)
          end
      end
  end.

(** ck_ht_get_spmc, 775-816, no other thread being active: the boolean, and key and value *)
Definition get (m : tmap) (k l h : N) : option (bool * N * N) :=
  option_map (fun r => match r with
    | Some s => let e := ents m s in if N.eqb (ek e) 0 then (false, 0%N, 0%N) else (true, ek e, ev e)
    | None => (false, 0%N, 0%N) end) (probe_rd m k l h).
(** ck_ht_remove_spmc, 743-773 *)
Definition remove (m : tmap) (al : nat) (k l h : N) : out (bool * N * N) :=
  match probe_rd m k l h with
  | None => Loop
  | Some None => Ret [] al (false, 0%N, 0%N)
  | Some (Some s) =>
      let e := ents m s in
      if N.eqb (ek e) 0 then Ret [] al (false, 0%N, 0%N)
      else Ret [SKey s TOMB; SCnt (nent m - 1)] al (true, ek e, ev e)
  end.

(** ** ck_ht_gc, 382-491 *)
(** the loop, 412-477, over the remaining slots; [full]: cycles was 0 *)
Fixpoint gc_loop (m : tmap) (full : bool) (cycles : N) (ks : list nat) (mx : nat) (bds : nat -> nat) : out (nat * (nat -> nat)) :=
  match ks with
  | [] => Ret [] 0 (mx, bds)
  | k :: ks =>
      let e := ents m k in
      if live (ek e) then
        let h := eh e in
        match probe_wr m (ek e) (el e) h true with
        | None => Loop
        | Some r =>
            match (match r_pr r with
                   | None => Some []
                   | Some f =>
                       match r_cur r with
                       | Some s =>
                           let x := ents m s in
                           Some [SDel; SLen f (el x); SHash f (eh x); SVal f (ev x); SKey f (ek x); SDel; SKey s TOMB]
                       | None => None
                       end
                   end) with
            | None => Bad
            | Some tr =>
                if full then
                  let o := N.to_nat (hidx m h) in
                  let n := r_np r in
                  let mx := if Nat.ltb mx n then n else mx in
                  let n := if Nat.leb 255 n then 255 else n in
                  after tr (gc_loop (app m tr) full cycles ks mx (if dl && Nat.ltb (bds o) n then upd bds o n else bds))
                else if N.eqb cycles 1 then Ret tr 0 (mx, bds)
                else after tr (gc_loop (app m tr) full (cycles - 1) ks mx bds)
            end
        end
      else gc_loop m full cycles ks mx bds
  end.
Definition all_bounds (m : tmap) (bds : nat -> nat) : list store := map (fun o => SBnd o (bds o)) (slots m).
Definition gc (m : tmap) (al : nat) (cycles seed : N) : out bool :=
  if N.eqb (nent m) 0 then Ret (SMax 0 :: if dl then all_bounds m (fun _ => 0) else []) al true
  else
    let full := N.eqb cycles 0 in
    let '(ok, al) := if full && dl then (oracle al, S al) else (true, al) in
    if ok then
      match gc_loop m full cycles (map (fun i => N.to_nat ((N.of_nat i + seed) mod cap m)) (slots m)) (if full then 0 else pmax m) (fun _ => 0) with
      | Ret tr _ (mx, bds) =>
          Ret (tr ++ (if Nat.eqb mx (pmax m) then [] else [SMax mx]) ++ (if full && dl then all_bounds m bds else [])) al true
      | Loop => Loop
      | Bad => Bad
      end
    else Ret [] al false.

(** ** Iteration, 608-630: the entry and the iterator's new offset *)
Fixpoint next_loop (fuel : nat) (m : tmap) (off : nat) : option (ent * nat) :=
  match fuel with
  | O => None
  | S fuel => if live (ek (ents m off)) then Some (ents m off, S off)
              else if Nat.ltb (S off) (N.to_nat (cap m)) then next_loop fuel m (S off) else None
  end.
Definition next (m : tmap) (off : nat) : option (ent * nat) :=
  if Nat.leb (N.to_nat (cap m)) off then None else next_loop (N.to_nat (cap m) - off) m off.
(** a loop around ck_ht_next until it returns false; [None]: not within [fuel] calls *)
Fixpoint iterate (fuel : nat) (m : tmap) (off : nat) : option (list ent) :=
  match fuel with
  | O => None
  | S fuel => match next m off with
              | None => Some []
              | Some (e, off) => option_map (cons e) (iterate fuel m off)
              end
  end.
(** ck_ht_count 600-606; ck_ht_stat 96-105 *)
Definition count (m : tmap) : N := nent m.
Definition stat (m : tmap) : nat * N := (pmax m, nent m).
(** ck_ht_init, 250-275, with valid arguments *)
Definition init (al : nat) (n : N) : option tmap * nat := (if oracle al then Some (create n) else None, S al).
End HT.
