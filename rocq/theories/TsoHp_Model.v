(** Hazard pointers (src/ck_hp.c, include/ck_hp.h) on x86-TSO, with clients that publish objects in
    shared pointers, read them under hazard pointers, unlink and destroy them.

    Locations: [HZ h] is hazard pointer [h] (an entry of record->pointers), [Dat j] is a pointer of the
    client (0 is NULL).  The records [recs], each the list of its hazard pointers, are in use from the
    start and stay so, in the order of global->subscribers (register, unregister and recycle are in
    Hp_Model.v); hazard pointer [h] belongs to thread [own h].  The pending list and the cache are private
    to the thread and kept in its local state; the cache is the list of its values ([mem_Z] for qsort and
    bsearch).  ck_hp_free is ck_hp_retire, then perhaps ck_hp_reclaim; ck_hp_purge is repeated
    ck_hp_reclaim: both are covered because the client may call ck_hp_reclaim at any time. *)
From Coq Require Import ZArith Arith List Bool.
From Verif Require Import Lib Tso TsoHp_Spec.
Import ListNotations.
Local Open Scope Z_scope.

Definition HZ (h : nat) : loc := Reg h.
(** include/ck_hp.h:35-37 *)
Definition CACHE : nat := 512.

Inductive pc :=
| Idle
| H1 (h j : nat) | H2 (h j : nat) (p : Z) | H3 (h j : nat) (p : Z)   (* the client protects what pointer j refers to *)
| U1 (j : nat) (x : Z) | U2 (j : nat) (x old : Z)                   (* the client: load the pointer, then store x *)
| Ca (c : list Z) (rest cur : list nat) (more : list (list nat))     (* ck_hp_member_cache: in record [cur] *)
| Dp (c : list Z) (mk : list nat) (todo : list Z)                    (* ck_hp_reclaim: over the pending list; hazards from the marker on *)
| Sc (c : list Z) (mk : list nat) (todo : list Z) (rest : list nat). (* ck_hp_member_scan for the first of [todo] *)

(** [pend]: the pending list; [got], [gotp]: objects the client has unlinked by an atomic exchange, by a
    plain store. *)
Record thr := mkL { at_ : pc; pend : list Z; got : list Z; gotp : list Z }.
Definition to (l : thr) (p : pc) : thr := mkL p (pend l) (got l) (gotp l).

Inductive act :=
| AProtect (h j : nat) | AClear (h : nat)
| AXchg (j : nat) (x : Z) | AStore (j : nat) (x : Z) | AFence
| ARetire (x : Z) | AReclaim | ATick.

Definition obj (x : Z) : list Z := if x =? 0 then [] else [x].
Definition al (x : Z) : list hev := map Alloc (obj x).

Section Code.
Variable recs : list (list nat).
Variable own : nat -> nat.
Variable wr : nat -> option nat.     (* pointer j is stored to by that thread only, or exchanged by anybody *)
Variable lax : bool.                 (* ck_hp_retire may follow an unlink by a plain store *)
Variable cache : nat.                (* CK_HP_CACHE *)

Definition mine (t h : nat) : bool := Nat.eqb (own h) t && existsb (Nat.eqb h) (concat recs).

(** src/ck_hp.c:202-222: next record, or done *)
Definition cnext (c : list Z) (more : list (list nat)) (todo : list Z) : pc :=
  match more with [] => Dp c [] todo | r :: more => Ca c r r more end.

Definition code (t : nat) (l : thr) (a : act) : option (instr thr hev) :=
  match at_ l with
  | Idle =>
      match a with
      (* the client: load, ck_hp_set_fence (include/ck_hp.h:83-97: fas on TSO), load again *)
      | AProtect h j => if mine t h then Some (Local (to l (H1 h j)) []) else None
      (* ck_hp_clear (100-110), ck_hp_set (75-81) to NULL *)
      | AClear h => if mine t h then Some (St (HZ h) 0 l [Done h]) else None
      (* the client unlinks: atomic exchange of a pointer everybody writes *)
      | AXchg j x =>
          match wr j with
          | None => Some (Rmw (Dat j) (fun _ => x) (fun v => (mkL Idle (pend l) (obj v ++ got l) (gotp l), al x)))
          | Some _ => None
          end
      (* load and plain store of a pointer that only this thread writes *)
      | AStore j x => match wr j with Some u => if Nat.eqb u t then Some (Local (to l (U1 j x)) []) else None | None => None end
      (* a full fence after plain stores *)
      | AFence => Some (Fence (mkL Idle (pend l) (gotp l ++ got l) []) [])
      (* ck_hp_retire, src/ck_hp.c:293-309 *)
      | ARetire x =>
          if mem_Z x (got l) || (lax && mem_Z x (gotp l))
          then Some (Local (mkL Idle (x :: pend l) (remove Z.eq_dec x (got l)) (remove Z.eq_dec x (gotp l))) [])
          else None
      (* ck_hp_reclaim, src/ck_hp.c:229-291: 240 fill the cache *)
      | AReclaim => Some (Local (to l (cnext [] recs (pend l))) [])
      | ATick => None
      end
  | H1 h j => match a with ATick => Some (Ld (Dat j) (fun v => (to l (if v =? 0 then Idle else H2 h j v), []))) | _ => None end
  | H2 h j p => match a with ATick => Some (Rmw (HZ h) (fun _ => p) (fun _ => (to l (H3 h j p), [Done h]))) | _ => None end
  | H3 h j p => match a with ATick => Some (Ld (Dat j) (fun v => (to l Idle, if v =? p then [Ref h p] else []))) | _ => None end
  | U1 j x => match a with ATick => Some (Ld (Dat j) (fun v => (to l (U2 j x v), []))) | _ => None end
  | U2 j x v => match a with ATick => Some (St (Dat j) x (mkL Idle (pend l) (got l) (obj v ++ gotp l)) (al x)) | _ => None end
  (* ck_hp_member_cache, src/ck_hp.c:193-227: 215-216 cache full: the marker is this record; 218-220 *)
  | Ca c rest cur more =>
      match a with
      | ATick =>
          match rest with
          | [] => Some (Local (to l (cnext c more (pend l))) [])
          | h :: rest =>
              if Nat.leb cache (length c) then Some (Local (to l (Dp c (cur ++ concat more) (pend l))) [])
              else Some (Ld (HZ h) (fun v => (to l (Ca (obj v ++ c) rest cur more), [])))
          end
      | _ => None
      end
  (* src/ck_hp.c:253-288: 257 cache, 271 scan from the marker on, 276-287 remove and destroy *)
  | Dp c mk todo =>
      match a with
      | ATick =>
          match todo with
          | [] => Some (Local (to l Idle) [])
          | x :: todo' =>
              if mem_Z x c then Some (Local (to l (Dp c mk todo')) [])
              else Some (Local (to l (Sc c mk todo mk)) [])
          end
      | _ => None
      end
  (* ck_hp_member_scan, src/ck_hp.c:164-187 *)
  | Sc c mk todo rest =>
      match a, todo with
      | ATick, x :: todo' =>
          match rest with
          | [] => Some (Local (mkL (Dp c mk todo') (remove Z.eq_dec x (pend l)) (got l) (gotp l)) [Free x])
          | h :: rest => Some (Ld (HZ h) (fun v => (to l (if v =? x then Dp c mk todo' else Sc c mk todo rest), [])))
          end
      | _, _ => None
      end
  end.
End Code.

Definition arr (t : nat) (x : loc) (v : Z) : list hev := [].
Definition init : tso thr := mkT (fun _ => 0) (fun _ => []) (fun _ => mkL Idle [] [] []).
