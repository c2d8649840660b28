(** Model of ck_rhs_get (src/ck_rhs.c 1398-1426) by any number of threads while one writer runs
    the operations of Rhs_Model.

    The writer's operations store one word at a time, in program order: the stores are what
    Rhs_Model records in [hist] when the operation starts (only the writer stores, so that its
    loads return what it stored).  A reader makes one load per step.  Loads and stores are
    sequentially consistent.  Maps that have been replaced are kept: the client's allocator
    frees them only when no reader can hold them (flag [defer]).

    A step of the writer is not possible where C59 already finds the code wrong: the set is
    larger than in [room], or ck_rhs_fas replaces the map. *)
From Coq Require Import Arith NArith List Bool FMapPositive.
From Verif Require Import Lib Helpers_Model Rhs_Model Rhs_Spec.
Import ListNotations.

(** what a reader sees as a map of Rhs_Model, which it only reads; of the members that are not
    seen only plim (not used by readers) is not zero *)
Definition asmap (v : vmap) : rmap :=
  mkm (v_cap v) (N.to_nat (N.max (v_cap v / 32) 64)) 0 (v_ent v) (PositiveMap.empty _) (PositiveMap.empty _) (v_bnd v) (PositiveMap.empty _) (v_max v) 0 [].
(** one store into the current map *)
Definition vstore (v : vmap) (s : store) : vmap :=
  match s with
  | SEnt i w => mkv (v_cap v) (aset (v_ent v) i w) (v_bnd v) (v_max v)
  | SBnd i n => mkv (v_cap v) (v_ent v) (aset (v_bnd v) i n) (v_max v)
  | SMax n => mkv (v_cap v) (v_ent v) (v_bnd v) n
  | SGen _ | SMap _ => v
  end.

(** program points of ck_rhs_get; [k] the key, [i] the map, [g] the generation that was read *)
Inductive rst :=
| RIdle
| RMap (k : N)                                           (* 1411: load hs->map *)
| RGen (k : N) (i : nat)                                 (* 1413: load the generation *)
| RBnd (k : N) (i : nat) (g : N)                         (* 483-487: load probe_bound, or probe_maximum in read-mostly mode *)
| RMax (k : N) (i : nat) (g : N)                         (* 488-489: load probe_maximum, the bound being CK_RHS_WORD_MAX *)
| RScan (k : N) (i : nat) (g : N) (lim : nat) (st : pst) (* 622-680, 734-787: one slot per step *)
| RChk (k : N) (i : nat) (g v : N).                      (* 1421-1422: load the generation again *)

(** [maps], [gens]: the maps and their generation arrays by number, [cur]: hs->map, [nxt]: the
    next number; [todo]: the stores the writer's operation has yet to make; [whs]: the set as
    the writer will leave it; [cl]: the set as the client knows it from the results of its
    operations *)
Record cst := mkcs {
  maps : nat -> vmap; gens : nat -> N -> N; cur : nat; nxt : nat; todo : option (list store); whs : hset; cl : list N; rd : nat -> rst }.

Inductive label := LCall (o : op) (fuel : nat) | LStore | LDone | LGet (t : nat) (k : N) | LRead (t : nat).
(** the writer calls [o], which will return [r]; increments a generation; makes a map with [c]
    slots the current one; returns; a reader calls and returns; [EBad]: the writer stores through slot -1 *)
Inductive ev := ECall (o : op) (r : res) | ESig | EMap (c : N) | EDone | EGet (t : nat) (k : N) | ERet (t : nat) (v : N) | EBad.

Section C.
Variables (rmode pp : bool) (hf : N -> N) (cmp : option (N -> N -> bool)) (oracle : nat -> bool).

(** correct use, decided *)
Definition validb (k : N) : bool := negb (N.eqb k 0) && (negb pp || N.ltb k (2 ^ 48)).
Definition preb (A : list N) (o : op) : bool :=
  match o with
  | OPut k | OSet k | OFas k | ORemove k | OGet k => validb k
  | OPutUnique k => validb k && negb (mem cmp k A)
  | OApply k fn => let d := fn (obj cmp k A) in validb k && (N.eqb d 0 || validb d && same cmp d k)
  | _ => true
  end.
Definition roomb (A : list N) : bool := Nat.leb (length A) (if rmode then 512 else 253).
Definition quietb (o : op) (hs hs' : hset) : bool := match o with OFas _ => Nat.eqb (alc hs') (alc hs) | _ => true end.
(** the stores of an operation, the first one first *)
Definition stores (m m' : rmap) : list store := rev (firstn (length (hist m') - length (hist m)) (hist m')).

Definition set_rd (s : cst) (t : nat) (r : rst) : cst := mkcs (maps s) (gens s) (cur s) (nxt s) (todo s) (whs s) (cl s) (upd (rd s) t r).
(** 1412: the index is the hash modulo CK_RHS_G = 1024 *)
Definition gen_of (s : cst) (i : nat) (k : N) : N := gens s i (hf k mod 1024)%N.
Definition scan0 (v : vmap) (h : N) (lim : nat) : pst := mkp (h mod v_cap v)%N 0 lim None 0.

Definition rstep (s : cst) (t : nat) : option (cst * list ev) :=
  match rd s t with
  | RIdle => None
  | RMap k => Some (set_rd s t (RGen k (cur s)), [])
  | RGen k i => Some (set_rd s t (RBnd k i (gen_of s i k)), [])
  | RBnd k i g =>
      let v := maps s i in
      if rmode then Some (set_rd s t (RScan k i g (v_max v) (scan0 v (hf k) (v_max v))), [])
      else
        let b := aget 0 (v_bnd v) (hf k mod v_cap v)%N in
        if Nat.eqb b WORD_MAX then Some (set_rd s t (RMax k i g), []) else Some (set_rd s t (RScan k i g b (scan0 v (hf k) b)), [])
  | RMax k i g => let v := maps s i in Some (set_rd s t (RScan k i g (v_max v) (scan0 v (hf k) (v_max v))), [])
  | RScan k i g lim st =>
      match piter rmode pp cmp (asmap (maps s i)) lim BNoRh (hf k) k st with
      | inl st => Some (set_rd s t (RScan k i g lim st), [])
      | inr r => Some (set_rd s t (RChk k i g (r_obj r)), [])
      end
  | RChk k i g v =>
      if N.eqb (gen_of s i k) g then Some (set_rd s t RIdle, [ERet t v]) else Some (set_rd s t (RMap k), [])
  end.

Definition bump1 (f : N -> N) (i : N) : N -> N := fun j => if N.eqb j i then ((f i + 1) mod 2 ^ 32)%N else f j.
Definition step (s : cst) (l : label) : option (cst * list ev) :=
  match l with
  | LCall o fuel =>
      match todo s with
      | Some _ => None
      | None =>
          if preb (cl s) o && roomb (cl s) then
            match run1 rmode pp hf cmp oracle fuel (whs s) o with
            | Ret (hs, r) =>
                if quietb o (whs s) hs then
                  Some (mkcs (maps s) (gens s) (cur s) (nxt s) (Some (stores (mp (whs s)) (mp hs))) hs (aop cmp (cl s) o r) (rd s), [ECall o r])
                else None
            | Loop | Stale => None
            | Null => Some (s, [EBad])
            end
          else None
      end
  | LStore =>
      match todo s with
      | Some (SMap u :: tr) =>
          Some (mkcs (upd (maps s) (nxt s) u) (upd (gens s) (nxt s) (fun _ => 0%N)) (nxt s) (S (nxt s)) (Some tr) (whs s) (cl s) (rd s), [EMap (v_cap u)])
      | Some (SGen i :: tr) =>
          Some (mkcs (maps s) (upd (gens s) (cur s) (bump1 (gens s (cur s)) i)) (cur s) (nxt s) (Some tr) (whs s) (cl s) (rd s), [ESig])
      | Some (x :: tr) =>
          Some (mkcs (upd (maps s) (cur s) (vstore (maps s (cur s)) x)) (gens s) (cur s) (nxt s) (Some tr) (whs s) (cl s) (rd s), [])
      | _ => None
      end
  | LDone =>
      match todo s with
      | Some [] => Some (mkcs (maps s) (gens s) (cur s) (nxt s) None (whs s) (cl s) (rd s), [EDone])
      | _ => None
      end
  | LGet t k =>
      match rd s t with
      | RIdle => if validb k then Some (set_rd s t (RMap k), [EGet t k]) else None
      | _ => None
      end
  | LRead t => rstep s t
  end.

(** after ck_rhs_init with room for [n] *)
Definition cinit (n : N) : cst := mkcs (fun _ => view (create 50 n)) (fun _ _ => 0%N) 0 1 None (mks (create 50 n) 50 1) [] (fun _ => RIdle).
End C.
