(** Model of ck_hs_get (src/ck_hs.c 875-900) by any number of threads while one writer runs
    the operations of Hs_Model.

    The writer's operations store one word at a time, in program order: the trace of stores is
    what Hs_Model computes when the operation starts (only the writer stores, so that its loads
    return what it stored).  A reader makes one load per step.  Maps that have been replaced
    are kept: a client frees them only when no reader can hold them (ck_hs_destroy of a map
    goes through the client's allocator with the flag [defer]). *)
From Coq Require Import Arith NArith List Bool.
From Verif Require Import Lib Helpers_Model Hs_Model Hs_Spec.
Import ListNotations.

(** program points of ck_hs_get; [k] the key, [i] the map, [g] the generation that was read *)
Inductive rst :=
| RIdle
| RMap (k : N)                                           (* 886: load hs->map *)
| RGen (k : N) (i : nat)                                 (* 888: load the generation *)
| RBnd (k : N) (i : nat) (g : N)                         (* 315-330: load probe_bound, or probe_maximum without it *)
| RMax (k : N) (i : nat) (g : N)                         (* 325-327: load probe_maximum, the bound being CK_HS_WORD_MAX *)
| RScan (k : N) (i : nat) (g : N) (lim : nat) (st : pst) (* 423-531: one slot per step *)
| RChk (k : N) (i : nat) (g v : N).                      (* 895-896: load the generation again *)

(** [maps]: the maps by number, [cur]: hs->map, [nxt]: the next number; [todo]: the stores the
    writer's operation has yet to make; [al]: calls of malloc; [cl]: the set as the client
    knows it from the results of its operations *)
Record cst := mkcs { maps : nat -> hmap; cur : nat; nxt : nat; todo : option (list store); al : nat; cl : list N; rd : nat -> rst }.

Inductive label := LCall (o : op) (fuel : nat) | LStore | LDone | LGet (t : nat) (k : N) | LRead (t : nat).
(** the writer calls [o], which will return [r]; signals a relocation; returns; a reader calls
    and returns; [EBad]: the writer stores through NULL *)
Inductive ev := ECall (o : op) (r : res) | ESig | EDone | EGet (t : nat) (k : N) | ERet (t : nat) (v : N) | EBad.

Section C.
Variables (del pp : bool) (hf : N -> N) (cmp : option (N -> N -> bool)) (ub : N -> N -> N) (oracle : nat -> option N).

(** correct use, decided *)
Definition validb (k : N) : bool := negb (N.eqb k 0) && (negb pp || N.ltb k (2 ^ 48)) && negb (N.eqb (marshal pp k (hf k)) TOMB).
Definition preb (A : list N) (o : op) : bool :=
  match o with
  | OPut k | OSet k | OFas k | ORemove k | OGet k => validb k
  | OPutUnique k => validb k && negb (mem cmp k A)
  | OApply k fn => let d := fn (obj cmp k A) in validb k && (N.eqb d 0 || validb d && same cmp d k)
  | _ => true
  end.

Definition set_rd (s : cst) (t : nat) (r : rst) : cst := mkcs (maps s) (cur s) (nxt s) (todo s) (al s) (cl s) (upd (rd s) t r).
Definition gen_of (s : cst) (i : nat) (k : N) : N := gen (maps s i) (N.odd (hf k)).

Definition rstep (s : cst) (t : nat) : option (cst * list ev) :=
  match rd s t with
  | RIdle => None
  | RMap k => Some (set_rd s t (RGen k (cur s)), [])
  | RGen k i => Some (set_rd s t (RBnd k i (gen_of s i k)), [])
  | RBnd k i g =>
      let m := maps s i in
      if del then
        let b := bnd m (N.to_nat (hidx m (hf k))) in
        if Nat.eqb b 255 then Some (set_rd s t (RMax k i g), []) else Some (set_rd s t (RScan k i g b (pinit m (hf k) b)), [])
      else Some (set_rd s t (RScan k i g (pmax m) (pinit m (hf k) (pmax m))), [])
  | RMax k i g => let m := maps s i in Some (set_rd s t (RScan k i g (pmax m) (pinit m (hf k) (pmax m))), [])
  | RScan k i g lim st =>
      match piter pp cmp ub (maps s i) lim BProbe (hf k) k st with
      | inl st => Some (set_rd s t (RScan k i g lim st), [])
      | inr r => Some (set_rd s t (RChk k i g (r_obj r)), [])
      end
  | RChk k i g v =>
      if N.eqb (gen_of s i k) g then Some (set_rd s t RIdle, [ERet t v]) else Some (set_rd s t (RMap k), [])
  end.

Definition step (s : cst) (l : label) : option (cst * list ev) :=
  match l with
  | LCall o fuel =>
      match todo s with
      | Some _ => None
      | None =>
          if preb (cl s) o then
            match run1 del pp hf cmp ub oracle fuel (maps s (cur s)) (al s) o with
            | Ret tr a r => Some (mkcs (maps s) (cur s) (nxt s) (Some tr) a (aop cmp (cl s) o r) (rd s), [ECall o r])
            | Loop => None
            | Bad => Some (s, [EBad])
            end
          else None
      end
  | LStore =>
      match todo s with
      | Some (SMap u :: tr) => Some (mkcs (upd (maps s) (nxt s) u) (nxt s) (S (nxt s)) (Some tr) (al s) (cl s) (rd s), [])
      | Some (x :: tr) =>
          Some (mkcs (upd (maps s) (cur s) (app1 (maps s (cur s)) x)) (cur s) (nxt s) (Some tr) (al s) (cl s) (rd s),
                match x with SGen _ => [ESig] | _ => [] end)
      | _ => None
      end
  | LDone =>
      match todo s with
      | Some [] => Some (mkcs (maps s) (cur s) (nxt s) None (al s) (cl s) (rd s), [EDone])
      | _ => None
      end
  | LGet t k =>
      match rd s t with
      | RIdle => if validb k then Some (set_rd s t (RMap k), [EGet t k]) else None
      | _ => None
      end
  | LRead t => rstep s t
  end.

(** after ck_hs_init with room for [n] and [g] in the field left uninitialised *)
Definition cinit (g n : N) : cst := mkcs (fun _ => create g n) 0 1 None 0 [] (fun _ => RIdle).
End C.
