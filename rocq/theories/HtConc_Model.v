(** Model of ck_ht_get_spmc (src/ck_ht.c 775-816) by any number of threads while one writer runs
    the operations of Ht_Model.

    As in HsConc_Model: the writer's operations store one field at a time, in program order, the
    trace of stores being what Ht_Model computes when the operation starts; a reader makes one
    load per step; maps that have been replaced are kept (a client frees them only when no
    reader can hold them). *)
From Coq Require Import Arith NArith List Bool.
From Verif Require Import Lib Helpers_Model Ht_Model Ht_Spec.
Import ListNotations.

(** the lookup: key, length, the map, [deletions] as read by ck_ht_get_spmc (791) *)
Record rx := mkx { x_k : N; x_l : N; x_i : nat; x_d : N }.
(** the probe: the bound, the position, [deletions] as read for the slot (530) *)
Record sx := mksx { x_lim : nat; x_st : pst; x_din : N }.
(** program points *)
Inductive rst :=
| RIdle
| RMap (k l : N)                                  (* 785: load table->map *)
| RDel (k l : N) (i : nat)                        (* 791: load deletions *)
| RBnd (x : rx) (n : nat)                         (* 512: load probe_bound, or probe_maximum without it; [n]: probes, which a retry keeps *)
| RMax (x : rx) (n : nat)                         (* 218-221: load probe_maximum, the bound being CK_HT_WORD_MAX *)
| RSlot (x : rx) (lim : nat) (st : pst)           (* 515-530: limits; load deletions *)
| RKey (x : rx) (y : sx)                          (* 531: load the key *)
| RLen (x : rx) (y : sx) (K : N)                  (* 533: load key_length *)
| RHash (x : rx) (y : sx) (K kl : N)              (* 534: load the hash *)
| RVal (x : rx) (y : sx) (K kl hh : N)            (* 535: load the value *)
| RRe (x : rx) (y : sx) (K V : N)                 (* 570-577: load deletions again; memcmp *)
| RChk (x : rx) (r : option (N * N)).             (* 802: load deletions again; the snapshot, None when there is no candidate *)

(** [maps]: the maps by number, [cur]: table->map, [nxt]: the next number; [todo]: the stores the
    writer's operation has yet to make; [al]: calls of malloc *)
Record cst := mkcs { maps : nat -> tmap; cur : nat; nxt : nat; todo : option (list store); al : nat; rd : nat -> rst }.

Inductive label := LCall (o : op) (fuel : nat) | LStore | LDone | LGet (t : nat) (k l : N) | LRead (t : nat).
(** the writer calls [o], which will return [r] ([mv]: and will move an entry, 868-897);
    increments deletions; returns; a reader calls and returns; [EBad]: the writer stores
    through NULL *)
Inductive event := ECall (o : op) (r : res) (mv : bool) | EDel | EDone | EGet (t : nat) (k : N) | ERet (t : nat) (r : option (N * N)) | EBad.

Section C.
Variables (dl bs : bool) (len : N -> N) (memeq : N -> N -> N -> bool) (hf : N -> N) (ub : N -> N -> N) (oracle : nat -> bool).

(** correct use, decided *)
Definition validb (k l : N) : bool := negb (N.eqb k 0) && negb (N.eqb k TOMB) && N.ltb (len k) (2 ^ 16) && (negb bs || N.eqb l (len k)).
Definition preb (o : op) : bool :=
  match o with
  | OPut k _ l | OSet k _ l | OGet k l | ORemove k l => validb k l
  | _ => true
  end.
(** a set that takes the first branch of 868: an entry is found behind a tombstone *)
Definition moves (m : tmap) (o : op) : bool :=
  match o with
  | OSet k _ l =>
      match probe_wr dl bs memeq ub m k l (hf k) false with
      | Some r => match r_pr r, r_cur r with Some _, Some s => negb (N.eqb (ek (ents m s)) 0) | _, _ => false end
      | None => false
      end
  | _ => false
  end.

Definition set_rd (s : cst) (t : nat) (r : rst) : cst := mkcs (maps s) (cur s) (nxt s) (todo s) (al s) (upd (rd s) t r).
(** the next slot of the inner loop *)
Definition onward (m : tmap) (x : rx) (y : sx) : rst := RSlot x (x_lim y) (adv ub m (hf (x_k x)) (x_st y) None 0).
(** offset and loop counters of a new probe that starts with [n] probes counted *)
Definition start (m : tmap) (h : N) (n : nat) : pst := mkp (hidx m h) 0 0 n None 0.

Definition rstep (s : cst) (t : nat) : option (cst * list event) :=
  let go r := Some (set_rd s t r, []) in
  match rd s t with
  | RIdle => None
  | RMap k l => go (RDel k l (cur s))
  | RDel k l i => go (RBnd (mkx k l i (dlt (maps s i))) 0)
  | RBnd x n =>
      let m := maps s (x_i x) in let h := hf (x_k x) in
      if dl then
        let b := bnd m (N.to_nat (hidx m h)) in
        if Nat.eqb b 255 then go (RMax x n) else go (RSlot x b (start m h n))
      else go (RSlot x (pmax m) (start m h n))
  | RMax x n => let m := maps s (x_i x) in go (RSlot x (pmax m) (start m (hf (x_k x)) n))
  | RSlot x lim st =>
      let m := maps s (x_i x) in
      if Nat.eqb (q_i st) (plim m) || Nat.ltb lim (q_n st) then go (RChk x None)
      else go (RKey x (mksx lim st (dlt m)))
  | RKey x y => go (RLen x y (ek (ents (maps s (x_i x)) (cursor (q_off (x_st y)) (q_j (x_st y))))))
  | RLen x y K => go (RHash x y K (el (ents (maps s (x_i x)) (cursor (q_off (x_st y)) (q_j (x_st y))))))
  | RHash x y K kl => go (RVal x y K kl (eh (ents (maps s (x_i x)) (cursor (q_off (x_st y)) (q_j (x_st y))))))
  | RVal x y K kl hh =>
      let m := maps s (x_i x) in
      let V := ev (ents m (cursor (q_off (x_st y)) (q_j (x_st y)))) in
      if N.eqb K TOMB then go (onward m x y)
      else if N.eqb K 0 || N.eqb K (x_k x) then go (RChk x (Some (K, V)))
      else if bs && N.eqb (kl mod 2 ^ 16) (x_l x mod 2 ^ 16) && N.eqb hh (hf (x_k x)) then go (RRe x y K V)
      else go (onward m x y)
  | RRe x y K V =>
      let m := maps s (x_i x) in
      if N.eqb (dlt m) (x_din y) then
        if memeq (x_l x mod 2 ^ 16) K (x_k x) then go (RChk x (Some (K, V))) else go (onward m x y)
      else go (RBnd x (S (q_n (x_st y))))
  | RChk x r =>
      if N.eqb (dlt (maps s (x_i x))) (x_d x) then
        Some (set_rd s t RIdle, [ERet t (match r with Some (K, V) => if N.eqb K 0 then None else Some (K, V) | None => None end)])
      else go (RMap (x_k x) (x_l x))
  end.

Definition step (s : cst) (l : label) : option (cst * list event) :=
  match l with
  | LCall o fuel =>
      match todo s with
      | Some _ => None
      | None =>
          let m := maps s (cur s) in
          if preb o then
            match run1 dl bs memeq hf ub oracle fuel m (al s) o with
            | Ret tr a r => Some (mkcs (maps s) (cur s) (nxt s) (Some tr) a (rd s), [ECall o r (moves m o)])
            | Loop => None
            | Bad => Some (s, [EBad])
            end
          else None
      end
  | LStore =>
      match todo s with
      | Some (SMap u :: tr) => Some (mkcs (upd (maps s) (nxt s) u) (nxt s) (S (nxt s)) (Some tr) (al s) (rd s), [])
      | Some (x :: tr) =>
          Some (mkcs (upd (maps s) (cur s) (app1 (maps s (cur s)) x)) (cur s) (nxt s) (Some tr) (al s) (rd s),
                match x with SDel => [EDel] | _ => [] end)
      | _ => None
      end
  | LDone =>
      match todo s with
      | Some [] => Some (mkcs (maps s) (cur s) (nxt s) None (al s) (rd s), [EDone])
      | _ => None
      end
  | LGet t k l =>
      match rd s t with
      | RIdle => if validb k l then Some (set_rd s t (RMap k l), [EGet t k]) else None
      | _ => None
      end
  | LRead t => rstep s t
  end.

(** after ck_ht_init with room for [n] *)
Definition cinit (n : N) : cst := mkcs (fun _ => create n) 0 1 None 0 (fun _ => RIdle).
End C.
