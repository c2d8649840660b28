(** ck_ht_get_spmc (src/ck_ht.c:775-816) by any number of threads while one writer runs the operations of
    Ht_Model, on x86-TSO.  The parts are those of HtConc_Model, put together by TsoSpmc_Model; see
    TsoHs_Model.v for what is simplified. *)
From Coq Require Import Arith NArith List Bool.
From Verif Require Import Lib Helpers_Model Ht_Model Ht_Spec HtConc_Model TsoSpmc_Model.
Import ListNotations.

(** shared memory: the maps by number, table->map, the next number *)
Record hmem := mkhm { h_maps : nat -> tmap; h_cur : nat; h_nxt : nat }.
(** the writer's own: calls of malloc *)
Definition hpriv : Type := nat.
Inductive hrl := Get (t : nat) (k l : N) | Read (t : nat).

Section H.
Variables (dl bs : bool) (len : N -> N) (memeq : N -> N -> N -> bool) (hf : N -> N) (ub : N -> N -> N) (oracle : nat -> bool).

Definition hst (m : hmem) (td : option (list store)) (c : hpriv) (r : nat -> rst) : cst :=
  mkcs (h_maps m) (h_cur m) (h_nxt m) td c r.

(** a store arrives; see HtConc_Model.step, LStore *)
Definition happ (m : hmem) (x : store) : hmem * list event :=
  match x with
  | SMap u => (mkhm (upd (h_maps m) (h_nxt m) u) (h_nxt m) (S (h_nxt m)), [])
  | x => (mkhm (upd (h_maps m) (h_cur m) (app1 (h_maps m (h_cur m)) x)) (h_cur m) (h_nxt m),
          match x with SDel => [EDel] | _ => [] end)
  end.

(** the writer's operation on what it sees *)
Definition hexec (m : hmem) (c : hpriv) (o : op * nat) : option (outcome store hpriv event) :=
  let w := h_maps m (h_cur m) in
  if preb bs len (fst o) then
    match run1 dl bs memeq hf ub oracle (snd o) w c (fst o) with
    | Ret tr a r => Some (Done tr a (ECall (fst o) r (moves dl bs memeq hf ub w (fst o))))
    | Loop => None
    | Bad => Some (Crash EBad)
    end
  else None.

(** a step of a reader on memory *)
Definition hrstep (m : hmem) (r : nat -> rst) (l : hrl) : option ((nat -> rst) * list event) :=
  match step dl bs len memeq hf ub oracle (hst m None 0 r) (match l with Get t k n => LGet t k n | Read t => LRead t end) with
  | Some (s, e) => Some (rd s, e)
  | None => None
  end.

Definition htstep := tstep happ hexec EDone hrstep.
(** after ck_ht_init with room for [n], the stores having arrived *)
Definition htinit (n : N) : @tst hmem hpriv store (nat -> rst) event := tinit (mkhm (fun _ => create n) 0 1) 0 (fun _ => RIdle).
End H.
