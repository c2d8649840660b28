(** ck_hs_get (src/ck_hs.c:875-900) by any number of threads while one writer runs the operations of
    Hs_Model, on x86-TSO.  The parts are those of HsConc_Model, put together by TsoSpmc_Model: the writer's
    stores (ck_pr_store_*, plain moves on x86-64) wait in its store buffer; ck_pr_fence_store
    (e.g. ck_hs.c:102, 311) is only a compiler barrier there.  A new map is initialised by plain stores and
    published by one store (SMap): nobody reads it before the store that publishes it, which leaves the buffer
    after the initialisation. *)
From Coq Require Import Arith NArith List Bool.
From Verif Require Import Lib Helpers_Model Hs_Model Hs_Spec HsConc_Model TsoSpmc_Model.
Import ListNotations.

(** shared memory: the maps by number, hs->map, the next number *)
Record hmem := mkhm { h_maps : nat -> hmap; h_cur : nat; h_nxt : nat }.
(** the writer's own: calls of malloc, the set as the client knows it *)
Definition hpriv : Type := nat * list N.
Inductive hrl := Get (t : nat) (k : N) | Read (t : nat).

Section H.
Variables (del pp : bool) (hf : N -> N) (cmp : option (N -> N -> bool)) (ub : N -> N -> N) (oracle : nat -> option N).

Definition hst (m : hmem) (td : option (list store)) (c : hpriv) (r : nat -> rst) : cst :=
  mkcs (h_maps m) (h_cur m) (h_nxt m) td (fst c) (snd c) r.

(** a store arrives; see HsConc_Model.step, LStore *)
Definition happ (m : hmem) (x : store) : hmem * list ev :=
  match x with
  | SMap u => (mkhm (upd (h_maps m) (h_nxt m) u) (h_nxt m) (S (h_nxt m)), [])
  | x => (mkhm (upd (h_maps m) (h_cur m) (app1 (h_maps m (h_cur m)) x)) (h_cur m) (h_nxt m),
          match x with SGen _ => [ESig] | _ => [] end)
  end.

(** the writer's operation on what it sees *)
Definition hexec (m : hmem) (c : hpriv) (o : op * nat) : option (outcome store hpriv ev) :=
  if preb pp hf cmp (snd c) (fst o) then
    match run1 del pp hf cmp ub oracle (snd o) (h_maps m (h_cur m)) (fst c) (fst o) with
    | Ret tr a r => Some (Done tr (a, aop cmp (snd c) (fst o) r) (ECall (fst o) r))
    | Loop => None
    | Bad => Some (Crash EBad)
    end
  else None.

(** a step of a reader on memory *)
Definition hrstep (m : hmem) (r : nat -> rst) (l : hrl) : option ((nat -> rst) * list ev) :=
  match step del pp hf cmp ub oracle (hst m None (0, []) r) (match l with Get t k => LGet t k | Read t => LRead t end) with
  | Some (s, e) => Some (rd s, e)
  | None => None
  end.

Definition htstep := tstep happ hexec EDone hrstep.
(** after ck_hs_init with room for [n], the stores having arrived *)
Definition htinit (g n : N) : @tst hmem hpriv store (nat -> rst) ev := tinit (mkhm (fun _ => create g n) 0 1) (0, []) (fun _ => RIdle).
End H.
