(** ck_rhs_get (src/ck_rhs.c:1398-1426) by any number of threads while one writer runs the operations of
    Rhs_Model, on x86-TSO.  The parts are those of RhsConc_Model, put together by TsoSpmc_Model; see
    TsoHs_Model.v for what is simplified.  As in RhsConc_Model the writer's operations run on the set as the
    writer has left it ([whs]), which is memory with its buffered stores. *)
From Coq Require Import Arith NArith List Bool.
From Verif Require Import Lib Helpers_Model Rhs_Model Rhs_Spec RhsConc_Model TsoSpmc_Model.
Import ListNotations.

(** shared memory: the maps and their generation arrays by number, hs->map, the next number *)
Record hmem := mkhm { h_maps : nat -> vmap; h_gens : nat -> N -> N; h_cur : nat; h_nxt : nat }.
(** the writer's own: the set as it leaves it, the set as the client knows it *)
Definition hpriv : Type := hset * list N.
Inductive hrl := Get (t : nat) (k : N) | Read (t : nat).

Section H.
Variables (rmode pp : bool) (hf : N -> N) (cmp : option (N -> N -> bool)) (oracle : nat -> bool).

Definition hst (m : hmem) (td : option (list store)) (c : hpriv) (r : nat -> rst) : cst :=
  mkcs (h_maps m) (h_gens m) (h_cur m) (h_nxt m) td (fst c) (snd c) r.

(** a store arrives; see RhsConc_Model.step, LStore *)
Definition happ (m : hmem) (x : store) : hmem * list ev :=
  match x with
  | SMap u => (mkhm (upd (h_maps m) (h_nxt m) u) (upd (h_gens m) (h_nxt m) (fun _ => 0%N)) (h_nxt m) (S (h_nxt m)), [EMap (v_cap u)])
  | SGen i => (mkhm (h_maps m) (upd (h_gens m) (h_cur m) (bump1 (h_gens m (h_cur m)) i)) (h_cur m) (h_nxt m), [ESig])
  | x => (mkhm (upd (h_maps m) (h_cur m) (vstore (h_maps m (h_cur m)) x)) (h_gens m) (h_cur m) (h_nxt m), [])
  end.

(** the writer's operation *)
Definition hexec (m : hmem) (c : hpriv) (o : op * nat) : option (outcome store hpriv ev) :=
  if preb pp cmp (snd c) (fst o) && roomb rmode (snd c) then
    match run1 rmode pp hf cmp oracle (snd o) (fst c) (fst o) with
    | Ret (hs, r) =>
        if quietb (fst o) (fst c) hs then
          Some (Done (stores (mp (fst c)) (mp hs)) (hs, aop cmp (snd c) (fst o) r) (ECall (fst o) r))
        else None
    | Loop | Stale => None
    | Null => Some (Crash EBad)
    end
  else None.

(** the set after ck_rhs_init with room for [n] *)
Definition whs0 (n : N) : hset := mks (create 50 n) 50 1.
(** a step of a reader on memory; readers do not look at the writer's own state, here any *)
Definition hrstep (m : hmem) (r : nat -> rst) (l : hrl) : option ((nat -> rst) * list ev) :=
  match step rmode pp hf cmp oracle (hst m None (whs0 8, []) r) (match l with Get t k => LGet t k | Read t => LRead t end) with
  | Some (s, e) => Some (rd s, e)
  | None => None
  end.

Definition htstep := tstep happ hexec EDone hrstep.
(** after ck_rhs_init with room for [n], the stores having arrived *)
Definition htinit (n : N) : @tst hmem hpriv store (nat -> rst) ev :=
  tinit (mkhm (fun _ => view (create 50 n)) (fun _ _ => 0%N) 0 1) (whs0 n, []) (fun _ => RIdle).
End H.
