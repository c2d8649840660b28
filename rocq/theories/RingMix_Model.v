(** The rings with one producer or one consumer and many of the other: include/ck_ring.h, spmc
    (612-680) and mpsc (682-745).  They combine the functions for one or many producers with those
    for one or many consumers: enqueue_sp, reserve_sp, commit_sp (134-200) and dequeue_sc (218-250),
    modelled here for any thread, with enqueue_mp, reserve_mp, commit_mp, trydequeue_mc, dequeue_mc as
    modelled in RingMp_Model.  [sp]: the producer functions are those for one producer, which is
    thread 0; [sc]: the consumer function is that for one consumer, which is thread 1.

    Simplifications: those of RingMp_Model. *)
From Coq Require Import NArith Arith List Bool.
From Verif Require Import Lib Lin RingSp_Model RingMp_Model.
Import ListNotations.
Local Open Scope N_scope.

Inductive xpc :=
| XM (p : mpc)                          (* idle, or in a function for many *)
| XEnq (o : mop)                        (* 148, 183: about to load c_head *)
| XWrite (v : nat) (prod c : N)         (* 193: about to copy the entry *)
| XPub (v : nat) (prod c : N)           (* 200: about to store p_tail *)
| XGot (w : option nat)                 (* owns the slot reserve_sp returned *)
| XLoad (cur : N)                       (* 229: about to load p_tail *)
| XRead (cur : N)                       (* 241: about to copy the entry out *)
| XCpub (v : nat) (cur : N).            (* 248: about to store c_head *)

Record xst := mkx { xrg : ring; xbuf : N -> nat; xthr : nat -> xpc }.
Definition xinit (k : N) : xst := mkx (ck_ring_init (2 ^ k)) (fun _ => O) (fun _ => XM MIdle).
Definition xgo (s : xst) (t : nat) (p : xpc) : xst := mkx (xrg s) (xbuf s) (upd (xthr s) t p).

(** the ring as the functions for many see it *)
Definition mview (s : xst) : mstate :=
  {| mrg := xrg s; mbuf := xbuf s; mthr := fun u => match xthr s u with XM p => p | _ => MIdle end |}.
Definition many (s : xst) (t : nat) (l : mlab) : option (xst * list mev) :=
  match xthr s t, mstep (mview s) l with
  | XM _, Some (m, ev) => Some (mkx (mrg m) (mbuf m) (upd (xthr s) t (XM (mthr m t))), ev)
  | _, _ => None
  end.
Definition is_deq (o : mop) : bool := match o with MDeq | MTry => true | _ => false end.

(** the call of a function for one producer, by thread 0 *)
Definition sp_call (s : xst) (t : nat) (o : mop) : option (xst * list mev) :=
  let r := xrg s in
  if negb (Nat.eqb t 0) then None else
  match o, xthr s t with
  | MEnq v, XM MIdle => Some (xgo s t (XEnq o), [ML (Call t o)])                 (* 173 *)
  | MReserve u, XM MIdle => if Nat.eqb t u then Some (xgo s t (XEnq o), [ML (Call t o)]) else None   (* 139 *)
  (* the client fills the slot (157) *)
  | MWrite u v, XGot _ =>
      if Nat.eqb t u
      then Some (mkx r (updN (xbuf s) (slot r (p_tail r)) v) (upd (xthr s) t (XGot (Some v))), [ML (Call t o); ML (Lin t RU); ML (Ret t RU)])
      else None
  (* 164-171 *)
  | MCommit u, XGot (Some v) =>
      if Nat.eqb t u
      then Some (mkx (set_t r (w32 (p_tail r + 1))) (xbuf s) (upd (xthr s) t (XM MIdle)), [ML (Call t o); ML (Lin t RU); ML (Ret t RU)])
      else None
  | _, _ => None
  end.
(** ... and of the function for one consumer, by thread 1; 219-228: c_head is the consumer's own *)
Definition sc_call (s : xst) (t : nat) (o : mop) : option (xst * list mev) :=
  if negb (Nat.eqb t 1) then None else
  match o, xthr s t with
  | MDeq, XM MIdle => Some (xgo s t (XLoad (c_head (xrg s))), [ML (Call t o)])
  | _, _ => None
  end.

Definition xstep (sp sc : bool) (s : xst) (l : mlab) : option (xst * list mev) :=
  let r := xrg s in
  match l with
  | MCall t o =>
      if is_deq o then if sc then sc_call s t o else many s t l
      else if sp then sp_call s t o else many s t l
  | MStep t =>
      match xthr s t with
      | XM _ => many s t l
      | XEnq o =>
          (* 148-157, 183-190: p_tail is the producer's own *)
          if full r (c_head r) (p_tail r)
          then Some (xgo s t (XM MIdle), [MLook t; ML (Lin t (RB false)); ML (Ret t (RB false)); MSize t (occ r (c_head r) (p_tail r))])
          else match o with
               | MEnq v => Some (xgo s t (XWrite v (p_tail r) (c_head r)), [MLook t; Resv t])
               | _ => Some (xgo s t (XGot None), [MLook t; Resv t; ML (Lin t (RB true)); ML (Ret t (RB true)); MSize t (occ r (c_head r) (p_tail r))])
               end
      | XWrite v prod c =>
          (* 192-193 *)
          Some (mkx r (updN (xbuf s) (slot r prod) v) (upd (xthr s) t (XPub v prod c)), [])
      | XPub v prod c =>
          (* 200 *)
          Some (mkx (set_t r (w32 (prod + 1))) (xbuf s) (upd (xthr s) t (XM MIdle)), [ML (Lin t (RB true)); ML (Ret t (RB true)); MSize t (occ r c prod)])
      | XLoad cur =>
          (* 229-232 *)
          if cur =? p_tail r
          then Some (xgo s t (XM MIdle), [ML (Lin t (RV None)); ML (Ret t (RV None))])
          else Some (xgo s t (XRead cur), [])
      | XRead cur =>
          (* 240-241 *)
          Some (xgo s t (XCpub (xbuf s (slot r cur)) cur), [])
      | XCpub v cur =>
          (* 248 *)
          Some (mkx (set_c r (w32 (cur + 1))) (xbuf s) (upd (xthr s) t (XM MIdle)), [ML (Lin t (RV (Some v))); ML (Ret t (RV (Some v)))])
      | XGot _ => None
      end
  end.
(** no call in progress and no slot reserved *)
Definition xquiet (s : xst) : Prop := forall t, xthr s t = XM MIdle.
