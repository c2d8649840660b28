(** Multi-producer multi-consumer ring: include/ck_ring.h.  Cursors are 32-bit
    words; one ck_pr operation or memcpy of one entry per step; any number of
    threads.  The ring record and its helpers are those of RingSp_Model. *)
From Coq Require Import NArith Arith List Bool.
From Verif Require Import Lib Lin RingSp_Model.
Import ListNotations.
Local Open Scope N_scope.

(** operations; reservations are owned by the calling thread *)
Inductive mop := MEnq (v : nat) | MReserve (t : nat) | MWrite (t : nat) (v : nat) | MCommit (t : nat) | MDeq | MTry.

Inductive mev :=
| ML (e : lev mop res)
| Resv (t : nat)              (* the producer cursor moved for thread t *)
| MLook (t : nat)             (* thread t sampled the consumer cursor *)
| MSize (t : nat) (n : N).    (* the occupancy t's call reports *)

Inductive mpc :=
| MIdle
| EHead (o : mop)                   (* 262, 322: load p_head *)
| ECons (o : mop) (h : N)           (* 266, 330: load c_head *)
| ECas (o : mop) (h c : N)          (* 271, 339: CAS p_head *)
| ERe (o : mop) (h c : N)           (* 279, 353: load p_head again *)
| EWrite (v : nat) (h c : N)        (* 374: copy the entry in *)
| EWait (v : nat) (h c : N)         (* 380: load p_tail until it is our turn *)
| EPub (v : nat) (h c : N)          (* 388: store p_tail *)
| MGot (h : N) (w : option nat)     (* owns the slot reserve_mp returned *)
| KWait (v : nat) (h : N)           (* 303: load p_tail *)
| KPub (v : nat) (h : N)            (* 307: store p_tail *)
| DHead (b : bool)                  (* 421, 446: load c_head; b: trydequeue *)
| DTail (b : bool) (c : N)          (* 423, 456: load p_tail *)
| DCopy (b : bool) (c : N)          (* 431, 464: copy the entry out *)
| DCas (b : bool) (c : N) (v : nat). (* 434, 468: CAS c_head *)

Record mstate := { mrg : ring; mbuf : N -> nat; mthr : nat -> mpc }.
Definition minit (k : N) : mstate :=
  {| mrg := ck_ring_init (2 ^ k); mbuf := fun _ => O; mthr := fun _ => MIdle |}.

Definition set_h (r : ring) (v : N) : ring :=
  {| c_head := c_head r; p_tail := p_tail r; p_head := v; size := size r; mask := mask r |}.
Definition mset (s : mstate) (t : nat) (p : mpc) : mstate :=
  {| mrg := mrg s; mbuf := mbuf s; mthr := upd (mthr s) t p |}.
Definition dop (b : bool) : mop := if b then MTry else MDeq.

Inductive mlab := MCall (t : nat) (o : mop) | MStep (t : nat).

Definition mstep (s : mstate) (l : mlab) : option (mstate * list mev) :=
  let r := mrg s in
  match l with
  | MCall t o =>
      match o, mthr s t with
      | MEnq v, MIdle => Some (mset s t (EHead o), [ML (Call t o)])            (* 311 *)
      | MReserve t', MIdle => if Nat.eqb t t' then Some (mset s t (EHead o), [ML (Call t o)]) else None   (* 252 *)
      | MDeq, MIdle => Some (mset s t (DHead false), [ML (Call t o)])          (* 437 *)
      | MTry, MIdle => Some (mset s t (DHead true), [ML (Call t o)])           (* 412 *)
      (* the client fills the reserved slot (296) *)
      | MWrite t' v, MGot h w =>
          if Nat.eqb t t' then
            Some ({| mrg := r; mbuf := updN (mbuf s) (slot r h) v; mthr := upd (mthr s) t (MGot h (Some v)) |},
                  [ML (Call t o); ML (Lin t RU); ML (Ret t RU)])
          else None
      (* 299 *)
      | MCommit t', MGot h (Some v) => if Nat.eqb t t' then Some (mset s t (KWait v h), [ML (Call t o)]) else None
      | _, _ => None
      end
  | MStep t =>
      match mthr s t with
      | EHead o => Some (mset s t (ECons o (p_head r)), [])
      | ECons o h =>
          (* 268-270, 332-338 *)
          if sub32 h (c_head r) <? mask r
          then Some (mset s t (ECas o h (c_head r)), [MLook t])
          else Some (mset s t (ERe o h (c_head r)), [MLook t])
      | ECas o h c =>
          if p_head r =? h then
            let s' := {| mrg := set_h r (w32 (h + 1)); mbuf := mbuf s;
                         mthr := upd (mthr s) t (match o with MEnq v => EWrite v h c | _ => MGot h None end) |} in
            match o with
            | MEnq v => Some (s', [Resv t])
            | _ => (* 292-296 *)
                Some (s', [Resv t; ML (Lin t (RB true)); ML (Ret t (RB true)); MSize t (N.land (sub32 h c) (mask r))])
            end
          else Some (mset s t (ECons o (p_head r)), [])
      | ERe o h c =>
          (* 281-289, 361-369 *)
          if h =? p_head r
          then Some (mset s t MIdle, [ML (Lin t (RB false)); ML (Ret t (RB false)); MSize t (N.land (sub32 h c) (mask r))])
          else Some (mset s t (ECons o (p_head r)), [])
      | EWrite v h c =>
          Some ({| mrg := r; mbuf := updN (mbuf s) (slot r h) v; mthr := upd (mthr s) t (EWait v h c) |}, [])
      | EWait v h c => if p_tail r =? h then Some (mset s t (EPub v h c), []) else Some (s, [])
      | EPub v h c =>
          (* 388-394 *)
          Some ({| mrg := set_t r (w32 (h + 1)); mbuf := mbuf s; mthr := upd (mthr s) t MIdle |},
                [ML (Lin t (RB true)); ML (Ret t (RB true)); MSize t (N.land (sub32 h c) (mask r))])
      | KWait v h => if p_tail r =? h then Some (mset s t (KPub v h), []) else Some (s, [])
      | KPub v h =>
          Some ({| mrg := set_t r (w32 (h + 1)); mbuf := mbuf s; mthr := upd (mthr s) t MIdle |},
                [ML (Lin t RU); ML (Ret t RU)])
      | DHead b => Some (mset s t (DTail b (c_head r)), [])
      | DTail b c =>
          if c =? p_tail r
          then Some (mset s t MIdle, [ML (Lin t (RV None)); ML (Ret t (RV None))])
          else Some (mset s t (DCopy b c), [])
      | DCopy b c => Some (mset s t (DCas b c (mbuf s (slot r c))), [])
      | DCas b c v =>
          if c_head r =? c
          then Some ({| mrg := set_c r (w32 (c + 1)); mbuf := mbuf s; mthr := upd (mthr s) t MIdle |},
                     [ML (Lin t (RV (Some v))); ML (Ret t (RV (Some v)))])
          else if b then Some (mset s t MIdle, [ML (Lin t (RV None)); ML (Ret t (RV None))])
          else Some (mset s t (DTail b (c_head r)), [])
      | MIdle | MGot _ _ => None
      end
  end.

(** ** Specification *)
(** [mq_n]: slots taken by enqueues not yet complete; [mq_w]: what each thread
    has written to its reservation. *)
Record mfifo := { mq_q : list nat; mq_n : nat; mq_w : nat -> option nat }.
Definition mfifo0 : mfifo := {| mq_q := []; mq_n := 0; mq_w := fun _ => None |}.

Definition mpush (f : mfifo) (v : nat) : option mfifo :=
  match mq_n f with O => None | S n => Some {| mq_q := mq_q f ++ [v]; mq_n := n; mq_w := mq_w f |} end.
(** a FIFO; when an operation may fail is stated in [mring_step] *)
Definition mfifo_seq (f : mfifo) (o : mop) (r : res) : option mfifo :=
  match o, r with
  | MEnq v, RB true => mpush f v
  | MEnq _, RB false => Some f
  | MReserve t, RB true => Some {| mq_q := mq_q f; mq_n := mq_n f; mq_w := upd (mq_w f) t None |}
  | MReserve _, RB false => Some f
  | MWrite t v, RU => Some {| mq_q := mq_q f; mq_n := mq_n f; mq_w := upd (mq_w f) t (Some v) |}
  | MCommit t, RU => match mq_w f t with Some v => mpush f v | None => None end
  | MDeq, RV None => match mq_q f with [] => Some f | _ => None end
  | MTry, RV None => Some f
  | MDeq, RV (Some v) | MTry, RV (Some v) =>
      match mq_q f with
      | x :: q' => if Nat.eqb x v then Some {| mq_q := q'; mq_n := mq_n f; mq_w := mq_w f |} else None
      | [] => None
      end
  | _, _ => None
  end.

(** occupancy at each thread's last look, and whether another dequeue has
    succeeded since the thread's current call began *)
Record mabs := { m_lin : mfifo * (nat -> phase mop res); m_look : nat -> nat; m_lost : nat -> bool }.
Definition mabs0 : mabs := {| m_lin := (mfifo0, idle); m_look := fun _ => O; m_lost := fun _ => false |}.

Definition occupied (f : mfifo) : nat := (length (mq_q f) + mq_n f)%nat.

(** - slots are only taken while fewer than [cap] are occupied;
    - an enqueue or reserve fails only if all were occupied at its last look;
    - trydequeue fails only if the queue is empty or it lost to another dequeue;
    - a reported size is the occupancy at the last look. *)
Definition mring_step (cap : nat) (a : mabs) (e : mev) : option mabs :=
  let f := fst (m_lin a) in
  match e with
  | ML e =>
      match lstep mfifo_seq res_dec (m_lin a) e with
      | Some b =>
          let ok := match e with
                    | Lin t (RB false) => Nat.eqb (m_look a t) cap
                    | Lin t (RV None) => (match mq_q f with [] => true | _ => false end) || m_lost a t
                    | _ => true
                    end in
          let lost := match e with
                      | Call t _ => upd (m_lost a) t false
                      | Lin _ (RV (Some _)) => fun _ => true
                      | _ => m_lost a
                      end in
          if ok then Some {| m_lin := b; m_look := m_look a; m_lost := lost |} else None
      | None => None
      end
  | Resv t =>
      if Nat.ltb (occupied f) cap
      then Some {| m_lin := ({| mq_q := mq_q f; mq_n := S (mq_n f); mq_w := mq_w f |}, snd (m_lin a));
                   m_look := m_look a; m_lost := m_lost a |}
      else None
  | MLook t => Some {| m_lin := m_lin a; m_look := upd (m_look a) t (occupied f); m_lost := m_lost a |}
  | MSize t n => if n =? N.of_nat (m_look a t) then Some a else None
  end.

(** ** The no-ABA hypothesis: fewer than 2^32 operations take effect within one call *)
(** operations that took effect since thread [t]'s current call began *)
Definition span1 (t : nat) (o : option N) (e : mev) : option N :=
  match e with
  | ML (Call u _) => if Nat.eqb u t then Some 0 else o
  | ML (Ret u _) => if Nat.eqb u t then None else o
  | Resv _ | ML (Lin _ (RV (Some _))) => option_map N.succ o
  | _ => o
  end.
Definition span (t : nat) (log : list mev) : option N := fold_left (span1 t) log None.
Definition short_calls (log : list mev) : Prop :=
  forall t pre suf n, log = pre ++ suf -> span t pre = Some n -> n < 2 ^ 32.
