(** Model of the concurrent stacks of include/ck_stack.h: push/trypush/pop/trypop/
    batch_pop in the unique-producer (UPMC, lines 53-158) and multi-producer
    (MPMC, lines 166-262) variants.

    An entry is a number; NULL is [None].  [nxt] is the [next] field of every
    entry.  One step performs one shared access of the C code (ck_pr_load_ptr,
    plain access to [entry->next], ck_pr_cas_ptr[_value], ck_pr_cas_ptr_2_value,
    ck_pr_fas_ptr).  The last access of an operation also returns from it.

    Simplifications: sequentially consistent memory (the fences are no-ops);
    the return of an operation coincides with its last access, which makes a
    popped entry reusable as early as possible. *)
From Coq Require Import NArith Arith List Bool.
From Verif Require Import Lib Lin.
Import ListNotations.

Inductive sop := Push (e : nat) | TryPush (e : nat) | Pop | TryPop | Batch.
(** results; [RBad] is the outcome of walking a cyclic chain *)
Inductive sres := RU | RB (b : bool) | RV (v : option nat) | RL (l : list nat) | RBad.
Definition sres_dec : forall a b : sres, {a = b} + {a <> b}.
Proof. decide equality; decide equality; decide equality. Defined.

(** program counters; the flag [b] is true in the try variants *)
Inductive spc :=
| PIdle
| Pu1 (b : bool) (e : nat)                          (* ck_stack.h:57, 81   stack = load head *)
| Pu2 (b : bool) (e : nat) (st : option nat)        (* ck_stack.h:58, 62, 82   entry->next = stack *)
| Pu3 (b : bool) (e : nat) (st : option nat)        (* ck_stack.h:61, 85   CAS head *)
| Po1 (b : bool)                                    (* ck_stack.h:99, 130   entry = load head *)
| Po2 (b : bool) (x : nat)                          (* ck_stack.h:104, 110, 135   next = entry->next *)
| Po3 (b : bool) (x : nat) (n : option nat)         (* ck_stack.h:105, 135   CAS head *)
| G1 (b : bool)                                     (* ck_stack.h:198, 232   load generation *)
| G2 (b : bool) (g : N)                             (* ck_stack.h:200, 234   load head *)
| G3 (b : bool) (g : N) (x : nat)                   (* ck_stack.h:208, 218, 240   original.head->next *)
| G4 (b : bool) (g : N) (x : nat) (n : option nat)  (* ck_stack.h:210, 242   CAS2 {head, generation} *)
| Ba.                                               (* ck_stack.h:154   fas head NULL *)

(** struct ck_stack and the [next] fields (ck_stack.h:35-43).  [own e] says that
    [e] is in the hands of the client; [pushes] counts successful pushes and only
    bounds the walk of a batch. *)
Record sst := { head : option nat; gen : N; nxt : nat -> option nat; thr : nat -> spc;
                own : nat -> bool; pushes : nat }.

(** ck_stack_init, ck_stack.h:333: empty, generation NULL; all entries belong to the client *)
Definition sinit : sst :=
  {| head := None; gen := 0; nxt := fun _ => None; thr := fun _ => PIdle; own := fun _ => true; pushes := 0 |}.

(** which functions the client uses: the UPMC or the MPMC consumer, [nt] threads,
    and whether batch_pop is among them *)
Inductive mode := UP | MP.
Record cfg := { md : mode; nt : nat; bp : bool }.

Definition go (s : sst) (t : nat) (p : spc) : sst :=
  {| head := head s; gen := gen s; nxt := nxt s; thr := upd (thr s) t p; own := own s; pushes := pushes s |}.
Definition set_head (s : sst) (h : option nat) : sst :=
  {| head := h; gen := gen s; nxt := nxt s; thr := thr s; own := own s; pushes := pushes s |}.
Definition set_gen (s : sst) (g : N) : sst :=
  {| head := head s; gen := g; nxt := nxt s; thr := thr s; own := own s; pushes := pushes s |}.
Definition set_nxt (s : sst) (e : nat) (v : option nat) : sst :=
  {| head := head s; gen := gen s; nxt := upd (nxt s) e v; thr := thr s; own := own s; pushes := pushes s |}.
Definition set_own (s : sst) (e : nat) (b : bool) : sst :=
  {| head := head s; gen := gen s; nxt := nxt s; thr := thr s; own := upd (own s) e b; pushes := pushes s |}.
Definition give (s : sst) (l : list nat) : sst :=
  {| head := head s; gen := gen s; nxt := nxt s; thr := thr s;
     own := fun e => existsb (Nat.eqb e) l || own s e; pushes := pushes s |}.
Definition bump (s : sst) : sst :=
  {| head := head s; gen := gen s; nxt := nxt s; thr := thr s; own := own s; pushes := S (pushes s) |}.

(** the pops of the UPMC variant that have read [e] as the top *)
Definition holds (p : spc) (e : nat) : bool :=
  match p with Po2 _ x | Po3 _ x _ => Nat.eqb x e | _ => false end.
(** The client discipline of push.  Both variants: the entry is in the client's
    hands (not in the stack, not being pushed).  UPMC only: no pop in progress has
    read the entry (include/ck_stack.h:50, "unique producers"). *)
Definition may_push (c : cfg) (s : sst) (e : nat) : bool :=
  own s e && match md c with UP => forallb (fun t => negb (holds (thr s t) e)) (List.seq 0 (nt c)) | MP => true end.

(** the chain a batch hands out, read along [next] *)
Fixpoint walk (fuel : nat) (nx : nat -> option nat) (h : option nat) : option (list nat) :=
  match h, fuel with
  | None, _ => Some []
  | Some e, S f => match walk f nx (nx e) with Some l => Some (e :: l) | None => None end
  | Some _, O => None
  end.

Inductive sact := ACall (o : sop) | ATick.
Notation sev := (lev sop sres).
Definition fin (s : sst) (t : nat) (r : sres) : option (sst * list sev) := Some (go s t PIdle, [Lin t r; Ret t r]).

Definition opt_eqb (a b : option nat) : bool :=
  match a, b with Some x, Some y => Nat.eqb x y | None, None => true | _, _ => false end.

(** [char *generation] is a 64-bit pointer (ck_stack.h:40) *)
Definition W : N := 2 ^ 64.

(** the first step of a call *)
Definition call (c : cfg) (s : sst) (t : nat) (o : sop) : option (sst * list sev) :=
  match o with
  | Push e => if may_push c s e then Some (set_own (go s t (Pu1 false e)) e false, [Call t o]) else None
  | TryPush e => if may_push c s e then Some (set_own (go s t (Pu1 true e)) e false, [Call t o]) else None
  | Pop => Some (go s t (match md c with UP => Po1 false | MP => G1 false end), [Call t o])
  | TryPop => Some (go s t (match md c with UP => Po1 true | MP => G1 true end), [Call t o])
  | Batch => if bp c then Some (go s t Ba, [Call t o]) else None
  end.

(** one shared access of the operation in progress *)
Definition tick (s : sst) (t : nat) : option (sst * list sev) :=
  match thr s t with
  | PIdle => None
  | Pu1 b e => Some (go s t (Pu2 b e (head s)), [])
  | Pu2 b e st => Some (go (set_nxt s e st) t (Pu3 b e st), [])
  | Pu3 b e st =>
      if opt_eqb (head s) st then fin (bump (set_head s (Some e))) t (if b then RB true else RU)
      else if b then fin (set_own s e true) t (RB false)
      else Some (go s t (Pu2 b e (head s)), [])
  | Po1 b => match head s with
             | None => fin s t (RV None)
             | Some x => Some (go s t (Po2 b x), [])
             end
  | Po2 b x => Some (go s t (Po3 b x (nxt s x)), [])
  | Po3 b x n =>
      if opt_eqb (head s) (Some x) then fin (set_own (set_head s n) x true) t (RV (Some x))
      else if b then fin s t (RV None)
      else match head s with
           | None => fin s t (RV None)
           | Some y => Some (go s t (Po2 b y), [])
           end
  | G1 b => Some (go s t (G2 b (gen s)), [])
  | G2 b g => match head s with
              | None => fin s t (RV None)
              | Some x => Some (go s t (G3 b g x), [])
              end
  | G3 b g x => Some (go s t (G4 b g x (nxt s x)), [])
  | G4 b g x n =>
      if opt_eqb (head s) (Some x) && N.eqb (gen s) g
      then fin (set_own (set_gen (set_head s n) ((g + 1) mod W)) x true) t (RV (Some x))
      else if b then fin s t (RV None)
      else match head s with
           | None => fin s t (RV None)
           | Some y => Some (go s t (G3 b (gen s) y), [])
           end
  | Ba => match walk (pushes s) (nxt s) (head s) with
          | Some l => fin (give (set_head s None) l) t (RL l)
          | None => fin (set_head s None) t RBad
          end
  end.

Definition sstep (c : cfg) (s : sst) (l : nat * sact) : option (sst * list sev) :=
  let (t, a) := l in
  if negb (Nat.ltb t (nt c)) then None else
  match a with
  | ACall o => match thr s t with PIdle => call c s t o | _ => None end
  | ATick => tick s t
  end.
