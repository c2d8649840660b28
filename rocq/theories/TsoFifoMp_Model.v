(** The MPMC linked FIFO of include/ck_fifo.h:205-456 on x86-TSO: FifoMp_Model with a FIFO store
    buffer per thread.

    The plain stores are the initialisation of the private entry (254-256, 307-309): they go to
    the storing thread's buffer and arrive in memory at later [TFlush] steps, possibly after
    the loads that follow them.  A load sees the thread's own buffer first ([vw]).  ck_pr_cas_ptr_2
    is a locked instruction: it runs with an empty buffer.  The fences (258, 261, 264, ...) compile
    to nothing on this platform.

    tryenqueue may fail (320) while the stores to its entry are still buffered.  The client
    discipline adds to [may_enq] that an entry is not enqueued while another thread's buffer still
    holds stores to it; a client that hands the entry over through memory keeps it, because the
    hand-over follows these stores in the same buffer. *)
From Coq Require Import NArith Arith List Bool.
From Verif Require Import Lib Lin FifoMp_Model.
Import ListNotations.

Inductive sto := SV (e v : nat) | SN (e : nat) (x : option nat) | SG (e : nat) (g : N).
Definition ent_of (x : sto) : nat := match x with SV e _ | SN e _ | SG e _ => e end.

Record fst_t := { fm : mst; fb : nat -> list sto }.
Definition finit (stub : nat) : fst_t := {| fm := minit stub; fb := fun _ => [] |}.

(** a store reaches memory *)
Definition put1 (m : mst) (x : sto) : mst :=
  match x with SV e v => set_vl m e v | SN e x => set_nx m e x | SG e g => set_ng m e g end.
(** memory as thread [t] sees it: with its own buffered stores applied, oldest first *)
Definition vw (s : fst_t) (t : nat) : mst := fold_left put1 (fb s t) (fm s).

(** a load: the step of FifoMp_Model on the thread's view; only the program counter (and who has
    the entry, when an operation returns) changes *)
Definition load (s : fst_t) (t : nat) : option (fst_t * list mev) :=
  match mtick (vw s t) t with
  | Some (m', ev) =>
      let m := fm s in
      Some ({| fm := {| hp := hp m; hg := hg m; tp := tp m; tg := tg m; nx := nx m; ng := ng m; vl := vl m;
                        own := own m'; thr := thr m' |}; fb := fb s |}, ev)
  | None => None
  end.
Definition store (s : fst_t) (t : nat) (x : sto) (p : mpc) : option (fst_t * list mev) :=
  Some ({| fm := go (fm s) t p; fb := upd (fb s) t (fb s t ++ [x]) |}, []).
Definition locked (s : fst_t) (t : nat) : option (fst_t * list mev) :=
  match fb s t with
  | [] => match mtick (fm s) t with Some (m', ev) => Some ({| fm := m'; fb := fb s |}, ev) | None => None end
  | _ => None
  end.

Definition ftick (s : fst_t) (t : nat) : option (fst_t * list mev) :=
  match thr (fm s) t with
  | Q1 b e v => store s t (SV e v) (Q2 b e v)
  | Q2 b e v => store s t (SN e None) (Q3 b e v)
  | Q3 b e v => store s t (SG e 0) (Q4 b e v)
  | Q9 _ _ _ _ _ _ | Q10 _ _ _ _ _ _ | Q11 _ _ _ _ | K7 _ _ _ _ | K9 _ _ _ _ _ => locked s t
  | _ => load s t
  end.

(** the additional discipline *)
Definition settled (n : nat) (s : fst_t) (t e : nat) : bool :=
  forallb (fun u => Nat.eqb u t || negb (existsb (fun x => Nat.eqb (ent_of x) e) (fb s u))) (List.seq 0 n).
Definition fcall (n : nat) (s : fst_t) (t : nat) (o : mop) : option (fst_t * list mev) :=
  if match o with Enq e _ | TryEnq e _ => settled n s t e | _ => true end
  then match mcall n (fm s) t o with Some (m', ev) => Some ({| fm := m'; fb := fb s |}, ev) | None => None end
  else None.

Inductive fact := TCall (o : mop) | TTick | TFlush.
Definition fstep (n : nat) (s : fst_t) (l : nat * fact) : option (fst_t * list mev) :=
  let (t, a) := l in
  if negb (Nat.ltb t n) then None else
  match a with
  | TCall o => match thr (fm s) t with PIdle => fcall n s t o | _ => None end
  | TTick => ftick s t
  | TFlush => match fb s t with
              | [] => None
              | x :: b => Some ({| fm := put1 (fm s) x; fb := upd (fb s) t b |}, [])
              end
  end.
