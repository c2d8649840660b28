(** One writer and any number of readers on x86-TSO.

    Used for the structures whose concurrent models (HsConc_Model, HtConc_Model, RhsConc_Model) have one
    writer, the only thread that stores.  The writer's stores go through a FIFO buffer; its own loads see
    memory with the buffered stores applied (store forwarding), so that an operation runs ahead of memory,
    and the next one may be called while stores of earlier ones are still buffered.  Readers only load, so
    that their own buffers do not matter.  Nothing in this file models code of /repo: the functions that do
    are the parameters, given in TsoHs_Model.v, TsoHt_Model.v and TsoRhs_Model.v. *)
From Coq Require Import List Bool.
From Verif Require Import Lib.
Import ListNotations.

(** The outcome of an operation of the writer: its stores in program order, the writer's private state
    afterwards and the event of the call; or it stores through an invalid pointer. *)
Inductive outcome (St C E : Type) := Done (tr : list St) (c : C) (e : E) | Crash (e : E).
Arguments Done {St C E}. Arguments Crash {St C E}.

(** The buffer: stores, and marks for the beginning and the end of each operation. *)
Inductive item (St E : Type) := IBeg (e : E) | ISt (x : St) | IEnd | ICrash (e : E).
Arguments IBeg {St E}. Arguments ISt {St E}. Arguments IEnd {St E}. Arguments ICrash {St E}.

(** [Issue]: the writer's program makes the call.  [Vis]: as memory, and so the readers, see it.  [Fenced]:
    the writer executes mfence or a locked instruction. *)
Inductive tev (E : Type) := Issue (e : E) | Vis (e : E) | Fenced.
Arguments Issue {E}. Arguments Vis {E}. Arguments Fenced {E}.

Definition vis {E : Type} (log : list (tev E)) : list E := flat_map (fun e => match e with Vis e => [e] | _ => [] end) log.
Definition issued {E : Type} (log : list (tev E)) : list E := flat_map (fun e => match e with Issue e => [e] | _ => [] end) log.

Section Machine.
Context {M C St O R RL E : Type}.
(** [app]: a store arrives in memory; [exec]: an operation of the writer on what it sees; [fin]: the event of
    the end of an operation; [rstep]: a step of a reader *)
Variables (app : M -> St -> M * list E) (exec : M -> C -> O -> option (outcome St C E)) (fin : E)
          (rstep : M -> R -> RL -> option (R * list E)).

(** * On TSO *)
Record tst := mkt { t_mem : M; t_buf : list (item St E); t_c : C; t_rd : R }.
Inductive tlab := TCall (o : O) | TFlush | TFence | TRd (l : RL).

(** what the writer's loads return: memory with its buffered stores applied *)
Definition see (m : M) (b : list (item St E)) : M :=
  fold_left (fun m i => match i with ISt x => fst (app m x) | _ => m end) b m.

Definition tstep (s : tst) (l : tlab) : option (tst * list (tev E)) :=
  match l with
  | TCall o =>
      match exec (see (t_mem s) (t_buf s)) (t_c s) o with
      | Some (Done tr c e) => Some (mkt (t_mem s) (t_buf s ++ IBeg e :: map ISt tr ++ [IEnd]) c (t_rd s), [Issue e])
      | Some (Crash e) => Some (mkt (t_mem s) (t_buf s ++ [ICrash e]) (t_c s) (t_rd s), [Issue e])
      | None => None
      end
  | TFlush =>
      match t_buf s with
      | [] => None
      | ISt x :: b => let (m, e) := app (t_mem s) x in Some (mkt m b (t_c s) (t_rd s), map Vis e)
      | IBeg e :: b | ICrash e :: b => Some (mkt (t_mem s) b (t_c s) (t_rd s), [Vis e])
      | IEnd :: b => Some (mkt (t_mem s) b (t_c s) (t_rd s), [Vis fin])
      end
  | TFence => match t_buf s with [] => Some (s, [Fenced]) | _ => None end
  | TRd l => match rstep (t_mem s) (t_rd s) l with Some (r, e) => Some (mkt (t_mem s) (t_buf s) (t_c s) r, map Vis e) | None => None end
  end.

(** * The same with sequentially consistent memory: the machine of the *Conc_Model files *)
Record gst := mkg { g_mem : M; g_todo : option (list St); g_c : C; g_rd : R }.
Inductive glab := GCall (o : O) | GStore | GDone | GRd (l : RL).

Definition gstep (s : gst) (l : glab) : option (gst * list E) :=
  match l with
  | GCall o =>
      match g_todo s with
      | Some _ => None
      | None =>
          match exec (g_mem s) (g_c s) o with
          | Some (Done tr c e) => Some (mkg (g_mem s) (Some tr) c (g_rd s), [e])
          | Some (Crash e) => Some (s, [e])
          | None => None
          end
      end
  | GStore =>
      match g_todo s with
      | Some (x :: tr) => let (m, e) := app (g_mem s) x in Some (mkg m (Some tr) (g_c s) (g_rd s), e)
      | _ => None
      end
  | GDone => match g_todo s with Some [] => Some (mkg (g_mem s) None (g_c s) (g_rd s), [fin]) | _ => None end
  | GRd l => match rstep (g_mem s) (g_rd s) l with Some (r, e) => Some (mkg (g_mem s) (g_todo s) (g_c s) r, e) | None => None end
  end.

Definition tinit (m : M) (c : C) (r : R) : tst := mkt m [] c r.
Definition ginit (m : M) (c : C) (r : R) : gst := mkg m None c r.
End Machine.
