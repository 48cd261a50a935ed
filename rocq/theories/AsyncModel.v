(** * Model of asynchronous task programs over pipelines.

    What algorithms do (e.g. include/dlaf/factorization/cholesky/impl.h:147-196,
    include/dlaf/matrix/matrix.h:150-160, :386-396): the calling thread requests accesses with
    read()/readwrite() and hands the senders to tasks (when_all + transform, start_detached).  A
    task starts when all its accesses have been granted, reads and writes the data, and gives up
    each access when the tile (or wrapper) is destroyed.  The scheduler is arbitrary: any enabled
    step of any task, or of the calling thread, may be next; loads and stores of running tasks
    interleave.  Kernels are arbitrary programs over the data they may access. *)
From Coq Require Import List Arith Bool.
From Verif Require Import PipeModel.
Import ListNotations.

Section async.
Context {V : Type}.

(** Data: cells hold values (a tile, or a part of one, or the object owned by a Pipeline). *)
Definition store := nat -> V.
Definition upd {A : Type} (f : nat -> A) (i : nat) (x : A) : nat -> A := fun j => if j =? i then x else f j.

(** What a task does once started.  [Free h]: the last object that keeps access h alive dies. *)
Inductive body :=
| Ret
| Load (c : nat) (k : V -> body)
| Put (c : nat) (v : V) (k : body)
| Free (h : nat) (k : body).

(** Handles are numbered in the order of the requests; t_need: accesses the task waits for
    (when_all); t_after: tasks whose completion it waits for (it consumes a sender made by them). *)
Record task := Task { t_need : list nat; t_after : list nat; t_body : body }.
(** p_handles: for each request the pipeline and the mode.
    p_guards m c: an access to pipeline m gives access to cell c. *)
Record program := Program { p_handles : list (nat * mode); p_guards : nat -> nat -> bool; p_tasks : list task }.
Definition mutex_of (P : program) (h : nat) : nat := fst (nth h (p_handles P) (0, R)).
Definition mode_of (P : program) (h : nat) : mode := snd (nth h (p_handles P) (0, R)).

Inductive status := Waiting | Running (held : list nat) (b : body) | Finished.
Record state := State { st_store : store; st_issued : nat; st_hist : list event; st_status : nat -> status }.

(** state of the async_rw_mutex of pipeline m: the replay of its requests and releases *)
Definition ev_handle (e : event) : nat := match e with Req h _ => h | Rel h => h end.
Definition mutex_hist (P : program) (m : nat) (hist : list event) : list event :=
  filter (fun e => mutex_of P (ev_handle e) =? m) hist.
Definition mutex_state (P : program) (s : state) (m : nat) : mutex := replay (mutex_hist P m (st_hist s)).
Definition access (P : program) (s : state) (h : nat) : bool := holds (mutex_state P s (mutex_of P h)) h.

Definition set_status (s : state) (t : nat) (x : status) : state :=
  State (st_store s) (st_issued s) (st_hist s) (upd (st_status s) t x).

Inductive step (P : program) (s : state) : state -> Prop :=
| s_issue : st_issued s < length (p_handles P) ->
    step P s (State (st_store s) (S (st_issued s))
                (st_hist s ++ [Req (st_issued s) (mode_of P (st_issued s))]) (st_status s))
| s_start : forall t tk, nth_error (p_tasks P) t = Some tk -> st_status s t = Waiting ->
    (forall a, In a (t_after tk) -> st_status s a = Finished) ->
    (forall h, In h (t_need tk) -> access P s h = true) ->
    step P s (set_status s t (Running (t_need tk) (t_body tk)))
| s_load : forall t H c k, st_status s t = Running H (Load c k) ->
    step P s (set_status s t (Running H (k (st_store s c))))
| s_put : forall t H c v k, st_status s t = Running H (Put c v k) ->
    step P s (State (upd (st_store s) c v) (st_issued s) (st_hist s) (upd (st_status s) t (Running H k)))
| s_free : forall t H h k, st_status s t = Running H (Free h k) ->
    step P s (State (st_store s) (st_issued s) (st_hist s ++ [Rel h])
                (upd (st_status s) t (Running (remove Nat.eq_dec h H) k)))
| s_finish : forall t H, st_status s t = Running H Ret ->
    step P s (set_status s t Finished).

Definition initial (s0 : store) : state := State s0 0 [] (fun _ => Waiting).
Inductive reachable (P : program) (s0 : store) : state -> Prop :=
| r_init : reachable P s0 (initial s0)
| r_step : forall s s', reachable P s0 s -> step P s s' -> reachable P s0 s'.
Definition final (P : program) (s : state) : Prop :=
  st_issued s = length (p_handles P) /\ forall t, t < length (p_tasks P) -> st_status s t = Finished.

(** ** Sequential meaning *)
Fixpoint run (b : body) (s : store) : store :=
  match b with
  | Ret => s
  | Load c k => run (k (s c)) s
  | Put c v k => run k (upd s c v)
  | Free _ k => run k s
  end.
(** the tasks one after the other *)
Definition run_tasks (l : list task) (s : store) : store := fold_left (fun s tk => run (t_body tk) s) l s.
End async.
Arguments body : clear implicits.
Arguments task : clear implicits.
Arguments program : clear implicits.
Arguments status : clear implicits.
Arguments state : clear implicits.
Arguments store : clear implicits.
