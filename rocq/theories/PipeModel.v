(** * Model of tile/communicator pipelines.

    Files: include/dlaf/common/pipeline.h (Pipeline),
           include/dlaf/matrix/internal/tile_pipeline.h (TilePipeline),
           include/dlaf/matrix/tile.h (who keeps an access alive).

    Pipelines are thin wrappers around pika's async_rw_mutex, which is not part of the
    repository.  It is modelled by its mechanism: a queue of access groups.  A readwrite request
    opens a group of its own; consecutive read requests share a group; the front group has
    access; a group is left behind when all its accesses are released and a later group exists.
    An access is one handle: the sender returned by read()/readwrite(), later the wrapper or tile
    it sends, and whatever was made from it (sub-tiles, shared pointers); it is released when the
    last of these is destroyed, or when the sender is destroyed without having been started. *)
From Coq Require Import List Arith Bool.
Import ListNotations.

(** pipeline.h:60 / tile_pipeline.h:36 (read), pipeline.h:51 / tile_pipeline.h:48 (readwrite) *)
Inductive mode := R | W.
Definition is_W (m : mode) : bool := match m with W => true | R => false end.

(** ** async_rw_mutex *)
Record group := Group { g_mode : mode; g_live : list nat }.
Definition mutex := list group.
(** front groups without live accesses are left behind, except the last group of the queue *)
Fixpoint advance (q : mutex) : mutex :=
  match q with
  | [] => []
  | g :: q' => match q' with
               | [] => q
               | _ => match g_live g with [] => advance q' | _ => q end
               end
  end.
(** a read joins the last group if that is a group of reads *)
Fixpoint enqueue (h : nat) (m : mode) (q : mutex) : mutex :=
  match q with
  | [] => [Group m [h]]
  | [g] => match m, g_mode g with
           | R, R => [Group R (g_live g ++ [h])]
           | _, _ => [g; Group m [h]]
           end
  | g :: q' => g :: enqueue h m q'
  end.
Definition request (h : nat) (m : mode) (q : mutex) : mutex := advance (enqueue h m q).
Definition drop_handle (h : nat) (g : group) : group :=
  Group (g_mode g) (filter (fun x => negb (x =? h)) (g_live g)).
Definition release (h : nat) (q : mutex) : mutex := advance (map (drop_handle h) q).
(** the access is granted: its sender sends *)
Definition holds (q : mutex) (h : nat) : bool :=
  match q with [] => false | g :: _ => existsb (Nat.eqb h) (g_live g) end.

(** ** Histories of one mutex *)
Inductive event := Req (h : nat) (m : mode) | Rel (h : nat).
Definition apply_event (q : mutex) (e : event) : mutex :=
  match e with Req h m => request h m q | Rel h => release h q end.
Definition replay (hist : list event) : mutex := fold_left apply_event hist [].
