(** * Model of the distributed application of Givens rotations: eigensolver/tridiag_solver/rot.h:217-393. *)
From Coq Require Import ZArith List Bool Reals.
From Verif Require Import CInt Loop DistModel DenseJobs DistMachine DistGrid TridiagModel.
Import ListNotations.
Local Open Scope Z_scope.

(** The part of a column that a rank stores. Simplification: indexed by the global row, only the rows the rank owns have a meaning;
    the code keeps them one after the other (column-major local matrix, required by rot.h:215 and 259-272) *)
Definition column := Z -> R.
(** A call of applyGivensRotationsToMatrixColumns (rot.h:217-220): range of tiles, tag, rotations (relative to the range).
    rc_ws names the workspace, a new panel in every call (rot.h:381-386) *)
Record rcall := RCall { rc_begin : Z; rc_end : Z; rc_tag : Z; rc_ws : Z; rc_rots : list (rotation R) }.

Section grid.
(** grid, tile size, size of the square matrix (rot.h:235-237), source rank *)
Variables P Q mb n : Z.
Variable src : coord -> Z.
(** Distribution::rankGlobalTile, nextLocalTileFromGlobalTile of mat, at the rank r (distribution.h; util_distribution.h:82-166) *)
Definition tile_rank (rc : coord) (t : Z) : Z := rank_global_tile t 1 (gs P Q rc) (src rc) 0.
Definition r_next (rc : coord) (r t : Z) : Z := next_local_tile_from_global_tile t 1 (gs P Q rc) (co Q rc r) (src rc) 0.

Section call.
Variable c : rcall.
(** rot.h:237-238 *)
Definition rc_off : Z := rc_begin c * mb.
Definition rc_limit : Z := Z.min n (rc_end c * mb).
Definition rc_size : Z := rc_limit - rc_off.
(** rot.h:243-253 *)
Definition rc_range (rc : coord) (r : Z) : bool := negb (r_next rc r (rc_end c) - r_next rc r (rc_begin c) =? 0).
(** rot.h:262-263: dist_sub has the rank of the first tile of the range as source *)
Definition sub_rank (t : Z) : Z := rank_global_tile t 1 Q (tile_rank Col (rc_begin c)) 0.

Section rank.
Variable r : Z.
(** the m rows of dist_sub of the rank (rot.h:294) *)
Definition my_row (i : Z) : bool := (rc_off <=? i) && (i <? rc_limit) && (tile_rank Row (Z.quot i mb) =? co Q Row r).
(** getColPtr, rot.h:282-290: column of the matrix, or workspace *)
Definition col_tid (j : Z) (has : bool) : tid := if has then Tid r 0 0 (rc_off + j) else Tid r 1 (rc_ws c) 0.
(** blas::rot (rot.h:361): x := c x + s y, y := c y - s x. Simplification: a task with two outputs, here three tasks with a copy of x *)
Definition scratch : tid := Tid r 2 (rc_ws c) 0.
Definition arg (vs : list column) (d : column) : column := hd d vs.
Definition rot_jobs (x y : tid) (g : rotation R) : list (tjob column) :=
  [TJob [x] scratch (fun vs d => arg vs d);
   TJob [y] x (fun vs d i => if my_row i then (r_c g * d i + r_s g * arg vs d i)%R else d i);
   TJob [scratch] y (fun vs d i => if my_row i then (r_c g * d i - r_s g * arg vs d i)%R else d i)].
(** The channel of two ranks: the messages with a tag between them in the row communicator. The two ranks of an exchange send and receive
    (rot.h:323-326, scheduleSendCol, scheduleRecvCol: rot.h:43-115) and wait for both operations before the rotation (rot.h:350): one exchange *)
Definition chan (a b : Z) : comm := CP2P (Z.min a b) (Z.max a b) (rc_tag c).
Definition exchange (partner : Z) (send recv : tid) : cact column :=
  CAct (chan r partner) SMessage (Some send) (Some recv) [partner] (fun vs d i => if my_row i then arg vs d i else d i).
(** rot.h:296-372: one rotation *)
Definition rot_step (g : rotation R) : list (act column) :=
  let rankColX := sub_rank (Z.quot (r_i g) mb) in
  let rankColY := sub_rank (Z.quot (r_j g) mb) in
  let hasX := co Q Col r =? rankColX in
  let hasY := co Q Col r =? rankColY in
  if negb hasX && negb hasY then []
  else
    let x := col_tid (r_i g) hasX in
    let y := col_tid (r_j g) hasY in
    (if hasX && hasY then []
     else
       let rank_partner := if hasX then rankColY else rankColX in
       [ACom (exchange (rk Q (co Q Row r) rank_partner) (if hasX then x else y) (if hasX then y else x))])
    ++ map ALoc (rot_jobs x y g).
(** rot.h:217-393; 255-257: ranks out of the range return *)
Definition rc_prog : list (act column) :=
  if rc_range Row r && rc_range Col r then flat_map rot_step (rc_rots c) else [].
End rank.
End call.
(** The calls a rank makes, one after the other. The tasks of a call wait for its tiles only, not for earlier calls *)
Definition rots_prog (calls : list rcall) (r : Z) : list (act column) := flat_map (fun c => rc_prog c r) calls.
End grid.
