(** * CommunicatorGrid construction.

    src/communication/communicator_grid.cpp:27-76, include/dlaf/communication/communicator_grid.h.
    The processes of the given communicator are the integers [0 .. n-1] (their rank in it).
    MPI_Comm_split is modelled by its MPI-standard contract: the processes giving the same colour form a
    new communicator whose ranks are ordered by (key, old rank); MPI_UNDEFINED ([None]) gives no
    communicator.  A communicator is the list of the old ranks of its processes in new-rank order.
    Communicator duplication for the pipelines keeps group and order and is not modelled. *)
From Coq Require Import ZArith Bool List.
From Verif Require Import CInt Loop DistModel IndexModel.
Import ListNotations.
Open Scope Z_scope.

(** Stable insertion by key (used for the (key, rank) order of MPI_Comm_split). *)
Fixpoint insert_by (key : Z -> Z) (x : Z) (l : list Z) : list Z :=
  match l with
  | [] => [x]
  | y :: r => if key x <=? key y then x :: l else y :: insert_by key x r
  end.
Fixpoint sort_by (key : Z -> Z) (l : list Z) : list Z :=
  match l with
  | [] => []
  | x :: r => insert_by key x (sort_by key r)
  end.

Definition same_colour (a b : option Z) : bool :=
  match a, b with Some x, Some y => x =? y | _, _ => false end.

(** MPI_Comm_split(comm, colour, key): the communicator obtained by process [me]. *)
Definition comm_split (n : Z) (colour : Z -> option Z) (key : Z -> Z) (me : Z) : list Z :=
  sort_by key (filter (fun q => same_colour (colour me) (colour q)) (zrange 0 n)).

(** communicator_grid.cpp:31: bool is_in_grid = comm.rank() < nrows * ncols *)
Definition is_in_grid (nrows ncols r : Z) : bool := r <? nrows * ncols.
(** communicator_grid.cpp:40: position_ *)
Definition position (ord : ordering) (nrows ncols r : Z) : pair_Z := computeCoords ord r (nrows, ncols).
(** communicator_grid.cpp:41-42: key_full, FULL_COMMUNICATOR_ORDER = RowMajor
    (communication/communicator_pipeline.h:26). *)
Definition key_full (ord : ordering) (nrows ncols r : Z) : Z :=
  computeLinearIndex RowMajor (position ord nrows ncols r) (nrows, ncols).

(** What a process in the grid gets (members position_, grid_size_, full_, row_, col_). *)
Record comm_grid := CommGrid {
  cg_position : pair_Z; cg_size : pair_Z;
  cg_full : list Z; cg_row : list Z; cg_col : list Z }.

(** CommunicatorGrid::CommunicatorGrid, communicator_grid.cpp:27-76, as seen by process [me] of a
    communicator of [n] processes; [None]: the process is not part of the grid (line 53-54).
    The int product is overflow-checked. *)
Definition grid_ctor (n nrows ncols : Z) (ord : ordering) (me : Z) : res (option comm_grid) :=
  p <- i32 (nrows * ncols) ;;
  do dlaf_assert (p <=? n) ;;;
  let ing := is_in_grid nrows ncols in
  let pos := position ord nrows ncols in
  let full := comm_split n (fun q => if ing q then Some 0 else None) (key_full ord nrows ncols) me in
  let row := comm_split n (fun q => if ing q then Some (fst (pos q)) else None) (fun q => q) me in
  let col := comm_split n (fun q => if ing q then Some (snd (pos q)) else None) (fun q => q) me in
  if ing me then Ok (Some (CommGrid (pos me) (nrows, ncols) full row col)) else Ok None.

(** rankFullCommunicator, communicator_grid.h:58-61 *)
Definition rankFullCommunicator (g : comm_grid) (index : pair_Z) : Z :=
  computeLinearIndex RowMajor index (cg_size g).
