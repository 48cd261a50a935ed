(** * Model of matrix views, sub-matrix references and retiling.

    Files: include/dlaf/matrix/views.h (View, SubMatrixView, SubPanelView),
           include/dlaf/matrix/matrix_ref.h (MatrixRef),
           include/dlaf/matrix/matrix_base.h (retiling constructor),
           include/dlaf/matrix/matrix.h (set_up_retiled_sub_pipelines).

    Senders are modelled by the tile they will deliver (when they deliver it is the subject of
    the pipeline model).  [DLAF_ASSERT_MODERATE] and [DLAF_ASSERT_HEAVY] are compiled out in
    release builds and are not part of the functions. *)
From Coq Require Import ZArith Bool List.
From Verif Require Import CInt Loop DistModel IndexModel MemModel.
Import ListNotations.
Open Scope Z_scope.

(** Distribution::size, nr_tiles, tile_size, rank_index as 2D values *)
Definition size2 (d : distribution) : pair_Z := (ax_size (d_row d), ax_size (d_col d)).
Definition nr_tiles2 (d : distribution) : pair_Z := (ax_nr_tiles (d_row d), ax_nr_tiles (d_col d)).

(** ** views.h *)

(** View, views.h:78-83; Index2D() is (-1, -1), index2d.h:192 *)
Record view := View { v_dist : distribution; v_offset_e : pair_Z; v_offset_tile : pair_Z;
                      v_begin : pair_Z; v_end : pair_Z }.
(** View(dist, start_offset), views.h:46-58 *)
Definition view_make (d : distribution) (start_offset : pair_Z) : res view :=
  if isEmpty2 (size2 d) then Ok (View d start_offset (-1, -1) (0, 0) (0, 0))
  else
    do dlaf_assert (isIn2 start_offset (size2 d)) ;;;
    let offset_tile := global_tile_index_of_element d start_offset in
    Ok (View d start_offset offset_tile
          (ax_next_local_tile_from_global_tile (d_row d) (fst offset_tile),
           ax_next_local_tile_from_global_tile (d_col d) (snd offset_tile)) (0, 0)).
(** iteratorLocal, views.h:71-73 *)
Definition view_iterator (v : view) : res range2d := range_end (v_begin v) (v_end v).

(** SubMatrixView, views.h:95-128; [None] = has_subtile_ never initialised *)
Record sub_matrix_view := SMView { smv_view : view; smv_has_subtile : option bool }.
(** views.h:95-103 *)
Definition sub_matrix_view_make (d : distribution) (offset_e : pair_Z) : res sub_matrix_view :=
  v <- view_make d offset_e ;;
  if isEmpty2 (size2 d) then Ok (SMView v None)
  else
    let tile_end := local_nr_tiles2 d in
    let has := (ax_rank_global_tile (d_row d) (fst (v_offset_tile v)) =? ax_rank (d_row d))
               || (ax_rank_global_tile (d_col d) (snd (v_offset_tile v)) =? ax_rank (d_col d)) in
    Ok (SMView (View d (v_offset_e v) (v_offset_tile v) (v_begin v) tile_end) (Some has)).
(** operator(), views.h:105-124 *)
Definition sub_matrix_view_spec (s : sub_matrix_view) (index : pair_Z) : res sub_tile_spec :=
  match smv_has_subtile s with
  | None => UB
  | Some has =>
    let v := smv_view s in let d := v_dist v in
    let ij := global_tile_index_of_local d index in
    let i_sub := if has && (fst ij =? fst (v_offset_tile v))
                 then ax_tile_element_from_global_element (d_row d) (fst (v_offset_e v)) else 0 in
    let j_sub := if has && (snd ij =? snd (v_offset_tile v))
                 then ax_tile_element_from_global_element (d_col d) (snd (v_offset_e v)) else 0 in
    let size_tile := tile_size_of_global d ij in
    Ok (SubTileSpec (i_sub, j_sub) (fst size_tile - i_sub, snd size_tile - j_sub))
  end.

(** SubPanelView, views.h:184-190 *)
Record sub_panel_view := SPView { spv_view : view; spv_cols : Z; spv_i_sub : Z; spv_j_sub : Z;
                                  spv_has_top : option bool }.
(** views.h:144-159 *)
Definition sub_panel_view_make (d : distribution) (offset_e : pair_Z) (ncols : Z) : res sub_panel_view :=
  v <- view_make d offset_e ;;
  let i_sub := Z.rem (fst offset_e) (ax_tile (d_row d)) in
  let j_sub := Z.rem (snd offset_e) (ax_tile (d_col d)) in
  do dlaf_assert (j_sub + ncols <=? ax_tile (d_col d)) ;;;
  if isEmpty2 (size2 d) then Ok (SPView v ncols i_sub j_sub None)
  else
    let tile_end := (ax_local_nr_tiles (d_row d), snd (v_begin v) + 1) in
    let has_top := ax_rank_global_tile (d_row d) (fst (v_offset_tile v)) =? ax_rank (d_row d) in
    Ok (SPView (View d (v_offset_e v) (v_offset_tile v) (v_begin v) tile_end) ncols i_sub j_sub (Some has_top)).
(** operator(), views.h:161-171 *)
Definition sub_panel_view_spec (s : sub_panel_view) (index : pair_Z) : res sub_tile_spec :=
  match spv_has_top s with
  | None => UB
  | Some has =>
    let v := spv_view s in let d := v_dist v in
    let origin := (if has && eqb2 index (v_begin v) then spv_i_sub s else 0, spv_j_sub s) in
    let size_tile := tile_size_of_global d (global_tile_index_of_local d index) in
    Ok (SubTileSpec origin (fst size_tile - fst origin, Z.min (spv_cols s) (snd size_tile - snd origin)))
  end.

(** ** Tiles by global index *)

(** Matrix::read / readwrite (GlobalTileIndex), matrix.h:394-396, :495-497: the local index is
    negative when the tile is on another rank, and the vector is then indexed out of bounds *)
Definition mx_tile_global (m : matrix) (g : pair_Z) : res tile_data :=
  let l := local_tile_index (mx_dist m) g in
  if (fst l <? 0) || (snd l <? 0) then UB else mx_tile m l.

(** ** matrix_ref.h *)
Record mref := MRef { mr_mat : matrix; mr_dist : distribution; mr_origin : pair_Z }.
(** MatrixRef(mat, spec), matrix_ref.h:57-59, :190-191 *)
Definition mref_make (m : matrix) (origin size : pair_Z) : res mref :=
  d <- sub_distribution (mx_dist m) origin size ;;
  Ok (MRef m d origin).
(** MatrixRef(mat), matrix_ref.h:64, :196 *)
Definition mref_whole (m : matrix) : res mref := mref_make m (0, 0) (size2 (mx_dist m)).
(** read / readwrite (GlobalTileIndex), matrix_ref.h:106-130, :156-178, :226-248: the three
    bodies are the same up to the access mode *)
Definition mref_tile_global (r : mref) (index : pair_Z) : res tile_data :=
  do dlaf_assert (isIn2 index (nr_tiles2 (mr_dist r))) ;;;
  let parent := mx_dist (mr_mat r) in
  let parent_index := global_tile_index_from_sub_distribution parent (mr_origin r) index in
  t <- mx_tile_global (mr_mat r) parent_index ;;
  let parent_tile_size := tile_size_of_global parent parent_index in
  let tile_size := tile_size_of_global (mr_dist r) index in
  if eqb2 parent_tile_size tile_size then Ok t
  else sub_tile t (SubTileSpec (tile_element_offset_from_sub_distribution parent (mr_origin r) index) tile_size).
(** read / readwrite (LocalTileIndex), matrix_ref.h:96-100, :146-150, :216-220 *)
Definition mref_tile (r : mref) (index : pair_Z) : res tile_data :=
  mref_tile_global r (global_tile_index_of_local (mr_dist r) index).

(** ** Retiling *)

(** MatrixBase(distribution, tiles_per_block), matrix_base.h:39-52.  The last argument of the
    Distribution constructor is left to its default: offset (0, 0). *)
Definition retiled_distribution (d : distribution) (tpb : pair_Z) : res distribution :=
  if (fst tpb =? 0) || (snd tpb =? 0) then UB
  else
    d' <- dist_ctor (size2 d) (ax_block (d_row d), ax_block (d_col d))
            (Z.quot (ax_block (d_row d)) (fst tpb), Z.quot (ax_block (d_col d)) (snd tpb))
            (ax_grid (d_row d), ax_grid (d_col d)) (ax_rank (d_row d), ax_rank (d_col d))
            (ax_src (d_row d), ax_src (d_col d)) (0, 0) ;;
    do dlaf_assert (single_tile_per_block d) ;;;
    do dlaf_assert (eqb2 (ax_block (d_row d), ax_block (d_col d)) (ax_block (d_row d'), ax_block (d_col d'))) ;;;
    Ok d'.

(** indices and specs of one original tile, matrix.h:589-596; the two vectors are always
    extended together, so they are one list of pairs *)
Definition retile_specs (fuel : nat) (d' : distribution) (tpb orig original_tile_size : pair_Z)
  : res (list (pair_Z * sub_tile_spec)) :=
  let tr := ax_tile (d_row d') in let tc := ax_tile (d_col d') in
  s <- while_ fuel (fun s => fst s <? snd original_tile_size) (fun s =>
         let j := fst s in
         s' <- while_ fuel (fun s => fst s <? fst original_tile_size) (fun s =>
                 let i := fst s in
                 let index := (fst orig * fst tpb + Z.quot i tr, snd orig * snd tpb + Z.quot j tc) in
                 let spec := SubTileSpec (i, j)
                               (tile_size_of_global d' (global_tile_index_of_local d' index)) in
                 Ok (i + tr, snd s ++ [(index, spec)])) (0, snd s) ;;
         Ok (j + tc, snd s')) (0, []) ;;
  Ok (snd s).

(** vector element assignment *)
Definition set_manager (l : list tile_data) (p : Z) (t : tile_data) : res (list tile_data) :=
  if (0 <=? p) && (p <? Z.of_nat (length l))
  then Ok (firstn (Z.to_nat p) l ++ t :: skipn (S (Z.to_nat p)) l) else UB.
(** matrix.h:598-614: the sub-tiles are moved into the tile managers *)
Fixpoint install_sub_tiles (d' : distribution) (t : tile_data) (specs : list (pair_Z * sub_tile_spec))
         (managers : list tile_data) : res (list tile_data) :=
  match specs with
  | [] => Ok managers
  | (index, spec) :: rest =>
    u <- sub_tile t spec ;;
    managers <- set_manager managers (tile_linear_index d' index) u ;;
    install_sub_tiles d' t rest managers
  end.
(** set_up_retiled_sub_pipelines, matrix.h:562-619.  [d], [rw]: the distribution and the
    readwrite(LocalTileIndex) of the original matrix (Matrix or MatrixRef).  The assertion of
    :564 compares blockSize() with tile_size(), and blockSize() is tile_size()
    (matrix_base.h:107-109), so it always holds.  iterate_range2d is column-major. *)
Definition set_up_retiled (fuel : nat) (d d' : distribution) (rw : pair_Z -> res tile_data) (tpb : pair_Z)
  : res (list tile_data) :=
  let n := ax_local_nr_tiles (d_row d') * ax_local_nr_tiles (d_col d') in
  for_ 0 (ax_local_nr_tiles (d_col d)) (fun jt =>
    for_ 0 (ax_local_nr_tiles (d_row d)) (fun it managers =>
      let orig := (it, jt) in
      let original_tile_size := tile_size_of_global d (global_tile_index_of_local d orig) in
      specs <- retile_specs fuel d' tpb orig original_tile_size ;;
      t <- rw orig ;;
      install_sub_tiles d' t specs managers))
    (repeat tile_data_empty (Z.to_nat n)).
(** Matrix(mat, tiles_per_block), matrix.h:471-481 *)
Definition retile (fuel : nat) (d : distribution) (rw : pair_Z -> res tile_data)
           (layout : res allocation_layout) (tpb : pair_Z) : res matrix :=
  d' <- retiled_distribution d tpb ;;
  lay <- layout ;;
  let lay' := match lay with
              | Tiles => if single_tile_per_block d && negb (single_tile_per_block d') then Blocks else Tiles
              | _ => lay
              end in
  managers <- set_up_retiled fuel d d' rw tpb ;;
  Ok (Matrix d' managers (Some lay')).
(** Matrix::retiled_sub_pipeline, matrix.h:186-190, :434-436 *)
Definition matrix_retile (fuel : nat) (m : matrix) (tpb : pair_Z) : res matrix :=
  retile fuel (mx_dist m) (mx_tile m) (mx_allocation_layout m) tpb.
(** MatrixRef::retiled_sub_pipeline, matrix_ref.h:82-85, :204-207 *)
Definition mref_retile (fuel : nat) (r : mref) (tpb : pair_Z) : res matrix :=
  do dlaf_assert ((fst (mr_origin r) =? 0) && (snd (mr_origin r) =? 0)) ;;;
  retile fuel (mr_dist r) (mref_tile r) (mx_allocation_layout (mr_mat r)) tpb.
