(** * Model of tile storage.

    Files: include/dlaf/memory/memory_view.h, memory_chunk.h,
           include/dlaf/matrix/tile.h (TileData, sub-tiles),
           include/dlaf/matrix/col_major_layout.h,
           include/dlaf/matrix/allocation.h, allocation_types.h,
           include/dlaf/matrix/matrix.h (storage set-up), create_matrix.h.

    A memory chunk is an entry of the [heap]: its number of elements and whether the library
    allocated it.  Addresses are (chunk number, element position).  What an address contains,
    and the devices' memory types, are not modelled. *)
From Coq Require Import ZArith Bool List.
From Verif Require Import CInt Loop DistModel IndexModel.
Import ListNotations.
Open Scope Z_scope.

(** MemoryChunk, memory_chunk.h:193-195 *)
Record chunk := Chunk { ck_size : Z; ck_allocated : bool }.
Definition heap := list chunk.
(** MemoryView, memory_view.h:154-156; [None] is a null shared_ptr *)
Record mview := MView { mv_chunk : option nat; mv_off : Z; mv_size : Z }.

(** MemoryView(), memory_view.h:39 *)
Definition mview_empty : mview := MView None 0 0.
(** MemoryView(size), memory_view.h:47-51, and MemoryChunk(size), memory_chunk.h:58-82 *)
Definition mview_alloc (h : heap) (size : Z) : res (mview * heap) :=
  let r := if 0 <? size then (MView (Some (length h)) 0 size, h ++ [Chunk size true])
           else (MView None 0 size, h) in
  do dlaf_assert (0 <=? size) ;;;
  Ok r.
(** MemoryView(ptr, size), memory_view.h:58-63, and MemoryChunk(ptr, size),
    memory_chunk.h:89-107 (the memory type switch is not modelled); [ptr] says whether the
    pointer is non-null *)
Definition mview_user (h : heap) (ptr : bool) (size : Z) : res (mview * heap) :=
  let r := if ptr then (MView (Some (length h)) 0 size, h ++ [Chunk size false])
           else (MView None 0 size, h) in
  do dlaf_assert (0 <=? size) ;;;
  Ok r.
(** MemoryView(view, offset, size), memory_view.h:89-99 *)
Definition mview_sub (v : mview) (offset size : Z) : res mview :=
  let r := MView (if 0 <? size then mv_chunk v else None)
                 (if 0 <? size then offset + mv_off v else 0) size in
  do dlaf_assert (offset + size <=? mv_size v) ;;;
  Ok r.
(** operator()(index), memory_view.h:137-140 and memory_chunk.h:152-155: the address of the
    element; dereferencing it is only defined inside the chunk *)
Definition mview_at (h : heap) (v : mview) (index : Z) : res (nat * Z) :=
  match mv_chunk v with
  | None => UB
  | Some c =>
    match nth_error h c with
    | None => UB
    | Some k => let p := mv_off v + index in
                if (0 <=? p) && (p <? ck_size k) then Ok (c, p) else UB
    end
  end.

(** ** TileData, tile.h:39-109 *)
Record tile_data := TileData { td_size : pair_Z; td_view : mview; td_ld : Z }.
(** linearSize, tile.h:93-97 *)
Definition linearSize (size : pair_Z) (ld : Z) : Z :=
  if isEmpty2 size then 0 else fst size + ld * (snd size - 1).
(** TileData(size, view, ld), tile.h:43-49 *)
Definition tile_data_make (size : pair_Z) (v : mview) (ld : Z) : res tile_data :=
  do dlaf_assert (isValid2 size) ;;;
  do dlaf_assert (Z.max 1 (fst size) <=? ld) ;;;
  do dlaf_assert (isEmpty2 size || (linearSize size ld <=? mv_size v)) ;;;
  Ok (TileData size v ld).
(** linearIndex, tile.h:88-91 *)
Definition linearIndex (t : tile_data) (ij : pair_Z) : Z := fst ij + td_ld t * snd ij.
(** ptr(index), tile.h:77-79 *)
Definition tile_ptr (h : heap) (t : tile_data) (ij : pair_Z) : res (nat * Z) :=
  mview_at h (td_view t) (linearIndex t ij).
(** TileData(), tile.h:41,106-108 *)
Definition tile_data_empty : tile_data := TileData (0, 0) mview_empty 1.
(** Tile::is_contiguous, tile.h:281-283 *)
Definition is_contiguous (t : tile_data) : bool := td_ld t =? fst (td_size t).

(** SubTileSpec, tile.h:113-116 *)
Record sub_tile_spec := SubTileSpec { st_origin : pair_Z; st_size : pair_Z }.
(** createMemoryViewForSubtile, tile.h:297-307 *)
Definition createMemoryViewForSubtile (t : tile_data) (spec : sub_tile_spec) : res mview :=
  do dlaf_assert (isValid2 (st_origin spec)) ;;;
  do dlaf_assert (isInOrOn2 (st_origin spec) (td_size t)) ;;;
  do dlaf_assert (isValid2 (st_size spec)) ;;;
  do dlaf_assert (isInOrOn2 (plus2 (st_origin spec) (st_size spec)) (td_size t)) ;;;
  mview_sub (td_view t) (if isEmpty2 (st_size spec) then 0 else linearIndex t (st_origin spec))
            (linearSize (st_size spec) (td_ld t)).
(** Tile(tile, spec), tile.h:316-317 (subTileReference :287-289, :396-398; the same memory
    view is used by createDisjointSubTile :447) *)
Definition sub_tile (t : tile_data) (spec : sub_tile_spec) : res tile_data :=
  v <- createMemoryViewForSubtile t spec ;;
  tile_data_make (st_size spec) v (td_ld t).
(** subTileSpecsOverlap, tile.h:119-140 *)
Definition subTileSpecsOverlap (s1 s2 : sub_tile_spec) : bool :=
  if isEmpty2 (st_size s1) || isEmpty2 (st_size s2) then false
  else
    let start1 := st_origin s1 in let end1 := plus2 start1 (st_size s1) in
    let start2 := st_origin s2 in let end2 := plus2 start2 (st_size s2) in
    if (fst end1 <=? fst start2) || (fst end2 <=? fst start1) then false
    else if (snd end1 <=? snd start2) || (snd end2 <=? snd start1) then false
    else true.

(** ** Allocation specs *)
Inductive allocation_layout := ColMajor | Blocks | Tiles.   (* allocation_types.h:21 *)
Inductive ld_spec := Compact | Padded | LdValue (ld : Z).  (* allocation_types.h:23-30 *)
(** AllocationSpec, allocation.h:105-106; None = default *)
Record alloc_spec := AllocSpec { as_layout : option allocation_layout; as_ld : option ld_spec }.
(** layout(), allocation.h:67-72; [tune] is getTuneParameters().default_allocation_layout *)
Definition spec_layout (tune : allocation_layout) (s : alloc_spec) : allocation_layout :=
  match as_layout s with None => tune | Some l => l end.
(** ld(), allocation.h:79-86 *)
Definition spec_ld (tune : allocation_layout) (s : alloc_spec) : ld_spec :=
  match as_ld s with
  | None => match spec_layout tune s with ColMajor => Padded | _ => Compact end
  | Some l => l
  end.
(** Device and element size decide the alignment, matrix.h:225-229; [sizeofT > 0]. *)
Inductive device := CPU | GPU.
Definition ld_alignment (D : device) (sizeofT : Z) : Z :=
  match D with CPU => Z.max 1 (Z.quot 64 sizeofT) | GPU => 32 end.
(** compute_ld, matrix.h:214-243 *)
Definition compute_ld (D : device) (sizeofT : Z) (rows : Z) (ld : ld_spec) : res Z :=
  let min_ld := Z.max 1 rows in
  let ret := match ld with
             | Compact => min_ld
             | Padded => let alignment := ld_alignment D sizeofT in
                         if min_ld <? alignment then min_ld else ceilDiv min_ld alignment * alignment
             | LdValue v => v
             end in
  do dlaf_assert (min_ld <=? ret) ;;;
  Ok ret.

(** ** ColMajorLayout, col_major_layout.h *)
Record col_major_layout := CML { cml_dist : distribution; cml_ld : Z }.
(** local_size(), offset() etc. as 2D values *)
Definition local_size2 (d : distribution) : pair_Z := (ax_local_size (d_row d), ax_local_size (d_col d)).
Definition local_nr_tiles2 (d : distribution) : pair_Z :=
  (ax_local_nr_tiles (d_row d), ax_local_nr_tiles (d_col d)).
Definition offset2 (d : distribution) : pair_Z := (ax_offset (d_row d), ax_offset (d_col d)).
Definition eqb2 (a b : pair_Z) : bool := (fst a =? fst b) && (snd a =? snd b).
(** ColMajorLayout(dist, ld), col_major_layout.h:32-41 *)
Definition col_major_make (d : distribution) (ld : Z) : res col_major_layout :=
  do (if isEmpty2 (local_size2 d) then dlaf_assert (1 <=? ld)
      else dlaf_assert (ax_local_size (d_row d) <=? ld)) ;;;
  do dlaf_assert (eqb2 (offset2 d) (0, 0)) ;;;
  Ok (CML d ld).
(** min_tile_mem_size(m, n), col_major_layout.h:111-119 *)
Definition cml_mem_size (L : col_major_layout) (m n : Z) : Z :=
  if (m =? 0) || (n =? 0) then 0 else m + cml_ld L * (n - 1).
(** min_mem_size, col_major_layout.h:52-54 *)
Definition min_mem_size (L : col_major_layout) : Z :=
  cml_mem_size L (ax_local_size (d_row (cml_dist L))) (ax_local_size (d_col (cml_dist L))).
(** tile_offset, col_major_layout.h:59-64 *)
Definition tile_offset (L : col_major_layout) (ij : pair_Z) : Z :=
  let i := ax_local_element_from_local_tile_and_tile_element (d_row (cml_dist L)) (fst ij) 0 in
  let j := ax_local_element_from_local_tile_and_tile_element (d_col (cml_dist L)) (snd ij) 0 in
  i + j * cml_ld L.
(** tile_size_of, col_major_layout.h:69-71 *)
Definition cml_tile_size_of (L : col_major_layout) (ij : pair_Z) : pair_Z := tile_size_of_local (cml_dist L) ij.
(** min_tile_mem_size(index), col_major_layout.h:83-88 *)
Definition min_tile_mem_size (L : col_major_layout) (ij : pair_Z) : Z :=
  let s := cml_tile_size_of L ij in cml_mem_size L (fst s) (snd s).

(** ** Matrix storage *)
(** loop state: the heap, the vector tile_managers_ (only the tile data of each manager) *)
Definition store := (heap * list tile_data)%type.

(** body shared by matrix.h:277-281 and :533-536: the tile [ij] as a view into [mem] *)
Definition emplace_col_major (L : col_major_layout) (mem : mview) (ld i j : Z) (s : store) : res store :=
  v <- mview_sub mem (tile_offset L (i, j)) (min_tile_mem_size L (i, j)) ;;
  t <- tile_data_make (cml_tile_size_of L (i, j)) v ld ;;
  Ok (fst s, snd s ++ [t]).

(** matrix.h:268-284 *)
Definition set_up_col_major (D : device) (sz : Z) (d : distribution) (ld : ld_spec) (s : store) : res store :=
  mat_ld <- compute_ld D sz (ax_local_size (d_row d)) ld ;;
  L <- col_major_make d mat_ld ;;
  vh <- mview_alloc (fst s) (min_mem_size L) ;;
  for_ 0 (ax_local_nr_tiles (d_col d)) (fun j =>
    for_ 0 (ax_local_nr_tiles (d_row d)) (fun i =>
      emplace_col_major L (fst vh) mat_ld i j)) (snd vh, snd s).

(** matrix.h:330-343 *)
Definition set_up_tiles (D : device) (sz : Z) (d : distribution) (ld : ld_spec) (s : store) : res store :=
  for_ 0 (ax_local_nr_tiles (d_col d)) (fun j =>
    for_ 0 (ax_local_nr_tiles (d_row d)) (fun i s =>
      let tile_size := tile_size_of_local d (i, j) in
      tile_ld <- compute_ld D sz (fst tile_size) ld ;;
      vh <- mview_alloc (fst s) (tile_ld * snd tile_size) ;;
      t <- tile_data_make tile_size (fst vh) tile_ld ;;
      Ok (snd vh, snd s ++ [t]))) s.

(** matrix.h:285-329; loop state of the block loops *)
Record bstate := BState {
  bs_heap : heap; bs_tiles : list tile_data;
  bs_views : list mview;   (* mem_views *)
  bs_j : Z;                (* tile column *)
  bs_jel : Z;              (* j_el_bl *)
  bs_i : Z;                (* tile row *)
  bs_iel : Z               (* i_el_bl *)
}.

(** matrix.h:312-322: [while (i_el_bl < mb)] *)
Definition block_tile_loop (fuel : nat) (d : distribution) (mb block_ld nt i_bl : Z) (s : bstate) : res bstate :=
  while_ fuel (fun s => bs_iel s <? mb) (fun s =>
    let mt := ax_local_tile_size_of (d_row d) (bs_i s) in
    let offset := bs_iel s + block_ld * bs_jel s in
    let view_size := (nt - 1) * block_ld + mt in
    match nth_error (bs_views s) (Z.to_nat i_bl) with
    | None => UB
    | Some mv =>
      v <- mview_sub mv offset view_size ;;
      t <- tile_data_make (mt, nt) v block_ld ;;
      Ok (BState (bs_heap s) (bs_tiles s ++ [t]) (bs_views s) (bs_j s) (bs_jel s)
                 (bs_i s + 1) (bs_iel s + mt))
    end) s.

(** matrix.h:305-323: the loop over block rows; [i] starts at 0 *)
Definition block_row_loop (fuel : nat) (D : device) (sz : Z) (d hd : distribution) (ld : ld_spec)
           (nb nt : Z) (s : bstate) : res bstate :=
  for_ 0 (ax_local_nr_blocks (d_row hd)) (fun i_bl s =>
    let mb := ax_local_tile_size_of (d_row hd) i_bl in
    block_ld <- compute_ld D sz mb ld ;;
    s <- (if bs_jel s =? 0 then
            vh <- mview_alloc (bs_heap s) (block_ld * nb) ;;
            Ok (BState (snd vh) (bs_tiles s) (bs_views s ++ [fst vh]) (bs_j s) (bs_jel s) (bs_i s) (bs_iel s))
          else Ok s) ;;
    block_tile_loop fuel d mb block_ld nt i_bl
      (BState (bs_heap s) (bs_tiles s) (bs_views s) (bs_j s) (bs_jel s) (bs_i s) 0))
    (BState (bs_heap s) (bs_tiles s) (bs_views s) (bs_j s) (bs_jel s) 0 0).

(** matrix.h:299-328: loops over block columns and over the tile columns of a block *)
Definition set_up_blocks (fuel : nat) (D : device) (sz : Z) (d : distribution) (ld : ld_spec) (s : store)
  : res store :=
  let hd := create_single_tile_per_block_distribution d in
  do dlaf_assert (eqb2 (ax_local_nr_blocks (d_row d), ax_local_nr_blocks (d_col d))
                       (ax_local_nr_blocks (d_row hd), ax_local_nr_blocks (d_col hd))) ;;;
  s' <- for_ 0 (ax_local_nr_blocks (d_col hd)) (fun j_bl s =>
     let nb := ax_local_tile_size_of (d_col hd) j_bl in
     s <- while_ fuel (fun s => bs_jel s <? nb) (fun s =>
            let nt := ax_local_tile_size_of (d_col d) (bs_j s) in
            s <- block_row_loop fuel D sz d hd ld nb nt s ;;
            Ok (BState (bs_heap s) (bs_tiles s) (bs_views s) (bs_j s + 1) (bs_jel s + nt) (bs_i s) (bs_iel s)))
          (BState (bs_heap s) (bs_tiles s) (bs_views s) (bs_j s) 0 (bs_i s) (bs_iel s)) ;;
     Ok (BState (bs_heap s) (bs_tiles s) [] (bs_j s) (bs_jel s) (bs_i s) (bs_iel s)))
     (BState (fst s) (snd s) [] 0 0 0 0) ;;
  Ok (bs_heap s', bs_tiles s').

(** set_up_non_preallocated_tiles, matrix.h:245-347 *)
Definition set_up_non_preallocated_tiles (fuel : nat) (D : device) (sz : Z) (d : distribution)
           (allocation : allocation_layout) (ld : ld_spec) (h : heap) : res store :=
  if isEmpty2 (local_size2 d) then
    do compute_ld D sz 0 ld ;;;
    Ok (h, [])
  else match allocation with
       | ColMajor => set_up_col_major D sz d ld (h, [])
       | Blocks => set_up_blocks fuel D sz d ld (h, [])
       | Tiles => set_up_tiles D sz d ld (h, [])
       end.

(** set_up_preallocated_tiles, matrix.h:519-539 *)
Definition set_up_preallocated_tiles (L : col_major_layout) (mem : mview) (h : heap) : res store :=
  let d := cml_dist L in
  for_ 0 (ax_local_nr_tiles (d_col d)) (fun j =>
    for_ 0 (ax_local_nr_tiles (d_row d)) (fun i =>
      emplace_col_major L mem (cml_ld L) i j)) (h, []).

(** Matrix object: distribution, tiles, allocation_layout_ (None = never initialised) *)
Record matrix := Matrix { mx_dist : distribution; mx_tiles : list tile_data; mx_layout : option allocation_layout }.

(** Matrix(Distribution, AllocationSpec), matrix.h:124-127, with the base class constructor
    matrix.h:460-464: the parameter is moved from before the assertion reads it. *)
Definition matrix_from_distribution (fuel : nat) (D : device) (sz : Z) (tune : allocation_layout)
           (d : distribution) (a : alloc_spec) (h : heap) : res (matrix * heap) :=
  let layout := spec_layout tune a in
  let (base, moved_from) := dist_move d in
  do dlaf_assert (eqb2 (offset2 moved_from) (0, 0)) ;;;
  s <- set_up_non_preallocated_tiles fuel D sz base layout (spec_ld tune a) h ;;
  Ok (Matrix base (snd s) (Some layout), fst s).

(** Matrix(layout_mapper, ptr), matrix.h:138-139 and :363-367 *)
Definition matrix_from_memory (L : col_major_layout) (ptr : bool) (h : heap) : res (matrix * heap) :=
  vh <- mview_user h ptr (min_mem_size L) ;;
  s <- set_up_preallocated_tiles L (fst vh) (snd vh) ;;
  Ok (Matrix (cml_dist L) (snd s) (Some ColMajor), fst s).

(** create_matrix_from_col_major, create_matrix.h:35-64 *)
Definition create_matrix_from_col_major (size tile grid rank src : pair_Z) (ld : Z) (ptr : bool) (h : heap)
  : res (matrix * heap) :=
  d <- dist_ctor_tile size tile grid rank src (0, 0) ;;
  L <- col_major_make d ld ;;
  matrix_from_memory L ptr h.

(** make_dlaf_descriptor and make_layout, src/c_api/utils.cpp:26-49: ScaLAPACK descriptor to
    layout. *)
Record dlaf_desc := Desc { ds_m : Z; ds_n : Z; ds_mb : Z; ds_nb : Z; ds_isrc : Z; ds_jsrc : Z; ds_i : Z; ds_j : Z; ds_ld : Z }.
Definition make_dlaf_descriptor (m n i j : Z) (desc : list Z) : res dlaf_desc :=
  do dlaf_assert (i =? 1) ;;;
  do dlaf_assert (j =? 1) ;;;
  match nth_error desc 4, nth_error desc 5, nth_error desc 6, nth_error desc 7, nth_error desc 8 with
  | Some mb, Some nb, Some isrc, Some jsrc, Some ld => Ok (Desc m n mb nb isrc jsrc (i - 1) (j - 1) ld)
  | _, _, _, _, _ => UB
  end.
Definition make_layout (ds : dlaf_desc) (grid rank : pair_Z) : res col_major_layout :=
  d <- dist_ctor_tile (ds_m ds, ds_n ds) (ds_mb ds, ds_nb ds) grid rank (ds_isrc ds, ds_jsrc ds) (0, 0) ;;
  col_major_make d (ds_ld ds).

(** Matrix(mat, SubPipelineTag), matrix.h:467-469: allocation_layout_ has no initialiser *)
Definition matrix_sub_pipeline (m : matrix) : matrix := Matrix (mx_dist m) (mx_tiles m) None.
(** allocation_layout(), matrix.h:379-381: reading an indeterminate enum is UB *)
Definition mx_allocation_layout (m : matrix) : res allocation_layout :=
  match mx_layout m with Some l => Ok l | None => UB end.
(** tile_linear_index, matrix_base.h:158-162 *)
Definition tile_linear_index (d : distribution) (ij : pair_Z) : Z :=
  fst ij + ax_local_nr_tiles (d_row d) * snd ij.
(** the tile handed out by read / readwrite of local index ij, matrix.h:150-152, :386-388 *)
Definition mx_tile (m : matrix) (ij : pair_Z) : res tile_data :=
  match nth_error (mx_tiles m) (Z.to_nat (tile_linear_index (mx_dist m) ij)) with
  | Some t => Ok t
  | None => UB
  end.
