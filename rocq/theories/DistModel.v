(** * Model of the block-cyclic distribution.

    Files: include/dlaf/matrix/util_distribution.h,
           include/dlaf/matrix/distribution.h,
           include/dlaf/matrix/distribution_extensions.h,
           src/matrix/distribution.cpp.

    All integers are [Z]; C++ [/] and [%] are [Z.quot] and [Z.rem].
    DLAF_ASSERT_HEAVY checks are compiled out in release builds and are not part
    of the functions; they appear as hypotheses of the theorems. *)
From Coq Require Import ZArith Bool.
From Verif Require Import CInt.
Open Scope Z_scope.

(** ** util_distribution.h *)

(** util_distribution.h:29-34 *)
Definition tile_from_element (element tile_size tile_el_offset : Z) : Z :=
  Z.quot (element + tile_el_offset) tile_size.

(** util_distribution.h:42-53 *)
Definition tile_element_from_element (element tile_size tile_el_offset : Z) : Z :=
  let element := element + tile_el_offset in
  let tile_element := Z.rem element tile_size in
  if element <? tile_size then tile_element - tile_el_offset else tile_element.

(** util_distribution.h:64-73 *)
Definition element_from_tile_and_tile_element
           (tile tile_element tile_size tile_el_offset : Z) : Z :=
  tile * tile_size + tile_element - (if tile >? 0 then tile_el_offset else 0).

(** util_distribution.h:82-92 *)
Definition rank_global_tile (global_tile tiles_per_block grid_size src_rank tile_offset : Z) : Z :=
  let global_block := Z.quot (global_tile + tile_offset) tiles_per_block in
  Z.rem (global_block + src_rank) grid_size.

(** util_distribution.h:103-126 *)
Definition local_tile_from_global_tile
           (global_tile tiles_per_block grid_size rank src_rank tile_offset : Z) : Z :=
  if rank =? rank_global_tile global_tile tiles_per_block grid_size src_rank tile_offset then
    let global_tile := global_tile + tile_offset in
    let local_block := Z.quot (Z.quot global_tile tiles_per_block) grid_size in
    let may_have_partial_first_block := rank =? src_rank in
    local_block * tiles_per_block + Z.rem global_tile tiles_per_block
    - (if may_have_partial_first_block then tile_offset else 0)
  else -1.

(** util_distribution.h:138-166 *)
Definition next_local_tile_from_global_tile
           (global_tile tiles_per_block grid_size rank src_rank tile_offset : Z) : Z :=
  let rank_to_src := Z.rem (rank + grid_size - src_rank) grid_size in
  let global_tile := global_tile + tile_offset in
  let global_block := Z.quot global_tile tiles_per_block in
  let owner_to_src := Z.rem global_block grid_size in
  let local_block := Z.quot global_block grid_size in
  let may_have_partial_first_block := rank =? src_rank in
  if rank_to_src =? owner_to_src then
    local_block * tiles_per_block + Z.rem global_tile tiles_per_block
    - (if may_have_partial_first_block then tile_offset else 0)
  else
    let local_block := if rank_to_src <? owner_to_src then local_block + 1 else local_block in
    local_block * tiles_per_block - (if may_have_partial_first_block then tile_offset else 0).

(** util_distribution.h:177-196 *)
Definition global_tile_from_local_tile
           (local_tile tiles_per_block grid_size rank src_rank tile_offset : Z) : Z :=
  let may_have_partial_first_block := rank =? src_rank in
  let local_tile := if may_have_partial_first_block then local_tile + tile_offset else local_tile in
  let rank_to_src := Z.rem (rank + grid_size - src_rank) grid_size in
  let local_block := Z.quot local_tile tiles_per_block in
  (grid_size * local_block + rank_to_src) * tiles_per_block + Z.rem local_tile tiles_per_block
  - tile_offset.

(** util_math.h:83-86 *)
Definition ceilDiv (num den : Z) : Z := Z.quot (num + den - 1) den.

(** ** class Distribution, one axis

    distribution.h:775-785.  Every member of [Distribution] is a 2D value; the
    two coordinates never interact except in the constructor assertions, so the
    class is modelled as a pair of axes. *)
Record axis : Type := Axis {
  ax_offset : Z;          (* offset_           *)
  ax_size : Z;            (* size_             *)
  ax_local_size : Z;      (* local_size_       *)
  ax_nr_tiles : Z;        (* nr_tiles_         *)
  ax_local_nr_tiles : Z;  (* local_nr_tiles_   *)
  ax_block : Z;           (* block_size_       *)
  ax_tile : Z;            (* tile_size_        *)
  ax_rank : Z;            (* rank_index_       *)
  ax_grid : Z;            (* grid_size_        *)
  ax_src : Z              (* source_rank_index_ *)
}.

(** enum class Coord: common/index2d.h:28 *)
Inductive coord := Row | Col.

Record distribution : Type := Dist { d_row : axis; d_col : axis }.

(** basic_coords::get<rc>: common/index2d.h:86-91 *)
Definition get (rc : coord) (d : distribution) : axis :=
  match rc with Row => d_row d | Col => d_col d end.

(** distribution.h:651-653 *)
Definition tiles_per_block (a : axis) : Z := Z.quot (ax_block a) (ax_tile a).
(** distribution.h:660-662 *)
Definition is_source_rank (a : axis) : bool := ax_rank a =? ax_src a.
(** distribution.h:669-671; distribution_extensions.h:57-59 *)
Definition global_tile_offset (a : axis) : Z := Z.quot (ax_offset a) (ax_tile a).
(** distribution.h:678-680; distribution_extensions.h:63-65 *)
Definition global_tile_element_offset (a : axis) : Z := Z.rem (ax_offset a) (ax_tile a).
(** distribution.h:689-696 *)
Definition local_tile_offset (a : axis) : Z :=
  if is_source_rank a then global_tile_offset a else 0.
(** distribution.h:705-712 *)
Definition local_tile_element_offset (a : axis) : Z :=
  if is_source_rank a then global_tile_element_offset a else 0.

(** distribution.h:600-605 *)
Definition ax_rank_global_tile (a : axis) (global_tile : Z) : Z :=
  rank_global_tile global_tile (tiles_per_block a) (ax_grid a) (ax_src a) (global_tile_offset a).
(** distribution.h:542-549 *)
Definition ax_next_local_tile_from_global_tile (a : axis) (global_tile : Z) : Z :=
  next_local_tile_from_global_tile global_tile (tiles_per_block a) (ax_grid a) (ax_rank a)
    (ax_src a) (global_tile_offset a).
(** distribution.h:496-503 *)
Definition ax_local_tile_from_global_tile (a : axis) (global_tile : Z) : Z :=
  local_tile_from_global_tile global_tile (tiles_per_block a) (ax_grid a) (ax_rank a)
    (ax_src a) (global_tile_offset a).
(** distribution.h:473-480 *)
Definition ax_global_tile_from_local_tile (a : axis) (local_tile : Z) : Z :=
  global_tile_from_local_tile local_tile (tiles_per_block a) (ax_grid a) (ax_rank a)
    (ax_src a) (global_tile_offset a).
(** distribution.h:462-466 *)
Definition ax_global_tile_from_global_element (a : axis) (global_element : Z) : Z :=
  tile_from_element global_element (ax_tile a) (global_tile_element_offset a).
(** distribution.h:509-514 *)
Definition ax_local_tile_from_local_element (a : axis) (local_element : Z) : Z :=
  tile_from_element local_element (ax_tile a) (local_tile_element_offset a).
(** distribution.h:487-489 *)
Definition ax_local_tile_from_global_element (a : axis) (global_element : Z) : Z :=
  ax_local_tile_from_global_tile a (ax_global_tile_from_global_element a global_element).
(** distribution.h:523-525 *)
Definition ax_next_local_tile_from_global_element (a : axis) (global_element : Z) : Z :=
  ax_next_local_tile_from_global_tile a (ax_global_tile_from_global_element a global_element).
(** distribution.h:559-564 *)
Definition ax_tile_element_from_global_element (a : axis) (global_element : Z) : Z :=
  tile_element_from_element global_element (ax_tile a) (global_tile_element_offset a).
(** distribution.h:570-575 *)
Definition ax_tile_element_from_local_element (a : axis) (local_element : Z) : Z :=
  tile_element_from_element local_element (ax_tile a) (local_tile_element_offset a).
(** distribution.h:389-398 *)
Definition ax_global_element_from_global_tile_and_tile_element
           (a : axis) (global_tile tile_element : Z) : Z :=
  element_from_tile_and_tile_element global_tile tile_element (ax_tile a)
    (global_tile_element_offset a).
(** distribution.h:443-452 *)
Definition ax_local_element_from_local_tile_and_tile_element
           (a : axis) (local_tile tile_element : Z) : Z :=
  element_from_tile_and_tile_element local_tile tile_element (ax_tile a)
    (local_tile_element_offset a).
(** distribution.h:406-410 *)
Definition ax_global_element_from_local_tile_and_tile_element
           (a : axis) (local_tile tile_element : Z) : Z :=
  ax_global_element_from_global_tile_and_tile_element a
    (ax_global_tile_from_local_tile a local_tile) tile_element.
(** distribution.h:417-422 *)
Definition ax_global_element_from_local_element (a : axis) (local_element : Z) : Z :=
  let local_tile := ax_local_tile_from_local_element a local_element in
  let global_tile := ax_global_tile_from_local_tile a local_tile in
  let tile_element := ax_tile_element_from_local_element a local_element in
  ax_global_element_from_global_tile_and_tile_element a global_tile tile_element.
(** distribution.h:429-435 *)
Definition ax_local_element_from_global_element (a : axis) (global_element : Z) : Z :=
  let local_tile := ax_local_tile_from_global_element a global_element in
  if local_tile <? 0 then -1
  else
    let tile_element := ax_tile_element_from_global_element a global_element in
    ax_local_element_from_local_tile_and_tile_element a local_tile tile_element.
(** distribution.h:585-587 *)
Definition ax_rank_global_element (a : axis) (global_element : Z) : Z :=
  ax_rank_global_tile a (ax_global_tile_from_global_element a global_element).
(** distribution.h:615-624 *)
Definition ax_global_tile_size_of (a : axis) (global_tile : Z) : Z :=
  let n := ax_size a in
  let nb := ax_tile a in
  if global_tile =? 0 then Z.min (nb - global_tile_element_offset a) n
  else Z.min nb (n + global_tile_element_offset a - global_tile * nb).
(** distribution.h:630-639 *)
Definition ax_local_tile_size_of (a : axis) (local_tile : Z) : Z :=
  let n := ax_local_size a in
  let nb := ax_tile a in
  if local_tile =? 0 then Z.min (nb - local_tile_element_offset a) n
  else Z.min nb (n + local_tile_element_offset a - local_tile * nb).
(** distribution.h:251-256 (one coordinate) *)
Definition ax_nr_blocks (a : axis) : Z :=
  ceilDiv (ax_nr_tiles a + global_tile_offset a) (tiles_per_block a).
(** distribution.h:259-264 (one coordinate) *)
Definition ax_local_nr_blocks (a : axis) : Z :=
  ceilDiv (ax_local_nr_tiles a + local_tile_offset a) (tiles_per_block a).

(** ** Construction *)

Definition set_offset_src (a : axis) (o s : Z) : axis :=
  Axis o (ax_size a) (ax_local_size a) (ax_nr_tiles a) (ax_local_nr_tiles a)
       (ax_block a) (ax_tile a) (ax_rank a) (ax_grid a) s.
Definition set_nr_tiles (a : axis) (n : Z) : axis :=
  Axis (ax_offset a) (ax_size a) (ax_local_size a) n (ax_local_nr_tiles a)
       (ax_block a) (ax_tile a) (ax_rank a) (ax_grid a) (ax_src a).
Definition set_local_nr_tiles (a : axis) (n : Z) : axis :=
  Axis (ax_offset a) (ax_size a) (ax_local_size a) (ax_nr_tiles a) n
       (ax_block a) (ax_tile a) (ax_rank a) (ax_grid a) (ax_src a).
Definition set_local_size (a : axis) (n : Z) : axis :=
  Axis (ax_offset a) (ax_size a) n (ax_nr_tiles a) (ax_local_nr_tiles a)
       (ax_block a) (ax_tile a) (ax_rank a) (ax_grid a) (ax_src a).
Definition set_offset (a : axis) (o : Z) : axis := set_offset_src a o (ax_src a).
Definition set_size (a : axis) (n : Z) : axis :=
  Axis (ax_offset a) n (ax_local_size a) (ax_nr_tiles a) (ax_local_nr_tiles a)
       (ax_block a) (ax_tile a) (ax_rank a) (ax_grid a) (ax_src a).

(** distribution.cpp:151-157, one coordinate; [std::div] truncates, the quotient is
    narrowed to [int] by [static_cast<int>]. *)
Definition ax_normalize (a : axis) : axis :=
  set_offset_src a
    (Z.rem (ax_offset a) (ax_block a))
    (Z.rem (ax_src a + wrap32 (Z.quot (ax_offset a) (ax_block a))) (ax_grid a)).

(** distribution.cpp:108-115, one coordinate *)
Definition ax_compute_global_nr_tiles (a : axis) : axis :=
  set_nr_tiles a
    (if ax_size a >? 0 then ceilDiv (ax_size a + global_tile_element_offset a) (ax_tile a) else 0).

(** distribution.cpp:131-149 *)
Definition ax_compute_local_size (a : axis) : Z :=
  if ax_local_nr_tiles a =? 0 then 0
  else
    let ret := ax_local_nr_tiles a * ax_tile a in
    let ret := ret - local_tile_element_offset a in
    if ax_rank a =? ax_rank_global_tile a (ax_nr_tiles a - 1) then
      ret - (ax_nr_tiles a * ax_tile a - (ax_size a + global_tile_element_offset a))
    else ret.

(** distribution.cpp:117-129, one coordinate *)
Definition ax_compute_local_nr_tiles_and_local_size (a : axis) : axis :=
  let a := set_local_nr_tiles a (ax_next_local_tile_from_global_tile a (ax_nr_tiles a)) in
  set_local_size a (ax_compute_local_size a).

(** Distribution() : distribution.cpp:17-20; also set_default_sizes, :163-175 *)
Definition default_axis : axis := Axis 0 0 0 0 0 1 1 0 1 0.
Definition default_distribution : distribution := Dist default_axis default_axis.

Definition on_both (f : axis -> axis) (d : distribution) : distribution :=
  Dist (f (d_row d)) (f (d_col d)).

(** The two assertions at the end of normalize_source_rank_and_offset
    (distribution.cpp:159-160). *)
Definition normalize_asserts (d : distribution) : res unit :=
  do dlaf_assert (ax_offset (d_row d) <? ax_block (d_row d)) ;;;
  dlaf_assert (ax_offset (d_col d) <? ax_block (d_col d)).

(** int overflow in [source_rank + static_cast<int>(quot)] (distribution.cpp:156-157), and
    division by zero of std::div / %.  Everything else in the normalisation cannot
    overflow except INT64_MIN / -1. *)
Definition normalize_check (a : axis) : res unit :=
  do div64 (ax_offset a) (ax_block a) ;;;
  s <- add32 (ax_src a) (wrap32 (Z.quot (ax_offset a) (ax_block a))) ;;
  do rem32 s (ax_grid a) ;;;
  Ok tt.

(** distribution.cpp:151-161 *)
Definition normalize_source_rank_and_offset (d : distribution) : res distribution :=
  do normalize_check (d_row d) ;;;
  do normalize_check (d_col d) ;;;
  let d := on_both ax_normalize d in
  do normalize_asserts d ;;;
  Ok d.

Definition pair_Z := (Z * Z)%type.

Definition isValid2 (p : pair_Z) : bool := (0 <=? fst p) && (0 <=? snd p). (* index2d.h:102-104 *)
(** Size2D::isEmpty, index2d.h:160-163 (the validity check is a heavy assert) *)
Definition isEmpty2 (p : pair_Z) : bool := (fst p =? 0) || (snd p =? 0).
(** Index2D::isIn, index2d.h:214-217 *)
Definition isIn2 (i b : pair_Z) : bool :=
  (fst i <? fst b) && (snd i <? snd b) && isValid2 i && isValid2 b.

(** [block_size_.rows() % tile_size_.rows() == 0 && ...], distribution.cpp:61: evaluated on
    possibly zero tile sizes only after the assertion on line 60. *)
Definition divides2 (t b : pair_Z) : bool :=
  (Z.rem (fst b) (fst t) =? 0) && (Z.rem (snd b) (snd t) =? 0).

Definition mk2 (size block tile grid rank src off : pair_Z) : distribution :=
  Dist (Axis (fst off) (fst size) 0 0 0 (fst block) (fst tile) (fst rank) (fst grid) (fst src))
       (Axis (snd off) (snd size) 0 0 0 (snd block) (snd tile) (snd rank) (snd grid) (snd src)).

(** Main constructor, distribution.cpp:51-70.  The overflow-free subset of
    compute_global_nr_tiles / compute_local_nr_tiles_and_local_size; overflow of
    those is treated in the checked layer (DistChecked.v). *)
Definition dist_ctor (size block tile grid rank src off : pair_Z) : res distribution :=
  do dlaf_assert (isValid2 size) ;;;
  do dlaf_assert (negb (isEmpty2 block)) ;;;
  do dlaf_assert (negb (isEmpty2 tile)) ;;;
  do dlaf_assert (divides2 tile block) ;;;
  do dlaf_assert (negb (isEmpty2 grid)) ;;;
  do dlaf_assert (isIn2 rank grid) ;;;
  do dlaf_assert (isIn2 src grid) ;;;
  d <- normalize_source_rank_and_offset (mk2 size block tile grid rank src off) ;;
  let d := on_both ax_compute_global_nr_tiles d in
  let d := on_both ax_compute_local_nr_tiles_and_local_size d in
  Ok d.

(** distribution.cpp:36-41 *)
Definition dist_ctor_tile (size tile grid rank src off : pair_Z) : res distribution :=
  dist_ctor size tile tile grid rank src off.

(** distribution.cpp:43-49 *)
Definition dist_ctor_tile_toff (size tile grid rank src toff eoff : pair_Z) : res distribution :=
  dist_ctor_tile size tile grid rank src
    (fst toff * fst tile + fst eoff, snd toff * snd tile + snd eoff).

(** distribution.cpp:72-78 *)
Definition dist_ctor_toff (size block tile grid rank src toff eoff : pair_Z) : res distribution :=
  dist_ctor size block tile grid rank src
    (fst toff * fst tile + fst eoff, snd toff * snd tile + snd eoff).

(** Local constructor, distribution.cpp:22-34 *)
Definition dist_ctor_local (size tile off : pair_Z) : res distribution :=
  do dlaf_assert (isValid2 size) ;;;
  do dlaf_assert (negb (isEmpty2 tile)) ;;;
  d <- normalize_source_rank_and_offset
         (Dist (Axis (fst off) 0 (fst size) 0 0 (fst tile) (fst tile) 0 1 0)
               (Axis (snd off) 0 (snd size) 0 0 (snd tile) (snd tile) 0 1 0)) ;;
  let d := on_both (fun a => set_size a (ax_local_size a)) d in
  let d := on_both ax_compute_global_nr_tiles d in
  let d := on_both (fun a => set_local_nr_tiles a (ax_nr_tiles a)) d in
  Ok d.

(** Sub-distribution constructor, distribution.cpp:93-106 *)
Definition sub_distribution (d : distribution) (origin size : pair_Z) : res distribution :=
  do dlaf_assert (isValid2 origin) ;;;
  do dlaf_assert (isValid2 size) ;;;
  do dlaf_assert (fst origin + fst size <=? ax_size (d_row d)) ;;;
  do dlaf_assert (snd origin + snd size <=? ax_size (d_col d)) ;;;
  let d := Dist (set_size (set_offset (d_row d) (ax_offset (d_row d) + fst origin)) (fst size))
                (set_size (set_offset (d_col d) (ax_offset (d_col d) + snd origin)) (snd size)) in
  d <- normalize_source_rank_and_offset d ;;
  let d := on_both ax_compute_global_nr_tiles d in
  let d := on_both ax_compute_local_nr_tiles_and_local_size d in
  Ok d.

(** Move construction, distribution.cpp:80-83: (new value, value left in the source) *)
Definition dist_move (d : distribution) : distribution * distribution :=
  (d, default_distribution).

(** operator==, distribution.h:220-226 *)
Definition axis_eqb (a b : axis) : bool :=
  (ax_size a =? ax_size b) && (ax_local_size a =? ax_local_size b) && (ax_tile a =? ax_tile b)
  && (ax_block a =? ax_block b) && (ax_nr_tiles a =? ax_nr_tiles b)
  && (ax_local_nr_tiles a =? ax_local_nr_tiles b) && (ax_rank a =? ax_rank b)
  && (ax_grid a =? ax_grid b) && (ax_src a =? ax_src b) && (ax_offset a =? ax_offset b).
Definition dist_eqb (a b : distribution) : bool :=
  axis_eqb (d_row a) (d_row b) && axis_eqb (d_col a) (d_col b).

(** create_single_tile_per_block_distribution, distribution.cpp:178-186 *)
Definition ax_single_tile_per_block (a : axis) : axis :=
  Axis (ax_offset a) (ax_size a) (ax_local_size a) (ax_nr_blocks a) (ax_local_nr_blocks a)
       (ax_block a) (ax_block a) (ax_rank a) (ax_grid a) (ax_src a).
Definition create_single_tile_per_block_distribution (d : distribution) : distribution :=
  on_both ax_single_tile_per_block d.

(** single_tile_per_block, distribution.h:642-644 *)
Definition single_tile_per_block (d : distribution) : bool :=
  (ax_block (d_row d) =? ax_tile (d_row d)) && (ax_block (d_col d) =? ax_tile (d_col d)).

(** ** 2D index conversions *)

Definition both (f : axis -> Z -> Z) (d : distribution) (i : pair_Z) : pair_Z :=
  (f (d_row d) (fst i), f (d_col d) (snd i)).

(** distribution.h:295-305 *)
Definition global_element_index (d : distribution) (gt te : pair_Z) : pair_Z :=
  (ax_global_element_from_global_tile_and_tile_element (d_row d) (fst gt) (fst te),
   ax_global_element_from_global_tile_and_tile_element (d_col d) (snd gt) (snd te)).
(** distribution.h:310-315 *)
Definition global_tile_index_of_element (d : distribution) (e : pair_Z) : pair_Z :=
  both ax_global_tile_from_global_element d e.
(** distribution.h:321-326 *)
Definition global_tile_index_of_local (d : distribution) (lt : pair_Z) : pair_Z :=
  both ax_global_tile_from_local_tile d lt.
(** distribution.h:331-336 *)
Definition rank_global_tile_2d (d : distribution) (gt : pair_Z) : pair_Z :=
  both ax_rank_global_tile d gt.
(** distribution.h:342-349 *)
Definition local_tile_index (d : distribution) (gt : pair_Z) : pair_Z :=
  both ax_local_tile_from_global_tile d gt.
(** distribution.h:356-361 *)
Definition tile_element_index (d : distribution) (e : pair_Z) : pair_Z :=
  both ax_tile_element_from_global_element d e.
(** distribution.h:366-369 *)
Definition tile_size_of_global (d : distribution) (gt : pair_Z) : pair_Z :=
  both ax_global_tile_size_of d gt.
(** distribution.h:374-377 *)
Definition tile_size_of_local (d : distribution) (lt : pair_Z) : pair_Z :=
  both ax_local_tile_size_of d lt.

(** ** distribution_extensions.h *)

(** distribution_extensions.h:69-75 *)
Definition local_tile_offset_on_rank (a : axis) (rank : Z) : Z :=
  if rank =? ax_src a then global_tile_offset a else 0.
(** distribution_extensions.h:79-85 *)
Definition local_tile_element_offset_on_rank (a : axis) (rank : Z) : Z :=
  if rank =? ax_src a then global_tile_element_offset a else 0.
(** distribution_extensions.h:91-97 *)
Definition local_tile_from_local_element_on_rank (a : axis) (rank local_element : Z) : Z :=
  tile_from_element local_element (ax_tile a) (local_tile_element_offset_on_rank a rank).
(** distribution_extensions.h:103-109 *)
Definition tile_element_from_local_element_on_rank (a : axis) (rank local_element : Z) : Z :=
  tile_element_from_element local_element (ax_tile a) (local_tile_element_offset_on_rank a rank).
(** distribution_extensions.h:116-128 *)
Definition global_tile_from_local_tile_on_rank (a : axis) (rank local_tile : Z) : Z :=
  global_tile_from_local_tile local_tile (Z.quot (ax_block a) (ax_tile a)) (ax_grid a) rank
    (ax_src a) (global_tile_offset a).
(** distribution_extensions.h:136-142 *)
Definition global_element_from_local_element_on_rank (a : axis) (rank local_element : Z) : Z :=
  let local_tile := local_tile_from_local_element_on_rank a rank local_element in
  let tile_element := tile_element_from_local_element_on_rank a rank local_element in
  let global_tile := global_tile_from_local_tile_on_rank a rank local_tile in
  ax_global_element_from_global_tile_and_tile_element a global_tile tile_element.
(** distribution_extensions.h:150-157 *)
Definition local_tile_from_global_tile_any_rank (a : axis) (global_tile : Z) : Z :=
  local_tile_from_global_tile global_tile (Z.quot (ax_block a) (ax_tile a)) (ax_grid a)
    (ax_rank_global_tile a global_tile) (ax_src a) (global_tile_offset a).

(** distribution_extensions.h:169-183; [operator==] of 2D values is componentwise *)
Definition is_compatible_sub_distribution (d : distribution) (sub_offset : pair_Z)
           (sub : distribution) : bool :=
  let same (f : axis -> Z) := (f (d_row d) =? f (d_row sub)) && (f (d_col d) =? f (d_col sub)) in
  let r := rank_global_tile_2d d (global_tile_index_of_element d sub_offset) in
  (same ax_block && same ax_tile && same ax_rank && same ax_grid)
  && ((fst r =? ax_src (d_row sub)) && (snd r =? ax_src (d_col sub)))
  && ((fst sub_offset + ax_size (d_row sub) <=? ax_size (d_row d))
      && (snd sub_offset + ax_size (d_col sub) <=? ax_size (d_col d))).
(** distribution_extensions.h:187-194 *)
Definition global_tile_index_from_sub_distribution (d : distribution) (sub_offset sub_index : pair_Z)
  : pair_Z :=
  let tile_offset := global_tile_index_of_element d sub_offset in
  (fst tile_offset + fst sub_index, snd tile_offset + snd sub_index).
(** distribution_extensions.h:198-209 *)
Definition tile_element_offset_from_sub_distribution (d : distribution)
           (sub_offset sub_index : pair_Z) : pair_Z :=
  ((if fst sub_index =? 0 then ax_tile_element_from_global_element (d_row d) (fst sub_offset) else 0),
   (if snd sub_index =? 0 then ax_tile_element_from_global_element (d_col d) (snd sub_offset) else 0)).
(** distribution_extensions.h:218-222 *)
Definition distance_to_adjacent_tile (a : axis) (global_element : Z) : Z :=
  let global_tile := ax_global_tile_from_global_element a global_element in
  let tile_element := ax_tile_element_from_global_element a global_element in
  ax_global_tile_size_of a global_tile - tile_element.
(** distribution_extensions.h:225-228 *)
Definition local_tile_linear_index (d : distribution) (ij : pair_Z) : Z :=
  fst ij + snd ij * ax_local_nr_tiles (d_row d).
(** distribution_extensions.h:231-235 *)
Definition global_tile_linear_index (d : distribution) (ij : pair_Z) : Z :=
  let t := global_tile_index_of_element d ij in
  fst t + snd t * ax_nr_tiles (d_row d).
(** distribution_extensions.h:239-249 *)
Definition global_tile_element_distance (a : axis) (i_begin i_end : Z) : Z :=
  let el_begin := ax_global_element_from_global_tile_and_tile_element a i_begin 0 in
  if i_end =? ax_nr_tiles a then ax_size a - el_begin
  else ax_global_element_from_global_tile_and_tile_element a i_end 0 - el_begin.
(** distribution_extensions.h:254-271 *)
Definition local_element_distance_from_local_tile (a : axis) (i_loc_begin i_loc_end : Z) : Z :=
  let i_loc_last := i_loc_end - 1 in
  if i_loc_begin >? i_loc_last then 0
  else
    let i_el_begin := ax_local_element_from_local_tile_and_tile_element a i_loc_begin 0 in
    let i_el_end :=
      ax_local_element_from_local_tile_and_tile_element a i_loc_last
        (ax_global_tile_size_of a (ax_global_tile_from_local_tile a i_loc_last) - 1) + 1 in
    i_el_end - i_el_begin.
(** distribution_extensions.h:276-285 *)
Definition local_element_distance_from_global_tile (a : axis) (i_begin i_end : Z) : Z :=
  let i_loc_begin := ax_next_local_tile_from_global_tile a i_begin in
  let i_loc_end := ax_next_local_tile_from_global_tile a i_end in
  local_element_distance_from_local_tile a i_loc_begin i_loc_end.
(** distribution_extensions.h:288-293 *)
Definition local_element_distance_from_local_tile_2d (d : distribution) (b e : pair_Z) : pair_Z :=
  (local_element_distance_from_local_tile (d_row d) (fst b) (fst e),
   local_element_distance_from_local_tile (d_col d) (snd b) (snd e)).
