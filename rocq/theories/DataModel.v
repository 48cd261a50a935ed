(** * Data descriptors, messages and data copies.

    include/dlaf/common/data_descriptor.h, common/data.h, communication/message.h,
    communication/type_handler.h, matrix/tile.h (create_data), communication/sync/reduce.h.
    Pointers are element addresses ([Z]); memory is a function from addresses to values. *)
From Coq Require Import ZArith Bool List.
From Verif Require Import CInt Loop.
Import ListNotations.
Open Scope Z_scope.

(** DataDescriptor: data_, nblocks_, blocksize_, stride_ (data_descriptor.h:134-138) *)
Record desc := Desc { d_ptr : Z; d_nblocks : Z; d_blocksize : Z; d_stride : Z }.

(** Constructor, data_descriptor.h:65-76 *)
Definition desc_make (ptr num_blocks blocksize stride : Z) : res desc :=
  let stride_ := if num_blocks =? 1 then 0 else stride in
  do dlaf_assert (0 <=? num_blocks) ;;;
  do dlaf_assert (0 <=? blocksize) ;;;
  do dlaf_assert (0 <=? stride) ;;;
  if blocksize =? stride_ then Ok (Desc ptr 1 (num_blocks * blocksize) 0)
  else Ok (Desc ptr num_blocks blocksize stride_).

(** Contiguous constructor, data_descriptor.h:51 *)
Definition desc_contiguous (ptr n : Z) : res desc := desc_make ptr 1 n 0.

(** is_contiguous, data_descriptor.h:122-124 *)
Definition is_contiguous (d : desc) : bool := (d_nblocks d =? 1) || (d_stride d =? d_blocksize d).
(** count, data_descriptor.h:117-119 *)
Definition desc_count (d : desc) : Z :=
  if is_contiguous d then d_blocksize d else d_nblocks d * d_blocksize d.

(** create_data(tile), tile.h:466-468 *)
Definition tile_desc (ptr rows cols ld : Z) : res desc := desc_make ptr cols rows ld.

(** ** Message: what MPI transfers *)
(** MPI basic type with a count: [n] consecutive elements. *)
Definition mpi_basic (ptr n : Z) : list Z := map (fun k => ptr + k) (zrange 0 n).
(** MPI_Type_vector(count, blocklength, stride), MPI contract: elements at k*stride + j *)
Definition mpi_vector (ptr nblocks blocklen stride : Z) : list Z :=
  flat_map (fun k => map (fun j => ptr + (k * stride + j)) (zrange 0 blocklen)) (zrange 0 nblocks).

(** Message(data), message.h:38-69 with type_handler, type_handler.h:40-45: the element addresses that a
    send or receive of count() mpi_type() at data() covers, in order.  to_int narrows to 32 bits (its
    range assertion is DLAF_ASSERT_MODERATE, off in release builds). *)
Definition message_elements (d : desc) : list Z :=
  if is_contiguous d then mpi_basic (d_ptr d) (wrap32 (d_blocksize d))
  else mpi_vector (d_ptr d) (wrap32 (d_nblocks d)) (wrap32 (d_blocksize d)) (wrap32 (d_stride d)).

(** ** copy *)
Section Copy.
Context {V : Type}.
Definition memory := Z -> V.
Definition store (a : Z) (v : V) (m : memory) : memory := fun x => if x =? a then v else m x.

(** std::copy(first, first + n, dest): element by element *)
Definition std_copy (first n dest : Z) (m : memory) : memory :=
  fold_left (fun m k => store (dest + k) (m (first + k)) m) (zrange 0 n) m.

(** copy(src, dest), data.h:137-179 *)
Definition copy (src dest : desc) (m : memory) : memory :=
  if is_contiguous dest && is_contiguous src then
    std_copy (d_ptr src) (d_blocksize src) (d_ptr dest) m
  else if is_contiguous dest then
    fold_left (fun m i_block =>
      std_copy (d_ptr src + i_block * d_stride src) (d_blocksize src) (d_ptr dest + i_block * d_blocksize src) m)
      (zrange 0 (d_nblocks src)) m
  else if is_contiguous src then
    fold_left (fun m i_block =>
      std_copy (d_ptr src + i_block * d_blocksize dest) (d_blocksize dest) (d_ptr dest + i_block * d_stride dest) m)
      (zrange 0 (d_nblocks dest)) m
  else
    fold_left (fun m i =>
      let i_src := Z.quot i (d_blocksize src) * d_stride src + Z.rem i (d_blocksize src) in
      let i_dest := Z.quot i (d_blocksize dest) * d_stride dest + Z.rem i (d_blocksize dest) in
      store (d_ptr dest + i_dest) (m (d_ptr src + i_src)) m)
      (zrange 0 (desc_count src)) m.

(** make_contiguous, data_descriptor.h:212-221; [buf] is the address of the memory newly allocated for the
    temporary buffer.  Returns the descriptor to use and whether the buffer was allocated. *)
Definition make_contiguous (d : desc) (buf : Z) : desc * bool :=
  if negb (is_contiguous d) then (Desc buf 1 (desc_count d) 0, true) else (d, false).

(** reduceRecvInPlace, sync/reduce.h:75-101, on the collecting rank of a communicator with several
    ranks.  [reduce k v] is the result of MPI_Reduce for element [k] of the message when this rank
    contributes [v]. *)
Definition reduce_recv_in_place (reduce : Z -> V -> V) (inout : desc) (buf : Z) (m : memory) : memory :=
  let (d, used) := make_contiguous inout buf in
  let m1 := if used then copy inout d m else m in
  let n := wrap32 (d_blocksize d) in
  let m2 := fold_left (fun acc k => store (d_ptr d + k) (reduce k (m1 (d_ptr d + k))) acc) (zrange 0 n) m1 in
  if used then copy d inout m2 else m2.
End Copy.
Arguments memory V : clear implicits.
