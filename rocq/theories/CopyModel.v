(** * Copy with redistribution: matrix/copy.h:117-213. *)
From Coq Require Import ZArith Lia List Bool.
From Verif Require Import CInt Loop DistModel DistGrid NormModel.
Import ListNotations.
Local Open Scope Z_scope.

Section model.
Context {V : Type}.
Variables P Q : Z.
(** axes of the distributions of src_retiled and dst_retiled (copy.h:157-158): tiles of mb x nb elements; by C22 the retiled
    matrix has the distribution Distribution(size, block, block / tiles_per_block, grid, rank, source rank) *)
Variables DS DD : coord -> Z -> axis.

(** tile (i, j) of the retiled matrix as part of a tile of the original matrix, k = tiles per block, t = size of a small tile (C22) *)
Definition retiled (k t : pair_Z) (m : nmat (V := V)) : nmat := fun ij e =>
  m (fst ij / fst k, snd ij / snd k) (fst ij mod fst k * fst t + fst e, snd ij mod snd k * snd t + snd e).
(** the original matrix whose small tiles have the given content *)
Definition unretiled (k t : pair_Z) (m : nmat (V := V)) : nmat := fun ij e =>
  m (fst ij * fst k + fst e / fst t, snd ij * snd k + snd e / snd t) (fst e mod fst t, snd e mod snd t).

(** rankGlobalTile(ij), as the number of the rank in the full communicator, computed by rank r *)
Definition rank_of (D : coord -> Z -> axis) (r : Z) (ij : pair_Z) : Z :=
  rk Q (ax_rank_global_tile (D Row (co Q Row r)) (fst ij)) (ax_rank_global_tile (D Col (co Q Col r)) (snd ij)).
Definition global_tile (D : coord -> Z -> axis) (r : Z) (lc : pair_Z) : pair_Z :=
  (ax_global_tile_from_local_tile (D Row (co Q Row r)) (fst lc), ax_global_tile_from_local_tile (D Col (co Q Col r)) (snd lc)).
Definition local_tile (D : coord -> Z -> axis) (r : Z) (ij : pair_Z) : pair_Z :=
  (ax_local_tile_from_global_tile (D Row (co Q Row r)) (fst ij), ax_local_tile_from_global_tile (D Col (co Q Col r)) (snd ij)).
(** iterate_range2d(distribution.localNrTiles()) *)
Definition local_tiles (D : coord -> Z -> axis) (r : Z) : list pair_Z :=
  range2d_list (ax_local_nr_tiles (D Row (co Q Row r))) (ax_local_nr_tiles (D Col (co Q Col r))).
(** the tag, copy.h:163-173 (source_ij_lc is computed there but not used); the cast to int is C43 *)
Definition tag (r : Z) (ij : pair_Z) : Z := fst ij + snd ij * ceilDiv (ax_nr_tiles (DS Row (co Q Row r))) P.

(** messages: (peer, tag, local tile) *)
(** the loop over the source tiles, copy.h:175-187 *)
Definition sends (r : Z) : list (Z * Z * pair_Z) := flat_map (fun lc =>
  let ij := global_tile DS r lc in
  let src_is_mine := r =? rank_of DS r ij in let dst_is_mine := r =? rank_of DD r ij in
  if Bool.eqb src_is_mine dst_is_mine then [] else [(rank_of DD r ij, tag r ij, lc)]) (local_tiles DS r).
(** the receives of the loop over the destination tiles, copy.h:189-209 *)
Definition recvs (r : Z) : list (Z * Z * pair_Z) := flat_map (fun lc =>
  let ij := global_tile DD r lc in
  let src_is_mine := r =? rank_of DS r ij in let dst_is_mine := r =? rank_of DD r ij in
  if Bool.eqb src_is_mine dst_is_mine then [] else [(rank_of DS r ij, tag r ij, lc)]) (local_tiles DD r).

(** the tiles of the messages with a given peer and tag, in the order in which they are posted *)
Definition on_channel (peer t : Z) (l : list (Z * Z * pair_Z)) : list pair_Z :=
  map snd (filter (fun m => (fst (fst m) =? peer) && (snd (fst m) =? t)) l).
Definition pair_eqb (a b : pair_Z) : bool := (fst a =? fst b) && (snd a =? snd b).
Fixpoint index_of (x : pair_Z) (l : list pair_Z) : option nat :=
  match l with [] => None | y :: l => if pair_eqb x y then Some O else option_map S (index_of x l) end.

(** The content of the destination when all the operations have completed.  order_s r, order_r r: the order in which
    rank r posts its sends and receives: the communicator is taken with shared access (copy.h:184, 205), so that a message
    is posted when its tile is ready and a worker gets to it.  MPI matches the k-th send from s to d with a given tag with the k-th
    receive at d from s with that tag. *)
Definition copied (order_s order_r : Z -> list (Z * Z * pair_Z)) (src dst : Z -> nmat (V := V)) (r : Z) : nmat := fun lc =>
  if existsb (pair_eqb lc) (local_tiles DD r) then
    let ij := global_tile DD r lc in
    let src_is_mine := r =? rank_of DS r ij in let dst_is_mine := r =? rank_of DD r ij in
    if Bool.eqb src_is_mine dst_is_mine then src r (local_tile DS r ij)
    else match index_of lc (on_channel (rank_of DS r ij) (tag r ij) (order_r r)) with
      | Some k => match nth_error (on_channel r (tag r ij) (order_s (rank_of DS r ij))) k with
          | Some u => src (rank_of DS r ij) u
          | None => dst r lc end
      | None => dst r lc end
  else dst r lc.
(** copy(src, dst, grid), copy.h:140-213: kS, kD tiles per block of the two matrices, t the size of the common tiles; the tiles
    of the original destination when everything has completed *)
Definition redistribute (kS kD t : pair_Z) (order_s order_r : Z -> list (Z * Z * pair_Z)) (src dst : Z -> nmat (V := V)) (r : Z) : nmat :=
  unretiled kD t (copied order_s order_r (fun r => retiled kS t (src r)) (fun r => retiled kD t (dst r)) r).
End model.
