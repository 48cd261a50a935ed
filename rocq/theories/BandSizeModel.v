(** * Band size and 1D block size selection of the eigensolver.

    include/dlaf/eigensolver/internal/get_band_size.h, get_1d_block_size.h.
    The tune parameters read through getTuneParameters() are explicit arguments. *)
From Coq Require Import ZArith Bool.
From Verif Require Import CInt.
Open Scope Z_scope.

(** get_band_size.h:26-29: [for (div = nb / b_min; div > 1; --div) if (nb % div == 0) return nb / div;]
    followed by line 30 [return nb].  [n] counts the remaining iterations ([div - 1]). *)
Fixpoint band_loop (n : nat) (nb div : Z) : res Z :=
  match n with
  | O => Ok nb
  | S m =>
      r <- rem64 nb div ;;
      if r =? 0 then div64 nb div else d <- sub64 div 1 ;; band_loop m nb d
  end.

(** get_band_size.h:20-31 getBandSize; [b_min] is getTuneParameters().eigensolver_min_band. *)
Definition get_band_size (b_min nb : Z) : res Z :=
  do dlaf_assert (1 <=? nb) ;;;
  do dlaf_assert (2 <=? b_min) ;;;
  div <- div64 nb b_min ;;
  band_loop (Z.to_nat (div - 1)) nb div.

(** get_1d_block_size.h:19-26 get1DBlockSize; [nb_base] is
    getTuneParameters().band_to_tridiag_1d_block_size_base. *)
Definition get_1d_block_size (nb_base nb : Z) : res Z :=
  do dlaf_assert (1 <=? nb) ;;;
  do dlaf_assert (1 <=? nb_base) ;;;
  q <- div64 nb_base nb ;;
  p <- mul64 q nb ;;
  Ok (Z.max 1 p).

(** eigensolver/band_to_tridiag/mc.h:1093-1094: the block size of the 1D distribution and the number
    of matrix tiles per block of it. *)
Definition tiles_per_block (nb_base nb : Z) : res Z :=
  b <- get_1d_block_size nb_base nb ;; div64 b nb.

(** band_to_tridiag/mc.h:1190-1192: [k_start = k_block * tiles_per_block;
    k_end = std::min(k_start + tiles_per_block, n); for (k = k_start; k < k_end; ++k) ...]: is diagonal
    tile [k] copied to block [k_block] of the 1D band distribution?  ([n] tiles in total.) *)
Definition copied_to_block (tpb n k_block k : Z) : bool :=
  let k_start := k_block * tpb in
  let k_end := Z.min (k_start + tpb) n in
  (k_start <=? k) && (k <? k_end).
