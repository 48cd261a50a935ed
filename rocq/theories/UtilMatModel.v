(** * Setting the elements of a matrix: matrix::util::set*, set_random*.

    File: include/dlaf/util_matrix.h:158-598.
    The tasks of different tiles touch different tiles, so they are run in the order of the loop (C20 covers other orders).
    The random engine and the distribution object (std::mt19937_64, std::uniform_real_distribution, for complex also std::polar) are a parameter:
    [rng seed k] is the value that the k-th call of getter_random(seed) returns.  SizeType arithmetic is exact here: the seed is below rows * cols, which is
    assumed to fit 63 bits. *)
From Coq Require Import ZArith List Bool.
From Verif Require Import CInt Loop DistModel NormModel.
Import ListNotations.
Local Open Scope Z_scope.

Definition foldM {A S} (f : S -> A -> res S) (l : list A) (s : S) : res S := fold_left (fun r a => s <- r ;; f s a) l (Ok s).

Section model.
Context {K : Type}.
(** dlaf::conj, T(0), T{1} *)
Variables (kconj : K -> K) (k0 k1 : K).
(** std::real(x) + z *)
Variable real_plus : K -> Z -> K.
(** random engine *)
Variable rng : Z -> nat -> K.

Definition tile_t : Type := pair_Z -> K.
(** tile(ij) = v.  Outside of the tile: undefined (tile.h, the index is checked only by DLAF_ASSERT_HEAVY) *)
Definition inside (sz ij : pair_Z) : bool := (0 <=? fst ij) && (fst ij <? fst sz) && (0 <=? snd ij) && (snd ij <? snd sz).
Definition wr (sz : pair_Z) (t : tile_t) (ij : pair_Z) (v : K) : res tile_t :=
  if inside sz ij then Ok (fun e => if (fst e =? fst ij) && (snd e =? snd ij) then v else t e) else UB.

(** the loop over the local tiles, util_matrix.h:239, :314, :428, :565 *)
Definition for_tiles (d : distribution) (g : pair_Z -> tile_t -> res tile_t) (M : pair_Z -> tile_t) : res (pair_Z -> tile_t) :=
  foldM (fun M lc => t <- g lc (M lc) ;; Ok (fun lc' => if (fst lc' =? fst lc) && (snd lc' =? snd lc) then t else M lc'))
    (range2d_list (fst (local_nr_tiles d)) (snd (local_nr_tiles d))) M.
Definition tile_origin (d : distribution) (lc : pair_Z) : pair_Z := global_element_index d (global_tile_index_of_local d lc) (0, 0).

(** set, util_matrix.h:233-258 *)
Definition set_tile (el_f : pair_Z -> K) (origin sz : pair_Z) (t : tile_t) : res tile_t :=
  foldM (fun t e => wr sz t e (el_f (fst origin + fst e, snd origin + snd e))) (range2d_list (fst sz) (snd sz)) t.
Definition set (d : distribution) (el_f : pair_Z -> K) : (pair_Z -> tile_t) -> res (pair_Z -> tile_t) :=
  for_tiles d (fun lc => set_tile el_f (tile_origin d lc) (tile_size d lc)).
(** set with an operation, util_matrix.h:269-287 *)
Inductive op_t := NoTrans | Trans | ConjTrans.
Definition el_op_f (op : op_t) (el_f : pair_Z -> K) (index : pair_Z) : K :=
  match op with NoTrans => el_f index | Trans => el_f (snd index, fst index) | ConjTrans => kconj (el_f (snd index, fst index)) end.
Definition set_op (d : distribution) (el_f : pair_Z -> K) (op : op_t) := set d (el_op_f op el_f).
(** set_identity, util_matrix.h:292-299 *)
Definition set_identity (d : distribution) := set d (fun ij => if fst ij =? snd ij then k1 else k0).

(** getter_random(seed), util_matrix.h:166-168: the engine, and the number of values taken *)
Definition getter (seed : Z) (k : tile_t -> res tile_t) : tile_t -> res tile_t := fun t => do dlaf_assert (0 <=? seed) ;;; k t.
(** value = random_value(); writes ws *)
Definition draw (sz : pair_Z) (seed : Z) (ws : K -> list (pair_Z * K)) (st : tile_t * nat) : res (tile_t * nat) :=
  t <- foldM (fun t w => wr sz t (fst w) (snd w)) (ws (rng seed (snd st))) (fst st) ;; Ok (t, S (snd st)).
Definition run_draws (r : res (tile_t * nat)) : res tile_t := s <- r ;; Ok (fst s).

(** set_random, util_matrix.h:311-331 *)
Definition random_tile (seed : Z) (sz : pair_Z) (t : tile_t) : res tile_t :=
  run_draws (foldM (fun st e => draw sz seed (fun v => [(e, v)]) st) (range2d_list (fst sz) (snd sz)) (t, O)).
Definition set_random (d : distribution) :=
  for_tiles d (fun lc => let o := tile_origin d lc in
    let seed := snd o + fst o * ax_size (d_col d) in getter seed (random_tile seed (tile_size d lc))).

(** set_diagonal_tile, util_matrix.h:335-350 *)
Definition set_diagonal_tile (seed : Z) (sz : pair_Z) (offset_value : Z) (t : tile_t) : res tile_t :=
  run_draws (foldM (fun st j =>
      st <- foldM (fun st i => draw sz seed (fun v => [((i, j), v); ((j, i), kconj v)]) st) (zrange 0 j) st ;;
      draw sz seed (fun v => [((j, j), real_plus v offset_value)]) st)
    (zrange 0 (snd sz)) (t, O)).
(** is_off_band, util_matrix.h:357-360 *)
Definition is_off_band (ij : pair_Z) (band : option Z) : bool :=
  match band with Some b => (snd ij <? fst ij - b) || (snd ij >? fst ij + b) | None => false end.
(** set_lower_and_upper_tile, util_matrix.h:352-393 *)
Definition set_lower_and_upper_tile (d : distribution) (seed : Z) (sz full ij : pair_Z) (band : option Z) (t : tile_t) : res tile_t :=
  run_draws (foldM (fun st e => draw sz seed (fun v =>
      let lower := snd ij <? fst ij in
      let index := if lower then e else (snd e, fst e) in
      if inside sz index then
        [(index, if is_off_band (global_element_index d ij index) band then k0 else if lower then v else kconj v)]
      else []) st)
    (range2d_list (fst full) (snd full)) (t, O)).
(** set_random_hermitian_with_offset, util_matrix.h:411-453; matrix.tile_size() is the full tile size *)
Definition set_random_hermitian_with_offset (d : distribution) (offset_value : Z) (band : option Z) (M : pair_Z -> tile_t) : res (pair_Z -> tile_t) :=
  do dlaf_assert (ax_size (d_row d) =? ax_size (d_col d)) ;;;
  do dlaf_assert (ax_tile (d_row d) =? ax_tile (d_col d)) ;;;
  for_tiles d (fun lc =>
    let ij := global_tile_index_of_local d lc in
    let o := tile_origin d lc in
    let seed := if snd ij <=? fst ij then snd o + fst o * ax_size (d_col d) else fst o + snd o * ax_size (d_row d) in
    getter seed (if fst ij =? snd ij then set_diagonal_tile seed (tile_size d lc) offset_value
                 else set_lower_and_upper_tile d seed (tile_size d lc) (ax_tile (d_row d), ax_tile (d_col d)) ij band)) M.
(** set_random_hermitian, set_random_hermitian_banded, set_random_hermitian_positive_definite, util_matrix.h:488-490, :505-507, :527-529 *)
Definition set_random_hermitian (d : distribution) := set_random_hermitian_with_offset d 0 None.
Definition set_random_hermitian_banded (d : distribution) (band_size : Z) := set_random_hermitian_with_offset d 0 (Some band_size).
Definition set_random_hermitian_positive_definite (d : distribution) := set_random_hermitian_with_offset d (2 * ax_size (d_row d)) None.

(** set_random_non_zero_diagonal, util_matrix.h:547-595; [away v]: v if std::abs(v) >= 0.1, otherwise 0.1 if v = 0 and 0.1 * v / abs(v) if not *)
Variable away : K -> K.
Definition non_zero_diagonal_tile (seed : Z) (sz : pair_Z) (t : tile_t) : res tile_t :=
  run_draws (foldM (fun st e => draw sz seed (fun v => [(e, if fst e =? snd e then away v else v)]) st) (range2d_list (fst sz) (snd sz)) (t, O)).
Definition set_random_non_zero_diagonal (d : distribution) (M : pair_Z -> tile_t) : res (pair_Z -> tile_t) :=
  do dlaf_assert (ax_size (d_row d) =? ax_size (d_col d)) ;;;
  do dlaf_assert (ax_tile (d_row d) =? ax_tile (d_col d)) ;;;
  for_tiles d (fun lc =>
    let ij := global_tile_index_of_local d lc in
    let seed := snd ij + fst ij * ax_size (d_col d) in
    getter seed (if fst ij =? snd ij then non_zero_diagonal_tile seed (tile_size d lc) else random_tile seed (tile_size d lc))) M.
End model.
