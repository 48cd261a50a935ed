(** * Max norm: auxiliary/norm.h, auxiliary/norm/mc.h. *)
From Coq Require Import ZArith Lia List Bool Permutation.
From Verif Require Import CInt Loop DistModel DistGrid.
Import ListNotations.
Local Open Scope Z_scope.

Section model.
(** elements, their absolute values (BaseType<T>), 0 and < on these *)
Context {V NT : Type}.
Variables (vabs : V -> NT) (nzero : NT) (lt : NT -> NT -> bool).
Definition nmax (a b : NT) : NT := if lt a b then b else a.

(** a tile of m x n elements, and the local tiles of a rank *)
Definition ntile : Type := pair_Z -> V.
Definition nmat : Type := pair_Z -> ntile.
(** iterate_range2d(size): column-major (C12) *)
Definition range2d_list (m n : Z) : list pair_Z := flat_map (fun j => map (fun i => (i, j)) (zrange 0 m)) (zrange 0 n).
(** lapack::lange(Norm::Max, m, n, a) and lapack::lantr(Norm::Max, Uplo::Lower, Diag::NonUnit, m, n, a): LAPACK's loops over
    columns; 0 if the tile is empty. lapack/tile.h:387-408. *)
Definition lange_max (sz : pair_Z) (t : ntile) : NT := fold_left (fun v e => nmax v (vabs (t e))) (range2d_list (fst sz) (snd sz)) nzero.
Definition lantr_max_L (sz : pair_Z) (t : ntile) : NT :=
  fold_left (fun v e => if snd e <=? fst e then nmax v (vabs (t e)) else v) (range2d_list (fst sz) (snd sz)) nzero.

(** max_element: std::max_element with operator<, mc.h:29-32; only called if there is a tile *)
Definition max_element (l : list NT) : NT := match l with [] => nzero | x :: l => fold_left nmax l x end.

Definition tile_size (d : distribution) (t : pair_Z) : pair_Z := (ax_local_tile_size_of (d_row d) (fst t), ax_local_tile_size_of (d_col d) (snd t)).
Definition local_nr_tiles (d : distribution) : pair_Z := (ax_local_nr_tiles (d_row d), ax_local_nr_tiles (d_col d)).
(** max_L up to the reduction, mc.h:84-116: local_max_value; the tasks are joined by when_all_vector in the order of the loop *)
Definition local_max_L (d : distribution) (m : nmat) : NT :=
  let tiles_max := flat_map (fun t =>
    let g := (ax_global_tile_from_local_tile (d_row d) (fst t), ax_global_tile_from_local_tile (d_col d) (snd t)) in
    if fst g <? snd g then []
    else [if fst g =? snd g then lantr_max_L (tile_size d t) (m t) else lange_max (tile_size d t) (m t)])
    (range2d_list (fst (local_nr_tiles d)) (snd (local_nr_tiles d))) in
  match tiles_max with [] => nzero | _ => max_element tiles_max end.
(** max_G, mc.h:138-159 *)
Definition local_max_G (d : distribution) (m : nmat) : NT :=
  let tiles_max := map (fun t => lange_max (tile_size d t) (m t)) (range2d_list (fst (local_nr_tiles d)) (snd (local_nr_tiles d))) in
  match tiles_max with [] => nzero | _ => max_element tiles_max end.

(** MPI_Ireduce(MPI_MAX): the contributions are combined in an order that MPI chooses *)
Inductive reduction : list NT -> NT -> Prop :=
| red_one : forall x, reduction [x] x
| red_op : forall l1 l2 a b, reduction l1 a -> reduction l2 b -> reduction (l1 ++ l2) (nmax a b)
| red_perm : forall l l' x, Permutation l l' -> reduction l x -> reduction l' x.

Inductive uplo := Lower | Upper | General.
(** max_norm, norm.h:37-59, on all the ranks of a P x Q grid: [max_norm ... r v]: the rank with number r in the full
    communicator may get v. D rc p: axis rc of the distribution of the ranks with coordinate p; M r: local tiles of rank r.
    [reduce_in_place] (mc.h:34-55) overwrites the value of the root only. Upper is unimplemented: no result. *)
Inductive max_norm (P Q : Z) (D : coord -> Z -> axis) (M : Z -> nmat) (rank : pair_Z) (u : uplo) (r : Z) : NT -> Prop :=
| mn_empty : isEmpty2 (ax_size (D Row 0), ax_size (D Col 0)) = true -> max_norm P Q D M rank u r nzero
| mn_root : forall v, isEmpty2 (ax_size (D Row 0), ax_size (D Col 0)) = false -> u <> Upper -> r = rk Q (fst rank) (snd rank) ->
    reduction (map (fun q => (match u with Lower => local_max_L | _ => local_max_G end) (Dist (D Row (co Q Row q)) (D Col (co Q Col q))) (M q)) (ranks P Q)) v ->
    max_norm P Q D M rank u r v
| mn_other : isEmpty2 (ax_size (D Row 0), ax_size (D Col 0)) = false -> u <> Upper -> r <> rk Q (fst rank) (snd rank) ->
    max_norm P Q D M rank u r ((match u with Lower => local_max_L | _ => local_max_G end) (Dist (D Row (co Q Row r)) (D Col (co Q Col r))) (M r)).
End model.
