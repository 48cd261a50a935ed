(** * Specification of the block-cyclic distribution (misc/matrix_distribution.md),
    independent of the model.

    An axis of a distributed matrix has [size] elements.  They occupy the absolute
    positions [off, off + size) of an infinite axis that is cut into blocks of
    [block] positions (and tiles of [tile] positions); block number b (counting
    from position 0) lives on rank (src + b) mod grid. *)
From Coq Require Import ZArith Bool List.
Open Scope Z_scope.

(** What a user passes to the constructor, for one axis. *)
Record layout := Layout {
  l_size : Z; l_block : Z; l_tile : Z; l_grid : Z; l_src : Z; l_off : Z
}.

(** Documented preconditions (distribution.h:170-176) plus a non-negative offset. *)
Record layout_ok (L : layout) : Prop := {
  lo_size : 0 <= l_size L;
  lo_tile : 0 < l_tile L;
  lo_block : 0 < l_block L;
  lo_div : (l_tile L | l_block L);
  lo_grid : 0 < l_grid L;
  lo_src : 0 <= l_src L < l_grid L;
  lo_off : 0 <= l_off L
}.

(** The rank that stores element [e]. *)
Definition owner (L : layout) (e : Z) : Z :=
  (l_src L + (l_off L + e) / l_block L) mod l_grid L.

(** Tile index of element [e], counting from the tile that contains the first element. *)
Definition tile_of (L : layout) (e : Z) : Z :=
  (l_off L + e) / l_tile L - l_off L / l_tile L.

(** Number of the k in [0, n) that satisfy P. *)
Fixpoint count_nat (P : Z -> bool) (n : nat) : Z :=
  match n with
  | O => 0
  | S m => count_nat P m + (if P (Z.of_nat m) then 1 else 0)
  end.
Definition count (P : Z -> bool) (n : Z) : Z := count_nat P (Z.to_nat n).

(** Sum of f k for k in [0, n). *)
Fixpoint sum_nat (f : Z -> Z) (n : nat) : Z :=
  match n with
  | O => 0
  | S m => sum_nat f m + f (Z.of_nat m)
  end.
Definition sumZ (f : Z -> Z) (n : Z) : Z := sum_nat f (Z.to_nat n).

Definition owned (L : layout) (r : Z) (e : Z) : bool := owner L e =? r.

(** First element of tile [t] (tiles before it are t tiles; the first may be short). *)
Definition first_of_tile (L : layout) (t : Z) : Z :=
  Z.max 0 ((l_off L / l_tile L + t) * l_tile L - l_off L).

(** [t] is a tile of the matrix: it contains some element. *)
Definition is_tile (L : layout) (t : Z) : Prop :=
  exists e, 0 <= e < l_size L /\ tile_of L e = t.

(** Owner of a tile: the owner of any of its positions; a tile never straddles
    blocks. *)
Definition tile_owner (L : layout) (t : Z) : Z :=
  (l_src L + ((l_off L / l_tile L + t) * l_tile L) / l_block L) mod l_grid L.
Definition tile_owned (L : layout) (r t : Z) : bool := tile_owner L t =? r.
