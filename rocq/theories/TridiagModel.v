(** * Divide and conquer tridiagonal eigensolver: splitting and index bookkeeping.
    eigensolver/tridiag_solver/{impl.h, index_manipulation.h, merge.h, coltype.h}.
    A vector (matrix with one column of tiles, column-major) is contiguous in memory: the kernels get the pointer to
    the first element of tile i_begin and use it as an array; arrays are functions from positions. *)
From Coq Require Import ZArith Lia List Bool.
From Verif Require Import CInt Loop DistModel.
Import ListNotations.
Local Open Scope Z_scope.

(** ** Splitting: impl.h:51-76 *)
(** splitIntervalInTheMiddleRecursively, impl.h:51-60: the triads appended to indices; None: more than fuel nested calls *)
Fixpoint split_interval (fuel : nat) (i_begin i_end : Z) : option (list (Z * Z * Z)) :=
  if i_begin + 1 =? i_end then Some [] else
  match fuel with
  | O => None
  | S f =>
    let i_split := ceilDiv (i_begin + i_end) 2 in
    match split_interval f i_begin i_split, split_interval f i_split i_end with
    | Some l, Some r => Some (l ++ r ++ [(i_begin, i_split, i_end)])
    | _, _ => None
    end
  end.
(** generateSubproblemIndices, impl.h:68-76 *)
Definition generate_subproblem_indices (n : Z) : option (list (Z * Z * Z)) :=
  if n =? 0 then Some [] else split_interval (Z.to_nat n) 0 n.

(** ** Arrays *)
Definition upd {A : Type} (a : Z -> A) (i : Z) (v : A) : Z -> A := fun j => if j =? i then v else a j.
Definition tab {A : Type} (lo hi : Z) (a : Z -> A) : list A := map a (zrange lo hi).

(** ** index_manipulation.h *)
(** problemSize, index_manipulation.h:29-35, on the rows axis of a distribution *)
Definition problem_size (a : axis) (i_begin i_end : Z) : Z :=
  (i_end - i_begin - 1) * ax_tile a + ax_global_tile_size_of a (i_end - 1).
(** initIndex, index_manipulation.h:38-57; [rows i] is the number of rows of tile i, the array starts at tile i_begin *)
Definition init_index (nb : Z) (rows : Z -> Z) (i_begin i_end : Z) (index : Z -> Z) : Z -> Z :=
  fold_left (fun a i => let offset := (i - i_begin) * nb in
    fold_left (fun a e => upd a (offset + e) (offset + e)) (zrange 0 (rows i)) a) (zrange i_begin i_end) index.
(** addIndex, index_manipulation.h:61-80 *)
Definition add_index (n val : Z) (index : Z -> Z) : Z -> Z :=
  fold_left (fun a i => upd a i (a i + val)) (zrange 0 n) index.
(** std::merge (ISO C++ [alg.merge]): stable, an element of the second range is taken first only if it is less *)
Fixpoint std_merge (cmp : Z -> Z -> bool) (l1 : list Z) : list Z -> list Z :=
  fix go (l2 : list Z) : list Z :=
    match l1, l2 with
    | [], _ => l2
    | _, [] => l1
    | a :: l1', b :: l2' => if cmp b a then b :: go l2' else a :: std_merge cmp l1' l2
    end.
(** what an output iterator that starts at position 0 writes *)
Definition write_list {A : Type} (out : Z -> A) (l : list A) : Z -> A :=
  fun i => if 0 <=? i then match nth_error l (Z.to_nat i) with Some v => v | None => out i end else out i.
(** applyIndex, index_manipulation.h:120-142 *)
Definition apply_index {A : Type} (n : Z) (index : Z -> Z) (inn out : Z -> A) : Z -> A :=
  fold_left (fun o i => upd o i (inn (index i))) (zrange 0 n) out.
(** invertIndex, index_manipulation.h:144-163 *)
Definition invert_index (n : Z) (inn out : Z -> Z) : Z -> Z :=
  fold_left (fun o i => upd o (inn i) i) (zrange 0 n) out.

(** ** coltype.h:18-23, merge.h:265-281 *)
Inductive coltype := UpperHalf | LowerHalf | Dense | Deflated.
Definition coltype_eqb (a b : coltype) : bool :=
  match a, b with UpperHalf, UpperHalf | LowerHalf, LowerHalf | Dense, Dense | Deflated, Deflated => true | _, _ => false end.
(** ev_sort_order *)
Definition ev_sort_order (c : coltype) : Z :=
  match c with UpperHalf => 0 | Dense => 1 | LowerHalf => 2 | Deflated => 3 end.

Section values.
Context {T : Type}.
(** operator< of the element type *)
Variable ltb : T -> T -> bool.

(** sortIndex, index_manipulation.h:86-117; None: the assertion k <= n fails *)
Definition sort_index (n k : Z) (v : Z -> T) (in_index out_index : Z -> Z) : option (Z -> Z) :=
  if k <=? n then Some (write_list out_index (std_merge (fun i1 i2 => ltb (v i1) (v i2)) (tab 0 k in_index) (tab k n in_index)))
  else None.

(** the loop of merge.h:349-356: shift to the right the greater values of index_sorted[k..j-1], and where to insert *)
Fixpoint shift_right (fuel : nat) (k : Z) (evals : Z -> T) (x : T) (j : Z) (is : Z -> Z) : Z * (Z -> Z) :=
  match fuel with
  | O => (j, is)
  | S f => if k <? j then
             if ltb (evals (is (j - 1))) x then (j, is)
             else shift_right f k evals x (j - 1) (upd is j (is (j - 1)))
           else (j, is)
  end.
(** the loop of merge.h:336-362 *)
Definition partition_step (types : Z -> coltype) (evals : Z -> T) (perm_sorted : Z -> Z) (k : Z)
    (s : Z * Z * (Z -> Z)) (i : Z) : Z * Z * (Z -> Z) :=
  let '(i1, i2, is) := s in
  let ii := perm_sorted i in
  if negb (coltype_eqb (types ii) Deflated) then (i1 + 1, i2, upd is i1 ii)
  else let '(j, is') := shift_right (Z.to_nat (i2 - k)) k evals (evals ii) i2 is in
       (i1, i2 + 1, upd is' j ii).
(** offsets[1 + ev_sort_order(c)] before the partial sum (merge.h:318-322): the number of columns of type c *)
Definition count_types (n : Z) (types : Z -> coltype) : Z -> Z :=
  fold_left (fun o i => if negb (coltype_eqb (types i) Deflated) then upd o (1 + ev_sort_order (types i)) (o (1 + ev_sort_order (types i)) + 1) else o)
    (zrange 0 n) (fun _ => 0).
(** std::partial_sum *)
Definition partial_sum (o : Z -> Z) : Z -> Z := fun j => fold_left Z.add (tab 0 (j + 1) o) 0.
(** merge.h:371-380 *)
Definition coltype_step (types : Z -> coltype) (s : (Z -> Z) * (Z -> Z)) (j : Z) : (Z -> Z) * (Z -> Z) :=
  let '(offs, isc) := s in
  if negb (coltype_eqb (types j) Deflated) then
    (upd offs (ev_sort_order (types j)) (offs (ev_sort_order (types j)) + 1), upd isc (offs (ev_sort_order (types j))) j)
  else s.
(** stablePartitionIndexForDeflationArrays (local), merge.h:302-384: (k, (upper, dense, lower), index_sorted, index_sorted_coltype) *)
Definition stable_partition (n : Z) (types : Z -> coltype) (evals : Z -> T) (perm_sorted is0 isc0 : Z -> Z) :
    Z * (Z * Z * Z) * (Z -> Z) * (Z -> Z) :=
  let cnt := count_types n types in
  let n_udl := (cnt (1 + ev_sort_order UpperHalf), cnt (1 + ev_sort_order Dense), cnt (1 + ev_sort_order LowerHalf)) in
  let offs := partial_sum cnt in
  let k := offs (ev_sort_order Deflated) in
  let '(_, _, is) := fold_left (partition_step types evals perm_sorted k) (zrange 0 n) (0, k, is0) in
  let '(_, isc) := fold_left (coltype_step types) (zrange 0 n) (offs, isc0) in
  let isc' := fold_left (fun a i => upd a i (is i)) (zrange k n) isc in
  (k, n_udl, is, isc').
End values.

(** initColTypes, merge.h:669-687: the array starts at tile i_begin *)
Definition init_coltypes (nb : Z) (rows : Z -> Z) (i_begin i_split i_end : Z) (c : Z -> coltype) : Z -> coltype :=
  fold_left (fun a i => let v := if i <? i_split then UpperHalf else LowerHalf in
    fold_left (fun a e => upd a ((i - i_begin) * nb + e) v) (zrange 0 (rows i)) a) (zrange i_begin i_end) c.

(** GivensRotation, rot.h / merge.h:751 *)
Record rotation (T : Type) := Rot { r_i : Z; r_j : Z; r_c : T; r_s : T }.
Arguments Rot {T}. Arguments r_i {T}. Arguments r_j {T}. Arguments r_c {T}. Arguments r_s {T}.

Section deflation.
Context {T : Type}.
Variables (zero : T) (add sub mul div hypot : T -> T -> T) (abs : T -> T) (leb : T -> T -> bool).
(** applyDeflationToArrays, merge.h:698-763. State: i1, d, z, c, rotations so far. [leb x y] is x <= y; x > y is its negation
    (no NaN). *)
Definition dstate : Type := (Z * (Z -> T) * (Z -> T) * (Z -> coltype) * list (rotation T))%type.
Definition deflate_step (rho tol : T) (i_ptr : Z -> Z) (s : dstate) (i2 : Z) : dstate :=
  let '(i1, d, z, c, rots) := s in
  let i1s := i_ptr i1 in let i2s := i_ptr i2 in
  if leb (abs (mul rho (z i1s))) tol then (i2, d, z, upd c i1s Deflated, rots) else
  if leb (abs (mul rho (z i2s))) tol then (i1, d, z, upd c i2s Deflated, rots) else
  let r := hypot (z i1s) (z i2s) in
  let cc := div (z i1s) r in let ss := div (z i2s) r in
  if negb (leb (abs (mul (mul cc ss) (sub (d i2s) (d i1s)))) tol) then (i2, d, z, c, rots) else
  let z' := upd (upd z i1s r) i2s zero in
  let tmp := add (mul (mul (d i1s) ss) ss) (mul (mul (d i2s) cc) cc) in
  let d1 := add (mul (mul (d i1s) cc) cc) (mul (mul (d i2s) ss) ss) in
  let d' := upd (upd d i1s d1) i2s tmp in
  let c1 := if (coltype_eqb (c i1s) UpperHalf && coltype_eqb (c i2s) LowerHalf) || (coltype_eqb (c i1s) LowerHalf && coltype_eqb (c i2s) UpperHalf)
            then upd c i1s Dense else c in
  (i1, d', z', upd c1 i2s Deflated, rots ++ [Rot i1s i2s cc ss]).
Definition apply_deflation (rho tol : T) (len : Z) (i_ptr : Z -> Z) (d z : Z -> T) (c : Z -> coltype) : dstate :=
  fold_left (deflate_step rho tol i_ptr) (zrange 1 len) (0, d, z, c, []).
End deflation.
