(** * Model of common/index2d.h (grid indices), common/range2d.h, common/round_robin.h,
      util_math.h (interleaveSplits), types.h (integral casts).

    Indices are unbounded [Z]; C++ [/] and [%] are [Z.quot], [Z.rem].  [DLAF_ASSERT_MODERATE]
    and [DLAF_ASSERT_HEAVY] are compiled out in release builds and are not part of the
    functions. *)
From Coq Require Import ZArith Bool List.
From Verif Require Import CInt DistModel.
Import ListNotations.
Open Scope Z_scope.

(** enum class Ordering, index2d.h:43 *)
Inductive ordering := RowMajor | ColumnMajor.

(** orthogonal(rc), index2d.h:30-32 *)
Definition orthogonal (rc : coord) : coord := match rc with Row => Col | Col => Row end.
(** basic_coords(Coord, value, fixed), index2d.h:65-74 *)
Definition coords_from (rc : coord) (value fixed : Z) : pair_Z :=
  match rc with Row => (value, fixed) | Col => (fixed, value) end.
(** transposed, index2d.h:262-266 (with basic_coords::transpose, :107-109) *)
Definition transposed (p : pair_Z) : pair_Z := (snd p, fst p).
(** Size2D::linear_size, index2d.h:175-177 *)
Definition linear_size (s : pair_Z) : Z := fst s * snd s.
(** Index2D::isInOrOn, index2d.h:225-228 *)
Definition isInOrOn2 (i b : pair_Z) : bool :=
  (fst i <=? fst b) && (snd i <=? snd b) && isValid2 i && isValid2 b.
(** Index2D + Size2D, index2d.h:431-435 *)
Definition plus2 (a b : pair_Z) : pair_Z := (fst a + fst b, snd a + snd b).
(** Index2D - Index2D / Size2D, index2d.h:437-452 *)
Definition minus2 (a b : pair_Z) : pair_Z := (fst a - fst b, snd a - snd b).
(** Index2D::isInSub, index2d.h:238-240 *)
Definition isInSub2 (i origin sub : pair_Z) : bool :=
  (fst origin <=? fst i) && (snd origin <=? snd i) && isIn2 i (plus2 origin sub).

(** computeCoordsRowMajor, index2d.h:300-314 *)
Definition computeCoordsRowMajor (linear_index : Z) (dims : pair_Z) : pair_Z :=
  let leading_size := snd dims in
  (Z.quot linear_index leading_size, Z.rem linear_index leading_size).
(** computeCoordsColMajor, index2d.h:321-332 *)
Definition computeCoordsColMajor (linear_index : Z) (dims : pair_Z) : pair_Z :=
  let leading_size := fst dims in
  (Z.rem linear_index leading_size, Z.quot linear_index leading_size).
(** computeCoords, index2d.h:344-355 *)
Definition computeCoords (o : ordering) (index : Z) (dims : pair_Z) : pair_Z :=
  match o with
  | RowMajor => computeCoordsRowMajor index dims
  | ColumnMajor => computeCoordsColMajor index dims
  end.
(** computeLinearIndexRowMajor, index2d.h:365-377 *)
Definition computeLinearIndexRowMajor (i dims : pair_Z) : Z := fst i * snd dims + snd i.
(** computeLinearIndexColMajor, index2d.h:387-399 *)
Definition computeLinearIndexColMajor (i dims : pair_Z) : Z := snd i * fst dims + fst i.
(** computeLinearIndex, index2d.h:412-423 *)
Definition computeLinearIndex (o : ordering) (i dims : pair_Z) : Z :=
  match o with
  | RowMajor => computeLinearIndexRowMajor i dims
  | ColumnMajor => computeLinearIndexColMajor i dims
  end.

(** ** range2d.h *)

(** IteratorRange2D: begin_, i_, ld_ (range2d.h:162-165); [current_] is a function of them. *)
Record iter2d := Iter { it_begin : pair_Z; it_i : Z; it_ld : Z }.
(** constructor, range2d.h:61-64 *)
Definition iter_make (begin : pair_Z) (ld i : Z) : iter2d := Iter begin i (Z.max ld 1).
(** operator*, range2d.h:66-68 with updateIndex2D :157-160 *)
Definition iter_deref (it : iter2d) : pair_Z :=
  (fst (it_begin it) + Z.rem (it_i it) (it_ld it), snd (it_begin it) + Z.quot (it_i it) (it_ld it)).
(** operator+=, range2d.h:104-108 (++ and -- are +1, -1: :80-84, :92-96) *)
Definition iter_add (it : iter2d) (n : Z) : iter2d := Iter (it_begin it) (it_i it + n) (it_ld it).
(** operator++ *)
Definition iter_incr (it : iter2d) : iter2d := iter_add it 1.
(** operator--, range2d.h:92-96 *)
Definition iter_decr (it : iter2d) : iter2d := iter_add it (-1).
(** operator[], range2d.h:74-78 *)
Definition iter_at (it : iter2d) (n : Z) : pair_Z := iter_deref (iter_add it n).
(** operator==, range2d.h:132-134 *)
Definition iter_eqb (a b : iter2d) : bool := it_i a =? it_i b.
(** operator-(it, it), range2d.h:128-130 *)
Definition iter_diff (a b : iter2d) : Z := it_i a - it_i b.

(** IterableRange2D, range2d.h:213-215 *)
Record range2d := Range { rg_begin : pair_Z; rg_ld : Z; rg_max : Z }.
(** range2d.h:176-177 *)
Definition range_size (begin sz : pair_Z) : range2d := Range begin (fst sz) (fst sz * snd sz).
(** range2d.h:179-184 *)
Definition range_end (begin e : pair_Z) : res range2d :=
  let ld := fst e - fst begin in
  let r := Range begin ld (ld * (snd e - snd begin)) in
  do dlaf_assert (fst begin <=? fst e) ;;;
  do dlaf_assert (snd begin <=? snd e) ;;;
  Ok r.
(** range2d.h:186-191 *)
Definition range_begin_it (r : range2d) : iter2d := iter_make (rg_begin r) (rg_ld r) 0.
Definition range_end_it (r : range2d) : iter2d := iter_make (rg_begin r) (rg_ld r) (rg_max r).
(** range2d.h:193-195 *)
Definition range_empty (r : range2d) : bool := iter_eqb (range_begin_it r) (range_end_it r).
(** isIndexInRange, range2d.h:201-210 *)
Definition isIndexInRange (i : pair_Z) (r : range2d) : bool :=
  if range_empty r then false
  else
    let tl := iter_deref (range_begin_it r) in
    let br := iter_deref (iter_decr (range_end_it r)) in
    (fst tl <=? fst i) && (fst i <=? fst br) && (snd tl <=? snd i) && (snd i <=? snd br).

(** Range-based for over the range: the indices seen by the body, in order
    (range2d.h:32-36).  [fuel] bounds the number of increments; None = not finished. *)
Fixpoint iterate (fuel : nat) (it e : iter2d) : option (list pair_Z) :=
  if iter_eqb it e then Some []
  else match fuel with
       | O => None
       | S f => match iterate f (iter_incr it) e with
                | Some l => Some (iter_deref it :: l)
                | None => None
                end
       end.
Definition range_list (fuel : nat) (r : range2d) : option (list pair_Z) :=
  iterate fuel (range_begin_it r) (range_end_it r).

(** iterate_range2d overloads, range2d.h:246-266 *)
Definition iterate_range2d_size (sz : pair_Z) : range2d := range_size (0, 0) sz.
Definition iterate_range2d_end (e : pair_Z) : res range2d := range_end (0, 0) e.

(** ** round_robin.h *)
Record round_robin (T : Type) := RoundRobin { rr_index : Z; rr_pool : list T }.
Arguments RoundRobin {T} _ _. Arguments rr_index {T} _. Arguments rr_pool {T} _.
(** RoundRobin(n, args...), round_robin.h:27-32: the pool content is the list of constructed
    resources *)
Definition rr_make {T} (pool : list T) : round_robin T := RoundRobin 0 pool.
(** currentResource, round_robin.h:39-42 *)
Definition rr_current {T} (r : round_robin T) : res T :=
  match nth_error (rr_pool r) (Z.to_nat (rr_index r)) with
  | Some x => Ok x
  | None => Abort
  end.
(** nextResource, round_robin.h:44-49 *)
Definition rr_next {T} (r : round_robin T) : res (T * round_robin T) :=
  match rr_pool r with
  | [] => Abort
  | _ => let i := Z.rem (rr_index r + 1) (Z.of_nat (length (rr_pool r))) in
         match nth_error (rr_pool r) (Z.to_nat i) with
         | Some x => Ok (x, RoundRobin i (rr_pool r))
         | None => UB
         end
  end.

(** ** interleaveSplits, util_math.h:39-64 *)
Fixpoint interleave_loop (fuel : nat) (l b i j : Z) (splits : list Z) : option (list Z) :=
  (* [splits] is stored reversed: its head is splits.back() *)
  if (i <? l) || (j <? l) then
    match fuel with
    | O => None
    | S f =>
      let s1 := if negb (hd 0 splits =? i) && (i <? l) then i :: splits else splits in
      let s2 := if negb (hd 0 s1 =? j) && (j <? l) then j :: s1 else s1 in
      interleave_loop f l b (i + b) (j + b) s2
    end
  else Some (rev (l :: splits)).

Definition interleaveSplits (fuel : nat) (l b o1 o2 : Z) : res (option (list Z)) :=
  do dlaf_assert (0 <? l) ;;;
  do dlaf_assert (0 <? b) ;;;
  do dlaf_assert ((0 <=? o1) && (o1 <=? b)) ;;;
  do dlaf_assert ((0 <=? o2) && (o2 <=? b)) ;;;
  let small := Z.min o1 o2 in
  let big := Z.max o1 o2 in
  Ok (interleave_loop fuel l b small big [0]).

(** ** types.h:180-241: integral casts.  An integer type is its range. *)
Record int_type := IntType { t_signed : bool; t_bits : Z }.
Definition t_min (t : int_type) : Z := if t_signed t then - 2 ^ (t_bits t - 1) else 0.
Definition t_max (t : int_type) : Z := if t_signed t then 2 ^ (t_bits t - 1) - 1 else 2 ^ t_bits t - 1.
(** static_cast between integer types: reduction modulo 2^bits into the range (C++20) *)
Definition static_cast_to (t : int_type) (v : Z) : Z :=
  (v - t_min t) mod 2 ^ t_bits t + t_min t.
Definition size_t_type : int_type := IntType false 64.
(** to_signed, to_unsigned, integral_cast, types.h:182-241.  The MODERATE assertions are part
    of the result as a boolean: [(assertions hold, value)]. *)
Definition integral_cast (to from : int_type) (v : Z) : bool * Z :=
  ((if t_signed to then
      if t_signed from then (v <=? t_max to) && (t_min to <=? v)
      else v <=? static_cast_to size_t_type (t_max to)
    else
      if t_signed from then (0 <=? v) && (static_cast_to size_t_type v <=? t_max to)
      else static_cast_to size_t_type v <=? t_max to),
   static_cast_to to v).
