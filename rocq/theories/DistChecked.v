(** * Overflow-aware versions of the distribution arithmetic (C10).

    The same functions as DistModel.v, with every C++ operator replaced by its
    checked version: int64 operations for SizeType, int operations where both
    operands are int.  [UB] = overflow or division by zero. *)
From Coq Require Import ZArith Lia Bool List Znumtheory.
From Verif Require Import CInt DistModel DistSpec DivLemmas DistProofs DistProofs2 DistBuilt DistThms DistCtor.
Open Scope Z_scope.

(** util_distribution.h:29-34 *)
Definition tile_from_element_c (element tile_size tile_el_offset : Z) : res Z :=
  s <- add64 element tile_el_offset ;; div64 s tile_size.

(** util_distribution.h:42-53 *)
Definition tile_element_from_element_c (element tile_size tile_el_offset : Z) : res Z :=
  element <- add64 element tile_el_offset ;;
  tile_element <- rem64 element tile_size ;;
  if element <? tile_size then sub64 tile_element tile_el_offset else Ok tile_element.

(** util_distribution.h:64-73 *)
Definition element_from_tile_and_tile_element_c (tile tile_element tile_size tile_el_offset : Z) : res Z :=
  p <- mul64 tile tile_size ;;
  s <- add64 p tile_element ;;
  sub64 s (if tile >? 0 then tile_el_offset else 0).

(** util_distribution.h:82-92; the int64 result is returned as int (narrowing checked) *)
Definition rank_global_tile_c (global_tile tiles_per_block grid_size src_rank tile_offset : Z) : res Z :=
  s <- add64 global_tile tile_offset ;;
  global_block <- div64 s tiles_per_block ;;
  t <- add64 global_block src_rank ;;
  r <- rem64 t grid_size ;;
  i32 r.

(** util_distribution.h:103-126 *)
Definition local_tile_from_global_tile_c
           (global_tile tiles_per_block grid_size rank src_rank tile_offset : Z) : res Z :=
  own <- rank_global_tile_c global_tile tiles_per_block grid_size src_rank tile_offset ;;
  if rank =? own then
    global_tile <- add64 global_tile tile_offset ;;
    b <- div64 global_tile tiles_per_block ;;
    local_block <- div64 b grid_size ;;
    p <- mul64 local_block tiles_per_block ;;
    m <- rem64 global_tile tiles_per_block ;;
    s <- add64 p m ;;
    sub64 s (if rank =? src_rank then tile_offset else 0)
  else Ok (-1).

(** util_distribution.h:138-166 *)
Definition next_local_tile_from_global_tile_c
           (global_tile tiles_per_block grid_size rank src_rank tile_offset : Z) : res Z :=
  r1 <- add32 rank grid_size ;;
  r2 <- sub32 r1 src_rank ;;
  rank_to_src <- rem32 r2 grid_size ;;
  global_tile <- add64 global_tile tile_offset ;;
  global_block <- div64 global_tile tiles_per_block ;;
  owner_to_src <- rem64 global_block grid_size ;;
  local_block <- div64 global_block grid_size ;;
  let cut := if rank =? src_rank then tile_offset else 0 in
  if rank_to_src =? owner_to_src then
    p <- mul64 local_block tiles_per_block ;;
    m <- rem64 global_tile tiles_per_block ;;
    s <- add64 p m ;;
    sub64 s cut
  else
    local_block <- (if rank_to_src <? owner_to_src then add64 local_block 1 else Ok local_block) ;;
    p <- mul64 local_block tiles_per_block ;;
    sub64 p cut.

(** util_distribution.h:177-196 *)
Definition global_tile_from_local_tile_c
           (local_tile tiles_per_block grid_size rank src_rank tile_offset : Z) : res Z :=
  local_tile <- (if rank =? src_rank then add64 local_tile tile_offset else Ok local_tile) ;;
  r1 <- add32 rank grid_size ;;
  r2 <- sub32 r1 src_rank ;;
  rank_to_src <- rem32 r2 grid_size ;;
  local_block <- div64 local_tile tiles_per_block ;;
  g <- mul64 grid_size local_block ;;
  g <- add64 g rank_to_src ;;
  p <- mul64 g tiles_per_block ;;
  m <- rem64 local_tile tiles_per_block ;;
  s <- add64 p m ;;
  sub64 s tile_offset.

(** util_math.h:83-86 *)
Definition ceilDiv_c (num den : Z) : res Z :=
  s <- add64 num den ;; s <- sub64 s 1 ;; div64 s den.

(** distribution.h:651-653, 669-671, 678-680 *)
Definition tiles_per_block_c (a : axis) : res Z := div64 (ax_block a) (ax_tile a).
Definition global_tile_offset_c (a : axis) : res Z := div64 (ax_offset a) (ax_tile a).
Definition global_tile_element_offset_c (a : axis) : res Z := rem64 (ax_offset a) (ax_tile a).
(** distribution.h:705-712 *)
Definition local_tile_element_offset_c (a : axis) : res Z :=
  if is_source_rank a then global_tile_element_offset_c a else Ok 0.

(** distribution.h:600-605 *)
Definition ax_rank_global_tile_c (a : axis) (t : Z) : res Z :=
  k <- tiles_per_block_c a ;; o <- global_tile_offset_c a ;;
  rank_global_tile_c t k (ax_grid a) (ax_src a) o.
(** distribution.h:542-549 *)
Definition ax_next_local_tile_from_global_tile_c (a : axis) (t : Z) : res Z :=
  k <- tiles_per_block_c a ;; o <- global_tile_offset_c a ;;
  next_local_tile_from_global_tile_c t k (ax_grid a) (ax_rank a) (ax_src a) o.
(** distribution.h:496-503 *)
Definition ax_local_tile_from_global_tile_c (a : axis) (t : Z) : res Z :=
  k <- tiles_per_block_c a ;; o <- global_tile_offset_c a ;;
  local_tile_from_global_tile_c t k (ax_grid a) (ax_rank a) (ax_src a) o.
(** distribution.h:473-480 *)
Definition ax_global_tile_from_local_tile_c (a : axis) (t : Z) : res Z :=
  k <- tiles_per_block_c a ;; o <- global_tile_offset_c a ;;
  global_tile_from_local_tile_c t k (ax_grid a) (ax_rank a) (ax_src a) o.
(** distribution.h:462-466 *)
Definition ax_global_tile_from_global_element_c (a : axis) (e : Z) : res Z :=
  o <- global_tile_element_offset_c a ;; tile_from_element_c e (ax_tile a) o.
(** distribution.h:509-514 *)
Definition ax_local_tile_from_local_element_c (a : axis) (e : Z) : res Z :=
  o <- local_tile_element_offset_c a ;; tile_from_element_c e (ax_tile a) o.
(** distribution.h:559-564 *)
Definition ax_tile_element_from_global_element_c (a : axis) (e : Z) : res Z :=
  o <- global_tile_element_offset_c a ;; tile_element_from_element_c e (ax_tile a) o.
(** distribution.h:570-575 *)
Definition ax_tile_element_from_local_element_c (a : axis) (e : Z) : res Z :=
  o <- local_tile_element_offset_c a ;; tile_element_from_element_c e (ax_tile a) o.
(** distribution.h:389-398 *)
Definition ax_global_element_c (a : axis) (t te : Z) : res Z :=
  o <- global_tile_element_offset_c a ;; element_from_tile_and_tile_element_c t te (ax_tile a) o.
(** distribution.h:443-452 *)
Definition ax_local_element_c (a : axis) (t te : Z) : res Z :=
  o <- local_tile_element_offset_c a ;; element_from_tile_and_tile_element_c t te (ax_tile a) o.
(** distribution.h:417-422 *)
Definition ax_global_element_from_local_element_c (a : axis) (e : Z) : res Z :=
  lt <- ax_local_tile_from_local_element_c a e ;;
  gt <- ax_global_tile_from_local_tile_c a lt ;;
  te <- ax_tile_element_from_local_element_c a e ;;
  ax_global_element_c a gt te.
(** distribution.h:429-435 *)
Definition ax_local_element_from_global_element_c (a : axis) (e : Z) : res Z :=
  t <- ax_global_tile_from_global_element_c a e ;;
  lt <- ax_local_tile_from_global_tile_c a t ;;
  if lt <? 0 then Ok (-1)
  else te <- ax_tile_element_from_global_element_c a e ;; ax_local_element_c a lt te.
(** distribution.h:585-587 *)
Definition ax_rank_global_element_c (a : axis) (e : Z) : res Z :=
  t <- ax_global_tile_from_global_element_c a e ;; ax_rank_global_tile_c a t.
(** distribution.h:615-624 *)
Definition ax_global_tile_size_of_c (a : axis) (t : Z) : res Z :=
  o <- global_tile_element_offset_c a ;;
  if t =? 0 then x <- sub64 (ax_tile a) o ;; Ok (Z.min x (ax_size a))
  else x <- add64 (ax_size a) o ;; y <- mul64 t (ax_tile a) ;; z <- sub64 x y ;; Ok (Z.min (ax_tile a) z).
(** distribution.h:630-639 *)
Definition ax_local_tile_size_of_c (a : axis) (t : Z) : res Z :=
  o <- local_tile_element_offset_c a ;;
  if t =? 0 then x <- sub64 (ax_tile a) o ;; Ok (Z.min x (ax_local_size a))
  else x <- add64 (ax_local_size a) o ;; y <- mul64 t (ax_tile a) ;; z <- sub64 x y ;; Ok (Z.min (ax_tile a) z).

(** distribution.cpp:108-115 *)
Definition ax_compute_global_nr_tiles_c (a : axis) : res axis :=
  if ax_size a >? 0 then
    o <- global_tile_element_offset_c a ;;
    s <- add64 (ax_size a) o ;;
    n <- ceilDiv_c s (ax_tile a) ;;
    Ok (set_nr_tiles a n)
  else Ok (set_nr_tiles a 0).

(** distribution.cpp:131-149 *)
Definition ax_compute_local_size_c (a : axis) : res Z :=
  if ax_local_nr_tiles a =? 0 then Ok 0
  else
    ret <- mul64 (ax_local_nr_tiles a) (ax_tile a) ;;
    o <- local_tile_element_offset_c a ;;
    ret <- sub64 ret o ;;
    last <- sub64 (ax_nr_tiles a) 1 ;;
    own <- ax_rank_global_tile_c a last ;;
    if ax_rank a =? own then
      p <- mul64 (ax_nr_tiles a) (ax_tile a) ;;
      go <- global_tile_element_offset_c a ;;
      s <- add64 (ax_size a) go ;;
      m <- sub64 p s ;;
      sub64 ret m
    else Ok ret.

(** distribution.cpp:117-129 *)
Definition ax_compute_local_c (a : axis) : res axis :=
  n <- ax_next_local_tile_from_global_tile_c a (ax_nr_tiles a) ;;
  let a := set_local_nr_tiles a n in
  s <- ax_compute_local_size_c a ;;
  Ok (set_local_size a s).

Definition on_both_c (f : axis -> res axis) (d : distribution) : res distribution :=
  r <- f (d_row d) ;; c <- f (d_col d) ;; Ok (Dist r c).

(** distribution.cpp:51-70 with every intermediate checked *)
Definition dist_ctor_c (size block tile grid rank src off : pair_Z) : res distribution :=
  do dlaf_assert (isValid2 size) ;;;
  do dlaf_assert (negb (isEmpty2 block)) ;;;
  do dlaf_assert (negb (isEmpty2 tile)) ;;;
  do dlaf_assert (divides2 tile block) ;;;
  do dlaf_assert (negb (isEmpty2 grid)) ;;;
  do dlaf_assert (isIn2 rank grid) ;;;
  do dlaf_assert (isIn2 src grid) ;;;
  d <- normalize_source_rank_and_offset (mk2 size block tile grid rank src off) ;;
  d <- on_both_c ax_compute_global_nr_tiles_c d ;;
  on_both_c ax_compute_local_c d.

(** ** Proofs *)

Lemma add64_ok : forall a b, i64_min <= a + b <= i64_max -> add64 a b = Ok (a + b).
Proof. intros. apply i64_ok. assumption. Qed.
Lemma sub64_ok : forall a b, i64_min <= a - b <= i64_max -> sub64 a b = Ok (a - b).
Proof. intros. apply i64_ok. assumption. Qed.
Lemma mul64_ok : forall a b, i64_min <= a * b <= i64_max -> mul64 a b = Ok (a * b).
Proof. intros. apply i64_ok. assumption. Qed.
Lemma add32_ok : forall a b, i32_min <= a + b <= i32_max -> add32 a b = Ok (a + b).
Proof. intros. apply i32_ok. assumption. Qed.
Lemma sub32_ok : forall a b, i32_min <= a - b <= i32_max -> sub32 a b = Ok (a - b).
Proof. intros. apply i32_ok. assumption. Qed.
Lemma quot_le : forall a b, 0 <= a -> 0 < b -> 0 <= Z.quot a b <= a.
Proof.
  intros. rewrite quot_nonneg_div by lia. split; [apply div_nonneg; lia|].
  destruct (div_mod_dec a b); [lia|]. nia.
Qed.
Lemma div64_ok : forall a b, 0 <= a <= i64_max -> 0 < b -> div64 a b = Ok (Z.quot a b).
Proof.
  intros a b Ha Hb. unfold div64. rewrite (proj2 (Z.eqb_neq b 0)) by lia.
  pose proof (quot_le a b). apply i64_ok. unfold i64_min. lia.
Qed.
Lemma rem64_ok : forall a b, 0 <= a <= i64_max -> 0 < b -> rem64 a b = Ok (Z.rem a b).
Proof.
  intros a b Ha Hb. unfold rem64. rewrite (proj2 (Z.eqb_neq b 0)) by lia.
  pose proof (quot_le a b). rewrite in_i64_true; [reflexivity|]. unfold i64_min. lia.
Qed.
Lemma rem32_ok : forall a b, 0 <= a <= i32_max -> 0 < b -> rem32 a b = Ok (Z.rem a b).
Proof.
  intros a b Ha Hb. unfold rem32. rewrite (proj2 (Z.eqb_neq b 0)) by lia.
  pose proof (quot_le a b). rewrite in_i32_true; [reflexivity|]. unfold i32_min. lia.
Qed.

Lemma i64_min_neg : i64_min < 0. Proof. reflexivity. Qed.
Lemma i64_min_max : i64_min = - i64_max - 1. Proof. reflexivity. Qed.
Lemma i32_min_neg : i32_min < 0. Proof. reflexivity. Qed.
Lemma i32_lt_i64 : i32_max < i64_max. Proof. reflexivity. Qed.
Ltac mm := pose proof i64_min_neg; pose proof i64_min_max; pose proof i32_min_neg; pose proof i32_lt_i64.
Ltac ck1 m := lazymatch m with
  | add64 ?x ?y => rewrite (add64_ok x y) by lia
  | sub64 ?x ?y => rewrite (sub64_ok x y) by lia
  | mul64 ?x ?y => rewrite (mul64_ok x y) by lia
  | add32 ?x ?y => rewrite (add32_ok x y) by lia
  | sub32 ?x ?y => rewrite (sub32_ok x y) by lia
  | rem32 ?x ?y => rewrite (rem32_ok x y) by lia
  | div64 ?x ?y => rewrite (div64_ok x y) by lia
  | rem64 ?x ?y => rewrite (rem64_ok x y) by lia
  end.
Ltac ck := match goal with
  | |- bind ?m _ = _ => ck1 m
  | |- ?m = _ => ck1 m
  end; cbn [bind].

Lemma tile_from_element_safe : forall e ts o, 0 <= e -> 0 < ts -> 0 <= o -> e + o <= i64_max ->
  tile_from_element_c e ts o = Ok (tile_from_element e ts o).
Proof. intros. mm. unfold tile_from_element_c. do 2 ck. reflexivity. Qed.

Lemma tile_element_safe : forall e ts o, 0 <= e -> 0 < ts -> 0 <= o < ts -> e + o <= i64_max ->
  tile_element_from_element_c e ts o = Ok (tile_element_from_element e ts o).
Proof.
  intros. mm. unfold tile_element_from_element_c, tile_element_from_element. do 2 ck.
  destruct (Z.ltb_spec (e + o) ts); [|reflexivity].
  rewrite rem_nonneg_mod, Z.mod_small by lia. ck. reflexivity.
Qed.

Lemma element_safe : forall t te ts o, 0 <= t -> 0 <= te -> 0 < ts -> 0 <= o < ts -> t * ts + te <= i64_max ->
  element_from_tile_and_tile_element_c t te ts o = Ok (element_from_tile_and_tile_element t te ts o).
Proof.
  intros. mm. unfold element_from_tile_and_tile_element_c, element_from_tile_and_tile_element.
  assert (0 <= t * ts) by nia. do 2 ck. rewrite Z.gtb_ltb.
  destruct (Z.ltb_spec 0 t); [assert (ts <= t * ts) by nia|]; ck; reflexivity.
Qed.

Lemma rank_safe : forall t k G s o, 0 <= t -> 0 < k -> 0 < G <= i32_max -> 0 <= s < G -> 0 <= o ->
  t + o + G <= i64_max ->
  rank_global_tile_c t k G s o = Ok (rank_global_tile t k G s o).
Proof.
  intros. mm. unfold rank_global_tile_c, rank_global_tile. ck. ck.
  pose proof (quot_le (t + o) k). ck. ck.
  apply i32_ok. rewrite rem_nonneg_mod by lia.
  pose proof (Z.mod_pos_bound (Z.quot (t + o) k + s) G). lia.
Qed.

(** Pieces of a non-negative number cut into blocks and grid rounds. *)
Lemma pieces : forall x k G, 0 <= x -> 0 < k -> 0 < G ->
  let b := Z.quot x k in let l := Z.quot b G in
  0 <= b <= x /\ 0 <= l <= b /\ 0 <= l * k <= x /\ 0 <= Z.rem x k < k /\ l * k + Z.rem x k <= x.
Proof.
  intros x k G Hx Hk HG b l.
  pose proof (quot_le x k Hx Hk). fold b in H.
  pose proof (quot_le b G ltac:(lia) HG). fold l in H0.
  unfold b in *. clearbody l. rewrite quot_nonneg_div in * by lia. rewrite rem_nonneg_mod by lia.
  destruct (div_mod_dec x k Hk) as [E R].
  repeat split; nia.
Qed.

Lemma local_tile_safe : forall t k G r s o, 0 <= t -> 0 < k -> 0 < G <= i32_max -> 0 <= s < G -> 0 <= o < k ->
  t + o + G <= i64_max -> k <= i64_max ->
  local_tile_from_global_tile_c t k G r s o = Ok (local_tile_from_global_tile t k G r s o).
Proof.
  intros. mm. unfold local_tile_from_global_tile_c, local_tile_from_global_tile.
  rewrite rank_safe by lia. cbn [bind].
  destruct (r =? rank_global_tile t k G s o); [|reflexivity].
  pose proof (pieces (t + o) k G ltac:(lia) ltac:(lia) ltac:(lia)) as (P1 & P2 & P3 & P4 & P5).
  do 6 ck. destruct (r =? s); ck; reflexivity.
Qed.

Lemma next_local_safe : forall t k G r s o, 0 <= t -> 0 < k -> 0 < G -> 2 * G - 1 <= i32_max ->
  0 <= r < G -> 0 <= s < G -> 0 <= o < k -> t + o + k <= i64_max ->
  next_local_tile_from_global_tile_c t k G r s o = Ok (next_local_tile_from_global_tile t k G r s o).
Proof.
  intros. mm. unfold next_local_tile_from_global_tile_c, next_local_tile_from_global_tile.
  pose proof (pieces (t + o) k G ltac:(lia) ltac:(lia) ltac:(lia)) as (P1 & P2 & P3 & P4 & P5).
  do 7 ck. cbv zeta.
  set (C := if r =? s then o else 0). assert (0 <= C < k) by (unfold C; destruct (r =? s); lia).
  destruct (Z.eqb_spec (Z.rem (r + G - s) G) (Z.rem (Z.quot (t + o) k) G)) as [E|E].
  - do 4 ck. reflexivity.
  - destruct (Z.ltb_spec (Z.rem (r + G - s) G) (Z.rem (Z.quot (t + o) k) G)).
    + assert (0 <= (Z.quot (Z.quot (t + o) k) G + 1) * k <= t + o + k) by lia.
      do 3 ck. reflexivity.
    + cbn [bind]. do 2 ck. reflexivity.
Qed.

Lemma global_tile_safe : forall l k G r s o, 0 <= l -> 0 < k -> 0 < G -> 2 * G - 1 <= i32_max ->
  0 <= r < G -> 0 <= s < G -> 0 <= o < k -> l + o <= i64_max ->
  0 <= global_tile_from_local_tile l k G r s o -> global_tile_from_local_tile l k G r s o + o <= i64_max ->
  global_tile_from_local_tile_c l k G r s o = Ok (global_tile_from_local_tile l k G r s o).
Proof.
  intros l k G r s o Hl Hk HG HG2 Hr Hs Ho Hlo Hn Hm. mm.
  unfold global_tile_from_local_tile_c, global_tile_from_local_tile in *.
  set (x := if r =? s then l + o else l) in *.
  assert (Hx : 0 <= x <= i64_max) by (unfold x; destruct (r =? s); lia).
  assert (E : (if r =? s then add64 l o else Ok l) = Ok x).
  { unfold x. destruct (r =? s); [ck|]; reflexivity. }
  rewrite E. cbn [bind]. clear E. clearbody x.
  do 3 ck.
  assert (0 <= Z.rem (r + G - s) G < G).
  { rewrite rem_nonneg_mod by lia. apply Z.mod_pos_bound. lia. }
  set (q := Z.rem (r + G - s) G) in *. clearbody q.
  pose proof (quot_le x k ltac:(lia) Hk).
  assert (0 <= Z.rem x k < k) by (rewrite rem_nonneg_mod by lia; apply Z.mod_pos_bound; lia).
  ck. set (b := Z.quot x k) in *. clearbody b. set (m := Z.rem x k) in *.
  assert (0 <= G * b) by nia. assert (G * b + q <= (G * b + q) * k) by nia.
  do 2 ck. ck. ck. fold m. do 2 ck. reflexivity.
Qed.

Lemma ceilDiv_safe : forall n d, 0 <= n -> 0 < d -> n + d <= i64_max -> ceilDiv_c n d = Ok (ceilDiv n d).
Proof. intros. mm. unfold ceilDiv_c, ceilDiv. do 3 ck. reflexivity. Qed.

(** Everything that describes the axis fits comfortably: twice a block and the grid
    extent beyond the matrix size is still an int64, twice the grid an int. *)
Definition fits64 (L : layout) : Prop :=
  l_size L + 2 * l_block L + l_grid L <= i64_max /\ 2 * l_grid L - 1 <= i32_max.

Section safe.
Context (r : Z) (L : layout) (a : axis).
Hypothesis W : wfp a.
Hypothesis Fit : ax_size a + 2 * ax_block a + ax_grid a <= i64_max.
Hypothesis FitG : 2 * ax_grid a - 1 <= i32_max.

Lemma tile_le_block : 0 < ax_tile a <= ax_block a /\ 0 < tiles_per_block a <= ax_block a.
Proof. destruct W. nia. Qed.
Lemma offs : 0 <= global_tile_offset a < tiles_per_block a /\ 0 <= global_tile_element_offset a < ax_tile a /\
  0 <= local_tile_element_offset a < ax_tile a.
Proof.
  pose proof (o_dec a W) as (O1 & O2 & O3). rewrite (gto_eq a W), (gteo_eq a W).
  unfold local_tile_element_offset. destruct (is_source_rank a); rewrite ?(gteo_eq a W); destruct W; lia.
Qed.

Ltac pre := mm; pose proof tile_le_block as [TB1 TB2]; pose proof offs as [OF1 [OF2 OF3]];
  pose proof (w_size a W); pose proof (w_grid a W); pose proof (w_rank a W); pose proof (w_src a W); pose proof (w_off a W).

Lemma tpb_safe : tiles_per_block_c a = Ok (tiles_per_block a).
Proof. pre. unfold tiles_per_block_c. rewrite div64_ok by lia. reflexivity. Qed.
Lemma gto_safe : global_tile_offset_c a = Ok (global_tile_offset a).
Proof. pre. unfold global_tile_offset_c. rewrite div64_ok by lia. reflexivity. Qed.
Lemma gteo_safe : global_tile_element_offset_c a = Ok (global_tile_element_offset a).
Proof. pre. unfold global_tile_element_offset_c. rewrite rem64_ok by lia. reflexivity. Qed.
Lemma lteo_safe : local_tile_element_offset_c a = Ok (local_tile_element_offset a).
Proof. unfold local_tile_element_offset_c, local_tile_element_offset. rewrite gteo_safe. destruct (is_source_rank a); reflexivity. Qed.

Lemma s_rank_tile : forall t, 0 <= t <= ax_size a + 1 -> ax_rank_global_tile_c a t = Ok (ax_rank_global_tile a t).
Proof.
  intros t Ht. pre. unfold ax_rank_global_tile_c. rewrite tpb_safe, gto_safe. cbn [bind]. apply rank_safe; lia.
Qed.
Lemma s_next : forall t, 0 <= t <= ax_size a + 1 ->
  ax_next_local_tile_from_global_tile_c a t = Ok (ax_next_local_tile_from_global_tile a t).
Proof.
  intros t Ht. pre. unfold ax_next_local_tile_from_global_tile_c. rewrite tpb_safe, gto_safe. cbn [bind].
  apply next_local_safe; lia.
Qed.
Lemma s_local : forall t, 0 <= t <= ax_size a + 1 ->
  ax_local_tile_from_global_tile_c a t = Ok (ax_local_tile_from_global_tile a t).
Proof.
  intros t Ht. pre. unfold ax_local_tile_from_global_tile_c. rewrite tpb_safe, gto_safe. cbn [bind].
  apply local_tile_safe; lia.
Qed.
Lemma s_gtile : forall e, 0 <= e <= ax_size a ->
  ax_global_tile_from_global_element_c a e = Ok (ax_global_tile_from_global_element a e).
Proof.
  intros e He. pre. unfold ax_global_tile_from_global_element_c. rewrite gteo_safe. cbn [bind].
  apply tile_from_element_safe; lia.
Qed.
Lemma s_gte : forall e, 0 <= e <= ax_size a ->
  ax_tile_element_from_global_element_c a e = Ok (ax_tile_element_from_global_element a e).
Proof.
  intros e He. pre. unfold ax_tile_element_from_global_element_c. rewrite gteo_safe. cbn [bind].
  apply tile_element_safe; lia.
Qed.

(** tiles are at most elements *)
Lemma nt_le : nt_spec a <= ax_size a.
Proof.
  pre. unfold nt_spec. destruct (ax_size a >? 0) eqn:E; [|lia].
  rewrite Z.gtb_ltb in E. apply Z.ltb_lt in E.
  unfold ceilDiv. rewrite quot_nonneg_div by lia.
  apply Z.lt_succ_r. apply Z.div_lt_upper_bound; [lia|]. nia.
Qed.

(** end of the last tile, in absolute positions *)
Lemma nt_mul : nt_spec a * ax_tile a <= ax_size a + global_tile_element_offset a + ax_tile a - 1.
Proof.
  pre. unfold nt_spec. destruct (ax_size a >? 0) eqn:E; [|lia].
  unfold ceilDiv. rewrite quot_nonneg_div by lia.
  pose proof (div_mod_dec (ax_size a + global_tile_element_offset a + ax_tile a - 1) (ax_tile a) ltac:(lia)) as [Q R]. lia.
Qed.

Lemma s_nr_tiles : ax_compute_global_nr_tiles_c a = Ok (ax_compute_global_nr_tiles a).
Proof.
  pre. unfold ax_compute_global_nr_tiles_c, ax_compute_global_nr_tiles.
  destruct (ax_size a >? 0); [|reflexivity].
  rewrite gteo_safe. cbn [bind]. rewrite add64_ok by lia. cbn [bind].
  rewrite ceilDiv_safe by lia. reflexivity.
Qed.

Section done.
Hypothesis WF : wf a.

Lemma s_gsize : forall t, 0 <= t < ax_nr_tiles a ->
  ax_global_tile_size_of_c a t = Ok (ax_global_tile_size_of a t).
Proof.
  intros t Ht. pre. unfold ax_global_tile_size_of_c, ax_global_tile_size_of.
  rewrite gteo_safe. cbn [bind]. rewrite (wf_nt a WF) in Ht. pose proof nt_mul.
  assert (0 <= t * ax_tile a <= nt_spec a * ax_tile a) by nia.
  destruct (t =? 0); [ck|ck; ck; ck]; reflexivity.
Qed.

Lemma ls_le : 0 <= ax_local_size a <= ax_size a.
Proof. pre. rewrite (wf_ls a WF). apply count_bounds. lia. Qed.
Lemma lnt_le : 0 <= ax_local_nr_tiles a <= ax_nr_tiles a.
Proof. rewrite (wf_lnt a WF). apply count_bounds. apply (wf_nt_nonneg a WF). Qed.

Lemma s_lsize : forall t, 0 <= t < ax_local_nr_tiles a ->
  ax_local_tile_size_of_c a t = Ok (ax_local_tile_size_of a t).
Proof.
  intros t Ht. pre. unfold ax_local_tile_size_of_c, ax_local_tile_size_of.
  rewrite lteo_safe. cbn [bind]. pose proof nt_mul. pose proof lnt_le. pose proof ls_le. rewrite (wf_nt a WF) in *.
  assert (0 <= t * ax_tile a <= nt_spec a * ax_tile a) by nia.
  destruct (t =? 0); [ck|ck; ck; ck]; reflexivity.
Qed.

Lemma s_gelem : forall t te, 0 <= t < ax_nr_tiles a -> 0 <= te < ax_tile a ->
  ax_global_element_c a t te = Ok (ax_global_element_from_global_tile_and_tile_element a t te).
Proof.
  intros t te Ht Hte. pre. unfold ax_global_element_c. rewrite gteo_safe. cbn [bind].
  rewrite (wf_nt a WF) in Ht. pose proof nt_mul.
  assert (0 <= t * ax_tile a <= (nt_spec a - 1) * ax_tile a) by nia.
  apply element_safe; lia.
Qed.
Lemma s_lelem : forall t te, 0 <= t < ax_local_nr_tiles a -> 0 <= te < ax_tile a ->
  ax_local_element_c a t te = Ok (ax_local_element_from_local_tile_and_tile_element a t te).
Proof.
  intros t te Ht Hte. pre. unfold ax_local_element_c. rewrite lteo_safe. cbn [bind].
  pose proof lnt_le. rewrite (wf_nt a WF) in *. pose proof nt_mul.
  assert (0 <= t * ax_tile a <= (nt_spec a - 1) * ax_tile a) by nia.
  apply element_safe; lia.
Qed.

Lemma s_global_of_local : forall t, 0 <= t < ax_local_nr_tiles a ->
  ax_global_tile_from_local_tile_c a t = Ok (ax_global_tile_from_local_tile a t).
Proof.
  intros t Ht. pre. unfold ax_global_tile_from_local_tile_c. rewrite tpb_safe, gto_safe. cbn [bind].
  pose proof (local_tile_range a WF t Ht) as LR. cbv zeta in LR.
  assert (0 <= ax_global_tile_from_local_tile a t < ax_nr_tiles a) by (destruct LR as (X & _); exact X).
  pose proof lnt_le. pose proof nt_le. rewrite (wf_nt a WF) in *.
  apply global_tile_safe; fold (ax_global_tile_from_local_tile a t); lia.
Qed.

Lemma s_ltile : forall e, 0 <= e <= ax_local_size a ->
  ax_local_tile_from_local_element_c a e = Ok (ax_local_tile_from_local_element a e).
Proof.
  intros e He. pre. pose proof ls_le. unfold ax_local_tile_from_local_element_c. rewrite lteo_safe. cbn [bind].
  apply tile_from_element_safe; lia.
Qed.
Lemma s_lte : forall e, 0 <= e <= ax_local_size a ->
  ax_tile_element_from_local_element_c a e = Ok (ax_tile_element_from_local_element a e).
Proof.
  intros e He. pre. pose proof ls_le. unfold ax_tile_element_from_local_element_c. rewrite lteo_safe. cbn [bind].
  apply tile_element_safe; lia.
Qed.
End done.

Lemma s_local_size : ax_nr_tiles a = nt_spec a ->
  ax_local_nr_tiles a = ax_next_local_tile_from_global_tile a (ax_nr_tiles a) ->
  ax_compute_local_size_c a = Ok (ax_compute_local_size a).
Proof.
  intros N1 N2. pre. pose proof nt_le. pose proof nt_mul. pose proof (nt_spec_nonneg a W).
  assert (LN : 0 <= ax_local_nr_tiles a <= ax_nr_tiles a).
  { rewrite N2, (next_local_spec a W) by lia. apply count_bounds. lia. }
  unfold ax_compute_local_size_c, ax_compute_local_size.
  destruct (Z.eqb_spec (ax_local_nr_tiles a) 0); [reflexivity|].
  rewrite N1 in *. assert (0 <= ax_local_nr_tiles a * ax_tile a <= nt_spec a * ax_tile a) by nia.
  ck. rewrite lteo_safe. cbn [bind]. ck. ck. rewrite s_rank_tile by lia. cbn [bind].
  destruct (ax_rank a =? ax_rank_global_tile a (nt_spec a - 1)); [|reflexivity].
  ck. rewrite gteo_safe. cbn [bind]. 
  assert (ax_tile a <= ax_local_nr_tiles a * ax_tile a) by nia.
  ck. ck. ck. reflexivity.
Qed.
End safe.

Lemma T_safe : forall r L a, models r L a -> fits64 L ->
  (forall e, 0 <= e <= l_size L ->
     ax_global_tile_from_global_element_c a e = Ok (ax_global_tile_from_global_element a e) /\
     ax_tile_element_from_global_element_c a e = Ok (ax_tile_element_from_global_element a e)) /\
  (forall e, 0 <= e < l_size L ->
     ax_rank_global_element_c a e = Ok (ax_rank_global_element a e) /\
     ax_local_element_from_global_element_c a e = Ok (ax_local_element_from_global_element a e)) /\
  (forall l, 0 <= l < ax_local_size a ->
     ax_local_tile_from_local_element_c a l = Ok (ax_local_tile_from_local_element a l) /\
     ax_tile_element_from_local_element_c a l = Ok (ax_tile_element_from_local_element a l) /\
     ax_global_element_from_local_element_c a l = Ok (ax_global_element_from_local_element a l)) /\
  (forall t, 0 <= t <= ax_nr_tiles a ->
     ax_rank_global_tile_c a t = Ok (ax_rank_global_tile a t) /\
     ax_local_tile_from_global_tile_c a t = Ok (ax_local_tile_from_global_tile a t) /\
     ax_next_local_tile_from_global_tile_c a t = Ok (ax_next_local_tile_from_global_tile a t)) /\
  (forall t te, 0 <= t < ax_nr_tiles a -> 0 <= te < ax_tile a ->
     ax_global_tile_size_of_c a t = Ok (ax_global_tile_size_of a t) /\
     ax_global_element_c a t te = Ok (ax_global_element_from_global_tile_and_tile_element a t te)) /\
  (forall l te, 0 <= l < ax_local_nr_tiles a -> 0 <= te < ax_tile a ->
     ax_global_tile_from_local_tile_c a l = Ok (ax_global_tile_from_local_tile a l) /\
     ax_local_tile_size_of_c a l = Ok (ax_local_tile_size_of a l) /\
     ax_local_element_c a l te = Ok (ax_local_element_from_local_tile_and_tile_element a l te)).
Proof.
  intros r L a M [F1 F2].
  pose proof (m_wf _ _ _ M) as WF. pose proof (w_p _ WF) as W.
  rewrite (ms _ _ _ M), (mb _ _ _ M), (mg _ _ _ M) in F1. rewrite (mg _ _ _ M) in F2. rewrite (ms _ _ _ M).
  pose proof (nt_le a W) as NL. rewrite <- (wf_nt a WF) in NL.
  pose proof (ls_le a W WF) as LL. pose proof (lnt_le a WF) as LNL.
  pose proof (wf_nt_nonneg a WF) as NN.
  repeat apply conj.
  - intros e He. split; [apply s_gtile|apply s_gte]; assumption || lia.
  - intros e He.
    destruct (T_elem_to_tile _ _ _ M e ltac:(rewrite (ms _ _ _ M); lia)) as (T1 & T2 & T3 & T4).
    split.
    + unfold ax_rank_global_element_c. rewrite s_gtile by (assumption || lia). cbn [bind].
      apply s_rank_tile; assumption || lia.
    + unfold ax_local_element_from_global_element_c. rewrite s_gtile by (assumption || lia). cbn [bind].
      rewrite s_local by (assumption || lia). cbn [bind].
      unfold ax_local_element_from_global_element, ax_local_tile_from_global_element.
      set (lt := ax_local_tile_from_global_tile a (ax_global_tile_from_global_element a e)).
      destruct (Z.ltb_spec lt 0); [reflexivity|].
      rewrite s_gte by (assumption || lia). cbn [bind].
      pose proof (T_tile_sizes _ _ _ M _ T2) as [TS _]. rewrite (mt _ _ _ M) in TS.
      apply s_lelem; try assumption; try lia.
      split; [assumption|].
      unfold lt in *. rewrite (T_local_tile _ _ _ M) in * by lia.
      destruct (Z.eqb_spec (tile_owner L (ax_global_tile_from_global_element a e)) r) as [E|E]; [|lia].
      rewrite (T_local_nr_tiles _ _ _ M). apply count_lt; [lia|]. unfold tile_owned. rewrite E. apply Z.eqb_refl.
  - intros l Hl.
    destruct (T_local_elem_to_tile _ _ _ M l Hl) as (T1 & T2 & T3).
    assert (A1 : ax_local_tile_from_local_element_c a l = Ok (ax_local_tile_from_local_element a l)) by (apply s_ltile; assumption || lia).
    assert (A2 : ax_tile_element_from_local_element_c a l = Ok (ax_tile_element_from_local_element a l)) by (apply s_lte; assumption || lia).
    split; [exact A1|split; [exact A2|]].
    unfold ax_global_element_from_local_element_c. rewrite A1. cbn [bind].
    rewrite s_global_of_local by (assumption || lia). cbn [bind]. rewrite A2. cbn [bind].
    destruct (T_global_tile _ _ _ M _ T1) as (G1 & _).
    pose proof (T_tile_sizes _ _ _ M _ G1) as [TS _]. rewrite (mt _ _ _ M) in TS.
    rewrite (T_local_tile_size _ _ _ M _ T1) in T2.
    apply s_gelem; try assumption; lia.
  - intros t Ht. split; [|split]; [apply s_rank_tile|apply s_local|apply s_next]; assumption || lia.
  - intros t te Ht Hte. split; [apply s_gsize|apply s_gelem]; assumption.
  - intros l te Hl Hte. split; [|split]; [apply s_global_of_local|apply s_lsize|apply s_lelem]; assumption.
Qed.

(** The fully checked constructor agrees with the unchecked one. *)
Lemma finish_safe : forall a, wfp a -> ax_size a + 2 * ax_block a + ax_grid a <= i64_max -> 2 * ax_grid a - 1 <= i32_max ->
  (b <- ax_compute_global_nr_tiles_c a ;; ax_compute_local_c b) =
  Ok (ax_compute_local_nr_tiles_and_local_size (ax_compute_global_nr_tiles a)).
Proof.
  intros a W F1 F2. rewrite s_nr_tiles by assumption. cbn [bind].
  set (b := ax_compute_global_nr_tiles a).
  assert (Wb : wfp b) by (destruct W; split; assumption).
  assert (NB : ax_nr_tiles b = nt_spec b) by reflexivity.
  pose proof (nt_le b Wb) as NL. pose proof (nt_spec_nonneg b Wb).
  unfold ax_compute_local_c. rewrite s_next by (assumption || lia). cbn [bind].
  unfold ax_compute_local_nr_tiles_and_local_size.
  set (c := set_local_nr_tiles b (ax_next_local_tile_from_global_tile b (ax_nr_tiles b))).
  assert (Wc : wfp c) by (destruct W; split; assumption).
  rewrite s_local_size; try assumption; reflexivity.
Qed.

Theorem ctor_safe : forall size block tile grid rank src off,
  pre2 size block tile grid rank src ->
  (forall rc, fits64 (arg_layout size block tile grid src off rc)) ->
  (forall rc, 0 <= sel rc off <= i64_max /\ sel rc src + sel rc off / sel rc block <= i32_max) ->
  exists d, dist_ctor_c size block tile grid rank src off = Ok d /\
            dist_ctor size block tile grid rank src off = Ok d.
Proof.
  intros size block tile grid rank src off P F O.
  destruct (ctor_accepts size block tile grid rank src off P) as (d & E & B).
  { intros rc. specialize (F rc). specialize (O rc). destruct F as [_ F]. cbn [arg_layout l_grid] in F.
    specialize (P rc). destruct P as (P1 & P2 & P3 & P4 & P5 & P6 & P7). lia. }
  { intros rc. specialize (O rc). lia. }
  exists d. split; [|exact E].
  unfold dist_ctor_c. unfold dist_ctor in E.
  do 7 (apply bind_ok in E as (? & ?A & E); match goal with H : dlaf_assert _ = Ok _ |- _ => rewrite H; clear H; cbn [bind] end).
  apply bind_ok in E as (dn & An & E). rewrite An. cbn [bind].
  apply normalize_ok in An. subst dn. injection E as <-.
  assert (X : forall rc, let a0 := ax_normalize (get rc (mk2 size block tile grid rank src off)) in
     (b <- ax_compute_global_nr_tiles_c a0 ;; ax_compute_local_c b) =
     Ok (ax_compute_local_nr_tiles_and_local_size (ax_compute_global_nr_tiles a0))).
  { intros rc a0. specialize (F rc). specialize (O rc). specialize (P rc).
    destruct P as (P1 & P2 & P3 & P4 & P5 & P6 & P7). destruct F as [F1 F2]. cbn [arg_layout l_size l_block l_grid] in F1, F2.
    destruct (normalize_models (get rc (mk2 size block tile grid rank src off))) as (M1 & M2 & M3);
      try (destruct rc; cbn in *; assumption || lia).
    { unfold blocks_fit_int. destruct rc; cbn in *; lia. }
    apply finish_safe; [exact M1| |]; destruct rc; cbn -[Z.mul Z.add] in *; lia. }
  pose proof (X Row) as XR. pose proof (X Col) as XC. cbv zeta in XR, XC. cbn [get] in XR, XC.
  apply bind_ok in XR as (br & R1 & R2). apply bind_ok in XC as (bc & C1 & C2).
  unfold on_both_c. cbn [on_both d_row d_col]. rewrite R1. cbn [bind]. rewrite C1. cbn [bind d_row d_col].
  rewrite R2. cbn [bind]. rewrite C2. reflexivity.
Qed.
