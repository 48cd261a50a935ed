(** * C36: band size and 1D block size selection *)
From Coq Require Import ZArith Lia Bool Znumtheory.
From Verif Require Import CInt BandSizeModel.
Open Scope Z_scope.

(** What the caller relies on: a divisor of [nb]; the smallest one not below the minimum when the
    minimum is at most [nb]; [nb] itself otherwise. *)
Definition is_band_size (b_min nb b : Z) : Prop :=
  1 <= b /\ (b | nb) /\
  (b_min <= nb -> b_min <= b /\ forall d, (d | nb) -> b_min <= d -> b <= d) /\
  (nb < b_min -> b = nb).

Lemma quot_dvd : forall nb d, 0 < nb -> 0 < d -> (d | nb) -> Z.quot nb d * d = nb.
Proof.
  intros nb d Hn Hd [q ->]. rewrite Z.quot_mul by lia. reflexivity.
Qed.

Lemma div_small_le : forall nb d k, 0 < nb -> 0 < d -> 0 < k -> (d | nb) -> k <= d -> Z.quot nb d <= Z.quot nb k.
Proof.
  intros nb d k Hn Hd Hk [q ->] Hkd. rewrite Z.quot_mul by lia.
  assert (0 < q) by nia.
  rewrite Z.quot_div_nonneg by nia. apply Z.div_le_lower_bound; nia.
Qed.

Lemma band_loop_ok : forall n nb div,
  1 <= nb <= i64_max -> 1 <= div <= nb \/ n = 0%nat -> (n = Z.to_nat (div - 1)) ->
  exists b, band_loop n nb div = Ok b /\ 1 <= b /\ (b | nb) /\
    (exists q, 1 <= q /\ b * q = nb /\ (q <= div \/ q = 1) /\
      forall q', (q' | nb) -> 1 <= q' <= div -> q' <= q).
Proof.
  induction n as [|n IH]; intros nb div Hnb Hdiv Hn.
  - cbn. exists nb. repeat split; try lia. { apply Z.divide_refl. }
    exists 1. repeat split; lia.
  - assert (D : 1 < div <= nb) by lia. clear Hdiv.
    cbn [band_loop]. unfold rem64. destruct (div =? 0) eqn:E0; [lia|].
    assert (Q : 1 <= Z.quot nb div <= nb).
    { rewrite Z.quot_div_nonneg by lia. split; [apply Z.div_le_lower_bound; lia | apply Z.div_le_upper_bound; nia]. }
    assert (F : in_i64 (Z.quot nb div) = true).
    { unfold in_i64, i64_min in *. apply andb_true_iff. split; apply Z.leb_le; lia. }
    rewrite F. cbn [bind].
    destruct (Z.rem nb div =? 0) eqn:R.
    + unfold div64, i64. rewrite E0, F. exists (Z.quot nb div).
      apply Z.eqb_eq in R. apply Z.rem_divide in R; [|lia].
      pose proof (quot_dvd nb div ltac:(lia) ltac:(lia) R) as M.
      repeat split; try lia. { exists div. lia. }
      exists div. repeat split; lia.
    + unfold sub64, i64.
      assert (F2 : in_i64 (div - 1) = true).
      { unfold in_i64, i64_min in *. apply andb_true_iff. split; apply Z.leb_le; lia. }
      rewrite F2. cbn [bind].
      destruct (IH nb (div - 1)) as (b & E & B1 & B2 & q & Q1 & Q2 & Q3 & Q4); try lia.
      exists b. repeat split; auto. exists q. repeat split; try lia.
      intros q' Hq' Hr. destruct (Z.eq_dec q' div) as [-> | N].
      * exfalso. apply Z.rem_divide in Hq'; lia.
      * apply Q4; auto. lia.
Qed.

Theorem C36_band_size : forall b_min nb,
  2 <= b_min <= i64_max -> 1 <= nb <= i64_max ->
  exists b, get_band_size b_min nb = Ok b /\ is_band_size b_min nb b.
Proof.
  intros bm nb Hb Hn. unfold get_band_size.
  replace (1 <=? nb) with true by (symmetry; apply Z.leb_le; lia).
  replace (2 <=? bm) with true by (symmetry; apply Z.leb_le; lia).
  cbn [dlaf_assert bind].
  assert (Q : 0 <= Z.quot nb bm <= nb).
  { rewrite Z.quot_div_nonneg by lia. split; [apply Z.div_pos; lia | apply Z.div_le_upper_bound; nia]. }
  unfold div64. destruct (bm =? 0) eqn:E0; [lia|]. unfold i64.
  replace (in_i64 (Z.quot nb bm)) with true
    by (symmetry; unfold in_i64, i64_min in *; apply andb_true_iff; split; apply Z.leb_le; lia).
  cbn [bind].
  destruct (band_loop_ok (Z.to_nat (Z.quot nb bm - 1)) nb (Z.quot nb bm)) as (b & E & B1 & B2 & q & Q1 & Q2 & Q3 & Q4);
    try lia.
  exists b. split; [exact E|]. repeat split; try assumption.
  - destruct Q3 as [Q3 | ->]; [|lia].
    rewrite Z.quot_div_nonneg in Q3 by lia.
    assert (bm * q <= nb) by (pose proof (Z.mul_div_le nb bm ltac:(lia)); nia). nia.
  - intros d Hd Hle. destruct Hd as [q' Hq'].
    assert (0 < q') by nia.
    assert (q' <= q).
    { apply Q4. { exists d. lia. }
      split; [lia|]. rewrite Z.quot_div_nonneg by lia. apply Z.div_le_lower_bound; nia. }
    nia.
  - intros Hlt. rewrite Z.quot_small in * by lia. destruct Q3 as [Q3 | ->]; lia.
Qed.

(** Arguments outside the documented range are rejected. *)
Theorem C36_band_size_rejects : forall b_min nb,
  nb < 1 \/ b_min < 2 -> get_band_size b_min nb = Abort.
Proof.
  intros bm nb H. unfold get_band_size.
  destruct (1 <=? nb) eqn:E1; [|reflexivity]. destruct (2 <=? bm) eqn:E2; [|reflexivity].
  apply Z.leb_le in E1, E2. lia.
Qed.

(** The 1D block size, when the base is at least the tile size, is the largest multiple of the tile size
    not above the base. *)
Theorem C36_1d_block_size : forall nb_base nb,
  1 <= nb <= nb_base -> nb_base <= i64_max ->
  exists b, get_1d_block_size nb_base nb = Ok b /\
    (nb | b) /\ nb <= b <= nb_base /\ forall m, (nb | m) -> m <= nb_base -> m <= b.
Proof.
  intros base nb H Hm. unfold get_1d_block_size.
  replace (1 <=? nb) with true by (symmetry; apply Z.leb_le; lia).
  replace (1 <=? base) with true by (symmetry; apply Z.leb_le; lia).
  cbn [dlaf_assert bind]. unfold div64, i64. destruct (nb =? 0) eqn:E0; [lia|].
  rewrite Z.quot_div_nonneg by lia.
  assert (Q : 1 <= base / nb <= base).
  { split; [apply Z.div_le_lower_bound; lia | apply Z.div_le_upper_bound; nia]. }
  assert (M : base / nb * nb <= base) by (pose proof (Z.mul_div_le base nb ltac:(lia)); nia).
  replace (in_i64 (base / nb)) with true
    by (symmetry; unfold in_i64, i64_min in *; apply andb_true_iff; split; apply Z.leb_le; lia).
  cbn [bind]. unfold mul64, i64.
  replace (in_i64 (base / nb * nb)) with true
    by (symmetry; unfold in_i64, i64_min in *; apply andb_true_iff; split; apply Z.leb_le; nia).
  cbn [bind]. rewrite Z.max_r by nia. eexists. split; [reflexivity|].
  repeat split; try nia. { exists (base / nb). reflexivity. }
  intros m [k ->] Hk. assert (k <= base / nb) by (apply Z.div_le_lower_bound; lia). nia.
Qed.

Theorem C36_1d_block_size_rejects : forall nb_base nb,
  nb < 1 \/ nb_base < 1 -> get_1d_block_size nb_base nb = Abort.
Proof.
  intros bm nb H. unfold get_1d_block_size.
  destruct (1 <=? nb) eqn:E1; [|reflexivity]. destruct (1 <=? bm) eqn:E2; [|reflexivity].
  apply Z.leb_le in E1, E2. lia.
Qed.

(** With the base at least the tile size, every tile [k] of a matrix of [size] rows ([n] tiles of size
    [nb]) is copied to exactly one of the [nblocks] blocks of the 1D distribution. *)
Theorem C36_every_tile_has_one_block : forall nb_base nb size n k,
  1 <= nb <= nb_base -> nb_base <= i64_max ->
  (forall i, 0 <= i < n <-> 0 <= i /\ i * nb < size) -> 0 <= k < n ->
  exists b tpb, get_1d_block_size nb_base nb = Ok b /\ tiles_per_block nb_base nb = Ok tpb /\
    exists! blk, (0 <= blk /\ blk * b < size) /\ copied_to_block tpb n blk k = true.
Proof.
  intros base nb size n k H Hm Hn Hk.
  destruct (C36_1d_block_size base nb H Hm) as (b & E & [t ->] & B & _).
  exists (t * nb), t. assert (1 <= t) by nia. split; [exact E|]. split.
  - unfold tiles_per_block. rewrite E. cbn [bind]. unfold div64, i64. destruct (nb =? 0) eqn:E0; [lia|].
    rewrite Z.quot_mul by lia.
    replace (in_i64 t) with true; [reflexivity|].
    symmetry; unfold in_i64, i64_min in *; apply andb_true_iff; split; apply Z.leb_le; nia.
  - unfold copied_to_block. apply Hn in Hk as Hk2.
    pose proof (Z.div_mod k t ltac:(lia)) as DM. pose proof (Z.mod_pos_bound k t ltac:(lia)).
    exists (k / t). split.
    + split; [split; [apply Z.div_pos; lia | nia]|]. apply andb_true_iff. rewrite Z.leb_le, Z.ltb_lt. nia.
    + intros x [Hx C]. apply andb_true_iff in C. rewrite Z.leb_le, Z.ltb_lt in C.
      symmetry. apply Z.div_unique with (r := k - x * t); [left; nia | nia].
Qed.

(** Refuted: when the configured base is smaller than the tile size the block size is 1, which is not a
    multiple of the tile size; there are then 0 tiles per block and the distributed band-to-tridiagonal
    reduction copies no tile of the input at all. *)
Theorem C36_small_base_refuted :
  (forall nb_base nb, 1 <= nb_base < nb -> nb <= i64_max ->
     get_1d_block_size nb_base nb = Ok 1 /\ tiles_per_block nb_base nb = Ok 0) /\
  (forall n blk k, copied_to_block 0 n blk k = false).
Proof.
  split.
  - intros base nb H Hm. unfold tiles_per_block, get_1d_block_size.
    replace (1 <=? nb) with true by (symmetry; apply Z.leb_le; lia).
    replace (1 <=? base) with true by (symmetry; apply Z.leb_le; lia).
    cbn [dlaf_assert bind]. unfold div64, i64. destruct (nb =? 0) eqn:E0; [lia|].
    rewrite Z.quot_small by lia. cbn -[Z.quot]. rewrite Z.quot_small by lia. auto.
  - intros. unfold copied_to_block. apply andb_false_iff. rewrite Z.leb_gt, Z.ltb_ge. lia.
Qed.

Example C36_example_band : get_band_size 100 512 = Ok 128 /\ get_band_size 100 300 = Ok 100 /\
  get_band_size 100 97 = Ok 97 /\ get_band_size 100 257 = Ok 257 /\ get_band_size 2 15 = Ok 3.
Proof. vm_compute. auto. Qed.
Example C36_example_1d : get_1d_block_size 8192 300 = Ok 8100 /\ tiles_per_block 8192 300 = Ok 27 /\
  get_1d_block_size 8192 10000 = Ok 1 /\ tiles_per_block 8192 10000 = Ok 0.
Proof. vm_compute. auto. Qed.

(** ** Assumptions *)
Print Assumptions C36_band_size.
Print Assumptions C36_band_size_rejects.
Print Assumptions C36_1d_block_size.
Print Assumptions C36_1d_block_size_rejects.
Print Assumptions C36_every_tile_has_one_block.
Print Assumptions C36_small_base_refuted.
