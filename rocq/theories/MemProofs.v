(** * Storage set-up: closed forms of the loops. *)
From Coq Require Import ZArith Lia Bool List.
From Verif Require Import CInt Loop DistModel DistSpec DivLemmas DistProofs DistProofs2 DistBuilt DistThms DistCtor
  IndexModel MemModel MemAxis.
Import ListNotations.
Open Scope Z_scope.

(** column-major list of the values T i j *)
Definition grid_list {A} (T : Z -> Z -> A) (nr nc : Z) : list A :=
  flat_map (fun j => map (fun i => T i j) (zrange 0 nr)) (zrange 0 nc).

Lemma grid_length : forall A (T : Z -> Z -> A) nr nc, 0 <= nr -> 0 <= nc ->
  Z.of_nat (length (grid_list T nr nc)) = nr * nc.
Proof.
  intros A T nr nc Hr Hc. unfold grid_list.
  rewrite <- (Z2Nat.id nc Hc). generalize (Z.to_nat nc). clear nc Hc.
  induction n as [|n IH].
  - rewrite (zrange_nil 0 (Z.of_nat 0)) by lia. cbn. lia.
  - replace (Z.of_nat (S n)) with (Z.of_nat n + 1) by lia. rewrite zrange_snoc by lia.
    rewrite flat_map_app, app_length, Nat2Z.inj_add, IH. cbn. rewrite app_nil_r, map_length.
    pose proof (zrange_length 0 nr). lia.
Qed.

Lemma grid_snoc : forall A (T : Z -> Z -> A) nr nc, 0 <= nc ->
  grid_list T nr (nc + 1) = grid_list T nr nc ++ map (fun i => T i nc) (zrange 0 nr).
Proof.
  intros. unfold grid_list. rewrite zrange_snoc, flat_map_app by lia. cbn. rewrite app_nil_r. reflexivity.
Qed.

Lemma grid_nth : forall A (T : Z -> Z -> A) nr nc i j, 0 <= i < nr -> 0 <= j < nc ->
  nth_error (grid_list T nr nc) (Z.to_nat (i + nr * j)) = Some (T i j).
Proof.
  intros A T nr nc i j Hi Hj. unfold grid_list.
  rewrite (zrange_app 0 j nc), flat_map_app by lia.
  fold (grid_list T nr j).
  pose proof (grid_length _ T nr j ltac:(lia) ltac:(lia)) as GL.
  rewrite nth_error_app2 by nia.
  replace (Z.to_nat (i + nr * j) - length (grid_list T nr j))%nat with (Z.to_nat i) by nia.
  rewrite (zrange_cons j nc) by lia. cbn [flat_map].
  rewrite nth_error_app1.
  - apply (map_nth_error (fun i => T i j)). rewrite zrange_nth by lia. reflexivity.
  - rewrite map_length. pose proof (zrange_length 0 nr). lia.
Qed.

(** two nested loops that append *)
Lemma nested_append : forall A B (f : Z -> Z -> A * list B -> res (A * list B)) (H : Z -> Z -> A) (T : Z -> Z -> B) nr nc ts,
  0 <= nr -> 0 <= nc ->
  (forall i j ts, 0 <= i < nr -> 0 <= j < nc -> f j i (H i j, ts) = Ok (H (i + 1) j, ts ++ [T i j])) ->
  (forall j, 0 <= j < nc -> H nr j = H 0 (j + 1)) ->
  for_ 0 nc (fun j => for_ 0 nr (f j)) (H 0 0, ts) = Ok (H 0 nc, ts ++ grid_list T nr nc).
Proof.
  intros A B f H T nr nc ts Hr Hc Hf Hn.
  destruct (for_inv _ (fun j s => s = (H 0 j, ts ++ grid_list T nr j)) 0 nc
              (fun j => for_ 0 nr (f j)) (H 0 0, ts)) as (s' & E & I).
  - exact Hc.
  - unfold grid_list. rewrite (zrange_nil 0 0) by lia. cbn. rewrite app_nil_r. reflexivity.
  - intros j s Hj ->.
    destruct (for_inv _ (fun i s => s = (H i j, (ts ++ grid_list T nr j) ++ map (fun i => T i j) (zrange 0 i)))
                0 nr (f j) (H 0 j, ts ++ grid_list T nr j)) as (s' & E & I).
    + exact Hr.
    + rewrite zrange_nil by lia. cbn. rewrite app_nil_r. reflexivity.
    + intros i s Hi ->. rewrite Hf by assumption. eexists. split; [reflexivity|]. f_equal.
      rewrite zrange_snoc, map_app by lia. cbn. rewrite <- app_assoc. reflexivity.
    + exists s'. split; [exact E|]. rewrite I, Hn by lia. rewrite grid_snoc by lia. rewrite app_assoc. reflexivity.
  - rewrite E, I. reflexivity.
Qed.

(** ** leading dimensions *)
Definition ldv (D : device) (sz : Z) (rows : Z) (ld : ld_spec) : Z :=
  match compute_ld D sz rows ld with Ok v => v | _ => 0 end.
(** a given leading dimension is large enough for [rows] *)
Definition ld_fits (rows : Z) (ld : ld_spec) : Prop :=
  match ld with LdValue v => Z.max 1 rows <= v | _ => True end.

Lemma alignment_pos : forall D sz, 0 < sz -> 1 <= ld_alignment D sz.
Proof. intros [] sz H; cbn; lia. Qed.

Lemma compute_ld_ok : forall D sz rows ld, 0 < sz -> ld_fits rows ld ->
  compute_ld D sz rows ld = Ok (ldv D sz rows ld) /\ Z.max 1 rows <= ldv D sz rows ld.
Proof.
  intros D sz rows ld Hs Hf. unfold ldv, compute_ld.
  pose proof (alignment_pos D sz Hs) as A.
  set (v := match ld with Compact => _ | Padded => _ | LdValue v => v end).
  assert (V : Z.max 1 rows <= v).
  { unfold v. destruct ld as [| |x]; [lia| |exact Hf].
    destruct (Z.ltb_spec (Z.max 1 rows) (ld_alignment D sz)); [lia|].
    unfold ceilDiv. rewrite Z.quot_div_nonneg by lia.
    pose proof (Z.mul_succ_div_gt (Z.max 1 rows + ld_alignment D sz - 1) (ld_alignment D sz) ltac:(lia)). nia. }
  rewrite (proj2 (Z.leb_le _ _) V). cbn. auto.
Qed.

Lemma compute_ld_bad : forall D sz rows v, v < Z.max 1 rows -> compute_ld D sz rows (LdValue v) = Abort.
Proof.
  intros D sz rows v H. unfold compute_ld. rewrite (proj2 (Z.leb_gt _ _)) by lia. reflexivity.
Qed.

Lemma ld_fits_le : forall r r' ld, r <= r' -> ld_fits r' ld -> ld_fits r ld.
Proof. intros r r' [] H; cbn; lia. Qed.

(** ** sub-views and tiles that fit *)
Lemma mview_sub_ok : forall v off n, 0 < n -> off + n <= mv_size v ->
  mview_sub v off n = Ok (MView (mv_chunk v) (off + mv_off v) n).
Proof.
  intros v off n Hn H. unfold mview_sub. rewrite (proj2 (Z.leb_le _ _) H), (proj2 (Z.ltb_lt _ _) Hn). reflexivity.
Qed.
Lemma tile_data_ok : forall m n v ld, 0 < m -> 0 < n -> m <= ld -> m + ld * (n - 1) <= mv_size v ->
  tile_data_make (m, n) v ld = Ok (TileData (m, n) v ld).
Proof.
  intros m n v ld Hm Hn Hl H. unfold tile_data_make, isValid2, isEmpty2, linearSize. cbn [fst snd].
  rewrite (proj2 (Z.leb_le 0 m)), (proj2 (Z.leb_le 0 n)) by lia.
  rewrite (proj2 (Z.leb_le (Z.max 1 m) ld)) by lia.
  unfold isEmpty2. cbn [fst snd]. rewrite (proj2 (Z.eqb_neq m 0)), (proj2 (Z.eqb_neq n 0)) by lia.
  cbn [orb andb]. rewrite (proj2 (Z.leb_le _ _) H). reflexivity.
Qed.

Definition blk (x : axis) (i : Z) : Z := (i + local_tile_offset x) / tiles_per_block x.

Lemma blk_spec : forall r L x (M : models r L x) (NE : 0 < ax_local_size x) b i,
  0 <= b < ax_local_nr_blocks x -> btile x b <= i < btile x (b + 1) -> blk x i = b.
Proof.
  intros r L x M NE b i Hb Hi. pose proof (lto_range _ _ _ M) as LT.
  pose proof (nblk_spec _ _ _ M) as NB.
  set (k := tiles_per_block x) in *. set (o := local_tile_offset x) in *.
  pose proof (Z.mul_succ_div_gt (ax_local_nr_tiles x + o + k - 1) k ltac:(lia)) as Q. rewrite <- NB in Q.
  assert (b * k - o <= i).
  { unfold btile in Hi. fold k o in Hi. destruct (Z.eqb_spec b 0); [nia|]. destruct (Z.eqb_spec b (ax_local_nr_blocks x)); lia. }
  assert (i < (b + 1) * k - o).
  { unfold btile in Hi. fold k o in Hi. destruct (Z.eqb_spec (b + 1) 0); [lia|].
    destruct (Z.eqb_spec (b + 1) (ax_local_nr_blocks x)) as [E|E]; [|lia]. rewrite E. nia. }
  unfold blk. fold k o. apply (div_eq _ k b (i + o - b * k)); nia.
Qed.

Section setup.
Context (rank : pair_Z) (Ls : coord -> layout) (d : distribution).
Hypothesis B : built rank Ls d.
Hypothesis NER : 0 < ax_local_size (d_row d).
Hypothesis NEC : 0 < ax_local_size (d_col d).
Context (D : device) (sz : Z) (Hsz : 0 < sz) (ld : ld_spec).
Let ar := d_row d.
Let ac := d_col d.
Let MR : models (fst rank) (Ls Row) ar := built_models _ _ _ B Row.
Let MC : models (snd rank) (Ls Col) ac := built_models _ _ _ B Col.
Let nr := ax_local_nr_tiles ar.
Let nc := ax_local_nr_tiles ac.

Lemma nr_pos : 0 < nr. Proof. apply (lnt_pos _ _ _ MR NER). Qed.
Lemma nc_pos : 0 < nc. Proof. apply (lnt_pos _ _ _ MC NEC). Qed.
Lemma rsz : forall i, 0 <= i < nr -> 0 < ax_local_tile_size_of ar i <= ax_tile ar. Proof. apply (lsize_pos _ _ _ MR). Qed.
Lemma csz : forall i, 0 <= i < nc -> 0 < ax_local_tile_size_of ac i <= ax_tile ac. Proof. apply (lsize_pos _ _ _ MC). Qed.
Lemma rstep : forall i, 0 <= i < nr -> lb ar (i + 1) = lb ar i + ax_local_tile_size_of ar i. Proof. apply (lb_step _ _ _ MR). Qed.
Lemma cstep : forall i, 0 <= i < nc -> lb ac (i + 1) = lb ac i + ax_local_tile_size_of ac i. Proof. apply (lb_step _ _ _ MC). Qed.
Lemma rb : forall i, 0 <= i <= nr -> 0 <= lb ar i <= ax_local_size ar. Proof. apply (lb_bounds _ _ _ MR). Qed.
Lemma cb : forall i, 0 <= i <= nc -> 0 <= lb ac i <= ax_local_size ac. Proof. apply (lb_bounds _ _ _ MC). Qed.

(** ** column-major: tile (i, j) of a view of the whole local matrix in chunk c *)
Definition T_col (c : nat) (l : Z) (i j : Z) : tile_data :=
  let m := ax_local_tile_size_of ar i in let n := ax_local_tile_size_of ac j in
  TileData (m, n) (MView (Some c) (lb ar i + lb ac j * l) (m + l * (n - 1))) l.

Lemma mem_size_eq : forall l, min_mem_size (CML d l) = ax_local_size ar + l * (ax_local_size ac - 1).
Proof.
  intros l. unfold min_mem_size, cml_mem_size. cbn [cml_dist cml_ld]. fold ar ac.
  rewrite (proj2 (Z.eqb_neq (ax_local_size ar) 0)), (proj2 (Z.eqb_neq (ax_local_size ac) 0)) by (fold ar in NER; fold ac in NEC; lia).
  reflexivity.
Qed.

Lemma emplace_ok : forall l c i j h ts, ax_local_size ar <= l -> 0 <= i < nr -> 0 <= j < nc ->
  emplace_col_major (CML d l) (MView (Some c) 0 (min_mem_size (CML d l))) l i j (h, ts) = Ok (h, ts ++ [T_col c l i j]).
Proof.
  intros l c i j h ts Hl Hi Hj. unfold emplace_col_major, tile_offset, min_tile_mem_size, cml_tile_size_of, cml_mem_size,
    tile_size_of_local, both. cbn [cml_dist cml_ld fst snd]. fold ar ac.
  pose proof (rsz i Hi) as RS. pose proof (csz j Hj) as CS.
  rewrite (lb_elem _ _ _ MR i 0), (lb_elem _ _ _ MC j 0) by (assumption || lia).
  rewrite !Z.add_0_r.
  rewrite (proj2 (Z.eqb_neq (ax_local_tile_size_of ar i) 0)), (proj2 (Z.eqb_neq (ax_local_tile_size_of ac j) 0)) by lia.
  cbn [orb]. pose proof (rstep i Hi). pose proof (cstep j Hj).
  pose proof (rb (i + 1) ltac:(lia)). pose proof (cb (j + 1) ltac:(lia)).
  pose proof (rb i ltac:(lia)). pose proof (cb j ltac:(lia)).
  rewrite mview_sub_ok; cbn [mv_size mv_chunk mv_off].
  - cbn [bind]. rewrite tile_data_ok; cbn [mv_size]; try lia.
    cbn [bind]. rewrite Z.add_0_r. reflexivity.
  - nia.
  - rewrite mem_size_eq. nia.
Qed.

Lemma set_up_col_major_ok : forall h, ld_fits (ax_local_size ar) ld -> ax_offset ar = 0 -> ax_offset ac = 0 ->
  let l := ldv D sz (ax_local_size ar) ld in
  set_up_col_major D sz d ld (h, []) =
  Ok (h ++ [Chunk (ax_local_size ar + l * (ax_local_size ac - 1)) true], grid_list (T_col (length h) l) nr nc).
Proof.
  intros h Hf O1 O2 l. unfold set_up_col_major. fold ar ac.
  destruct (compute_ld_ok D sz (ax_local_size ar) ld Hsz Hf) as [E Hl]. rewrite E. cbn [bind]. fold l in Hl |- *.
  unfold col_major_make, local_size2, offset2, isEmpty2, eqb2. cbn [fst snd]. fold ar ac. rewrite O1, O2.
  rewrite (proj2 (Z.eqb_neq (ax_local_size ar) 0)), (proj2 (Z.eqb_neq (ax_local_size ac) 0)) by (fold ar in NER; fold ac in NEC; lia).
  cbn [orb]. rewrite (proj2 (Z.leb_le (ax_local_size ar) l)) by lia. cbn [dlaf_assert bind Z.eqb andb].
  unfold mview_alloc. cbn [fst snd]. rewrite mem_size_eq.
  assert (P : 0 < ax_local_size ar + l * (ax_local_size ac - 1)) by (fold ar in NER; fold ac in NEC; nia).
  rewrite (proj2 (Z.ltb_lt _ _) P), (proj2 (Z.leb_le 0 (ax_local_size ar + l * (ax_local_size ac - 1)))) by lia.
  cbn [dlaf_assert bind fst snd].
  pose proof nr_pos. pose proof nc_pos.
  set (H1 := h ++ [Chunk (ax_local_size ar + l * (ax_local_size ac - 1)) true]).
  rewrite <- mem_size_eq.
  rewrite (nested_append _ _ _ (fun _ _ => H1) (T_col (length h) l) nr nc []).
  - reflexivity.
  - lia.
  - lia.
  - intros i j ts Hi Hj. apply emplace_ok; (assumption || lia).
  - reflexivity.
Qed.

(** ** tiles: each tile in its own chunk *)
Definition T_tile (base : nat) (i j : Z) : tile_data :=
  let m := ax_local_tile_size_of ar i in let n := ax_local_tile_size_of ac j in
  let l := ldv D sz m ld in
  TileData (m, n) (MView (Some (base + Z.to_nat (i + nr * j))%nat) 0 (l * n)) l.
Definition C_tile (i j : Z) : chunk :=
  Chunk (ldv D sz (ax_local_tile_size_of ar i) ld * ax_local_tile_size_of ac j) true.

Lemma set_up_tiles_ok : forall h, (forall i, 0 <= i < nr -> ld_fits (ax_local_tile_size_of ar i) ld) ->
  set_up_tiles D sz d ld (h, []) = Ok (h ++ grid_list C_tile nr nc, grid_list (T_tile (length h)) nr nc).
Proof.
  intros h Hf. pose proof nr_pos as NR. pose proof nc_pos as NC.
  unfold set_up_tiles. fold ar ac nr nc.
  set (H := fun i j => h ++ grid_list C_tile nr j ++ map (fun i => C_tile i j) (zrange 0 i)).
  assert (H00 : H 0 0 = h).
  { unfold H, grid_list. rewrite !(zrange_nil 0 0) by lia. cbn. apply app_nil_r. }
  assert (HE : H 0 nc = h ++ grid_list C_tile nr nc).
  { unfold H. rewrite (zrange_nil 0 0) by lia. cbn. rewrite app_nil_r. reflexivity. }
  rewrite <- HE. rewrite <- H00 at 1.
  rewrite (nested_append _ _ _ H (T_tile (length h)) nr nc []).
  - reflexivity.
  - lia.
  - lia.
  - intros i j ts Hi Hj. unfold tile_size_of_local, both. cbn [fst snd]. fold ar ac.
    destruct (compute_ld_ok D sz (ax_local_tile_size_of ar i) ld Hsz (Hf i Hi)) as [E Hl]. rewrite E. cbn [bind].
    pose proof (rsz i Hi) as RS. pose proof (csz j Hj) as CS.
    set (l := ldv D sz (ax_local_tile_size_of ar i) ld) in *.
    unfold mview_alloc. rewrite (proj2 (Z.ltb_lt 0 (l * ax_local_tile_size_of ac j))) by nia.
    rewrite (proj2 (Z.leb_le 0 (l * ax_local_tile_size_of ac j))) by nia. cbn [dlaf_assert bind fst snd].
    rewrite tile_data_ok; cbn [mv_size]; [|lia|lia|lia|nia]. cbn [bind].
    f_equal. f_equal.
    + unfold H. rewrite zrange_snoc, map_app by lia. cbn. rewrite <- !app_assoc. reflexivity.
    + unfold T_tile. do 2 f_equal. fold l. do 2 f_equal. f_equal. unfold H.
      rewrite !app_length, map_length.
      pose proof (grid_length _ C_tile nr j ltac:(lia) ltac:(lia)). pose proof (zrange_length 0 i). nia.
  - intros j Hj. unfold H. rewrite (zrange_nil 0 0) by lia. rewrite grid_snoc by lia. cbn. rewrite ?app_nil_r, <- ?app_assoc. reflexivity.
Qed.

(** ** blocks *)
Let hr := ax_single_tile_per_block ar.
Let hc := ax_single_tile_per_block ac.
Let nbr := ax_local_nr_blocks ar.
Let nbc := ax_local_nr_blocks ac.
Definition bld (b : Z) : Z := ldv D sz (ax_local_tile_size_of hr b) ld.
Definition T_block (base : nat) (i j : Z) : tile_data :=
  let m := ax_local_tile_size_of ar i in let n := ax_local_tile_size_of ac j in
  let bi := blk ar i in let bj := blk ac j in
  TileData (m, n)
    (MView (Some (base + Z.to_nat (bi + nbr * bj))%nat)
           ((lb ar i - lb hr bi) + bld bi * (lb ac j - lb hc bj)) ((n - 1) * bld bi + m)) (bld bi).
Definition C_block (bi bj : Z) : chunk := Chunk (bld bi * ax_local_tile_size_of hc bj) true.
Definition V_block (base : nat) (bj bi : Z) : mview :=
  MView (Some (base + Z.to_nat (bi + nbr * bj))%nat) 0 (bld bi * ax_local_tile_size_of hc bj).

Hypothesis Hf : forall b, 0 <= b < nbr -> ld_fits (ax_local_tile_size_of hr b) ld.

Lemma bld_ok : forall b, 0 <= b < nbr ->
  compute_ld D sz (ax_local_tile_size_of hr b) ld = Ok (bld b) /\ ax_local_tile_size_of hr b <= bld b /\ 1 <= bld b.
Proof. intros b Hb. destruct (compute_ld_ok D sz _ ld Hsz (Hf b Hb)). unfold bld. split; [assumption|lia]. Qed.

Lemma nbr_pos : 0 < nbr. Proof. apply (nblk_pos _ _ _ MR NER). Qed.
Lemma nbc_pos : 0 < nbc. Proof. apply (nblk_pos _ _ _ MC NEC). Qed.

(** the tiles of one block in one tile column *)
Lemma block_tile_loop_ok : forall fuel base bi bj j s,
  0 <= bi < nbr -> 0 <= bj < nbc -> btile ac bj <= j < btile ac (bj + 1) ->
  nth_error (bs_views s) (Z.to_nat bi) = Some (V_block base bj bi) ->
  bs_i s = btile ar bi -> bs_iel s = 0 -> bs_jel s = lb ac j - lb hc bj ->
  (Z.to_nat nr <= fuel)%nat ->
  exists iel, block_tile_loop fuel d (ax_local_tile_size_of hr bi) (bld bi) (ax_local_tile_size_of ac j) bi s =
    Ok (BState (bs_heap s) (bs_tiles s ++ map (fun i => T_block base i j) (zrange (btile ar bi) (btile ar (bi + 1))))
               (bs_views s) (bs_j s) (bs_jel s) (btile ar (bi + 1)) iel).
Proof.
  intros fuel base bi bj j s Hbi Hbj Hj Hv Hi0 Hiel0 Hjel Hfuel.
  destruct (block_step _ _ _ MR NER bi Hbi) as (S1 & S2 & S3). fold hr in S1.
  destruct (block_step _ _ _ MC NEC bj Hbj) as (C1 & C2 & C3). fold hc in C1.
  fold ar in NER. fold ac in NEC.
  assert (Jr : 0 <= j < nc) by (unfold nc; lia).
  pose proof (csz j Jr) as CS. pose proof (cstep j Jr) as CST.
  destruct (bld_ok bi Hbi) as (_ & BL & BL1).
  set (I := fun t : bstate => exists i, btile ar bi <= i <= btile ar (bi + 1) /\
     t = BState (bs_heap s) (bs_tiles s ++ map (fun i => T_block base i j) (zrange (btile ar bi) i))
                (bs_views s) (bs_j s) (bs_jel s) i (lb ar i - lb ar (btile ar bi))).
  unfold block_tile_loop.
  match goal with |- context[while_ fuel ?c ?b s] => destruct (while_inv _ I (fun t => nr - bs_i t) fuel c b s) as (s' & E & HI & HC) end.
  - exists (btile ar bi). split; [lia|]. rewrite zrange_nil by lia. cbn. rewrite app_nil_r.
    destruct s; cbn in *. subst. f_equal. lia.
  - lia.
  - intros t (i & Hi & ->) Hc. cbn [bs_iel bs_i bs_views bs_jel] in *. apply Z.ltb_lt in Hc.
    assert (i < btile ar (bi + 1)).
    { destruct (Z.eq_dec i (btile ar (bi + 1))) as [E|]; [|lia]. exfalso. rewrite E in Hc. lia. }
    assert (Ir : 0 <= i < nr) by (unfold nr; lia).
    pose proof (rsz i Ir) as RS. pose proof (rstep i Ir) as RST.
    fold ar. rewrite Hv. unfold V_block at 1.
    assert (LBI : lb ar (btile ar bi) = lb hr bi) by (apply (btile_lb _ _ _ MR NER); lia).
    assert (LBJ : lb ac (btile ac bj) = lb hc bj) by (apply (btile_lb _ _ _ MC NEC); lia).
    pose proof (lb_mono_le _ _ _ MR (btile ar bi) i ltac:(lia) ltac:(lia) ltac:(lia)) as Q1.
    pose proof (lb_mono_le _ _ _ MR (i + 1) (btile ar (bi + 1)) ltac:(lia) ltac:(lia) ltac:(lia)) as Q2.
    pose proof (lb_mono_le _ _ _ MC (btile ac bj) j ltac:(lia) ltac:(lia) ltac:(lia)) as Q3.
    pose proof (lb_mono_le _ _ _ MC (j + 1) (btile ac (bj + 1)) ltac:(lia) ltac:(lia) ltac:(lia)) as Q4.
    rewrite mview_sub_ok; cbn [mv_size mv_chunk mv_off]; [|nia|rewrite Hjel; nia].
    cbn [bind]. rewrite tile_data_ok; cbn [mv_size]; [|lia|lia|lia|nia]. cbn [bind].
    eexists. split; [reflexivity|]. split; [|cbn [bs_i]; lia].
    exists (i + 1). split; [lia|]. cbn [bs_heap bs_tiles bs_views bs_j bs_jel].
    f_equal; [|lia]. rewrite zrange_snoc, map_app, app_assoc by lia. cbn [map]. do 2 f_equal.
    unfold T_block. rewrite (blk_spec _ _ _ MR NER bi i Hbi) by lia. rewrite (blk_spec _ _ _ MC NEC bj j Hbj) by lia.
    rewrite Hjel, LBI, Z.add_0_r. reflexivity.
  - destruct HI as (i & Hi & ->). cbn [bs_iel] in HC. apply Z.ltb_ge in HC.
    assert (Ei : i = btile ar (bi + 1)).
    { destruct (Z.eq_dec i (btile ar (bi + 1))); [assumption|]. exfalso.
      pose proof (lb_mono _ _ _ MR i (btile ar (bi + 1)) ltac:(lia) ltac:(lia) ltac:(lia)). lia. }
    subst i. eexists. exact E.
Qed.

(** one tile column: all block rows *)
Lemma block_row_loop_ok : forall fuel base bj j s,
  0 <= bj < nbc -> btile ac bj <= j < btile ac (bj + 1) ->
  bs_jel s = lb ac j - lb hc bj ->
  (Z.to_nat nr <= fuel)%nat ->
  (j = btile ac bj -> bs_views s = [] /\ Z.of_nat (length (bs_heap s)) = Z.of_nat base + nbr * bj) ->
  (j <> btile ac bj -> bs_views s = map (V_block base bj) (zrange 0 nbr)) ->
  exists i iel, block_row_loop fuel D sz d (Dist hr hc) ld (ax_local_tile_size_of hc bj) (ax_local_tile_size_of ac j) s =
    Ok (BState (if j =? btile ac bj then bs_heap s ++ map (fun bi => C_block bi bj) (zrange 0 nbr) else bs_heap s)
               (bs_tiles s ++ map (fun i => T_block base i j) (zrange 0 nr))
               (map (V_block base bj) (zrange 0 nbr)) (bs_j s) (bs_jel s) i iel).
Proof.
  intros fuel base bj j s Hbj Hj Hjel Hfuel V0 V1.
  pose proof nbr_pos as NBR. fold ar in NER. fold ac in NEC.
  assert (LBJ : lb ac (btile ac bj) = lb hc bj) by (apply (btile_lb _ _ _ MC NEC); unfold nbc in *; lia).
  destruct (block_step _ _ _ MC NEC bj Hbj) as (C1 & C2 & C3). fold hc in C1.
  assert (JEL : (bs_jel s =? 0) = (j =? btile ac bj)).
  { rewrite Hjel. destruct (Z.eqb_spec j (btile ac bj)) as [E|E].
    - subst j. rewrite LBJ. apply Z.eqb_eq. lia.
    - apply Z.eqb_neq. pose proof (lb_mono _ _ _ MC (btile ac bj) j ltac:(lia) ltac:(lia) ltac:(lia)). lia. }
  unfold block_row_loop. cbn [d_row]. unfold hr at 1; rewrite (nblk_h _ _ _ MR). fold nbr.
  set (first := j =? btile ac bj).
  set (I := fun (b : Z) (t : bstate) => exists iel,
     t = BState (if first then bs_heap s ++ map (fun bi => C_block bi bj) (zrange 0 b) else bs_heap s)
                (bs_tiles s ++ map (fun i => T_block base i j) (zrange 0 (btile ar b)))
                (map (V_block base bj) (zrange 0 (if first then b else nbr))) (bs_j s) (bs_jel s) (btile ar b) iel).
  match goal with |- context[for_ 0 nbr ?b ?t] => destruct (for_inv _ I 0 nbr b t) as (s' & E & HI) end.
  - lia.
  - exists 0. rewrite btile_0. rewrite (zrange_nil 0 0) by lia. cbn [map]. rewrite !app_nil_r.
    unfold first. destruct (Z.eqb_spec j (btile ac bj)) as [Ej|Ej].
    + destruct (V0 Ej) as [-> _]. reflexivity.
    + rewrite (V1 Ej). reflexivity.
  - intros b t Hb (iel & ->). destruct (bld_ok b Hb) as (LE & BL & BL1). rewrite LE. cbn [bind bs_jel].
    rewrite JEL. fold first.
    set (views' := map (V_block base bj) (zrange 0 (if first then b + 1 else nbr))).
    set (heap' := if first then bs_heap s ++ map (fun bi => C_block bi bj) (zrange 0 (b + 1)) else bs_heap s).
    assert (STEP : (if first then
        vh <- mview_alloc (if first then bs_heap s ++ map (fun bi => C_block bi bj) (zrange 0 b) else bs_heap s)
                          (bld b * ax_local_tile_size_of hc bj) ;;
        Ok (BState (snd vh) (bs_tiles s ++ map (fun i => T_block base i j) (zrange 0 (btile ar b)))
              (map (V_block base bj) (zrange 0 (if first then b else nbr)) ++ [fst vh]) (bs_j s) (bs_jel s) (btile ar b) iel)
      else Ok (BState (if first then bs_heap s ++ map (fun bi => C_block bi bj) (zrange 0 b) else bs_heap s)
                (bs_tiles s ++ map (fun i => T_block base i j) (zrange 0 (btile ar b)))
                (map (V_block base bj) (zrange 0 (if first then b else nbr))) (bs_j s) (bs_jel s) (btile ar b) iel))
      = Ok (BState heap' (bs_tiles s ++ map (fun i => T_block base i j) (zrange 0 (btile ar b))) views' (bs_j s) (bs_jel s) (btile ar b) iel)).
    { unfold views', heap'. unfold first.
      destruct (Z.eqb_spec j (btile ac bj)) as [Ej|Ej]; [|reflexivity].
      destruct (V0 Ej) as [_ HL]. pose proof (block_size_pos _ _ _ MC NEC bj Hbj) as BP. fold hc in BP.
      unfold mview_alloc. rewrite (proj2 (Z.ltb_lt 0 (bld b * ax_local_tile_size_of hc bj))) by nia.
      rewrite (proj2 (Z.leb_le 0 (bld b * ax_local_tile_size_of hc bj))) by nia. cbn [dlaf_assert bind fst snd].
      rewrite (zrange_snoc 0 b), !map_app by lia. cbn [map]. rewrite app_assoc. do 2 f_equal.
      unfold V_block. do 4 f_equal. rewrite app_length, map_length. pose proof (zrange_length 0 b). nia. }
    cbn [bs_heap bs_tiles bs_views bs_j bs_i bs_iel] in *. rewrite STEP. cbn [bind bs_heap bs_tiles bs_views bs_j bs_jel bs_i].
    match goal with |- context[block_tile_loop fuel d _ _ _ b ?st] =>
      destruct (block_tile_loop_ok fuel base b bj j st) as (iel' & E); cbn [bs_views bs_i bs_iel bs_jel]; try assumption; try reflexivity end.
    + unfold views'. rewrite (map_nth_error _ _ _ (d := b)); [reflexivity|].
      rewrite zrange_nth; [f_equal; lia|]. destruct first; lia.
    + rewrite E. eexists. split; [reflexivity|]. exists iel'. cbn [bs_heap bs_tiles bs_views bs_j bs_jel].
      destruct (block_step _ _ _ MR NER b Hb) as (_ & S2 & _).
      unfold heap', views'. f_equal.
      rewrite <- app_assoc. f_equal. rewrite <- map_app. f_equal. symmetry. apply zrange_app. lia.
  - destruct HI as (iel & HI). rewrite E, HI. exists (btile ar nbr), iel.
    unfold nbr at 2. rewrite (btile_end _ _ _ MR NER). fold nr. unfold first.
    destruct (j =? btile ac bj); reflexivity.
Qed.

Lemma set_up_blocks_ok : forall fuel h, (Z.to_nat nr <= fuel)%nat -> (Z.to_nat nc <= fuel)%nat ->
  set_up_blocks fuel D sz d ld (h, []) =
  Ok (h ++ grid_list C_block nbr nbc, grid_list (T_block (length h)) nr nc).
Proof.
  intros fuel h F1 F2. pose proof nbr_pos as NBR. pose proof nbc_pos as NBC. fold ar in NER. fold ac in NEC.
  unfold set_up_blocks. unfold create_single_tile_per_block_distribution, on_both. fold ar ac hr hc. cbn [d_row d_col].
  unfold hr at 1, hc at 1. rewrite (nblk_h _ _ _ MR), (nblk_h _ _ _ MC).
  unfold eqb2. cbn [fst snd]. rewrite !Z.eqb_refl. cbn [andb dlaf_assert bind].
  unfold hc at 1. rewrite (nblk_h _ _ _ MC). fold nbr nbc.
  set (I := fun (b : Z) (t : bstate) => exists i jel iel,
     t = BState (h ++ grid_list C_block nbr b) (grid_list (T_block (length h)) nr (btile ac b)) [] (btile ac b) jel i iel).
  match goal with |- context[for_ 0 nbc ?b ?t] => destruct (for_inv _ I 0 nbc b t) as (s' & E & HI) end.
  - lia.
  - exists 0, 0, 0. unfold grid_list. rewrite btile_0, !(zrange_nil 0 0) by lia. cbn. rewrite app_nil_r. reflexivity.
  - intros bj t Hbj (i0 & jel0 & iel0 & ->).
    destruct (block_step _ _ _ MC NEC bj Hbj) as (C1 & C2 & C3). fold hc in C1.
    assert (LBJ : lb ac (btile ac bj) = lb hc bj) by (apply (btile_lb _ _ _ MC NEC); unfold nbc in *; lia).
    set (J := fun t : bstate => exists j i iel, btile ac bj <= j <= btile ac (bj + 1) /\
      t = BState (h ++ grid_list C_block nbr bj ++ (if j =? btile ac bj then [] else map (fun bi => C_block bi bj) (zrange 0 nbr)))
            (grid_list (T_block (length h)) nr j)
            (if j =? btile ac bj then [] else map (V_block (length h) bj) (zrange 0 nbr)) j (lb ac j - lb hc bj) i iel).
    cbn [bs_heap bs_tiles bs_views bs_j bs_i bs_iel].
    match goal with |- context[while_ fuel ?c ?b ?s0] => destruct (while_inv _ J (fun t => nc - bs_j t) fuel c b s0) as (s' & E & HJ & HC) end.
    + exists (btile ac bj), i0, iel0. split; [lia|]. rewrite Z.eqb_refl, app_nil_r. f_equal. lia.
    + cbn [bs_j]. lia.
    + intros t (j & i & iel & Hj & ->) Hc. cbn [bs_jel] in Hc. apply Z.ltb_lt in Hc.
      assert (Hj' : j < btile ac (bj + 1)).
      { destruct (Z.eq_dec j (btile ac (bj + 1))) as [Ej|]; [|lia]. exfalso. rewrite Ej in Hc. lia. }
      cbn [bs_j]. fold ac. 
      match goal with |- context[block_row_loop fuel D sz d ?hd ld ?a1 ?a2 ?st] =>
        destruct (block_row_loop_ok fuel (length h) bj j st) as (i' & iel' & E) end; cbn [bs_jel bs_views bs_heap]; try lia.
      { intros Ej. rewrite Ej, Z.eqb_refl. split; [reflexivity|].
        rewrite app_nil_r, app_length, Nat2Z.inj_add, grid_length by lia. reflexivity. }
      { intros Ej. rewrite (proj2 (Z.eqb_neq _ _) Ej). reflexivity. }
      rewrite E. cbn [bind bs_heap bs_tiles bs_views bs_j bs_jel bs_i bs_iel].
      eexists. split; [reflexivity|]. split.
      * exists (j + 1), i', iel'. split; [lia|].
        rewrite (proj2 (Z.eqb_neq (j + 1) (btile ac bj))) by lia.
        assert (Jr : 0 <= j < nc) by (unfold nc; lia).
        f_equal.
        -- destruct (Z.eqb_spec j (btile ac bj)); [rewrite app_nil_r, <- app_assoc|]; reflexivity.
        -- rewrite grid_snoc by lia. reflexivity.
        -- rewrite (cstep j Jr). lia.
      * cbn [bs_j]. unfold nc. lia.
    + rewrite E. cbn [bind]. eexists. split; [reflexivity|].
      destruct HJ as (j & i & iel & Hj & ->). cbn [bs_jel] in HC. apply Z.ltb_ge in HC.
      assert (Ej : j = btile ac (bj + 1)).
      { destruct (Z.eq_dec j (btile ac (bj + 1))); [assumption|]. exfalso.
        pose proof (lb_mono _ _ _ MC j (btile ac (bj + 1)) ltac:(lia) ltac:(lia) ltac:(lia)). lia. }
      subst j. cbn [bs_heap bs_tiles bs_j bs_jel bs_i bs_iel].
      rewrite (proj2 (Z.eqb_neq (btile ac (bj + 1)) (btile ac bj))) by lia.
      exists i, (lb ac (btile ac (bj + 1)) - lb hc bj), iel. f_equal.
      rewrite grid_snoc by lia. reflexivity.
  - destruct HI as (i & jel & iel & ->). fold ar ac hr hc in E. rewrite E. cbn [bind bs_heap bs_tiles].
    unfold nbc at 2. rewrite (btile_end _ _ _ MC NEC). reflexivity.
Qed.
End setup.
