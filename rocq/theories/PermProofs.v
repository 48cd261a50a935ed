(** * Proofs about permutations. *)
From Coq Require Import ZArith Lia List Bool Permutation Sorted.
From Verif Require Import CInt Loop DistModel DistSpec DistProofs DistBuilt DistThms DistGrid TridiagModel TridiagProofs PermModel.
Import ListNotations.
Local Open Scope Z_scope.

(** ** Local distributions *)
Definition loc_axis (n nb : Z) : axis :=
  let t := if n >? 0 then ceilDiv n nb else 0 in Axis 0 n n t t nb nb 0 1 0.
Lemma ctor_local_ok : forall nr nc br bc, 0 <= nr -> 0 <= nc -> 0 < br -> 0 < bc ->
  dist_ctor_local (nr, nc) (br, bc) (0, 0) = Ok (Dist (loc_axis nr br) (loc_axis nc bc)).
Proof.
  intros nr nc br bc H1 H2 H3 H4. unfold dist_ctor_local, isValid2, isEmpty2. cbn [fst snd].
  destruct (Z.leb_spec 0 nr); [|lia]. destruct (Z.leb_spec 0 nc); [|lia]. destruct (Z.eqb_spec br 0); [lia|]. destruct (Z.eqb_spec bc 0); [lia|].
  cbn [andb orb negb dlaf_assert bind]. unfold normalize_source_rank_and_offset.
  assert (X : forall n b, 0 < b -> normalize_check (Axis 0 0 n 0 0 b b 0 1 0) = Ok tt).
  { intros n1 b Lb. unfold normalize_check. cbn [ax_offset ax_block ax_src ax_grid]. unfold div64, rem32. destruct (Z.eqb_spec b 0); [lia|].
    rewrite Z.quot_0_l by lia. reflexivity. }
  cbn [d_row d_col]. rewrite !X by lia. cbn [bind].
  assert (Y : forall n b, 0 < b -> ax_normalize (Axis 0 0 n 0 0 b b 0 1 0) = Axis 0 0 n 0 0 b b 0 1 0).
  { intros n1 b Lb. unfold ax_normalize, set_offset_src. cbn [ax_offset ax_block ax_src ax_grid ax_size ax_local_size ax_nr_tiles ax_local_nr_tiles ax_tile ax_rank].
    rewrite Z.rem_0_l, Z.quot_0_l by lia. reflexivity. }
  unfold on_both. cbn [d_row d_col]. rewrite !Y by lia. unfold normalize_asserts. cbn [d_row d_col ax_offset ax_block].
  destruct (Z.ltb_spec 0 br); [|lia]. destruct (Z.ltb_spec 0 bc); [|lia]. cbn [dlaf_assert bind].
  f_equal. unfold ax_compute_global_nr_tiles, set_local_nr_tiles, set_nr_tiles, set_size, global_tile_element_offset, loc_axis.
  cbn [d_row d_col ax_offset ax_block ax_src ax_grid ax_size ax_local_size ax_nr_tiles ax_local_nr_tiles ax_tile ax_rank].
  rewrite !Z.rem_0_l by lia. rewrite !Z.add_0_r. reflexivity.
Qed.
Section loc.
Variables (n nb : Z).
Hypothesis (Hn : 0 <= n) (Hb : 0 < nb).
Lemma loc_off : local_tile_element_offset (loc_axis n nb) = 0.
Proof. unfold local_tile_element_offset, global_tile_element_offset, loc_axis, is_source_rank. cbn. reflexivity. Qed.
Lemma loc_tile : forall x, 0 <= x -> ax_local_tile_from_local_element (loc_axis n nb) x = x / nb.
Proof using Hb. intros x Lx. unfold ax_local_tile_from_local_element, tile_from_element. rewrite loc_off, Z.add_0_r. cbn [loc_axis ax_tile]. apply Z.quot_div_nonneg; lia. Qed.
Lemma loc_el : forall x, 0 <= x -> ax_tile_element_from_local_element (loc_axis n nb) x = x mod nb.
Proof using Hb. intros x Lx. unfold ax_tile_element_from_local_element, tile_element_from_element. rewrite loc_off, Z.add_0_r. cbn. rewrite Z.rem_mod_nonneg by lia. destruct (x <? nb); lia. Qed.
Lemma loc_elem : forall t e, ax_local_element_from_local_tile_and_tile_element (loc_axis n nb) t e = t * nb + e.
Proof using Hb. intros t e. unfold ax_local_element_from_local_tile_and_tile_element, element_from_tile_and_tile_element. rewrite loc_off. cbn. destruct (t >? 0); lia. Qed.
Lemma loc_size : forall t, ax_local_tile_size_of (loc_axis n nb) t = Z.min nb (n - t * nb).
Proof using Hb. intros t. unfold ax_local_tile_size_of. rewrite loc_off. cbn. destruct (Z.eqb_spec t 0) as [->|]; lia. Qed.
Lemma loc_nt : forall t, 0 <= t < ax_local_nr_tiles (loc_axis n nb) <-> 0 <= t /\ t * nb < n.
Proof using Hn Hb.
  intros t. cbn. destruct (Z.gtb_spec n 0) as [L|L]; [|nia]. unfold ceilDiv. rewrite Z.quot_div_nonneg by lia.
  pose proof (Z.div_mod (n + nb - 1) nb ltac:(lia)). pose proof (Z.mod_pos_bound (n + nb - 1) nb Hb). split; nia.
Qed.
Lemma loc_nt_pos : 0 <= ax_local_nr_tiles (loc_axis n nb).
Proof using Hn Hb. cbn. destruct (Z.gtb_spec n 0) as [L|L]; [|lia]. unfold ceilDiv. apply Z.quot_pos; lia. Qed.
End loc.
Lemma mk2d_along : forall C x y, along C (mk2d C x y) = x /\ along (other C) (mk2d C x y) = y.
Proof. intros [|] x y; split; reflexivity. Qed.
Lemma mk2d_eta : forall C p, mk2d C (along C p) (along (other C) p) = p.
Proof. intros [|] [x y]; reflexivity. Qed.

(** ** The kernel *)
Section kernel.
Context {T : Type}.
Variables (C : coord) (nv nw bv bw : Z).
Hypothesis (Hv : 0 <= nv) (Hw : 0 <= nw) (Hbv : 0 < bv) (Hbw : 0 < bw).
(** a local distribution with nv elements along C (tiles of bv), nw along the other coordinate *)
Definition lsub : distribution := match C with Row => Dist (loc_axis nv bv) (loc_axis nw bw) | Col => Dist (loc_axis nw bw) (loc_axis nv bv) end.
Lemma get_C : get C lsub = loc_axis nv bv. Proof. unfold lsub. destruct C; reflexivity. Qed.
Lemma get_O : get (other C) lsub = loc_axis nw bw. Proof. unfold lsub. destruct C; reflexivity. Qed.
Lemma lin_unique : forall N a b a' b', 0 <= a < N -> 0 <= a' < N -> a + b * N = a' + b' * N -> a = a' /\ b = b'.
Proof. intros N a b a' b' H1 H2 E. assert (b = b'); [|subst; lia]. destruct (Z.lt_total b b') as [L|[L|L]]; [exfalso|exact L|exfalso]; nia. Qed.
Definition lin (x y : Z) : Z := local_tile_linear_index lsub (mk2d C x y).
Lemma lin_inj : forall x y x' y', 0 <= x -> x * bv < nv -> 0 <= y -> y * bw < nw -> 0 <= x' -> x' * bv < nv -> 0 <= y' -> y' * bw < nw ->
  lin x y = lin x' y' -> x = x' /\ y = y'.
Proof using Hv Hw Hbv Hbw.
  intros x y x' y' H1 H2 H3 H4 H5 H6 H7 H8 E. unfold lin, lsub, local_tile_linear_index, mk2d in E.
  pose proof (proj2 (loc_nt nv bv Hv Hbv x) ltac:(lia)). pose proof (proj2 (loc_nt nv bv Hv Hbv x') ltac:(lia)).
  pose proof (proj2 (loc_nt nw bw Hw Hbw y) ltac:(lia)). pose proof (proj2 (loc_nt nw bw Hw Hbw y') ltac:(lia)).
  destruct C; cbn [fst snd d_row] in E; apply lin_unique in E; try assumption; tauto.
Qed.
Lemma lin_div : forall x y, 0 <= x -> x * bv < nv -> 0 <= y -> y * bw < nw ->
  (lin x y mod ax_local_nr_tiles (d_row lsub), lin x y / ax_local_nr_tiles (d_row lsub)) = mk2d C x y.
Proof using Hv Hw Hbv Hbw.
  intros x y H1 H2 H3 H4. unfold lin, lsub, local_tile_linear_index, mk2d.
  pose proof (proj2 (loc_nt nv bv Hv Hbv x) ltac:(lia)). pose proof (proj2 (loc_nt nw bw Hw Hbw y) ltac:(lia)).
  destruct C; cbn [fst snd d_row]; rewrite Z.mod_add, Z.div_add by lia; rewrite Z.mod_small, Z.div_small by lia; reflexivity.
Qed.
(** the element (x, y) of a vector of tiles *)
Definition acc (v : tvec (T := T)) (x y : Z) : T := v (lin (x / bv) (y / bw)) (mk2d C (x mod bv) (y mod bw)).
Lemma acc_range : forall n b x, 0 < b -> 0 <= x < n -> 0 <= x / b /\ x / b * b < n /\ 0 <= x mod b < b.
Proof. intros n b x Lb Lx. pose proof (Z.div_mod x b ltac:(lia)). pose proof (Z.mod_pos_bound x b Lb). repeat split; try lia; nia. Qed.

Lemma lacpy_at : forall n ei tin eo tout x y, 0 <= n ->
  lacpy (T := T) (mk2d C 1 n) (mk2d C ei 0) tin (mk2d C eo 0) tout (mk2d C x y) =
  if (x =? eo) && (0 <=? y) && (y <? n) then tin (mk2d C ei y) else tout (mk2d C x y).
Proof.
  intros n ei tin eo tout x y Ln. unfold lacpy, mk2d. destruct C; cbn [fst snd]; rewrite Z.sub_0_r; cbn [Z.add].
  - destruct (Z.eqb_spec x eo) as [->|N].
    + replace (eo - eo) with 0 by lia. cbn [Z.leb Z.ltb Z.compare andb]. rewrite Z.add_0_r. destruct (0 <=? y), (y <? n); reflexivity.
    + destruct (Z.leb_spec 0 (x - eo)), (Z.ltb_spec (x - eo) 1); cbn [andb]; try reflexivity; lia.
  - destruct (Z.eqb_spec x eo) as [->|N].
    + replace (eo - eo) with 0 by lia. rewrite Z.add_0_r. destruct (0 <=? y), (y <? n); reflexivity.
    + destruct (Z.leb_spec 0 (x - eo)), (Z.ltb_spec (x - eo) 1); destruct (0 <=? y), (y <? n); cbn [andb]; try reflexivity; lia.
Qed.

Lemma apply_at : forall i perm ocs inn out, 0 <= i < nv -> 0 <= perm i < nv ->
  (forall x y, 0 <= x -> x * bv < nv -> 0 <= y -> y * bw < nw -> ocs (lin x y) = Z.min bw (nw - y * bw)) ->
  forall x y, 0 <= x < nv -> 0 <= y < nw ->
  acc (apply_permutation C i lsub perm ocs inn out) x y = if x =? i then acc inn (perm i) y else acc out x y.
Proof using Hv Hw Hbv Hbw.
  intros i perm ocs inn out Li Lp OCS x y Lx Ly.
  unfold apply_permutation. rewrite get_C, get_O. rewrite !loc_tile, !loc_el by lia.
  pose proof (acc_range nv bv i Hbv Li) as (I1 & I2 & I3). pose proof (acc_range nv bv (perm i) Hbv Lp) as (P1 & P2 & P3).
  pose proof (acc_range nv bv x Hbv Lx) as (X1 & X2 & X3). pose proof (acc_range nw bw y Hbw Ly) as (Y1 & Y2 & Y3).
  set (f := fun o k => _).
  assert (G : forall m, 0 <= m -> m <= ax_local_nr_tiles (loc_axis nw bw) ->
     acc (fold_left f (zrange 0 m) out) x y = if (x =? i) && (y / bw <? m) then acc inn (perm i) y else acc out x y).
  { intros m L0. pattern m. apply natlike_ind; [| |exact L0].
    - intros _. rewrite zrange_nil by lia. cbn [fold_left]. destruct (Z.ltb_spec (y / bw) 0); [lia|]. rewrite andb_false_r. reflexivity.
    - intros k Lk IH Lm. unfold Z.succ in *. rewrite zrange_snoc, fold_left_app by lia. cbn [fold_left].
      specialize (IH ltac:(lia)). set (o := fold_left f (zrange 0 k) out) in *. destruct (proj1 (loc_nt nw bw Hw Hbw k) ltac:(lia)) as [K1 K2].
      unfold f at 1. cbv zeta. change (local_tile_linear_index lsub (mk2d C (perm i / bv) k)) with (lin (perm i / bv) k). change (local_tile_linear_index lsub (mk2d C (i / bv) k)) with (lin (i / bv) k).
      rewrite OCS by lia. unfold acc at 1, upd.
      destruct (Z.eqb_spec (lin (x / bv) (y / bw)) (lin (i / bv) k)) as [E|E].
      + apply lin_inj in E; try lia. destruct E as [E1 E2]. rewrite lacpy_at by lia.
        destruct (Z.eqb_spec (x mod bv) (i mod bv)) as [E3|E3].
        * assert (x = i) as -> by (rewrite (Z.div_mod x bv), (Z.div_mod i bv) by lia; rewrite E1, E3; reflexivity).
          rewrite Z.eqb_refl. destruct (Z.ltb_spec (y / bw) (k + 1)); [|lia]. cbn [andb].
          destruct (Z.leb_spec 0 (y mod bw)); [|lia]. destruct (Z.ltb_spec (y mod bw) (Z.min bw (nw - k * bw))) as [Q|Q].
          -- cbn [andb]. unfold acc. rewrite <- E2. reflexivity.
          -- exfalso. pose proof (Z.div_mod y bw ltac:(lia)) as DM. rewrite E2 in DM. lia.
        * cbn [andb]. destruct (Z.eqb_spec x i) as [->|N]; [congruence|]. cbn [andb]. rewrite <- E1, <- E2.
          change (o (lin (x / bv) (y / bw)) (mk2d C (x mod bv) (y mod bw))) with (acc o x y). rewrite IH. destruct (Z.eqb_spec x i); [contradiction|]. reflexivity.
      + change (o (lin (x / bv) (y / bw)) (mk2d C (x mod bv) (y mod bw))) with (acc o x y). rewrite IH.
        destruct (Z.eqb_spec x i) as [->|N]; [|reflexivity]. cbn [andb].
        assert (y / bw <> k) by (intros YK; apply E; rewrite YK; reflexivity).
        destruct (Z.ltb_spec (y / bw) k), (Z.ltb_spec (y / bw) (k + 1)); try reflexivity; lia. }
  rewrite G; [|apply loc_nt_pos; assumption|lia].
  destruct (Z.ltb_spec (y / bw) (ax_local_nr_tiles (loc_axis nw bw))) as [Q|Q]; [rewrite andb_true_r; reflexivity|].
  exfalso. pose proof (proj2 (loc_nt nw bw Hw Hbw (y / bw)) ltac:(lia)). lia.
Qed.

(** a bulk: only the last of equal indices in [order] counts, but all give the same *)
Lemma bulk_at : forall order guard perm ocs inn out, (forall i, In i order -> 0 <= i < nv) ->
  (forall i, In i order -> guard (perm i) = true -> 0 <= perm i < nv) ->
  (forall x y, 0 <= x -> x * bv < nv -> 0 <= y -> y * bw < nw -> ocs (lin x y) = Z.min bw (nw - y * bw)) ->
  forall x y, 0 <= x < nv -> 0 <= y < nw ->
  acc (bulk order guard C lsub perm ocs inn out) x y = if existsb (Z.eqb x) order && guard (perm x) then acc inn (perm x) y else acc out x y.
Proof using Hv Hw Hbv Hbw.
  intros order guard perm ocs inn. unfold bulk. induction order as [|i order IH]; intros out LO LP OCS x y Lx Ly; [reflexivity|].
  cbn [fold_left existsb]. rewrite IH; [|intros j I; apply LO; right; exact I|intros j I; apply LP; right; exact I|exact OCS|exact Lx|exact Ly].
  destruct (existsb (Z.eqb x) order) eqn:EX; [rewrite orb_true_r|rewrite orb_false_r].
  - cbn [andb]. destruct (guard (perm x)) eqn:G; [reflexivity|].
    destruct (guard (perm i)) eqn:Gi; [|reflexivity]. rewrite apply_at; [|apply LO; left; reflexivity|apply LP; [left; reflexivity|exact Gi]|exact OCS|exact Lx|exact Ly].
    destruct (Z.eqb_spec x i) as [->|]; [congruence|reflexivity].
  - cbn [andb]. destruct (guard (perm i)) eqn:Gi.
    + rewrite apply_at; [|apply LO; left; reflexivity|apply LP; [left; reflexivity|exact Gi]|exact OCS|exact Lx|exact Ly].
      destruct (Z.eqb_spec x i) as [->|]; [rewrite Gi; reflexivity|reflexivity].
    + destruct (Z.eqb_spec x i) as [->|]; [rewrite Gi; reflexivity|reflexivity].
Qed.
(** buffers *)
Lemma acc_tiles : forall b x y, 0 <= x < nv -> 0 <= y < nw -> acc (tiles_of_buf lsub b) x y = b (mk2d C x y).
Proof using Hv Hw Hbv Hbw.
  intros b x y Lx Ly. pose proof (acc_range nv bv x Hbv Lx) as (X1 & X2 & X3). pose proof (acc_range nw bw y Hbw Ly) as (Y1 & Y2 & Y3).
  unfold acc, tiles_of_buf. pose proof (lin_div (x / bv) (y / bw) X1 X2 Y1 Y2) as E.
  assert (E1 := f_equal fst E). assert (E2 := f_equal snd E). cbn [fst snd] in E1, E2. rewrite E1, E2. clear E E1 E2.
  f_equal. unfold lsub. destruct C; cbn [mk2d d_row d_col fst snd]; rewrite !loc_elem by lia; f_equal; pose proof (Z.div_mod x bv ltac:(lia)); pose proof (Z.div_mod y bw ltac:(lia)); lia.
Qed.
Lemma buf_acc : forall v x y, 0 <= x -> 0 <= y -> buf_of_tiles lsub v (mk2d C x y) = acc v x y.
Proof using Hbv Hbw.
  intros v x y Lx Ly. unfold buf_of_tiles, acc, lin, lsub. destruct C; cbn [mk2d d_row d_col fst snd]; rewrite !loc_tile, !loc_el by lia; reflexivity.
Qed.
End kernel.

(** ** Packing indices *)
Lemma displ_succ : forall c q, 0 <= q -> displ c (q + 1) = displ c q + c q.
Proof. intros c q L. unfold displ. rewrite tab_snoc, fold_left_app by lia. reflexivity. Qed.
Lemma displ_ext : forall c c' q, (forall i, 0 <= i < q -> c i = c' i) -> displ c q = displ c' q.
Proof. intros c c' q H. unfold displ, tab. f_equal. apply map_ext_in. intros i I. apply in_zrange in I. apply H. lia. Qed.
Lemma displ_0 : forall c, displ c 0 = 0. Proof. reflexivity. Qed.
Lemma displ_nonneg : forall c q, 0 <= q -> (forall i, 0 <= i < q -> 0 <= c i) -> 0 <= displ c q.
Proof.
  intros c q L. revert L. apply (natlike_ind (fun q => (forall i, 0 <= i < q -> 0 <= c i) -> 0 <= displ c q)).
  - intros _. rewrite displ_0. lia.
  - intros x Lx IH H. unfold Z.succ in *. rewrite displ_succ by lia. specialize (IH ltac:(intros; apply H; lia)). pose proof (H x ltac:(lia)). lia.
Qed.
Lemma displ_mono : forall c p q, 0 <= p <= q -> (forall i, 0 <= i < q -> 0 <= c i) -> displ c p <= displ c q.
Proof.
  intros c p q [L0 L] H. replace q with (p + (q - p)) in * by lia. assert (Ld : 0 <= q - p) by lia. revert H. generalize (q - p) Ld. clear - L0.
  intros d Ld. revert Ld. apply (natlike_ind (fun d => (forall i, 0 <= i < p + d -> 0 <= c i) -> displ c p <= displ c (p + d))).
  - intros _. rewrite Z.add_0_r. lia.
  - intros x Lx IH H. unfold Z.succ in *. rewrite Z.add_assoc, displ_succ by lia. specialize (IH ltac:(intros; apply H; lia)). pose proof (H (p + x) ltac:(lia)). lia.
Qed.

Section packing.
Variables (a : axis) (offset nv : Z) (l2s : Z -> Z).
Hypothesis Hnv : 0 <= nv.
Definition dest (l : Z) : Z := ax_rank_global_element a (offset + l2s l).
(** the local vectors for rank q, in ascending order, and how many there are before l *)
Definition vecs (q : Z) : list Z := filter (fun l => dest l =? q) (zrange 0 nv).
Definition nvecs (q : Z) : Z := Z.of_nat (length (vecs q)).
Definition before (q l : Z) : Z := Z.of_nat (length (filter (fun l => dest l =? q) (zrange 0 l))).

Lemma scan_fwd : forall disp q out, let r := pack_scan false a offset nv l2s disp q out in
  fst r = nvecs q /\ forall l, snd r l = if (0 <=? l) && (l <? nv) && (dest l =? q) then disp + before q l else out l.
Proof using Hnv.
  intros disp q out. unfold pack_scan, nvecs, vecs. set (f := fun s l => _).
  assert (G : forall m, 0 <= m -> let r := fold_left f (zrange 0 m) (0, out) in fst r = before q m /\ forall l, snd r l = if (0 <=? l) && (l <? m) && (dest l =? q) then disp + before q l else out l).
  { intros m L0. pattern m. apply natlike_ind; [| |exact L0].
    - rewrite zrange_nil by lia. split; [reflexivity|]. intros l. cbn [fold_left snd]. destruct (Z.leb_spec 0 l), (Z.ltb_spec l 0); try reflexivity; lia.
    - intros k Lk [I1 I2]. unfold Z.succ. rewrite zrange_snoc, fold_left_app by lia. cbn [fold_left]. set (s := fold_left f (zrange 0 k) (0, out)) in *.
      destruct s as [c o]. cbn [fst snd] in I1, I2. subst c. unfold f at 1 2. change (ax_rank_global_element a (offset + l2s k)) with (dest k).
      assert (BK : before q (k + 1) = before q k + if dest k =? q then 1 else 0).
      { unfold before. rewrite zrange_snoc, filter_app, app_length by lia. cbn [filter]. destruct (dest k =? q); cbn [length]; lia. }
      rewrite BK. destruct (Z.eqb_spec (dest k) q) as [E|E]; cbn [fst snd].
      + split; [reflexivity|]. intros l. unfold upd. destruct (Z.eqb_spec l k) as [->|N].
        * destruct (Z.leb_spec 0 k); [|lia]. destruct (Z.ltb_spec k (k + 1)); [|lia]. rewrite E, Z.eqb_refl. reflexivity.
        * rewrite I2. replace (l <? k + 1) with (l <? k); [reflexivity|]. destruct (Z.ltb_spec l k), (Z.ltb_spec l (k + 1)); reflexivity || lia.
      + split; [lia|]. intros l. rewrite I2. destruct (Z.eqb_spec l k) as [->|N].
        * destruct (Z.eqb_spec (dest k) q); [contradiction|]. rewrite !andb_false_r. reflexivity.
        * replace (l <? k + 1) with (l <? k); [reflexivity|]. destruct (Z.ltb_spec l k), (Z.ltb_spec l (k + 1)); reflexivity || lia. }
  apply (G nv Hnv).
Qed.
Lemma scan_bwd : forall disp q out, let r := pack_scan true a offset nv l2s disp q out in
  fst r = nvecs q /\ forall p, snd r p = if (disp <=? p) && (p <? disp + nvecs q) then nth (Z.to_nat (p - disp)) (vecs q) 0 else out p.
Proof using Hnv.
  intros disp q out. unfold pack_scan, nvecs, vecs. set (f := fun s l => _).
  assert (G : forall m, 0 <= m -> let r := fold_left f (zrange 0 m) (0, out) in let F := filter (fun l => dest l =? q) (zrange 0 m) in
     fst r = Z.of_nat (length F) /\ forall p, snd r p = if (disp <=? p) && (p <? disp + Z.of_nat (length F)) then nth (Z.to_nat (p - disp)) F 0 else out p).
  { intros m L0. pattern m. apply natlike_ind; [| |exact L0].
    - rewrite zrange_nil by lia. split; [reflexivity|]. intros p. cbn [fold_left snd filter length]. destruct (Z.leb_spec disp p), (Z.ltb_spec p (disp + Z.of_nat 0)); try reflexivity; lia.
    - intros k Lk [I1 I2]. unfold Z.succ. rewrite zrange_snoc, fold_left_app, filter_app by lia. cbn [fold_left]. set (s := fold_left f (zrange 0 k) (0, out)) in *.
      set (F := filter (fun l => dest l =? q) (zrange 0 k)) in *. destruct s as [c o]. cbn [fst snd] in I1, I2. subst c. unfold f at 1 2. change (ax_rank_global_element a (offset + l2s k)) with (dest k). cbn [filter].
      destruct (Z.eqb_spec (dest k) q) as [E|E]; cbn [fst snd].
      + rewrite app_length. cbn [length]. split; [lia|]. intros p. unfold upd. destruct (Z.eqb_spec p (disp + Z.of_nat (length F))) as [->|N].
        * destruct (Z.leb_spec disp (disp + Z.of_nat (length F))); [|lia]. destruct (Z.ltb_spec (disp + Z.of_nat (length F)) (disp + Z.of_nat (length F + 1))); [|lia]. cbn [andb].
          rewrite app_nth2 by lia. replace (Z.to_nat (disp + Z.of_nat (length F) - disp) - length F)%nat with O by lia. reflexivity.
        * rewrite I2. destruct (Z.leb_spec disp p) as [L1|L1]; [|reflexivity]. cbn [andb].
          destruct (Z.ltb_spec p (disp + Z.of_nat (length F))), (Z.ltb_spec p (disp + Z.of_nat (length F + 1))); try lia. rewrite app_nth1 by lia. reflexivity.
      + rewrite app_nil_r. split; [reflexivity|exact I2]. }
  apply (G nv Hnv).
Qed.

Lemma init_fwd : forall nranks out, 0 <= nranks -> let r := init_packing_index false nranks a offset nv l2s out in
  (forall q, 0 <= q < nranks -> fst r q = nvecs q) /\
  (forall l, 0 <= l < nv -> 0 <= dest l < nranks -> snd r l = displ nvecs (dest l) + before (dest l) l).
Proof using Hnv.
  intros nranks out LN. unfold init_packing_index. set (f := fun s rank => _).
  assert (G : forall m, 0 <= m -> exists cs o, fold_left f (zrange 0 m) (0, fun _ => 0, out) = (displ nvecs m, cs, o) /\
      (forall q, 0 <= q < m -> cs q = nvecs q) /\ (forall l, 0 <= l < nv -> 0 <= dest l < m -> o l = displ nvecs (dest l) + before (dest l) l)).
  { intros m L0. pattern m. apply natlike_ind; [| |exact L0].
    - exists (fun _ => 0), out. split; [reflexivity|]. split; intros; lia.
    - intros k Lk (cs & o & E & I1 & I2). unfold Z.succ. rewrite zrange_snoc, fold_left_app by lia. cbn [fold_left]. rewrite E. unfold f at 1.
      destruct (scan_fwd (displ nvecs k) k o) as [S1 S2]. destruct (pack_scan false a offset nv l2s (displ nvecs k) k o) as [c o1]. cbn [fst snd] in S1, S2. subst c.
      exists (upd cs k (nvecs k)), o1. split; [rewrite displ_succ by lia; reflexivity|]. split.
      + intros q Lq. unfold upd. destruct (Z.eqb_spec q k) as [->|]; [reflexivity|]. apply I1. lia.
      + intros l Ll Ld. rewrite S2. destruct (Z.leb_spec 0 l); [|lia]. destruct (Z.ltb_spec l nv); [|lia]. cbn [andb]. destruct (Z.eqb_spec (dest l) k) as [->|]; [reflexivity|]. apply I2; lia. }
  destruct (G nranks LN) as (cs & o & E & I1 & I2). rewrite E. cbn [fst snd]. split; assumption.
Qed.

Lemma insert_perm : forall key x l, Permutation (insert_by key x l) (x :: l).
Proof. intros key x l. induction l as [|y l IH]; [reflexivity|]. cbn. destruct (key x <? key y); [reflexivity|]. rewrite IH. apply perm_swap. Qed.
Lemma sort_list_perm : forall key l, Permutation (sort_list key l) l.
Proof.
  intros key l. unfold sort_list. assert (G : forall acc0, Permutation (fold_left (fun acc x => insert_by key x acc) l acc0) (l ++ acc0)).
  { induction l as [|x l IH]; intros acc0; [reflexivity|]. cbn. rewrite IH, insert_perm. symmetry. apply Permutation_middle. }
  rewrite G, app_nil_r. reflexivity.
Qed.
Definition asc_by (key : Z -> Z) : list Z -> Prop := StronglySorted (fun x y => key x <= key y).
Lemma insert_sorted : forall key x l, asc_by key l -> asc_by key (insert_by key x l).
Proof.
  intros key x l S. induction S as [|y l S IH F]; [repeat constructor|]. cbn. destruct (Z.ltb_spec (key x) (key y)) as [L|L].
  - constructor; [constructor; assumption|]. constructor; [lia|]. rewrite Forall_forall in *. intros z I. specialize (F z I). lia.
  - constructor; [exact IH|]. rewrite Forall_forall in *. intros z I. apply (Permutation_in _ (insert_perm key x l)) in I. destruct I as [<-|I]; [lia|apply F; exact I].
Qed.
Lemma sort_list_sorted : forall key l, asc_by key (sort_list key l).
Proof.
  intros key l. unfold sort_list. assert (G : forall acc0, asc_by key acc0 -> asc_by key (fold_left (fun acc x => insert_by key x acc) l acc0)).
  { induction l as [|x l IH]; intros acc0 S; [exact S|]. cbn. apply IH, insert_sorted, S. }
  apply G. constructor.
Qed.

Lemma init_bwd : forall nranks out, 0 <= nranks -> let r := init_packing_index true nranks a offset nv l2s out in
  (forall q, 0 <= q < nranks -> fst r q = nvecs q) /\
  (forall q j, 0 <= q < nranks -> 0 <= j < nvecs q -> snd r (displ nvecs q + j) = nth (Z.to_nat j) (sort_list l2s (vecs q)) 0).
Proof using Hnv.
  intros nranks out LN. unfold init_packing_index. set (f := fun s rank => _).
  assert (NN : forall q, 0 <= nvecs q) by (intros; unfold nvecs; lia).
  assert (G : forall m, 0 <= m -> exists cs o, fold_left f (zrange 0 m) (0, fun _ => 0, out) = (displ nvecs m, cs, o) /\
      (forall q, 0 <= q < m -> cs q = nvecs q) /\ (forall q j, 0 <= q < m -> 0 <= j < nvecs q -> o (displ nvecs q + j) = nth (Z.to_nat j) (sort_list l2s (vecs q)) 0)).
  { intros m L0. pattern m. apply natlike_ind; [| |exact L0].
    - exists (fun _ => 0), out. split; [reflexivity|]. split; intros; lia.
    - intros k Lk (cs & o & E & I1 & I2). unfold Z.succ. rewrite zrange_snoc, fold_left_app by lia. cbn [fold_left]. rewrite E. unfold f at 1.
      destruct (scan_bwd (displ nvecs k) k o) as [S1 S2]. destruct (pack_scan true a offset nv l2s (displ nvecs k) k o) as [c o1]. cbn [fst snd] in S1, S2. subst c.
      eexists (upd cs k (nvecs k)), _. split; [rewrite displ_succ by lia; reflexivity|]. split.
      + intros q Lq. unfold upd. destruct (Z.eqb_spec q k) as [->|]; [reflexivity|]. apply I1. lia.
      + assert (TB : tab (displ nvecs k) (displ nvecs k + nvecs k) o1 = vecs k).
        { apply (nth_ext _ _ 0 0).
          - pose proof (tab_length (displ nvecs k) (displ nvecs k + nvecs k) o1) as TL. specialize (NN k). unfold nvecs in *. lia.
          - intros i Li. pose proof (tab_length (displ nvecs k) (displ nvecs k + nvecs k) o1) as TL. specialize (NN k).
            assert (Z.of_nat i < nvecs k) by lia.
            pose proof (tab_nth (displ nvecs k) (displ nvecs k + nvecs k) o1 (Z.of_nat i) ltac:(lia)) as TN. rewrite Nat2Z.id in TN. apply (nth_error_nth _ _ 0) in TN. rewrite TN. rewrite S2. destruct (Z.leb_spec (displ nvecs k) (displ nvecs k + Z.of_nat i)); [|lia]. destruct (Z.ltb_spec (displ nvecs k + Z.of_nat i) (displ nvecs k + nvecs k)); [|lia]. cbn [andb].
            f_equal. lia. }
        intros q j Lq Lj. unfold sort_range. rewrite TB. destruct (Z.eq_dec q k) as [->|N].
        * destruct (Z.leb_spec (displ nvecs k) (displ nvecs k + j)); [|lia]. destruct (Z.ltb_spec (displ nvecs k + j) (displ nvecs k + nvecs k)); [|lia]. cbn [andb]. f_equal. lia.
        * pose proof (displ_mono nvecs (q + 1) k ltac:(lia) ltac:(intros; apply NN)) as MN. rewrite displ_succ in MN by lia.
          destruct (Z.leb_spec (displ nvecs k) (displ nvecs q + j)); [lia|]. cbn [andb]. rewrite S2. destruct (Z.leb_spec (displ nvecs k) (displ nvecs q + j)); [lia|]. cbn [andb]. apply I2; lia. }
  destruct (G nranks LN) as (cs & o & E & I1 & I2). rewrite E. cbn [fst snd]. split; assumption.
Qed.
End packing.
