(** * The copy of the band, the start of a sweep and the copy of the result on a ring buffer *)
From Coq Require Import ZArith Lia List Bool Ring.
From Verif Require Import Loop StarField DenseSpec HouseSpec HouseModel B2TMsgModel B2TMsgSpec B2TMsgProofs SemModel B2TModel B2TFrame B2TDistModel B2TDistStruct B2TDistVal B2TDistSplit B2TDistRing B2TDistStep.
Import ListNotations.
Local Open Scope Z_scope.

Section copy.
Context {K : starfield} (lf : larfg_fn K) (g : msg_cfg) (A : mat K).
Hypothesis G : cfg_ok g.
Notation size := (m_size g).
Notation nb := (m_nb g).
Notation b := (m_b g).
Notation nbb := (nb_band g).
Notation tpb := (tiles_per_block g).
Notation At k lo hi := (at_ (rf g k) (Ww g lo hi)).
Lemma b_div_nb : b <= nb.
Proof using G. pose proof (g_c g G). pose proof (g_c1 g G). pose proof (g_b g G). nia. Qed.
Lemma ring_flat : forall k c y, k * nbb <= c -> 0 <= y -> c + y < (k + 1) * nbb -> ring g k (c + y) = ring g k c + y.
Proof using G. intros k c y L1 L2 L3. pose proof (ncols_lo g G k). unfold ring. rewrite !Z.mod_small by lia. lia. Qed.
Lemma at_piece2 : forall k lo hi c0 off m n c, lo <= c0 -> c0 + n <= hi -> (forall y, 0 <= y < n -> ring g k (c0 + y) = ring g k c0 + y) -> 0 <= off -> off + m <= 2 * b ->
  At k lo hi (ptr b off c0) (rptr g k off c0) (b_ld b + 1) m n c.
Proof using G.
  intros k lo hi c0 off m n c L1 L2 CT O1 O2 x y Lx Ly C. replace (ptr b off c0 + x + y * (b_ld b + 1)) with ((c0 + y) * (2 * b) + (off + x)) by (unfold ptr, b_ld; lia). split; [apply Ww_at; [exact G|lia|lia]|].
  rewrite (rf_at g G), !rptr_co, CT by lia. unfold b_ld. lia.
Qed.
Lemma tile_cols : forall jt, 0 <= jt < ntl g -> let k := jt / tpb in k * nbb <= jt * nb /\ jt * nb + tszd g jt <= (k + 1) * nbb /\ 0 < tszd g jt <= nb.
Proof using G.
  intros jt L. cbv zeta. destruct (tb g G jt ltac:(lia)) as (T0 & T1 & T2). pose proof (nbb_t g G (jt / tpb)) as E1. pose proof (nbb_t g G (jt / tpb + 1)) as E2. pose proof (g_nb g G). assert (jt < ntl g) as L2 by lia. rewrite (ntl_lt g G) in L2. unfold tszd. nia.
Qed.
Notation S_ k lo hi := (wrel (rf g k) (Ww g lo hi) (Sw g k lo hi)).
Lemma copyd_ring : forall jt B0 B BL, 0 <= jt < ntl g -> let k := jt / tpb in let hi := jt * nb + tszd g jt in
  S_ k (jt * nb) hi B0 B BL -> S_ k (jt * nb) hi B0 (copy_diag_d g A k jt B) (copy_diag size nb b A jt BL).
Proof using G.
  intros jt B0 B BL L k hi R. destruct (tile_cols jt L) as (T1 & T2 & T3). fold k in T1, T2. pose proof (g_b g G). pose proof (ncols_lo g G k).
  assert (BD := g_bbpos g G). pose proof (rf_inj g G k (jt * nb) hi ltac:(unfold hi; lia)) as IJ. pose proof (rf_S g G k (jt * nb) hi) as RS. assert (LD : b_ld b = 2 * b - 1) by reflexivity.
  assert (CT : forall c y, jt * nb <= c -> 0 <= y -> c + y < hi -> ring g k (c + y) = ring g k c + y) by (intros c y Lc Ly Lh; apply ring_flat; unfold hi in *; lia).
  unfold copy_diag_d, copy_diag. cbv zeta. change (tsz size nb jt) with (tszd g jt). set (cols := tszd g jt) in *. set (index := Z.max 0 (cols - b)).
  apply (rect_win (rf g k) (Ww g (jt * nb) hi) (Sw g k (jt * nb) hi) IJ RS); [lia|lia| | |reflexivity].
  - apply (at_piece g G); [lia|unfold hi; lia|intros y Ly; apply CT; unfold hi; lia|intros x y Lx Ly C; lia].
  - destruct (Z.ltb_spec 0 index).
    + apply (rect_win (rf g k) (Ww g (jt * nb) hi) (Sw g k (jt * nb) hi) IJ RS); [lia|lia| | |reflexivity].
      * apply at_piece2; [lia|unfold hi; lia|intros y Ly; apply CT; unfold hi; lia|lia|lia].
      * apply (rect_win (rf g k) (Ww g (jt * nb) hi) (Sw g k (jt * nb) hi) IJ RS); [lia|lia| |exact R|reflexivity]. apply at_piece2; [lia|unfold hi; lia|intros y Ly; apply CT; unfold hi; lia|lia|lia].
    + apply (rect_win (rf g k) (Ww g (jt * nb) hi) (Sw g k (jt * nb) hi) IJ RS); [lia|lia| |exact R|reflexivity]. apply at_piece2; [lia|unfold hi; lia|intros y Ly; apply CT; unfold hi; lia|lia|lia].
Qed.
Lemma copyo_ring : forall jt B0 B BL, 0 <= jt < ntl g - 1 -> let k := jt / tpb in let hi := jt * nb + tszd g jt in
  S_ k (jt * nb) hi B0 B BL -> S_ k (jt * nb) hi B0 (copy_off_diag_d g A k jt B) (copy_off_diag size nb b A jt BL).
Proof using G.
  intros jt B0 B BL L k hi R. destruct (tile_cols jt ltac:(lia)) as (T1 & T2 & T3). fold k in T1, T2. pose proof (g_b g G). pose proof (ncols_lo g G k). pose proof b_div_nb as BN.
  assert (FT : tszd g jt = nb). { assert (X : jt + 1 < ntl g) by lia. rewrite (ntl_lt g G) in X. unfold tszd. nia. }
  destruct (tile_cols (jt + 1) ltac:(lia)) as (_ & _ & T4).
  assert (BD := g_bbpos g G). pose proof (rf_inj g G k (jt * nb) hi ltac:(unfold hi; lia)) as IJ. pose proof (rf_S g G k (jt * nb) hi) as RS. assert (LD : b_ld b = 2 * b - 1) by reflexivity.
  assert (CT : forall c y, jt * nb <= c -> 0 <= y -> c + y < hi -> ring g k (c + y) = ring g k c + y) by (intros c y Lc Ly Lh; apply ring_flat; unfold hi in *; lia).
  unfold copy_off_diag_d, copy_off_diag. cbv zeta. change (tsz size nb (jt + 1)) with (tszd g (jt + 1)). set (rows := tszd g (jt + 1)) in *. set (sz := Z.min b rows). set (index := nb - b).
  assert (R1 : S_ k (jt * nb) hi B0 (rect_set B (rptr g k b (jt * nb + index)) (b_ld b) sz sz (fun x y => x <=? y) (fun x y => A ((jt + 1) * nb + x) (jt * nb + (index + y))))
    (rect_set BL (ptr b b (jt * nb + index)) (b_ld b) sz sz (fun x y => x <=? y) (fun x y => A ((jt + 1) * nb + x) (jt * nb + (index + y))))).
  { apply (rect_win (rf g k) (Ww g (jt * nb) hi) (Sw g k (jt * nb) hi) IJ RS); [lia|lia| |exact R|reflexivity]. apply (at_piece g G); [lia|unfold hi; lia|intros y Ly; apply CT; unfold hi; lia|intros x y Lx Ly C; lia]. }
  destruct (Z.ltb_spec sz b) as [Q|Q]; [|exact R1].
  apply (rect_win (rf g k) (Ww g (jt * nb) hi) (Sw g k (jt * nb) hi) IJ RS); [lia|lia| |exact R1|reflexivity].
  replace (ptr b b (jt * nb + index) + b_ld b * sz) with (ptr b (b - sz) (jt * nb + index + sz)) by (unfold ptr, b_ld; lia).
  replace (rptr g k b (jt * nb + index) + b_ld b * sz) with (rptr g k (b - sz) (jt * nb + index + sz)) by (unfold rptr; rewrite (CT (jt * nb + index) sz) by (unfold hi; lia); unfold b_ld; lia).
  apply (at_piece g G); [lia|unfold hi; lia|intros y Ly; apply CT; unfold hi; lia|intros x y Lx Ly C; lia].
Qed.
Hypothesis LF : larfg_local lf.
Lemma start_ring : forall s v v' B0 B BL, 0 < Z.min (size - s - 1) b -> S_ 0 s (s + 1) B0 B BL ->
  rrel (rf g 0) (Ww g s (s + 1)) (Sw g 0 s (s + 1)) (Z.min (size - s - 1) b) B0 (start_sweep_d lf g s v B) (start_sweep lf size b s v' BL).
Proof using G LF.
  intros s v v' B0 B BL L R. pose proof (g_b g G). pose proof (ncols_lo g G 0). pose proof (nbb2 g G). apply refl_win; [apply rf_inj; [exact G|lia]|apply rf_S; exact G|exact LF|exact L| |exact R].
  apply (at_col g G); lia.
Qed.
(** the copy of a part of the tridiagonal matrix *)
Lemma vget_map : forall {X} (f : X -> F K) d l i, 0 <= i < Z.of_nat (length l) -> vget (map f l) i = f (nth (Z.to_nat i) l d).
Proof using. intros X f d l i Li. unfold vget. rewrite (nth_indep _ f0 (f d)) by (rewrite map_length; lia). apply map_nth. Qed.
Lemma zlen : forall lo hi, lo <= hi -> Z.of_nat (length (zrange lo hi)) = hi - lo.
Proof using. intros lo hi L. unfold zrange. rewrite map_length, seq_length. lia. Qed.
Lemma nth_zrange : forall lo hi i d, 0 <= i < hi - lo -> nth (Z.to_nat i) (zrange lo hi) d = lo + i.
Proof using.
  intros lo hi i d L. unfold zrange. rewrite (nth_indep _ d (lo + Z.of_nat 0)) by (rewrite map_length, seq_length; lia). rewrite (map_nth (fun k => lo + Z.of_nat k)). rewrite seq_nth by lia. lia.
Qed.
Lemma vget_range : forall (f : Z -> F K) lo hi i, 0 <= i < hi - lo -> vget (map f (zrange lo hi)) i = f (lo + i).
Proof using. intros f lo hi i L. rewrite (vget_map f 0) by (rewrite zlen; lia). rewrite nth_zrange by lia. reflexivity. Qed.
Lemma vget_app : forall (l l' : list (F K)) i, 0 <= i -> vget (l ++ l') i = if i <? Z.of_nat (length l) then vget l i else vget l' (i - Z.of_nat (length l)).
Proof using.
  intros l l' i Li. unfold vget. destruct (Z.ltb_spec i (Z.of_nat (length l))); [apply app_nth1; lia|]. rewrite app_nth2 by lia. f_equal. lia.
Qed.
Lemma row_len : forall B k off c n, 0 <= n -> Z.of_nat (length (band_row g B k off c n : list (F K))) = n.
Proof using. intros B k off c n L. unfold band_row. rewrite map_length, zlen by exact L. lia. Qed.
Lemma row_get : forall (B : Z -> F K) k off c n i, 0 <= i < n -> (forall y, 0 <= y < n -> ring g k (c + y) = ring g k c + y) -> vget (band_row g B k off c n) i = re (B (rptr g k off (c + i))).
Proof using G. intros B k off c n i L CT. unfold band_row. rewrite vget_range by lia. f_equal. f_equal. unfold rptr, b_ld. rewrite CT by lia. lia. Qed.
Lemma tri_get : forall (B : Z -> F K) st nd ne, 0 < nd <= ncols g 0 -> nd - 1 <= ne <= nd -> (forall r, 0 <= r < nd -> vget (tri_copy_d g B st nd ne) r = re (B (rptr g 0 0 (st + r)))) /\
  (forall r, 0 <= r < ne -> vget (tri_copy_d g B st nd ne) (nd + r) = re (B (rptr g 0 1 (st + r)))).
Proof using G.
  intros B st nd ne L1 L2. unfold tri_copy_d. pose proof (ring_range g G 0 st) as RR. set (n1 := next_split g 0 st). assert (N1 : 1 <= n1) by (unfold n1, next_split; lia).
  assert (CT1 : forall y, 0 <= y < n1 -> ring g 0 (st + y) = ring g 0 st + y) by (intros y Ly; apply ring_next; [exact G|exact Ly]). assert (RW : ring g 0 (st + n1) = 0) by (apply ring_wrap; exact G).
  assert (CT2 : forall y, 0 <= y < ncols g 0 -> ring g 0 (st + n1 + y) = ring g 0 (st + n1) + y) by (intros y Ly; apply ring_next; [exact G|unfold next_split; rewrite RW; lia]).
  destruct (Z.ltb_spec n1 nd) as [S|S].
  - assert (S2 : 0 <= ne - n1) by lia. split; intros r Lr.
    + rewrite vget_app, row_len by lia. destruct (Z.ltb_spec r n1); [apply row_get; [lia|exact CT1]|]. rewrite vget_app, row_len by lia. destruct (Z.ltb_spec (r - n1) (nd - n1)); [|lia].
      rewrite row_get by (try lia; intros y Ly; apply CT2; lia). do 3 f_equal. lia.
    + rewrite vget_app, row_len by lia. destruct (Z.ltb_spec (nd + r) n1); [lia|]. rewrite vget_app, row_len by lia. destruct (Z.ltb_spec (nd + r - n1) (nd - n1)); [lia|]. rewrite vget_app, row_len by lia.
      replace (nd + r - n1 - (nd - n1)) with r by lia. destruct (Z.ltb_spec r n1); [apply row_get; [lia|exact CT1]|]. rewrite row_get by (try lia; intros y Ly; apply CT2; lia). do 3 f_equal. lia.
  - split; intros r Lr.
    + rewrite vget_app, row_len by lia. destruct (Z.ltb_spec r nd); [|lia]. apply row_get; [lia|]. intros y Ly. apply CT1. lia.
    + rewrite vget_app, row_len by lia. destruct (Z.ltb_spec (nd + r) nd); [lia|]. replace (nd + r - nd) with r by lia. apply row_get; [lia|]. intros y Ly. apply CT1. lia.
Qed.
End copy.
