(** Constructor behaviour: acceptance, rejection, uniqueness, sub-distributions,
    block-level views. *)
From Coq Require Import ZArith Lia Bool List Znumtheory.
From Verif Require Import CInt DistModel DistSpec DivLemmas DistProofs DistProofs2 DistBuilt DistThms.
Open Scope Z_scope.

(** ** A layout and a rank determine the distribution completely *)
Lemma wf_unique : forall a b, wf a -> wf b -> layout_of a = layout_of b -> ax_rank a = ax_rank b -> a = b.
Proof.
  intros a b Wa Wb E R.
  assert (N : ax_nr_tiles a = ax_nr_tiles b).
  { rewrite (wf_nt a Wa), (wf_nt b Wb). unfold nt_spec, global_tile_element_offset.
    injection E as E1 E2 E3 E4 E5 E6. rewrite E1, E3, E6. reflexivity. }
  assert (LN : ax_local_nr_tiles a = ax_local_nr_tiles b).
  { rewrite (wf_lnt a Wa), (wf_lnt b Wb), E, R, N. reflexivity. }
  assert (LS : ax_local_size a = ax_local_size b).
  { rewrite (wf_ls a Wa), (wf_ls b Wb), E, R. injection E as E1 E2 E3 E4 E5 E6. rewrite E1. reflexivity. }
  injection E as E1 E2 E3 E4 E5 E6. destruct a, b; cbn in *; congruence.
Qed.

Lemma models_layout : forall r L a, models r L a ->
  layout_of a = Layout (l_size L) (l_block L) (l_tile L) (l_grid L) (owner L 0) (l_off L mod l_block L).
Proof.
  intros r L a M. destruct (T_reported r L a M) as (A & B & C & D & E & F & G & H & I).
  unfold layout_of. congruence.
Qed.

Lemma models_unique : forall r L a L' a', models r L a -> models r L' a' -> same_layout L L' -> a = a'.
Proof.
  intros r L a L' a' M M' S.
  apply wf_unique; try apply (m_wf _ _ _ M); try apply (m_wf _ _ _ M').
  - rewrite (models_layout r L a M), (models_layout r L' a' M'). destruct S.
    rewrite sl_owner. congruence.
  - rewrite (m_rank _ _ _ M), (m_rank _ _ _ M'). reflexivity.
Qed.

Lemma same_refl : forall L, same_layout L L.
Proof. intros. split; reflexivity. Qed.

Lemma dist_ext : forall d d', (forall rc, get rc d = get rc d') -> d = d'.
Proof. intros [a b] [a' b'] H. f_equal; [exact (H Row)|exact (H Col)]. Qed.

(** ** Main constructor: acceptance *)
Definition documented_pre (size block tile grid rank src : Z) : Prop :=
  0 <= size /\ 0 < block /\ 0 < tile /\ (tile | block) /\ 0 < grid /\ 0 <= rank < grid /\ 0 <= src < grid.

Definition pre2 (size block tile grid rank src : pair_Z) : Prop :=
  forall rc, documented_pre (sel rc size) (sel rc block) (sel rc tile) (sel rc grid) (sel rc rank) (sel rc src).

(** values an [int] / [int64_t] argument can take *)
Definition fits_types (size block tile grid rank src off : pair_Z) : Prop :=
  forall rc, sel rc grid <= i32_max /\ sel rc off <= i64_max.

Lemma in_i64_true : forall z, i64_min <= z <= i64_max -> in_i64 z = true.
Proof. intros. unfold in_i64. apply andb_true_intro. split; apply Z.leb_le; lia. Qed.
Lemma in_i32_true : forall z, i32_min <= z <= i32_max -> in_i32 z = true.
Proof. intros. unfold in_i32. apply andb_true_intro. split; apply Z.leb_le; lia. Qed.
Lemma i64_ok : forall z, i64_min <= z <= i64_max -> i64 z = Ok z.
Proof. intros. unfold i64. rewrite in_i64_true by lia. reflexivity. Qed.
Lemma i32_ok : forall z, i32_min <= z <= i32_max -> i32 z = Ok z.
Proof. intros. unfold i32. rewrite in_i32_true by lia. reflexivity. Qed.

Lemma normalize_check_ok : forall a,
  0 < ax_block a -> 0 <= ax_offset a <= i64_max -> 0 < ax_grid a <= i32_max -> 0 <= ax_src a ->
  ax_src a + ax_offset a / ax_block a <= i32_max -> normalize_check a = Ok tt.
Proof.
  intros a Hb Ho Hg Hs Hf. unfold normalize_check, div64, add32, rem32.
  assert (0 <= ax_offset a / ax_block a) by (apply div_nonneg; lia).
  assert (ax_offset a / ax_block a <= ax_offset a) by (apply Z.div_le_upper_bound; nia).
  destruct (Z.eqb_spec (ax_block a) 0); [lia|].
  rewrite quot_nonneg_div by lia.
  rewrite i64_ok by (unfold i64_min, i64_max in *; lia). cbn [bind].
  rewrite wrap32_id by (unfold i32_min, i32_max in *; lia).
  rewrite i32_ok by (unfold i32_min, i32_max in *; lia). cbn [bind].
  destruct (Z.eqb_spec (ax_grid a) 0); [lia|].
  rewrite quot_nonneg_div by lia.
  assert (0 <= (ax_src a + ax_offset a / ax_block a) / ax_grid a) by (apply div_nonneg; lia).
  assert ((ax_src a + ax_offset a / ax_block a) / ax_grid a <= ax_src a + ax_offset a / ax_block a)
    by (apply Z.div_le_upper_bound; nia).
  rewrite in_i32_true by (unfold i32_min, i32_max in *; lia). reflexivity.
Qed.

Lemma normalize_accepts : forall d,
  (forall rc, let a := get rc d in 0 < ax_block a /\ 0 <= ax_offset a <= i64_max /\
     0 < ax_grid a <= i32_max /\ 0 <= ax_src a /\ ax_src a + ax_offset a / ax_block a <= i32_max) ->
  normalize_source_rank_and_offset d = Ok (on_both ax_normalize d).
Proof.
  intros d H. unfold normalize_source_rank_and_offset.
  pose proof (H Row) as (H1 & H2 & H3 & H4 & H5). pose proof (H Col) as (C1 & C2 & C3 & C4 & C5).
  cbn [get] in *.
  rewrite !normalize_check_ok by assumption. cbn [bind].
  unfold normalize_asserts, dlaf_assert.
  assert (X : forall a, 0 < ax_block a -> 0 <= ax_offset a -> (ax_offset (ax_normalize a) <? ax_block (ax_normalize a)) = true).
  { intros a Hb Ho. apply Z.ltb_lt. cbn. rewrite rem_nonneg_mod by lia. apply Z.mod_pos_bound. lia. }
  cbn [d_row d_col on_both]. rewrite !X by lia. reflexivity.
Qed.

Theorem ctor_accepts : forall size block tile grid rank src off,
  pre2 size block tile grid rank src ->
  fits_types size block tile grid rank src off ->
  (forall rc, 0 <= sel rc off /\ sel rc src + sel rc off / sel rc block <= i32_max) ->
  exists d, dist_ctor size block tile grid rank src off = Ok d /\
            built rank (arg_layout size block tile grid src off) d.
Proof.
  intros size block tile grid rank src off P F O.
  assert (E : exists d, dist_ctor size block tile grid rank src off = Ok d).
  { unfold dist_ctor.
    destruct (P Row) as (R1 & R2 & R3 & [kr R4] & R5 & R6 & R7).
    destruct (P Col) as (C1 & C2 & C3 & [kc C4] & C5 & C6 & C7). cbn [sel] in *.
    assert (A1 : isValid2 size = true) by (unfold isValid2; apply andb_true_intro; split; apply Z.leb_le; lia).
    assert (A2 : forall p : pair_Z, 0 < fst p -> 0 < snd p -> isEmpty2 p = false).
    { intros p H1 H2. unfold isEmpty2. apply orb_false_intro; apply Z.eqb_neq; lia. }
    assert (A3 : divides2 tile block = true).
    { unfold divides2. rewrite R4, C4. rewrite !Z.rem_mul by lia. reflexivity. }
    assert (A4 : forall i : pair_Z, 0 <= fst i < fst grid -> 0 <= snd i < snd grid -> isIn2 i grid = true).
    { intros i H1 H2. unfold isIn2, isValid2.
      repeat (apply andb_true_intro; split); try apply Z.ltb_lt; try apply Z.leb_le; lia. }
    rewrite A1, !A2, A3, !A4 by lia. cbn [negb dlaf_assert bind].
    rewrite normalize_accepts.
    - cbn [bind]. eexists. reflexivity.
    - intros rc. specialize (F rc). specialize (O rc). specialize (P rc).
      destruct P as (P1 & P2 & P3 & P4 & P5 & P6 & P7).
      destruct rc; cbn in *; lia. }
  destruct E as [d E]. exists d. split; [exact E|].
  apply built_ctor; try assumption.
  - intros rc. specialize (P rc). specialize (O rc). destruct P as (P1 & P2 & P3 & P4 & P5 & P6 & P7).
    split; cbn; try assumption; lia.
  - intros rc. specialize (O rc). specialize (P rc). destruct P as (P1 & P2 & P3 & P4 & P5 & P6 & P7).
    unfold blocks_fit_int. lia.
Qed.

(** ** Main constructor: rejection *)
Lemma ctor_rejects : forall size block tile grid rank src off,
  (~ (forall rc, 0 <= sel rc size)
   \/ ~ (forall rc, sel rc block <> 0) \/ ~ (forall rc, sel rc tile <> 0)
   \/ ~ (forall rc, (sel rc tile | sel rc block))
   \/ ~ (forall rc, 0 < sel rc grid)
   \/ ~ (forall rc, 0 <= sel rc rank < sel rc grid)
   \/ ~ (forall rc, 0 <= sel rc src < sel rc grid)) ->
  dist_ctor size block tile grid rank src off = Abort.
Proof.
  intros size block tile grid rank src off H. unfold dist_ctor.
  destruct (isValid2 size) eqn:A1; [|reflexivity]. cbn [dlaf_assert bind].
  destruct (isEmpty2 block) eqn:A2; [reflexivity|]. cbn [negb dlaf_assert bind].
  destruct (isEmpty2 tile) eqn:A3; [reflexivity|]. cbn [negb dlaf_assert bind].
  destruct (divides2 tile block) eqn:A4; [|reflexivity]. cbn [dlaf_assert bind].
  destruct (isEmpty2 grid) eqn:A5; [reflexivity|]. cbn [negb dlaf_assert bind].
  destruct (isIn2 rank grid) eqn:A6; [|reflexivity]. cbn [dlaf_assert bind].
  destruct (isIn2 src grid) eqn:A7; [|reflexivity]. cbn [dlaf_assert bind].
  exfalso.
  unfold isValid2, isEmpty2, isIn2, divides2, isValid2 in *.
  repeat match goal with
         | H : _ && _ = true |- _ => apply andb_prop in H as [? ?]
         | H : _ || _ = false |- _ => apply orb_false_elim in H as [? ?]
         | H : (_ <? _) = true |- _ => apply Z.ltb_lt in H
         | H : (_ <=? _) = true |- _ => apply Z.leb_le in H
         | H : (_ =? _) = false |- _ => apply Z.eqb_neq in H
         | H : (_ =? _) = true |- _ => apply Z.eqb_eq in H end.
  assert (D : forall x y, y <> 0 -> Z.rem x y = 0 -> (y | x)).
  { intros x y Hy E. exists (Z.quot x y). rewrite (Z.quot_rem' x y) at 1. rewrite E. lia. }
  destruct H as [H|[H|[H|[H|[H|[H|H]]]]]]; apply H; intros []; cbn [sel]; try assumption; try lia;
    try (apply D; assumption).
Qed.

(** negative block sizes are stopped by the normalisation assertion (or the division traps) *)
Lemma ctor_rejects_negative_block : forall size block tile grid rank src off d,
  dist_ctor size block tile grid rank src off = Ok d -> forall rc, 0 < sel rc block.
Proof.
  intros size block tile grid rank src off d H rc. unfold dist_ctor in H.
  repeat (apply bind_ok in H as (? & ?A & H)).
  unfold normalize_source_rank_and_offset in A6.
  repeat (apply bind_ok in A6 as (? & ?B & A6)). clear A6.
  unfold normalize_asserts in B1. apply bind_ok in B1 as (? & B2 & B3).
  apply assert_ok in A0, B2, B3. apply negb_true_iff in A0. unfold isEmpty2 in A0.
  apply orb_false_elim in A0 as [N1 N2]. apply Z.eqb_neq in N1, N2.
  apply Z.ltb_lt in B2, B3. cbn in B2, B3.
  assert (X : forall o b, b <> 0 -> Z.rem o b < b -> 0 < b).
  { intros o b Hb Hlt. destruct (Z_lt_ge_dec 0 b); [assumption|].
    pose proof (Z.rem_bound_abs o b Hb). lia. }
  destruct rc; cbn; eapply X; eassumption.
Qed.

(** ** Sub-distributions *)
Lemma sub_accepts : forall rank Ls d origin size,
  built rank Ls d ->
  (forall rc, 0 <= sel rc origin /\ 0 <= sel rc size /\ sel rc origin + sel rc size <= l_size (Ls rc)) ->
  (forall rc, l_grid (Ls rc) <= i32_max /\ ax_offset (get rc d) + sel rc origin <= i64_max /\
     ax_src (get rc d) + (ax_offset (get rc d) + sel rc origin) / ax_block (get rc d) <= i32_max) ->
  exists d', sub_distribution d origin size = Ok d' /\
     built rank (fun rc => window (Ls rc) (sel rc origin) (sel rc size)) d'.
Proof.
  intros rank Ls d origin size B O F.
  assert (E : exists d', sub_distribution d origin size = Ok d').
  { unfold sub_distribution.
    pose proof (O Row) as (R1 & R2 & R3). pose proof (O Col) as (C1 & C2 & C3). 
    pose proof (built_models _ _ _ B Row) as MR. pose proof (built_models _ _ _ B Col) as MC.
    rewrite (ms _ _ _ MR) in R3. rewrite (ms _ _ _ MC) in C3. cbn [sel get] in *.
    assert (A1 : isValid2 origin = true) by (unfold isValid2; apply andb_true_intro; split; apply Z.leb_le; lia).
    assert (A2 : isValid2 size = true) by (unfold isValid2; apply andb_true_intro; split; apply Z.leb_le; lia).
    assert (A3 : (fst origin + fst size <=? ax_size (d_row d)) = true) by (apply Z.leb_le; lia).
    assert (A4 : (snd origin + snd size <=? ax_size (d_col d)) = true) by (apply Z.leb_le; lia).
    rewrite A1, A2, A3, A4. cbn [dlaf_assert bind].
    rewrite normalize_accepts.
    - cbn [bind]. eexists. reflexivity.
    - intros rc. pose proof (built_models _ _ _ B rc) as M.
      pose proof (w_p _ (m_wf _ _ _ M)) as W. destruct W.
      specialize (F rc). specialize (O rc). rewrite (mg _ _ _ M) in F.
      destruct rc; cbn in *; lia. }
  destruct E as [d' E]. exists d'. split; [exact E|].
  eapply built_sub; try eassumption.
  intros rc. specialize (F rc). pose proof (built_models _ _ _ B rc) as M.
  pose proof (w_p _ (m_wf _ _ _ M)) as W. destruct W. unfold blocks_fit_int. lia.
Qed.

Lemma sub_compose : forall rank Ls d o1 s1 d1 o2 s2 d2 d3,
  built rank Ls d ->
  sub_distribution d o1 s1 = Ok d1 ->
  sub_distribution d1 o2 s2 = Ok d2 ->
  sub_distribution d (fst o1 + fst o2, snd o1 + snd o2) s2 = Ok d3 ->
  (forall rc, blocks_fit_int (ax_offset (get rc d) + sel rc o1 + sel rc o2) (ax_block (get rc d))) ->
  (forall rc, 0 <= sel rc o1 /\ 0 <= sel rc o2) ->
  d3 = d2.
Proof.
  intros rank Ls d o1 s1 d1 o2 s2 d2 d3 B S1 S2 S3 F N.
  assert (F1 : forall rc, blocks_fit_int (ax_offset (get rc d) + sel rc o1) (ax_block (get rc d))).
  { intros rc. specialize (F rc). specialize (N rc). unfold blocks_fit_int in *.
    pose proof (built_models _ _ _ B rc) as M. pose proof (w_off _ (w_p _ (m_wf _ _ _ M))).
    pose proof (div_le_mono (ax_offset (get rc d) + sel rc o1) (ax_offset (get rc d) + sel rc o1 + sel rc o2) (ax_block (get rc d))). lia. }
  pose proof (built_sub _ _ _ _ _ _ B F1 S1) as B1.
  assert (F2 : forall rc, blocks_fit_int (ax_offset (get rc d1) + sel rc o2) (ax_block (get rc d1))).
  { intros rc. specialize (F rc). specialize (N rc). unfold blocks_fit_int in *.
    pose proof (built_models _ _ _ B rc) as M. pose proof (w_off _ (w_p _ (m_wf _ _ _ M))) as WO.
    pose proof (built_models _ _ _ B1 rc) as M1. pose proof (w_off _ (w_p _ (m_wf _ _ _ M1))) as WO1.
    destruct (T_reported _ _ _ M) as (_ & RB & _ & _ & _ & RO & _).
    destruct (T_reported _ _ _ M1) as (_ & RB1 & _ & _ & _ & RO1 & _). cbn in RB1, RO1.
    assert (Eb : ax_block (get rc d1) = ax_block (get rc d)) by congruence.
    rewrite Eb. 
    assert (ax_offset (get rc d1) <= ax_offset (get rc d) + sel rc o1).
    { rewrite RO1, <- RB. rewrite <- (Z.add_mod_idemp_l (l_off (Ls rc))) by lia.
      rewrite RB at 1. rewrite <- RO. apply Z.mod_le; lia. }
    pose proof (div_le_mono (ax_offset (get rc d1) + sel rc o2) (ax_offset (get rc d) + sel rc o1 + sel rc o2) (ax_block (get rc d))). lia. }
  pose proof (built_sub _ _ _ _ _ _ B1 F2 S2) as B2.
  assert (F3 : forall rc, blocks_fit_int (ax_offset (get rc d) + sel rc (fst o1 + fst o2, snd o1 + snd o2)) (ax_block (get rc d))).
  { intros rc. specialize (F rc). destruct rc; cbn in *; rewrite Z.add_assoc; exact F. }
  pose proof (built_sub _ _ _ _ _ _ B F3 S3) as B3.
  apply dist_ext. intros rc.
  eapply models_unique; [apply (built_models _ _ _ B3 rc)|apply (built_models _ _ _ B2 rc)|].
  assert (E : window (Ls rc) (sel rc (fst o1 + fst o2, snd o1 + snd o2)) (sel rc s2) =
    window (window (Ls rc) (sel rc o1) (sel rc s1)) (sel rc o2) (sel rc s2)).
  { unfold window. cbn. f_equal. destruct rc; cbn; lia. }
  rewrite E. apply same_refl.
Qed.

Lemma sub_identity : forall rank Ls d,
  built rank Ls d -> (forall rc, l_grid (Ls rc) <= i32_max /\ l_block (Ls rc) <= i64_max) ->
  sub_distribution d (0, 0) (l_size (Ls Row), l_size (Ls Col)) = Ok d.
Proof.
  intros rank Ls d B F.
  destruct (sub_accepts rank Ls d (0, 0) (l_size (Ls Row), l_size (Ls Col)) B) as (d' & E & B').
  - intros rc. pose proof (m_ok _ _ _ (built_models _ _ _ B rc)) as []. destruct rc; cbn in *; lia.
  - intros rc. specialize (F rc). pose proof (built_models _ _ _ B rc) as M.
    pose proof (w_p _ (m_wf _ _ _ M)) as []. rewrite (mg _ _ _ M), (mb _ _ _ M) in F.
    assert (sel rc (0, 0) = 0) as -> by (destruct rc; reflexivity).
    rewrite Z.add_0_r, (Z.div_small (ax_offset (get rc d))) by lia. rewrite (mg _ _ _ M). lia.
  - rewrite E. f_equal. symmetry. apply dist_ext. intros rc.
    eapply models_unique; [apply (built_models _ _ _ B rc)|apply (built_models _ _ _ B' rc)|].
    cbn. assert (X : window (Ls rc) (sel rc (0, 0)) (sel rc (l_size (Ls Row), l_size (Ls Col))) = Ls rc).
    { unfold window. destruct rc; cbn; rewrite Z.add_0_r; [destruct (Ls Row)|destruct (Ls Col)]; reflexivity. }
    rewrite X. apply same_refl.
Qed.

(** ** shifting offset and source rank together *)
Lemma shift_same : forall size block tile grid src src' off q,
  0 < block -> 0 < tile -> (tile | block) -> 0 < grid -> 0 <= off -> 0 <= off + q * block ->
  (src' + q) mod grid = src mod grid ->
  same_layout (Layout size block tile grid src off) (Layout size block tile grid src' (off + q * block)).
Proof.
  intros size block tile grid src src' off q Hb Ht Hd Hg Ho Ho' Hs.
  eapply same_trans; [apply same_sym, normal_same; assumption|].
  eapply same_trans; [|apply normal_same; assumption].
  rewrite Z.div_add, Z.mod_add by lia.
  replace (src' + (off / block + q)) with ((src' + q) + off / block) by lia.
  rewrite <- (Zplus_mod_idemp_l src), <- (Zplus_mod_idemp_l (src' + q)), Hs. apply same_refl.
Qed.

(** ** one tile per block *)
Lemma single_tile_models : forall r L a, models r L a ->
  0 < l_size L \/ l_off L mod l_block L < l_tile L ->
  models r (Layout (l_size L) (l_block L) (l_block L) (l_grid L) (l_src L) (l_off L)) (ax_single_tile_per_block a).
Proof.
  intros r L a M H.
  pose proof (m_wf _ _ _ M) as WF. pose proof (w_p _ WF) as W. pose proof (m_ok _ _ _ M) as LO.
  destruct (T_reported _ _ _ M) as (RS & RB & RT & RG & RR & RO & RO2 & RSr & RSr2).
  assert (Hb : 0 < ax_block a) by (pose proof (w_off _ W); lia).
  set (b := ax_single_tile_per_block a).
  assert (Wp : wfp b).
  { destruct W. assert (T1 : tiles_per_block b = 1) by (unfold tiles_per_block; cbn; apply Z.quot_same; lia).
    split; try rewrite T1; cbn -[Z.mul]; try assumption; try lia. }
  assert (LOK : layout_ok (Layout (l_size L) (l_block L) (l_block L) (l_grid L) (l_src L) (l_off L))).
  { destruct LO. split; cbn; try assumption. exists 1. lia. }
  assert (ENT : ax_nr_tiles b = nt_spec b).
  { cbn. destruct (Z_lt_ge_dec 0 (ax_size a)) as [Hs|Hs].
    - rewrite (nr_blocks_pos a WF) by lia.
      destruct (nt_spec_pos b Wp ltac:(cbn; lia)) as [_ ->]. unfold tile_of. cbn.
      rewrite (Z.div_small (ax_offset a)) by lia. lia.
    - assert (ax_size a = 0) as S0 by (pose proof (w_size _ W); lia).
      unfold nt_spec. cbn [b ax_single_tile_per_block ax_size]. rewrite S0. cbn [Z.gtb Z.compare].
      unfold ax_nr_blocks. rewrite (wf_nt a WF). unfold nt_spec. rewrite S0. cbn [Z.gtb Z.compare].
      rewrite (gto_eq a W). rewrite Z.div_small by lia. unfold ceilDiv.
      pose proof (w_k _ W). apply Z.quot_small. lia. }
  assert (ELN : ax_local_nr_tiles b = ax_next_local_tile_from_global_tile b (ax_nr_tiles b)).
  { rewrite (next_local_spec b Wp) by (rewrite ENT; apply (nt_spec_nonneg b Wp)).
    destruct (Z_lt_ge_dec 0 (ax_size a)) as [Hs|Hs].
    - change (ax_local_nr_tiles b) with (ax_local_nr_blocks a). rewrite (local_nr_blocks_pos a WF) by lia.
      reflexivity.
    - assert (ax_size a = 0) as S0 by (pose proof (w_size _ W); lia).
      rewrite ENT. assert (nt_spec b = 0) as -> by (unfold nt_spec; cbn [b ax_single_tile_per_block ax_size]; rewrite S0; reflexivity).
      rewrite count_0 by lia. cbn. unfold ax_local_nr_blocks, local_tile_offset.
      rewrite (gto_eq a W), (Z.div_small (ax_offset a)) by lia.
      rewrite (wf_lnt a WF), (wf_nt a WF). unfold nt_spec. rewrite S0. cbn [Z.gtb Z.compare].
      rewrite count_0 by lia. unfold ceilDiv. pose proof (w_k _ W).
      destruct (is_source_rank a); apply Z.quot_small; lia. }
  assert (WFb : wf b).
  { split; [exact Wp|exact ENT|exact ELN|].
    rewrite (compute_local_size_spec b Wp ENT ELN).
    change (ax_local_size b) with (ax_local_size a). rewrite (wf_ls a WF).
    apply count_ext. intros e He. reflexivity. }
  split.
  - exact WFb.
  - exact RR.
  - eapply same_trans; [|apply normal_same; try (cbn; rewrite <- ?RB, <- ?RG; lia)].
    + assert (E : layout_of b = Layout (l_size L) (l_block L) (l_block L) (l_grid L)
        ((l_src L + l_off L / l_block L) mod l_grid L) (l_off L mod l_block L)).
      { unfold layout_of. cbn. rewrite RSr. unfold owner. rewrite Z.add_0_r. congruence. }
      rewrite E. apply same_refl.
    + exists 1. lia.
    + apply LO.
  - exact LOK.
Qed.
