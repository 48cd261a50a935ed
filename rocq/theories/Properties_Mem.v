(** * Properties C15-C18, C42: storage of matrices, tiles and memory views. *)
From Coq Require Import ZArith Lia Bool List.
From Verif Require Import CInt Loop DistModel DistSpec DivLemmas DistProofs DistProofs2 DistBuilt DistThms DistCtor
  IndexModel MemModel MemAxis MemProofs MemThms.
Import ListNotations.
Open Scope Z_scope.

(** ** C15: storage allocated by the library *)

(** The pieces of the local matrix that share one allocation: everything, a block, or a tile.
    [piece lay a l] numbers the piece of local row (column) l of axis a. *)
Definition piece (lay : allocation_layout) (a : axis) (l : Z) : Z :=
  match lay with
  | ColMajor => 0
  | Blocks => ax_local_tile_from_local_element (ax_single_tile_per_block a) l
  | Tiles => ax_local_tile_from_local_element a l
  end.
(** m is the number of rows of some piece *)
Definition piece_rows (d : distribution) (lay : allocation_layout) (m : Z) : Prop :=
  if isEmpty2 (local_size2 d) then m = 0
  else match lay with
       | ColMajor => m = ax_local_size (d_row d)
       | Blocks => exists b, 0 <= b < ax_local_nr_blocks (d_row d) /\
                             m = ax_local_tile_size_of (ax_single_tile_per_block (d_row d)) b
       | Tiles => exists i, 0 <= i < ax_local_nr_tiles (d_row d) /\ m = ax_local_tile_size_of (d_row d) i
       end.

Lemma empty_or_not : forall rank Ls d, built rank Ls d ->
  (isEmpty2 (local_size2 d) = true /\ (ax_local_size (d_row d) = 0 \/ ax_local_size (d_col d) = 0)) \/
  (isEmpty2 (local_size2 d) = false /\ 0 < ax_local_size (d_row d) /\ 0 < ax_local_size (d_col d)).
Proof.
  intros rank Ls d B.
  assert (N : forall rc, 0 <= ax_local_size (get rc d)).
  { intros rc. pose proof (built_models _ _ _ B rc) as M. rewrite (T_local_size _ _ _ M).
    apply count_bounds. apply (m_ok _ _ _ M). }
  pose proof (N Row) as N1. pose proof (N Col) as N2. cbn in N1, N2.
  unfold isEmpty2, local_size2. cbn [fst snd].
  destruct (Z.eqb_spec (ax_local_size (d_row d)) 0); destruct (Z.eqb_spec (ax_local_size (d_col d)) 0); cbn; lia.
Qed.
Lemma no_tiles : forall rank Ls d, built rank Ls d -> forall rc, ax_local_size (get rc d) = 0 <-> ax_local_nr_tiles (get rc d) = 0.
Proof.
  intros rank Ls d B rc. pose proof (built_models _ _ _ B rc) as M. pose proof (m_wf _ _ _ M) as WF.
  pose proof (lnt_nonneg _ WF). pose proof (lb_end (get rc d)) as LE. pose proof (lb_0 _ _ _ M) as L0.
  split; intros E.
  - destruct (Z.eq_dec (ax_local_nr_tiles (get rc d)) 0); [assumption|].
    pose proof (lb_mono _ _ _ M 0 (ax_local_nr_tiles (get rc d))). lia.
  - rewrite E in LE. lia.
Qed.

(** A tile in heap h: valid size and leading dimension, and, unless empty, a view that lies inside
    one chunk and is large enough for its elements. *)
Record wf_tile (h : heap) (t : tile_data) : Prop := {
  wt_rows : 0 <= fst (td_size t);
  wt_cols : 0 <= snd (td_size t);
  wt_ld : Z.max 1 (fst (td_size t)) <= td_ld t;
  wt_size : 0 <= mv_size (td_view t);
  wt_view : 0 < fst (td_size t) -> 0 < snd (td_size t) ->
    exists c k, mv_chunk (td_view t) = Some c /\ nth_error h c = Some k /\
      0 <= mv_off (td_view t) /\ mv_off (td_view t) + mv_size (td_view t) <= ck_size k /\
      fst (td_size t) + td_ld t * (snd (td_size t) - 1) <= mv_size (td_view t)
}.

(** What "well stored" means for matrix m in heap h', of which the first n chunks existed
    before. *)
Record well_stored (d : distribution) (n : nat) (h' : heap) (m : matrix) : Prop := {
  ws_dist : mx_dist m = d;
  ws_count : Z.of_nat (length (mx_tiles m)) = ax_local_nr_tiles (d_row d) * ax_local_nr_tiles (d_col d);
  (* each tile: its size, and element (x, y) at base + x + ld * y *)
  ws_tile : forall i j, 0 <= i < ax_local_nr_tiles (d_row d) -> 0 <= j < ax_local_nr_tiles (d_col d) ->
    exists t c base, mx_tile m (i, j) = Ok t /\ td_size t = tile_size_of_local d (i, j) /\ wf_tile h' t /\
      forall x y, 0 <= x < fst (td_size t) -> 0 <= y < snd (td_size t) ->
        tile_ptr h' t (x, y) = Ok (c, base + x + td_ld t * y);
  (* each element: inside a chunk that the library allocated for this matrix *)
  ws_inside : forall i j, 0 <= i < ax_local_size (d_row d) -> 0 <= j < ax_local_size (d_col d) ->
    exists c p k, local_element_address h' m (i, j) = Ok (c, p) /\ (n <= c)%nat /\
      nth_error h' c = Some k /\ ck_allocated k = true /\ 0 <= p < ck_size k;
  (* no two elements at the same address *)
  ws_inj : forall i j i' j', 0 <= i < ax_local_size (d_row d) -> 0 <= j < ax_local_size (d_col d) ->
    0 <= i' < ax_local_size (d_row d) -> 0 <= j' < ax_local_size (d_col d) ->
    local_element_address h' m (i, j) = local_element_address h' m (i', j') -> i = i' /\ j = j'
}.

Lemma tile_clause : forall rank Ls d h' T lay, built rank Ls d ->
  let nr := ax_local_nr_tiles (d_row d) in let nc := ax_local_nr_tiles (d_col d) in
  (forall i j, 0 <= i < ax_local_size (d_row d) -> 0 <= j < ax_local_size (d_col d) ->
     exists a, local_element_address h' (Matrix d (grid_list T nr nc) lay) (i, j) = Ok a) ->
  (forall i j, 0 <= i < nr -> 0 <= j < nc -> td_size (T i j) = tile_size_of_local d (i, j) /\
     wf_tile h' (T i j)) ->
  forall i j, 0 <= i < nr -> 0 <= j < nc ->
    exists t c base, mx_tile (Matrix d (grid_list T nr nc) lay) (i, j) = Ok t /\ td_size t = tile_size_of_local d (i, j) /\ wf_tile h' t /\
      forall x y, 0 <= x < fst (td_size t) -> 0 <= y < snd (td_size t) ->
        tile_ptr h' t (x, y) = Ok (c, base + x + td_ld t * y).
Proof.
  intros rank Ls d h' T lay B nr nc A S i j Hi Hj.
  pose proof (built_models _ _ _ B Row) as MR. pose proof (built_models _ _ _ B Col) as MC. cbn [get sel] in MR, MC.
  destruct (S i j Hi Hj) as [S1 S2].
  exists (T i j), (match mv_chunk (td_view (T i j)) with Some c => c | None => 0%nat end), (mv_off (td_view (T i j))).
  split; [unfold mx_tile, tile_linear_index; cbn [mx_tiles mx_dist fst snd]; fold nr; rewrite grid_nth by assumption; reflexivity|].
  split; [exact S1|]. split; [exact S2|]. intros x y Hx Hy.
  rewrite S1 in Hx, Hy. unfold tile_size_of_local, both in Hx, Hy. cbn [fst snd] in Hx, Hy.
  pose proof (lb_step _ _ _ MR i Hi) as R1. pose proof (lb_step _ _ _ MC j Hj) as R2.
  pose proof (lb_bounds _ _ _ MR (i + 1) ltac:(lia)). pose proof (lb_bounds _ _ _ MC (j + 1) ltac:(lia)).
  pose proof (lb_bounds _ _ _ MR i ltac:(lia)). pose proof (lb_bounds _ _ _ MC j ltac:(lia)).
  assert (L1 : 0 <= lb (d_row d) i + x < ax_local_size (d_row d)) by lia.
  assert (L2 : 0 <= lb (d_col d) j + y < ax_local_size (d_col d)) by lia.
  destruct (loc _ _ _ MR _ L1) as (P1 & P2 & P3). destruct (loc _ _ _ MC _ L2) as (Q1 & Q2 & Q3).
  set (i' := ax_local_tile_from_local_element (d_row d) (lb (d_row d) i + x)) in *.
  set (j' := ax_local_tile_from_local_element (d_col d) (lb (d_col d) j + y)) in *.
  assert (i' = i).
  { apply (lb_unique _ _ _ MR i' i (lb (d_row d) i + x)); try assumption; [|lia].
    pose proof (lb_step _ _ _ MR i' P1). lia. }
  assert (j' = j).
  { apply (lb_unique _ _ _ MC j' j (lb (d_col d) j + y)); try assumption; [|lia].
    pose proof (lb_step _ _ _ MC j' Q1). lia. }
  destruct (A _ _ L1 L2) as (a & Ea).
  unfold nr, nc in Ea; rewrite (addr_grid rank Ls d B h' T lay _ _ L1 L2) in Ea. fold i' j' in Ea. rewrite H3, H4 in *.
  replace (ax_tile_element_from_local_element (d_row d) (lb (d_row d) i + x)) with x in Ea by lia.
  replace (ax_tile_element_from_local_element (d_col d) (lb (d_col d) j + y)) with y in Ea by lia.
  unfold tile_ptr, mview_at in *. destruct (mv_chunk (td_view (T i j))); [|discriminate].
  destruct (nth_error h' n); [|discriminate].
  unfold linearIndex in *. cbn [fst snd] in *.
  rewrite !Z.add_assoc in *.
  destruct ((0 <=? mv_off (td_view (T i j)) + x + td_ld (T i j) * y) && (mv_off (td_view (T i j)) + x + td_ld (T i j) * y <? ck_size c));
    [reflexivity|discriminate].
Qed.

(** Every matrix the library allocates - any distribution, element size, device, layout, and any
    leading dimension that is at least the number of rows of each piece - is set up without
    error and is well stored, in fresh memory.  Column-major storage needs a zero offset. *)
Theorem C15_storage_well_formed : forall rank Ls d fuel D sz tune a h,
  built rank Ls d -> 0 < sz ->
  (Z.to_nat (ax_local_nr_tiles (d_row d)) <= fuel)%nat -> (Z.to_nat (ax_local_nr_tiles (d_col d)) <= fuel)%nat ->
  let lay := spec_layout tune a in
  (forall m, piece_rows d lay m -> ld_fits m (spec_ld tune a)) ->
  (lay = ColMajor -> offset2 d = (0, 0)) ->
  exists m h', matrix_from_distribution fuel D sz tune d a h = Ok (m, h ++ h') /\
    mx_layout m = Some lay /\ well_stored d (length h) (h ++ h') m.
Proof.
  intros rank Ls d fuel D sz tune a h B Hsz F1 F2 lay Hld Hoff.
  unfold matrix_from_distribution. fold lay. cbn [dist_move]. cbn [dlaf_assert eqb2 offset2]. cbn [bind dlaf_assert].
  set (ld := spec_ld tune a) in *. unfold set_up_non_preallocated_tiles.
  destruct (empty_or_not _ _ _ B) as [[Em Ez]|(Em & NER & NEC)]; rewrite Em.
  - destruct (compute_ld_ok D sz 0 ld Hsz) as [E _].
    { apply Hld. unfold piece_rows. rewrite Em. reflexivity. }
    rewrite E. cbn [bind fst snd]. exists (Matrix d [] (Some lay)), []. rewrite app_nil_r.
    split; [reflexivity|]. split; [reflexivity|].
    pose proof (no_tiles _ _ _ B Row) as NR. pose proof (no_tiles _ _ _ B Col) as NC. cbn in NR, NC.
    constructor; cbn [mx_dist mx_tiles length]; intros; try reflexivity; nia.
  - pose proof (built_models _ _ _ B Row) as MR. pose proof (built_models _ _ _ B Col) as MC. cbn [get sel] in MR, MC.
    pose proof (lnt_pos _ _ _ MR NER) as PR. pose proof (lnt_pos _ _ _ MC NEC) as PC.
    unfold piece_rows in Hld. rewrite Em in Hld.
    destruct lay eqn:El.
    + (* ColMajor *)
      specialize (Hoff eq_refl). unfold offset2 in Hoff. injection Hoff as O1 O2.
      specialize (Hld _ eq_refl).
      rewrite (set_up_col_major_ok rank Ls d B NER NEC D sz Hsz ld h Hld O1 O2). cbn [bind fst snd].
      destruct (compute_ld_ok D sz _ ld Hsz Hld) as [_ Hl].
      set (l := ldv D sz (ax_local_size (d_row d)) ld) in *.
      eexists _, _. split; [reflexivity|]. split; [reflexivity|].
      set (k := Chunk (ax_local_size (d_row d) + l * (ax_local_size (d_col d) - 1)) true).
      assert (K : nth_error (h ++ [k]) (length h) = Some k) by (rewrite nth_error_app2, Nat.sub_diag by lia; reflexivity).
      pose proof (fun li lj => addr_col rank Ls d B (h ++ [k]) (length h) k l (Some ColMajor) li lj K eq_refl ltac:(lia)) as AD.
      constructor.
      * reflexivity.
      * cbn [mx_tiles]. apply grid_length; lia.
      * apply (tile_clause rank Ls); [exact B| |].
        -- intros i j Hi Hj. eexists. apply AD; assumption.
        -- intros i j Hi Hj. split; [reflexivity|]. pose proof (rsz _ _ _ B i Hi). pose proof (csz _ _ _ B j Hj).
           pose proof (lb_step _ _ _ MR i Hi). pose proof (lb_bounds _ _ _ MR (i + 1) ltac:(lia)).
           pose proof (lb_bounds _ _ _ MR i ltac:(lia)).
           pose proof (lb_step _ _ _ MC j Hj). pose proof (lb_bounds _ _ _ MC (j + 1) ltac:(lia)).
           pose proof (lb_bounds _ _ _ MC j ltac:(lia)).
           unfold T_col. constructor; cbn [td_size td_view td_ld mv_chunk mv_off mv_size fst snd]; try lia; try nia.
           intros _ _. exists (length h), k. split; [reflexivity|]. split; [exact K|]. cbn [ck_size k]. unfold k; cbn [ck_size]. nia.
      * intros i j Hi Hj. exists (length h), (i + l * j), k. rewrite AD by assumption.
        split; [reflexivity|]. split; [lia|]. split; [exact K|]. split; [reflexivity|]. cbn. nia.
      * intros i j i' j' Hi Hj Hi' Hj' E. rewrite !AD in E by assumption. injection E as E. apply col_inj in E; lia.
    + (* Blocks *)
      assert (Hf : forall b, 0 <= b < ax_local_nr_blocks (d_row d) ->
        ld_fits (ax_local_tile_size_of (ax_single_tile_per_block (d_row d)) b) ld) by (intros b Hb; apply Hld; eauto).
      rewrite (set_up_blocks_ok rank Ls d B NER NEC D sz Hsz ld Hf fuel h F1 F2). cbn [bind fst snd].
      eexists _, _. split; [reflexivity|]. split; [reflexivity|].
      pose proof (fun li lj => addr_block rank Ls d B NER NEC D sz Hsz ld Hf h (Some Blocks) li lj) as AD.
      constructor.
      * reflexivity.
      * cbn [mx_tiles]. apply grid_length; lia.
      * apply (tile_clause rank Ls); [exact B| |].
        -- intros i j Hi Hj. eexists. apply AD; assumption.
        -- intros i j Hi Hj. split; [reflexivity|].
           pose proof (rsz _ _ _ B i Hi) as RS. pose proof (lb_step _ _ _ MR i Hi) as RST.
           pose proof (lb_bounds _ _ _ MR i ltac:(lia)). pose proof (lb_bounds _ _ _ MR (i + 1) ltac:(lia)).
           assert (L1 : 0 <= lb (d_row d) i < ax_local_size (d_row d)) by lia.
           assert (L2 : 0 <= lb (d_row d) i + ax_local_tile_size_of (d_row d) i - 1 < ax_local_size (d_row d)) by lia.
           assert (G : forall l, lb (d_row d) i <= l < lb (d_row d) (i + 1) -> ax_local_tile_from_local_element (d_row d) l = i).
           { intros l Hl'. destruct (loc _ _ _ MR l ltac:(lia)) as (P1 & P2 & P3).
             apply (lb_unique _ _ _ MR _ _ l); try assumption. pose proof (lb_step _ _ _ MR _ P1). lia. }
           destruct (block_of _ _ _ MR NER _ L1) as (P1 & P2). rewrite G in P1, P2 by lia.
           destruct (block_of _ _ _ MR NER _ L2) as (Q1 & Q2). rewrite G in Q1, Q2 by lia.
           destruct (bld_ok _ D sz Hsz ld Hf _ P1) as (_ & X & Y).
           pose proof (csz _ _ _ B j Hj) as CS. pose proof (lb_step _ _ _ MC j Hj) as CST.
           pose proof (lb_bounds _ _ _ MC j ltac:(lia)). pose proof (lb_bounds _ _ _ MC (j + 1) ltac:(lia)).
           assert (K1 : 0 <= lb (d_col d) j < ax_local_size (d_col d)) by lia.
           assert (K2 : 0 <= lb (d_col d) j + ax_local_tile_size_of (d_col d) j - 1 < ax_local_size (d_col d)) by lia.
           assert (G' : forall l, lb (d_col d) j <= l < lb (d_col d) (j + 1) -> ax_local_tile_from_local_element (d_col d) l = j).
           { intros l Hl'. destruct (loc _ _ _ MC l ltac:(lia)) as (U1 & U2 & U3).
             apply (lb_unique _ _ _ MC _ _ l); try assumption. pose proof (lb_step _ _ _ MC _ U1). lia. }
           destruct (block_of _ _ _ MC NEC _ K1) as (U1 & U2). rewrite G' in U1, U2 by lia.
           destruct (block_of _ _ _ MC NEC _ K2) as (V1 & V2). rewrite G' in V1, V2 by lia.
           unfold T_block. constructor; cbn [td_size td_view td_ld mv_chunk mv_off mv_size fst snd]; try lia; try nia.
           intros _ _. eexists _, _. split; [reflexivity|]. split; [apply nth_grid_app; assumption|]. unfold C_block; cbn [ck_size]. nia.
      * intros i j Hi Hj. destruct (AD i j Hi Hj) as (E & N).
        eexists (fst (block_addr d D sz ld (length h) i j)), (snd (block_addr d D sz ld (length h) i j)), _.
        split; [rewrite E; destruct (block_addr d D sz ld (length h) i j); reflexivity|].
        split; [unfold block_addr; cbn; lia|]. split; [exact N|]. split; [reflexivity|].
        unfold C_block, block_addr. cbn [ck_size snd].
        destruct (block_of _ _ _ MR NER _ Hi) as (P1 & P2). destruct (block_of _ _ _ MC NEC _ Hj) as (Q1 & Q2).
        destruct (bld_ok _ D sz Hsz ld Hf _ P1) as (_ & X & Y). nia.
      * intros i j i' j' Hi Hj Hi' Hj' E. rewrite (proj1 (AD i j Hi Hj)), (proj1 (AD i' j' Hi' Hj')) in E. injection E as E1 E2.
        apply (block_addr_inj rank Ls d B NER NEC D sz Hsz ld Hf (length h)); try assumption. unfold block_addr. congruence.
    + (* Tiles *)
      assert (Hf : forall i, 0 <= i < ax_local_nr_tiles (d_row d) -> ld_fits (ax_local_tile_size_of (d_row d) i) ld)
        by (intros i Hi; apply Hld; eauto).
      rewrite (set_up_tiles_ok rank Ls d B NER NEC D sz Hsz ld h Hf). cbn [bind fst snd].
      eexists _, _. split; [reflexivity|]. split; [reflexivity|].
      pose proof (fun li lj => addr_tile rank Ls d B D sz Hsz ld h (Some Tiles) li lj Hf) as AD.
      constructor.
      * reflexivity.
      * cbn [mx_tiles]. apply grid_length; lia.
      * apply (tile_clause rank Ls); [exact B| |].
        -- intros i j Hi Hj. eexists. apply AD; assumption.
        -- intros i j Hi Hj. split; [reflexivity|]. destruct (compute_ld_ok D sz _ ld Hsz (Hf i Hi)) as [_ X].
           pose proof (rsz _ _ _ B i Hi). pose proof (csz _ _ _ B j Hj).
           unfold T_tile. constructor; cbn [td_size td_view td_ld mv_chunk mv_off mv_size fst snd]; try lia; try nia.
           intros _ _. eexists _, _. split; [reflexivity|]. split; [apply nth_grid_app; assumption|]. unfold C_tile; cbn [ck_size]. nia.
      * intros i j Hi Hj. destruct (AD i j Hi Hj) as (E & N).
        eexists (fst (tile_addr d D sz ld (length h) i j)), (snd (tile_addr d D sz ld (length h) i j)), _.
        split; [rewrite E; destruct (tile_addr d D sz ld (length h) i j); reflexivity|].
        split; [unfold tile_addr; cbn; lia|]. split; [exact N|]. split; [reflexivity|].
        unfold C_tile, tile_addr. cbn [ck_size snd].
        destruct (loc _ _ _ MR _ Hi) as (P1 & P2 & _). destruct (loc _ _ _ MC _ Hj) as (Q1 & Q2 & _).
        destruct (compute_ld_ok D sz _ ld Hsz (Hf _ P1)) as [_ X]. nia.
      * intros i j i' j' Hi Hj Hi' Hj' E. rewrite (proj1 (AD i j Hi Hj)), (proj1 (AD i' j' Hi' Hj')) in E. injection E as E1 E2.
        apply (tile_addr_inj rank Ls d B D sz Hsz ld (length h) i j i' j' Hf); try assumption. unfold tile_addr. congruence.
Qed.

(** Which elements share an allocation, and how they are placed in it: two elements are in the
    same chunk exactly when they belong to the same piece, and inside a piece the storage is
    column-major with one leading dimension. *)
Lemma blk_piece : forall r L a (M : models r L a) (NE : 0 < ax_local_size a) l, 0 <= l < ax_local_size a ->
  blk a (ax_local_tile_from_local_element a l) = ax_local_tile_from_local_element (ax_single_tile_per_block a) l.
Proof.
  intros r L a M NE l Hl. destruct (block_of _ _ _ M NE l Hl) as (P1 & P2). pose proof (Mh _ _ _ M NE) as MH.
  destruct (loc _ _ _ MH l Hl) as (Q1 & Q2 & Q3).
  set (b := blk a _) in *. pose proof (lb_step _ _ _ MH b P1). pose proof (lb_step _ _ _ MH _ Q1).
  apply (lb_unique _ _ _ MH _ _ l P1 Q1); lia.
Qed.
Theorem C15_pieces : forall rank Ls d fuel D sz tune a h m h',
  built rank Ls d -> 0 < sz ->
  (Z.to_nat (ax_local_nr_tiles (d_row d)) <= fuel)%nat -> (Z.to_nat (ax_local_nr_tiles (d_col d)) <= fuel)%nat ->
  let lay := spec_layout tune a in
  (forall m, piece_rows d lay m -> ld_fits m (spec_ld tune a)) ->
  (lay = ColMajor -> offset2 d = (0, 0)) ->
  matrix_from_distribution fuel D sz tune d a h = Ok (m, h') ->
  exists ld_of, forall i j i' j', 
    0 <= i < ax_local_size (d_row d) -> 0 <= j < ax_local_size (d_col d) ->
    0 <= i' < ax_local_size (d_row d) -> 0 <= j' < ax_local_size (d_col d) ->
    exists c p c' p', local_element_address h' m (i, j) = Ok (c, p) /\ local_element_address h' m (i', j') = Ok (c', p') /\
      (c = c' <-> piece lay (d_row d) i = piece lay (d_row d) i' /\ piece lay (d_col d) j = piece lay (d_col d) j') /\
      (c = c' -> p' - p = (i' - i) + ld_of (piece lay (d_row d) i) * (j' - j)).
Proof.
  intros rank Ls d fuel D sz tune a h m h' B Hsz F1 F2 lay Hld Hoff.
  unfold matrix_from_distribution. fold lay. cbn [dist_move]. cbn [dlaf_assert eqb2 offset2]. cbn [bind dlaf_assert].
  set (ld := spec_ld tune a) in *. unfold set_up_non_preallocated_tiles.
  destruct (empty_or_not _ _ _ B) as [[Em Ez]|(Em & NER & NEC)]; rewrite Em.
  { intros _. exists (fun _ => 0). intros. lia. }
  pose proof (built_models _ _ _ B Row) as MR. pose proof (built_models _ _ _ B Col) as MC. cbn [get sel] in MR, MC.
  unfold piece_rows in Hld. rewrite Em in Hld.
  destruct lay eqn:El.
  + specialize (Hoff eq_refl). unfold offset2 in Hoff. injection Hoff as O1 O2. specialize (Hld _ eq_refl).
    rewrite (set_up_col_major_ok rank Ls d B NER NEC D sz Hsz ld h Hld O1 O2). cbn [bind fst snd].
    destruct (compute_ld_ok D sz _ ld Hsz Hld) as [_ Hl]. set (l := ldv D sz (ax_local_size (d_row d)) ld) in *.
    intros [= <- <-].
    set (k := Chunk (ax_local_size (d_row d) + l * (ax_local_size (d_col d) - 1)) true).
    assert (K : nth_error (h ++ [k]) (length h) = Some k) by (rewrite nth_error_app2, Nat.sub_diag by lia; reflexivity).
    pose proof (fun li lj => addr_col rank Ls d B (h ++ [k]) (length h) k l (Some ColMajor) li lj K eq_refl ltac:(lia)) as AD.
    exists (fun _ => l). intros i j i' j' Hi Hj Hi' Hj'.
    exists (length h), (i + l * j), (length h), (i' + l * j'). rewrite !AD by assumption.
    split; [reflexivity|]. split; [reflexivity|]. split; [cbn; tauto|]. intros _. lia.
  + assert (Hf : forall b, 0 <= b < ax_local_nr_blocks (d_row d) ->
      ld_fits (ax_local_tile_size_of (ax_single_tile_per_block (d_row d)) b) ld) by (intros b Hb; apply Hld; eauto).
    rewrite (set_up_blocks_ok rank Ls d B NER NEC D sz Hsz ld Hf fuel h F1 F2). cbn [bind fst snd].
    intros [= <- <-].
    pose proof (fun li lj => addr_block rank Ls d B NER NEC D sz Hsz ld Hf h (Some Blocks) li lj) as AD.
    exists (bld d D sz ld). intros i j i' j' Hi Hj Hi' Hj'.
    destruct (AD i j Hi Hj) as [E1 _]. destruct (AD i' j' Hi' Hj') as [E2 _].
    destruct (block_of _ _ _ MR NER _ Hi) as (P1 & P2). destruct (block_of _ _ _ MC NEC _ Hj) as (Q1 & Q2).
    destruct (block_of _ _ _ MR NER _ Hi') as (P1' & P2'). destruct (block_of _ _ _ MC NEC _ Hj') as (Q1' & Q2').
    pose proof (blk_piece _ _ _ MR NER _ Hi) as Z1. pose proof (blk_piece _ _ _ MR NER _ Hi') as Z2.
    pose proof (blk_piece _ _ _ MC NEC _ Hj) as Z3. pose proof (blk_piece _ _ _ MC NEC _ Hj') as Z4.
    unfold block_addr in E1, E2. rewrite Z1, Z3 in *. rewrite Z2, Z4 in *.
    eexists _, _, _, _. split; [exact E1|]. split; [exact E2|].
    assert (I : ((length h + Z.to_nat (ax_local_tile_from_local_element (ax_single_tile_per_block (d_row d)) i +
       ax_local_nr_blocks (d_row d) * ax_local_tile_from_local_element (ax_single_tile_per_block (d_col d)) j))%nat =
       (length h + Z.to_nat (ax_local_tile_from_local_element (ax_single_tile_per_block (d_row d)) i' +
       ax_local_nr_blocks (d_row d) * ax_local_tile_from_local_element (ax_single_tile_per_block (d_col d)) j'))%nat) <->
       piece Blocks (d_row d) i = piece Blocks (d_row d) i' /\ piece Blocks (d_col d) j = piece Blocks (d_col d) j').
    { cbn [piece]. split.
      - intros E. apply (grid_index_inj (ax_local_nr_blocks (d_row d))); try assumption; lia.
      - intros [-> ->]. reflexivity. }
    split; [exact I|]. intros E. apply I in E. cbn [piece] in E. destruct E as [Ea Eb]. cbn [piece]. rewrite <- Ea, <- Eb. ring.
  + assert (Hf : forall i, 0 <= i < ax_local_nr_tiles (d_row d) -> ld_fits (ax_local_tile_size_of (d_row d) i) ld)
      by (intros i Hi; apply Hld; eauto).
    rewrite (set_up_tiles_ok rank Ls d B NER NEC D sz Hsz ld h Hf). cbn [bind fst snd].
    intros [= <- <-].
    pose proof (fun li lj => addr_tile rank Ls d B D sz Hsz ld h (Some Tiles) li lj Hf) as AD.
    exists (fun i => ldv D sz (ax_local_tile_size_of (d_row d) i) ld). intros i j i' j' Hi Hj Hi' Hj'.
    destruct (AD i j Hi Hj) as [E1 _]. destruct (AD i' j' Hi' Hj') as [E2 _].
    destruct (loc _ _ _ MR _ Hi) as (P1 & P2 & P3). destruct (loc _ _ _ MC _ Hj) as (Q1 & Q2 & Q3).
    destruct (loc _ _ _ MR _ Hi') as (P1' & P2' & P3'). destruct (loc _ _ _ MC _ Hj') as (Q1' & Q2' & Q3').
    unfold tile_addr in E1, E2. eexists _, _, _, _. split; [exact E1|]. split; [exact E2|].
    cbn [piece].
    match goal with |- (?x <-> ?y) /\ _ => assert (I : x <-> y) end.
    { split.
      - intros E. apply (grid_index_inj (ax_local_nr_tiles (d_row d))); try assumption; lia.
      - intros [-> ->]. reflexivity. }
    split; [exact I|]. intros E. apply I in E. destruct E as [Ea Eb]. rewrite <- Ea, <- Eb in *. nia.
Qed.

(** A given leading dimension smaller than the rows of any piece is never accepted. *)
Lemma for_each_ok : forall S lo hi (f : Z -> S -> res S) s s', for_ lo hi f s = Ok s' ->
  forall i, lo <= i < hi -> exists t t', f i t = Ok t'.
Proof.
  intros S lo hi f s s' E i Hi.
  refine (for_inv_partial S (fun k _ => forall i, lo <= i < k -> exists t t', f i t = Ok t') lo hi f s s' _ _ _ E i Hi);
    [lia|intros; lia|].
  intros k t t' Hk I Ek x Hx. destruct (Z.eq_dec x k) as [->|]; [eauto|]. apply I. lia.
Qed.
Theorem C15_small_ld_rejected : forall rank Ls d fuel D sz tune a h v m,
  built rank Ls d -> piece_rows d (spec_layout tune a) m ->
  as_ld a = Some (LdValue v) -> v < Z.max 1 m ->
  forall r, matrix_from_distribution fuel D sz tune d a h <> Ok r.
Proof.
  intros rank Ls d fuel D sz tune a h v m B Hm Hv Hlt r E.
  unfold matrix_from_distribution in E. cbn [dist_move] in E. cbn [dlaf_assert eqb2 offset2] in E. cbn [bind dlaf_assert] in E.
  assert (EL : spec_ld tune a = LdValue v) by (unfold spec_ld; rewrite Hv; reflexivity). rewrite EL in E.
  unfold set_up_non_preallocated_tiles in E. unfold piece_rows in Hm.
  destruct (empty_or_not _ _ _ B) as [[Em Ez]|(Em & NER & NEC)]; rewrite Em in E, Hm.
  { rewrite compute_ld_bad in E by lia. discriminate. }
  pose proof (built_models _ _ _ B Row) as MR. pose proof (built_models _ _ _ B Col) as MC. cbn [get sel] in MR, MC.
  destruct (spec_layout tune a).
  - unfold set_up_col_major in E. rewrite compute_ld_bad in E by lia. discriminate.
  - destruct Hm as (b & Hb & Hm).
    destruct (set_up_blocks fuel D sz d (LdValue v) (h, [])) as [s| |] eqn:Es; try discriminate. clear E.
    unfold set_up_blocks in Es.
    destruct (eqb2 _ _) in Es; [|discriminate]. cbn [dlaf_assert bind] in Es.
    match type of Es with bind ?x _ = _ => destruct x as [s1| |] eqn:Ef; try discriminate end. clear Es.
    assert (NH : forall L r x, models r L x -> 0 < ax_local_size x -> ax_local_nr_blocks (ax_single_tile_per_block x) = ax_local_nr_blocks x)
      by (intros; eapply nblk_h; eassumption).
    apply for_each_ok with (i := 0) in Ef.
    2: { cbn [create_single_tile_per_block_distribution on_both d_col]. rewrite (NH _ _ _ MC NEC). pose proof (nblk_pos _ _ _ MC NEC). lia. }
    destruct Ef as (t & t' & Ef).
    match type of Ef with bind ?x _ = _ => destruct x as [s2| |] eqn:Ew; try discriminate end. clear Ef.
    pose proof (block_size_pos _ _ _ MC NEC 0 ltac:(pose proof (nblk_pos _ _ _ MC NEC); lia)) as BP.
    assert (exists u u', block_row_loop fuel D sz d (create_single_tile_per_block_distribution d) (LdValue v)
       (ax_local_tile_size_of (d_col (create_single_tile_per_block_distribution d)) 0)
       (ax_local_tile_size_of (d_col d) (bs_j t)) u = Ok u') as (u & u' & Eu).
    { destruct fuel as [|f]; cbn [while_ bs_jel create_single_tile_per_block_distribution on_both d_col] in Ew;
        rewrite (proj2 (Z.ltb_lt 0 (ax_local_tile_size_of (ax_single_tile_per_block (d_col d)) 0))) in Ew by lia; [discriminate|].
      match type of Ew with bind (bind ?x _) _ = _ => destruct x as [s3| |] eqn:E3; try discriminate end. eauto. }
    unfold block_row_loop in Eu. apply for_each_ok with (i := b) in Eu.
    2: { cbn [create_single_tile_per_block_distribution on_both d_row]. rewrite (NH _ _ _ MR NER). lia. }
    destruct Eu as (w & w' & Eu). cbn [create_single_tile_per_block_distribution on_both d_row] in Eu.
    rewrite compute_ld_bad in Eu by lia. discriminate.
  - destruct Hm as (i & Hi & Hm).
    destruct (set_up_tiles D sz d (LdValue v) (h, [])) as [s| |] eqn:Es; try discriminate. clear E.
    unfold set_up_tiles in Es.
    apply for_each_ok with (i := 0) in Es; [|pose proof (lnt_pos _ _ _ MC NEC); lia].
    destruct Es as (t & t' & Es). apply for_each_ok with (i := i) in Es; [|exact Hi].
    destruct Es as (u & u' & Es). cbn [tile_size_of_local both fst] in Es.
    rewrite compute_ld_bad in Es by lia. discriminate.
Qed.

(** Default leading dimension: padded for column-major, compact otherwise; padded means a multiple
    of the alignment unless the piece is smaller than it; compact means exactly max(1, rows). *)
Theorem C15_leading_dimension : forall D sz rows, 0 < sz -> 0 <= rows ->
  compute_ld D sz rows Compact = Ok (Z.max 1 rows) /\
  (exists l, compute_ld D sz rows Padded = Ok l /\ Z.max 1 rows <= l < Z.max 1 rows + ld_alignment D sz /\
     (ld_alignment D sz <= rows -> (ld_alignment D sz | l)) /\
     (rows < ld_alignment D sz -> l = Z.max 1 rows)) /\
  (forall v, compute_ld D sz rows (LdValue v) = if Z.max 1 rows <=? v then Ok v else Abort).
Proof.
  intros D sz rows Hs Hr. pose proof (alignment_pos D sz Hs) as A. split; [|split].
  - unfold compute_ld. rewrite Z.leb_refl. reflexivity.
  - destruct (compute_ld_ok D sz rows Padded Hs I) as [E G]. eexists. split; [exact E|]. revert G.
    unfold ldv, compute_ld.
    destruct (Z.ltb_spec (Z.max 1 rows) (ld_alignment D sz)) as [H|H].
    + rewrite Z.leb_refl. cbn. intros. split; [lia|]. split; [lia|]. reflexivity.
    + unfold ceilDiv. rewrite Z.quot_div_nonneg by lia.
      set (q := (Z.max 1 rows + ld_alignment D sz - 1) / ld_alignment D sz).
      pose proof (Z.mul_div_le (Z.max 1 rows + ld_alignment D sz - 1) (ld_alignment D sz) ltac:(lia)) as Q1. fold q in Q1.
      pose proof (Z.mul_succ_div_gt (Z.max 1 rows + ld_alignment D sz - 1) (ld_alignment D sz) ltac:(lia)) as Q2. fold q in Q2.
      rewrite (proj2 (Z.leb_le (Z.max 1 rows) (q * ld_alignment D sz))) by nia. cbn. intros. split; [nia|]. split.
      * intros. exists q. reflexivity.
      * intros. nia.
  - intros v. unfold compute_ld. destruct (Z.max 1 rows <=? v); reflexivity.
Qed.

(** ** C16: user-provided column-major memory *)

(** A column-major layout is accepted exactly when the offset is zero and the leading dimension is
    at least the local rows (at least 1 if the local matrix is empty); otherwise the call aborts. *)
Theorem C16_layout_accepted_iff : forall d ld,
  let ok := offset2 d = (0, 0) /\
            (if isEmpty2 (local_size2 d) then 1 <= ld else ax_local_size (d_row d) <= ld) in
  (ok -> col_major_make d ld = Ok (CML d ld)) /\ (~ ok -> col_major_make d ld = Abort).
Proof.
  intros d ld ok. unfold ok, col_major_make, eqb2, offset2. cbn [fst snd]. split.
  - intros [E H]. injection E as -> ->.
    destruct (isEmpty2 (local_size2 d)); rewrite (proj2 (Z.leb_le _ _) H); reflexivity.
  - intros N. destruct (isEmpty2 (local_size2 d)).
    + destruct (Z.leb_spec 1 ld); [|reflexivity]. cbn.
      destruct (Z.eqb_spec (ax_offset (d_row d)) 0) as [E1|]; [|reflexivity].
      destruct (Z.eqb_spec (ax_offset (d_col d)) 0) as [E2|]; [|reflexivity]. exfalso. apply N. split; [congruence|assumption].
    + destruct (Z.leb_spec (ax_local_size (d_row d)) ld); [|reflexivity]. cbn.
      destruct (Z.eqb_spec (ax_offset (d_row d)) 0) as [E1|]; [|reflexivity].
      destruct (Z.eqb_spec (ax_offset (d_col d)) 0) as [E2|]; [|reflexivity]. exfalso. apply N. split; [congruence|assumption].
Qed.

(** Wrapping user memory: it is one chunk of min_mem_size() elements that the library does not own;
    local element (i, j) is at ptr[i + ld * j], inside the min_mem_size() elements, and the last
    element is the last of them. *)
Theorem C16_element_address : forall rank Ls d ld L h,
  built rank Ls d -> col_major_make d ld = Ok L -> isEmpty2 (local_size2 d) = false ->
  exists m, matrix_from_memory L true h = Ok (m, h ++ [Chunk (min_mem_size L) false]) /\
    mx_dist m = d /\ mx_layout m = Some ColMajor /\
    Z.of_nat (length (mx_tiles m)) = ax_local_nr_tiles (d_row d) * ax_local_nr_tiles (d_col d) /\
    (forall i j, 0 <= i < ax_local_size (d_row d) -> 0 <= j < ax_local_size (d_col d) ->
       local_element_address (h ++ [Chunk (min_mem_size L) false]) m (i, j) = Ok (length h, i + ld * j) /\
       0 <= i + ld * j < min_mem_size L) /\
    (ax_local_size (d_row d) - 1) + ld * (ax_local_size (d_col d) - 1) = min_mem_size L - 1.
Proof.
  intros rank Ls d ld L h B E NE.
  destruct (empty_or_not _ _ _ B) as [[Em Ez]|(Em & NER & NEC)]; [congruence|].
  destruct (Z_lt_ge_dec ld (ax_local_size (d_row d))) as [Hld|Hld].
  { rewrite (proj2 (C16_layout_accepted_iff d ld)) in E; [discriminate|]. rewrite Em. lia. }
  assert (EL : L = CML d ld).
  { unfold col_major_make in E. rewrite Em in E. destruct (dlaf_assert _) in E; try discriminate. cbn in E.
    destruct (dlaf_assert _) in E; try discriminate. cbn in E. congruence. }
  subst L. pose proof (built_models _ _ _ B Row) as MR. pose proof (built_models _ _ _ B Col) as MC. cbn [get sel] in MR, MC.
  pose proof (lnt_pos _ _ _ MR NER) as PR. pose proof (lnt_pos _ _ _ MC NEC) as PC.
  unfold matrix_from_memory, mview_user. cbn [cml_dist].
  pose proof (mem_size_eq d NER NEC ld) as MS.
  rewrite (proj2 (Z.leb_le 0 (min_mem_size (CML d ld)))) by (rewrite MS; nia).
  cbn [dlaf_assert bind fst snd]. set (k := Chunk (min_mem_size (CML d ld)) false).
  unfold set_up_preallocated_tiles. cbn [cml_dist cml_ld].
  rewrite (nested_append _ _ _ (fun _ _ => h ++ [k]) (T_col d (length h) ld) (ax_local_nr_tiles (d_row d)) (ax_local_nr_tiles (d_col d)) []).
  - cbn [bind fst snd app]. eexists. split; [reflexivity|]. split; [reflexivity|]. split; [reflexivity|].
    split; [apply grid_length; lia|]. split.
    + intros i j Hi Hj. split; [|rewrite MS; nia].
      apply (addr_col rank Ls d B _ _ k); try assumption; try lia.
      rewrite nth_error_app2, Nat.sub_diag by lia. reflexivity.
    + rewrite MS. ring.
  - lia.
  - lia.
  - intros i j ts Hi Hj. apply (emplace_ok rank Ls d B NER NEC); (assumption || lia).
  - reflexivity.
Qed.
(** An empty local matrix needs no memory, and any pointer will do. *)
Theorem C16_empty_local : forall rank Ls d ld L ptr h,
  built rank Ls d -> col_major_make d ld = Ok L -> isEmpty2 (local_size2 d) = true ->
  min_mem_size L = 0 /\ exists m h', matrix_from_memory L ptr h = Ok (m, h') /\ mx_dist m = d /\ mx_tiles m = [].
Proof.
  intros rank Ls d ld L ptr h B E Em.
  assert (EL : L = CML d ld).
  { unfold col_major_make in E. destruct (isEmpty2 (local_size2 d)); destruct (dlaf_assert _) in E; try discriminate; cbn in E;
    destruct (dlaf_assert _) in E; try discriminate; cbn in E; congruence. }
  subst L. destruct (empty_or_not _ _ _ B) as [[_ Ez]|(Em' & _)]; [|congruence].
  assert (M0 : min_mem_size (CML d ld) = 0).
  { unfold min_mem_size, cml_mem_size. cbn [cml_dist]. destruct Ez as [-> | ->]; [reflexivity|]. rewrite orb_comm. reflexivity. }
  split; [exact M0|].
  pose proof (no_tiles _ _ _ B Row) as NR. pose proof (no_tiles _ _ _ B Col) as NC. cbn [get] in NR, NC.
  unfold matrix_from_memory, mview_user. rewrite M0. cbn [Z.leb dlaf_assert bind].
  assert (S : forall v h, set_up_preallocated_tiles (CML d ld) v h = Ok (h, [])).
  { intros v h0. unfold set_up_preallocated_tiles. cbn [cml_dist cml_ld]. destruct Ez as [Ez|Ez].
    - apply NR in Ez. rewrite Ez.
      destruct (for_inv _ (fun _ s => s = (h0, @nil tile_data)) 0 (Z.max 0 (ax_local_nr_tiles (d_col d)))
        (fun j => for_ 0 0 (fun i => emplace_col_major (CML d ld) v ld i j)) (h0, [])) as (s' & Es & ->); [lia|reflexivity| |].
      + intros. eexists. split; [apply for_nil; lia|assumption].
      + pose proof (lnt_nonneg _ (m_wf _ _ _ (built_models _ _ _ B Col))) as P. cbn [get] in P.
        rewrite Z.max_r in Es by exact P. exact Es.
    - apply NC in Ez. rewrite Ez. apply for_nil. lia. }
  destruct ptr; cbn [Z.leb Z.compare dlaf_assert bind fst snd]; rewrite S; cbn [bind fst snd]; eexists _, _;
    (split; [reflexivity|split; reflexivity]).
Qed.

(** The ScaLAPACK-style entry (C API): descriptor [dtype; ctxt; M; N; mb; nb; rsrc; csrc; lld].
    Global element (I, J) of the block-cyclic matrix is found, on the process that owns it, at
    a[i + lld * j] where i (j) is the number of owned rows (columns) before I (J); submatrix
    origins other than (1, 1) and too small lld abort. *)
Theorem C16_scalapack_descriptor : forall dtype ctxt M N m n mb nb rsrc csrc lld grid rank h,
  pre2 (m, n) (mb, nb) (mb, nb) grid rank (rsrc, csrc) ->
  fits_types (m, n) (mb, nb) (mb, nb) grid rank (rsrc, csrc) (0, 0) ->
  let desc := [dtype; ctxt; M; N; mb; nb; rsrc; csrc; lld] in
  let LR := Layout m mb mb (fst grid) rsrc 0 in let LC := Layout n nb nb (snd grid) csrc 0 in
  let rows := count (owned LR (fst rank)) m in let cols := count (owned LC (snd rank)) n in
  exists ds, make_dlaf_descriptor m n 1 1 desc = Ok ds /\
    (0 < rows -> 0 < cols -> rows <= lld ->
      exists L mat h', make_layout ds grid rank = Ok L /\ matrix_from_memory L true h = Ok (mat, h') /\
      forall I J, 0 <= I < m -> 0 <= J < n -> owner LR I = fst rank -> owner LC J = snd rank ->
        local_element_address h' mat
          (ax_local_element_from_global_element (d_row (mx_dist mat)) I, ax_local_element_from_global_element (d_col (mx_dist mat)) J)
        = Ok (length h, count (owned LR (fst rank)) I + lld * count (owned LC (snd rank)) J)) /\
    (0 < rows -> 0 < cols -> lld < rows -> make_layout ds grid rank = Abort).
Proof.
  intros dtype ctxt M N m n mb nb rsrc csrc lld grid rank h P F desc LR LC rows cols.
  eexists. split; [reflexivity|].
  assert (O : forall rc : coord, 0 <= sel rc (0, 0) /\ sel rc (rsrc, csrc) + sel rc (0, 0) / sel rc (mb, nb) <= i32_max).
  { intros rc. pose proof (F rc) as Frc. destruct rc; cbn in *; 
    [destruct (P Row) as (_ & _ & _ & _ & _ & _ & A)|destruct (P Col) as (_ & _ & _ & _ & _ & _ & A)]; cbn in A; lia. }
  destruct (ctor_accepts _ _ _ _ _ _ _ P F O) as (d & Ed & B).
  pose proof (built_models _ _ _ B Row) as MR. pose proof (built_models _ _ _ B Col) as MC. cbn [get sel] in MR, MC.
  assert (LSR : ax_local_size (d_row d) = rows) by apply (T_local_size _ _ _ MR).
  assert (LSC : ax_local_size (d_col d) = cols) by apply (T_local_size _ _ _ MC).
  assert (OF : offset2 d = (0, 0)).
  { unfold offset2. destruct (T_reported _ _ _ MR) as (_ & _ & _ & _ & _ & -> & _). destruct (T_reported _ _ _ MC) as (_ & _ & _ & _ & _ & -> & _). reflexivity. }
  unfold make_layout, dist_ctor_tile. cbn [ds_m ds_n ds_mb ds_nb ds_isrc ds_jsrc ds_ld]. rewrite Ed. cbn [bind].
  split.
  - intros R C Hl.
    assert (NE : isEmpty2 (local_size2 d) = false).
    { unfold isEmpty2, local_size2. cbn. rewrite LSR, LSC. rewrite (proj2 (Z.eqb_neq rows 0)), (proj2 (Z.eqb_neq cols 0)) by lia. reflexivity. }
    assert (EL : col_major_make d lld = Ok (CML d lld)).
    { apply (proj1 (C16_layout_accepted_iff d lld)). rewrite NE, LSR. auto. }
    destruct (C16_element_address _ _ _ _ _ h B EL NE) as (mat & Em & Dm & _ & _ & A & _).
    eexists _, _, _. split; [exact EL|]. split; [exact Em|].
    intros I J HI HJ OI OJ. rewrite Dm.
    assert (X : forall rc e, 0 <= e < l_size (arg_layout (m, n) (mb, nb) (mb, nb) grid (rsrc, csrc) (0, 0) rc) ->
       owner (arg_layout (m, n) (mb, nb) (mb, nb) grid (rsrc, csrc) (0, 0) rc) e = sel rc rank ->
       ax_local_element_from_global_element (get rc d) e = count (owned (arg_layout (m, n) (mb, nb) (mb, nb) grid (rsrc, csrc) (0, 0) rc) (sel rc rank)) e /\
       0 <= ax_local_element_from_global_element (get rc d) e < ax_local_size (get rc d)).
    { intros rc e He Oe. pose proof (built_models _ _ _ B rc) as Mrc.
      rewrite (T_local_element _ _ _ Mrc e ltac:(lia)), Oe, Z.eqb_refl, (T_local_size _ _ _ Mrc). split; [reflexivity|].
      split; [apply count_bounds; lia|]. apply count_lt; [lia|]. unfold owned. rewrite Oe. apply Z.eqb_refl. }
    destruct (X Row I HI OI) as [X1 X2]. destruct (X Col J HJ OJ) as [Y1 Y2]. cbn [get sel] in *.
    destruct (A _ _ X2 Y2) as [-> _]. rewrite X1, Y1. reflexivity.
  - intros R C Hl. apply (proj2 (C16_layout_accepted_iff d lld)).
    assert (NE : isEmpty2 (local_size2 d) = false).
    { unfold isEmpty2, local_size2. cbn. rewrite LSR, LSC. rewrite (proj2 (Z.eqb_neq rows 0)), (proj2 (Z.eqb_neq cols 0)) by lia. reflexivity. }
    rewrite NE. lia.
Qed.
Theorem C16_submatrix_origin_rejected : forall m n i j desc, i <> 1 \/ j <> 1 ->
  make_dlaf_descriptor m n i j desc = Abort.
Proof.
  intros m n i j desc H. unfold make_dlaf_descriptor. destruct (Z.eqb_spec i 1); [|reflexivity].
  destruct (Z.eqb_spec j 1); [lia|reflexivity].
Qed.

(** ** C17: sub-tiles *)
Definition inside (t : tile_data) (s : sub_tile_spec) : Prop :=
  0 <= fst (st_origin s) /\ 0 <= snd (st_origin s) /\ 0 <= fst (st_size s) /\ 0 <= snd (st_size s) /\
  fst (st_origin s) + fst (st_size s) <= fst (td_size t) /\ snd (st_origin s) + snd (st_size s) <= snd (td_size t).
(** (x, y) are coordinates of an element of the rectangle *)
Definition in_spec (s : sub_tile_spec) (x y : Z) : Prop :=
  fst (st_origin s) <= x < fst (st_origin s) + fst (st_size s) /\
  snd (st_origin s) <= y < snd (st_origin s) + snd (st_size s).

(** the elements of a tile are at base + x + ld * y, and at different addresses *)
Lemma wf_tile_ptr : forall h t, wf_tile h t -> 0 < fst (td_size t) -> 0 < snd (td_size t) ->
  exists c, mv_chunk (td_view t) = Some c /\
  forall x y, 0 <= x < fst (td_size t) -> 0 <= y < snd (td_size t) ->
    tile_ptr h t (x, y) = Ok (c, mv_off (td_view t) + x + td_ld t * y).
Proof.
  intros h t [W1 W2 W3 W0 W4] R C. destruct (W4 R C) as (c & k & E1 & E2 & E3 & E4 & E5). exists c. split; [exact E1|].
  intros x y Hx Hy. unfold tile_ptr, linearIndex. cbn [fst snd]. destruct (td_view t) as [ch off n]. cbn [mv_chunk mv_off mv_size] in *.
  subst ch. rewrite (mview_at_ok _ _ k); [do 2 f_equal; ring|exact E2|]. nia.
Qed.
Theorem C17_tile_elements_distinct : forall h t, wf_tile h t ->
  forall x y x' y', 0 <= x < fst (td_size t) -> 0 <= y < snd (td_size t) ->
    0 <= x' < fst (td_size t) -> 0 <= y' < snd (td_size t) ->
  (exists a, tile_ptr h t (x, y) = Ok a) /\ (tile_ptr h t (x, y) = tile_ptr h t (x', y') -> x = x' /\ y = y').
Proof.
  intros h t W x y x' y' Hx Hy Hx' Hy'. destruct (wf_tile_ptr h t W ltac:(lia) ltac:(lia)) as (c & _ & A).
  rewrite !A by assumption. split; [eauto|]. intros E. injection E as E. destruct W. apply (col_inj (td_ld t)); lia.
Qed.

Lemma sub_guard : forall t s, 0 <= fst (td_size t) -> 0 <= snd (td_size t) ->
  (inside t s -> createMemoryViewForSubtile t s =
     mview_sub (td_view t) (if isEmpty2 (st_size s) then 0 else linearIndex t (st_origin s)) (linearSize (st_size s) (td_ld t))) /\
  (~ inside t s -> createMemoryViewForSubtile t s = Abort).
Proof.
  intros t [[o1 o2] [s1 s2]] W1 W2. unfold inside, createMemoryViewForSubtile, isInOrOn2, plus2, isValid2. cbn [st_origin st_size fst snd].
  rewrite (proj2 (Z.leb_le 0 _) W1), (proj2 (Z.leb_le 0 _) W2).
  destruct (Z.leb_spec 0 o1); [|split; [lia|reflexivity]]. destruct (Z.leb_spec 0 o2); [|split; [lia|reflexivity]].
  cbn [andb dlaf_assert bind]. rewrite !andb_true_r.
  destruct (Z.leb_spec 0 s1), (Z.leb_spec 0 s2), (Z.leb_spec o1 (fst (td_size t))), (Z.leb_spec o2 (snd (td_size t)));
    cbn [andb dlaf_assert bind]; try (split; [lia|reflexivity]).
  destruct (Z.leb_spec (o1 + s1) (fst (td_size t))), (Z.leb_spec (o2 + s2) (snd (td_size t)));
    cbn [andb dlaf_assert bind]; try (split; [lia|reflexivity]).
  rewrite (proj2 (Z.leb_le 0 (o1 + s1))), (proj2 (Z.leb_le 0 (o2 + s2))) by lia. cbn [andb dlaf_assert bind].
  split; [reflexivity|lia].
Qed.

(** A spec inside the tile gives a sub-tile of that size and the tile's leading dimension, whose
    element (x, y) is element origin + (x, y) of the tile (the same address); anything else aborts. *)
Theorem C17_sub_tile : forall h t s, wf_tile h t ->
  (inside t s ->
     exists u, sub_tile t s = Ok u /\ wf_tile h u /\ td_size u = st_size s /\ td_ld u = td_ld t /\
     forall x y, 0 <= x < fst (st_size s) -> 0 <= y < snd (st_size s) ->
       tile_ptr h u (x, y) = tile_ptr h t (fst (st_origin s) + x, snd (st_origin s) + y)) /\
  (~ inside t s -> sub_tile t s = Abort).
Proof.
  intros h t s W. destruct W as [W1 W2 W3 W0 W4]. destruct (sub_guard t s W1 W2) as [G1 G2].
  unfold sub_tile. split; [|intros N; rewrite (G2 N); reflexivity].
  intros IN. rewrite (G1 IN). destruct s as [[o1 o2] [s1 s2]]. unfold inside in IN. cbn [st_origin st_size fst snd] in *.
  destruct IN as (A1 & A2 & A3 & A4 & A5 & A6).
  unfold linearSize, linearIndex, isEmpty2. cbn [fst snd].
  destruct ((s1 =? 0) || (s2 =? 0)) eqn:Em.
  - assert (EZ : s1 = 0 \/ s2 = 0) by (apply orb_true_iff in Em; rewrite !Z.eqb_eq in Em; exact Em).
    unfold mview_sub. cbn [Z.ltb Z.compare]. rewrite (proj2 (Z.leb_le (0 + 0) _)) by lia. cbn [dlaf_assert bind].
    unfold tile_data_make, isValid2, isEmpty2. cbn [fst snd mv_size].
    rewrite (proj2 (Z.leb_le 0 s1)), (proj2 (Z.leb_le 0 s2)), (proj2 (Z.leb_le (Z.max 1 s1) _)) by lia.
    rewrite Em. cbn [andb orb dlaf_assert bind]. eexists. split; [reflexivity|]. split.
    + constructor; cbn [td_size td_view td_ld mv_size mview_empty fst snd]; lia.
    + cbn. split; [reflexivity|]. split; [reflexivity|]. intros; lia.
  - apply orb_false_iff in Em. rewrite !Z.eqb_neq in Em. destruct Em as [E1 E2].
    destruct (W4 ltac:(lia) ltac:(lia)) as (c & k & V1 & V2 & V3 & V4 & V5).
    rewrite mview_sub_ok by nia. cbn [bind]. rewrite tile_data_ok by (cbn [mv_size]; lia).
    eexists. split; [reflexivity|]. split; [|split; [reflexivity|split; [reflexivity|]]].
    + constructor; cbn [td_size td_view td_ld mv_size fst snd mv_off mv_chunk]; try nia.
      intros _ _. exists c, k. split; [exact V1|]. split; [exact V2|]. nia.
    + intros x y Hx Hy. unfold tile_ptr, linearIndex, mview_at. cbn [td_view td_ld mv_chunk mv_off fst snd].
      rewrite V1, V2.
      replace (o1 + td_ld t * o2 + mv_off (td_view t) + (x + td_ld t * y)) with (mv_off (td_view t) + (o1 + x + td_ld t * (o2 + y))) by ring.
      reflexivity.
Qed.

(** Sub-tile of a sub-tile: the sub-tile with the sum of the origins, address for address. *)
Theorem C17_sub_tile_compose : forall h t s1 u s2 v, wf_tile h t ->
  sub_tile t s1 = Ok u -> sub_tile u s2 = Ok v ->
  let s := SubTileSpec (fst (st_origin s1) + fst (st_origin s2), snd (st_origin s1) + snd (st_origin s2)) (st_size s2) in
  exists w, sub_tile t s = Ok w /\ td_size w = td_size v /\ td_ld w = td_ld v /\
    forall x y, 0 <= x < fst (st_size s2) -> 0 <= y < snd (st_size s2) -> tile_ptr h w (x, y) = tile_ptr h v (x, y).
Proof.
  intros h t s1 u s2 v W E1 E2 s.
  assert (D : forall t s, inside t s \/ ~ inside t s) by (intros; unfold inside; lia).
  destruct (C17_sub_tile h t s1 W) as [P1 Q1]. destruct (D t s1) as [I1|N1]; [|rewrite (Q1 N1) in E1; discriminate].
  destruct (P1 I1) as (u' & Eu & Wu & Su & Lu & Au). rewrite E1 in Eu. injection Eu as <-.
  destruct (C17_sub_tile h u s2 Wu) as [P2 Q2]. destruct (D u s2) as [I2|N2]; [|rewrite (Q2 N2) in E2; discriminate].
  destruct (P2 I2) as (v' & Ev & Wv & Sv & Lv & Av). rewrite E2 in Ev. injection Ev as <-.
  assert (I : inside t s).
  { unfold inside in *. cbn [s st_origin st_size fst snd]. rewrite Su in I2. lia. }
  destruct (proj1 (C17_sub_tile h t s W) I) as (w & Ew & Ww & Sw & Lw & Aw). cbn [s st_origin st_size fst snd] in *.
  exists w. split; [exact Ew|]. split; [congruence|]. split; [congruence|].
  intros x y Hx Hy. rewrite Aw, Av, Au by (assumption || (unfold inside in I2; rewrite Su in I2; lia)).
  f_equal. f_equal; ring.
Qed.

(** The overlap check of the disjoint-subtile splitter is exact. *)
Theorem C17_overlap_iff_shared_element : forall s1 s2,
  0 <= fst (st_size s1) -> 0 <= snd (st_size s1) -> 0 <= fst (st_size s2) -> 0 <= snd (st_size s2) ->
  (subTileSpecsOverlap s1 s2 = true <-> exists x y, in_spec s1 x y /\ in_spec s2 x y).
Proof.
  intros [[a1 a2] [m1 n1]] [[b1 b2] [m2 n2]]. unfold in_spec, subTileSpecsOverlap, isEmpty2, plus2. cbn [st_origin st_size fst snd].
  intros H1 H2 H3 H4. split.
  - destruct (Z.eqb_spec m1 0), (Z.eqb_spec n1 0), (Z.eqb_spec m2 0), (Z.eqb_spec n2 0); cbn [orb]; try discriminate.
    destruct (Z.leb_spec (a1 + m1) b1), (Z.leb_spec (b1 + m2) a1), (Z.leb_spec (a2 + n1) b2), (Z.leb_spec (b2 + n2) a2);
      cbn [orb]; try discriminate.
    intros _. exists (Z.max a1 b1), (Z.max a2 b2). lia.
  - intros (x & y & A & B).
    rewrite (proj2 (Z.eqb_neq m1 0)), (proj2 (Z.eqb_neq n1 0)), (proj2 (Z.eqb_neq m2 0)), (proj2 (Z.eqb_neq n2 0)) by lia. cbn [orb].
    rewrite (proj2 (Z.leb_gt (a1 + m1) b1)), (proj2 (Z.leb_gt (b1 + m2) a1)), (proj2 (Z.leb_gt (a2 + n1) b2)), (proj2 (Z.leb_gt (b2 + n2) a2)) by lia.
    reflexivity.
Qed.

(** Sub-tiles of one tile whose specs do not overlap share no address. *)
Theorem C17_disjoint_no_alias : forall h t s1 s2 u1 u2, wf_tile h t ->
  sub_tile t s1 = Ok u1 -> sub_tile t s2 = Ok u2 -> subTileSpecsOverlap s1 s2 = false ->
  forall x y x' y', 0 <= x < fst (td_size u1) -> 0 <= y < snd (td_size u1) ->
    0 <= x' < fst (td_size u2) -> 0 <= y' < snd (td_size u2) ->
    tile_ptr h u1 (x, y) <> tile_ptr h u2 (x', y').
Proof.
  intros h t s1 s2 u1 u2 W E1 E2 OV x y x' y' Hx Hy Hx' Hy' E.
  assert (D : forall t s, inside t s \/ ~ inside t s) by (intros; unfold inside; lia).
  destruct (C17_sub_tile h t s1 W) as [P1 Q1]. destruct (D t s1) as [I1|N1]; [|rewrite (Q1 N1) in E1; discriminate].
  destruct (P1 I1) as (u' & Eu & Wu & Su & Lu & Au). rewrite E1 in Eu. injection Eu as <-.
  destruct (C17_sub_tile h t s2 W) as [P2 Q2]. destruct (D t s2) as [I2|N2]; [|rewrite (Q2 N2) in E2; discriminate].
  destruct (P2 I2) as (v' & Ev & Wv & Sv & Lv & Av). rewrite E2 in Ev. injection Ev as <-.
  rewrite Su in *. rewrite Sv in *. rewrite Au, Av in E by assumption.
  unfold inside in I1, I2.
  apply (C17_tile_elements_distinct h t W) in E; try lia.
  assert (subTileSpecsOverlap s1 s2 = true); [|congruence].
  apply C17_overlap_iff_shared_element; try lia.
  exists (fst (st_origin s1) + x), (snd (st_origin s1) + y). unfold in_spec. lia.
Qed.

(** ** C42: offsets of the distribution and the allocation layout *)

(** Full statement: a distribution with a non-zero offset is rejected by the matrix constructor.
    Proved part: it is, for column-major storage of a non-empty local matrix. *)
Theorem C42_offset_rejected_partial : forall rank Ls d fuel D sz tune a h r,
  built rank Ls d -> isEmpty2 (local_size2 d) = false ->
  spec_layout tune a = ColMajor -> offset2 d <> (0, 0) ->
  matrix_from_distribution fuel D sz tune d a h <> Ok r.
Proof.
  intros rank Ls d fuel D sz tune a h r B NE El Ho. unfold matrix_from_distribution. rewrite El.
  cbn [dist_move]. cbn [dlaf_assert eqb2 offset2]. cbn [bind dlaf_assert].
  unfold set_up_non_preallocated_tiles. rewrite NE. unfold set_up_col_major.
  destruct (compute_ld _ _ _ _); try discriminate. cbn [bind].
  rewrite (proj2 (C16_layout_accepted_iff d a0)); [discriminate|]. tauto.
Qed.
Definition dist_of (r : res distribution) : distribution := match r with Ok d => d | _ => default_distribution end.
(** but the constructor's own check looks at the moved-from object, so tiles and blocks storage
    accept an offset *)
Theorem C42_offset_accepted_refuted :
  let d := dist_of (dist_ctor (5, 5) (2, 2) (2, 2) (1, 1) (0, 0) (0, 0) (1, 0)) in
  offset2 d = (1, 0) /\
  (exists m h, matrix_from_distribution 10 CPU 8 ColMajor d (AllocSpec (Some Tiles) None) [] = Ok (m, h)) /\
  (exists m h, matrix_from_distribution 10 CPU 8 ColMajor d (AllocSpec (Some Blocks) None) [] = Ok (m, h)).
Proof. vm_compute. split; [reflexivity|]. split; eexists _, _; reflexivity. Qed.
(** the layout is reported as requested for every matrix made by the two public constructors *)
Theorem C42_layout_reported : forall fuel D sz tune d a h m h',
  matrix_from_distribution fuel D sz tune d a h = Ok (m, h') -> mx_allocation_layout m = Ok (spec_layout tune a).
Proof.
  intros fuel D sz tune d a h m h'. unfold matrix_from_distribution. cbn [dist_move dlaf_assert eqb2 offset2 bind].
  destruct (dlaf_assert _); try discriminate. cbn [bind].
  destruct (set_up_non_preallocated_tiles _ _ _ _ _ _ _); try discriminate. cbn. intros [= <- _]. reflexivity.
Qed.
Theorem C42_layout_reported_user : forall L ptr h m h', matrix_from_memory L ptr h = Ok (m, h') -> mx_allocation_layout m = Ok ColMajor.
Proof.
  intros L ptr h m h'. unfold matrix_from_memory. destruct (mview_user _ _ _); try discriminate. cbn [bind].
  destruct (set_up_preallocated_tiles _ _ _); try discriminate. cbn. intros [= <- _]. reflexivity.
Qed.
(** but never initialised in a sub-pipeline matrix *)
Theorem C42_sub_pipeline_layout_refuted : forall m, mx_allocation_layout (matrix_sub_pipeline m) = UB.
Proof. reflexivity. Qed.

(** ** Concrete instances *)
Example ex_d := dist_of (dist_ctor (13, 11) (4, 6) (2, 3) (2, 2) (1, 0) (0, 1) (0, 0)).
Lemma ok_check : forall {A} (r : res A) (t : A -> bool), match r with Ok x => t x | _ => false end = true -> exists x, r = Ok x /\ t x = true.
Proof. intros A [x| |] t E; [exists x; auto|discriminate|discriminate]. Qed.
Definition is_at (r : res (nat * Z)) (c : nat) (o : Z) : bool := match r with Ok (c', o') => Nat.eqb c' c && (o' =? o) | _ => false end.
Lemma is_at_eq : forall r c o, is_at r c o = true -> r = Ok (c, o).
Proof. intros [[c' o']| |] c o E; try discriminate. apply andb_prop in E as [E1 E2]. apply Nat.eqb_eq in E1. apply Z.eqb_eq in E2. subst. reflexivity. Qed.
Example C15_instance :
  exists m h, matrix_from_distribution 20 CPU 8 ColMajor ex_d (AllocSpec (Some Blocks) (Some (LdValue 5))) [Chunk 7 true] = Ok (m, h) /\
    local_size2 ex_d = (5, 5) /\ length (mx_tiles m) = 6%nat /\ length h = 3%nat /\
    local_element_address h m (4, 4) = Ok (2%nat, 0 + 5 * 4).
Proof.
  destruct (ok_check (matrix_from_distribution 20 CPU 8 ColMajor ex_d (AllocSpec (Some Blocks) (Some (LdValue 5))) [Chunk 7 true])
    (fun x => Nat.eqb (length (mx_tiles (fst x))) 6 && Nat.eqb (length (snd x)) 3 && is_at (local_element_address (snd x) (fst x) (4, 4)) 2 20)) as ([m h] & E & T); [vm_compute; reflexivity|].
  apply andb_prop in T as [T T3]. apply andb_prop in T as [T1 T2]. exists m, h. split; [exact E|]. split; [vm_compute; reflexivity|].
  split; [apply Nat.eqb_eq; exact T1|]. split; [apply Nat.eqb_eq; exact T2|]. apply is_at_eq. exact T3.
Qed.
(** ... and it meets the hypotheses of C15 *)
Example C15_hypotheses_met : exists Ls, built (1, 0) Ls ex_d /\
  (forall m, piece_rows ex_d Blocks m -> ld_fits m (LdValue 5)).
Proof.
  eexists. split.
  - apply (built_ctor (1, 0) (13, 11) (4, 6) (2, 3) (2, 2) (0, 1) (0, 0)).
    + intros []; constructor; cbn; try lia; [exists 2|exists 2]; reflexivity.
    + intros []; vm_compute; discriminate.
    + reflexivity.
  - intros m (b & Hb & Em). subst m. replace (ax_local_nr_blocks (d_row ex_d)) with 2 in Hb by (vm_compute; reflexivity). cbn [ld_fits].
    assert (b = 0 \/ b = 1) as [-> | ->] by lia; vm_compute; discriminate.
Qed.
Example C16_instance :
  exists m h, create_matrix_from_col_major (13, 11) (2, 3) (2, 2) (1, 0) (0, 1) 9 true [] = Ok (m, h) /\
    local_element_address h m (4, 3) = Ok (0%nat, 4 + 9 * 3).
Proof.
  destruct (ok_check (create_matrix_from_col_major (13, 11) (2, 3) (2, 2) (1, 0) (0, 1) 9 true [])
    (fun x => is_at (local_element_address (snd x) (fst x) (4, 3)) 0 31)) as ([m h] & E & T); [vm_compute; reflexivity|].
  exists m, h. split; [exact E|]. apply is_at_eq. exact T.
Qed.
Example C17_instance :
  let t := TileData (5, 4) (MView (Some 0%nat) 3 32) 8 in
  wf_tile [Chunk 40 true] t /\
  exists u, sub_tile t (SubTileSpec (1, 2) (3, 2)) = Ok u /\ tile_ptr [Chunk 40 true] u (2, 1) = Ok (0%nat, 3 + (1 + 2) + 8 * (2 + 1)).
Proof.
  split.
  - constructor; cbn; try lia. intros _ _. exists 0%nat, (Chunk 40 true). cbn. repeat split; lia.
  - vm_compute. eexists. split; reflexivity.
Qed.

(** ** Assumptions *)
Print Assumptions C15_storage_well_formed.
Print Assumptions C15_pieces.
Print Assumptions C15_small_ld_rejected.
Print Assumptions C15_leading_dimension.
Print Assumptions C16_layout_accepted_iff.
Print Assumptions C16_element_address.
Print Assumptions C16_empty_local.
Print Assumptions C16_scalapack_descriptor.
Print Assumptions C16_submatrix_origin_rejected.
Print Assumptions C17_tile_elements_distinct.
Print Assumptions C17_sub_tile.
Print Assumptions C17_sub_tile_compose.
Print Assumptions C17_overlap_iff_shared_element.
Print Assumptions C17_disjoint_no_alias.
Print Assumptions C42_offset_rejected_partial.
Print Assumptions C42_offset_accepted_refuted.
Print Assumptions C42_layout_reported.
Print Assumptions C42_layout_reported_user.
Print Assumptions C42_sub_pipeline_layout_refuted.
