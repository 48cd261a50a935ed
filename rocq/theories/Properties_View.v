(** * Properties C22-C24: views, sub-matrix references, retiling. *)
From Coq Require Import ZArith Lia Bool List Znumtheory.
From Verif Require Import CInt Loop DistModel DistSpec DivLemmas DistProofs DistProofs2 DistBuilt DistThms DistCtor
  DistSub IndexModel MemModel MemAxis MemProofs MemThms Properties_Dist Properties_Index Properties_Mem ViewModel.
Import ListNotations.
Open Scope Z_scope.

(** ** C24 *)

(** One axis: a local element is at or after global position [o] iff its tile is not before the
    first local tile of the view and, in the tile that holds [o], it is not before [o]. *)
Section axis_view.
Context (r : Z) (L : layout) (a : axis).
Hypothesis M : models r L a.

Lemma local_elem_global : forall l, 0 <= l < ax_local_size a ->
  let lt := ax_local_tile_from_local_element a l in
  let gt := ax_global_tile_from_local_tile a lt in
  let e := ax_global_element_from_local_element a l in
  0 <= lt < ax_local_nr_tiles a /\ 0 <= gt < ax_nr_tiles a /\ tile_owner L gt = r /\
  count (tile_owned L r) gt = lt /\ 0 <= e < l_size L /\ ax_global_tile_from_global_element a e = gt /\
  ax_tile_element_from_global_element a e = ax_tile_element_from_local_element a l /\
  0 <= ax_tile_element_from_local_element a l < ax_global_tile_size_of a gt.
Proof.
  intros l Hl lt gt e.
  destruct (T_local_elem_to_tile _ _ _ M l Hl) as (A & B & C). cbv zeta in *. fold lt in A, B, C.
  destruct (T_global_tile _ _ _ M lt A) as (D & E & F). cbv zeta in *. fold gt in D, E, F.
  rewrite (T_local_tile_size _ _ _ M lt A) in B. fold gt in B.
  destruct (T_tile_to_elem _ _ _ M gt _ D B) as (G & H & I). cbv zeta in *.
  change (ax_global_element_from_global_tile_and_tile_element a gt (ax_tile_element_from_local_element a l)) with e in G, H, I.
  repeat (apply conj; try assumption; try lia).
Qed.

Lemma elem_order : forall e o, 0 <= e < l_size L -> 0 <= o < l_size L ->
  (o <= e <-> ax_global_tile_from_global_element a o < ax_global_tile_from_global_element a e \/
     (ax_global_tile_from_global_element a o = ax_global_tile_from_global_element a e /\
      ax_tile_element_from_global_element a o <= ax_tile_element_from_global_element a e)).
Proof.
  intros e o He Ho.
  destruct (T_elem_to_tile _ _ _ M e He) as (E1 & E2 & E3 & E4).
  destruct (T_elem_to_tile _ _ _ M o Ho) as (O1 & O2 & O3 & O4). cbv zeta in *.
  assert (TE : forall x, 0 <= x < l_size L -> ax_tile_element_from_global_element a x = x - first_of_tile L (tile_of L x)).
  { intros x Hx. rewrite <- (m_tile_of _ _ _ M), <- (m_first _ _ _ M). apply tile_element_spec; [apply M|lia]. }
  rewrite (TE e He), (TE o Ho). rewrite E1, O1. pose proof (m_ok _ _ _ M) as [].
  unfold first_of_tile, tile_of.
  set (t0 := l_off L / l_tile L). set (x := (l_off L + e) / l_tile L). set (y := (l_off L + o) / l_tile L).
  destruct (div_mod_dec (l_off L + e) (l_tile L) lo_tile) as [X1 X2]. fold x in X1.
  destruct (div_mod_dec (l_off L + o) (l_tile L) lo_tile) as [Y1 Y2]. fold y in Y1.
  split.
  - intros Hle. assert (y <= x) by (apply Z.div_le_mono; lia).
    destruct (Z.eq_dec x y) as [Q|Q]; [right|left; lia]. rewrite Q. lia.
  - intros [Q|[Q1 Q2]].
    + assert (y + 1 <= x) by lia. nia.
    + assert (x = y) as Exy by lia. rewrite Exy in *. lia.
Qed.

Lemma view_axis : forall o l, 0 <= o < l_size L -> 0 <= l < ax_local_size a ->
  let T0 := ax_global_tile_from_global_element a o in
  let lt := ax_local_tile_from_local_element a l in
  (o <= ax_global_element_from_local_element a l <->
   ax_next_local_tile_from_global_tile a T0 <= lt /\
   (if ax_global_tile_from_local_tile a lt =? T0 then ax_tile_element_from_global_element a o else 0)
     <= ax_tile_element_from_local_element a l).
Proof.
  intros o l Ho Hl T0 lt.
  destruct (local_elem_global l Hl) as (A & B & C & D & E & F & G & I). cbv zeta in *. fold lt in A, B, C, D, F, I.
  destruct (T_elem_to_tile _ _ _ M o Ho) as (_ & O2 & O3 & _). cbv zeta in *. fold T0 in O2, O3.
  rewrite (elem_order _ _ E Ho). rewrite F, G. fold T0.
  rewrite (T_next_local _ _ _ M) by lia.
  set (gt := ax_global_tile_from_local_tile a lt) in *.
  assert (X : count (tile_owned L r) T0 <= lt <-> T0 <= gt).
  { rewrite <- D. split; intros H.
    - destruct (Z_lt_le_dec gt T0) as [Q|Q]; [|exact Q].
      assert (count (tile_owned L r) gt < count (tile_owned L r) T0); [|lia].
      apply count_lt; [lia|]. apply Z.eqb_eq. exact C.
    - destruct (Z.eq_dec gt T0) as [->|Q]; [lia|].
      replace gt with (T0 + (gt - T0)) by lia. rewrite count_split by lia.
      pose proof (count_bounds (fun j => tile_owned L r (T0 + j)) (gt - T0)). lia. }
  rewrite X. destruct (Z.eqb_spec gt T0); lia.
Qed.

(** the sub-tile of a tile is never empty and inside the tile *)
Lemma view_axis_size : forall o lt, 0 <= o < l_size L -> 0 <= lt < ax_local_nr_tiles a ->
  let T0 := ax_global_tile_from_global_element a o in
  let org := if ax_global_tile_from_local_tile a lt =? T0 then ax_tile_element_from_global_element a o else 0 in
  0 <= org < ax_global_tile_size_of a (ax_global_tile_from_local_tile a lt).
Proof.
  intros o lt Ho Hlt T0. destruct (T_elem_to_tile _ _ _ M o Ho) as (_ & O2 & O3 & _). cbv zeta in *. fold T0 in O2, O3.
  destruct (T_global_tile _ _ _ M lt Hlt) as (D & _). cbv zeta in D.
  destruct (T_tile_sizes _ _ _ M _ D) as (S1 & _).
  destruct (Z.eqb_spec (ax_global_tile_from_local_tile a lt) T0) as [Q|Q]; [rewrite Q; lia|lia].
Qed.

Lemma view_axis_begin : forall o, 0 <= o < l_size L ->
  0 <= ax_next_local_tile_from_global_tile a (ax_global_tile_from_global_element a o) <= ax_local_nr_tiles a.
Proof.
  intros o Ho. destruct (T_elem_to_tile _ _ _ M o Ho) as (_ & O2 & _). cbv zeta in *.
  apply (T_next_local_first _ _ _ M). lia.
Qed.

(** the tile that holds [o], when it is local, is the first local tile of the view *)
Lemma view_first_tile : forall o lt, 0 <= o < l_size L -> 0 <= lt < ax_local_nr_tiles a ->
  let T0 := ax_global_tile_from_global_element a o in
  (ax_global_tile_from_local_tile a lt = T0 <->
   ax_rank_global_tile a T0 = ax_rank a /\ lt = ax_next_local_tile_from_global_tile a T0).
Proof.
  intros o lt Ho Hlt T0. destruct (T_elem_to_tile _ _ _ M o Ho) as (_ & O2 & O3 & _). cbv zeta in *. fold T0 in O2, O3.
  destruct (T_global_tile _ _ _ M lt Hlt) as (D & E & F). cbv zeta in *.
  rewrite (T_next_local _ _ _ M), (T_tile_owner _ _ _ M) by lia.
  destruct (T_reported _ _ _ M) as (_ & _ & _ & _ & -> & _). split.
  - intros Q. rewrite Q in *. auto.
  - intros [Q1 Q2]. pose proof (T_global_tile_inv _ _ _ M T0 O2 Q1) as X.
    rewrite (T_local_tile _ _ _ M), Q1, Z.eqb_refl, <- Q2 in X by lia. exact X.
Qed.
Lemma aligned_elem : l_off L mod l_tile L = 0 -> forall e, 0 <= e < l_size L ->
  ax_global_tile_from_global_element a e = e / l_tile L /\ ax_tile_element_from_global_element a e = e mod l_tile L.
Proof.
  intros AL e He. destruct (T_elem_to_tile _ _ _ M e He) as (E1 & E2 & E3 & E4). cbv zeta in *.
  assert (TE : ax_tile_element_from_global_element a e = e - first_of_tile L (tile_of L e)).
  { rewrite <- (m_tile_of _ _ _ M), <- (m_first _ _ _ M). apply tile_element_spec; [apply M|lia]. }
  rewrite TE, E1. pose proof (m_ok _ _ _ M) as [].
  destruct (div_mod_dec (l_off L) (l_tile L) lo_tile) as [X1 X2]. rewrite AL in X1.
  assert (T : tile_of L e = e / l_tile L).
  { unfold tile_of. rewrite X1 at 1. replace (l_off L / l_tile L * l_tile L + 0 + e) with (e + (l_off L / l_tile L) * l_tile L) by lia.
    rewrite Z.div_add by lia. lia. }
  split; [exact T|]. rewrite T. unfold first_of_tile.
  destruct (div_mod_dec e (l_tile L) lo_tile) as [Y1 Y2].
  assert (0 <= e / l_tile L) by (apply Z.div_pos; lia).
  rewrite Z.max_r by nia. nia.
Qed.
End axis_view.

Lemma panel_div : forall t o n g, 0 < t -> 0 <= o -> 0 <= n -> o mod t + n <= t ->
  (o <= g < o + n <-> g / t = o / t /\ o mod t <= g mod t < o mod t + n).
Proof.
  intros t o n g Ht Ho Hn H.
  destruct (div_mod_dec o t Ht) as [X1 X2]. destruct (div_mod_dec g t Ht) as [Y1 Y2]. split.
  - intros I. assert (g / t = o / t); [|rewrite H0 in Y1; lia].
    assert (o / t <= g / t) by (apply Z.div_le_mono; lia).
    destruct (Z.eq_dec (g / t) (o / t)) as [|N]; [assumption|]. assert (o / t + 1 <= g / t) by lia. nia.
  - intros [Q1 Q2]. rewrite Q1 in Y1. lia.
Qed.

Lemma size2_models : forall rank Ls d, built rank Ls d -> size2 d = (l_size (Ls Row), l_size (Ls Col)).
Proof.
  intros rank Ls d B. pose proof (ms _ _ _ (built_models _ _ _ B Row)). pose proof (ms _ _ _ (built_models _ _ _ B Col)).
  unfold size2. cbn in *. congruence.
Qed.

Lemma isIn2_spec : forall i b, isIn2 i b = true <-> 0 <= fst i < fst b /\ 0 <= snd i < snd b.
Proof.
  intros i b. unfold isIn2, isValid2. rewrite !andb_true_iff, ?Z.ltb_lt, ?Z.leb_le. lia.
Qed.
Lemma isEmpty2_false : forall s, isEmpty2 s = false <-> fst s <> 0 /\ snd s <> 0.
Proof. intros s. unfold isEmpty2. rewrite orb_false_iff, !Z.eqb_neq. lia. Qed.

(** A local tile index is visited by the view's iterator. *)
Definition visited (v : view) (lt : pair_Z) : Prop :=
  exists rg l, view_iterator v = Ok rg /\ range_list (Z.to_nat (rg_max rg)) rg = Some l /\ In lt l.

Lemma visited_iff : forall v lt, fst (v_begin v) <= fst (v_end v) -> snd (v_begin v) <= snd (v_end v) ->
  (visited v lt <-> fst (v_begin v) <= fst lt < fst (v_end v) /\ snd (v_begin v) <= snd lt < snd (v_end v)).
Proof.
  intros v lt H1 H2. unfold visited, view_iterator.
  rewrite (proj1 (C12_begin_end_form _ _) (conj H1 H2)).
  set (sz := (fst (v_end v) - fst (v_begin v), snd (v_end v) - snd (v_begin v))).
  pose proof (C12_iteration_visits_the_rectangle (v_begin v) sz (Z.to_nat (fst sz * snd sz)) ltac:(cbn; lia) ltac:(cbn; lia) ltac:(lia)) as E.
  destruct (rectangle_spec (v_begin v) (Z.to_nat (fst sz)) (Z.to_nat (snd sz))) as [_ R].
  specialize (R lt). rewrite !Z2Nat.id in R by (cbn; lia). cbn [sz fst snd] in R.
  split.
  - intros (rg & l & Erg & El & I). injection Erg as <-. cbn [range_size rg_max] in El. rewrite E in El. injection El as <-.
    apply R in I. lia.
  - intros H. exists (range_size (v_begin v) sz), (rectangle (v_begin v) (Z.to_nat (fst sz)) (Z.to_nat (snd sz))).
    split; [reflexivity|]. split; [exact E|]. apply R. lia.
Qed.

(** local and global element indices of this rank, as 2D values *)
Definition local_elem (d : distribution) (l : pair_Z) : Prop :=
  0 <= fst l < ax_local_size (d_row d) /\ 0 <= snd l < ax_local_size (d_col d).
Definition global_of_local (d : distribution) (l : pair_Z) : pair_Z :=
  both ax_global_element_from_local_element d l.
Definition tile_of_local (d : distribution) (l : pair_Z) : pair_Z :=
  both ax_local_tile_from_local_element d l.
Definition in_tile_of_local (d : distribution) (l : pair_Z) : pair_Z :=
  both ax_tile_element_from_local_element d l.

(** Full statement: the tiles visited by the view, restricted to the sub-tile given for each of
    them, contain exactly the elements of this rank at or after the offset (in both
    coordinates); each sub-tile is a non-empty rectangle that ends at the tile's corner; an
    offset outside of a non-empty matrix is refused. *)
Theorem C24_sub_matrix_view : forall rank Ls d off, built rank Ls d ->
  0 < l_size (Ls Row) -> 0 < l_size (Ls Col) ->
  (0 <= fst off < l_size (Ls Row) /\ 0 <= snd off < l_size (Ls Col) ->
   exists v, sub_matrix_view_make d off = Ok v /\
     (forall lt, visited (smv_view v) lt ->
        0 <= fst lt < ax_local_nr_tiles (d_row d) /\ 0 <= snd lt < ax_local_nr_tiles (d_col d) /\
        exists s, sub_matrix_view_spec v lt = Ok s /\
          0 <= fst (st_origin s) /\ 0 <= snd (st_origin s) /\ 0 < fst (st_size s) /\ 0 < snd (st_size s) /\
          fst (st_origin s) + fst (st_size s) = fst (tile_size_of_local d lt) /\
          snd (st_origin s) + snd (st_size s) = snd (tile_size_of_local d lt)) /\
     (forall l, local_elem d l ->
        (fst off <= fst (global_of_local d l) /\ snd off <= snd (global_of_local d l) <->
         visited (smv_view v) (tile_of_local d l) /\
         exists s, sub_matrix_view_spec v (tile_of_local d l) = Ok s /\
           in_spec s (fst (in_tile_of_local d l)) (snd (in_tile_of_local d l))))) /\
  (~ (0 <= fst off < l_size (Ls Row) /\ 0 <= snd off < l_size (Ls Col)) -> sub_matrix_view_make d off = Abort).
Proof.
  intros rank Ls d off B SR SC.
  pose proof (built_models _ _ _ B Row) as MR. pose proof (built_models _ _ _ B Col) as MC. cbn [get sel] in MR, MC.
  pose proof (size2_models _ _ _ B) as S2.
  assert (NE : isEmpty2 (size2 d) = false) by (rewrite S2; apply isEmpty2_false; cbn; lia).
  unfold sub_matrix_view_make, view_make. rewrite NE, S2.
  split; intros Hin.
  2: { destruct (isIn2 off (l_size (Ls Row), l_size (Ls Col))) eqn:E; [|reflexivity].
       apply isIn2_spec in E. cbn in E. tauto. }
  rewrite (proj2 (isIn2_spec _ _)) by (cbn; lia). cbn [dlaf_assert bind v_offset_tile v_offset_e v_begin v_dist].
  destruct Hin as [HinR HinC].
  set (T0 := global_tile_index_of_element d off).
  set (has := (ax_rank_global_tile (d_row d) (fst T0) =? ax_rank (d_row d))
               || (ax_rank_global_tile (d_col d) (snd T0) =? ax_rank (d_col d))).
  eexists. split; [reflexivity|]. cbn [smv_view].
  pose proof (view_axis_begin _ _ _ MR _ HinR) as BR. pose proof (view_axis_begin _ _ _ MC _ HinC) as BC.
  change (ax_global_tile_from_global_element (d_row d) (fst off)) with (fst T0) in BR.
  change (ax_global_tile_from_global_element (d_col d) (snd off)) with (snd T0) in BC.
  assert (VI : forall lt, visited (View d off T0 (ax_next_local_tile_from_global_tile (d_row d) (fst T0),
            ax_next_local_tile_from_global_tile (d_col d) (snd T0)) (local_nr_tiles2 d)) lt <->
     ax_next_local_tile_from_global_tile (d_row d) (fst T0) <= fst lt < ax_local_nr_tiles (d_row d) /\
     ax_next_local_tile_from_global_tile (d_col d) (snd T0) <= snd lt < ax_local_nr_tiles (d_col d)).
  { intros lt. rewrite visited_iff; cbn [v_begin v_end local_nr_tiles2 fst snd]; [reflexivity| |]; lia. }
  (* has_subtile_ can only be false when no local tile is in the first row or column of tiles *)
  assert (HR : forall x, 0 <= x < ax_local_nr_tiles (d_row d) -> ax_global_tile_from_local_tile (d_row d) x = fst T0 -> has = true).
  { intros x Hx E. destruct (T_global_tile _ _ _ MR x Hx) as (G1 & G2 & _). cbv zeta in *. unfold has.
    rewrite <- E, (T_tile_owner _ _ _ MR), G2 by lia. destruct (T_reported _ _ _ MR) as (_ & _ & _ & _ & -> & _).
    rewrite Z.eqb_refl. reflexivity. }
  assert (HC : forall x, 0 <= x < ax_local_nr_tiles (d_col d) -> ax_global_tile_from_local_tile (d_col d) x = snd T0 -> has = true).
  { intros x Hx E. destruct (T_global_tile _ _ _ MC x Hx) as (G1 & G2 & _). cbv zeta in *. unfold has.
    rewrite <- E, (T_tile_owner _ _ _ MC), G2 by lia. destruct (T_reported _ _ _ MC) as (_ & _ & _ & _ & -> & _).
    rewrite Z.eqb_refl. apply orb_true_r. }
  assert (SP : forall lt, 0 <= fst lt < ax_local_nr_tiles (d_row d) -> 0 <= snd lt < ax_local_nr_tiles (d_col d) ->
    let o1 := if ax_global_tile_from_local_tile (d_row d) (fst lt) =? fst T0 then ax_tile_element_from_global_element (d_row d) (fst off) else 0 in
    let o2 := if ax_global_tile_from_local_tile (d_col d) (snd lt) =? snd T0 then ax_tile_element_from_global_element (d_col d) (snd off) else 0 in
    sub_matrix_view_spec (SMView (View d off T0 (ax_next_local_tile_from_global_tile (d_row d) (fst T0),
            ax_next_local_tile_from_global_tile (d_col d) (snd T0)) (local_nr_tiles2 d)) (Some has)) lt =
    Ok (SubTileSpec (o1, o2) (ax_global_tile_size_of (d_row d) (ax_global_tile_from_local_tile (d_row d) (fst lt)) - o1,
                              ax_global_tile_size_of (d_col d) (ax_global_tile_from_local_tile (d_col d) (snd lt)) - o2))).
  { intros lt H1 H2 o1 o2. unfold sub_matrix_view_spec.
    cbn [smv_has_subtile smv_view v_dist v_offset_tile v_offset_e global_tile_index_of_local tile_size_of_global both fst snd].
    assert (E1 : (if has && (ax_global_tile_from_local_tile (d_row d) (fst lt) =? fst T0)
       then ax_tile_element_from_global_element (d_row d) (fst off) else 0) = o1).
    { unfold o1. destruct (Z.eqb_spec (ax_global_tile_from_local_tile (d_row d) (fst lt)) (fst T0)) as [Q|Q].
      - rewrite (HR _ H1 Q). reflexivity.
      - rewrite andb_false_r. reflexivity. }
    assert (E2 : (if has && (ax_global_tile_from_local_tile (d_col d) (snd lt) =? snd T0)
       then ax_tile_element_from_global_element (d_col d) (snd off) else 0) = o2).
    { unfold o2. destruct (Z.eqb_spec (ax_global_tile_from_local_tile (d_col d) (snd lt)) (snd T0)) as [Q|Q].
      - rewrite (HC _ H2 Q). reflexivity.
      - rewrite andb_false_r. reflexivity. }
    rewrite E1, E2. reflexivity. }
  split.
  - intros lt V. apply VI in V. destruct V as [V1 V2].
    split; [lia|]. split; [lia|].
    eexists. split; [apply SP; lia|]. cbn [st_origin st_size fst snd].
    pose proof (view_axis_size _ _ _ MR (fst off) (fst lt) HinR ltac:(lia)) as ZR.
    pose proof (view_axis_size _ _ _ MC (snd off) (snd lt) HinC ltac:(lia)) as ZC. cbv zeta in ZR, ZC.
    change (ax_global_tile_from_global_element (d_row d) (fst off)) with (fst T0) in ZR.
    change (ax_global_tile_from_global_element (d_col d) (snd off)) with (snd T0) in ZC.
    unfold tile_size_of_local, both. cbn [fst snd].
    rewrite (T_local_tile_size _ _ _ MR), (T_local_tile_size _ _ _ MC) by lia.
    repeat apply conj; lia.
  - intros l [L1 L2].
    pose proof (view_axis _ _ _ MR (fst off) (fst l) HinR L1) as XR.
    pose proof (view_axis _ _ _ MC (snd off) (snd l) HinC L2) as XC. cbv zeta in XR, XC.
    change (ax_global_tile_from_global_element (d_row d) (fst off)) with (fst T0) in XR.
    change (ax_global_tile_from_global_element (d_col d) (snd off)) with (snd T0) in XC.
    destruct (local_elem_global _ _ _ MR (fst l) L1) as (AR & _ & _ & _ & _ & _ & _ & GR).
    destruct (local_elem_global _ _ _ MC (snd l) L2) as (AC & _ & _ & _ & _ & _ & _ & GC). cbv zeta in *.
    rewrite VI. unfold global_of_local, tile_of_local, in_tile_of_local, both. cbn [fst snd].
    rewrite XR, XC. rewrite SP by (cbn [fst snd]; assumption). cbn [fst snd].
    split.
    + intros [[X1 X2] [X3 X4]]. split; [lia|]. eexists. split; [reflexivity|].
      unfold in_spec. cbn [st_origin st_size fst snd]. lia.
    + intros [V (s & Es & I)]. injection Es as <-. unfold in_spec in I. cbn [st_origin st_size fst snd] in I.
      change (ax_global_tile_from_global_element (d_row d) (fst off)) with (fst T0) in I.
      change (ax_global_tile_from_global_element (d_col d) (snd off)) with (snd T0) in I. lia.
Qed.

(** an empty matrix has an empty view *)
Theorem C24_sub_matrix_view_empty : forall rank Ls d off, built rank Ls d ->
  l_size (Ls Row) = 0 \/ l_size (Ls Col) = 0 ->
  exists v, sub_matrix_view_make d off = Ok v /\ forall lt, ~ visited (smv_view v) lt.
Proof.
  intros rank Ls d off B Z0. pose proof (size2_models _ _ _ B) as S2.
  assert (E : isEmpty2 (size2 d) = true).
  { rewrite S2. unfold isEmpty2. cbn. apply orb_true_iff. rewrite !Z.eqb_eq. exact Z0. }
  unfold sub_matrix_view_make, view_make. rewrite E. cbn. eexists. split; [reflexivity|].
  intros lt H. apply visited_iff in H; cbn in *; lia.
Qed.

(** SubPanelView.  Full statement: the same for the panel of [ncols] columns from the offset,
    on every rank and for every distribution.  Missing: it only holds when the first tile of the
    distribution is whole and on the ranks that own the panel's tile column (see the two
    refutations below). *)
Theorem C24_sub_panel_view_partial : forall rank Ls d off ncols, built rank Ls d ->
  0 < l_size (Ls Row) -> 0 < l_size (Ls Col) -> 0 <= ncols ->
  (forall rc, l_off (Ls rc) mod l_tile (Ls rc) = 0) ->
  (0 <= fst off < l_size (Ls Row) /\ 0 <= snd off < l_size (Ls Col) ->
   owner (Ls Col) (snd off) = snd rank ->
   (snd off mod l_tile (Ls Col) + ncols <= l_tile (Ls Col) ->
   exists v, sub_panel_view_make d off ncols = Ok v /\
     (forall lt, visited (spv_view v) lt ->
        0 <= fst lt < ax_local_nr_tiles (d_row d) /\ 0 <= snd lt < ax_local_nr_tiles (d_col d) /\
        exists s, sub_panel_view_spec v lt = Ok s /\
          0 <= fst (st_origin s) /\ 0 <= snd (st_origin s) /\ 0 < fst (st_size s) /\ 0 <= snd (st_size s) /\
          fst (st_origin s) + fst (st_size s) = fst (tile_size_of_local d lt) /\
          snd (st_origin s) + snd (st_size s) <= snd (tile_size_of_local d lt)) /\
     (forall l, local_elem d l ->
        (fst off <= fst (global_of_local d l) /\ snd off <= snd (global_of_local d l) < snd off + ncols <->
         visited (spv_view v) (tile_of_local d l) /\
         exists s, sub_panel_view_spec v (tile_of_local d l) = Ok s /\
           in_spec s (fst (in_tile_of_local d l)) (snd (in_tile_of_local d l))))) /\
   (l_tile (Ls Col) < snd off mod l_tile (Ls Col) + ncols -> sub_panel_view_make d off ncols = Abort)) /\
  (~ (0 <= fst off < l_size (Ls Row) /\ 0 <= snd off < l_size (Ls Col)) -> sub_panel_view_make d off ncols = Abort).
Proof.
  intros rank Ls d off ncols B SR SC NC AL.
  pose proof (built_models _ _ _ B Row) as MR. pose proof (built_models _ _ _ B Col) as MC. cbn [get sel] in MR, MC.
  pose proof (size2_models _ _ _ B) as S2.
  assert (NE : isEmpty2 (size2 d) = false) by (rewrite S2; apply isEmpty2_false; cbn; lia).
  unfold sub_panel_view_make, view_make. rewrite NE, S2.
  split.
  2: { intros Hin. destruct (isIn2 off (l_size (Ls Row), l_size (Ls Col))) eqn:E; [|reflexivity].
       apply isIn2_spec in E. cbn in E. tauto. }
  intros [HinR HinC] OW.
  rewrite (proj2 (isIn2_spec _ _)) by (cbn; lia). cbn [dlaf_assert bind v_offset_tile v_offset_e v_begin v_dist].
  destruct (T_reported _ _ _ MR) as (_ & _ & TR & _ & RR & _).
  destruct (T_reported _ _ _ MC) as (_ & _ & TC & _ & RC & _).
  pose proof (m_ok _ _ _ MR) as OKR. pose proof (m_ok _ _ _ MC) as OKC.
  pose proof (lo_tile _ OKR) as TPR. pose proof (lo_tile _ OKC) as TPC.
  destruct (aligned_elem _ _ _ MR (AL Row) (fst off) HinR) as [AR1 AR2].
  destruct (aligned_elem _ _ _ MC (AL Col) (snd off) HinC) as [AC1 AC2].
  rewrite TR, TC. rewrite !rem_nonneg_mod by lia.
  split; intros W.
  2: { rewrite (proj2 (Z.leb_gt _ _)) by lia. reflexivity. }
  rewrite (proj2 (Z.leb_le _ _)) by lia. cbn [dlaf_assert bind fst snd].
  set (T0 := global_tile_index_of_element d off).
  eexists. split; [reflexivity|]. cbn [spv_view].
  pose proof (view_axis_begin _ _ _ MR _ HinR) as BR. pose proof (view_axis_begin _ _ _ MC _ HinC) as BC.
  pose proof (fun lt => view_first_tile _ _ _ MR (fst off) lt HinR) as FR.
  pose proof (fun lt => view_first_tile _ _ _ MC (snd off) lt HinC) as FC. cbv zeta in FR, FC.
  change (ax_global_tile_from_global_element (d_row d) (fst off)) with (fst T0) in BR, FR, AR1.
  change (ax_global_tile_from_global_element (d_col d) (snd off)) with (snd T0) in BC, FC, AC1.
  set (nR := ax_next_local_tile_from_global_tile (d_row d) (fst T0)) in *.
  set (nC := ax_next_local_tile_from_global_tile (d_col d) (snd T0)) in *.
  set (has := ax_rank_global_tile (d_row d) (fst T0) =? ax_rank (d_row d)).
  destruct (T_elem_to_tile _ _ _ MC (snd off) HinC) as (TC1 & TC2 & TC3 & _). cbv zeta in *.
  change (ax_global_tile_from_global_element (d_col d) (snd off)) with (snd T0) in TC1, TC2, TC3.
  (* this rank owns the tile column of the panel *)
  assert (OWT : ax_rank_global_tile (d_col d) (snd T0) = ax_rank (d_col d)).
  { rewrite (T_tile_owner _ _ _ MC), RC by lia. rewrite TC1, <- (T_tile_owner_elems _ _ _ MC). exact OW. }
  assert (NCin : 0 <= nC < ax_local_nr_tiles (d_col d)).
  { split; [lia|]. destruct (Z.eq_dec nC (ax_local_nr_tiles (d_col d))) as [Q|Q]; [|lia]. exfalso.
    destruct (T_next_local_first _ _ _ MC (snd T0) ltac:(lia)) as (_ & _ & X). cbv zeta in X. fold nC in X.
    apply (X Q (snd T0)); [lia|]. rewrite <- (T_tile_owner _ _ _ MC) by lia. cbn [sel]. congruence. }
  assert (GC : ax_global_tile_from_local_tile (d_col d) nC = snd T0) by (apply (proj2 (FC nC NCin)); auto).
  assert (VI : forall lt, visited (View d off T0 (nR, nC) (ax_local_nr_tiles (d_row d), nC + 1)) lt <->
     nR <= fst lt < ax_local_nr_tiles (d_row d) /\ snd lt = nC).
  { intros lt. rewrite visited_iff; cbn [v_begin v_end fst snd]; lia. }
  set (jo := snd off mod l_tile (Ls Col)) in *.
  assert (SP : forall lt, nR <= fst lt < ax_local_nr_tiles (d_row d) -> snd lt = nC ->
    let o1 := if ax_global_tile_from_local_tile (d_row d) (fst lt) =? fst T0 then ax_tile_element_from_global_element (d_row d) (fst off) else 0 in
    sub_panel_view_spec (SPView (View d off T0 (nR, nC) (ax_local_nr_tiles (d_row d), nC + 1)) ncols
      (fst off mod l_tile (Ls Row)) jo (Some has)) lt =
    Ok (SubTileSpec (o1, jo) (ax_global_tile_size_of (d_row d) (ax_global_tile_from_local_tile (d_row d) (fst lt)) - o1,
                              Z.min ncols (ax_global_tile_size_of (d_col d) (snd T0) - jo)))).
  { intros lt H1 H2 o1. unfold sub_panel_view_spec.
    cbn [spv_has_top spv_view spv_cols spv_i_sub spv_j_sub v_dist v_begin global_tile_index_of_local tile_size_of_global both fst snd].
    assert (E1 : (if has && eqb2 lt (nR, nC) then fst off mod l_tile (Ls Row) else 0) = o1).
    { unfold o1, eqb2. cbn [fst snd]. rewrite (proj2 (Z.eqb_eq (snd lt) nC) H2), andb_true_r.
      rewrite AR2. specialize (FR (fst lt) ltac:(lia)). unfold has.
      destruct (Z.eqb_spec (ax_global_tile_from_local_tile (d_row d) (fst lt)) (fst T0)) as [Q|Q].
      - destruct (proj1 FR Q) as [F1 F2]. rewrite F1, F2, !Z.eqb_refl. reflexivity.
      - destruct (Z.eqb_spec (ax_rank_global_tile (d_row d) (fst T0)) (ax_rank (d_row d))) as [F1|F1]; [|reflexivity].
        destruct (Z.eqb_spec (fst lt) nR) as [F2|F2]; [|reflexivity]. exfalso. apply Q, FR. auto. }
    rewrite E1, H2, GC. reflexivity. }
  assert (TS : 0 < ax_global_tile_size_of (d_col d) (snd T0)) by (apply (T_tile_sizes _ _ _ MC); lia).
  rewrite AC2 in TC3. fold jo in TC3.
  split.
  - intros lt V. apply VI in V. destruct V as [V1 V2]. rewrite V2.
    split; [lia|]. split; [lia|].
    eexists. split; [apply SP; lia|]. cbn [st_origin st_size fst snd].
    pose proof (view_axis_size _ _ _ MR (fst off) (fst lt) HinR ltac:(lia)) as ZR. cbv zeta in ZR.
    change (ax_global_tile_from_global_element (d_row d) (fst off)) with (fst T0) in ZR.
    unfold tile_size_of_local, both. cbn [fst snd]. rewrite V2.
    rewrite (T_local_tile_size _ _ _ MR), (T_local_tile_size _ _ _ MC), GC by lia.
    repeat apply conj; lia.
  - intros l [L1 L2].
    pose proof (view_axis _ _ _ MR (fst off) (fst l) HinR L1) as XR. cbv zeta in XR.
    change (ax_global_tile_from_global_element (d_row d) (fst off)) with (fst T0) in XR. fold nR in XR.
    destruct (local_elem_global _ _ _ MR (fst l) L1) as (ALR & _ & _ & _ & _ & _ & _ & GRR).
    destruct (local_elem_global _ _ _ MC (snd l) L2) as (ALC & _ & _ & _ & GE & GT & GTE & GRC). cbv zeta in *.
    destruct (aligned_elem _ _ _ MC (AL Col) _ GE) as [AG1 AG2].
    rewrite VI. unfold global_of_local, tile_of_local, in_tile_of_local, both. cbn [fst snd].
    set (g := ax_global_element_from_local_element (d_col d) (snd l)) in *.
    set (lc := ax_local_tile_from_local_element (d_col d) (snd l)) in *.
    rewrite XR, (panel_div (l_tile (Ls Col)) (snd off) ncols g) by (try lia; exact W).
    rewrite <- AG1, <- AG2, <- AC1, GT, GTE. fold jo.
    rewrite (FC lc ALC).
    split.
    + intros [[X1 X2] [[X3 X5] X4]]. split; [lia|]. eexists. split; [apply SP; cbn [fst snd]; lia|].
      unfold in_spec. cbn [st_origin st_size fst snd].
      assert (Q : ax_global_tile_from_local_tile (d_col d) lc = snd T0) by (rewrite X5; exact GC). rewrite Q in GRC. lia.
    + intros [[V1 V2] (s & Es & I)]. rewrite SP in Es by (cbn [fst snd]; lia). injection Es as <-.
      unfold in_spec in I. cbn [st_origin st_size fst snd] in I.
      change (ax_global_tile_from_global_element (d_row d) (fst off)) with (fst T0) in I.
      cbn [fst snd] in V1, V2.
      repeat apply conj; try lia; exact OWT.
Qed.

(** refutations of the full statement for SubPanelView *)
Definition ok_or {A} (x : A) (r : res A) : A := match r with Ok a => a | _ => x end.
(** on a rank that does not own the panel's column the view selects elements of other columns,
    or a tile that does not exist *)
Theorem C24_sub_panel_view_other_ranks_refuted :
  exists d v s, built (0, 1) (arg_layout (8, 8) (4, 4) (4, 4) (1, 2) (0, 0) (0, 0)) d /\
    sub_panel_view_make d (0, 0) 4 = Ok v /\ visited (spv_view v) (0, 0) /\
    sub_panel_view_spec v (0, 0) = Ok s /\ in_spec s 0 0 /\
    (* element (0, 0) of local tile (0, 0) is element (0, 4) of the matrix *)
    global_of_local d (0, 0) = (0, 4).
Proof.
  destruct (ctor_accepts (8, 8) (4, 4) (4, 4) (1, 2) (0, 1) (0, 0) (0, 0)) as (d & E & B).
  - intros []; cbn; repeat split; try lia; exists 1; reflexivity.
  - intros []; cbn; unfold i32_max, i64_max; lia.
  - intros []; cbn; unfold i32_max; lia.
  - vm_compute in E. injection E as <-. do 3 eexists. split; [exact B|].
    split; [vm_compute; reflexivity|]. split; [apply visited_iff; vm_compute; intuition congruence|].
    split; [vm_compute; reflexivity|]. split; vm_compute; intuition congruence.
Qed.
Theorem C24_sub_panel_view_missing_tile_refuted :
  exists d v, built (0, 0) (arg_layout (8, 8) (4, 4) (4, 4) (1, 2) (0, 0) (0, 0)) d /\
    sub_panel_view_make d (0, 4) 4 = Ok v /\ visited (spv_view v) (0, 1) /\ local_nr_tiles2 d = (2, 1).
Proof.
  destruct (ctor_accepts (8, 8) (4, 4) (4, 4) (1, 2) (0, 0) (0, 0) (0, 0)) as (d & E & B).
  - intros []; cbn; repeat split; try lia; exists 1; reflexivity.
  - intros []; cbn; unfold i32_max, i64_max; lia.
  - intros []; cbn; unfold i32_max; lia.
  - vm_compute in E. injection E as <-. do 2 eexists. split; [exact B|].
    split; [vm_compute; reflexivity|]. split; [apply visited_iff; vm_compute; intuition congruence|].
    reflexivity.
Qed.
(** with an offset inside the first tile the wrong part of the tile is selected *)
Theorem C24_sub_panel_view_offset_refuted :
  exists d v s, built (0, 0) (arg_layout (6, 4) (4, 4) (4, 4) (1, 1) (0, 0) (2, 0)) d /\
    sub_panel_view_make d (2, 0) 4 = Ok v /\
    (* element (2, 0) is element (0, 0) of local tile (1, 0) ... *)
    global_of_local d (2, 0) = (2, 0) /\ tile_of_local d (2, 0) = (1, 0) /\ in_tile_of_local d (2, 0) = (0, 0) /\
    (* ... but the view starts at element (2, 0) of this tile *)
    sub_panel_view_spec v (1, 0) = Ok s /\ st_origin s = (2, 0).
Proof.
  destruct (ctor_accepts (6, 4) (4, 4) (4, 4) (1, 1) (0, 0) (0, 0) (2, 0)) as (d & E & B).
  - intros []; cbn; repeat split; try lia; exists 1; reflexivity.
  - intros []; cbn; unfold i32_max, i64_max; lia.
  - intros []; cbn; unfold i32_max; lia.
  - vm_compute in E. injection E as <-. do 3 eexists. split; [exact B|].
    repeat split; vm_compute; reflexivity.
Qed.

(** a concrete, unaligned, distributed instance *)
Example C24_example :
  let d := dist_of (dist_ctor (11, 13) (4, 6) (2, 3) (2, 2) (1, 0) (1, 1) (0, 0)) in
  match sub_matrix_view_make d (3, 4) with
  | Ok v => (v_begin (smv_view v), v_end (smv_view v), sub_matrix_view_spec v (1, 0), sub_matrix_view_spec v (2, 1))
            = ((1, 0), (4, 2), Ok (SubTileSpec (1, 0) (1, 3)), Ok (SubTileSpec (0, 0) (2, 3)))
  | _ => False
  end.
Proof. vm_compute. reflexivity. Qed.

(** ** C23 *)

(** Every tile of matrix m lies in the heap and has the size its distribution says (implied by
    [well_stored], which C15 proves for the library's own allocations). *)
Definition stored (h : heap) (m : matrix) : Prop :=
  forall i j, 0 <= i < ax_local_nr_tiles (d_row (mx_dist m)) -> 0 <= j < ax_local_nr_tiles (d_col (mx_dist m)) ->
  exists t, mx_tile m (i, j) = Ok t /\ td_size t = tile_size_of_local (mx_dist m) (i, j) /\ wf_tile h t.
Lemma well_stored_stored : forall d n h m, well_stored d n h m -> stored h m.
Proof.
  intros d n h m W i j Hi Hj. rewrite (ws_dist _ _ _ _ W) in *.
  destruct (ws_tile _ _ _ _ W i j Hi Hj) as (t & _ & _ & A & B & C & _). exists t. auto.
Qed.

(** Address of global element e: which tile, which element of the tile, the tile's pointer. *)
Definition element_address (h : heap) (d : distribution) (tile : pair_Z -> res tile_data) (e : pair_Z)
  : res (nat * Z) :=
  t <- tile (global_tile_index_of_element d e) ;;
  tile_ptr h t (tile_element_index d e).
Definition matrix_address (h : heap) (m : matrix) : pair_Z -> res (nat * Z) :=
  element_address h (mx_dist m) (mx_tile_global m).
Definition ref_address (h : heap) (r : mref) : pair_Z -> res (nat * Z) :=
  element_address h (mr_dist r) (mref_tile_global r).

(** e is an element of a matrix with layouts Ls, stored on [rank] *)
Definition element_here (rank : pair_Z) (Ls : coord -> layout) (e : pair_Z) : Prop :=
  forall rc, 0 <= sel rc e < l_size (Ls rc) /\ owner (Ls rc) (sel rc e) = sel rc rank.

Lemma axis_tile_here : forall r L a, models r L a -> forall e, 0 <= e < l_size L -> owner L e = r ->
  let gt := ax_global_tile_from_global_element a e in
  let lt := ax_local_tile_from_global_tile a gt in
  0 <= gt < ax_nr_tiles a /\ 0 <= lt < ax_local_nr_tiles a /\ ax_global_tile_from_local_tile a lt = gt /\
  0 <= ax_tile_element_from_global_element a e < ax_global_tile_size_of a gt.
Proof.
  intros r L a M e He Ho gt lt.
  destruct (T_elem_to_tile _ _ _ M e He) as (E1 & E2 & E3 & _). cbv zeta in *. fold gt in E1, E2, E3.
  assert (OT : tile_owner L gt = r).
  { rewrite E1. rewrite <- (T_tile_owner_elems _ _ _ M). exact Ho. }
  split; [exact E2|]. split; [|split; [|exact E3]].
  - unfold lt. rewrite (T_local_tile _ _ _ M), OT, Z.eqb_refl by lia.
    rewrite (T_local_nr_tiles _ _ _ M). split; [apply count_bounds; lia|].
    apply count_lt; [lia|]. apply Z.eqb_eq. exact OT.
  - apply (T_global_tile_inv _ _ _ M); assumption.
Qed.

Lemma stored_global : forall rank Ls h m, built rank Ls (mx_dist m) -> stored h m -> forall e, element_here rank Ls e ->
  exists t, mx_tile_global m (global_tile_index_of_element (mx_dist m) e) = Ok t /\ wf_tile h t /\
    td_size t = tile_size_of_global (mx_dist m) (global_tile_index_of_element (mx_dist m) e) /\
    let te := tile_element_index (mx_dist m) e in
    0 <= fst te < fst (td_size t) /\ 0 <= snd te < snd (td_size t).
Proof.
  intros rank Ls h m B S e He.
  pose proof (built_models _ _ _ B Row) as MR. pose proof (built_models _ _ _ B Col) as MC.
  destruct (He Row) as [H1 H2]. destruct (He Col) as [H3 H4]. cbn [sel get] in *.
  destruct (axis_tile_here _ _ _ MR _ H1 H2) as (A1 & A2 & A3 & A4).
  destruct (axis_tile_here _ _ _ MC _ H3 H4) as (C1 & C2 & C3 & C4). cbv zeta in *.
  destruct (S _ _ A2 C2) as (t & E1 & E2 & E3). exists t.
  assert (SZ : td_size t = tile_size_of_global (mx_dist m) (global_tile_index_of_element (mx_dist m) e)).
  { rewrite E2. unfold tile_size_of_local, tile_size_of_global, global_tile_index_of_element, both. cbn [fst snd].
    rewrite (T_local_tile_size _ _ _ MR), (T_local_tile_size _ _ _ MC), A3, C3 by assumption. reflexivity. }
  split; [|split; [exact E3|split; [exact SZ|]]].
  - unfold mx_tile_global, local_tile_index, global_tile_index_of_element, both. cbn [fst snd].
    rewrite (proj2 (Z.ltb_ge _ _)) by apply A2. rewrite (proj2 (Z.ltb_ge _ _)) by apply C2. exact E1.
  - rewrite SZ. unfold tile_size_of_global, global_tile_index_of_element, tile_element_index, both. cbn [fst snd]. auto.
Qed.

(** Size of a tile of the window and of the parent tile it is cut from. *)
Lemma sub_tile_size : forall r L o s a b, models r L a -> models r (window L o s) b ->
  0 <= o -> 0 < s -> o + s <= l_size L -> forall t, 0 <= t < ax_nr_tiles b ->
  let T0 := ax_global_tile_from_global_element a o in
  let off := if t =? 0 then ax_tile_element_from_global_element a o else 0 in
  0 <= T0 + t < ax_nr_tiles a /\ 0 <= off /\
  off + ax_global_tile_size_of b t <= ax_global_tile_size_of a (T0 + t).
Proof.
  intros r L o s a b Ma Mb Ho Hs Hin t Ht T0 off.
  destruct (T_tile_sizes _ _ _ Mb t Ht) as [[S1 S2] _].
  (* the last element of the window's tile *)
  destruct (T_tile_to_elem _ _ _ Mb t (ax_global_tile_size_of b t - 1) Ht ltac:(lia)) as (A1 & A2 & A3). cbv zeta in *.
  set (e := ax_global_element_from_global_tile_and_tile_element b t (ax_global_tile_size_of b t - 1)) in *.
  cbn [window l_size] in A1.
  assert (G : ax_global_tile_from_global_element b e = ax_global_tile_from_global_element a (o + e) - T0)
    by (eapply sub_gtile; try eassumption; lia). rewrite A2 in G.
  assert (TE : ax_tile_element_from_global_element a (o + e) =
    (if ax_global_tile_from_global_element b e =? 0 then ax_tile_element_from_global_element a o else 0)
    + ax_tile_element_from_global_element b e) by (eapply sub_tile_elem; try eassumption; lia).
  rewrite A2, A3 in TE. fold off in TE.
  destruct (T_elem_to_tile _ _ _ Ma (o + e) ltac:(lia)) as (_ & E2 & E3 & _). cbv zeta in *.
  replace (ax_global_tile_from_global_element a (o + e)) with (T0 + t) in * by lia.
  assert (0 <= off).
  { unfold off. destruct (t =? 0); [|lia]. apply (T_elem_to_tile _ _ _ Ma o). lia. }
  lia.
Qed.

Theorem C23_reference_is_window : forall rank Ls h m origin size r,
  built rank Ls (mx_dist m) -> stored h m ->
  (forall rc, blocks_fit_int (ax_offset (get rc (mx_dist m)) + sel rc origin) (ax_block (get rc (mx_dist m)))) ->
  mref_make m origin size = Ok r ->
  (* element e of the reference, wherever it is stored, is element origin + e of the matrix, and on
     the rank that stores it both are at the same address *)
  (forall rc, ax_size (get rc (mr_dist r)) = sel rc size) /\
  (forall e rc, 0 <= sel rc e < sel rc size ->
     ax_rank_global_element (get rc (mr_dist r)) (sel rc e) =
     ax_rank_global_element (get rc (mx_dist m)) (sel rc origin + sel rc e)) /\
  (forall e, (forall rc, 0 <= sel rc e < sel rc size) ->
     element_here rank Ls (fst origin + fst e, snd origin + snd e) ->
     (exists x, ref_address h r e = Ok x) /\
     ref_address h r e = matrix_address h m (fst origin + fst e, snd origin + snd e) /\
     exists t, mref_tile_global r (global_tile_index_of_element (mr_dist r) e) = Ok t /\ wf_tile h t /\
       td_size t = tile_size_of_global (mr_dist r) (global_tile_index_of_element (mr_dist r) e)).
Proof.
  intros rank Ls h m origin size r B S F R. unfold mref_make in R.
  destruct (sub_distribution (mx_dist m) origin size) as [d'| |] eqn:SD; try discriminate. injection R as <-. cbn [mr_dist].
  pose proof (sub_models _ _ _ _ _ _ B F SD) as X.
  split; [|split].
  - intros rc. apply (C07_sub_distribution_is_restriction _ _ _ _ _ _ rc B F SD).
  - intros e rc He. apply (C07_sub_distribution_is_restriction _ _ _ _ _ _ rc B F SD). exact He.
  - intros e He HE.
    destruct (X Row) as (MR & MR' & R1 & R2 & R3). destruct (X Col) as (MC & MC' & C1 & C2 & C3).
    pose proof (He Row) as HR. pose proof (He Col) as HC. cbn [sel get] in *.
    destruct (C07_helpers _ _ _ _ _ _ B F SD) as (_ & HP). { intros []; cbn; lia. }
    specialize (HP e He). cbv zeta in HP. destruct HP as [P1 P2].
    set (abs := (fst origin + fst e, snd origin + snd e)) in *.
    destruct (stored_global _ _ _ _ B S abs HE) as (t & T1 & T2 & T3 & T4). cbv zeta in T4.
    destruct (T_elem_to_tile _ _ _ MR' (fst e) ltac:(cbn; lia)) as (_ & N1 & N1' & _).
    destruct (T_elem_to_tile _ _ _ MC' (snd e) ltac:(cbn; lia)) as (_ & N2 & N2' & _). cbv zeta in *.
    set (st := global_tile_index_of_element d' e) in *.
    destruct (sub_tile_size _ _ _ _ _ _ MR MR' R1 ltac:(lia) R3 (fst st) N1) as (U1 & U2 & U3).
    destruct (sub_tile_size _ _ _ _ _ _ MC MC' C1 ltac:(lia) C3 (snd st) N2) as (V1 & V2 & V3). cbv zeta in *.
    assert (G : exists u, mref_tile_global (MRef m d' origin) st = Ok u /\ wf_tile h u /\
                td_size u = tile_size_of_global d' st /\
                tile_ptr h u (tile_element_index d' e) = tile_ptr h t (tile_element_index (mx_dist m) abs)).
    { unfold mref_tile_global. cbn [mr_dist mr_mat mr_origin].
      rewrite (proj2 (isIn2_spec _ _)) by (cbn; split; [exact N1|exact N2]). cbn [dlaf_assert bind].
      rewrite P1, T1. cbn [bind]. rewrite <- P1.
      change (tile_size_of_global (mx_dist m) (global_tile_index_from_sub_distribution (mx_dist m) origin st)) with
        (ax_global_tile_size_of (d_row (mx_dist m)) (ax_global_tile_from_global_element (d_row (mx_dist m)) (fst origin) + fst st),
         ax_global_tile_size_of (d_col (mx_dist m)) (ax_global_tile_from_global_element (d_col (mx_dist m)) (snd origin) + snd st)) in *.
      assert (T3' : td_size t = (ax_global_tile_size_of (d_row (mx_dist m)) (ax_global_tile_from_global_element (d_row (mx_dist m)) (fst origin) + fst st),
         ax_global_tile_size_of (d_col (mx_dist m)) (ax_global_tile_from_global_element (d_col (mx_dist m)) (snd origin) + snd st))).
      { rewrite T3, <- P1. reflexivity. }
      change (tile_size_of_global d' st) with (ax_global_tile_size_of (d_row d') (fst st), ax_global_tile_size_of (d_col d') (snd st)).
      unfold eqb2. cbn [fst snd].
      change (tile_element_offset_from_sub_distribution (mx_dist m) origin st) with
       (if fst st =? 0 then ax_tile_element_from_global_element (d_row (mx_dist m)) (fst origin) else 0,
        if snd st =? 0 then ax_tile_element_from_global_element (d_col (mx_dist m)) (snd origin) else 0) in *.
      set (o1 := if fst st =? 0 then _ else _) in *. set (o2 := if snd st =? 0 then _ else _) in *.
      set (pr := ax_global_tile_size_of (d_row (mx_dist m)) _) in *.
      set (pc := ax_global_tile_size_of (d_col (mx_dist m)) _) in *.
      set (qr := ax_global_tile_size_of (d_row d') (fst st)) in *.
      set (qc := ax_global_tile_size_of (d_col d') (snd st)) in *.
      cbn [fst snd] in P2.
      assert (TE : 0 <= fst (tile_element_index d' e) < qr /\ 0 <= snd (tile_element_index d' e) < qc) by (split; [exact N1'|exact N2']).
      destruct (Z.eqb_spec pr qr) as [Q1|Q1]; destruct (Z.eqb_spec pc qc) as [Q2|Q2]; cbn [andb].
      1: { exists t. split; [reflexivity|]. split; [exact T2|]. split; [rewrite T3'; congruence|].
           rewrite <- P2. replace o1 with 0 by lia. replace o2 with 0 by lia. destruct (tile_element_index d' e); reflexivity. }
      all: assert (IN : inside t (SubTileSpec (o1, o2) (qr, qc))) by
             (unfold inside; rewrite T3'; cbn [st_origin st_size fst snd]; lia);
           destruct (proj1 (C17_sub_tile h t _ T2) IN) as (u & Eu & Wu & Su & Lu & Au);
           exists u; split; [exact Eu|]; split; [exact Wu|]; split; [exact Su|];
           cbn [st_origin st_size fst snd] in Au;
           rewrite <- P2; destruct (tile_element_index d' e) as [x y]; cbn [fst snd] in TE |- *; apply Au; lia. }
    destruct G as (u & G1 & G2 & G3 & G4).
    unfold ref_address, matrix_address, element_address. cbn [mr_dist]. fold st. rewrite G1, T1. cbn [bind].
    split; [|split].
    + rewrite G4. destruct (tile_element_index (mx_dist m) abs) as [x y]. cbn [fst snd] in T4.
      destruct (wf_tile_ptr h t T2 ltac:(lia) ltac:(lia)) as (c & _ & A). rewrite A by lia. eauto.
    + exact G4.
    + exists u. auto.
Qed.

(** ** Assumptions *)
Print Assumptions C24_sub_matrix_view.
Print Assumptions C24_sub_matrix_view_empty.
Print Assumptions C24_sub_panel_view_partial.
Print Assumptions C24_sub_panel_view_other_ranks_refuted.
Print Assumptions C24_sub_panel_view_missing_tile_refuted.
Print Assumptions C24_sub_panel_view_offset_refuted.
Print Assumptions C23_reference_is_window.
