(** * Properties C01-C10: block-cyclic distributions.

    Every theorem is about a distribution [d] obtained on the process with grid
    coordinates [rank] by any sequence of constructor / sub-distribution calls
    that asked for the layouts [Ls Row], [Ls Col] ([built], DistBuilt.v).  The
    meaning of a layout ([owner], [tile_of], [count]) is DistSpec.v.
    [get rc d] is coordinate rc of the distribution object, [sel rc] picks a
    coordinate of a 2D value. *)
From Coq Require Import ZArith Lia Bool List Znumtheory.
From Verif Require Import CInt DistModel DistSpec DivLemmas DistProofs DistProofs2 DistBuilt DistThms DistCtor
  DistChecked DistSub.
Open Scope Z_scope.

(** ** C01 *)
Theorem C01_owner_and_local_slot : forall rank Ls d rc, built rank Ls d ->
  let L := Ls rc in let a := get rc d in let r := sel rc rank in
  (forall e, 0 <= e < l_size L ->
     (* the reported owner is the block-cyclic owner, and is a rank of the grid *)
     ax_rank_global_element a e = owner L e /\ 0 <= owner L e < l_grid L /\
     (* local index: number of smaller elements stored here; -1 elsewhere *)
     (owner L e = r -> ax_local_element_from_global_element a e = count (owned L r) e) /\
     (owner L e <> r -> ax_local_element_from_global_element a e = -1)) /\
  (* local size: number of elements stored here *)
  ax_local_size a = count (owned L r) (l_size L).
Proof.
  intros rank Ls d rc B L a r. pose proof (built_models _ _ _ B rc) as M. fold L a r in M.
  split.
  - intros e He. destruct (T_owner _ _ _ M e ltac:(lia)) as [H1 H2].
    pose proof (T_local_element _ _ _ M e ltac:(lia)) as H3.
    split; [exact H1|split; [exact H2|split; intros E; rewrite H3]].
    + rewrite E, Z.eqb_refl. reflexivity.
    + rewrite (proj2 (Z.eqb_neq _ _) E). reflexivity.
  - apply (T_local_size _ _ _ M).
Qed.

(** Local sizes of all ranks of the grid add up to the matrix size: every element is
    stored exactly once. *)
Lemma sumZ_plus : forall f g n, sumZ (fun k => f k + g k) n = sumZ f n + sumZ g n.
Proof.
  intros f g n. unfold sumZ. induction (Z.to_nat n); cbn; lia.
Qed.
Lemma sumZ_ind : forall x G, 0 <= x < G -> sumZ (fun r => if x =? r then 1 else 0) G = 1.
Proof.
  intros x G H.
  rewrite (sumZ_of_step _ (fun n => if x <? n then 1 else 0)).
  - destruct (Z.ltb_spec x G); destruct (Z.ltb_spec x 0); lia.
  - lia.
  - intros j Hj. destruct (Z.ltb_spec x (j + 1)); destruct (Z.ltb_spec x j); destruct (Z.eqb_spec x j); lia.
Qed.
Theorem C01_every_element_stored_once : forall L, layout_ok L ->
  sumZ (fun r => count (owned L r) (l_size L)) (l_grid L) = l_size L.
Proof.
  intros L H. destruct H.
  assert (X : forall n, 0 <= n -> sumZ (fun r => count (owned L r) n) (l_grid L) = n).
  { intros n Hn. rewrite <- (Z2Nat.id n) by lia. generalize (Z.to_nat n). clear n Hn. induction n as [|n IH].
    - rewrite (sumZ_ext _ (fun _ => 0)); [|intros; apply count_0; lia].
      rewrite (sumZ_of_step _ (fun _ => 0)); cbn; intros; lia.
    - rewrite Nat2Z.inj_succ. replace (Z.succ (Z.of_nat n)) with (Z.of_nat n + 1) by lia.
      rewrite (sumZ_ext _ (fun r => count (owned L r) (Z.of_nat n) + (if owner L (Z.of_nat n) =? r then 1 else 0))).
      + rewrite sumZ_plus, IH. rewrite sumZ_ind; [lia|]. apply Z.mod_pos_bound. lia.
      + intros r Hr. rewrite count_succ by lia. reflexivity. }
  apply X. assumption.
Qed.

(** ** C02 *)
Theorem C02_local_global_inverse : forall rank Ls d rc, built rank Ls d ->
  let L := Ls rc in let a := get rc d in let r := sel rc rank in
  (forall l, 0 <= l < ax_local_size a ->
     let e := ax_global_element_from_local_element a l in
     0 <= e < l_size L /\ owner L e = r /\ ax_local_element_from_global_element a e = l) /\
  (forall e, 0 <= e < l_size L -> owner L e = r ->
     0 <= ax_local_element_from_global_element a e < ax_local_size a /\
     ax_global_element_from_local_element a (ax_local_element_from_global_element a e) = e) /\
  (forall l l', 0 <= l < l' -> l' < ax_local_size a ->
     ax_global_element_from_local_element a l < ax_global_element_from_local_element a l').
Proof.
  intros rank Ls d rc B L a r. pose proof (built_models _ _ _ B rc) as M. fold L a r in M.
  split; [|split].
  - intros l Hl. apply (T_local_to_global _ _ _ M l Hl).
  - intros e He Ho. split.
    + rewrite (T_local_element _ _ _ M e ltac:(lia)), Ho, Z.eqb_refl, (T_local_size _ _ _ M).
      split; [apply count_bounds; lia|]. apply count_lt; [lia|]. unfold owned. rewrite Ho. apply Z.eqb_refl.
    + apply (T_global_to_local _ _ _ M e He Ho).
  - apply (T_local_to_global_mono _ _ _ M).
Qed.

(** ... and the variant that answers for any rank of the grid. *)
Theorem C02_local_to_global_on_any_rank : forall rank Ls d rc q l, built rank Ls d ->
  let L := Ls rc in let a := get rc d in
  0 <= q < l_grid L -> 0 <= l < count (owned L q) (l_size L) ->
  let e := global_element_from_local_element_on_rank a q l in
  0 <= e < l_size L /\ owner L e = q /\ count (owned L q) e = l.
Proof.
  intros rank Ls d rc q l B L a Hq Hl. pose proof (built_models _ _ _ B rc) as M.
  apply (T_local_to_global_on_rank _ _ _ M q l Hq Hl).
Qed.

(** ** C03 *)
Theorem C03_tile_ownership : forall rank Ls d rc, built rank Ls d ->
  let L := Ls rc in let a := get rc d in let r := sel rc rank in
  (* tile indices are those of the tiles that contain an element *)
  (forall t, is_tile L t <-> 0 <= t < ax_nr_tiles a) /\
  (* all elements of a tile live on the tile's owner *)
  (forall e, owner L e = tile_owner L (tile_of L e)) /\
  (forall t, 0 <= t -> ax_rank_global_tile a t = tile_owner L t) /\
  (forall t, 0 <= t -> tile_owner L t = r -> ax_local_tile_from_global_tile a t = count (tile_owned L r) t) /\
  (forall t, 0 <= t -> tile_owner L t <> r -> ax_local_tile_from_global_tile a t = -1) /\
  ax_local_nr_tiles a = count (tile_owned L r) (ax_nr_tiles a) /\
  (* local -> global is the inverse *)
  (forall l, 0 <= l < ax_local_nr_tiles a ->
     let t := ax_global_tile_from_local_tile a l in
     0 <= t < ax_nr_tiles a /\ tile_owner L t = r /\ ax_local_tile_from_global_tile a t = l) /\
  (forall t, 0 <= t < ax_nr_tiles a -> tile_owner L t = r ->
     ax_global_tile_from_local_tile a (ax_local_tile_from_global_tile a t) = t).
Proof.
  intros rank Ls d rc B L a r. pose proof (built_models _ _ _ B rc) as M. fold L a r in M.
  assert (LT : forall t, 0 <= t -> tile_owner L t = r -> ax_local_tile_from_global_tile a t = count (tile_owned L r) t).
  { intros t Ht E. rewrite (T_local_tile _ _ _ M t Ht), E, Z.eqb_refl. reflexivity. }
  repeat apply conj.
  - apply (m_is_tile _ _ _ M).
  - apply (T_tile_owner_elems _ _ _ M).
  - apply (T_tile_owner _ _ _ M).
  - exact LT.
  - intros t Ht E. rewrite (T_local_tile _ _ _ M t Ht). rewrite (proj2 (Z.eqb_neq _ _) E). reflexivity.
  - apply (T_local_nr_tiles _ _ _ M).
  - intros l Hl. destruct (T_global_tile _ _ _ M l Hl) as (H1 & H2 & H3).
    split; [exact H1|split; [exact H2|]]. rewrite LT; [exact H3|lia|exact H2].
  - apply (T_global_tile_inv _ _ _ M).
Qed.

(** the "next local tile" query: first owned tile >= t, or one past the end *)
Theorem C03_next_local_tile : forall rank Ls d rc t, built rank Ls d ->
  let L := Ls rc in let a := get rc d in let r := sel rc rank in
  0 <= t <= ax_nr_tiles a ->
  let n := ax_next_local_tile_from_global_tile a t in
  n = count (tile_owned L r) t /\ 0 <= n <= ax_local_nr_tiles a /\
  (n < ax_local_nr_tiles a ->
     t <= ax_global_tile_from_local_tile a n /\
     forall s, t <= s < ax_global_tile_from_local_tile a n -> tile_owner L s <> r) /\
  (n = ax_local_nr_tiles a -> forall s, t <= s < ax_nr_tiles a -> tile_owner L s <> r).
Proof.
  intros rank Ls d rc t B L a r Ht n. pose proof (built_models _ _ _ B rc) as M. fold L a r in M.
  split; [apply (T_next_local _ _ _ M); lia|]. apply (T_next_local_first _ _ _ M t Ht).
Qed.

(** queries by element, and queries about other ranks *)
Theorem C03_composites : forall rank Ls d rc, built rank Ls d ->
  let L := Ls rc in let a := get rc d in let r := sel rc rank in
  (forall e, 0 <= e < l_size L ->
     ax_local_tile_from_global_element a e =
       (if owner L e =? r then count (tile_owned L r) (tile_of L e) else -1) /\
     ax_next_local_tile_from_global_element a e = count (tile_owned L r) (tile_of L e)) /\
  (forall q l, 0 <= q < l_grid L -> 0 <= l < count (tile_owned L q) (ax_nr_tiles a) ->
     let t := global_tile_from_local_tile_on_rank a q l in
     0 <= t < ax_nr_tiles a /\ tile_owner L t = q /\ count (tile_owned L q) t = l) /\
  (forall t, 0 <= t -> local_tile_from_global_tile_any_rank a t = count (tile_owned L (tile_owner L t)) t).
Proof.
  intros rank Ls d rc B L a r. pose proof (built_models _ _ _ B rc) as M. fold L a r in M.
  split; [|split].
  - apply (T_composites _ _ _ M).
  - apply (T_global_tile_on_rank _ _ _ M).
  - apply (T_any_rank _ _ _ M).
Qed.

(** 2D queries combine the two coordinates independently. *)
Theorem C03_two_dimensional : forall d rc i j,
  sel rc (global_element_index d i j) = ax_global_element_from_global_tile_and_tile_element (get rc d) (sel rc i) (sel rc j) /\
  sel rc (global_tile_index_of_element d i) = ax_global_tile_from_global_element (get rc d) (sel rc i) /\
  sel rc (global_tile_index_of_local d i) = ax_global_tile_from_local_tile (get rc d) (sel rc i) /\
  sel rc (rank_global_tile_2d d i) = ax_rank_global_tile (get rc d) (sel rc i) /\
  sel rc (local_tile_index d i) = ax_local_tile_from_global_tile (get rc d) (sel rc i) /\
  sel rc (tile_element_index d i) = ax_tile_element_from_global_element (get rc d) (sel rc i) /\
  sel rc (tile_size_of_global d i) = ax_global_tile_size_of (get rc d) (sel rc i) /\
  sel rc (tile_size_of_local d i) = ax_local_tile_size_of (get rc d) (sel rc i).
Proof. intros d [] i j; cbn; repeat split. Qed.

(** Linear tile indices enumerate tiles without collisions. *)
Lemma lin_inj : forall n x y x' y', 0 <= x < n -> 0 <= x' < n -> x + y * n = x' + y' * n -> x = x' /\ y = y'.
Proof. intros. assert (y = y') by nia. subst. lia. Qed.
Theorem C03_linear_indices : forall rank Ls d, built rank Ls d ->
  (forall i j, 0 <= fst i < ax_local_nr_tiles (d_row d) -> 0 <= fst j < ax_local_nr_tiles (d_row d) ->
     0 <= snd i < ax_local_nr_tiles (d_col d) ->
     0 <= local_tile_linear_index d i < ax_local_nr_tiles (d_row d) * ax_local_nr_tiles (d_col d) /\
     (local_tile_linear_index d i = local_tile_linear_index d j -> i = j)) /\
  (forall i j, (forall rc, 0 <= sel rc i < l_size (Ls rc)) -> (forall rc, 0 <= sel rc j < l_size (Ls rc)) ->
     0 <= global_tile_linear_index d i < ax_nr_tiles (d_row d) * ax_nr_tiles (d_col d) /\
     (global_tile_linear_index d i = global_tile_linear_index d j <->
      (forall rc, tile_of (Ls rc) (sel rc i) = tile_of (Ls rc) (sel rc j)))).
Proof.
  intros rank Ls d B. split.
  - intros [i1 i2] [j1 j2] Hi Hj Hc. unfold local_tile_linear_index. cbn in *. split; [nia|].
    intros E. apply lin_inj in E as [-> ->]; auto.
  - intros i j Hi Hj. unfold global_tile_linear_index. cbn.
    pose proof (built_models _ _ _ B Row) as MR. pose proof (built_models _ _ _ B Col) as MC.
    destruct (T_elem_to_tile _ _ _ MR _ (Hi Row)) as (E1 & R1 & _).
    destruct (T_elem_to_tile _ _ _ MC _ (Hi Col)) as (E2 & R2 & _).
    destruct (T_elem_to_tile _ _ _ MR _ (Hj Row)) as (E3 & R3 & _).
    destruct (T_elem_to_tile _ _ _ MC _ (Hj Col)) as (E4 & R4 & _).
    cbn [sel get] in *. rewrite E1, E2, E3, E4 in *. split; [nia|].
    split.
    + intros E. apply lin_inj in E as [EA EB]; [|assumption|assumption]. intros []; assumption.
    + intros E. pose proof (E Row) as EA. pose proof (E Col) as EB. cbn in EA, EB. rewrite EA, EB. reflexivity.
Qed.

(** ** C04 *)
Theorem C04_tiles_partition_the_axis : forall rank Ls d rc, built rank Ls d ->
  let L := Ls rc in let a := get rc d in
  (forall e, 0 <= e < l_size L ->
     let t := ax_global_tile_from_global_element a e in
     let te := ax_tile_element_from_global_element a e in
     t = tile_of L e /\ 0 <= t < ax_nr_tiles a /\ 0 <= te < ax_global_tile_size_of a t /\
     ax_global_element_from_global_tile_and_tile_element a t te = e) /\
  (forall t te, 0 <= t < ax_nr_tiles a -> 0 <= te < ax_global_tile_size_of a t ->
     let e := ax_global_element_from_global_tile_and_tile_element a t te in
     0 <= e < l_size L /\ ax_global_tile_from_global_element a e = t /\
     ax_tile_element_from_global_element a e = te) /\
  (forall t, 0 <= t < ax_nr_tiles a ->
     0 < ax_global_tile_size_of a t <= l_tile L /\
     (0 < t < ax_nr_tiles a - 1 -> ax_global_tile_size_of a t = l_tile L)) /\
  sumZ (ax_global_tile_size_of a) (ax_nr_tiles a) = l_size L.
Proof.
  intros rank Ls d rc B L a. pose proof (built_models _ _ _ B rc) as M. fold L a in M.
  repeat apply conj.
  - apply (T_elem_to_tile _ _ _ M).
  - apply (T_tile_to_elem _ _ _ M).
  - apply (T_tile_sizes _ _ _ M).
  - apply (T_tile_sum _ _ _ M).
Qed.

Theorem C04_local_tiles_partition_local_part : forall rank Ls d rc, built rank Ls d ->
  let L := Ls rc in let a := get rc d in
  (forall l, 0 <= l < ax_local_size a ->
     let lt := ax_local_tile_from_local_element a l in
     let te := ax_tile_element_from_local_element a l in
     0 <= lt < ax_local_nr_tiles a /\ 0 <= te < ax_local_tile_size_of a lt /\
     ax_local_element_from_local_tile_and_tile_element a lt te = l) /\
  (forall lt te, 0 <= lt < ax_local_nr_tiles a -> 0 <= te < ax_local_tile_size_of a lt ->
     let l := ax_local_element_from_local_tile_and_tile_element a lt te in
     0 <= l < ax_local_size a /\ ax_local_tile_from_local_element a l = lt /\
     ax_tile_element_from_local_element a l = te /\
     ax_global_element_from_local_element a l = ax_global_element_from_local_tile_and_tile_element a lt te /\
     ax_global_element_from_local_tile_and_tile_element a lt te =
       ax_global_element_from_global_tile_and_tile_element a (ax_global_tile_from_local_tile a lt) te) /\
  (* a local tile has the size of the global tile it is *)
  (forall l, 0 <= l < ax_local_nr_tiles a ->
     ax_local_tile_size_of a l = ax_global_tile_size_of a (ax_global_tile_from_local_tile a l)) /\
  sumZ (ax_local_tile_size_of a) (ax_local_nr_tiles a) = ax_local_size a.
Proof.
  intros rank Ls d rc B L a. pose proof (built_models _ _ _ B rc) as M. fold L a in M.
  repeat apply conj.
  - apply (T_local_elem_to_tile _ _ _ M).
  - apply (T_local_tile_to_elem _ _ _ M).
  - apply (T_local_tile_size _ _ _ M).
  - apply (T_local_tile_sum _ _ _ M).
Qed.

(** ** C05 *)
Theorem C05_reported_members : forall rank Ls d rc, built rank Ls d ->
  let L := Ls rc in let a := get rc d in
  ax_size a = l_size L /\ ax_block a = l_block L /\ ax_tile a = l_tile L /\ ax_grid a = l_grid L /\
  ax_rank a = sel rc rank /\
  ax_offset a = l_off L mod l_block L /\ 0 <= ax_offset a < l_block L /\
  ax_src a = owner L 0 /\ 0 <= ax_src a < l_grid L.
Proof.
  intros rank Ls d rc B L a. apply (T_reported _ _ _ (built_models _ _ _ B rc)).
Qed.

(** moving whole blocks between offset and source rank gives the same object *)
Theorem C05_shift_invariance : forall size block tile grid rank src src' off q d d',
  (forall rc, 0 <= sel rc off + sel rc q * sel rc block) ->
  (forall rc, (sel rc src' + sel rc q) mod sel rc grid = sel rc src mod sel rc grid) ->
  (forall rc, layout_ok (arg_layout size block tile grid src off rc)) ->
  (forall rc, blocks_fit_int (sel rc off) (sel rc block)) ->
  let off' := (fst off + fst q * fst block, snd off + snd q * snd block) in
  (forall rc, blocks_fit_int (sel rc off') (sel rc block)) ->
  (forall rc, layout_ok (arg_layout size block tile grid src' off' rc)) ->
  dist_ctor size block tile grid rank src off = Ok d ->
  dist_ctor size block tile grid rank src' off' = Ok d' ->
  d = d'.
Proof.
  intros size block tile grid rank src src' off q d d' H1 H2 LO BF off' BF' LO' C C'.
  pose proof (built_ctor rank _ _ _ _ _ _ _ LO BF C) as B.
  pose proof (built_ctor rank _ _ _ _ _ _ _ LO' BF' C') as B'.
  apply dist_ext. intros rc.
  eapply models_unique; [apply (built_models _ _ _ B rc)|apply (built_models _ _ _ B' rc)|].
  unfold arg_layout. replace (sel rc off') with (sel rc off + sel rc q * sel rc block) by (destruct rc; reflexivity).
  specialize (LO rc). specialize (LO' rc). destruct LO, LO'. cbn in *.
  apply shift_same; try assumption. apply H1. apply H2.
Qed.

(** the constructors that take a tile offset and an element offset *)
Theorem C05_tile_offset_constructors : forall size block tile grid rank src toff eoff,
  dist_ctor_toff size block tile grid rank src toff eoff =
    dist_ctor size block tile grid rank src (fst toff * fst tile + fst eoff, snd toff * snd tile + snd eoff) /\
  dist_ctor_tile size tile grid rank src eoff = dist_ctor size tile tile grid rank src eoff /\
  dist_ctor_tile_toff size tile grid rank src toff eoff =
    dist_ctor_toff size tile tile grid rank src toff eoff.
Proof. intros. repeat split. Qed.

(** a local distribution is the distribution on a 1x1 grid *)
Theorem C05_local_constructor : forall size tile off d d',
  (forall rc, layout_ok (arg_layout size tile tile (1, 1) (0, 0) off rc)) ->
  (forall rc, blocks_fit_int (sel rc off) (sel rc tile)) ->
  dist_ctor_local size tile off = Ok d ->
  dist_ctor size tile tile (1, 1) (0, 0) (0, 0) off = Ok d' -> d = d'.
Proof.
  intros size tile off d d' LO BF C C'.
  pose proof (built_local (0, 0) _ _ _ _ eq_refl LO BF C) as B.
  pose proof (built_ctor (0, 0) _ _ _ _ _ _ _ LO BF C') as B'.
  apply dist_ext. intros rc.
  eapply models_unique; [apply (built_models _ _ _ B rc)|apply (built_models _ _ _ B' rc)|apply same_refl].
Qed.

(** equality of distribution objects decides equality of everything they report *)
Theorem C05_equality : forall a b, dist_eqb a b = true <-> a = b.
Proof. exact dist_eqb_eq. Qed.

(** moving from a distribution leaves the default one behind *)
Theorem C05_move : forall d rc, fst (dist_move d) = d /\
  let a := get rc (snd (dist_move d)) in
  ax_size a = 0 /\ ax_local_size a = 0 /\ ax_nr_tiles a = 0 /\ ax_local_nr_tiles a = 0 /\ ax_offset a = 0 /\
  ax_tile a = 1 /\ ax_block a = 1 /\ ax_grid a = 1 /\ ax_rank a = 0 /\ ax_src a = 0.
Proof. intros d []; cbn; repeat split. Qed.

(** ** C06 *)
Theorem C06_accepts_documented_arguments : forall size block tile grid rank src off,
  pre2 size block tile grid rank src -> fits_types size block tile grid rank src off ->
  (forall rc, 0 <= sel rc off /\ sel rc src + sel rc off / sel rc block <= i32_max) ->
  exists d, dist_ctor size block tile grid rank src off = Ok d /\
            built rank (arg_layout size block tile grid src off) d.
Proof. exact ctor_accepts. Qed.

Theorem C06_rejects_bad_arguments : forall size block tile grid rank src off,
  (~ (forall rc, 0 <= sel rc size)
   \/ ~ (forall rc, sel rc block <> 0) \/ ~ (forall rc, sel rc tile <> 0)
   \/ ~ (forall rc, (sel rc tile | sel rc block)) \/ ~ (forall rc, 0 < sel rc grid)
   \/ ~ (forall rc, 0 <= sel rc rank < sel rc grid) \/ ~ (forall rc, 0 <= sel rc src < sel rc grid)) ->
  dist_ctor size block tile grid rank src off = Abort.
Proof. exact ctor_rejects. Qed.

Theorem C06_negative_block_never_accepted : forall size block tile grid rank src off d,
  dist_ctor size block tile grid rank src off = Ok d -> forall rc, 0 < sel rc block.
Proof. exact ctor_rejects_negative_block. Qed.

(** The full claim ("either abort or a well-formed distribution") is false: *)
Theorem C06_negative_tile_accepted_refuted :
  exists d, dist_ctor (4, 4) (3, 3) (-1, 1) (1, 1) (0, 0) (0, 0) (0, 0) = Ok d /\ ax_tile (d_row d) < 0.
Proof. eexists. split; [vm_compute; reflexivity|]. reflexivity. Qed.
Theorem C06_negative_offset_accepted_refuted :
  exists d, dist_ctor (4, 4) (3, 3) (3, 3) (1, 1) (0, 0) (0, 0) (-2, 0) = Ok d /\ ax_offset (d_row d) < 0.
Proof. eexists. split; [vm_compute; reflexivity|]. reflexivity. Qed.
(** with an offset of 2^31 blocks the source rank is not the owner of the first element
    (it is negative) *)
Theorem C06_huge_offset_wrong_source_refuted :
  exists d, dist_ctor (4, 4) (1, 1) (1, 1) (3, 3) (0, 0) (0, 0) (2 ^ 31, 0) = Ok d /\
    ax_src (d_row d) < 0 /\
    ax_src (d_row d) <> owner (Layout 4 1 1 3 0 (2 ^ 31)) 0.
Proof. eexists. split; [vm_compute; reflexivity|]. split; [reflexivity|]. vm_compute. discriminate. Qed.
(** and an offset just below overflows a signed int *)
Theorem C06_offset_int_overflow_refuted :
  dist_ctor (4, 4) (1, 1) (1, 1) (3, 3) (0, 0) (1, 0) (2 ^ 31 - 1, 0) = UB.
Proof. vm_compute. reflexivity. Qed.

(** ** C07 *)
Definition window_of (Ls : coord -> layout) (origin size : pair_Z) (rc : coord) : layout :=
  window (Ls rc) (sel rc origin) (sel rc size).

Lemma sub_models : forall rank Ls d origin size d', built rank Ls d ->
  (forall rc, blocks_fit_int (ax_offset (get rc d) + sel rc origin) (ax_block (get rc d))) ->
  sub_distribution d origin size = Ok d' ->
  forall rc, models (sel rc rank) (Ls rc) (get rc d) /\
     models (sel rc rank) (window (Ls rc) (sel rc origin) (sel rc size)) (get rc d') /\
     0 <= sel rc origin /\ 0 <= sel rc size /\ sel rc origin + sel rc size <= l_size (Ls rc).
Proof.
  intros rank Ls d origin size d' B F S rc.
  pose proof (built_models _ _ _ B rc) as M.
  pose proof (built_models _ _ _ (built_sub _ _ _ _ _ _ B F S) rc) as M'.
  split; [exact M|split; [exact M'|]].
  rewrite (ms _ _ _ M). apply (sub_ok_in _ _ _ _ S rc).
Qed.

Theorem C07_sub_distribution_is_restriction : forall rank Ls d origin size d' rc, built rank Ls d ->
  (forall rc, blocks_fit_int (ax_offset (get rc d) + sel rc origin) (ax_block (get rc d))) ->
  sub_distribution d origin size = Ok d' ->
  let a := get rc d in let b := get rc d' in
  let o := sel rc origin in let s := sel rc size in
  let T0 := ax_global_tile_from_global_element a o in
  ax_size b = s /\
  (forall e, 0 <= e < s -> ax_rank_global_element b e = ax_rank_global_element a (o + e)) /\
  (forall e, 0 <= e < s -> ax_global_tile_from_global_element b e = ax_global_tile_from_global_element a (o + e) - T0) /\
  (forall e, 0 <= e < s ->
     ax_tile_element_from_global_element a (o + e) =
     (if ax_global_tile_from_global_element b e =? 0 then ax_tile_element_from_global_element a o else 0)
     + ax_tile_element_from_global_element b e) /\
  (0 < s -> forall t,
     (0 <= t < ax_nr_tiles b <->
      exists e, o <= e < o + s /\ ax_global_tile_from_global_element a e = T0 + t)) /\
  (0 < s -> forall t, 0 <= t ->
     ax_rank_global_tile b t = ax_rank_global_tile a (T0 + t) /\
     ax_local_tile_from_global_tile b t =
       (if ax_rank_global_tile a (T0 + t) =? sel rc rank
        then ax_local_tile_from_global_tile a (T0 + t) - ax_next_local_tile_from_global_tile a T0 else -1)).
Proof.
  intros rank Ls d origin size d' rc B F S a b o s T0.
  destruct (sub_models _ _ _ _ _ _ B F S rc) as (M & M' & H1 & H2 & H3).
  fold a b o s in M, M', H1, H2, H3.
  repeat apply conj.
  - apply (proj1 (T_reported _ _ _ M')).
  - intros e He. apply (sub_owner _ _ _ _ _ _ M M' H1); lia.
  - intros e He. apply (sub_gtile _ _ _ _ _ _ M M' H1); lia.
  - intros e He. eapply sub_tile_elem; eassumption.
  - intros Hs t. eapply sub_tiles; eassumption.
  - intros Hs t Ht. split; [eapply sub_tile_owner; eassumption|].
    eapply sub_local_tile; eassumption.
Qed.

Theorem C07_window_accepted_iff_inside : forall rank Ls d origin size, built rank Ls d ->
  (forall rc, l_grid (Ls rc) <= i32_max /\ ax_offset (get rc d) + sel rc origin <= i64_max /\
     ax_src (get rc d) + (ax_offset (get rc d) + sel rc origin) / ax_block (get rc d) <= i32_max) ->
  ((exists d', sub_distribution d origin size = Ok d') <->
   (forall rc, 0 <= sel rc origin /\ 0 <= sel rc size /\ sel rc origin + sel rc size <= l_size (Ls rc))) /\
  (~ (forall rc, 0 <= sel rc origin /\ 0 <= sel rc size /\ sel rc origin + sel rc size <= l_size (Ls rc)) ->
   sub_distribution d origin size = Abort).
Proof.
  intros rank Ls d origin size B F. split; [split|].
  - intros [d' S] rc. pose proof (sub_ok_in _ _ _ _ S rc) as H.
    rewrite (ms _ _ _ (built_models _ _ _ B rc)). exact H.
  - intros H. destruct (sub_accepts _ _ _ _ _ B H F) as (d' & S & _). exists d'. exact S.
  - intros H. apply sub_rejects. intros X. apply H. intros rc. specialize (X rc).
    rewrite (ms _ _ _ (built_models _ _ _ B rc)). exact X.
Qed.

Theorem C07_nested_windows_compose : forall rank Ls d o1 s1 d1 o2 s2 d2 d3,
  built rank Ls d ->
  sub_distribution d o1 s1 = Ok d1 -> sub_distribution d1 o2 s2 = Ok d2 ->
  sub_distribution d (fst o1 + fst o2, snd o1 + snd o2) s2 = Ok d3 ->
  (forall rc, blocks_fit_int (ax_offset (get rc d) + sel rc o1 + sel rc o2) (ax_block (get rc d))) ->
  d3 = d2.
Proof.
  intros rank Ls d o1 s1 d1 o2 s2 d2 d3 B S1 S2 S3 F.
  refine (sub_compose rank Ls d o1 s1 d1 o2 s2 d2 d3 B S1 S2 S3 F _). intros rc. split.
  - apply (sub_ok_in _ _ _ _ S1 rc).
  - apply (sub_ok_in _ _ _ _ S2 rc).
Qed.

Theorem C07_whole_window_is_identity : forall rank Ls d,
  built rank Ls d -> (forall rc, l_grid (Ls rc) <= i32_max /\ l_block (Ls rc) <= i64_max) ->
  sub_distribution d (0, 0) (l_size (Ls Row), l_size (Ls Col)) = Ok d.
Proof. exact sub_identity. Qed.

(** the helper functions that relate a distribution to a sub-distribution *)
Theorem C07_helpers : forall rank Ls d origin size d', built rank Ls d ->
  (forall rc, blocks_fit_int (ax_offset (get rc d) + sel rc origin) (ax_block (get rc d))) ->
  sub_distribution d origin size = Ok d' ->
  (forall rc, 0 < sel rc size) ->
  is_compatible_sub_distribution d origin d' = true /\
  (forall e, (forall rc, 0 <= sel rc e < sel rc size) ->
     let abs := (fst origin + fst e, snd origin + snd e) in
     let st := global_tile_index_of_element d' e in
     global_tile_index_from_sub_distribution d origin st = global_tile_index_of_element d abs /\
     (let off := tile_element_offset_from_sub_distribution d origin st in
      let te := tile_element_index d' e in
      (fst off + fst te, snd off + snd te) = tile_element_index d abs)).
Proof.
  intros rank Ls d origin size d' B F S HS.
  pose proof (sub_models _ _ _ _ _ _ B F S) as X.
  destruct (X Row) as (MR & MR' & R1 & R2 & R3). destruct (X Col) as (MC & MC' & C1 & C2 & C3).
  pose proof (HS Row) as HR. pose proof (HS Col) as HC. cbn [sel get] in *.
  split.
  - unfold is_compatible_sub_distribution, rank_global_tile_2d, global_tile_index_of_element, both. cbn [fst snd].
    destruct (T_reported _ _ _ MR) as (A1 & A2 & A3 & A4 & A5 & _).
    destruct (T_reported _ _ _ MC) as (B1 & B2 & B3 & B4 & B5 & _).
    destruct (T_reported _ _ _ MR') as (A1' & A2' & A3' & A4' & A5' & _ & _ & A6' & _).
    destruct (T_reported _ _ _ MC') as (B1' & B2' & B3' & B4' & B5' & _ & _ & B6' & _).
    cbn [window l_size l_block l_tile l_grid] in *.
    rewrite A1, A2, A3, A4, A5, B1, B2, B3, B4, B5, A1', A2', A3', A4', A5', A6', B1', B2', B3', B4', B5', B6'.
    rewrite !Z.eqb_refl.
    fold (ax_rank_global_element (d_row d) (fst origin)). fold (ax_rank_global_element (d_col d) (snd origin)).
    rewrite (proj1 (T_owner _ _ _ MR (fst origin) R1)), (proj1 (T_owner _ _ _ MC (snd origin) C1)).
    rewrite !window_owner, !Z.add_0_r, !Z.eqb_refl.
    apply Z.leb_le in R3, C3. rewrite R3, C3. reflexivity.
  - intros e He. pose proof (He Row) as HeR. pose proof (He Col) as HeC. cbn [sel] in *.
    cbv zeta. unfold global_tile_index_from_sub_distribution, global_tile_index_of_element,
      tile_element_offset_from_sub_distribution, tile_element_index, both. cbn [fst snd].
    split.
    + rewrite (sub_gtile _ _ _ _ _ _ MR MR' R1 R3 _ HeR), (sub_gtile _ _ _ _ _ _ MC MC' C1 C3 _ HeC).
      f_equal; lia.
    + rewrite (sub_tile_elem _ _ _ _ _ _ MR MR' R1 R3 _ HeR), (sub_tile_elem _ _ _ _ _ _ MC MC' C1 C3 _ HeC).
      reflexivity.
Qed.

(** what the compatibility check between a distribution and a candidate sub-distribution
    decides *)
Theorem C07_compatibility_check : forall rank rank' Ls Ls' d d' origin, built rank Ls d -> built rank' Ls' d' ->
  (forall rc, 0 <= sel rc origin) ->
  (is_compatible_sub_distribution d origin d' = true <->
   forall rc, l_block (Ls rc) = l_block (Ls' rc) /\ l_tile (Ls rc) = l_tile (Ls' rc) /\ sel rc rank = sel rc rank' /\
     l_grid (Ls rc) = l_grid (Ls' rc) /\ owner (Ls rc) (sel rc origin) = owner (Ls' rc) 0 /\
     sel rc origin + l_size (Ls' rc) <= l_size (Ls rc)).
Proof.
  intros rank rank' Ls Ls' d d' origin B B' HO.
  pose proof (built_models _ _ _ B Row) as MR. pose proof (built_models _ _ _ B Col) as MC.
  pose proof (built_models _ _ _ B' Row) as MR'. pose proof (built_models _ _ _ B' Col) as MC'.
  pose proof (HO Row) as OR. pose proof (HO Col) as OC. cbn [sel get] in *.
  destruct (T_reported _ _ _ MR) as (A1 & A2 & A3 & A4 & A5 & _).
  destruct (T_reported _ _ _ MC) as (B1 & B2 & B3 & B4 & B5 & _).
  destruct (T_reported _ _ _ MR') as (A1' & A2' & A3' & A4' & A5' & _ & _ & A6' & _).
  destruct (T_reported _ _ _ MC') as (B1' & B2' & B3' & B4' & B5' & _ & _ & B6' & _).
  unfold is_compatible_sub_distribution, rank_global_tile_2d, global_tile_index_of_element, both. cbn [fst snd].
  fold (ax_rank_global_element (d_row d) (fst origin)). fold (ax_rank_global_element (d_col d) (snd origin)).
  rewrite (proj1 (T_owner _ _ _ MR (fst origin) OR)), (proj1 (T_owner _ _ _ MC (snd origin) OC)).
  rewrite A1, A2, A3, A4, A5, B1, B2, B3, B4, B5, A1', A2', A3', A4', A5', A6', B1', B2', B3', B4', B5', B6'.
  split.
  - intros H.
    repeat match goal with X : _ && _ = true |- _ => apply andb_prop in X as [? ?]
                         | X : (_ =? _) = true |- _ => apply Z.eqb_eq in X
                         | X : (_ <=? _) = true |- _ => apply Z.leb_le in X end.
    intros []; cbn [sel]; repeat split; assumption.
  - intros H. destruct (H Row) as (R1 & R2 & R3 & R4 & R5 & R6). destruct (H Col) as (C1 & C2 & C3 & C4 & C5 & C6).
    cbn [sel] in *. rewrite R1, R2, R3, R4, R5, C1, C2, C3, C4, C5, !Z.eqb_refl.
    apply Z.leb_le in R6, C6. rewrite R6, C6. reflexivity.
Qed.

(** The check does not look at tile boundaries: it accepts a distribution cut differently. *)
Theorem C07_compatibility_ignores_boundaries_refuted :
  exists d d' d'', dist_ctor (8, 8) (4, 4) (4, 4) (1, 1) (0, 0) (0, 0) (0, 0) = Ok d /\
    dist_ctor (4, 4) (4, 4) (4, 4) (1, 1) (0, 0) (0, 0) (0, 0) = Ok d' /\
    is_compatible_sub_distribution d (1, 1) d' = true /\
    sub_distribution d (1, 1) (4, 4) = Ok d'' /\ d' <> d''.
Proof.
  do 3 eexists. repeat split; try (vm_compute; reflexivity). vm_compute. discriminate.
Qed.

(** ** C08 *)
Theorem C08_block_counts : forall rank Ls d rc, built rank Ls d ->
  let L := Ls rc in let a := get rc d in
  0 < l_size L ->
  (forall b, (exists e, 0 <= e < l_size L /\ (l_off L + e) / l_block L - l_off L / l_block L = b)
             <-> 0 <= b < ax_nr_blocks a) /\
  ax_local_nr_blocks a =
    count (fun b => (l_src L + (l_off L / l_block L + b)) mod l_grid L =? sel rc rank) (ax_nr_blocks a).
Proof.
  intros rank Ls d rc B L a Hs. pose proof (built_models _ _ _ B rc) as M. fold L a in M.
  split.
  - apply (T_nr_blocks _ _ _ M Hs).
  - rewrite (T_local_nr_blocks _ _ _ M Hs). apply count_ext. intros k Hk.
    unfold tile_owned, tile_owner, blocks_as_tiles. cbn. rewrite Z.div_mul; [reflexivity|].
    pose proof (m_ok _ _ _ M) as []. lia.
Qed.

Theorem C08_single_tile_per_block : forall rank Ls d, built rank Ls d ->
  (forall rc, 0 < l_size (Ls rc) \/ l_off (Ls rc) mod l_block (Ls rc) < l_tile (Ls rc)) ->
  forall d',
  (forall rc, blocks_fit_int (l_off (Ls rc)) (l_block (Ls rc))) ->
  let P f := (f (Ls Row), f (Ls Col)) in
  dist_ctor (P l_size) (P l_block) (P l_block) (P l_grid) rank (P l_src) (P l_off) = Ok d' ->
  create_single_tile_per_block_distribution d = d' /\ single_tile_per_block d' = true.
Proof.
  intros rank Ls d B NE d' BF P C.
  assert (LO : forall rc, layout_ok (arg_layout (P l_size) (P l_block) (P l_block) (P l_grid) (P l_src) (P l_off) rc)).
  { intros rc. pose proof (m_ok _ _ _ (built_models _ _ _ B rc)) as [].
    split; destruct rc; cbn in *; try assumption; apply Z.divide_refl. }
  assert (BF' : forall rc, blocks_fit_int (sel rc (P l_off)) (sel rc (P l_block))).
  { intros rc. specialize (BF rc). destruct rc; exact BF. }
  pose proof (built_ctor rank _ _ _ _ _ _ _ LO BF' C) as B'.
  split.
  - apply dist_ext. intros rc. unfold create_single_tile_per_block_distribution. rewrite get_on_both.
    pose proof (single_tile_models _ _ _ (built_models _ _ _ B rc) (NE rc)) as M1.
    pose proof (built_models _ _ _ B' rc) as M2.
    eapply models_unique; [exact M1|exact M2|].
    destruct rc; apply same_refl.
  - unfold single_tile_per_block.
    destruct (T_reported _ _ _ (built_models _ _ _ B' Row)) as (_ & A & A' & _).
    destruct (T_reported _ _ _ (built_models _ _ _ B' Col)) as (_ & A2 & A2' & _).
    cbn in A, A', A2, A2'. rewrite A, A', A2, A2', !Z.eqb_refl. reflexivity.
Qed.

(** An empty distribution whose offset reaches the second tile of a block reports a block. *)
Theorem C08_empty_distribution_refuted :
  exists d, built (0, 0) (arg_layout (0, 0) (4, 4) (2, 2) (1, 1) (0, 0) (2, 0)) d /\
    ax_nr_tiles (d_row d) = 0 /\ ax_nr_blocks (d_row d) = 1 /\ ax_local_nr_blocks (d_row d) = 1.
Proof.
  destruct (ctor_accepts (0, 0) (4, 4) (2, 2) (1, 1) (0, 0) (0, 0) (2, 0)) as (d & E & B).
  - intros []; cbn; repeat split; try lia; exists 2; reflexivity.
  - intros []; cbn; unfold i32_max, i64_max; lia.
  - intros []; cbn; unfold i32_max; lia.
  - exists d. split; [exact B|]. vm_compute in E. injection E as <-. vm_compute. auto.
Qed.

(** ** C09 *)
Theorem C09_distances : forall rank Ls d rc, built rank Ls d ->
  let L := Ls rc in let a := get rc d in let r := sel rc rank in
  (forall b e, 0 <= b < ax_nr_tiles a -> b <= e <= ax_nr_tiles a ->
     global_tile_element_distance a b e = sumZ (fun j => ax_global_tile_size_of a (b + j)) (e - b)) /\
  (forall b e, 0 <= b <= e -> e <= ax_local_nr_tiles a ->
     local_element_distance_from_local_tile a b e = sumZ (fun j => ax_local_tile_size_of a (b + j)) (e - b)) /\
  (forall b e, 0 <= b <= e -> e <= ax_nr_tiles a ->
     local_element_distance_from_global_tile a b e =
     sumZ (fun j => if tile_owned L r (b + j) then ax_global_tile_size_of a (b + j) else 0) (e - b)) /\
  (forall e, 0 <= e < l_size L ->
     let x := distance_to_adjacent_tile a e in
     0 < x /\ forall f, e <= f < l_size L -> (tile_of L f = tile_of L e <-> f < e + x)).
Proof.
  intros rank Ls d rc B L a r. pose proof (built_models _ _ _ B rc) as M. fold L a r in M.
  repeat apply conj.
  - apply (T_global_distance _ _ _ M).
  - apply (T_local_distance _ _ _ M).
  - apply (T_local_distance_global _ _ _ M).
  - apply (T_distance_adjacent _ _ _ M).
Qed.

Theorem C09_distance_2d : forall d b e rc,
  sel rc (local_element_distance_from_local_tile_2d d b e) =
  local_element_distance_from_local_tile (get rc d) (sel rc b) (sel rc e).
Proof. intros d b e []; reflexivity. Qed.

(** The empty range at the end of the axis does not have length 0: *)
Theorem C09_empty_range_at_end_refuted :
  exists d, built (0, 0) (arg_layout (3, 3) (2, 2) (2, 2) (1, 1) (0, 0) (0, 0)) d /\
    let a := d_row d in global_tile_element_distance a (ax_nr_tiles a) (ax_nr_tiles a) = -1.
Proof.
  destruct (ctor_accepts (3, 3) (2, 2) (2, 2) (1, 1) (0, 0) (0, 0) (0, 0)) as (d & E & B).
  - intros []; cbn; repeat split; try lia; exists 1; reflexivity.
  - intros []; cbn; unfold i32_max, i64_max; lia.
  - intros []; cbn; unfold i32_max; lia.
  - exists d. split; [exact B|]. vm_compute in E. injection E as <-. reflexivity.
Qed.

(** ** C10 *)
Theorem C10_conversions_never_overflow : forall rank Ls d rc, built rank Ls d ->
  let L := Ls rc in let a := get rc d in
  l_size L + 2 * l_block L + l_grid L <= i64_max -> 2 * l_grid L - 1 <= i32_max ->
  (forall e, 0 <= e <= l_size L ->
     ax_global_tile_from_global_element_c a e = Ok (ax_global_tile_from_global_element a e) /\
     ax_tile_element_from_global_element_c a e = Ok (ax_tile_element_from_global_element a e)) /\
  (forall e, 0 <= e < l_size L ->
     ax_rank_global_element_c a e = Ok (ax_rank_global_element a e) /\
     ax_local_element_from_global_element_c a e = Ok (ax_local_element_from_global_element a e)) /\
  (forall l, 0 <= l < ax_local_size a ->
     ax_local_tile_from_local_element_c a l = Ok (ax_local_tile_from_local_element a l) /\
     ax_tile_element_from_local_element_c a l = Ok (ax_tile_element_from_local_element a l) /\
     ax_global_element_from_local_element_c a l = Ok (ax_global_element_from_local_element a l)) /\
  (forall t, 0 <= t <= ax_nr_tiles a ->
     ax_rank_global_tile_c a t = Ok (ax_rank_global_tile a t) /\
     ax_local_tile_from_global_tile_c a t = Ok (ax_local_tile_from_global_tile a t) /\
     ax_next_local_tile_from_global_tile_c a t = Ok (ax_next_local_tile_from_global_tile a t)) /\
  (forall t te, 0 <= t < ax_nr_tiles a -> 0 <= te < ax_tile a ->
     ax_global_tile_size_of_c a t = Ok (ax_global_tile_size_of a t) /\
     ax_global_element_c a t te = Ok (ax_global_element_from_global_tile_and_tile_element a t te)) /\
  (forall l te, 0 <= l < ax_local_nr_tiles a -> 0 <= te < ax_tile a ->
     ax_global_tile_from_local_tile_c a l = Ok (ax_global_tile_from_local_tile a l) /\
     ax_local_tile_size_of_c a l = Ok (ax_local_tile_size_of a l) /\
     ax_local_element_c a l te = Ok (ax_local_element_from_local_tile_and_tile_element a l te)).
Proof.
  intros rank Ls d rc B L a F1 F2. apply (T_safe _ _ _ (built_models _ _ _ B rc)). split; assumption.
Qed.

Theorem C10_constructor_never_overflows : forall size block tile grid rank src off,
  pre2 size block tile grid rank src ->
  (forall rc, fits64 (arg_layout size block tile grid src off rc)) ->
  (forall rc, 0 <= sel rc off <= i64_max /\ sel rc src + sel rc off / sel rc block <= i32_max) ->
  exists d, dist_ctor_c size block tile grid rank src off = Ok d /\
            dist_ctor size block tile grid rank src off = Ok d.
Proof. exact ctor_safe. Qed.

(** The int bound on the grid is necessary: [rank + grid_size] is computed in int. *)
Theorem C10_large_grid_overflows_refuted :
  next_local_tile_from_global_tile_c 0 1 (2 ^ 30 + 1) (2 ^ 30) 0 0 = UB.
Proof. vm_compute. reflexivity. Qed.

(** ** A concrete distribution meets the hypotheses (10 rows, tiles of 2, blocks of 4, 3
    process rows, source rank 1, offset 5; seen from process row 2). *)
Example built_example : exists d,
  built (2, 0) (arg_layout (10, 7) (4, 3) (2, 3) (3, 2) (1, 1) (5, 0)) d /\
  ax_nr_tiles (d_row d) = 6 /\ ax_local_size (d_row d) = 3 /\
  (forall rc, fits64 (arg_layout (10, 7) (4, 3) (2, 3) (3, 2) (1, 1) (5, 0) rc)) /\
  exists d', sub_distribution d (3, 1) (6, 4) = Ok d' /\ ax_local_size (d_row d') = 0.
Proof.
  destruct (ctor_accepts (10, 7) (4, 3) (2, 3) (3, 2) (2, 0) (1, 1) (5, 0)) as (d & E & B).
  - intros []; cbn; repeat split; try lia; [exists 2|exists 1]; reflexivity.
  - intros []; cbn; unfold i32_max, i64_max; lia.
  - intros []; cbn; unfold i32_max; lia.
  - exists d. split; [exact B|]. vm_compute in E. injection E as <-. repeat split.
    + destruct rc; cbn; unfold i64_max; lia.
    + destruct rc; cbn; unfold i32_max; lia.
    + eexists. split; vm_compute; reflexivity.
Qed.

(** ** Assumptions *)
Print Assumptions C01_owner_and_local_slot.
Print Assumptions C01_every_element_stored_once.
Print Assumptions C02_local_global_inverse.
Print Assumptions C02_local_to_global_on_any_rank.
Print Assumptions C03_tile_ownership.
Print Assumptions C03_next_local_tile.
Print Assumptions C03_composites.
Print Assumptions C03_two_dimensional.
Print Assumptions C03_linear_indices.
Print Assumptions C04_tiles_partition_the_axis.
Print Assumptions C04_local_tiles_partition_local_part.
Print Assumptions C05_reported_members.
Print Assumptions C05_shift_invariance.
Print Assumptions C05_tile_offset_constructors.
Print Assumptions C05_local_constructor.
Print Assumptions C05_equality.
Print Assumptions C05_move.
Print Assumptions C06_accepts_documented_arguments.
Print Assumptions C06_rejects_bad_arguments.
Print Assumptions C06_negative_block_never_accepted.
Print Assumptions C06_negative_tile_accepted_refuted.
Print Assumptions C06_negative_offset_accepted_refuted.
Print Assumptions C06_huge_offset_wrong_source_refuted.
Print Assumptions C06_offset_int_overflow_refuted.
Print Assumptions C07_sub_distribution_is_restriction.
Print Assumptions C07_window_accepted_iff_inside.
Print Assumptions C07_nested_windows_compose.
Print Assumptions C07_whole_window_is_identity.
Print Assumptions C07_helpers.
Print Assumptions C07_compatibility_check.
Print Assumptions C07_compatibility_ignores_boundaries_refuted.
Print Assumptions C08_block_counts.
Print Assumptions C08_single_tile_per_block.
Print Assumptions C08_empty_distribution_refuted.
Print Assumptions C09_distances.
Print Assumptions C09_distance_2d.
Print Assumptions C09_empty_range_at_end_refuted.
Print Assumptions C10_conversions_never_overflow.
Print Assumptions C10_constructor_never_overflows.
Print Assumptions C10_large_grid_overflows_refuted.
