(** * C26: communicator grid coordinates *)
From Coq Require Import ZArith Lia Bool List Sorting.Sorted Sorting.Permutation.
From Verif Require Import CInt Loop DistModel IndexModel Properties_Index CommGridModel.
Import ListNotations.
Open Scope Z_scope.

(** ** sorting *)
Lemma insert_by_perm : forall key x l, Permutation (x :: l) (insert_by key x l).
Proof.
  induction l as [|y r IH]; cbn; [reflexivity|]. destruct (key x <=? key y); [reflexivity|].
  rewrite perm_swap. constructor. exact IH.
Qed.
Lemma sort_by_perm : forall key l, Permutation l (sort_by key l).
Proof.
  induction l as [|x r IH]; cbn; [reflexivity|]. rewrite <- insert_by_perm. constructor. exact IH.
Qed.
Lemma insert_by_sorted : forall key x l,
  StronglySorted (fun a b => key a <= key b) l -> StronglySorted (fun a b => key a <= key b) (insert_by key x l).
Proof.
  induction l as [|y r IH]; intros H; cbn. { repeat constructor. }
  inversion_clear H. destruct (key x <=? key y) eqn:E.
  - apply Z.leb_le in E. constructor; [constructor; auto|]. constructor; [exact E|].
    eapply Forall_impl; [|exact H1]. cbn. intros. lia.
  - apply Z.leb_gt in E. constructor; [auto|].
    rewrite Forall_forall in *. intros z Hz.
    apply (Permutation_in z (Permutation_sym (insert_by_perm key x r))) in Hz.
    destruct Hz as [<- | Hz]; [lia | auto].
Qed.
Lemma sort_by_sorted : forall key l, StronglySorted (fun a b => key a <= key b) (sort_by key l).
Proof. induction l; cbn; [constructor|]. apply insert_by_sorted. exact IHl. Qed.

Lemma sorted_unique : forall (key : Z -> Z) L M,
  StronglySorted (fun a b => key a < key b) L -> StronglySorted (fun a b => key a <= key b) M ->
  Permutation L M -> M = L.
Proof.
  induction L as [|x L IH]; intros M HL HM P.
  - apply Permutation_nil in P. auto.
  - destruct M as [|y M]; [apply Permutation_sym, Permutation_nil in P; discriminate|].
    inversion_clear HL. inversion_clear HM. rewrite Forall_forall in *.
    assert (x = y).
    { assert (In y (x :: L)) by (apply (Permutation_in y (Permutation_sym P)); left; auto).
      destruct H3 as [-> | Hy]; [auto|].
      assert (In x (y :: M)) by (apply (Permutation_in x P); left; auto).
      destruct H3 as [-> | Hx]; [auto|].
      apply H0 in Hy. apply H2 in Hx. lia. }
    subst y. f_equal. apply IH; auto. apply Permutation_cons_inv in P. auto.
Qed.

(** A list with strictly increasing keys and the right members is what the split returns. *)
Lemma comm_split_is : forall n colour key me L,
  StronglySorted (fun a b => key a < key b) L ->
  (forall q, In q L <-> 0 <= q < n /\ same_colour (colour me) (colour q) = true) ->
  comm_split n colour key me = L.
Proof.
  intros n colour key me L S H. unfold comm_split.
  apply sorted_unique with (key := key); [exact S | apply sort_by_sorted |].
  rewrite <- sort_by_perm. apply NoDup_Permutation.
  - clear -S. induction S as [|x L _ IH F]; constructor; auto.
    intros Hin. rewrite Forall_forall in F. apply F in Hin. lia.
  - apply NoDup_filter, zrange_NoDup.
  - intros q. rewrite H, filter_In, in_zrange. tauto.
Qed.

Lemma sorted_map_range : forall (f : Z -> Z) (key : Z -> Z) lo hi,
  (forall a b, lo <= a < b -> b < hi -> key (f a) < key (f b)) ->
  StronglySorted (fun a b => key a < key b) (map f (zrange lo hi)).
Proof.
  intros f key lo hi. remember (Z.to_nat (hi - lo)) as n eqn:En. revert lo En.
  induction n as [|n IH]; intros lo En H.
  - rewrite zrange_nil by lia. constructor.
  - rewrite zrange_cons by lia. cbn. constructor.
    + apply IH; [lia|]. intros. apply H; lia.
    + rewrite Forall_forall. intros y Hy. apply in_map_iff in Hy as (b & <- & Hb).
      apply in_zrange in Hb. apply H; lia.
Qed.

(** The process at a position. *)
Lemma position_of : forall ord nrows ncols r c, 0 <= r < nrows -> 0 <= c < ncols ->
  let q := computeLinearIndex ord (r, c) (nrows, ncols) in
  0 <= q < nrows * ncols /\ position ord nrows ncols q = (r, c).
Proof.
  intros. destruct (C11_linear_index_bijection ord (nrows, ncols)) as [B _].
  specialize (B (r, c)). cbn [fst snd] in B. unfold linear_size in B. cbn [fst snd] in B.
  unfold position. apply B; auto.
Qed.
Lemma position_inv : forall ord nrows ncols q, 0 < nrows -> 0 < ncols -> 0 <= q < nrows * ncols ->
  let p := position ord nrows ncols q in
  (0 <= fst p < nrows /\ 0 <= snd p < ncols) /\ computeLinearIndex ord p (nrows, ncols) = q.
Proof.
  intros. destruct (C11_linear_index_bijection ord (nrows, ncols)) as [_ B].
  unfold linear_size in B. cbn [fst snd] in B. apply B; auto.
Qed.

Lemma nth_map_range : forall (f : Z -> Z) hi k, 0 <= k < hi ->
  nth_error (map f (zrange 0 hi)) (Z.to_nat k) = Some (f k).
Proof.
  intros. rewrite (map_nth_error f (Z.to_nat k) (zrange 0 hi) (d := k)); [reflexivity|].
  rewrite zrange_nth by lia. f_equal.
Qed.

Section Grid.
Variables (n nrows ncols : Z) (ord : ordering).
Hypothesis Hr : 0 < nrows.
Hypothesis Hc : 0 < ncols.
Hypothesis Hn : nrows * ncols <= n.

Lemma full_is : forall me, 0 <= me < nrows * ncols ->
  comm_split n (fun q => if is_in_grid nrows ncols q then Some 0 else None) (key_full ord nrows ncols) me =
  map (fun k => computeLinearIndex ord (computeCoordsRowMajor k (nrows, ncols)) (nrows, ncols)) (zrange 0 (nrows * ncols)).
Proof.
  intros me Hme.
  assert (RM : forall k, 0 <= k < nrows * ncols -> let p := computeCoordsRowMajor k (nrows, ncols) in
    (0 <= fst p < nrows /\ 0 <= snd p < ncols) /\ computeLinearIndex RowMajor p (nrows, ncols) = k).
  { intros k Hk. exact (position_inv RowMajor nrows ncols k Hr Hc Hk). }
  assert (KF : forall k, 0 <= k < nrows * ncols ->
    key_full ord nrows ncols (computeLinearIndex ord (computeCoordsRowMajor k (nrows, ncols)) (nrows, ncols)) = k).
  { intros k Hk. destruct (RM k Hk) as [B E]. destruct (computeCoordsRowMajor k (nrows, ncols)) as [r c].
    destruct (position_of ord nrows ncols r c) as [_ P]; try apply B.
    unfold key_full. rewrite P. exact E. }
  apply comm_split_is.
  - apply sorted_map_range. intros a b Ha Hb. rewrite !KF by lia. lia.
  - intros q. rewrite in_map_iff. unfold is_in_grid. split.
    + intros (k & <- & Hk). apply in_zrange in Hk. destruct (RM k Hk) as [B E].
      destruct (computeCoordsRowMajor k (nrows, ncols)) as [r c].
      destruct (position_of ord nrows ncols r c) as [Q _]; try apply B.
      split; [lia|].
      replace (me <? nrows * ncols) with true by (symmetry; apply Z.ltb_lt; lia).
      replace (_ <? nrows * ncols) with true by (symmetry; apply Z.ltb_lt; lia). reflexivity.
    + intros [Hq C].
      destruct (q <? nrows * ncols) eqn:L; [|destruct (me <? nrows * ncols); discriminate].
      apply Z.ltb_lt in L.
      destruct (position_inv ord nrows ncols q Hr Hc ltac:(lia)) as [B E].
      exists (key_full ord nrows ncols q). unfold key_full.
      destruct (position ord nrows ncols q) as [r c] eqn:Ep. cbn [fst snd] in B.
      destruct (position_of RowMajor nrows ncols r c) as [Q P]; try apply B.
      change (computeCoordsRowMajor ?a ?b) with (position RowMajor nrows ncols a).
      rewrite P, E, in_zrange. auto.
Qed.

Lemma row_is : forall me, 0 <= me < nrows * ncols ->
  comm_split n (fun q => if is_in_grid nrows ncols q then Some (fst (position ord nrows ncols q)) else None) (fun q => q) me =
  map (fun c => computeLinearIndex ord (fst (position ord nrows ncols me), c) (nrows, ncols)) (zrange 0 ncols).
Proof.
  intros me Hme. destruct (position_inv ord nrows ncols me Hr Hc Hme) as [[Br Bc] E].
  destruct (position ord nrows ncols me) as [r c0] eqn:Ep. cbn [fst snd] in *.
  apply comm_split_is.
  - apply sorted_map_range. intros a b Ha Hb. destruct ord; cbn;
      unfold computeLinearIndexRowMajor, computeLinearIndexColMajor; cbn; nia.
  - intros q. rewrite in_map_iff, Ep. cbn [fst]. unfold is_in_grid.
    replace (me <? nrows * ncols) with true by (symmetry; apply Z.ltb_lt; lia). split.
    + intros (c & <- & Hk). apply in_zrange in Hk. destruct (position_of ord nrows ncols r c) as [Q P]; try lia.
      rewrite P. cbn [fst]. split; [lia|].
      replace (_ <? nrows * ncols) with true by (symmetry; apply Z.ltb_lt; lia). cbn. apply Z.eqb_refl.
    + intros [Hq C]. destruct (q <? nrows * ncols) eqn:L; [|discriminate]. apply Z.ltb_lt in L.
      cbn in C. apply Z.eqb_eq in C.
      destruct (position_inv ord nrows ncols q Hr Hc ltac:(lia)) as [B Eq].
      destruct (position ord nrows ncols q) as [r' c']. cbn [fst snd] in *. subst r'.
      exists c'. rewrite in_zrange. tauto.
Qed.

Lemma col_is : forall me, 0 <= me < nrows * ncols ->
  comm_split n (fun q => if is_in_grid nrows ncols q then Some (snd (position ord nrows ncols q)) else None) (fun q => q) me =
  map (fun r => computeLinearIndex ord (r, snd (position ord nrows ncols me)) (nrows, ncols)) (zrange 0 nrows).
Proof.
  intros me Hme. destruct (position_inv ord nrows ncols me Hr Hc Hme) as [[Br Bc] E].
  destruct (position ord nrows ncols me) as [r0 c] eqn:Ep. cbn [fst snd] in *.
  apply comm_split_is.
  - apply sorted_map_range. intros a b Ha Hb. destruct ord; cbn;
      unfold computeLinearIndexRowMajor, computeLinearIndexColMajor; cbn; nia.
  - intros q. rewrite in_map_iff, Ep. cbn [snd]. unfold is_in_grid.
    replace (me <? nrows * ncols) with true by (symmetry; apply Z.ltb_lt; lia). split.
    + intros (r & <- & Hk). apply in_zrange in Hk. destruct (position_of ord nrows ncols r c) as [Q P]; try lia.
      rewrite P. cbn [snd]. split; [lia|].
      replace (_ <? nrows * ncols) with true by (symmetry; apply Z.ltb_lt; lia). cbn. apply Z.eqb_refl.
    + intros [Hq C]. destruct (q <? nrows * ncols) eqn:L; [|discriminate]. apply Z.ltb_lt in L.
      cbn in C. apply Z.eqb_eq in C.
      destruct (position_inv ord nrows ncols q Hr Hc ltac:(lia)) as [B Eq].
      destruct (position ord nrows ncols q) as [r' c']. cbn [fst snd] in *. subst c'.
      exists r'. rewrite in_zrange. tauto.
Qed.
End Grid.

(** [q] is the process (rank in the original communicator) at grid position [(r, c)]. *)
Definition process_at (n nrows ncols : Z) (ord : ordering) (q r c : Z) : Prop :=
  0 <= q < n /\ exists g, grid_ctor n nrows ncols ord q = Ok (Some g) /\ cg_position g = (r, c).

Lemma grid_ctor_in : forall n nrows ncols ord me,
  0 < nrows -> 0 < ncols -> nrows * ncols <= n <= i32_max -> 0 <= me < nrows * ncols ->
  grid_ctor n nrows ncols ord me = Ok (Some (CommGrid (position ord nrows ncols me) (nrows, ncols)
    (map (fun k => computeLinearIndex ord (computeCoordsRowMajor k (nrows, ncols)) (nrows, ncols)) (zrange 0 (nrows * ncols)))
    (map (fun c => computeLinearIndex ord (fst (position ord nrows ncols me), c) (nrows, ncols)) (zrange 0 ncols))
    (map (fun r => computeLinearIndex ord (r, snd (position ord nrows ncols me)) (nrows, ncols)) (zrange 0 nrows)))).
Proof.
  intros n nrows ncols ord me Hr Hc Hn Hme. unfold grid_ctor, i32.
  replace (in_i32 (nrows * ncols)) with true
    by (symmetry; unfold in_i32, i32_min in *; apply andb_true_iff; split; apply Z.leb_le; nia).
  cbn [bind]. replace (nrows * ncols <=? n) with true by (symmetry; apply Z.leb_le; lia).
  cbn [dlaf_assert bind].
  replace (is_in_grid nrows ncols me) with true by (symmetry; apply Z.ltb_lt; lia).
  rewrite full_is, row_is, col_is by lia. reflexivity.
Qed.

Lemma process_at_iff : forall n nrows ncols ord q r c,
  0 < nrows -> 0 < ncols -> nrows * ncols <= n <= i32_max ->
  process_at n nrows ncols ord q r c <->
  (0 <= r < nrows /\ 0 <= c < ncols) /\ q = computeLinearIndex ord (r, c) (nrows, ncols).
Proof.
  intros n nrows ncols ord q r c Hr Hc Hn. split.
  - intros (Hq & g & E & P).
    destruct (Z.lt_ge_cases q (nrows * ncols)) as [L | L].
    + rewrite grid_ctor_in in E by lia. inversion E; subst g; clear E. cbn in P.
      destruct (position_inv ord nrows ncols q Hr Hc ltac:(lia)) as [B E]. rewrite P in *. cbn in B. auto.
    + unfold grid_ctor, i32 in E.
      replace (in_i32 (nrows * ncols)) with true in E
        by (symmetry; unfold in_i32, i32_min in *; apply andb_true_iff; split; apply Z.leb_le; nia).
      cbn [bind] in E. replace (nrows * ncols <=? n) with true in E by (symmetry; apply Z.leb_le; lia).
      cbn [dlaf_assert bind] in E. 
      replace (is_in_grid nrows ncols q) with false in E by (symmetry; apply Z.ltb_ge; lia). discriminate.
  - intros [[B1 B2] ->]. destruct (position_of ord nrows ncols r c B1 B2) as [Q P].
    split; [lia|]. eexists. split; [apply grid_ctor_in; lia|]. exact P.
Qed.

(** Every process whose rank is below [nrows * ncols] is in the grid, the others are not; every grid
    position is held by exactly one process. *)
Theorem C26_positions : forall n nrows ncols ord,
  0 < nrows -> 0 < ncols -> nrows * ncols <= n <= i32_max ->
  (forall q, 0 <= q < nrows * ncols -> exists r c,
     (0 <= r < nrows /\ 0 <= c < ncols) /\ process_at n nrows ncols ord q r c) /\
  (forall q, nrows * ncols <= q < n -> grid_ctor n nrows ncols ord q = Ok None) /\
  (forall r c, 0 <= r < nrows -> 0 <= c < ncols -> exists! q, process_at n nrows ncols ord q r c).
Proof.
  intros n nrows ncols ord Hr Hc Hn. split; [|split].
  - intros q Hq. destruct (position_inv ord nrows ncols q Hr Hc Hq) as [B E].
    exists (fst (position ord nrows ncols q)), (snd (position ord nrows ncols q)). split; [exact B|].
    apply process_at_iff; try lia. rewrite <- surjective_pairing. auto.
  - intros q Hq. unfold grid_ctor, i32.
    replace (in_i32 (nrows * ncols)) with true
      by (symmetry; unfold in_i32, i32_min in *; apply andb_true_iff; split; apply Z.leb_le; nia).
    cbn [bind]. replace (nrows * ncols <=? n) with true by (symmetry; apply Z.leb_le; lia).
    cbn [dlaf_assert bind]. 
    replace (is_in_grid nrows ncols q) with false by (symmetry; apply Z.ltb_ge; lia). reflexivity.
  - intros r c B1 B2. eexists. split.
    + apply process_at_iff; try lia. auto.
    + intros q' H. apply process_at_iff in H; try lia.
Qed.

(** The requested ordering decides which rank gets which position: consecutive ranks run along a grid row
    (row-major) or down a grid column (column-major). *)
Theorem C26_requested_ordering : forall n nrows ncols q r c,
  0 < nrows -> 0 < ncols -> nrows * ncols <= n <= i32_max -> 0 <= r < nrows -> 0 <= c < ncols ->
  (process_at n nrows ncols RowMajor q r c <-> q = r * ncols + c) /\
  (process_at n nrows ncols ColumnMajor q r c <-> q = c * nrows + r).
Proof.
  intros. rewrite !process_at_iff by lia. cbn. unfold computeLinearIndexRowMajor, computeLinearIndexColMajor; cbn.
  intuition.
Qed.

(** Whatever the requested ordering, the full communicator is in row-major order of the positions
    (so rankFullCommunicator gives the right rank), and the row / column communicators contain exactly
    the processes of the same grid row / column, ordered by column / row coordinate. *)
Theorem C26_communicators : forall n nrows ncols ord me g,
  0 < nrows -> 0 < ncols -> nrows * ncols <= n <= i32_max -> 0 <= me < n ->
  grid_ctor n nrows ncols ord me = Ok (Some g) ->
  let (r0, c0) := cg_position g in
  cg_size g = (nrows, ncols) /\
  Z.of_nat (length (cg_full g)) = nrows * ncols /\
  (forall r c, 0 <= r < nrows -> 0 <= c < ncols ->
     rankFullCommunicator g (r, c) = r * ncols + c /\
     exists q, process_at n nrows ncols ord q r c /\
       nth_error (cg_full g) (Z.to_nat (rankFullCommunicator g (r, c))) = Some q) /\
  Z.of_nat (length (cg_row g)) = ncols /\
  (forall c, 0 <= c < ncols ->
     exists q, process_at n nrows ncols ord q r0 c /\ nth_error (cg_row g) (Z.to_nat c) = Some q) /\
  Z.of_nat (length (cg_col g)) = nrows /\
  (forall r, 0 <= r < nrows ->
     exists q, process_at n nrows ncols ord q r c0 /\ nth_error (cg_col g) (Z.to_nat r) = Some q).
Proof.
  intros n nrows ncols ord me g Hr Hc Hn Hme E.
  assert (L : me < nrows * ncols).
  { destruct (Z.lt_ge_cases me (nrows * ncols)) as [L | L]; [exact L|].
    destruct (C26_positions n nrows ncols ord Hr Hc Hn) as (_ & N & _).
    rewrite N in E by lia. discriminate. }
  rewrite grid_ctor_in in E by lia. inversion E; subst g; clear E. cbn [cg_position cg_full cg_row cg_col cg_size].
  destruct (position_inv ord nrows ncols me Hr Hc ltac:(lia)) as [[Br Bc] _].
  destruct (position ord nrows ncols me) as [r0 c0]. cbn [fst snd] in *.
  rewrite !map_length, !zrange_length.
  split; [reflexivity|]. split; [nia|]. split; [|split; [lia|split; [|split; [lia|]]]].
  - intros r c B1 B2. unfold rankFullCommunicator. cbn [cg_size]. split; [reflexivity|].
    eexists. split; [apply process_at_iff; try lia; split; [lia|reflexivity]|].
    destruct (position_of RowMajor nrows ncols r c B1 B2) as [Q P].
    rewrite nth_map_range by exact Q. change (computeCoordsRowMajor ?a ?b) with (position RowMajor nrows ncols a).
    rewrite P. reflexivity.
  - intros c B. eexists. split; [apply process_at_iff; try lia; split; [lia|reflexivity]|].
    apply nth_map_range. lia.
  - intros r B. eexists. split; [apply process_at_iff; try lia; split; [lia|reflexivity]|].
    apply nth_map_range. lia.
Qed.

(** A grid larger than the communicator is rejected on every process. *)
Theorem C26_too_large_rejected : forall n nrows ncols ord me,
  n < nrows * ncols <= i32_max -> 0 <= n -> grid_ctor n nrows ncols ord me = Abort.
Proof.
  intros n nrows ncols ord me H H0. unfold grid_ctor, i32.
  replace (in_i32 (nrows * ncols)) with true
    by (symmetry; unfold in_i32, i32_min in *; apply andb_true_iff; split; apply Z.leb_le; nia).
  cbn [bind]. replace (nrows * ncols <=? n) with false by (symmetry; apply Z.leb_gt; lia). reflexivity.
Qed.

(** Concrete case: 2 x 3 column-major grid in a communicator of 7. *)
Example C26_example :
  grid_ctor 7 2 3 ColumnMajor 3 = Ok (Some (CommGrid (1, 1) (2, 3) [0; 2; 4; 1; 3; 5] [1; 3; 5] [2; 3])) /\
  grid_ctor 7 2 3 RowMajor 3 = Ok (Some (CommGrid (1, 0) (2, 3) [0; 1; 2; 3; 4; 5] [3; 4; 5] [0; 3])) /\
  grid_ctor 7 2 3 ColumnMajor 6 = Ok None /\ grid_ctor 5 2 3 RowMajor 0 = Abort.
Proof. vm_compute. auto. Qed.

(** ** Assumptions *)
Print Assumptions C26_positions.
Print Assumptions C26_requested_ordering.
Print Assumptions C26_communicators.
Print Assumptions C26_too_large_rejected.
