(** * Properties C11-C14 (and C43: integral casts): index arithmetic utilities. *)
From Coq Require Import ZArith Lia Bool List Sorted Permutation.
From Verif Require Import CInt DistModel DivLemmas DistBuilt IndexModel.
Import ListNotations.
Open Scope Z_scope.

Lemma isIn2_iff : forall i b, isIn2 i b = true <-> (0 <= fst i < fst b /\ 0 <= snd i < snd b).
Proof.
  intros [i j] [m n]. unfold isIn2, isValid2. cbn.
  rewrite !andb_true_iff, !Z.ltb_lt, !Z.leb_le. lia.
Qed.

(** ** C11 *)
Theorem C11_linear_index_bijection : forall o dims,
  (forall i, 0 <= fst i < fst dims /\ 0 <= snd i < snd dims ->
     0 <= computeLinearIndex o i dims < linear_size dims /\
     computeCoords o (computeLinearIndex o i dims) dims = i) /\
  (forall n, 0 < fst dims -> 0 < snd dims -> 0 <= n < linear_size dims ->
     let i := computeCoords o n dims in
     (0 <= fst i < fst dims /\ 0 <= snd i < snd dims) /\ computeLinearIndex o i dims = n).
Proof.
  intros o [m n]. unfold linear_size. split.
  - intros [i j] [Hi Hj]. cbn in Hi, Hj |- *. destruct o; cbn;
      unfold computeCoordsRowMajor, computeCoordsColMajor, computeLinearIndexRowMajor, computeLinearIndexColMajor; cbn.
    + split; [nia|]. rewrite quot_nonneg_div, rem_nonneg_mod by nia.
      rewrite (div_eq _ n i j), (mod_eq _ n i j) by lia. reflexivity.
    + split; [nia|]. rewrite quot_nonneg_div, rem_nonneg_mod by nia.
      rewrite (div_eq _ m j i), (mod_eq _ m j i) by lia. reflexivity.
  - intros k. cbn. intros Hm Hn Hk. destruct o; cbn;
      unfold computeLinearIndexRowMajor, computeLinearIndexColMajor; cbn;
      rewrite quot_nonneg_div, rem_nonneg_mod by lia.
    + destruct (div_mod_dec k n Hn) as [E R]. split; [split; [|exact R]|lia].
      split; [apply div_nonneg; lia|]. apply Z.div_lt_upper_bound; lia.
    + destruct (div_mod_dec k m Hm) as [E R]. split; [split; [exact R|]|lia].
      split; [apply div_nonneg; lia|]. apply Z.div_lt_upper_bound; lia.
Qed.

(** row-major order compares rows first, column-major columns first *)
Theorem C11_enumeration_order : forall dims i j,
  (0 <= fst i < fst dims /\ 0 <= snd i < snd dims) -> (0 <= fst j < fst dims /\ 0 <= snd j < snd dims) ->
  (computeLinearIndex RowMajor i dims < computeLinearIndex RowMajor j dims <->
     fst i < fst j \/ (fst i = fst j /\ snd i < snd j)) /\
  (computeLinearIndex ColumnMajor i dims < computeLinearIndex ColumnMajor j dims <->
     snd i < snd j \/ (snd i = snd j /\ fst i < fst j)).
Proof.
  intros [m n] [i1 i2] [j1 j2]. cbn. intros Hi Hj.
  unfold computeLinearIndexRowMajor, computeLinearIndexColMajor; cbn. nia.
Qed.

Theorem C11_membership : forall i b origin sub,
  (isIn2 i b = true <-> 0 <= fst i < fst b /\ 0 <= snd i < snd b) /\
  (isInOrOn2 i b = true <-> 0 <= fst i <= fst b /\ 0 <= snd i <= snd b) /\
  (0 <= fst origin -> 0 <= snd origin ->
   (isInSub2 i origin sub = true <->
    fst origin <= fst i < fst origin + fst sub /\ snd origin <= snd i < snd origin + snd sub)).
Proof.
  intros i b origin sub. split; [apply isIn2_iff|]. split.
  - unfold isInOrOn2, isValid2. rewrite !andb_true_iff, !Z.leb_le. lia.
  - intros H1 H2. unfold isInSub2. rewrite !andb_true_iff, isIn2_iff, !Z.leb_le. unfold plus2. cbn. lia.
Qed.

Theorem C11_coordinates : forall rc v f p q,
  sel rc (coords_from rc v f) = v /\ sel (orthogonal rc) (coords_from rc v f) = f /\
  sel rc (transposed p) = sel (orthogonal rc) p /\ transposed (transposed p) = p /\
  minus2 (plus2 p q) q = p /\ plus2 p (minus2 q p) = q.
Proof.
  intros [] v f [a b] [c d]; unfold minus2, plus2, transposed; cbn; repeat split; f_equal; lia.
Qed.

(** ** C12 *)

(** the rectangle, column by column *)
Definition column (r0 : Z) (rows : nat) (c : Z) : list pair_Z :=
  map (fun k => (r0 + Z.of_nat k, c)) (seq 0 rows).
Definition rectangle (begin : pair_Z) (rows cols : nat) : list pair_Z :=
  flat_map (fun j => column (fst begin) rows (snd begin + Z.of_nat j)) (seq 0 cols).

(** what the rectangle contains, and that it lists everything once (so that the definition
    above can be trusted) *)
Lemma rectangle_spec : forall begin rows cols,
  NoDup (rectangle begin rows cols) /\
  forall p, In p (rectangle begin rows cols) <->
    (fst begin <= fst p < fst begin + Z.of_nat rows /\ snd begin <= snd p < snd begin + Z.of_nat cols).
Proof.
  intros [r0 c0] rows cols. cbn [fst snd].
  assert (X : forall p, In p (rectangle (r0, c0) rows cols) <->
    (r0 <= fst p < r0 + Z.of_nat rows /\ c0 <= snd p < c0 + Z.of_nat cols)).
  { intros [r c]. unfold rectangle, column. rewrite in_flat_map. cbn [fst snd]. split.
    - intros (j & Hj & H). apply in_map_iff in H as (k & E & Hk). injection E as <- <-.
      apply in_seq in Hj, Hk. lia.
    - intros [Hr Hc]. exists (Z.to_nat (c - c0)). split; [apply in_seq; lia|].
      apply in_map_iff. exists (Z.to_nat (r - r0)). split; [f_equal; lia|apply in_seq; lia]. }
  split; [|exact X].
  unfold rectangle.
  assert (Y : forall n s, NoDup (flat_map (fun j => column (fst (r0, c0)) rows (snd (r0, c0) + Z.of_nat j)) (seq s n))).
  { induction n as [|n IH]; intros s; cbn [seq flat_map]; [constructor|].
    assert (A : forall l1 l2 : list pair_Z, NoDup l1 -> NoDup l2 -> (forall x, In x l1 -> ~ In x l2) -> NoDup (l1 ++ l2)).
    { induction l1 as [|x l1 IH1]; intros l2 N1 N2 D; cbn; [exact N2|]. inversion N1; subst. constructor.
      - rewrite in_app_iff. intros [H|H]; [contradiction|]. apply (D x); [left; reflexivity|exact H].
      - apply IH1; [assumption|assumption|]. intros y Hy. apply D. right. exact Hy. }
    apply A; [|apply IH|].
    - unfold column. apply FinFun.Injective_map_NoDup; [|apply seq_NoDup].
      intros a b E. injection E as E. lia.
    - intros [r c] H1 H2. unfold column in H1. apply in_map_iff in H1 as (k & E & _). injection E as _ <-.
      apply in_flat_map in H2 as (j & Hj & H2). apply in_seq in Hj. unfold column in H2.
      apply in_map_iff in H2 as (k' & E & _). injection E as _ E. lia. }
  apply Y.
Qed.

Lemma iterate_from : forall n fuel it e, it_i e = it_i it + Z.of_nat n -> (n <= fuel)%nat ->
  iterate fuel it e = Some (map (fun k => iter_at it (Z.of_nat k)) (seq 0 n)).
Proof.
  induction n as [|n IH]; intros fuel it e He Hf.
  - destruct fuel; cbn; unfold iter_eqb; rewrite (proj2 (Z.eqb_eq _ _)) by lia; reflexivity.
  - destruct fuel as [|fuel]; [lia|]. cbn [iterate]. unfold iter_eqb. rewrite (proj2 (Z.eqb_neq _ _)) by lia.
    rewrite (IH fuel (iter_incr it) e) by (cbn; lia).
    cbn [seq map]. f_equal. f_equal.
    + unfold iter_at. f_equal. unfold iter_add. destruct it; cbn. f_equal. lia.
    + rewrite <- seq_shift, map_map. apply map_ext. intros k. unfold iter_at, iter_incr, iter_add. cbn. f_equal. f_equal. lia.
Qed.

Lemma rect_at : forall begin ld n, 0 < ld ->
  map (fun k => iter_deref (iter_make begin ld (0 + Z.of_nat k))) (seq 0 (Z.to_nat ld * n)) =
  rectangle begin (Z.to_nat ld) n.
Proof.
  intros begin ld n Hld. unfold rectangle.
  induction n as [|n IH]; [rewrite Nat.mul_0_r; reflexivity|].
  replace (Z.to_nat ld * S n)%nat with (Z.to_nat ld * n + Z.to_nat ld)%nat by lia.
  rewrite seq_app, map_app, IH. replace (S n) with (n + 1)%nat by lia. rewrite seq_app, flat_map_app.
  f_equal. cbn [seq flat_map]. rewrite app_nil_r. rewrite !Nat.add_0_l.
  unfold column.
  assert (SH : forall s len, seq s len = map (fun k => (s + k)%nat) (seq 0 len)).
  { intros s len. revert s. induction len; intros s; cbn; [reflexivity|]. rewrite Nat.add_0_r. f_equal.
    rewrite IHlen, <- seq_shift, map_map. apply map_ext. intros. lia. }
  rewrite SH, map_map. apply map_ext_in. intros k Hk. apply in_seq in Hk.
  unfold iter_deref, iter_make. cbn. rewrite Z.max_l by lia. rewrite quot_nonneg_div, rem_nonneg_mod by lia.
  rewrite (div_eq _ ld (Z.of_nat n) (Z.of_nat k)), (mod_eq _ ld (Z.of_nat n) (Z.of_nat k)); try lia.
  reflexivity.
Qed.

Theorem C12_iteration_visits_the_rectangle : forall begin sz fuel,
  0 <= fst sz -> 0 <= snd sz -> (Z.to_nat (fst sz * snd sz) <= fuel)%nat ->
  range_list fuel (range_size begin sz) = Some (rectangle begin (Z.to_nat (fst sz)) (Z.to_nat (snd sz))).
Proof.
  intros begin [m n] fuel Hm Hn Hf. cbn [fst snd] in *. unfold range_list, range_size. cbn [fst snd].
  rewrite (iterate_from (Z.to_nat (m * n))); [|cbn; lia|assumption].
  destruct (Z.eq_dec m 0) as [->|Hne].
  - cbn. unfold rectangle. cbn. f_equal. symmetry. induction (seq 0 (Z.to_nat n)); cbn; auto.
  - f_equal. rewrite Z2Nat.inj_mul by lia. apply rect_at. lia.
Qed.

(** the same for the (begin, end) form, which aborts unless begin <= end *)
Theorem C12_begin_end_form : forall begin e,
  (fst begin <= fst e /\ snd begin <= snd e ->
     range_end begin e = Ok (range_size begin (fst e - fst begin, snd e - snd begin))) /\
  (~ (fst begin <= fst e /\ snd begin <= snd e) -> range_end begin e = Abort).
Proof.
  intros [b1 b2] [e1 e2]. cbn. unfold range_end, dlaf_assert. cbn.
  destruct (Z.leb_spec b1 e1); cbn; destruct (Z.leb_spec b2 e2); cbn; split; intros; try reflexivity; lia.
Qed.

Theorem C12_membership_and_random_access : forall begin sz i,
  0 <= fst sz -> 0 <= snd sz ->
  let r := range_size begin sz in
  (isIndexInRange i r = true <->
     fst begin <= fst i < fst begin + fst sz /\ snd begin <= snd i < snd begin + snd sz) /\
  (range_empty r = true <-> (fst sz = 0 \/ snd sz = 0)) /\
  (forall n, 0 <= n < fst sz * snd sz ->
     nth_error (rectangle begin (Z.to_nat (fst sz)) (Z.to_nat (snd sz))) (Z.to_nat n)
       = Some (iter_at (range_begin_it r) n)) /\
  iter_diff (range_end_it r) (range_begin_it r) = fst sz * snd sz.
Proof.
  intros [b1 b2] [m n] [i j] Hm Hn. cbn [fst snd] in *. cbv zeta.
  assert (EM : range_empty (range_size (b1, b2) (m, n)) = true <-> (m = 0 \/ n = 0)).
  { unfold range_empty, iter_eqb. rewrite Z.eqb_eq. cbn [range_begin_it range_end_it iter_make it_i range_size rg_max fst snd]. nia. }
  split; [|split; [exact EM|split]].
  - unfold isIndexInRange. destruct (range_empty (range_size (b1, b2) (m, n))) eqn:E.
    + assert (m = 0 \/ n = 0) by (apply EM; reflexivity). split; [discriminate|]. lia.
    + assert (m <> 0 /\ n <> 0) as [M N].
      { split; intros Z0; destruct EM as [_ EM]; assert (false = true) by (apply EM; lia); discriminate. }
      unfold iter_deref. cbn [range_begin_it range_end_it iter_make range_size iter_decr iter_add it_begin it_i it_ld rg_begin rg_ld rg_max fst snd]. rewrite Z.max_l by lia. rewrite Z.rem_0_l, Z.quot_0_l by lia. replace (m * n + -1) with (m * n - 1) by lia.
      assert (0 <= m * n - 1) by nia.
      rewrite quot_nonneg_div, rem_nonneg_mod by lia.
      rewrite (div_eq _ m (n - 1) (m - 1)), (mod_eq _ m (n - 1) (m - 1)) by nia.
      rewrite !andb_true_iff, !Z.leb_le. lia.
  - intros k Hk.
    destruct (Z.eq_dec m 0) as [->|Hne]; [lia|].
    rewrite <- rect_at by lia.
    rewrite (map_nth_error _ (Z.to_nat k) _ (d := Z.to_nat k)).
    + f_equal. unfold iter_at, iter_add, range_begin_it, range_size, iter_make. cbn. do 3 f_equal. lia.
    + assert (SN : forall len s q, (q < len)%nat -> nth_error (seq s len) q = Some (s + q)%nat).
      { induction len; intros s q Hq; [lia|]. destruct q; cbn; [f_equal; lia|]. rewrite IHlen by lia. f_equal. lia. }
      rewrite SN; [f_equal|]. nia.
  - unfold iter_diff. cbn. lia.
Qed.

(** A negative size is not rejected; two negative extents iterate over phantom indices. *)
Theorem C12_negative_size_refuted :
  range_list 10 (iterate_range2d_size (-1, -2)) = Some [(0, 0); (0, 1)].
Proof. vm_compute. reflexivity. Qed.

Example C12_example : range_list 6 (range_size (5, 6) (2, 3)) = Some [(5, 6); (6, 6); (5, 7); (6, 7); (5, 8); (6, 8)].
Proof. reflexivity. Qed.

(** ** C13 *)
(** k calls to nextResource *)
Fixpoint requests {T} (k : nat) (r : round_robin T) : res (list T * round_robin T) :=
  match k with
  | O => Ok ([], r)
  | S m => p <- rr_next r ;; q <- requests m (snd p) ;; Ok (fst p :: fst q, snd q)
  end.

Lemma rr_next_ok : forall T (pool : list T) i, pool <> [] -> 0 <= i < Z.of_nat (length pool) ->
  exists x, nth_error pool (Z.to_nat ((i + 1) mod Z.of_nat (length pool))) = Some x /\
    rr_next (RoundRobin i pool) = Ok (x, RoundRobin ((i + 1) mod Z.of_nat (length pool)) pool).
Proof.
  intros T pool i NE Hi. unfold rr_next. cbn [rr_pool rr_index].
  rewrite rem_nonneg_mod by lia.
  pose proof (Z.mod_pos_bound (i + 1) (Z.of_nat (length pool)) ltac:(lia)) as B.
  destruct (nth_error pool (Z.to_nat ((i + 1) mod Z.of_nat (length pool)))) as [x|] eqn:E.
  - exists x. split; [reflexivity|]. destruct pool; [congruence|]. reflexivity.
  - apply nth_error_None in E. lia.
Qed.

Lemma requests_ok : forall T (pool : list T) k i, pool <> [] -> 0 <= i < Z.of_nat (length pool) ->
  exists l, requests k (RoundRobin i pool) = Ok (l, RoundRobin ((i + Z.of_nat k) mod Z.of_nat (length pool)) pool) /\
    length l = k /\
    forall j, (j < k)%nat -> nth_error l j = nth_error pool (Z.to_nat ((i + 1 + Z.of_nat j) mod Z.of_nat (length pool))).
Proof.
  intros T pool k. induction k as [|k IH]; intros i NE Hi.
  - exists []. cbn. rewrite Z.add_0_r, Z.mod_small by lia. split; [reflexivity|split; [reflexivity|]]. intros; lia.
  - destruct (rr_next_ok T pool i NE Hi) as (x & Nx & Ex).
    set (i' := (i + 1) mod Z.of_nat (length pool)) in *.
    assert (Bi : 0 <= i' < Z.of_nat (length pool)) by (unfold i'; apply Z.mod_pos_bound; lia).
    destruct (IH i' NE Bi) as (l & El & Ll & Hl).
    exists (x :: l). cbn [requests]. rewrite Ex. cbn [bind snd fst]. rewrite El. cbn [bind fst snd].
    split; [|split].
    + do 3 f_equal. unfold i'. rewrite Zplus_mod_idemp_l. f_equal. lia.
    + cbn. lia.
    + intros [|j] Hj.
      * cbn. rewrite Z.add_0_r. symmetry. exact Nx.
      * cbn [nth_error]. rewrite Hl by lia. f_equal. f_equal. unfold i'.
        rewrite <- (Z.add_assoc ((i + 1) mod _)). rewrite Zplus_mod_idemp_l. f_equal. lia.
Qed.

(** The k-th request (from the start) returns resource (k mod n), for every history length. *)
Theorem C13_round_robin : forall T (pool : list T) k, pool <> [] ->
  let n := length pool in
  exists l r, requests k (rr_make pool) = Ok (l, r) /\ length l = k /\
    (* request number j (0-based) returns resource (j+1) mod n *)
    (forall j, (j < k)%nat -> nth_error l j = nth_error pool ((j + 1) mod n)) /\
    (* the current resource is the one returned last *)
    (rr_current r = match nth_error pool (k mod n) with Some x => Ok x | None => Abort end).
Proof.
  intros T pool k NE n.
  assert (NZ : (n <> 0)%nat) by (unfold n; destruct pool; [congruence|cbn; lia]).
  destruct (requests_ok T pool k 0 NE ltac:(lia)) as (l & E & L & H).
  exists l, (RoundRobin ((0 + Z.of_nat k) mod Z.of_nat (length pool)) pool).
  split; [exact E|split; [exact L|split]].
  - intros j Hj. rewrite (H j Hj). f_equal.
    replace (0 + 1 + Z.of_nat j) with (Z.of_nat (j + 1)) by lia. fold n. rewrite <- Nat2Z.inj_mod, Nat2Z.id. reflexivity.
  - unfold rr_current. cbn [rr_pool rr_index]. rewrite Z.add_0_l. fold n. rewrite <- Nat2Z.inj_mod, Nat2Z.id.
    reflexivity.
Qed.

(** any n consecutive requests return n different positions of the pool; requests n apart return
    the same one *)
Theorem C13_fairness : forall (n : nat) a b, (n <> 0)%nat ->
  ((a < b < a + n)%nat -> (a + 1) mod n <> (b + 1) mod n)%nat /\ ((a + n + 1) mod n = (a + 1) mod n)%nat.
Proof.
  intros n a b Hn. split.
  - intros Hab E.
    pose proof (Nat.div_mod (a + 1) n Hn). pose proof (Nat.div_mod (b + 1) n Hn). rewrite E in *.
    assert (n * ((b + 1) / n) - n * ((a + 1) / n) = b - a)%nat by lia.
    destruct (Nat.le_gt_cases ((b + 1) / n) ((a + 1) / n))%nat; nia.
  - replace (a + n + 1)%nat with (a + 1 + 1 * n)%nat by lia. apply Nat.mod_add. exact Hn.
Qed.

Theorem C13_empty_pool_aborts : forall T, rr_next (rr_make (@nil T)) = Abort /\ rr_current (rr_make (@nil T)) = Abort.
Proof. intros T. split; reflexivity. Qed.

Example C13_example : requests 4 (rr_make [10; 11; 12]) = Ok ([11; 12; 10; 11], RoundRobin 1 [10; 11; 12]).
Proof. reflexivity. Qed.

(** ** C14 *)
Definition split_point (l b o1 o2 x : Z) : Prop :=
  x = 0 \/ x = l \/ (0 <= x < l /\ exists k, 0 <= k /\ (x = o1 + k * b \/ x = o2 + k * b)).

(** Loop invariant: splits (reversed) is strictly decreasing, its head is at most i, and it
    contains exactly the split points of the previous n rounds. *)
Lemma interleave_loop_spec : forall fuel l b s g n acc,
  0 < b -> 0 <= s <= g -> g <= s + b -> 0 < l -> 0 <= n ->
  l - (s + n * b) <= Z.of_nat fuel * b ->
  StronglySorted Z.gt acc ->
  (forall x, In x acc <-> x = 0 \/ (x < l /\ exists k, 0 <= k < n /\ (x = s + k * b \/ x = g + k * b))) ->
  hd 0 acc <= s + n * b ->
  exists out, interleave_loop fuel l b (s + n * b) (g + n * b) acc = Some (rev (l :: out)) /\
    StronglySorted Z.gt (l :: out) /\
    (forall x, In x out <-> x = 0 \/ (x < l /\ exists k, 0 <= k /\ (x = s + k * b \/ x = g + k * b))).
Proof.
  induction fuel as [|fuel IH]; intros l b s g n acc Hb Hs Hg Hl Hn Hfuel HS HI Hhd.
  - assert (l <= s + n * b) by lia. exists acc. cbn [interleave_loop].
    rewrite (proj2 (Z.ltb_ge _ _)), (proj2 (Z.ltb_ge _ _)) by lia. cbn.
    split; [reflexivity|]. split.
    + constructor; [exact HS|]. apply Forall_forall. intros x Hx. apply HI in Hx as [->|[Hx _]]; lia.
    + intros x. rewrite HI. split; intros [->|(Hx & k & Hk & E)]; auto; right; (split; [exact Hx|]); exists k.
      * split; [lia|exact E].
      * split; [|exact E]. split; [lia|]. nia.
  - cbn [interleave_loop].
    destruct (Z.ltb_spec (s + n * b) l) as [Hi|Hi].
    2:{ rewrite (proj2 (Z.ltb_ge _ _)) by lia. cbn [orb]. exists acc. split; [reflexivity|]. split.
        + constructor; [exact HS|]. apply Forall_forall. intros x Hx. apply HI in Hx as [->|[Hx _]]; lia.
        + intros x. rewrite HI. split; intros [->|(Hx & k & Hk & E)]; auto; right; (split; [exact Hx|]); exists k.
          * split; [lia|exact E].
          * split; [|exact E]. split; [lia|]. nia. }
    cbn [orb]. rewrite andb_true_r.
    set (i := s + n * b) in *. set (j := g + n * b) in *.
    assert (HSh : forall a, In a acc -> a <= hd 0 acc).
    { intros a Ha. destruct acc as [|h t]; [destruct Ha|]. cbn. destruct Ha as [->|Ha]; [lia|].
      apply StronglySorted_inv in HS as [_ HF]. rewrite Forall_forall in HF. specialize (HF a Ha). lia. }
    assert (Hne : acc <> []) by (intros ->; destruct (HI 0) as [_ H]; apply H; left; reflexivity).
    set (s1 := if negb (hd 0 acc =? i) then i :: acc else acc).
    assert (S1 : StronglySorted Z.gt s1 /\ hd 0 s1 = i /\ forall x, In x s1 <-> x = i \/ In x acc).
    { unfold s1. destruct (Z.eqb_spec (hd 0 acc) i) as [E|E]; cbn [negb].
      - split; [exact HS|]. split; [exact E|]. intros x. split; [auto|]. intros [->|H]; [|exact H].
        rewrite <- E. destruct acc; [congruence|]. left. reflexivity.
      - split; [|split; [reflexivity|intros x; cbn; intuition]].
        constructor; [exact HS|]. apply Forall_forall. intros x Hx. specialize (HSh x Hx). lia. }
    destruct S1 as (S1a & S1b & S1c).
    set (s2 := if negb (hd 0 s1 =? j) && (j <? l) then j :: s1 else s1).
    assert (S2 : StronglySorted Z.gt s2 /\ hd 0 s2 <= j /\ forall x, In x s2 <-> (x = j /\ j < l) \/ x = i \/ In x acc).
    { unfold s2. rewrite S1b. destruct (Z.eqb_spec i j) as [E|E]; cbn [negb andb].
      - split; [exact S1a|]. split; [lia|]. intros x. rewrite S1c. rewrite <- E. intuition lia.
      - destruct (Z.ltb_spec j l); cbn [andb].
        + split; [|split; [cbn; lia|]].
          * constructor; [exact S1a|]. apply Forall_forall. intros x Hx. apply S1c in Hx as [->|Hx]; [lia|].
            specialize (HSh x Hx). lia.
          * intros x. cbn [In]. rewrite S1c. intuition lia.
        + split; [exact S1a|]. split; [lia|]. intros x. rewrite S1c. intuition lia. }
    destruct S2 as (S2a & S2b & S2c). clearbody s2. clear S1a S1b S1c. clearbody s1.
    replace (i + b) with (s + (n + 1) * b) by (unfold i; lia).
    replace (j + b) with (g + (n + 1) * b) by (unfold j; lia).
    apply IH; try assumption; try lia.
    intros x. rewrite S2c, HI. split.
    + intros [(-> & Hx)|[->|[->|(Hx & k & Hk & E)]]]; auto; right; (split; [assumption|]).
      * exists n. split; [lia|]. right. reflexivity.
      * exists n. split; [lia|]. left. reflexivity.
      * exists k. split; [lia|exact E].
    + intros [->|(Hx & k & Hk & E)]; auto.
      destruct (Z.eq_dec k n) as [->|Hkn].
      * destruct E as [->| ->]; [right; left; reflexivity|left; split; [reflexivity|exact Hx]].
      * right; right; right. split; [exact Hx|]. exists k. split; [lia|exact E].
Qed.

Lemma sorted_rev : forall l, StronglySorted Z.gt l -> StronglySorted Z.lt (rev l).
Proof.
  induction l as [|x l IH]; intros H; [constructor|]. cbn.
  apply StronglySorted_inv in H as [H F].
  assert (A : forall l1, StronglySorted Z.lt l1 -> (forall y, In y l1 -> y < x) -> StronglySorted Z.lt (l1 ++ [x])).
  { induction l1 as [|y l1 IH1]; intros S D; cbn; [repeat constructor|].
    apply StronglySorted_inv in S as [S FF]. constructor.
    - apply IH1; [exact S|]. intros z Hz. apply D. right. exact Hz.
    - apply Forall_app. split; [exact FF|]. constructor; [|constructor]. apply D. left. reflexivity. }
  apply A; [apply IH, H|]. intros y Hy. apply in_rev in Hy. rewrite Forall_forall in F. specialize (F y Hy). lia.
Qed.

Theorem C14_interleaved_splits : forall l b o1 o2 fuel,
  0 < l -> 0 < b -> 0 <= o1 <= b -> 0 <= o2 <= b -> (Z.to_nat l <= fuel)%nat ->
  exists splits, interleaveSplits fuel l b o1 o2 = Ok (Some splits) /\
    StronglySorted Z.lt splits /\ hd_error splits = Some 0 /\ last splits 0 = l /\
    (forall x, In x splits <-> split_point l b o1 o2 x).
Proof.
  intros l b o1 o2 fuel Hl Hb H1 H2 Hf.
  destruct (interleave_loop_spec fuel l b (Z.min o1 o2) (Z.max o1 o2) 0 [0]) as (out & E & S & I);
    try lia; try nia.
  - repeat constructor.
  - intros x. cbn [In]. split; [intros [<-|[]]; auto|]. intros [->|(_ & k & Hk & _)]; [auto|lia].
  - cbn. lia.
  - exists (rev (l :: out)). split.
    { unfold interleaveSplits, dlaf_assert.
      rewrite (proj2 (Z.ltb_lt 0 l)), (proj2 (Z.ltb_lt 0 b)), (proj2 (Z.leb_le 0 o1)), (proj2 (Z.leb_le o1 b)),
        (proj2 (Z.leb_le 0 o2)), (proj2 (Z.leb_le o2 b)) by lia.
      cbn [andb bind]. rewrite <- E, Z.mul_0_l, !Z.add_0_r. reflexivity. }
    assert (SR := sorted_rev _ S).
    assert (MEM : forall x, In x (rev (l :: out)) <-> split_point l b o1 o2 x).
    { intros x. rewrite <- in_rev. cbn [In]. rewrite I. unfold split_point.
      assert (Q : forall k, (x = Z.min o1 o2 + k * b \/ x = Z.max o1 o2 + k * b) <-> (x = o1 + k * b \/ x = o2 + k * b)) by (intros; lia).
      split.
      - intros [<-|[->|(Hx & k & Hk & Ex)]]; auto. right. right. split; [split; [|exact Hx]|].
        + assert (0 <= k * b) by nia. lia.
        + exists k. split; [exact Hk|apply Q, Ex].
      - intros [->|[->|(Hx & k & Hk & Ex)]]; auto. right. right. split; [lia|]. exists k. split; [exact Hk|apply Q, Ex]. }
    split; [exact SR|]. split; [|split; [|exact MEM]].
    + destruct (rev (l :: out)) as [|h t] eqn:R.
      { exfalso. destruct (MEM 0) as [_ M]. apply M. left. reflexivity. }
      cbn. f_equal. apply StronglySorted_inv in SR as [_ F]. rewrite Forall_forall in F.
      destruct (proj2 (MEM 0) (or_introl eq_refl)) as [E0|H0]; [exact E0|].
      specialize (F 0 H0). destruct (proj1 (MEM h) (or_introl eq_refl)) as [Eh|[Eh|[Hh _]]]; lia.
    + cbn [rev]. apply last_last.
Qed.

Theorem C14_bad_arguments_abort : forall l b o1 o2 fuel,
  ~ (0 < l /\ 0 < b /\ 0 <= o1 <= b /\ 0 <= o2 <= b) -> interleaveSplits fuel l b o1 o2 = Abort.
Proof.
  intros l b o1 o2 fuel H. unfold interleaveSplits, dlaf_assert.
  destruct (Z.ltb_spec 0 l); [|reflexivity]. destruct (Z.ltb_spec 0 b); [|reflexivity]. cbn [bind].
  destruct (Z.leb_spec 0 o1); [|reflexivity]. destruct (Z.leb_spec o1 b); [|reflexivity].
  destruct (Z.leb_spec 0 o2); [|reflexivity]. destruct (Z.leb_spec o2 b); [|reflexivity]. lia.
Qed.

Example C14_example : interleaveSplits 11 11 4 1 3 = Ok (Some [0; 1; 3; 5; 7; 9; 11]).
Proof. reflexivity. Qed.

(** ** C43 *)
Definition representable (t : int_type) (v : Z) : Prop := t_min t <= v <= t_max t.
Definition real_int_type (t : int_type) : Prop := 0 < t_bits t <= 64.

Lemma range_width : forall t, 0 < t_bits t -> t_max t - t_min t + 1 = 2 ^ t_bits t.
Proof.
  intros [[] n] H; unfold t_max, t_min; cbn [t_signed t_bits] in *; [|lia].
  replace n with (Z.succ (n - 1)) at 3 by lia. rewrite Z.pow_succ_r by lia. lia.
Qed.

Lemma static_cast_id : forall t v, 0 < t_bits t -> representable t v -> static_cast_to t v = v.
Proof.
  intros t v H R. unfold static_cast_to, representable in *. pose proof (range_width t H).
  rewrite Z.mod_small by lia. lia.
Qed.

(** The assertions of a checked cast hold exactly when the value is representable, and then the
    value is preserved. *)
Theorem C43_checked_casts : forall to from v, real_int_type to -> real_int_type from -> representable from v ->
  (fst (integral_cast to from v) = true <-> representable to v) /\
  (representable to v -> snd (integral_cast to from v) = v).
Proof.
  intros to from v Ht Hf R.
  split; [|intros Rt; cbn; apply static_cast_id; [apply Ht|exact Rt]].
  assert (M64 : forall n, 0 < n <= 64 -> 2 ^ n <= 2 ^ 64) by (intros; apply Z.pow_le_mono_r; lia).
  assert (HALF : forall n, 0 < n -> 2 * 2 ^ (n - 1) = 2 ^ n).
  { intros n Hn. replace n with (Z.succ (n - 1)) at 2 by lia. rewrite Z.pow_succ_r by lia. reflexivity. }
  assert (PP : forall n, 0 <= n -> 0 < 2 ^ n) by (intros; apply Z.pow_pos_nonneg; lia).
  destruct to as [ts tn], from as [fs fn]. unfold real_int_type, representable in *.
  cbn [t_bits] in *. pose proof (M64 tn Ht). pose proof (M64 fn Hf).
  pose proof (HALF tn ltac:(lia)). pose proof (HALF fn ltac:(lia)).
  pose proof (PP (tn - 1) ltac:(lia)). pose proof (PP (fn - 1) ltac:(lia)). pose proof (PP tn ltac:(lia)). pose proof (PP fn ltac:(lia)).
  assert (C64 : forall x, 0 <= x < 2 ^ 64 -> static_cast_to size_t_type x = x).
  { intros x Hx. unfold static_cast_to, size_t_type, t_min. cbn [t_signed t_bits]. rewrite Z.mod_small by lia. lia. }
  unfold integral_cast, t_min, t_max in *. cbn [t_signed t_bits fst] in *.
  destruct ts, fs; rewrite ?C64 by lia.
  - rewrite andb_true_iff, !Z.leb_le. lia.
  - rewrite Z.leb_le. lia.
  - rewrite andb_true_iff, Z.leb_le. destruct (Z_le_gt_dec 0 v).
    + rewrite C64 by lia. rewrite Z.leb_le. lia.
    + lia.
  - rewrite Z.leb_le. lia.
Qed.

Example C43_example : integral_cast (IntType true 32) (IntType true 64) (2 ^ 31) = (false, - 2 ^ 31).
Proof. vm_compute. reflexivity. Qed.

(** ** Assumptions *)
Print Assumptions C11_linear_index_bijection.
Print Assumptions C11_enumeration_order.
Print Assumptions C11_membership.
Print Assumptions C11_coordinates.
Print Assumptions C12_iteration_visits_the_rectangle.
Print Assumptions C12_begin_end_form.
Print Assumptions C12_membership_and_random_access.
Print Assumptions C12_negative_size_refuted.
Print Assumptions C13_round_robin.
Print Assumptions C13_fairness.
Print Assumptions C13_empty_pool_aborts.
Print Assumptions C14_interleaved_splits.
Print Assumptions C14_bad_arguments_abort.
Print Assumptions C43_checked_casts.
