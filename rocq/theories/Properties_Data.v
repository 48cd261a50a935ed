(** * C39: message / data descriptors cover exactly the data *)
From Coq Require Import ZArith Lia Bool List FinFun.
From Verif Require Import CInt Loop DataModel.
Import ListNotations.
Open Scope Z_scope.

(** ** Specification *)
(** The elements of [nb] blocks of [bs] elements, block starts [st] apart, in order. *)
Definition block_elements (ptr nb bs st : Z) : list Z :=
  flat_map (fun i => map (fun j => ptr + (i * st + j)) (zrange 0 bs)) (zrange 0 nb).
Definition elements (d : desc) : list Z := block_elements (d_ptr d) (d_nblocks d) (d_blocksize d) (d_stride d).
(** Addresses ptr, ptr+1, ..., in order. *)
Definition consecutive (l : list Z) : Prop :=
  forall k a b, nth_error l k = Some a -> nth_error l (S k) = Some b -> b = a + 1.
(** The elements of a column-major tile in column order. *)
Definition tile_elements (ptr rows cols ld : Z) : list Z :=
  flat_map (fun j => map (fun i => ptr + (i + j * ld)) (zrange 0 rows)) (zrange 0 cols).

(** ** Lemmas *)
Lemma fold_left_ext_in : forall (A : Type) (f g : A -> Z -> A) l a,
  (forall m x, In x l -> f m x = g m x) -> fold_left f l a = fold_left g l a.
Proof.
  induction l as [|x l IH]; intros a H; cbn; [reflexivity|]. rewrite H by (left; auto). apply IH.
  intros. apply H. right. auto.
Qed.

Lemma zrange_shift : forall lo hi c, zrange (lo + c) (hi + c) = map (fun k => k + c) (zrange lo hi).
Proof.
  intros. unfold zrange. rewrite map_map. replace (hi + c - (lo + c)) with (hi - lo) by lia.
  apply map_ext. intros. lia.
Qed.

(** [n] blocks of [b]: the flattened index *)
Lemma blocks_flat : forall n b, 0 <= b -> 0 <= n ->
  flat_map (fun i => map (fun j => i * b + j) (zrange 0 b)) (zrange 0 n) = zrange 0 (n * b).
Proof.
  intros n b Hb Hn. pattern n. apply natlike_ind; [reflexivity| |exact Hn].
  intros k Hk IH. unfold Z.succ. rewrite zrange_snoc by lia. rewrite flat_map_app, IH. cbn [flat_map].
  rewrite app_nil_r. rewrite (zrange_app 0 (k * b) ((k + 1) * b)) by nia. f_equal.
  pose proof (zrange_shift 0 b (k * b)) as Z1. replace (0 + k * b) with (k * b) in Z1 by lia.
  replace (b + k * b) with ((k + 1) * b) in Z1 by lia. rewrite Z1. apply map_ext. intros. lia.
Qed.

Lemma fold_flat_map : forall (A B : Type) (f : A -> B -> A) (g : Z -> list B) l a,
  fold_left f (flat_map g l) a = fold_left (fun m i => fold_left f (g i) m) l a.
Proof. induction l as [|x l IH]; intros a; cbn; [reflexivity|]. rewrite fold_left_app. apply IH. Qed.
Lemma fold_map : forall (A B C : Type) (f : A -> C -> A) (g : B -> C) l a,
  fold_left f (map g l) a = fold_left (fun m i => f m (g i)) l a.
Proof. induction l as [|x l IH]; intros a; cbn; [reflexivity|]. apply IH. Qed.

(** nested loops as a single one *)
Lemma fold_blocks : forall (A : Type) (f : A -> Z -> A) n b m, 0 <= b -> 0 <= n ->
  fold_left (fun m i => fold_left (fun m j => f m (i * b + j)) (zrange 0 b) m) (zrange 0 n) m =
  fold_left f (zrange 0 (n * b)) m.
Proof.
  intros A f n b m Hb Hn. rewrite <- (blocks_flat n b) by assumption. rewrite fold_flat_map.
  apply fold_left_ext_in. intros m' i _. rewrite fold_map. reflexivity.
Qed.

Definition addr (ptr bs st k : Z) : Z := ptr + (k / bs * st + k mod bs).

Lemma flat_map_ext_in : forall (A B : Type) (f g : A -> list B) l,
  (forall x, In x l -> f x = g x) -> flat_map f l = flat_map g l.
Proof.
  induction l as [|x l IH]; intros H; cbn; [reflexivity|]. rewrite H by (left; auto).
  rewrite IH; auto. intros. apply H. right. auto.
Qed.

Lemma block_elements_flat : forall ptr nb bs st, 0 <= nb -> 0 <= bs ->
  block_elements ptr nb bs st = map (addr ptr bs st) (zrange 0 (nb * bs)).
Proof.
  intros ptr nb bs st Hn Hb. rewrite <- (blocks_flat nb bs) by assumption.
  unfold block_elements. rewrite !flat_map_concat_map, concat_map, map_map.
  f_equal. apply map_ext_in. intros i Hi. rewrite map_map.
  apply map_ext_in. intros j Hj. apply in_zrange in Hi, Hj. unfold addr.
  rewrite Z.div_add_l by lia. rewrite Z.div_small by lia.
  rewrite Z.add_comm with (n := i * bs), Z.mod_add by lia. rewrite Z.mod_small by lia. lia.
Qed.

Lemma block_elements_one : forall ptr n st, 0 <= n ->
  block_elements ptr 1 n st = map (fun k => ptr + k) (zrange 0 n).
Proof.
  intros. unfold block_elements. change (zrange 0 1) with [0]. cbn [flat_map]. rewrite app_nil_r.
  apply map_ext. intros. lia.
Qed.

Lemma block_elements_dense : forall ptr nb bs, 0 <= nb -> 0 <= bs ->
  block_elements ptr nb bs bs = block_elements ptr 1 (nb * bs) 0.
Proof.
  intros. rewrite block_elements_one by nia. rewrite block_elements_flat by lia. apply map_ext_in.
  intros k Hk. apply in_zrange in Hk. unfold addr. destruct (Z.eq_dec bs 0) as [-> | N]; [lia|].
  pose proof (Z.div_mod k bs N). lia.
Qed.

Lemma nodup_map_in : forall (f : Z -> Z) l,
  (forall x y, In x l -> In y l -> f x = f y -> x = y) -> NoDup l -> NoDup (map f l).
Proof.
  induction l as [|x l IH]; intros H N; cbn; constructor; inversion_clear N.
  - intros Hin. apply in_map_iff in Hin as (y & E & Hy). assert (y = x).
    { apply H; [right; auto | left; auto | auto]. }
    subst. contradiction.
  - apply IH; auto. intros. apply H; auto; right; auto.
Qed.

(** ** Descriptors *)
Lemma desc_make_inv : forall ptr nb bs st d, desc_make ptr nb bs st = Ok d ->
  0 <= nb /\ 0 <= bs /\ 0 <= st /\ d_ptr d = ptr /\ 0 <= d_nblocks d /\ 0 <= d_blocksize d /\ 0 <= d_stride d /\
  (is_contiguous d = true <-> d_nblocks d = 1).
Proof.
  intros ptr nb bs st d. unfold desc_make.
  destruct (0 <=? nb) eqn:E1; cbn [dlaf_assert bind]; [|discriminate].
  destruct (0 <=? bs) eqn:E2; cbn [dlaf_assert bind]; [|discriminate].
  destruct (0 <=? st) eqn:E3; cbn [dlaf_assert bind]; [|discriminate].
  apply Z.leb_le in E1, E2, E3.
  destruct (bs =? _) eqn:E4; intros H; inversion H; subst d; clear H; cbn [d_ptr d_nblocks d_blocksize d_stride].
  - unfold is_contiguous. cbn. repeat split; auto; nia.
  - apply Z.eqb_neq in E4. unfold is_contiguous. cbn [d_ptr d_nblocks d_blocksize d_stride].
    destruct (nb =? 1) eqn:E5.
    + apply Z.eqb_eq in E5. repeat split; auto; lia.
    + apply Z.eqb_neq in E5. cbn [orb]. rewrite Z.eqb_eq. repeat split; auto; lia.
Qed.

(** A descriptor covers exactly the requested elements in the requested order, and reports their number. *)
Theorem C39_descriptor_elements : forall ptr nb bs st d,
  desc_make ptr nb bs st = Ok d ->
  elements d = block_elements ptr nb bs st /\ desc_count d = Z.of_nat (length (elements d)).
Proof.
  intros ptr nb bs st d E. pose proof (desc_make_inv _ _ _ _ _ E) as (H1 & H2 & H3 & Hp & Hn & Hb & Hs & HC).
  split.
  - revert E. unfold desc_make, elements.
    apply Z.leb_le in H1 as L1. apply Z.leb_le in H2 as L2. apply Z.leb_le in H3 as L3.
    rewrite L1, L2, L3. cbn [dlaf_assert bind].
    destruct (bs =? _) eqn:E4; intros E; inversion E; subst d; clear E; cbn [d_ptr d_nblocks d_blocksize d_stride] in *.
    + apply Z.eqb_eq in E4. destruct (nb =? 1) eqn:E5.
      * apply Z.eqb_eq in E5. subst nb. rewrite Z.mul_1_l. rewrite !block_elements_one by lia. reflexivity.
      * subst st. symmetry. apply block_elements_dense; lia.
    + destruct (nb =? 1) eqn:E5; [|reflexivity]. apply Z.eqb_eq in E5. subst nb.
      rewrite !block_elements_one by lia. reflexivity.
  - unfold elements. rewrite block_elements_flat by lia. rewrite map_length, zrange_length.
    unfold desc_count. destruct (is_contiguous d); [|nia].
    assert (d_nblocks d = 1) by tauto. rewrite H. lia.
Qed.

(** Documented precondition: no element is listed twice. *)
Theorem C39_elements_distinct : forall ptr nb bs st d,
  desc_make ptr nb bs st = Ok d -> (nb <= 1 \/ bs <= st) -> NoDup (elements d).
Proof.
  intros ptr nb bs st d E P. destruct (C39_descriptor_elements _ _ _ _ _ E) as [-> _].
  apply desc_make_inv in E. destruct E as (H1 & H2 & H3 & _).
  rewrite block_elements_flat by lia. apply nodup_map_in; [|apply zrange_NoDup].
  intros x y Hx Hy. apply in_zrange in Hx, Hy. unfold addr. intros E.
  assert (B : 0 < bs) by nia.
  pose proof (Z.div_mod x bs ltac:(lia)). pose proof (Z.div_mod y bs ltac:(lia)).
  pose proof (Z.mod_pos_bound x bs B). pose proof (Z.mod_pos_bound y bs B).
  assert (0 <= x / bs) by (apply Z.div_pos; lia). assert (0 <= y / bs) by (apply Z.div_pos; lia).
  destruct P as [P | P].
  - assert (nb = 1) by nia. subst nb. rewrite !Z.div_small, !Z.mod_small in E by lia. lia.
  - assert (Q : x / bs = y / bs) by nia. nia.
Qed.

Lemma nth_map_z : forall (f : Z -> Z) n k, (Z.of_nat k < n) ->
  nth_error (map f (zrange 0 n)) k = Some (f (Z.of_nat k)).
Proof.
  intros. rewrite (map_nth_error f k (zrange 0 n) (d := Z.of_nat k)); [reflexivity|].
  rewrite <- (Nat2Z.id k) at 1. rewrite zrange_nth by lia. reflexivity.
Qed.

(** The contiguity test is exact: true exactly when the elements are consecutive in memory (data with at
    least one element). *)
Theorem C39_contiguity_exact : forall ptr nb bs st d,
  desc_make ptr nb bs st = Ok d -> (nb <= 1 \/ bs <= st) -> 0 < nb -> 0 < bs ->
  (is_contiguous d = true <-> consecutive (elements d)).
Proof.
  intros ptr nb bs st d E P N B. destruct (C39_descriptor_elements _ _ _ _ _ E) as [EL _].
  pose proof (desc_make_inv _ _ _ _ _ E) as (H1 & H2 & H3 & Hp & Hn & Hb & Hs & HC).
  split.
  - intros C. apply HC in C. unfold elements. rewrite C, block_elements_one by lia.
    intros k a b. intros Ka Kb.
    assert (L : Z.of_nat (S k) < d_blocksize d).
    { assert (nth_error (map (fun k => d_ptr d + k) (zrange 0 (d_blocksize d))) (S k) <> None) by congruence.
      apply nth_error_Some in H. rewrite map_length in H. pose proof (zrange_length 0 (d_blocksize d)). lia. }
    rewrite nth_map_z in Ka, Kb by lia. inversion Ka; inversion Kb; subst. lia.
  - intros C. rewrite EL in C. rewrite block_elements_flat in C by lia.
    destruct (is_contiguous d) eqn:IC; [reflexivity|]. exfalso.
    (* then nb >= 2 and st > bs *)
    assert (ND : nb <> 1 /\ st <> bs).
    { unfold desc_make in E. apply Z.leb_le in H1 as L1. apply Z.leb_le in H2 as L2. apply Z.leb_le in H3 as L3.
      rewrite L1, L2, L3 in E. cbn [dlaf_assert bind] in E.
      destruct (bs =? _) eqn:E4; inversion E; subst d; [discriminate IC|]. unfold is_contiguous in IC.
      cbn [d_nblocks d_stride d_blocksize] in IC. apply orb_false_iff in IC as [I1 I2].
      rewrite I1 in *. apply Z.eqb_neq in I1, I2. auto. }
    destruct ND as [ND1 ND2].
    specialize (C (Z.to_nat (bs - 1)) (addr ptr bs st (bs - 1)) (addr ptr bs st bs)).
    rewrite !nth_map_z in C by nia.
    replace (Z.of_nat (Z.to_nat (bs - 1))) with (bs - 1) in C by lia.
    replace (Z.of_nat (S (Z.to_nat (bs - 1)))) with bs in C by lia.
    specialize (C eq_refl eq_refl). unfold addr in C.
    rewrite (Z.div_small (bs - 1)), (Z.mod_small (bs - 1)), Z.div_same, Z.mod_same in C by lia. nia.
Qed.

(** A tile's descriptor covers exactly the tile elements, column by column. *)
Theorem C39_tile : forall ptr rows cols ld d,
  tile_desc ptr rows cols ld = Ok d ->
  elements d = tile_elements ptr rows cols ld /\ desc_count d = rows * cols.
Proof.
  intros ptr rows cols ld d E. unfold tile_desc in E.
  destruct (C39_descriptor_elements _ _ _ _ _ E) as [EL C]. split.
  - rewrite EL. unfold block_elements, tile_elements. apply flat_map_ext_in. intros j _.
    apply map_ext. intros i. lia.
  - rewrite C, EL. apply desc_make_inv in E. rewrite block_elements_flat by lia.
    rewrite map_length, zrange_length. nia.
Qed.

Lemma wrap32_id : forall z, 0 <= z <= i32_max -> wrap32 z = z.
Proof. intros. unfold wrap32, i32_max in *. rewrite Z.mod_small by lia. lia. Qed.

(** A message transfers exactly the elements of the descriptor, in order (when the numbers fit an int). *)
Theorem C39_message : forall ptr nb bs st d,
  desc_make ptr nb bs st = Ok d -> nb * bs <= i32_max -> nb <= i32_max -> bs <= i32_max -> st <= i32_max ->
  message_elements d = block_elements ptr nb bs st.
Proof.
  intros ptr nb bs st d E B1 B2 B3 B4.
  destruct (C39_descriptor_elements _ _ _ _ _ E) as [EL _]. rewrite <- EL.
  pose proof (desc_make_inv _ _ _ _ _ E) as (H1 & H2 & H3 & Hp & Hn & Hb & Hs & HC).
  assert (F : d_nblocks d <= i32_max /\ d_blocksize d <= i32_max /\ d_stride d <= i32_max).
  { unfold desc_make in E. apply Z.leb_le in H1 as L1. apply Z.leb_le in H2 as L2. apply Z.leb_le in H3 as L3.
    rewrite L1, L2, L3 in E. cbn [dlaf_assert bind] in E.
    destruct (bs =? _); inversion E; subst d; cbn [d_nblocks d_blocksize d_stride];
      destruct (nb =? 1); unfold i32_max in *; lia. }
  unfold message_elements, elements. rewrite !wrap32_id by lia.
  destruct (is_contiguous d) eqn:IC; [|reflexivity].
  assert (N : d_nblocks d = 1) by tauto. rewrite N, block_elements_one by lia. reflexivity.
Qed.

(** Refuted beyond int: a contiguous 65536 x 65536 tile is sent as an empty message in builds without
    moderate assertions. *)
Theorem C39_large_tile_refuted : exists d,
  tile_desc 0 65536 65536 65536 = Ok d /\ desc_count d = 2 ^ 32 /\ message_elements d = [].
Proof. eexists (Desc 0 1 (2 ^ 32) 0). split; [vm_compute; reflexivity|]. split; vm_compute; reflexivity. Qed.

(** ** copy *)
Section Copy.
Context {V : Type}.
Implicit Types (m : memory V).

(** Sequential element copies with addresses given by [D] and [S]. *)
Lemma fold_copy : forall (D S : Z -> Z) (l : list Z) m,
  NoDup (map D l) -> (forall x y, In x l -> In y l -> S x <> D y) ->
  let m' := fold_left (fun m k => store (D k) (m (S k)) m) l m in
  (forall k, In k l -> m' (D k) = m (S k)) /\ (forall a, ~ In a (map D l) -> m' a = m a).
Proof.
  intros D S l. induction l as [|x l IH] using rev_ind; intros m ND DJ m'.
  - split; [intros k []|auto].
  - rewrite map_app in ND. cbn [map] in ND.
    apply NoDup_remove in ND as [ND1 ND2]. rewrite app_nil_r in ND1, ND2.
    specialize (IH m ND1). cbn zeta in IH.
    destruct IH as [I1 I2]. { intros a b Ha Hb. apply DJ; apply in_or_app; auto. }
    unfold m'. rewrite fold_left_app. cbn [fold_left].
    set (m1 := fold_left (fun m k => store (D k) (m (S k)) m) l m) in *.
    assert (SX : m1 (S x) = m (S x)).
    { apply I2. intros Hin. apply in_map_iff in Hin as (y & Ey & Hy). symmetry in Ey. revert Ey.
      apply DJ; apply in_or_app; [right; left; auto | left; auto]. }
    split.
    + intros k Hk. apply in_app_or in Hk as [Hk | [<- | []]].
      * unfold store. destruct (D k =? D x) eqn:E; [|apply I1; exact Hk].
        apply Z.eqb_eq in E. exfalso. apply ND2. rewrite <- E. apply in_map. exact Hk.
      * unfold store. rewrite Z.eqb_refl. exact SX.
    + intros a Ha. rewrite map_app, in_app_iff in Ha. cbn [map In] in Ha. unfold store.
      destruct (a =? D x) eqn:E; [apply Z.eqb_eq in E; exfalso; apply Ha; right; left; auto|].
      apply I2. tauto.
Qed.

Lemma copy_is_fold : forall ps ns bs ss pd nd bd sd src dest m,
  desc_make ps ns bs ss = Ok src -> desc_make pd nd bd sd = Ok dest -> ns * bs = nd * bd ->
  copy src dest m =
  fold_left (fun m k => store (addr (d_ptr dest) (d_blocksize dest) (d_stride dest) k)
                              (m (addr (d_ptr src) (d_blocksize src) (d_stride src) k)) m)
            (zrange 0 (d_nblocks src * d_blocksize src)) m.
Proof.
  intros ps ns bs ss pd nd bd sd src dest m Es Ed EQ.
  pose proof (desc_make_inv _ _ _ _ _ Es) as (S1 & S2 & S3 & Sp & Sn & Sb & Ss & SC).
  pose proof (desc_make_inv _ _ _ _ _ Ed) as (D1 & D2 & D3 & Dp & Dn & Db & Ds & DC).
  assert (CS : d_nblocks src * d_blocksize src = ns * bs).
  { destruct (C39_descriptor_elements _ _ _ _ _ Es) as [E1 _].
    apply (f_equal (@length Z)) in E1. unfold elements in E1.
    rewrite !block_elements_flat, !map_length in E1 by lia.
    apply (f_equal Z.of_nat) in E1. rewrite !zrange_length in E1. nia. }
  assert (CD : d_nblocks dest * d_blocksize dest = nd * bd).
  { destruct (C39_descriptor_elements _ _ _ _ _ Ed) as [E1 _].
    apply (f_equal (@length Z)) in E1. unfold elements in E1.
    rewrite !block_elements_flat, !map_length in E1 by lia.
    apply (f_equal Z.of_nat) in E1. rewrite !zrange_length in E1. nia. }
  clear Es Ed. unfold copy, std_copy.
  destruct (is_contiguous dest) eqn:ID; destruct (is_contiguous src) eqn:IS; cbn [andb].
  - assert (ND : d_nblocks dest = 1) by tauto. assert (NS : d_nblocks src = 1) by tauto.
    rewrite NS, ND in *. rewrite Z.mul_1_l in *.
    apply fold_left_ext_in. intros m' k Hk. apply in_zrange in Hk. unfold addr.
    rewrite !Z.div_small, !Z.mod_small by lia. reflexivity.
  - assert (ND : d_nblocks dest = 1) by tauto. rewrite ND in *. rewrite Z.mul_1_l in CD.
    rewrite <- (fold_blocks _ _ (d_nblocks src) (d_blocksize src)) by assumption.
    apply fold_left_ext_in. intros m' i Hi. apply in_zrange in Hi.
    apply fold_left_ext_in. intros m'' j Hj. apply in_zrange in Hj. unfold addr.
    rewrite Z.div_add_l by lia. rewrite (Z.div_small j) by lia.
    rewrite (Z.add_comm (i * _) j), Z.mod_add by lia. rewrite (Z.mod_small j) by lia.
    rewrite (Z.div_small (j + _)), (Z.mod_small (j + _)) by nia. f_equal; [lia|]. f_equal. lia.
  - assert (NS : d_nblocks src = 1) by tauto. rewrite NS in *. rewrite Z.mul_1_l in CS.
    replace (1 * d_blocksize src) with (d_nblocks dest * d_blocksize dest) by lia.
    rewrite <- (fold_blocks _ _ (d_nblocks dest) (d_blocksize dest)) by assumption.
    apply fold_left_ext_in. intros m' i Hi. apply in_zrange in Hi.
    apply fold_left_ext_in. intros m'' j Hj. apply in_zrange in Hj. unfold addr.
    rewrite (Z.div_add_l i (d_blocksize dest) j) by lia. rewrite (Z.div_small j (d_blocksize dest)) by lia.
    rewrite (Z.add_comm (i * d_blocksize dest) j), (Z.mod_add j i) by lia. rewrite (Z.mod_small j (d_blocksize dest)) by lia.
    rewrite (Z.div_small (j + _)), (Z.mod_small (j + _)) by nia. f_equal; [lia|]. f_equal. lia.
  - assert (DCnt : desc_count src = d_nblocks src * d_blocksize src) by (unfold desc_count; rewrite IS; reflexivity).
    rewrite DCnt. apply fold_left_ext_in. intros m' k Hk. apply in_zrange in Hk. unfold addr.
    assert (0 < d_blocksize src) by nia. assert (0 < d_blocksize dest) by nia.
    rewrite !Z.quot_div_nonneg, !Z.rem_mod_nonneg by lia. reflexivity.
Qed.
End Copy.

(** Copying between two descriptors with the same number of elements: element number k of the destination
    gets element number k of the source, whatever the block structures; nothing else changes. *)
Theorem C39_copy : forall (V : Type) ps ns bs ss pd nd bd sd src dest (m : memory V),
  desc_make ps ns bs ss = Ok src -> desc_make pd nd bd sd = Ok dest ->
  ns * bs = nd * bd -> (nd <= 1 \/ bd <= sd) ->
  (forall a, In a (elements src) -> ~ In a (elements dest)) ->
  map (copy src dest m) (elements dest) = map m (elements src) /\
  (forall a, ~ In a (elements dest) -> copy src dest m a = m a).
Proof.
  intros V ps ns bs ss pd nd bd sd src dest m Es Ed EQ P DJ.
  pose proof (C39_elements_distinct _ _ _ _ _ Ed P) as ND.
  rewrite (copy_is_fold ps ns bs ss pd nd bd sd src dest m Es Ed EQ).
  destruct (C39_descriptor_elements _ _ _ _ _ Es) as [ELs Cs].
  destruct (C39_descriptor_elements _ _ _ _ _ Ed) as [ELd Cd].
  pose proof (desc_make_inv _ _ _ _ _ Es) as (S1 & S2 & S3 & Sp & Sn & Sb & Ss & SC).
  pose proof (desc_make_inv _ _ _ _ _ Ed) as (D1 & D2 & D3 & Dp & Dn & Db & Ds & DC).
  assert (LN : d_nblocks src * d_blocksize src = d_nblocks dest * d_blocksize dest).
  { assert (A : Z.of_nat (length (elements src)) = ns * bs).
    { rewrite ELs, block_elements_flat, map_length, zrange_length by lia. nia. }
    assert (B : Z.of_nat (length (elements dest)) = nd * bd).
    { rewrite ELd, block_elements_flat, map_length, zrange_length by lia. nia. }
    unfold elements in A, B. rewrite block_elements_flat, map_length, zrange_length in A, B by lia. nia. }
  assert (Fs : elements src = map (addr (d_ptr src) (d_blocksize src) (d_stride src)) (zrange 0 (d_nblocks src * d_blocksize src))).
  { unfold elements. apply block_elements_flat; lia. }
  assert (Fd : elements dest = map (addr (d_ptr dest) (d_blocksize dest) (d_stride dest)) (zrange 0 (d_nblocks src * d_blocksize src))).
  { unfold elements. rewrite LN. apply block_elements_flat; lia. }
  rewrite Fs, Fd in *.
  destruct (fold_copy (addr (d_ptr dest) (d_blocksize dest) (d_stride dest))
             (addr (d_ptr src) (d_blocksize src) (d_stride src)) (zrange 0 (d_nblocks src * d_blocksize src)) m ND) as [F1 F2].
  { intros x y Hx Hy E. apply (DJ (addr (d_ptr src) (d_blocksize src) (d_stride src) x)).
    - apply in_map. exact Hx.
    - rewrite E. apply in_map. exact Hy. }
  split; [|exact F2]. rewrite !map_map. apply map_ext_in. intros k Hk. apply F1. exact Hk.
Qed.

(** In-place reduction on the collecting rank: element number k of the data becomes the reduction of
    element k, also for non-contiguous data; only the data (and the temporary buffer) change. *)
Theorem C39_reduce_in_place : forall (V : Type) (reduce : Z -> V -> V) ptr nb bs st d buf (m : memory V),
  desc_make ptr nb bs st = Ok d -> (nb <= 1 \/ bs <= st) -> nb * bs <= i32_max ->
  (forall k, 0 <= k < nb * bs -> ~ In (buf + k) (elements d)) ->
  let m' := reduce_recv_in_place reduce d buf m in
  (forall k a, nth_error (elements d) k = Some a -> m' a = reduce (Z.of_nat k) (m a)) /\
  (forall a, ~ In a (elements d) -> (forall k, 0 <= k < nb * bs -> a <> buf + k) -> m' a = m a).
Proof.
  intros V reduce ptr nb bs st d buf m E P BIG DJ m'.
  pose proof (desc_make_inv _ _ _ _ _ E) as (S1 & S2 & S3 & Sp & Sn & Sb & Ss & SC).
  pose proof (C39_elements_distinct _ _ _ _ _ E P) as ND.
  destruct (C39_descriptor_elements _ _ _ _ _ E) as [EL CN].
  assert (LN : Z.of_nat (length (elements d)) = nb * bs).
  { rewrite EL, block_elements_flat, map_length, zrange_length by lia. nia. }
  unfold m', reduce_recv_in_place, make_contiguous.
  (* pointwise update of [n] consecutive elements *)
  assert (UPD : forall p n (m1 : memory V), 0 <= n ->
    let m2 := fold_left (fun acc k => store (p + k) (reduce k (m1 (p + k))) acc) (zrange 0 n) m1 in
    (forall k, 0 <= k < n -> m2 (p + k) = reduce k (m1 (p + k))) /\
    (forall a, (forall k, 0 <= k < n -> a <> p + k) -> m2 a = m1 a)).
  { intros p n m1 Hn. pattern n. apply natlike_ind; [split; [lia | reflexivity] | | exact Hn].
    intros k Hk [I1 I2]. unfold Z.succ. cbn zeta. rewrite zrange_snoc by lia. rewrite fold_left_app. cbn [fold_left].
    split.
    - intros x Hx. unfold store. destruct (p + x =? p + k) eqn:Q.
      + apply Z.eqb_eq in Q. replace x with k by lia. reflexivity.
      + apply Z.eqb_neq in Q. apply I1. lia.
    - intros a Ha. unfold store. destruct (a =? p + k) eqn:Q.
      + apply Z.eqb_eq in Q. exfalso. apply (Ha k); [lia | auto].
      + apply I2. intros. apply Ha. lia. }
  destruct (is_contiguous d) eqn:IC; cbn [negb].
  - assert (N : d_nblocks d = 1) by tauto.
    assert (EL2 : elements d = map (fun k => d_ptr d + k) (zrange 0 (d_blocksize d))).
    { unfold elements. rewrite N. apply block_elements_one. lia. }
    assert (BN : d_blocksize d = nb * bs).
    { rewrite EL2, map_length, zrange_length in LN. lia. }
    rewrite wrap32_id by lia. destruct (UPD (d_ptr d) (d_blocksize d) m Sb) as [U1 U2]. split.
    + intros k a Ka.
      assert (L : Z.of_nat k < d_blocksize d).
      { assert (nth_error (elements d) k <> None) by congruence. apply nth_error_Some in H. lia. }
      rewrite EL2, nth_map_z in Ka by lia. inversion Ka; subst a. apply U1. lia.
    + intros a Ha _. apply U2. intros k Hk ->. apply Ha. rewrite EL2. apply in_map_iff. exists k.
      rewrite in_zrange. auto.
  - assert (CNT : desc_count d = nb * bs) by lia. rewrite CNT.
    set (b := Desc buf 1 (nb * bs) 0).
    assert (Eb : desc_make buf 1 (nb * bs) 0 = Ok b).
    { unfold desc_make. replace (0 <=? nb * bs) with true by (symmetry; apply Z.leb_le; nia). cbn [Z.leb Z.compare dlaf_assert bind].
      change (1 =? 1) with true. cbn iota. destruct (nb * bs =? 0) eqn:Q; [|reflexivity].
      unfold b. rewrite Z.mul_1_l. reflexivity. }
    assert (ELb : elements b = map (fun k => buf + k) (zrange 0 (nb * bs))).
    { unfold elements, b. cbn [d_ptr d_nblocks d_blocksize d_stride]. apply block_elements_one. nia. }
    assert (DJ1 : forall a, In a (elements d) -> ~ In a (elements b)).
    { intros a Ha Hb. rewrite ELb in Hb. apply in_map_iff in Hb as (k & <- & Hk). apply in_zrange in Hk.
      exact (DJ k Hk Ha). }
    destruct (C39_copy V ptr nb bs st buf 1 (nb * bs) 0 d b m E Eb ltac:(lia) ltac:(lia) DJ1) as [C1 C2].
    set (m1 := copy d b m) in *. cbn [d_blocksize d_ptr b].
    rewrite wrap32_id by nia.
    destruct (UPD buf (nb * bs) m1 ltac:(nia)) as [U1 U2].
    set (m2 := fold_left (fun acc k => store (buf + k) (reduce k (m1 (buf + k))) acc) (zrange 0 (nb * bs)) m1) in *.
    destruct (C39_copy V buf 1 (nb * bs) 0 ptr nb bs st b d m2 Eb E ltac:(lia) P) as [C3 C4].
    { intros a Ha Hb. exact (DJ1 a Hb Ha). }
    split.
    + intros k a Ka.
      assert (L : Z.of_nat k < nb * bs).
      { assert (nth_error (elements d) k <> None) by congruence. apply nth_error_Some in H. lia. }
      assert (Kb : nth_error (elements b) k = Some (buf + Z.of_nat k)) by (rewrite ELb, nth_map_z by lia; reflexivity).
      apply (f_equal (fun l => nth_error l k)) in C1, C3.
      rewrite (map_nth_error _ _ _ Ka) in C3. rewrite (map_nth_error _ _ _ Kb) in C3.
      rewrite (map_nth_error _ _ _ Ka) in C1. rewrite (map_nth_error _ _ _ Kb) in C1.
      inversion C3 as [C3']. inversion C1 as [C1']. rewrite C3', U1, C1' by lia. reflexivity.
    + intros a Ha Hbuf. rewrite C4 by exact Ha. rewrite U2 by (intros; apply Hbuf; lia). apply C2.
      rewrite ELb. intros Hin. apply in_map_iff in Hin as (k & Ek & Hk). apply in_zrange in Hk.
      apply (Hbuf k Hk). auto.
Qed.

(** Concrete cases *)
Example C39_example : exists d e,
  tile_desc 10 2 3 4 = Ok d /\ elements d = [10; 11; 14; 15; 18; 19] /\ is_contiguous d = false /\
  message_elements d = [10; 11; 14; 15; 18; 19] /\
  tile_desc 100 3 2 5 = Ok e /\ elements e = [100; 101; 102; 105; 106; 107] /\
  map (copy d e (fun a => a)) (elements e) = [10; 11; 14; 15; 18; 19] /\
  map (reduce_recv_in_place (fun k v => v * 100 + k) d 1000 (fun a => a)) [9; 10; 11; 12; 13; 14; 15] =
    [9; 1000; 1101; 12; 13; 1402; 1503].
Proof. exists (Desc 10 3 2 4), (Desc 100 2 3 5). repeat split; vm_compute; reflexivity. Qed.

(** ** Assumptions *)
Print Assumptions C39_descriptor_elements.
Print Assumptions C39_elements_distinct.
Print Assumptions C39_contiguity_exact.
Print Assumptions C39_tile.
Print Assumptions C39_message.
Print Assumptions C39_large_tile_refuted.
Print Assumptions C39_copy.
Print Assumptions C39_reduce_in_place.
