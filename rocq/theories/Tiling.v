(** * Matrices cut into tiles. *)
From Coq Require Import ZArith Lia List Bool.
From Verif Require Import Loop StarField DenseSpec.
Import ListNotations.
Local Open Scope Z_scope.

(** One axis: the number of tiles and the size of each tile (first and last tile may be smaller:
    matrix/distribution.h tile_size_of; Properties_Distribution C04 shows that the tiles of a
    Distribution cut its axis in consecutive non-empty pieces). *)
Record tiling := Tiling { tl_n : Z; tl_sz : Z -> Z }.
Definition tiling_ok (t : tiling) : Prop := 0 <= tl_n t /\ forall k, 0 <= k < tl_n t -> 0 < tl_sz t k.
(** index of the first element of tile k; size of the axis *)
Definition tl_off (t : tiling) (k : Z) : Z := fold_right Z.add 0 (map (tl_sz t) (zrange 0 k)).
Definition tl_size (t : tiling) : Z := tl_off t (tl_n t).
(** tile of an element *)
Definition tl_tile (t : tiling) (a : Z) : Z :=
  Z.of_nat (length (filter (fun k => tl_off t k <=? a) (zrange 1 (tl_n t)))).

Section one.
Context (t : tiling) (OK : tiling_ok t).
Let n := tl_n t.
Lemma fold_add_app : forall a b, fold_right Z.add 0 (a ++ b) = fold_right Z.add 0 a + fold_right Z.add 0 b.
Proof. induction a as [|x a IH]; intros b; cbn; [reflexivity|]. rewrite IH. lia. Qed.
Lemma off_0 : tl_off t 0 = 0.
Proof. unfold tl_off. rewrite zrange_nil by lia. reflexivity. Qed.
Lemma off_succ : forall k, 0 <= k -> tl_off t (k + 1) = tl_off t k + tl_sz t k.
Proof.
  intros k L. unfold tl_off. rewrite zrange_snoc by lia. rewrite map_app, fold_add_app. cbn. lia.
Qed.
Lemma off_le : forall j k, 0 <= j <= k -> k <= n -> tl_off t j <= tl_off t k.
Proof.
  intros j k L L2. remember (Z.to_nat (k - j)) as d eqn:E. revert k L L2 E. induction d as [|d IH]; intros k L L2 E.
  - assert (k = j) as -> by lia. lia.
  - replace k with (k - 1 + 1) by lia. rewrite off_succ by lia. specialize (IH (k - 1)). destruct OK as [_ P].
    specialize (P (k - 1)). unfold n in *. lia.
Qed.
Lemma off_lt : forall j k, 0 <= j < k -> k <= n -> tl_off t j + tl_sz t j <= tl_off t k.
Proof. intros j k L L2. rewrite <- off_succ by lia. apply off_le; lia. Qed.
Lemma off_nonneg : forall k, 0 <= k <= n -> 0 <= tl_off t k.
Proof. intros k L. rewrite <- off_0. apply off_le; lia. Qed.
Lemma elem_bound : forall k p, 0 <= k < n -> 0 <= p < tl_sz t k -> 0 <= tl_off t k + p < tl_size t.
Proof.
  intros k p L P. unfold tl_size. fold n. pose proof (off_nonneg k). pose proof (off_lt k n). lia.
Qed.
Lemma tile_unique : forall k p k' p', 0 <= k < n -> 0 <= k' < n -> 0 <= p < tl_sz t k -> 0 <= p' < tl_sz t k' ->
  tl_off t k + p = tl_off t k' + p' -> k = k' /\ p = p'.
Proof.
  intros k p k' p' L L' P P' E. destruct (Z.lt_total k k') as [Q|[Q|Q]].
  - pose proof (off_lt k k'). lia.
  - subst k'. lia.
  - pose proof (off_lt k' k). lia.
Qed.
Lemma tile_order : forall k p k' p', 0 <= k < n -> 0 <= k' < n -> 0 <= p < tl_sz t k -> 0 <= p' < tl_sz t k' -> k < k' ->
  tl_off t k + p < tl_off t k' + p'.
Proof. intros k p k' p' L L' P P' Q. pose proof (off_lt k k'). lia. Qed.
Lemma elem_split : forall a, 0 <= a < tl_size t -> exists k p, 0 <= k < n /\ 0 <= p < tl_sz t k /\ a = tl_off t k + p.
Proof.
  intros a La. unfold tl_size in La. fold n in La.
  assert (H : forall m, 0 <= m <= n -> a < tl_off t m -> exists k p, 0 <= k < n /\ 0 <= p < tl_sz t k /\ a = tl_off t k + p).
  { intros m Lm. remember (Z.to_nat m) as d eqn:E. revert m Lm E. induction d as [|d IH]; intros m Lm E Q.
    - assert (m = 0) as -> by lia. rewrite off_0 in Q. lia.
    - destruct (Z.lt_ge_cases a (tl_off t (m - 1))) as [X|X]; [apply (IH (m - 1)); lia|].
      exists (m - 1), (a - tl_off t (m - 1)). pose proof (off_succ (m - 1)). replace (m - 1 + 1) with m in * by lia. lia. }
  apply (H n); [|lia]. destruct OK. unfold n. lia.
Qed.
Lemma tile_of_elem : forall k p, 0 <= k < n -> 0 <= p < tl_sz t k -> tl_tile t (tl_off t k + p) = k.
Proof.
  intros k p L P. unfold tl_tile. fold n.
  rewrite (zrange_app 1 (k + 1) n) by lia. rewrite filter_app, app_length.
  assert (A : filter (fun j => tl_off t j <=? tl_off t k + p) (zrange 1 (k + 1)) = zrange 1 (k + 1)).
  { assert (G : forall l, (forall j, In j l -> tl_off t j <= tl_off t k + p) -> filter (fun j => tl_off t j <=? tl_off t k + p) l = l).
    { induction l as [|x l IH]; intros Q; cbn; [reflexivity|]. rewrite (proj2 (Z.leb_le _ _) (Q x (or_introl eq_refl))), IH; auto.
      intros j Ij. apply Q. right. exact Ij. }
    apply G. intros j Ij. apply in_zrange in Ij. pose proof (off_le j k). lia. }
  assert (B : filter (fun j => tl_off t j <=? tl_off t k + p) (zrange (k + 1) n) = []).
  { assert (G : forall l, (forall j, In j l -> tl_off t k + p < tl_off t j) -> filter (fun j => tl_off t j <=? tl_off t k + p) l = []).
    { induction l as [|x l IH]; intros Q; cbn; [reflexivity|]. rewrite (proj2 (Z.leb_gt _ _) (Q x (or_introl eq_refl))), IH; auto.
      intros j Ij. apply Q. right. exact Ij. }
    apply G. intros j Ij. apply in_zrange in Ij. pose proof (off_lt k j). lia. }
  rewrite A, B. cbn [length]. rewrite Nat.add_0_r, zrange_length. lia.
Qed.
End one.

Section tiles.
Context {K : starfield}.
Local Open Scope sf_scope.
(** A sum over the elements is a sum over the tiles of the sums inside the tiles. *)
Lemma fsum_tiles_upto : forall t (f : Z -> F K) m, tiling_ok t -> (0 <= m <= tl_n t)%Z ->
  fsum 0 (tl_off t m) f = fsum 0 m (fun k => fsum 0 (tl_sz t k) (fun r => f (tl_off t k + r)%Z)).
Proof.
  intros t f m OK L. remember (Z.to_nat m) as d eqn:E. revert m L E. induction d as [|d IH]; intros m L E.
  - assert (m = 0)%Z as -> by lia. rewrite off_0, !fsum_nil by lia. reflexivity.
  - replace m with (m - 1 + 1)%Z by lia. rewrite fsum_snoc by lia. rewrite <- IH by lia.
    rewrite off_succ by lia. rewrite (fsum_app 0 (tl_off t (m - 1))).
    + f_equal. replace (tl_off t (m - 1))%Z with (0 + tl_off t (m - 1))%Z at 1 by lia.
      replace (tl_off t (m - 1) + tl_sz t (m - 1))%Z with (tl_sz t (m - 1) + tl_off t (m - 1))%Z by lia.
      rewrite fsum_shift. apply fsum_ext. intros i _. f_equal. lia.
    + pose proof (off_nonneg t OK (m - 1)). destruct OK as [_ P]. specialize (P (m - 1)%Z). lia.
Qed.
Lemma fsum_tiles : forall t (f : Z -> F K), tiling_ok t ->
  fsum 0 (tl_size t) f = fsum 0 (tl_n t) (fun k => fsum 0 (tl_sz t k) (fun r => f (tl_off t k + r)%Z)).
Proof. intros t f OK. apply fsum_tiles_upto; [exact OK|]. destruct OK. lia. Qed.

(** The matrix whose tile (i, j) is tiles i j. *)
Definition gather (tr tc : tiling) (tiles : Z -> Z -> mat K) : mat K := fun a b =>
  tiles (tl_tile tr a) (tl_tile tc b) (a - tl_off tr (tl_tile tr a))%Z (b - tl_off tc (tl_tile tc b))%Z.
Lemma gather_at : forall tr tc tiles i j p q, tiling_ok tr -> tiling_ok tc ->
  (0 <= i < tl_n tr)%Z -> (0 <= j < tl_n tc)%Z -> (0 <= p < tl_sz tr i)%Z -> (0 <= q < tl_sz tc j)%Z ->
  gather tr tc tiles (tl_off tr i + p)%Z (tl_off tc j + q)%Z = tiles i j p q.
Proof.
  intros tr tc tiles i j p q R C Li Lj Lp Lq. unfold gather. rewrite !tile_of_elem by assumption. f_equal; lia.
Qed.
(** tile (i, j) of a matrix *)
Definition cut (tr tc : tiling) (A : mat K) (i j : Z) : mat K := fun p q => A (tl_off tr i + p)%Z (tl_off tc j + q)%Z.

(** Equality of matrices can be checked tile by tile. *)
Lemma meq_tiles : forall tr tc (A B : mat K), tiling_ok tr -> tiling_ok tc ->
  (forall i j p q, (0 <= i < tl_n tr)%Z -> (0 <= j < tl_n tc)%Z -> (0 <= p < tl_sz tr i)%Z -> (0 <= q < tl_sz tc j)%Z ->
     A (tl_off tr i + p)%Z (tl_off tc j + q)%Z = B (tl_off tr i + p)%Z (tl_off tc j + q)%Z) ->
  meq (tl_size tr) (tl_size tc) A B.
Proof.
  intros tr tc A B R C E a b La Lb. destruct (elem_split tr R a La) as (i & p & Li & Lp & ->).
  destruct (elem_split tc C b Lb) as (j & q & Lj & Lq & ->). apply E; assumption.
Qed.

(** triangles, tile by tile *)
Lemma in_tri_tiles : forall t u i j p q, tiling_ok t ->
  (0 <= i < tl_n t)%Z -> (0 <= j < tl_n t)%Z -> (0 <= p < tl_sz t i)%Z -> (0 <= q < tl_sz t j)%Z ->
  in_tri u (tl_off t i + p) (tl_off t j + q) = if (i =? j)%Z then in_tri u p q else in_tri u i j.
Proof.
  intros t u i j p q OK Li Lj Lp Lq. destruct (Z.eqb_spec i j) as [->|N].
  - destruct u; cbn [in_tri].
    + destruct (Z.leb_spec q p), (Z.leb_spec (tl_off t j + q) (tl_off t j + p)); try reflexivity; lia.
    + destruct (Z.leb_spec p q), (Z.leb_spec (tl_off t j + p) (tl_off t j + q)); try reflexivity; lia.
  - destruct (Z.lt_total i j) as [Q|[Q|Q]]; [|contradiction|].
    + pose proof (tile_order t OK i p j q). destruct u; cbn [in_tri];
      [destruct (Z.leb_spec j i), (Z.leb_spec (tl_off t j + q) (tl_off t i + p))|
       destruct (Z.leb_spec i j), (Z.leb_spec (tl_off t i + p) (tl_off t j + q))]; try reflexivity; lia.
    + pose proof (tile_order t OK j q i p). destruct u; cbn [in_tri];
      [destruct (Z.leb_spec j i), (Z.leb_spec (tl_off t j + q) (tl_off t i + p))|
       destruct (Z.leb_spec i j), (Z.leb_spec (tl_off t i + p) (tl_off t j + q))]; try reflexivity; lia.
Qed.
(** the tiles of the triangular / Hermitian matrix *)
Definition trim_tile (u : uplo) (d : diag) (tiles : Z -> Z -> mat K) (i j : Z) : mat K :=
  if (i =? j)%Z then trim u d (tiles i j) else if in_tri u i j then tiles i j else fun _ _ => 0.
Definition herm_tile (u : uplo) (tiles : Z -> Z -> mat K) (i j : Z) : mat K :=
  if (i =? j)%Z then herm u (tiles i j) else if in_tri u i j then tiles i j else opm ConjTrans (tiles j i).
Lemma trim_tiles : forall t u d tiles i j p q, tiling_ok t ->
  (0 <= i < tl_n t)%Z -> (0 <= j < tl_n t)%Z -> (0 <= p < tl_sz t i)%Z -> (0 <= q < tl_sz t j)%Z ->
  trim u d (gather t t tiles) (tl_off t i + p)%Z (tl_off t j + q)%Z = trim_tile u d tiles i j p q.
Proof.
  intros t u d tiles i j p q OK Li Lj Lp Lq. unfold trim, trim_tile. rewrite in_tri_tiles by assumption. rewrite gather_at by assumption.
  destruct (Z.eqb_spec i j) as [->|N].
  - unfold trim. destruct (Z.eqb_spec (tl_off t j + p) (tl_off t j + q)), (Z.eqb_spec p q); try lia; reflexivity.
  - destruct (Z.eqb_spec (tl_off t i + p) (tl_off t j + q)) as [E|_]; [|destruct (in_tri u i j); reflexivity].
    apply tile_unique in E; try assumption. tauto.
Qed.
Lemma herm_tiles : forall t u tiles i j p q, tiling_ok t ->
  (0 <= i < tl_n t)%Z -> (0 <= j < tl_n t)%Z -> (0 <= p < tl_sz t i)%Z -> (0 <= q < tl_sz t j)%Z ->
  herm u (gather t t tiles) (tl_off t i + p)%Z (tl_off t j + q)%Z = herm_tile u tiles i j p q.
Proof.
  intros t u tiles i j p q OK Li Lj Lp Lq. unfold herm, herm_tile. rewrite in_tri_tiles by assumption. rewrite !gather_at by assumption.
  destruct (Z.eqb_spec i j) as [->|N]; [reflexivity|]. unfold opm. destruct (in_tri u i j); reflexivity.
Qed.
End tiles.
