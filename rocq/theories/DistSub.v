(** Proofs relating a distribution to its sub-distributions, and 2D wrappers. *)
From Coq Require Import ZArith Lia Bool List Znumtheory.
From Verif Require Import CInt DistModel DistSpec DivLemmas DistProofs DistProofs2 DistBuilt DistThms DistCtor.
Open Scope Z_scope.

Lemma count_split : forall P m n, 0 <= m -> 0 <= n ->
  count P (m + n) = count P m + count (fun j => P (m + j)) n.
Proof.
  intros P m n Hm Hn. symmetry.
  assert (X : forall k, count P m + count (fun j => P (m + j)) (Z.of_nat k) = count P (m + Z.of_nat k)).
  { induction k.
    - rewrite (count_0 _ (Z.of_nat 0)) by lia. rewrite Z.add_0_r. f_equal. lia.
    - rewrite Nat2Z.inj_succ. replace (Z.succ (Z.of_nat k)) with (Z.of_nat k + 1) by lia.
      rewrite count_succ by lia. rewrite (Z.add_assoc m), (count_succ P) by lia. lia. }
  specialize (X (Z.to_nat n)). rewrite Z2Nat.id in X by lia. exact X.
Qed.

Lemma window_owner : forall L o s e, owner (window L o s) e = owner L (o + e).
Proof. intros. unfold owner, window. cbn. rewrite Z.add_assoc. reflexivity. Qed.
Lemma window_tile_of : forall L o s e, tile_of (window L o s) e = tile_of L (o + e) - tile_of L o.
Proof. intros. unfold tile_of, window. cbn. rewrite !Z.add_assoc. lia. Qed.
Lemma window_tile_owner : forall L o s t, tile_owner (window L o s) t = tile_owner L (tile_of L o + t).
Proof.
  intros. unfold tile_owner, tile_of, window. cbn. do 4 f_equal. lia.
Qed.

Section sub.
Context (r : Z) (L : layout) (o s : Z) (a b : axis).
Hypothesis Ma : models r L a.
Hypothesis Mb : models r (window L o s) b.
Hypothesis Ho : 0 <= o.
Hypothesis Hs : 0 <= s.
Hypothesis Hin : o + s <= l_size L.

Lemma tile_of_nn : forall e, 0 <= e -> 0 <= tile_of L e.
Proof.
  intros e He. rewrite <- (m_tile_of _ _ _ Ma). apply tile_of_nonneg; [apply Ma|assumption].
Qed.

Lemma sub_owner : forall e, 0 <= e ->
  ax_rank_global_element b e = ax_rank_global_element a (o + e).
Proof.
  intros e He. rewrite (proj1 (T_owner _ _ _ Mb e He)), (proj1 (T_owner _ _ _ Ma (o + e) ltac:(lia))).
  apply window_owner.
Qed.

Lemma sub_gtile : forall e, 0 <= e < s ->
  ax_global_tile_from_global_element b e =
  ax_global_tile_from_global_element a (o + e) - ax_global_tile_from_global_element a o.
Proof.
  intros e He.
  destruct (T_elem_to_tile _ _ _ Mb e ltac:(cbn; lia)) as (-> & _).
  destruct (T_elem_to_tile _ _ _ Ma (o + e) ltac:(lia)) as (-> & _).
  destruct (T_elem_to_tile _ _ _ Ma o ltac:(lia)) as (-> & _).
  apply window_tile_of.
Qed.

Lemma sub_tile_owner : forall t, 0 <= t -> 0 < s ->
  ax_rank_global_tile b t = ax_rank_global_tile a (ax_global_tile_from_global_element a o + t).
Proof.
  intros t Ht H0s.
  destruct (T_elem_to_tile _ _ _ Ma o ltac:(lia)) as (E & T & _). rewrite E in *.
  rewrite (T_tile_owner _ _ _ Mb t Ht), (T_tile_owner _ _ _ Ma) by lia.
  apply window_tile_owner.
Qed.

Lemma sub_local_tile : forall t, 0 <= t -> 0 < s ->
  let T0 := ax_global_tile_from_global_element a o in
  ax_local_tile_from_global_tile b t =
    (if ax_rank_global_tile a (T0 + t) =? r
     then ax_local_tile_from_global_tile a (T0 + t) - ax_next_local_tile_from_global_tile a T0 else -1) /\
  ax_next_local_tile_from_global_tile b t =
    ax_next_local_tile_from_global_tile a (T0 + t) - ax_next_local_tile_from_global_tile a T0.
Proof.
  intros t Ht H0s T0.
  destruct (T_elem_to_tile _ _ _ Ma o ltac:(lia)) as (E & T & _). fold T0 in E, T.
  assert (C : count (tile_owned L r) (T0 + t) = count (tile_owned L r) T0 + count (tile_owned (window L o s) r) t).
  { rewrite count_split by lia. f_equal. apply count_ext. intros j Hj. unfold tile_owned.
    rewrite window_tile_owner, <- E. reflexivity. }
  split.
  - rewrite (T_local_tile _ _ _ Mb t Ht), (T_local_tile _ _ _ Ma), (T_next_local _ _ _ Ma), (T_tile_owner _ _ _ Ma) by lia.
    rewrite window_tile_owner, <- E. destruct (tile_owner L (T0 + t) =? r); [lia|reflexivity].
  - rewrite (T_next_local _ _ _ Mb t Ht), !(T_next_local _ _ _ Ma) by lia. lia.
Qed.

(** The tiles of the sub-distribution are the parent tiles that meet the window. *)
Lemma sub_tiles : forall t, 0 < s ->
  (0 <= t < ax_nr_tiles b <->
   exists e, o <= e < o + s /\ ax_global_tile_from_global_element a e = ax_global_tile_from_global_element a o + t).
Proof.
  intros t H0s. rewrite <- (m_is_tile _ _ _ Mb). unfold is_tile. cbn [window l_size].
  destruct (T_elem_to_tile _ _ _ Ma o ltac:(lia)) as (E0 & _).
  split.
  - intros (e & He & Et). exists (o + e). split; [lia|].
    destruct (T_elem_to_tile _ _ _ Ma (o + e) ltac:(lia)) as (-> & _). rewrite E0.
    change (Layout s (l_block L) (l_tile L) (l_grid L) (l_src L) (l_off L + o)) with (window L o s) in Et.
    rewrite window_tile_of in Et. lia.
  - intros (e & He & Et). exists (e - o). split; [lia|].
    change (tile_of (window L o s) (e - o) = t). rewrite window_tile_of.
    replace (o + (e - o)) with e by lia.
    destruct (T_elem_to_tile _ _ _ Ma e ltac:(lia)) as (E1 & _). rewrite E1, E0 in Et. lia.
Qed.

(** Offset of a sub tile inside the parent tile it comes from. *)
Lemma sub_tile_elem : forall e, 0 <= e < s ->
  ax_tile_element_from_global_element a (o + e) =
  (if ax_global_tile_from_global_element b e =? 0 then ax_tile_element_from_global_element a o else 0)
  + ax_tile_element_from_global_element b e.
Proof.
  intros e He.
  assert (TE : forall (r : Z) L a, models r L a -> forall e, 0 <= e < l_size L ->
     ax_tile_element_from_global_element a e = e - first_of_tile L (tile_of L e)).
  { clear. intros r L a M e He. rewrite <- (m_tile_of _ _ _ M), <- (m_first _ _ _ M).
    apply tile_element_spec; [apply M|lia]. }
  rewrite (TE _ _ _ Ma (o + e) ltac:(lia)), (TE _ _ _ Mb e ltac:(cbn; lia)).
  destruct (T_elem_to_tile _ _ _ Mb e ltac:(cbn; lia)) as (Eb & Tb & _). rewrite Eb in *.
  rewrite window_tile_of in *.
  rewrite (TE _ _ _ Ma o ltac:(lia)).
  pose proof (m_ok _ _ _ Ma) as []. pose proof (tile_of_nn o Ho) as N0. pose proof (tile_of_nn (o + e) ltac:(lia)) as N1.
  unfold first_of_tile, tile_of in *. cbn [window l_off l_tile] in *.
  set (t0 := l_off L / l_tile L) in *. set (t1 := (l_off L + o) / l_tile L) in *.
  set (t2 := (l_off L + (o + e)) / l_tile L) in *.
  replace (t0 + (t2 - t0)) with t2 by lia. replace (t0 + (t1 - t0)) with t1 by lia.
  replace (t1 + (t2 - t0 - (t1 - t0))) with t2 by lia.
  destruct (div_mod_dec (l_off L + (o + e)) (l_tile L) lo_tile) as [D2 R2]. fold t2 in D2.
  destruct (div_mod_dec (l_off L + o) (l_tile L) lo_tile) as [D1 R1]. fold t1 in D1.
  destruct (Z.eqb_spec (t2 - t0 - (t1 - t0)) 0) as [Z0|Z0].
  - assert (t2 = t1) as -> by lia. lia.
  - assert (t1 < t2) by lia. assert (t1 * l_tile L + l_tile L <= t2 * l_tile L) by nia. lia.
Qed.
End sub.

(** sub_distribution succeeded: the window is inside. *)
Lemma sub_ok_in : forall d origin size d', sub_distribution d origin size = Ok d' ->
  forall rc, 0 <= sel rc origin /\ 0 <= sel rc size /\ sel rc origin + sel rc size <= ax_size (get rc d).
Proof.
  intros d origin size d' H0 rc. unfold sub_distribution in H0.
  apply bind_ok in H0 as (? & A1 & H0). apply bind_ok in H0 as (? & A2 & H0).
  apply bind_ok in H0 as (? & A3 & H0). apply bind_ok in H0 as (? & A4 & H0).
  apply assert_ok in A1, A2, A3, A4. unfold isValid2 in *.
  repeat match goal with H : (_ <=? _) = true |- _ => apply Z.leb_le in H
                         | H : _ && _ = true |- _ => apply andb_prop in H as [? ?] end.
  destruct rc; cbn; lia.
Qed.

(** a sub-distribution that leaves the matrix is refused *)
Lemma sub_rejects : forall d origin size,
  ~ (forall rc, 0 <= sel rc origin /\ 0 <= sel rc size /\ sel rc origin + sel rc size <= ax_size (get rc d)) ->
  sub_distribution d origin size = Abort.
Proof.
  intros d origin size H. unfold sub_distribution.
  destruct (isValid2 origin) eqn:A1; [|reflexivity].
  destruct (isValid2 size) eqn:A2; [|reflexivity].
  destruct (fst origin + fst size <=? ax_size (d_row d)) eqn:A3; [|reflexivity].
  destruct (snd origin + snd size <=? ax_size (d_col d)) eqn:A4; [|reflexivity].
  exfalso. apply H. unfold isValid2 in *.
  repeat match goal with H : (_ <=? _) = true |- _ => apply Z.leb_le in H
                         | H : _ && _ = true |- _ => apply andb_prop in H as [? ?] end.
  intros []; cbn; lia.
Qed.

Lemma axis_eqb_eq : forall a b, axis_eqb a b = true <-> a = b.
Proof.
  intros a b. unfold axis_eqb. split.
  - intros H. repeat (apply andb_prop in H as [H ?]).
    repeat match goal with H : (_ =? _) = true |- _ => apply Z.eqb_eq in H end.
    destruct a, b; cbn in *; congruence.
  - intros ->. rewrite !Z.eqb_refl. reflexivity.
Qed.
Lemma dist_eqb_eq : forall a b, dist_eqb a b = true <-> a = b.
Proof.
  intros [a1 a2] [b1 b2]. unfold dist_eqb. cbn. rewrite andb_true_iff, !axis_eqb_eq. split.
  - intros [-> ->]. reflexivity.
  - intros E. injection E as -> ->. auto.
Qed.
