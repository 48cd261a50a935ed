(** * A range of tiles on one rank. *)
From Coq Require Import ZArith Lia List Bool Permutation Sorted.
From Verif Require Import CInt Loop DistModel DistSpec DistProofs DistBuilt DistThms DistGrid TridiagModel TridiagProofs PermModel PermProofs PermRoute.
Import ListNotations.
Local Open Scope Z_scope.

Section axis.
Variables (r : Z) (L : layout) (a : axis).
Hypothesis M : models r L a.
Hypotheses (OFF : l_off L = 0) (BT : l_block L = l_tile L).
Local Notation nb := (l_tile L).
Local Notation N := (l_size L).
Local Notation nt := (ax_nr_tiles a).
Local Notation gt := (ax_global_tile_from_local_tile a).
Lemma ax_nb : ax_tile a = nb. Proof. symmetry. exact (mt _ _ _ M). Qed.
Lemma nb_pos : 0 < nb. Proof. rewrite <- ax_nb. apply (w_tile _ (w_p _ (m_wf _ _ _ M))). Qed.
Lemma tile_of_div : forall e, tile_of L e = e / nb.
Proof. intros e. unfold tile_of. rewrite OFF. rewrite Z.div_0_l by (pose proof nb_pos; lia). rewrite Z.sub_0_r. reflexivity. Qed.
Lemma off0 : ax_offset a = 0.
Proof.
  pose proof nb_pos as B. pose proof (w_off _ (w_p _ (m_wf _ _ _ M))) as O. rewrite <- (mb _ _ _ M), BT in O.
  pose proof (m_tile_of _ _ _ M (nb - ax_offset a)) as T. rewrite tile_of_div in T. unfold tile_of, layout_of in T. cbn [l_off l_tile] in T. rewrite ax_nb in T.
  replace (ax_offset a + (nb - ax_offset a)) with nb in T by lia. rewrite Z.div_same in T by lia. rewrite (Z.div_small (ax_offset a)) in T by lia.
  destruct (Z.eq_dec (ax_offset a) 0) as [E|E]; [exact E|]. rewrite Z.div_small in T by lia. lia.
Qed.
Lemma gteo0 : global_tile_element_offset a = 0.
Proof. unfold global_tile_element_offset. rewrite off0. apply Z.rem_0_l. rewrite ax_nb. pose proof nb_pos. lia. Qed.
Lemma lteo0 : local_tile_element_offset a = 0.
Proof. unfold local_tile_element_offset. rewrite gteo0. destruct (is_source_rank a); reflexivity. Qed.
Lemma g_elem : forall t e, ax_global_element_from_global_tile_and_tile_element a t e = t * nb + e.
Proof. intros. unfold ax_global_element_from_global_tile_and_tile_element, element_from_tile_and_tile_element. rewrite gteo0, ax_nb. destruct (t >? 0); lia. Qed.
Lemma l_elem : forall t e, ax_local_element_from_local_tile_and_tile_element a t e = t * nb + e.
Proof. intros. unfold ax_local_element_from_local_tile_and_tile_element, element_from_tile_and_tile_element. rewrite lteo0, ax_nb. destruct (t >? 0); lia. Qed.
Lemma g_size : forall t, ax_global_tile_size_of a t = Z.min nb (N - t * nb).
Proof. intros. unfold ax_global_tile_size_of. rewrite gteo0, ax_nb. rewrite <- (ms _ _ _ M). destruct (Z.eqb_spec t 0) as [->|]; lia. Qed.
Lemma nt_iff : forall t, 0 <= t < nt <-> 0 <= t /\ t * nb < N.
Proof.
  intros t. rewrite <- (m_is_tile _ _ _ M). unfold is_tile. pose proof nb_pos. split.
  - intros (e & Le & <-). rewrite tile_of_div. pose proof (Z.div_mod e nb ltac:(lia)). pose proof (Z.mod_pos_bound e nb ltac:(lia)). split; [apply Z.div_pos; lia|lia].
  - intros [L0 L1]. exists (t * nb). split; [nia|]. rewrite tile_of_div. apply Z.div_mul. lia.
Qed.
Lemma own_tile : forall e, owner L e = tile_owner L (e / nb).
Proof. intros e. rewrite (T_tile_owner_elems r L a M). rewrite tile_of_div. reflexivity. Qed.

(** the range of tiles *)
Variables (ib ie : Z).
Hypotheses (Lb : 0 <= ib < ie) (Le : ie <= nt).
Definition rn : Z := problem_size a ib ie.
Definition rb : Z := ax_next_local_tile_from_global_tile a ib.
Definition re : Z := ax_next_local_tile_from_global_tile a ie.
Definition rnv : Z := local_element_distance_from_global_tile a ib ie.
Definition rl2s (l : Z) : Z := (gt (rb + l / nb) - ib) * nb + l mod nb.
Definition rown (s : Z) : Z := owner L (ib * nb + s).
Local Notation ct := (count (tile_owned L r)).
Lemma rb_ct : rb = ct ib. Proof. unfold rb. apply (T_next_local _ _ _ M). lia. Qed.
Lemma re_ct : re = ct ie. Proof. unfold re. apply (T_next_local _ _ _ M). lia. Qed.
Lemma rn_eq : rn = Z.min (ie * nb) N - ib * nb.
Proof. unfold rn, problem_size. rewrite g_size, ax_nb. lia. Qed.
Lemma rn_pos : 0 < rn.
Proof. rewrite rn_eq. pose proof nb_pos. pose proof (proj1 (nt_iff ib) ltac:(lia)). nia. Qed.
Lemma rb_re : 0 <= rb <= re /\ re <= ax_local_nr_tiles a.
Proof. rewrite rb_ct, re_ct, (T_local_nr_tiles _ _ _ M). pose proof (count_bounds (tile_owned L r) ib ltac:(lia)). pose proof (count_mono (tile_owned L r) ib ie ltac:(lia)). pose proof (count_mono (tile_owned L r) ie nt ltac:(lia)). lia. Qed.
(** local tiles of the range *)
Lemma rgt : forall lt, rb <= lt < re -> ib <= gt lt < ie /\ tile_owner L (gt lt) = r /\ ct (gt lt) = lt.
Proof.
  intros lt Ll. pose proof rb_re. destruct (T_global_tile _ _ _ M lt ltac:(lia)) as (A & B & C). split; [|split; assumption].
  rewrite rb_ct, re_ct in Ll. split.
  - destruct (Z.le_gt_cases ib (gt lt)) as [Q|Q]; [exact Q|]. pose proof (count_lt (tile_owned L r) (gt lt) ib ltac:(lia) ltac:(apply Z.eqb_eq; exact B)). lia.
  - destruct (Z.lt_ge_cases (gt lt) ie) as [Q|Q]; [exact Q|]. pose proof (count_mono (tile_owned L r) ie (gt lt) Q). lia.
Qed.
Lemma rgt_mono : forall l l', rb <= l < l' -> l' < re -> gt l < gt l'.
Proof.
  intros l l' H1 H2. destruct (rgt l ltac:(lia)) as (A & B & C). destruct (rgt l' ltac:(lia)) as (A' & B' & C').
  destruct (Z.lt_ge_cases (gt l) (gt l')) as [Q|Q]; [exact Q|]. pose proof (count_mono (tile_owned L r) _ _ Q). lia.
Qed.
Lemma rgt_onto : forall t, ib <= t < ie -> tile_owner L t = r -> rb <= ct t < re /\ gt (ct t) = t.
Proof.
  intros t Lt O. rewrite rb_ct, re_ct. pose proof (count_mono (tile_owned L r) ib t ltac:(lia)). pose proof (count_lt (tile_owned L r) t ie ltac:(lia) ltac:(apply Z.eqb_eq; exact O)).
  split; [lia|]. pose proof (T_global_tile_inv _ _ _ M t ltac:(lia) O) as X. rewrite (T_local_tile _ _ _ M t ltac:(lia)) in X. rewrite O, Z.eqb_refl in X. exact X.
Qed.
Lemma rnv_eq : rnv = if rb <? re then (re - rb - 1) * nb + Z.min nb (N - gt (re - 1) * nb) else 0.
Proof.
  unfold rnv, local_element_distance_from_global_tile. fold rb re. unfold local_element_distance_from_local_tile. rewrite !l_elem, g_size.
  destruct (Z.gtb_spec rb (re - 1)), (Z.ltb_spec rb re); lia.
Qed.
Lemma rtile_full : forall lt, rb <= lt < re - 1 -> nb <= N - gt lt * nb.
Proof.
  intros lt Ll. pose proof (rgt_mono lt (re - 1) ltac:(lia) ltac:(lia)). destruct (rgt (re - 1) ltac:(lia)) as (A & _ & _).
  pose proof (proj1 (nt_iff (gt (re - 1))) ltac:(lia)). pose proof nb_pos. nia.
Qed.
Lemma rtile_pos : forall lt, rb <= lt < re -> 0 < N - gt lt * nb.
Proof. intros lt Ll. destruct (rgt lt Ll) as (A & _ & _). pose proof (proj1 (nt_iff (gt lt)) ltac:(lia)). lia. Qed.
Lemma rnv_nonneg : 0 <= rnv.
Proof.
  rewrite rnv_eq. destruct (Z.ltb_spec rb re) as [Q|Q]; [|lia]. pose proof nb_pos. pose proof (rtile_pos (re - 1) ltac:(lia)). nia.
Qed.
Lemma rnv_zero : rnv = 0 <-> re = rb.
Proof.
  pose proof rb_re. rewrite rnv_eq. destruct (Z.ltb_spec rb re) as [Q|Q]; [|lia]. pose proof nb_pos. pose proof (rtile_pos (re - 1) ltac:(lia)). split; [nia|lia].
Qed.
Lemma rsize : forall t, 0 <= t < re - rb -> Z.min nb (rnv - t * nb) = Z.min nb (N - gt (rb + t) * nb).
Proof.
  intros t Lt. rewrite rnv_eq. destruct (Z.ltb_spec rb re) as [Q|Q]; [|lia]. pose proof nb_pos. destruct (Z.eq_dec t (re - rb - 1)) as [->|Nt].
  - replace (rb + (re - rb - 1)) with (re - 1) by lia. lia.
  - pose proof (rtile_full (rb + t) ltac:(lia)). pose proof (rtile_pos (re - 1) ltac:(lia)). nia.
Qed.
Lemma rsize_local : forall t, 0 <= t < re - rb -> ax_local_tile_size_of a (rb + t) = Z.min nb (rnv - t * nb).
Proof. intros t Lt. pose proof rb_re. rewrite (T_local_tile_size _ _ _ M) by lia. rewrite g_size, rsize by lia. reflexivity. Qed.
Lemma rtiles : forall t, 0 <= t < re - rb <-> 0 <= t /\ t * nb < rnv.
Proof.
  intros t. pose proof rb_re. pose proof nb_pos. rewrite rnv_eq. destruct (Z.ltb_spec rb re) as [Q|Q]; [|nia].
  pose proof (rtile_pos (re - 1) ltac:(lia)). split; intros; split; try lia; nia.
Qed.
Lemma rnr_tiles : ax_local_nr_tiles (loc_axis rnv nb) = re - rb.
Proof.
  pose proof nb_pos. pose proof (loc_nt rnv nb rnv_nonneg ltac:(lia)) as X. pose proof rtiles as Y. pose proof (loc_nt_pos rnv nb rnv_nonneg ltac:(lia)). pose proof rb_re.
  set (c := ax_local_nr_tiles (loc_axis rnv nb)) in *. destruct (Z.lt_total c (re - rb)) as [Q|[Q|Q]]; [exfalso|exact Q|exfalso].
  - assert (c < c); [|lia]. apply X. apply Y. lia.
  - assert (re - rb < re - rb); [|lia]. apply Y. apply X. lia.
Qed.
Lemma rl_split : forall l, 0 <= l < rnv -> 0 <= l / nb < re - rb /\ 0 <= l mod nb < Z.min nb (N - gt (rb + l / nb) * nb).
Proof.
  intros l Ll. pose proof nb_pos. pose proof (Z.div_mod l nb ltac:(lia)). pose proof (Z.mod_pos_bound l nb ltac:(lia)).
  assert (T : 0 <= l / nb < re - rb) by (apply rtiles; split; [apply Z.div_pos; lia|lia]). split; [exact T|]. rewrite <- rsize by exact T. lia.
Qed.

Theorem renum : enum rn rown r rnv rl2s.
Proof.
  pose proof nb_pos as B. constructor.
  - apply rnv_nonneg.
  - intros l Ll. destruct (rl_split l Ll) as [T E]. destruct (rgt (rb + l / nb) ltac:(lia)) as (A1 & A2 & A3). unfold rl2s. rewrite rn_eq. split; [nia|].
    unfold rown. replace (ib * nb + ((gt (rb + l / nb) - ib) * nb + l mod nb)) with (l mod nb + gt (rb + l / nb) * nb) by ring. rewrite own_tile. rewrite Z.div_add by lia. rewrite (Z.div_small (l mod nb)) by lia. exact A2.
  - intros l l' H1 H2. destruct (rl_split l ltac:(lia)) as [T E]. destruct (rl_split l' ltac:(lia)) as [T' E']. unfold rl2s.
    pose proof (Z.div_mod l nb ltac:(lia)). pose proof (Z.div_mod l' nb ltac:(lia)).
    assert (l / nb <= l' / nb) by (apply Z.div_le_mono; lia). destruct (Z.eq_dec (l / nb) (l' / nb)) as [Q|Q].
    + rewrite Q in *. lia.
    + pose proof (rgt_mono (rb + l / nb) (rb + l' / nb) ltac:(lia) ltac:(lia)). nia.
  - intros s Ls O. rewrite rn_eq in Ls. unfold rown in O. rewrite own_tile in O. set (x := ib * nb + s) in *. pose proof (Z.div_mod x nb ltac:(lia)) as DM. pose proof (Z.mod_pos_bound x nb ltac:(lia)) as MB.
    assert (LT : ib <= x / nb < ie) by (split; [apply Z.div_le_lower_bound; lia|apply Z.div_lt_upper_bound; lia]).
    destruct (rgt_onto (x / nb) LT O) as [R1 R2]. exists ((ct (x / nb) - rb) * nb + x mod nb).
    assert (DV : ((ct (x / nb) - rb) * nb + x mod nb) / nb = ct (x / nb) - rb) by (rewrite Z.add_comm, Z.div_add, Z.div_small by lia; lia).
    assert (MV : ((ct (x / nb) - rb) * nb + x mod nb) mod nb = x mod nb) by (rewrite Z.add_comm, Z.mod_add, Z.mod_small by lia; lia).
    split.
    + split; [nia|]. pose proof (rsize (ct (x / nb) - rb) ltac:(lia)) as RS. replace (rb + (ct (x / nb) - rb)) with (ct (x / nb)) in RS by lia. rewrite R2 in RS. lia.
    + unfold rl2s. rewrite DV, MV. replace (rb + (ct (x / nb) - rb)) with (ct (x / nb)) by lia. rewrite R2. lia.
Qed.

(** where an element of the range is stored *)
Lemma rl_of : forall x, ib * nb <= x < Z.min (ie * nb) N -> owner L x = r ->
  exists l, 0 <= l < rnv /\ rl2s l = x - ib * nb /\ rb + l / nb = ct (x / nb) /\ l mod nb = x mod nb.
Proof.
  pose proof nb_pos as B. intros x Ls O. rewrite own_tile in O. pose proof (Z.div_mod x nb ltac:(lia)) as DM. pose proof (Z.mod_pos_bound x nb ltac:(lia)) as MB.
  assert (LT : ib <= x / nb < ie) by (split; [apply Z.div_le_lower_bound; lia|apply Z.div_lt_upper_bound; lia]).
  destruct (rgt_onto (x / nb) LT O) as [R1 R2]. exists ((ct (x / nb) - rb) * nb + x mod nb).
  assert (DV : ((ct (x / nb) - rb) * nb + x mod nb) / nb = ct (x / nb) - rb) by (rewrite Z.add_comm, Z.div_add, Z.div_small by lia; lia).
  assert (MV : ((ct (x / nb) - rb) * nb + x mod nb) mod nb = x mod nb) by (rewrite Z.add_comm, Z.mod_add, Z.mod_small by lia; lia).
  split; [|split; [|split]].
  - split; [nia|]. pose proof (rsize (ct (x / nb) - rb) ltac:(lia)) as RS. replace (rb + (ct (x / nb) - rb)) with (ct (x / nb)) in RS by lia. rewrite R2 in RS. lia.
  - unfold rl2s. rewrite DV, MV. replace (rb + (ct (x / nb) - rb)) with (ct (x / nb)) by lia. rewrite R2. lia.
  - rewrite DV. lia.
  - exact MV.
Qed.
Lemma rl_to : forall l x, 0 <= l < rnv -> rl2s l = x - ib * nb -> rb + l / nb = ct (x / nb) /\ l mod nb = x mod nb.
Proof.
  pose proof nb_pos as B. intros l x Ll E. destruct (rl_split l Ll) as [T MB]. destruct (rgt (rb + l / nb) ltac:(lia)) as (A1 & A2 & A3).
  unfold rl2s in E. assert (X : x = l mod nb + gt (rb + l / nb) * nb) by lia. rewrite X. rewrite Z.div_add, Z.mod_add by lia. rewrite (Z.div_small (l mod nb)) by lia. rewrite (Z.mod_small (l mod nb)) by lia. rewrite Z.add_0_l. split; [symmetry; exact A3|reflexivity].
Qed.
(** the local tiles of the range are those of the tiles of the range *)
Lemma r_in : forall t, 0 <= t -> tile_owner L t = r -> rb <= ct t < re -> ib <= t < ie.
Proof.
  intros t Lt O H. rewrite rb_ct, re_ct in H. split.
  - destruct (Z.le_gt_cases ib t) as [Q|Q]; [exact Q|]. pose proof (count_lt (tile_owned L r) t ib ltac:(lia) ltac:(apply Z.eqb_eq; exact O)). lia.
  - destruct (Z.lt_ge_cases t ie) as [Q|Q]; [exact Q|]. pose proof (count_mono (tile_owned L r) ie t Q). lia.
Qed.

(** the local parts of an index *)
Lemma copy_at : forall glob loc l, 0 <= l < rnv -> copy_local_parts a ib rb rnv glob loc l = glob (rl2s l).
Proof.
  intros glob loc l Ll. pose proof nb_pos as B. unfold copy_local_parts. rewrite ax_nb.
  set (inner := fun o i => _).
  assert (IN : forall o i j, 0 <= j -> inner o i j = if (j / nb =? i) && (j <? rnv) then glob ((gt (rb + i) - ib) * nb + j mod nb) else o j).
  { intros o i j Lj. unfold inner. set (h := fun o e => _).
    assert (G : forall m, 0 <= m <= nb -> fold_left h (zrange 0 m) o j = if (i * nb <=? j) && (j <? i * nb + m) then glob ((gt (rb + i) - ib) * nb + (j - i * nb)) else o j).
    { intros m [L0 L1]. revert L1. pattern m. apply natlike_ind; [| |exact L0].
      - intros _. rewrite zrange_nil by lia. cbn [fold_left]. destruct (Z.leb_spec (i * nb) j), (Z.ltb_spec j (i * nb + 0)); try reflexivity; lia.
      - intros k Lk IH Lm. unfold Z.succ in *. rewrite zrange_snoc, fold_left_app by lia. cbn [fold_left]. unfold h at 1, upd. destruct (Z.eqb_spec j (i * nb + k)) as [->|Nj].
        + destruct (Z.leb_spec (i * nb) (i * nb + k)); [|lia]. destruct (Z.ltb_spec (i * nb + k) (i * nb + (k + 1))); [|lia]. cbn [andb]. f_equal. lia.
        + rewrite IH by lia. destruct (Z.leb_spec (i * nb) j), (Z.ltb_spec j (i * nb + k)), (Z.ltb_spec j (i * nb + (k + 1))); cbn [andb]; try reflexivity; lia. }
    pose proof (Z.div_mod j nb ltac:(lia)) as DM. pose proof (Z.mod_pos_bound j nb ltac:(lia)) as MB.
    destruct (Z.le_gt_cases 0 (Z.min nb (rnv - i * nb))) as [Q|Q].
    - rewrite G by lia. destruct (Z.eqb_spec (j / nb) i) as [E|E].
      + subst i. destruct (Z.leb_spec (j / nb * nb) j); [|lia]. replace (j - j / nb * nb) with (j mod nb) by lia.
        destruct (Z.ltb_spec j (j / nb * nb + Z.min nb (rnv - j / nb * nb))), (Z.ltb_spec j rnv); cbn [andb]; try reflexivity; lia.
      + cbn [andb]. destruct (Z.leb_spec (i * nb) j), (Z.ltb_spec j (i * nb + Z.min nb (rnv - i * nb))); cbn [andb]; try reflexivity. exfalso. apply E. symmetry. apply (Z.div_unique j nb i (j - i * nb)); lia.
    - rewrite zrange_nil by lia. cbn [fold_left]. destruct (Z.eqb_spec (j / nb) i) as [E|E]; [|reflexivity]. destruct (Z.ltb_spec j rnv); [|reflexivity]. exfalso. subst i. lia. }
  assert (G : forall m o, 0 <= m -> fold_left inner (zrange 0 m) o l = if l / nb <? m then glob (rl2s l) else o l).
  { intros m o L0. revert o. pattern m. apply natlike_ind; [| |exact L0].
    - intros o. rewrite zrange_nil by lia. cbn [fold_left]. destruct (Z.ltb_spec (l / nb) 0); [|reflexivity]. pose proof (Z.div_pos l nb). lia.
    - intros k Lk IH o. unfold Z.succ in *. rewrite zrange_snoc, fold_left_app by lia. cbn [fold_left]. rewrite IN by lia. rewrite IH.
      destruct (Z.ltb_spec l rnv); [|lia]. rewrite andb_true_r. destruct (Z.eqb_spec (l / nb) k) as [E|E].
      + destruct (Z.ltb_spec (l / nb) (k + 1)); [|lia]. unfold rl2s. rewrite E. reflexivity.
      + destruct (Z.ltb_spec (l / nb) k), (Z.ltb_spec (l / nb) (k + 1)); reflexivity || lia. }
  assert (CD : 0 <= l / nb < ceilDiv rnv nb).
  { unfold ceilDiv. rewrite Z.quot_div_nonneg by lia. split; [apply Z.div_pos; lia|]. apply Z.div_lt_upper_bound; [lia|]. pose proof (Z.div_mod (rnv + nb - 1) nb ltac:(lia)). pose proof (Z.mod_pos_bound (rnv + nb - 1) nb ltac:(lia)). lia. }
  rewrite G by lia. destruct (Z.ltb_spec (l / nb) (ceilDiv rnv nb)); [reflexivity|lia].
Qed.
(** owner of an element of the range *)
Lemma rank_own : forall s, 0 <= s -> ax_rank_global_element a (ax_global_element_from_global_tile_and_tile_element a ib 0 + s) = rown s.
Proof. intros s Ls. rewrite g_elem, Z.add_0_r. unfold rown. apply (T_owner _ _ _ M). pose proof nb_pos. nia. Qed.
End axis.
