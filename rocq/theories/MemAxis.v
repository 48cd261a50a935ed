(** * Local tiles and local blocks of one axis, as boundaries in local elements. *)
From Coq Require Import ZArith Lia Bool List.
From Verif Require Import CInt DistModel DistSpec DivLemmas DistProofs DistProofs2 DistBuilt DistThms DistCtor.
Open Scope Z_scope.

Section ax.
Context (r : Z) (L : layout) (a : axis).
Hypothesis M : models r L a.
Let WF : wf a := m_wf _ _ _ M.
Let W : wfp a := w_p _ WF.

(** first local element of local tile i, and the local size for i = number of local tiles *)
Definition lb (x : axis) (i : Z) : Z := lbnd x i.

Lemma lb_0 : lb a 0 = 0. Proof. apply (lbnd_0 a WF). Qed.
Lemma lb_end : lb a (ax_local_nr_tiles a) = ax_local_size a.
Proof. unfold lb, lbnd. rewrite Z.eqb_refl. reflexivity. Qed.
Lemma lb_step : forall i, 0 <= i < ax_local_nr_tiles a -> lb a (i + 1) = lb a i + ax_local_tile_size_of a i.
Proof. apply (lbnd_step a WF). Qed.
Lemma lsize_pos : forall i, 0 <= i < ax_local_nr_tiles a -> 0 < ax_local_tile_size_of a i <= ax_tile a.
Proof.
  intros i Hi. rewrite (T_local_tile_size _ _ _ M i Hi).
  destruct (T_global_tile _ _ _ M i Hi) as (A & _).
  destruct (T_tile_sizes _ _ _ M _ A) as (B & _). destruct (T_reported _ _ _ M) as (_ & _ & ET & _). rewrite ET. exact B.
Qed.
Lemma lb_mono : forall i j, 0 <= i -> i < j -> j <= ax_local_nr_tiles a -> lb a i < lb a j.
Proof.
  intros i j Hi Hij Hj. replace j with (i + 1 + Z.of_nat (Z.to_nat (j - i - 1))) by lia.
  assert (G : forall n, i + 1 + Z.of_nat n <= ax_local_nr_tiles a -> lb a i < lb a (i + 1 + Z.of_nat n)).
  { induction n as [|n IH]; intros Hn.
    - rewrite Z.add_0_r, lb_step by lia. pose proof (lsize_pos i ltac:(lia)). lia.
    - replace (i + 1 + Z.of_nat (S n)) with (i + 1 + Z.of_nat n + 1) by lia.
      rewrite lb_step by lia. specialize (IH ltac:(lia)). pose proof (lsize_pos (i + 1 + Z.of_nat n) ltac:(lia)). lia. }
  apply G. lia.
Qed.
Lemma lb_mono_le : forall i j, 0 <= i -> i <= j -> j <= ax_local_nr_tiles a -> lb a i <= lb a j.
Proof. intros i j Hi Hij Hj. destruct (Z.eq_dec i j) as [->|]; [lia|]. pose proof (lb_mono i j). lia. Qed.
Lemma lb_inv : forall i j, 0 <= i <= ax_local_nr_tiles a -> 0 <= j <= ax_local_nr_tiles a -> lb a i < lb a j -> i < j.
Proof.
  intros i j Hi Hj H. destruct (Z_lt_ge_dec i j); [assumption|]. pose proof (lb_mono_le j i ltac:(lia) ltac:(lia) ltac:(lia)). lia.
Qed.
Lemma lb_bounds : forall i, 0 <= i <= ax_local_nr_tiles a -> 0 <= lb a i <= ax_local_size a.
Proof.
  intros i Hi. rewrite <- lb_0, <- lb_end. split; apply lb_mono_le; lia.
Qed.
Lemma lb_elem : forall i e, 0 <= i < ax_local_nr_tiles a -> 0 <= e <= ax_local_tile_size_of a i ->
  ax_local_element_from_local_tile_and_tile_element a i e = lb a i + e.
Proof.
  intros i e Hi He. pose proof (lsize_pos i Hi) as P. rewrite (T_local_tile_size _ _ _ M i Hi) in P, He.
  assert (F : forall e, ax_local_element_from_local_tile_and_tile_element a i e =
              ax_local_element_from_local_tile_and_tile_element a i 0 + e).
  { intros x. unfold ax_local_element_from_local_tile_and_tile_element, element_from_tile_and_tile_element. lia. }
  rewrite F. f_equal. rewrite (local_elem_lt_te a WF i 0 Hi) by lia.
  unfold lb, lbnd. rewrite (proj2 (Z.eqb_neq i (ax_local_nr_tiles a))) by lia. f_equal. lia.
Qed.
(** every local element lies in exactly one local tile *)
Lemma lb_find : forall l, 0 <= l < ax_local_size a ->
  exists i, 0 <= i < ax_local_nr_tiles a /\ lb a i <= l < lb a (i + 1).
Proof.
  intros l Hl. destruct (T_local_elem_to_tile _ _ _ M l Hl) as (A & B & C). cbv zeta in *.
  eexists. split; [exact A|]. rewrite lb_elem in C by lia. rewrite lb_step by lia. lia.
Qed.
Lemma lb_unique : forall i j l, 0 <= i < ax_local_nr_tiles a -> 0 <= j < ax_local_nr_tiles a ->
  lb a i <= l < lb a (i + 1) -> lb a j <= l < lb a (j + 1) -> i = j.
Proof.
  intros i j l Hi Hj A B.
  destruct (Z_lt_ge_dec i j); [pose proof (lb_mono_le (i + 1) j ltac:(lia) ltac:(lia) ltac:(lia)); lia|].
  destruct (Z_lt_ge_dec j i); [pose proof (lb_mono_le (j + 1) i ltac:(lia) ltac:(lia) ltac:(lia)); lia|]. lia.
Qed.

(** ** blocks *)
Hypothesis NE : 0 < ax_local_size a.
Let h := ax_single_tile_per_block a.

Lemma lsize_le : ax_local_size a <= l_size L.
Proof. rewrite (T_local_size _ _ _ M). apply count_bounds. apply (m_ok _ _ _ M). Qed.
Lemma size_pos : 0 < l_size L. Proof. pose proof lsize_le. lia. Qed.
Lemma Mh : models r (Layout (l_size L) (l_block L) (l_block L) (l_grid L) (l_src L) (l_off L)) h.
Proof. apply single_tile_models; [exact M|left; apply size_pos]. Qed.

Lemma lto_range : 0 <= local_tile_offset a < tiles_per_block a.
Proof.
  unfold local_tile_offset. pose proof (w_k _ W). destruct (is_source_rank a); [|lia].
  rewrite (gto_eq a W). pose proof (w_off _ W). pose proof (w_block _ W). pose proof (w_tile _ W).
  split; [apply Z.div_pos; lia|]. apply Z.div_lt_upper_bound; lia.
Qed.

Lemma nblk_h : ax_local_nr_blocks h = ax_local_nr_blocks a.
Proof.
  assert (T1 : tiles_per_block h = 1).
  { unfold tiles_per_block, h. cbn. apply Z.quot_same. pose proof (w_off _ W). lia. }
  unfold ax_local_nr_blocks at 1. rewrite T1. unfold ceilDiv. rewrite Z.quot_1_r.
  assert (local_tile_offset h = 0) as ->.
  { unfold local_tile_offset, is_source_rank, global_tile_offset, h. cbn.
    destruct (ax_rank a =? ax_src a); [|reflexivity]. apply Z.quot_small. apply (w_off _ W). }
  unfold h. cbn. lia.
Qed.

Lemma nblk_spec : ax_local_nr_blocks a = (ax_local_nr_tiles a + local_tile_offset a + tiles_per_block a - 1) / tiles_per_block a.
Proof.
  unfold ax_local_nr_blocks, ceilDiv. pose proof lto_range. pose proof (lnt_nonneg a WF).
  apply Z.quot_div_nonneg; lia.
Qed.

Lemma lnt_pos : 0 < ax_local_nr_tiles a.
Proof.
  pose proof (lnt_nonneg a WF). destruct (Z.eq_dec (ax_local_nr_tiles a) 0) as [E|]; [|lia].
  pose proof lb_end as X. rewrite E, lb_0 in X. lia.
Qed.
Lemma nblk_pos : 0 < ax_local_nr_blocks a.
Proof.
  rewrite nblk_spec. pose proof lto_range. pose proof lnt_pos. apply Z.div_str_pos. lia.
Qed.

(** first tile of block b *)
Definition btile (b : Z) : Z :=
  if b =? 0 then 0 else if b =? ax_local_nr_blocks a then ax_local_nr_tiles a
  else b * tiles_per_block a - local_tile_offset a.

Lemma btile_range : forall b, 0 <= b <= ax_local_nr_blocks a -> 0 <= btile b <= ax_local_nr_tiles a.
Proof.
  intros b Hb. unfold btile. pose proof lto_range as LT. pose proof lnt_pos.
  destruct (Z.eqb_spec b 0); [lia|]. destruct (Z.eqb_spec b (ax_local_nr_blocks a)); [lia|].
  pose proof nblk_spec as NB.
  pose proof (Z.mul_div_le (ax_local_nr_tiles a + local_tile_offset a + tiles_per_block a - 1) (tiles_per_block a) ltac:(lia)).
  rewrite <- NB in *. nia.
Qed.

Lemma btile_lb : forall b, 0 <= b <= ax_local_nr_blocks a -> lb a (btile b) = lb h b.
Proof.
  intros b Hb. pose proof (btile_range b Hb) as BR. unfold btile in *. pose proof lto_range as LT. pose proof lnt_pos as LP.
  pose proof nblk_pos as NP.
  destruct (Z.eqb_spec b 0) as [->|b0].
  { rewrite lb_0. unfold lb. symmetry. apply lbnd_0. apply (m_wf _ _ _ Mh). }
  destruct (Z.eqb_spec b (ax_local_nr_blocks a)) as [->|b1].
  { rewrite lb_end. unfold lb, lbnd. change (ax_local_nr_tiles h) with (ax_local_nr_blocks a). rewrite Z.eqb_refl. reflexivity. }
  pose proof nblk_spec as NB.
  pose proof (Z.mul_div_le (ax_local_nr_tiles a + local_tile_offset a + tiles_per_block a - 1) (tiles_per_block a) ltac:(lia)) as Q.
  rewrite <- NB in Q.
  set (i := b * tiles_per_block a - local_tile_offset a) in *.
  assert (I : 0 < i < ax_local_nr_tiles a) by nia.
  pose proof (lsize_pos i ltac:(lia)).
  rewrite <- (Z.add_0_r (lb a i)), <- lb_elem by lia.
  assert (E : forall j, 0 <= j < ax_local_nr_blocks a -> lb h j = ax_local_element_from_local_tile_and_tile_element h j 0).
  { intros j Hj. pose proof (m_wf _ _ _ Mh) as WFh.
    assert (0 < ax_local_tile_size_of h j).
    { rewrite (T_local_tile_size _ _ _ Mh) by exact Hj.
      destruct (T_global_tile _ _ _ Mh j Hj) as (A & _). destruct (T_tile_sizes _ _ _ Mh _ A) as (B & _). lia. }
    rewrite (T_local_tile_size _ _ _ Mh) in H0 by exact Hj.
    rewrite (local_elem_lt_te h WFh j 0) by (try exact Hj; lia).
    unfold lb, lbnd. change (ax_local_nr_tiles h) with (ax_local_nr_blocks a).
    rewrite (proj2 (Z.eqb_neq j (ax_local_nr_blocks a))) by lia. f_equal. lia. }
  rewrite E by lia.
  unfold ax_local_element_from_local_tile_and_tile_element, element_from_tile_and_tile_element.
  rewrite !(proj2 (Z.gtb_lt _ _)) by lia.
  unfold i, local_tile_offset, local_tile_element_offset, is_source_rank. cbn [h ax_single_tile_per_block ax_rank ax_src ax_tile].
  destruct (ax_rank a =? ax_src a).
  - unfold global_tile_offset, global_tile_element_offset. cbn [h ax_single_tile_per_block ax_offset ax_tile].
    rewrite (Z.rem_small (ax_offset a) (ax_block a)) by apply (w_off _ W).
    pose proof (Z.quot_rem' (ax_offset a) (ax_tile a)). pose proof (w_block _ W). nia.
  - pose proof (w_block _ W). nia.
Qed.

Lemma Mh_nt : ax_local_nr_tiles h = ax_local_nr_blocks a. Proof. reflexivity. Qed.
End ax.

Section ax2.
Context (r : Z) (L : layout) (a : axis).
Hypothesis M : models r L a.
Hypothesis NE : 0 < ax_local_size a.
Let h := ax_single_tile_per_block a.
Let MH := Mh _ _ _ M NE.

(** block sizes and first tiles *)
Lemma block_step : forall b, 0 <= b < ax_local_nr_blocks a ->
  lb a (btile a (b + 1)) = lb a (btile a b) + ax_local_tile_size_of h b /\
  0 <= btile a b < btile a (b + 1) /\ btile a (b + 1) <= ax_local_nr_tiles a.
Proof.
  intros b Hb. pose proof (btile_range _ _ _ M NE b ltac:(lia)) as B1.
  pose proof (btile_range _ _ _ M NE (b + 1) ltac:(lia)) as B2.
  rewrite !(btile_lb _ _ _ M NE) by lia.
  pose proof (lb_step _ _ _ MH b Hb) as S. split; [exact S|].
  pose proof (lsize_pos _ _ _ MH b Hb).
  split; [|lia]. split; [lia|]. apply (lb_inv _ _ _ M); try lia.
  rewrite !(btile_lb _ _ _ M NE) by lia. unfold h in *. lia.
Qed.
Lemma btile_0 : btile a 0 = 0. Proof. reflexivity. Qed.
Lemma btile_end : btile a (ax_local_nr_blocks a) = ax_local_nr_tiles a.
Proof.
  unfold btile. pose proof (nblk_pos _ _ _ M NE).
  destruct (Z.eqb_spec (ax_local_nr_blocks a) 0); [lia|]. rewrite Z.eqb_refl. reflexivity.
Qed.
Lemma block_size_pos : forall b, 0 <= b < ax_local_nr_blocks a -> 0 < ax_local_tile_size_of h b <= ax_block a.
Proof. intros b Hb. apply (lsize_pos _ _ _ MH b Hb). Qed.
Lemma lb_h_end : lb h (ax_local_nr_blocks a) = ax_local_size a.
Proof. apply (lb_end h). Qed.
End ax2.
