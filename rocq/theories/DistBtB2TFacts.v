(** * Axes without offset whose blocks may hold several tiles: tiles, sizes, owners. *)
From Coq Require Import ZArith Lia List Bool.
From Verif Require Import CInt Loop DistModel DistSpec DistProofs DistBuilt DistThms DenseJobs DistMachine DistGrid PanelModel PanelProofs Properties_Panel.
Import ListNotations.
Local Open Scope Z_scope.

Section axis.
Variables (r : Z) (L : layout) (a : axis).
Hypothesis M : models r L a.
Hypothesis OFF : l_off L = 0.
Notation nb := (l_tile L).
Lemma z_nb : ax_tile a = nb. Proof using M. symmetry. exact (mt _ _ _ M). Qed.
Lemma z_pos : 0 < nb. Proof using M. rewrite <- z_nb. apply (w_tile _ (w_p _ (m_wf _ _ _ M))). Qed.
Lemma z_block : ax_block a = l_block L. Proof using M. symmetry. exact (mb _ _ _ M). Qed.
Lemma z_size : ax_size a = l_size L. Proof using M. symmetry. exact (ms _ _ _ M). Qed.
Lemma z_off : ax_offset a = 0.
Proof using M OFF.
  pose proof (w_off _ (w_p _ (m_wf _ _ _ M))) as O. pose proof (sl_off _ _ (m_same _ _ _ M)) as S. cbn [layout_of l_off l_block] in S.
  rewrite OFF in S. rewrite Z.mod_small in S by exact O. rewrite S. rewrite <- z_block. apply Z.mod_0_l. lia.
Qed.
Lemma z_teo : global_tile_element_offset a = 0.
Proof using M OFF. unfold global_tile_element_offset. rewrite z_off. apply Z.rem_0_l. rewrite z_nb. pose proof z_pos. lia. Qed.
Lemma z_tile : forall e, 0 <= e -> ax_global_tile_from_global_element a e = e / nb.
Proof using M OFF. intros e Le. unfold ax_global_tile_from_global_element, tile_from_element. rewrite z_teo, z_nb. rewrite Z.add_0_r. apply Z.quot_div_nonneg; [exact Le|apply z_pos]. Qed.
Lemma z_in_tile : forall e, 0 <= e -> ax_tile_element_from_global_element a e = e mod nb.
Proof using M OFF.
  intros e Le. unfold ax_tile_element_from_global_element, tile_element_from_element. rewrite z_teo, z_nb. pose proof z_pos.
  rewrite Z.add_0_r. destruct (e <? nb); rewrite Z.rem_mod_nonneg by lia; lia.
Qed.
Lemma z_tsize : forall t, ax_global_tile_size_of a t = Z.min nb (l_size L - t * nb).
Proof using M OFF. intros. unfold ax_global_tile_size_of. rewrite z_teo, z_nb. rewrite <- z_size. destruct (Z.eqb_spec t 0) as [->|]; lia. Qed.
Lemma z_nt_iff : forall t, 0 <= t < ax_nr_tiles a <-> 0 <= t /\ t * nb < l_size L.
Proof using M OFF.
  intros t. rewrite <- (m_is_tile _ _ _ M). unfold is_tile. pose proof z_pos.
  assert (TO : forall e, tile_of L e = e / nb) by (intros e; unfold tile_of; rewrite OFF; rewrite Z.div_0_l by lia; rewrite Z.sub_0_r; reflexivity). split.
  - intros (e & Le & <-). rewrite TO. pose proof (Z.div_mod e nb ltac:(lia)). pose proof (Z.mod_pos_bound e nb ltac:(lia)). split; [apply Z.div_pos; lia|lia].
  - intros [L0 L1]. exists (t * nb). split; [nia|]. rewrite TO. apply Z.div_mul. lia.
Qed.
Lemma z_nt : ax_nr_tiles a = (l_size L + nb - 1) / nb.
Proof using M OFF.
  pose proof z_pos as ZP. pose proof (T_nt_nonneg _ _ _ M) as NN. set (x := (l_size L + nb - 1) / nb).
  assert (X : forall t, 0 <= t -> t < x <-> t * nb < l_size L).
  { intros t Lt. unfold x. split; intros A.
    - assert ((t + 1) * nb <= l_size L + nb - 1); [|lia]. pose proof (Z.mul_div_le (l_size L + nb - 1) nb ZP). nia.
    - assert (t + 1 <= (l_size L + nb - 1) / nb); [|lia]. apply Z.div_le_lower_bound; lia. }
  assert (X0 : 0 <= x). { unfold x. apply Z.div_pos; [|exact ZP]. pose proof (w_size _ (w_p _ (m_wf _ _ _ M))). rewrite z_size in *. lia. }
  destruct (Z.lt_total (ax_nr_tiles a) x) as [A|[A|A]]; [|exact A|].
  - apply X in A; [|exact NN]. pose proof (proj2 (z_nt_iff (ax_nr_tiles a)) (conj NN A)). lia.
  - pose proof (proj1 (z_nt_iff x) (conj X0 A)) as [_ B]. apply (X x X0) in B. lia.
Qed.
Lemma z_own : forall t, 0 <= t -> ax_rank_global_tile a t = (l_src L + t * nb / l_block L) mod l_grid L.
Proof using M OFF. intros t Lt. rewrite (T_tile_owner _ _ _ M) by exact Lt. unfold tile_owner. rewrite OFF. rewrite Z.div_0_l by (pose proof z_pos; lia). reflexivity. Qed.
(** local indices of the tiles *)
Lemma z_local : forall l, 0 <= l < ax_local_nr_tiles a -> 0 <= ax_global_tile_from_local_tile a l < ax_nr_tiles a /\ ax_rank_global_tile a (ax_global_tile_from_local_tile a l) = r.
Proof using M. intros l Ll. destruct (T_global_tile _ _ _ M l Ll) as (A & B & _). split; [exact A|]. rewrite (T_tile_owner _ _ _ M) by lia. exact B. Qed.
Lemma z_local_inv : forall t, 0 <= t < ax_nr_tiles a -> ax_rank_global_tile a t = r -> exists l, 0 <= l < ax_local_nr_tiles a /\ ax_global_tile_from_local_tile a l = t.
Proof using M.
  intros t Lt O. rewrite (T_tile_owner _ _ _ M) in O by lia. exists (ax_local_tile_from_global_tile a t). split; [|apply (T_global_tile_inv _ _ _ M t Lt O)].
  rewrite (T_local_tile _ _ _ M) by lia. rewrite O, Z.eqb_refl. rewrite (T_local_nr_tiles _ _ _ M). split; [apply count_bounds; lia|].
  apply count_lt; [exact Lt|]. unfold tile_owned. apply Z.eqb_eq. exact O.
Qed.
Lemma z_local_inj : forall l l', 0 <= l < ax_local_nr_tiles a -> 0 <= l' < ax_local_nr_tiles a -> ax_global_tile_from_local_tile a l = ax_global_tile_from_local_tile a l' -> l = l'.
Proof using M. intros l l' A B E. destruct (T_global_tile _ _ _ M l A) as (_ & _ & X), (T_global_tile _ _ _ M l' B) as (_ & _ & Y). rewrite E in X. congruence. Qed.
End axis.
