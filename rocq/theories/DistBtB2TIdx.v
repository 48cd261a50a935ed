(** * Distributed back transformation band to tridiagonal: the indices a rank computes for a block of reflectors, in terms of
    the arguments of the call *)
From Coq Require Import ZArith Lia List Bool.
From Verif Require Import CInt Loop StarField DenseSpec Tiling DistModel DistSpec DistProofs DistBuilt DistThms DistCtor DenseJobs TileJobs HouseSpec HouseModel MultiJobs Red2BandModel B2TModel B2TSched BtB2TModel
  DistMachine DistGrid PanelModel PanelProofs Properties_Panel DistTriModel DistMat DistBtB2TModel DistBtB2TFacts.
Import ListNotations.
Local Open Scope Z_scope.

Section idx.
Variables P Q m mb b ne nb : Z.
Variables srcH srcE : pair_Z.
Variables DH DE : coord -> Z -> axis.
Hypothesis DDH : distributed P Q (m, m) (mb, mb) (mb, mb) srcH (0, 0) DH.
Hypothesis DDE : distributed P Q (m, ne) (mb, nb) (b, nb) srcE (0, 0) DE.
Hypothesis SR : fst srcE = fst srcH.
Hypothesis Hb : 2 <= b.
Notation co := (co Q).
Notation rks := (ranks P Q).
Lemma HP : 0 < P. Proof using DDE. destruct DDE as (A & _). exact A. Qed.
Lemma HQ : 0 < Q. Proof using DDE. destruct DDE as (_ & A & _). exact A. Qed.
Lemma Hmb : 0 < mb. Proof using DDH. destruct DDH as (_ & _ & A & _). destruct (A Row) as (_ & B & _). exact B. Qed.
Lemma Hnb : 0 < nb. Proof using DDE. destruct DDE as (_ & _ & A & _). destruct (A Col) as (_ & B & _). exact B. Qed.
Lemma Hbm : (b | mb). Proof using DDE. destruct DDE as (_ & _ & A & _). destruct (A Row) as (_ & _ & _ & B & _). exact B. Qed.
Notation LH rc := (arg_layout (m, m) (mb, mb) (mb, mb) (P, Q) srcH (0, 0) rc).
Notation LE rc := (arg_layout (m, ne) (mb, nb) (b, nb) (P, Q) srcE (0, 0) rc).
Lemma MH : forall r rc, In r rks -> models (co rc r) (LH rc) (ax Q DH r rc).
Proof using DDH. intros r rc R. apply (ga_models _ _ _ _ _ (distributed_axes _ _ _ _ _ _ _ _ DDH)). apply (in_ranks_rc P Q (proj1 DDH) (proj1 (proj2 DDH)) rc r) in R. apply R. Qed.
Lemma ME : forall r rc, In r rks -> models (co rc r) (LE rc) (ax Q DE r rc).
Proof using DDE. intros r rc R. apply (ga_models _ _ _ _ _ (distributed_axes _ _ _ _ _ _ _ _ DDE)). apply (in_ranks_rc P Q (proj1 DDE) (proj1 (proj2 DDE)) rc r) in R. apply R. Qed.
Lemma OH : forall rc, l_off (LH rc) = 0. Proof using. intros []; reflexivity. Qed.
Lemma OE : forall rc, l_off (LE rc) = 0. Proof using. intros []; reflexivity. Qed.

(** b divides mb: a block is in one tile of HH *)
Lemma blk_div : forall x p, 0 <= x -> 0 <= p < b -> (x * b + p) / mb = x * b / mb /\ (x * b + p) mod mb = x * b mod mb + p.
Proof using DDH DDE Hb.
  intros x p Lx Lp. pose proof Hmb as MB. destruct Hbm as [c EC]. rewrite EC in *. clear EC. assert (0 < c) by nia.
  assert (A : x * b = b * c * (x / c) + b * (x mod c)) by (pose proof (Z.div_mod x c ltac:(lia)); nia). pose proof (Z.mod_pos_bound x c ltac:(lia)) as B.
  assert (D1 : x * b / (c * b) = x / c) by (symmetry; apply (Z.div_unique _ _ _ (b * (x mod c))); [left; nia|nia]).
  assert (D2 : (x * b + p) / (c * b) = x / c) by (symmetry; apply (Z.div_unique _ _ _ (b * (x mod c) + p)); [left; nia|nia]).
  split; [congruence|]. rewrite !Z.mod_eq by lia. rewrite D1, D2. lia.
Qed.
Lemma next_div : forall x, 0 <= x -> (x + 1) * b / mb = x * b / mb \/ (x + 1) * b / mb = x * b / mb + 1.
Proof using DDH DDE Hb.
  intros x Lx. pose proof Hmb as MB. assert (b <= mb) by (apply Z.divide_pos_le; [exact MB|exact Hbm]).
  assert (A : x * b / mb <= (x + 1) * b / mb) by (apply Z.div_le_mono; nia). assert (B : (x + 1) * b / mb <= (x * b + 1 * mb) / mb) by (apply Z.div_le_mono; nia).
  rewrite Z.div_add in B by lia. lia.
Qed.

Section rank.
Variable r : Z.
Hypothesis R : In r rks.
Variables i j : Z.
Hypothesis Hi : 0 <= i.
Hypothesis Hj : 0 <= j.
Lemma x_ti : d_ti Q b DH r i = i * b / mb. Proof using DDH R Hi Hb. unfold d_ti. apply (z_tile _ _ _ (MH r Row R) (OH Row)). nia. Qed.
Lemma x_tj : d_tj Q b DH r j = j * b / mb. Proof using DDH R Hj Hb. unfold d_tj. apply (z_tile _ _ _ (MH r Col R) (OH Col)). nia. Qed.
Lemma x_oi : d_oi Q b DH r i = i * b mod mb. Proof using DDH R Hi Hb. unfold d_oi. apply (z_in_tile _ _ _ (MH r Row R) (OH Row)). nia. Qed.
Lemma x_oj : d_oj Q b DH r j = j * b mod mb. Proof using DDH R Hj Hb. unfold d_oj. apply (z_in_tile _ _ _ (MH r Col R) (OH Col)). nia. Qed.
Lemma x_hrow : hh_row Q b DH r i = (fst srcH + i * b / mb) mod P.
Proof using DDH R Hi Hb.
  unfold hh_row, t_own. rewrite x_ti. pose proof Hmb. rewrite (z_own _ _ _ (MH r Row R) (OH Row)) by (apply Z.div_pos; nia). cbn [arg_layout l_src l_block l_grid l_tile sel fst]. rewrite Z.div_mul by lia. reflexivity.
Qed.
Lemma x_hcol : hh_col Q b DH r j = (snd srcH + j * b / mb) mod Q.
Proof using DDH R Hj Hb.
  unfold hh_col, t_own. rewrite x_tj. pose proof Hmb. rewrite (z_own _ _ _ (MH r Col R) (OH Col)) by (apply Z.div_pos; nia). cbn [arg_layout l_src l_block l_grid l_tile sel snd]. rewrite Z.div_mul by lia. reflexivity.
Qed.
Lemma x_hr : d_hr Q b DH r i = Z.min b (m - i * b). Proof using DDH R. unfold d_hr. rewrite (z_size _ _ _ (MH r Row R)). reflexivity. Qed.
Lemma x_hc : d_hc Q b DH r j = Z.min b (m - j * b). Proof using DDH R. unfold d_hc. rewrite (z_size _ _ _ (MH r Col R)). reflexivity. Qed.
Lemma x_rows : d_rows Q b DE r i = Z.min (2 * b) (m - i * b) - 1. Proof using DDE R. unfold d_rows. rewrite (z_size _ _ _ (ME r Row R)). reflexivity. Qed.
Lemma x_ie : d_ie Q b DE r i = i.
Proof using DDE R Hi Hb. unfold d_ie. rewrite (z_tile _ _ _ (ME r Row R) (OE Row)) by nia. cbn [arg_layout l_tile sel fst]. apply Z.div_mul. lia. Qed.
Lemma x_tiles : i * b < m -> d_tiles Q b DE r i = ((i + 1) * b <? m).
Proof using DDE R Hi Hb.
  intros L. unfold d_tiles. rewrite x_ie. pose proof (z_nt_iff _ _ _ (ME r Row R) (OE Row)) as Z0. cbn [arg_layout l_tile l_size sel fst] in Z0.
  assert (A : 0 <= i < ax_nr_tiles (ax Q DE r Row)) by (apply Z0; lia). specialize (Z0 (i + 1)). destruct (Z.ltb_spec ((i + 1) * b) m) as [B|B].
  - assert (0 <= i + 1 < ax_nr_tiles (ax Q DE r Row)) by (apply Z0; lia). destruct (Z.eqb_spec i (ax_nr_tiles (ax Q DE r Row) - 1)); [lia|reflexivity].
  - destruct (Z.eqb_spec i (ax_nr_tiles (ax Q DE r Row) - 1)); [reflexivity|]. assert (0 <= i + 1 < ax_nr_tiles (ax Q DE r Row)) by lia. apply Z0 in H. lia.
Qed.
Lemma x_own : forall t, 0 <= t -> t_own Q DE r Row t = (fst srcH + t * b / mb) mod P.
Proof using DDE R SR.
  intros t Lt. unfold t_own. rewrite (z_own _ _ _ (ME r Row R) (OE Row)) by exact Lt. cbn [arg_layout l_src l_block l_grid l_tile sel fst]. rewrite SR. reflexivity.
Qed.
Lemma x_ranks : i * b < m -> d_ranks Q b DE r i = ((i + 1) * b <? m) && negb ((fst srcH + i * b / mb) mod P =? (fst srcH + (i + 1) * b / mb) mod P).
Proof using DDE R Hi Hb SR. intros L. unfold d_ranks. rewrite x_tiles, x_ie, !x_own by (first [exact L | lia]). reflexivity. Qed.
Lemma x_bot : d_bot P Q b DH r i = ((fst srcH + i * b / mb) mod P + 1) mod P. Proof using DDH R Hi Hb. unfold d_bot. rewrite x_hrow. reflexivity. Qed.
Lemma x_sz : forall t, szt Q DE r Row t = Z.min b (m - t * b). Proof using DDE R. intros t. unfold szt. rewrite (z_tsize _ _ _ (ME r Row R) (OE Row)). reflexivity. Qed.
Lemma x_szc : forall t, szt Q DE r Col t = Z.min nb (ne - t * nb). Proof using DDE R. intros t. unfold szt. rewrite (z_tsize _ _ _ (ME r Col R) (OE Col)). reflexivity. Qed.
Lemma x_gl : forall l, 0 <= l < lnt Q DE r Col -> 0 <= t_gl Q DE r Col l /\ t_gl Q DE r Col l * nb < ne /\ (snd srcE + t_gl Q DE r Col l) mod Q = co Col r.
Proof using DDE R.
  intros l Ll. pose proof Hnb. destruct (z_local _ _ _ (ME r Col R) l Ll) as [A B]. fold (t_gl Q DE r Col l) in A, B.
  rewrite (z_own _ _ _ (ME r Col R) (OE Col)) in B by lia. cbn [arg_layout l_src l_block l_grid l_tile sel snd] in B. rewrite Z.div_mul in B by lia.
  apply (z_nt_iff _ _ _ (ME r Col R) (OE Col)) in A. cbn [arg_layout l_tile l_size sel snd] in A. split; [apply A|]. split; [apply A|]. exact B.
Qed.
Lemma x_gl_inv : forall t, 0 <= t -> t * nb < ne -> (snd srcE + t) mod Q = co Col r -> exists l, 0 <= l < lnt Q DE r Col /\ t_gl Q DE r Col l = t.
Proof using DDE R.
  intros t T0 T1 O. pose proof Hnb. apply (z_local_inv _ _ _ (ME r Col R) t).
  - apply (z_nt_iff _ _ _ (ME r Col R) (OE Col)). cbn [arg_layout l_tile l_size sel snd]. lia.
  - rewrite (z_own _ _ _ (ME r Col R) (OE Col)) by lia. cbn [arg_layout l_src l_block l_grid l_tile sel snd]. rewrite Z.div_mul by lia. exact O.
Qed.
Lemma x_gl_inj : forall l l', 0 <= l < lnt Q DE r Col -> 0 <= l' < lnt Q DE r Col -> t_gl Q DE r Col l = t_gl Q DE r Col l' -> l = l'.
Proof using DDE R. intros l l' A B. apply (z_local_inj _ _ _ (ME r Col R)); assumption. Qed.
Lemma x_lnt : 0 <= lnt Q DE r Col.
Proof using DDE R. unfold lnt. rewrite (T_local_nr_tiles _ _ _ (ME r Col R)). apply count_bounds. apply (T_nt_nonneg _ _ _ (ME r Col R)). Qed.
Lemma x_hsize : ax_size (ax Q DH r Row) = m. Proof using DDH R. rewrite (z_size _ _ _ (MH r Row R)). reflexivity. Qed.
Lemma x_esize : ax_size (ax Q DE r Col) = ne. Proof using DDE R. rewrite (z_size _ _ _ (ME r Col R)). reflexivity. Qed.
End rank.
(** two rows of processes: the second is the one below *)
Lemma below : forall i, 0 <= i -> (fst srcH + i * b / mb) mod P <> (fst srcH + (i + 1) * b / mb) mod P ->
  (fst srcH + (i + 1) * b / mb) mod P = ((fst srcH + i * b / mb) mod P + 1) mod P.
Proof using DDH DDE Hb.
  intros i Hi N. destruct (next_div i Hi) as [E|E]; rewrite E in *; [contradiction|]. pose proof HP. rewrite Z.add_mod_idemp_l by lia. f_equal. lia.
Qed.
End idx.
