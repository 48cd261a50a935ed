(** * reduction_to_band, local: one iteration *)
From Coq Require Import ZArith Lia List Bool Permutation Ring.
From Verif Require Import Loop StarField DenseSpec Tiling DenseJobs TileJobs RefKernels BlockJobs HouseSpec HouseModel HouseProofs HouseQR TFactorProofs MultiJobs Red2BandModel Red2BandSpec.
From Verif Require DistTriProofs.
Import ListNotations.
Local Open Scope Z_scope.

(** ** Indices *)
Section idx.
Variables n mb b : Z.
Hypothesis (Hb : 0 < b) (Hmb : 0 < mb) (Hdiv : mb mod b = 0).
Variable j : Z.
Hypothesis (J0 : 0 <= j) (J1 : j * b < r2b_nrefls n b).
Notation i0 := (i0 mb b j). Notation j0 := (j0 mb b j). Notation cj := (cj mb b j). Notation ri := (ri mb b j).
Notation e_row := (e_row b j). Notation e_col := (e_col b j). Notation rows := (rows n mb b j). Notation ptl := (ptl n mb b j).
Notation nrt := (r2b_nrt n mb). Notation sz := (r2b_sz n mb). Notation n_refl := (n_refl n b j).
Lemma mb_mult : exists r, mb = r * b /\ 0 < r.
Proof. exists (mb / b). pose proof (Z.div_mod mb b). nia. Qed.
Lemma J_n : e_row < n - 1.
Proof. unfold r2b_nrefls, Red2BandModel.e_row in *. nia. Qed.
Lemma n_refl_pos : 0 < n_refl.
Proof. unfold Red2BandModel.n_refl. lia. Qed.
Lemma n_refl_b : n_refl <= b.
Proof. unfold Red2BandModel.n_refl. lia. Qed.
Lemma n_refl_n : e_row + n_refl < n.
Proof. unfold Red2BandModel.n_refl, r2b_nrefls, Red2BandModel.e_row in *. nia. Qed.
Lemma e_row_col : e_row = e_col + b.
Proof. unfold Red2BandModel.e_row, Red2BandModel.e_col. lia. Qed.
(** a multiple of b that is not a multiple of mb leaves room for b more *)
Lemma mod_room : forall k, k mod b = 0 -> 0 <= k mod mb /\ k mod mb + b <= mb.
Proof.
  intros k E. destruct mb_mult as (r & R & RP). pose proof (Z.mod_pos_bound k mb Hmb).
  assert (E2 : (k mod mb) mod b = 0).
  { rewrite R, (Z.mul_comm r b), Z.rem_mul_r by lia. rewrite E, Z.add_0_l, Z.mul_comm. apply Z.mod_mul. lia. }
  pose proof (Z.div_mod (k mod mb) b). split; [lia|]. set (s := (k mod mb) / b) in *. assert (s < r) by nia. nia.
Qed.
Lemma e_row_b : e_row mod b = 0.
Proof. apply Z.mod_mul. lia. Qed.
Lemma e_col_b : e_col mod b = 0.
Proof. apply Z.mod_mul. lia. Qed.
Lemma e_row_split : e_row = i0 * mb + e_row mod mb.
Proof. unfold Red2BandModel.i0. pose proof (Z.div_mod e_row mb). lia. Qed.
Lemma e_col_split : e_col = j0 * mb + cj.
Proof. unfold Red2BandModel.j0, Red2BandModel.cj. pose proof (Z.div_mod e_col mb). lia. Qed.
Lemma cj_bound : 0 <= cj /\ cj + b <= mb.
Proof. apply mod_room. apply e_col_b. Qed.
Lemma nrt_spec : (nrt - 1) * mb < n <= nrt * mb.
Proof. unfold r2b_nrt, ceil_div. pose proof (Z.div_mod (n + mb - 1) mb). pose proof (Z.mod_pos_bound (n + mb - 1) mb Hmb). lia. Qed.
Lemma i0_bound : 0 <= i0 < nrt.
Proof. pose proof J_n. pose proof nrt_spec. pose proof e_row_split. pose proof (mod_room _ e_row_b). assert (0 <= e_row) by (unfold Red2BandModel.e_row; nia). nia. Qed.
Lemma j0_bound : 0 <= j0 <= i0.
Proof. unfold Red2BandModel.j0, Red2BandModel.i0. split; [apply Z.div_pos; [unfold Red2BandModel.e_col; nia|lia]|]. apply Z.div_le_mono; [lia|]. unfold Red2BandModel.e_col, Red2BandModel.e_row. lia. Qed.
Lemma pcols_b : pcols n mb b j = b.
Proof.
  unfold pcols, r2b_sz. pose proof cj_bound. pose proof e_col_split. pose proof J_n. pose proof e_row_col. lia.
Qed.
Lemma full_i0 : full_band mb b = true -> j0 < i0 /\ cj = 0 /\ e_row mod mb = 0.
Proof.
  unfold full_band. intros E. apply Z.eqb_eq in E. unfold Red2BandModel.i0, Red2BandModel.j0, Red2BandModel.cj, Red2BandModel.e_row, Red2BandModel.e_col. rewrite E.
  rewrite !Z.div_mul, !Z.mod_mul by lia. lia.
Qed.
Lemma ri_bound : forall k, i0 <= k -> 0 <= ri k < mb.
Proof. intros k L. unfold Red2BandModel.ri. pose proof (mod_room _ e_row_b). destruct (k =? i0); lia. Qed.
Lemma rows_pos : forall k, i0 <= k < nrt -> 0 < rows k /\ ri k + rows k <= mb /\ k * mb + ri k + rows k <= n.
Proof.
  intros k L. unfold Red2BandModel.rows, r2b_sz. pose proof nrt_spec. pose proof (ri_bound k). assert (k * mb + ri k < n).
  { unfold Red2BandModel.ri. destruct (Z.eqb_spec k i0) as [->|N]; [pose proof J_n; pose proof e_row_split; lia|nia]. }
  lia.
Qed.
Lemma ptl_ok : tiling_ok ptl.
Proof. split; cbn [tl_n tl_sz Red2BandModel.ptl]; [pose proof i0_bound; lia|]. intros k L. apply rows_pos. lia. Qed.
Lemma ptl_n : tl_n ptl = nrt - i0.
Proof. reflexivity. Qed.
Lemma ptl_n_pos : 0 < tl_n ptl.
Proof. rewrite ptl_n. pose proof i0_bound. lia. Qed.
Lemma rows_last : forall k, i0 <= k -> k + 1 < nrt -> ri k + rows k = mb.
Proof. intros k L1 L2. unfold Red2BandModel.rows, r2b_sz. pose proof nrt_spec. nia. Qed.
Lemma ptl_off : forall k, 0 <= k < nrt - i0 -> e_row + tl_off ptl k = (i0 + k) * mb + ri (i0 + k).
Proof.
  intros k [L0 L1]. revert L1. pattern k. apply natlike_ind; [| |exact L0].
  - intros _. rewrite off_0. unfold Red2BandModel.ri. replace (i0 + 0) with i0 by lia. rewrite Z.eqb_refl. pose proof e_row_split. lia.
  - intros x X IH L. rewrite <- Z.add_1_r in *. rewrite off_succ by lia. rewrite Z.add_assoc, IH by lia. cbn [tl_sz Red2BandModel.ptl].
    pose proof (rows_last (i0 + x)). unfold Red2BandModel.ri at 2. destruct (Z.eqb_spec (i0 + (x + 1)) i0); [lia|]. lia.
Qed.
Lemma ptl_size : tl_size ptl = n - e_row.
Proof.
  unfold tl_size. rewrite ptl_n. pose proof i0_bound. replace (nrt - i0) with (nrt - i0 - 1 + 1) by lia. rewrite off_succ by lia.
  pose proof (ptl_off (nrt - i0 - 1) ltac:(lia)). cbn [tl_sz Red2BandModel.ptl]. unfold Red2BandModel.rows, r2b_sz. pose proof nrt_spec.
  replace (i0 + (nrt - i0 - 1)) with (nrt - 1) in * by lia. lia.
Qed.
Lemma n_refl_rows : n_refl <= tl_sz ptl 0.
Proof.
  cbn [tl_sz Red2BandModel.ptl]. replace (i0 + 0) with i0 by lia. unfold Red2BandModel.rows, r2b_sz, Red2BandModel.ri. rewrite Z.eqb_refl.
  pose proof (mod_room _ e_row_b). pose proof n_refl_b. pose proof n_refl_n. pose proof e_row_split. lia.
Qed.
(** the tile row of an element of the trailing matrix *)
Lemma loc_row : forall k p, 0 <= k < tl_n ptl -> 0 <= p < tl_sz ptl k ->
  (e_row + (tl_off ptl k + p)) / mb = i0 + k /\ (e_row + (tl_off ptl k + p)) mod mb = ri (i0 + k) + p.
Proof.
  intros k p Lk Lp. rewrite ptl_n in Lk. pose proof (ptl_off k Lk). cbn [tl_sz Red2BandModel.ptl] in Lp. pose proof (rows_pos (i0 + k) ltac:(lia)). pose proof (ri_bound (i0 + k)).
  replace (e_row + (tl_off ptl k + p)) with (mb * (i0 + k) + (ri (i0 + k) + p)) by lia. split.
  - symmetry. apply (Z.div_unique_pos _ mb _ (ri (i0 + k) + p)); lia.
  - symmetry. apply (Z.mod_unique_pos _ mb (i0 + k)); lia.
Qed.
Lemma loc_col : forall q, 0 <= q < b -> (e_col + q) / mb = j0 /\ (e_col + q) mod mb = cj + q.
Proof.
  intros q Lq. pose proof cj_bound. pose proof e_col_split. replace (e_col + q) with (mb * j0 + (cj + q)) by lia. split.
  - symmetry. apply (Z.div_unique_pos _ mb _ (cj + q)); lia.
  - symmetry. apply (Z.mod_unique_pos _ mb j0); lia.
Qed.
Lemma row_split : forall a, e_row <= a < n -> exists k p, 0 <= k < tl_n ptl /\ 0 <= p < tl_sz ptl k /\ a = e_row + (tl_off ptl k + p).
Proof.
  intros a L. destruct (elem_split ptl ptl_ok (a - e_row)) as (k & p & Lk & Lp & E); [rewrite ptl_size; lia|]. exists k, p. repeat split; try tauto. lia.
Qed.
End idx.

(** ** Accumulation *)
Section accum.
Context {K : starfield}.
Local Open Scope sf_scope.
Add Ring KringAc : (fring K).
Lemma acc_flat : forall {X} (body : X -> list (tjob (mat K))) (S : tid -> Prop) (y : tid) (val : mat K -> F K) (dl : X -> F K) L st0,
  (forall x st w, In x L -> S w -> trun (body x) st w = st w) ->
  (forall x st, In x L -> (forall w, S w -> st w = st0 w) -> val (trun (body x) st y) = val (st y) + dl x) ->
  val (trun (flat_map body L) st0 y) = val (st0 y) + DistTriProofs.gsum L dl.
Proof.
  intros X body S y val dl L st0 PR ST.
  assert (H : forall l st, incl l L -> (forall w, S w -> st w = st0 w) -> val (trun (flat_map body l) st y) = val (st y) + DistTriProofs.gsum l dl).
  { induction l as [|x l IH]; intros st IN AG; cbn [flat_map]; unfold DistTriProofs.gsum; cbn [fold_right].
    - cbn [trun fold_left]. ring.
    - assert (Ix : In x L) by (apply IN; left; reflexivity). rewrite trun_app, IH.
      + rewrite ST by assumption. unfold DistTriProofs.gsum. ring.
      + intros z Iz. apply IN. right. exact Iz.
      + intros w Sw. rewrite PR by assumption. apply AG. exact Sw. }
  apply H; [intros x Ix; exact Ix|reflexivity].
Qed.
Lemma acc_up : forall lo hi (body : Z -> list (tjob (mat K))) (S : tid -> Prop) (y : tid) (val : mat K -> F K) (dl : Z -> F K) st0,
  (forall x st w, (lo <= x < hi)%Z -> S w -> trun (body x) st w = st w) ->
  (forall x st, (lo <= x < hi)%Z -> (forall w, S w -> st w = st0 w) -> val (trun (body x) st y) = val (st y) + dl x) ->
  val (trun (for_up lo hi body) st0 y) = val (st0 y) + fsum lo hi dl.
Proof.
  intros lo hi body S y val dl st0 PR ST. unfold for_up. rewrite (acc_flat body S y val dl); [reflexivity| |].
  - intros x st w I0. apply PR. apply in_zrange. exact I0.
  - intros x st I0. apply ST. apply in_zrange. exact I0.
Qed.
Lemma gsum_rev : forall {X} (l : list X) (f : X -> F K), DistTriProofs.gsum (rev l) f = DistTriProofs.gsum l f.
Proof.
  intros X l f. induction l as [|x l IH]; [reflexivity|]. cbn [rev]. rewrite DistTriProofs.gsum_app, IH. unfold DistTriProofs.gsum. cbn [fold_right]. ring.
Qed.
Lemma acc_down : forall lo hi (body : Z -> list (tjob (mat K))) (S : tid -> Prop) (y : tid) (val : mat K -> F K) (dl : Z -> F K) st0,
  (forall x st w, (lo <= x <= hi)%Z -> S w -> trun (body x) st w = st w) ->
  (forall x st, (lo <= x <= hi)%Z -> (forall w, S w -> st w = st0 w) -> val (trun (body x) st y) = val (st y) + dl x) ->
  val (trun (for_down hi lo body) st0 y) = val (st0 y) + fsum lo (hi + 1) dl.
Proof.
  intros lo hi body S y val dl st0 PR ST. unfold for_down. rewrite (acc_flat body S y val dl); [rewrite gsum_rev; reflexivity| |].
  - intros x st w I0. apply in_rev, in_zrange in I0. apply PR. lia.
  - intros x st I0. apply in_rev, in_zrange in I0. apply ST. lia.
Qed.
(** the row R of a Hermitian matrix, read from its lower triangle *)
Lemma tri_sum : forall lo hi R (c : Z -> F K), (lo <= R < hi)%Z ->
  fsum lo hi (fun i => fsum lo (i + 1) (fun k => if (i =? R)%Z then c k else if (k =? R)%Z then c i else 0)) = fsum lo hi c.
Proof.
  intros lo hi R c L. rewrite (fsum_app lo R hi), (fsum_app lo (R + 1) hi c) by lia. rewrite (fsum_cons R hi) by lia.
  rewrite (fsum_0 lo R).
  - rewrite (fsum_ext lo (R + 1) _ c) by (intros k _; rewrite Z.eqb_refl; reflexivity). rewrite (fsum_ext (R + 1) hi _ c); [ring|]. intros i Li. destruct (Z.eqb_spec i R); [lia|]. rewrite (fsum_one _ _ _ R) by (first [lia | intros k Lk N; destruct (Z.eqb_spec k R); [contradiction|reflexivity]]).
    rewrite Z.eqb_refl. reflexivity.
  - intros i Li. apply fsum_0. intros k Lk. destruct (Z.eqb_spec i R), (Z.eqb_spec k R); try lia. reflexivity.
Qed.
End accum.

(** ** The two-sided update as a congruence *)
Section algebra.
Context {K : starfield}.
Local Open Scope sf_scope.
Add Ring KringAl : (fring K).
Lemma mmul_sub_l : forall k (A A' B : mat K) i j, mmul k (fun i j => A i j - A' i j) B i j = mmul k A B i j - mmul k A' B i j.
Proof. intros. unfold mmul. rewrite <- fsum_sub. apply fsum_ext. intros r _. ring. Qed.
Lemma mmul_sub_r : forall k (A B B' : mat K) i j, mmul k A (fun i j => B i j - B' i j) i j = mmul k A B i j - mmul k A B' i j.
Proof. intros. unfold mmul. rewrite <- fsum_sub. apply fsum_ext. intros r _. ring. Qed.
Lemma mmul_scal_l : forall k c (A B : mat K) i j, mmul k (fun i j => c * A i j) B i j = c * mmul k A B i j.
Proof. intros. unfold mmul. rewrite <- fsum_mul_l. apply fsum_ext. intros r _. ring. Qed.
(** A - X V^H - V X^H = Q^H A Q with Q = I - V T V^H and X = A V T - 1/2 V (V T)^H A V T *)
Lemma two_sided : forall m k (A V T W X W2 : mat K), meq m m (adj A) A ->
  (forall a q, (0 <= a < m)%Z -> (0 <= q < k)%Z -> W a q = mmul k V T a q) ->
  (forall a q, (0 <= a < m)%Z -> (0 <= q < k)%Z -> X a q = mmul m A W a q) ->
  (forall p q, (0 <= p < k)%Z -> (0 <= q < k)%Z -> W2 p q = mmul m (adj W) X p q) ->
  forall a c, (0 <= a < m)%Z -> (0 <= c < m)%Z ->
  A a c - fsum 0 k (fun r => (X a r - fhalf * mmul k V W2 a r) * fconj (V c r)) - fsum 0 k (fun r => V a r * fconj (X c r - fhalf * mmul k V W2 c r)) =
  mmul m (adj (fun i j => ident i j - block k V T i j)) (mmul m A (fun i j => ident i j - block k V T i j)) a c.
Proof.
  intros m k A V T W X W2 HA EW EX EW2. set (B := block k V T).
  assert (BW : forall i j, (0 <= i < m)%Z -> mmul k W (adj V) i j = B i j).
  { intros i j Li. unfold B, block. apply mmul_ext; [|reflexivity]. intros r Lr. apply EW; assumption. }
  assert (XV : forall i j, (0 <= i < m)%Z -> (0 <= j < m)%Z -> mmul k X (adj V) i j = mmul m A B i j).
  { intros i j Li Lj. rewrite (mmul_ext k X (mmul m A W) (adj V) (adj V)) by (intros; first [apply EX; assumption | reflexivity]).
    rewrite mmul_assoc. apply mmul_ext; [reflexivity|]. intros r Lr. apply BW. exact Lr. }
  assert (VW : forall i j, (0 <= j < m)%Z -> mmul k V (adj W) i j = adj B i j).
  { intros i j Lj. unfold adj at 2. unfold opm. rewrite <- BW by exact Lj. change (fconj (mmul k W (adj V) j i)) with (adj (mmul k W (adj V)) i j). rewrite adj_mmul.
    apply mmul_ext; [|reflexivity]. intros r _. symmetry. apply adj_adj. }
  assert (VWV : forall i j, (0 <= i < m)%Z -> (0 <= j < m)%Z -> mmul k (mmul k V W2) (adj V) i j = mmul m (adj B) (mmul m A B) i j).
  { intros i j Li Lj. rewrite (mmul_ext k _ (mmul m (mmul k V (adj W)) X) (adj V) (adj V)); [|intros r Lr|reflexivity].
    - rewrite mmul_assoc. apply mmul_ext; intros r Lr; [apply VW; exact Lr|apply XV; assumption].
    - rewrite mmul_assoc. apply mmul_ext; [reflexivity|]. intros u Lu. apply EW2; assumption. }
  assert (S1 : forall i j, (0 <= i < m)%Z -> (0 <= j < m)%Z -> fsum 0 k (fun r => (X i r - fhalf * mmul k V W2 i r) * fconj (V j r)) = mmul m A B i j - fhalf * mmul m (adj B) (mmul m A B) i j).
  { intros i j Li Lj. rewrite <- XV, <- VWV by assumption.
    change (fsum 0 k (fun r => (X i r - fhalf * mmul k V W2 i r) * fconj (V j r))) with (mmul k (fun i r => X i r - fhalf * mmul k V W2 i r) (adj V) i j).
    rewrite mmul_sub_l, mmul_scal_l. reflexivity. }
  assert (HAB : forall i j, (0 <= i < m)%Z -> (0 <= j < m)%Z -> fconj (mmul m A B j i) = mmul m (adj B) A i j).
  { intros i j Li Lj. change (fconj (mmul m A B j i)) with (adj (mmul m A B) i j). rewrite adj_mmul. apply mmul_ext; [reflexivity|]. intros r Lr. apply HA; assumption. }
  assert (HBAB : forall i j, (0 <= i < m)%Z -> (0 <= j < m)%Z -> fconj (mmul m (adj B) (mmul m A B) j i) = mmul m (adj B) (mmul m A B) i j).
  { intros i j Li Lj. change (fconj (mmul m (adj B) (mmul m A B) j i)) with (adj (mmul m (adj B) (mmul m A B)) i j). rewrite adj_mmul.
    rewrite (mmul_ext m _ (mmul m (adj B) A) _ B); [apply mmul_assoc| |].
    - intros r Lr. apply (HAB i r); assumption.
    - intros r Lr. apply adj_adj. }
  intros a c La Lc. rewrite S1 by assumption.
  assert (S2 : fsum 0 k (fun r => V a r * fconj (X c r - fhalf * mmul k V W2 c r)) = fconj (mmul m A B c a - fhalf * mmul m (adj B) (mmul m A B) c a)).
  { rewrite <- S1 by assumption. rewrite fsum_conj. apply fsum_ext. intros r _. rewrite fconj_mul, fconj_conj. ring. }
  assert (HH : fconj fhalf = (fhalf : F K)).
  { assert (N : (1 + 1 : F K) <> 0) by (apply f2_neq). apply (fmul_cancel_r (fconj fhalf) fhalf (1 + 1) N).
    transitivity (1 : F K); [|unfold fhalf; symmetry; apply finv_l; exact N].
    transitivity (fconj (fhalf * (1 + 1)) : F K); [rewrite fconj_mul, fconj_add, fconj_1; reflexivity|]. unfold fhalf. rewrite finv_l by exact N. apply fconj_1. }
  rewrite S2, fconj_sub, fconj_mul, HH, HAB, HBAB by assumption.
  rewrite (mmul_ext m (adj (fun i j => ident i j - B i j)) (fun i j => ident i j - adj B i j) (mmul m A (fun i j => ident i j - B i j)) (fun i j => A i j - mmul m A B i j)).
  - rewrite mmul_sub_l, !mmul_sub_r, !mmul_ident_l by assumption.
    transitivity (A a c - mmul m A B a c - mmul m (adj B) A a c + (fhalf + fhalf) * mmul m (adj B) (mmul m A B) a c); [ring|]. rewrite fhalf_2. ring.
  - intros r _. unfold adj, opm. rewrite fconj_sub, conj_ident, ident_sym. reflexivity.
  - intros r Lr. rewrite mmul_sub_r, mmul_ident_r by assumption. reflexivity.
Qed.
End algebra.

(** ** One iteration *)
Section step.
Context {K : starfield} (kn : kernels K) (KO : kernels_ok kn) (rs : roots K).
Local Open Scope sf_scope.
Add Ring KringR : (fring K).
Variables n mb b : Z.
Variables avail minwork avail_t : Z.
Variable ord : Z -> Z -> list Z.
Hypothesis (Hb : (0 < b)%Z) (Hmb : (0 < mb)%Z) (Hdiv : (mb mod b = 0)%Z).
Variable j : Z.
Hypothesis (J0 : (0 <= j)%Z) (J1 : (j * b < r2b_nrefls n b)%Z).
Notation i0 := (i0 mb b j). Notation j0 := (j0 mb b j). Notation cj := (cj mb b j). Notation ri := (ri mb b j).
Notation e_row := (e_row b j). Notation e_col := (e_col b j). Notation rows := (rows n mb b j). Notation t := (ptl n mb b j).
Notation nrt := (r2b_nrt n mb). Notation n_refl := (n_refl n b j). Notation nw := (panel_nworkers t avail minwork).
Hypothesis ORD : forall c, (0 <= c < n_refl)%Z -> Permutation (ord j c) (zrange 0 nw).
Hypothesis AT : (0 < avail_t)%Z.
Notation m := (n - e_row)%Z.
Notation G := (@r2b_mat K mb).
Lemma TOK : tiling_ok t.
Proof using Hb Hmb Hdiv J0 J1. apply ptl_ok; assumption. Qed.
Lemma NT : (0 < tl_n t)%Z.
Proof using Hb Hmb Hdiv J0 J1. apply ptl_n_pos; assumption. Qed.

(** tile (i, k) of the trailing matrix, tile i of the panel *)
Lemma G_trail : forall st i k p q, (0 <= i < tl_n t)%Z -> (0 <= k < tl_n t)%Z -> (0 <= p < tl_sz t i)%Z -> (0 <= q < tl_sz t k)%Z ->
  G st (e_row + (tl_off t i + p))%Z (e_row + (tl_off t k + q))%Z = sub (ri (i0 + i)) (ri (i0 + k)) (st (rA (i0 + i) (i0 + k))) p q.
Proof using Hb Hmb Hdiv J0 J1.
  intros st i k p q Li Lk Lp Lq. unfold r2b_mat, sub.
  destruct (loc_row n mb b Hb Hmb Hdiv j J0 J1 i p Li Lp) as [-> ->], (loc_row n mb b Hb Hmb Hdiv j J0 J1 k q Lk Lq) as [-> ->]. reflexivity.
Qed.
Lemma G_panel : forall st i p q, (0 <= i < tl_n t)%Z -> (0 <= p < tl_sz t i)%Z -> (0 <= q < b)%Z ->
  G st (e_row + (tl_off t i + p))%Z (e_col + q)%Z = sub (ri (i0 + i)) cj (st (rA (i0 + i) j0)) p q.
Proof using Hb Hmb Hdiv J0 J1.
  intros st i p q Li Lp Lq. unfold r2b_mat, sub.
  destruct (loc_row n mb b Hb Hmb Hdiv j J0 J1 i p Li Lp) as [-> ->], (loc_col mb b Hb Hmb Hdiv j q Lq) as [-> ->]. reflexivity.
Qed.

(** *** the panel *)
Lemma nth_tile_map : forall (f : Z -> mat K) lo hi k, (0 <= k < hi - lo)%Z -> nth_tile (map f (zrange lo hi)) k = f (lo + k)%Z.
Proof using.
  intros f lo hi k L. unfold nth_tile. apply nth_error_nth. rewrite nth_error_map, zrange_nth by lia. reflexivity.
Qed.
Lemma panel_outs_nodup : NoDup (rTau j :: map (fun i => rA i j0) (zrange i0 nrt)).
Proof using.
  constructor.
  - intros I0. apply in_map_iff in I0 as (i & E & _). discriminate.
  - apply FinFun.Injective_map_NoDup; [|apply zrange_NoDup]. intros x y E. injection E. auto.
Qed.
Section panel.
Variable st : tstore (mat K).
Definition pP : panel := fun k => sub (ri (i0 + k)) cj (nth_tile (map st (map (fun i => rA i j0) (zrange i0 nrt))) k).
Definition pres := panel_reflectors rs t nw b n_refl (ord j) pP (col_vec (st (rTau j))).
Definition pM1 : mat K := stack t (fst pres).
Definition pst1 := mexec st (job_panel rs n mb b avail minwork ord j).
Lemma pP_at : forall k, (0 <= k < tl_n t)%Z -> pP k = sub (ri (i0 + k)) cj (st (rA (i0 + k) j0)).
Proof using.
  intros k L. unfold pP. rewrite map_map, nth_tile_map by (rewrite ptl_n in L; lia). reflexivity.
Qed.
Lemma pP_stack : forall a q, (0 <= a < m)%Z -> (0 <= q < b)%Z -> stack t pP a q = G st (e_row + a)%Z (e_col + q)%Z.
Proof using Hb Hmb Hdiv J0 J1.
  intros a q La Lq. destruct (elem_split t TOK a) as (k & p & Lk & Lp & ->); [rewrite ptl_size by assumption; lia|].
  rewrite stack_at by first [exact TOK | assumption]. rewrite pP_at by assumption. symmetry. apply G_panel; assumption.
Qed.
Lemma st1_tau : pst1 (rTau j) = fun p q => if (q =? 0)%Z then snd pres p else st (rTau j) p q.
Proof using.
  apply (mexec_at st _ 0%nat); [apply panel_outs_nodup|reflexivity|reflexivity].
Qed.
Lemma st1_A : forall k, (0 <= k < tl_n t)%Z -> pst1 (rA (i0 + k) j0) =
  paste (ri (i0 + k)) cj (rows (i0 + k)) (pcols n mb b j) (st (rA (i0 + k) j0)) (fst pres k).
Proof using.
  intros k L. rewrite ptl_n in L. apply (mexec_at st _ (S (Z.to_nat k))); [apply panel_outs_nodup| |].
  - cbn [job_panel mj_out nth_error]. rewrite nth_error_map, zrange_nth by lia. reflexivity.
  - unfold mvals, job_panel. cbn [mj_out mj_fun map nth_error]. rewrite nth_error_map, zrange_nth by lia. cbn [option_map]. f_equal.
    rewrite Z.add_0_l, map_map, nth_tile_map by lia. unfold pres, pP. rewrite map_map. reflexivity.
Qed.
Lemma st1_frame : forall x, x <> rTau j -> (forall i, (i0 <= i < nrt)%Z -> x <> rA i j0) -> pst1 x = st x.
Proof using.
  intros x N1 N2. apply mexec_frame. cbn [job_panel mj_out]. intros [E|I0]; [congruence|]. apply in_map_iff in I0 as (i & E & I0). apply in_zrange in I0. apply (N2 i); [exact I0|congruence].
Qed.
Lemma st1_panel : forall a q, (0 <= a < m)%Z -> (0 <= q < b)%Z -> G pst1 (e_row + a)%Z (e_col + q)%Z = pM1 a q.
Proof using Hb Hmb Hdiv J0 J1.
  intros a q La Lq. destruct (elem_split t TOK a) as (k & p & Lk & Lp & ->); [rewrite ptl_size by assumption; lia|].
  rewrite G_panel by assumption. rewrite st1_A by assumption. unfold pM1. rewrite stack_at by first [exact TOK | assumption]. unfold sub, paste. rewrite pcols_b by assumption.
  cbn [tl_sz ptl] in Lp.
  destruct (Z.leb_spec (ri (i0 + k)) (ri (i0 + k) + p)), (Z.ltb_spec (ri (i0 + k) + p) (ri (i0 + k) + rows (i0 + k))), (Z.leb_spec cj (cj + q)), (Z.ltb_spec (cj + q) (cj + b)); try lia.
  cbn [andb]. f_equal; lia.
Qed.
Lemma st1_other : forall a q, (0 <= a < n)%Z -> (0 <= q < n)%Z -> ~ (e_row <= a /\ e_col <= q < e_row)%Z -> G pst1 a q = G st a q.
Proof using Hb Hmb Hdiv J0 J1.
  intros a q La Lq N. unfold r2b_mat.
  destruct (Z.eq_dec (q / mb) j0) as [Q|Q].
  2:{ rewrite st1_frame; [reflexivity|discriminate|]. intros i _ E. injection E. lia. }
  destruct (Z.lt_ge_cases (a / mb) i0) as [A|A].
  { rewrite st1_frame; [reflexivity|discriminate|]. intros i Li E. injection E. lia. }
  assert (AB : (a / mb < nrt)%Z).
  { pose proof (nrt_spec n mb Hmb). apply Z.div_lt_upper_bound; lia. }
  rewrite Q. replace (a / mb)%Z with (i0 + (a / mb - i0))%Z by lia. rewrite st1_A by (rewrite ptl_n; lia). unfold paste.
  destruct (_ && _) eqn:E; [|reflexivity]. exfalso. apply N. rewrite !andb_true_iff, !Z.leb_le, !Z.ltb_lt in E.
  rewrite pcols_b in E by assumption. replace (i0 + (a / mb - i0))%Z with (a / mb)%Z in E by lia.
  pose proof (Z.div_mod a mb). pose proof (Z.div_mod q mb). pose proof (e_col_split mb b Hmb j). pose proof (e_row_split mb b Hmb j). pose proof (e_row_col b j).
  unfold Red2BandModel.ri in E. destruct (Z.eqb_spec (a / mb) i0) as [E0|E0].
  - rewrite E0 in *. lia.
  - pose proof (mod_room mb b Hb Hmb Hdiv _ (e_row_b b Hb j)). pose proof (Z.mod_pos_bound a mb Hmb). assert (i0 + 1 <= a / mb)%Z by lia. nia.
Qed.
Lemma st1_qr : qr_inv t b (stack t pP) (col_vec (st (rTau j))) n_refl pM1 (col_vec (pst1 (rTau j))).
Proof using Hb Hmb Hdiv J0 J1 ORD.
  assert (Q := panel_qr rs t TOK NT nw b n_refl (ord j) pP (col_vec (st (rTau j)))). cbv zeta in Q.
  assert (W : (0 < nw)%Z) by (unfold panel_nworkers; lia).
  specialize (Q W ORD). pose proof (n_refl_pos n b Hb j J1). pose proof (n_refl_rows n mb b Hb Hmb Hdiv j J0 J1). pose proof (n_refl_b n b j). specialize (Q ltac:(lia) ltac:(lia) ltac:(lia)).
  fold pres pM1 in Q. rewrite st1_tau. exact Q.
Qed.
Lemma st1_value : let R := m_run rs t b (Z.to_nat n_refl) (stack t pP) (col_vec (st (rTau j))) in
  meq_rows t b pM1 (fst R) /\ forall i, col_vec (pst1 (rTau j)) i = snd R i.
Proof using Hb Hmb Hdiv J0 J1 ORD.
  pose proof (n_refl_pos n b Hb j J1). pose proof (n_refl_rows n mb b Hb Hmb Hdiv j J0 J1). pose proof (n_refl_b n b j).
  assert (W : (0 < nw)%Z) by (unfold panel_nworkers; lia).
  assert (Q := panel_value rs t TOK NT nw b (Z.to_nat n_refl) (ord j) pP (col_vec (st (rTau j)))). cbv zeta in Q. rewrite Z2Nat.id in Q by lia.
  specialize (Q W ORD ltac:(lia) ltac:(lia)). fold pres pM1 in Q. cbv zeta. rewrite st1_tau. exact Q.
Qed.
End panel.

(** *** V *)
Definition has (id : Z -> tid) (c : Z) (M : mat K) (s : tstore (mat K)) : Prop :=
  forall k p q, (0 <= k < tl_n t)%Z -> (0 <= p < tl_sz t k)%Z -> (0 <= q < c)%Z -> s (id (i0 + k)%Z) p q = M (tl_off t k + p)%Z q.
Definition trail (At : mat K) (s : tstore (mat K)) : Prop :=
  forall i k p q, (0 <= i < tl_n t)%Z -> (0 <= k < tl_n t)%Z -> (0 <= p < tl_sz t i)%Z -> (0 <= q < tl_sz t k)%Z ->
  sub (ri (i0 + i)) (ri (i0 + k)) (s (rA (i0 + i) (i0 + k))) p q = At (tl_off t i + p)%Z (tl_off t k + q)%Z.
Notation vid := (vid mb b j).
Ltac tneq := let E := fresh in intros E; apply (f_equal t_mat) in E; cbv [rA rTau rV rW rX rWs rT] in E; cbn [t_mat] in E; pose proof (Z.mod_pos_bound j 2 eq_refl); lia.
Lemma vid_not : forall i x, x <> rA i j0 -> x <> rV j i -> x <> vid i.
Proof using. intros i x N1 N2. unfold vid. destruct (_ || _); assumption. Qed.
Lemma setup_V : forall s P, (forall k p q, (0 <= k < tl_n t)%Z -> (0 <= p < tl_sz t k)%Z -> (0 <= q < b)%Z -> sub (ri (i0 + k)) cj (s (rA (i0 + k) j0)) p q = P (tl_off t k + p)%Z q) ->
  let s' := trun (jobs_setup_V n mb b j) s in
  has vid n_refl (unit_lower P) s' /\ forall x, (forall i, x <> rV j i) -> s' x = s x.
Proof using Hb Hmb Hdiv J0 J1.
  intros s P HP s'. pose proof (n_refl_b n b j) as NB. pose proof (n_refl_pos n b Hb j J1) as NP. pose proof (pcols_b n mb b Hb Hmb Hdiv j J0 J1) as PC. pose proof NT as NT.
  pose proof (n_refl_rows n mb b Hb Hmb Hdiv j J0 J1) as NR.
  assert (FR : forall x, (forall i, x <> rV j i) -> s' x = s x).
  { intros x N. apply trun_frame. intros y I0. unfold jobs_setup_V in I0. apply in_app_or in I0 as [[<-|[<-|[]]]|I0]; cbn [tj_out]; intros E; try (apply (N i0); congruence).
    apply in_for_up in I0 as (i & _ & I0). destruct full_band; [destruct I0|]. destruct I0 as [<-|[]]. apply (N i). cbn in E. congruence. }
  split; [|exact FR]. unfold s', jobs_setup_V in *. clear s'. rewrite trun_app in *.
  set (h1 := TJob [rA i0 j0] (rV j i0) (in1 (fun a v => paste 0 0 (rows i0) (Z.min n_refl (pcols n mb b j)) v (sub (ri i0) cj a)))) in *.
  match goal with |- context [trun [h1; ?h] s] => set (h2 := h) in * end.
  set (s1 := trun [h1; h2] s) in *.
  set (body := fun i => if full_band mb b then [] else [TJob [rA i j0] (rV j i) (in1 (fun a v => paste 0 0 (rows i) (pcols n mb b j) v (sub (ri i) cj a)))]) in *.
  destruct (run_blocks body (rV j) (zrange (i0 + 1) nrt) s1) as [R1 R2].
  { apply zrange_NoDup. }
  { intros x y _ _ E. injection E. auto. }
  { intros k y _ I0. unfold body in I0. destruct full_band; [destruct I0|]. destruct I0 as [<-|[]]. cbn [tj_out tj_in]. split; [reflexivity|]. intros x [<-|[]] k' _. tneq. }
  fold (for_up (i0 + 1) nrt body) in R1, R2.
  assert (S1 : s1 (rV j i0) = tval h2 (texec s h1)) by (unfold s1; rewrite !trun_cons; apply tset_eq).
  assert (S1' : forall x, (forall i, x <> rV j i) -> s1 x = s x).
  { intros x N. apply trun_frame. intros y [<-|[<-|[]]]; cbn; intros E; apply (N i0); congruence. }
  intros k p q Lk Lp Lq. pose proof (off_nonneg t TOK k ltac:(lia)) as OF. unfold Red2BandModel.vid. destruct (Z.eqb_spec (i0 + k) i0) as [E0|E0].
  - assert (k = 0)%Z as -> by lia. cbn [orb]. rewrite off_0, Z.add_0_l. replace (i0 + 0)%Z with i0 by lia.
    rewrite R2 by (intros i Li E; apply in_zrange in Li; injection E; lia). rewrite S1. unfold tval, h2. cbn [tj_fun tj_in tj_out map].
    assert (Lp' := Lp). cbn [tl_sz ptl] in Lp'. replace (i0 + 0)%Z with i0 in Lp' by lia.
    destruct (Z.leb_spec 0 p), (Z.ltb_spec p (rows i0)), (Z.leb_spec 0 q), (Z.ltb_spec q n_refl); try lia. cbn [andb].
    unfold unit_lower. destruct (Z.eqb_spec p q); [reflexivity|]. destruct (Z.ltb_spec p q), (Z.ltb_spec q p); try lia; [reflexivity|].
    unfold texec. change (tj_out h1) with (rV j i0). rewrite tset_eq. unfold tval, h1. cbn [tj_fun tj_in tj_out map in1]. unfold paste.
    destruct (Z.leb_spec 0 p), (Z.ltb_spec p (0 + rows i0)), (Z.leb_spec 0 q), (Z.ltb_spec q (0 + Z.min n_refl (pcols n mb b j))); try lia. cbn [andb].
    rewrite !Z.sub_0_r. specialize (HP 0%Z p q ltac:(lia) Lp ltac:(lia)). rewrite off_0, Z.add_0_l, Z.add_0_r in HP. exact HP.
  - assert (LO : (tl_sz t 0 <= tl_off t k)%Z) by (rewrite <- off_1; apply (off_le t TOK); lia).
    assert (UL : unit_lower P (tl_off t k + p)%Z q = P (tl_off t k + p)%Z q).
    { unfold unit_lower. destruct (Z.eqb_spec (tl_off t k + p) q), (Z.ltb_spec q (tl_off t k + p)); try lia; reflexivity. }
    rewrite UL. cbn [orb negb]. destruct (full_band mb b) eqn:FB; cbn [negb].
    + destruct (full_i0 mb b Hmb j FB) as (F1 & F2 & F3).
      rewrite R2 by (intros; tneq). rewrite S1' by (intros; tneq).
      rewrite <- HP by (try assumption; lia). unfold sub. rewrite F2. unfold Red2BandModel.ri. destruct (Z.eqb_spec (i0 + k) i0); [contradiction|]. reflexivity.
    + rewrite ptl_n in Lk. rewrite R1 by (apply in_zrange; lia). unfold body. rewrite trun_cons. cbn [fold_left trun]. unfold texec. rewrite tset_eq. unfold tval. cbn [tj_fun tj_in tj_out map in1].
      unfold paste. assert (Lp' := Lp). cbn [tl_sz ptl] in Lp'. 
      destruct (Z.leb_spec 0 p), (Z.ltb_spec p (0 + rows (i0 + k))), (Z.leb_spec 0 q), (Z.ltb_spec q (0 + pcols n mb b j)); try lia. cbn [andb].
      rewrite !Z.sub_0_r. rewrite S1' by (intros; tneq). apply HP; try assumption; lia.
Qed.

(** *** T *)
Lemma t_rec_ext : forall k (V V' T T' : mat K) tau, (forall a q, (0 <= a < m)%Z -> (0 <= q < k)%Z -> V a q = V' a q) -> (forall p q, (0 <= p < k)%Z -> (0 <= q < k)%Z -> T p q = T' p q) ->
  t_rec m k V T tau -> t_rec m k V' T' tau.
Proof using.
  intros k V V' T T' tau EV ET (A & B & C). repeat split.
  - intros p q Lp Lq L. rewrite <- ET by lia. apply A; assumption.
  - intros q Lq. rewrite <- ET by lia. apply B; assumption.
  - intros p q Lp Lq. rewrite <- ET by lia. rewrite C by assumption. apply fsum_ext. intros r Lr. rewrite ET by lia. f_equal. f_equal. apply fsum_ext. intros a La. rewrite !EV by lia. reflexivity.
Qed.
Lemma gemv_outs_nodup : NoDup (mj_out (job_gemv n mb b avail_t j : mjob (mat K))).
Proof using.
  cbn [job_gemv mj_out]. constructor.
  - intros I0. apply in_map_iff in I0 as (i & E & _). revert E. tneq.
  - apply FinFun.Injective_map_NoDup; [|apply zrange_NoDup]. intros x y E. injection E. auto.
Qed.
Lemma tfactor_phase : forall s V, has vid n_refl V s ->
  let s' := trun [job_trmv n b j] (mexec s (job_gemv n mb b avail_t j)) in
  t_rec m n_refl V (s' (rT j)) (col_vec (s (rTau j))) /\ forall x, x <> rT j -> (forall w, x <> rWs j w) -> s' x = s x.
Proof using Hb Hmb Hdiv J0 J1 AT.
  intros s V HV s'. split.
  - set (vs := map s (map vid (zrange i0 nrt) ++ [rTau j])).
    pose proof (i0_bound n mb b Hb Hmb Hdiv j J0 J1) as IB. pose proof (n_refl_pos n b Hb j J1) as NP.
    assert (NTH : nth_tile vs (nrt - i0)%Z = s (rTau j)).
    { unfold nth_tile, vs. rewrite map_app, app_nth2 by (rewrite !map_length; pose proof (zrange_length i0 nrt); lia).
      rewrite !map_length. replace (Z.to_nat (nrt - i0) - length (zrange i0 nrt))%nat with 0%nat by (pose proof (zrange_length i0 nrt); lia). reflexivity. }
    assert (NTV : forall k, (0 <= k < tl_n t)%Z -> nth_tile vs k = s (vid (i0 + k))).
    { intros k Lk. rewrite ptl_n in Lk. unfold nth_tile, vs. rewrite map_app, app_nth1 by (rewrite !map_length; pose proof (zrange_length i0 nrt); lia).
      rewrite map_map. apply (nth_tile_map (fun x => s (vid x)) i0 nrt k). lia. }
    assert (E : s' (rT j) = tfactor t avail_t n_refl (nth_tile vs) (col_vec (s (rTau j))) (s (rT j))).
    { unfold s'. rewrite trun_cons. cbn [trun fold_left]. unfold texec. cbn [tj_out job_trmv]. rewrite tset_eq. unfold tval. cbn [tj_fun tj_in tj_out map in1 job_trmv].
      unfold tfactor. destruct (Z.eqb_spec n_refl 0); [lia|].
      rewrite (mexec_frame s (job_gemv n mb b avail_t j) (rTau j)).
      - f_equal. rewrite (mexec_at s _ 0%nat (rT j) (step_gemv t avail_t n_refl (nth_tile vs) (col_vec (nth_tile vs (nrt - i0)%Z)) (s (rT j)))); [rewrite NTH; reflexivity|apply gemv_outs_nodup|reflexivity|reflexivity].
      - cbn [job_gemv mj_out]. intros [E|I0]; [revert E; tneq|]. apply in_map_iff in I0 as (w & E & _). revert E. tneq. }
    rewrite E. assert (TF := tfactor_rec t TOK NT avail_t n_refl (nth_tile vs) (col_vec (s (rTau j))) (s (rT j)) AT NP).
    rewrite ptl_size in TF by assumption. revert TF. apply t_rec_ext; [|reflexivity].
    intros a q La Lq. destruct (elem_split t TOK a) as (k & p & Lk & Lp & ->); [rewrite ptl_size by assumption; lia|].
    rewrite stack_at by first [exact TOK | assumption]. rewrite NTV by assumption. apply HV; assumption.
  - intros x N1 N2. unfold s'. rewrite trun_frame by (intros y [<-|[]]; cbn; congruence). apply mexec_frame. cbn [job_gemv mj_out]. intros [E|I0]; [congruence|].
    apply in_map_iff in I0 as (w & E & _). apply (N2 w). congruence.
Qed.

(** *** W = V T *)
Lemma W_phase : forall s (V T : mat K) tau, has vid n_refl V s -> s (rT j) = T -> t_rec m n_refl V T tau ->
  let s' := trun (jobs_W kn n mb b j) s in
  has (rW j) n_refl (mmul n_refl V T) s' /\ forall x, (forall i, x <> rW j i) -> s' x = s x.
Proof using KO Hb Hmb Hdiv J0 J1.
  intros s V T tau HV HT (TL & _ & _) s'. unfold s', jobs_W.
  set (job := fun i => TJob [rT j; vid i] (rW j i) (in2 (fun T v _ => trmm kn Right Upper NoTrans NonUnit (rows i) n_refl f1 T v))).
  destruct (run_each i0 nrt job s) as [R1 R2].
  { intros x y _ _ E. injection E. auto. }
  { intros x y _ _ I0. cbn in I0. destruct I0 as [E|[E|[]]]; revert E; [tneq|]. intros E. symmetry in E. revert E. apply vid_not; tneq. }
  split.
  - intros k p q Lk Lp Lq. assert (Lk' := Lk). rewrite ptl_n in Lk'. specialize (R1 (i0 + k)%Z ltac:(lia)). change (tj_out (job (i0 + k)%Z)) with (rW j (i0 + k)) in R1. unfold job in R1. rewrite R1.
    unfold tval. cbn [tj_fun tj_in tj_out map in2]. rewrite (trmm_ok kn KO Right Upper NoTrans NonUnit (rows (i0 + k)) n_refl f1 (s (rT j)) (s (vid (i0 + k))) p q) by (cbn [tl_sz ptl] in Lp; lia).
    rewrite HT. unfold mmul. transitivity (fsum 0 n_refl (fun r => s (vid (i0 + k)%Z) p r * opm NoTrans (trim Upper NonUnit T) r q)); [ring|].
    apply fsum_ext. intros r Lr. rewrite HV by assumption. f_equal. unfold opm, trim, in_tri.
    destruct (Z.eqb_spec r q); [reflexivity|]. destruct (Z.leb_spec r q); [reflexivity|]. symmetry. apply TL; lia.
  - intros x N. apply R2. intros i _ E. apply (N i). cbn in E. congruence.
Qed.

(** *** X = At W *)
Lemma X_phase : forall s (At W : mat K), trail At s -> real_diag m At -> has (rW j) n_refl W s ->
  let s' := trun (jobs_X kn n mb b j) s in
  has (rX j) n_refl (mmul m (herm Lower At) W) s' /\ forall x, (forall i, x <> rX j i) -> s' x = s x.
Proof using KO Hb Hmb Hdiv J0 J1.
  intros s At W HA RD HW s'. pose proof TOK as TOK'. split.
  2:{ intros x N. apply trun_frame. intros y I0. unfold jobs_X in I0. apply in_app_or in I0 as [I0|I0].
    - apply in_for_up in I0 as (i & _ & [<-|[]]). cbn. intros E. apply (N i). congruence.
    - apply in_for_up in I0 as (i & _ & I0). apply in_for_down in I0 as (k & _ & I0). destruct (i =? k)%Z; [destruct I0 as [<-|[]]|destruct I0 as [<-|[<-|[]]]]; cbn; intros E; [apply (N i)|apply (N i)|apply (N k)]; congruence. }
  intros r p q Lr Lp Lq. unfold s', jobs_X. rewrite trun_app. assert (Lr' := Lr). rewrite ptl_n in Lr'.
  set (z := trun (for_up i0 nrt (fun i => [jset0 (rX j i)])) s). destruct (run_each i0 nrt (fun i => jset0 (K := K) (rX j i)) s) as [Z1 Z2].
  { intros x y _ _ E. injection E. auto. }
  { intros x y _ _ []. }
  fold z in Z1, Z2. cbn [tj_out jset0] in Z1, Z2.
  set (S := fun x => forall i, x <> rX j i).
  assert (ZS : forall x, S x -> z x = s x) by (intros x Sx; apply Z2; intros i _ E; apply (Sx i); congruence).
  set (body := fun i k => if (i =? k)%Z then [TJob [rA i i; rW j i] (rX j i) (in2 (fun a w x => hemm kn Left Lower (rows i) n_refl f1 (sub (ri i) (ri i) a) w f1 x))]
    else [TJob [rA i k; rW j k] (rX j i) (in2 (fun a w x => gemm kn NoTrans NoTrans (rows i) n_refl (rows k) f1 (sub (ri i) (ri k) a) w f1 x));
          TJob [rA i k; rW j i] (rX j k) (in2 (fun a w x => gemm kn ConjTrans NoTrans (rows k) n_refl (rows i) f1 (sub (ri i) (ri k) a) w f1 x))]).
  assert (PR : forall i k st w, S w -> trun (body i k) st w = st w).
  { intros i k st w Sw. apply trun_frame. intros y I0. unfold body in I0. destruct (i =? k)%Z; [destruct I0 as [<-|[]]|destruct I0 as [<-|[<-|[]]]]; cbn; intros E; [apply (Sw i)|apply (Sw i)|apply (Sw k)]; congruence. }
  set (R := (i0 + r)%Z). set (c := fun k => fsum 0 (rows k) (fun s0 => herm Lower At (tl_off t r + p)%Z (tl_off t (k - i0) + s0)%Z * W (tl_off t (k - i0) + s0)%Z q)).
  assert (SA : forall i k, S (rA i k)) by (intros i k i'; tneq). assert (SW : forall i, S (rW j i)) by (intros i i'; tneq).
  assert (BD : forall i k st, (i0 <= i < nrt)%Z -> (i0 <= k <= i)%Z -> (forall w, S w -> st w = z w) ->
    trun (body i k) st (rX j R) p q = st (rX j R) p q + (if (i =? R)%Z then c k else if (k =? R)%Z then c i else 0)).
  { intros i k st Li Lk AG. unfold body.
    assert (HW' : forall k s0, (i0 <= k < nrt)%Z -> (0 <= s0 < rows k)%Z -> st (rW j k) s0 q = W (tl_off t (k - i0) + s0)%Z q).
    { intros k0 s0 L1 L2. rewrite AG, ZS by apply SW. replace k0 with (i0 + (k0 - i0))%Z at 1 by lia. apply HW; [rewrite ptl_n; lia| |exact Lq].
      cbn [tl_sz ptl]. replace (i0 + (k0 - i0))%Z with k0 by lia. exact L2. }
    assert (HA' : forall i k u v, (i0 <= i < nrt)%Z -> (i0 <= k < nrt)%Z -> (0 <= u < rows i)%Z -> (0 <= v < rows k)%Z -> sub (ri i) (ri k) (st (rA i k)) u v = At (tl_off t (i - i0) + u)%Z (tl_off t (k - i0) + v)%Z).
    { intros i1 k1 u v L1 L2 L3 L4. rewrite AG, ZS by apply SA. rewrite <- HA; [|rewrite ptl_n; lia|rewrite ptl_n; lia| |].
      - replace (i0 + (i1 - i0))%Z with i1 by lia. replace (i0 + (k1 - i0))%Z with k1 by lia. reflexivity.
      - cbn [tl_sz ptl]. replace (i0 + (i1 - i0))%Z with i1 by lia. exact L3.
      - cbn [tl_sz ptl]. replace (i0 + (k1 - i0))%Z with k1 by lia. exact L4. }
    assert (RR : (0 <= p < rows R)%Z) by exact Lp. assert (Rr : (R - i0 = r)%Z) by (unfold R; lia).
    destruct (Z.eqb_spec i k) as [<-|N].
    - rewrite trun_cons. cbn [trun fold_left]. unfold texec. cbn [tj_out]. destruct (Z.eqb_spec i R) as [->|NR].
      + rewrite tset_eq. unfold tval. cbn [tj_fun tj_in tj_out map in2].
        rewrite (hemm_ok kn KO Left Lower (rows R) n_refl f1 (sub (ri R) (ri R) (st (rA R R))) (st (rW j R)) f1 (st (rX j R))); [|intros u Lu; rewrite HA' by assumption; apply RD| |]; try assumption.
        2:{ rewrite <- (ptl_size n mb b Hb Hmb Hdiv j J0 J1). apply elem_bound; [exact TOK'|lia|]. rewrite Rr. exact Lu. }
        unfold mmul, c. transitivity (st (rX j R) p q + fsum 0 (rows R) (fun r0 => herm Lower (sub (ri R) (ri R) (st (rA R R))) p r0 * st (rW j R) r0 q)); [ring|]. f_equal.
        apply fsum_ext. intros u Lu. rewrite HW' by assumption. f_equal. rewrite Rr. unfold herm, in_tri. rewrite !HA' by assumption. rewrite Rr.
        destruct (Z.leb_spec u p), (Z.leb_spec (tl_off t r + u) (tl_off t r + p)); try lia; reflexivity.
      + rewrite tset_neq by (intros E; apply NR; injection E; auto). ring.
    - rewrite !trun_cons. cbn [trun fold_left]. unfold texec. cbn [tj_out]. destruct (Z.eqb_spec i R) as [->|NR].
      + rewrite tset_neq by (intros E; apply N; injection E; auto). rewrite tset_eq. unfold tval. cbn [tj_fun tj_in tj_out map in2].
        rewrite (gemm_ok kn KO NoTrans NoTrans (rows R) n_refl (rows k) f1 (sub (ri R) (ri k) (st (rA R k))) (st (rW j k)) f1 (st (rX j R))) by assumption.
        unfold mmul, c. transitivity (st (rX j R) p q + fsum 0 (rows k) (fun r0 => opm NoTrans (sub (ri R) (ri k) (st (rA R k))) p r0 * opm NoTrans (st (rW j k)) r0 q)); [ring|]. f_equal.
        apply fsum_ext. intros u Lu. unfold opm. rewrite HW', HA' by (try assumption; lia). f_equal. rewrite Rr. unfold herm, in_tri.
        pose proof (tile_order t TOK' (k - i0) u r p) as TO. rewrite ptl_n in TO. specialize (TO ltac:(lia) ltac:(lia)). cbn [tl_sz ptl] in TO. replace (i0 + (k - i0))%Z with k in TO by lia. specialize (TO ltac:(lia) Lp ltac:(lia)).
        destruct (Z.leb_spec (tl_off t (k - i0) + u) (tl_off t r + p)); [reflexivity|lia].
      + destruct (Z.eqb_spec k R) as [->|NK].
        * rewrite tset_eq. unfold tval. cbn [tj_fun tj_in tj_out map in2].
          rewrite !tset_neq by first [tneq | (intros E; apply NR; injection E; auto)].
          rewrite (gemm_ok kn KO ConjTrans NoTrans (rows R) n_refl (rows i) f1 (sub (ri i) (ri R) (st (rA i R))) (st (rW j i)) f1 (st (rX j R))) by assumption.
          unfold mmul, c. transitivity (st (rX j R) p q + fsum 0 (rows i) (fun r0 => opm ConjTrans (sub (ri i) (ri R) (st (rA i R))) p r0 * opm NoTrans (st (rW j i)) r0 q)); [ring|]. f_equal.
          apply fsum_ext. intros u Lu. unfold opm. rewrite HW', HA' by (try assumption; lia). f_equal. rewrite Rr. unfold herm, in_tri.
          pose proof (tile_order t TOK' r p (i - i0) u) as TO. rewrite ptl_n in TO. specialize (TO ltac:(lia) ltac:(lia)). cbn [tl_sz ptl] in TO. replace (i0 + (i - i0))%Z with i in TO by lia. specialize (TO Lp ltac:(lia) ltac:(lia)).
          destruct (Z.leb_spec (tl_off t (i - i0) + u) (tl_off t r + p)); [lia|reflexivity].
        * rewrite !tset_neq by (intros E; injection E; lia). ring. }
  fold body. change (fun i => for_down i i0 (fun k => if (i =? k)%Z then _ else _)) with (fun i => for_down i i0 (body i)).
  rewrite (acc_up i0 nrt (fun i => for_down i i0 (body i)) S (rX j R) (fun X => X p q) (fun i => fsum i0 (i + 1) (fun k => if (i =? R)%Z then c k else if (k =? R)%Z then c i else 0))).
  - rewrite (Z1 R) by (unfold R; lia). unfold tval. cbn [tj_fun tj_in tj_out map jset0]. rewrite tri_sum by (unfold R; lia).
    transitivity (fsum i0 nrt c); [ring|]. unfold mmul. rewrite <- (ptl_size n mb b Hb Hmb Hdiv j J0 J1). rewrite fsum_tiles by exact TOK'.
    replace (fsum i0 nrt c) with (fsum (0 + i0) (nrt - i0 + i0) c) by (f_equal; lia). rewrite fsum_shift. rewrite ptl_n.
    apply fsum_ext. intros k Lk. unfold c. replace (k + i0 - i0)%Z with k by lia. cbn [tl_sz ptl]. replace (k + i0)%Z with (i0 + k)%Z by lia. reflexivity.
  - intros i st w Li Sw. apply trun_frame. intros y I0. apply in_for_down in I0 as (k & _ & I0). intros E. subst w.
    unfold body in I0. destruct (i =? k)%Z; [destruct I0 as [<-|[]]|destruct I0 as [<-|[<-|[]]]]; cbn in Sw; [apply (Sw i)|apply (Sw i)|apply (Sw k)]; reflexivity.
  - intros i st Li AG. apply (acc_down i0 i (body i) S (rX j R) (fun X => X p q)).
    + intros k st' w _ Sw. apply PR. exact Sw.
    + intros k st' Lk AG'. apply BD; [exact Li|exact Lk|]. intros w Sw. rewrite AG' by exact Sw. apply AG. exact Sw.
Qed.

(** *** W2 = W^H X *)
Lemma W2_phase : forall s (W X : mat K), has (rW j) n_refl W s -> has (rX j) n_refl X s ->
  let s' := trun (jobs_W2 kn n mb b j) s in
  (forall p q, (0 <= p < n_refl)%Z -> (0 <= q < n_refl)%Z -> s' (rT j) p q = mmul m (adj W) X p q) /\ forall x, x <> rT j -> s' x = s x.
Proof using KO Hb Hmb Hdiv J0 J1.
  intros s W X HW HX s'. pose proof TOK as TOK'. unfold s', jobs_W2. rewrite trun_app. set (z := trun [jset0 (rT j)] s).
  assert (Z0 : z (rT j) = fun _ _ => 0) by (unfold z; rewrite trun_cons; cbn [trun fold_left]; unfold texec; cbn [tj_out jset0]; rewrite tset_eq; reflexivity).
  assert (ZS : forall x, x <> rT j -> z x = s x) by (intros x N; apply trun_frame; intros y [<-|[]]; cbn; congruence).
  split.
  - intros p q Lp Lq.
    rewrite (acc_up i0 nrt (fun i => [jgemm kn ConjTrans NoTrans n_refl n_refl (rows i) f1 (rW j i) (rX j i) f1 (rT j)]) (fun x => x <> rT j) (rT j) (fun X => X p q)
      (fun i => fsum 0 (rows i) (fun u => fconj (W (tl_off t (i - i0) + u)%Z p) * X (tl_off t (i - i0) + u)%Z q))).
    + rewrite Z0. unfold mmul. rewrite <- (ptl_size n mb b Hb Hmb Hdiv j J0 J1). rewrite fsum_tiles by exact TOK'.
      match goal with |- 0 + fsum i0 nrt ?f = _ => replace (fsum i0 nrt f) with (fsum (0 + i0) (nrt - i0 + i0) f) by (f_equal; lia) end. rewrite fsum_shift. rewrite ptl_n.
      match goal with |- 0 + ?x = _ => transitivity x; [ring|] end.
      apply fsum_ext. intros k Lk. replace (k + i0 - i0)%Z with k by lia. cbn [tl_sz ptl]. replace (k + i0)%Z with (i0 + k)%Z by lia. reflexivity.
    + intros i st w _ N. apply trun_frame. intros y [<-|[]]. cbn. congruence.
    + intros i st Li AG. rewrite trun_cons. cbn [trun fold_left]. unfold texec. cbn [tj_out jgemm]. rewrite tset_eq. unfold tval. cbn [tj_fun tj_in tj_out map in2 jgemm].
      rewrite (gemm_ok kn KO ConjTrans NoTrans n_refl n_refl (rows i) f1 (st (rW j i)) (st (rX j i)) f1 (st (rT j))) by assumption.
      unfold mmul. transitivity (st (rT j) p q + fsum 0 (rows i) (fun r => opm ConjTrans (st (rW j i)) p r * opm NoTrans (st (rX j i)) r q)); [ring|]. f_equal.
      apply fsum_ext. intros u Lu. unfold opm. rewrite !AG, !ZS by tneq.
      assert (Lu' : (0 <= u < tl_sz t (i - i0))%Z) by (cbn [tl_sz ptl]; replace (i0 + (i - i0))%Z with i by lia; exact Lu).
      assert (Li2 : (0 <= i - i0 < tl_n t)%Z) by (rewrite ptl_n; lia). pose proof (HW _ _ p Li2 Lu' Lp) as H1. pose proof (HX _ _ q Li2 Lu' Lq) as H2. replace (i0 + (i - i0))%Z with i in H1, H2 by lia. rewrite H1, H2. reflexivity.
  - intros x N. rewrite trun_frame; [apply ZS; exact N|]. intros y I0. apply in_for_up in I0 as (i & _ & [<-|[]]). cbn. congruence.
Qed.

(** *** X = X - 1/2 V W2 *)
Lemma updX_phase : forall s (V W2 X : mat K), has vid n_refl V s -> has (rX j) n_refl X s -> (forall p q, (0 <= p < n_refl)%Z -> (0 <= q < n_refl)%Z -> s (rT j) p q = W2 p q) ->
  let s' := trun (jobs_updX kn n mb b j) s in
  has (rX j) n_refl (fun a q => X a q - fhalf * mmul n_refl V W2 a q) s' /\ forall x, (forall i, x <> rX j i) -> s' x = s x.
Proof using KO Hb Hmb Hdiv J0 J1.
  intros s V W2 X HV HX HW s'. unfold s', jobs_updX.
  set (job := fun i => jgemm kn NoTrans NoTrans (rows i) n_refl n_refl (- fhalf) (vid i) (rT j) 1 (rX j i)).
  destruct (run_each i0 nrt job s) as [R1 R2].
  { intros x y _ _ E. injection E. auto. }
  { intros x y _ _ I0. cbn in I0. destruct I0 as [E|[E|[]]]; revert E; [|tneq]. intros E. symmetry in E. revert E. apply vid_not; tneq. }
  split.
  - intros k p q Lk Lp Lq. assert (Lk' := Lk). rewrite ptl_n in Lk'. specialize (R1 (i0 + k)%Z ltac:(lia)). change (tj_out (job (i0 + k)%Z)) with (rX j (i0 + k)) in R1. unfold job in R1. rewrite R1.
    unfold tval. cbn [tj_fun tj_in tj_out map in2 jgemm]. rewrite (gemm_ok kn KO NoTrans NoTrans (rows (i0 + k)) n_refl n_refl (- fhalf) (s (vid (i0 + k))) (s (rT j)) 1 (s (rX j (i0 + k)))) by (first [exact Lp | exact Lq]).
    rewrite HX by assumption. unfold mmul, opm. rewrite (fsum_ext 0 n_refl _ (fun r => V (tl_off t k + p)%Z r * W2 r q)); [ring|].
    intros r Lr. rewrite HV, HW by assumption. reflexivity.
  - intros x N. apply R2. intros i _ E. apply (N i). cbn in E. congruence.
Qed.

(** *** At = At - X V^H - V X^H *)
Definition upd_val (V X At : mat K) : mat K := fun a c =>
  At a c - fsum 0 n_refl (fun r => X a r * fconj (V c r)) - fsum 0 n_refl (fun r => V a r * fconj (X c r)).
Definition lower_pairs : list (Z * Z) := flat_map (fun i => map (fun k => (i, k)) (zrange i0 (i + 1))) (zrange i0 nrt).
Lemma in_lower_pairs : forall i k, In (i, k) lower_pairs <-> (i0 <= k <= i /\ i < nrt)%Z.
Proof using.
  intros i k. unfold lower_pairs. rewrite in_flat_map. split.
  - intros (x & I1 & I2). apply in_zrange in I1. apply in_map_iff in I2 as (y & E & I2). apply in_zrange in I2. injection E as -> ->. lia.
  - intros L. exists i. split; [apply in_zrange; lia|]. apply in_map_iff. exists k. split; [reflexivity|apply in_zrange; lia].
Qed.
Lemma nodup_lower_pairs : NoDup lower_pairs.
Proof using.
  unfold lower_pairs. assert (H : forall l, NoDup l -> NoDup (flat_map (fun i => map (fun k => (i, k)) (zrange i0 (i + 1))) l)).
  { induction l as [|x l IH]; intros ND; [constructor|]. apply NoDup_cons_iff in ND as [N ND]. cbn [flat_map]. apply nodup_app.
    - apply FinFun.Injective_map_NoDup; [|apply zrange_NoDup]. intros u v E. injection E. auto.
    - apply IH. exact ND.
    - intros [u v] I1 I2. apply in_map_iff in I1 as (k & E & _). injection E as <- <-. apply in_flat_map in I2 as (y & Iy & I2). apply in_map_iff in I2 as (k' & E & _). injection E as -> _. contradiction. }
  apply H. apply zrange_NoDup.
Qed.
Lemma flat_lower : forall (f : Z -> Z -> list (tjob (mat K))), for_up i0 nrt (fun i => for_up i0 (i + 1) (f i)) = flat_map (fun ik => f (fst ik) (snd ik)) lower_pairs.
Proof using.
  intros f. unfold for_up, lower_pairs. induction (zrange i0 nrt) as [|x l IH]; [reflexivity|]. cbn [flat_map]. rewrite flat_map_app, <- IH. f_equal.
  induction (zrange i0 (x + 1)) as [|y l' IH']; [reflexivity|]. cbn [flat_map map fst snd]. rewrite IH'. reflexivity.
Qed.
Lemma vid_out : forall i x y, (i0 <= x)%Z -> (i0 <= y)%Z -> (i0 <= i)%Z -> vid i <> rA x y.
Proof using Hmb Hb.
  intros i x y Lx Ly Li. unfold vid. destruct (Z.eqb_spec i i0); cbn [orb]; [tneq|]. destruct (full_band mb b) eqn:FB; cbn [negb]; [|tneq].
  destruct (full_i0 mb b Hmb j FB) as (F1 & _ & _). intros E. injection E. lia.
Qed.
Lemma update_tiles : forall s (V X At : mat K), has vid n_refl V s -> has (rX j) n_refl X s -> trail At s -> real_diag m At ->
  let s' := trun (jobs_update kn n mb b j) s in
  (forall i k p q, (0 <= k <= i)%Z -> (i < tl_n t)%Z -> (0 <= p < tl_sz t i)%Z -> (0 <= q < tl_sz t k)%Z ->
     s' (rA (i0 + i) (i0 + k)) (ri (i0 + i) + p)%Z (ri (i0 + k) + q)%Z =
     if ((i =? k) && (p <? q))%Z then s (rA (i0 + i) (i0 + k)) (ri (i0 + i) + p)%Z (ri (i0 + k) + q)%Z else upd_val V X At (tl_off t i + p)%Z (tl_off t k + q)%Z) /\
  (forall i k p q, (0 <= k <= i)%Z -> (i < tl_n t)%Z -> ~ (ri (i0 + i) <= p < ri (i0 + i) + tl_sz t i /\ ri (i0 + k) <= q < ri (i0 + k) + tl_sz t k)%Z ->
     s' (rA (i0 + i) (i0 + k)) p q = s (rA (i0 + i) (i0 + k)) p q) /\
  (forall x, (forall i k, (i0 <= k <= i /\ i < nrt)%Z -> x <> rA i k) -> s' x = s x).
Proof using KO Hb Hmb Hdiv J0 J1.
  intros s V X At HV HX HA RD s'. pose proof TOK as TOK'. unfold s', jobs_update. clear s'.
  set (body := fun i k => if (i =? k)%Z then [TJob [vid i; rX j i] (rA i i) (in2 (fun v x a =>
      paste (ri i) (ri i) (rows i) (rows i) a (her2k kn Lower NoTrans (rows i) n_refl (fopp f1) v x f1 (sub (ri i) (ri i) a))))]
    else [TJob [rX j i; vid k] (rA i k) (in2 (fun x v a =>
            paste (ri i) (ri k) (rows i) (rows k) a (gemm kn NoTrans ConjTrans (rows i) (rows k) n_refl (fopp f1) x v f1 (sub (ri i) (ri k) a))));
          TJob [vid i; rX j k] (rA i k) (in2 (fun v x a =>
            paste (ri i) (ri k) (rows i) (rows k) a (gemm kn NoTrans ConjTrans (rows i) (rows k) n_refl (fopp f1) v x f1 (sub (ri i) (ri k) a))))]).
  change (for_up i0 nrt _) with (for_up i0 nrt (fun i => for_up i0 (i + 1) (body i))). rewrite flat_lower.
  destruct (run_blocks (fun ik => body (fst ik) (snd ik)) (fun ik => rA (fst ik) (snd ik)) lower_pairs s) as [R1 R2].
  { apply nodup_lower_pairs. }
  { intros [x1 x2] [y1 y2] _ _ E. injection E. cbn. intros. congruence. }
  { intros [i k] y I0 Iy. apply in_lower_pairs in I0. cbn [fst snd] in *. unfold body in Iy. destruct (Z.eqb_spec i k) as [<-|N].
    - destruct Iy as [<-|[]]. cbn [tj_out tj_in]. split; [reflexivity|]. intros x [<-|[<-|[]]] [x1 x2] Ix; apply in_lower_pairs in Ix; cbn [fst snd]; [apply vid_out; lia|tneq].
    - destruct Iy as [<-|[<-|[]]]; cbn [tj_out tj_in]; (split; [reflexivity|]); intros x [<-|[<-|[]]] [x1 x2] Ix; apply in_lower_pairs in Ix; cbn [fst snd]; first [tneq | apply vid_out; lia]. }
  split; [|split].
  - intros i k p q Lk Li Lp Lq. assert (Li' := Li). rewrite ptl_n in Li'. pose proof (R1 ((i0 + i)%Z, (i0 + k)%Z)) as R. cbn [fst snd] in R. rewrite R by (apply in_lower_pairs; lia). clear R R1 R2.
    assert (Lp' := Lp). assert (Lq' := Lq). cbn [tl_sz ptl] in Lp', Lq'.
    assert (PT : forall A S : mat K, paste (ri (i0 + i)) (ri (i0 + k)) (rows (i0 + i)) (rows (i0 + k)) A S (ri (i0 + i) + p)%Z (ri (i0 + k) + q)%Z = S p q).
    { intros A S. unfold paste. destruct (Z.leb_spec (ri (i0 + i)) (ri (i0 + i) + p)), (Z.ltb_spec (ri (i0 + i) + p) (ri (i0 + i) + rows (i0 + i))), (Z.leb_spec (ri (i0 + k)) (ri (i0 + k) + q)), (Z.ltb_spec (ri (i0 + k) + q) (ri (i0 + k) + rows (i0 + k))); try lia. cbn [andb]. f_equal; lia. }
    assert (SAt : s (rA (i0 + i) (i0 + k)) (ri (i0 + i) + p)%Z (ri (i0 + k) + q)%Z = At (tl_off t i + p)%Z (tl_off t k + q)%Z) by (apply (HA i k p q); lia).
    unfold body. destruct (Z.eqb_spec i k) as [<-|N]; cbn [andb].
    + rewrite Z.eqb_refl. rewrite trun_cons. cbn [trun fold_left]. unfold texec. cbn [tj_out]. rewrite tset_eq. unfold tval. cbn [tj_fun tj_in tj_out map in2]. rewrite PT.
      destruct (her2k_ok kn KO Lower NoTrans (rows (i0 + i)) n_refl (fopp f1) (s (vid (i0 + i))) (s (rX j (i0 + i))) f1 (sub (ri (i0 + i)) (ri (i0 + i)) (s (rA (i0 + i) (i0 + i))))) as [H1 H2].
      { discriminate. } { apply fconj_1. }
      { intros u Lu. rewrite HA by (first [lia | exact Lu]). apply RD. rewrite <- (ptl_size n mb b Hb Hmb Hdiv j J0 J1). apply elem_bound; [exact TOK'|lia|exact Lu]. }
      destruct (Z.ltb_spec p q) as [PQ|PQ].
      * rewrite H2; [reflexivity|lia|lia|cbn; apply Z.leb_gt; lia].
      * rewrite H1; [|lia|lia|cbn; apply Z.leb_le; lia]. unfold gram, mmul, opm, upd_val. unfold sub at 1. rewrite SAt. rewrite fconj_opp, fconj_1.
        rewrite (fsum_ext 0 n_refl (fun r => s (vid (i0 + i)%Z) p r * _) (fun r => V (tl_off t i + p)%Z r * fconj (X (tl_off t i + q)%Z r))) by (intros r Lr; rewrite HV, HX by (try assumption; lia); reflexivity).
        rewrite (fsum_ext 0 n_refl (fun r => s (rX j (i0 + i)%Z) p r * _) (fun r => X (tl_off t i + p)%Z r * fconj (V (tl_off t i + q)%Z r))) by (intros r Lr; rewrite HV, HX by (try assumption; lia); reflexivity).
        ring.
    + destruct (Z.eqb_spec (i0 + i) (i0 + k)); [lia|]. rewrite !trun_cons. cbn [trun fold_left]. unfold texec. cbn [tj_out]. rewrite tset_eq. unfold tval at 1. cbn [tj_fun tj_in tj_out map in2]. rewrite PT.
      rewrite (gemm_ok kn KO NoTrans ConjTrans (rows (i0 + i)) (rows (i0 + k)) n_refl (fopp f1)) by assumption.
      rewrite !tset_eq. rewrite !tset_neq by first [tneq | apply vid_out; pose proof (i0_bound n mb b Hb Hmb Hdiv j J0 J1); lia].
      unfold sub at 1. unfold tval. cbn [tj_fun tj_in tj_out map in2]. rewrite PT. rewrite (gemm_ok kn KO NoTrans ConjTrans (rows (i0 + i)) (rows (i0 + k)) n_refl (fopp f1)) by assumption.
      unfold sub at 1. rewrite SAt. unfold mmul, opm, upd_val.
      rewrite (fsum_ext 0 n_refl (fun r => s (vid (i0 + i)%Z) p r * _) (fun r => V (tl_off t i + p)%Z r * fconj (X (tl_off t k + q)%Z r))) by (intros r Lr; rewrite HV, HX by (try assumption; lia); reflexivity).
      rewrite (fsum_ext 0 n_refl (fun r => s (rX j (i0 + i)%Z) p r * _) (fun r => X (tl_off t i + p)%Z r * fconj (V (tl_off t k + q)%Z r))) by (intros r Lr; rewrite HV, HX by (try assumption; lia); reflexivity).
      ring.
  - intros i k p q Lk Li N. rewrite ptl_n in Li. pose proof (R1 ((i0 + i)%Z, (i0 + k)%Z)) as R. cbn [fst snd] in R. rewrite R by (apply in_lower_pairs; lia). clear R R1 R2.
    cbn [tl_sz ptl] in N.
    assert (PT : forall A S : mat K, paste (ri (i0 + i)) (ri (i0 + k)) (rows (i0 + i)) (rows (i0 + k)) A S p q = A p q).
    { intros A S. unfold paste. destruct (Z.leb_spec (ri (i0 + i)) p), (Z.ltb_spec p (ri (i0 + i) + rows (i0 + i))), (Z.leb_spec (ri (i0 + k)) q), (Z.ltb_spec q (ri (i0 + k) + rows (i0 + k))); try reflexivity. lia. }
    unfold body. destruct (Z.eqb_spec (i0 + i) (i0 + k)) as [E|E].
    + rewrite trun_cons. cbn [trun fold_left]. unfold texec. cbn [tj_out]. rewrite <- E in *. rewrite tset_eq. unfold tval. cbn [tj_fun tj_in tj_out map in2]. apply PT.
    + rewrite !trun_cons. cbn [trun fold_left]. unfold texec. cbn [tj_out]. rewrite tset_eq. unfold tval at 1. cbn [tj_fun tj_in tj_out map in2]. rewrite PT. rewrite tset_eq. unfold tval. cbn [tj_fun tj_in tj_out map in2]. apply PT.
  - intros x N. apply R2. intros [i k] I0. apply in_lower_pairs in I0. apply N. exact I0.
Qed.

Lemma update_G : forall s (V X At : mat K), has vid n_refl V s -> has (rX j) n_refl X s -> (forall a c, At a c = G s (e_row + a)%Z (e_row + c)%Z) -> real_diag m At ->
  let s' := trun (jobs_update kn n mb b j) s in
  (forall a q, (0 <= a < n)%Z -> (0 <= q < n)%Z -> G s' a q = if ((e_row <=? q) && (q <=? a))%Z then upd_val V X At (a - e_row)%Z (q - e_row)%Z else G s a q) /\
  (forall x, t_mat x <> 0%Z -> s' x = s x).
Proof using KO Hb Hmb Hdiv J0 J1.
  intros s V X At HV HX HA RD s'. assert (TR : trail At s) by (intros i k p q Li Lk Lp Lq; rewrite HA; symmetry; apply G_trail; assumption).
  destruct (update_tiles s V X At HV HX TR RD) as (U1 & U2 & U3). fold s' in U1, U2, U3. split.
  2:{ intros x N. apply U3. intros i k _ E. apply N. rewrite E. reflexivity. }
  intros a q La Lq. pose proof (e_row_split mb b Hmb j) as ES. pose proof (Z.div_mod a mb) as DA. pose proof (Z.div_mod q mb) as DQ.
  pose proof (Z.mod_pos_bound a mb Hmb) as MA. pose proof (Z.mod_pos_bound q mb Hmb) as MQ. pose proof (mod_room mb b Hb Hmb Hdiv _ (e_row_b b Hb j)) as MR.
  assert (AB : (a / mb < nrt)%Z) by (pose proof (nrt_spec n mb Hmb); apply Z.div_lt_upper_bound; lia).
  destruct (Z.leb_spec e_row q) as [Q|Q]; cbn [andb].
  - destruct (Z.leb_spec q a) as [QA|QA].
    + destruct (row_split n mb b Hb Hmb Hdiv j J0 J1 a ltac:(lia)) as (i & p & Li & Lp & EA). destruct (row_split n mb b Hb Hmb Hdiv j J0 J1 q ltac:(lia)) as (k & r & Lk & Lr & EQ).
      assert (KI : (k <= i)%Z). { destruct (Z.le_gt_cases k i); [assumption|]. pose proof (tile_order t TOK i p k r Li Lk Lp Lr ltac:(lia)). lia. }
      rewrite EA at 1. rewrite EQ at 1. rewrite G_trail by assumption. unfold sub. rewrite U1 by (try assumption; lia).
      replace (a - e_row)%Z with (tl_off t i + p)%Z by lia. replace (q - e_row)%Z with (tl_off t k + r)%Z by lia.
      destruct (Z.eqb_spec i k) as [->|N]; cbn [andb]; [|reflexivity]. destruct (Z.ltb_spec p r); [lia|reflexivity].
    + unfold r2b_mat at 1 2. destruct (Z.lt_ge_cases (a / mb) (q / mb)) as [C|C].
      { rewrite U3; [reflexivity|]. intros i k L E. injection E. lia. }
      assert (q / mb <= a / mb)%Z by lia. assert (EAQ : (a / mb = q / mb)%Z) by (pose proof (Z.div_le_mono a q mb Hmb); lia).
      destruct (row_split n mb b Hb Hmb Hdiv j J0 J1 q ltac:(lia)) as (k & r & Lk & Lr & EQ).
      destruct (loc_row n mb b Hb Hmb Hdiv j J0 J1 k r Lk Lr) as [EQ1 EQ2]. rewrite <- EQ in EQ1, EQ2. rewrite EAQ, EQ1.
      destruct (Z.lt_ge_cases a e_row) as [AE|AE].
      * apply U2; [lia|lia|]. rewrite EAQ, EQ1 in DA. unfold Red2BandModel.ri. destruct (Z.eqb_spec (i0 + k) i0) as [E|E]; [lia|]. assert (0 < k)%Z by lia. nia.
      * destruct (row_split n mb b Hb Hmb Hdiv j J0 J1 a ltac:(lia)) as (i & p & Li & Lp & EA).
        destruct (loc_row n mb b Hb Hmb Hdiv j J0 J1 i p Li Lp) as [EA1 EA2]. rewrite <- EA in EA1, EA2. assert (i = k) as -> by lia. rewrite EA2, EQ2.
        rewrite U1 by (try assumption; lia). rewrite Z.eqb_refl. destruct (Z.ltb_spec p r); [reflexivity|lia].
  - unfold r2b_mat. destruct (Z.lt_ge_cases (q / mb) i0) as [C|C].
    { rewrite U3; [reflexivity|]. intros i k L E. injection E. lia. }
    destruct (Z.lt_ge_cases (a / mb) (q / mb)) as [C2|C2].
    { rewrite U3; [reflexivity|]. intros i k L E. injection E. lia. }
    assert (QI : (q / mb = i0)%Z) by nia.
    rewrite QI in *. replace (a / mb)%Z with (i0 + (a / mb - i0))%Z by lia. replace i0 with (i0 + 0)%Z at 3 4 by lia.
    pose proof (U2 (a / mb - i0)%Z 0%Z (a mod mb)%Z (q mod mb)%Z) as U. replace (i0 + 0)%Z with i0 in * by lia.
    apply U; [lia|rewrite ptl_n; lia|]. unfold Red2BandModel.ri. rewrite Z.eqb_refl. lia.
Qed.

(** *** The whole iteration *)
Theorem r2b_step_ok : forall st, (forall a, (e_row <= a < n)%Z -> real (G st a a)) ->
  let st' := mrun (r2b_step kn rs n mb b avail minwork avail_t ord j) st in
  let M0 := fun a q => G st (e_row + a)%Z (e_col + q)%Z in
  let M1 := fun a q => G st' (e_row + a)%Z (e_col + q)%Z in
  let At := fun a c => G st (e_row + a)%Z (e_row + c)%Z in
  let taus := col_vec (st' (rTau j)) in
  let Q := refl_prod m (unit_lower M1) taus (Z.to_nat n_refl) in
  (forall c, (0 <= c < n_refl)%Z -> unitary m (reflector (taus c) (fun i => unit_lower M1 i c))) /\
  (forall a q, (0 <= a < m)%Z -> (0 <= q < b)%Z -> mmul m Q (upper_part n_refl M1) a q = M0 a q) /\
  (forall a c, (0 <= c <= a)%Z -> (a < m)%Z -> G st' (e_row + a)%Z (e_row + c)%Z = mmul m (adj Q) (mmul m (herm Lower At) Q) a c) /\
  (forall a q, (0 <= a < n)%Z -> (0 <= q < n)%Z -> ~ (e_row <= a /\ e_col <= q <= a)%Z -> G st' a q = G st a q) /\
  (forall c, (n_refl <= c)%Z -> taus c = col_vec (st (rTau j)) c) /\
  (forall k, k <> j -> st' (rTau k) = st (rTau k)) /\
  (let R := m_run rs t b (Z.to_nat n_refl) M0 (col_vec (st (rTau j))) in
   (forall a q, (0 <= a < m)%Z -> (0 <= q < b)%Z -> M1 a q = fst R a q) /\ forall i, taus i = snd R i).
Proof using KO Hb Hmb Hdiv J0 J1 AT ORD.
  intros st RD st' M0 M1 At taus Q.
  pose proof (n_refl_pos n b Hb j J1) as NP. pose proof (n_refl_b n b j) as NB. pose proof (n_refl_n n b Hb j J0 J1) as NN. pose proof (e_row_col b j) as ERC.
  assert (EC0 : (0 <= e_col)%Z) by (unfold Red2BandModel.e_col; nia).
  pose proof (J_n n b Hb j J0 J1) as JN.
  (* the states between the phases *)
  set (s1 := pst1 st). set (s2 := trun (jobs_setup_V n mb b j) s1). set (s4 := trun [job_trmv n b j] (mexec s2 (job_gemv n mb b avail_t j))).
  set (s5 := trun (jobs_W kn n mb b j) s4). set (s6 := trun (jobs_X kn n mb b j) s5). set (s7 := trun (jobs_W2 kn n mb b j) s6). set (s8 := trun (jobs_updX kn n mb b j) s7).
  set (s9 := trun (jobs_update kn n mb b j) s8).
  assert (E9 : forall x, st' x = s9 x).
  { intros x. unfold st', r2b_step. destruct (Z.ltb_spec e_row n); [|lia]. rewrite !mrun_app.
    unfold s9. rewrite mrun_mj. apply trun_ext. clear x. intros x. unfold s8. rewrite mrun_mj. apply trun_ext. clear x. intros x.
    unfold s7. rewrite mrun_mj. apply trun_ext. clear x. intros x. unfold s6. rewrite mrun_mj. apply trun_ext. clear x. intros x.
    unfold s5. rewrite mrun_mj. apply trun_ext. clear x. intros x. unfold s4. rewrite <- (mrun_mj [job_trmv n b j]). cbn [map]. apply mrun_ext. clear x. intros x.
    cbn [mrun fold_left]. apply mexec_ext. clear x. intros x. unfold s2. rewrite <- mrun_mj. reflexivity. }
  assert (EG : forall a q, G st' a q = G s9 a q) by (intros; unfold r2b_mat; rewrite E9; reflexivity).
  (* V *)
  destruct (setup_V s1 (pM1 st)) as [V2 F2].
  { intros k p q Lk Lp Lq. rewrite <- G_panel by assumption. apply (st1_panel st); [|exact Lq]. rewrite <- (ptl_size n mb b Hb Hmb Hdiv j J0 J1). apply elem_bound; [exact TOK|assumption|assumption]. }
  fold s2 in V2, F2. set (V := unit_lower (pM1 st)) in *.
  (* T *)
  destruct (tfactor_phase s2 V V2) as [T4 F4]. fold s4 in T4, F4. set (T := s4 (rT j)) in *.
  assert (NV : forall i x, (forall k, x <> rT k) -> (forall w, x <> rWs j w) -> s4 (vid i) = s2 (vid i)).
  { intros i x _ _. apply F4; intros; intros E; symmetry in E; revert E; apply vid_not; tneq. }
  assert (V4 : has vid n_refl V s4).
  { intros k p q Lk Lp Lq. rewrite F4; [apply V2; assumption| |]; intros; intros E; symmetry in E; revert E; apply vid_not; tneq. }
  (* W *)
  destruct (W_phase s4 V T _ V4 eq_refl T4) as [W5 F5]. fold s5 in W5, F5. set (W := mmul n_refl V T) in *.
  assert (V5 : has vid n_refl V s5).
  { intros k p q Lk Lp Lq. rewrite F5; [apply V4; assumption|]. intros i E. symmetry in E. revert E. apply vid_not; tneq. }
  (* the trailing matrix is not changed before the update *)
  assert (A5 : forall i k, s5 (rA i k) = s1 (rA i k)).
  { intros i k. rewrite F5, F4, F2 by (intros; tneq). reflexivity. }
  assert (AT1 : forall a c, (0 <= a < m)%Z -> (0 <= c < m)%Z -> G s1 (e_row + a)%Z (e_row + c)%Z = At a c).
  { intros a c La Lc. unfold At. apply (st1_other st); lia. }
  assert (TR5 : trail At s5).
  { intros i k p q Li Lk Lp Lq. rewrite A5. pose proof (elem_bound t TOK i p Li Lp). pose proof (elem_bound t TOK k q Lk Lq). rewrite ptl_size in * by assumption.
    rewrite <- AT1 by assumption. symmetry. apply G_trail; assumption. }
  assert (RDA : real_diag m At) by (intros a La; apply RD; lia).
  (* X *)
  destruct (X_phase s5 At W TR5 RDA W5) as [X6 F6]. fold s6 in X6, F6. set (X := mmul m (herm Lower At) W) in *.
  assert (W6 : has (rW j) n_refl W s6) by (intros k p q Lk Lp Lq; rewrite F6 by (intros; tneq); apply W5; assumption).
  assert (V6 : has vid n_refl V s6).
  { intros k p q Lk Lp Lq. rewrite F6; [apply V5; assumption|]. intros i E. symmetry in E. revert E. apply vid_not; tneq. }
  (* W2 *)
  destruct (W2_phase s6 W X W6 X6) as [T7 F7]. fold s7 in T7, F7. set (W2 := mmul m (adj W) X) in *.
  assert (X7 : has (rX j) n_refl X s7) by (intros k p q Lk Lp Lq; rewrite F7 by tneq; apply X6; assumption).
  assert (V7 : has vid n_refl V s7).
  { intros k p q Lk Lp Lq. rewrite F7; [apply V6; assumption|]. intros E. symmetry in E. revert E. apply vid_not; tneq. }
  (* X - 1/2 V W2 *)
  destruct (updX_phase s7 V W2 X V7 X7 T7) as [X8 F8]. fold s8 in X8, F8. set (X' := fun a q => X a q - fhalf * mmul n_refl V W2 a q) in *.
  assert (V8 : has vid n_refl V s8).
  { intros k p q Lk Lp Lq. rewrite F8; [apply V7; assumption|]. intros i E. symmetry in E. revert E. apply vid_not; tneq. }
  assert (A8 : forall i k, s8 (rA i k) = s1 (rA i k)).
  { intros i k. rewrite F8, F7, F6, A5 by (intros; tneq). reflexivity. }
  set (At8 := fun a c => G s8 (e_row + a)%Z (e_row + c)%Z).
  assert (EA8 : forall a c, (0 <= a < m)%Z -> (0 <= c < m)%Z -> At8 a c = At a c).
  { intros a c La Lc. unfold At8, r2b_mat. rewrite A8. apply AT1; assumption. }
  assert (RD8 : real_diag m At8) by (intros a La; unfold real; rewrite EA8 by assumption; apply RDA; assumption).
  destruct (update_G s8 V X' At8 V8 X8 (fun a c => eq_refl) RD8) as [U F9]. fold s9 in U, F9.
  assert (ETau : forall k, st' (rTau k) = s1 (rTau k)).
  { intros k. rewrite E9, F9 by discriminate. rewrite F8, F7, F6, F5, F4, F2 by (intros; tneq). reflexivity. }
  assert (GP : forall a q, (0 <= a < n)%Z -> (0 <= q < n)%Z -> ~ (e_row <= q <= a)%Z -> G st' a q = G s1 a q).
  { intros a q La Lq N. rewrite EG, U by assumption. destruct (Z.leb_spec e_row q), (Z.leb_spec q a); try lia; cbn [andb]; unfold r2b_mat; rewrite A8; reflexivity. }
  assert (EM1 : forall a q, (0 <= a < m)%Z -> (0 <= q < b)%Z -> M1 a q = pM1 st a q).
  { intros a q La Lq. unfold M1. rewrite GP by lia. apply (st1_panel st); assumption. }
  assert (EV : forall a q, (0 <= a < m)%Z -> (0 <= q < n_refl)%Z -> unit_lower M1 a q = V a q).
  { intros a q La Lq. unfold V, unit_lower. rewrite EM1 by lia. reflexivity. }
  assert (ETT : forall c, taus c = col_vec (pst1 st (rTau j)) c) by (intros c; unfold taus; rewrite ETau; reflexivity).
  destruct (st1_qr st) as (Q1 & Q2 & Q3 & Q4). rewrite ptl_size in Q1, Q2 by assumption.
  assert (EQ : meq m m Q (refl_prod m V (col_vec (pst1 st (rTau j))) (Z.to_nat n_refl))).
  { apply refl_prod_ext; intros; [apply EV; lia|apply ETT]. }
  split; [|split; [|split; [|split; [|split; [|split]]]]].
  - intros c Lc. apply (unitary_ext m (reflector (col_vec (pst1 st (rTau j)) c) (fun i => V i c))); [|apply Q1; exact Lc].
    intros i k Li Lk. unfold reflector. rewrite ETT, !EV by lia. reflexivity.
  - intros a q La Lq. unfold M0. rewrite <- (pP_stack st a q La Lq). rewrite <- Q2 by (try assumption; rewrite ?ptl_size by assumption; assumption).
    apply mmul_ext; intros r Lr; [apply EQ; assumption|]. unfold upper_part. rewrite EM1 by assumption. reflexivity.
  - intros a c Lc La. rewrite EG, U by lia. destruct (Z.leb_spec e_row (e_row + c)), (Z.leb_spec (e_row + c) (e_row + a)); try lia. cbn [andb].
    replace (e_row + a - e_row)%Z with a by lia. replace (e_row + c - e_row)%Z with c by lia. unfold upd_val. rewrite EA8 by lia.
    assert (TS := two_sided m n_refl (herm Lower At) V T W X W2). assert (HH : meq m m (adj (herm Lower At)) (herm Lower At)) by (apply herm_herm; exact RDA).
    specialize (TS HH ltac:(reflexivity) ltac:(reflexivity) ltac:(reflexivity) a c ltac:(lia) ltac:(lia)).
    assert (HL : herm Lower At a c = At a c) by (unfold herm, in_tri; destruct (Z.leb_spec c a); [reflexivity|lia]). rewrite HL in TS. unfold X'. rewrite TS.
    assert (QB : meq m m Q (fun i k => ident i k - block n_refl V T i k)).
    { intros i k Li Lk. rewrite EQ by assumption. assert (TRP := t_rec_prod m (Z.to_nat n_refl) V T (col_vec (pst1 st (rTau j)))). rewrite Z2Nat.id in TRP by lia. apply TRP; try assumption.
      assert (TE : forall c, col_vec (s2 (rTau j)) c = col_vec (pst1 st (rTau j)) c) by (intros; rewrite F2 by (intros; tneq); reflexivity).
      destruct T4 as (T41 & T42 & T43). repeat split; [exact T41| |].
      - intros q0 L0. rewrite <- TE. apply T42. exact L0.
      - intros p0 q0 L0 L1. rewrite T43 by assumption. apply fsum_ext. intros r _. rewrite TE. reflexivity. }
    apply mmul_ext; intros r Lr; [unfold adj, opm; rewrite QB by lia; reflexivity|]. apply mmul_ext; [reflexivity|]. intros u Lu. symmetry. apply QB; lia.
  - intros a q La Lq N. rewrite GP by lia. apply (st1_other st); lia.
  - intros c Lc. rewrite ETT. apply Q3. lia.
  - intros k N. rewrite ETau. apply (st1_frame st); [intros E; injection E; lia|]. intros i _. discriminate.
  - destruct (st1_value st) as [P1 P2]. intros R.
    destruct (m_run_ext rs t b (Z.to_nat n_refl) (stack t (pP st)) M0 (col_vec (st (rTau j))) (col_vec (st (rTau j)))) as [X1 X2].
    { rewrite ptl_size by assumption. lia. } { lia. } { intros a q La Lq. rewrite ptl_size in La by assumption. apply pP_stack; assumption. } { reflexivity. }
    split.
    + intros a q La Lq. rewrite EM1 by assumption. rewrite P1 by (try assumption; rewrite ptl_size by assumption; assumption). apply X1; [rewrite ptl_size by assumption|]; assumption.
    + intros i. rewrite ETT, P2. apply X2.
Qed.
End step.
