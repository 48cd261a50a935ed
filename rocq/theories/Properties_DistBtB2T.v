(** * C47: back transformation of the reduction of a band matrix to tridiagonal form (distributed). *)
From Coq Require Import ZArith Lia List Bool Permutation QArith Qcanon.
From Verif Require Import CInt Loop StarField DenseSpec Tiling DenseJobs TileJobs BlockJobs RefKernels HouseSpec HouseModel HouseQR Red2BandModel Red2BandSpec
  DistModel DistSpec DistBuilt DistThms DistCtor DistMachine DistGrid PanelModel PanelProofs Properties_Panel DistMat DistTriModel
  B2TResult BtB2TModel BtB2TFinal Properties_BtB2T DistBtB2TModel DistBtB2TIdx DistBtB2TProofs DistBtB2TFinal.
Import ListNotations.
Local Open Scope Z_scope.

(** Element (x, y) of the matrix mid, distributed over a P x Q grid in blocks (mb x nb elements) from the rank src and stored in tiles
    (b x nb elements, b divides mb): it is in tile (x / b, y / nb), on the rank of its block (x / mb, y / nb). *)
Definition tiled_mat {K : starfield} (P Q : Z) (block tile src : pair_Z) (mid : Z) (st : tstore (mat K)) : mat K := fun x y =>
  st (Tid (drank P Q src (x / fst block) (y / snd block)) mid (x / fst tile) (y / snd tile)) (x mod fst tile) (y mod snd tile).

(** C47 (distributed): for every field, kernels that meet their contracts, P x Q grid, sizes, block sizes, band size, group size,
    reflectors (any numbers), matrix E and schedule of every rank and of MPI. mat_hh is m x m in blocks of mb x mb, mat_e m x ne in
    blocks of mb x nb on the same grid (retiled by the algorithm to b x nb), both starting on the same rank row. The ranks' collective
    calls match, no rank waits for ever, and at the end mat_e holds Q E, Q the product of the reflectors in the order documented by
    band_to_tridiagonal; mat_hh is not changed, on any rank. *)
Theorem C47_bt_band_to_tridiag_distributed : forall (K : starfield) (kn : kernels K) (larft : @larft_fn K), kernels_ok kn -> larft_ok larft ->
  forall (cplx : bool) (P Q m mb b g ne nb : Z) (srcH srcE : pair_Z) DH DE, 2 <= b -> 0 < g ->
  distributed P Q (m, m) (mb, mb) (mb, mb) srcH (0, 0) DH ->
  distributed P Q (m, ne) (mb, nb) (b, nb) srcE (0, 0) DE ->
  fst srcE = fst srcH ->
  forall st0 : tstore (mat K),
  every_run (members P Q) (ranks P Q) (dist_bt_b2t kn larft cplx P Q m mb b g DH DE) st0 (fun st =>
    meq m ne (tiled_mat P Q (mb, nb) (b, nb) srcE 1 st)
      (mmul m (hht_product m b (dmat P Q (mb, mb) srcH 0 st0) (hht_list cplx m b)) (tiled_mat P Q (mb, nb) (b, nb) srcE 1 st0)) /\
    (forall r i j, st (bHH r i j) = st0 (bHH r i j))).
Proof.
  intros K kn larft KO LO cplx P Q m mb b g ne nb srcH srcE DH DE Hb Hg DDH DDE SR st0.
  apply (every_run_intro (members P Q) (ranks P Q) _ (g_all kn larft cplx P Q m mb b g ne srcH DH DE)).
  - intros r R. eapply all_proj; eassumption.
  - eapply all_ok; eassumption.
  - intros st ST. destruct (all_run kn KO larft LO cplx P Q m mb b g ne nb srcH srcE DH DE DDH DDE SR Hb Hg st0) as [R1 R2]. split.
    + intros x y Lx Ly. refine (eq_trans _ (R2 x y Lx Ly)). unfold tiled_mat, Ed, drank, bE. cbn [fst snd]. rewrite ST. reflexivity.
    + intros r i j. rewrite ST. apply R1. reflexivity.
Qed.

(** C47: applied to the output of band_to_tridiagonal (C46): eigenvectors of the tridiagonal matrix, distributed in mat_e, become
    eigenvectors of the band matrix, with the same eigenvalues, and orthonormal columns stay orthonormal. *)
Theorem C47_eigenvectors_distributed : forall (K : starfield) (kn : kernels K) (larft : @larft_fn K), kernels_ok kn -> larft_ok larft ->
  forall (cplx : bool) (P Q m mb b g ne nb : Z) (srcH srcE : pair_Z) DH DE, 2 <= b -> 0 < g ->
  distributed P Q (m, m) (mb, mb) (mb, mb) srcH (0, 0) DH ->
  distributed P Q (m, ne) (mb, nb) (b, nb) srcE (0, 0) DE ->
  fst srcE = fst srcH ->
  forall (st0 : tstore (mat K)) (A : mat K) (d e lam : Z -> F K),
  let C0 := tiled_mat P Q (mb, nb) (b, nb) srcE 1 st0 in
  is_tridiagonal_reduction cplx m b A (dmat P Q (mb, mb) srcH 0 st0) d e ->
  meq m ne (mmul m (tridiag d e) C0) (fun i c => fmul (lam c) (C0 i c)) ->
  every_run (members P Q) (ranks P Q) (dist_bt_b2t kn larft cplx P Q m mb b g DH DE) st0 (fun st =>
    let C := tiled_mat P Q (mb, nb) (b, nb) srcE 1 st in
    meq m ne (mmul m (band b (herm Lower A)) C) (fun i c => fmul (lam c) (C i c)) /\
    meq ne ne (mmul m (adj C) C) (mmul m (adj C0) C0)).
Proof.
  intros K kn larft KO LO cplx P Q m mb b g ne nb srcH srcE DH DE Hb Hg DDH DDE SR st0 A d e lam C0 (U & _ & _ & EA) EV s RS.
  destruct (C47_bt_band_to_tridiag_distributed K kn larft KO LO cplx P Q m mb b g ne nb srcH srcE DH DE Hb Hg DDH DDE SR st0 s RS) as (F1 & F2).
  split; [|exact F2]. intros FN. destruct (F1 FN) as (Q1 & _). clear F1 F2. fold C0 in Q1. intros C1. fold C1 in Q1.
  set (QQ := hht_product m b (dmat P Q (mb, mb) srcH 0 st0) (hht_list cplx m b)) in *. set (B := band b (herm Lower A)) in *. set (T := tridiag d e) in *. destruct U as [U1 U2]. split.
  - intros i c Li Lc. transitivity (mmul m (mmul m QQ (mmul m T (adj QQ))) (mmul m QQ C0) i c).
    { apply mmul_ext; intros r Lr; [apply EA; assumption|apply Q1; assumption]. }
    rewrite mmul_assoc. rewrite (Q1 i c Li Lc).
    transitivity (mmul m QQ (fun i c => fmul (lam c) (C0 i c)) i c).
    + apply mmul_ext; [reflexivity|]. intros r Lr. rewrite mmul_assoc. rewrite <- EV by assumption. apply mmul_ext; [reflexivity|]. intros u Lu. rewrite <- mmul_assoc.
      transitivity (mmul m ident C0 u c); [|apply mmul_ident_l; exact Lu]. apply mmul_ext; [|reflexivity]. intros v Lv. apply U1; assumption.
    + unfold mmul. rewrite <- fsum_mul_l. apply fsum_ext. intros r _. rewrite !(Ring_theory.Rmul_assoc (fring K)), (Ring_theory.Rmul_comm (fring K) (QQ i r)). reflexivity.
  - intros i c Li Lc. transitivity (mmul m (adj (mmul m QQ C0)) (mmul m QQ C0) i c).
    { apply mmul_ext; intros r Lr; [unfold adj, opm; f_equal; apply Q1; assumption|apply Q1; assumption]. }
    transitivity (mmul m (mmul m (adj C0) (adj QQ)) (mmul m QQ C0) i c).
    { apply mmul_ext; [|reflexivity]. intros r Lr. apply adj_mmul. }
    rewrite mmul_assoc. apply mmul_ext; [reflexivity|]. intros r Lr. rewrite <- mmul_assoc.
    transitivity (mmul m ident C0 r c); [|apply mmul_ident_l; exact Lr]. apply mmul_ext; [|reflexivity]. intros v Lv. apply U1; assumption.
Qed.

(** A complex 14 x 14 matrix of reflectors in blocks of 4 x 4 and a 14 x 5 matrix E in blocks of 4 x 2, band of size 2, on a 2 x 3 grid;
    both start on rank row 1. The reflectors are arbitrary numbers. *)
Definition exb_num (x y : Z) : F gauss_field := (Q2Qc (inject_Z x), Q2Qc (inject_Z y)).
Definition exb_st : tstore (mat gauss_field) := fun u p q => exb_num (t_mat u + t_row u * 3 + p) (t_col u * 2 + q).
Definition exb_diag : tstore (mat gauss_field) := fun u p q => if t_mat u =? 0 then f0 else if t_row u * 2 + p =? t_col u * 2 + q then f1 else f0.
Definition exb_d (c : Z) : F gauss_field := exb_num c 0.
Lemma exb_dist : exists DH DE, distributed 2 3 (14, 14) (4, 4) (4, 4) (1, 2) (0, 0) DH /\ distributed 2 3 (14, 5) (4, 2) (2, 2) (1, 0) (0, 0) DE.
Proof.
  assert (EX : forall size block tile src, 0 <= fst size <= 14 -> 0 <= snd size <= 14 -> 0 < fst block < 9 -> 0 < snd block < 9 -> (exists k, 0 < k <= fst block /\ fst block = k * fst tile) -> (exists k, 0 < k <= snd block /\ snd block = k * snd tile) -> 0 <= fst src < 2 -> 0 <= snd src < 3 -> exists D, distributed 2 3 size block tile src (0, 0) D).
  { intros [sr sc] [br bc] [tr tc] [a b] L1 L2 L5 L6 [k1 [K1 K1']] [k2 [K2 K2']] L3 L4. cbn [fst snd] in *. assert (0 < tr <= br) by nia. assert (0 < tc <= bc) by nia. apply distributed_exists.
    - intros pr pc X1 X2 rc. unfold i32_max, i64_max. destruct rc; cbn; repeat split; try lia; [exists k1|exists k2]; lia.
    - unfold i32_max. lia.
    - unfold i32_max. lia.
    - intros rc. unfold i32_max, i64_max. destruct rc; cbn; lia. }
  destruct (EX (14, 14) (4, 4) (4, 4) (1, 2)) as [DH HH]; try (cbn; lia). 1,2: exists 1; cbn; lia.
  destruct (EX (14, 5) (4, 2) (2, 2) (1, 0)) as [DE HE]; try (cbn; lia). 1: exists 2; cbn; lia. 1: exists 1; cbn; lia.
  exists DH, DE. split; assumption.
Qed.
Example C47_distributed_hypotheses_hold : larft_ok (@ref_larft gauss_field) /\
  exists DH DE, distributed 2 3 (14, 14) (4, 4) (4, 4) (1, 2) (0, 0) DH /\ distributed 2 3 (14, 5) (4, 2) (2, 2) (1, 0) (0, 0) DE /\
  exists st, dreach (members 2 3) (ranks 2 3) (dist_bt_b2t gauss_kernels ref_larft true 2 3 14 4 2 3 DH DE) exb_st st /\
    dfinal (ranks 2 3) (dist_bt_b2t gauss_kernels ref_larft true 2 3 14 4 2 3 DH DE) st /\
    meq 14 5 (tiled_mat 2 3 (4, 2) (2, 2) (1, 0) 1 (d_store st))
      (mmul 14 (hht_product 14 2 (dmat 2 3 (4, 4) (1, 2) 0 exb_st) (hht_list true 14 2)) (tiled_mat 2 3 (4, 2) (2, 2) (1, 0) 1 exb_st)).
Proof.
  split; [apply ref_larft_ok|]. destruct exb_dist as (DH & DE & HH & HE). exists DH, DE. split; [exact HH|]. split; [exact HE|].
  destruct (every_run_final _ _ _ _ _ (C47_bt_band_to_tridiag_distributed gauss_field gauss_kernels ref_larft gauss_kernels_ok ref_larft_ok true 2 3 14 4 2 3 5 2 (1, 2) (1, 0) DH DE ltac:(lia) ltac:(lia) HH HE eq_refl exb_st)) as (st & R & F & X & _). exists st. auto.
Qed.
(** not trivial: the number of reflectors, of blocks; the blocks (i, j) of an epoch; blocks whose two tiles are on one rank, on two, and a block of one tile *)
Example C47_distributed_not_trivial : length (hht_list true 14 2) = 43%nat /\ length (dblocks true 14 2) = 22%nat /\ epoch 14 2 2 = [(2, 2); (4, 3)] /\
  (forall DE, distributed 2 3 (14, 5) (4, 2) (2, 2) (1, 0) (0, 0) DE -> forall r, In r (ranks 2 3) ->
    d_tiles 3 2 DE r 2 = true /\ d_ranks 3 2 DE r 2 = false /\ d_tiles 3 2 DE r 3 = true /\ d_ranks 3 2 DE r 3 = true /\ d_tiles 3 2 DE r 6 = false).
Proof.
  split; [vm_compute; reflexivity|]. split; [vm_compute; reflexivity|]. split; [vm_compute; reflexivity|]. intros DE HE r R.
  assert (T : forall i, 0 <= i -> i * 2 < 14 -> d_tiles 3 2 DE r i = ((i + 1) * 2 <? 14)) by (intros i Li L; eapply x_tiles; try eassumption; try lia).
  assert (A : forall i, 0 <= i -> i * 2 < 14 -> d_ranks 3 2 DE r i = ((i + 1) * 2 <? 14) && negb ((fst (1, 2) + i * 2 / 4) mod 2 =? (fst (1, 2) + (i + 1) * 2 / 4) mod 2)) by (intros i Li L; eapply x_ranks; try eassumption; try lia; reflexivity).
  rewrite !T, !A by lia. repeat split.
Qed.
(** The hypotheses of the composition (see also Properties_B2TNum.C46_hypotheses_hold): a diagonal matrix with all taus zero *)
Section mul0.
Context {K : starfield}.
Add Ring KringB47 : (fring K).
Lemma exb_mul0g : forall x : F K, fmul x f0 = f0.
Proof. intros x. ring. Qed.
End mul0.
Lemma exb_mul0 : forall x : F gauss_field, fmul x f0 = f0.
Proof. intros x. apply exb_mul0g. Qed.
Lemma exb_zero : forall a c, dmat 2 3 (4, 4) (1, 2) 0 exb_diag a c = f0.
Proof. reflexivity. Qed.
Lemma exb_e : forall a c, tiled_mat 2 3 (4, 2) (2, 2) (1, 0) 1 exb_diag a c = if a =? c then f1 else f0.
Proof.
  intros a c. unfold tiled_mat, exb_diag. cbn [t_mat t_row t_col fst snd]. change (1 =? 0) with false. cbv iota.
  rewrite !(Z.mul_comm _ 2), <- !Z.div_mod by discriminate. reflexivity.
Qed.
Example C47_distributed_composition_hypotheses_hold : let C0 := tiled_mat 2 3 (4, 2) (2, 2) (1, 0) 1 exb_diag in
  is_tridiagonal_reduction true 14 2 (fun a c => if a =? c then exb_d a else f0) (dmat 2 3 (4, 4) (1, 2) 0 exb_diag) exb_d (fun _ => f0) /\
  meq 14 5 (mmul 14 (tridiag exb_d (fun _ => f0)) C0) (fun i c => fmul (exb_d c) (C0 i c)) /\ C0 4 4 = f1.
Proof.
  cbv zeta. split; [|split].
  - apply diag_tridiagonal; [lia|apply exb_zero| |reflexivity]. intros i. cbn. unfold exb_d, exb_num, g_conj. cbn [fst snd]. f_equal.
  - intros i c Li Lc. unfold mmul.
    rewrite (fsum_one 0 14 _ i) by (try exact Li; intros r Lr N; unfold tridiag; rewrite (proj2 (Z.eqb_neq i r)) by congruence; destruct (i =? r + 1), (r =? i + 1); rewrite (Ring_theory.Rmul_comm (fring _)); apply exb_mul0).
    rewrite exb_e. unfold tridiag. rewrite Z.eqb_refl. destruct (Z.eqb_spec i c) as [->|N]; [reflexivity|]. rewrite !exb_mul0. reflexivity.
  - rewrite exb_e. reflexivity.
Qed.

(** ** Assumptions *)
Print Assumptions C47_bt_band_to_tridiag_distributed.
Print Assumptions C47_eigenvectors_distributed.
