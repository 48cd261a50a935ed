(** * C52, C53 with the modelled band_to_tridiagonal (C46, C56) and tridiagonal_eigensolver (C57): only BLAS/LAPACK kernels are left as contracts *)
From Coq Require Import ZArith Lia List Bool Ring Reals.
From Verif Require Import CInt Loop StarField DenseSpec Tiling DenseJobs RefKernels HouseSpec HouseModel HouseQR CplxField MultiJobs Red2BandModel Red2BandSpec Red2BandTheory
  Properties_Inverse SemModel B2TSpec B2TModel B2TResult BtB2TModel BtB2TFinal BandSizeModel EigSpec EigModel EigProofs
  DistModel DistSpec DistMachine DistGrid PanelModel Properties_Panel DistMat DistEigModel Properties_B2TNum Properties_B2T Properties_Eig Properties_DistBtB2T Properties_DistEig
  Properties_DistEigB2T DcModel DcRank1 DcLaed4 Properties_Dc Properties_DcDist.
Import ListNotations.
Local Open Scope Z_scope.

(** the eigensolver with a given tridiagonal eigensolver *)
Definition with_ts {K : starfield} (g : dist_eig_cfg K) (ts : Z -> (Z -> F K) -> (Z -> F K) -> (Z -> F K) -> mat K -> Prop) : dist_eig_cfg K :=
  DistEigCfg K (h_kn g) (h_rs g) (h_panel_avail g) (h_panel_min g) (h_t_avail g) (h_b2t g) ts (h_larft g) (h_group g) (h_bt_avail g) (h_bmin g).
(** what is left: BLAS/LAPACK kernels, positive numbers of threads and sizes *)
Definition kernels_only {K : starfield} (g : dist_eig_cfg K) (P Q : Z) : Prop :=
  kernels_ok (h_kn g) /\ (forall r, In r (ranks P Q) -> 0 < h_t_avail g r) /\
  larft_ok (h_larft g) /\ 0 < h_group g /\ (forall r, In r (ranks P Q) -> 0 < h_bt_avail g r) /\ 2 <= h_bmin g <= i64_max.
Lemma ok_with_ts : forall (K : starfield) (g : dist_eig_cfg K) ts P Q, kernels_only g P Q -> ts_ok ts -> dist_eig_ok_b2t (with_ts g ts) P Q.
Proof. intros K g ts P Q (H1 & H2 & H3 & H4 & H5 & H6) T. repeat (split; [assumption|]). assumption. Qed.

(** hermitian_eigensolver on real and on complex matrices, as modelled: mat_a on a P x Q grid from rank srcA, the eigenvectors from srcE, blocks of mb x mb *)
Definition real_eigensolver (g : dist_eig_cfg real_field) (lf : larfg_fn real_field) laed4 stedc (P Q mb base : Z) (srcA srcE : pair_Z) (nthreads : Z) : dist_eig_cfg real_field :=
  with_b2t (with_ts g (dc_dist_real P Q mb srcE laed4 stedc)) (b2t_call lf P Q mb base srcA nthreads).
Definition complex_eigensolver (g : dist_eig_cfg complex_field) (lf : larfg_fn complex_field) laed4 stedc (P Q mb base : Z) (srcA srcE : pair_Z) (nthreads : Z) : dist_eig_cfg complex_field :=
  with_b2t (with_ts g (dc_dist_complex P Q mb srcE laed4 stedc)) (b2t_call lf P Q mb base srcA nthreads).

(** ** C52 *)
(** For every P x Q grid, source rank, size n, block size, number k of eigenvectors, numbers of threads, and every run of all ranks and threads that meets the contracts of
    BLAS/LAPACK: the eigensolver returns lam and E, the first k columns of E being those of the eigenvectors of the matrix in the lower triangle of A.
    Partial: in C57 a collective is its result; that the ranks make matching calls in the tridiagonal solver is not proved (it is for all the other phases). *)
Theorem C52_real_eigensolver_distributed_partial : forall (g : dist_eig_cfg real_field) (lf : larfg_fn real_field) laed4 stedc (P Q n mb k base nthreads : Z) (srcA srcE : pair_Z) DA (st : tstore (mat real_field)),
  0 <= k <= n -> 2 <= mb <= i64_max -> mb <= base -> 0 < P -> 0 <= snd srcE < Q -> 0 < nthreads ->
  kernels_only g P Q -> larfg_ok lf -> laed4_ok laed4 -> stedc_ok mb stedc ->
  distributed P Q (n, n) (mb, mb) (mb, mb) srcA (0, 0) DA -> fst srcE = fst srcA ->
  every_dist_eigensolver_call (real_eigensolver g lf laed4 stedc P Q mb base srcA srcE nthreads) false P Q srcA srcE DA Lower n mb k st (fun r => exists lam E, r = Ok (lam, E) /\
    exists E', meq n k E E' /\ is_eigendecomposition n n (herm Lower (dmat P Q (mb, mb) srcA 0 st)) lam E').
Proof.
  intros g lf laed4 stedc P Q n mb k base nthreads srcA srcE DA st Hk Hmb Hbase HP HE Ht GO LF LA ST HA SR.
  assert (SA : 0 <= fst srcA < P) by (destruct HA as (_ & _ & H & _); specialize (H Row); cbn in H; lia).
  apply C52_eigensolver_distributed_b2t_contract; try assumption; try lia; [|intros _ x; reflexivity|intros i Li; reflexivity].
  apply ok_with_ts; [exact GO|]. apply C57_ts_ok_real; try assumption; lia.
Qed.
Theorem C52_complex_eigensolver_distributed_partial : forall (g : dist_eig_cfg complex_field) (lf : larfg_fn complex_field) laed4 stedc (P Q n mb k base nthreads : Z) (srcA srcE : pair_Z) DA (st : tstore (mat complex_field)),
  0 <= k <= n -> 2 <= mb <= i64_max -> mb <= base -> 0 < P -> 0 <= snd srcE < Q -> 0 < nthreads ->
  kernels_only g P Q -> larfg_ok lf -> laed4_ok laed4 -> stedc_ok mb stedc ->
  distributed P Q (n, n) (mb, mb) (mb, mb) srcA (0, 0) DA -> fst srcE = fst srcA -> real_diag n (dmat P Q (mb, mb) srcA 0 st) ->
  every_dist_eigensolver_call (complex_eigensolver g lf laed4 stedc P Q mb base srcA srcE nthreads) true P Q srcA srcE DA Lower n mb k st (fun r => exists lam E, r = Ok (lam, E) /\
    exists E', meq n k E E' /\ is_eigendecomposition n n (herm Lower (dmat P Q (mb, mb) srcA 0 st)) lam E').
Proof.
  intros g lf laed4 stedc P Q n mb k base nthreads srcA srcE DA st Hk Hmb Hbase HP HE Ht GO LF LA ST HA SR RD.
  assert (SA : 0 <= fst srcA < P) by (destruct HA as (_ & _ & H & _); specialize (H Row); cbn in H; lia).
  apply C52_eigensolver_distributed_b2t_contract; try assumption; try lia; try discriminate.
  apply ok_with_ts; [exact GO|]. apply C57_ts_ok_complex; try assumption; lia.
Qed.
(** The calls speak about at least one complete run, for every number of tiles that int can count. *)
Theorem C52_some_real_run_distributed : forall (g : dist_eig_cfg real_field) (lf : larfg_fn real_field) laed4 stedc (P Q n mb k base nthreads : Z) (srcA srcE : pair_Z) DA (st : tstore (mat real_field)),
  0 <= k <= n -> 2 <= mb <= i64_max -> mb <= base -> 0 < P -> 0 <= snd srcE < Q -> 0 < nthreads -> countable P Q mb n ->
  kernels_only g P Q -> larfg_ok lf -> laed4_ok laed4 -> stedc_ok mb stedc ->
  distributed P Q (n, n) (mb, mb) (mb, mb) srcA (0, 0) DA -> fst srcE = fst srcA ->
  (forall b, b = mb \/ get_band_size (h_bmin g) mb = Ok b -> exists DE, distributed P Q (n, k) (mb, mb) (b, mb) srcE (0, 0) DE) ->
  forall R, every_dist_eigensolver_call (real_eigensolver g lf laed4 stedc P Q mb base srcA srcE nthreads) false P Q srcA srcE DA Lower n mb k st R -> exists lam E, R (Ok (lam, E)).
Proof.
  intros g lf laed4 stedc P Q n mb k base nthreads srcA srcE DA st Hk Hmb Hbase HP HE Ht CT GO LF LA ST HA SR DEX.
  assert (SA : 0 <= fst srcA < P) by (destruct HA as (_ & _ & H & _); specialize (H Row); cbn in H; lia).
  apply (C52_some_run_distributed_b2t real_field (with_ts g (dc_dist_real P Q mb srcE laed4 stedc)) lf false P Q n mb k base nthreads srcA srcE DA st); try assumption; try lia; [|intros _ x; reflexivity|intros i Li; reflexivity|].
  - apply ok_with_ts; [exact GO|]. apply C57_ts_ok_real; try assumption; lia.
  - intros d e U _ _. apply solver_dist_total; try assumption; lia.
Qed.
Theorem C52_some_complex_run_distributed : forall (g : dist_eig_cfg complex_field) (lf : larfg_fn complex_field) laed4 stedc (P Q n mb k base nthreads : Z) (srcA srcE : pair_Z) DA (st : tstore (mat complex_field)),
  0 <= k <= n -> 2 <= mb <= i64_max -> mb <= base -> 0 < P -> 0 <= snd srcE < Q -> 0 < nthreads -> countable P Q mb n ->
  kernels_only g P Q -> larfg_ok lf -> laed4_ok laed4 -> stedc_ok mb stedc ->
  distributed P Q (n, n) (mb, mb) (mb, mb) srcA (0, 0) DA -> fst srcE = fst srcA ->
  (forall b, b = mb \/ get_band_size (h_bmin g) mb = Ok b -> exists DE, distributed P Q (n, k) (mb, mb) (b, mb) srcE (0, 0) DE) -> real_diag n (dmat P Q (mb, mb) srcA 0 st) ->
  forall R, every_dist_eigensolver_call (complex_eigensolver g lf laed4 stedc P Q mb base srcA srcE nthreads) true P Q srcA srcE DA Lower n mb k st R -> exists lam E, R (Ok (lam, E)).
Proof.
  intros g lf laed4 stedc P Q n mb k base nthreads srcA srcE DA st Hk Hmb Hbase HP HE Ht CT GO LF LA ST HA SR DEX RD.
  assert (SA : 0 <= fst srcA < P) by (destruct HA as (_ & _ & H & _); specialize (H Row); cbn in H; lia).
  apply (C52_some_run_distributed_b2t complex_field (with_ts g (dc_dist_complex P Q mb srcE laed4 stedc)) lf true P Q n mb k base nthreads srcA srcE DA st); try assumption; try lia; try discriminate.
  - apply ok_with_ts; [exact GO|]. apply C57_ts_ok_complex; try assumption; lia.
  - intros d e U _ _. destruct (solver_dist_total P Q mb srcE laed4 stedc ltac:(lia) ltac:(lia) ltac:(lia) LA ST n (fun i => fst (d i)) (fun i => fst (e i)) ltac:(lia) CT) as (l & V & H).
    exists (fun i => (l i, 0%R)), (cast_to_complex V), l, V. auto.
Qed.

(** ** C53 *)
Theorem C53_real_gen_eigensolver_distributed_partial : forall (g : dist_eig_cfg real_field) (lf : larfg_fn real_field) laed4 stedc (factorize : bool) (P Q n mb k base nthreads : Z) (srcA srcE : pair_Z) DA (st : tstore (mat real_field)),
  0 <= k <= n -> 2 <= mb <= i64_max -> mb <= base -> 0 < P -> 0 <= snd srcE < Q -> 0 < nthreads ->
  kernels_only g P Q -> larfg_ok lf -> laed4_ok laed4 -> stedc_ok mb stedc ->
  distributed P Q (n, n) (mb, mb) (mb, mb) srcA (0, 0) DA -> fst srcE = fst srcA ->
  let A := dmat P Q (mb, mb) srcA 0 st in
  let B := dmat P Q (mb, mb) srcA 1 st in
  (if factorize then exists T, is_factor Lower n B T else nonsingular NonUnit n B) ->
  every_dist_gen_eigensolver_call (real_eigensolver g lf laed4 stedc P Q mb base srcA srcE nthreads) false P Q srcA srcE DA Lower factorize n mb k st (fun r => exists lam X, r = Ok (lam, X) /\
    exists X', meq n k X X' /\
      is_gen_eigendecomposition n n (herm Lower A) (if factorize then herm Lower B else factored Lower n B) lam X').
Proof.
  intros g lf laed4 stedc factorize P Q n mb k base nthreads srcA srcE DA st Hk Hmb Hbase HP HE Ht GO LF LA ST HA SR A B HB.
  assert (SA : 0 <= fst srcA < P) by (destruct HA as (_ & _ & H & _); specialize (H Row); cbn in H; lia).
  apply C53_gen_eigensolver_distributed_b2t_contract; try assumption; try lia; [|intros _ x; reflexivity|intros i Li; reflexivity].
  apply ok_with_ts; [exact GO|]. apply C57_ts_ok_real; try assumption; lia.
Qed.
Theorem C53_complex_gen_eigensolver_distributed_partial : forall (g : dist_eig_cfg complex_field) (lf : larfg_fn complex_field) laed4 stedc (factorize : bool) (P Q n mb k base nthreads : Z) (srcA srcE : pair_Z) DA (st : tstore (mat complex_field)),
  0 <= k <= n -> 2 <= mb <= i64_max -> mb <= base -> 0 < P -> 0 <= snd srcE < Q -> 0 < nthreads ->
  kernels_only g P Q -> larfg_ok lf -> laed4_ok laed4 -> stedc_ok mb stedc ->
  distributed P Q (n, n) (mb, mb) (mb, mb) srcA (0, 0) DA -> fst srcE = fst srcA ->
  let A := dmat P Q (mb, mb) srcA 0 st in
  let B := dmat P Q (mb, mb) srcA 1 st in
  real_diag n A -> (if factorize then exists T, is_factor Lower n B T else nonsingular NonUnit n B) ->
  every_dist_gen_eigensolver_call (complex_eigensolver g lf laed4 stedc P Q mb base srcA srcE nthreads) true P Q srcA srcE DA Lower factorize n mb k st (fun r => exists lam X, r = Ok (lam, X) /\
    exists X', meq n k X X' /\
      is_gen_eigendecomposition n n (herm Lower A) (if factorize then herm Lower B else factored Lower n B) lam X').
Proof.
  intros g lf laed4 stedc factorize P Q n mb k base nthreads srcA srcE DA st Hk Hmb Hbase HP HE Ht GO LF LA ST HA SR A B RD HB.
  assert (SA : 0 <= fst srcA < P) by (destruct HA as (_ & _ & H & _); specialize (H Row); cbn in H; lia).
  apply C53_gen_eigensolver_distributed_b2t_contract; try assumption; try lia; try discriminate.
  apply ok_with_ts; [exact GO|]. apply C57_ts_ok_complex; try assumption; lia.
Qed.
(** The calls speak about at least one complete run. *)
Lemma gen_some_run : forall (K : starfield) (g : dist_eig_cfg K) (lf : larfg_fn K) (cplx factorize : bool) (P Q n mb k base nthreads : Z) (srcA srcE : pair_Z) DA (st : tstore (mat K)),
  0 <= k <= n -> 2 <= mb <= i64_max -> mb <= base -> 0 < P -> 0 < Q -> 0 < nthreads -> larfg_ok lf -> dist_eig_ok_b2t g P Q -> (cplx = false -> forall x : F K, fconj x = x) ->
  distributed P Q (n, n) (mb, mb) (mb, mb) srcA (0, 0) DA -> fst srcE = fst srcA ->
  (forall b, b = mb \/ get_band_size (h_bmin g) mb = Ok b -> exists DE, distributed P Q (n, k) (mb, mb) (b, mb) srcE (0, 0) DE) ->
  real_diag n (dmat P Q (mb, mb) srcA 0 st) -> (if factorize then exists T, is_factor Lower n (dmat P Q (mb, mb) srcA 1 st) T else nonsingular NonUnit n (dmat P Q (mb, mb) srcA 1 st)) ->
  (forall d e, exists lam E, h_ts g n d e lam E) ->
  forall R, every_dist_gen_eigensolver_call (with_b2t g (b2t_call lf P Q mb base srcA nthreads)) cplx P Q srcA srcE DA Lower factorize n mb k st R -> exists lam X, R (Ok (lam, X)).
Proof.
  intros K g lf cplx factorize P Q n mb k base nthreads srcA srcE DA st Hk Hmb Hbase HP HQ Ht LF GO RK HA SR DEX RD HB TT R HR.
  apply (C53_some_run_distributed K (with_b2t g (b2t_call lf P Q mb base srcA nthreads)) cplx factorize P Q n mb k srcA srcE DA st Hk Hmb (ok_with K g lf P Q mb base srcA nthreads GO LF HP HQ ltac:(lia) Ht) RK HA SR DEX RD HB) in HR; [exact HR| |].
  - intros b A0 Hb Hd RDA. apply b2t_call_total; try assumption; lia.
  - intros d e U T C _ _ _ _. apply TT.
Qed.
Theorem C53_some_complex_run_distributed : forall (g : dist_eig_cfg complex_field) (lf : larfg_fn complex_field) laed4 stedc (factorize : bool) (P Q n mb k base nthreads : Z) (srcA srcE : pair_Z) DA (st : tstore (mat complex_field)),
  0 <= k <= n -> 2 <= mb <= i64_max -> mb <= base -> 0 < P -> 0 <= snd srcE < Q -> 0 < nthreads -> countable P Q mb n ->
  kernels_only g P Q -> larfg_ok lf -> laed4_ok laed4 -> stedc_ok mb stedc ->
  distributed P Q (n, n) (mb, mb) (mb, mb) srcA (0, 0) DA -> fst srcE = fst srcA ->
  (forall b, b = mb \/ get_band_size (h_bmin g) mb = Ok b -> exists DE, distributed P Q (n, k) (mb, mb) (b, mb) srcE (0, 0) DE) -> real_diag n (dmat P Q (mb, mb) srcA 0 st) ->
  (if factorize then exists T, is_factor Lower n (dmat P Q (mb, mb) srcA 1 st) T else nonsingular NonUnit n (dmat P Q (mb, mb) srcA 1 st)) ->
  forall R, every_dist_gen_eigensolver_call (complex_eigensolver g lf laed4 stedc P Q mb base srcA srcE nthreads) true P Q srcA srcE DA Lower factorize n mb k st R -> exists lam X, R (Ok (lam, X)).
Proof.
  intros g lf laed4 stedc factorize P Q n mb k base nthreads srcA srcE DA st Hk Hmb Hbase HP HE Ht CT GO LF LA ST HA SR DEX RD HB.
  assert (SA : 0 <= fst srcA < P) by (destruct HA as (_ & _ & H & _); specialize (H Row); cbn in H; lia).
  apply gen_some_run; try assumption; try lia; try discriminate.
  - apply ok_with_ts; [exact GO|]. apply C57_ts_ok_complex; try assumption; lia.
  - intros d e. destruct (solver_dist_total P Q mb srcE laed4 stedc ltac:(lia) ltac:(lia) ltac:(lia) LA ST n (fun i => fst (d i)) (fun i => fst (e i)) ltac:(lia) CT) as (l & V & H).
    exists (fun i => (l i, 0%R)), (cast_to_complex V), l, V. auto.
Qed.

Theorem C53_some_real_run_distributed : forall (g : dist_eig_cfg real_field) (lf : larfg_fn real_field) laed4 stedc (factorize : bool) (P Q n mb k base nthreads : Z) (srcA srcE : pair_Z) DA (st : tstore (mat real_field)),
  0 <= k <= n -> 2 <= mb <= i64_max -> mb <= base -> 0 < P -> 0 <= snd srcE < Q -> 0 < nthreads -> countable P Q mb n ->
  kernels_only g P Q -> larfg_ok lf -> laed4_ok laed4 -> stedc_ok mb stedc ->
  distributed P Q (n, n) (mb, mb) (mb, mb) srcA (0, 0) DA -> fst srcE = fst srcA ->
  (forall b, b = mb \/ get_band_size (h_bmin g) mb = Ok b -> exists DE, distributed P Q (n, k) (mb, mb) (b, mb) srcE (0, 0) DE) ->
  (if factorize then exists T, is_factor Lower n (dmat P Q (mb, mb) srcA 1 st) T else nonsingular NonUnit n (dmat P Q (mb, mb) srcA 1 st)) ->
  forall R, every_dist_gen_eigensolver_call (real_eigensolver g lf laed4 stedc P Q mb base srcA srcE nthreads) false P Q srcA srcE DA Lower factorize n mb k st R -> exists lam X, R (Ok (lam, X)).
Proof.
  intros g lf laed4 stedc factorize P Q n mb k base nthreads srcA srcE DA st Hk Hmb Hbase HP HE Ht CT GO LF LA ST HA SR DEX HB.
  assert (SA : 0 <= fst srcA < P) by (destruct HA as (_ & _ & H & _); specialize (H Row); cbn in H; lia).
  apply gen_some_run; try assumption; try lia; [|intros _ x; reflexivity|intros i Li; reflexivity|].
  - apply ok_with_ts; [exact GO|]. apply C57_ts_ok_real; try assumption; lia.
  - intros d e. apply solver_dist_total; try assumption; lia.
Qed.

(** ** The example of Properties_DistEig with everything modelled: a 7 x 7 matrix, 5 eigenvectors, 2 x 3 ranks, blocks of 4 x 4, A starts on rank (1, 2), E on (1, 0) *)
Example C52_hypotheses_hold_full : exists DA, distributed 2 3 (7, 7) (4, 4) (4, 4) (1, 2) (0, 0) DA /\
  forall R, every_dist_eigensolver_call (complex_eigensolver ex_dg (ref_larfg complex_roots) exact_laed4 exact_stedc 2 3 4 6 (1, 2) (1, 0) 2) true 2 3 (1, 2) (1, 0) DA Lower 7 4 5 (ex_dst (fun _ => ex_eig_A)) R ->
  exists lam E, R (Ok (lam, E)) /\ exists E', meq 7 5 E E' /\ is_eigendecomposition 7 7 (herm Lower ex_eig_A) lam E'.
Proof.
  destruct (ex_dg_dist 7 7 4 (1, 2)) as [DA HA]; try (cbn; lia). exists DA. split; [exact HA|]. intros R HR.
  set (st := ex_dst (fun _ => ex_eig_A)) in *.
  assert (EM : forall a c, dmat 2 3 (4, 4) (1, 2) 0 st a c = ex_eig_A a c) by (intros; apply (dmat_store 2 3 4 4 (1, 2) 0 (fun _ => ex_eig_A)); lia).
  assert (EA : meq 7 7 (herm Lower (dmat 2 3 (4, 4) (1, 2) 0 st)) (herm Lower ex_eig_A)) by (intros i j _ _; unfold herm; rewrite !EM; reflexivity).
  assert (RD : real_diag 7 (dmat 2 3 (4, 4) (1, 2) 0 st)) by (intros i Li; unfold real; rewrite !EM; apply ex_A_conj; assumption).
  assert (GO : kernels_only ex_dg 2 3) by (destruct ex_dg_ok as (H1 & H2 & _ & _ & H4); split; [exact H1|split; [exact H2|exact H4]]).
  assert (CT : countable 2 3 4 7) by (unfold countable, i32_max, i64_max; change (7 / 4) with 1; lia).
  set (S := fun r : eig_result complex_field => R r /\ exists lam E, r = Ok (lam, E) /\ exists E', meq 7 5 E E' /\ is_eigendecomposition 7 7 (herm Lower (dmat 2 3 (4, 4) (1, 2) 0 st)) lam E').
  destruct (C52_some_complex_run_distributed ex_dg (ref_larfg complex_roots) exact_laed4 exact_stedc 2 3 7 4 5 6 2 (1, 2) (1, 0) DA st ltac:(lia) ltac:(unfold i64_max; lia) ltac:(lia) ltac:(lia) ltac:(cbn; lia) ltac:(lia) CT GO (ref_larfg_ok _) exact_laed4_ok (exact_stedc_ok 4) HA eq_refl ex_dg_retiled RD) with (R := S)
    as (lam & E & RR & lam' & E' & EQ & X & MX & EV & ON & RL).
  - apply dist_call_and; [exact HR|]. apply C52_complex_eigensolver_distributed_partial; try assumption; try lia; [unfold i64_max; lia|cbn; lia|apply ref_larfg_ok|apply exact_laed4_ok|apply exact_stedc_ok|reflexivity].
  - injection EQ as <- <-. exists lam, E. split; [exact RR|]. exists X. split; [exact MX|]. split; [|split; assumption]. intros i c Li Lc. rewrite <- EV by assumption. apply mmul_ext; [|reflexivity]. intros r Lr. symmetry. apply EA; assumption.
Qed.

(** ** Assumptions *)
Print Assumptions C52_real_eigensolver_distributed_partial.
Print Assumptions C52_complex_eigensolver_distributed_partial.
Print Assumptions C52_some_real_run_distributed.
Print Assumptions C52_some_complex_run_distributed.
Print Assumptions C53_real_gen_eigensolver_distributed_partial.
Print Assumptions C53_complex_gen_eigensolver_distributed_partial.
Print Assumptions C53_some_complex_run_distributed.
Print Assumptions C53_some_real_run_distributed.
