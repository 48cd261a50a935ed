(** * C48, C49: the local Hermitian eigensolver and the local generalized eigensolver. *)
From Coq Require Import ZArith Lia List Bool Ring Permutation Reals Lra.
From Verif Require TileJobs CholeskyProofs Properties_DistTri.
From Verif Require Import CInt Loop StarField DenseSpec Tiling DenseJobs RefKernels HouseSpec HouseModel HouseQR CplxField MultiJobs Red2BandModel Red2BandSpec Red2BandTheory
  SemModel B2TSpec B2TModel B2TResult BtRed2BandModel BtRed2BandProofs BtB2TModel BtB2TProofs BtB2TFinal BandSizeModel DistMat CholeskyModel GenToStdModel TriangularModel EigSpec EigModel EigProofs
  Properties_BandSize Properties_Red2Band Properties_B2TNum Properties_BtB2T Properties_BtRed2Band Properties_Cholesky Properties_GenToStd Properties_Triangular Properties_Inverse.
Import ListNotations.
Local Open Scope Z_scope.

(** The contract of tridiagonal_eigensolver (tridiag_solver.h:27-44): what it returns are the eigenvalues and orthonormal eigenvectors. *)
Definition ts_ok {K : starfield} (ts : Z -> (Z -> F K) -> (Z -> F K) -> (Z -> F K) -> mat K -> Prop) : Prop :=
  forall n d e lam E, (forall i, 0 <= i < n -> fconj (d i) = d i) -> (forall i, 0 <= i < n - 1 -> fconj (e i) = e i) ->
  ts n d e lam E -> is_eigendecomposition n n (tridiag d e) lam E.
Definition eig_ok {K : starfield} (g : eig_cfg K) (n mb : Z) : Prop :=
  (forall b, get_band_size (g_bmin g) mb = Ok b -> cfg_ok n mb b (g_r2b g)) /\ larfg_ok (g_lf g) /\ 0 < g_threads g /\ ts_ok (g_ts g) /\ kernels_ok (g_kn g) /\
  larft_ok (g_larft g) /\ 0 < g_group g /\ 0 < g_avail g /\ 2 <= g_bmin g <= i64_max.

Lemma band_of : forall bmin mb b, 2 <= bmin <= i64_max -> 2 <= mb <= i64_max -> get_band_size bmin mb = Ok b -> 2 <= b /\ mb mod b = 0.
Proof.
  intros bmin mb b L1 L2 E. destruct (C36_band_size bmin mb L1 ltac:(lia)) as (b' & E' & B). rewrite E in E'. injection E' as <-.
  destruct B as (B1 & B2 & B3 & B4). split; [|apply Z.mod_divide; [lia|exact B2]].
  destruct (Z.le_gt_cases bmin mb) as [L|L]; [destruct (B3 L); lia|specialize (B4 L); lia].
Qed.

(** C48: for every field with the square roots the code takes, kernels and tridiagonal solver that meet their contracts, size, tile size
    (at least 2), minimal band size, thread counts, number k of requested eigenvectors, and execution: if the diagonal of A is real
    (A is Hermitian) the call terminates; it returns all the eigenvalues of A, and the first k columns are orthonormal eigenvectors. *)
Theorem C48_eigensolver : forall (K : starfield) (g : eig_cfg K) (cplx : bool) (n mb k : Z) (st : tstore (mat K)),
  0 <= k <= n -> 2 <= mb <= i64_max -> eig_ok g n mb -> (cplx = false -> forall x : F K, fconj x = x) -> real_diag n (r2b_mat mb st) ->
  every_eigensolver_call g cplx Lower n mb k st (fun r => exists lam E, r = Ok (lam, E) /\
    exists E', meq n k E E' /\ is_eigendecomposition n n (herm Lower (r2b_mat mb st)) lam E').
Proof.
  intros K g cplx n mb k st Hk Hmb (CF & LF & TH & TS & KO & LO & GR & AV & BM) RK RD. unfold every_eigensolver_call.
  destruct (C36_band_size (g_bmin g) mb BM ltac:(lia)) as (b & EB & _). rewrite EB. destruct (band_of _ _ _ BM Hmb EB) as [B2 BD]. specialize (CF b EB).
  replace (b <? 2) with false by lia.
  assert (TC : tiling_ok (dtil k mb)) by (apply dt_ok; lia). assert (TSZ : tl_size (dtil k mb) = k) by (apply dt_size; lia).
  eapply every_schedule_m_impl; [|apply (C44_reduction_to_band K (g_rs g) n mb b (g_r2b g)); try lia; assumption].
  intros st1 (U1 & RD1 & E1 & _) m0. set (Q1 := q_of n b (r2b_mat mb st1) (r2b_taus b st1)) in *.
  pose proof (C46_tridiagonal_reduction K (g_lf g) cplx n mb b (g_threads g) (r2b_mat mb st1) ltac:(lia) B2 ltac:(lia) BD TH LF RD1 RK m0) as [X1 X2].
  split; [exact X1|]. intros s2 R2 F2. destruct (X2 s2 R2 F2) as (U2 & RDd & RDe & E2). clear X1 X2. cbv beta zeta in *. set (m1 := memo s2) in *.
  set (Q2 := hht_product n b (fun i j => m1 (LHH i j)) (hht_list cplx n b)) in *.
  intros lam e1 HTS st2 EHH EE1. pose proof (TS _ _ _ _ _ RDd RDe HTS) as ED.
  eapply every_schedule_m_impl; [|apply (C47_bt_band_to_tridiag K (g_kn g) (g_larft g) KO LO cplx n b (g_group g) (dtil k mb)); try lia; assumption].
  intros st3 (E3 & _) st4 EA4 ET4 EC4. rewrite TSZ in E3.
  eapply every_schedule_m_impl; [|apply (C45_bt_reduction_to_band K (g_kn g) KO n mb b (dtil k mb) (g_avail g)); try lia; assumption].
  intros st5 (E5 & _). rewrite TSZ in E5. exists lam. eexists. split; [reflexivity|].
  exists (mmul n Q1 (mmul n Q2 e1)). split.
  - intros i c Li Lc. cbv beta. replace (c <? k) with true by lia. rewrite E5 by assumption. apply mmul_ext; intros r Lr.
    + apply q_of_in; try assumption; lia.
    + rewrite EC4, E3 by assumption. apply mmul_ext; intros s Ls; [|apply EE1; assumption]. apply product_in; try assumption; lia.
  - eapply conj_eig; [exact U1|exact E1|]. eapply conj_eig; [exact U2|exact E2|]. exact ED.
Qed.
(** in particular the first k columns *)
Corollary C48_requested_eigenvectors : forall (K : starfield) (g : eig_cfg K) (cplx : bool) (n mb k : Z) (st : tstore (mat K)),
  0 <= k <= n -> 2 <= mb <= i64_max -> eig_ok g n mb -> (cplx = false -> forall x : F K, fconj x = x) -> real_diag n (r2b_mat mb st) ->
  every_eigensolver_call g cplx Lower n mb k st (fun r => exists lam E, r = Ok (lam, E) /\ is_eigendecomposition n k (herm Lower (r2b_mat mb st)) lam E).
Proof.
  intros K g cplx n mb k st Hk Hmb GO RK RD. eapply eig_call_impl; [|apply C48_eigensolver; assumption].
  intros r (lam & E & -> & E' & EE & D). exists lam, E. split; [reflexivity|]. apply (eig_ext n k _ lam E' E); [lia| |apply (eig_le n k n); [lia|exact D]].
  intros i c Li Lc. symmetry. apply EE; assumption.
Qed.
(** C48: the upper triangle is not implemented, and tiles of size 1 are rejected, although the documentation does not exclude them. *)
Theorem C48_rejected : forall (K : starfield) (g : eig_cfg K) (cplx : bool) (u : uplo) (n mb k : Z) (st : tstore (mat K)) Q,
  1 <= mb <= i64_max -> 2 <= g_bmin g <= i64_max -> u = Upper \/ mb = 1 -> every_eigensolver_call g cplx u n mb k st Q <-> Q Abort.
Proof.
  intros K g cplx u n mb k st Q L1 L2 C. unfold every_eigensolver_call. destruct (C36_band_size (g_bmin g) mb L2 L1) as (b & EB & B). rewrite EB.
  destruct C as [-> | ->]; [reflexivity|]. destruct u; [|reflexivity]. destruct B as (_ & _ & _ & B4). rewrite (B4 ltac:(lia)). reflexivity.
Qed.

(** [every_eigensolver_call] speaks about at least one complete execution, if the tridiagonal solver returns something for the tridiagonal
    matrices with the spectrum of A. *)
Theorem C48_some_execution : forall (K : starfield) (g : eig_cfg K) (cplx : bool) (n mb k : Z) (st : tstore (mat K)),
  0 <= k <= n -> 2 <= mb <= i64_max -> eig_ok g n mb -> (cplx = false -> forall x : F K, fconj x = x) -> real_diag n (r2b_mat mb st) ->
  (forall d e U, unitary n U -> meq n n (herm Lower (r2b_mat mb st)) (conjugate n U (tridiag d e)) -> exists lam E, g_ts g n d e lam E) ->
  forall Q, every_eigensolver_call g cplx Lower n mb k st Q -> exists lam E, Q (Ok (lam, E)).
Proof.
  intros K g cplx n mb k st Hk Hmb (CF & LF & TH & TS & KO & LO & GR & AV & BM) RK RD TT Q. unfold every_eigensolver_call.
  destruct (C36_band_size (g_bmin g) mb BM ltac:(lia)) as (b & EB & _). rewrite EB. destruct (band_of _ _ _ BM Hmb EB) as [B2 BD]. specialize (CF b EB).
  replace (b <? 2) with false by lia. intros H.
  assert (TC : tiling_ok (dtil k mb)) by (apply dt_ok; lia). assert (TSZ : tl_size (dtil k mb) = k) by (apply dt_size; lia).
  pose proof (C44_reduction_to_band K (g_rs g) n mb b (g_r2b g) ltac:(lia) ltac:(lia) ltac:(lia) BD CF st RD) as P1.
  destruct (every_schedule_m_run _ _ _ (r2b_jobs_ok (c_kn (g_r2b g)) (g_rs g) n mb b _ _ _ _ ltac:(lia) ltac:(lia) BD) (every_schedule_m_and _ _ _ _ P1 H)) as (_ & s1 & _ & _ & _ & (U1 & RD1 & E1 & _) & H1).
  clear P1 H. set (st1 := fun x => AsyncModel.st_store s1 (enc x)) in *. set (m0 := fun _ : B2TModel.loc => @f0 K). specialize (H1 m0).
  pose proof (C46_tridiagonal_reduction K (g_lf g) cplx n mb b (g_threads g) (r2b_mat mb st1) ltac:(lia) B2 ltac:(lia) BD TH LF RD1 RK m0) as P2.
  assert (P3 := every_execution_and _ _ _ _ _ P2 H1). clear P2 H1.
  destruct (Properties_B2T.execution_exists _ _ _ _ P3) as (s2 & _ & _ & (U2 & RDd & RDe & E2) & H2). clear P3. cbv beta zeta in *. set (m1 := memo s2) in *.
  destruct (TT (fun i => m1 (LTd i)) (fun i => m1 (LTe i)) (mmul n (q_of n b (r2b_mat mb st1) (r2b_taus b st1)) (hht_product n b (fun i j => m1 (LHH i j)) (hht_list cplx n b)))) as (lam & e1 & HT).
  { apply unitary_mul; assumption. }
  { intros i j Li Lj. rewrite E1 by assumption. rewrite conj_mul. apply conj_ext; try assumption. intros u v Lu Lv. reflexivity. }
  specialize (H2 lam e1 HT). exists lam.
  set (st2 := fun x => if t_mat x =? 0 then (fun p q => m1 (LHH (t_row x * b + p) (t_col x * b + q))) else (fun p q => e1 (t_row x * b + p) (t_col x * mb + q))).
  assert (V1 : meq n n (bt_hh b st2) (fun i j => m1 (LHH i j))).
  { intros i j _ _. unfold bt_hh, st2, tHH. cbn [t_mat t_row t_col]. change (0 =? 0) with true. cbv iota. rewrite !(Z.mul_comm _ b), <- !Z.div_mod by lia. reflexivity. }
  assert (V2 : meq n k (bt_e b (dtil k mb) st2) e1).
  { intros i c _ Lc. unfold bt_e, st2, tE. cbn [t_mat t_row t_col]. change (1 =? 0) with false. cbv iota. rewrite (Z.mul_comm _ b), <- Z.div_mod by lia.
    rewrite tile_dtil by lia. reflexivity. }
  destruct (every_schedule_m_run _ _ _ (bt_b2t_jobs_ok _ _ _ _ _ _ _) (H2 st2 V1 V2)) as (_ & s3 & _ & _ & _ & H3). clear H2. set (st3 := fun x => AsyncModel.st_store s3 (enc x)) in *.
  set (st4 := fun x => if t_mat x =? 0 then (fun p q => r2b_mat mb st1 (t_row x * mb + p) (t_col x * mb + q)) else if t_mat x =? 1 then (fun p q => r2b_taus b st1 (t_row x * mb + p))
    else (fun p q => bt_e b (dtil k mb) st3 (t_row x * mb + p) (t_col x * mb + q))).
  assert (V3 : meq n n (r2b_mat mb st4) (r2b_mat mb st1)).
  { intros i j _ _. unfold r2b_mat at 1, st4, rA. cbn [t_mat t_row t_col]. change (0 =? 0) with true. cbv iota. rewrite !(Z.mul_comm _ mb), <- !Z.div_mod by lia. reflexivity. }
  assert (V4 : forall r, 0 <= r < n - b - 1 -> bt_taus mb st4 r = r2b_taus b st1 r).
  { intros r _. unfold bt_taus, st4, bTau. cbn [t_mat t_row t_col]. change (1 =? 0) with false. change (1 =? 1) with true. cbv iota. rewrite (Z.mul_comm _ mb), <- Z.div_mod by lia. reflexivity. }
  assert (V5 : meq n k (bt_c mb (dtil k mb) st4) (bt_e b (dtil k mb) st3)).
  { intros i c _ Lc. unfold bt_c, st4, bC. cbn [t_mat t_row t_col]. change (2 =? 0) with false. change (2 =? 1) with false. cbv iota. rewrite (Z.mul_comm _ mb), <- Z.div_mod by lia.
    rewrite tile_dtil by lia. reflexivity. }
  destruct (every_schedule_m_run _ _ _ (bt_jobs_ok _ _ _ _ _ _) (H3 st4 V3 V4 V5)) as (_ & s5 & _ & _ & _ & H5). eexists. exact H5.
Qed.

(** ** C49: the generalized eigensolver *)
Section gen.
Context {K : starfield}.
Local Open Scope sf_scope.
Add Ring KringGen : (fring K).
(** from the standard problem to the generalized one *)
Lemma gen_of_std : forall n (A T C X E : mat K) lam, (0 <= n)%Z -> is_hegst Lower n A T C ->
  is_trsm Left Lower ConjTrans NonUnit n n f1 T E X -> is_eigendecomposition n n (herm Lower C) lam E ->
  is_gen_eigendecomposition n n (herm Lower A) (factored Lower n T) lam X.
Proof.
  intros n A T C X E lam Hn (HG & _) TR (EV & ON & RL). cbn [factored] in *. unfold is_trsm in TR. set (L := trim Lower NonUnit T) in *.
  assert (BX : forall i c, (0 <= c < n)%Z -> mmul n (mmul n L (opm ConjTrans L)) X i c = mmul n L E i c).
  { intros i c Lc. rewrite mmul_assoc. apply mmul_ext; [reflexivity|]. intros r Lr. rewrite (TR r c Lr Lc). ring. }
  split; [|split; [|exact RL]].
  - intros i c Li Lc. transitivity (mmul n (mmul n (mmul n L (herm Lower C)) (opm ConjTrans L)) X i c).
    { apply mmul_ext; [|reflexivity]. intros r Lr. symmetry. apply HG; assumption. }
    rewrite BX by assumption. rewrite mmul_assoc. rewrite mmul_assoc. rewrite <- mmul_scale. apply mmul_ext; [reflexivity|]. intros r Lr. rewrite <- EV by assumption.
    apply mmul_ext; [reflexivity|]. intros s Ls. rewrite (TR s c Ls Lc). ring.
  - intros i c Li Lc. transitivity (mmul n (adj X) (mmul n L E) i c).
    { apply mmul_ext; [reflexivity|]. intros r Lr. apply BX; assumption. }
    rewrite <- mmul_assoc. rewrite <- ON by assumption. apply mmul_ext; [|reflexivity]. intros r Lr.
    transitivity (adj (mmul n (opm ConjTrans L) X) i r).
    + rewrite adj_mmul. apply mmul_ext; [reflexivity|]. intros s Ls. symmetry. apply opm_invol.
    + unfold adj at 1 2, opm at 1 3. f_equal. rewrite (TR r i Lr Li). ring.
Qed.
Lemma gen_ext : forall n (A A' B B' X : mat K) lam, meq n n A A' -> meq n n B B' -> is_gen_eigendecomposition n n A B lam X -> is_gen_eigendecomposition n n A' B' lam X.
Proof.
  intros n A A' B B' X lam EA EB (EV & ON & RL). split; [|split; [|exact RL]].
  - intros i c Li Lc. transitivity (mmul n A X i c); [apply mmul_ext; [|reflexivity]; intros r Lr; symmetry; apply EA; assumption|]. rewrite EV by assumption. f_equal.
    apply mmul_ext; [|reflexivity]. intros r Lr. apply EB; assumption.
  - intros i c Li Lc. rewrite <- ON by assumption. apply mmul_ext; [reflexivity|]. intros r Lr. apply mmul_ext; [|reflexivity]. intros s Ls. symmetry. apply EB; assumption.
Qed.
(** a Cholesky factor of B gives back B *)
Lemma factor_herm : forall n (B T : mat K), is_factor Lower n B T -> meq n n (factored Lower n T) (herm Lower B).
Proof.
  intros n B T [_ E] i j Li Lj. cbn [factored]. unfold herm. cbn [in_tri]. destruct (j <=? i)%Z eqn:L; [apply E; assumption|].
  rewrite <- (E j i Lj Li) by (cbn [in_tri]; lia). unfold mmul. rewrite fsum_conj. apply fsum_ext. intros r _. cbn [opm]. rewrite fconj_mul, fconj_conj. ring.
Qed.
End gen.
(** C49: A X = B X Lambda with all the eigenvalues; the first k columns of X are eigenvectors, X^H B X = I. B is given by its lower triangle and
    positive definite (it has a Cholesky factor), or already factorized. *)
Theorem C49_gen_eigensolver : forall (K : starfield) (g : eig_cfg K) (cplx : bool) (factorize : bool) (n mb k : Z) (st : tstore (mat K)),
  0 <= k <= n -> 2 <= mb <= i64_max -> eig_ok g n mb -> (cplx = false -> forall x : F K, fconj x = x) ->
  let A := gather (dtil n mb) (dtil n mb) (fun i j => st (Tid 0 0 i j)) in
  let B := gather (dtil n mb) (dtil n mb) (fun i j => st (Tid 0 1 i j)) in
  real_diag n A -> (if factorize then exists T, is_factor Lower n B T else nonsingular NonUnit n B) ->
  every_gen_eigensolver_call g cplx Lower factorize n mb k st (fun r => exists lam X, r = Ok (lam, X) /\
    exists X', meq n k X X' /\
      is_gen_eigendecomposition n n (herm Lower A) (if factorize then herm Lower B else factored Lower n B) lam X').
Proof.
  intros K g cplx factorize n mb k st Hk Hmb GO RK A B RD HB. unfold every_gen_eigensolver_call. cbv zeta.
  assert (GO' := GO). destruct GO' as (_ & _ & _ & _ & KO & _).
  set (t := dtil n mb) in *. assert (OK : tiling_ok t) by (apply dt_ok; lia). assert (SZ : tl_size t = n) by (apply dt_size; lia).
  assert (OKk : tiling_ok (dtil k mb)) by (apply dt_ok; lia). assert (SZk : tl_size (dtil k mb) = k) by (apply dt_size; lia).
  fold A. fold B.
  assert (REST : forall b : mat K, nonsingular NonUnit n b -> forall Bm, meq n n (factored Lower n b) Bm -> forall st2 : tstore (mat K),
    meq n n (gather t t (fun i j => st2 (Tid 0 0 i j))) A -> meq n n (gather t t (fun i j => st2 (Tid 0 1 i j))) b ->
    every_schedule (gen_to_std (g_kn g) t Lower) st2 (fun st3 =>
    forall st4 : tstore (mat K), meq n n (r2b_mat mb st4) (gather t t (fun i j => st3 (Tid 0 0 i j))) ->
    every_eigensolver_call g cplx Lower n mb k st4 (fun r => match r with
    | Ok (evals, e) =>
        forall st5 : tstore (mat K), meq n n (gather t t (fun i j => st5 (Tid 0 0 i j))) (gather t t (fun i j => st3 (Tid 0 1 i j))) ->
        meq n k (gather t (dtil k mb) (fun i j => st5 (Tid 0 1 i j))) e ->
        every_schedule (triangular_solver (g_kn g) t (dtil k mb) f1 Left Lower ConjTrans NonUnit) st5 (fun st6 =>
          exists lam X, Ok (evals, fun i c => if c <? k then gather t (dtil k mb) (fun i j => st6 (Tid 0 1 i j)) i c else e i c) = Ok (lam, X) /\
            exists X', meq n k X X' /\ is_gen_eigendecomposition n n (herm Lower A) Bm lam X')
    | Abort => exists lam X, @Abort ((Z -> F K) * mat K) = Ok (lam, X) /\ exists X', meq n k X X' /\ is_gen_eigendecomposition n n (herm Lower A) Bm lam X'
    | UB => exists lam X, @UB ((Z -> F K) * mat K) = Ok (lam, X) /\ exists X', meq n k X X' /\ is_gen_eigendecomposition n n (herm Lower A) Bm lam X' end))).
  { intros b NS Bm EBm st2 EA EB.
    assert (RD2 : real_diag (tl_size t) (mat_a t st2)). { rewrite SZ. intros i Li. unfold real, mat_a. rewrite EA by assumption. apply RD. exact Li. }
    assert (NS2 : nonsingular NonUnit (tl_size t) (mat_b t st2)). { rewrite SZ. intros i Li. unfold mat_b. rewrite EB by assumption. apply NS. exact Li. }
    eapply every_schedule_impl; [|apply (C32_gen_to_std_local K (g_kn g) KO t OK Lower st2 RD2 NS2)].
    intros st3 (HG & FR) st4 E4. rewrite SZ in HG.
    assert (E1 : meq n n (gather t t (fun i j => st3 (Tid 0 1 i j))) b).
    { intros i j Li Lj. rewrite <- EB by assumption. unfold gather. rewrite FR; [reflexivity|]. intros i' j' _ _ _. discriminate. }
    assert (RD4 : real_diag n (r2b_mat mb st4)). { intros i Li. unfold real. rewrite E4 by assumption. destruct HG as (_ & RDx & _). apply RDx. exact Li. }
    eapply eig_call_impl; [|apply (C48_eigensolver K g cplx n mb k st4); assumption].
    intros r (lam & E & -> & E' & EE & ED) st5 EA5 EE5.
    assert (NS5 : nonsingular NonUnit (tl_size t) (matA t (dtil k mb) Left st5)).
    { rewrite SZ. intros i Li. unfold matA. change (gather t t (fun i0 j => st5 (Tid 0 0 i0 j)) i i <> f0). rewrite EA5, E1 by assumption. apply NS. exact Li. }
    eapply every_schedule_impl; [|apply (C29_triangular_solve_local K (g_kn g) KO t (dtil k mb) OK OKk Left Lower ConjTrans NonUnit f1 st5 NS5)].
    intros st6 (TR & _). rewrite SZ, SZk in TR. exists lam. eexists. split; [reflexivity|].
    assert (TR' := trsm_ok _ KO Left Lower ConjTrans NonUnit n n f1 b E' NS). set (X' := trsm (g_kn g) Left Lower ConjTrans NonUnit n n f1 b E') in *. exists X'. split.
    - intros i c Li Lc. cbv beta. replace (c <? k) with true by lia.
      apply (TileJobs.trsm_unique Left Lower ConjTrans NonUnit n k f1 b E' _ _ NS); [| |assumption|assumption].
      + eapply Properties_DistTri.trsm_ext; [| | |exact TR].
        * intros x y Lx Ly. unfold matA. change (gather t t (fun i0 j => st5 (Tid 0 0 i0 j)) x y = b x y). rewrite EA5, E1 by assumption. reflexivity.
        * intros x y Lx Ly. unfold matB. rewrite EE5, EE by assumption. reflexivity.
        * intros x y _ _. reflexivity.
      + intros x y Lx Ly. apply TR'; lia.
    - apply (gen_ext n (herm Lower (mat_a t st2)) _ (factored Lower n b) Bm).
      + intros x y Lx Ly. unfold herm, mat_a. rewrite !EA by assumption. reflexivity.
      + exact EBm.
      + apply (gen_of_std n (mat_a t st2) b (r2b_mat mb st4) X' E' lam); [lia| |exact TR'|exact ED].
        apply (hegst_ext Lower n _ _ (mat_a t st3)); [intros x y Lx Ly; apply E4; assumption|].
        destruct HG as (HG1 & HG2 & HG3). split; [|split; assumption]. intros x y Lx Ly. rewrite <- HG1 by assumption.
        assert (TQ : meq n n (trim Lower NonUnit b) (trim Lower NonUnit (mat_b t st2))).
        { intros a c La Lc. unfold trim. destruct (a =? c); [|destruct (in_tri Lower a c); [|reflexivity]]; symmetry; unfold mat_b; apply EB; assumption. }
        apply mmul_ext; intros r Lr; [apply mmul_ext; [|reflexivity]; intros s Ls; apply TQ; assumption|]. cbn [opm]. f_equal. apply TQ; assumption. }
  destruct factorize.
  - intros st0 E0.
    assert (FA : exists T, is_factor Lower (tl_size t) (mat_a t st0) T).
    { destruct HB as [T HT]. exists T. rewrite SZ. eapply CholeskyProofs.factor_ext; [exact HT| |intros i j _ _ _; reflexivity]. intros i j Li Lj _. symmetry. apply E0; assumption. }
    eapply every_schedule_impl; [|apply (C28_cholesky_local K (g_kn g) KO t OK Lower st0 FA)].
    intros st1 ((FAC & _) & _). rewrite SZ in FAC. apply REST.
    + intros i Li. apply fpos_neq. apply FAC. exact Li.
    + intros i j Li Lj. transitivity (herm Lower (mat_a t st0) i j); [apply factor_herm; assumption|]. unfold herm, mat_a. rewrite !E0 by assumption. reflexivity.
  - apply REST; [exact HB|]. intros i j _ _. reflexivity.
Qed.

(** ** A 7x7 complex Hermitian matrix A = P D P^H with eigenvalues 0, ..., 6, P a reflector, in tiles of size 4, band of size 2; 5 eigenvectors
    are requested. *)
Definition ex_g : eig_cfg complex_field := EigCfg complex_field complex_roots ex_r2b_cfg (ref_larfg complex_roots) 3
  (fun n d e lam E => is_eigendecomposition n n (tridiag d e) lam E) complex_kernels ref_larft 3 2 2.
Lemma ex_g_ok : eig_ok ex_g 7 4.
Proof.
  split; [|split; [apply ref_larfg_ok|split; [cbn; lia|split; [|split; [apply complex_kernels_ok|split; [apply ref_larft_ok|cbn; unfold i64_max; lia]]]]]].
  - intros b E. change (get_band_size 2 4 = Ok b) in E. vm_compute in E. injection E as <-. exact ex_r2b_cfg_ok.
  - intros n d e lam E _ _ H. exact H.
Qed.
Definition ex_P : mat complex_field := @reflector complex_field ((2 / 7)%R, 0%R) (fun _ => (1%R, 0%R)).
Definition ex_D : mat complex_field := fun i j => if i =? j then (IZR i, 0%R) else (0%R, 0%R).
Definition ex_eig_A : mat complex_field := conjugate 7 ex_P ex_D.
Lemma ex_P_unitary : unitary 7 ex_P.
Proof.
  apply refl_unitary. unfold norm2, fsum. change (zrange 0 7) with [0; 1; 2; 3; 4; 5; 6]. cbn [fold_right fadd fmul fconj f0 complex_field]. unfold c_add, c_mul, c_conj. cbn [fst snd]. f_equal; field.
Qed.
Lemma ex_A_herm : forall i j, 0 <= i < 7 -> 0 <= j < 7 -> herm Lower ex_eig_A i j = ex_eig_A i j.
Proof.
  intros i j Li Lj. unfold herm. destruct (in_tri Lower i j); [reflexivity|]. apply conj_hermitian; try assumption.
  intros a c La Lc. unfold ex_D. rewrite (Z.eqb_sym c a). destruct (Z.eqb_spec a c) as [->|N]; cbn; unfold c_conj; cbn [fst snd]; f_equal; lra.
Qed.
Definition ex_lam (c : Z) : F complex_field := (IZR c, 0%R).
Lemma ex_A_eig : is_eigendecomposition 7 7 (herm Lower ex_eig_A) ex_lam ex_P.
Proof.
  apply (eig_ext 7 7 _ _ (mmul 7 ex_P ident)); [lia|intros i c _ Lc; apply mmul_ident_r; exact Lc|].
  apply (conj_eig 7 7 _ ex_D); [exact ex_P_unitary|intros i j Li Lj; apply ex_A_herm; assumption|]. split; [|split].
  - intros i c Li Lc. rewrite mmul_ident_r by exact Lc. unfold ex_D, ident, ex_lam. destruct (Z.eqb_spec i c) as [->|N]; cbn; unfold c_mul; cbn [fst snd]; f_equal; lra.
  - intros i c Li Lc. rewrite mmul_ident_r by exact Lc. apply adj_ident.
  - intros c _. unfold ex_lam. cbn. unfold c_conj. cbn [fst snd]. f_equal. lra.
Qed.
Definition ex_eig_st (m : Z -> mat complex_field) : tstore (mat complex_field) := fun x p q => m (t_mat x) (t_row x * 4 + p) (t_col x * 4 + q).
Lemma ex_eig_mat : forall m a q, r2b_mat 4 (ex_eig_st m) a q = m 0 a q.
Proof.
  intros m a q. unfold r2b_mat, ex_eig_st. cbn [rA t_mat t_row t_col].
  f_equal; rewrite Z.mul_comm; symmetry; apply Z.div_mod; discriminate.
Qed.
Lemma unitary_adj : forall {K : starfield} n (U : mat K), unitary n U -> unitary n (adj U).
Proof.
  intros K n U [U1 U2]. split; intros i j Li Lj; [rewrite <- (U2 i j Li Lj)|rewrite <- (U1 i j Li Lj)]; apply mmul_ext; intros r _; solve [reflexivity|apply adj_adj].
Qed.
Lemma ex_total : forall n (A : mat complex_field) lam E, is_eigendecomposition n n A lam E ->
  forall d e U, unitary n U -> meq n n A (conjugate n U (tridiag d e)) -> exists lam' E', is_eigendecomposition n n (tridiag d e) lam' E'.
Proof.
  intros n A lam E ED d e U UU EA. exists lam, (mmul n (adj U) E). apply (conj_eig n n _ A); [apply unitary_adj; exact UU| |exact ED].
  intros i j Li Lj. destruct UU as [U1 U2]. set (T := tridiag d e) in *. symmetry. transitivity (conjugate n (adj U) (conjugate n U T) i j).
  { apply conj_ext; try assumption. intros u v _ _. reflexivity. }
  rewrite <- conj_mul. transitivity (conjugate n ident T i j).
  - apply conj_ext; try assumption. intros u v _ _. reflexivity.
  - unfold conjugate. rewrite mmul_ident_l by exact Li. transitivity (mmul n T ident i j); [|apply mmul_ident_r; exact Lj]. apply mmul_ext; [reflexivity|]. intros r _. apply adj_ident.
Qed.
Example C48_hypotheses_hold : exists lam E, is_eigendecomposition 7 5 (herm Lower ex_eig_A) lam E.
Proof.
  set (st := ex_eig_st (fun _ => ex_eig_A)).
  assert (EA : meq 7 7 (herm Lower (r2b_mat 4 st)) (herm Lower ex_eig_A)) by (intros i j _ _; unfold herm, st; rewrite !ex_eig_mat; reflexivity).
  assert (RD : real_diag 7 (r2b_mat 4 st)).
  { intros i Li. unfold real, st. rewrite !ex_eig_mat. apply conj_hermitian; try assumption.
    intros a c La Lc. unfold ex_D. rewrite (Z.eqb_sym c a). destruct (Z.eqb_spec a c) as [->|N]; cbn; unfold c_conj; cbn [fst snd]; f_equal; lra. }
  destruct (C48_some_execution complex_field ex_g true 7 4 5 st ltac:(lia) ltac:(unfold i64_max; lia) ex_g_ok ltac:(discriminate) RD) with (Q := fun r => exists lam E, r = Ok (lam, E) /\ is_eigendecomposition 7 5 (herm Lower (r2b_mat 4 st)) lam E) as (lam & E & lam' & E' & _ & EV & ON & RL).
  - intros d e U UU ET. apply (ex_total 7 (herm Lower ex_eig_A) ex_lam ex_P ex_A_eig d e U UU). intros i j Li Lj. rewrite <- EA by assumption. apply ET; assumption.
  - apply C48_requested_eigenvectors; try discriminate; [lia|unfold i64_max; lia|exact ex_g_ok|exact RD].
  - exists lam', E'. split; [|split; assumption]. intros i c Li Lc. rewrite <- EV by assumption. apply mmul_ext; [|reflexivity]. intros r Lr. symmetry. apply EA; assumption.
Qed.
(** not trivial: A is not diagonal *)
Lemma ex_P_at : forall i j, ex_P i j = ((if i =? j then 5 / 7 else - 2 / 7)%R, 0%R).
Proof. intros i j. unfold ex_P, reflector, ident. destruct (i =? j); cbn [fsub fmul fconj f0 f1 complex_field]; unfold c_sub, c_add, c_opp, c_mul, c_conj; cbn [fst snd]; apply f_equal2; field. Qed.
Lemma ex_A_at : forall i j, 0 <= j < 7 -> ex_eig_A i j = fsum 0 7 (fun r => ((if i =? r then 5 / 7 else - 2 / 7) * (IZR r * (if j =? r then 5 / 7 else - 2 / 7)), 0)%R : F complex_field).
Proof.
  intros i j Lj. unfold ex_eig_A, conjugate. unfold mmul at 1. apply fsum_ext. intros r Lr. unfold mmul. rewrite (fsum_one 0 7 _ r).
  - unfold ex_D. rewrite Z.eqb_refl. unfold adj, opm. rewrite !ex_P_at. cbn [fmul fconj complex_field]. unfold c_mul, c_conj. cbn [fst snd]. f_equal; ring.
  - exact Lr.
  - intros s _ N. unfold ex_D. rewrite (proj2 (Z.eqb_neq r s)) by congruence. cbn [fmul f0 complex_field]. unfold c_mul. cbn [fst snd]. f_equal; ring.
Qed.
Example C48_not_trivial : ex_eig_A 1 0 = ((10 / 7)%R, 0%R) /\ ex_eig_A 6 5 = ((- 10 / 7)%R, 0%R) /\ get_band_size 2 4 = Ok 2.
Proof.
  split; [|split; [|vm_compute; reflexivity]]; rewrite ex_A_at by lia; unfold fsum; change (zrange 0 7) with [0; 1; 2; 3; 4; 5; 6]; cbn [fold_right fadd f0 complex_field Z.eqb Pos.eqb];
  unfold c_add; cbn [fst snd]; f_equal; field.
Qed.

(** [every_gen_eigensolver_call] speaks about at least one complete execution. *)
Definition tile_store {K : starfield} (mb : Z) (m : Z -> mat K) : tstore (mat K) := fun x p q => m (t_mat x) (t_row x * mb + p) (t_col x * mb + q).
Lemma tile_store_gather : forall {K : starfield} n k mb (m : Z -> mat K) z, 0 < mb -> 0 <= n -> 0 <= k -> meq n k (gather (dtil n mb) (dtil k mb) (fun i j => tile_store mb m (Tid 0 z i j))) (m z).
Proof.
  intros K n k mb m z H Hn Hk i j Li Lj. rewrite gather_div by assumption. unfold tile_store. cbn [t_mat t_row t_col]. rewrite !(Z.mul_comm _ mb), <- !Z.div_mod by lia. reflexivity.
Qed.
Theorem C49_some_execution : forall (K : starfield) (g : eig_cfg K) (cplx : bool) (factorize : bool) (n mb k : Z) (st : tstore (mat K)),
  0 <= k <= n -> 2 <= mb <= i64_max -> eig_ok g n mb -> (cplx = false -> forall x : F K, fconj x = x) ->
  let A := gather (dtil n mb) (dtil n mb) (fun i j => st (Tid 0 0 i j)) in
  let B := gather (dtil n mb) (dtil n mb) (fun i j => st (Tid 0 1 i j)) in
  real_diag n A -> (if factorize then exists T, is_factor Lower n B T else nonsingular NonUnit n B) ->
  (forall d e U T C, (if factorize then is_factor Lower n B T else meq n n T B) -> is_hegst Lower n A T C ->
    unitary n U -> meq n n (herm Lower C) (conjugate n U (tridiag d e)) -> exists lam E, g_ts g n d e lam E) ->
  forall Q, every_gen_eigensolver_call g cplx Lower factorize n mb k st Q -> exists lam X, Q (Ok (lam, X)).
Proof.
  intros K g cplx factorize n mb k st Hk Hmb GO RK A B RD HB TT Q. unfold every_gen_eigensolver_call. cbv zeta.
  assert (GO' := GO). destruct GO' as (_ & _ & _ & _ & KO & _).
  set (t := dtil n mb) in *. assert (OK : tiling_ok t) by (apply dt_ok; lia). assert (SZ : tl_size t = n) by (apply dt_size; lia).
  assert (OKk : tiling_ok (dtil k mb)) by (apply dt_ok; lia). assert (SZk : tl_size (dtil k mb) = k) by (apply dt_size; lia).
  fold A. fold B.
  assert (REST : forall b : mat K, nonsingular NonUnit n b -> (forall T : mat K, meq n n T b -> if factorize then is_factor Lower n B T else meq n n T B) ->
    (forall st2 : tstore (mat K), meq n n (gather t t (fun i j => st2 (Tid 0 0 i j))) A -> meq n n (gather t t (fun i j => st2 (Tid 0 1 i j))) b ->
    every_schedule (gen_to_std (g_kn g) t Lower) st2 (fun st3 =>
    forall st4 : tstore (mat K), meq n n (r2b_mat mb st4) (gather t t (fun i j => st3 (Tid 0 0 i j))) ->
    every_eigensolver_call g cplx Lower n mb k st4 (fun r => match r with
    | Ok (evals, e) =>
        forall st5 : tstore (mat K), meq n n (gather t t (fun i j => st5 (Tid 0 0 i j))) (gather t t (fun i j => st3 (Tid 0 1 i j))) ->
        meq n k (gather t (dtil k mb) (fun i j => st5 (Tid 0 1 i j))) e ->
        every_schedule (triangular_solver (g_kn g) t (dtil k mb) f1 Left Lower ConjTrans NonUnit) st5 (fun st6 =>
          Q (Ok (evals, fun i c => if c <? k then gather t (dtil k mb) (fun i j => st6 (Tid 0 1 i j)) i c else e i c)))
    | Abort => Q Abort | UB => Q UB end))) -> exists lam X, Q (Ok (lam, X))).
  { intros b NS FB H.
    set (st2 := tile_store mb (fun m => if m =? 0 then A else b)).
    assert (EA : meq n n (gather t t (fun i j => st2 (Tid 0 0 i j))) A) by (apply (tile_store_gather n n mb (fun m => if m =? 0 then A else b) 0); lia).
    assert (EB : meq n n (gather t t (fun i j => st2 (Tid 0 1 i j))) b) by (apply (tile_store_gather n n mb (fun m => if m =? 0 then A else b) 1); lia).
    specialize (H st2 EA EB).
    assert (RD2 : real_diag (tl_size t) (mat_a t st2)). { rewrite SZ. intros i Li. unfold real, mat_a. rewrite EA by assumption. apply RD. exact Li. }
    assert (NS2 : nonsingular NonUnit (tl_size t) (mat_b t st2)). { rewrite SZ. intros i Li. unfold mat_b. rewrite EB by assumption. apply NS. exact Li. }
    pose proof (C32_gen_to_std_local K (g_kn g) KO t OK Lower st2 RD2 NS2) as P.
    destruct (every_schedule_run _ _ _ (g2s_jobs_ok (g_kn g) t Lower) (every_schedule_and _ _ _ _ P H)) as (_ & s3 & _ & _ & _ & (HG & _) & H3). clear P H. rewrite SZ in HG.
    set (st3 := fun x => AsyncModel.st_store s3 (enc x)) in *. set (st4 := tile_store mb (fun _ => mat_a t st3)).
    assert (E4 : meq n n (r2b_mat mb st4) (mat_a t st3)).
    { intros i j _ _. unfold r2b_mat, st4, tile_store. cbn [rA t_mat t_row t_col]. rewrite !(Z.mul_comm _ mb), <- !Z.div_mod by lia. reflexivity. }
    specialize (H3 st4 E4). apply C48_some_execution in H3; try assumption.
    - destruct H3 as (lam & E & H3). set (st5 := tile_store mb (fun m => if m =? 0 then mat_b t st3 else E)).
      specialize (H3 st5). destruct (every_schedule_run _ _ _ (solver_jobs_ok _ _ _ _ _ _ _ _) (H3 ltac:(apply (tile_store_gather n n mb (fun m => if m =? 0 then mat_b t st3 else E) 0); lia) ltac:(apply (tile_store_gather n k mb (fun m => if m =? 0 then mat_b t st3 else E) 1); lia)))
        as (_ & s6 & _ & _ & _ & H6). exists lam. eexists. exact H6.
    - intros i Li. unfold real. rewrite E4 by assumption. destruct HG as (_ & RDx & _). apply RDx. exact Li.
    - intros d e U UU EU. apply (TT d e U (mat_b t st2) (mat_a t st3)); [apply FB; exact EB| |exact UU|].
      + destruct HG as (H1 & H2 & H4). split; [|split; [exact H2|]].
        * intros i j Li Lj. rewrite H1 by assumption. unfold herm, mat_a. rewrite !EA by assumption. reflexivity.
        * intros i j Li Lj O. rewrite H4 by assumption. apply EA; assumption.
      + intros i j Li Lj. rewrite <- EU by assumption. unfold herm. rewrite !E4 by assumption. reflexivity. }
  destruct factorize; intros H.
  - set (st0 := tile_store mb (fun _ => B)). assert (E0 : meq n n (mat_a t st0) B) by (apply (tile_store_gather n n mb (fun _ => B) 0); lia).
    specialize (H st0 E0).
    assert (FA : exists T, is_factor Lower (tl_size t) (mat_a t st0) T).
    { destruct HB as [T HT]. exists T. rewrite SZ. eapply CholeskyProofs.factor_ext; [exact HT| |intros i j _ _ _; reflexivity]. intros i j Li Lj _. symmetry. apply E0; assumption. }
    pose proof (C28_cholesky_local K (g_kn g) KO t OK Lower st0 FA) as P.
    destruct (every_schedule_run _ _ _ (chol_jobs_ok (g_kn g) t Lower) (every_schedule_and _ _ _ _ P H)) as (_ & s1 & _ & _ & _ & ((FAC & _) & _) & H1). rewrite SZ in FAC.
    apply (REST _ ltac:(intros i Li; apply fpos_neq; apply FAC; exact Li)); [|exact H1]. intros T ET.
    eapply CholeskyProofs.factor_ext; [exact FAC| |]; intros i j Li Lj _; [apply E0|symmetry; apply ET]; assumption.
  - apply (REST B HB); [auto|exact H].
Qed.

(** A = L C L^H, B = L L^H, C the matrix of the example of C48, L lower triangular *)
Definition ex_L : mat complex_field := fun i j => if i =? j then (1%R, 0%R) else if j <? i then (1%R, IZR (i - j)) else (0%R, 0%R).
Definition ex_gA : mat complex_field := mmul 7 (mmul 7 ex_L ex_eig_A) (opm ConjTrans ex_L).
Definition ex_gB : mat complex_field := mmul 7 ex_L (opm ConjTrans ex_L).
Lemma ex_L_trim : forall i j, trim Lower NonUnit ex_L i j = ex_L i j.
Proof. intros i j. unfold trim, ex_L. cbn [in_tri]. destruct (Z.eqb_spec i j), (Z.leb_spec j i), (Z.ltb_spec j i); try lia; reflexivity. Qed.
Lemma ex_L_factor : is_factor Lower 7 ex_gB ex_L.
Proof.
  split.
  - intros i Li. unfold ex_L. rewrite Z.eqb_refl. cbn. unfold c_pos. cbn [fst snd]. split; [reflexivity|lra].
  - intros i j Li Lj _. unfold ex_gB. apply mmul_ext; intros r _; [apply ex_L_trim|]. cbn [opm]. f_equal. apply ex_L_trim.
Qed.
Lemma ex_A_conj : forall i j, 0 <= i < 7 -> 0 <= j < 7 -> fconj (ex_eig_A j i) = ex_eig_A i j.
Proof.
  intros i j Li Lj. apply conj_hermitian; try assumption.
  intros a c La Lc. unfold ex_D. rewrite (Z.eqb_sym c a). destruct (Z.eqb_spec a c) as [->|N]; cbn; unfold c_conj; cbn [fst snd]; f_equal; lra.
Qed.
Lemma ex_gA_conj : forall i j, 0 <= i < 7 -> 0 <= j < 7 -> fconj (ex_gA j i) = ex_gA i j.
Proof.
  intros i j Li Lj. unfold ex_gA. change (opm ConjTrans ex_L) with (adj ex_L). rewrite mmul_assoc. rewrite (mmul_assoc 7 7). fold (conjugate 7 ex_L ex_eig_A). apply conj_hermitian; try assumption. exact ex_A_conj.
Qed.
Lemma ex_gA_hegst : forall X, meq_out Lower 7 X ex_gA -> (forall i j, 0 <= i < 7 -> 0 <= j < 7 -> in_tri Lower i j = true -> X i j = ex_eig_A i j) -> is_hegst Lower 7 ex_gA ex_L X.
Proof.
  intros X O TR. assert (EH : meq 7 7 (herm Lower X) ex_eig_A).
  { intros i j Li Lj. unfold herm. destruct (in_tri Lower i j) eqn:I0; [apply TR; assumption|]. rewrite TR by (try assumption; cbn [in_tri] in *; lia). apply ex_A_conj; assumption. }
  split; [|split; [|exact O]].
  - intros i j Li Lj. transitivity (ex_gA i j).
    + unfold ex_gA. apply mmul_ext; intros r Lr; [apply mmul_ext; intros s Ls; [apply ex_L_trim|apply EH; assumption]|]. cbn [opm]. f_equal. apply ex_L_trim.
    + unfold herm. destruct (in_tri Lower i j); [reflexivity|]. symmetry. apply ex_gA_conj; assumption.
  - intros i Li. unfold real. rewrite TR by (try assumption; cbn [in_tri]; lia). apply ex_A_conj; assumption.
Qed.
Example C49_hypotheses_hold : exists lam X, is_gen_eigendecomposition 7 5 (herm Lower ex_gA) (herm Lower ex_gB) lam X.
Proof.
  set (st := tile_store 4 (fun m => if m =? 0 then ex_gA else ex_gB)).
  set (A := gather (dtil 7 4) (dtil 7 4) (fun i j => st (Tid 0 0 i j))). set (B := gather (dtil 7 4) (dtil 7 4) (fun i j => st (Tid 0 1 i j))).
  assert (EA : meq 7 7 A ex_gA) by (apply (tile_store_gather 7 7 4 (fun m => if m =? 0 then ex_gA else ex_gB) 0); lia).
  assert (EB : meq 7 7 B ex_gB) by (apply (tile_store_gather 7 7 4 (fun m => if m =? 0 then ex_gA else ex_gB) 1); lia).
  assert (RD : real_diag 7 A) by (intros i Li; unfold real; rewrite EA by assumption; apply ex_gA_conj; assumption).
  assert (FB : is_factor Lower 7 B ex_L).
  { eapply CholeskyProofs.factor_ext; [exact ex_L_factor| |intros i j _ _ _; reflexivity]. intros i j Li Lj _. symmetry. apply EB; assumption. }
  destruct (C49_some_execution complex_field ex_g true true 7 4 5 st ltac:(lia) ltac:(unfold i64_max; lia) ex_g_ok ltac:(discriminate) RD (ex_intro _ ex_L FB)) with
    (Q := fun r => exists lam X, r = Ok (lam, X) /\ exists X', meq 7 5 X X' /\ is_gen_eigendecomposition 7 7 (herm Lower A) (herm Lower B) lam X') as (lam & X & lam' & X' & _ & Y & _ & G).
  - fold A B. cbv iota. intros d e U T C FT HG UU EU. apply (ex_total 7 (herm Lower ex_eig_A) ex_lam ex_P ex_A_eig d e U UU).
    intros i j Li Lj. rewrite <- EU by assumption.
    assert (ET : meq_tri Lower 7 T ex_L) by (apply (C28_factor_unique complex_field Lower 7 B); assumption).
    assert (HG' : is_hegst Lower 7 ex_gA ex_L C).
    { destruct HG as (H1 & H2 & H3). split; [|split; [exact H2|]].
      - assert (TQ : meq 7 7 (trim Lower NonUnit ex_L) (trim Lower NonUnit T)).
        { intros a c La Lc. unfold trim. destruct (Z.eqb_spec a c) as [->|N]; [symmetry; apply ET; try assumption; cbn [in_tri]; lia|]. destruct (in_tri Lower a c) eqn:I0; [symmetry; apply ET; assumption|reflexivity]. }
        intros a c La Lc. transitivity (herm Lower A a c); [rewrite <- H1 by assumption|unfold herm; rewrite !EA by assumption; reflexivity].
        apply mmul_ext; intros r Lr; [apply mmul_ext; [|reflexivity]; intros s Ls; apply TQ; assumption|]. cbn [opm]. f_equal. apply TQ; assumption.
      - intros a c La Lc O. rewrite H3 by assumption. apply EA; assumption. }
    assert (NS : nonsingular NonUnit 7 ex_L) by (intros a La; apply fpos_neq; apply ex_L_factor; exact La).
    set (X := fun a c => if in_tri Lower a c then ex_eig_A a c else ex_gA a c).
    assert (HX : is_hegst Lower 7 ex_gA ex_L X) by (apply ex_gA_hegst; [intros a c La Lc O; unfold X; rewrite O; reflexivity|intros a c La Lc O; unfold X; rewrite O; reflexivity]).
    pose proof (C32_unique complex_field Lower 7 _ _ _ _ NS HG' HX) as EC. unfold herm.
    assert (EV : forall a c, 0 <= a < 7 -> 0 <= c < 7 -> in_tri Lower a c = true -> C a c = ex_eig_A a c) by (intros a c La Lc O; rewrite EC by assumption; unfold X; rewrite O; reflexivity).
    destruct (in_tri Lower i j) eqn:I0; [symmetry; apply EV; assumption|]. rewrite EV by (try assumption; cbn [in_tri] in *; lia). reflexivity.
  - apply (C49_gen_eigensolver complex_field ex_g true true 7 4 5 st); try discriminate; [lia|unfold i64_max; lia|exact ex_g_ok|exact RD|exists ex_L; exact FB].
  - assert (HA : meq 7 7 (herm Lower A) (herm Lower ex_gA)) by (intros a c La Lc; unfold herm; rewrite !EA by assumption; reflexivity).
    assert (HB' : meq 7 7 (herm Lower B) (herm Lower ex_gB)) by (intros a c La Lc; unfold herm; rewrite !EB by assumption; reflexivity).
    exists lam', Y. destruct (gen_ext 7 _ (herm Lower ex_gA) _ (herm Lower ex_gB) Y lam' HA HB' G) as (G1 & G2 & G3).
    split; [intros a c La Lc; apply G1; lia|split; [intros a c La Lc; apply G2; lia|intros c Lc; apply G3; lia]].
Qed.

(** ** Assumptions *)
Print Assumptions C48_eigensolver.
Print Assumptions C48_rejected.
Print Assumptions C48_some_execution.
Print Assumptions C49_gen_eigensolver.
Print Assumptions C49_some_execution.
