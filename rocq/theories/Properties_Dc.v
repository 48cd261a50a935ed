(** * C50: the local tridiagonal divide and conquer eigensolver. *)
From Coq Require Import ZArith Lia List Bool Reals Lra Psatz Permutation.
From Verif Require B2TSpec DenseJobs Red2BandModel Red2BandTheory.
From Verif Require Import CInt Loop StarField DenseSpec HouseSpec CplxField B2TResult EigSpec DistModel TridiagModel TridiagProofs TridiagDeflation Properties_Tridiag
  DcSums DcSecular DcModel DcRank1 DcDeflate DcCore DcMerge DcSolver DcEig DcLaed4 EigModel BandSizeModel HouseQR TFactorProofs Red2BandSpec Properties_Red2Band BtB2TModel BtB2TProofs Properties_BtB2T Properties_Eig.
Import ListNotations.
Local Open Scope R_scope.

(** ** What the solver relies on *)
(** lapack::stedc on tiles of up to nb rows: ascending eigenvalues and orthonormal eigenvectors of the tridiagonal matrix *)
Definition stedc_ok (nb : Z) (stedc : Z -> (Z -> R) -> (Z -> R) -> (Z -> R) * (Z -> Z -> R)) : Prop :=
  forall m d e lam E, (1 <= m <= nb)%Z -> stedc m d e = (lam, E) ->
    (forall p q, (0 <= p <= q)%Z -> (q < m)%Z -> lam p <= lam q) /\ is_eigendecomposition (K := real_field) m m (trid d e) lam E.
(** the order in which the threads of the rank-one solver treat the columns, in each merge and step *)
Definition orders_ok (ord : Z * Z * Z -> Z -> Z -> list Z) : Prop := forall tr k step, (0 <= k)%Z -> Permutation (ord tr k step) (zrange 0 k).
(** the largest row sum of |T| *)
Definition tnorm (n : Z) (d e : Z -> R) : R := vec_max n (row_sum n d e).

Lemma stedc_ok_form : forall nb stedc, stedc_ok nb stedc -> stedc_form nb stedc.
Proof.
  intros nb stedc H m d e lam E Lm ES. destruct (H m d e lam E Lm ES) as [A EG]. destruct (eig_form m _ lam E ltac:(lia) EG) as [O F]. split; [exact A|]. split; [exact O|].
  intros x. rewrite tform_trid by lia. apply F.
Qed.
Lemma vec_max_ge : forall m v i, (0 <= i < m)%Z -> Rabs (v i) <= vec_max m v.
Proof.
  intros m v i Li. unfold vec_max. assert (I : In (Rabs (v i)) (tab 0 m (fun i => Rabs (v i)))) by (apply in_tab; exists i; split; [lia|reflexivity]).
  induction (tab 0 m (fun i => Rabs (v i))) as [|a l IH]; [contradiction|]. cbn. destruct I as [->|I]; [apply Rmax_l|]. eapply Rle_trans; [apply IH; exact I|apply Rmax_r].
Qed.
Lemma row_sum_nonneg : forall n d e i, 0 <= row_sum n d e i.
Proof. intros. unfold row_sum. pose proof (Rabs_pos (d i)). pose proof (Rabs_pos (e (i - 1)%Z)). pose proof (Rabs_pos (e i)). destruct (Z.ltb 0 i), (Z.ltb i (n - 1)); lra. Qed.

(** ** C50 *)
(** For every size n >= 0, tile size nb >= 1, number of threads, order of the work of the threads, contents of the workspaces, and tolerance parameter
    eps >= 0 (machine epsilon in the code; the arithmetic is exact), and for every laed4 and stedc that meet their contracts: the solver returns ascending values lam
    and an orthonormal matrix E with | xᵀ T x - Σ lam_c (E_cᵀ x)² | <= ((1 + 24 n eps)^(nt - 1) - 1) max(1, ‖T‖) xᵀx for every x, nt the number of tiles:
    deflation causes no other error than this. In particular every column of E is an eigenvector up to a residual of this size. *)
Theorem C50_tridiagonal_solver : forall (n nb : Z) (eps : R) (workers : Z) laed4 stedc ord (d e : Z -> R) (s : dcs),
  (0 <= n)%Z -> (1 <= nb)%Z -> 0 <= eps -> (1 <= workers)%Z -> laed4_ok laed4 -> stedc_ok nb stedc -> orders_ok ord ->
  exists lam E, tridiag_solver n nb eps workers laed4 stedc ord d e s = Some (lam, E) /\
    (forall p q, (0 <= p <= q)%Z -> (q < n)%Z -> lam p <= lam q) /\
    (forall a b, (0 <= a < n)%Z -> (0 <= b < n)%Z -> rsum 0 n (fun i => E i a * E i b) = if Z.eqb a b then 1 else 0) /\
    let bound := ((1 + 24 * IZR n * eps) ^ Z.to_nat (ceilDiv n nb - 1) - 1) * Rmax 1 (tnorm n d e) in
    (forall x, Rabs (rsum 0 n (fun i => rsum 0 n (fun j => x i * trid d e i j * x j)) - rsum 0 n (fun c => lam c * Rsqr (rsum 0 n (fun i => E i c * x i)))) <= bound * rsum 0 n (fun i => Rsqr (x i))) /\
    (forall c, (0 <= c < n)%Z -> rsum 0 n (fun i => Rsqr (rsum 0 n (fun j => trid d e i j * E j c) - lam c * E i c)) <= Rsqr bound).
Proof.
  intros n nb eps workers laed4 stedc ord d e s Ln Lnb Le Lw LA ST ORD. destruct (Z.eq_dec n 0) as [->|N].
  { exists (s_d1 s), (s_e2 s). split; [reflexivity|]. split; [lia|]. split; [lia|]. cbv zeta. split; [|lia]. intros x. rewrite !rsum_nil by lia. rewrite Rminus_diag_eq by reflexivity. rewrite Rabs_R0. lra. }
  assert (L1 : (1 <= n)%Z) by lia. set (B := tnorm n d e).
  assert (HB : forall i, (0 <= i < n)%Z -> row_sum n d e i <= B).
  { intros i Li. unfold B, tnorm. eapply Rle_trans; [|apply (vec_max_ge n (row_sum n d e) i Li)]. apply Rle_abs. }
  destruct (solver_ok n nb eps workers laed4 stedc Lnb L1 Le Lw LA (stedc_ok_form nb stedc ST) d e B HB ord s ORD) as (lam & E & ES & AS & OR & FM).
  exists lam, E. split; [exact ES|]. split; [exact AS|]. split; [intros a b La Lb; exact (OR a b La Lb)|]. cbv zeta.
  set (bound := ((1 + 24 * IZR n * eps) ^ Z.to_nat (ceilDiv n nb - 1) - 1) * Rmax 1 B).
  assert (DB : dlt n eps B (dc_nt n nb - 1) = bound) by (unfold dlt, bound, dc_nt; ring).
  assert (FX : forall x, dot n x (mvec n (trid d e) x) = rsum 0 n (fun i => rsum 0 n (fun j => x i * trid d e i j * x j))).
  { intros x. unfold dot, mvec. apply rsum_ext. intros i _. rewrite <- rsum_mul_l. apply rsum_ext. intros. ring. }
  assert (FD : forall x, dform n lam (coord n E x) = rsum 0 n (fun c => lam c * Rsqr (rsum 0 n (fun i => E i c * x i)))) by reflexivity.
  assert (FM' : forall x, Rabs (dform n lam (coord n E x) - dot n x (mvec n (trid d e) x)) <= bound * dot n x x) by (intros x; rewrite <- DB, <- tform_trid by lia; apply FM).
  assert (B0 : 0 <= bound).
  { rewrite <- DB. pose proof (nt_bounds n nb Lnb L1) as [_ NT]. apply (dlt_le n eps L1 Le B (dc_nt n nb - 1) (dc_nt n nb - 1)). lia. }
  split.
  - intros x. rewrite <- FX, <- FD, Rabs_minus_sym. exact (FM' x).
  - intros c Lc. exact (residual n (trid d e) lam E bound Ln (trid_sym d e) OR B0 FM' c Lc).
Qed.
(** With exact comparisons (eps = 0) the result is an eigendecomposition. *)
Theorem C50_exact : forall (n nb : Z) (workers : Z) laed4 stedc ord (d e : Z -> R) (s : dcs),
  (0 <= n)%Z -> (1 <= nb)%Z -> (1 <= workers)%Z -> laed4_ok laed4 -> stedc_ok nb stedc -> orders_ok ord ->
  exists lam E, tridiag_solver n nb 0 workers laed4 stedc ord d e s = Some (lam, E) /\
    (forall p q, (0 <= p <= q)%Z -> (q < n)%Z -> lam p <= lam q) /\ is_eigendecomposition (K := real_field) n n (trid d e) lam E.
Proof.
  intros n nb workers laed4 stedc ord d e s Ln Lnb Lw LA ST ORD.
  destruct (C50_tridiagonal_solver n nb 0 workers laed4 stedc ord d e s Ln Lnb ltac:(lra) Lw LA ST ORD) as (lam & E & ES & AS & OR & FM & _). exists lam, E. split; [exact ES|]. split; [exact AS|].
  apply form_eig; [exact Ln|apply trid_sym|intros a b La Lb; exact (OR a b La Lb)|]. intros x. specialize (FM x). replace ((1 + 24 * IZR n * 0) ^ Z.to_nat (ceilDiv n nb - 1) - 1) with 0 in FM by (rewrite Rmult_0_r, Rplus_0_r, pow1; ring). rewrite !Rmult_0_l in FM.
  assert (FX : dot n x (mvec n (trid d e) x) = rsum 0 n (fun i => rsum 0 n (fun j => x i * trid d e i j * x j))).
  { unfold dot, mvec. apply rsum_ext. intros i _. rewrite <- rsum_mul_l. apply rsum_ext. intros. ring. }
  rewrite FX. set (u := rsum 0 n (fun i => rsum 0 n _)) in *. change (dform n lam (coord n E x)) with (rsum 0 n (fun c => lam c * Rsqr (rsum 0 n (fun i => E i c * x i)))). set (v := rsum 0 n (fun c => lam c * _)) in *.
  pose proof (Rabs_pos (u - v)). assert (A0 : Rabs (u - v) = 0) by lra. destruct (Req_dec (u - v) 0) as [Z0|NZ]; [lra|]. apply Rabs_no_R0 in NZ. contradiction.
Qed.

(** ** The solver meets what C48 and C49 ask of the tridiagonal solver *)
Definition dc_real (nb workers : Z) laed4 stedc : Z -> (Z -> R) -> (Z -> R) -> (Z -> R) -> (Z -> Z -> R) -> Prop :=
  fun n d e lam E => exists ord s, orders_ok ord /\ tridiag_solver n nb 0 workers laed4 stedc ord d e s = Some (lam, E).
Definition dc_complex (nb workers : Z) laed4 stedc : Z -> (Z -> cplx) -> (Z -> cplx) -> (Z -> cplx) -> (Z -> Z -> cplx) -> Prop :=
  fun n d e lam E => exists ord s l V, orders_ok ord /\ tridiag_solver n nb 0 workers laed4 stedc ord (fun i => fst (d i)) (fun i => fst (e i)) s = Some (l, V) /\
    lam = (fun i => (l i, 0)) /\ E = cast_to_complex V.
Lemma solver_eig : forall n nb workers laed4 stedc ord d e s lam E, (1 <= nb)%Z -> (1 <= workers)%Z -> laed4_ok laed4 -> stedc_ok nb stedc -> orders_ok ord ->
  tridiag_solver n nb 0 workers laed4 stedc ord d e s = Some (lam, E) -> is_eigendecomposition (K := real_field) n n (trid d e) lam E.
Proof.
  intros n nb workers laed4 stedc ord d e s lam E Lnb Lw LA ST ORD ES. destruct (Z.le_gt_cases 0 n) as [Ln|Ln].
  - destruct (C50_exact n nb workers laed4 stedc ord d e s Ln Lnb Lw LA ST ORD) as (lam' & E' & ES' & _ & EG). rewrite ES in ES'. injection ES' as <- <-. exact EG.
  - split; [|split]; [intros i j Li Lj; lia|intros i j Li Lj; lia|reflexivity].
Qed.
Theorem C50_ts_ok_real : forall nb workers laed4 stedc, (1 <= nb)%Z -> (1 <= workers)%Z -> laed4_ok laed4 -> stedc_ok nb stedc -> ts_ok (K := real_field) (dc_real nb workers laed4 stedc).
Proof. intros nb workers laed4 stedc Lnb Lw LA ST n d e lam E _ _ (ord & s & ORD & ES). exact (solver_eig n nb workers laed4 stedc ord d e s lam E Lnb Lw LA ST ORD ES). Qed.

Lemma csum_real : forall lo hi (f : Z -> R) (g : Z -> cplx), (forall i, (lo <= i < hi)%Z -> g i = (f i, 0)) -> fsum (K := complex_field) lo hi g = (rsum lo hi f, 0).
Proof.
  intros lo hi f g H. unfold fsum, rsum, fsum. assert (X : forall l, (forall i, In i l -> g i = (f i, 0)) -> fold_right (fun i s => fadd (s := complex_field) (g i) s) (f0 (s := complex_field)) l = (fold_right (fun i s => f i + s) 0 l, 0)).
  { induction l as [|a l IH]; intros G; [reflexivity|]. cbn [fold_right]. rewrite IH by (intros; apply G; right; assumption). rewrite G by (left; reflexivity). cbn. unfold c_add. cbn [fst snd]. f_equal. lra. }
  apply X. intros i I. apply H. apply in_zrange. exact I.
Qed.
Lemma eig_complex : forall n (d e : Z -> cplx) lam E, (forall i, (0 <= i < n)%Z -> c_conj (d i) = d i) -> (forall i, (0 <= i < n - 1)%Z -> c_conj (e i) = e i) ->
  is_eigendecomposition (K := real_field) n n (trid (fun i => fst (d i)) (fun i => fst (e i))) lam E ->
  is_eigendecomposition (K := complex_field) n n (tridiag (K := complex_field) d e) (fun i => (lam i, 0)) (cast_to_complex E).
Proof.
  intros n d e lam E HD HE (EV & ON & _).
  assert (RL : forall x : cplx, c_conj x = x -> x = (fst x, 0)). { intros [a b] H. unfold c_conj in H. cbn in *. injection H as H. f_equal. lra. }
  assert (MR : forall a b : R, c_mul (a, 0) (b, 0) = (a * b, 0)). { intros. unfold c_mul. cbn [fst snd]. f_equal; ring. }
  assert (TR : forall i j, (0 <= i < n)%Z -> (0 <= j < n)%Z -> tridiag (K := complex_field) d e i j = (trid (fun i => fst (d i)) (fun i => fst (e i)) i j, 0)).
  { intros i j Li Lj. unfold tridiag. destruct (Z.eqb_spec i j); [apply RL, HD; lia|]. destruct (Z.eqb_spec i (j + 1)); [apply RL, HE; lia|]. destruct (Z.eqb_spec j (i + 1)); [apply RL, HE; lia|]. reflexivity. }
  split; [|split].
  - intros i c Li Lc. specialize (EV i c Li Lc). unfold mmul. rewrite (csum_real 0 n (fun j => trid (fun i => fst (d i)) (fun i => fst (e i)) i j * E j c)).
    + cbn. unfold cast_to_complex. rewrite MR. f_equal. exact EV.
    + intros j Lj. rewrite TR by assumption. unfold cast_to_complex. cbn. apply MR.
  - intros a b La Lb. specialize (ON a b La Lb). unfold mmul. rewrite (csum_real 0 n (fun j => E j a * E j b)).
    + change (rsum 0 n (fun j => E j a * E j b) = ident (K := real_field) a b) in ON. rewrite ON. unfold ident. destruct (Z.eqb a b); reflexivity.
    + intros j Lj. unfold cast_to_complex. cbn. unfold c_conj. cbn [fst snd]. rewrite Ropp_0. apply MR.
  - intros c Lc. cbn. unfold c_conj. cbn [fst snd]. rewrite Ropp_0. reflexivity.
Qed.
Theorem C50_ts_ok_complex : forall nb workers laed4 stedc, (1 <= nb)%Z -> (1 <= workers)%Z -> laed4_ok laed4 -> stedc_ok nb stedc -> ts_ok (K := complex_field) (dc_complex nb workers laed4 stedc).
Proof.
  intros nb workers laed4 stedc Lnb Lw LA ST n d e lam E HD HE (ord & s & l & V & ORD & ES & -> & ->). apply eig_complex; [exact HD|exact HE|].
  exact (solver_eig n nb workers laed4 stedc ord _ _ s l V Lnb Lw LA ST ORD ES).
Qed.

(** C48 with this solver: nothing is assumed of the tridiagonal solver any more, but of laed4 and of stedc on one tile *)
Definition eig_ok_but_ts {K : starfield} (g : eig_cfg K) (n mb : Z) : Prop :=
  ((forall b, get_band_size (g_bmin g) mb = Ok b -> Red2BandTheory.cfg_ok n mb b (g_r2b g)) /\ B2TSpec.larfg_ok (g_lf g) /\ 0 < g_threads g /\ kernels_ok (g_kn g) /\
  larft_ok (g_larft g) /\ 0 < g_group g /\ 0 < g_avail g /\ 2 <= g_bmin g <= i64_max)%Z.
Theorem C50_real_eigensolver : forall (g : eig_cfg real_field) (n mb k workers : Z) laed4 stedc (st : DenseJobs.tstore (mat real_field)),
  (0 <= k <= n)%Z -> (2 <= mb <= i64_max)%Z -> (1 <= workers)%Z -> laed4_ok laed4 -> stedc_ok mb stedc -> g_ts g = dc_real mb workers laed4 stedc -> eig_ok_but_ts g n mb ->
  every_eigensolver_call g false Lower n mb k st (fun r => exists lam E, r = Ok (lam, E) /\ is_eigendecomposition n k (herm Lower (Red2BandSpec.r2b_mat mb st)) lam E).
Proof.
  intros g n mb k workers laed4 stedc st Hk Hmb Lw LA ST TS (CF & LF & TH & KO & LO & GR & AV & BM). apply C48_requested_eigenvectors; [exact Hk|exact Hmb| |intros _ x; reflexivity|intros i Li; reflexivity].
  repeat (split; [assumption|]). split; [|repeat (split; [assumption|]); assumption]. rewrite TS. apply C50_ts_ok_real; [lia|assumption|assumption|assumption].
Qed.
Theorem C50_complex_eigensolver : forall (g : eig_cfg complex_field) (n mb k workers : Z) laed4 stedc (st : DenseJobs.tstore (mat complex_field)),
  (0 <= k <= n)%Z -> (2 <= mb <= i64_max)%Z -> (1 <= workers)%Z -> laed4_ok laed4 -> stedc_ok mb stedc -> g_ts g = dc_complex mb workers laed4 stedc -> eig_ok_but_ts g n mb ->
  real_diag n (Red2BandSpec.r2b_mat mb st) ->
  every_eigensolver_call g true Lower n mb k st (fun r => exists lam E, r = Ok (lam, E) /\ is_eigendecomposition n k (herm Lower (Red2BandSpec.r2b_mat mb st)) lam E).
Proof.
  intros g n mb k workers laed4 stedc st Hk Hmb Lw LA ST TS (CF & LF & TH & KO & LO & GR & AV & BM) RD. apply C48_requested_eigenvectors; [exact Hk|exact Hmb| |discriminate|exact RD].
  repeat (split; [assumption|]). split; [|repeat (split; [assumption|]); assumption]. rewrite TS. apply C50_ts_ok_complex; [lia|assumption|assumption|assumption].
Qed.

(** ** The contracts can be met *)
(** stedc on one row; on more rows the solver itself, with tiles of one row *)
Definition stedc_1 (m : Z) (d e : Z -> R) : (Z -> R) * (Z -> Z -> R) := (d, fun _ _ => 1).
Definition dcs_0 : dcs := let z := fun _ : Z => 0 in let zz := fun _ _ : Z => 0 in let i := fun _ : Z => 0%Z in DCS zz zz zz z z z z (fun _ => UpperHalf) i i i i i.
Definition ord_0 : Z * Z * Z -> Z -> Z -> list Z := fun _ k _ => zrange 0 k.
Definition exact_stedc (m : Z) (d e : Z -> R) : (Z -> R) * (Z -> Z -> R) :=
  match tridiag_solver m 1 0 1 exact_laed4 stedc_1 ord_0 d e dcs_0 with Some r => r | None => (d, fun _ _ => 0) end.
Lemma ord_0_ok : orders_ok ord_0. Proof. intros tr k st _. reflexivity. Qed.
Lemma stedc_1_ok : stedc_ok 1 stedc_1.
Proof.
  intros m d e lam E Lm ES. injection ES as <- <-. assert (m = 1%Z) as -> by lia. split; [intros p q L1 L2; assert (p = 0%Z) as -> by lia; assert (q = 0%Z) as -> by lia; lra|]. split; [|split].
  - intros i c Li Lc. assert (i = 0%Z) as -> by lia. assert (c = 0%Z) as -> by lia. unfold mmul. rewrite fsum_cons, fsum_nil by lia. cbn. ring.
  - intros i c Li Lc. assert (i = 0%Z) as -> by lia. assert (c = 0%Z) as -> by lia. unfold mmul. rewrite fsum_cons, fsum_nil by lia. cbn. ring.
  - reflexivity.
Qed.
Theorem exact_stedc_ok : forall nb, stedc_ok nb exact_stedc.
Proof.
  intros nb m d e lam E Lm ES. unfold exact_stedc in ES. destruct (C50_exact m 1 1 exact_laed4 stedc_1 ord_0 d e dcs_0 ltac:(lia) ltac:(lia) ltac:(lia) exact_laed4_ok stedc_1_ok ord_0_ok) as (lam' & E' & E1 & AS & EG).
  rewrite E1 in ES. injection ES as -> ->. split; assumption.
Qed.
(** a matrix with 5 rows in tiles of 2 rows: three leaves and two merges *)
Example C50_five : exists lam E, tridiag_solver 5 2 0 4 exact_laed4 exact_stedc (fun _ k _ => rev (zrange 0 k)) (fun i => IZR i) (fun i => 1 - IZR i) dcs_0 = Some (lam, E) /\
  (forall p q, (0 <= p <= q)%Z -> (q < 5)%Z -> lam p <= lam q) /\ is_eigendecomposition (K := real_field) 5 5 (trid (fun i => IZR i) (fun i => 1 - IZR i)) lam E.
Proof. apply C50_exact; try lia; [apply exact_laed4_ok|apply exact_stedc_ok|]. intros tr k st _. symmetry. apply Permutation_rev. Qed.

(** ** The error is not relative to the size of T *)
(** LAPACK scales T before it deflates with the same tolerance (dstedc); the code does not, hence the max(1, _) in C50. The stronger claim, that the
    error is at most a (small) multiple of eps times the norm of T, is false: for each eps > 0 there is a matrix T <> 0 (2 rows, 2 tiles) for which the error is half of the norm of T. *)
Lemma sort2 : forall k v i o b, (k = 1)%Z -> Rltb (v (i 1%Z)) (v (i 0%Z)) = b -> sort_index Rltb 2 k v i o = Some (write_list o (if b then [i 1%Z; i 0%Z] else [i 0%Z; i 1%Z])).
Proof. intros k v i o b -> H. cbv -[Rltb write_list]. rewrite H. destruct b; reflexivity. Qed.
Lemma defl2 : forall rho tol i d z c, Rleb (Rabs (rho * z (i 0%Z))) tol = true -> deflate_R rho tol 2 i d z c = (1%Z, d, z, upd c (i 0%Z) Deflated, []).
Proof. intros rho tol i d z c H. unfold deflate_R, apply_deflation. change (zrange 1 2) with [1%Z]. cbn [fold_left]. unfold deflate_step. rewrite H. reflexivity. Qed.

Lemma rank1_1 : forall laed4 d z rho delta l ev i4 ord q, laed4 1%Z 0%Z d z rho = (delta, l) -> ord 1%Z = [0%Z] -> solve_rank1 laed4 1 (2 - 0) 2 1 rho d z ev i4 ord q = (upd ev 0 l, z, put_col 1 0 delta q).
Proof. intros laed4 d z rho delta l ev i4 ord q H O. unfold solve_rank1, r1_step1. rewrite O. cbn [fold_left]. rewrite H. reflexivity. Qed.
Ltac run := cbv -[Rplus Rminus Rmult Rdiv Rinv Ropp sqrt Rlt_dec Rle_dec Rltb Rleb Rabs Rmax IZR Rhypot].
Section lost.
Variables (eps s : R) (laed4 : Z -> Z -> (Z -> R) -> (Z -> R) -> R -> (Z -> R) * R).
Hypothesis LA : laed4_ok laed4.
Hypothesis SP : 0 < s <= 4 * eps.
Lemma half_sqrt2 : 0 < / sqrt 2 /\ / sqrt 2 * / sqrt 2 = / 2.
Proof. assert (0 < sqrt 2) by (apply sqrt_lt_R0; lra). split; [apply Rinv_0_lt_compat; assumption|]. rewrite <- Rinv_mult, sqrt_sqrt by lra. reflexivity. Qed.
Lemma offdiagonal_lost : exists lam E, tridiag_solver 2 1 eps 1 laed4 stedc_1 ord_0 (fun _ => 2 * s) (fun _ => s) dcs_0 = Some (lam, E) /\
  lam 0%Z = s /\ lam 1%Z = 2 * s /\ E 0%Z 0%Z = 1 /\ E 1%Z 0%Z = 0 /\ E 0%Z 1%Z = 0 /\ E 1%Z 1%Z = 1.
Proof.
pose proof half_sqrt2 as [HS0 HS1].
unfold tridiag_solver.
cbv -[Rplus Rminus Rmult Rdiv Rinv sqrt Rlt_dec Rle_dec Rltb Rleb Rabs Rmax IZR merge_subproblems apply_index put_block].
unfold merge_subproblems.
change (dc_size 2 1 0 2) with 2%Z.
change (dc_size 2 1 0 1) with 1%Z.
change (dc_size 2 1 1 2) with 1%Z.
rewrite (sort2 _ _ _ _ false); [|reflexivity|]. 2: { run. unfold Rltb. destruct (Rlt_dec _ _); [lra|reflexivity]. }
cbn beta iota zeta. rewrite defl2. 2: { run. unfold Rleb. destruct (Rlt_dec s 0); [lra|]. destruct (Rle_dec _ _) as [|N]; [reflexivity|]. exfalso. apply N. 
  rewrite !Rmult_1_l. unfold Rdiv. rewrite !Rmult_1_l. rewrite (Rabs_right s) by lra. rewrite (Rabs_right (2 * s * / sqrt 2)) by nra. rewrite (Rabs_right (/ sqrt 2)) by lra.
  eapply Rle_trans; [|apply Rmult_le_compat_l; [lra|eapply Rle_trans; [|apply Rmax_r]; apply Rmax_l]]. nra. }
cbn beta iota zeta.
match goal with |- context [stable_partition ?a ?b ?c ?d ?e ?f ?g] => set (X := stable_partition a b c d e f g); assert (XE : exists i3 i5, X = (1%Z, (0%Z,0%Z,1%Z), i3, i5) /\ i3 0%Z = 1%Z /\ i3 1%Z = 0%Z /\ i5 0%Z = 1%Z /\ i5 1%Z = 0%Z) end.
{ eexists; eexists; split; [ cbv; reflexivity | repeat split]. }
destruct XE as (i3 & i5 & -> & Q1 & Q2 & Q3 & Q4). cbn beta iota zeta.
match goal with |- context [solve_rank1 laed4 1 _ 2 1 ?r ?d ?z ?ev ?i4 ?o ?q] => destruct (laed4 1%Z 0%Z d z r) as [delta l] eqn:EL; rewrite (rank1_1 laed4 d z r delta l ev i4 o q EL) by reflexivity end.
destruct (LA _ _ _ _ _ _ _ (conj (Z.le_refl 0) Z.lt_0_1) EL) as [L1 _]. destruct (L1 eq_refl) as [LE DE]. clear L1 EL.
assert (L2 : l = 2 * s). { rewrite LE. clear LE. run. rewrite Q1. run. rewrite (Rabs_right s) by lra. unfold Rdiv. rewrite !Rmult_1_l, HS1. lra. }
cbn beta iota zeta. rewrite (sort2 _ _ _ _ true); [|reflexivity|]. 
2: { run. unfold Rltb. rewrite Q2. run. destruct (Rlt_dec _ _) as [|N]; [reflexivity|]. exfalso. apply N. rewrite L2, (Rabs_right s) by lra. lra. }
cbn beta iota zeta.
do 2 eexists. split; [reflexivity|].
repeat split; run; rewrite ?Q1, ?Q2, ?Q3, ?Q4; run.
all: try reflexivity; try (rewrite DE; ring); try exact L2. rewrite (Rabs_right s) by lra. ring.
Qed.
End lost.

Theorem C50_relative_error_refuted : forall eps laed4, 0 < eps -> laed4_ok laed4 ->
  exists d e lam E x, tridiag_solver 2 1 eps 1 laed4 stedc_1 ord_0 d e dcs_0 = Some (lam, E) /\
    0 < tnorm 2 d e /\ 0 < rsum 0 2 (fun i => Rsqr (x i)) /\
    / 2 * tnorm 2 d e * rsum 0 2 (fun i => Rsqr (x i)) <=
    Rabs (rsum 0 2 (fun i => rsum 0 2 (fun j => x i * trid d e i j * x j)) - rsum 0 2 (fun c => lam c * Rsqr (rsum 0 2 (fun i => E i c * x i)))).
Proof.
  intros eps laed4 EP LA. set (s := 4 * eps). destruct (offdiagonal_lost eps s laed4 LA ltac:(unfold s; lra)) as (lam & E & ES & L0 & L1 & E00 & E10 & E01 & E11).
  exists (fun _ => 2 * s), (fun _ => s), lam, E, (fun _ => 1). split; [exact ES|].
  assert (SP : 0 < s) by (unfold s; lra).
  assert (R2 : forall f, rsum 0 2 f = f 0%Z + (f 1%Z + 0)) by (intros f; cbv -[Rplus IZR]; reflexivity).
  assert (TN : tnorm 2 (fun _ => 2 * s) (fun _ => s) = 3 * s).
  { assert (RS : forall i, (0 <= i < 2)%Z -> Rabs (row_sum 2 (fun _ => 2 * s) (fun _ => s) i) = 3 * s).
    { intros i Li. unfold row_sum. rewrite !Rabs_right with (r := s) by lra. rewrite (Rabs_right (2 * s)) by lra. assert (i = 0 \/ i = 1)%Z as [-> | ->] by lia; cbn -[Rplus Rmult]; rewrite Rabs_right; lra. }
    unfold tnorm, vec_max, tab. change (zrange 0 2) with [0%Z; 1%Z]. cbn [map fold_right]. rewrite !RS by lia. rewrite (Rmax_left (3 * s) 0) by lra. apply Rmax_left. lra. }
  rewrite TN. split; [lra|]. rewrite !R2. cbv beta. unfold Rsqr. split; [lra|]. rewrite ?R2. cbv beta.
  rewrite L0, L1, E00, E10, E01, E11. change (trid (fun _ => 2 * s) (fun _ => s) 0%Z 0%Z) with (2 * s). change (trid (fun _ => 2 * s) (fun _ => s) 0%Z 1%Z) with s.
  change (trid (fun _ => 2 * s) (fun _ => s) 1%Z 0%Z) with s. change (trid (fun _ => 2 * s) (fun _ => s) 1%Z 1%Z) with (2 * s). rewrite Rabs_right; lra.
Qed.

(** ** Assumptions *)
Print Assumptions C50_tridiagonal_solver.
Print Assumptions C50_exact.
Print Assumptions C50_ts_ok_real.
Print Assumptions C50_ts_ok_complex.
Print Assumptions C50_real_eigensolver.
Print Assumptions C50_complex_eigensolver.
Print Assumptions exact_stedc_ok.
Print Assumptions C50_relative_error_refuted.
