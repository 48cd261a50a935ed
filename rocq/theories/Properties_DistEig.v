(** * C52, C53: the distributed Hermitian eigensolver and the distributed generalized eigensolver. *)
From Coq Require Import ZArith Lia List Bool Ring Permutation Reals Lra.
From Verif Require TileJobs CholeskyProofs.
From Verif Require Import CInt Loop StarField DenseSpec Tiling DenseJobs RefKernels HouseSpec HouseModel HouseQR CplxField MultiJobs Red2BandModel Red2BandSpec Red2BandTheory
  SemModel B2TSpec B2TModel B2TResult BtB2TModel BtB2TFinal BandSizeModel EigSpec EigModel EigProofs Properties_Inverse
  DistModel DistSpec DistBuilt DistThms DistCtor DistMachine DistAdapt DistGrid PanelModel PanelProofs Properties_Panel DistMat DistTriModel DistR2BModel DistR2BAdapt DistBtR2BModel DistBtB2TModel DistCholeskyModel DistGenToStdModel
  Properties_BandSize Properties_Red2Band Properties_B2TNum Properties_B2T Properties_Cholesky Properties_GenToStd Properties_Eig
  Properties_DistR2B Properties_DistBtR2B Properties_DistBtB2T Properties_DistCholesky Properties_DistGenToStd Properties_DistTri DistEigModel.
Import ListNotations.
Local Open Scope Z_scope.

(** ** Consequence rules *)
Lemma every_run_impl : forall {V} mem rks prog st0 (Q R : tstore V -> Prop), (forall st, Q st -> R st) -> every_run mem rks prog st0 Q -> every_run mem rks prog st0 R.
Proof. intros V mem rks prog st0 Q R I H s RS. destruct (H s RS) as (H1 & H2). split; [intros F; apply I; exact (H1 F)|exact H2]. Qed.
Lemma every_run_and : forall {V} mem rks prog st0 (Q R : tstore V -> Prop), every_run mem rks prog st0 Q -> every_run mem rks prog st0 R -> every_run mem rks prog st0 (fun st => Q st /\ R st).
Proof. intros V mem rks prog st0 Q R A B s RS. destruct (A s RS) as (A1 & A2), (B s RS) as (B1 & _). split; [intros F; split; auto|exact A2]. Qed.
Lemma adaptive_impl : forall {V} mem rks rec dcd prog st0 (Q R : tstore V -> Prop), (forall st, Q st -> R st) -> every_adaptive_run mem rks rec dcd prog st0 Q -> every_adaptive_run mem rks rec dcd prog st0 R.
Proof. intros V mem rks rec dcd prog st0 Q R I H s RS. destruct (H s RS) as (H1 & H2). split; [intros F; apply I; exact (H1 F)|exact H2]. Qed.
Lemma adaptive_and : forall {V} mem rks rec dcd prog st0 (Q R : tstore V -> Prop), every_adaptive_run mem rks rec dcd prog st0 Q -> every_adaptive_run mem rks rec dcd prog st0 R ->
  every_adaptive_run mem rks rec dcd prog st0 (fun st => Q st /\ R st).
Proof. intros V mem rks rec dcd prog st0 Q R A B s RS. destruct (A s RS) as (A1 & A2), (B s RS) as (B1 & _). split; [intros F; split; auto|exact A2]. Qed.
Lemma dist_call_impl : forall {K : starfield} (g : dist_eig_cfg K) cplx P Q srcA srcE DA u n mb k st (R S : eig_result K -> Prop), (forall r, R r -> S r) ->
  every_dist_eigensolver_call g cplx P Q srcA srcE DA u n mb k st R -> every_dist_eigensolver_call g cplx P Q srcA srcE DA u n mb k st S.
Proof.
  intros K g cplx P Q srcA srcE DA u n mb k st R S I. unfold every_dist_eigensolver_call. destruct (get_band_size (h_bmin g) mb) as [b| |]; [|apply I|apply I].
  destruct u; [|apply I]. destruct (b <? 2); [apply I|]. apply adaptive_impl. intros st1 H d e hh X1 ev e1 X2 DE2 st2 X3 X4 X5. generalize (H d e hh X1 ev e1 X2 DE2 st2 X3 X4 X5).
  apply every_run_impl. intros st3 H3 DE4 st4 Y1 Y2 Y3 Y4. generalize (H3 DE4 st4 Y1 Y2 Y3 Y4). apply every_run_impl. intros st5. apply I.
Qed.
Lemma dist_call_and : forall {K : starfield} (g : dist_eig_cfg K) cplx P Q srcA srcE DA u n mb k st (R S : eig_result K -> Prop),
  every_dist_eigensolver_call g cplx P Q srcA srcE DA u n mb k st R -> every_dist_eigensolver_call g cplx P Q srcA srcE DA u n mb k st S ->
  every_dist_eigensolver_call g cplx P Q srcA srcE DA u n mb k st (fun r => R r /\ S r).
Proof.
  intros K g cplx P Q srcA srcE DA u n mb k st R S. unfold every_dist_eigensolver_call. destruct (get_band_size (h_bmin g) mb) as [b| |]; [|auto|auto].
  destruct u; [|auto]. destruct (b <? 2); [auto|]. intros HR HS. generalize (adaptive_and _ _ _ _ _ _ _ _ HR HS). apply adaptive_impl. intros st1 [H H'] d e hh X1 ev e1 X2 DE2 st2 X3 X4 X5.
  generalize (every_run_and _ _ _ _ _ _ (H d e hh X1 ev e1 X2 DE2 st2 X3 X4 X5) (H' d e hh X1 ev e1 X2 DE2 st2 X3 X4 X5)).
  apply every_run_impl. intros st3 [H3 H3'] DE4 st4 Y1 Y2 Y3 Y4. apply (every_run_and _ _ _ _ _ _ (H3 DE4 st4 Y1 Y2 Y3 Y4) (H3' DE4 st4 Y1 Y2 Y3 Y4)).
Qed.

(** The contract of the distributed band_to_tridiagonal: what C46 proves of the local one. *)
Definition b2t_ok {K : starfield} (b2t : bool -> Z -> Z -> mat K -> (Z -> F K) -> (Z -> F K) -> mat K -> Prop) : Prop :=
  forall cplx n b A d e V, 0 <= n -> 2 <= b -> real_diag n A -> (cplx = false -> forall x : F K, fconj x = x) ->
  b2t cplx n b A d e V -> is_tridiagonal_reduction cplx n b A V d e.
Definition dist_eig_ok {K : starfield} (g : dist_eig_cfg K) (P Q : Z) : Prop :=
  kernels_ok (h_kn g) /\ (forall r, In r (ranks P Q) -> 0 < h_t_avail g r) /\ b2t_ok (h_b2t g) /\ ts_ok (h_ts g) /\
  larft_ok (h_larft g) /\ 0 < h_group g /\ (forall r, In r (ranks P Q) -> 0 < h_bt_avail g r) /\ 2 <= h_bmin g <= i64_max.

(** C52: for every field with the square roots the code takes, kernels, distributed band to tridiagonal and tridiagonal solver that
    meet their contracts, P x Q grid, size, block size (at least 2), source ranks (A and E start on the same rank row), minimal band size,
    thread counts, number k of requested eigenvectors, and run of all the ranks and of MPI: if the diagonal of A is real (A is Hermitian) the
    call ends on all the ranks; it returns all the eigenvalues of A, and the first k columns are orthonormal eigenvectors.
    The distributed band_to_tridiagonal and tridiagonal_eigensolver enter through their contracts; Properties_DistEigFull.v removes them. *)
Theorem C52_eigensolver_distributed_contract : forall (K : starfield) (g : dist_eig_cfg K) (cplx : bool) (P Q n mb k : Z) (srcA srcE : pair_Z) DA (st : tstore (mat K)),
  0 <= k <= n -> 2 <= mb <= i64_max -> dist_eig_ok g P Q -> (cplx = false -> forall x : F K, fconj x = x) ->
  distributed P Q (n, n) (mb, mb) (mb, mb) srcA (0, 0) DA -> fst srcE = fst srcA ->
  real_diag n (dmat P Q (mb, mb) srcA 0 st) ->
  every_dist_eigensolver_call g cplx P Q srcA srcE DA Lower n mb k st (fun r => exists lam E, r = Ok (lam, E) /\
    exists E', meq n k E E' /\ is_eigendecomposition n n (herm Lower (dmat P Q (mb, mb) srcA 0 st)) lam E').
Proof.
  intros K g cplx P Q n mb k srcA srcE DA st Hk Hmb (KO & AT & BO & TS & LO & GR & AV & BM) RK HA SR RD. unfold every_dist_eigensolver_call.
  destruct (C36_band_size (h_bmin g) mb BM ltac:(lia)) as (b & EB & _). rewrite EB. destruct (band_of _ _ _ BM Hmb EB) as [B2 BD].
  replace (b <? 2) with false by lia.
  eapply adaptive_impl; [|apply (C44_reduction_to_band_distributed K (h_kn g) KO (h_rs g) P Q n mb b srcA DA); try lia; assumption].
  intros st1 (tau & (U1 & RD1 & E1 & _) & TA) d e hh HB. set (A1 := dmat P Q (mb, mb) srcA 0 st1) in *. set (Q1 := q_of n b A1 tau) in *.
  destruct (BO cplx n b A1 d e hh ltac:(lia) B2 RD1 RK HB) as (U2 & RDd & RDe & E2). cbv beta zeta in *. set (Q2 := hht_product n b hh (hht_list cplx n b)) in *.
  intros lam e1 HTS DE2 st2 DD2 EHH EE1. pose proof (TS _ _ _ _ _ RDd RDe HTS) as ED.
  eapply every_run_impl; [|apply (C47_bt_band_to_tridiag_distributed K (h_kn g) (h_larft g) KO LO cplx P Q n mb b (h_group g) k mb srcA srcE DA DE2); try lia; assumption].
  intros st3 (E3 & _) DE4 st4 DD4 EA4 ET4 EC4.
  assert (T4 : taus_on_columns P Q mb srcA (n - b - 1) tau st4). { intros p x Lp Lx. rewrite (ET4 p x Lp Lx). apply TA; assumption. }
  eapply every_run_impl; [|apply (C45_bt_reduction_to_band_distributed K (h_kn g) KO P Q n k mb mb b srcA srcE DA DE4 (h_bt_avail g)) with (tau := tau); try lia; assumption].
  intros st5 (E5 & _). exists lam. eexists. split; [reflexivity|].
  exists (mmul n Q1 (mmul n Q2 e1)). split.
  - intros i c Li Lc. cbv beta. replace (c <? k) with true by lia. rewrite E5 by assumption. apply mmul_ext; intros r Lr.
    + apply q_of_in; try assumption; [lia|reflexivity].
    + rewrite EC4, E3 by assumption. apply mmul_ext; intros s Ls; [|apply EE1; assumption]. apply product_in; try assumption; lia.
  - eapply conj_eig; [exact U1|exact E1|]. eapply conj_eig; [exact U2|exact E2|]. exact ED.
Qed.
(** in particular the first k columns *)
Corollary C52_requested_eigenvectors_distributed_contract : forall (K : starfield) (g : dist_eig_cfg K) (cplx : bool) (P Q n mb k : Z) (srcA srcE : pair_Z) DA (st : tstore (mat K)),
  0 <= k <= n -> 2 <= mb <= i64_max -> dist_eig_ok g P Q -> (cplx = false -> forall x : F K, fconj x = x) ->
  distributed P Q (n, n) (mb, mb) (mb, mb) srcA (0, 0) DA -> fst srcE = fst srcA ->
  real_diag n (dmat P Q (mb, mb) srcA 0 st) ->
  every_dist_eigensolver_call g cplx P Q srcA srcE DA Lower n mb k st (fun r => exists lam E, r = Ok (lam, E) /\
    is_eigendecomposition n k (herm Lower (dmat P Q (mb, mb) srcA 0 st)) lam E).
Proof.
  intros K g cplx P Q n mb k srcA srcE DA st Hk Hmb GO RK HA SR RD. eapply dist_call_impl; [|apply C52_eigensolver_distributed_contract; assumption].
  intros r (lam & E & -> & E' & EE & D). exists lam, E. split; [reflexivity|]. apply (eig_ext n k _ lam E' E); [lia| |apply (eig_le n k n); [lia|exact D]].
  intros i c Li Lc. symmetry. apply EE; assumption.
Qed.
(** C52: the upper triangle is not implemented, and blocks of size 1 are rejected, as in the local call. *)
Theorem C52_rejected_distributed : forall (K : starfield) (g : dist_eig_cfg K) (cplx : bool) P Q srcA srcE DA (u : uplo) (n mb k : Z) (st : tstore (mat K)) R,
  1 <= mb <= i64_max -> 2 <= h_bmin g <= i64_max -> u = Upper \/ mb = 1 -> every_dist_eigensolver_call g cplx P Q srcA srcE DA u n mb k st R <-> R Abort.
Proof.
  intros K g cplx P Q srcA srcE DA u n mb k st R L1 L2 C. unfold every_dist_eigensolver_call. destruct (C36_band_size (h_bmin g) mb L2 L1) as (b & EB & B). rewrite EB.
  destruct C as [-> | ->]; [reflexivity|]. destruct u; [|reflexivity]. destruct B as (_ & _ & _ & B4). rewrite (B4 ltac:(lia)). reflexivity.
Qed.

(** Memory of the ranks that holds given matrices *)
Lemma dmat_store : forall {K : starfield} P Q mb nb src z (m : Z -> mat K) a c, 0 < mb -> 0 < nb ->
  dmat P Q (mb, nb) src z (fun x p q => m (t_mat x) (t_row x * mb + p) (t_col x * nb + q)) a c = m z a c.
Proof. intros K P Q mb nb src z m a c H1 H2. unfold dmat. cbn [fst snd t_mat t_row t_col]. rewrite (Z.mul_comm _ mb), (Z.mul_comm _ nb), <- !Z.div_mod by lia. reflexivity. Qed.

(** The call speaks about at least one complete run, if band_to_tridiagonal and the tridiagonal solver return something for the matrices they get. *)
Theorem C52_some_run_distributed : forall (K : starfield) (g : dist_eig_cfg K) (cplx : bool) (P Q n mb k : Z) (srcA srcE : pair_Z) DA (st : tstore (mat K)),
  0 <= k <= n -> 2 <= mb <= i64_max -> dist_eig_ok g P Q -> (cplx = false -> forall x : F K, fconj x = x) ->
  distributed P Q (n, n) (mb, mb) (mb, mb) srcA (0, 0) DA -> fst srcE = fst srcA ->
  (forall b, b = mb \/ get_band_size (h_bmin g) mb = Ok b -> exists DE, distributed P Q (n, k) (mb, mb) (b, mb) srcE (0, 0) DE) ->
  real_diag n (dmat P Q (mb, mb) srcA 0 st) ->
  (forall b A, 2 <= b -> mb mod b = 0 -> real_diag n A -> exists d e V, h_b2t g cplx n b A d e V) ->
  (forall d e U, unitary n U -> meq n n (herm Lower (dmat P Q (mb, mb) srcA 0 st)) (conjugate n U (tridiag d e)) -> exists lam E, h_ts g n d e lam E) ->
  forall R, every_dist_eigensolver_call g cplx P Q srcA srcE DA Lower n mb k st R -> exists lam E, R (Ok (lam, E)).
Proof.
  intros K g cplx P Q n mb k srcA srcE DA st Hk Hmb (KO & AT & BO & TS & LO & GR & AV & BM) RK HA SR DEX RD TB TT R. unfold every_dist_eigensolver_call.
  destruct (C36_band_size (h_bmin g) mb BM ltac:(lia)) as (b & EB & _). rewrite EB. destruct (band_of _ _ _ BM Hmb EB) as [B2 BD].
  replace (b <? 2) with false by lia. intros H.
  pose proof (C44_reduction_to_band_distributed K (h_kn g) KO (h_rs g) P Q n mb b srcA DA (h_panel_avail g) (h_panel_min g) (h_t_avail g) ltac:(lia) BD AT HA st RD) as P1.
  destruct (every_adaptive_run_final _ _ _ _ _ _ _ (adaptive_and _ _ _ _ _ _ _ _ P1 H)) as (s1 & _ & _ & (tau & (U1 & RD1 & E1 & _) & TA) & H1). clear P1 H.
  set (st1 := d_store s1) in *. set (A1 := dmat P Q (mb, mb) srcA 0 st1) in *.
  destruct (TB b A1 B2 BD RD1) as (d & e & hh & HB). destruct (BO cplx n b A1 d e hh ltac:(lia) B2 RD1 RK HB) as (U2 & RDd & RDe & E2). cbv beta zeta in *.
  destruct (TT d e (mmul n (q_of n b A1 tau) (hht_product n b hh (hht_list cplx n b)))) as (lam & e1 & HT).
  { apply unitary_mul; assumption. }
  { intros i j Li Lj. rewrite E1 by assumption. rewrite conj_mul. apply conj_ext; try assumption. intros u v Lu Lv. reflexivity. }
  destruct (DEX b (or_intror EB)) as [DE2 DD2]. destruct (DEX mb (or_introl eq_refl)) as [DE4 DD4].
  set (st2 := fun x => if t_mat x =? 0 then (fun p q => hh (t_row x * mb + p) (t_col x * mb + q)) else (fun p q => e1 (t_row x * b + p) (t_col x * mb + q))).
  specialize (H1 d e hh HB lam e1 HT DE2 st2 DD2).
  destruct (every_run_final _ _ _ _ _ (H1
    ltac:(intros i j _ _; unfold dmat, st2; cbn [t_mat t_row t_col fst snd]; change (0 =? 0) with true; cbv iota; rewrite !(Z.mul_comm _ mb), <- !Z.div_mod by lia; reflexivity)
    ltac:(intros i j _ _; unfold tiled_mat, st2; cbn [t_mat t_row t_col fst snd]; change (1 =? 0) with false; cbv iota; rewrite (Z.mul_comm _ mb), (Z.mul_comm _ b), <- !Z.div_mod by lia; reflexivity)))
    as (s3 & _ & _ & H3). clear H1. set (st3 := d_store s3) in *.
  set (st4 := fun x => if t_mat x =? 0 then (fun p q => A1 (t_row x * mb + p) (t_col x * mb + q)) else if t_mat x =? 1 then (fun p q => tau (t_row x * mb + p))
    else (fun p q => tiled_mat P Q (mb, mb) (b, mb) srcE 1 st3 (t_row x * mb + p) (t_col x * mb + q))).
  specialize (H3 DE4 st4 DD4).
  destruct (every_run_final _ _ _ _ _ (H3
    ltac:(intros i j _ _; unfold dmat at 1, st4; cbn [t_mat t_row t_col fst snd]; change (0 =? 0) with true; cbv iota; rewrite !(Z.mul_comm _ mb), <- !Z.div_mod by lia; reflexivity)
    ltac:(intros p x Lp Lx; cbv zeta; rewrite (TA p x Lp Lx); unfold st4; cbn [t_mat t_row t_col fst snd]; change (1 =? 0) with false; change (1 =? 1) with true; cbv iota; rewrite (Z.mul_comm _ mb), <- Z.div_mod by lia; reflexivity)
    ltac:(intros i j _ _; unfold dmat, st4; cbn [t_mat t_row t_col fst snd]; change (2 =? 0) with false; change (2 =? 1) with false; cbv iota; rewrite !(Z.mul_comm _ mb), <- !Z.div_mod by lia; reflexivity)))
    as (s5 & _ & _ & H5). exists lam. eexists. exact H5.
Qed.

(** ** C53: A X = B X Lambda with all the eigenvalues; the first k columns of X are eigenvectors, X^H B X = I. B is given by its lower triangle and
    positive definite (it has a Cholesky factor), or already factorized. *)
Theorem C53_gen_eigensolver_distributed_contract : forall (K : starfield) (g : dist_eig_cfg K) (cplx : bool) (factorize : bool) (P Q n mb k : Z) (srcA srcE : pair_Z) DA (st : tstore (mat K)),
  0 <= k <= n -> 2 <= mb <= i64_max -> dist_eig_ok g P Q -> (cplx = false -> forall x : F K, fconj x = x) ->
  distributed P Q (n, n) (mb, mb) (mb, mb) srcA (0, 0) DA -> fst srcE = fst srcA ->
  let A := dmat P Q (mb, mb) srcA 0 st in
  let B := dmat P Q (mb, mb) srcA 1 st in
  real_diag n A -> (if factorize then exists T, is_factor Lower n B T else nonsingular NonUnit n B) ->
  every_dist_gen_eigensolver_call g cplx P Q srcA srcE DA Lower factorize n mb k st (fun r => exists lam X, r = Ok (lam, X) /\
    exists X', meq n k X X' /\
      is_gen_eigendecomposition n n (herm Lower A) (if factorize then herm Lower B else factored Lower n B) lam X').
Proof.
  intros K g cplx factorize P Q n mb k srcA srcE DA st Hk Hmb GO RK HA SR A B RD HB. unfold every_dist_gen_eigensolver_call. cbv zeta.
  assert (GO' := GO). destruct GO' as (KO & _). fold A. fold B.
  assert (REST : forall b : mat K, nonsingular NonUnit n b -> forall Bm, meq n n (factored Lower n b) Bm -> forall st2 : tstore (mat K),
    meq n n (dmat P Q (mb, mb) srcA 0 st2) A -> meq n n (dmat P Q (mb, mb) srcA 1 st2) b ->
    every_run (members P Q) (ranks P Q) (dist_gen_to_std (h_kn g) P Q DA Lower) st2 (fun st3 =>
    forall st4 : tstore (mat K), meq n n (dmat P Q (mb, mb) srcA 0 st4) (dmat P Q (mb, mb) srcA 0 st3) ->
    every_dist_eigensolver_call g cplx P Q srcA srcE DA Lower n mb k st4 (fun r => match r with
    | Ok (evals, e) =>
        forall DE5 (st5 : tstore (mat K)), distributed P Q (n, k) (mb, mb) (mb, mb) srcE (0, 0) DE5 ->
        meq n n (dmat P Q (mb, mb) srcA 0 st5) (dmat P Q (mb, mb) srcA 1 st3) -> meq n k (dmat P Q (mb, mb) srcE 1 st5) e ->
        every_run (members P Q) (ranks P Q) (dist_solver (h_kn g) P Q DA DE5 f1 Left Lower ConjTrans NonUnit) st5 (fun st6 =>
          exists lam X, Ok (evals, fun i c => if c <? k then dmat P Q (mb, mb) srcE 1 st6 i c else e i c) = Ok (lam, X) /\
            exists X', meq n k X X' /\ is_gen_eigendecomposition n n (herm Lower A) Bm lam X')
    | Abort => exists lam X, @Abort ((Z -> F K) * mat K) = Ok (lam, X) /\ exists X', meq n k X X' /\ is_gen_eigendecomposition n n (herm Lower A) Bm lam X'
    | UB => exists lam X, @UB ((Z -> F K) * mat K) = Ok (lam, X) /\ exists X', meq n k X X' /\ is_gen_eigendecomposition n n (herm Lower A) Bm lam X' end))).
  { intros b NS Bm EBm st2 EA EB.
    assert (RD2 : real_diag n (dmat P Q (mb, mb) srcA 0 st2)). { intros i Li. unfold real. rewrite EA by assumption. apply RD. exact Li. }
    assert (NS2 : nonsingular NonUnit n (dmat P Q (mb, mb) srcA 1 st2)). { intros i Li. rewrite EB by assumption. apply NS. exact Li. }
    eapply every_run_impl; [|apply (C32_gen_to_std_distributed K (h_kn g) KO P Q n mb srcA DA HA Lower st2 RD2 NS2)].
    intros st3 (HG & FR) st4 E4.
    assert (E1 : meq n n (dmat P Q (mb, mb) srcA 1 st3) b). { intros i j Li Lj. rewrite <- EB, FR by assumption. reflexivity. }
    assert (RD4 : real_diag n (dmat P Q (mb, mb) srcA 0 st4)). { intros i Li. unfold real. rewrite E4 by assumption. destruct HG as (_ & RDx & _). apply RDx. exact Li. }
    eapply dist_call_impl; [|apply (C52_eigensolver_distributed_contract K g cplx P Q n mb k srcA srcE DA st4); assumption].
    intros r (lam & E & -> & E' & EE & ED) DE5 st5 DD5 EA5 EE5.
    assert (NS5 : nonsingular NonUnit n (dmat P Q (mb, mb) srcA 0 st5)). { intros i Li. rewrite EA5, E1 by assumption. apply NS. exact Li. }
    eapply every_run_impl; [|apply (C29_triangular_solve_distributed K (h_kn g) KO P Q n k mb mb srcA srcE DA DE5 Left HA DD5 (eq_sym SR) Lower ConjTrans NonUnit f1 st5 NS5)].
    intros st6 (TR & _). exists lam. eexists. split; [reflexivity|].
    assert (TR' := trsm_ok _ KO Left Lower ConjTrans NonUnit n n f1 b E' NS). set (X' := trsm (h_kn g) Left Lower ConjTrans NonUnit n n f1 b E') in *. exists X'. split.
    - intros i c Li Lc. cbv beta. replace (c <? k) with true by lia.
      apply (TileJobs.trsm_unique Left Lower ConjTrans NonUnit n k f1 b E' _ _ NS); [| |assumption|assumption].
      + eapply Properties_DistTri.trsm_ext; [| | |exact TR].
        * intros x y Lx Ly. rewrite EA5, E1 by assumption. reflexivity.
        * intros x y Lx Ly. rewrite EE5, EE by assumption. reflexivity.
        * intros x y _ _. reflexivity.
      + intros x y Lx Ly. apply TR'; lia.
    - apply (gen_ext n (herm Lower (dmat P Q (mb, mb) srcA 0 st2)) _ (factored Lower n b) Bm).
      + intros x y Lx Ly. unfold herm. rewrite !EA by assumption. reflexivity.
      + exact EBm.
      + apply (gen_of_std n (dmat P Q (mb, mb) srcA 0 st2) b (dmat P Q (mb, mb) srcA 0 st4) X' E' lam); [lia| |exact TR'|exact ED].
        apply (hegst_ext Lower n _ _ (dmat P Q (mb, mb) srcA 0 st3)); [intros x y Lx Ly; apply E4; assumption|].
        destruct HG as (HG1 & HG2 & HG3). split; [|split; assumption]. intros x y Lx Ly. rewrite <- HG1 by assumption.
        assert (TQ : meq n n (trim Lower NonUnit b) (trim Lower NonUnit (dmat P Q (mb, mb) srcA 1 st2))).
        { intros a c La Lc. unfold trim. destruct (a =? c); [|destruct (in_tri Lower a c); [|reflexivity]]; symmetry; apply EB; assumption. }
        apply mmul_ext; intros r Lr; [apply mmul_ext; [|reflexivity]; intros s Ls; apply TQ; assumption|]. cbn [opm]. f_equal. apply TQ; assumption. }
  destruct factorize.
  - intros st0 E0.
    assert (FA : exists T, is_factor Lower n (dmat P Q (mb, mb) srcA 0 st0) T).
    { destruct HB as [T HT]. exists T. eapply CholeskyProofs.factor_ext; [exact HT| |intros i j _ _ _; reflexivity]. intros i j Li Lj _. symmetry. apply E0; assumption. }
    eapply every_run_impl; [|apply (C28_cholesky_distributed K (h_kn g) KO P Q n mb srcA DA HA Lower st0 FA)].
    intros st1 (FAC & _). apply REST.
    + intros i Li. apply fpos_neq. apply FAC. exact Li.
    + intros i j Li Lj. transitivity (herm Lower (dmat P Q (mb, mb) srcA 0 st0) i j); [apply factor_herm; assumption|]. unfold herm. rewrite !E0 by assumption. reflexivity.
  - apply REST; [exact HB|]. intros i j _ _. reflexivity.
Qed.

Theorem C53_some_run_distributed : forall (K : starfield) (g : dist_eig_cfg K) (cplx : bool) (factorize : bool) (P Q n mb k : Z) (srcA srcE : pair_Z) DA (st : tstore (mat K)),
  0 <= k <= n -> 2 <= mb <= i64_max -> dist_eig_ok g P Q -> (cplx = false -> forall x : F K, fconj x = x) ->
  distributed P Q (n, n) (mb, mb) (mb, mb) srcA (0, 0) DA -> fst srcE = fst srcA ->
  (forall b, b = mb \/ get_band_size (h_bmin g) mb = Ok b -> exists DE, distributed P Q (n, k) (mb, mb) (b, mb) srcE (0, 0) DE) ->
  let A := dmat P Q (mb, mb) srcA 0 st in
  let B := dmat P Q (mb, mb) srcA 1 st in
  real_diag n A -> (if factorize then exists T, is_factor Lower n B T else nonsingular NonUnit n B) ->
  (forall b A, 2 <= b -> mb mod b = 0 -> real_diag n A -> exists d e V, h_b2t g cplx n b A d e V) ->
  (forall d e U T C, (if factorize then is_factor Lower n B T else meq n n T B) -> is_hegst Lower n A T C ->
    unitary n U -> meq n n (herm Lower C) (conjugate n U (tridiag d e)) -> exists lam E, h_ts g n d e lam E) ->
  forall R, every_dist_gen_eigensolver_call g cplx P Q srcA srcE DA Lower factorize n mb k st R -> exists lam X, R (Ok (lam, X)).
Proof.
  intros K g cplx factorize P Q n mb k srcA srcE DA st Hk Hmb GO RK HA SR DEX A B RD HB TB TT R. unfold every_dist_gen_eigensolver_call. cbv zeta.
  assert (GO' := GO). destruct GO' as (KO & _). fold A. fold B.
  set (mkst := fun (m : Z -> mat K) (x : tid) p q => m (t_mat x) (t_row x * mb + p) (t_col x * mb + q)).
  assert (MK : forall src m z a c, dmat P Q (mb, mb) src z (mkst m) a c = m z a c) by (intros; apply dmat_store; lia).
  assert (REST : forall b : mat K, nonsingular NonUnit n b -> (forall T : mat K, meq n n T b -> if factorize then is_factor Lower n B T else meq n n T B) ->
    (forall st2 : tstore (mat K), meq n n (dmat P Q (mb, mb) srcA 0 st2) A -> meq n n (dmat P Q (mb, mb) srcA 1 st2) b ->
    every_run (members P Q) (ranks P Q) (dist_gen_to_std (h_kn g) P Q DA Lower) st2 (fun st3 =>
    forall st4 : tstore (mat K), meq n n (dmat P Q (mb, mb) srcA 0 st4) (dmat P Q (mb, mb) srcA 0 st3) ->
    every_dist_eigensolver_call g cplx P Q srcA srcE DA Lower n mb k st4 (fun r => match r with
    | Ok (evals, e) =>
        forall DE5 (st5 : tstore (mat K)), distributed P Q (n, k) (mb, mb) (mb, mb) srcE (0, 0) DE5 ->
        meq n n (dmat P Q (mb, mb) srcA 0 st5) (dmat P Q (mb, mb) srcA 1 st3) -> meq n k (dmat P Q (mb, mb) srcE 1 st5) e ->
        every_run (members P Q) (ranks P Q) (dist_solver (h_kn g) P Q DA DE5 f1 Left Lower ConjTrans NonUnit) st5 (fun st6 =>
          R (Ok (evals, fun i c => if c <? k then dmat P Q (mb, mb) srcE 1 st6 i c else e i c)))
    | Abort => R Abort | UB => R UB end))) -> exists lam X, R (Ok (lam, X))).
  { intros b NS FB H. set (st2 := mkst (fun m => if m =? 0 then A else b)).
    assert (EA : meq n n (dmat P Q (mb, mb) srcA 0 st2) A) by (intros i j _ _; apply MK).
    assert (EB : meq n n (dmat P Q (mb, mb) srcA 1 st2) b) by (intros i j _ _; apply MK).
    specialize (H st2 EA EB).
    assert (RD2 : real_diag n (dmat P Q (mb, mb) srcA 0 st2)). { intros i Li. unfold real. rewrite EA by assumption. apply RD. exact Li. }
    assert (NS2 : nonsingular NonUnit n (dmat P Q (mb, mb) srcA 1 st2)). { intros i Li. rewrite EB by assumption. apply NS. exact Li. }
    pose proof (C32_gen_to_std_distributed K (h_kn g) KO P Q n mb srcA DA HA Lower st2 RD2 NS2) as P0.
    destruct (every_run_final _ _ _ _ _ (every_run_and _ _ _ _ _ _ P0 H)) as (s3 & _ & _ & (HG & _) & H3). clear P0 H.
    set (st3 := d_store s3) in *. set (st4 := mkst (fun _ => dmat P Q (mb, mb) srcA 0 st3)).
    assert (E4 : meq n n (dmat P Q (mb, mb) srcA 0 st4) (dmat P Q (mb, mb) srcA 0 st3)) by (intros i j _ _; apply MK).
    specialize (H3 st4 E4). apply C52_some_run_distributed in H3; try assumption.
    - destruct H3 as (lam & E & H3). destruct (DEX mb (or_introl eq_refl)) as [DE5 DD5]. set (st5 := mkst (fun m => if m =? 0 then dmat P Q (mb, mb) srcA 1 st3 else E)).
      destruct (every_run_final _ _ _ _ _ (H3 DE5 st5 DD5 ltac:(intros i j _ _; apply MK) ltac:(intros i j _ _; apply MK))) as (s6 & _ & _ & H6). exists lam. eexists. exact H6.
    - intros i Li. unfold real. rewrite E4 by assumption. destruct HG as (_ & RDx & _). apply RDx. exact Li.
    - intros d e U UU EU. apply (TT d e U (dmat P Q (mb, mb) srcA 1 st2) (dmat P Q (mb, mb) srcA 0 st3)); [apply FB; exact EB| |exact UU|].
      + destruct HG as (H1 & H2 & H4). split; [|split; [exact H2|]].
        * intros i j Li Lj. rewrite H1 by assumption. unfold herm. rewrite !EA by assumption. reflexivity.
        * intros i j Li Lj O. rewrite H4 by assumption. apply EA; assumption.
      + intros i j Li Lj. rewrite <- EU by assumption. unfold herm. rewrite !E4 by assumption. reflexivity. }
  destruct factorize; intros H.
  - set (st0 := mkst (fun _ => B)). assert (E0 : meq n n (dmat P Q (mb, mb) srcA 0 st0) B) by (intros i j _ _; apply MK).
    specialize (H st0 E0).
    assert (FA : exists T, is_factor Lower n (dmat P Q (mb, mb) srcA 0 st0) T).
    { destruct HB as [T HT]. exists T. eapply CholeskyProofs.factor_ext; [exact HT| |intros i j _ _ _; reflexivity]. intros i j Li Lj _. symmetry. apply E0; assumption. }
    pose proof (C28_cholesky_distributed K (h_kn g) KO P Q n mb srcA DA HA Lower st0 FA) as P0.
    destruct (every_run_final _ _ _ _ _ (every_run_and _ _ _ _ _ _ P0 H)) as (s1 & _ & _ & (FAC & _) & H1).
    apply (REST _ ltac:(intros i Li; apply fpos_neq; apply FAC; exact Li)); [|exact H1]. intros T ET.
    eapply CholeskyProofs.factor_ext; [exact FAC| |]; intros i j Li Lj _; [apply E0|symmetry; apply ET]; assumption.
  - apply (REST B HB); [auto|exact H].
Qed.

(** ** The matrices of the examples of Properties_Eig on a 2 x 3 grid, in blocks of 4 x 4; A starts on rank (1, 2), E on (1, 0); 5 eigenvectors. The
    contract of band_to_tridiagonal is met by the local algorithm (C46). *)
Definition ex_dg : dist_eig_cfg complex_field := DistEigCfg complex_field complex_kernels complex_roots (fun r => 1 + r) (fun _ => 1) (fun r => 1 + r)
  (fun cplx n b A d e V => exists m0 s, sreach thread_eq (b2t (ref_larfg complex_roots) cplx n b b 3 A) m0 s /\ sfinal (b2t (ref_larfg complex_roots) cplx n b b 3 A) s /\
     d = (fun i => memo s (LTd i)) /\ e = (fun i => memo s (LTe i)) /\ V = (fun i j => memo s (LHH i j)))
  (fun n d e lam E => is_eigendecomposition n n (tridiag d e) lam E) ref_larft 3 (fun r => 2 + r) 2.
Lemma ex_dg_ok : dist_eig_ok ex_dg 2 3.
Proof.
  assert (PR : forall r, In r (ranks 2 3) -> 0 <= r).
  { intros r R. apply (in_ranks_rc 2 3 ltac:(lia) ltac:(lia) Row) in R as [C1 C2]. pose proof (mk_co 2 3 ltac:(lia) ltac:(lia) Row r) as M. cbn [mk other gs] in *. unfold rk in M. lia. }
  split; [apply complex_kernels_ok|]. split; [intros r R; specialize (PR r R); change (0 < 1 + r); lia|]. split; [|split; [|split; [apply ref_larft_ok|split; [cbn; lia|split; [intros r R; specialize (PR r R); change (0 < 2 + r); lia|cbn; unfold i64_max; lia]]]]].
  - intros cplx n b A d e V Hn Hb RD RK (m0 & s & RS & FN & -> & -> & ->).
    pose proof (C46_tridiagonal_reduction complex_field (ref_larfg complex_roots) cplx n b b 3 A Hn Hb ltac:(lia) ltac:(apply Z_mod_same_full) ltac:(lia) (ref_larfg_ok _) RD RK m0) as [_ X].
    exact (X s RS FN).
  - intros n d e lam E _ _ H. exact H.
Qed.
Lemma ex_dg_total : forall n b A, 0 <= n -> 2 <= b -> 4 mod b = 0 -> real_diag n A -> exists d e V, h_b2t ex_dg true n b A d e V.
Proof.
  intros n b A Hn Hb _ RD. set (m0 := fun _ : B2TModel.loc => @f0 complex_field).
  destruct (execution_exists _ _ _ _ (C46_tridiagonal_reduction complex_field (ref_larfg complex_roots) true n b b 3 A Hn Hb ltac:(lia) ltac:(apply Z_mod_same_full) ltac:(lia) (ref_larfg_ok _) RD ltac:(discriminate) m0)) as (s & RS & FN & _).
  eexists _, _, _. exists m0, s. split; [exact RS|]. split; [exact FN|]. split; [reflexivity|]. split; reflexivity.
Qed.
Lemma ex_dg_dist : forall n k b src, 0 <= n <= 7 -> 0 <= k <= 7 -> b = 4 \/ b = 2 -> 0 <= fst src < 2 -> 0 <= snd src < 3 -> exists D, distributed 2 3 (n, k) (4, 4) (b, 4) src (0, 0) D.
Proof.
  intros n k b [sr sc] Ln Lk Hb L1 L2. cbn [fst snd] in *. apply distributed_exists.
  - intros pr pc X1 X2 rc. unfold i32_max, i64_max. destruct rc; cbn; repeat split; try lia; [|exists 1; lia]. destruct Hb as [-> | ->]; [exists 1|exists 2]; lia.
  - unfold i32_max. lia.
  - unfold i32_max. lia.
  - intros rc. unfold i32_max, i64_max. destruct rc; cbn; lia.
Qed.
Lemma ex_dg_retiled : forall b, b = 4 \/ get_band_size 2 4 = Ok b -> exists DE, distributed 2 3 (7, 5) (4, 4) (b, 4) (1, 0) (0, 0) DE.
Proof. intros b H. apply ex_dg_dist; try (cbn; lia). destruct H as [->|H]; [left; reflexivity|right]. vm_compute in H. congruence. Qed.
Definition ex_dst (m : Z -> mat complex_field) : tstore (mat complex_field) := fun x p q => m (t_mat x) (t_row x * 4 + p) (t_col x * 4 + q).
Example C52_hypotheses_hold : exists DA, distributed 2 3 (7, 7) (4, 4) (4, 4) (1, 2) (0, 0) DA /\
  forall R, every_dist_eigensolver_call ex_dg true 2 3 (1, 2) (1, 0) DA Lower 7 4 5 (ex_dst (fun _ => ex_eig_A)) R ->
  exists lam E, R (Ok (lam, E)) /\ is_eigendecomposition 7 5 (herm Lower ex_eig_A) lam E.
Proof.
  destruct (ex_dg_dist 7 7 4 (1, 2)) as [DA HA]; try (cbn; lia). exists DA. split; [exact HA|]. intros R HR.
  set (st := ex_dst (fun _ => ex_eig_A)) in *.
  assert (EM : forall a c, dmat 2 3 (4, 4) (1, 2) 0 st a c = ex_eig_A a c) by (intros; apply (dmat_store 2 3 4 4 (1, 2) 0 (fun _ => ex_eig_A)); lia).
  assert (EA : meq 7 7 (herm Lower (dmat 2 3 (4, 4) (1, 2) 0 st)) (herm Lower ex_eig_A)) by (intros i j _ _; unfold herm; rewrite !EM; reflexivity).
  assert (RD : real_diag 7 (dmat 2 3 (4, 4) (1, 2) 0 st)) by (intros i Li; unfold real; rewrite !EM; apply ex_A_conj; assumption).
  set (S := fun r : eig_result complex_field => R r /\ exists lam E, r = Ok (lam, E) /\ is_eigendecomposition 7 5 (herm Lower (dmat 2 3 (4, 4) (1, 2) 0 st)) lam E).
  destruct (C52_some_run_distributed complex_field ex_dg true 2 3 7 4 5 (1, 2) (1, 0) DA st ltac:(lia) ltac:(unfold i64_max; lia) ex_dg_ok ltac:(discriminate) HA eq_refl ex_dg_retiled RD) with (R := S) as (lam & E & RR & lam' & E' & EQ & EV & ON & RL).
  - intros b A Hb Hd RDA. apply ex_dg_total; try assumption; lia.
  - intros d e U UU ET. apply (ex_total 7 (herm Lower ex_eig_A) ex_lam ex_P ex_A_eig d e U UU). intros i j Li Lj. rewrite <- EA by assumption. apply ET; assumption.
  - apply dist_call_and; [exact HR|]. apply C52_requested_eigenvectors_distributed_contract; try assumption; try discriminate; [lia|unfold i64_max; lia|exact ex_dg_ok|reflexivity].
  - injection EQ as <- <-. exists lam, E. split; [exact RR|]. split; [|split; assumption]. intros i c Li Lc. rewrite <- EV by assumption. apply mmul_ext; [|reflexivity]. intros r Lr. symmetry. apply EA; assumption.
Qed.
Example C53_hypotheses_hold : exists DA, distributed 2 3 (7, 7) (4, 4) (4, 4) (1, 2) (0, 0) DA /\
  exists lam X, is_gen_eigendecomposition 7 5 (herm Lower ex_gA) (herm Lower ex_gB) lam X.
Proof.
  destruct (ex_dg_dist 7 7 4 (1, 2)) as [DA HA]; try (cbn; lia). exists DA. split; [exact HA|].
  set (m := fun z => if z =? 0 then ex_gA else ex_gB). set (st := ex_dst m). set (A := dmat 2 3 (4, 4) (1, 2) 0 st). set (B := dmat 2 3 (4, 4) (1, 2) 1 st).
  assert (EA : meq 7 7 A ex_gA) by (intros i j _ _; apply (dmat_store 2 3 4 4 (1, 2) 0 m); lia).
  assert (EB : meq 7 7 B ex_gB) by (intros i j _ _; apply (dmat_store 2 3 4 4 (1, 2) 1 m); lia).
  assert (RD : real_diag 7 A) by (intros i Li; unfold real; rewrite EA by assumption; apply ex_gA_conj; assumption).
  assert (FB : is_factor Lower 7 B ex_L).
  { eapply CholeskyProofs.factor_ext; [exact ex_L_factor| |intros i j _ _ _; reflexivity]. intros i j Li Lj _. symmetry. apply EB; assumption. }
  destruct (C53_some_run_distributed complex_field ex_dg true true 2 3 7 4 5 (1, 2) (1, 0) DA st ltac:(lia) ltac:(unfold i64_max; lia) ex_dg_ok ltac:(discriminate) HA eq_refl ex_dg_retiled RD (ex_intro _ ex_L FB)) with
    (R := fun r => exists lam X, r = Ok (lam, X) /\ exists X', meq 7 5 X X' /\ is_gen_eigendecomposition 7 7 (herm Lower A) (herm Lower B) lam X') as (lam & X & lam' & X' & _ & Y & _ & G).
  - intros b A0 Hb Hd RDA. apply ex_dg_total; try assumption; lia.
  - fold A B. cbv iota. intros d e U T C FT HG UU EU. apply (ex_total 7 (herm Lower ex_eig_A) ex_lam ex_P ex_A_eig d e U UU).
    intros i j Li Lj. rewrite <- EU by assumption.
    assert (ET : meq_tri Lower 7 T ex_L) by (apply (C28_factor_unique complex_field Lower 7 B); assumption).
    assert (HG' : is_hegst Lower 7 ex_gA ex_L C).
    { destruct HG as (H1 & H2 & H3). split; [|split; [exact H2|]].
      - assert (TQ : meq 7 7 (trim Lower NonUnit ex_L) (trim Lower NonUnit T)).
        { intros a c La Lc. unfold trim. destruct (Z.eqb_spec a c) as [->|N]; [symmetry; apply ET; try assumption; cbn [in_tri]; lia|]. destruct (in_tri Lower a c) eqn:I0; [symmetry; apply ET; assumption|reflexivity]. }
        intros a c La Lc. transitivity (herm Lower A a c); [rewrite <- H1 by assumption|unfold herm; rewrite !EA by assumption; reflexivity].
        apply mmul_ext; intros r Lr; [apply mmul_ext; [|reflexivity]; intros s Ls; apply TQ; assumption|]. cbn [opm]. f_equal. apply TQ; assumption.
      - intros a c La Lc O. rewrite H3 by assumption. apply EA; assumption. }
    assert (NS : nonsingular NonUnit 7 ex_L) by (intros a La; apply fpos_neq; apply ex_L_factor; exact La).
    set (X := fun a c => if in_tri Lower a c then ex_eig_A a c else ex_gA a c).
    assert (HX : is_hegst Lower 7 ex_gA ex_L X) by (apply ex_gA_hegst; [intros a c La Lc O; unfold X; rewrite O; reflexivity|intros a c La Lc O; unfold X; rewrite O; reflexivity]).
    pose proof (C32_unique complex_field Lower 7 _ _ _ _ NS HG' HX) as EC. unfold herm.
    assert (EV : forall a c, 0 <= a < 7 -> 0 <= c < 7 -> in_tri Lower a c = true -> C a c = ex_eig_A a c) by (intros a c La Lc O; rewrite EC by assumption; unfold X; rewrite O; reflexivity).
    destruct (in_tri Lower i j) eqn:I0; [symmetry; apply EV; assumption|]. rewrite EV by (try assumption; cbn [in_tri] in *; lia). reflexivity.
  - apply (C53_gen_eigensolver_distributed_contract complex_field ex_dg true true 2 3 7 4 5 (1, 2) (1, 0) DA st); try discriminate; [lia|unfold i64_max; lia|exact ex_dg_ok|exact HA|reflexivity|exact RD|exists ex_L; exact FB].
  - assert (HA' : meq 7 7 (herm Lower A) (herm Lower ex_gA)) by (intros a c La Lc; unfold herm; rewrite !EA by assumption; reflexivity).
    assert (HB' : meq 7 7 (herm Lower B) (herm Lower ex_gB)) by (intros a c La Lc; unfold herm; rewrite !EB by assumption; reflexivity).
    exists lam', Y. destruct (gen_ext 7 _ (herm Lower ex_gA) _ (herm Lower ex_gB) Y lam' HA' HB' G) as (G1 & G2 & G3).
    split; [intros a c La Lc; apply G1; lia|split; [intros a c La Lc; apply G2; lia|intros c Lc; apply G3; lia]].
Qed.

(** ** Assumptions *)
Print Assumptions C52_eigensolver_distributed_contract.
Print Assumptions C52_rejected_distributed.
Print Assumptions C52_some_run_distributed.
Print Assumptions C53_gen_eigensolver_distributed_contract.
Print Assumptions C53_some_run_distributed.
