(** * From quadratic forms to eigenvectors. *)
From Coq Require Import ZArith Lia List Bool Reals Lra Psatz.
From Verif Require Import CInt Loop StarField DenseSpec HouseSpec CplxField B2TResult EigSpec DcSums DcDeflate DcCore DcSolver.
Local Open Scope R_scope.

Notation trid := (tridiag (K := real_field)).
(** A x *)
Definition mvec (n : Z) (A : Z -> Z -> R) (x : Z -> R) : Z -> R := fun i => rsum 0 n (fun j => A i j * x j).

Lemma dot_mul_l : forall n c x y, dot n (fun i => c * x i) y = c * dot n x y.
Proof. intros. unfold dot. rewrite <- rsum_mul_l. apply rsum_ext. intros. ring. Qed.
Lemma dot_add_l : forall n u v y, dot n (fun i => u i + v i) y = dot n u y + dot n v y.
Proof. intros. unfold dot. rewrite <- rsum_add. apply rsum_ext. intros. ring. Qed.
Lemma dot_add_r : forall n y u v, dot n y (fun i => u i + v i) = dot n y u + dot n y v.
Proof. intros. rewrite !(dot_comm n y). apply dot_add_l. Qed.
Lemma dot_mul_r : forall n c x y, dot n x (fun i => c * y i) = c * dot n x y.
Proof. intros. rewrite !(dot_comm n x). apply dot_mul_l. Qed.

(** xᵀ T x *)
Lemma trid_vec : forall n d e x i, (0 <= i < n)%Z -> mvec n (trid d e) x i = d i * x i + (if Z.ltb 0 i then e (i - 1)%Z * x (i - 1)%Z else 0) + (if Z.ltb i (n - 1) then e i * x (i + 1)%Z else 0).
Proof.
  intros n d e x i Li. unfold mvec. rewrite (rsum_pick 0 n _ i Li). rewrite Rplus_assoc. f_equal; [unfold tridiag; rewrite Z.eqb_refl; reflexivity|].
  rewrite (rsum_ext 0 n _ (fun j => (if Z.eqb j (i - 1) then e (i - 1)%Z * x (i - 1)%Z else 0) + (if Z.eqb j (i + 1) then e i * x (i + 1)%Z else 0))).
  - rewrite rsum_add. f_equal.
    + destruct (Z.ltb_spec 0 i).
      * rewrite (rsum_one 0 n _ (i - 1)%Z) by (lia || (intros j Lj N; destruct (Z.eqb_spec j (i - 1)); [contradiction|reflexivity])). rewrite Z.eqb_refl. reflexivity.
      * apply rsum_0. intros j Lj. destruct (Z.eqb_spec j (i - 1)); [lia|reflexivity].
    + destruct (Z.ltb_spec i (n - 1)).
      * rewrite (rsum_one 0 n _ (i + 1)%Z) by (lia || (intros j Lj N; destruct (Z.eqb_spec j (i + 1)); [contradiction|reflexivity])). rewrite Z.eqb_refl. reflexivity.
      * apply rsum_0. intros j Lj. destruct (Z.eqb_spec j (i + 1)); [lia|reflexivity].
  - intros j Lj. destruct (Z.eqb_spec j i) as [->|N].
    + destruct (Z.eqb_spec i (i - 1)); [lia|]. destruct (Z.eqb_spec i (i + 1)); [lia|]. ring.
    + unfold tridiag. destruct (Z.eqb_spec i j); [lia|]. destruct (Z.eqb_spec i (j + 1)), (Z.eqb_spec j (i - 1)), (Z.eqb_spec j (i + 1)); try lia; cbn [F f0 real_field].
      * replace (i - 1)%Z with j by lia. ring.
      * replace (i + 1)%Z with j by lia. ring.
      * ring.
Qed.
Lemma tform_trid : forall n d e x, (1 <= n)%Z -> tform n d e x = dot n x (mvec n (trid d e) x).
Proof.
  intros n d e x Ln. unfold tform, dot.
  rewrite (rsum_ext 0 n (fun i => x i * mvec n (trid d e) x i) (fun i => d i * (x i * x i) + ((if Z.ltb 0 i then e (i - 1)%Z * (x (i - 1)%Z * x i) else 0) + (if Z.ltb i (n - 1) then e i * (x i * x (i + 1)%Z) else 0)))).
  2: { intros i Li. rewrite trid_vec by lia. destruct (Z.ltb 0 i), (Z.ltb i (n - 1)); ring. }
  rewrite !rsum_add. f_equal. replace (2 * rsum 0 (n - 1) (fun i => e i * (x i * x (i + 1)%Z))) with (rsum 0 (n - 1) (fun i => e i * (x i * x (i + 1)%Z)) + rsum 0 (n - 1) (fun i => e i * (x i * x (i + 1)%Z))) by ring. f_equal.
  - rewrite (rsum_cons 0 n) by lia. cbn [Z.ltb Z.compare]. rewrite Rplus_0_l. replace (rsum (0 + 1) n) with (rsum (0 + 1) ((n - 1) + 1)) by (f_equal; lia). rewrite rsum_shift. apply rsum_ext. intros i Li.
    replace (Z.ltb 0 (i + 1)) with true by lia. replace (i + 1 - 1)%Z with i by lia. reflexivity.
  - replace (rsum 0 n) with (rsum 0 ((n - 1) + 1)) by (f_equal; lia). rewrite rsum_snoc by lia. replace (Z.ltb (n - 1) (n - 1)) with false by lia. rewrite Rplus_0_r.
    apply rsum_ext. intros i Li. replace (Z.ltb i (n - 1)) with true by lia. reflexivity.
Qed.
Lemma trid_sym : forall d e i j, trid d e i j = trid d e j i.
Proof.
  intros. unfold tridiag. destruct (Z.eqb_spec i j) as [->|N]; [rewrite Z.eqb_refl; reflexivity|]. destruct (Z.eqb_spec j i); [lia|].
  destruct (Z.eqb_spec i (j + 1)), (Z.eqb_spec j (i + 1)); try lia; reflexivity.
Qed.
Lemma sym_dot : forall n (A : Z -> Z -> R) x y, (forall i j, A i j = A j i) -> dot n x (mvec n A y) = dot n y (mvec n A x).
Proof.
  intros n A x y S. unfold dot, mvec. rewrite (rsum_ext 0 n _ (fun i => rsum 0 n (fun j => x i * A i j * y j))) by (intros; rewrite <- rsum_mul_l; apply rsum_ext; intros; ring).
  rewrite rsum_swap. apply rsum_ext. intros j _. rewrite <- rsum_mul_l. apply rsum_ext. intros i _. rewrite (S i j). ring.
Qed.

Section residual.
Variables (n : Z) (A : Z -> Z -> R) (lam : Z -> R) (E : Z -> Z -> R) (c : R).
Hypothesis LN : (0 <= n)%Z.
Hypothesis SYM : forall i j, A i j = A j i.
Hypothesis ORT : orthonormal n E.
Hypothesis C0 : 0 <= c.
Hypothesis FORM : forall x, Rabs (dform n lam (coord n E x) - dot n x (mvec n A x)) <= c * dot n x x.
(** column k of A E - E Λ *)
Definition res_col (k : Z) : Z -> R := fun i => rsum 0 n (fun j => A i j * E j k) - lam k * E i k.
Let q (x : Z -> R) : R := dot n x (mvec n A x) - dform n lam (coord n E x).
Let bl (x y : Z -> R) : R := dot n x (mvec n A y) - rsum 0 n (fun k => lam k * (coord n E x k * coord n E y k)).
Lemma mvec_add : forall u v i, mvec n A (fun i => u i + v i) i = mvec n A u i + mvec n A v i.
Proof using. intros. unfold mvec. rewrite <- rsum_add. apply rsum_ext. intros. ring. Qed.
Lemma mvec_mul : forall s u i, mvec n A (fun i => s * u i) i = s * mvec n A u i.
Proof using. intros. unfold mvec. rewrite <- rsum_mul_l. apply rsum_ext. intros. ring. Qed.
Lemma coord_add : forall u v k, coord n E (fun i => u i + v i) k = coord n E u k + coord n E v k.
Proof using. intros. unfold coord. rewrite <- rsum_add. apply rsum_ext. intros. ring. Qed.
Lemma coord_smul : forall s u k, coord n E (fun i => s * u i) k = s * coord n E u k.
Proof using. intros. unfold coord. rewrite <- rsum_mul_l. apply rsum_ext. intros. ring. Qed.
Lemma q_expand : forall s t u v, q (fun i => s * u i + t * v i) = s * s * q u + 2 * (s * t) * bl u v + t * t * q v.
Proof using SYM.
  intros s t u v. unfold q, bl. set (w := fun i => s * u i + t * v i).
  assert (MW : forall i, mvec n A w i = s * mvec n A u i + t * mvec n A v i) by (intros i; unfold w; rewrite (mvec_add (fun i => s * u i) (fun i => t * v i)), !mvec_mul; reflexivity).
  assert (CW : forall k, coord n E w k = s * coord n E u k + t * coord n E v k) by (intros k; unfold w; rewrite (coord_add (fun i => s * u i) (fun i => t * v i)), !coord_smul; reflexivity).
  assert (DW : dot n w (mvec n A w) = s * s * dot n u (mvec n A u) + s * t * (dot n u (mvec n A v) + dot n v (mvec n A u)) + t * t * dot n v (mvec n A v)).
  { rewrite (dot_ext n w (mvec n A w) w (fun i => s * mvec n A u i + t * mvec n A v i)) by (reflexivity || (intros; apply MW)). unfold w. rewrite dot_add_r, !dot_mul_r, !dot_add_l, !dot_mul_l. ring. }
  assert (FW : dform n lam (coord n E w) = s * s * dform n lam (coord n E u) + 2 * (s * t) * rsum 0 n (fun k => lam k * (coord n E u k * coord n E v k)) + t * t * dform n lam (coord n E v)).
  { unfold dform. rewrite <- !rsum_mul_l, <- !rsum_add. apply rsum_ext. intros k _. rewrite CW. ring. }
  rewrite DW, FW. rewrite (sym_dot n A v u SYM). ring.
Qed.
Lemma bl_bound : forall u v, 2 * bl u v <= c * (dot n u u + dot n v v).
Proof using FORM SYM.
  intros u v. pose proof (q_expand 1 1 u v) as Q1. pose proof (q_expand 1 (-1) u v) as Q2. set (wp := fun i => 1 * u i + 1 * v i) in *. set (wm := fun i => 1 * u i + -1 * v i) in *.
  pose proof (FORM wp) as F1. pose proof (FORM wm) as F2.
  assert (DP : dot n wp wp + dot n wm wm = 2 * (dot n u u + dot n v v)).
  { unfold dot. rewrite <- !rsum_add, <- rsum_mul_l. apply rsum_ext. intros. unfold wp, wm. ring. }
  unfold q in Q1, Q2. set (a := dot n wp (mvec n A wp)) in *. set (b := dot n wm (mvec n A wm)) in *. set (fa := dform n lam (coord n E wp)) in *. set (fb := dform n lam (coord n E wm)) in *.
  pose proof (Rle_abs (fa - a)). pose proof (Rle_abs (- (fa - a))) as X1. rewrite Rabs_Ropp in X1. pose proof (Rle_abs (fb - b)). pose proof (Rle_abs (- (fb - b))) as X2. rewrite Rabs_Ropp in X2.
  set (qu := dot n u (mvec n A u) - dform n lam (coord n E u)) in *. set (qv := dot n v (mvec n A v) - dform n lam (coord n E v)) in *.
  assert (4 * bl u v = (a - fa) - (b - fb)) by lra. assert (c * dot n wp wp + c * dot n wm wm = 2 * (c * (dot n u u + dot n v v))) by (rewrite <- Rmult_plus_distr_l, DP; ring). lra.
Qed.
Lemma residual : forall k, (0 <= k < n)%Z -> dot n (res_col k) (res_col k) <= c * c.
Proof using LN SYM ORT C0 FORM.
  intros k Lk. set (u := fun i => E i k). set (r := res_col k).
  assert (CU : forall l, (0 <= l < n)%Z -> coord n E u l = kron l k) by (intros l Ll; unfold coord, u; apply ORT; lia).
  assert (BR : bl r u = dot n r r).
  { unfold bl. rewrite (rsum_one 0 n _ k) by (lia || (intros l Ll N; rewrite CU, kron_neq by lia; ring)). rewrite CU, kron_eq by lia.
    unfold dot at 2. rewrite (rsum_ext 0 n (fun i => r i * r i) (fun i => r i * mvec n A u i - lam k * (E i k * r i))) by (intros i Li; unfold r at 2, res_col, mvec, u; ring).
    rewrite rsum_sub, rsum_mul_l. unfold dot, coord. ring. }
  assert (UU : dot n u u = 1) by (unfold dot, u; rewrite ORT by lia; apply kron_eq).
  assert (BS : forall s, 2 * (s * dot n r r) <= c * (s * s * dot n r r + 1)).
  { intros s. pose proof (bl_bound (fun i => s * r i) u) as H. rewrite UU, dot_mul_l, dot_mul_r in H. replace (bl (fun i => s * r i) u) with (s * bl r u) in H.
    - rewrite BR in H. lra.
    - unfold bl. rewrite dot_mul_l. rewrite (rsum_ext 0 n (fun k0 => lam k0 * (coord n E (fun i => s * r i) k0 * coord n E u k0)) (fun k0 => s * (lam k0 * (coord n E r k0 * coord n E u k0)))) by (intros; rewrite coord_smul; ring). rewrite rsum_mul_l. ring. }
  assert (RP := dot_pos n r). destruct (Rle_lt_or_eq_dec 0 c C0) as [CP|CZ].
  - specialize (BS (/ c)). assert (X : c * (/ c * / c * dot n r r + 1) = / c * dot n r r + c) by (field; lra). rewrite X in BS.
    assert (Y : / c * dot n r r <= c) by lra. apply Rmult_le_compat_l with (r := c) in Y; [|lra]. replace (c * (/ c * dot n r r)) with (dot n r r) in Y by (field; lra). exact Y.
  - rewrite <- CZ in BS. specialize (BS 1). rewrite <- CZ. lra.
Qed.
End residual.

(** an eigendecomposition determines the quadratic form *)
Lemma eig_form : forall n (A : Z -> Z -> R) lam E, (0 <= n)%Z -> is_eigendecomposition (K := real_field) n n A lam E -> orthonormal n E /\ forall x, dform n lam (coord n E x) = dot n x (mvec n A x).
Proof.
  intros n A lam E Ln (EV & ON & _).
  assert (O : orthonormal n E). { intros a b La Lb. exact (ON a b La Lb). }
  split; [exact O|]. intros x. set (y := coord n E x).
  rewrite (dot_ext n x (mvec n A x) x (fun i => rsum 0 n (fun k => lam k * E i k * y k))).
  - unfold dform, dot. rewrite (rsum_ext 0 n (fun i => x i * rsum 0 n (fun k => lam k * E i k * y k)) (fun i => rsum 0 n (fun k => (lam k * y k) * (E i k * x i)))) by (intros; rewrite <- rsum_mul_l; apply rsum_ext; intros; ring).
    rewrite rsum_swap. apply rsum_ext. intros k Lk. rewrite rsum_mul_l. fold (coord n E x k). fold y. ring.
  - reflexivity.
  - intros i Li. unfold mvec. rewrite (rsum_ext 0 n (fun j => A i j * x j) (fun j => rsum 0 n (fun k => A i j * E j k * y k))).
    + rewrite rsum_swap. apply rsum_ext. intros k Lk. rewrite rsum_mul_r. f_equal. exact (EV i k Li Lk).
    + intros j Lj. rewrite <- (coord_expand n E x j Ln O Lj) at 1. fold y. rewrite <- rsum_mul_l. apply rsum_ext. intros. ring.
Qed.
Lemma form_eig : forall n (A : Z -> Z -> R) lam E, (0 <= n)%Z -> (forall i j, A i j = A j i) -> orthonormal n E -> (forall x, dform n lam (coord n E x) = dot n x (mvec n A x)) ->
  is_eigendecomposition (K := real_field) n n A lam E.
Proof.
  intros n A lam E Ln S O F. split; [|split].
  - intros i k Li Lk. pose proof (residual n A lam E 0 Ln S O ltac:(lra)) as R. assert (FF : forall x, Rabs (dform n lam (coord n E x) - dot n x (mvec n A x)) <= 0 * dot n x x) by (intros x; rewrite F, Rminus_diag_eq by reflexivity; rewrite Rabs_R0; lra).
    specialize (R FF k Lk). rewrite Rmult_0_l in R.
    assert (Z0 : res_col n A lam E k i * res_col n A lam E k i = 0) by (apply (rsum_pos_0 0 n (fun i => res_col n A lam E k i * res_col n A lam E k i)); [intros; nra|exact R|exact Li]).
    assert (res_col n A lam E k i = 0) by nra. unfold res_col in H. change (rsum 0 n (fun j => A i j * E j k) = lam k * E i k). lra.
  - intros a b La Lb. exact (O a b La Lb).
  - reflexivity.
Qed.
