(** * C44: reduction of a Hermitian matrix to band form (local). *)
From Coq Require Import ZArith Lia List Bool Permutation Reals Lra Ring.
From Verif Require Import Loop StarField DenseSpec Tiling DenseJobs TileJobs RefKernels HouseSpec HouseModel HouseProofs HouseQR TFactorProofs CplxField MultiJobs Red2BandModel Red2BandSpec Red2BandProofs Red2BandTheory.
Import ListNotations.
Local Open Scope Z_scope.

(** ** The pieces *)
(** What computePanelReflectors leaves in a panel of m rows, for any number of threads and any order of their updates: with
    Q = H_0 ... H_(k-1), whose vectors are stored below the diagonal of P' and whose scalars are in taus', every H_j is
    unitary and Q R = P, R the upper trapezoidal part of P'. *)
Theorem C44_panel_is_qr : forall (K : starfield) (rs : roots K) (t : tiling), tiling_ok t -> 0 < tl_n t ->
  forall nw cols k ord (P : @panel K) taus, 0 < nw -> (forall j, 0 <= j < k -> Permutation (ord j) (zrange 0 nw)) ->
  0 <= k -> k <= tl_sz t 0 -> k <= cols ->
  let m := tl_size t in
  let P' := stack t (fst (panel_reflectors rs t nw cols k ord P taus)) in
  let taus' := snd (panel_reflectors rs t nw cols k ord P taus) in
  let Q := refl_prod m (unit_lower P') taus' (Z.to_nat k) in
  unitary m Q /\ meq m cols (mmul m Q (upper_part k P')) (stack t P).
Proof.
  intros K rs t OK NT nw cols k ord P taus W PE K0 K1 K2 m P' taus' Q.
  destruct (panel_qr rs t OK NT nw cols k ord P taus W PE K0 K1 K2) as (U & E & _).
  split; [|exact E]. apply refl_prod_unitary. intros c Lc. apply U. lia.
Qed.
(** ... and neither the number of threads nor their order changes the result. *)
Theorem C44_panel_threads : forall (K : starfield) (rs : roots K) (t : tiling), tiling_ok t -> 0 < tl_n t ->
  forall nw nw' cols k ord ord' (P : @panel K) taus, 0 < nw -> 0 < nw' ->
  (forall j, 0 <= j < k -> Permutation (ord j) (zrange 0 nw)) -> (forall j, 0 <= j < k -> Permutation (ord' j) (zrange 0 nw')) ->
  0 <= k -> k <= tl_sz t 0 -> k <= cols ->
  meq (tl_size t) cols (stack t (fst (panel_reflectors rs t nw cols k ord P taus))) (stack t (fst (panel_reflectors rs t nw' cols k ord' P taus))) /\
  forall i, snd (panel_reflectors rs t nw cols k ord P taus) i = snd (panel_reflectors rs t nw' cols k ord' P taus) i.
Proof.
  intros K rs t OK NT nw nw' cols k ord ord' P taus W W' PE PE' K0 K1 K2.
  replace k with (Z.of_nat (Z.to_nat k)) in * by lia.
  destruct (panel_value rs t OK NT nw cols (Z.to_nat k) ord P taus W PE ltac:(lia) ltac:(lia)) as [A B].
  destruct (panel_value rs t OK NT nw' cols (Z.to_nat k) ord' P taus W' PE' ltac:(lia) ltac:(lia)) as [A' B'].
  split; [|intros i; rewrite B, B'; reflexivity]. intros a q La Lq. rewrite A, A' by assumption. reflexivity.
Qed.
(** computeTFactor: for any number of threads, I - V T V^H is the product of the reflectors, and T is upper triangular. *)
Theorem C44_tfactor : forall (K : starfield) (t : tiling), tiling_ok t -> 0 < tl_n t ->
  forall av k (V : @panel K) taus T0, 0 < av -> 0 < k ->
  let m := tl_size t in let T := tfactor t av k V taus T0 in
  meq m m (refl_prod m (stack t V) taus (Z.to_nat k)) (msub ident (mmul k (mmul k (stack t V) T) (adj (stack t V)))) /\
  (forall p q, 0 <= q < p -> p < k -> T p q = f0).
Proof.
  intros K t OK NT av k V taus T0 AV K0 m T. pose proof (tfactor_rec t OK NT av k V taus T0 AV K0) as TR. split.
  - intros a c La Lc. pose proof (t_rec_prod (tl_size t) (Z.to_nat k) (stack t V) T taus) as H. rewrite Z2Nat.id in H by lia.
    unfold m. rewrite (H TR a c La Lc). reflexivity.
  - intros p q L1 L2. destruct TR as (LO & _). apply LO; lia.
Qed.

(** ** The algorithm *)
(** C44: for every field with the square roots the code takes, kernels that meet their contracts, size, tile size and band size
    (dividing the tile size), number of threads, order of the threads in the panel, and schedule of the tasks: if A is Hermitian
    (its diagonal is real) the program terminates and leaves a unitary Q (as reflectors and taus) and a band matrix B in the
    lower triangle with A = Q B Q^H; it does not change the strict upper triangle. *)
Theorem C44_reduction_to_band : forall (K : starfield) (rs : roots K) (n mb b : Z) (c : r2b_cfg),
  0 <= n -> 0 < b -> 0 < mb -> mb mod b = 0 -> cfg_ok n mb b c ->
  forall st0 : tstore (mat K), real_diag n (r2b_mat mb st0) ->
  every_schedule_m (r2b_jobs rs n mb b c) st0 (fun st =>
    is_band_reduction n b (r2b_mat mb st0) (r2b_mat mb st) (r2b_taus b st)).
Proof.
  intros K rs n mb b c Hn Hb Hmb Hdiv (KO & AT & ORD) st0 RD. apply every_schedule_m_intro; [apply r2b_jobs_ok; assumption|].
  intros st E. pose proof (r2b_run (c_kn c) KO rs n mb b (c_avail c) (c_minwork c) (c_avail_t c) (c_ord c) Hn Hb Hmb Hdiv AT ORD st0 RD) as R.
  cbv zeta in R. unfold r2b_jobs in E. set (s := mrun _ st0) in *. destruct R as (R1 & R2 & R3 & R4).
  assert (EA : forall a q, r2b_mat mb st a q = r2b_mat mb s a q) by (intros; unfold r2b_mat; rewrite E; reflexivity).
  assert (EQ : meq n n (q_of n b (r2b_mat mb st) (r2b_taus b st)) (refl_prod n (band_vectors b (r2b_mat mb s)) (r2b_taus b s) (Z.to_nat (r2b_nrefls n b)))).
  { unfold q_of, r2b_nrefls. replace (Z.to_nat (Z.max 0 (n - b - 1))) with (Z.to_nat (n - b - 1)) by lia. apply refl_prod_ext.
    - intros i q _ _. unfold band_vectors. rewrite EA. reflexivity.
    - intros q _. unfold r2b_taus. rewrite E. reflexivity. }
  assert (BL : forall x : tstore (mat K), meq n n (band b (herm Lower (r2b_mat mb x))) (herm Lower (lower_band b (r2b_mat mb x)))).
  { intros x i q _ _. unfold band, herm, in_tri, lower_band.
    destruct (Z.leb_spec q i), (Z.leb_spec (Z.abs (i - q)) b), (Z.ltb_spec (q + b) i), (Z.ltb_spec (i + b) q); try lia; try reflexivity. rewrite fconj_0. reflexivity. }
  split; [|split; [|split]].
  - eapply unitary_ext; [|exact R2]. intros i q Li Lq. symmetry. apply EQ; assumption.
  - intros i Li. unfold real. rewrite !EA. apply R1. exact Li.
  - intros i q Li Lq. rewrite R3 by assumption. apply conj_ext; try assumption; [intros u v Lu Lv; symmetry; apply EQ; assumption|].
    intros u v Lu Lv. rewrite <- BL by assumption. unfold band, herm. rewrite !EA. reflexivity.
  - intros i q Li Lq L. rewrite EA. apply R4; assumption.
Qed.

(** C44: the result does not depend on the kernels (the BLAS library), the number of threads, the order of the threads or the
    schedule. *)
Theorem C44_result_unique : forall (K : starfield) (rs : roots K) (n mb b : Z) (c c' : r2b_cfg),
  0 <= n -> 0 < b -> 0 < mb -> mb mod b = 0 -> cfg_ok n mb b c -> cfg_ok n mb b c' ->
  forall st0 : tstore (mat K), real_diag n (r2b_mat mb st0) ->
  forall R, (forall a q, 0 <= a < n -> 0 <= q < n -> R a q = r2b_mat mb (mrun (r2b_jobs rs n mb b c) st0) a q) ->
  every_schedule_m (r2b_jobs rs n mb b c') st0 (fun st => meq n n (r2b_mat mb st) R /\
    forall r, 0 <= r -> r2b_taus b st r = r2b_taus b (mrun (r2b_jobs rs n mb b c) st0) r).
Proof.
  intros K rs n mb b c c' Hn Hb Hmb Hdiv CO CO' st0 RD R ER. apply every_schedule_m_intro; [apply r2b_jobs_ok; assumption|].
  intros st E. destruct (r2b_unique rs n mb b Hn Hb Hmb Hdiv c' c st0 st0 CO' CO RD) as [A B].
  { split; [intros ? ? ? ?; reflexivity|reflexivity]. }
  split.
  - intros a q La Lq. rewrite ER by assumption. rewrite <- A by assumption. unfold r2b_mat. rewrite E. reflexivity.
  - intros r Lr. unfold r2b_taus. rewrite E. apply (B (r / b) (r mod b)).
Qed.

(** C44: what it is for: (lambda, y) is an eigenpair of the band matrix exactly if (lambda, Q y) is one of A. *)
Theorem C44_same_eigenpairs : forall (K : starfield) (n b : Z) (A0 A : mat K) taus, is_band_reduction n b A0 A taus ->
  forall (lam : F K) (y : mat K), let Q := q_of n b A taus in
  meq n 1 (mmul n (band b (herm Lower A)) y) (fun i j => fmul lam (y i j)) <->
  meq n 1 (mmul n (herm Lower A0) (mmul n Q y)) (fun i j => fmul lam (mmul n Q y i j)).
Proof.
  intros K n b A0 A taus (U & _ & E & _) lam y Q. fold Q in U, E. destruct U as [U1 U2]. set (B := band b (herm Lower A)) in *.
  assert (L : forall M i j, fmul lam (mmul n M y i j) = mmul n M (fun i j => fmul lam (y i j)) i j).
  { intros M i j. unfold mmul. rewrite <- fsum_mul_l. apply fsum_ext. intros r _. rewrite !(Ring_theory.Rmul_assoc (fring K)), (Ring_theory.Rmul_comm (fring K) lam). reflexivity. }
  assert (X : meq n 1 (mmul n (herm Lower A0) (mmul n Q y)) (mmul n Q (mmul n B y))).
  { intros i j Li Lj. transitivity (mmul n (mmul n Q (mmul n B (adj Q))) (mmul n Q y) i j).
    - apply mmul_ext; [|reflexivity]. intros r Lr. apply E; assumption.
    - rewrite mmul_assoc. apply mmul_ext; [reflexivity|]. intros r Lr. rewrite mmul_assoc. apply mmul_ext; [reflexivity|]. intros s Ls. rewrite <- mmul_assoc.
      transitivity (mmul n ident y s j); [|apply mmul_ident_l; exact Ls]. apply mmul_ext; [|reflexivity]. intros u Lu. apply U1; assumption. }
  split; intros H i j Li Lj.
  - rewrite X by assumption. rewrite L. apply mmul_ext; [reflexivity|]. intros r Lr. apply H; assumption.
  - assert (I : forall v : mat K, mmul n (adj Q) (mmul n Q v) i j = v i j).
    { intros v. rewrite <- mmul_assoc. transitivity (mmul n ident v i j); [|apply mmul_ident_l; exact Li]. apply mmul_ext; [|reflexivity]. intros u Lu. apply U1; assumption. }
    rewrite <- (I (mmul n B y)), <- (I (fun i j => fmul lam (y i j))). apply mmul_ext; [reflexivity|]. intros r Lr. rewrite <- X by assumption. rewrite H by assumption. apply L.
Qed.

(** ** A 7x7 complex Hermitian matrix, tiles of size 4, band of size 2, three threads that run in the opposite order. *)
Definition c_sqrt (x : cplx) : cplx := c_rt x.
Lemma c_sqrt_ok : forall x : F complex_field, fpos x -> c_sqrt (fmul x (fconj x)) = x.
Proof.
  intros [x y] [E P]. cbn [fst snd] in E, P. subst y. unfold c_sqrt, c_rt. cbn [fmul fconj complex_field]. unfold c_mul, c_conj. cbn [fst snd].
  replace (x * x - 0 * - 0)%R with (x * x)%R by ring. rewrite sqrt_square by lra. reflexivity.
Qed.
Definition complex_kernels : kernels complex_field := ref_kernels (K := complex_field) c_sqrt.
Lemma complex_kernels_ok : kernels_ok complex_kernels.
Proof. apply ref_kernels_ok. exact c_sqrt_ok. Qed.
Definition ex_r2b_cfg : @r2b_cfg complex_field := R2BCfg complex_kernels 3 1 3 (fun j _ => rev (zrange 0 (panel_nworkers (ptl 7 4 2 j) 3 1))).
Definition ex_r2b_A : mat complex_field := fun i j => (IZR (i * i + j * j), IZR (i - j)).
Definition ex_r2b_st : tstore (mat complex_field) := fun x p q =>
  if t_mat x =? 0 then ex_r2b_A (t_row x * 4 + p) (t_col x * 4 + q) else (0%R, 0%R).
Lemma ex_r2b_cfg_ok : cfg_ok 7 4 2 ex_r2b_cfg.
Proof. split; [exact complex_kernels_ok|]. split; [cbn; lia|]. intros j i _ _ _. cbn. symmetry. apply Permutation_rev. Qed.
Lemma ex_r2b_mat : forall a q, r2b_mat 4 ex_r2b_st a q = ex_r2b_A a q.
Proof.
  intros a q. unfold r2b_mat, ex_r2b_st. cbn [rA t_mat t_row t_col]. change (0 =? 0) with true. cbv beta iota.
  f_equal; rewrite Z.mul_comm; symmetry; apply Z.div_mod; discriminate.
Qed.
Lemma ex_r2b_real : real_diag 7 (r2b_mat 4 ex_r2b_st).
Proof.
  intros a La. unfold real. rewrite ex_r2b_mat. unfold ex_r2b_A. rewrite Z.sub_diag. cbn [fconj complex_field]. unfold c_conj. cbn [fst snd]. f_equal. cbn. lra.
Qed.
Example C44_hypotheses_hold : exists s0 s,
  AsyncModel.reachable (msubmitted (r2b_jobs complex_roots 7 4 2 ex_r2b_cfg)) s0 s /\
  AsyncModel.final (msubmitted (r2b_jobs complex_roots 7 4 2 ex_r2b_cfg)) s /\
  is_band_reduction 7 2 ex_r2b_A (r2b_mat 4 (fun x => AsyncModel.st_store s (enc x))) (r2b_taus 2 (fun x => AsyncModel.st_store s (enc x))).
Proof.
  assert (ES := C44_reduction_to_band complex_field complex_roots 7 4 2 ex_r2b_cfg ltac:(lia) ltac:(lia) ltac:(lia) eq_refl ex_r2b_cfg_ok ex_r2b_st ex_r2b_real).
  destruct (every_schedule_m_run _ _ _ (r2b_jobs_ok (c_kn ex_r2b_cfg) complex_roots 7 4 2 3 1 3 (c_ord ex_r2b_cfg) ltac:(lia) ltac:(lia) eq_refl) ES) as (s0 & s & _ & R & FN & Q).
  exists s0, s. split; [exact R|]. split; [exact FN|]. destruct Q as (Q1 & Q2 & Q3 & Q4). split; [exact Q1|]. split; [exact Q2|]. split.
  - intros i j Li Lj. rewrite <- Q3 by assumption. unfold herm. rewrite !ex_r2b_mat. reflexivity.
  - intros i j Li Lj L. rewrite Q4 by assumption. apply ex_r2b_mat.
Qed.
(** two panels are reduced in this case: four reflectors *)
Example C44_not_trivial : r2b_nrefls 7 2 = 4 /\ r2b_ntiles 7 2 = 2 /\ length (r2b_jobs complex_roots 7 4 2 ex_r2b_cfg) = 35%nat.
Proof. split; [reflexivity|]. split; reflexivity. Qed.

(** ** Assumptions *)
Print Assumptions C44_panel_is_qr.
Print Assumptions C44_panel_threads.
Print Assumptions C44_tfactor.
Print Assumptions C44_reduction_to_band.
Print Assumptions C44_result_unique.
Print Assumptions C44_same_eigenpairs.
