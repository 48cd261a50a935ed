(** * C28: the distributed Cholesky factorization. *)
From Coq Require Import ZArith Lia List Bool QArith Qcanon.
From Verif Require Import CInt Loop StarField DenseSpec Tiling DenseJobs TileJobs CholeskyModel CholeskyProofs RefKernels Properties_Cholesky DistModel DistSpec DistBuilt DistThms DistCtor DistMachine DistGrid PanelModel PanelProofs Properties_Panel DistMat DistCholeskyModel DistCholeskyProofs.
Import ListNotations.
Local Open Scope Z_scope.

(** C28 (distributed). mat_a is an N x N matrix with blocks (and tiles) of NB x NB elements, distributed over a P x Q
    grid from any source rank; D are the Distribution objects of the ranks. All the ranks call
    cholesky_factorization(grid, uplo, mat_a). If the matrix has a Cholesky factor, then whatever the schedulers and MPI do:
    the ranks' collective calls match, no rank waits for ever, and at the end the distributed matrix holds the factor in
    the triangle uplo, and is unchanged outside it. *)
Theorem C28_cholesky_distributed : forall (K : starfield) (kn : kernels K), kernels_ok kn ->
  forall P Q N NB src D, distributed P Q (N, N) (NB, NB) (NB, NB) src (0, 0) D ->
  forall (u : uplo) (st0 : tstore (mat K)), (exists T, is_factor u N (dmat P Q (NB, NB) src 0 st0) T) ->
  every_run (members P Q) (ranks P Q) (dist_cholesky kn P Q D u) st0
    (fun st => is_potrf u N (dmat P Q (NB, NB) src 0 st0) (dmat P Q (NB, NB) src 0 st)).
Proof.
  intros K kn KO P Q N NB src D DD u st0 [T FAC]. set (t := dtil N NB).
  pose proof (distributed_axes _ _ _ _ _ _ _ _ DD) as GA. destruct (da_arg _ _ _ _ _ _ DD Row) as (HN & HB & _). cbn [sel fst] in HN, HB.
  assert (OK : tiling_ok t) by (apply dt_ok; assumption). assert (SZ : tl_size t = N) by (apply dt_size; assumption).
  set (lst := fun x : tid => st0 (Tid (drank P Q src (t_row x) (t_col x)) (t_mat x) (t_row x) (t_col x))).
  assert (GD : forall s (ls : tstore (mat K)) x y, (forall i j, 0 <= i < tl_n t -> 0 <= j < tl_n t -> s (Tid (drank P Q src i j) 0 i j) = ls (Tid 0 0 i j)) ->
    0 <= x < N -> 0 <= y < N -> dmat P Q (NB, NB) src 0 s x y = gather t t (fun i j => ls (Tid 0 0 i j)) x y).
  { intros s ls x y E Lx Ly. unfold t. rewrite gather_div by assumption. unfold dmat. cbn [fst snd]. rewrite E; [reflexivity| |]; apply dt_elem; assumption. }
  assert (FAC' : is_factor u (tl_size t) (gather t t (fun i j => lst (A_ i j))) T).
  { rewrite SZ. eapply factor_ext; [exact FAC| |intros i j _ _ _; reflexivity]. intros i j Li Lj _. apply GD; try assumption. reflexivity. }
  assert (TD : forall i j, tD u (ow Q (arg_layout (N, N) (NB, NB) (NB, NB) (P, Q) src (0, 0)) u i j) i j = match u with Lower => Tid (drank P Q src i j) 0 i j | Upper => Tid (drank P Q src j i) 0 j i end).
  { intros i j. unfold tD, ow, M_. rewrite <- !(da_rank P Q (N, N) (NB, NB) src D DD). destruct u; reflexivity. }
  apply (dist_cholesky_sim kn P Q _ D _ GA t) with (lst := lst).
  - intros rc. rewrite (da_nt _ _ _ _ _ _ DD). destruct rc; reflexivity.
  - intros r rc k R Lk. unfold szd. rewrite (da_sz _ _ _ _ _ _ DD) by exact R. destruct rc; reflexivity.
  - intros i j Li Lj. rewrite TD. unfold tL, A_, lst. destruct u; reflexivity.
  - intros st R. set (fin := trun (cholesky_factorization kn t u) lst) in *.
    assert (R' : forall i j, 0 <= i < tl_n t -> 0 <= j < tl_n t -> st (Tid (drank P Q src i j) 0 i j) = fin (Tid 0 0 i j)).
    { intros i j Li Lj. destruct u; [specialize (R i j Li Lj)|specialize (R j i Lj Li)]; rewrite TD in R; exact R. }
    pose proof (final_potrf t OK u lst T FAC' _ (cholesky_run kn KO t OK u lst T FAC')) as [F1 F2]. fold fin in F1, F2. rewrite SZ in F1, F2. split.
    + eapply factor_ext; [exact F1| |].
      * intros i j Li Lj _. symmetry. apply GD; try assumption. reflexivity.
      * intros i j Li Lj _. symmetry. apply GD; assumption.
    + intros i j Li Lj O. rewrite (GD st fin) by assumption. rewrite (GD st0 lst) by (try assumption; reflexivity). apply F2; assumption.
Qed.

(** A 3 x 3 complex matrix in tiles of 2 x 2 (4 tiles) over a 2 x 3 grid, first tile on rank (1, 2): a complete run ends with its factor. *)
Definition exd_st (u : uplo) : tstore (mat gauss_field) := fun x i j => ex_A u (2 * t_row x + i) (2 * t_col x + j).
Example C28_distributed_runs : exists D, distributed 2 3 (3, 3) (2, 2) (2, 2) (1, 2) (0, 0) D /\
  forall u, exists s, dreach (members 2 3) (ranks 2 3) (dist_cholesky gauss_kernels 2 3 D u) (exd_st u) s /\ dfinal (ranks 2 3) (dist_cholesky gauss_kernels 2 3 D u) s /\
  is_potrf u 3 (ex_A u) (dmat 2 3 (2, 2) (1, 2) 0 (d_store s)).
Proof.
  destruct (distributed_exists 2 3 (3, 3) (2, 2) (2, 2) (1, 2) (0, 0)) as [D DD].
  - intros pr pc L1 L2 rc. unfold i32_max, i64_max. destruct rc; cbn; repeat split; try lia; exists 1; reflexivity.
  - unfold i32_max. lia.
  - unfold i32_max. lia.
  - intros rc. unfold i32_max, i64_max. destruct rc; cbn; lia.
  - exists D. split; [exact DD|]. intros u.
    assert (EA : forall a b, dmat 2 3 (2, 2) (1, 2) 0 (exd_st u) a b = ex_A u a b).
    { intros a b. unfold dmat, exd_st. cbn [t_row t_col fst snd]. f_equal; symmetry; apply Z.div_mod; lia. }
    assert (FX : is_factor u 3 (ex_A u) ex_T).
    { destruct (ex_factor u) as [X Y]. split; [exact X|]. unfold ex_A. destruct u; intros i j _ _ _; reflexivity. }
    assert (EXT : forall B : mat gauss_field, is_potrf u 3 (dmat 2 3 (2, 2) (1, 2) 0 (exd_st u)) B -> is_potrf u 3 (ex_A u) B).
    { intros B [P1 P2]. split.
      - eapply factor_ext; [exact P1| |intros i j _ _ _; reflexivity]. intros i j _ _ _. apply EA.
      - intros i j Li Lj O. rewrite <- EA. apply P2; assumption. }
    destruct (every_run_final _ _ _ _ _ (C28_cholesky_distributed gauss_field gauss_kernels gauss_kernels_ok 2 3 3 2 (1, 2) D DD u (exd_st u)
      ltac:(exists ex_T; eapply factor_ext; [exact FX| |intros i j _ _ _; reflexivity]; intros i j _ _ _; symmetry; apply EA))) as (s & R & F & Q).
    exists s. split; [exact R|]. split; [exact F|]. apply EXT. exact Q.
Qed.

(** ** Assumptions *)
Print Assumptions C28_cholesky_distributed.
