(** * C32: the distributed reduction of a generalized eigenproblem to standard form. *)
From Coq Require Import ZArith Lia List Bool QArith Qcanon.
From Verif Require Import CInt Loop StarField DenseSpec Tiling DenseJobs TileJobs CholeskyModel CholeskyProofs RefKernels GenToStdModel GenToStdProofs Properties_Cholesky Properties_Inverse Properties_GenToStd DistModel DistSpec DistBuilt DistThms DistCtor DistMachine DistGrid PanelModel PanelProofs Properties_Panel DistMat DistProg DistPhase DistLift DistCholeskyModel DistInverseModel DistGenToStdModel DistGenToStdPhase Properties_DistInverse.
Import ListNotations.
Local Open Scope Z_scope.

Section ext.
Context {K : starfield}.
Lemma hegst_meq : forall u n (A A1 T T1 C C1 : mat K), meq n n A A1 -> meq n n T T1 -> meq n n C C1 -> is_hegst u n A T C -> is_hegst u n A1 T1 C1.
Proof.
  intros u n A A1 T T1 C C1 EA ET EC (H1 & H2 & H3).
  pose proof (trim_meq u NonUnit n _ _ ET) as FT.
  assert (FC : meq n n (opm ConjTrans (trim u NonUnit T)) (opm ConjTrans (trim u NonUnit T1))) by (intros i j Li Lj; unfold opm; f_equal; apply FT; assumption).
  assert (HM : forall X Y : mat K, meq n n X Y -> meq n n (herm u X) (herm u Y)) by (intros X Y E i j Li Lj; unfold herm; rewrite (E i j), (E j i) by assumption; reflexivity).
  split; [|split].
  - eapply meq_trans; [|eapply meq_trans; [exact H1|apply HM; exact EA]]. destruct u; (apply mmul_meq; [apply mmul_meq|]); try (apply meq_sym; assumption); apply meq_sym; apply HM; exact EC.
  - intros i Li. unfold real. rewrite <- (EC i i Li Li). apply H2. exact Li.
  - intros i j Li Lj O. rewrite <- (EC i j Li Lj), <- (EA i j Li Lj). apply H3; assumption.
Qed.
End ext.

(** C32 (distributed). mat_a and mat_b are N x N matrices with tiles of NB x NB elements, distributed over a P x Q grid from
    the same source rank; D are the Distribution objects of the ranks. All the ranks call generalized_to_standard(grid, uplo,
    mat_a, mat_b). If A is Hermitian (real diagonal) and the triangular factor T in mat_b is not singular, then whatever the
    schedulers and MPI do: the ranks' collective calls match, no rank waits for ever, and at the end the u triangle of mat_a
    holds the Hermitian matrix C with T C T^H = A (lower) or T^H C T = A (upper); the other triangle of mat_a, and mat_b, are unchanged. *)
Theorem C32_gen_to_std_distributed : forall (K : starfield) (kn : kernels K), kernels_ok kn ->
  forall P Q N NB src D, distributed P Q (N, N) (NB, NB) (NB, NB) src (0, 0) D ->
  forall (u : uplo) (st0 : tstore (mat K)), real_diag N (dmat P Q (NB, NB) src 0 st0) -> nonsingular NonUnit N (dmat P Q (NB, NB) src 1 st0) ->
  every_run (members P Q) (ranks P Q) (dist_gen_to_std kn P Q D u) st0
    (fun st => is_hegst u N (dmat P Q (NB, NB) src 0 st0) (dmat P Q (NB, NB) src 1 st0) (dmat P Q (NB, NB) src 0 st) /\
               meq N N (dmat P Q (NB, NB) src 1 st) (dmat P Q (NB, NB) src 1 st0)).
Proof.
  intros K kn KO P Q N NB src D DD u st0 RD NS. pose proof (distributed_axes _ _ _ _ _ _ _ _ DD) as GA.
  pose proof (sq_ok P Q N NB src D DD) as OK. pose proof (sq_size P Q N NB src D DD) as SZ. set (t := dtil N NB) in *. set (lst := lift_st P Q src st0).
  assert (E0 : meq N N (mat_a t lst) (dmat P Q (NB, NB) src 0 st0)) by (intros i j Li Lj; apply (sq_gather P Q N NB src D DD); assumption).
  assert (E1 : meq N N (mat_b t lst) (dmat P Q (NB, NB) src 1 st0)) by (intros i j Li Lj; apply (sq_gather P Q N NB src D DD); assumption).
  assert (NS' : nonsingular NonUnit (tl_size t) (mat_b t lst)) by (rewrite SZ; eapply nonsing_meq; [apply meq_sym; exact E1|exact NS]).
  assert (RD' : real_diag (tl_size t) (mat_a t lst)) by (rewrite SZ; intros i Li; rewrite (E0 i i Li Li); apply RD; exact Li).
  apply (sq_lift P Q N NB src D DD 2 _ (gen_to_std kn t u)).
  - apply (ph_gen_to_std kn P Q _ D _ GA t); [apply (sq_nt P Q N NB src D DD)|apply (sq_sz P Q N NB src D DD)].
  - intros st E. fold lst in E. pose proof (final_hegst kn t OK u lst RD' _ (g2s_run kn KO t OK u lst NS' RD')) as T. rewrite SZ in T. split.
    + eapply hegst_meq; [exact E0|exact E1| |exact T]. intros i j Li Lj. symmetry. apply E; try assumption; lia.
    + intros i j Li Lj. rewrite <- (E1 i j Li Lj). rewrite E by (try assumption; lia). unfold mat_b, gather.
      rewrite trun_frame; [reflexivity|]. intros jb I0 X. pose proof (g2s_jobs kn t u) as FA. rewrite Forall_forall in FA. destruct (FA jb I0) as (_ & (a & b & O & _) & _). rewrite O in X. discriminate.
Qed.
(** In the terms of the user: the generalized eigenproblem (A, B) and the standard one of the result have the same eigenvalues, and the
    eigenvectors correspond by y = T^H x (lower), y = T x (upper), when mat_b holds the Cholesky factor T of B. *)
Theorem C32_same_eigenproblem_distributed : forall (K : starfield) (kn : kernels K), kernels_ok kn ->
  forall P Q N NB src D, distributed P Q (N, N) (NB, NB) (NB, NB) src (0, 0) D ->
  forall (u : uplo) (A B T : mat K) (st0 : tstore (mat K)), meq N N (dmat P Q (NB, NB) src 0 st0) A -> meq N N (dmat P Q (NB, NB) src 1 st0) T ->
  real_diag N A -> real_diag N B -> is_factor u N B T ->
  every_run (members P Q) (ranks P Q) (dist_gen_to_std kn P Q D u) st0
    (fun st => forall lam x, eigen_gen N (herm u A) (herm u B) lam x <-> eigen_std N (herm u (dmat P Q (NB, NB) src 0 st)) lam (back u N T x)).
Proof.
  intros K kn KO P Q N NB src D DD u A B T st0 EA ET RA RB [FP FE].
  assert (NS : nonsingular NonUnit N T) by (intros i L; apply fpos_neq; apply FP; exact L).
  assert (RA' : real_diag N (dmat P Q (NB, NB) src 0 st0)) by (intros i L; rewrite (EA i i L L); apply RA; exact L).
  assert (NS' : nonsingular NonUnit N (dmat P Q (NB, NB) src 1 st0)) by (eapply nonsing_meq; [apply meq_sym; exact ET|exact NS]).
  assert (HB : meq N N (herm u B) (factored u N T)).
  { apply herm_tri; [|intros i j Li Lj; unfold factored; destruct u; [apply ct_gram'|apply ct_gram]]. intros i j Li Lj O. symmetry. unfold factored. destruct u; apply FE; assumption. }
  intros s RS. destruct (C32_gen_to_std_distributed K kn KO P Q N NB src D DD u st0 RA' NS' s RS) as (A1 & A2). split; [|exact A2].
  intros F. destruct (A1 F) as (HG & _). assert (HG' : is_hegst u N A T (dmat P Q (NB, NB) src 0 (d_store s))) by (eapply hegst_meq; [exact EA|exact ET|apply meq_refl|exact HG]).
  intros lam x. rewrite <- (C32_same_eigenproblem K u N A T _ NS HG' lam x).
  assert (EB : meq N 1 (mmul N (herm u B) x) (mmul N (factored u N T) x)) by (apply mmul_meq; [exact HB|intros a b _ _; reflexivity]).
  unfold eigen_gen. split; intros E i j Li Lj; rewrite (E i j Li Lj); rewrite (EB i j Li Lj); reflexivity.
Qed.

(** A 3 x 3 complex problem in tiles of 2 x 2 over a 2 x 3 grid, first tile on rank (1, 2): complete runs end with the reduced matrix. *)
Definition exdg_st (u : uplo) : tstore (mat gauss_field) := fun x i j => (if t_mat x =? 0 then ex_A u else ex_T) (2 * t_row x + i) (2 * t_col x + j).
Example C32_distributed_runs : exists D, distributed 2 3 (3, 3) (2, 2) (2, 2) (1, 2) (0, 0) D /\
  forall u, exists s, dreach (members 2 3) (ranks 2 3) (dist_gen_to_std gauss_kernels 2 3 D u) (exdg_st u) s /\ dfinal (ranks 2 3) (dist_gen_to_std gauss_kernels 2 3 D u) s /\
  is_hegst u 3 (ex_A u) ex_T (dmat 2 3 (2, 2) (1, 2) 0 (d_store s)).
Proof.
  destruct (distributed_exists 2 3 (3, 3) (2, 2) (2, 2) (1, 2) (0, 0)) as [D DD].
  - intros pr pc L1 L2 rc. unfold i32_max, i64_max. destruct rc; cbn; repeat split; try lia; exists 1; reflexivity.
  - unfold i32_max. lia.
  - unfold i32_max. lia.
  - intros rc. unfold i32_max, i64_max. destruct rc; cbn; lia.
  - exists D. split; [exact DD|]. intros u.
    assert (EA : forall a b, dmat 2 3 (2, 2) (1, 2) 0 (exdg_st u) a b = ex_A u a b).
    { intros a b. unfold dmat, exdg_st. cbn [t_row t_col t_mat fst snd]. change (0 =? 0) with true. cbv beta iota. f_equal; symmetry; apply Z.div_mod; lia. }
    assert (ET : forall a b, dmat 2 3 (2, 2) (1, 2) 1 (exdg_st u) a b = ex_T a b).
    { intros a b. unfold dmat, exdg_st. cbn [t_row t_col t_mat fst snd]. change (1 =? 0) with false. cbv beta iota. f_equal; symmetry; apply Z.div_mod; lia. }
    assert (NS : nonsingular NonUnit 3 (dmat 2 3 (2, 2) (1, 2) 1 (exdg_st u))).
    { intros i L. rewrite ET. apply fpos_neq. rewrite <- (exT_at i i L L). apply exT_pos. exact L. }
    assert (RD : real_diag 3 (dmat 2 3 (2, 2) (1, 2) 0 (exdg_st u))).
    { intros i L. rewrite EA. unfold real, ex_A. destruct u; unfold mmul, opm; rewrite fsum_conj; apply fsum_ext; intros r _; rewrite fconj_mul, fconj_conj; apply (Ring_theory.Rmul_comm (fring gauss_field)). }
    destruct (every_run_final _ _ _ _ _ (C32_gen_to_std_distributed gauss_field gauss_kernels gauss_kernels_ok 2 3 3 2 (1, 2) D DD u (exdg_st u) RD NS)) as (s & R & F & X & _).
    exists s. split; [exact R|]. split; [exact F|]. eapply hegst_meq; [| |apply meq_refl|exact X]; intros i j _ _; [apply EA|apply ET].
Qed.

(** ** Assumptions *)
Print Assumptions C32_gen_to_std_distributed.
Print Assumptions C32_same_eigenproblem_distributed.
