(** * C31: the distributed triangular inverse and inverse from a Cholesky factor. *)
From Coq Require Import ZArith Lia List Bool QArith Qcanon.
From Verif Require Import CInt Loop StarField DenseSpec Tiling DenseJobs TileJobs CholeskyModel CholeskyProofs RefKernels Properties_Cholesky InverseModel InverseProofs AssembleProofs Properties_Inverse DistModel DistSpec DistBuilt DistThms DistCtor DistMachine DistGrid PanelModel PanelProofs Properties_Panel DistMat DistProg DistPhase DistLift DistCholeskyModel DistInverseModel DistInverseProofs.
Import ListNotations.
Local Open Scope Z_scope.

Section ext.
Context {K : starfield}.
Lemma trim_meq : forall u d n (A B : mat K), meq n n A B -> meq n n (trim u d A) (trim u d B).
Proof. intros u d n A B E i j Li Lj. unfold trim. rewrite (E i j Li Lj). reflexivity. Qed.
Lemma trtri_meq : forall u d n (A A' B B' : mat K), meq n n A A' -> meq n n B B' -> is_trtri u d n A B -> is_trtri u d n A' B'.
Proof.
  intros u d n A A' B B' EA EB (T1 & T2 & T3 & T4). pose proof (trim_meq u d n _ _ EA) as FA. pose proof (trim_meq u d n _ _ EB) as FB. split; [|split; [|split]].
  - eapply meq_trans; [|exact T1]. apply mmul_meq; apply meq_sym; assumption.
  - eapply meq_trans; [|exact T2]. apply mmul_meq; apply meq_sym; assumption.
  - intros i j Li Lj O. rewrite <- (EA i j Li Lj), <- (EB i j Li Lj). apply T3; assumption.
  - intros Du i Li. rewrite <- (EA i i Li Li), <- (EB i i Li Li). apply T4; assumption.
Qed.
Lemma lauum_meq : forall u n (A A' B B' : mat K), meq n n A A' -> meq n n B B' -> is_lauum u n A B -> is_lauum u n A' B'.
Proof.
  intros u n A A' B B' EA EB [T O]. pose proof (trim_meq u NonUnit n _ _ EA) as FA.
  assert (CT : meq n n (opm ConjTrans (trim u NonUnit A)) (opm ConjTrans (trim u NonUnit A'))) by (intros i j Li Lj; unfold opm; f_equal; apply FA; assumption). split.
  - intros i j Li Lj Q. rewrite <- (EB i j Li Lj), (T i j Li Lj Q). destruct u; (eapply mmul_meq; [| |exact Li|exact Lj]; assumption).
  - intros i j Li Lj Q. rewrite <- (EB i j Li Lj), <- (EA i j Li Lj). apply O; assumption.
Qed.
Lemma nonsing_meq : forall d n (A B : mat K), meq n n A B -> nonsingular d n A -> nonsingular d n B.
Proof. intros d n A B E NS. unfold nonsingular in *. destruct d; [|exact NS]. intros i Li. rewrite <- (E i i Li Li). apply NS. exact Li. Qed.
End ext.

(** C31 (distributed), triangular inverse. mat_a is an N x N matrix with tiles of NB x NB elements, distributed over a
    P x Q grid from any source rank; D are the Distribution objects of the ranks. All the ranks call
    triangular_inverse(grid, uplo, diag, mat_a). If the matrix is not singular, then whatever the schedulers and MPI do:
    the ranks' collective calls match, no rank waits for ever, and at the end the u triangle of the distributed matrix
    holds the inverse of the triangular matrix it held; the other triangle (and a Unit diagonal) is unchanged. *)
Theorem C31_triangular_inverse_distributed : forall (K : starfield) (kn : kernels K), kernels_ok kn ->
  forall P Q N NB src D, distributed P Q (N, N) (NB, NB) (NB, NB) src (0, 0) D ->
  forall (u : uplo) (d : diag) (st0 : tstore (mat K)), nonsingular d N (dmat P Q (NB, NB) src 0 st0) ->
  every_run (members P Q) (ranks P Q) (dist_triangular_inverse kn P Q D u d) st0
    (fun st => is_trtri u d N (dmat P Q (NB, NB) src 0 st0) (dmat P Q (NB, NB) src 0 st)).
Proof.
  intros K kn KO P Q N NB src D DD u d st0 NS. pose proof (distributed_axes _ _ _ _ _ _ _ _ DD) as GA.
  pose proof (sq_ok P Q N NB src D DD) as OK. pose proof (sq_size P Q N NB src D DD) as SZ. set (t := dtil N NB) in *.
  assert (E0 : meq N N (gather t t (fun i j => lift_st P Q src st0 (A_ i j))) (dmat P Q (NB, NB) src 0 st0)) by (intros i j Li Lj; apply (sq_gather P Q N NB src D DD); assumption).
  assert (NS' : nonsingular d (tl_size t) (gather t t (fun i j => lift_st P Q src st0 (A_ i j)))) by (rewrite SZ; eapply nonsing_meq; [apply meq_sym; exact E0|exact NS]).
  apply (sq_lift P Q N NB src D DD 1 _ (triangular_inverse kn t u d)).
  - apply (ph_inverse kn P Q _ D _ GA t); [apply (sq_nt P Q N NB src D DD)|apply (sq_sz P Q N NB src D DD)].
  - intros st E. pose proof (final_trtri t OK u d _ NS' _ (inverse_run kn KO t OK u d _ NS')) as T. rewrite SZ in T.
    eapply trtri_meq; [exact E0| |exact T]. intros i j Li Lj. symmetry. apply E; try assumption; lia.
Qed.

(** C31 (distributed), inverse from a Cholesky factor: if the u triangle holds a triangular matrix T with real non-zero
    diagonal, at the end the Hermitian matrix whose u triangle is in the distributed matrix is the inverse of T T^H (lower)
    or T^H T (upper); the other triangle is unchanged. *)
Theorem C31_inverse_from_cholesky_distributed : forall (K : starfield) (kn : kernels K), kernels_ok kn ->
  forall P Q N NB src D, distributed P Q (N, N) (NB, NB) (NB, NB) src (0, 0) D ->
  forall (u : uplo) (st0 : tstore (mat K)), nonsingular NonUnit N (dmat P Q (NB, NB) src 0 st0) -> real_diag N (dmat P Q (NB, NB) src 0 st0) ->
  every_run (members P Q) (ranks P Q) (dist_inverse_from_cholesky_factor kn P Q D u) st0
    (fun st => is_inverse N (factored u N (dmat P Q (NB, NB) src 0 st0)) (herm u (dmat P Q (NB, NB) src 0 st)) /\
               meq_out u N (dmat P Q (NB, NB) src 0 st) (dmat P Q (NB, NB) src 0 st0)).
Proof.
  intros K kn KO P Q N NB src D DD u st0 NS RD. pose proof (distributed_axes _ _ _ _ _ _ _ _ DD) as GA.
  pose proof (sq_ok P Q N NB src D DD) as OK. pose proof (sq_size P Q N NB src D DD) as SZ. set (t := dtil N NB) in *.
  set (lst := lift_st P Q src st0).
  assert (E0 : meq N N (gather t t (fun i j => lst (A_ i j))) (dmat P Q (NB, NB) src 0 st0)) by (intros i j Li Lj; apply (sq_gather P Q N NB src D DD); assumption).
  assert (NS' : nonsingular NonUnit (tl_size t) (gather t t (fun i j => lst (A_ i j)))) by (rewrite SZ; eapply nonsing_meq; [apply meq_sym; exact E0|exact NS]).
  assert (RD' : real_diag (tl_size t) (gather t t (fun i j => lst (A_ i j)))) by (rewrite SZ; intros i Li; rewrite (E0 i i Li Li); apply RD; exact Li).
  apply (sq_lift P Q N NB src D DD 1 _ (inverse_from_cholesky_factor kn t u)).
  - apply (ph_invchol kn P Q _ D _ GA t); [apply (sq_nt P Q N NB src D DD)|apply (sq_sz P Q N NB src D DD)].
  - intros st E. fold lst in E. pose proof (final_trtri t OK u NonUnit _ NS' _ (inverse_run kn KO t OK u NonUnit _ NS')) as T1.
    set (s1 := trun (triangular_inverse kn t u NonUnit) lst) in *.
    assert (RD1 : real_diag (tl_size t) (gather t t (fun i j => s1 (A_ i j)))) by exact (trtri_real u _ _ _ NS' RD' T1).
    pose proof (final_lauum t OK u s1 _ (assemble_run kn KO t OK u s1 RD1)) as T2.
    assert (ES : trun (assemble kn t u) s1 = trun (inverse_from_cholesky_factor kn t u) lst) by (unfold s1; rewrite invchol_split, trun_app; reflexivity).
    rewrite ES in T2. rewrite SZ in T1, T2.
    assert (T1' : is_trtri u NonUnit N (dmat P Q (NB, NB) src 0 st0) (gather t t (fun i j => s1 (A_ i j)))) by (eapply trtri_meq; [exact E0|apply meq_refl|exact T1]).
    assert (T2' : is_lauum u N (gather t t (fun i j => s1 (A_ i j))) (dmat P Q (NB, NB) src 0 st)).
    { eapply lauum_meq; [apply meq_refl| |exact T2]. intros i j Li Lj. symmetry. apply E; try assumption; lia. }
    split; [exact (assemble_inverse u _ _ _ _ T1' T2')|]. intros i j Li Lj O. destruct T1' as (_ & _ & T3 & _). destruct T2' as [_ T4]. rewrite (T4 i j Li Lj O). apply T3; assumption.
Qed.
(** In the terms of the user: from the distributed Cholesky factor of A the result is the inverse of A. *)
Theorem C31_inverse_of_factored_distributed : forall (K : starfield) (kn : kernels K), kernels_ok kn ->
  forall P Q N NB src D, distributed P Q (N, N) (NB, NB) (NB, NB) src (0, 0) D ->
  forall (u : uplo) (A : mat K) (st0 : tstore (mat K)), real_diag N A -> is_factor u N A (dmat P Q (NB, NB) src 0 st0) ->
  every_run (members P Q) (ranks P Q) (dist_inverse_from_cholesky_factor kn P Q D u) st0
    (fun st => is_inverse N (herm u A) (herm u (dmat P Q (NB, NB) src 0 st))).
Proof.
  intros K kn KO P Q N NB src D DD u A st0 RA [FP FE].
  assert (NS : nonsingular NonUnit N (dmat P Q (NB, NB) src 0 st0)) by (intros i L; apply fpos_neq; apply FP; exact L).
  assert (RD : real_diag N (dmat P Q (NB, NB) src 0 st0)) by (intros i L; apply fpos_real; apply FP; exact L).
  assert (H : meq N N (herm u A) (factored u N (dmat P Q (NB, NB) src 0 st0))).
  { apply herm_tri; [|intros i j Li Lj; unfold factored; destruct u; [apply ct_gram'|apply ct_gram]]. intros i j Li Lj O. symmetry. unfold factored. destruct u; apply FE; assumption. }
  intros s RS. destruct (C31_inverse_from_cholesky_distributed K kn KO P Q N NB src D DD u st0 NS RD s RS) as (A1 & A2). split; [|exact A2].
  intros F. destruct (A1 F) as ((I1 & I2) & _). split; [eapply meq_trans; [|exact I1]|eapply meq_trans; [|exact I2]]; apply mmul_meq; try apply meq_refl; exact H.
Qed.

(** A 3 x 3 complex triangular matrix in tiles of 2 x 2 over a 2 x 3 grid, first tile on rank (1, 2): complete runs end with the inverses. *)
Definition exdi_st : tstore (mat gauss_field) := fun x i j => ex_T (2 * t_row x + i) (2 * t_col x + j).
Example C31_distributed_runs : exists D, distributed 2 3 (3, 3) (2, 2) (2, 2) (1, 2) (0, 0) D /\
  forall u, exists s s', dreach (members 2 3) (ranks 2 3) (dist_triangular_inverse gauss_kernels 2 3 D u NonUnit) exdi_st s /\ dfinal (ranks 2 3) (dist_triangular_inverse gauss_kernels 2 3 D u NonUnit) s /\
  is_trtri u NonUnit 3 ex_T (dmat 2 3 (2, 2) (1, 2) 0 (d_store s)) /\
  dreach (members 2 3) (ranks 2 3) (dist_inverse_from_cholesky_factor gauss_kernels 2 3 D u) exdi_st s' /\ dfinal (ranks 2 3) (dist_inverse_from_cholesky_factor gauss_kernels 2 3 D u) s' /\
  is_inverse 3 (herm u (factored u 3 ex_T)) (herm u (dmat 2 3 (2, 2) (1, 2) 0 (d_store s'))).
Proof.
  destruct (distributed_exists 2 3 (3, 3) (2, 2) (2, 2) (1, 2) (0, 0)) as [D DD].
  - intros pr pc L1 L2 rc. unfold i32_max, i64_max. destruct rc; cbn; repeat split; try lia; exists 1; reflexivity.
  - unfold i32_max. lia.
  - unfold i32_max. lia.
  - intros rc. unfold i32_max, i64_max. destruct rc; cbn; lia.
  - exists D. split; [exact DD|]. intros u.
    assert (EA : forall a b, dmat 2 3 (2, 2) (1, 2) 0 exdi_st a b = ex_T a b).
    { intros a b. unfold dmat, exdi_st. cbn [t_row t_col fst snd]. f_equal; symmetry; apply Z.div_mod; lia. }
    assert (POS : forall i, 0 <= i < 3 -> fpos (ex_T i i)).
    { intros i L. rewrite <- (exT_at i i L L). apply exT_pos. exact L. }
    assert (NS : nonsingular NonUnit 3 (dmat 2 3 (2, 2) (1, 2) 0 exdi_st)) by (intros i L; rewrite EA; apply fpos_neq; apply POS; exact L).
    assert (RD : real_diag 3 (dmat 2 3 (2, 2) (1, 2) 0 exdi_st)) by (intros i L; rewrite EA; apply fpos_real; apply POS; exact L).
    destruct (every_run_final _ _ _ _ _ (C31_triangular_inverse_distributed gauss_field gauss_kernels gauss_kernels_ok 2 3 3 2 (1, 2) D DD u NonUnit exdi_st NS)) as (s & R & F & X).
    assert (RA : real_diag 3 (factored u 3 ex_T)).
    { intros i L. unfold real. unfold factored. destruct u.
      - pose proof (ct_gram' 3 (trim Lower NonUnit ex_T) i i) as G. unfold opm in G at 1. exact G.
      - pose proof (ct_gram 3 (trim Upper NonUnit ex_T) i i) as G. unfold opm in G at 1. exact G. }
    assert (FA : is_factor u 3 (factored u 3 ex_T) (dmat 2 3 (2, 2) (1, 2) 0 exdi_st)).
    { split; [intros i L; rewrite EA; apply POS; exact L|]. unfold factored. destruct u; intros i j Li Lj _; unfold mmul; apply fsum_ext; intros r _; unfold opm, trim; rewrite !EA; reflexivity. }
    destruct (every_run_final _ _ _ _ _ (C31_inverse_of_factored_distributed gauss_field gauss_kernels gauss_kernels_ok 2 3 3 2 (1, 2) D DD u (factored u 3 ex_T) exdi_st RA FA)) as (s' & R' & F' & X').
    exists s, s'. split; [exact R|]. split; [exact F|]. split; [|split; [exact R'|split; [exact F'|exact X']]].
      eapply trtri_meq; [|apply meq_refl|exact X]. intros i j _ _. apply EA.
Qed.

(** ** Assumptions *)
Print Assumptions C31_triangular_inverse_distributed.
Print Assumptions C31_inverse_from_cholesky_distributed.
Print Assumptions C31_inverse_of_factored_distributed.
