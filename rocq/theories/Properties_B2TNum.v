(** * C46: band_to_tridiagonal (local) returns a unitary reduction of the band to tridiagonal form *)
From Coq Require Import ZArith Lia List Bool Ring Reals.
From Verif Require Import Loop StarField DenseSpec RefKernels HouseSpec HouseQR HouseModel SemModel SemProofs Red2BandSpec Red2BandTheory
  B2TModel B2TSched B2TFrame B2TSpec B2TResult B2TFinal Properties_B2T CplxField.
Import ListNotations.
Local Open Scope Z_scope.

(** For all matrix sizes, block sizes nb, band sizes b that divide nb, numbers of threads, initial contents of the memory and Hermitian matrices:
    every execution of the tasks ends, and then the reflectors in mat_v and the numbers in mat_trid are a reduction of the band of the input:
    Q = HHT(0, 0) HHT(0, 1) ... HHT(1, 0) ... is unitary, d and e are real, and band(A) = Q T Q^H, T the tridiagonal matrix of d and e.
    The two columns of mat_trid are [LTd] and [LTe], mat_v is [LHH]. *)
Theorem C46_tridiagonal_reduction : forall (K : starfield) (lf : larfg_fn K) (cplx : bool) (size nb b nthreads : Z) (A : mat K),
  0 <= size -> 2 <= b -> 0 < nb -> nb mod b = 0 -> 0 < nthreads -> larfg_ok lf -> real_diag size A -> (cplx = false -> forall x : F K, fconj x = x) ->
  forall m0, every_execution thread_eq (b2t lf cplx size nb b nthreads A) m0
    (fun m => is_tridiagonal_reduction cplx size b A (fun i j => m (LHH i j)) (fun i => m (LTd i)) (fun i => m (LTe i))).
Proof.
  intros K lf cplx size nb b nthreads A Hs Hb Hnb Hd Ht LF RA RK m0. destruct (Z.eq_dec size 0) as [->|N].
  - destruct (C40_sweeps_schedule K lf cplx 0 nb b nthreads A Hs Hb Hnb Hd Ht (proj1 LF) m0) as [H1 H2]. split; [exact H1|]. intros st R FN.
    split; [split; intros i j Li; lia|]. split; [intros; lia|]. split; [intros; lia|]. intros i j Li. lia.
  - destruct (C40_sweeps_schedule K lf cplx size nb b nthreads A Hs Hb Hnb Hd Ht (proj1 LF) m0) as [H1 H2]. split; [exact H1|]. intros st R FN.
    specialize (H2 st R FN). pose proof (seq_result lf cplx size nb b nthreads A Hs Hb Hnb Hd Ht LF RA RK m0 ltac:(lia)) as T. cbv zeta in T.
    apply (reduction_ext _ _ _ _ _ _ _ _ _ _ (fun i j => eq_sym (H2 (LHH i j))) (fun i => eq_sym (H2 (LTd i))) (fun i => eq_sym (H2 (LTe i))) T).
Qed.

(** What the rest of the eigensolver uses: the eigenvectors of the band are Q times those of T, with the same eigenvalues. *)
Theorem C46_eigenpairs : forall (K : starfield) cplx size b (A V : mat K) d e, is_tridiagonal_reduction cplx size b A V d e ->
  let Q := hht_product size b V (hht_list cplx size b) in
  forall lam y, is_eigenpair size (tridiag d e) lam y <-> is_eigenpair size (band b (herm Lower A)) lam (mvec size Q y).
Proof. intros K cplx size b A V d e (U & _ & _ & E) Q lam y. apply eigen_conj; assumption. Qed.

(** ** Concrete cases: a complex matrix of size 11, blocks of size 4, band size 2, two threads; a real matrix of size 13 (the last column has a
    block of its own), blocks of size 6, band size 3 *)
Definition ex_cplx : mat complex_field := fun i j => if i =? j then (IZR (i + 1), 0%R) else (1%R, IZR (i - j)).
Example C46_hypotheses_hold : forall m0, exists st, sreach thread_eq (ex_b2t ex_cplx) m0 st /\ sfinal (ex_b2t ex_cplx) st /\
  is_tridiagonal_reduction true 11 2 ex_cplx (fun i j => memo st (LHH i j)) (fun i => memo st (LTd i)) (fun i => memo st (LTe i)).
Proof.
  intros m0. apply (execution_exists thread_eq (ex_b2t ex_cplx) m0 (fun m => is_tridiagonal_reduction true 11 2 ex_cplx (fun i j => m (LHH i j)) (fun i => m (LTd i)) (fun i => m (LTe i)))).
  apply C46_tridiagonal_reduction; try reflexivity; try discriminate.
  - apply ref_larfg_ok.
  - intros i Li. unfold real, ex_cplx. rewrite Z.eqb_refl. cbn. apply f_equal2; [reflexivity|apply Ropp_0].
Qed.
Definition ex_real : mat real_field := fun i j => IZR (i + j * j).
Example C46_hypotheses_hold_real : forall m0, let P := b2t (ref_larfg real_roots) false 13 6 3 4 ex_real in exists st, sreach thread_eq P m0 st /\ sfinal P st /\
  is_tridiagonal_reduction false 13 3 ex_real (fun i j => memo st (LHH i j)) (fun i => memo st (LTd i)) (fun i => memo st (LTe i)).
Proof.
  intros m0 P. apply (execution_exists thread_eq P m0 (fun m => is_tridiagonal_reduction false 13 3 ex_real (fun i j => m (LHH i j)) (fun i => m (LTd i)) (fun i => m (LTe i)))).
  apply C46_tridiagonal_reduction; try reflexivity; try discriminate.
  - apply ref_larfg_ok.
  - intros i Li. reflexivity.
Qed.
Example C46_not_trivial : length (hht_list true 11 2) = 26%nat /\ length (hht_list false 13 3) = 26%nat /\ ex_cplx 1 0 <> f0 /\ ex_real 7 4 <> f0.
Proof. split; [vm_compute; reflexivity|]. split; [vm_compute; reflexivity|]. split; cbn; [intros E; apply (f_equal fst) in E; cbn in E; apply R1_neq_R0; exact E|]. apply not_0_IZR. lia. Qed.

(** ** Assumptions *)
Print Assumptions C46_tridiagonal_reduction.
Print Assumptions C46_eigenpairs.
