(** * The local eigensolvers: eigensolver/eigensolver/impl.h:36-61, eigensolver/gen_eigensolver/impl.h:31-52.
    They call the other algorithms one after the other. The definitions give, for a call, the weakest precondition: "in every
    execution, every task of every algorithm called terminates, and in the end Q holds of the result". An algorithm starts from
    any memory that holds its input matrices: workspaces, other tiles and the other elements of the tiles are arbitrary.
    Simplification: an algorithm starts when the previous one has finished. In the code the tasks of two algorithms may overlap
    if they use different tiles; by C20 that gives the same values in the tiles. *)
From Coq Require Import ZArith Lia List Bool.
From Verif Require Import CInt Loop StarField DenseSpec Tiling DenseJobs HouseSpec HouseModel MultiJobs Red2BandModel Red2BandSpec Red2BandTheory
  SemModel B2TSpec B2TModel B2TResult BtRed2BandModel BtRed2BandProofs BtB2TModel BtB2TProofs BandSizeModel DistMat
  CholeskyModel GenToStdModel TriangularModel EigSpec.
Import ListNotations.
Local Open Scope Z_scope.

(** What the called algorithms are parametrised with. ts n d e lam E: tridiagonal_eigensolver on the tridiagonal matrix (d, e) may
    return eigenvalues lam and eigenvectors E. *)
Record eig_cfg (K : starfield) := EigCfg {
  g_rs : roots K; g_r2b : @r2b_cfg K;                     (** reduction_to_band *)
  g_lf : larfg_fn K; g_threads : Z;                       (** band_to_tridiagonal *)
  g_ts : Z -> (Z -> F K) -> (Z -> F K) -> (Z -> F K) -> mat K -> Prop;
  g_kn : kernels K; g_larft : @larft_fn K; g_group : Z;   (** bt_band_to_tridiagonal *)
  g_avail : Z;                                            (** bt_reduction_to_band *)
  g_bmin : Z }.                                           (** getTuneParameters().eigensolver_min_band *)
Arguments g_rs {_}. Arguments g_r2b {_}. Arguments g_lf {_}. Arguments g_threads {_}. Arguments g_ts {_}. Arguments g_kn {_}.
Arguments g_larft {_}. Arguments g_group {_}. Arguments g_avail {_}. Arguments g_bmin {_}.

(** the result of a call: eigenvalues and eigenvectors, or a failed assertion / DLAF_UNIMPLEMENTED *)
Definition eig_result (K : starfield) : Type := res ((Z -> F K) * mat K).

Section eig.
Context {K : starfield} (g : eig_cfg K) (cplx : bool).
(** eigensolver/impl.h:36-61. mat_a: n x n, tiles mb x mb, in the state st; k = eigenvalues_index_end (eigenvalues_index_begin is 0:
    eigensolver.h:50); reduction_to_band.h:48 and band_to_tridiag.h:82 assert that the band size is at least 2. *)
Definition every_eigensolver_call (u : uplo) (n mb k : Z) (st : tstore (mat K)) (Q : eig_result K -> Prop) : Prop :=
  match get_band_size (g_bmin g) mb with
  | Ok b =>
      match u with
      | Upper => Q Abort
      | Lower =>
          if b <? 2 then Q Abort else
          (* mat_taus = reduction_to_band(mat_a, band_size) *)
          every_schedule_m (r2b_jobs (g_rs g) n mb b (g_r2b g)) st (fun st1 =>
          (* ret = band_to_tridiagonal(uplo, band_size, mat_a) *)
          forall m0, every_execution thread_eq (b2t (g_lf g) cplx n mb b (g_threads g) (r2b_mat mb st1)) m0 (fun m1 =>
          (* tridiagonal_eigensolver(ret.tridiagonal, evals, mat_e) *)
          forall evals e1, g_ts g n (fun i => m1 (LTd i)) (fun i => m1 (LTe i)) evals e1 ->
          (* mat_e_ref: the first k columns; bt_band_to_tridiagonal(band_size, mat_e_ref, ret.hh_reflectors) *)
          forall st2 : tstore (mat K), meq n n (bt_hh b st2) (fun i j => m1 (LHH i j)) -> meq n k (bt_e b (dtil k mb) st2) e1 ->
          every_schedule_m (bt_band_to_tridiag (g_kn g) (g_larft g) cplx n b (g_group g) (dtil k mb)) st2 (fun st3 =>
          (* bt_reduction_to_band(band_size, mat_e_ref, mat_a, mat_taus) *)
          forall st4 : tstore (mat K), meq n n (r2b_mat mb st4) (r2b_mat mb st1) -> (forall r, 0 <= r < n - b - 1 -> bt_taus mb st4 r = r2b_taus b st1 r) ->
            meq n k (bt_c mb (dtil k mb) st4) (bt_e b (dtil k mb) st3) ->
          every_schedule_m (bt_reduction_to_band (g_kn g) n mb b (dtil k mb) (g_avail g)) st4 (fun st5 =>
          Q (Ok (evals, fun i c => if c <? k then bt_c mb (dtil k mb) st5 i c else e1 i c))))))
      end
  | Abort => Q Abort
  | UB => Q UB
  end.

(** gen_eigensolver/impl.h:31-52. mat_a is matrix 0 of st, mat_b matrix 1; factorize: factorization == do_factorization. *)
Definition every_gen_eigensolver_call (u : uplo) (factorize : bool) (n mb k : Z) (st : tstore (mat K)) (Q : eig_result K -> Prop) : Prop :=
  let t := dtil n mb in
  let view m (s : tstore (mat K)) := gather t t (fun i j => s (Tid 0 m i j)) in
  let rest (b : mat K) :=
    (* generalized_to_standard(uplo, mat_a, mat_b) *)
    forall st2 : tstore (mat K), meq n n (view 0 st2) (view 0 st) -> meq n n (view 1 st2) b ->
    every_schedule (gen_to_std (g_kn g) t u) st2 (fun st3 =>
    (* hermitian_eigensolver(uplo, mat_a, eigenvalues, eigenvectors, 0, k) *)
    forall st4 : tstore (mat K), meq n n (r2b_mat mb st4) (view 0 st3) ->
    every_eigensolver_call u n mb k st4 (fun r =>
    match r with
    | Ok (evals, e) =>
        (* triangular_solver(Left, uplo, ConjTrans, NonUnit, 1, mat_b, eigenvectors_ref) *)
        forall st5 : tstore (mat K), meq n n (gather t t (fun i j => st5 (Tid 0 0 i j))) (view 1 st3) -> meq n k (gather t (dtil k mb) (fun i j => st5 (Tid 0 1 i j))) e ->
        every_schedule (triangular_solver (g_kn g) t (dtil k mb) f1 Left u ConjTrans NonUnit) st5 (fun st6 =>
        Q (Ok (evals, fun i c => if c <? k then gather t (dtil k mb) (fun i j => st6 (Tid 0 1 i j)) i c else e i c)))
    | Abort => Q Abort
    | UB => Q UB
    end)) in
  if factorize then
    (* cholesky_factorization(uplo, mat_b) *)
    forall st0 : tstore (mat K), meq n n (view 0 st0) (view 1 st) ->
    every_schedule (cholesky_factorization (g_kn g) t u) st0 (fun st1 => rest (view 0 st1))
  else rest (view 1 st).
End eig.
