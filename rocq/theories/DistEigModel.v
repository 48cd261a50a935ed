(** * The distributed eigensolvers: eigensolver/eigensolver/impl.h:60-104, eigensolver/gen_eigensolver/impl.h:53-102.
    They call the other distributed algorithms one after the other. As in EigModel.v the definitions give the weakest precondition of a
    call: "in every run of every algorithm called, on all the ranks, the collective calls match, no rank waits for ever, the run ends,
    and in the end Q holds of the result". An algorithm starts from any memory of the ranks that holds its input matrices: workspaces,
    other tiles and the other elements of the tiles are arbitrary.
    Simplifications: an algorithm starts when the previous one has finished on all the ranks. The distributed band_to_tridiagonal and
    tridiagonal_eigensolver are relations between input and output (the contracts are in Properties_DistEig.v). *)
From Coq Require Import ZArith Lia List Bool.
From Verif Require Import CInt Loop StarField DenseSpec Tiling DenseJobs HouseSpec HouseModel MultiJobs Red2BandModel Red2BandSpec
  DistModel DistMachine DistAdapt DistGrid PanelModel Properties_Panel DistMat DistTriModel BandSizeModel EigModel BtB2TModel
  DistR2BModel DistR2BAdapt DistBtR2BModel DistBtB2TModel Properties_DistBtB2T DistCholeskyModel DistGenToStdModel.
Import ListNotations.
Local Open Scope Z_scope.

(** What the called algorithms are parametrised with. The functions of a rank are what the number of threads and the tune parameters
    give there. *)
Record dist_eig_cfg (K : starfield) := DistEigCfg {
  h_kn : kernels K;
  h_rs : roots K; h_panel_avail : Z -> Z; h_panel_min : Z -> Z; h_t_avail : Z -> Z;   (** reduction_to_band *)
  (** b2t cplx n b A d e V: band_to_tridiagonal on the band of the lower triangle of A may return the tridiagonal matrix (d, e) and the reflectors V *)
  h_b2t : bool -> Z -> Z -> mat K -> (Z -> F K) -> (Z -> F K) -> mat K -> Prop;
  h_ts : Z -> (Z -> F K) -> (Z -> F K) -> (Z -> F K) -> mat K -> Prop;               (** tridiagonal_eigensolver, as in EigModel *)
  h_larft : @larft_fn K; h_group : Z;                                               (** bt_band_to_tridiagonal *)
  h_bt_avail : Z -> Z;                                                              (** bt_reduction_to_band *)
  h_bmin : Z }.                                                                     (** getTuneParameters().eigensolver_min_band *)
Arguments h_kn {_}. Arguments h_rs {_}. Arguments h_panel_avail {_}. Arguments h_panel_min {_}. Arguments h_t_avail {_}. Arguments h_b2t {_}.
Arguments h_ts {_}. Arguments h_larft {_}. Arguments h_group {_}. Arguments h_bt_avail {_}. Arguments h_bmin {_}.

Section eig.
Context {K : starfield} (g : dist_eig_cfg K) (cplx : bool).
(** the grid, the source ranks of the matrices and of the eigenvectors, the axes of the matrices *)
Variables (P Q : Z) (srcA srcE : pair_Z) (DA : coord -> Z -> axis).
Notation mem := (members P Q).
Notation rks := (ranks P Q).

(** eigensolver/impl.h:60-104. mat_a: n x n, blocks mb x mb, in the state st (matrix 0); k = eigenvalues_index_end (eigenvalues_index_begin is 0:
    eigensolver.h); reduction_to_band.h:117, band_to_tridiag.h:154 and bt_band_to_tridiag.h:131 assert that the band size is at least 2.
    band_to_tridiag/mc.h:1066: the reflectors are distributed as mat_a. mat_e_ref: the first k columns, blocks mb x mb from srcE. *)
Definition every_dist_eigensolver_call (u : uplo) (n mb k : Z) (st : tstore (mat K)) (R : eig_result K -> Prop) : Prop :=
  match get_band_size (h_bmin g) mb with
  | Ok b =>
      match u with
      | Upper => R Abort
      | Lower =>
          if b <? 2 then R Abort else
          (* mat_taus = reduction_to_band(grid, mat_a, band_size) *)
          every_adaptive_run mem rks r2b_rec r2b_decide (dist_red2band_if (h_kn g) (h_rs g) P Q n mb b DA (h_panel_avail g) (h_panel_min g) (h_t_avail g)) st (fun st1 =>
          (* ret = band_to_tridiagonal(grid, uplo, band_size, mat_a) *)
          forall d e hh, h_b2t g cplx n b (dmat P Q (mb, mb) srcA 0 st1) d e hh ->
          (* tridiagonal_eigensolver(grid, ret.tridiagonal, evals, mat_e) *)
          forall evals e1, h_ts g n d e evals e1 ->
          (* bt_band_to_tridiagonal(grid, band_size, mat_e_ref, ret.hh_reflectors), which retiles mat_e_ref *)
          forall (DE2 : coord -> Z -> axis) (st2 : tstore (mat K)), distributed P Q (n, k) (mb, mb) (b, mb) srcE (0, 0) DE2 ->
            meq n n (dmat P Q (mb, mb) srcA 0 st2) hh -> meq n k (tiled_mat P Q (mb, mb) (b, mb) srcE 1 st2) e1 ->
          every_run mem rks (dist_bt_b2t (h_kn g) (h_larft g) cplx P Q n mb b (h_group g) DA DE2) st2 (fun st3 =>
          (* bt_reduction_to_band(grid, band_size, mat_e_ref, mat_a, mat_taus); the taus of a column x of A are in tiles of mb elements (b in
             reduction_to_band, which retiles them) on the ranks of the process column of x *)
          forall (DE4 : coord -> Z -> axis) (st4 : tstore (mat K)), distributed P Q (n, k) (mb, mb) (mb, mb) srcE (0, 0) DE4 ->
            meq n n (dmat P Q (mb, mb) srcA 0 st4) (dmat P Q (mb, mb) srcA 0 st1) ->
            (forall p x, 0 <= p < P -> 0 <= x < n - b - 1 -> let r := rk Q p ((snd srcA + x / mb) mod Q) in
              st4 (Tid r 1 (x / mb) 0) (x mod mb) 0 = st1 (Tid r 1 (x / b) 0) (x mod b) 0) ->
            meq n k (dmat P Q (mb, mb) srcE 2 st4) (tiled_mat P Q (mb, mb) (b, mb) srcE 1 st3) ->
          every_run mem rks (dist_bt_red2band (h_kn g) P Q n mb b DA DE4 (h_bt_avail g)) st4 (fun st5 =>
          R (Ok (evals, fun i c => if c <? k then dmat P Q (mb, mb) srcE 2 st5 i c else e1 i c)))))
      end
  | Abort => R Abort
  | UB => R UB
  end.

(** gen_eigensolver/impl.h:53-102. mat_a is matrix 0 of st, mat_b matrix 1, distributed in the same way; factorize: factorization == do_factorization. *)
Definition every_dist_gen_eigensolver_call (u : uplo) (factorize : bool) (n mb k : Z) (st : tstore (mat K)) (R : eig_result K -> Prop) : Prop :=
  let view := dmat P Q (mb, mb) srcA in
  let rest (b : mat K) :=
    (* generalized_to_standard(grid, uplo, mat_a, mat_b) *)
    forall st2 : tstore (mat K), meq n n (view 0 st2) (view 0 st) -> meq n n (view 1 st2) b ->
    every_run mem rks (dist_gen_to_std (h_kn g) P Q DA u) st2 (fun st3 =>
    (* hermitian_eigensolver(grid, uplo, mat_a, eigenvalues, eigenvectors, 0, k) *)
    forall st4 : tstore (mat K), meq n n (view 0 st4) (view 0 st3) ->
    every_dist_eigensolver_call u n mb k st4 (fun r =>
    match r with
    | Ok (evals, e) =>
        (* triangular_solver(grid, Left, uplo, ConjTrans, NonUnit, 1, mat_b, eigenvectors_ref) *)
        forall (DE5 : coord -> Z -> axis) (st5 : tstore (mat K)), distributed P Q (n, k) (mb, mb) (mb, mb) srcE (0, 0) DE5 ->
          meq n n (view 0 st5) (view 1 st3) -> meq n k (dmat P Q (mb, mb) srcE 1 st5) e ->
        every_run mem rks (dist_solver (h_kn g) P Q DA DE5 f1 Left u ConjTrans NonUnit) st5 (fun st6 =>
        R (Ok (evals, fun i c => if c <? k then dmat P Q (mb, mb) srcE 1 st6 i c else e i c)))
    | Abort => R Abort
    | UB => R UB
    end)) in
  if factorize then
    (* cholesky_factorization(grid, uplo, mat_b) *)
    forall st0 : tstore (mat K), meq n n (view 0 st0) (view 1 st) ->
    every_run mem rks (dist_cholesky (h_kn g) P Q DA u) st0 (fun st1 => rest (view 0 st1))
  else rest (view 1 st).
End eig.
