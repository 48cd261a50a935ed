(** * C28: the tiled Cholesky factorization. *)
From Coq Require Import ZArith Lia List Bool QArith Qcanon.
From Verif Require Import Loop StarField DenseSpec Tiling DenseJobs TileJobs CholeskyModel CholeskyProofs RefKernels.
Import ListNotations.
Local Open Scope Z_scope.

(** the whole matrix mat_a in a state *)
Definition mat_a {K} (t : tiling) (st : tstore (mat K)) : mat K := gather t t (fun i j => st (Tid 0 0 i j)).

Section jobs.
Context {K : starfield} (kn : kernels K) (t : tiling).
Lemma chol_jobs_ok : forall u, Forall tjob_ok (cholesky_factorization kn t u).
Proof.
  intros u. apply Forall_forall. intros j I0. unfold tjob_ok.
  destruct u; cbn [cholesky_factorization] in I0; unfold cholesky_call_L, cholesky_call_U in I0;
  apply in_for_up in I0 as (k & Lk & I0); apply in_app_or in I0 as [I0|I0].
  1, 3: destruct I0 as [<-|[]]; cbn; tauto.
  all: apply in_app_or in I0 as [I0|I0]; apply in_for_up in I0 as (i & Li & I0).
  1, 3: destruct I0 as [<-|[]]; cbn; intros [E|[]]; injection E; lia.
  all: apply in_app_or in I0 as [I0|I0].
  1, 3: destruct I0 as [<-|[]]; cbn; intros [E|[]]; injection E; lia.
  all: apply in_for_up in I0 as (q & Lq & [<-|[]]); cbn; intros [E|[E|[]]]; injection E; lia.
Qed.
(** tiles outside the triangle of tiles are neither read nor written *)
Lemma chol_accesses : forall u j x, In j (cholesky_factorization kn t u) -> In x (tj_out j :: tj_in j) ->
  exists i k, x = Tid 0 0 i k /\ 0 <= i < tl_n t /\ 0 <= k < tl_n t /\ in_tri u i k = true.
Proof.
  intros u j x I0 Ix.
  destruct u; cbn [cholesky_factorization] in I0; unfold cholesky_call_L, cholesky_call_U in I0;
  apply in_for_up in I0 as (k & Lk & I0); apply in_app_or in I0 as [I0|I0].
  1, 3: destruct I0 as [<-|[]]; cbn in Ix; destruct Ix as [<-|[]]; exists k, k; (repeat split; try lia); cbn; apply Z.leb_refl.
  all: apply in_app_or in I0 as [I0|I0]; apply in_for_up in I0 as (i & Li & I0).
  1, 3: destruct I0 as [<-|[]]; cbn in Ix; destruct Ix as [<-|[<-|[]]]; eexists _, _; (repeat split; try lia); cbn; apply Z.leb_le; lia.
  all: apply in_app_or in I0 as [I0|I0].
  1, 3: destruct I0 as [<-|[]]; cbn in Ix; destruct Ix as [<-|[<-|[]]]; eexists _, _; (repeat split; try lia); cbn; apply Z.leb_le; lia.
  all: apply in_for_up in I0 as (q & Lq & [<-|[]]); cbn in Ix; destruct Ix as [<-|[<-|[<-|[]]]]; eexists _, _; (repeat split; try lia); cbn; apply Z.leb_le; lia.
Qed.
End jobs.

(** C28 (local): whatever the field, the kernels that meet their contracts, the tiling, the triangle and
    the schedule: if the matrix has a Cholesky factor, the program terminates and leaves the factor in the
    triangle, the other triangle and everything else unchanged. *)
Theorem C28_cholesky_local : forall (K : starfield) (kn : kernels K), kernels_ok kn ->
  forall (t : tiling), tiling_ok t -> forall (u : uplo) (st0 : tstore (mat K)),
  (exists T, is_factor u (tl_size t) (mat_a t st0) T) ->
  every_schedule (cholesky_factorization kn t u) st0 (fun st =>
    is_potrf u (tl_size t) (mat_a t st0) (mat_a t st) /\
    forall x, (forall i j, 0 <= i < tl_n t -> 0 <= j < tl_n t -> in_tri u i j = true -> x <> Tid 0 0 i j) -> st x = st0 x).
Proof.
  intros K kn KO t OK u st0 [T FAC]. apply every_schedule_intro; [apply chol_jobs_ok|]. intros st E. split.
  - pose proof (final_potrf t OK u st0 T FAC _ (cholesky_run kn KO t OK u st0 T FAC)) as [P Q]. fold (@mat_a K t st0) in P, Q.
    assert (EE : forall a b, mat_a t st a b = gather t t (fun i j => trun (cholesky_factorization kn t u) st0 (A_ i j)) a b).
    { intros a b. unfold mat_a, gather. rewrite E. reflexivity. }
    split.
    + eapply factor_ext; [exact P|intros i j _ _ _; reflexivity|]. intros i j _ _ _. symmetry. apply EE.
    + intros i j Li Lj O. rewrite EE. apply Q; assumption.
  - intros x N. rewrite E. apply trun_frame. intros j I0 Q.
    destruct (chol_accesses kn t u j x I0) as (i & k & -> & Li & Lk & TR); [left; exact Q|]. exact (N i k Li Lk TR eq_refl).
Qed.
(** "Only the tiles which contain the triangular part are accessed" (cholesky.h:33-36) *)
Theorem C28_tiles_accessed : forall (K : starfield) (kn : kernels K) t u j x,
  In j (cholesky_factorization kn t u) -> In x (tj_out j :: tj_in j) ->
  exists i k, x = Tid 0 0 i k /\ 0 <= i < tl_n t /\ 0 <= k < tl_n t /\ in_tri u i k = true.
Proof. intros K kn t u j x. apply chol_accesses. Qed.
(** The result is determined: the Cholesky factor is unique. *)
Theorem C28_factor_unique : forall (K : starfield) u n (A X Y : mat K), is_factor u n A X -> is_factor u n A Y -> meq_tri u n X Y.
Proof.
  intros K u n A X Y EX EY. apply meq_tri_orm. apply (factor_unique_lower n (orm u A)); apply factor_orm1; assumption.
Qed.

(** A 3x3 complex matrix in tiles of sizes 1 and 2 that has a factor, and so a complete execution that ends with it. *)
Definition ex_t : tiling := Tiling 2 (fun k => k + 1).
Definition ex_T : mat gauss_field := fun i j => if i =? j then (Q2Qc (inject_Z (i + 1)), 0%Qc) else (Q2Qc (inject_Z (i + 2 * j)), Q2Qc (inject_Z (i - j + 1))).
Definition ex_A (u : uplo) : mat gauss_field :=
  match u with
  | Lower => mmul 3 (trim Lower NonUnit ex_T) (opm ConjTrans (trim Lower NonUnit ex_T))
  | Upper => mmul 3 (opm ConjTrans (trim Upper NonUnit ex_T)) (trim Upper NonUnit ex_T) end.
Definition ex_st (u : uplo) : tstore (mat gauss_field) := fun x => cut ex_t ex_t (ex_A u) (t_row x) (t_col x).
Lemma ex_factor : forall u, is_factor u (tl_size ex_t) (mat_a ex_t (ex_st u)) ex_T.
Proof.
  intros u. assert (S3 : tl_size ex_t = 3) by reflexivity. split.
  - intros i L. unfold ex_T. rewrite Z.eqb_refl. cbn. split; [reflexivity|].
    unfold Qclt. change (Qlt (Qred 0) (Qred (inject_Z (i + 1)))). rewrite !Qred_correct. unfold Qlt. cbn. lia.
  - assert (OK : tiling_ok ex_t) by (split; cbn; lia).
    intros a b La Lb _. destruct (elem_split ex_t OK a La) as (i & p & Li & Lp & ->). destruct (elem_split ex_t OK b Lb) as (j & q & Lj & Lq & ->).
    unfold mat_a. rewrite gather_at by assumption. cbn [ex_st t_row t_col]. unfold ex_st, cut. cbn [t_row t_col]. rewrite S3. destruct u; reflexivity.
Qed.
Example C28_runs : forall u, exists s0 s, AsyncModel.reachable (submitted (cholesky_factorization gauss_kernels ex_t u)) s0 s /\
  AsyncModel.final (submitted (cholesky_factorization gauss_kernels ex_t u)) s /\
  is_potrf u 3 (ex_A u) (mat_a ex_t (fun x => AsyncModel.st_store s (enc x))).
Proof.
  intros u. assert (OK : tiling_ok ex_t) by (split; cbn; lia).
  destruct (every_schedule_run _ _ _ (chol_jobs_ok gauss_kernels ex_t u) (C28_cholesky_local _ _ gauss_kernels_ok ex_t OK u (ex_st u) (ex_intro _ _ (ex_factor u)))) as (s0 & s & _ & R & FN & Q & _).
  exists s0, s. split; [exact R|]. split; [exact FN|].
  assert (EA : forall a b, 0 <= a < 3 -> 0 <= b < 3 -> mat_a ex_t (ex_st u) a b = ex_A u a b).
  { intros a b La Lb. destruct (elem_split ex_t OK a La) as (i & p & Li & Lp & ->). destruct (elem_split ex_t OK b Lb) as (j & q & Lj & Lq & ->).
    unfold mat_a. rewrite gather_at by assumption. reflexivity. }
  destruct Q as [Q1 Q2]. split.
  - eapply factor_ext; [exact Q1| |intros i j _ _ _; reflexivity]. intros i j Li Lj _. apply EA; assumption.
  - intros i j Li Lj O. rewrite <- (EA i j Li Lj). apply Q2; assumption.
Qed.

(** ** Assumptions *)
Print Assumptions C28_cholesky_local.
Print Assumptions C28_tiles_accessed.
Print Assumptions C28_factor_unique.
