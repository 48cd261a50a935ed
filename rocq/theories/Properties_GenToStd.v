(** * C32: reduction of a generalized eigenproblem to standard form. *)
From Coq Require Import ZArith Lia List Bool QArith Qcanon.
From Verif Require Import Loop StarField DenseSpec Tiling DenseJobs TileJobs CholeskyModel CholeskyProofs RefKernels GenToStdModel GenToStdProofs Properties_Cholesky Properties_Inverse.
Import ListNotations.
Local Open Scope Z_scope.

(** the whole matrix mat_b (the Cholesky factor of B) in a state *)
Definition mat_b {K} (t : tiling) (st : tstore (mat K)) : mat K := gather t t (fun i j => st (Tid 0 1 i j)).

Section jobs.
Context {K : starfield} (kn : kernels K) (t : tiling).
Definition g2s_job (u : uplo) (j : tjob (mat K)) : Prop := tjob_ok j /\
  (exists i k, tj_out j = Tid 0 0 i k /\ 0 <= i < tl_n t /\ 0 <= k < tl_n t /\ in_tri u i k = true) /\
  forall x, In x (tj_in j) -> exists m i k, x = Tid 0 m i k /\ (m = 0 \/ m = 1) /\ 0 <= i < tl_n t /\ 0 <= k < tl_n t /\ in_tri u i k = true.
Ltac tj := split;
  [unfold tjob_ok; cbn; let Q := fresh in intros Q; repeat match type of Q with _ \/ _ => destruct Q as [Q|Q] end; (contradiction || discriminate || (injection Q; lia))
  |split;
    [cbn; eexists _, _; (repeat split; try lia); cbn; apply Z.leb_le; lia
    |cbn; let x := fresh in let Q := fresh in intros x Q; repeat match type of Q with _ \/ _ => destruct Q as [Q|Q] end; [.. | contradiction]; subst x;
     eexists _, _, _; (split; [reflexivity|]); (repeat split; try lia); cbn; apply Z.leb_le; lia]].
Lemma g2s_jobs : forall u, Forall (g2s_job u) (gen_to_std kn t u).
Proof.
  intros u. apply Forall_forall. intros j I0. destruct u; cbn [gen_to_std] in I0; unfold gen_to_std_call_L, gen_to_std_call_U in I0;
  apply in_for_up in I0 as (k & Lk & I0); apply in_app_or in I0 as [[<-|[]]|I0]; [tj| |tj|];
  (destruct (k =? tl_n t - 1); [destruct I0|]); apply in_app_or in I0 as [I0|I0].
  1, 3: apply in_for_up in I0 as (i & Li & [<-|[<-|[]]]); tj.
  all: apply in_app_or in I0 as [I0|I0].
  1, 3: apply in_for_up in I0 as (i & Li & I0); apply in_app_or in I0 as [[<-|[]]|I0]; [tj|apply in_for_up in I0 as (q & Lq & [<-|[<-|[]]]); tj].
  all: apply in_app_or in I0 as [I0|I0].
  1, 3: apply in_for_up in I0 as (i & Li & [<-|[]]); tj.
  all: apply in_for_up in I0 as (i & Li & I0); apply in_app_or in I0 as [[<-|[]]|I0]; [tj|apply in_for_up in I0 as (q & Lq & [<-|[]]); tj].
Qed.
Lemma g2s_jobs_ok : forall u, Forall tjob_ok (gen_to_std kn t u).
Proof. intros u. eapply Forall_impl; [|apply g2s_jobs]. intros j [A _]. exact A. Qed.
End jobs.

Lemma hegst_ext : forall {K : starfield} u n (A T A' A'' : mat K), (forall i j, 0 <= i < n -> 0 <= j < n -> A'' i j = A' i j) -> is_hegst u n A T A' -> is_hegst u n A T A''.
Proof.
  intros K u n A T A' A'' E. rewrite !is_hegst_alt. intros (P1 & P2 & P3).
  assert (HE : meq n n (herm u A'') (herm u A')) by (intros i j Li Lj; unfold herm; rewrite !E by assumption; reflexivity).
  split; [|split].
  - intros i j Li Lj. rewrite <- (P1 i j Li Lj). apply (mmul_meq n n n); try assumption; [|intros a b _ _; reflexivity]. apply mmul_meq; [intros a b _ _; reflexivity|exact HE].
  - intros i Li. unfold real. rewrite E by assumption. apply P2. exact Li.
  - intros i j Li Lj Q. rewrite E by assumption. apply P3; assumption.
Qed.

(** C32 (local): whatever the field, the kernels that meet their contracts, the tiling, the triangle and the schedule: if A is
    Hermitian (real diagonal) and the triangular factor T of B is not singular, the program terminates and leaves in the u
    triangle of mat_a the Hermitian matrix C with T C T^H = A (lower; C = inv(T) A inv(T^H)) or T^H C T = A (upper); the other
    triangle, the factor and everything else are unchanged. *)
Theorem C32_gen_to_std_local : forall (K : starfield) (kn : kernels K), kernels_ok kn ->
  forall (t : tiling), tiling_ok t -> forall (u : uplo) (st0 : tstore (mat K)),
  real_diag (tl_size t) (mat_a t st0) -> nonsingular NonUnit (tl_size t) (mat_b t st0) ->
  every_schedule (gen_to_std kn t u) st0 (fun st =>
    is_hegst u (tl_size t) (mat_a t st0) (mat_b t st0) (mat_a t st) /\
    forall x, (forall i j, 0 <= i < tl_n t -> 0 <= j < tl_n t -> in_tri u i j = true -> x <> Tid 0 0 i j) -> st x = st0 x).
Proof.
  intros K kn KO t OK u st0 RD NS. apply every_schedule_intro; [apply g2s_jobs_ok|]. intros st E. split.
  - eapply hegst_ext; [|exact (final_hegst kn t OK u st0 RD _ (g2s_run kn KO t OK u st0 NS RD))].
    intros i j _ _. unfold mat_a, gather. rewrite E. reflexivity.
  - intros x N. rewrite E. apply trun_frame. intros j I0 Q. pose proof (g2s_jobs kn t u) as FA. rewrite Forall_forall in FA.
    destruct (FA j I0) as (_ & (i & k & O & Li & Lk & T) & _). rewrite O in Q. exact (N i k Li Lk T (eq_sym Q)).
Qed.
(** Only the tiles which contain the triangular part are accessed, and mat_b is not written. *)
Theorem C32_tiles_accessed : forall (K : starfield) (kn : kernels K) t u j, In j (gen_to_std kn t u) ->
  (exists i k, tj_out j = Tid 0 0 i k /\ 0 <= i < tl_n t /\ 0 <= k < tl_n t /\ in_tri u i k = true) /\
  forall x, In x (tj_in j) -> exists m i k, x = Tid 0 m i k /\ (m = 0 \/ m = 1) /\ 0 <= i < tl_n t /\ 0 <= k < tl_n t /\ in_tri u i k = true.
Proof. intros K kn t u j I0. pose proof (g2s_jobs kn t u) as FA. rewrite Forall_forall in FA. apply (FA j I0). Qed.
(** The result is determined by A and T. *)
Theorem C32_unique : forall (K : starfield) u n (A T X Y : mat K), nonsingular NonUnit n T -> is_hegst u n A T X -> is_hegst u n A T Y -> meq_tri u n X Y.
Proof.
  intros K u n A T X Y NS EX EY. apply is_hegst_alt in EX, EY. destruct EX as (EX & _), EY as (EY & _).
  assert (E : meq n n (herm u X) (herm u Y)).
  { apply (cong_unique true n (hl u T)); [apply hl_tri; exact NS|]. intros i j Li Lj. rewrite (EX i j Li Lj). symmetry. apply EY; assumption. }
  intros i j Li Lj Q. specialize (E i j Li Lj). unfold herm in E. rewrite Q in E. exact E.
Qed.

(** What the user needs it for: (A, B) and C have the same eigenvalues, with the eigenvectors related by y = T^H x (lower) or
    y = T x (upper), where B = T T^H (lower) or T^H T (upper). *)
Section eigen.
Context {K : starfield}.
Local Open Scope sf_scope.
Add Ring KringGE : (fring K).
(** back-transform: y = T^H x / y = T x *)
Definition back (u : uplo) (n : Z) (T x : mat K) : mat K := match u with
  | Lower => mmul n (opm ConjTrans (trim Lower NonUnit T)) x | Upper => mmul n (trim Upper NonUnit T) x end.
Definition eigen_std (n : Z) (C : mat K) (lam : F K) (y : mat K) : Prop := meq n 1 (mmul n C y) (fun i j => lam * y i j).
Definition eigen_gen (n : Z) (A B : mat K) (lam : F K) (x : mat K) : Prop := meq n 1 (mmul n A x) (fun i j => lam * mmul n B x i j).
End eigen.
Theorem C32_same_eigenproblem : forall (K : starfield) u n (A T C : mat K), nonsingular NonUnit n T -> is_hegst u n A T C ->
  forall lam x, eigen_gen n (herm u A) (factored u n T) lam x <-> eigen_std n (herm u C) lam (back u n T x).
Proof.
  intros K u n A T C NS HG lam x. apply is_hegst_alt in HG as (HG & _).
  assert (BK : forall i j, back u n T x i j = mmul n (opm ConjTrans (hl u T)) x i j).
  { intros i j. destruct u; cbn [back hl]; [reflexivity|]. unfold mmul. apply fsum_ext. intros r _. rewrite opm_invol. reflexivity. }
  assert (FB : forall i j, factored u n T i j = mmul n (hl u T) (opm ConjTrans (hl u T)) i j).
  { intros i j. destruct u; cbn [factored hl]; [reflexivity|]. unfold mmul. apply fsum_ext. intros r _. rewrite opm_invol. reflexivity. }
  set (y := back u n T x) in *. set (M := hl u T) in *.
  assert (AX : forall i j, 0 <= i < n -> 0 <= j < 1 -> mmul n (herm u A) x i j = mmul n M (mmul n (herm u C) y) i j).
  { intros i j Li Lj. transitivity (mmul n (mmul n (mmul n M (herm u C)) (opm ConjTrans M)) x i j).
    - unfold mmul at 1 2. apply fsum_ext. intros r Lr. rewrite (HG i r Li Lr). reflexivity.
    - rewrite !mmul_assoc. unfold mmul at 1 4. apply fsum_ext. intros r _. f_equal. unfold mmul at 1 3. apply fsum_ext. intros s _. f_equal. symmetry. apply BK. }
  assert (BX : forall i j, mmul n (factored u n T) x i j = mmul n M y i j).
  { intros i j. transitivity (mmul n (mmul n M (opm ConjTrans M)) x i j).
    - unfold mmul at 1 2. apply fsum_ext. intros r _. rewrite FB. reflexivity.
    - rewrite mmul_assoc. unfold mmul at 1 3. apply fsum_ext. intros r _. f_equal. symmetry. apply BK. }
  assert (ML : forall i j, fmul lam (mmul n M y i j) = mmul n M (fun i j => fmul lam (y i j)) i j).
  { intros i j. unfold mmul. rewrite <- fsum_mul_l. apply fsum_ext. intros r _. rewrite !(Ring_theory.Rmul_assoc (fring K)), (Ring_theory.Rmul_comm (fring K) lam). reflexivity. }
  split; intros E i j Li Lj.
  - apply (tri_unique true n M (fun r => mmul n (herm u C) y r j) (fun r => fmul lam (y r j))); [apply hl_tri; exact NS| |exact Li].
    intros p Lp. change (mmul n M (mmul n (herm u C) y) p j = mmul n M (fun i j => fmul lam (y i j)) p j). rewrite <- ML, <- BX, <- AX by assumption. apply E; assumption.
  - rewrite AX by assumption. rewrite BX, ML. unfold mmul at 1 3. apply fsum_ext. intros r Lr. f_equal. apply E; assumption.
Qed.

(** A 3x3 complex problem in tiles of sizes 1 and 2: A is the matrix of C28, T its factor, and the result is the identity. *)
Definition exg_st (u : uplo) : tstore (mat gauss_field) := fun x => cut ex_t ex_t (if t_mat x =? 0 then ex_A u else ex_T) (t_row x) (t_col x).
Lemma exg_real : forall u i, 0 <= i < 3 -> real (mat_a ex_t (exg_st u) i i).
Proof.
  intros u a La. assert (OK : tiling_ok ex_t) by (split; cbn; lia). destruct (elem_split ex_t OK a La) as (i & p & Li & Lp & ->).
  unfold mat_a. rewrite gather_at by assumption. unfold exg_st, cut. cbn [t_mat t_row t_col]. change (0 =? 0) with true. cbv beta iota.
  unfold real, ex_A. destruct u; unfold mmul, opm; rewrite fsum_conj; apply fsum_ext; intros r _; rewrite fconj_mul, fconj_conj; apply (Ring_theory.Rmul_comm (fring gauss_field)).
Qed.
Lemma exg_nonsing : forall u, nonsingular NonUnit 3 (mat_b ex_t (exg_st u)).
Proof.
  intros u a La. assert (OK : tiling_ok ex_t) by (split; cbn; lia). destruct (elem_split ex_t OK a La) as (i & p & Li & Lp & ->).
  unfold mat_b. rewrite gather_at by assumption. unfold exg_st, cut. cbn [t_mat t_row t_col]. change (1 =? 0) with false. cbv beta iota.
  apply fpos_neq. apply (ex_factor Lower). exact La.
Qed.
Example C32_runs : forall u, exists s0 s, AsyncModel.reachable (submitted (gen_to_std gauss_kernels ex_t u)) s0 s /\
  AsyncModel.final (submitted (gen_to_std gauss_kernels ex_t u)) s /\
  is_hegst u 3 (mat_a ex_t (exg_st u)) (mat_b ex_t (exg_st u)) (mat_a ex_t (fun x => AsyncModel.st_store s (enc x))).
Proof.
  intros u. assert (OK : tiling_ok ex_t) by (split; cbn; lia).
  destruct (every_schedule_run _ _ _ (g2s_jobs_ok gauss_kernels ex_t u) (C32_gen_to_std_local _ _ gauss_kernels_ok ex_t OK u (exg_st u) (exg_real u) (exg_nonsing u))) as (s0 & s & _ & R & FN & Q & _).
  exists s0, s. repeat (split; try assumption).
Qed.

(** ** Assumptions *)
Print Assumptions C32_gen_to_std_local.
Print Assumptions C32_tiles_accessed.
Print Assumptions C32_unique.
Print Assumptions C32_same_eigenproblem.
