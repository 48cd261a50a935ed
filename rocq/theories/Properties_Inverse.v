(** * C31: triangular inverse and inverse from a Cholesky factor. *)
From Coq Require Import ZArith Lia List Bool QArith Qcanon.
From Verif Require Import Loop StarField DenseSpec Tiling DenseJobs TileJobs CholeskyModel CholeskyProofs RefKernels InverseModel InverseProofs AssembleProofs Properties_Cholesky.
Import ListNotations.
Local Open Scope Z_scope.

Section jobs.
Context {K : starfield} (kn : kernels K) (t : tiling).
(** a job on a tile of the triangle, reading other tiles of the triangle *)
Definition tri_job (u : uplo) (j : tjob (mat K)) : Prop := tjob_ok j /\
  forall x, In x (tj_out j :: tj_in j) -> exists i k, x = Tid 0 0 i k /\ 0 <= i < tl_n t /\ 0 <= k < tl_n t /\ in_tri u i k = true.
Ltac tj := split;
  [unfold tjob_ok; cbn; let Q := fresh in intros Q; repeat match type of Q with _ \/ _ => destruct Q as [Q|Q] end; (contradiction || (injection Q; lia))
  |cbn; let x := fresh in let Q := fresh in intros x Q; repeat match type of Q with _ \/ _ => destruct Q as [Q|Q] end; [.. | contradiction]; subst x; eexists _, _; (repeat split; try lia); cbn; apply Z.leb_le; lia].
Lemma trinv_jobs : forall u d, Forall (tri_job u) (triangular_inverse kn t u d).
Proof.
  intros u d. apply Forall_forall. intros j I0. destruct u; cbn [triangular_inverse] in I0; unfold triangular_inv_call_L, triangular_inv_call_U in I0;
  apply in_for_down in I0 as (k & Lk & I0); apply in_app_or in I0 as [I0|I0].
  1, 3: apply in_for_up in I0 as (i & Li & I0); apply in_app_or in I0 as [[<-|[]]|I0]; [tj|apply in_for_up in I0 as (q & Lq & [<-|[]]); tj].
  all: apply in_app_or in I0 as [I0|[<-|[]]]; [apply in_for_up in I0 as (i & Li & [<-|[]])|]; tj.
Qed.
Lemma assemble_jobs : forall u, Forall (tri_job u) (assemble kn t u).
Proof.
  intros u. apply Forall_forall. intros j I0. destruct u; unfold assemble, assemble_call_L, assemble_call_U in I0;
  apply in_for_up in I0 as (k & Lk & I0); apply in_app_or in I0 as [I0|I0].
  1, 3: apply in_for_up in I0 as (i & Li & I0); apply in_app_or in I0 as [I0|[<-|[]]]; [apply in_for_up in I0 as (q & Lq & [<-|[]])|]; tj.
  all: apply in_app_or in I0 as [I0|[<-|[]]]; [apply in_for_up in I0 as (i & Li & [<-|[]])|]; tj.
Qed.
Lemma invchol_split : forall u, inverse_from_cholesky_factor kn t u = triangular_inverse kn t u NonUnit ++ assemble kn t u.
Proof. intros []; reflexivity. Qed.
Lemma invchol_jobs : forall u, Forall (tri_job u) (inverse_from_cholesky_factor kn t u).
Proof. intros u. rewrite invchol_split. apply Forall_app. split; [apply trinv_jobs|apply assemble_jobs]. Qed.
Lemma tri_jobs_ok : forall u l, Forall (tri_job u) l -> Forall tjob_ok l.
Proof. intros u l. apply Forall_impl. intros j [A _]. exact A. Qed.
Lemma tri_jobs_frame : forall u l, Forall (tri_job u) l -> forall st x,
  (forall i j, 0 <= i < tl_n t -> 0 <= j < tl_n t -> in_tri u i j = true -> x <> Tid 0 0 i j) -> trun l st x = st x.
Proof.
  intros u l F st x N. apply trun_frame. intros j I0 Q. rewrite Forall_forall in F. destruct (F j I0) as [_ A].
  destruct (A x) as (i & k & -> & Li & Lk & TR); [left; exact Q|]. exact (N i k Li Lk TR eq_refl).
Qed.
End jobs.

Lemma trtri_ext : forall {K : starfield} u d n (A A' A'' : mat K), (forall i j, 0 <= i < n -> 0 <= j < n -> A'' i j = A' i j) -> is_trtri u d n A A' -> is_trtri u d n A A''.
Proof.
  intros K u d n A A' A'' E (T1 & T2 & T3 & T4).
  assert (TE : forall i j, 0 <= i < n -> 0 <= j < n -> trim u d A'' i j = trim u d A' i j).
  { intros i j Li Lj. unfold trim. rewrite E by assumption. reflexivity. }
  split; [|split; [|split]].
  - intros i j Li Lj. rewrite <- (T1 i j Li Lj). unfold mmul. apply fsum_ext. intros r Lr. rewrite TE by assumption. reflexivity.
  - intros i j Li Lj. rewrite <- (T2 i j Li Lj). unfold mmul. apply fsum_ext. intros r Lr. rewrite TE by assumption. reflexivity.
  - intros i j Li Lj Q. rewrite E by assumption. apply T3; assumption.
  - intros Du i Li. rewrite E by assumption. apply T4; assumption.
Qed.

(** C31 (local), triangular inverse: whatever the field, the kernels that meet their contracts, the tiling, the triangle, the
    diagonal and the schedule: if the matrix is not singular, the program terminates, the u triangle holds the inverse of the
    triangular matrix it held, and everything else (the other triangle, a Unit diagonal, other memory) is unchanged. *)
Theorem C31_triangular_inverse_local : forall (K : starfield) (kn : kernels K), kernels_ok kn ->
  forall (t : tiling), tiling_ok t -> forall (u : uplo) (d : diag) (st0 : tstore (mat K)),
  nonsingular d (tl_size t) (mat_a t st0) ->
  every_schedule (triangular_inverse kn t u d) st0 (fun st =>
    is_trtri u d (tl_size t) (mat_a t st0) (mat_a t st) /\
    forall x, (forall i j, 0 <= i < tl_n t -> 0 <= j < tl_n t -> in_tri u i j = true -> x <> Tid 0 0 i j) -> st x = st0 x).
Proof.
  intros K kn KO t OK u d st0 NS. apply every_schedule_intro; [apply (tri_jobs_ok t u); apply trinv_jobs|]. intros st E. split.
  - eapply trtri_ext; [|exact (final_trtri t OK u d st0 NS _ (inverse_run kn KO t OK u d st0 NS))].
    intros i j _ _. unfold mat_a, gather. rewrite E. reflexivity.
  - intros x N. rewrite E. apply (tri_jobs_frame t u); [apply trinv_jobs|exact N].
Qed.

Section inv.
Context {K : starfield}.
Local Open Scope sf_scope.
Add Ring KringPI : (fring K).
(** the matrix of which the u triangle of T is the Cholesky factor *)
Definition factored (u : uplo) (n : Z) (T : mat K) : mat K := match u with
  | Lower => mmul n (trim Lower NonUnit T) (opm ConjTrans (trim Lower NonUnit T))
  | Upper => mmul n (opm ConjTrans (trim Upper NonUnit T)) (trim Upper NonUnit T) end.
Definition is_inverse (n : Z) (A B : mat K) : Prop := meq n n (mmul n A B) ident /\ meq n n (mmul n B A) ident.

Lemma meq_sym : forall m n (A B : mat K), meq m n A B -> meq m n B A.
Proof. intros m n A B E i j Li Lj. symmetry. apply E; assumption. Qed.
Lemma meq_trans : forall m n (A B C : mat K), meq m n A B -> meq m n B C -> meq m n A C.
Proof. intros m n A B C E F i j Li Lj. rewrite (E i j Li Lj). apply F; assumption. Qed.
Lemma meq_refl : forall m n (A : mat K), meq m n A A. Proof. intros m n A i j _ _. reflexivity. Qed.
Lemma meq_assoc : forall m a b n (A B C : mat K), meq m n (mmul b (mmul a A B) C) (mmul a A (mmul b B C)).
Proof. intros m a b n A B C i j _ _. apply mmul_assoc. Qed.
(** (T U)(V W) = I when U V = I and T W = I *)
Lemma cancel_mid : forall n (T U V W : mat K), meq n n (mmul n U V) ident -> meq n n (mmul n T W) ident ->
  meq n n (mmul n (mmul n T U) (mmul n V W)) ident.
Proof.
  intros n T U V W E F. eapply meq_trans; [apply meq_assoc|]. eapply meq_trans; [|exact F]. apply mmul_meq; [apply meq_refl|].
  eapply meq_trans; [apply meq_sym; apply meq_assoc|]. eapply meq_trans; [apply mmul_meq; [exact E|apply meq_refl]|].
  intros i j Li Lj. apply mmul_ident_l. exact Li.
Qed.
Lemma ct_inverse : forall n (A B : mat K), meq n n (mmul n A B) ident -> meq n n (mmul n (opm ConjTrans B) (opm ConjTrans A)) ident.
Proof.
  intros n A B E i j Li Lj. rewrite <- opm_mmul. unfold opm. rewrite (E j i Lj Li). unfold ident. rewrite Z.eqb_sym. destruct (i =? j)%Z; [apply fconj_1|apply fconj_0].
Qed.
Lemma ct_gram : forall n (A : mat K) i j, opm ConjTrans (mmul n (opm ConjTrans A) A) i j = mmul n (opm ConjTrans A) A i j.
Proof. intros n A i j. rewrite opm_mmul. unfold mmul. apply fsum_ext. intros r _. rewrite opm_invol. reflexivity. Qed.
Lemma ct_gram' : forall n (A : mat K) i j, opm ConjTrans (mmul n A (opm ConjTrans A)) i j = mmul n A (opm ConjTrans A) i j.
Proof. intros n A i j. rewrite opm_mmul. unfold mmul. apply fsum_ext. intros r _. rewrite opm_invol. reflexivity. Qed.
Lemma herm_tri : forall u n (A B : mat K), meq_tri u n A B -> meq n n (opm ConjTrans B) B -> meq n n (herm u A) B.
Proof.
  intros u n A B E H i j Li Lj. unfold herm. destruct (in_tri u i j) eqn:Q; [apply E; assumption|].
  rewrite (E j i Lj Li). { apply (H i j Li Lj). } destruct u; cbn in *; apply Z.leb_gt in Q; apply Z.leb_le; lia.
Qed.
(** inverse of a triangular matrix with real diagonal has a real diagonal *)
Lemma trtri_real : forall u n (A A' : mat K), nonsingular NonUnit n A -> real_diag n A -> is_trtri u NonUnit n A A' -> real_diag n A'.
Proof.
  intros u n A A' NS RD (E & _) i Li.
  pose proof (op_trim_tri u NoTrans NonUnit n A NS) as TR.
  destruct (tri_inverse _ n _ (trim u NonUnit A') TR) as (_ & _ & D). { exact E. }
  specialize (D i Li). unfold opm, trim in D. rewrite Z.eqb_refl in D.
  unfold real. apply (fmul_cancel_r (fconj (A' i i)) (A' i i) (A i i)); [apply NS; exact Li|].
  transitivity (fconj (A i i * A' i i)); [rewrite fconj_mul, (RD i Li); ring|]. rewrite D, fconj_1, <- D. ring.
Qed.
Lemma assemble_inverse : forall u n (A X A1 : mat K), is_trtri u NonUnit n A X -> is_lauum u n X A1 -> is_inverse n (factored u n A) (herm u A1).
Proof.
  intros u n A X A1 (E1 & E2 & _) [L _].
  assert (H : meq n n (herm u A1) (match u with
    | Lower => mmul n (opm ConjTrans (trim Lower NonUnit X)) (trim Lower NonUnit X)
    | Upper => mmul n (trim Upper NonUnit X) (opm ConjTrans (trim Upper NonUnit X)) end)).
  { apply herm_tri; [exact L|]. intros i j Li Lj. destruct u; [apply ct_gram|apply ct_gram']. }
  split.
  - eapply meq_trans; [apply mmul_meq; [apply meq_refl|exact H]|]. unfold factored. destruct u.
    + apply cancel_mid; [apply ct_inverse; exact E2|exact E1].
    + apply cancel_mid; [exact E1|apply ct_inverse; exact E2].
  - eapply meq_trans; [apply mmul_meq; [exact H|apply meq_refl]|]. unfold factored. destruct u.
    + apply cancel_mid; [exact E2|apply ct_inverse; exact E1].
    + apply cancel_mid; [apply ct_inverse; exact E1|exact E2].
Qed.
End inv.

(** C31 (local), inverse from a Cholesky factor: if the u triangle holds a triangular matrix T with real non-zero diagonal
    (a Cholesky factor has a positive one), the program terminates, and the Hermitian matrix of which it leaves the u triangle
    is the inverse of T T^H (lower) or T^H T (upper); the other triangle and everything else are unchanged. *)
Theorem C31_inverse_from_cholesky_local : forall (K : starfield) (kn : kernels K), kernels_ok kn ->
  forall (t : tiling), tiling_ok t -> forall (u : uplo) (st0 : tstore (mat K)),
  nonsingular NonUnit (tl_size t) (mat_a t st0) -> real_diag (tl_size t) (mat_a t st0) ->
  every_schedule (inverse_from_cholesky_factor kn t u) st0 (fun st =>
    is_inverse (tl_size t) (factored u (tl_size t) (mat_a t st0)) (herm u (mat_a t st)) /\
    meq_out u (tl_size t) (mat_a t st) (mat_a t st0) /\
    forall x, (forall i j, 0 <= i < tl_n t -> 0 <= j < tl_n t -> in_tri u i j = true -> x <> Tid 0 0 i j) -> st x = st0 x).
Proof.
  intros K kn KO t OK u st0 NS RD. apply every_schedule_intro; [apply (tri_jobs_ok t u); apply invchol_jobs|]. intros st E.
  pose proof (final_trtri t OK u NonUnit st0 NS _ (inverse_run kn KO t OK u NonUnit st0 NS)) as T1.
  set (s1 := trun (triangular_inverse kn t u NonUnit) st0) in *.
  assert (RD1 : real_diag (tl_size t) (mat_a t s1)) by exact (trtri_real u _ _ _ NS RD T1).
  pose proof (final_lauum t OK u s1 _ (assemble_run kn KO t OK u s1 RD1)) as T2.
  assert (E2 : forall x, st x = trun (assemble kn t u) s1 x) by (intros x; rewrite E, invchol_split, trun_app; reflexivity).
  assert (EE : forall a b, mat_a t st a b = gather t t (fun i j => trun (assemble kn t u) s1 (A_ i j)) a b).
  { intros a b. unfold mat_a, gather. rewrite E2. reflexivity. }
  assert (L2 : is_lauum u (tl_size t) (mat_a t s1) (mat_a t st)).
  { destruct T2 as [P Q]. split; intros a b La Lb I0; rewrite EE; [apply P|apply Q]; assumption. }
  split; [|split].
  - exact (assemble_inverse u _ _ _ _ T1 L2).
  - intros i j Li Lj Q. destruct T1 as (_ & _ & T3 & _). destruct L2 as [_ L2]. rewrite (L2 i j Li Lj Q). apply T3; assumption.
  - intros x N. rewrite E. apply (tri_jobs_frame t u); [apply invchol_jobs|exact N].
Qed.
(** In the terms of the user: factor, then invert: from the factor of A the result is the inverse of A (both Hermitian, stored in the u triangle). *)
Theorem C31_inverse_of_factored : forall (K : starfield) (kn : kernels K), kernels_ok kn ->
  forall (t : tiling), tiling_ok t -> forall (u : uplo) (A : mat K) (st0 : tstore (mat K)),
  real_diag (tl_size t) A -> is_factor u (tl_size t) A (mat_a t st0) ->
  every_schedule (inverse_from_cholesky_factor kn t u) st0 (fun st => is_inverse (tl_size t) (herm u A) (herm u (mat_a t st))).
Proof.
  intros K kn KO t OK u A st0 RA [FP FE].
  assert (NS : nonsingular NonUnit (tl_size t) (mat_a t st0)) by (intros i L; apply fpos_neq; apply FP; exact L).
  assert (RD : real_diag (tl_size t) (mat_a t st0)) by (intros i L; apply fpos_real; apply FP; exact L).
  eapply every_schedule_impl; [|exact (C31_inverse_from_cholesky_local K kn KO t OK u st0 NS RD)].
  intros st ((I1 & I2) & _).
  assert (H : meq (tl_size t) (tl_size t) (herm u A) (factored u (tl_size t) (mat_a t st0))).
  { apply herm_tri; [|intros i j Li Lj; unfold factored; destruct u; [apply ct_gram'|apply ct_gram]].
    intros i j Li Lj Q. symmetry. unfold factored. destruct u; apply FE; assumption. }
  split; [eapply meq_trans; [|exact I1]|eapply meq_trans; [|exact I2]]; apply mmul_meq; try apply meq_refl; exact H.
Qed.
(** "Only the tiles which contain the triangular part are accessed" *)
Theorem C31_tiles_accessed : forall (K : starfield) (kn : kernels K) t u d j x,
  In j (triangular_inverse kn t u d) \/ In j (inverse_from_cholesky_factor kn t u) -> In x (tj_out j :: tj_in j) ->
  exists i k, x = Tid 0 0 i k /\ 0 <= i < tl_n t /\ 0 <= k < tl_n t /\ in_tri u i k = true.
Proof.
  intros K kn t u d j x [I0|I0] Ix.
  - pose proof (trinv_jobs kn t u d) as F. rewrite Forall_forall in F. apply (F j I0). exact Ix.
  - pose proof (invchol_jobs kn t u) as F. rewrite Forall_forall in F. apply (F j I0). exact Ix.
Qed.

(** The 3x3 complex triangular matrix of C28 meets the hypotheses: complete executions that end with the inverses. *)
Definition exT_st : tstore (mat gauss_field) := fun x => cut ex_t ex_t ex_T (t_row x) (t_col x).
Lemma exT_at : forall a b, 0 <= a < 3 -> 0 <= b < 3 -> mat_a ex_t exT_st a b = ex_T a b.
Proof.
  assert (OK : tiling_ok ex_t) by (split; cbn; lia).
  intros a b La Lb. destruct (elem_split ex_t OK a La) as (i & p & Li & Lp & ->). destruct (elem_split ex_t OK b Lb) as (j & q & Lj & Lq & ->).
  unfold mat_a. rewrite gather_at by assumption. reflexivity.
Qed.
Lemma exT_pos : forall i, 0 <= i < 3 -> fpos (mat_a ex_t exT_st i i).
Proof.
  intros i L. rewrite exT_at by exact L. unfold ex_T. rewrite Z.eqb_refl. cbn. split; [reflexivity|].
  unfold Qclt. change (Qlt (Qred 0) (Qred (inject_Z (i + 1)))). rewrite !Qred_correct. unfold Qlt. cbn. lia.
Qed.
Example C31_runs : forall u, exists s0 s s0' s',
  AsyncModel.reachable (submitted (triangular_inverse gauss_kernels ex_t u NonUnit)) s0 s /\ AsyncModel.final (submitted (triangular_inverse gauss_kernels ex_t u NonUnit)) s /\
  is_trtri u NonUnit 3 (mat_a ex_t exT_st) (mat_a ex_t (fun x => AsyncModel.st_store s (enc x))) /\
  AsyncModel.reachable (submitted (inverse_from_cholesky_factor gauss_kernels ex_t u)) s0' s' /\ AsyncModel.final (submitted (inverse_from_cholesky_factor gauss_kernels ex_t u)) s' /\
  is_inverse 3 (factored u 3 (mat_a ex_t exT_st)) (herm u (mat_a ex_t (fun x => AsyncModel.st_store s' (enc x)))).
Proof.
  intros u. assert (OK : tiling_ok ex_t) by (split; cbn; lia).
  assert (NS : nonsingular NonUnit (tl_size ex_t) (mat_a ex_t exT_st)) by (intros i L; apply fpos_neq; apply exT_pos; exact L).
  assert (RD : real_diag (tl_size ex_t) (mat_a ex_t exT_st)) by (intros i L; apply fpos_real; apply exT_pos; exact L).
  destruct (every_schedule_run _ _ _ (tri_jobs_ok ex_t u _ (trinv_jobs gauss_kernels ex_t u NonUnit)) (C31_triangular_inverse_local _ _ gauss_kernels_ok ex_t OK u NonUnit exT_st NS)) as (s0 & s & _ & R & FN & Q & _).
  destruct (every_schedule_run _ _ _ (tri_jobs_ok ex_t u _ (invchol_jobs gauss_kernels ex_t u)) (C31_inverse_from_cholesky_local _ _ gauss_kernels_ok ex_t OK u exT_st NS RD)) as (s0' & s' & _ & R' & FN' & Q' & _).
  exists s0, s, s0', s'. repeat (split; try assumption).
Qed.

(** ** Assumptions *)
Print Assumptions C31_triangular_inverse_local.
Print Assumptions C31_inverse_from_cholesky_local.
Print Assumptions C31_inverse_of_factored.
Print Assumptions C31_tiles_accessed.
