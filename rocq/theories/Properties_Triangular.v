(** * C29, C30: triangular solve and triangular multiplication. *)
From Coq Require Import ZArith Lia List Bool Permutation QArith Qcanon.
From Verif Require Import Loop StarField DenseSpec Tiling DenseJobs TileJobs RefKernels TriangularModel TriangularProofs.
Import ListNotations.
Local Open Scope Z_scope.

Section order.
Lemma zrange_split : forall l1 lo hi k l2, zrange lo hi = l1 ++ k :: l2 -> l1 = zrange lo k /\ l2 = zrange (k + 1) hi /\ lo <= k < hi.
Proof.
  induction l1 as [|x l1 IH]; intros lo hi k l2 E.
  - destruct (Z.lt_ge_cases lo hi) as [L|L]; [|rewrite zrange_nil in E by lia; discriminate].
    rewrite zrange_cons in E by lia. cbn in E. injection E as <- <-. rewrite zrange_nil by lia. repeat split; lia.
  - destruct (Z.lt_ge_cases lo hi) as [L|L]; [|rewrite zrange_nil in E by lia; discriminate].
    rewrite zrange_cons in E by lia. cbn in E. injection E as <- E. destruct (IH _ _ _ _ E) as (A & B & C).
    rewrite (zrange_cons lo k) by lia. rewrite A, B. repeat split; lia.
Qed.
Lemma rev_split : forall n l1 k l2, rev (zrange 0 (n - 1 + 1)) = l1 ++ k :: l2 ->
  (forall i, In i l1 <-> 0 <= i < n /\ k < i) /\ (forall i, In i l2 <-> 0 <= i < n /\ i < k) /\ 0 <= k < n.
Proof.
  intros n l1 k l2 E. apply (f_equal (@rev Z)) in E. rewrite rev_involutive, rev_app_distr in E. cbn [rev] in E. rewrite <- app_assoc in E. cbn [app] in E.
  apply zrange_split in E as (A & B & C). split; [|split; [|lia]]; intros i.
  - rewrite (in_rev l1), B, in_zrange. lia.
  - rewrite (in_rev l2), A, in_zrange. lia.
Qed.
End order.

(** the loop order of an index: ascending or descending *)
Definition updown (up : bool) (n : Z) : list Z := if up then zrange 0 n else rev (zrange 0 (n - 1 + 1)).
Lemma updown_in : forall up n k, In k (updown up n) <-> 0 <= k < n.
Proof. intros [] n k; unfold updown; [|rewrite <- in_rev]; rewrite in_zrange; lia. Qed.
Lemma updown_nodup : forall up n, NoDup (updown up n).
Proof. intros [] n; unfold updown; [|apply NoDup_rev]; apply zrange_NoDup. Qed.
Lemma updown_perm : forall up n, Permutation (updown up n) (zrange 0 n).
Proof.
  intros [] n; unfold updown; [reflexivity|]. replace (n - 1 + 1) with n by lia. symmetry. apply Permutation_rev.
Qed.
Lemma updown_split : forall (up : bool) n l1 k l2, updown up n = l1 ++ k :: l2 ->
  (forall i, In i l1 <-> 0 <= i < n /\ if up then i < k else k < i) /\ (forall i, In i l2 <-> 0 <= i < n /\ if up then k < i else i < k).
Proof.
  intros [] n l1 k l2 E; unfold updown in E.
  - apply zrange_split in E as (-> & -> & L). split; intros i; rewrite in_zrange; lia.
  - apply rev_split in E as (A & B & _). split; assumption.
Qed.

Section tri.
Context {K : starfield} (kn : kernels K) (tr tc : tiling) (s : side) (u : uplo) (o : op) (d : diag) (al : F K).
Let ta := match s with Left => tr | Right => tc end.
Let tb := match s with Left => tc | Right => tr end.
Let lw := low s u o.
(** the loops of the variants *)
Definition after_list (up : bool) (n k : Z) : list Z := if up then zrange (k + 1) n else rev (zrange 0 (k - 1 + 1)).
Lemma after_in : forall up n k i, 0 <= k < n -> In i (after_list up n k) <-> 0 <= i < n /\ if up then k < i else i < k.
Proof. intros [] n k i L; unfold after_list; [|rewrite <- in_rev]; rewrite in_zrange; lia. Qed.
Lemma after_nodup : forall up n k, NoDup (after_list up n k).
Proof. intros [] n k; unfold after_list; [|apply NoDup_rev]; apply zrange_NoDup. Qed.
Lemma solver_generic : exists js, NoDup js /\ (forall j, In j js <-> 0 <= j < tl_n tb) /\
  triangular_solver kn tr tc al s u o d = flat_map (fun k => solve_k kn s u o d al ta tb js (beta al) k (after_list lw (tl_n ta) k)) (updown lw (tl_n ta)).
Proof.
  exists (updown lw (tl_n tb)). split; [apply updown_nodup|]. split; [intros; apply updown_in|].
  unfold lw, ta, tb. destruct s, u, o; reflexivity.
Qed.
(** mult_LUN enumerates i upwards, the others mult_..T and mult_RLN downwards *)
Definition bef_list (k : Z) : list Z :=
  match s, u, o with Left, Upper, NoTrans => zrange 0 k | _, _, _ => after_list lw (tl_n ta) k end.
Lemma bef_in : forall k i, 0 <= k < tl_n ta -> In i (bef_list k) <-> 0 <= i < tl_n ta /\ if lw then k < i else i < k.
Proof.
  intros k i. unfold bef_list, lw, ta, low, eff_low. destruct s, u, o; cbv beta iota delta [negb]; intros L; first [exact (after_in true _ k i L) | exact (after_in false _ k i L) | rewrite in_zrange; lia].
Qed.
Lemma bef_nodup : forall k, NoDup (bef_list k).
Proof. intros k. unfold bef_list. destruct s, u, o; try apply after_nodup; apply zrange_NoDup. Qed.
Lemma mult_generic : exists js, NoDup js /\ (forall j, In j js <-> 0 <= j < tl_n tb) /\
  triangular_multiplication kn tr tc al s u o d = flat_map (fun k => mult_k kn s u o d al ta tb js al k (bef_list k)) (updown (negb lw) (tl_n ta)).
Proof.
  exists (match s, u, o with Left, Lower, NoTrans => zrange 0 (tl_n tb) | _, _, _ => updown (negb lw) (tl_n tb) end).
  split; [destruct s, u, o; try apply updown_nodup; apply zrange_NoDup|].
  split; [intros j; destruct s, u, o; try apply updown_in; rewrite in_zrange; lia|].
  unfold bef_list, lw, ta, tb. destruct s, u, o; reflexivity.
Qed.
End tri.

Section global.
Context {K : starfield} (kn : kernels K) (KO : kernels_ok kn) (tr tc : tiling) (OKr : tiling_ok tr) (OKc : tiling_ok tc).
Context (s : side) (u : uplo) (o : op) (d : diag) (al : F K).
Let ta := match s with Left => tr | Right => tc end.
Let tb := match s with Left => tc | Right => tr end.
Local Open Scope sf_scope.
Add Ring KringG : (fring K).
Definition matA (st : tstore (mat K)) : mat K := gather ta ta (fun i j => st (Tid 0 0 i j)).
Definition matB (st : tstore (mat K)) : mat K := gather tr tc (fun i j => st (Tid 0 1 i j)).
Lemma OKa : tiling_ok ta. Proof. unfold ta. destruct s; assumption. Qed.
Lemma OKb : tiling_ok tb. Proof. unfold tb. destruct s; assumption. Qed.
(** the product with op(A), tile by tile *)
Definition opprod (A B : mat K) : mat K := match s with
  | Left => mmul (tl_size tr) (opm o (trim u d A)) B | Right => mmul (tl_size tc) B (opm o (trim u d A)) end.
Lemma opprod_at : forall A B i j, opprod A B i j = match s with
  | Left => mmul (tl_size tr) (opm o (trim u d A)) B i j | Right => mmul (tl_size tc) B (opm o (trim u d A)) i j end.
Proof. intros A B i j. unfold opprod. destruct s; reflexivity. Qed.
Lemma xo_mul : forall (c : F K) (X : mat K) a b, xo s (fun i j => c * X i j) a b = c * xo s X a b.
Proof. intros. unfold xo. destruct s; reflexivity. Qed.
Lemma xo_ext : forall (X Y : mat K) a b, (forall i j, X i j = Y i j) -> xo s X a b = xo s Y a b.
Proof. intros X Y a b E. unfold xo. destruct s; apply E. Qed.
Lemma opprod_tiles : forall st st' k j p q, (0 <= k < tl_n ta)%Z -> (0 <= j < tl_n tb)%Z -> (0 <= p < tl_sz ta k)%Z -> (0 <= q < tl_sz tb j)%Z ->
  let a := (tl_off ta k + p)%Z in let b := (tl_off tb j + q)%Z in
  xo s (opprod (matA st) (matB st')) a b =
  lsum (zrange 0 (tl_n ta)) (fun l => fsum 0 (tl_sz ta l) (fun r => tm s u o d ta st k l p r * xv s st' l j r q)).
Proof.
  intros st st' k j p q Lk Lj Lp Lq. cbv zeta. rewrite lsum_fsum. unfold opprod, matB, tm, xv, xo, bx, amat, matA, ta, tb in *. destruct s.
  - unfold mmul. rewrite fsum_tiles by assumption. apply fsum_ext. intros l Ll. apply fsum_ext. intros r Lr. rewrite gather_at by assumption. reflexivity.
  - unfold mmul. rewrite fsum_tiles by assumption. apply fsum_ext. intros l Ll. apply fsum_ext. intros r Lr. rewrite gather_at by assumption. apply (Ring_theory.Rmul_comm (fring K)).
Qed.
Lemma matB_tile : forall st k j p q, (0 <= k < tl_n ta)%Z -> (0 <= j < tl_n tb)%Z -> (0 <= p < tl_sz ta k)%Z -> (0 <= q < tl_sz tb j)%Z ->
  let a := (tl_off ta k + p)%Z in let b := (tl_off tb j + q)%Z in
  xo s (matB st) a b = xv s st k j p q.
Proof.
  intros st k j p q Lk Lj Lp Lq. cbv zeta. unfold matB, xv, xo, bx, ta, tb in *. destruct s; rewrite gather_at by assumption; reflexivity.
Qed.
(** equality of two matrices of the size of B *)
Lemma meq_oriented : forall X Y : mat K,
  (forall k j p q, (0 <= k < tl_n ta)%Z -> (0 <= j < tl_n tb)%Z -> (0 <= p < tl_sz ta k)%Z -> (0 <= q < tl_sz tb j)%Z ->
    let a := (tl_off ta k + p)%Z in let b := (tl_off tb j + q)%Z in
    xo s X a b = xo s Y a b) ->
  meq (tl_size tr) (tl_size tc) X Y.
Proof.
  intros X Y E. apply meq_tiles; [exact OKr|exact OKc|]. unfold ta, tb, xo in E. destruct s.
  - intros i j p q Li Lj Lp Lq. apply (E i j p q Li Lj Lp Lq).
  - intros i j p q Li Lj Lp Lq. apply (E j i q p Lj Li Lq Lp).
Qed.

Lemma sweep_solve : sweep ta (updown (low s u o) (tl_n ta)) (ord s u o).
Proof.
  split; [apply updown_nodup|]. split; [intros; apply updown_in|]. intros l1 k l2 E. apply updown_split in E. unfold ord. destruct (low s u o); exact E.
Qed.
Lemma sweep_mult : sweep ta (updown (negb (low s u o)) (tl_n ta)) (drd s u o).
Proof.
  split; [apply updown_nodup|]. split; [intros; apply updown_in|]. intros l1 k l2 E. apply updown_split in E. unfold drd, ord. destruct (low s u o); exact E.
Qed.
Lemma after_solve : forall k, In k (updown (low s u o) (tl_n ta)) ->
  NoDup (after_list (low s u o) (tl_n ta) k) /\ forall i, In i (after_list (low s u o) (tl_n ta) k) <-> (0 <= i < tl_n ta)%Z /\ ord s u o k i.
Proof.
  intros k Ik. apply updown_in in Ik. split; [apply after_nodup|]. intros i. rewrite after_in by exact Ik. unfold ord. destruct (low s u o); reflexivity.
Qed.
Lemma bef_mult : forall k, In k (updown (negb (low s u o)) (tl_n ta)) ->
  NoDup (bef_list tr tc s u o k) /\ forall i, In i (bef_list tr tc s u o k) <-> (0 <= i < tl_n ta)%Z /\ drd s u o i k.
Proof.
  intros k Ik. apply updown_in in Ik. split; [apply bef_nodup|]. intros i. unfold drd, ord. rewrite bef_in by exact Ik. destruct (low s u o); reflexivity.
Qed.
Lemma solver_jobs_ok : Forall tjob_ok (triangular_solver kn tr tc al s u o d).
Proof.
  destruct (solver_generic kn tr tc s u o d al) as (js & NDj & INj & ->). fold ta tb. apply Forall_forall. intros j I0.
  apply in_flat_map in I0 as (k & Ik & I0). apply in_flat_map in I0 as (c & Ic & I0). cbn [app] in I0. unfold tjob_ok. destruct I0 as [<-|I0].
  - rewrite ts_in, ts_out. intros [Q|[]]. symmetry in Q. apply bx_a in Q. exact Q.
  - apply in_flat_map in I0 as (i & Ii & [<-|[]]). rewrite gm_out. intros Q. apply gm_in in Q as [Q|Q].
    + destruct (aix_a s o i k) as (x & y & Ex). rewrite Ex in Q. apply bx_a in Q. exact Q.
    + apply bx_inj in Q as [-> _]. apply (proj2 (after_solve k Ik)) in Ii as [_ Q]. exact (ord_irr _ _ _ k Q).
Qed.
Lemma mult_jobs_ok : Forall tjob_ok (triangular_multiplication kn tr tc al s u o d).
Proof.
  destruct (mult_generic kn tr tc s u o d al) as (js & NDj & INj & ->). fold ta tb. apply Forall_forall. intros j I0.
  apply in_flat_map in I0 as (k & Ik & I0). apply in_flat_map in I0 as (c & Ic & I0). unfold tjob_ok. apply in_app_or in I0 as [I0|[<-|[]]].
  - apply in_flat_map in I0 as (i & Ii & [<-|[]]). rewrite gm_out. intros Q. apply gm_in in Q as [Q|Q].
    + destruct (aix_a s o i k) as (x & y & Ex). rewrite Ex in Q. apply bx_a in Q. exact Q.
    + apply bx_inj in Q as [-> _]. apply (proj2 (bef_mult k Ik)) in Ii as [_ Q]. exact (ord_irr _ _ _ k Q).
  - rewrite tm_in, tm_out. intros [Q|[]]. symmetry in Q. apply bx_a in Q. exact Q.
Qed.
Lemma frame_b : forall js (st st0 : tstore (mat K)) , (forall j, In j js <-> (0 <= j < tl_n tb)%Z) ->
  (forall x, (forall i j, (0 <= i < tl_n ta)%Z -> In j js -> x <> bx s i j) -> st x = st0 x) ->
  forall x, (forall i j, (0 <= i < tl_n tr)%Z -> (0 <= j < tl_n tc)%Z -> x <> Tid 0 1 i j) -> st x = st0 x.
Proof.
  intros js st st0 INj E x N. apply E. intros i j Li Ij. apply INj in Ij. unfold bx, B_, ta, tb in *. destruct s; apply N; assumption.
Qed.
Lemma solver_seq : forall st0 st, nonsingular d (tl_size ta) (matA st0) ->
  (forall x, st x = trun (triangular_solver kn tr tc al s u o d) st0 x) ->
  is_trsm s u o d (tl_size tr) (tl_size tc) al (matA st0) (matB st0) (matB st) /\
  forall x, (forall i j, (0 <= i < tl_n tr)%Z -> (0 <= j < tl_n tc)%Z -> x <> Tid 0 1 i j) -> st x = st0 x.
Proof.
  intros st0 st NS E. destruct (solver_generic kn tr tc s u o d al) as (js & NDj & INj & EQ). fold ta tb in INj, EQ. rewrite EQ in E.
  assert (C : al = 0 \/ al <> 0 -> is_trsm s u o d (tl_size tr) (tl_size tc) al (matA st0) (matB st0) (matB st) /\
    forall x, (forall i j, (0 <= i < tl_n tr)%Z -> (0 <= j < tl_n tc)%Z -> x <> Tid 0 1 i j) -> st x = st0 x).
  2: { apply C. destruct (feq_dec K al 0); auto. }
  intros [Z0|NZ].
  - destruct (solve_sweep0 kn KO s u o d al ta tb OKa js NDj _ _ sweep_solve after_solve (beta al) Z0 st0 NS) as [_ DN FR]. split.
    + apply meq_oriented. intros k j p q Lk Lj Lp Lq. cbv zeta.
      rewrite <- (xo_ext _ _ _ _ (fun i j => opprod_at (matA st0) (matB st) i j)). rewrite xo_mul, Z0.
      rewrite opprod_tiles by assumption. rewrite lsum_0; [ring|]. intros l Il. apply in_zrange in Il. apply fsum_0. intros r Lr.
      unfold xv. rewrite E. match goal with |- _ * xo s (trun ?P ?Q _) _ _ = _ => change (xo s (trun P Q (bx s l j)) r q) with (xv s (trun P Q) l j r q) end.
      rewrite DN; [ring|apply updown_in; exact Il|apply INj; exact Lj|exact Lr|exact Lq].
    + intros x N. rewrite E. revert x N. apply (frame_b js); assumption.
  - assert (Cc : al * beta al = - (1)). { unfold beta. transitivity (- (al * finv al)); [ring|]. rewrite finv_r by exact NZ. ring. }
    destruct (solve_sweep kn KO s u o d al ta tb OKa js NDj _ _ sweep_solve after_solve (beta al) Cc st0 NS) as [SA DN _ FR]. split.
    + apply meq_oriented. intros k j p q Lk Lj Lp Lq. cbv zeta.
      rewrite <- (xo_ext _ _ _ _ (fun i j => opprod_at (matA st0) (matB st) i j)). rewrite xo_mul.
      rewrite matB_tile by assumption. rewrite <- (DN k j p q); [|apply updown_in; exact Lk|apply INj; exact Lj|exact Lp|exact Lq].
      rewrite opprod_tiles by assumption. rewrite (lsum_perm _ _ _ (Permutation_sym (updown_perm (low s u o) (tl_n ta)))). apply lsum_ext. intros l Il. apply fsum_ext. intros r Lr.
      rewrite (tm_same s u o d ta st0 _ k l p r SA). unfold xv. rewrite E. reflexivity.
    + intros x N. rewrite E. revert x N. apply (frame_b js); assumption.
Qed.
Lemma mult_seq : forall st0 st, (forall x, st x = trun (triangular_multiplication kn tr tc al s u o d) st0 x) ->
  is_trmm s u o d (tl_size tr) (tl_size tc) al (matA st0) (matB st0) (matB st) /\
  forall x, (forall i j, (0 <= i < tl_n tr)%Z -> (0 <= j < tl_n tc)%Z -> x <> Tid 0 1 i j) -> st x = st0 x.
Proof.
  intros st0 st E. destruct (mult_generic kn tr tc s u o d al) as (js & NDj & INj & EQ). fold ta tb in INj, EQ. rewrite EQ in E.
  destruct (mult_sweep kn KO s u o d al ta tb OKa js NDj _ _ sweep_mult bef_mult st0) as [_ DN _ FR]. split.
  - apply meq_oriented. intros k j p q Lk Lj Lp Lq. cbv zeta. rewrite matB_tile by assumption.
    rewrite xo_mul. rewrite <- (xo_ext _ _ _ _ (fun i j => opprod_at (matA st0) (matB st0) i j)). rewrite opprod_tiles by assumption.
    rewrite <- (lsum_perm _ _ _ (updown_perm (negb (low s u o)) (tl_n ta))). unfold xv at 1. rewrite E.
    apply (DN k j p q); [apply updown_in; exact Lk|apply INj; exact Lj|exact Lp|exact Lq].
  - intros x N. rewrite E. revert x N. apply (frame_b js); assumption.
Qed.
End global.

(** C29 (local): for every side, triangle, op, diag and alpha (including 0), the solver overwrites B by the solution of
    op(A) X = alpha B, resp. X op(A) = alpha B, and nothing else changes. *)
Theorem C29_triangular_solve_local : forall (K : starfield) (kn : kernels K), kernels_ok kn ->
  forall tr tc, tiling_ok tr -> tiling_ok tc -> forall s u o d (al : F K) (st0 : tstore (mat K)),
  let A := matA tr tc s st0 in
  nonsingular d (match s with Left => tl_size tr | Right => tl_size tc end) A ->
  every_schedule (triangular_solver kn tr tc al s u o d) st0 (fun st =>
    is_trsm s u o d (tl_size tr) (tl_size tc) al A (matB tr tc st0) (matB tr tc st) /\
    forall x, (forall i j, 0 <= i < tl_n tr -> 0 <= j < tl_n tc -> x <> Tid 0 1 i j) -> st x = st0 x).
Proof.
  intros K kn KO tr tc OKr OKc s u o d al st0 A NS. apply every_schedule_intro; [apply solver_jobs_ok|].
  intros st E. apply (solver_seq kn KO tr tc OKr OKc s u o d al st0 st); [|exact E]. destruct s; exact NS.
Qed.
(** The result is determined. *)
Theorem C29_solution_unique : forall (K : starfield) s u o d m n al (A B X Y : mat K),
  nonsingular d (match s with Left => m | Right => n end) A ->
  is_trsm s u o d m n al A B X -> is_trsm s u o d m n al A B Y -> meq m n X Y.
Proof. intros K. apply trsm_unique. Qed.
(** C30 (triangular, local) *)
Theorem C30_triangular_multiplication_local : forall (K : starfield) (kn : kernels K), kernels_ok kn ->
  forall tr tc, tiling_ok tr -> tiling_ok tc -> forall s u o d (al : F K) (st0 : tstore (mat K)),
  every_schedule (triangular_multiplication kn tr tc al s u o d) st0 (fun st =>
    is_trmm s u o d (tl_size tr) (tl_size tc) al (matA tr tc s st0) (matB tr tc st0) (matB tr tc st) /\
    forall x, (forall i j, 0 <= i < tl_n tr -> 0 <= j < tl_n tc -> x <> Tid 0 1 i j) -> st x = st0 x).
Proof.
  intros K kn KO tr tc OKr OKc s u o d al st0. apply every_schedule_intro; [apply mult_jobs_ok|].
  intros st E. apply (mult_seq kn KO tr tc OKr OKc s u o d al st0 st E).
Qed.

(** Instance: Gaussian rationals, reference kernels, 3x4 and 4x3 right-hand sides in uneven tiles, a matrix with non-zero diagonal. *)
Definition tri_ex : tstore (mat gauss_field) := fun x p q => (Q2Qc (inject_Z (1 + t_row x + 2 * t_col x + p + q)), Q2Qc (inject_Z (t_row x + p - q))).
Example C29_runs : forall s u o d, exists s0 st,
  AsyncModel.reachable (submitted (triangular_solver gauss_kernels (Tiling 2 (fun k => k + 1)) (Tiling 2 (fun k => 3 - 2 * k)) (1, 1)%Qc s u o d)) s0 st /\
  AsyncModel.final (submitted (triangular_solver gauss_kernels (Tiling 2 (fun k => k + 1)) (Tiling 2 (fun k => 3 - 2 * k)) (1, 1)%Qc s u o d)) st.
Proof.
  intros s u o d. set (tr := Tiling 2 (fun k => k + 1)). set (tc := Tiling 2 (fun k => 3 - 2 * k)).
  assert (OKr : tiling_ok tr) by (split; [cbn; lia|intros k L; unfold tr in *; cbn [tl_sz tl_n] in *; lia]).
  assert (OKc : tiling_ok tc) by (split; [cbn; lia|intros k L; unfold tc in *; cbn [tl_sz tl_n] in *; lia]).
  assert (NS : nonsingular d (match s with Left => tl_size tr | Right => tl_size tc end) (matA tr tc s tri_ex)).
  { destruct d; [|exact I]. cbn [nonsingular]. intros i Li. unfold matA.
    assert (G : forall t, tiling_ok t -> 0 <= i < tl_size t -> gather t t (fun i j : Z => tri_ex (Tid 0 0 i j)) i i <> f0).
    { intros t OK L. destruct (elem_split t OK i L) as (k & p & Lk & Lp & ->). rewrite gather_at by assumption. unfold tri_ex. cbn [t_row t_col]. intros Q.
      apply (f_equal fst) in Q. cbn [fst f0 gauss_field] in Q. apply (f_equal this) in Q. change (Qred (inject_Z (1 + k + 2 * k + p + p)) = Qred 0) in Q.
      assert (Q' : (inject_Z (1 + k + 2 * k + p + p) == 0)%Q) by (rewrite <- (Qred_correct (inject_Z _)), Q; reflexivity).
      unfold Qeq, inject_Z in Q'. cbn [Qnum Qden] in Q'. lia. }
    destruct s; apply G; assumption. }
  destruct (every_schedule_run _ _ _ (solver_jobs_ok gauss_kernels tr tc s u o d _) (C29_triangular_solve_local _ _ gauss_kernels_ok tr tc OKr OKc s u o d (1, 1)%Qc tri_ex NS)) as (s0 & st & _ & R & FN & _).
  exists s0, st. split; assumption.
Qed.

(** ** Assumptions *)
Print Assumptions C29_triangular_solve_local.
Print Assumptions C29_solution_unique.
Print Assumptions C30_triangular_multiplication_local.
