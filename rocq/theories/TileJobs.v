(** * The kernels as tile jobs.
    Each function submits one task: see the [...Tile] helper functions of the algorithms (for instance
    factorization/cholesky/impl.h:43-93).  Priorities and stack sizes are left out: they only
    influence the schedule. *)
From Coq Require Import ZArith Lia List Bool.
From Verif Require Import Loop StarField DenseSpec Tiling DenseJobs.
Import ListNotations.
Local Open Scope Z_scope.

Section kjobs.
Context {K : starfield} (kn : kernels K).
Definition in1 (f : mat K -> mat K -> mat K) : list (mat K) -> mat K -> mat K := fun vs c => match vs with [a] => f a c | _ => c end.
Definition in2 (f : mat K -> mat K -> mat K -> mat K) : list (mat K) -> mat K -> mat K := fun vs c => match vs with [a; b] => f a b c | _ => c end.
Definition jgemm oa ob m n k al (a b : tid) be (c : tid) : tjob (mat K) :=
  TJob [a; b] c (in2 (fun A B C => gemm kn oa ob m n k al A B be C)).
Definition jhemm s u m n al (a b : tid) be (c : tid) : tjob (mat K) :=
  TJob [a; b] c (in2 (fun A B C => hemm kn s u m n al A B be C)).
Definition jherk u o n k al (a : tid) be (c : tid) : tjob (mat K) :=
  TJob [a] c (in1 (fun A C => herk kn u o n k al A be C)).
Definition jher2k u o n k al (a b : tid) be (c : tid) : tjob (mat K) :=
  TJob [a; b] c (in2 (fun A B C => her2k kn u o n k al A B be C)).
Definition jtrmm s u o d m n al (a b : tid) : tjob (mat K) :=
  TJob [a] b (in1 (fun A B => trmm kn s u o d m n al A B)).
Definition jtrsm s u o d m n al (a b : tid) : tjob (mat K) :=
  TJob [a] b (in1 (fun A B => trsm kn s u o d m n al A B)).
Definition jpotrf u n (a : tid) : tjob (mat K) := TJob [] a (fun _ A => potrf kn u n A).
(** hegst takes the factor with readwrite access but does not change it (lapack/tile.h:434-446):
    modelled as read access. *)
Definition jhegst u n (a l : tid) : tjob (mat K) := TJob [l] a (in1 (fun L A => hegst kn u n A L)).
Definition jtrtri u d n (a : tid) : tjob (mat K) := TJob [] a (fun _ A => trtri kn u d n A).
Definition jlauum u n (a : tid) : tjob (mat K) := TJob [] a (fun _ A => lauum kn u n A).
(** tile copy (matrix/copy_tile.h) and the tile functions of blas/scal.h, blas/tile_extensions.h: own code *)
Definition jcopy (a c : tid) : tjob (mat K) := TJob [a] c (in1 (fun A _ => A)).
Definition jscal be (c : tid) : tjob (mat K) := TJob [] c (fun _ C => fun i j => fmul be (C i j)).
Definition jadd al (a c : tid) : tjob (mat K) := TJob [a] c (in1 (fun A C => fun i j => fadd (C i j) (fmul al (A i j)))).
Definition jset0 (c : tid) : tjob (mat K) := TJob [] c (fun _ _ => fun _ _ => f0).
End kjobs.

(** ** Triangular systems have at most one solution *)
Section unique.
Context {K : starfield}.
Local Open Scope sf_scope.
Add Ring Kring2 : (fring K).
(** a triangular matrix (low: zero above the diagonal; otherwise zero below) *)
Definition is_tri (low : bool) (n : Z) (M : mat K) : Prop :=
  (forall i, (0 <= i < n)%Z -> M i i <> 0) /\
  forall i r, (0 <= i < n)%Z -> (0 <= r < n)%Z -> (if low then (i < r)%Z else (r < i)%Z) -> M i r = 0.
Lemma tri_unique : forall low n M (X Y : Z -> F K), is_tri low n M ->
  (forall i, (0 <= i < n)%Z -> fsum 0 n (fun r => M i r * X r) = fsum 0 n (fun r => M i r * Y r)) ->
  forall i, (0 <= i < n)%Z -> X i = Y i.
Proof.
  intros low n M X Y [D T] E.
  assert (G : forall d i, (0 <= i < n)%Z -> (if low then Z.to_nat i else Z.to_nat (n - i)) = d -> X i = Y i).
  { induction d as [d IH] using lt_wf_ind. intros i L Q.
    assert (EQ : fsum 0 n (fun r => M i r * (X r - Y r)) = 0).
    { transitivity (fsum 0 n (fun r => M i r * X r) - fsum 0 n (fun r => M i r * Y r)).
      - rewrite <- fsum_sub. apply fsum_ext. intros r _. ring.
      - rewrite (E i L). ring. }
    rewrite (fsum_one 0 n _ i L) in EQ.
    - assert (Z0 : X i - Y i = 0). { apply (fmul_integral _ (M i i)); [|apply D; exact L]. rewrite <- EQ. ring. }
      replace (X i) with (Y i + (X i - Y i)) by ring. rewrite Z0. ring.
    - intros r Lr Nr. destruct (Z.lt_ge_cases r i) as [Q1|Q1].
      + destruct low.
        * rewrite (IH (Z.to_nat r)) with (i := r); [ring| |lia|lia]. rewrite <- Q. lia.
        * rewrite T by lia. ring.
      + destruct low.
        * rewrite T by lia. ring.
        * rewrite (IH (Z.to_nat (n - r))) with (i := r); [ring| |lia|lia]. rewrite <- Q. lia. }
  intros i L. eapply G; [exact L|reflexivity].
Qed.
(** op(A) of a triangular A *)
Definition eff_low (u : uplo) (o : op) : bool := match u, o with Lower, NoTrans => true | Upper, NoTrans => false | Lower, _ => false | Upper, _ => true end.
Lemma trim_diag : forall u d n (A : mat K) i, nonsingular d n A -> (0 <= i < n)%Z -> trim u d A i i <> 0.
Proof.
  intros u d n A i N L. unfold trim. rewrite Z.eqb_refl. destruct d; [apply N; exact L|apply f1_neq].
Qed.
Lemma trim_zero : forall u d (A : mat K) i j, in_tri u i j = false -> trim u d A i j = 0.
Proof.
  intros u d A i j E. unfold trim. rewrite E. destruct (Z.eqb_spec i j) as [->|_]; [|reflexivity].
  destruct u; cbn in E; apply Z.leb_gt in E; lia.
Qed.
Lemma op_trim_tri : forall u o d n (A : mat K), nonsingular d n A -> is_tri (eff_low u o) n (opm o (trim u d A)).
Proof.
  intros u o d n A N. split.
  - intros i L. unfold opm. destruct o; try (apply (trim_diag u d n); assumption). apply fconj_neq. apply (trim_diag u d n); assumption.
  - intros i r Li Lr Q. unfold opm. destruct o; rewrite trim_zero; try reflexivity; try apply fconj_0;
    destruct u; cbn in *; apply Z.leb_gt; lia.
Qed.
Lemma trsm_unique : forall s u o d m n al (A B X Y : mat K), nonsingular d (match s with Left => m | Right => n end) A ->
  is_trsm s u o d m n al A B X -> is_trsm s u o d m n al A B Y -> meq m n X Y.
Proof.
  intros s u o d m n al A B X Y N EX EY i j Li Lj. destruct s.
  - apply (tri_unique (eff_low u o) m (opm o (trim u d A)) (fun r => X r j) (fun r => Y r j)).
    + apply op_trim_tri. exact N.
    + intros p Lp. specialize (EX p j Lp Lj). specialize (EY p j Lp Lj). cbn in EX, EY. unfold mmul in EX, EY. congruence.
    + exact Li.
  - apply (tri_unique (negb (eff_low u o)) n (fun q r => opm o (trim u d A) r q) (fun r => X i r) (fun r => Y i r)).
    + destruct (op_trim_tri u o d n A N) as [D T]. split; [exact D|]. intros p q Lp Lq Q. apply T; try assumption.
      destruct (eff_low u o); exact Q.
    + intros q Lq. specialize (EX i q Li Lq). specialize (EY i q Li Lq). cbn in EX, EY. unfold mmul in EX, EY.
      transitivity (al * B i q); [rewrite <- EX|rewrite <- EY]; apply fsum_ext; intros r _; ring.
    + exact Lj.
Qed.

(** ** The Cholesky factor is unique *)
Lemma factor_unique_lower : forall n (A : mat K) X Y, is_factor Lower n A X -> is_factor Lower n A Y -> meq_tri Lower n X Y.
Proof.
  intros n A X Y [PX EX] [PY EY].
  assert (SUM : forall T, meq_tri Lower n (mmul n (trim Lower NonUnit T) (opm ConjTrans (trim Lower NonUnit T))) A ->
    forall i j, (0 <= j <= i)%Z -> (i < n)%Z -> fsum 0 j (fun r => T i r * fconj (T j r)) + T i j * fconj (T j j) = A i j).
  { intros T E i j L Ln. rewrite <- (E i j) by (cbn; rewrite ?Z.leb_le; lia). unfold mmul.
    rewrite (fsum_app 0 (j + 1) n) by lia. rewrite (fsum_0 (j + 1) n).
    - rewrite fsum_snoc by lia. unfold opm.
      assert (TR : forall a b, (b <= a)%Z -> trim Lower NonUnit T a b = T a b).
      { intros a b Q. unfold trim. cbn [in_tri]. rewrite (proj2 (Z.leb_le b a) Q). destruct (Z.eqb_spec a b); subst; reflexivity. }
      rewrite !TR by lia. rewrite (fsum_ext 0 j (fun r => trim Lower NonUnit T i r * fconj (trim Lower NonUnit T j r)) (fun r => T i r * fconj (T j r))); [ring|].
      intros r Lr. rewrite !TR by lia. reflexivity.
    - intros r Lr. unfold opm. rewrite (trim_zero Lower NonUnit T j r); [rewrite fconj_0; ring|]. cbn. apply Z.leb_gt. lia. }
  pose proof (SUM X EX) as SX. pose proof (SUM Y EY) as SY. clear SUM EX EY.
  assert (G : forall d j, Z.to_nat j = d -> forall i, (0 <= j <= i)%Z -> (i < n)%Z -> X i j = Y i j).
  { induction d as [d IH] using lt_wf_ind. intros j Q i L Ln.
    assert (COL : forall i', (j <= i')%Z -> (i' < n)%Z -> X i' j * fconj (X j j) = Y i' j * fconj (Y j j)).
    { intros i' L1 L2. pose proof (SX i' j ltac:(lia) L2) as E1. pose proof (SY i' j ltac:(lia) L2) as E2.
      rewrite (fsum_ext 0 j (fun r => X i' r * fconj (X j r)) (fun r => Y i' r * fconj (Y j r))) in E1.
      - set (s := fsum 0 j (fun r => Y i' r * fconj (Y j r))) in *.
        replace (X i' j * fconj (X j j)) with ((s + X i' j * fconj (X j j)) - s) by ring. rewrite E1, <- E2. ring.
      - intros r Lr. rewrite (IH (Z.to_nat r) ltac:(lia) r eq_refl i') by lia. rewrite (IH (Z.to_nat r) ltac:(lia) r eq_refl j) by lia. reflexivity. }
    assert (DG : X j j = Y j j). { apply fpos_sq; [apply PX; lia|apply PY; lia|]. apply COL; lia. }
    apply (fmul_cancel_r _ _ (fconj (X j j))); [apply fconj_neq; apply fpos_neq; apply PX; lia|].
    rewrite (COL i) by lia. rewrite DG. reflexivity. }
  intros i j Li Lj T. cbn in T. apply Z.leb_le in T. eapply G; [reflexivity|lia|lia].
Qed.
End unique.
