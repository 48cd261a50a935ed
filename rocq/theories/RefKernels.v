(** * Reference kernels: textbook BLAS/LAPACK in exact arithmetic.
    They meet the contracts [kernels_ok], so the theorems about the tiled algorithms are not vacuous. *)
From Coq Require Import ZArith Lia List Bool Znumtheory QArith Qcanon.
From Verif Require Import Loop StarField DenseSpec Tiling DenseJobs TileJobs CholeskyModel CholeskyProofs.
Import ListNotations.
Local Open Scope Z_scope.

Section ref.
Context {K : starfield} (fsqrt : F K -> F K) (SQ : forall x, fpos x -> fsqrt (fmul x (fconj x)) = x).
Local Open Scope sf_scope.
Add Ring KringR : (fring K).

(** forward substitution *)
Fixpoint fwd (M : mat K) (b : Z -> F K) (i : nat) : Z -> F K :=
  match i with
  | O => fun _ => 0
  | S i => let x := fwd M b i in let z := Z.of_nat i in
      fun r => if (r =? z)%Z then (b z - fsum 0 z (fun q => M z q * x q)) * finv (M z z) else x r
  end.
Lemma fwd_stable : forall M b i j r, (i <= j)%nat -> (r < Z.of_nat i)%Z -> fwd M b j r = fwd M b i r.
Proof.
  intros M b i j r L Q. induction L as [|j L IH]; [reflexivity|]. cbn [fwd]. destruct (Z.eqb_spec r (Z.of_nat j)); [lia|exact IH].
Qed.
Lemma fwd_ok : forall n M b, is_tri true n M -> forall i, (0 <= i < n)%Z -> fsum 0 n (fun r => M i r * fwd M b (Z.to_nat n) r) = b i.
Proof.
  intros n M b [D T] i L. rewrite (fsum_app 0 (i + 1) n) by lia. rewrite (fsum_0 (i + 1) n).
  - rewrite fsum_snoc by lia.
    rewrite (fsum_ext 0 i _ (fun r => M i r * fwd M b (Z.to_nat i) r)).
    + rewrite (fwd_stable M b (S (Z.to_nat i))) by lia. cbn [fwd]. rewrite Z2Nat.id by lia. rewrite Z.eqb_refl.
      set (s := fsum 0 i (fun q => M i q * fwd M b (Z.to_nat i) q)).
      transitivity (s + (b i - s) * (finv (M i i) * M i i)); [ring|]. rewrite finv_l by (apply D; exact L). ring.
    + intros r Lr. rewrite (fwd_stable M b (Z.to_nat i) (Z.to_nat n)) by lia. reflexivity.
  - intros r Lr. rewrite T by lia. ring.
Qed.
Lemma fsum_rev : forall n (f : Z -> F K), (0 <= n)%Z -> fsum 0 n f = fsum 0 n (fun r => f (n - 1 - r)%Z).
Proof.
  intros n f L. remember (Z.to_nat n) as d eqn:E. revert n f L E. induction d as [|d IH]; intros n f L E.
  - rewrite !fsum_nil by lia. reflexivity.
  - replace n with (n - 1 + 1)%Z at 1 by lia. rewrite fsum_snoc by lia. rewrite (fsum_cons 0 n) by lia.
    rewrite (IH (n - 1)%Z) by lia. replace (n - 1 - 0)%Z with (n - 1)%Z by lia.
    assert (SH : forall g : Z -> F K, fsum (0 + 1) n g = fsum 0 (n - 1) (fun i => g (i + 1)%Z)).
    { intros g. replace n with (n - 1 + 1)%Z at 1 by lia. apply (fsum_shift 1 0 (n - 1)). }
    rewrite SH.
    rewrite (fsum_ext 0 (n - 1) (fun r => f (n - 1 - 1 - r)%Z) (fun i => f (n - 1 - (i + 1))%Z)); [ring|].
    intros i _. f_equal. lia.
Qed.
(** solve M x = b, M lower (low) or upper triangular *)
Definition solve (low : bool) (n : Z) (M : mat K) (b : Z -> F K) : Z -> F K :=
  if low then fwd M b (Z.to_nat n)
  else fun r => fwd (fun i q => M (n - 1 - i) (n - 1 - q))%Z (fun i => b (n - 1 - i)%Z) (Z.to_nat n) (n - 1 - r)%Z.
Lemma solve_ok : forall low n M b, is_tri low n M -> forall i, (0 <= i < n)%Z -> fsum 0 n (fun r => M i r * solve low n M b r) = b i.
Proof.
  intros low n M b TR i L. unfold solve. destruct low; [apply fwd_ok; assumption|]. destruct TR as [D T].
  rewrite fsum_rev by lia. set (M' := fun i q => M (n - 1 - i)%Z (n - 1 - q)%Z).
  assert (TR' : is_tri true n M').
  { split; [intros a La; apply D; lia|]. intros a r La Lr Q. apply T; lia. }
  pose proof (fwd_ok n M' (fun i => b (n - 1 - i)%Z) TR' (n - 1 - i)%Z ltac:(lia)) as E. cbn beta in E.
  replace (n - 1 - (n - 1 - i))%Z with i in E by lia. rewrite <- E. apply fsum_ext. intros r Lr.
  replace (n - 1 - (n - 1 - r))%Z with r by lia. unfold M'. replace (n - 1 - (n - 1 - i))%Z with i by lia. reflexivity.
Qed.

Definition r_gemm oa ob (m n k : Z) al A B be C : mat K := fun i j => al * mmul k (opm oa A) (opm ob B) i j + be * C i j.
Definition r_hemm s u (m n : Z) al A B be C : mat K := fun i j =>
  al * match s with Left => mmul m (herm u A) B i j | Right => mmul n B (herm u A) i j end + be * C i j.
Definition r_herk u o (n k : Z) al A be C : mat K := fun i j => if in_tri u i j then al * gram o k A A i j + be * C i j else C i j.
Definition r_her2k u o (n k : Z) al A B be C : mat K := fun i j =>
  if in_tri u i j then al * gram o k A B i j + fconj al * gram o k B A i j + be * C i j else C i j.
Definition r_trmm s u o d (m n : Z) al A B : mat K := fun i j =>
  al * match s with Left => mmul m (opm o (trim u d A)) B i j | Right => mmul n B (opm o (trim u d A)) i j end.
Definition r_trsm s u o d (m n : Z) al A B : mat K := fun i j =>
  match s with
  | Left => solve (eff_low u o) m (opm o (trim u d A)) (fun i => al * B i j) i
  | Right => solve (negb (eff_low u o)) n (fun q r => opm o (trim u d A) r q) (fun j => al * B i j) j
  end.
(** columns 0 .. j-1 of the Cholesky factor *)
Fixpoint chol (A : mat K) (j : nat) : mat K :=
  match j with
  | O => fun _ _ => 0
  | S j => let T := chol A j in let z := Z.of_nat j in
      let d := fsqrt (A z z - fsum 0 z (fun r => T z r * fconj (T z r))) in
      fun i c => if (c =? z)%Z then (if (i =? z)%Z then d else (A i z - fsum 0 z (fun r => T i r * fconj (T z r))) * finv (fconj d)) else T i c
  end.
Definition r_potrf u (n : Z) A : mat K := fun i j => if in_tri u i j then orm u (chol (orm u A) (Z.to_nat n)) i j else A i j.
(** T^-1 A T^-H, resp. T^-H A T^-1 *)
Definition r_hegst u (n : Z) A T : mat K := fun i j => if in_tri u i j then
    let o := match u with Lower => NoTrans | Upper => ConjTrans end in
    let o' := match u with Lower => ConjTrans | Upper => NoTrans end in
    r_trsm Right u o' NonUnit n n 1 T (r_trsm Left u o NonUnit n n 1 T (herm u A)) i j
  else A i j.
Definition r_trtri u d (n : Z) A : mat K := fun i j =>
  if in_tri u i j then match d with Unit => if (i =? j)%Z then A i j else r_trsm Left u NoTrans d n n 1 A ident i j | NonUnit => r_trsm Left u NoTrans d n n 1 A ident i j end
  else A i j.
Definition r_lauum u (n : Z) A : mat K := fun i j => if in_tri u i j then
    match u with
    | Lower => mmul n (opm ConjTrans (trim Lower NonUnit A)) (trim Lower NonUnit A)
    | Upper => mmul n (trim Upper NonUnit A) (opm ConjTrans (trim Upper NonUnit A)) end i j
  else A i j.
Definition ref_kernels : kernels K :=
  Kernels r_gemm r_hemm r_herk r_her2k r_trmm r_trsm r_potrf r_hegst r_trtri r_lauum.

Lemma r_trsm_ok : forall s u o d m n al A B, nonsingular d (match s with Left => m | Right => n end) A ->
  is_trsm s u o d m n al A B (r_trsm s u o d m n al A B).
Proof.
  intros s u o d m n al A B N i j Li Lj. destruct s; unfold mmul.
  - apply (solve_ok (eff_low u o) m (opm o (trim u d A)) (fun i => al * B i j)); [|exact Li]. apply op_trim_tri. exact N.
  - rewrite <- (solve_ok (negb (eff_low u o)) n (fun q r => opm o (trim u d A) r q) (fun j => al * B i j)) with (i := j); [|split|exact Lj].
    + apply fsum_ext. intros r _. cbn [r_trsm]. ring.
    + apply (op_trim_tri u o d n A N).
    + intros p q Lp Lq Q. destruct (op_trim_tri u o d n A N) as [_ T]. apply T; try assumption. destruct (eff_low u o); exact Q.
Qed.
Lemma chol_stable : forall A i j r c, (i <= j)%nat -> (c < Z.of_nat i)%Z -> chol A j r c = chol A i r c.
Proof.
  intros A i j r c L Q. induction L as [|j L IH]; [reflexivity|]. cbn [chol]. destruct (Z.eqb_spec c (Z.of_nat j)); [lia|exact IH].
Qed.
Lemma chol_ok : forall n A T, is_factor Lower n A T -> meq_tri Lower n (chol A (Z.to_nat n)) T.
Proof.
  intros n A T [P E].
  assert (SX : forall i j, (0 <= j <= i)%Z -> (i < n)%Z -> fsum 0 j (fun r => T i r * fconj (T j r)) + T i j * fconj (T j j) = A i j).
  { intros i j L Ln. rewrite <- (E i j) by (cbn; rewrite ?Z.leb_le; lia). unfold mmul.
    rewrite (fsum_app 0 (j + 1) n) by lia. rewrite (fsum_0 (j + 1) n).
    - rewrite fsum_snoc by lia. unfold opm.
      assert (TR : forall a b, (b <= a)%Z -> trim Lower NonUnit T a b = T a b).
      { intros a b Q. unfold trim. cbn [in_tri]. rewrite (proj2 (Z.leb_le b a) Q). destruct (Z.eqb_spec a b); subst; reflexivity. }
      rewrite !TR by lia. rewrite (fsum_ext 0 j (fun r => trim Lower NonUnit T i r * fconj (trim Lower NonUnit T j r)) (fun r => T i r * fconj (T j r))); [ring|].
      intros r Lr. rewrite !TR by lia. reflexivity.
    - intros r Lr. unfold opm. rewrite (trim_zero Lower NonUnit T j r); [rewrite fconj_0; ring|]. cbn. apply Z.leb_gt. lia. }
  assert (G : forall d i j, (Z.of_nat d <= n)%Z -> (0 <= j <= i)%Z -> (i < n)%Z -> (j < Z.of_nat d)%Z -> chol A d i j = T i j).
  { induction d as [|d IH]; intros i j Ld L Ln Q; [lia|]. cbn [chol]. destruct (Z.eqb_spec j (Z.of_nat d)) as [->|N]; [|apply IH; lia].
    set (z := Z.of_nat d) in *.
    assert (SE : forall a, (z <= a < n)%Z -> fsum 0 z (fun r => chol A d a r * fconj (chol A d z r)) = fsum 0 z (fun r => T a r * fconj (T z r))).
    { intros a La. apply fsum_ext. intros r Lr. rewrite !IH by lia. reflexivity. }
    assert (DG : fsqrt (A z z - fsum 0 z (fun r => chol A d z r * fconj (chol A d z r))) = T z z).
    { rewrite SE by lia. rewrite <- (SX z z) by lia. rewrite <- (SQ (T z z)) at 3 by (apply P; lia). f_equal. ring. }
    rewrite DG. destruct (Z.eqb_spec i z) as [->|N]; [reflexivity|]. rewrite SE by lia. rewrite <- (SX i z) by lia.
    transitivity (T i z * (fconj (T z z) * finv (fconj (T z z)))); [ring|]. rewrite finv_r by (apply fconj_neq; apply fpos_neq; apply P; lia). ring. }
  intros i j Li Lj Q. cbn in Q. apply Z.leb_le in Q. apply G; lia.
Qed.
Lemma r_potrf_ok : forall u n A, (exists T, is_factor u n A T) -> is_potrf u n A (r_potrf u n A).
Proof.
  intros u n A [T E]. split.
  - apply (factor_ext u n A A T); [exact E|intros i j _ _ _; reflexivity|]. intros i j Li Lj Q. unfold r_potrf. rewrite Q.
    pose proof (chol_ok n (orm u A) (orm u T) (factor_orm1 _ _ _ _ E)) as C.
    rewrite <- (orm_invol u T i j). destruct u; cbn [orm] in *; [symmetry; apply C; assumption|]. f_equal. symmetry. apply C; assumption.
  - intros i j Li Lj Q. unfold r_potrf. rewrite Q. reflexivity.
Qed.
Lemma mmul_assoc : forall a b (A B C : mat K) i j, mmul b (mmul a A B) C i j = mmul a A (mmul b B C) i j.
Proof.
  intros a b A B C i j. unfold mmul.
  rewrite (fsum_ext 0 b _ (fun r => fsum 0 a (fun q => A i q * B q r * C r j))) by (intros r _; rewrite <- fsum_mul_r; reflexivity).
  rewrite (fsum_ext 0 a _ (fun q => fsum 0 b (fun r => A i q * B q r * C r j))).
  - apply fsum_swap.
  - intros q _. rewrite <- fsum_mul_l. apply fsum_ext. intros r _. ring.
Qed.
Lemma mmul_meq : forall m k n (A A' B B' : mat K), meq m k A A' -> meq k n B B' -> meq m n (mmul k A B) (mmul k A' B').
Proof. intros m k n A A' B B' EA EB i j Li Lj. unfold mmul. apply fsum_ext. intros r Lr. rewrite (EA i r), (EB r j) by assumption. reflexivity. Qed.
Lemma mmul_ident_r : forall n (A : mat K) i j, (0 <= j < n)%Z -> mmul n A ident i j = A i j.
Proof.
  intros n A i j L. unfold mmul, ident. rewrite (fsum_one 0 n _ j L).
  - rewrite Z.eqb_refl. ring.
  - intros r _ N. destruct (Z.eqb_spec r j); [contradiction|ring].
Qed.
Lemma mmul_ident_l : forall n (A : mat K) i j, (0 <= i < n)%Z -> mmul n ident A i j = A i j.
Proof.
  intros n A i j L. unfold mmul, ident. rewrite (fsum_one 0 n _ i L).
  - rewrite Z.eqb_refl. ring.
  - intros r _ N. destruct (Z.eqb_spec i r); [subst; contradiction|ring].
Qed.
(** a right inverse of a triangular matrix is triangular with the inverse diagonal, and a left inverse *)
Lemma tri_inverse : forall low n (M X : mat K), is_tri low n M -> meq n n (mmul n M X) ident ->
  meq n n (mmul n X M) ident /\
  (forall i j, (0 <= i < n)%Z -> (0 <= j < n)%Z -> (if low then (i < j)%Z else (j < i)%Z) -> X i j = 0) /\
  (forall i, (0 <= i < n)%Z -> M i i * X i i = 1).
Proof.
  intros low n M X TR E.
  assert (Z0 : forall i j, (0 <= i < n)%Z -> (0 <= j < n)%Z -> (if low then (i < j)%Z else (j < i)%Z) -> X i j = 0).
  { destruct TR as [D T].
    assert (G : forall d i j, (if low then Z.to_nat i else Z.to_nat (n - i)) = d -> (0 <= i < n)%Z -> (0 <= j < n)%Z -> (if low then (i < j)%Z else (j < i)%Z) -> X i j = 0).
    { induction d as [d IH] using lt_wf_ind. intros i j Q Li Lj O. pose proof (E i j Li Lj) as Eij. unfold mmul, ident in Eij.
      assert (Nij : i <> j) by (destruct low; lia). rewrite (proj2 (Z.eqb_neq i j) Nij) in Eij.
      rewrite (fsum_one 0 n _ i Li) in Eij.
      - apply (fmul_integral _ (M i i)); [|apply D; exact Li]. rewrite <- Eij. ring.
      - intros r Lr N. destruct (Z.lt_ge_cases r i) as [Q1|Q1].
        + destruct low; [|rewrite T by lia; ring]. rewrite (IH (Z.to_nat r)) with (i := r); [ring|lia|lia|lia|lia|lia].
        + destruct low; [rewrite T by lia; ring|]. rewrite (IH (Z.to_nat (n - r))) with (i := r); [ring|lia|lia|lia|lia|lia]. }
    intros i j. apply (G _ i j eq_refl). }
  split; [|split; [exact Z0|]].
  - intros i j Li Lj. apply (tri_unique low n M (fun r => mmul n X M r j) (fun r => ident r j)); [exact TR| |exact Li].
    intros p Lp. fold (mmul n M (mmul n X M) p j). fold (mmul n M ident p j). rewrite <- mmul_assoc. rewrite mmul_ident_r by exact Lj.
    rewrite <- (mmul_ident_l n M p j Lp). apply (mmul_meq n n n); try assumption. intros a b _ _. reflexivity.
  - intros i Li. pose proof (E i i Li Li) as Eii. unfold mmul, ident in Eii. rewrite Z.eqb_refl in Eii. rewrite <- Eii.
    symmetry. apply (fsum_one 0 n (fun r => M i r * X r i) i Li). intros r Lr N. destruct TR as [D T].
    destruct (Z.lt_ge_cases r i) as [Q1|Q1].
    + destruct low; [rewrite (Z0 r i) by lia; ring|rewrite T by lia; ring].
    + destruct low; [rewrite T by lia; ring|rewrite (Z0 r i) by lia; ring].
Qed.
Lemma r_trtri_ok : forall u d n A, nonsingular d n A -> is_trtri u d n A (r_trtri u d n A).
Proof.
  intros u d n A N. set (X := r_trsm Left u NoTrans d n n 1 A ident).
  assert (E : meq n n (mmul n (trim u d A) X) ident).
  { intros i j Li Lj. pose proof (r_trsm_ok Left u NoTrans d n n 1 A ident N i j Li Lj) as E. cbn beta iota in E. fold X in E.
    change (mmul n (trim u d A) X i j = ident i j). transitivity (1 * (ident i j : F K)); [exact E|]. ring. }
  pose proof (op_trim_tri u NoTrans d n A N) as TR.
  assert (TR' : is_tri (eff_low u NoTrans) n (trim u d A)) by exact TR.
  destruct (tri_inverse _ n _ X TR' E) as (E' & Z0 & DG).
  assert (TX : forall i j, (0 <= i < n)%Z -> (0 <= j < n)%Z -> trim u d (r_trtri u d n A) i j = X i j).
  { intros i j Li Lj. unfold trim. destruct (Z.eqb_spec i j) as [->|Nij].
    - destruct d.
      + unfold r_trtri. assert (Q : in_tri u j j = true) by (destruct u; cbn; apply Z.leb_refl). rewrite Q. reflexivity.
      + specialize (DG j Lj). unfold trim in DG. rewrite Z.eqb_refl in DG. rewrite <- DG. ring.
    - destruct (in_tri u i j) eqn:Q.
      + unfold r_trtri. rewrite Q. destruct d; [reflexivity|]. rewrite (proj2 (Z.eqb_neq i j) Nij). reflexivity.
      + symmetry. apply Z0; try assumption. destruct u; cbn in Q |- *; apply Z.leb_gt in Q; exact Q. }
  split; [|split; [|split]].
  - intros i j Li Lj. rewrite <- (E i j Li Lj). apply (mmul_meq n n n); [intros a b _ _; reflexivity|exact TX|exact Li|exact Lj].
  - intros i j Li Lj. rewrite <- (E' i j Li Lj). apply (mmul_meq n n n); [exact TX|intros a b _ _; reflexivity|exact Li|exact Lj].
  - intros i j Li Lj Q. unfold r_trtri. rewrite Q. reflexivity.
  - intros -> i Li. unfold r_trtri. rewrite Z.eqb_refl. destruct (in_tri u i i); reflexivity.
Qed.
(** two Hermitian right-hand sides *)
Lemma opm_invol : forall (A : mat K) i j, opm ConjTrans (opm ConjTrans A) i j = A i j.
Proof. intros. unfold opm. apply fconj_conj. Qed.
Lemma opm_mmul : forall k (A B : mat K) i j, opm ConjTrans (mmul k A B) i j = mmul k (opm ConjTrans B) (opm ConjTrans A) i j.
Proof. intros k A B i j. unfold opm, mmul. rewrite fsum_conj. apply fsum_ext. intros r _. rewrite fconj_mul. ring. Qed.
Lemma herm_herm : forall u n (A : mat K), real_diag n A -> meq n n (opm ConjTrans (herm u A)) (herm u A).
Proof.
  intros u n A RD i j Li Lj. unfold opm, herm. destruct (in_tri u j i) eqn:E1, (in_tri u i j) eqn:E2; try reflexivity.
  - assert (i = j) as ->; [|apply RD; exact Lj]. destruct u; cbn in E1, E2; apply Z.leb_le in E1, E2; lia.
  - apply fconj_conj.
  - destruct u; cbn in E1, E2; apply Z.leb_gt in E1, E2; lia.
Qed.
(** a matrix W with W = W^H is the Hermitian matrix stored in its triangle *)
Lemma herm_of_herm : forall u n (W : mat K), meq n n (opm ConjTrans W) W -> meq n n (herm u W) W.
Proof.
  intros u n W E i j Li Lj. unfold herm. destruct (in_tri u i j); [reflexivity|]. apply (E i j Li Lj).
Qed.
(** M W M^H = S determines W when M is triangular *)
Lemma cong_unique : forall low n (M W W' : mat K), is_tri low n M ->
  meq n n (mmul n (mmul n M W) (opm ConjTrans M)) (mmul n (mmul n M W') (opm ConjTrans M)) -> meq n n W W'.
Proof.
  intros low n M W W' TR E.
  assert (E1 : meq n n (mmul n M W) (mmul n M W')).
  { intros i j Li Lj. rewrite <- (fconj_conj K (mmul n M W i j)), <- (fconj_conj K (mmul n M W' i j)). f_equal.
    apply (tri_unique low n M (fun r => fconj (mmul n M W i r)) (fun r => fconj (mmul n M W' i r))); [exact TR| |exact Lj].
    intros p Lp. pose proof (E i p Li Lp) as Q. unfold mmul at 1 3 in Q. unfold opm in Q. apply (f_equal fconj) in Q. rewrite !fsum_conj in Q.
    transitivity (fsum 0 n (fun r => fconj (mmul n M W i r * fconj (M p r)))); [apply fsum_ext; intros r _; rewrite fconj_mul, fconj_conj; ring|].
    rewrite Q. apply fsum_ext. intros r _. rewrite fconj_mul, fconj_conj. ring. }
  intros i j Li Lj. apply (tri_unique low n M (fun r => W r j) (fun r => W' r j)); [exact TR| |exact Li].
  intros p Lp. apply (E1 p j Lp Lj).
Qed.
(** the effective left factor of the congruence of hegst *)
Definition hl (u : uplo) (T : mat K) : mat K := match u with Lower => trim Lower NonUnit T | Upper => opm ConjTrans (trim Upper NonUnit T) end.
Lemma is_hegst_alt : forall u n (A T A' : mat K), is_hegst u n A T A' <->
  meq n n (mmul n (mmul n (hl u T) (herm u A')) (opm ConjTrans (hl u T))) (herm u A) /\ real_diag n A' /\ meq_out u n A' A.
Proof.
  intros u n A T A'. unfold is_hegst. destruct u; cbn [hl]; [reflexivity|].
  assert (Q : forall i j, mmul n (mmul n (opm ConjTrans (trim Upper NonUnit T)) (herm Upper A')) (opm ConjTrans (opm ConjTrans (trim Upper NonUnit T))) i j =
    mmul n (mmul n (opm ConjTrans (trim Upper NonUnit T)) (herm Upper A')) (trim Upper NonUnit T) i j).
  { intros i j. unfold mmul at 1 3. apply fsum_ext. intros r _. rewrite opm_invol. reflexivity. }
  split; intros [E R]; (split; [|exact R]); intros i j Li Lj; [rewrite Q|rewrite <- Q]; apply E; assumption.
Qed.
Lemma hl_tri : forall u n T, nonsingular NonUnit n T -> is_tri true n (hl u T).
Proof.
  intros u n T N. destruct u; cbn [hl]; [exact (op_trim_tri Lower NoTrans NonUnit n T N)|exact (op_trim_tri Upper ConjTrans NonUnit n T N)].
Qed.
Lemma r_hegst_ok : forall u n A T, nonsingular NonUnit n T -> real_diag n A -> is_hegst u n A T (r_hegst u n A T).
Proof.
  intros u n A T N RD. apply is_hegst_alt.
  set (o := match u with Lower => NoTrans | Upper => ConjTrans end). set (o' := match u with Lower => ConjTrans | Upper => NoTrans end).
  set (Y := r_trsm Left u o NonUnit n n 1 T (herm u A)). set (W := r_trsm Right u o' NonUnit n n 1 T Y).
  assert (EY : meq n n (mmul n (hl u T) Y) (herm u A)).
  { intros i j Li Lj. pose proof (r_trsm_ok Left u o NonUnit n n 1 T (herm u A) N i j Li Lj) as E. cbn beta iota in E. fold Y in E.
    transitivity (1 * herm u A i j); [|ring]. rewrite <- E. destruct u; reflexivity. }
  assert (EW : meq n n (mmul n W (opm ConjTrans (hl u T))) Y).
  { intros i j Li Lj. pose proof (r_trsm_ok Right u o' NonUnit n n 1 T Y N i j Li Lj) as E. cbn beta iota in E. fold W in E.
    transitivity (1 * Y i j); [|ring]. rewrite <- E. destruct u; [reflexivity|]. unfold mmul. apply fsum_ext. intros r _. cbn [hl]. rewrite opm_invol. reflexivity. }
  assert (EM : meq n n (mmul n (mmul n (hl u T) W) (opm ConjTrans (hl u T))) (herm u A)).
  { intros i j Li Lj. rewrite mmul_assoc. rewrite <- (EY i j Li Lj). apply (mmul_meq n n n); try assumption. intros a b _ _. reflexivity. }
  assert (WH : meq n n (opm ConjTrans W) W).
  { apply (cong_unique true n (hl u T)); [apply hl_tri; exact N|]. intros i j Li Lj. rewrite (EM i j Li Lj).
    transitivity (opm ConjTrans (mmul n (mmul n (hl u T) W) (opm ConjTrans (hl u T))) i j).
    - rewrite opm_mmul, mmul_assoc. apply (mmul_meq n n n); try assumption.
      + intros a b _ _. rewrite opm_invol. reflexivity.
      + intros a b La Lb. rewrite opm_mmul. reflexivity.
    - rewrite <- (herm_herm u n A RD i j Li Lj). unfold opm. f_equal. apply EM; assumption. }
  assert (RW : forall i j, in_tri u i j = true -> r_hegst u n A T i j = W i j) by (intros i j Q; unfold r_hegst; rewrite Q; reflexivity).
  assert (HW : meq n n (herm u (r_hegst u n A T)) W).
  { intros i j Li Lj. rewrite <- (herm_of_herm u n W WH i j Li Lj). unfold herm. destruct (in_tri u i j) eqn:Q; [apply RW; exact Q|].
    f_equal. apply RW. destruct u; cbn in Q |- *; apply Z.leb_gt in Q; apply Z.leb_le; lia. }
  split; [|split].
  - intros i j Li Lj. rewrite <- (EM i j Li Lj). apply (mmul_meq n n n); [|intros a b _ _; reflexivity|exact Li|exact Lj].
    apply mmul_meq; [intros a b _ _; reflexivity|exact HW].
  - intros i Li. assert (Q : in_tri u i i = true) by (destruct u; cbn; apply Z.leb_refl). unfold real. rewrite !(RW i i Q). apply (WH i i Li Li).
  - intros i j Li Lj Q. unfold r_hegst. rewrite Q. reflexivity.
Qed.

Theorem ref_kernels_ok : kernels_ok ref_kernels.
Proof.
  split; cbn [gemm hemm herk her2k trmm trsm potrf hegst trtri lauum ref_kernels].
  - intros oa ob m n k al A B be C i j _ _. reflexivity.
  - intros s u m n al A B be C _ i j _ _. reflexivity.
  - intros u o n k al A be C _ _ _ _. split; intros i j _ _ Q; unfold r_herk; rewrite Q; reflexivity.
  - intros u o n k al A B be C _ _ _. split; intros i j _ _ Q; unfold r_her2k; rewrite Q; reflexivity.
  - intros s u o d m n al A B i j _ _. reflexivity.
  - apply r_trsm_ok.
  - apply r_potrf_ok.
  - apply r_hegst_ok.
  - apply r_trtri_ok.
  - intros u n A _. split; intros i j _ _ Q; unfold r_lauum; rewrite Q; reflexivity.
Qed.
End ref.

(** Square roots of squares of positive Gaussian rationals *)
Definition qc_sqrt (q : Qc) : Qc := Q2Qc (Z.sqrt (Qnum (this q)) # Z.to_pos (Z.sqrt (Z.pos (Qden (this q))))).
Lemma qc_sqrt_sq : forall x : Qc, (0 < x)%Qc -> qc_sqrt (x * x)%Qc = x.
Proof.
  intros [[n d] H] P. unfold Qclt in P. cbn in P. unfold Qlt in P. cbn in P. rewrite Z.mul_1_r in P.
  assert (G : Z.gcd n (Z.pos d) = 1%Z) by (apply (proj1 (Qred_iff (n # d))); exact H).
  assert (G2 : Z.gcd (n * n) (Z.pos d * Z.pos d) = 1%Z).
  { apply Zgcd_1_rel_prime in G. apply Zgcd_1_rel_prime.
    assert (R : rel_prime n (Z.pos d * Z.pos d)) by (apply rel_prime_mult; exact G).
    apply rel_prime_sym. apply rel_prime_sym in R. apply rel_prime_mult; exact R. }
  assert (E : this ({| this := n # d; canon := H |} * {| this := n # d; canon := H |})%Qc = (n * n # d * d)).
  { unfold Qcmult. cbn [this Q2Qc Qmult Qnum Qden]. apply (proj2 (Qred_iff (n * n # d * d))). cbn [Qnum Qden]. rewrite Pos2Z.inj_mul. exact G2. }
  unfold qc_sqrt. rewrite E. cbn [Qnum Qden]. rewrite Pos2Z.inj_mul, !Z.sqrt_square by lia. rewrite Pos2Z.id.
  apply Qc_is_canon. cbn [this Q2Qc]. apply Qred_correct.
Qed.
Definition gauss_sqrt (x : F gauss_field) : F gauss_field := (qc_sqrt (fst x), 0%Qc).
Lemma gauss_sqrt_ok : forall x : F gauss_field, fpos x -> gauss_sqrt (fmul x (fconj x)) = x.
Proof.
  intros [a b] [B P]. cbn in B, P. subst b. unfold gauss_sqrt. cbn [fmul fconj gauss_field g_mul g_conj fst snd].
  replace (a * a - 0 * - (0))%Qc with (a * a)%Qc by ring. rewrite qc_sqrt_sq by exact P. reflexivity.
Qed.
Definition gauss_kernels : kernels gauss_field := ref_kernels gauss_sqrt.
Theorem gauss_kernels_ok : kernels_ok gauss_kernels.
Proof. apply ref_kernels_ok. exact gauss_sqrt_ok. Qed.
