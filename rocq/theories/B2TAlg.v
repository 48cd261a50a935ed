(** * Reflectors that act on some rows only, applied in two stages (first the columns on the left, then the rest) *)
From Coq Require Import ZArith Lia List Bool Ring.
From Verif Require Import Loop StarField DenseSpec RefKernels HouseSpec HouseQR Red2BandSpec Red2BandTheory B2TModel B2TSpec.
Import ListNotations.
Local Open Scope Z_scope.

Section alg.
Context {K : starfield}.
Local Open Scope sf_scope.
Add Ring KringAL : (fring K).
(** v in the rows [j, j + n) *)
Definition at_rows (j n : Z) (v : Z -> F K) : Z -> F K := fun i => if ((j <=? i) && (i <? j + n))%Z then v (i - j)%Z else 0.
Definition hermitian (N : Z) (X : mat K) : Prop := forall i c, (0 <= i < N)%Z -> (0 <= c < N)%Z -> fconj (X c i) = X i c.
Variables (N j n : Z) (v : Z -> F K) (tau : F K).
Hypothesis Hj : (0 <= j)%Z.
Hypothesis Hn : (0 <= n)%Z.
Hypothesis HN : (j + n <= N)%Z.
Notation w := (at_rows j n v).
Notation H := (reflector tau w).

Lemma sum_rows : forall f : Z -> F K, (forall r, (0 <= r < N)%Z -> (r < j \/ j + n <= r)%Z -> f r = 0) -> fsum 0 N f = fsum 0 n (fun r => f (j + r)%Z).
Proof using Hj Hn HN.
  intros f Z0. rewrite (fsum_app 0 j N) by lia. rewrite (fsum_app j (j + n) N) by lia. rewrite (fsum_0 0 j), (fsum_0 (j + n) N) by (intros r Lr; apply Z0; lia).
  replace (fsum j (j + n) f) with (fsum (0 + j) (n + j) f) by (f_equal; lia). rewrite fsum_shift.
  rewrite (fsum_ext 0 n _ (fun r => f (j + r)%Z)) by (intros r _; f_equal; lia). ring.
Qed.
Lemma rows_in : forall r, (0 <= r < n)%Z -> w (j + r)%Z = v r.
Proof using. intros r Lr. unfold at_rows. replace ((j <=? j + r) && (j + r <? j + n))%Z with true by lia. f_equal. lia. Qed.
Lemma rows_out : forall i, (i < j \/ j + n <= i)%Z -> w i = 0.
Proof using. intros i Li. unfold at_rows. replace ((j <=? i) && (i <? j + n))%Z with false by lia. reflexivity. Qed.
Lemma rows_norm : norm2 N w = norm2 n v.
Proof using Hj Hn HN.
  unfold norm2. rewrite sum_rows; [|intros r Lr O; rewrite rows_out by exact O; ring]. apply fsum_ext. intros r Lr. rewrite rows_in by exact Lr. reflexivity.
Qed.
Lemma rows_unitary : tau + fconj tau = tau * fconj tau * norm2 n v -> unitary N H.
Proof using Hj Hn HN. intros E. apply refl_unitary. rewrite rows_norm. exact E. Qed.
(** H^H X *)
Lemma left_at : forall (X : mat K) i c, (0 <= i < N)%Z -> mmul N (adj H) X i c = X i c - fconj tau * w i * fsum 0 n (fun r => fconj (v r) * X (j + r)%Z c).
Proof using Hj Hn HN.
  intros X i c Li. rewrite (mmul_ext N _ (reflector (fconj tau) w) _ X) by (intros; first [apply adj_reflector | reflexivity]). rewrite mmul_refl_l by exact Li.
  f_equal. f_equal. rewrite sum_rows; [|intros r Lr O; rewrite rows_out by exact O; rewrite fconj_0; ring]. apply fsum_ext. intros r Lr. rewrite rows_in by exact Lr. reflexivity.
Qed.
Definition zvec (X : mat K) (i : Z) : F K := fsum 0 n (fun r => X i (j + r)%Z * v r).
Definition anum (X : mat K) : F K := fsum 0 n (fun r => fconj (v r) * zvec X (j + r)%Z).
Lemma right_at : forall (X : mat K) i c, (0 <= c < N)%Z -> mmul N X H i c = X i c - tau * zvec X i * fconj (w c).
Proof using Hj Hn HN.
  intros X i c Lc. rewrite mmul_refl_r by exact Lc. f_equal. f_equal. f_equal. unfold zvec. rewrite sum_rows; [|intros r Lr O; rewrite rows_out by exact O; ring].
  apply fsum_ext. intros r Lr. rewrite rows_in by exact Lr. reflexivity.
Qed.
Lemma two_sided : forall (X : mat K) i c, hermitian N X -> (0 <= i < N)%Z -> (0 <= c < N)%Z ->
  conjugate N (adj H) X i c = X i c - tau * zvec X i * fconj (w c) - fconj tau * w i * fconj (zvec X c) + tau * fconj tau * anum X * w i * fconj (w c).
Proof using Hj Hn HN.
  intros X i c HX Li Lc. unfold conjugate.
  rewrite (mmul_ext N (adj H) (adj H) _ (mmul N X H)) by (intros; first [reflexivity | apply mmul_ext; intros; first [reflexivity | apply adj_adj]]).
  rewrite left_at by exact Li. rewrite right_at by exact Lc.
  rewrite (fsum_ext 0 n _ (fun r => fconj (v r) * X (j + r)%Z c - tau * fconj (w c) * (fconj (v r) * zvec X (j + r)%Z))) by (intros r Lr; rewrite right_at by exact Lc; ring).
  rewrite fsum_sub, fsum_mul_l. fold (anum X).
  replace (fsum 0 n (fun r => fconj (v r) * X (j + r)%Z c)) with (fconj (zvec X c)); [ring|].
  unfold zvec. rewrite fsum_conj. apply fsum_ext. intros r Lr. rewrite fconj_mul, (HX (j + r)%Z c) by lia. ring.
Qed.
Lemma anum_real : forall X, hermitian N X -> fconj (anum X) = anum X.
Proof using Hj Hn HN.
  intros X HX. unfold anum. rewrite fsum_conj.
  rewrite (fsum_ext 0 n _ (fun r => fsum 0 n (fun s => fconj (v s) * X (j + s)%Z (j + r)%Z * v r))).
  - rewrite fsum_swap. apply fsum_ext. intros s Ls. unfold zvec. rewrite <- fsum_mul_l. apply fsum_ext. intros r Lr. ring.
  - intros r Lr. unfold zvec. rewrite fconj_mul, fconj_conj, fsum_conj, <- fsum_mul_l. apply fsum_ext. intros s Ls. rewrite fconj_mul, (HX (j + s)%Z (j + r)%Z) by lia. ring.
Qed.

(** the lower triangle of X with H^H applied to the columns on the left of j *)
Definition left_done (X S : mat K) : Prop := forall i c, (0 <= c <= i)%Z -> (i < N)%Z ->
  S i c = if ((c <? j) && (j <=? i))%Z then mmul N (adj H) X i c else X i c.
(** the rest of the transformation *)
Definition rest_done (S Y : mat K) : Prop := forall i c, (0 <= c <= i)%Z -> (i < N)%Z ->
  Y i c = if (c <? j)%Z then S i c else
    S i c - tau * zvec (herm Lower S) i * fconj (w c) - fconj tau * w i * fconj (zvec (herm Lower S) c) + tau * fconj tau * anum (herm Lower S) * w i * fconj (w c).
Lemma left_herm : forall X S, hermitian N X -> left_done X S -> forall i c, (j <= i < N)%Z -> (j <= c < N)%Z -> herm Lower S i c = X i c.
Proof using Hj.
  intros X S HX L i c Li Lc. unfold herm, in_tri. destruct (Z.leb_spec c i).
  - rewrite L by lia. replace (c <? j)%Z with false by lia. reflexivity.
  - rewrite L by lia. replace (i <? j)%Z with false by lia. cbn [andb]. apply HX; lia.
Qed.
Lemma apply_pending : forall X S Y, hermitian N X -> left_done X S -> rest_done S Y ->
  forall i c, (0 <= c <= i)%Z -> (i < N)%Z -> Y i c = conjugate N (adj H) X i c.
Proof using Hj Hn HN.
  intros X S Y HX L R i c Lc Li. rewrite two_sided by (assumption || lia). rewrite R by assumption.
  assert (ZE : forall i, (j <= i < N)%Z -> zvec (herm Lower S) i = zvec X i).
  { intros x Lx. apply fsum_ext. intros r Lr. rewrite (left_herm X S HX L) by lia. reflexivity. }
  assert (AE : anum (herm Lower S) = anum X) by (apply fsum_ext; intros r Lr; rewrite ZE by lia; reflexivity).
  destruct (Z.ltb_spec c j) as [C|C].
  - rewrite L by assumption. replace (c <? j)%Z with true by lia. rewrite (rows_out c) by lia. rewrite fconj_0. destruct (Z.leb_spec j i) as [J|J]; cbn [andb].
    + rewrite left_at by lia. replace (fsum 0 n (fun r => fconj (v r) * X (j + r)%Z c)) with (fconj (zvec X c)); [ring|].
      unfold zvec. rewrite fsum_conj. apply fsum_ext. intros r Lr. rewrite fconj_mul, (HX (j + r)%Z c) by lia. ring.
    + rewrite (rows_out i) by lia. ring.
  - rewrite !ZE, AE by lia. rewrite L by assumption. replace (c <? j)%Z with false by lia. reflexivity.
Qed.
End alg.

Section conj.
Context {K : starfield}.
Local Open Scope sf_scope.
Lemma hermitian_ext : forall N (X Y : mat K), meq N N X Y -> hermitian N X -> hermitian N Y.
Proof. intros N X Y E HX i c Li Lc. rewrite <- !E by assumption. apply HX; assumption. Qed.
Lemma hermitian_herm : forall N (S : mat K), real_diag N S -> hermitian N (herm Lower S).
Proof. intros N S R i c Li Lc. apply (herm_hermitian N); assumption. Qed.
Lemma hermitian_real : forall N (X : mat K), hermitian N X -> real_diag N X.
Proof. intros N X HX i Li. apply HX; assumption. Qed.
(** two Hermitian matrices with the same lower triangle *)
Lemma herm_lower : forall N (X Y : mat K), hermitian N X -> (forall i c, (0 <= c <= i)%Z -> (i < N)%Z -> Y i c = X i c) -> meq N N (herm Lower Y) X.
Proof.
  intros N X Y HX E i c Li Lc. unfold herm, in_tri. destruct (Z.leb_spec c i); [apply E; lia|]. rewrite E by lia. apply HX; assumption.
Qed.
Lemma undo : forall N (Q H X : mat K), unitary N H -> meq N N (conjugate N Q X) (conjugate N (mmul N Q H) (conjugate N (adj H) X)).
Proof.
  intros N Q H X [_ U] i c Li Lc. rewrite conj_mul. apply conj_ext; try assumption; [intros a d _ _; reflexivity|]. intros a d La Ld.
  rewrite <- conj_mul. unfold conjugate. symmetry. rewrite <- (mmul_ident_l N X a d La). apply mmul_ext; [intros r Lr; apply U; assumption|]. intros r Lr.
  rewrite <- (mmul_ident_r N X r d Ld). apply mmul_ext; [reflexivity|]. intros s Ls. rewrite adj_mmul.
  rewrite (mmul_ext N _ H _ (adj H)) by (intros; first [apply adj_adj | reflexivity]). apply U; assumption.
Qed.
End conj.
