(** * Finite sums of real numbers, orthonormal systems. *)
From Coq Require Import ZArith Lia List Reals Lra Psatz.
From Verif Require Import Loop StarField CplxField.
Import ListNotations.
Local Open Scope R_scope.

Definition rsum (lo hi : Z) (f : Z -> R) : R := @fsum real_field lo hi f.
Section basic.
Implicit Types f g : Z -> R.
Lemma rsum_nil : forall lo hi f, (hi <= lo)%Z -> rsum lo hi f = 0.
Proof. exact (@fsum_nil real_field). Qed.
Lemma rsum_cons : forall lo hi f, (lo < hi)%Z -> rsum lo hi f = f lo + rsum (lo + 1) hi f.
Proof. exact (@fsum_cons real_field). Qed.
Lemma rsum_snoc : forall lo hi f, (lo <= hi)%Z -> rsum lo (hi + 1) f = rsum lo hi f + f hi.
Proof. exact (@fsum_snoc real_field). Qed.
Lemma rsum_ext : forall lo hi f g, (forall i, (lo <= i < hi)%Z -> f i = g i) -> rsum lo hi f = rsum lo hi g.
Proof. exact (@fsum_ext real_field). Qed.
Lemma rsum_0 : forall lo hi f, (forall i, (lo <= i < hi)%Z -> f i = 0) -> rsum lo hi f = 0.
Proof. exact (@fsum_0 real_field). Qed.
Lemma rsum_add : forall lo hi f g, rsum lo hi (fun i => f i + g i) = rsum lo hi f + rsum lo hi g.
Proof. exact (@fsum_add real_field). Qed.
Lemma rsum_sub : forall lo hi f g, rsum lo hi (fun i => f i - g i) = rsum lo hi f - rsum lo hi g.
Proof. exact (@fsum_sub real_field). Qed.
Lemma rsum_mul_l : forall c lo hi f, rsum lo hi (fun i => c * f i) = c * rsum lo hi f.
Proof. exact (@fsum_mul_l real_field). Qed.
Lemma rsum_mul_r : forall c lo hi f, rsum lo hi (fun i => f i * c) = rsum lo hi f * c.
Proof. exact (@fsum_mul_r real_field). Qed.
Lemma rsum_app : forall lo mid hi f, (lo <= mid <= hi)%Z -> rsum lo hi f = rsum lo mid f + rsum mid hi f.
Proof. exact (@fsum_app real_field). Qed.
Lemma rsum_swap : forall a b c d (f : Z -> Z -> R), rsum a b (fun i => rsum c d (fun j => f i j)) = rsum c d (fun j => rsum a b (fun i => f i j)).
Proof. exact (@fsum_swap real_field). Qed.
Lemma rsum_shift : forall s lo hi f, rsum (lo + s) (hi + s) f = rsum lo hi (fun i => f (i + s)%Z).
Proof. exact (@fsum_shift real_field). Qed.
Lemma rsum_one : forall lo hi f k, (lo <= k < hi)%Z -> (forall i, (lo <= i < hi)%Z -> i <> k -> f i = 0) -> rsum lo hi f = f k.
Proof. exact (@fsum_one real_field). Qed.
Lemma rsum_pick : forall lo hi f k, (lo <= k < hi)%Z -> rsum lo hi f = f k + rsum lo hi (fun i => if Z.eqb i k then 0 else f i).
Proof. exact (@fsum_pick real_field). Qed.
End basic.

Lemma rsum_ind : forall (P : Z -> Prop) lo hi, (lo <= hi)%Z -> P lo -> (forall k, (lo <= k < hi)%Z -> P k -> P (k + 1)%Z) -> P hi.
Proof.
  intros P lo hi L P0 PS. assert (X : forall m, (0 <= m)%Z -> (lo + m <= hi)%Z -> P (lo + m)%Z).
  { intros m Lm. pattern m. apply natlike_ind; [|intros x Lx IH B|exact Lm].
    - intros _. rewrite Z.add_0_r. exact P0.
    - unfold Z.succ in *. rewrite Z.add_assoc. apply PS; [lia|]. apply IH. lia. }
  specialize (X (hi - lo)%Z). replace (lo + (hi - lo))%Z with hi in X by lia. apply X; lia.
Qed.
Lemma rsum_le : forall lo hi f g, (forall i, (lo <= i < hi)%Z -> f i <= g i) -> rsum lo hi f <= rsum lo hi g.
Proof.
  intros lo hi f g H. destruct (Z.le_gt_cases hi lo) as [L|L]; [rewrite !rsum_nil by lia; lra|].
  apply (rsum_ind (fun k => (k <= hi)%Z -> rsum lo k f <= rsum lo k g) lo hi); [lia| | |lia].
  - intros _. rewrite !rsum_nil by lia. lra.
  - intros k Lk IH Lk'. rewrite !rsum_snoc by lia. specialize (H k Lk). specialize (IH ltac:(lia)). lra.
Qed.
Lemma rsum_nonneg : forall lo hi f, (forall i, (lo <= i < hi)%Z -> 0 <= f i) -> 0 <= rsum lo hi f.
Proof. intros lo hi f H. rewrite <- (rsum_0 lo hi (fun _ => 0)) by reflexivity. apply rsum_le. exact H. Qed.
Lemma rsum_abs : forall lo hi f, Rabs (rsum lo hi f) <= rsum lo hi (fun i => Rabs (f i)).
Proof.
  intros lo hi f. destruct (Z.le_gt_cases hi lo) as [L|L]; [rewrite !rsum_nil by lia; rewrite Rabs_R0; lra|].
  apply (rsum_ind (fun k => Rabs (rsum lo k f) <= rsum lo k (fun i => Rabs (f i))) lo hi); [lia| |].
  - rewrite !rsum_nil by lia. rewrite Rabs_R0; lra.
  - intros k Lk IH. rewrite !rsum_snoc by lia. eapply Rle_trans; [apply Rabs_triang|]. lra.
Qed.
Lemma rsum_const : forall lo hi c, (lo <= hi)%Z -> rsum lo hi (fun _ => c) = IZR (hi - lo) * c.
Proof.
  intros lo hi c L. apply (rsum_ind (fun k => rsum lo k (fun _ => c) = IZR (k - lo) * c) lo hi); [lia| |].
  - rewrite rsum_nil, Z.sub_diag by lia. ring.
  - intros k Lk IH. rewrite rsum_snoc, IH by lia. replace (k + 1 - lo)%Z with (k - lo + 1)%Z by lia. rewrite plus_IZR. ring.
Qed.
Lemma rsum_pos_0 : forall lo hi f, (forall i, (lo <= i < hi)%Z -> 0 <= f i) -> rsum lo hi f <= 0 -> forall i, (lo <= i < hi)%Z -> f i = 0.
Proof.
  intros lo hi f H S i Li. rewrite (rsum_pick lo hi f i Li) in S.
  assert (0 <= rsum lo hi (fun j => if Z.eqb j i then 0 else f j)).
  { apply rsum_nonneg. intros j Lj. destruct (Z.eqb j i); [lra|apply H; exact Lj]. }
  specialize (H i Li). lra.
Qed.
Lemma rsum_ge_one : forall lo hi f i, (forall i, (lo <= i < hi)%Z -> 0 <= f i) -> (lo <= i < hi)%Z -> f i <= rsum lo hi f.
Proof.
  intros lo hi f i H Li. rewrite (rsum_pick lo hi f i Li).
  assert (0 <= rsum lo hi (fun j => if Z.eqb j i then 0 else f j)).
  { apply rsum_nonneg. intros j Lj. destruct (Z.eqb j i); [lra|apply H; exact Lj]. }
  lra.
Qed.

(** dot products *)
Definition dot (n : Z) (x y : Z -> R) : R := rsum 0 n (fun i => x i * y i).
Lemma dot_comm : forall n x y, dot n x y = dot n y x.
Proof. intros. apply rsum_ext. intros. ring. Qed.
Lemma dot_ext : forall n x y x' y', (forall i, (0 <= i < n)%Z -> x i = x' i) -> (forall i, (0 <= i < n)%Z -> y i = y' i) -> dot n x y = dot n x' y'.
Proof. intros n x y x' y' A B. apply rsum_ext. intros i L. rewrite A, B by exact L. reflexivity. Qed.
Lemma dot_pos : forall n x, 0 <= dot n x x.
Proof. intros. apply rsum_nonneg. intros. nra. Qed.
Lemma dot_sq : forall n x i, (0 <= i < n)%Z -> x i * x i <= dot n x x.
Proof. intros n x i L. apply (rsum_ge_one 0 n (fun i => x i * x i)); [intros; nra|exact L]. Qed.
(** Cauchy - Schwarz *)
Lemma cauchy : forall n x y, dot n x y * dot n x y <= dot n x x * dot n y y.
Proof.
  intros n x y. set (a := dot n x x). set (b := dot n x y). set (c := dot n y y).
  assert (Q : forall s t, 0 <= s * s * a + 2 * s * t * b + t * t * c).
  { intros s t. assert (E : s * s * a + 2 * s * t * b + t * t * c = dot n (fun i => s * x i + t * y i) (fun i => s * x i + t * y i)).
    { unfold a, b, c, dot. rewrite <- !rsum_mul_l, <- !rsum_add. apply rsum_ext. intros. ring. }
    rewrite E. apply dot_pos. }
  assert (A : 0 <= a) by apply dot_pos. assert (C : 0 <= c) by apply dot_pos.
  destruct (Req_dec c 0) as [Z|NZ].
  - (* c = 0 *) rewrite Z in Q |- *. assert (b = 0); [|nra]. destruct (Req_dec b 0) as [|NB]; [assumption|exfalso].
    pose proof (Q b (- (a + 1))) as Q1. assert (0 < b * b) by nra. nra.
  - pose proof (Q c (- b)) as Q1. assert (0 < c) by lra. assert (0 <= c * (a * c - b * b)) by nra. nra.
Qed.

(** ** Orthonormal columns *)
Definition kron (a b : Z) : R := if Z.eqb a b then 1 else 0.
Lemma kron_eq : forall a, kron a a = 1. Proof. intros. unfold kron. rewrite Z.eqb_refl. reflexivity. Qed.
Lemma kron_neq : forall a b, a <> b -> kron a b = 0. Proof. intros a b N. unfold kron. destruct (Z.eqb_spec a b); [contradiction|reflexivity]. Qed.
Lemma kron_sym : forall a b, kron a b = kron b a. Proof. intros. unfold kron. rewrite Z.eqb_sym. reflexivity. Qed.
Lemma sum_kron : forall n f a, (0 <= a < n)%Z -> rsum 0 n (fun b => kron a b * f b) = f a.
Proof.
  intros n f a L. rewrite (rsum_one 0 n _ a L); [rewrite kron_eq; ring|]. intros i _ N. rewrite kron_neq by auto. ring.
Qed.
Definition orthonormal (n : Z) (Q : Z -> Z -> R) : Prop :=
  forall a b, (0 <= a < n)%Z -> (0 <= b < n)%Z -> rsum 0 n (fun i => Q i a * Q i b) = kron a b.
(** the coordinates of x *)
Definition coord (n : Z) (Q : Z -> Z -> R) (x : Z -> R) (c : Z) : R := rsum 0 n (fun i => Q i c * x i).

Lemma orthonormal_ext : forall n P Q, (forall i j, (0 <= i < n)%Z -> (0 <= j < n)%Z -> P i j = Q i j) -> orthonormal n P -> orthonormal n Q.
Proof. intros n P Q E O a b La Lb. rewrite <- (O a b La Lb). apply rsum_ext. intros i Li. rewrite !E by assumption. reflexivity. Qed.
(** n orthonormal vectors of length n are complete *)
Lemma orthonormal_rows : forall n Q, (0 <= n)%Z -> orthonormal n Q -> forall i l, (0 <= i < n)%Z -> (0 <= l < n)%Z -> rsum 0 n (fun c => Q i c * Q l c) = kron i l.
Proof.
  intros n Q Ln O.
  (* the residual of e_i *)
  set (res := fun i l => kron i l - rsum 0 n (fun c => Q i c * Q l c)).
  assert (BES : forall i, (0 <= i < n)%Z -> rsum 0 n (fun l => res i l * res i l) = 1 - rsum 0 n (fun c => Q i c * Q i c)).
  { intros i Li. set (s := rsum 0 n (fun c => Q i c * Q i c)).
    assert (E1 : rsum 0 n (fun l => kron i l * res i l) = 1 - s) by (rewrite sum_kron by exact Li; unfold res; rewrite kron_eq; reflexivity).
    assert (E2 : forall c, (0 <= c < n)%Z -> rsum 0 n (fun l => Q l c * res i l) = 0).
    { intros c Lc. unfold res. rewrite (rsum_ext 0 n _ (fun l => kron i l * Q l c - Q l c * rsum 0 n (fun b => Q i b * Q l b))) by (intros; ring).
      rewrite rsum_sub, sum_kron by exact Li.
      rewrite (rsum_ext 0 n _ (fun l => rsum 0 n (fun b => Q i b * (Q l c * Q l b)))) by (intros; rewrite <- rsum_mul_l; apply rsum_ext; intros; ring).
      rewrite rsum_swap. rewrite (rsum_ext 0 n _ (fun b => kron c b * Q i b)).
      2: { intros b Lb. rewrite rsum_mul_l, O by assumption. ring. }
      rewrite sum_kron by exact Lc. ring. }
    rewrite (rsum_ext 0 n _ (fun l => kron i l * res i l - rsum 0 n (fun c => Q i c * (Q l c * res i l)))).
    2: { intros l Ll. unfold res at 1. rewrite Rmult_minus_distr_r. f_equal. rewrite <- rsum_mul_r. apply rsum_ext. intros; ring. }
    rewrite rsum_sub, E1, rsum_swap. rewrite (rsum_0 0 n (fun c => rsum 0 n (fun l => Q i c * (Q l c * res i l)))).
    2: { intros c Lc. rewrite rsum_mul_l, E2 by exact Lc. ring. }
    lra. }
  assert (TOT : rsum 0 n (fun i => 1 - rsum 0 n (fun c => Q i c * Q i c)) = 0).
  { rewrite rsum_sub, rsum_swap. rewrite (rsum_ext 0 n (fun c => rsum 0 n (fun i => Q i c * Q i c)) (fun _ => 1)).
    2: { intros c Lc. rewrite O by assumption. apply kron_eq. }
    lra. }
  intros i l Li Ll.
  assert (Z1 : rsum 0 n (fun l => res i l * res i l) = 0).
  { rewrite BES by exact Li. apply (rsum_pos_0 0 n (fun i => 1 - rsum 0 n (fun c => Q i c * Q i c))); [|lra|exact Li].
    intros j Lj. rewrite <- BES by exact Lj. apply rsum_nonneg. intros. nra. }
  assert (Z2 : res i l * res i l = 0). { apply (rsum_pos_0 0 n (fun l => res i l * res i l)); [intros; nra|lra|exact Ll]. }
  unfold res in Z2. nra.
Qed.
(** x = sum of its coordinates times the columns *)
Lemma coord_expand : forall n Q x l, (0 <= n)%Z -> orthonormal n Q -> (0 <= l < n)%Z -> rsum 0 n (fun c => Q l c * coord n Q x c) = x l.
Proof.
  intros n Q x l Ln O Ll. unfold coord.
  rewrite (rsum_ext 0 n _ (fun c => rsum 0 n (fun i => (Q l c * Q i c) * x i))) by (intros; rewrite <- rsum_mul_l; apply rsum_ext; intros; ring).
  rewrite rsum_swap. rewrite (rsum_ext 0 n _ (fun i => kron l i * x i)); [apply sum_kron; exact Ll|].
  intros i Li. rewrite rsum_mul_r, (orthonormal_rows n Q Ln O l i) by assumption. reflexivity.
Qed.
(** Parseval *)
Lemma parseval2 : forall n Q x y, (0 <= n)%Z -> orthonormal n Q -> dot n (coord n Q x) (coord n Q y) = dot n x y.
Proof.
  intros n Q x y Ln O. unfold dot at 1.
  rewrite (rsum_ext 0 n _ (fun c => rsum 0 n (fun i => x i * (Q i c * coord n Q y c)))).
  2: { intros c Lc. unfold coord at 1. rewrite <- rsum_mul_r. apply rsum_ext. intros; ring. }
  rewrite rsum_swap. apply rsum_ext. intros i Li. rewrite rsum_mul_l, coord_expand by assumption. reflexivity.
Qed.
Lemma parseval : forall n Q x, (0 <= n)%Z -> orthonormal n Q -> dot n (coord n Q x) (coord n Q x) = dot n x x.
Proof. intros. apply parseval2; assumption. Qed.
