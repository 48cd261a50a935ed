(** * Exact scalars: fields with an involution (conjugation), and finite sums over them.
    The element types of DLA-Future (float, double, complex<float>, complex<double>, types.h:69-120)
    are modelled by exact arithmetic: rounding is NOT modelled. *)
From Coq Require Import ZArith Lia List Ring QArith Qcanon.
From Verif Require Import Loop.
Import ListNotations.
Local Open Scope Z_scope.

(** A field with an involution; [fpos] is the set of admissible Cholesky diagonal entries (the
    positive reals), of which only what makes the factor unique is required. *)
Record starfield := StarField {
  F : Type;
  f0 : F; f1 : F;
  fadd : F -> F -> F; fmul : F -> F -> F; fsub : F -> F -> F; fopp : F -> F;
  finv : F -> F; fconj : F -> F;
  fpos : F -> Prop;
  feq_dec : forall x y : F, {x = y} + {x <> y};
  fring : ring_theory f0 f1 fadd fmul fsub fopp (@eq F);
  f1_neq : f1 <> f0;
  f2_neq : fadd f1 f1 <> f0;
  finv_l : forall x, x <> f0 -> fmul (finv x) x = f1;
  fconj_add : forall x y, fconj (fadd x y) = fadd (fconj x) (fconj y);
  fconj_mul : forall x y, fconj (fmul x y) = fmul (fconj x) (fconj y);
  fconj_conj : forall x, fconj (fconj x) = x;
  fpos_neq : forall x, fpos x -> x <> f0;
  fpos_real : forall x, fpos x -> fconj x = x;
  fpos_sq : forall x y, fpos x -> fpos y -> fmul x (fconj x) = fmul y (fconj y) -> x = y }.
Arguments f0 {_}. Arguments f1 {_}. Arguments fadd {_} _ _. Arguments fmul {_} _ _. Arguments fsub {_} _ _.
Arguments fopp {_} _. Arguments finv {_} _. Arguments fconj {_} _. Arguments fpos {_} _.

Declare Scope sf_scope.
Delimit Scope sf_scope with sf.
Infix "+" := fadd : sf_scope.
Infix "*" := fmul : sf_scope.
Infix "-" := fsub : sf_scope.
Notation "- x" := (fopp x) : sf_scope.
Notation "0" := f0 : sf_scope.
Notation "1" := f1 : sf_scope.

Section field.
Context {K : starfield}.
Local Open Scope sf_scope.
Add Ring Kring : (fring K).
Implicit Types x y z : F K.

Lemma fmul_cancel_r : forall x y z, z <> 0 -> x * z = y * z -> x = y.
Proof.
  intros x y z N E. assert (H : x * (finv z * z) = y * (finv z * z)).
  { replace (x * (finv z * z)) with (finv z * (x * z)) by ring. rewrite E. ring. }
  rewrite (finv_l K z N) in H. replace x with (x * 1) by ring. rewrite H. ring.
Qed.
Lemma fmul_integral : forall x y, x * y = 0 -> y <> 0 -> x = 0.
Proof. intros x y E N. apply (fmul_cancel_r _ _ y N). rewrite E. ring. Qed.
Lemma fconj_0 : fconj (0 : F K) = 0.
Proof.
  assert (H : fconj (0 + 0) = fconj (0 : F K) + fconj 0) by apply fconj_add.
  replace (0 + 0) with (0 : F K) in H by ring.
  assert (Q : fconj (0 : F K) - fconj 0 = fconj 0 + fconj 0 - fconj 0) by (rewrite <- H; reflexivity).
  ring_simplify in Q. symmetry. exact Q.
Qed.
Lemma fconj_1 : fconj (1 : F K) = 1.
Proof.
  assert (H : fconj (1 * fconj 1) = fconj 1 * fconj (fconj (1 : F K))) by apply fconj_mul.
  rewrite fconj_conj in H. replace (1 * fconj 1) with (fconj (1 : F K)) in H by ring. rewrite fconj_conj in H.
  rewrite H at 2. ring.
Qed.
Lemma fconj_opp : forall x, fconj (- x) = - fconj x.
Proof.
  intros x. assert (H : fconj (x + - x) = fconj x + fconj (- x)) by apply fconj_add.
  replace (x + - x) with (0 : F K) in H by ring. rewrite fconj_0 in H.
  replace (fconj (- x)) with ((fconj x + fconj (- x)) - fconj x) by ring. rewrite <- H. ring.
Qed.
Lemma fconj_sub : forall x y, fconj (x - y) = fconj x - fconj y.
Proof. intros x y. replace (x - y) with (x + - y) by ring. rewrite fconj_add, fconj_opp. ring. Qed.
Lemma fconj_neq : forall x, x <> 0 -> fconj x <> 0.
Proof. intros x N E. apply N. rewrite <- (fconj_conj K x), E. apply fconj_0. Qed.
Lemma finv_r : forall x, x <> 0 -> x * finv x = 1.
Proof. intros x N. rewrite <- (finv_l K x N). ring. Qed.
(** one half (gen_to_std/impl.h:71 uses -0.5) *)
Definition fhalf : F K := finv (1 + 1).
Lemma fhalf_2 : fhalf + fhalf = 1.
Proof. unfold fhalf. transitivity (finv (1 + 1) * (1 + 1) : F K); [ring|]. apply finv_l. apply f2_neq. Qed.

(** ** Finite sums over lo <= i < hi *)
Definition fsum (lo hi : Z) (f : Z -> F K) : F K := fold_right (fun i acc => f i + acc) 0 (zrange lo hi).

Lemma fsum_nil : forall lo hi f, (hi <= lo)%Z -> fsum lo hi f = 0.
Proof. intros. unfold fsum. rewrite zrange_nil by lia. reflexivity. Qed.
Lemma fsum_cons : forall lo hi f, (lo < hi)%Z -> fsum lo hi f = f lo + fsum (lo + 1) hi f.
Proof. intros. unfold fsum. rewrite zrange_cons by lia. reflexivity. Qed.
Lemma fold_plus_acc : forall (l : list Z) (f : Z -> F K) acc, fold_right (fun i a => f i + a) acc l = fold_right (fun i a => f i + a) 0 l + acc.
Proof. induction l as [|x l IH]; intros f acc; cbn; [ring|]. rewrite IH. ring. Qed.
Lemma fsum_snoc : forall lo hi f, (lo <= hi)%Z -> fsum lo (hi + 1) f = fsum lo hi f + f hi.
Proof.
  intros lo hi f L. unfold fsum. rewrite zrange_snoc by lia. rewrite fold_right_app. cbn. rewrite fold_plus_acc. ring.
Qed.
Lemma fsum_ext : forall lo hi f g, (forall i, (lo <= i < hi)%Z -> f i = g i) -> fsum lo hi f = fsum lo hi g.
Proof.
  intros lo hi f g E. unfold fsum.
  assert (H : forall l, (forall i, In i l -> f i = g i) -> fold_right (fun i a => f i + a) 0 l = fold_right (fun i a => g i + a) 0 l).
  { induction l as [|x l IH]; intros Q; cbn; [reflexivity|]. rewrite (Q x) by (left; reflexivity). rewrite IH; [reflexivity|].
    intros i I0. apply Q. right. exact I0. }
  apply H. intros i I0. apply E. apply in_zrange. exact I0.
Qed.
Lemma fsum_0 : forall lo hi f, (forall i, (lo <= i < hi)%Z -> f i = 0) -> fsum lo hi f = 0.
Proof.
  intros lo hi f E. rewrite (fsum_ext lo hi f (fun _ => 0) E). unfold fsum.
  induction (zrange lo hi) as [|x l IH]; cbn; [reflexivity|]. rewrite IH. ring.
Qed.
Lemma fsum_add : forall lo hi f g, fsum lo hi (fun i => f i + g i) = fsum lo hi f + fsum lo hi g.
Proof. intros. unfold fsum. induction (zrange lo hi) as [|x l IH]; cbn; [ring|]. rewrite IH. ring. Qed.
Lemma fsum_sub : forall lo hi f g, fsum lo hi (fun i => f i - g i) = fsum lo hi f - fsum lo hi g.
Proof. intros. unfold fsum. induction (zrange lo hi) as [|x l IH]; cbn; [ring|]. rewrite IH. ring. Qed.
Lemma fsum_opp : forall lo hi f, fsum lo hi (fun i => - f i) = - fsum lo hi f.
Proof. intros. unfold fsum. induction (zrange lo hi) as [|x l IH]; cbn; [ring|]. rewrite IH. ring. Qed.
Lemma fsum_mul_l : forall c lo hi f, fsum lo hi (fun i => c * f i) = c * fsum lo hi f.
Proof. intros. unfold fsum. induction (zrange lo hi) as [|x l IH]; cbn; [ring|]. rewrite IH. ring. Qed.
Lemma fsum_mul_r : forall c lo hi f, fsum lo hi (fun i => f i * c) = fsum lo hi f * c.
Proof. intros. unfold fsum. induction (zrange lo hi) as [|x l IH]; cbn; [ring|]. rewrite IH. ring. Qed.
Lemma fsum_conj : forall lo hi f, fconj (fsum lo hi f) = fsum lo hi (fun i => fconj (f i)).
Proof. intros. unfold fsum. induction (zrange lo hi) as [|x l IH]; cbn; [apply fconj_0|]. rewrite fconj_add, IH. reflexivity. Qed.
Lemma fsum_app : forall lo mid hi f, (lo <= mid <= hi)%Z -> fsum lo hi f = fsum lo mid f + fsum mid hi f.
Proof.
  intros lo mid hi f L. unfold fsum. rewrite (zrange_app lo mid hi) by lia. rewrite fold_right_app, fold_plus_acc. reflexivity.
Qed.
Lemma fsum_swap : forall a b c d (f : Z -> Z -> F K),
  fsum a b (fun i => fsum c d (fun j => f i j)) = fsum c d (fun j => fsum a b (fun i => f i j)).
Proof.
  intros a b c d f. unfold fsum at 1 4. induction (zrange a b) as [|x l IH]; cbn.
  - symmetry. apply fsum_0. reflexivity.
  - rewrite IH, <- fsum_add. reflexivity.
Qed.
Lemma fsum_shift : forall s lo hi f, fsum (lo + s) (hi + s) f = fsum lo hi (fun i => f (i + s)%Z).
Proof.
  intros s lo hi f. destruct (Z.le_gt_cases hi lo) as [L|L]; [rewrite !fsum_nil by lia; reflexivity|].
  remember (Z.to_nat (hi - lo)) as n eqn:E. revert lo L E. induction n as [|n IH]; intros lo L E; [lia|].
  rewrite fsum_cons by lia. rewrite (fsum_cons lo) by lia. f_equal.
  replace (lo + s + 1)%Z with (lo + 1 + s)%Z by lia.
  destruct (Z.le_gt_cases hi (lo + 1)) as [Q|Q]; [rewrite !fsum_nil by lia; reflexivity|]. apply IH; lia.
Qed.
Lemma fsum_one : forall lo hi f k, (lo <= k < hi)%Z -> (forall i, (lo <= i < hi)%Z -> i <> k -> f i = 0) -> fsum lo hi f = f k.
Proof.
  intros lo hi f k L E. rewrite (fsum_app lo k hi) by lia. rewrite (fsum_cons k) by lia.
  rewrite (fsum_0 lo k) by (intros; apply E; lia). rewrite (fsum_0 (k + 1) hi) by (intros; apply E; lia). ring.
Qed.
Lemma fsum_pick : forall lo hi f k, (lo <= k < hi)%Z -> fsum lo hi f = f k + fsum lo hi (fun i => if Z.eqb i k then 0 else f i).
Proof.
  intros lo hi f k L. rewrite !(fsum_app lo k hi) by lia. rewrite !(fsum_cons k hi) by lia. rewrite Z.eqb_refl.
  rewrite (fsum_ext lo k (fun i => if Z.eqb i k then 0 else f i) f).
  - rewrite (fsum_ext (k + 1) hi (fun i => if Z.eqb i k then 0 else f i) f); [ring|].
    intros i L'. destruct (Z.eqb_spec i k); [lia|reflexivity].
  - intros i L'. destruct (Z.eqb_spec i k); [lia|reflexivity].
Qed.
End field.

(** ** The Gaussian rationals: complex numbers with rational parts (used in the examples) *)
Section gauss.
Local Open Scope Qc_scope.
Definition gauss : Type := (Qc * Qc)%type.
Definition g_add (x y : gauss) : gauss := (fst x + fst y, snd x + snd y).
Definition g_mul (x y : gauss) : gauss := (fst x * fst y - snd x * snd y, fst x * snd y + snd x * fst y).
Definition g_opp (x : gauss) : gauss := (- fst x, - snd x).
Definition g_sub (x y : gauss) : gauss := g_add x (g_opp y).
Definition g_conj (x : gauss) : gauss := (fst x, - snd x).
Definition g_norm (x : gauss) : Qc := fst x * fst x + snd x * snd x.
Definition g_inv (x : gauss) : gauss := (fst x / g_norm x, - snd x / g_norm x).
Definition g_pos (x : gauss) : Prop := snd x = 0 /\ 0 < fst x.

Lemma qc_sq_nonneg : forall x : Qc, 0 <= x * x.
Proof.
  intros x. destruct (Qclt_le_dec x 0) as [L|L].
  - assert (A : 0 <= - x) by (rewrite <- (Qcplus_0_l (- x)); apply -> Qcle_minus_iff; apply Qclt_le_weak; exact L).
    replace (x * x) with (- x * - x) by ring. rewrite <- (Qcmult_0_l (- x)). apply Qcmult_le_compat_r; assumption.
  - rewrite <- (Qcmult_0_l x). apply Qcmult_le_compat_r; assumption.
Qed.
Lemma qc_sq_zero : forall x : Qc, x * x = 0 -> x = 0.
Proof. intros x E. destruct (Qcmult_integral x x E); assumption. Qed.
Lemma g_norm_neq : forall x, x <> (0, 0) -> g_norm x <> 0.
Proof.
  intros [a b] N E. unfold g_norm in E. cbn in E. apply N.
  pose proof (qc_sq_nonneg a) as A. pose proof (qc_sq_nonneg b) as B.
  assert (A0 : a * a = 0).
  { apply Qcle_antisym; [|exact A]. replace 0 with (a * a + b * b) by exact E.
    rewrite <- (Qcplus_0_r (a * a)) at 1. apply Qcplus_le_compat; [apply Qcle_refl|exact B]. }
  assert (B0 : b * b = 0) by (rewrite A0 in E; rewrite <- E; ring).
  rewrite (qc_sq_zero _ A0), (qc_sq_zero _ B0). reflexivity.
Qed.
Lemma g_ring : ring_theory (0, 0) (1, 0) g_add g_mul g_sub g_opp (@eq gauss).
Proof.
  constructor; intros; unfold g_add, g_mul, g_sub, g_opp, g_add;
  repeat match goal with x : gauss |- _ => destruct x | x : (Qc * Qc)%type |- _ => destruct x end; cbn [fst snd]; try (f_equal; ring); reflexivity.
Qed.
Lemma g_inv_l : forall x, x <> (0, 0) -> g_mul (g_inv x) x = (1, 0).
Proof.
  intros x N. pose proof (g_norm_neq x N) as M. destruct x as [a b]. unfold g_mul, g_inv. cbn [fst snd] in *.
  unfold g_norm in *. cbn [fst snd] in *. f_equal; field; exact M.
Qed.
Lemma g_pos_sq : forall x y, g_pos x -> g_pos y -> g_mul x (g_conj x) = g_mul y (g_conj y) -> x = y.
Proof.
  intros [a b] [c d] [A0 A] [B0 B] E. unfold g_mul, g_conj in E. cbn [fst snd] in *. subst b d.
  apply (f_equal fst) in E. cbn [fst] in E. f_equal.
  assert (H : (a - c) * (a + c) = 0).
  { replace ((a - c) * (a + c)) with (a * a - 0 * - 0 - (c * c - 0 * - 0)) by ring. rewrite E. ring. }
  destruct (Qcmult_integral _ _ H) as [Q|Q].
  - replace a with (a - c + c) by ring. rewrite Q. ring.
  - exfalso. assert (P : 0 < a + c).
    { apply Qclt_le_trans with a; [exact A|]. rewrite <- (Qcplus_0_r a) at 1. apply Qcplus_le_compat; [apply Qcle_refl|apply Qclt_le_weak; exact B]. }
    rewrite Q in P. apply (Qclt_not_eq _ _ P). reflexivity.
Qed.
Definition g_eq_dec (x y : gauss) : {x = y} + {x <> y}.
Proof. decide equality; apply Qc_eq_dec. Defined.
Definition gauss_field : starfield.
Proof.
  refine (StarField gauss (0, 0) (1, 0) g_add g_mul g_sub g_opp g_inv g_conj g_pos g_eq_dec g_ring _ _ g_inv_l _ _ _ _ _ g_pos_sq).
  - intros E. discriminate E.
  - intros E. discriminate E.
  - intros [a b] [c d]. unfold g_conj, g_add. cbn [fst snd]. f_equal; ring.
  - intros [a b] [c d]. unfold g_conj, g_mul. cbn [fst snd]. f_equal; ring.
  - intros [a b]. unfold g_conj. cbn [fst snd]. f_equal; ring.
  - intros [a b] [E P] Q. injection Q as Q1 Q2. cbn in *. subst a. apply (Qclt_not_eq _ _ P). reflexivity.
  - intros [a b] [E _]. cbn in E. subst b. unfold g_conj. cbn [fst snd]. reflexivity.
Defined.
End gauss.
