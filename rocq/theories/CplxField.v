(** * The real and the complex numbers as exact scalars (Coq's Reals), with their square roots:
    the scalars for which the Householder-based algorithms are stated to work unconditionally. *)
From Coq Require Import ZArith Lia List Reals Lra Psatz.
From Verif Require Import Loop StarField DenseSpec HouseSpec.
Import ListNotations.
Local Open Scope R_scope.

(** ** Real numbers (float, double): conjugation is the identity *)
Definition real_field : starfield.
Proof.
  refine (StarField R 0 1 Rplus Rmult Rminus Ropp Rinv (fun x => x) (fun x => 0 < x) Req_EM_T _ _ _ _ _ _ _ _ _ _).
  - constructor; intros; ring.
  - lra.
  - lra.
  - intros x N. apply Rinv_l. exact N.
  - reflexivity.
  - reflexivity.
  - reflexivity.
  - intros x P. lra.
  - reflexivity.
  - intros x y P Q E. nra.
Defined.

(** ** Complex numbers (std::complex) *)
Definition cplx : Type := (R * R)%type.
Definition c_add (x y : cplx) : cplx := (fst x + fst y, snd x + snd y).
Definition c_mul (x y : cplx) : cplx := (fst x * fst y - snd x * snd y, fst x * snd y + snd x * fst y).
Definition c_opp (x : cplx) : cplx := (- fst x, - snd x).
Definition c_sub (x y : cplx) : cplx := c_add x (c_opp y).
Definition c_conj (x : cplx) : cplx := (fst x, - snd x).
Definition c_norm (x : cplx) : R := fst x * fst x + snd x * snd x.
Definition c_inv (x : cplx) : cplx := (fst x / c_norm x, - snd x / c_norm x).
Definition c_pos (x : cplx) : Prop := snd x = 0 /\ 0 < fst x.
Lemma c_norm_neq : forall x, x <> (0, 0) -> c_norm x <> 0.
Proof.
  intros [a b] N E. unfold c_norm in E. cbn in E. apply N.
  assert (a = 0) by nra. assert (b = 0) by nra. subst. reflexivity.
Qed.
Lemma c_ring : ring_theory (0, 0) (1, 0) c_add c_mul c_sub c_opp (@eq cplx).
Proof.
  constructor; intros; unfold c_add, c_mul, c_sub, c_opp, c_add;
  repeat match goal with x : cplx |- _ => destruct x | x : (R * R)%type |- _ => destruct x end; cbn [fst snd]; try (f_equal; ring); reflexivity.
Qed.
Lemma c_inv_l : forall x, x <> (0, 0) -> c_mul (c_inv x) x = (1, 0).
Proof.
  intros x N. pose proof (c_norm_neq x N) as M. destruct x as [a b]. unfold c_mul, c_inv. cbn [fst snd] in *.
  unfold c_norm in *. cbn [fst snd] in *. f_equal; field; exact M.
Qed.
Definition c_eq_dec (x y : cplx) : {x = y} + {x <> y}.
Proof. decide equality; apply Req_EM_T. Defined.
Definition complex_field : starfield.
Proof.
  refine (StarField cplx (0, 0) (1, 0) c_add c_mul c_sub c_opp c_inv c_conj c_pos c_eq_dec c_ring _ _ c_inv_l _ _ _ _ _ _).
  - intros E. apply (f_equal fst) in E. cbn in E. lra.
  - intros E. apply (f_equal fst) in E. cbn in E. lra.
  - intros [a b] [c d]. unfold c_conj, c_add. cbn [fst snd]. f_equal; ring.
  - intros [a b] [c d]. unfold c_conj, c_mul. cbn [fst snd]. f_equal; ring.
  - intros [a b]. unfold c_conj. cbn [fst snd]. f_equal; ring.
  - intros [a b] [E P] Q. apply (f_equal fst) in Q. cbn in *. lra.
  - intros [a b] [E _]. cbn in E. subst b. unfold c_conj. cbn [fst snd]. f_equal. ring.
  - intros [a b] [c d] [A0 A] [B0 B] E. unfold c_mul, c_conj in E. cbn [fst snd] in *. subst b d.
    apply (f_equal fst) in E. cbn [fst] in E. f_equal. nra.
Defined.

(** ** Square roots *)
Lemma r_norm2 : forall n (x : Z -> R), norm2 (K := real_field) n x = fold_right (fun i s => x i * x i + s) 0 (zrange 0 n).
Proof. reflexivity. Qed.
Lemma sumsq_nonneg : forall {A} (f : A -> R) l, (forall a, 0 <= f a) -> 0 <= fold_right (fun a s => f a + s) 0 l.
Proof. intros A f l P. induction l as [|a l IH]; cbn; [lra|]. specialize (P a). lra. Qed.
Lemma sumsq_ge : forall {A} (f : A -> R) l a, (forall a, 0 <= f a) -> In a l -> f a <= fold_right (fun a s => f a + s) 0 l.
Proof.
  intros A f l a P. induction l as [|b l IH]; intros I0; [destruct I0|]. cbn. pose proof (P b). pose proof (sumsq_nonneg f l P).
  destruct I0 as [->|I0]; [lra|]. specialize (IH I0). lra.
Qed.
Definition r_neg (x : R) : bool := if Rlt_dec x 0 then true else false.
Definition real_roots : roots real_field.
Proof.
  assert (NN : forall n (x : Z -> R), 0 <= norm2 (K := real_field) n x).
  { intros n x. rewrite r_norm2. apply (sumsq_nonneg (fun i => x i * x i)). intros; nra. }
  assert (GE : forall n (x : Z -> R) i, (0 <= i < n)%Z -> x i * x i <= norm2 (K := real_field) n x).
  { intros n x i Li. rewrite r_norm2. apply (sumsq_ge (fun i => x i * x i)); [intros; nra|]. apply in_zrange. exact Li. }
  refine (Roots real_field sqrt r_neg _ _ _ _).
  - intros n x E i Li. specialize (GE n x i Li). cbn in E. rewrite E in GE. cbn in *. nra.
  - intros n x N. apply sqrt_sqrt. apply NN.
  - reflexivity.
  - intros n x Ln N. specialize (NN n x). cbn in N. set (s := norm2 (K := real_field) n x) in *. cbn.
    assert (0 < s) by lra. pose proof (sqrt_lt_R0 s H). unfold r_neg. destruct (Rlt_dec (x 0%Z) 0); lra.
Defined.

Lemma c_norm2 : forall n (x : Z -> cplx), norm2 (K := complex_field) n x = (fold_right (fun i s => c_norm (x i) + s) 0 (zrange 0 n), 0).
Proof.
  intros n x. unfold norm2, fsum. induction (zrange 0 n) as [|a l IH]; [reflexivity|]. cbn [fold_right]. rewrite IH.
  cbn [fadd fmul fconj complex_field]. unfold c_add, c_mul, c_conj, c_norm. cbn [fst snd]. f_equal; ring.
Qed.
Definition c_rt (x : cplx) : cplx := (sqrt (fst x), 0).
Definition c_neg (x : cplx) : bool := r_neg (fst x).
Definition complex_roots : roots complex_field.
Proof.
  assert (NP : forall z, 0 <= c_norm z) by (intros [a b]; unfold c_norm; cbn; nra).
  refine (Roots complex_field c_rt c_neg _ _ _ _).
  - intros n x E i Li. rewrite c_norm2 in E. apply (f_equal (fun z : cplx => fst z)) in E. cbn [fst f0 complex_field] in E.
    assert (GE := sumsq_ge (fun i => c_norm (x i)) (zrange 0 n) i (fun i => NP (x i)) (proj2 (in_zrange 0 n i) Li)). cbn beta in GE. rewrite E in GE.
    destruct (c_eq_dec (x i) (0, 0)) as [Q|Q]; [exact Q|]. exfalso. apply (c_norm_neq _ Q). specialize (NP (x i)). lra.
  - intros n x N. rewrite c_norm2. set (s := fold_right _ 0 (zrange 0 n)). unfold c_rt. cbn [fst fmul complex_field]. unfold c_mul. cbn [fst snd].
    assert (0 <= s) by (apply (sumsq_nonneg (fun i => c_norm (x i))); intros; apply NP). rewrite sqrt_sqrt by exact H. f_equal; ring.
  - intros n x N. unfold c_rt. cbn [fconj complex_field]. unfold c_conj. cbn [fst snd]. f_equal. ring.
  - intros n x Ln N E. rewrite c_norm2 in *. set (s := fold_right _ 0 (zrange 0 n)) in *.
    assert (0 <= s) by (apply (sumsq_nonneg (fun i => c_norm (x i))); intros; apply NP).
    assert (SN : s <> 0) by (intros Q; apply N; rewrite Q; reflexivity). assert (SP : 0 < s) by lra. pose proof (sqrt_lt_R0 s SP).
    unfold c_neg, c_rt, r_neg in E. cbn [fst] in E. apply (f_equal fst) in E. destruct (Rlt_dec (fst (x 0%Z)) 0); cbn in E; lra.
Defined.
