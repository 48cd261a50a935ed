(** * The rank-one solver returns the eigenvalues and orthonormal eigenvectors of diag(d) + rho z z^T. *)
From Coq Require Import ZArith Lia List Bool Reals Lra Psatz Permutation.
From Verif Require Import CInt Loop DistModel StarField TridiagModel TridiagProofs TridiagDeflation DcSums DcSecular DcModel.
Import ListNotations.
Local Open Scope R_scope.

(** The contract of lapack::laed4 (LAPACK dlaed4.f, dlaed5.f): number i of the roots of the secular equation, for strictly ascending d,
    positive rho and z without zeros, of norm at most 1; for k = 1 the value; delta holds the differences d - lambda for k >= 3, the normalized eigenvector
    for k = 2, and 1 for k = 1. *)
Definition laed4_ok (laed4 : Z -> Z -> (Z -> R) -> (Z -> R) -> R -> (Z -> R) * R) : Prop :=
  forall k i d z rho delta lam, (0 <= i < k)%Z -> laed4 k i d z rho = (delta, lam) ->
  (k = 1%Z -> lam = d 0%Z + rho * (z 0%Z * z 0%Z) /\ delta 0%Z = 1) /\
  ((2 <= k)%Z -> (forall p q, (0 <= p < q)%Z -> (q < k)%Z -> d p < d q) -> 0 < rho -> (forall l, (0 <= l < k)%Z -> z l <> 0) -> rsum 0 k (fun l => z l * z l) <= 1 ->
     d i < lam /\ ((i + 1 < k)%Z -> lam < d (i + 1)%Z) /\ rsum 0 k (fun l => rho * (z l * z l) / (d l - lam)) = -1 /\
     (k = 2%Z -> rsum 0 k (fun l => delta l * delta l) = 1 /\ exists c, forall l, (0 <= l < k)%Z -> delta l = c * (z l / (d l - lam))) /\
     ((3 <= k)%Z -> forall l, (0 <= l < k)%Z -> delta l = d l - lam)).

(** ** Columns are independent *)
Lemma fold_cols : forall (f : Z -> (Z -> R) -> Z -> R), (forall j a b, (forall r, a r = b r) -> forall r, f j a r = f j b r) ->
  forall (stp : (Z -> Z -> R) -> Z -> Z -> Z -> R), (forall q j r c, stp q j r c = if Z.eqb c j then f j (fun r => q r j) r else q r c) ->
  forall ord, NoDup ord -> forall q r c, fold_left stp ord q r c = if existsb (Z.eqb c) ord then f c (fun r => q r c) r else q r c.
Proof.
  intros f FE stp SE ord ND. induction ND as [|a ord NI ND IH]; intros q r c; [reflexivity|]. cbn [fold_left existsb]. rewrite IH.
  destruct (Z.eqb_spec c a) as [->|N]; cbn [orb].
  - assert (existsb (Z.eqb a) ord = false) as ->. { apply not_true_is_false. intros E. apply existsb_exists in E as (x & I & E). apply Z.eqb_eq in E. subst x. contradiction. }
    rewrite SE, Z.eqb_refl. reflexivity.
  - destruct (existsb (Z.eqb c) ord) eqn:E.
    + apply FE. intros r'. rewrite SE. destruct (Z.eqb_spec c a); [contradiction|reflexivity].
    + rewrite SE. destruct (Z.eqb_spec c a); [contradiction|reflexivity].
Qed.
Lemma perm_exists : forall ord k c, Permutation ord (zrange 0 k) -> existsb (Z.eqb c) ord = (Z.leb 0 c && Z.ltb c k)%bool.
Proof.
  intros ord k c P. rewrite <- existsb_zrange. apply eq_true_iff_eq. rewrite !existsb_exists. split; intros (x & I & E); exists x; (split; [|exact E]).
  - eapply Permutation_in; eassumption.
  - eapply Permutation_in; [symmetry; exact P|exact I].
Qed.
Lemma perm_nodup : forall ord k, Permutation ord (zrange 0 k) -> NoDup ord.
Proof. intros ord k P. eapply Permutation_NoDup; [symmetry; exact P|apply zrange_NoDup]. Qed.

Section rank1.
Variable laed4 : Z -> Z -> (Z -> R) -> (Z -> R) -> R -> (Z -> R) * R.
Hypothesis LA : laed4_ok laed4.
Variable workers : Z.
Hypothesis LW : (1 <= workers)%Z.
Variables (nrtiles n k : Z) (rho : R) (d z evals : Z -> R) (i4 : Z -> Z) (ord : Z -> list Z) (q : Z -> Z -> R).
Hypothesis LT : (1 <= nrtiles)%Z.
Hypothesis LK : (1 <= k <= n)%Z.
Hypothesis ORD : forall s, Permutation (ord s) (zrange 0 k).
Hypothesis DASC : forall p r, (0 <= p < r)%Z -> (r < k)%Z -> d p < d r.
Hypothesis RHO : (2 <= k)%Z -> 0 < rho.
Hypothesis ZNZ : (2 <= k)%Z -> forall l, (0 <= l < k)%Z -> z l <> 0.
Hypothesis ZN : rsum 0 k (fun l => z l * z l) <= 1.
Hypothesis I4 : forall i, (0 <= i < n)%Z -> (0 <= i4 i)%Z /\ ((i4 i < k)%Z <-> (i < k)%Z).

Definition r1_lam (i : Z) : R := snd (laed4 k i d z rho).
Definition r1_delta (i l : Z) : R := fst (laed4 k i d z rho) l.

Lemma step1 : forall ev q', r1_step1 laed4 k rho d z (ord 1) evals q = (ev, q') ->
  (forall i, ev i = if (Z.leb 0 i && Z.ltb i k)%bool then r1_lam i else evals i) /\
  (forall r c, q' r c = if ((Z.leb 0 c && Z.ltb c k) && (Z.leb 0 r && Z.ltb r k))%bool then r1_delta c r else q r c).
Proof using ORD.
  intros ev q' E. unfold r1_step1 in E.
  assert (X : forall l ev q, fold_left (fun s i => let '(ev, q) := s in let '(delta, lam) := laed4 k i d z rho in (upd ev i lam, put_col k i delta q)) l (ev, q) =
     (fold_left (fun ev i => upd ev i (r1_lam i)) l ev, fold_left (fun q i => put_col k i (r1_delta i) q) l q)).
  { induction l as [|a l IH]; intros ev0 q0; [reflexivity|]. cbn [fold_left]. rewrite <- IH. unfold r1_lam, r1_delta. destruct (laed4 k a d z rho) as [de la]. reflexivity. }
  rewrite X in E. injection E as <- <-. split.
  - intros i. rewrite (fold_upd r1_lam). rewrite (perm_exists _ k) by apply ORD. reflexivity.
  - intros r c. rewrite (fold_cols (fun j col r => if (Z.leb 0 r && Z.ltb r k)%bool then r1_delta j r else col r)).
    + rewrite (perm_exists _ k) by apply ORD. destruct (Z.leb 0 c && Z.ltb c k)%bool; cbn [andb]; reflexivity.
    + intros j a b H r'. rewrite H. reflexivity.
    + intros q0 j r' c'. unfold put_col. destruct (Z.eqb_spec c' j) as [->|]; reflexivity.
    + eapply perm_nodup, ORD.
Qed.

Section big.
Hypothesis K2 : (2 <= k)%Z.
Lemma lam_facts : forall i, (0 <= i < k)%Z -> d i < r1_lam i /\ ((i + 1 < k)%Z -> r1_lam i < d (i + 1)%Z) /\
  rsum 0 k (fun l => rho * (z l * z l) / (d l - r1_lam i)) = -1 /\
  (k = 2%Z -> rsum 0 k (fun l => r1_delta i l * r1_delta i l) = 1 /\ exists c, forall l, (0 <= l < k)%Z -> r1_delta i l = c * (z l / (d l - r1_lam i))) /\
  ((3 <= k)%Z -> forall l, (0 <= l < k)%Z -> r1_delta i l = d l - r1_lam i).
Proof using LA DASC RHO ZNZ ZN K2.
  intros i Li. destruct (laed4 k i d z rho) as [de la] eqn:E. destruct (LA _ _ _ _ _ _ _ Li E) as [_ X].
  unfold r1_delta, r1_lam. rewrite E. cbn [fst snd]. apply X; auto.
Qed.
Lemma d_le : forall p r, (0 <= p <= r)%Z -> (r < k)%Z -> d p <= d r.
Proof using DASC. intros p r L1 L2. destruct (Z.eq_dec p r) as [->|N]; [lra|]. apply Rlt_le, DASC; lia. Qed.
Lemma lam_asc : forall p r, (0 <= p < r)%Z -> (r < k)%Z -> r1_lam p < r1_lam r.
Proof using LA DASC RHO ZNZ ZN K2.
  intros p r L1 L2. destruct (lam_facts p ltac:(lia)) as (_ & A & _). destruct (lam_facts r ltac:(lia)) as (B & _).
  specialize (A ltac:(lia)). pose proof (d_le (p + 1) r ltac:(lia) L2). lra.
Qed.
Lemma d_lam : forall l j, (0 <= l < k)%Z -> (0 <= j < k)%Z -> d l <> r1_lam j.
Proof using LA DASC RHO ZNZ ZN K2.
  intros l j Ll Lj. destruct (lam_facts j Lj) as (A & B & _). destruct (Z.le_gt_cases l j) as [L|L].
  - pose proof (d_le l j ltac:(lia) ltac:(lia)). lra.
  - specialize (B ltac:(lia)). pose proof (d_le (j + 1) l ltac:(lia) ltac:(lia)). lra.
Qed.
Lemma lam_neq : forall i j, (0 <= i < k)%Z -> (0 <= j < k)%Z -> i <> j -> r1_lam i <> r1_lam j.
Proof using LA DASC RHO ZNZ ZN K2.
  intros i j Li Lj N. destruct (Z.lt_trichotomy i j) as [L|[L|L]]; [|lia|]; [pose proof (lam_asc i j ltac:(lia) ltac:(lia))|pose proof (lam_asc j i ltac:(lia) ltac:(lia))]; lra.
Qed.
End big.

(** ** Weights *)
Lemma fold_mul : forall (f : Z -> R) l (w : Z -> R) i, NoDup l -> fold_left (fun w i => upd w i (w i * f i)) l w i = if existsb (Z.eqb i) l then w i * f i else w i.
Proof using.
  intros f l w i ND. revert w. induction ND as [|a l NI ND IH]; intros w; [reflexivity|]. cbn [fold_left existsb]. rewrite IH. destruct (Z.eqb_spec i a) as [->|N]; cbn [orb].
  - assert (existsb (Z.eqb a) l = false) as ->. { apply not_true_is_false. intros E. apply existsb_exists in E as (x & I & E). apply Z.eqb_eq in E. subst x. contradiction. }
    rewrite upd_eq. reflexivity.
  - rewrite upd_neq by exact N. reflexivity.
Qed.
Lemma but_split : forall j, (0 <= j < k)%Z -> but k j = zrange 0 j ++ zrange (j + 1) k.
Proof using.
  intros j Lj. unfold but. rewrite (zrange_app 0 j k) by lia. rewrite (zrange_cons j k) by lia. rewrite filter_app. cbn [filter]. rewrite Z.eqb_refl. cbn [negb].
  assert (A : forall l, (forall x, In x l -> x <> j) -> filter (fun l => negb (Z.eqb l j)) l = l).
  { induction l as [|x l IH]; intros H; [reflexivity|]. cbn. destruct (Z.eqb_spec x j) as [->|]; [exfalso; apply (H j); [left|]; reflexivity|]. cbn. rewrite IH by (intros; apply H; right; assumption). reflexivity. }
  rewrite !A; [reflexivity| |]; intros x I; apply in_zrange in I; lia.
Qed.
Definition zfac (d' : Z -> R) (q' : Z -> Z -> R) (i j : Z) : R := if Z.eqb i j then 1 else q' i j / (d' i - d' j).
Definition nthr := r1_nthreads workers nrtiles.
Lemma nthr_pos : (1 <= nthr)%Z.
Proof using LW LT.
  unfold nthr, r1_nthreads. destruct (Z.ltb_spec (ceilDiv nrtiles 2) 1); [lia|]. destruct (Z.ltb_spec workers (ceilDiv nrtiles 2)); lia.
Qed.
Lemma thread_range : forall j, (0 <= j < k)%Z -> (0 <= r1_thread k nthr j < nthr)%Z.
Proof using LW LT LK.
  intros j Lj. pose proof nthr_pos as NP. unfold r1_thread, r1_batch.
  assert (B : (0 < ceilDiv k nthr)%Z /\ (k <= ceilDiv k nthr * nthr)%Z).
  { unfold ceilDiv. rewrite Z.quot_div_nonneg by lia. pose proof (Z.div_mod (k + nthr - 1) nthr ltac:(lia)). pose proof (Z.mod_pos_bound (k + nthr - 1) nthr ltac:(lia)). nia. }
  destruct B as [B1 B2]. split; [apply Z.div_pos; lia|]. apply Z.div_lt_upper_bound; lia.
Qed.
Definition lprodz (f : Z -> R) (l : list Z) : R := fold_right (fun x p => f x * p) 1 l.
Lemma lprodz_perm : forall f l l', Permutation l l' -> lprodz f l = lprodz f l'.
Proof using. intros f l l' P. unfold lprodz. induction P; cbn; [reflexivity|rewrite IHP; reflexivity|ring|congruence]. Qed.
Lemma lprodz_app : forall f l l', lprodz f (l ++ l') = lprodz f l * lprodz f l'.
Proof using. intros f l l'. unfold lprodz. induction l as [|a l IH]; cbn; [ring|]. rewrite IH. ring. Qed.
Lemma lprodz_mul : forall f g l, lprodz (fun x => f x * g x) l = lprodz f l * lprodz g l.
Proof using. intros f g l. unfold lprodz. induction l as [|a l IH]; cbn; [ring|]. rewrite IH. ring. Qed.
Lemma lprodz_one : forall f l i, NoDup l -> In i l -> (forall x, In x l -> x <> i -> f x = 1) -> lprodz f l = f i.
Proof using.
  intros f l i ND I H. apply in_split in I as (l1 & l2 & ->). rewrite lprodz_app. assert (A : forall l0, (forall x, In x l0 -> f x = 1) -> lprodz f l0 = 1).
  { unfold lprodz. induction l0 as [|a l0 IH]; intros H0; [reflexivity|]. cbn. rewrite H0 by (left; reflexivity). rewrite IH by (intros; apply H0; right; assumption). ring. }
  apply NoDup_remove_2 in ND. unfold lprodz at 2. cbn. fold (lprodz f l2). rewrite !A; [ring| |].
  - intros x I. apply H; [apply in_or_app; right; right; exact I|]. intros ->. apply ND. apply in_or_app. right. exact I.
  - intros x I. apply H; [apply in_or_app; left; exact I|]. intros ->. apply ND. apply in_or_app. left. exact I.
Qed.
(** the product over the threads of their workspaces is the product over all columns *)
Lemma step2a : forall q' i, (0 <= i < k)%Z ->
  fold_left (fun w t => w * r1_step2a k nthr d (ord 2) q' t i) (zrange 1 nthr) (r1_step2a k nthr d (ord 2) q' 0 i) = q' i i * lprodz (zfac d q' i) (zrange 0 k).
Proof using LW LT LK ORD.
  intros q' i Li. pose proof nthr_pos as NP.
  assert (FL : forall (f : Z -> R) l w, fold_left (fun w t => w * f t) l w = w * lprodz f l).
  { intros f l. unfold lprodz. induction l as [|a l IH]; intros w; cbn; [ring|]. rewrite IH. ring. }
  rewrite FL. set (ws := r1_step2a k nthr d (ord 2) q').
  replace (ws 0%Z i * lprodz (fun t => ws t i) (zrange 1 nthr)) with (lprodz (fun t => ws t i) (zrange 0 nthr)) by (rewrite (zrange_cons 0 nthr) by lia; reflexivity).
  rewrite <- (lprodz_perm (zfac d q' i) _ _ (ORD 2)). unfold ws, r1_step2a.
  assert (RNG : forall j, In j (ord 2) -> (0 <= j < k)%Z) by (intros j I; apply in_zrange; eapply Permutation_in; [apply ORD|exact I]).
  assert (X : forall l, (forall j, In j l -> (0 <= j < k)%Z) -> forall w, lprodz (fun t => fold_left (fun ws j => upd ws (r1_thread k nthr j)
      (fold_left (fun w i => upd w i (w i * (q' i j / (d i - d j)))) (zrange 0 j ++ zrange (j + 1) k) (ws (r1_thread k nthr j)))) l w t i) (zrange 0 nthr)
      = lprodz (fun t => w t i) (zrange 0 nthr) * lprodz (zfac d q' i) l).
  { induction l as [|j l IH]; intros H w; [cbn; unfold lprodz; cbn; ring|]. cbn [fold_left]. rewrite IH by (intros; apply H; right; assumption).
    assert (Lj := H j (or_introl eq_refl)). set (t := r1_thread k nthr j). pose proof (thread_range j Lj) as Lt. fold t in Lt.
    assert (ND : NoDup (zrange 0 j ++ zrange (j + 1) k)) by (rewrite <- but_split by exact Lj; apply NoDup_filter, zrange_NoDup).
    assert (W : forall t', upd w t (fold_left (fun w i => upd w i (w i * (q' i j / (d i - d j)))) (zrange 0 j ++ zrange (j + 1) k) (w t)) t' i =
       w t' i * (if Z.eqb t' t then zfac d q' i j else 1)).
    { intros t'. unfold upd at 1. destruct (Z.eqb_spec t' t) as [->|]; [|ring]. rewrite (fold_mul (fun i => q' i j / (d i - d j))) by exact ND.
      rewrite existsb_app, !existsb_zrange. unfold zfac. destruct (Z.eqb_spec i j) as [->|N].
      - replace (Z.leb 0 j && Z.ltb j j || Z.leb (j + 1) j && Z.ltb j k)%bool with false; [ring|]. symmetry. destruct (Z.ltb_spec j j); [lia|]. destruct (Z.leb_spec (j + 1) j); [lia|]. rewrite andb_false_r. reflexivity.
      - replace (Z.leb 0 i && Z.ltb i j || Z.leb (j + 1) i && Z.ltb i k)%bool with true; [reflexivity|]. symmetry. apply orb_true_iff. rewrite !andb_true_iff, !Z.leb_le, !Z.ltb_lt. lia. }
    assert (E : forall f g, (forall x, f x = g x) -> forall l0, lprodz f l0 = lprodz g l0) by (intros f g H0 l0; unfold lprodz; induction l0 as [|a l0 IH0]; [reflexivity|]; cbn; rewrite H0, IH0; reflexivity).
    rewrite (E _ _ W), lprodz_mul. rewrite (lprodz_one (fun x => if Z.eqb x t then zfac d q' i j else 1) (zrange 0 nthr) t).
    - rewrite Z.eqb_refl. change (lprodz (zfac d q' i) (j :: l)) with (zfac d q' i j * lprodz (zfac d q' i) l). ring.
    - apply zrange_NoDup.
    - apply in_zrange. exact Lt.
    - intros x _ N. destruct (Z.eqb_spec x t); [contradiction|reflexivity]. }
  rewrite X by exact RNG. f_equal. rewrite (lprodz_one _ _ 0%Z).
  - reflexivity.
  - apply zrange_NoDup.
  - apply in_zrange. lia.
  - intros x _ N. unfold r1_init. destruct (Z.eqb_spec x 0); [contradiction|reflexivity].
Qed.
Lemma lprodz_pick : forall f l i, NoDup l -> In i l -> lprodz f l = f i * lprodz f (filter (fun x => negb (Z.eqb x i)) l).
Proof using.
  intros f l i ND I. unfold lprodz. induction ND as [|a l NI ND IH]; [contradiction|]. cbn [filter fold_right]. destruct (Z.eqb_spec a i) as [->|N]; cbn [negb].
  - f_equal. f_equal. symmetry. assert (A : forall l0 : list Z, ~ In i l0 -> filter (fun x => negb (Z.eqb x i)) l0 = l0).
    { induction l0 as [|x l0 IH0]; intros H; [reflexivity|]. cbn. destruct (Z.eqb_spec x i) as [->|]; [exfalso; apply H; left; reflexivity|]. cbn. rewrite IH0; [reflexivity|]. intros X. apply H. right. exact X. }
    apply A. exact NI.
  - destruct I as [->|I]; [contradiction|]. rewrite IH by exact I. cbn [fold_right]. ring.
Qed.
(** the weight is the one of Loewner's formula *)
Lemma weight_value : (3 <= k)%Z -> forall q' i, (forall r c, (0 <= r < k)%Z -> (0 <= c < k)%Z -> q' r c = d r - r1_lam c) -> (0 <= i < k)%Z ->
  q' i i * lprodz (zfac d q' i) (zrange 0 k) = - (rho * (z i * z i)).
Proof using LA DASC RHO ZNZ ZN.
  intros K3 q' i HQ Li. rewrite <- (loewner k d r1_lam rho z) with (i := i); [|..|exact Li].
  - unfold weight. rewrite (lprodz_pick _ _ i) by (apply zrange_NoDup || (apply in_zrange; lia)). unfold zfac at 1. rewrite Z.eqb_refl.
    fold (but k i). rewrite HQ by assumption.
    assert (L1 : lprod (fun x => d i - x) (map r1_lam (zrange 0 k)) = lprodz (fun j => d i - r1_lam j) (zrange 0 k)).
    { unfold lprod, lprodz. generalize (zrange 0 k) as l. induction l as [|a l IH]; [reflexivity|]. cbn. rewrite IH. reflexivity. }
    assert (L2 : lprod (fun x => d i - x) (map d (but k i)) = lprodz (fun j => d i - d j) (but k i)).
    { unfold lprod, lprodz. generalize (but k i) as l. induction l as [|a l IH]; [reflexivity|]. cbn. rewrite IH. reflexivity. }
    rewrite L1, L2, (lprodz_pick _ (zrange 0 k) i) by (apply zrange_NoDup || (apply in_zrange; lia)). fold (but k i).
    assert (BI : forall j, In j (but k i) -> (0 <= j < k)%Z /\ j <> i).
    { intros j I. apply filter_In in I as [I E]. apply in_zrange in I. destruct (Z.eqb_spec j i); [discriminate|]. split; assumption. }
    assert (NZ : lprodz (fun j => d i - d j) (but k i) <> 0 /\ lprodz (zfac d q' i) (but k i) * lprodz (fun j => d i - d j) (but k i) = lprodz (fun j => d i - r1_lam j) (but k i)).
    { revert BI. generalize (but k i) as l. unfold lprodz. induction l as [|a l IH]; intros BI; [cbn; split; lra|]. cbn [fold_right].
      destruct (IH (fun j I => BI j (or_intror I))) as [N1 E1]. destruct (BI a (or_introl eq_refl)) as [La Na].
      assert (DN : d i - d a <> 0). { destruct (Z.lt_trichotomy i a) as [L|[L|L]]; [pose proof (DASC i a ltac:(lia) ltac:(lia)); lra|lia|pose proof (DASC a i ltac:(lia) ltac:(lia)); lra]. }
      split; [apply Rmult_integral_contrapositive; split; assumption|]. rewrite <- E1. unfold zfac at 1. destruct (Z.eqb_spec i a); [lia|]. rewrite HQ by lia. field. exact DN. }
    destruct NZ as [NZ E]. rewrite <- E. field. exact NZ.
  - intros a b La Lb N E. destruct (Z.lt_trichotomy a b) as [L|[L|L]]; [pose proof (DASC a b ltac:(lia) ltac:(lia)); lra|lia|pose proof (DASC b a ltac:(lia) ltac:(lia)); lra].
  - apply lam_neq; lia.
  - apply d_lam; lia.
  - intros j Lj. apply (lam_facts ltac:(lia) j Lj).
Qed.
Lemma step2b : forall ws i, r1_step2b k nthr ws z i = if (Z.leb 0 i && Z.ltb i k)%bool then copysign (sqrt (- fold_left (fun w t => w * ws t i) (zrange 1 nthr) (ws 0%Z i))) (z i) else z i.
Proof using.
  intros ws i. unfold r1_step2b. rewrite <- existsb_zrange. assert (X : forall l, NoDup l -> forall w : Z -> R,
    fold_left (fun z i => upd z i (copysign (sqrt (- fold_left (fun w t => w * ws t i) (zrange 1 nthr) (ws 0%Z i))) (z i))) l w i =
    if existsb (Z.eqb i) l then copysign (sqrt (- fold_left (fun w t => w * ws t i) (zrange 1 nthr) (ws 0%Z i))) (w i) else w i).
  { intros l ND. induction ND as [|a l NI ND IH]; intros w; [reflexivity|]. cbn [fold_left existsb]. rewrite IH. destruct (Z.eqb_spec i a) as [->|N]; cbn [orb].
    - assert (existsb (Z.eqb a) l = false) as ->. { apply not_true_is_false. intros E. apply existsb_exists in E as (x & I & E). apply Z.eqb_eq in E. subst x. contradiction. }
      rewrite upd_eq. reflexivity.
    - rewrite upd_neq by exact N. reflexivity. }
  apply X. apply zrange_NoDup.
Qed.
Lemma copysign_weight : forall r x, 0 < r -> copysign (sqrt (- - (r * (x * x)))) x = sqrt r * x.
Proof using.
  intros r x L. rewrite Ropp_involutive. rewrite sqrt_mult by nra. replace (sqrt (x * x)) with (Rabs x) by (symmetry; apply sqrt_Rsqr_abs).
  unfold copysign. pose proof (sqrt_pos r). rewrite Rabs_right by (apply Rle_ge, Rmult_le_pos; [assumption|apply Rabs_pos]). destruct (Rlt_dec x 0); [rewrite Rabs_left by assumption|rewrite Rabs_right by lra]; ring.
Qed.
(** the permutation of the rows for k = 2 *)
Lemma rows2_col : forall ws l q' j r c, NoDup l -> fold_left (fun q i => if Z.ltb (i4 i) k then put_el i j (ws (i4 i)) q else q) l q' r c =
  if (Z.eqb c j && (existsb (Z.eqb r) l && Z.ltb (i4 r) k))%bool then ws (i4 r) else q' r c.
Proof using.
  intros ws l q' j r c ND. revert q'. induction ND as [|a l NI ND IH]; intros q'; [cbn; rewrite andb_false_r; reflexivity|]. cbn [fold_left existsb]. rewrite IH.
  destruct (Z.eqb_spec r a) as [->|N]; cbn [orb].
  - assert (existsb (Z.eqb a) l = false) as ->. { apply not_true_is_false. intros E. apply existsb_exists in E as (x & I & E). apply Z.eqb_eq in E. subst x. contradiction. }
    cbn [andb]. rewrite andb_false_r. destruct (Z.ltb (i4 a) k); cbn [andb]; [|rewrite andb_false_r; reflexivity]. unfold put_el. rewrite Z.eqb_refl. cbn [andb]. rewrite andb_true_r. reflexivity.
  - destruct (Z.eqb c j && (existsb (Z.eqb r) l && Z.ltb (i4 r) k))%bool; [reflexivity|]. destruct (Z.ltb (i4 a) k); [|reflexivity]. unfold put_el. destruct (Z.eqb_spec r a); [contradiction|reflexivity].
Qed.

Theorem solve_rank1_ok : exists ev w q', solve_rank1 laed4 workers nrtiles n k rho d z evals i4 ord q = (ev, w, q') /\
  (forall i, ~ (0 <= i < k)%Z -> ev i = evals i) /\ (forall a b, (0 <= a <= b)%Z -> (b < k)%Z -> ev a <= ev b) /\
  exists U, orthonormal k U /\ (forall i j, (0 <= i < k)%Z -> (0 <= j < k)%Z -> q' i j = U (i4 i) j) /\
    forall y, rsum 0 k (fun j => ev j * (coord k U y j * coord k U y j)) = rsum 0 k (fun i => d i * (y i * y i)) + rho * (dot k z y * dot k z y).
Proof using LA LW LT LK ORD DASC RHO ZNZ ZN I4.
  unfold solve_rank1. destruct (r1_step1 laed4 k rho d z (ord 1) evals q) as [ev q1] eqn:E1. destruct (step1 ev q1 E1) as [EV Q1].
  assert (EVI : forall i, (0 <= i < k)%Z -> ev i = r1_lam i). { intros i Li. rewrite EV. replace (Z.leb 0 i && Z.ltb i k)%bool with true by lia. reflexivity. }
  assert (EVO : forall i, ~ (0 <= i < k)%Z -> ev i = evals i). { intros i Li. rewrite EV. replace (Z.leb 0 i && Z.ltb i k)%bool with false by lia. reflexivity. }
  assert (Q1I : forall r c, (0 <= r < k)%Z -> (0 <= c < k)%Z -> q1 r c = r1_delta c r).
  { intros r c Lr Lc. rewrite Q1. replace ((Z.leb 0 c && Z.ltb c k) && (Z.leb 0 r && Z.ltb r k))%bool with true by lia. reflexivity. }
  destruct (Z.leb_spec k 2) as [K2|K2].
  - destruct (Z.eqb_spec k 2) as [EK|NK].
    + (* k = 2 *)
      assert (L2 : (2 <= k)%Z) by lia. eexists ev, z, _. split; [reflexivity|]. split; [exact EVO|]. split.
      { intros a b La Lb. rewrite !EVI by lia. destruct (Z.eq_dec a b) as [->|N]; [lra|]. apply Rlt_le, lam_asc; lia. }
      set (U := fun l j => r1_delta j l). exists U.
      assert (EIG : forall i j, (0 <= i < k)%Z -> (0 <= j < k)%Z -> d i * U i j + rho * z i * rsum 0 k (fun l => z l * U l j) = r1_lam j * U i j).
      { intros i j Li Lj. destruct (lam_facts L2 j Lj) as (_ & _ & SEC & D2 & _). destruct (D2 EK) as (_ & c & HC).
        apply (secular_eigenvector k d (r1_lam j) rho z c (fun l => U l j)); [intros l Ll; apply d_lam; assumption|exact SEC|exact HC|exact Li]. }
      assert (UN : forall j, (0 <= j < k)%Z -> rsum 0 k (fun i => U i j * U i j) = 1).
      { intros j Lj. destruct (lam_facts L2 j Lj) as (_ & _ & _ & D2 & _). apply (D2 EK). }
      assert (LN := lam_neq L2). split; [|split].
      * apply (rank1_orthonormal k d r1_lam rho z U); assumption.
      * intros i j Li Lj. unfold r1_rows2. destruct (I4 i ltac:(lia)) as [I4a I4b].
        rewrite (fold_cols (fun j col r => if (existsb (Z.eqb r) (zrange 0 n) && Z.ltb (i4 r) k)%bool then col (i4 r) else if (Z.leb 0 r && Z.ltb r k)%bool then 0 else col r)).
        -- rewrite (perm_exists _ k) by apply ORD. replace (Z.leb 0 j && Z.ltb j k)%bool with true by lia. rewrite existsb_zrange.
           replace (Z.leb 0 i && Z.ltb i n && Z.ltb (i4 i) k)%bool with true by lia. rewrite Q1I by lia. reflexivity.
        -- intros j' a b H r. rewrite !H. reflexivity.
        -- intros q0 j' r c. rewrite (rows2_col (fun r => q0 r j')) by apply zrange_NoDup. unfold put_col. destruct (Z.eqb_spec c j') as [->|]; cbn [andb]; reflexivity.
        -- eapply perm_nodup, ORD.
      * intros y. rewrite <- (rank1_form k d r1_lam rho z U) by (assumption || lia). apply rsum_ext. intros j Lj. rewrite EVI by exact Lj. reflexivity.
    + (* k = 1 *)
      assert (EK : k = 1%Z) by lia. eexists ev, z, q1. split; [reflexivity|]. split; [exact EVO|]. split.
      { intros a b La Lb. assert (a = 0%Z) as -> by lia. assert (b = 0%Z) as -> by lia. lra. }
      destruct (laed4 k 0%Z d z rho) as [de la] eqn:EL. destruct (LA k 0%Z d z rho de la ltac:(lia) EL) as [H1 _]. destruct (H1 EK) as [HL HD].
      assert (L0 : r1_lam 0 = la) by (unfold r1_lam; rewrite EL; reflexivity). assert (D0 : r1_delta 0 0 = 1) by (unfold r1_delta; rewrite EL; exact HD).
      assert (S1 : forall f, rsum 0 k f = f 0%Z) by (intros f; rewrite EK, rsum_cons, rsum_nil by lia; ring).
      exists (fun _ _ => 1). split; [|split].
      * intros a b La Lb. assert (a = 0%Z) as -> by lia. assert (b = 0%Z) as -> by lia. rewrite S1, kron_eq. ring.
      * intros i j Li Lj. assert (i = 0%Z) as -> by lia. assert (j = 0%Z) as -> by lia. rewrite Q1I by lia. exact D0.
      * intros y. unfold coord, dot. rewrite !S1. rewrite EVI, L0, HL by lia. ring.
  - (* k >= 3 *)
    assert (L2 : (2 <= k)%Z) by lia. assert (K3 : (3 <= k)%Z) by lia. pose proof (RHO L2) as RH. pose proof (ZNZ L2) as ZZ.
    set (w := r1_step2b k (r1_nthreads workers nrtiles) (r1_step2a k (r1_nthreads workers nrtiles) d (ord 2) q1) z).
    assert (Q1D : forall r c, (0 <= r < k)%Z -> (0 <= c < k)%Z -> q1 r c = d r - r1_lam c).
    { intros r c Lr Lc. rewrite Q1I by assumption. apply (lam_facts L2 c Lc); assumption. }
    assert (WV : forall i, (0 <= i < k)%Z -> w i = sqrt rho * z i).
    { intros i Li. unfold w. fold nthr. rewrite step2b. replace (Z.leb 0 i && Z.ltb i k)%bool with true by lia. rewrite step2a by exact Li.
      rewrite (weight_value K3 q1 i Q1D Li). apply copysign_weight. exact RH. }
    eexists ev, w, _. split; [reflexivity|]. split; [exact EVO|]. split.
    { intros a b La Lb. rewrite !EVI by lia. destruct (Z.eq_dec a b) as [->|N]; [lra|]. apply Rlt_le, lam_asc; lia. }
    set (sv := fun l j => w l / q1 l j). set (nrm := fun j => sqrt (rsum 0 k (fun i => sv i j * sv i j))). set (U := fun l j => sv l j / nrm j). exists U.
    assert (NP : forall j, (0 <= j < k)%Z -> 0 < rsum 0 k (fun i => sv i j * sv i j)).
    { intros j Lj. apply Rlt_le_trans with (sv 0%Z j * sv 0%Z j).
      - assert (sv 0%Z j <> 0). { unfold sv. rewrite WV, Q1D by lia. pose proof (d_lam L2 0%Z j ltac:(lia) Lj). assert (sqrt rho <> 0) by (apply Rgt_not_eq, sqrt_lt_R0; exact RH).
          unfold Rdiv. apply Rmult_integral_contrapositive. split; [apply Rmult_integral_contrapositive; split; [assumption|apply ZZ; lia]|]. apply Rinv_neq_0_compat. lra. }
        nra.
      - apply (rsum_ge_one 0 k (fun i => sv i j * sv i j)); [intros; nra|lia]. }
    assert (NRM : forall j, (0 <= j < k)%Z -> nrm j <> 0 /\ nrm j * nrm j = rsum 0 k (fun i => sv i j * sv i j)).
    { intros j Lj. specialize (NP j Lj). unfold nrm. split; [apply Rgt_not_eq, sqrt_lt_R0; exact NP|apply sqrt_sqrt; lra]. }
    assert (UN : forall j, (0 <= j < k)%Z -> rsum 0 k (fun i => U i j * U i j) = 1).
    { intros j Lj. destruct (NRM j Lj) as [N1 N2]. rewrite (rsum_ext 0 k _ (fun i => / (nrm j * nrm j) * (sv i j * sv i j))) by (intros; unfold U; field; exact N1).
      rewrite rsum_mul_l, <- N2. field. exact N1. }
    assert (EIG : forall i j, (0 <= i < k)%Z -> (0 <= j < k)%Z -> d i * U i j + rho * z i * rsum 0 k (fun l => z l * U l j) = r1_lam j * U i j).
    { intros i j Li Lj. destruct (lam_facts L2 j Lj) as (_ & _ & SEC & _). destruct (NRM j Lj) as [N1 N2].
      apply (secular_eigenvector k d (r1_lam j) rho z (sqrt rho / nrm j) (fun l => U l j)); [intros l Ll; apply d_lam; assumption|exact SEC| |exact Li].
      intros l Ll. unfold U, sv. rewrite WV, Q1D by assumption. pose proof (d_lam L2 l j Ll Lj). field. repeat split; (exact N1 || lra). }
    assert (LN := lam_neq L2). split; [|split].
    + apply (rank1_orthonormal k d r1_lam rho z U); assumption.
    + intros i j Li Lj. unfold r1_step3. destruct (I4 i ltac:(lia)) as [I4a I4b].
      rewrite (fold_cols (fun j col r => if (Z.leb 0 r && Z.ltb r k)%bool then (w (i4 r) / col (i4 r)) / sqrt (rsum 0 k (fun i => (w i / col i) * (w i / col i))) else col r)).
      * rewrite (perm_exists _ k) by apply ORD. replace (Z.leb 0 j && Z.ltb j k)%bool with true by lia. replace (Z.leb 0 i && Z.ltb i k)%bool with true by lia. reflexivity.
      * intros j' a b H r. rewrite (rsum_ext 0 k (fun i => w i / a i * (w i / a i)) (fun i => w i / b i * (w i / b i))) by (intros; rewrite !H; reflexivity). rewrite !H. reflexivity.
      * intros q0 j' r c. unfold put_col. destruct (Z.eqb_spec c j') as [->|]; cbn [andb]; reflexivity.
      * eapply perm_nodup, ORD.
    + intros y. rewrite <- (rank1_form k d r1_lam rho z U) by (assumption || lia). apply rsum_ext. intros j Lj. rewrite EVI by exact Lj. reflexivity.
Qed.
End rank1.
