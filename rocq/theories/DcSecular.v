(** * Rank-one modifications of diagonal matrices: the secular equation, and the formula of Loewner for the modified vector. *)
From Coq Require Import ZArith Lia List Reals Lra Psatz Permutation.
From Verif Require Import Loop StarField DcSums.
Import ListNotations.
Local Open Scope R_scope.

(** ** Products and sums over lists *)
Definition lprod (f : R -> R) (l : list R) : R := fold_right (fun x p => f x * p) 1 l.
Definition lsum (f : R -> R) (l : list R) : R := fold_right (fun x s => f x + s) 0 l.
(** product of the differences to the other points *)
Definition others (ds : list R) (x : R) : R := lprod (fun y => if Req_EM_T x y then 1 else x - y) ds.
(** divided difference of the monic polynomial with roots ms *)
Definition divdiff (ds ms : list R) : R := lsum (fun x => lprod (fun mu => x - mu) ms / others ds x) ds.

Lemma lsum_cons : forall f a l, lsum f (a :: l) = f a + lsum f l. Proof. reflexivity. Qed.
Lemma lprod_cons : forall f a l, lprod f (a :: l) = f a * lprod f l. Proof. reflexivity. Qed.
Lemma lsum_ext : forall f g l, (forall x, In x l -> f x = g x) -> lsum f l = lsum g l.
Proof. intros f g l. induction l as [|a l IH]; intros H; [reflexivity|]. rewrite ?lsum_cons, ?lprod_cons. rewrite H by (left; reflexivity). rewrite IH by (intros; apply H; right; assumption). reflexivity. Qed.
Lemma lprod_ext : forall f g l, (forall x, In x l -> f x = g x) -> lprod f l = lprod g l.
Proof. intros f g l. induction l as [|a l IH]; intros H; [reflexivity|]. rewrite ?lsum_cons, ?lprod_cons. rewrite H by (left; reflexivity). rewrite IH by (intros; apply H; right; assumption). reflexivity. Qed.
Lemma lsum_add : forall f g l, lsum (fun x => f x + g x) l = lsum f l + lsum g l.
Proof. intros f g l. induction l as [|a l IH]; [unfold lsum, lprod; cbn; lra|]; rewrite !lsum_cons. rewrite IH. ring. Qed.
Lemma lsum_scal : forall c f l, lsum (fun x => c * f x) l = c * lsum f l.
Proof. intros c f l. induction l as [|a l IH]; [unfold lsum, lprod; cbn; lra|]; rewrite !lsum_cons. rewrite IH. ring. Qed.
Lemma lsum_0 : forall f l, (forall x, In x l -> f x = 0) -> lsum f l = 0.
Proof. intros f l H. rewrite (lsum_ext f (fun _ => 0)) by exact H. induction l; [reflexivity|]; rewrite lsum_cons. rewrite IHl by (intros; apply H; right; assumption). lra. Qed.
Lemma lprod_neq : forall f l, (forall x, In x l -> f x <> 0) -> lprod f l <> 0.
Proof.
  intros f l. induction l as [|a l IH]; intros H; [unfold lprod; cbn; lra|]. rewrite ?lsum_cons, ?lprod_cons. apply Rmult_integral_contrapositive. split; [apply H; left; reflexivity|].
  apply IH. intros; apply H; right; assumption.
Qed.
Lemma lprod_perm : forall f l l', Permutation l l' -> lprod f l = lprod f l'.
Proof. intros f l l' P. induction P; rewrite ?lsum_cons, ?lprod_cons in *; [reflexivity|rewrite IHP; reflexivity|ring|congruence]. Qed.
Lemma lsum_perm : forall f l l', Permutation l l' -> lsum f l = lsum f l'.
Proof. intros f l l' P. induction P; rewrite ?lsum_cons, ?lprod_cons in *; [reflexivity|rewrite IHP; reflexivity|ring|congruence]. Qed.
Lemma lprod_app : forall f l l', lprod f (l ++ l') = lprod f l * lprod f l'.
Proof. intros f l l'. induction l as [|a l IH]; [unfold lprod; cbn; ring|]. cbn [app]. rewrite !lprod_cons, IH. ring. Qed.

Lemma others_neq : forall ds x, others ds x <> 0.
Proof. intros ds x. apply lprod_neq. intros y _. destruct (Req_EM_T x y); lra. Qed.
Lemma others_cons : forall a ds x, x <> a -> others (a :: ds) x = (x - a) * others ds x.
Proof. intros a ds x N. cbn. destruct (Req_EM_T x a); [contradiction|reflexivity]. Qed.
Lemma others_perm : forall ds ds' x, Permutation ds ds' -> others ds x = others ds' x.
Proof. intros. apply lprod_perm. assumption. Qed.
Lemma divdiff_perm : forall ds ds' ms, Permutation ds ds' -> divdiff ds ms = divdiff ds' ms.
Proof. intros ds ds' ms P. unfold divdiff. rewrite (lsum_perm _ _ _ P). apply lsum_ext. intros x _. rewrite (others_perm _ _ x P). reflexivity. Qed.

(** (x - b) p(x) has the divided difference of p on the points without b *)
Lemma divdiff_drop : forall b ds ms, NoDup (b :: ds) -> divdiff (b :: ds) (b :: ms) = divdiff ds ms.
Proof.
  intros b ds ms ND. inversion ND as [|? ? NI ND']; subst. unfold divdiff. cbn [lsum fold_right lprod].
  replace ((b - b) * fold_right (fun x p => (b - x) * p) 1 ms) with 0 by ring. unfold Rdiv at 1. rewrite Rmult_0_l, Rplus_0_l.
  apply lsum_ext. intros x I. assert (x <> b) by (intros ->; contradiction). rewrite others_cons by assumption.
  fold (lprod (fun mu => x - mu) ms). field. split; [apply others_neq|lra].
Qed.
Lemma divdiff_split : forall a b ds ms, divdiff ds (a :: ms) = divdiff ds (b :: ms) + (b - a) * divdiff ds ms.
Proof.
  intros a b ds ms. unfold divdiff. rewrite <- lsum_scal, <- lsum_add. apply lsum_ext. intros x _. cbn [lprod fold_right].
  fold (lprod (fun mu => x - mu) ms). field. apply others_neq.
Qed.
Lemma divdiff_nil : forall ds, NoDup ds -> (1 <= length ds)%nat -> divdiff ds [] = if Nat.eqb (length ds) 1 then 1 else 0.
Proof.
  intros ds. remember (length ds) as m eqn:E. revert ds E. induction m as [m IH] using lt_wf_ind. intros ds E ND L.
  destruct ds as [|a [|b rest]]; cbn in E; [lia| |].
  - subst m. unfold divdiff, others. cbn. destruct (Req_EM_T a a); [field|contradiction].
  - assert (NAB : a <> b) by (inversion ND as [|? ? NI _]; intros ->; apply NI; left; reflexivity).
    assert (ND1 : NoDup (a :: rest)). { apply (NoDup_remove_1 [a] rest b). exact ND. }
    assert (ND2 : NoDup (b :: rest)) by (inversion ND; assumption).
    assert (ND3 : NoDup (b :: a :: rest)) by (apply (Permutation_NoDup (perm_swap b a rest)); exact ND).
    pose proof (divdiff_split b a (a :: b :: rest) []) as SS. rewrite divdiff_drop in SS by exact ND.
    rewrite (divdiff_perm (a :: b :: rest) (b :: a :: rest) [b] (perm_swap b a rest)) in SS. rewrite divdiff_drop in SS by exact ND3.
    rewrite (IH (S (length rest)) ltac:(lia) (a :: rest) eq_refl ND1 ltac:(lia)), (IH (S (length rest)) ltac:(lia) (b :: rest) eq_refl ND2 ltac:(lia)) in SS.
    subst m. cbn [Nat.eqb]. assert (X : (a - b) * divdiff (a :: b :: rest) [] = 0) by lra. apply Rmult_integral in X as [X|X]; [lra|exact X].
Qed.
(** a monic polynomial of degree m has, on more than m points, the divided difference 1 (m + 1 points) or 0 *)
Lemma divdiff_value : forall ms ds, NoDup ds -> (length ms < length ds)%nat -> divdiff ds ms = if Nat.eqb (length ds) (S (length ms)) then 1 else 0.
Proof.
  induction ms as [|mu ms IH]; intros ds ND L.
  - apply divdiff_nil; [exact ND|cbn in L; lia].
  - destruct ds as [|b rest]; [cbn in L; lia|]. cbn [length] in *. rewrite (divdiff_split mu b), divdiff_drop by exact ND.
    rewrite (IH rest) by (inversion ND; subst; lia || assumption). rewrite (IH (b :: rest) ND) by (cbn; lia). cbn [length Nat.eqb].
    destruct (Nat.eqb_spec (length rest) (S (length ms))) as [X|X], (Nat.eqb_spec (length rest) (length ms)) as [Y|Y]; try lia; ring.
Qed.

(** ** Loewner's formula *)
Definition zprod (lo hi : Z) (f : Z -> R) : R := fold_right (fun i p => f i * p) 1 (zrange lo hi).
Section loewner.
Variables (k : Z) (d lam : Z -> R) (rho : R) (z : Z -> R).
Hypothesis DD : forall i j, (0 <= i < k)%Z -> (0 <= j < k)%Z -> i <> j -> d i <> d j.
Hypothesis LL : forall i j, (0 <= i < k)%Z -> (0 <= j < k)%Z -> i <> j -> lam i <> lam j.
Hypothesis DL : forall i j, (0 <= i < k)%Z -> (0 <= j < k)%Z -> d i <> lam j.
Hypothesis SEC : forall j, (0 <= j < k)%Z -> rsum 0 k (fun i => rho * (z i * z i) / (d i - lam j)) = -1.

Definition but (i : Z) : list Z := filter (fun l => negb (Z.eqb l i)) (zrange 0 k).
(** what the code computes as weight number i, up to the order of the factors *)
Definition weight (i : Z) : R := lprod (fun x => d i - x) (map lam (zrange 0 k)) / lprod (fun x => d i - x) (map d (but i)).

Lemma nodup_map : forall (f : Z -> R) l, NoDup l -> (forall i j, In i l -> In j l -> i <> j -> f i <> f j) -> NoDup (map f l).
Proof using.
  intros f l ND. induction ND as [|a l NI ND IH]; intros H; [constructor|]. cbn. constructor.
  - intros I. apply in_map_iff in I as (x & E & I). apply (H x a); [right; exact I|left; reflexivity|intros ->; contradiction|exact E].
  - apply IH. intros. apply H; [right|right|]; assumption.
Qed.
Lemma lsum_map : forall (f : R -> R) (g : Z -> R), lsum f (map g (zrange 0 k)) = rsum 0 k (fun j => f (g j)).
Proof using.
  intros f g. unfold rsum, fsum, lsum. induction (zrange 0 k) as [|a l IH]; [reflexivity|]. cbn in *. rewrite IH. reflexivity.
Qed.
Lemma but_length : forall i, (0 <= i < k)%Z -> length (but i) = (length (zrange 0 k) - 1)%nat.
Proof using.
  intros i Li. unfold but. rewrite (zrange_app 0 i k) by lia. rewrite (zrange_cons i k) by lia. rewrite filter_app. cbn [filter].
  rewrite Z.eqb_refl. cbn [negb]. rewrite !app_length. cbn [length].
  assert (A : forall l, (forall x, In x l -> x <> i) -> filter (fun l => negb (Z.eqb l i)) l = l).
  { induction l as [|x l IH]; intros H; [reflexivity|]. cbn. destruct (Z.eqb_spec x i) as [->|]; [exfalso; apply (H i); [left|]; reflexivity|]. cbn. rewrite IH by (intros; apply H; right; assumption). reflexivity. }
  rewrite !A; [lia| |]; intros x I; apply in_zrange in I; lia.
Qed.
Lemma others_in : forall l x, NoDup (x :: l) -> others (x :: l) x = lprod (fun y => x - y) l.
Proof using.
  intros l x ND. inversion ND as [|? ? NI _]; subst. unfold others. cbn. destruct (Req_EM_T x x); [|contradiction]. rewrite Rmult_1_l.
  apply lprod_ext. intros y I. destruct (Req_EM_T x y) as [->|]; [contradiction|reflexivity].
Qed.

Lemma loewner : forall i, (0 <= i < k)%Z -> weight i = - (rho * (z i * z i)).
Proof using DD LL DL SEC.
  intros i Li. set (ls := map lam (zrange 0 k)). set (ro := map d (but i)).
  assert (NDL : NoDup ls).
  { apply nodup_map; [apply zrange_NoDup|]. intros a b Ia Ib N. apply in_zrange in Ia, Ib. apply LL; lia. }
  assert (KL : (1 <= length (zrange 0 k))%nat) by (pose proof (zrange_length 0 k); lia).
  assert (LR : length ro = (length (zrange 0 k) - 1)%nat) by (unfold ro; rewrite map_length; apply but_length; exact Li).
  assert (LN : length ls = length (zrange 0 k)) by apply map_length.
  (* c_j *)
  set (c := fun x => lprod (fun mu => x - mu) ro / others ls x).
  assert (C1 : lsum c ls = 1).
  { change (divdiff ls ro = 1). rewrite divdiff_value by (exact NDL || lia). rewrite LN, LR. replace (S (length (zrange 0 k) - 1)) with (length (zrange 0 k)) by lia. rewrite Nat.eqb_refl. reflexivity. }
  (* the other terms vanish *)
  assert (C2 : forall l, (0 <= l < k)%Z -> l <> i -> lsum (fun x => c x / (d l - x)) ls = 0).
  { intros l Ll N. assert (IB : In l (but i)). { apply filter_In. split; [apply in_zrange; lia|]. destruct (Z.eqb_spec l i); [contradiction|reflexivity]. }
    apply in_split in IB as (l1 & l2 & EB). set (ro' := map d (l1 ++ l2)).
    assert (PR : Permutation ro (d l :: ro')). { unfold ro, ro'. rewrite EB, !map_app. cbn [map]. symmetry. apply Permutation_middle. }
    rewrite (lsum_ext _ (fun x => - 1 * (lprod (fun mu => x - mu) ro' / others ls x))).
    2: { intros x I. unfold c. rewrite (lprod_perm _ _ _ PR). cbn [lprod fold_right]. fold (lprod (fun mu => x - mu) ro'). unfold ls in I. apply in_map_iff in I as (j & <- & I). apply in_zrange in I.
         field. split; [apply others_neq|specialize (DL l j ltac:(lia) ltac:(lia)); lra]. }
    rewrite lsum_scal. change (-1 * divdiff ls ro' = 0). rewrite divdiff_value; [|exact NDL|].
    - apply Permutation_length in PR. cbn [length] in PR. destruct (Nat.eqb_spec (length ls) (S (length ro'))); [lia|ring].
    - apply Permutation_length in PR. cbn [length] in PR. lia. }
  assert (NDL2 : NoDup (d i :: ls)).
  { constructor; [|exact NDL]. intros I. apply in_map_iff in I as (j & E & I). apply in_zrange in I. apply (DL i j); [lia|lia|symmetry; exact E]. }
  set (P := lprod (fun x => d i - x) ls). set (Rr := lprod (fun x => d i - x) ro).
  assert (NP : P <> 0). { apply lprod_neq. intros x I. apply in_map_iff in I as (j & <- & I). apply in_zrange in I. specialize (DL i j ltac:(lia) ltac:(lia)). lra. }
  assert (NR : Rr <> 0).
  { apply lprod_neq. intros x I. apply in_map_iff in I as (j & <- & I). apply filter_In in I as [I N]. apply in_zrange in I. destruct (Z.eqb_spec j i) as [->|N']; [discriminate|]. specialize (DD i j ltac:(lia) ltac:(lia) ltac:(lia)). lra. }
  assert (C3 : lsum (fun x => c x / (d i - x)) ls = Rr / P).
  { assert (V : divdiff (d i :: ls) ro = 0).
    { rewrite divdiff_value by (exact NDL2 || (cbn; lia)). cbn [length]. destruct (Nat.eqb_spec (S (length ls)) (S (length ro))); [lia|reflexivity]. }
    unfold divdiff in V. cbn [lsum fold_right] in V. rewrite others_in in V by exact NDL2. fold P in V. fold Rr in V.
    fold (lsum (fun x => lprod (fun mu => x - mu) ro / others (d i :: ls) x) ls) in V.
    assert (W : lsum (fun x => lprod (fun mu => x - mu) ro / others (d i :: ls) x) ls = -1 * lsum (fun x => c x / (d i - x)) ls).
    { rewrite <- lsum_scal. apply lsum_ext. intros x I. assert (x <> d i) by (intros ->; inversion NDL2; contradiction). rewrite others_cons by assumption. unfold c. field. repeat split; (apply others_neq || lra). }
    rewrite W in V. lra. }
  (* sum over j of c_j times the secular equation *)
  assert (S1 : lsum (fun x => c x * rsum 0 k (fun l => rho * (z l * z l) / (d l - x))) ls = -1).
  { rewrite (lsum_ext _ (fun x => -1 * c x)).
    2: { intros x I. apply in_map_iff in I as (j & <- & I). apply in_zrange in I. rewrite SEC by lia. ring. }
    rewrite lsum_scal, C1. ring. }
  assert (S2 : lsum (fun x => c x * rsum 0 k (fun l => rho * (z l * z l) / (d l - x))) ls = rho * (z i * z i) * (Rr / P)).
  { unfold ls in *. rewrite lsum_map. rewrite (rsum_ext 0 k _ (fun j => rsum 0 k (fun l => rho * (z l * z l) * (c (lam j) / (d l - lam j))))).
    2: { intros j Lj. rewrite <- rsum_mul_l. apply rsum_ext. intros l Ll. unfold Rdiv. ring. }
    rewrite rsum_swap. rewrite (rsum_one 0 k _ i Li).
    - rewrite rsum_mul_l. rewrite <- C3. rewrite lsum_map. reflexivity.
    - intros l Ll N. rewrite rsum_mul_l. rewrite <- (lsum_map (fun x => c x / (d l - x)) lam). rewrite C2 by assumption. ring. }
  rewrite S1 in S2. unfold weight. fold ls ro P Rr. apply (Rmult_eq_reg_r Rr); [|exact NR]. unfold Rdiv at 1. rewrite Rmult_assoc, Rinv_l, Rmult_1_r by exact NR.
  apply (Rmult_eq_reg_r (/ P)); [|apply Rinv_neq_0_compat; exact NP]. rewrite Rinv_r by exact NP. unfold Rdiv in S2. lra.
Qed.
End loewner.

(** ** Eigenvectors of diag(d) + rho z z^T *)
Section eig.
Variables (k : Z) (d lam : Z -> R) (rho : R) (z : Z -> R) (U : Z -> Z -> R).
Hypothesis LK : (0 <= k)%Z.
Hypothesis LL : forall i j, (0 <= i < k)%Z -> (0 <= j < k)%Z -> i <> j -> lam i <> lam j.
Hypothesis EIG : forall i j, (0 <= i < k)%Z -> (0 <= j < k)%Z -> d i * U i j + rho * z i * rsum 0 k (fun l => z l * U l j) = lam j * U i j.
Hypothesis UNIT : forall j, (0 <= j < k)%Z -> rsum 0 k (fun i => U i j * U i j) = 1.

Lemma rank1_orthonormal : orthonormal k U.
Proof using LL EIG UNIT.
  intros a b La Lb. destruct (Z.eq_dec a b) as [->|N]; [rewrite kron_eq; apply UNIT; exact Lb|]. rewrite kron_neq by exact N.
  set (s := rsum 0 k (fun i => U i a * U i b)).
  assert (E : forall a b, (0 <= a < k)%Z -> (0 <= b < k)%Z -> lam a * rsum 0 k (fun i => U i a * U i b) =
     rsum 0 k (fun i => d i * (U i a * U i b)) + rho * (rsum 0 k (fun l => z l * U l a) * rsum 0 k (fun l => z l * U l b))).
  { intros p q Lp Lq. rewrite <- rsum_mul_l. rewrite (rsum_ext 0 k _ (fun i => d i * (U i p * U i q) + rho * rsum 0 k (fun l => z l * U l p) * (z i * U i q))).
    2: { intros i Li. rewrite <- Rmult_assoc, <- (EIG i p Li Lp). ring. }
    rewrite rsum_add, rsum_mul_l. ring. }
  pose proof (E a b La Lb) as E1. pose proof (E b a Lb La) as E2. fold s in E1.
  replace (rsum 0 k (fun i => U i b * U i a)) with s in E2 by (unfold s; apply rsum_ext; intros; ring).
  replace (rsum 0 k (fun i => d i * (U i b * U i a))) with (rsum 0 k (fun i => d i * (U i a * U i b))) in E2 by (apply rsum_ext; intros; ring).
  assert (X : (lam a - lam b) * s = 0) by lra. apply Rmult_integral in X as [X|X]; [|exact X]. exfalso. apply (LL a b La Lb N). lra.
Qed.
Lemma rank1_form : forall y, rsum 0 k (fun j => lam j * (coord k U y j * coord k U y j)) = rsum 0 k (fun i => d i * (y i * y i)) + rho * (dot k z y * dot k z y).
Proof using LK LL EIG UNIT.
  intros y. pose proof rank1_orthonormal as O. set (My := fun i => d i * y i + rho * z i * dot k z y).
  assert (C : forall j, (0 <= j < k)%Z -> coord k U My j = lam j * coord k U y j).
  { intros j Lj. unfold coord. rewrite <- rsum_mul_l. rewrite (rsum_ext 0 k (fun i => lam j * (U i j * y i)) (fun i => d i * U i j * y i + rsum 0 k (fun l => z l * U l j) * (rho * (z i * y i)))).
    2: { intros i Li. rewrite <- Rmult_assoc, <- (EIG i j Li Lj). ring. }
    rewrite rsum_add, rsum_mul_l, rsum_mul_l. unfold My. rewrite (rsum_ext 0 k _ (fun i => d i * U i j * y i + (rho * dot k z y) * (z i * U i j))) by (intros; ring).
    rewrite rsum_add, rsum_mul_l. unfold dot. ring. }
  rewrite (rsum_ext 0 k _ (fun j => coord k U My j * coord k U y j)) by (intros j Lj; rewrite C by exact Lj; ring).
  change (dot k (coord k U My) (coord k U y) = rsum 0 k (fun i => d i * (y i * y i)) + rho * (dot k z y * dot k z y)). rewrite parseval2 by assumption.
  unfold dot at 1, My. rewrite (rsum_ext 0 k _ (fun i => d i * (y i * y i) + (rho * dot k z y) * (z i * y i))) by (intros; ring).
  rewrite rsum_add, rsum_mul_l. unfold dot. ring.
Qed.
End eig.

(** a root of the secular equation gives an eigenvector *)
Lemma secular_eigenvector : forall k d lam rho z c (u : Z -> R),
  (forall i, (0 <= i < k)%Z -> d i <> lam) -> rsum 0 k (fun i => rho * (z i * z i) / (d i - lam)) = -1 ->
  (forall i, (0 <= i < k)%Z -> u i = c * (z i / (d i - lam))) ->
  forall i, (0 <= i < k)%Z -> d i * u i + rho * z i * rsum 0 k (fun l => z l * u l) = lam * u i.
Proof.
  intros k d lam rho z c u DL SEC HU i Li. assert (S : rho * rsum 0 k (fun l => z l * u l) = - c).
  { rewrite <- rsum_mul_l. rewrite (rsum_ext 0 k _ (fun l => c * (rho * (z l * z l) / (d l - lam)))).
    - rewrite rsum_mul_l, SEC. ring.
    - intros l Ll. rewrite HU by exact Ll. unfold Rdiv. ring. }
  replace (rho * z i * rsum 0 k (fun l => z l * u l)) with (z i * (rho * rsum 0 k (fun l => z l * u l))) by ring. rewrite S, HU by exact Li.
  specialize (DL i Li). field. lra.
Qed.
