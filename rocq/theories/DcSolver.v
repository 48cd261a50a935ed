(** * The divide and conquer solver: Cuppen's decomposition, the leaves, and the merges one after the other. *)
From Coq Require Import ZArith Lia List Bool Reals Lra Psatz Permutation.
From Verif Require Import CInt Loop DistModel TridiagModel TridiagProofs TridiagDeflation Properties_Tridiag DcSums DcSecular DcModel DcRank1 DcDeflate DcCore DcMerge.
Import ListNotations.
Local Open Scope R_scope.

(** xᵀ T x for the symmetric tridiagonal matrix T with diagonal d and off-diagonal e *)
Definition tform (n : Z) (d e x : Z -> R) : R := rsum 0 n (fun i => d i * (x i * x i)) + 2 * rsum 0 (n - 1) (fun i => e i * (x i * x (i + 1)%Z)).
(** sum of the absolute values of row i of T *)
Definition row_sum (n : Z) (d e : Z -> R) (i : Z) : R := Rabs (d i) + (if Z.ltb 0 i then Rabs (e (i - 1)%Z) else 0) + (if Z.ltb i (n - 1) then Rabs (e i) else 0).

Lemma tform_ext : forall n d e d' e' x, (forall i, (0 <= i < n)%Z -> d i = d' i) -> (forall i, (0 <= i < n - 1)%Z -> e i = e' i) -> tform n d e x = tform n d' e' x.
Proof. intros n d e d' e' x H G. unfold tform. f_equal; [apply rsum_ext; intros i Li; rewrite H by lia; reflexivity|]. f_equal. apply rsum_ext. intros i Li. rewrite G by lia. reflexivity. Qed.

(** the contract of lapack::stedc: exact eigenvalues, ascending, and orthonormal eigenvectors *)
Definition stedc_form (nb : Z) (stedc : Z -> (Z -> R) -> (Z -> R) -> (Z -> R) * (Z -> Z -> R)) : Prop :=
  forall m d e lam E, (1 <= m <= nb)%Z -> stedc m d e = (lam, E) -> (forall p q, (0 <= p <= q)%Z -> (q < m)%Z -> lam p <= lam q) /\ orthonormal m E /\
    forall x, dform m lam (coord m E x) = tform m d e x.

Section solver.
Variables (n nb : Z) (eps : R) (workers : Z).
Variable laed4 : Z -> Z -> (Z -> R) -> (Z -> R) -> R -> (Z -> R) * R.
Variable stedc : Z -> (Z -> R) -> (Z -> R) -> (Z -> R) * (Z -> Z -> R).
Hypothesis LNB : (1 <= nb)%Z.
Hypothesis LN : (1 <= n)%Z.
Hypothesis EPS : 0 <= eps.
Hypothesis LW : (1 <= workers)%Z.
Hypothesis LA : laed4_ok laed4.
Hypothesis ST : stedc_form nb stedc.
Variables (D e : Z -> R).
Notation nt := (dc_nt n nb).
Notation size := (dc_size n nb).
Notation hi := (hi n nb).
Notation rows := (dc_rows n nb).

(** the quadratic form of the subproblem of tiles [b, t): the values removed by the decomposition at its ends are missing *)
Definition qf (b t : Z) (x : Z -> R) : R := let o := (b * nb)%Z in let m := size b t in
  tform m (view o D) (view o e) x - (if Z.ltb 0 b then Rabs (e (o - 1)%Z) * (x 0%Z * x 0%Z) else 0)
    - (if Z.ltb t nt then Rabs (e (o + m - 1)%Z) * (x (m - 1)%Z * x (m - 1)%Z) else 0).

Lemma geo3 : forall b s t, (0 <= b < s)%Z -> (s < t <= nt)%Z -> size b t = (size b s + size s t)%Z /\ (s * nb = b * nb + size b s)%Z /\ (1 <= size b s)%Z /\ (1 <= size s t)%Z.
Proof using LNB LN.
  intros b s t L1 L2. rewrite !(size_hi n nb LNB LN) by lia. pose proof (hi_lt n nb LNB LN b s ltac:(lia) ltac:(lia)). pose proof (hi_lt n nb LNB LN s t ltac:(lia) ltac:(lia)).
  pose proof (hi_start n nb LNB LN b ltac:(lia)). pose proof (hi_start n nb LNB LN s ltac:(lia)). lia.
Qed.
Lemma size_ge : forall b t, (0 <= b < t)%Z -> (t <= nt)%Z -> (1 <= size b t)%Z.
Proof using LNB LN. intros b t L1 L2. rewrite (size_hi n nb LNB LN) by lia. pose proof (hi_lt n nb LNB LN b t ltac:(lia) ltac:(lia)). lia. Qed.

Lemma qf_merge : forall b s t x, (0 <= b < s)%Z -> (s < t <= nt)%Z ->
  let n1 := size b s in let rho := e (s * nb - 1)%Z in
  qf b t x = qf b s x + qf s t (view n1 x) + Rabs rho * ((zsign rho * x (n1 - 1)%Z + x n1) * (zsign rho * x (n1 - 1)%Z + x n1)).
Proof using LNB LN.
  intros b s t x L1 L2 n1 rho. destruct (geo3 b s t L1 L2) as (G1 & G2 & G3 & G4). fold n1 in G1, G2, G3. set (n2 := size s t) in *.
  unfold qf. rewrite G1. fold n1 n2. replace (Z.ltb s nt) with true by lia. replace (Z.ltb 0 s) with true by lia.
  set (o := (b * nb)%Z) in *. rewrite G2. unfold tform.
  rewrite (rsum_split2 n1 n2) by lia.
  replace (rsum 0 (n1 + n2 - 1) (fun i => view o e i * (x i * x (i + 1)%Z))) with (rsum 0 (n1 - 1) (fun i => view o e i * (x i * x (i + 1)%Z)) + rho * (x (n1 - 1)%Z * x n1) + rsum 0 (n2 - 1) (fun i => view (o + n1) e i * (view n1 x i * view n1 x (i + 1)%Z))).
  2: { symmetry. rewrite (rsum_app 0 n1 (n1 + n2 - 1)) by lia. f_equal.
    - replace (rsum 0 n1 (fun i => view o e i * (x i * x (i + 1)%Z))) with (rsum 0 ((n1 - 1) + 1) (fun i => view o e i * (x i * x (i + 1)%Z))) by (f_equal; lia). rewrite rsum_snoc by lia. f_equal.
      unfold view, rho. rewrite G2. replace (n1 - 1 + 1)%Z with n1 by lia. replace (n1 - 1 + o)%Z with (o + n1 - 1)%Z by lia. reflexivity.
    - replace (rsum n1 (n1 + n2 - 1) (fun i => view o e i * (x i * x (i + 1)%Z))) with (rsum (0 + n1) ((n2 - 1) + n1) (fun i => view o e i * (x i * x (i + 1)%Z))) by (f_equal; lia).
      rewrite rsum_shift. apply rsum_ext. intros i Li. unfold view. replace (i + (o + n1))%Z with (i + n1 + o)%Z by lia. replace (i + 1 + n1)%Z with (i + n1 + 1)%Z by lia. reflexivity. }
  rewrite (rsum_ext 0 n2 (fun i => view o D (i + n1)%Z * (x (i + n1)%Z * x (i + n1)%Z)) (fun i => view (o + n1) D i * (view n1 x i * view n1 x i))).
  2: { intros i Li. unfold view. replace (i + (o + n1))%Z with (i + n1 + o)%Z by lia. reflexivity. }
  unfold view. change (0 + n1)%Z with n1. replace (o + n1 + n2 - 1)%Z with (o + (n1 + n2) - 1)%Z by lia. replace (n2 - 1 + n1)%Z with (n1 + n2 - 1)%Z by lia.
  assert (RR : e (o + n1 - 1)%Z = rho) by (unfold rho; rewrite G2; reflexivity). rewrite RR.
  pose proof (zsign_sq rho) as ZS. pose proof (zsign_abs rho) as ZA. set (sg := zsign rho) in *. set (a := Rabs rho) in *.
  set (u := x (n1 - 1)%Z). set (w := x n1).
  replace (a * ((sg * u + w) * (sg * u + w))) with (a * (sg * sg) * (u * u) + 2 * (a * sg) * (u * w) + a * (w * w)) by ring. rewrite ZS, ZA.
  destruct (Z.ltb 0 b), (Z.ltb t nt); ring.
Qed.

Variable B : R.
Hypothesis HB : forall i, (0 <= i < n)%Z -> row_sum n D e i <= B.
Lemma qf_bound : forall b t x, (0 <= b < t)%Z -> (t <= nt)%Z -> Rabs (qf b t x) <= B * dot (size b t) x x.
Proof using LNB LN HB.
  intros b t x L1 L2. pose proof (size_ge b t L1 L2) as LM. pose proof (size_hi n nb LNB LN b t ltac:(lia) ltac:(lia)) as SH. pose proof (hi_start n nb LNB LN b ltac:(lia)) as HS. set (m := size b t) in *. unfold qf. fold m. set (o := (b * nb)%Z) in *.
  assert (O0 : (0 <= o)%Z) by (unfold o; nia). assert (OB : Z.ltb 0 b = Z.ltb 0 o) by (unfold o; destruct (Z.ltb_spec 0 b), (Z.ltb_spec 0 (b * nb)); reflexivity || nia).
  assert (HN : (hi t <= n)%Z) by (unfold DcMerge.hi; lia).
  assert (TB : Z.ltb t nt = Z.ltb (o + m) n).
  { destruct (Z.ltb_spec t nt) as [X|X], (Z.ltb_spec (o + m) n); try reflexivity; exfalso.
    - pose proof (start_lt n nb LNB LN t X). unfold DcMerge.hi in SH. nia.
    - assert (t = nt) by lia. subst t. pose proof (hi_nt n nb LNB LN). lia. }
  rewrite OB, TB.
  set (y := fun i => x i * x i).
  assert (Y0 : forall i, 0 <= y i) by (intros; unfold y; nra).
  assert (T1 : Rabs (rsum 0 m (fun i => view o D i * (x i * x i))) <= rsum 0 m (fun i => Rabs (D (i + o)%Z) * y i)).
  { eapply Rle_trans; [apply rsum_abs|]. apply rsum_le. intros i Li. rewrite Rabs_mult. unfold view. rewrite (Rabs_right (x i * x i)) by (apply Rle_ge, Y0). fold (y i). lra. }
  assert (T2 : Rabs (2 * rsum 0 (m - 1) (fun i => view o e i * (x i * x (i + 1)%Z))) <= rsum 0 (m - 1) (fun i => Rabs (e (i + o)%Z) * y i) + rsum 0 (m - 1) (fun i => Rabs (e (i + o)%Z) * y (i + 1)%Z)).
  { rewrite <- rsum_mul_l, <- rsum_add. eapply Rle_trans; [apply rsum_abs|]. apply rsum_le. intros i Li. unfold view.
    replace (2 * (e (i + o)%Z * (x i * x (i + 1)%Z))) with (e (i + o)%Z * (2 * (x i * x (i + 1)%Z))) by ring. rewrite Rabs_mult, <- Rmult_plus_distr_l. apply Rmult_le_compat_l; [apply Rabs_pos|].
    unfold y. apply Rabs_le. set (u := x i). set (w := x (i + 1)%Z). pose proof (Rle_0_sqr (u + w)). pose proof (Rle_0_sqr (u - w)). unfold Rsqr in *. split; lra. }
  set (c0 := if Z.ltb 0 o then Rabs (e (o - 1)%Z) * (x 0%Z * x 0%Z) else 0). set (c1 := if Z.ltb (o + m) n then Rabs (e (o + m - 1)%Z) * (x (m - 1)%Z * x (m - 1)%Z) else 0).
  assert (C0 : 0 <= c0) by (unfold c0; destruct (Z.ltb 0 o); [apply Rmult_le_pos; [apply Rabs_pos|apply Y0]|lra]).
  assert (C1 : 0 <= c1) by (unfold c1; destruct (Z.ltb (o + m) n); [apply Rmult_le_pos; [apply Rabs_pos|apply Y0]|lra]).
  assert (S1 : rsum 0 m (fun i => (if Z.ltb 0 (i + o) then Rabs (e (i + o - 1)%Z) else 0) * y i) = c0 + rsum 0 (m - 1) (fun i => Rabs (e (i + o)%Z) * y (i + 1)%Z)).
  { rewrite rsum_cons by lia. f_equal.
    - unfold c0, y. change (0 + o)%Z with o. destruct (Z.ltb 0 o); ring.
    - replace (rsum (0 + 1) m) with (rsum (0 + 1) ((m - 1) + 1)) by (f_equal; lia). rewrite rsum_shift. apply rsum_ext. intros i Li. replace (Z.ltb 0 (i + 1 + o)) with true by lia. replace (i + 1 + o - 1)%Z with (i + o)%Z by lia. reflexivity. }
  assert (S2 : rsum 0 m (fun i => (if Z.ltb (i + o) (n - 1) then Rabs (e (i + o)%Z) else 0) * y i) = rsum 0 (m - 1) (fun i => Rabs (e (i + o)%Z) * y i) + c1).
  { replace (rsum 0 m) with (rsum 0 ((m - 1) + 1)) by (f_equal; lia). rewrite rsum_snoc by lia. f_equal.
    - apply rsum_ext. intros i Li. replace (Z.ltb (i + o) (n - 1)) with true by lia. reflexivity.
    - unfold c1, y. replace (m - 1 + o)%Z with (o + m - 1)%Z by lia. replace (Z.ltb (o + m - 1) (n - 1)) with (Z.ltb (o + m) n) by lia. destruct (Z.ltb (o + m) n); ring. }
  assert (TOT : rsum 0 m (fun i => row_sum n D e (i + o)%Z * y i) <= B * dot m x x).
  { unfold dot. rewrite <- rsum_mul_l. apply rsum_le. intros i Li. fold (y i). apply Rmult_le_compat_r; [apply Y0|]. apply HB. lia. }
  assert (SPL : rsum 0 m (fun i => row_sum n D e (i + o)%Z * y i) = rsum 0 m (fun i => Rabs (D (i + o)%Z) * y i) + (c0 + rsum 0 (m - 1) (fun i => Rabs (e (i + o)%Z) * y (i + 1)%Z)) + (rsum 0 (m - 1) (fun i => Rabs (e (i + o)%Z) * y i) + c1)).
  { rewrite <- S1, <- S2, <- !rsum_add. apply rsum_ext. intros i Li. unfold row_sum. ring. }
  unfold tform. apply Rabs_le.
  pose proof (Rle_abs (rsum 0 m (fun i => view o D i * (x i * x i)))). pose proof (Rle_abs (- rsum 0 m (fun i => view o D i * (x i * x i)))) as X1. rewrite Rabs_Ropp in X1.
  pose proof (Rle_abs (2 * rsum 0 (m - 1) (fun i => view o e i * (x i * x (i + 1)%Z)))). pose proof (Rle_abs (- (2 * rsum 0 (m - 1) (fun i => view o e i * (x i * x (i + 1)%Z))))) as X2. rewrite Rabs_Ropp in X2. lra.
Qed.

(** ** Cuppen's decomposition *)
Lemma cuppens_at : exists Dc off, cuppens n nb D e = (Dc, off) /\ (forall s, (1 <= s < nt)%Z -> off (s - 1)%Z = e (s * nb - 1)%Z) /\
  forall i, Dc i = D i - rsum 1 nt (fun s => if Z.eqb (i + 1) (s * nb) then Rabs (e (s * nb - 1)%Z) else 0) - rsum 1 nt (fun s => if Z.eqb i (s * nb) then Rabs (e (s * nb - 1)%Z) else 0).
Proof using LNB LN.
  unfold cuppens. pose proof (nt_bounds n nb LNB LN) as [_ NT1].
  assert (X : forall k, (0 <= k)%Z -> (1 + k <= nt)%Z -> exists Dc off, fold_left (fun s i_split => let '(d, off) := s in
    let top := ((i_split - 1) * nb + (rows (i_split - 1) - 1))%Z in let bottom := (i_split * nb)%Z in let v := e top in
    let d := upd d top (d top - Rabs v) in let d := upd d bottom (d bottom - Rabs v) in (d, upd off (i_split - 1)%Z v)) (zrange 1 (1 + k)) (D, fun _ => 0) = (Dc, off) /\
    (forall s, (1 <= s < 1 + k)%Z -> off (s - 1)%Z = e (s * nb - 1)%Z) /\
    forall i, Dc i = D i - rsum 1 (1 + k) (fun s => if Z.eqb (i + 1) (s * nb) then Rabs (e (s * nb - 1)%Z) else 0) - rsum 1 (1 + k) (fun s => if Z.eqb i (s * nb) then Rabs (e (s * nb - 1)%Z) else 0)).
  { intros k Lk. pattern k. apply natlike_ind; [| |exact Lk].
    - intros _. exists D, (fun _ => 0). rewrite zrange_nil by lia. split; [reflexivity|]. split; [lia|]. intros i. rewrite !rsum_nil by lia. ring.
    - intros x Lx IH Ls. unfold Z.succ in *. destruct (IH ltac:(lia)) as (Dc & off & EF & HO & HD). rewrite Z.add_assoc, zrange_snoc, fold_left_app by lia. rewrite EF. cbn [fold_left].
      rewrite (rows_full n nb LNB LN) by lia. replace ((1 + x - 1) * nb + (nb - 1))%Z with ((1 + x) * nb - 1)%Z by lia. set (p := ((1 + x) * nb)%Z) in *.
      eexists _, _. split; [reflexivity|]. split.
      + intros s Lss. unfold upd. destruct (Z.eqb_spec (s - 1) (1 + x - 1)) as [E|E]; [replace s with (1 + x)%Z by lia; reflexivity|]. apply HO. lia.
      + intros i. rewrite !rsum_snoc by lia. fold p. unfold upd.
        destruct (Z.eqb_spec p (p - 1)); [lia|]. destruct (Z.eqb_spec i p) as [E1|N1]; destruct (Z.eqb_spec (i + 1) p) as [E2|N2]; try lia.
        * rewrite E1, HD. ring.
        * destruct (Z.eqb_spec i (p - 1)) as [E3|]; [|lia]. rewrite <- E3, HD. ring.
        * destruct (Z.eqb_spec i (p - 1)); [lia|]. rewrite HD. ring. }
  destruct (X (nt - 1)%Z ltac:(lia) ltac:(lia)) as (Dc & off & EF & HO & HD). replace (1 + (nt - 1))%Z with nt in * by lia. exists Dc, off. auto.
Qed.
(** the leaf subproblems have the quadratic form qf *)
Lemma leaf_form : forall Dc off t x, cuppens n nb D e = (Dc, off) -> (0 <= t < nt)%Z -> tform (rows t) (view (t * nb) Dc) (view (t * nb) e) x = qf t (t + 1) x.
Proof using LNB LN.
  intros Dc off t x EC Lt. destruct cuppens_at as (Dc' & off' & E & _ & HD). rewrite EC in E. injection E as <- <-.
  destruct (rows_hi n nb LNB LN t Lt) as [R1 R2]. assert (SZ : size t (t + 1) = rows t) by (unfold dc_size; replace (t + 1 - 1)%Z with t by lia; lia).
  unfold qf. rewrite SZ. set (m := rows t) in *. set (o := (t * nb)%Z) in *.
  set (a0 := if Z.ltb 0 t then Rabs (e (o - 1)%Z) else 0). set (a1 := if Z.ltb (t + 1) nt then Rabs (e (o + m - 1)%Z) else 0).
  assert (FULL : (t + 1 < nt)%Z -> m = nb) by (intros; unfold m; apply (rows_full n nb LNB LN); lia).
  assert (PW : forall i, (0 <= i < m)%Z -> view o Dc i = view o D i - (if Z.eqb i (m - 1) then a1 else 0) - (if Z.eqb i 0 then a0 else 0)).
  { intros i Li. unfold view. rewrite HD. f_equal; [f_equal|].
    - unfold a1. destruct (Z.eqb_spec i (m - 1)) as [->|N].
      + destruct (Z.ltb_spec (t + 1) nt) as [X|X].
        * specialize (FULL X). rewrite (rsum_one 1 nt _ (t + 1)%Z); [|lia|].
          -- replace (Z.eqb (m - 1 + o + 1) ((t + 1) * nb)) with true by (symmetry; apply Z.eqb_eq; unfold o; lia). f_equal. f_equal. unfold o. lia.
          -- intros s Ls Ns. destruct (Z.eqb_spec (m - 1 + o + 1) (s * nb)); [|reflexivity]. exfalso. unfold o in *. nia.
        * apply rsum_0. intros s Ls. destruct (Z.eqb_spec (m - 1 + o + 1) (s * nb)); [|reflexivity]. exfalso. unfold o in *. nia.
      + apply rsum_0. intros s Ls. destruct (Z.eqb_spec (i + o + 1) (s * nb)) as [Y|]; [|reflexivity]. exfalso. unfold o in *. assert (s = t + 1)%Z by nia. subst s. specialize (FULL ltac:(lia)). nia.
    - unfold a0. destruct (Z.eqb_spec i 0) as [->|N].
      + destruct (Z.ltb_spec 0 t) as [X|X].
        * rewrite (rsum_one 1 nt _ t); [|lia|].
          -- change (0 + o)%Z with o. rewrite Z.eqb_refl. reflexivity.
          -- intros s Ls Ns. destruct (Z.eqb_spec (0 + o) (s * nb)); [|reflexivity]. exfalso. unfold o in *. nia.
        * apply rsum_0. intros s Ls. destruct (Z.eqb_spec (0 + o) (s * nb)); [|reflexivity]. exfalso. unfold o in *. nia.
      + apply rsum_0. intros s Ls. destruct (Z.eqb_spec (i + o) (s * nb)); [|reflexivity]. exfalso. unfold o in *. assert (t < s)%Z by nia. assert (s < t + 1)%Z by nia. lia. }
  unfold tform. rewrite (rsum_ext 0 m _ (fun i => view o D i * (x i * x i) - ((if Z.eqb i (m - 1) then a1 * (x i * x i) else 0) + (if Z.eqb i 0 then a0 * (x i * x i) else 0)))).
  2: { intros i Li. rewrite PW by lia. destruct (Z.eqb i (m - 1)), (Z.eqb i 0); ring. }
  rewrite rsum_sub, rsum_add. rewrite (rsum_one 0 m (fun i => if Z.eqb i (m - 1) then a1 * (x i * x i) else 0) (m - 1)%Z) by (lia || (intros i Li N; destruct (Z.eqb_spec i (m - 1)); [contradiction|reflexivity])).
  rewrite (rsum_one 0 m (fun i => if Z.eqb i 0 then a0 * (x i * x i) else 0) 0%Z) by (lia || (intros i Li N; destruct (Z.eqb_spec i 0); [contradiction|reflexivity])).
  rewrite !Z.eqb_refl. unfold a0, a1. destruct (Z.ltb 0 t), (Z.ltb (t + 1) nt); ring.
Qed.

(** ** The leaves *)
Definition same_tile (k i j : Z) : Prop := exists t, (0 <= t < k)%Z /\ (t * nb <= i < hi (t + 1))%Z /\ (t * nb <= j < hi (t + 1))%Z.
Lemma solve_leaf_ok : forall Dc ev0, exists d1 ev, solve_leaf n nb stedc Dc e ev0 = (d1, ev) /\
  (forall i j, (forall t, (0 <= t < nt)%Z -> ~ ((t * nb <= i < hi (t + 1))%Z /\ (t * nb <= j < hi (t + 1))%Z)) -> ev i j = ev0 i j) /\
  forall t, (0 <= t < nt)%Z -> let o := (t * nb)%Z in let m := rows t in
    ascending Rltb (view o d1) (fun i => i) 0 m /\ orthonormal m (view2 o ev) /\ forall x, dform m (view o d1) (coord m (view2 o ev) x) = tform m (view o Dc) (view o e) x.
Proof using LNB LN ST.
  intros Dc ev0. unfold solve_leaf. pose proof (nt_bounds n nb LNB LN) as [_ NT1].
  assert (X : forall k, (0 <= k)%Z -> (k <= nt)%Z -> exists d1 ev, fold_left (fun s i => let '(d, ev) := s in let o := (i * nb)%Z in let m := rows i in
    let '(lam, E) := stedc m (view o d) (view o e) in
    (fun j => if (Z.leb o j && Z.ltb j (o + m))%bool then lam (j - o)%Z else d j, put_block o o m m E ev)) (zrange 0 k) (Dc, ev0) = (d1, ev) /\
    (forall j, (k * nb <= j)%Z -> d1 j = Dc j) /\
    (forall i j, (forall t, (0 <= t < k)%Z -> ~ ((t * nb <= i < hi (t + 1))%Z /\ (t * nb <= j < hi (t + 1))%Z)) -> ev i j = ev0 i j) /\
    forall t, (0 <= t < k)%Z -> let o := (t * nb)%Z in let m := rows t in
    ascending Rltb (view o d1) (fun i => i) 0 m /\ orthonormal m (view2 o ev) /\ forall x, dform m (view o d1) (coord m (view2 o ev) x) = tform m (view o Dc) (view o e) x).
  { intros k Lk. pattern k. apply natlike_ind; [| |exact Lk].
    - intros _. exists Dc, ev0. rewrite zrange_nil by lia. split; [reflexivity|]. split; [reflexivity|]. split; [reflexivity|]. lia.
    - intros x Lx IH Ls. unfold Z.succ in *. destruct (IH ltac:(lia)) as (d1 & ev & EF & H1 & H2 & H3). rewrite zrange_snoc, fold_left_app by lia. rewrite EF. cbn [fold_left].
      destruct (rows_hi n nb LNB LN x ltac:(lia)) as [R1 R2]. set (o := (x * nb)%Z) in *. set (m := rows x) in *. destruct (stedc m (view o d1) (view o e)) as [lam E] eqn:ES.
      destruct (ST _ _ _ _ _ R2 ES) as (SA & SO & SF).
      assert (VD : forall i, (0 <= i < m)%Z -> view o (fun j => if (Z.leb o j && Z.ltb j (o + m))%bool then lam (j - o)%Z else d1 j) i = lam i).
      { intros i Li. unfold view. replace (Z.leb o (i + o) && Z.ltb (i + o) (o + m))%bool with true by lia. f_equal. lia. }
      assert (VE : forall i j, (0 <= i < m)%Z -> (0 <= j < m)%Z -> view2 o (put_block o o m m E ev) i j = E i j).
      { intros i j Li Lj. unfold view2. rewrite put_block_in by lia. f_equal; lia. }
      eexists _, _. split; [reflexivity|]. split; [|split].
      + intros j Lj. replace (Z.leb o j && Z.ltb j (o + m))%bool with false by (unfold o, m in *; nia). apply H1. lia.
      + intros i j Hij. rewrite put_block_out; [apply H2; intros t Lt; apply Hij; lia|]. specialize (Hij x ltac:(lia)). fold o in Hij. lia.
      + intros t Lt. destruct (Z.eq_dec t x) as [->|N].
        * fold o. fold m. split; [|split].
          -- intros p q Lp Lq. rewrite !VD by lia. apply Rltb_false. apply SA; lia.
          -- eapply orthonormal_ext; [|exact SO]. intros i j Li Lj. symmetry. apply VE; assumption.
          -- intros y. rewrite (dform_ext m _ _ lam (coord m E y)); [|exact VD|intros j Lj; apply coord_ext; [intros i Li; apply VE; assumption|reflexivity]].
             rewrite SF. apply tform_ext; [|reflexivity]. intros i Li. unfold view. apply H1. unfold o. lia.
        * set (o' := (t * nb)%Z). set (m' := rows t). destruct (H3 t ltac:(lia)) as (A1 & A2 & A3). fold o' m' in A1, A2, A3. assert (OO : (o' + m' <= o)%Z) by (unfold o', m', o, dc_rows; nia).
          assert (VD' : forall i, (0 <= i < m')%Z -> view o' (fun j => if (Z.leb o j && Z.ltb j (o + m))%bool then lam (j - o)%Z else d1 j) i = view o' d1 i).
          { intros i Li. unfold view. replace (Z.leb o (i + o') && Z.ltb (i + o') (o + m))%bool with false by lia. reflexivity. }
          assert (VE' : forall i j, (0 <= i < m')%Z -> (0 <= j < m')%Z -> view2 o' (put_block o o m m E ev) i j = view2 o' ev i j).
          { intros i j Li Lj. unfold view2. apply put_block_out. lia. }
          split; [|split].
          -- intros p q Lp Lq. rewrite !VD' by lia. apply A1; assumption.
          -- eapply orthonormal_ext; [|exact A2]. intros i j Li Lj. symmetry. apply VE'; assumption.
          -- intros y. rewrite <- A3. apply dform_ext; [exact VD'|]. intros j Lj. apply coord_ext; [intros i Li; apply VE'; assumption|reflexivity]. }
  destruct (X nt ltac:(lia) ltac:(lia)) as (d1 & ev & EF & _ & H2 & H3). exists d1, ev. auto.
Qed.
Lemma offload_at : forall d1 a p, offload_diagonal n nb d1 a p = if (Z.leb 0 p && Z.ltb p n)%bool then d1 p else a p.
Proof using LNB LN.
  intros d1 a p. unfold offload_diagonal. pose proof (nt_bounds n nb LNB LN) as [_ NT1]. rewrite (tiled_at n nb LNB LN (fun i j => (i * nb + j)%Z) 0 (fun i p => d1 p) 0 nt) by (intros; lia).
  rewrite (hi_nt n nb LNB LN). replace (p + 0 * nb)%Z with p by lia. reflexivity.
Qed.

(** ** The merges *)
Notation M := (Rmax 1 B).
Notation g := (1 + 24 * IZR n * eps).
Definition dlt (k : Z) : R := M * (pow g (Z.to_nat k) - 1).
Lemma g_ge : 1 <= g.
Proof using LN EPS. assert (0 <= IZR n) by (apply IZR_le; lia). assert (0 <= IZR n * eps) by (apply Rmult_le_pos; assumption). lra. Qed.
Lemma M_ge : 1 <= M. Proof. apply Rmax_l. Qed.
Lemma dlt_le : forall k k', (0 <= k <= k')%Z -> 0 <= dlt k <= dlt k'.
Proof using LN EPS.
  intros k k' L. unfold dlt. pose proof M_ge. pose proof (pow_R1_Rle g (Z.to_nat k) g_ge). pose proof (Rle_pow g (Z.to_nat k) (Z.to_nat k') g_ge ltac:(lia)). split; [apply Rmult_le_pos; lra|].
  apply Rmult_le_compat_l; lra.
Qed.
Lemma dlt_succ : forall k, (0 <= k)%Z -> 24 * IZR n * eps * (M + dlt k) + dlt k = dlt (k + 1).
Proof using. intros k L. unfold dlt. replace (Z.to_nat (k + 1)) with (S (Z.to_nat k)) by lia. cbn [pow]. ring. Qed.

Record blk (s : dcs) (b t : Z) : Prop := {
  k_perm : is_perm (size b t) (sub_idx nb s b t);
  k_asc : ascending Rltb (view (b * nb) (s_d0 s)) (sub_idx nb s b t) 0 (size b t);
  k_orth : orthonormal (size b t) (view2 (b * nb) (s_e0 s));
  k_form : forall x, Rabs (dform (size b t) (view (b * nb) (s_d0 s)) (coord (size b t) (view2 (b * nb) (s_e0 s)) x) - qf b t x) <= dlt (t - b - 1) * dot (size b t) x x;
  k_i2 : (b + 1 < t)%Z -> forall i, (b * nb <= i < hi t)%Z -> s_i2 s i = s_i1 s i }.

Lemma blk_values : forall s b t i, (0 <= b < t)%Z -> (t <= nt)%Z -> blk s b t -> (0 <= i < size b t)%Z -> Rabs (view (b * nb) (s_d0 s) i) <= B + dlt (t - b - 1).
Proof using LNB LN HB.
  intros s b t i L1 L2 K Li. set (m := size b t) in *. set (Q := view2 (b * nb) (s_e0 s)). set (x := fun l => Q l i).
  pose proof (k_form s b t K x) as F. pose proof (k_orth s b t K) as O. fold m in F, O. fold Q in F, O.
  assert (CX : forall c, (0 <= c < m)%Z -> coord m Q x c = kron c i) by (intros c Lc; unfold coord, x; apply O; lia).
  assert (XX : dot m x x = 1) by (unfold dot, x; rewrite O by lia; apply kron_eq).
  assert (DF : dform m (view (b * nb) (s_d0 s)) (coord m Q x) = view (b * nb) (s_d0 s) i).
  { unfold dform. rewrite (rsum_one 0 m _ i) by (lia || (intros c Lc N; rewrite CX, kron_neq by lia; ring)). rewrite CX, kron_eq by lia. ring. }
  rewrite DF, XX in F. pose proof (qf_bound b t x L1 L2) as QB. fold m in QB. rewrite XX in QB. set (v := view (b * nb) (s_d0 s) i) in *. replace v with ((v - qf b t x) + qf b t x) by ring. eapply Rle_trans; [apply Rabs_triang|]. lra.
Qed.

Lemma merge_blk : forall (ord : Z -> Z -> list Z) b sp t (s : dcs), (0 <= b < sp)%Z -> (sp < t <= nt)%Z -> (forall k r, (0 <= k)%Z -> Permutation (ord k r) (zrange 0 k)) ->
  blk s b sp -> blk s sp t -> (forall i j, (b * nb <= i < sp * nb)%Z -> (sp * nb <= j < hi t)%Z -> s_e0 s i j = 0 /\ s_e0 s j i = 0) ->
  exists s', merge_subproblems n nb eps workers laed4 ord b sp t (e (sp * nb - 1)%Z) s = Some s' /\ blk s' b t /\
    (forall i j, ~ ((b * nb <= i < hi t)%Z /\ (b * nb <= j < hi t)%Z) -> s_e0 s' i j = s_e0 s i j) /\
    (forall i, ~ (b * nb <= i < hi t)%Z -> s_d0 s' i = s_d0 s i /\ s_i1 s' i = s_i1 s i /\ s_i2 s' i = s_i2 s i).
Proof using LNB LN EPS LW LA HB.
  intros ord b sp t s L1 L2 ORD K1 K2 ZE. destruct (geo3 b sp t L1 L2) as (G1 & G2 & G3 & G4).
  destruct (merge_ok n nb eps workers laed4 LNB LN EPS LW LA ord b sp t (e (sp * nb - 1)%Z) s L1 L2 ORD (k_perm _ _ _ K1) (k_perm _ _ _ K2) (k_asc _ _ _ K1) (k_asc _ _ _ K2) (k_orth _ _ _ K1) (k_orth _ _ _ K2) ZE)
    as (s' & ES & FE & FV & PM & AS & I2 & OR & FM).
  exists s'. split; [exact ES|]. split; [|split; [exact FE|exact FV]].
  assert (SI : sub_idx nb s' b t = view (b * nb) (s_i1 s')) by (unfold sub_idx; destruct (Z.eqb_spec t (b + 1)); [lia|reflexivity]).
  constructor; try rewrite SI; try assumption; [|intros _; exact I2]. intros x. specialize (FM x).
  rewrite (qf_merge b sp t x L1 L2). set (m := size b t) in *. set (n1 := size b sp) in *. set (n2 := size sp t) in *.
  pose proof (k_form _ _ _ K1 x) as F1. pose proof (k_form _ _ _ K2 (view n1 x)) as F2. fold n1 in F1. fold n2 in F2.
  set (k := (t - b - 2)%Z). assert (D1 := dlt_le (sp - b - 1) k ltac:(lia)). assert (D2 := dlt_le (t - sp - 1) k ltac:(lia)). assert (DK := dlt_succ k ltac:(lia)). replace (k + 1)%Z with (t - b - 1)%Z in DK by lia.
  assert (XS : dot m x x = dot n1 x x + dot n2 (view n1 x) (view n1 x)) by (unfold dot; rewrite G1; apply rsum_split2; lia).
  assert (P1 := dot_pos n1 x). assert (P2 := dot_pos n2 (view n1 x)).
  assert (VM : Rmax (vec_max m (view (b * nb) (s_d0 s))) 1 <= M + dlt k).
  { pose proof M_ge as MG. assert (B <= M) by apply Rmax_r. apply Rmax_lub; [|lra]. apply vec_max_le; [lra|]. intros i Li. destruct (Z.lt_ge_cases i n1) as [Li1|Li1].
    - pose proof (blk_values s b sp i ltac:(lia) ltac:(lia) K1 ltac:(lia)). lra.
    - pose proof (blk_values s sp t (i - n1)%Z ltac:(lia) ltac:(lia) K2 ltac:(lia)) as V. unfold view in V. replace (i - n1 + sp * nb)%Z with (i + b * nb)%Z in V by lia. unfold view. lra. }
  set (W := dform m _ _) in *. set (U1 := dform n1 _ _) in *. set (U2 := dform n2 _ _) in *. set (q1 := qf b sp x) in *. set (q2 := qf sp t (view n1 x)) in *. set (rr := Rabs _ * _) in *.
  replace (W - (q1 + q2 + rr)) with ((W - (U1 + U2 + rr)) + ((U1 - q1) + (U2 - q2))) by ring.
  eapply Rle_trans; [apply Rabs_triang|]. eapply Rle_trans; [apply Rplus_le_compat_l, Rabs_triang|].
  assert (F1' : Rabs (U1 - q1) <= dlt k * dot n1 x x) by (eapply Rle_trans; [exact F1|apply Rmult_le_compat_r; lra]).
  assert (F2' : Rabs (U2 - q2) <= dlt k * dot n2 (view n1 x) (view n1 x)) by (eapply Rle_trans; [exact F2|apply Rmult_le_compat_r; lra]).
  assert (FM' : Rabs (W - (U1 + U2 + rr)) <= 24 * IZR n * eps * (M + dlt k) * dot m x x).
  { eapply Rle_trans; [exact FM|]. apply Rmult_le_compat_r; [lra|].
    assert (0 <= IZR m <= IZR n) by (split; apply IZR_le; [lia|]; unfold m; rewrite (size_hi n nb LNB LN) by lia; pose proof (hi_start n nb LNB LN b ltac:(lia)); unfold DcMerge.hi in *; nia).
    set (V := Rmax _ 1) in *. assert (0 <= V) by (eapply Rle_trans; [|apply Rmax_r]; lra). replace (3 * IZR m * (8 * eps * V)) with (24 * (IZR m * (eps * V))) by ring. replace (24 * IZR n * eps * (M + dlt k)) with (24 * (IZR n * (eps * (M + dlt k)))) by ring.
    apply Rmult_le_compat_l; [lra|]. apply Rmult_le_compat; [lra|apply Rmult_le_pos; assumption|lra|]. apply Rmult_le_compat_l; assumption. }
  rewrite <- DK. replace ((24 * IZR n * eps * (M + dlt k) + dlt k) * dot m x x) with (24 * IZR n * eps * (M + dlt k) * dot m x x + (dlt k * dot n1 x x + dlt k * dot n2 (view n1 x) (view n1 x))) by (rewrite XS; ring). lra.
Qed.

(** consecutive ranges of tiles *)
Fixpoint chain (lo : Z) (R : list (Z * Z)) (h : Z) : Prop := match R with [] => lo = h | (b, t) :: R' => b = lo /\ (b < t)%Z /\ chain t R' h end.
Lemma chain_le : forall W lo h, chain lo W h -> (lo <= h)%Z.
Proof. induction W as [|[b t] W IH]; cbn; intros lo h H; [lia|]. destruct H as (-> & L & H). apply IH in H. lia. Qed.
Lemma chain_app : forall W1 W2 lo h, chain lo (W1 ++ W2) h <-> exists mid, chain lo W1 mid /\ chain mid W2 h.
Proof.
  induction W1 as [|[b t] W1 IH]; cbn; intros W2 lo h.
  - split; [intros H; exists lo; auto|intros (mid & -> & H); exact H].
  - rewrite IH. split; [intros (-> & L & mid & A & C); exists mid; auto|intros (mid & (-> & L & A) & C); repeat split; try assumption; exists mid; auto].
Qed.
Lemma chain_in : forall W lo h b t, chain lo W h -> In (b, t) W -> (lo <= b < t)%Z /\ (t <= h)%Z.
Proof.
  induction W as [|[b' t'] W IH]; cbn; intros lo h b t H I; [contradiction|]. destruct H as (-> & L & H). destruct I as [I|I].
  - injection I as <- <-. apply chain_le in H. lia.
  - destruct (IH _ _ _ _ H I). lia.
Qed.
Lemma chain_leaves : forall k, (0 <= k)%Z -> chain 0 (leaves 0 k) k.
Proof.
  intros k L. pattern k. apply natlike_ind; [reflexivity| |exact L]. intros x Lx IH. unfold leaves, Z.succ in *. rewrite zrange_snoc, map_app by lia. apply chain_app. exists x. split; [exact IH|]. cbn. lia.
Qed.

Definition dinv (R : list (Z * Z)) (s : dcs) : Prop :=
  (forall b t, In (b, t) R -> blk s b t) /\
  (forall i j, (0 <= i < n)%Z -> (0 <= j < n)%Z -> (forall b t, In (b, t) R -> ~ ((b * nb <= i < hi t)%Z /\ (b * nb <= j < hi t)%Z)) -> s_e0 s i j = 0).

Lemma blk_frame : forall s s' b t, (0 <= b < t)%Z -> (t <= nt)%Z -> (forall i j, (b * nb <= i < hi t)%Z -> (b * nb <= j < hi t)%Z -> s_e0 s' i j = s_e0 s i j) ->
  (forall i, (b * nb <= i < hi t)%Z -> s_d0 s' i = s_d0 s i /\ s_i1 s' i = s_i1 s i /\ s_i2 s' i = s_i2 s i) -> blk s b t -> blk s' b t.
Proof using LNB LN.
  intros s s' b t L1 L2 FE FV [KP KA KO KF KI]. pose proof (size_hi n nb LNB LN b t ltac:(lia) ltac:(lia)) as SH. rewrite (hi_start n nb LNB LN b) in SH by lia. set (m := size b t) in *. set (o := (b * nb)%Z) in *.
  assert (VE : forall i j, (0 <= i < m)%Z -> (0 <= j < m)%Z -> view2 o (s_e0 s) i j = view2 o (s_e0 s') i j) by (intros; unfold view2; symmetry; apply FE; lia).
  assert (VD : forall i, (0 <= i < m)%Z -> view o (s_d0 s) i = view o (s_d0 s') i) by (intros; unfold view; symmetry; apply FV; lia).
  assert (VI : forall i, (0 <= i < m)%Z -> sub_idx nb s b t i = sub_idx nb s' b t i).
  { intros i Li. unfold sub_idx. destruct (Z.eqb t (b + 1)); [reflexivity|]. fold o. unfold view. symmetry. apply FV. lia. }
  constructor; fold m o.
  - apply (is_perm_ext m (sub_idx nb s b t)); assumption.
  - intros p q Lp Lq. rewrite <- !VI by lia. rewrite <- !VD by (apply is_perm_in; [exact KP|lia]). apply KA; assumption.
  - eapply orthonormal_ext; [exact VE|exact KO].
  - intros x. rewrite (dform_ext m _ _ (view o (s_d0 s)) (coord m (view2 o (s_e0 s)) x)); [apply KF|intros; symmetry; apply VD; assumption|]. intros j Lj. apply coord_ext; [intros; symmetry; apply VE; assumption|reflexivity].
  - intros X i Li. destruct (FV i Li) as (_ & F1 & F2). rewrite F1, F2. apply KI; assumption.
Qed.

Lemma merges_inv : forall (ord : Z * Z * Z -> Z -> Z -> list Z) (off : Z -> R), (forall tr k r, (0 <= k)%Z -> Permutation (ord tr k r) (zrange 0 k)) -> (forall s, (1 <= s < nt)%Z -> off (s - 1)%Z = e (s * nb - 1)%Z) ->
  forall R l R', merges R l R' -> chain 0 R nt -> forall s, dinv R s ->
  exists s', fold_left (fun r tr => match r with None => None | Some s => let '(b, m, t) := tr in merge_subproblems n nb eps workers laed4 (ord tr) b m t (off (m - 1)%Z) s end) l (Some s) = Some s' /\ dinv R' s'.
Proof using LNB LN EPS LW LA HB.
  intros ord off ORD OFF R l R' MG. induction MG as [R|R1 R2 b sp t l R' LT MG IH]; intros CH s INV; [exists s; split; [reflexivity|exact INV]|].
  apply chain_app in CH as (mid & CH1 & CH2). cbn in CH2. destruct CH2 as (-> & Lbs & _ & Lst & CH2). pose proof (chain_le _ _ _ CH1) as LB. pose proof (chain_le _ _ _ CH2) as LTn.
  destruct INV as [KB KZ].
  assert (IN1 : forall b' t', In (b', t') R1 -> (0 <= b' < t')%Z /\ (t' <= mid)%Z) by (intros; eapply chain_in; eassumption).
  assert (IN2 : forall b' t', In (b', t') R2 -> (t <= b' < t')%Z /\ (t' <= nt)%Z) by (intros; eapply chain_in; eassumption).
  pose proof (hi_start n nb LNB LN mid ltac:(lia)) as HM. pose proof (hi_start n nb LNB LN sp ltac:(lia)) as HS. pose proof (hi_lt n nb LNB LN mid sp ltac:(lia) ltac:(lia)) as HL1. pose proof (hi_lt n nb LNB LN sp t ltac:(lia) ltac:(lia)) as HL2.
  assert (HN : (hi t <= n)%Z) by (unfold DcMerge.hi; lia).
  assert (SEP : forall b' t', In (b', t') R1 \/ In (b', t') R2 -> (hi t' <= mid * nb)%Z \/ (hi t <= b' * nb)%Z).
  { intros b' t' [I|I].
    - left. destruct (IN1 _ _ I). pose proof (hi_le n nb LNB LN t' mid ltac:(lia)). lia.
    - right. destruct (IN2 _ _ I). pose proof (hi_le n nb LNB LN t b' ltac:(lia)). rewrite (hi_start n nb LNB LN b') in H1 by lia. lia. }
  destruct (merge_blk (ord (mid, sp, t)) mid sp t s ltac:(lia) ltac:(lia) (ORD (mid, sp, t))) as (s' & ES & KN & FE & FV).
  { apply KB. apply in_or_app. right. left. reflexivity. }
  { apply KB. apply in_or_app. right. right. left. reflexivity. }
  { intros i j Li Lj. assert (Z0 : forall b' t', In (b', t') (R1 ++ (mid, sp) :: (sp, t) :: R2) -> ~ ((b' * nb <= i < hi t')%Z /\ (b' * nb <= j < hi t')%Z)).
    { intros b' t' I. apply in_app_or in I as [I|[I|[I|I]]].
      - destruct (SEP b' t' (or_introl I)); [lia|]. destruct (IN1 _ _ I). pose proof (hi_le n nb LNB LN t' mid ltac:(lia)). lia.
      - injection I as <- <-. lia.
      - injection I as <- <-. lia.
      - destruct (IN2 _ _ I). pose proof (hi_le n nb LNB LN t b' ltac:(lia)). rewrite (hi_start n nb LNB LN b') in H1 by lia. lia. }
    assert (0 <= mid * nb)%Z by nia.
    split; apply KZ; try lia; [exact Z0|]. intros b' t' I [A1 A2]. apply (Z0 b' t' I). auto. }
  destruct (IH) with (s := s') as (s2 & EF & INV2).
  { apply chain_app. exists mid. split; [exact CH1|]. cbn. repeat split; try lia. exact CH2. }
  { split.
    - intros b' t' I. apply in_app_or in I as [I|[I|I]].
      + destruct (IN1 _ _ I) as [A1 A2]. assert (SP := hi_le n nb LNB LN t' mid ltac:(lia)). apply (blk_frame s); try lia.
        * intros i j Li Lj. apply FE. lia.
        * intros i Li. apply FV. lia.
        * apply KB. apply in_or_app. left. exact I.
      + injection I as <- <-. exact KN.
      + destruct (IN2 _ _ I) as [A1 A2]. assert (SP := hi_le n nb LNB LN t b' ltac:(lia)). rewrite (hi_start n nb LNB LN b') in SP by lia. apply (blk_frame s); try lia.
        * intros i j Li Lj. apply FE. lia.
        * intros i Li. apply FV. lia.
        * apply KB. apply in_or_app. right. right. right. exact I.
    - intros i j Li Lj H. rewrite FE.
      + apply KZ; try assumption. intros b' t' I [A1 A2]. apply in_app_or in I as [I|[I|[I|I]]].
        * apply (H b' t'); [apply in_or_app; left; exact I|auto].
        * injection I as <- <-. apply (H mid t); [apply in_or_app; right; left; reflexivity|]. lia.
        * injection I as <- <-. apply (H mid t); [apply in_or_app; right; left; reflexivity|]. lia.
        * apply (H b' t'); [apply in_or_app; right; right; exact I|auto].
      + apply (H mid t). apply in_or_app. right. left. reflexivity. }
  exists s2. split; [|exact INV2]. cbn [fold_left]. rewrite (OFF sp) by lia. rewrite ES. exact EF.
Qed.

Theorem solver_ok : forall (ord : Z * Z * Z -> Z -> Z -> list Z) (s : dcs), (forall tr k r, (0 <= k)%Z -> Permutation (ord tr k r) (zrange 0 k)) ->
  exists lam E, tridiag_solver n nb eps workers laed4 stedc ord D e s = Some (lam, E) /\
    (forall p q, (0 <= p <= q)%Z -> (q < n)%Z -> lam p <= lam q) /\ orthonormal n E /\
    (forall x, Rabs (dform n lam (coord n E x) - tform n D e x) <= dlt (nt - 1) * dot n x x).
Proof using LNB LN EPS LW LA ST HB.
  intros ord s ORD. unfold tridiag_solver. destruct (Z.eqb_spec n 0); [lia|]. pose proof (nt_bounds n nb LNB LN) as [NB NT1].
  destruct (Z.eqb_spec nt 1) as [N1|N1].
  - destruct (solve_leaf_ok D (s_e2 s)) as (d1 & ev & ES & FE & H). rewrite ES. specialize (H 0%Z ltac:(lia)). cbv zeta in H. change (0 * nb)%Z with 0%Z in H.
    assert (RN : rows 0 = n) by (unfold dc_rows; lia). rewrite RN in H. destruct H as (A & O & F).
    assert (VW : forall l, (0 <= l < n)%Z -> offload_diagonal n nb d1 (s_d1 s) l = d1 l) by (intros l Ll; rewrite offload_at; replace (Z.leb 0 l && Z.ltb l n)%bool with true by lia; reflexivity).
    assert (V0 : forall (f : Z -> R) i, view 0 f i = f i) by (intros; unfold view; f_equal; lia).
    assert (V2 : forall (f : Z -> Z -> R) i j, view2 0 f i j = f i j) by (intros; unfold view2; f_equal; lia).
    eexists _, _. split; [reflexivity|]. split; [|split].
    + intros p q Lp Lq. rewrite !VW by lia. specialize (A p q Lp Lq). apply Rltb_false in A. rewrite !V0 in A. exact A.
    + eapply orthonormal_ext; [|exact O]. intros; apply V2.
    + intros x. rewrite (dform_ext n _ _ (view 0 d1) (coord n (view2 0 ev) x)).
      * rewrite F. rewrite (tform_ext n _ _ D e) by (intros; apply V0). rewrite Rminus_diag_eq by reflexivity. rewrite Rabs_R0. apply Rmult_le_pos; [apply dlt_le with (k' := (nt - 1)%Z); lia|apply dot_pos].
      * intros j Lj. rewrite VW, V0 by lia. reflexivity.
      * intros j Lj. apply coord_ext; [intros; symmetry; apply V2|reflexivity].
  - destruct cuppens_at as (Dc & off & EC & OFF & _). rewrite EC. destruct (solve_leaf_ok Dc (fun _ _ => 0)) as (d1 & ev & ES & FE & H). rewrite ES.
    destruct (C35_schedule nt NT1) as (l & EG & MG & _). rewrite EG.
    set (s0 := DCS ev _ _ _ _ _ _ _ _ _ _ _ _).
    destruct (merges_inv ord off ORD OFF _ _ _ MG (chain_leaves nt ltac:(lia)) s0) as (s' & EF & INV).
    { split.
      - intros b t I. unfold leaves in I. apply in_map_iff in I as (i & E & Li). injection E as <- <-. apply in_zrange in Li. destruct (H i Li) as (A & O & F). pose proof (rows_hi n nb LNB LN i Li) as [R1 R2].
        assert (HIn : (hi (i + 1) <= n)%Z) by (unfold DcMerge.hi; lia). assert (0 <= i * nb)%Z by nia.
        assert (SZ : size i (i + 1) = rows i) by (unfold dc_size; replace (i + 1 - 1)%Z with i by lia; lia).
        assert (SI : sub_idx nb s0 i (i + 1) = fun i => i) by (unfold sub_idx; rewrite Z.eqb_refl; reflexivity).
        assert (VD : forall j, (0 <= j < rows i)%Z -> view (i * nb) (s_d0 s0) j = view (i * nb) d1 j).
        { intros j Lj. unfold view, s0. cbn [s_d0]. rewrite offload_at. replace (Z.leb 0 (j + i * nb) && Z.ltb (j + i * nb) n)%bool with true by lia. reflexivity. }
        constructor; rewrite ?SI, ?SZ; try lia.
        + apply is_perm_id.
        + intros p q Lp Lq. rewrite !VD by lia. apply A; assumption.
        + exact O.
        + intros x. change (s_e0 s0) with ev. rewrite (dform_ext (rows i) _ _ (view (i * nb) d1) (coord (rows i) (view2 (i * nb) ev) x)) by (exact VD || reflexivity). rewrite F. rewrite (leaf_form Dc off i x EC Li).
          rewrite Rminus_diag_eq by reflexivity. rewrite Rabs_R0. apply Rmult_le_pos; [apply dlt_le with (k' := (i + 1 - i - 1)%Z); lia|apply dot_pos].
      - intros i j Li Lj G. change (s_e0 s0 i j) with (ev i j). apply FE. intros t Lt. apply G. unfold leaves. apply in_map_iff. exists t. split; [reflexivity|]. apply in_zrange. lia. }
    rewrite EF. destruct INV as [KB _]. destruct (KB 0%Z nt (or_introl eq_refl)) as [KP KA KO KF KI]. assert (SZ : size 0 nt = n) by (rewrite (size_hi n nb LNB LN), (hi_nt n nb LNB LN), (hi_start n nb LNB LN) by lia; lia).
    rewrite SZ in *. change (0 * nb)%Z with 0%Z in *. rewrite (hi_nt n nb LNB LN) in KI. specialize (KI ltac:(lia)).
    assert (SI : forall i, (0 <= i < n)%Z -> sub_idx nb s' 0 nt i = s_i2 s' i).
    { intros i Li. unfold sub_idx. destruct (Z.eqb_spec nt (0 + 1)); [lia|]. change (0 * nb)%Z with 0%Z. unfold view. rewrite Z.add_0_r. symmetry. apply KI. exact Li. }
    assert (PI : is_perm n (s_i2 s')) by (apply (is_perm_ext n (sub_idx nb s' 0 nt)); assumption).
    assert (V0 : forall (f : Z -> R) i, view 0 f i = f i) by (intros; unfold view; f_equal; lia).
    assert (V2 : forall (f : Z -> Z -> R) i j, view2 0 f i j = f i j) by (intros; unfold view2; f_equal; lia).
    assert (HLm : forall i, (0 <= i < n)%Z -> apply_index n (s_i2 s') (s_d0 s') (s_d1 s') i = s_d0 s' (s_i2 s' i)) by (intros i Li; rewrite C34_apply_index; replace (Z.leb 0 i && Z.ltb i n)%bool with true by lia; reflexivity).
    assert (HE : forall i j, (0 <= i < n)%Z -> (0 <= j < n)%Z -> put_block 0 0 n n (fun i j => s_e0 s' i (s_i2 s' j)) (s_e2 s') i j = s_e0 s' i (s_i2 s' j)).
    { intros i j Li Lj. rewrite put_block_in by lia. f_equal; [lia|]. f_equal. lia. }
    eexists _, _. split; [reflexivity|]. split; [|split].
    + intros p q Lp Lq. rewrite !HLm by lia. specialize (KA p q Lp Lq). apply Rltb_false in KA. rewrite !V0, !SI in KA by lia. exact KA.
    + eapply orthonormal_ext; [intros i j Li Lj; symmetry; apply HE; assumption|]. apply (orthonormal_perm n (s_i2 s') (s_e0 s')); [exact PI|]. eapply orthonormal_ext; [|exact KO]. intros; apply V2.
    + intros x. specialize (KF x). replace (dform n (view 0 (s_d0 s')) (coord n (view2 0 (s_e0 s')) x)) with (dform n (apply_index n (s_i2 s') (s_d0 s') (s_d1 s')) (coord n (put_block 0 0 n n (fun i j => s_e0 s' i (s_i2 s' j)) (s_e2 s')) x)) in KF.
      * replace (qf 0 nt x) with (tform n D e x) in KF; [replace (nt - 0 - 1)%Z with (nt - 1)%Z in KF by lia; exact KF|]. unfold qf. rewrite SZ. change (Z.ltb 0 0) with false. replace (Z.ltb nt nt) with false by lia. cbv zeta iota.
        rewrite (tform_ext n (view (0 * nb) D) (view (0 * nb) e) D e) by (intros; apply V0). ring.
      * symmetry. unfold dform at 1. rewrite <- (rsum_perm n (s_i2 s') _ PI). apply rsum_ext. intros j Lj. rewrite HLm by lia. rewrite V0.
        assert (CE : coord n (view2 0 (s_e0 s')) x (s_i2 s' j) = coord n (put_block 0 0 n n (fun i j => s_e0 s' i (s_i2 s' j)) (s_e2 s')) x j).
        { unfold coord. apply rsum_ext. intros i Li. rewrite HE by assumption. rewrite V2. reflexivity. }
        rewrite CE. reflexivity.
Qed.
End solver.
