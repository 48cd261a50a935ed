(** * The merge of two solved subproblems with any order of the columns of the result: what the deflation leaves, and that the eigenvectors of the rank-one problem give those of the merged problem. *)
From Coq Require Import ZArith Lia List Bool Reals Lra Psatz Permutation Sorted.
From Verif Require Import CInt Loop DistModel StarField TridiagModel TridiagProofs TridiagDeflation Properties_Tridiag DcSums DcSecular DcModel DcRank1 DcDeflate DcCore.
Import ListNotations.
Local Open Scope R_scope.

Section core.
Variables (m n1 : Z) (rho tol : R) (i2 : Z -> Z) (d z : Z -> R) (c : Z -> coltype) (Q : Z -> Z -> R).
Hypothesis LM : (1 <= n1 < m)%Z.
Hypothesis RHO : 0 <= rho.
Hypothesis TOL : 0 <= tol.
Hypothesis PERM : is_perm m i2.
Hypothesis ASC : ascending Rltb d i2 0 m.
Hypothesis CU : forall j, (0 <= j < n1)%Z -> c j = UpperHalf.
Hypothesis CL : forall j, (n1 <= j < m)%Z -> c j = LowerHalf.
Hypothesis QO : orthonormal m Q.
Hypothesis QU : forall i j, (0 <= j < n1)%Z -> (n1 <= i < m)%Z -> Q i j = 0.
Hypothesis QL : forall i j, (n1 <= j < m)%Z -> (0 <= i < n1)%Z -> Q i j = 0.
Hypothesis ZN : dot m z z = 1.
Notation Qb := (fun i j => if (Z.leb 0 i && Z.ltb i m)%bool then Q i j else 0).

Lemma dist_core : exists i1 d' z' c' rots, deflate_R rho tol m i2 d z c = (i1, d', z', c', rots) /\ (forall l, ~ (0 <= l < m)%Z -> d' l = d l) /\
  (forall i j, (0 <= i < m)%Z -> (0 <= j < m)%Z -> (c' j = UpperHalf -> (n1 <= i)%Z -> apply_rotations rots Q i j = 0) /\ (c' j = LowerHalf -> (i < n1)%Z -> apply_rotations rots Q i j = 0)) /\
  forall k i3, (0 <= k <= m)%Z -> is_perm m i3 -> tab 0 k i3 = filter (fun i => negb (coltype_eqb (c' i) Deflated)) (tab 0 m i2) -> (forall l, (0 <= l < m)%Z -> (c' (i3 l) = Deflated <-> (k <= l)%Z)) ->
  (1 <= k)%Z /\
  forall d1 z1, (forall l, (0 <= l < m)%Z -> d1 l = d' (i3 l)) -> (forall l, (0 <= l < m)%Z -> z1 l = z' (i3 l)) ->
    (forall p r, (0 <= p < r)%Z -> (r < k)%Z -> d1 p < d1 r) /\ ((2 <= k)%Z -> 0 < rho) /\ ((2 <= k)%Z -> forall l, (0 <= l < k)%Z -> z1 l <> 0) /\ rsum 0 k (fun l => z1 l * z1 l) <= 1 /\
    forall lam U E, orthonormal k U ->
      (forall y, rsum 0 k (fun j => lam j * (coord k U y j * coord k U y j)) = rsum 0 k (fun i => d1 i * (y i * y i)) + rho * (dot k z1 y * dot k z1 y)) ->
      (forall i j, (0 <= i < m)%Z -> (0 <= j < m)%Z -> E i j = if Z.ltb j k then rsum 0 k (fun l => apply_rotations rots Q i (i3 l) * U l j) else apply_rotations rots Q i (i3 j)) ->
      orthonormal m E /\
      forall x, Rabs (dform m (fun j => if Z.ltb j k then lam j else d1 j) (coord m E x) - (dform m d (coord m Q x) + rho * (dot m z (coord m Q x) * dot m z (coord m Q x)))) <= 3 * IZR m * tol * dot m x x.
Proof using LM RHO TOL PERM ASC CU CL QO QU QL ZN.
  set (top := fun row => (row < n1)%Z).
  destruct (deflation_form rho tol m i2 d z c TOL ltac:(lia) PERM) with (top := top) (Q0 := Qb) as (i1 & d' & z' & c' & rots & ED & DI & FI).
  { intros a b La Lb. apply Rltb_false. apply ASC; lia. }
  { intros x Lx. destruct (Z.lt_ge_cases x n1); [left; apply CU; lia|right; apply CL; lia]. }
  { intros x Lx. unfold top. split; intros C row TR; destruct (Z.leb_spec 0 row), (Z.ltb_spec row m); cbn [andb]; try reflexivity.
    - destruct (Z.lt_ge_cases x n1); [apply QU; lia|rewrite CL in C by lia; discriminate].
    - destruct (Z.lt_ge_cases x n1); [rewrite CU in C by lia; discriminate|apply QL; lia]. }
  { eapply orthonormal_ext; [|exact QO]. intros i j Li Lj. cbv beta. replace (Z.leb 0 i && Z.ltb i m)%bool with true by lia. reflexivity. }
  exists i1, d', z', c', rots. split; [exact ED|]. destruct DI as [RNG CUR GAP REST NEXT KEPT ZZ ZCUR DEFL TY OUT ROTS]. destruct FI as [FO FZ FZZ FD].
  split; [intros l Ll; apply OUT; exact Ll|].
  assert (RI : forall i j, (0 <= i < m)%Z -> apply_rotations rots Q i j = apply_rotations rots Qb i j) by (intros i j Li; symmetry; apply rot_in; exact Li).
  split. { intros i j Li Lj. rewrite RI by exact Li. destruct (TY j Lj) as [T1 T2]. split; intros X Y; [apply T1|apply T2]; try exact X; unfold top; lia. }
  intros k i3 KR P3 T3 KIFF.
  assert (K1 : forall p, (0 <= p < m)%Z -> c' (i2 p) <> Deflated -> (p <= i1)%Z).
  { intros p L C. destruct (Z.le_gt_cases p i1) as [X|X]; [exact X|]. exfalso. apply C, GAP. lia. }
  assert (KEPT3 : forall l, (0 <= l < k)%Z -> c' (i3 l) <> Deflated) by (intros l Ll E; apply KIFF in E; lia).
  assert (D3 : forall l, (k <= l < m)%Z -> c' (i3 l) = Deflated) by (intros l Ll; apply KIFF; lia).
  assert (KM : (1 <= k <= m)%Z).
  { split; [|lia]. destruct (is_perm_onto m i3 (i2 i1) P3 (is_perm_in m i2 i1 PERM ltac:(lia))) as (l & Ll & E).
    assert (l < k)%Z; [|lia]. destruct (Z.lt_ge_cases l k); [assumption|]. exfalso. apply CUR. rewrite <- E. apply D3. lia. }
  split; [lia|]. intros d1 z1 HD1 HZ1.
  (* the kept values *)
  assert (DASC : forall p r, (0 <= p < r)%Z -> (r < k)%Z -> d1 p < d1 r).
  { intros p r L1 L2. rewrite !HD1 by lia. assert (S : StronglySorted (fun x y => d' x < d' y) (tab 0 k i3)).
    { rewrite T3. apply ss_filter. apply ss_tab. intros a b La Lb Ka Kb.
      assert (CA : c' (i2 a) <> Deflated) by (intros X; rewrite X in Ka; discriminate). assert (CB : c' (i2 b) <> Deflated) by (intros X; rewrite X in Kb; discriminate).
      apply KEPT; [lia|apply K1; [lia|exact CB]|exact CA|exact CB]. }
    rewrite ss_tab in S. apply S; lia. }
  assert (ZBIG : (2 <= k)%Z -> forall l, (0 <= l < k)%Z -> tol < Rabs (rho * z1 l)).
  { intros K2 l Ll. rewrite HZ1 by lia. destruct (is_perm_onto m i2 (i3 l) PERM (is_perm_in m i3 l P3 ltac:(lia))) as (p & Lp & E). rewrite <- E.
    assert (CP : c' (i2 p) <> Deflated) by (rewrite E; apply KEPT3; exact Ll). pose proof (K1 p Lp CP).
    destruct (Z.eq_dec p i1) as [->|N]; [|apply ZZ; [lia|exact CP]]. destruct ZCUR as [ZC|ALL]; [exact ZC|]. exfalso.
    set (l' := if Z.eqb l 0 then 1%Z else 0%Z). assert (LL' : (0 <= l' < k)%Z /\ l' <> l) by (unfold l'; destruct (Z.eqb_spec l 0); lia).
    destruct (is_perm_onto m i2 (i3 l') PERM (is_perm_in m i3 l' P3 ltac:(lia))) as (p' & Lp' & E').
    assert (CP' : c' (i2 p') <> Deflated) by (rewrite E'; apply KEPT3; lia). pose proof (K1 p' Lp' CP').
    destruct (Z.eq_dec p' i1) as [->|N']; [|apply CP', ALL; lia]. apply (proj2 LL'). apply (is_perm_inj m i3); try lia; try exact P3; try congruence. }
  assert (RP : (2 <= k)%Z -> 0 < rho).
  { intros K2. specialize (ZBIG K2 0%Z ltac:(lia)). destruct (Rle_lt_or_eq_dec 0 rho RHO) as [L|L]; [exact L|]. exfalso. rewrite <- L, Rmult_0_l, Rabs_R0 in ZBIG. lra. }
  assert (ZNZ : (2 <= k)%Z -> forall l, (0 <= l < k)%Z -> z1 l <> 0).
  { intros K2 l Ll E. specialize (ZBIG K2 l Ll). rewrite E, Rmult_0_r, Rabs_R0 in ZBIG. lra. }
  assert (ZSPLIT : forall f, rsum 0 m (fun l => f (i3 l)) = rsum 0 m f) by (intros f; apply rsum_perm; exact P3).
  assert (Z1N : rsum 0 k (fun l => z1 l * z1 l) <= 1).
  { rewrite <- ZN, <- FZZ. unfold dot. rewrite <- (ZSPLIT (fun i => z' i * z' i)). rewrite (rsum_app 0 k m) by lia.
    rewrite (rsum_ext 0 k (fun l => z1 l * z1 l) (fun l => z' (i3 l) * z' (i3 l))) by (intros l Ll; rewrite HZ1 by lia; reflexivity).
    assert (0 <= rsum k m (fun l => z' (i3 l) * z' (i3 l))) by (apply rsum_nonneg; intros; nra). lra. }
  split; [exact DASC|]. split; [exact RP|]. split; [exact ZNZ|]. split; [exact Z1N|].
  intros lam U E UO UF HE0. set (Q' := apply_rotations rots Qb) in *. set (ev := fun j => if Z.ltb j k then lam j else d1 j).
  assert (EV2 : forall l, (k <= l < m)%Z -> ev l = d' (i3 l)) by (intros l Ll; unfold ev; destruct (Z.ltb_spec l k); [lia|apply HD1; lia]).
  set (W := fun i l => Q' i (i3 l)). set (Ub := fun l j => if Z.ltb j k then (if Z.ltb l k then U l j else 0) else kron l j).
  assert (OW : orthonormal m W) by (exact (orthonormal_perm m i3 Q' P3 FO)).
  assert (OU : orthonormal m Ub).
  { intros a b La Lb. unfold Ub. rewrite (rsum_app 0 k m) by lia. destruct (Z.ltb_spec a k), (Z.ltb_spec b k).
    - rewrite (rsum_0 k m) by (intros i Li; destruct (Z.ltb_spec i k); [lia|ring]). rewrite Rplus_0_r. rewrite <- UO by lia. apply rsum_ext. intros i Li. destruct (Z.ltb_spec i k); [reflexivity|lia].
    - rewrite (rsum_0 0 k) by (intros i Li; rewrite (kron_neq i b) by lia; ring). rewrite (rsum_0 k m) by (intros i Li; destruct (Z.ltb_spec i k); [lia|ring]). rewrite kron_neq by lia. ring.
    - rewrite (rsum_0 0 k) by (intros i Li; rewrite (kron_neq i a) by lia; ring). rewrite (rsum_0 k m) by (intros i Li; destruct (Z.ltb_spec i k); [lia|ring]). rewrite kron_neq by lia. ring.
    - rewrite (rsum_0 0 k) by (intros i Li; rewrite (kron_neq i a) by lia; ring). rewrite Rplus_0_l. rewrite (rsum_one k m _ a) by (lia || (intros i Li N; rewrite (kron_neq i a) by exact N; ring)). rewrite kron_eq. ring. }
  assert (HE : forall i j, (0 <= i < m)%Z -> (0 <= j < m)%Z -> E i j = rsum 0 m (fun l => W i l * Ub l j)).
  { intros i j Li Lj. rewrite HE0 by assumption. unfold Ub. destruct (Z.ltb_spec j k) as [Lk|Lk].
    - rewrite (rsum_app 0 k m) by lia. rewrite (rsum_0 k m) by (intros l Ll; destruct (Z.ltb_spec l k); [lia|ring]). rewrite Rplus_0_r.
      apply rsum_ext. intros l Ll. destruct (Z.ltb_spec l k); [|lia]. unfold W. rewrite RI by lia. reflexivity.
    - rewrite RI by lia. rewrite (rsum_one 0 m _ j) by (lia || (intros l Ll N; rewrite kron_neq by exact N; ring)). rewrite kron_eq. unfold W. ring. }
  assert (OE : orthonormal m E). { eapply orthonormal_ext; [intros i j Li Lj; symmetry; apply HE; assumption|]. apply orthonormal_mul; [lia|exact OW|exact OU]. }
  split; [exact OE|]. intros x. set (y := coord m Q' x). set (v := coord m W x).
  assert (VY : forall l, v l = y (i3 l)) by reflexivity.
  set (keep := fun j => negb (coltype_eqb (c' j) Deflated)). set (zk := fun j => if keep j then z' j else 0).
  assert (KEEP3 : forall l, (0 <= l < m)%Z -> keep (i3 l) = Z.ltb l k).
  { intros l Ll. unfold keep. pose proof (KIFF l Ll) as X. destruct (Z.ltb_spec l k), (c' (i3 l)) eqn:EC; cbn; try reflexivity; exfalso; (apply (KEPT3 l); [lia|exact EC]) || (assert (UpperHalf = Deflated) by (apply X; lia); discriminate) || (assert (LowerHalf = Deflated) by (apply X; lia); discriminate) || (assert (Dense = Deflated) by (apply X; lia); discriminate). }
  assert (NEW : dform m ev (coord m E x) = dform m d' y + rho * (dot m zk y * dot m zk y)).
  { assert (CE : forall j, (0 <= j < m)%Z -> coord m E x j = coord m Ub v j).
    { intros j Lj. unfold v. rewrite <- (coord_mul m W Ub x j). apply coord_ext; [|reflexivity]. intros i Li. apply HE; assumption. }
    assert (C1 : forall j, (0 <= j < k)%Z -> coord m E x j = coord k U v j).
    { intros j Lj. rewrite CE by lia. unfold coord. rewrite (rsum_app 0 k m) by lia. rewrite (rsum_0 k m).
      - rewrite Rplus_0_r. apply rsum_ext. intros l Ll. unfold Ub. destruct (Z.ltb_spec j k); [|lia]. destruct (Z.ltb_spec l k); [reflexivity|lia].
      - intros l Ll. unfold Ub. destruct (Z.ltb_spec j k); [|lia]. destruct (Z.ltb_spec l k); [lia|ring]. }
    assert (C2 : forall j, (k <= j < m)%Z -> coord m E x j = v j).
    { intros j Lj. rewrite CE by lia. unfold coord. rewrite (rsum_one 0 m _ j).
      - unfold Ub. destruct (Z.ltb_spec j k); [lia|]. rewrite kron_eq. ring.
      - lia.
      - intros l Ll N. unfold Ub. destruct (Z.ltb_spec j k); [lia|]. rewrite kron_neq by exact N. ring. }
    unfold dform at 1. rewrite (rsum_app 0 k m) by lia.
    rewrite (rsum_ext 0 k _ (fun j => lam j * (coord k U v j * coord k U v j))) by (intros j Lj; rewrite C1 by lia; unfold ev; destruct (Z.ltb_spec j k); [reflexivity|lia]). rewrite UF.
    rewrite (rsum_ext k m _ (fun j => d' (i3 j) * (v j * v j))) by (intros j Lj; rewrite C2, EV2 by lia; reflexivity).
    rewrite (rsum_ext 0 k _ (fun j => d' (i3 j) * (v j * v j))) by (intros j Lj; rewrite HD1 by lia; reflexivity).
    assert (DZ : dot k z1 v = dot m zk y).
    { unfold dot. rewrite <- (ZSPLIT (fun i => zk i * y i)). rewrite (rsum_app 0 k m) by lia. rewrite (rsum_0 k m).
      - rewrite Rplus_0_r. apply rsum_ext. intros l Ll. rewrite HZ1, VY by lia. unfold zk. rewrite KEEP3 by lia. destruct (Z.ltb_spec l k); [reflexivity|lia].
      - intros l Ll. unfold zk. rewrite KEEP3 by lia. destruct (Z.ltb_spec l k); [lia|ring]. }
    rewrite DZ. assert (DD : dform m d' y = rsum 0 k (fun j => d' (i3 j) * (v j * v j)) + rsum k m (fun j => d' (i3 j) * (v j * v j))).
    { rewrite <- (rsum_app 0 k m) by lia. unfold dform. rewrite <- (ZSPLIT (fun j => d' j * (y j * y j))). reflexivity. }
    rewrite DD. ring. }
  assert (CQ : forall j, coord m Qb x j = coord m Q x j).
  { intros j. apply coord_ext; [|reflexivity]. intros i Li. cbv beta. replace (Z.leb 0 i && Z.ltb i m)%bool with true by lia. reflexivity. }
  specialize (FZ x). specialize (FD x). rewrite (dot_ext m z (coord m Qb x) z (coord m Q x)) in FZ by (intros; apply CQ || reflexivity).
  rewrite (dform_ext m d (coord m Qb x) d (coord m Q x)) in FD by (intros; apply CQ || reflexivity). fold y in FZ, FD.
  assert (YX : dot m y y = dot m x x) by (apply parseval; [lia|exact FO]).
  pose proof (drop_form m rho tol z' keep y ltac:(lia) RHO TOL ltac:(lra)) as DF. cbv zeta in DF. fold zk in DF. rewrite YX in DF.
  assert (DFH : forall j, (0 <= j < m)%Z -> keep j = false -> Rabs (rho * z' j) <= tol).
  { intros j Lj KJ. destruct (is_perm_onto m i2 j PERM Lj) as (p & Lp & <-). apply DEFL; [lia|]. unfold keep in KJ. destruct (c' (i2 p)); try discriminate. reflexivity. }
  specialize (DF DFH). rewrite NEW. rewrite <- FZ.
  assert (XX := dot_pos m x). assert (IM : 1 <= IZR m) by (apply IZR_le; lia).
  rewrite minus_IZR in FD.
  set (A := dform m d' y) in *. set (B := dform m d (coord m Q x)) in *. set (Zk := rho * (dot m zk y * dot m zk y)) in *. set (Zf := rho * (dot m z' y * dot m z' y)) in *.
  replace (A + Zk - (B + Zf)) with ((A - B) - (Zf - Zk)) by ring. eapply Rle_trans; [apply Rabs_triang|]. rewrite Rabs_Ropp.
  assert (0 <= tol * dot m x x) by (apply Rmult_le_pos; assumption). nra.
Qed.
End core.
