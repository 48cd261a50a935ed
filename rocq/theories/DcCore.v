(** * The merge of two solved subproblems: eigenvalues and eigenvectors of the merged problem (on the arrays of the block). *)
From Coq Require Import ZArith Lia List Bool Reals Lra Psatz Permutation Sorted.
From Verif Require Import CInt Loop DistModel StarField TridiagModel TridiagProofs TridiagDeflation Properties_Tridiag DcSums DcSecular DcModel DcRank1 DcDeflate.
Import ListNotations.
Local Open Scope R_scope.

Lemma Rltb_false : forall x y, Rltb x y = false <-> y <= x.
Proof. intros x y. destruct (Rltb_spec x y); split; intros; try discriminate; try lra; reflexivity. Qed.
Lemma Rltb_weak : strict_weak Rltb.
Proof.
  split; [|split].
  - intros a. apply Rltb_false. lra.
  - intros a b c. rewrite !Rltb_false. lra.
  - intros a b. destruct (Rltb_spec a b); [|discriminate]. intros _. apply Rltb_false. lra.
Qed.

(** ** Sums over permutations *)
Lemma rsum_list : forall lo hi f, rsum lo hi f = fold_right (fun i s => f i + s) 0 (zrange lo hi).
Proof. intros. reflexivity. Qed.
Lemma rsum_perm : forall n p f, is_perm n p -> rsum 0 n (fun i => f (p i)) = rsum 0 n f.
Proof.
  intros n p f P. rewrite !rsum_list. unfold is_perm, tab in P.
  assert (X : forall l l', Permutation l l' -> fold_right (fun i s => f i + s) 0 l = fold_right (fun i s => f i + s) 0 l').
  { intros l l' Q. induction Q; cbn; [reflexivity|rewrite IHQ; reflexivity|ring|congruence]. }
  rewrite <- (X _ _ P). generalize (zrange 0 n) as l. induction l as [|a l IH]; [reflexivity|]. cbn. rewrite IH. reflexivity.
Qed.
Lemma orthonormal_perm : forall n p Q, is_perm n p -> orthonormal n Q -> orthonormal n (fun i l => Q i (p l)).
Proof.
  intros n p Q P O a b La Lb. rewrite O by (apply is_perm_in; assumption). unfold kron.
  destruct (Z.eqb_spec (p a) (p b)) as [E|N], (Z.eqb_spec a b) as [E'|N']; try reflexivity; exfalso; [apply N', (is_perm_inj n p); assumption|congruence].
Qed.
Lemma orthonormal_mul : forall n W U, (0 <= n)%Z -> orthonormal n W -> orthonormal n U -> orthonormal n (fun i j => rsum 0 n (fun l => W i l * U l j)).
Proof.
  intros n W U Ln OW OU a b La Lb. rewrite <- (OU a b La Lb).
  rewrite (rsum_ext 0 n _ (fun i => rsum 0 n (fun l => U l a * rsum 0 n (fun r => (W i l * W i r) * U r b)))).
  - rewrite rsum_swap. apply rsum_ext. intros l Ll. rewrite rsum_mul_l. f_equal. rewrite rsum_swap.
    rewrite (rsum_ext 0 n _ (fun r => kron l r * U r b)) by (intros r Lr; rewrite rsum_mul_r, OW by assumption; reflexivity). exact (sum_kron n (fun r => U r b) l Ll).
  - intros i _. rewrite <- rsum_mul_r. apply rsum_ext. intros l _. rewrite <- rsum_mul_l.
    rewrite <- rsum_mul_l. apply rsum_ext. intros r _. ring.
Qed.
Lemma coord_mul : forall n W U x j, coord n (fun i j => rsum 0 n (fun l => W i l * U l j)) x j = coord n U (coord n W x) j.
Proof.
  intros n W U x j. unfold coord. rewrite (rsum_ext 0 n _ (fun i => rsum 0 n (fun l => U l j * (W i l * x i)))).
  - rewrite rsum_swap. apply rsum_ext. intros l _. rewrite rsum_mul_l. reflexivity.
  - intros i _. rewrite <- rsum_mul_r. apply rsum_ext. intros. ring.
Qed.
Lemma coord_ext : forall n P Q x y j, (forall i, (0 <= i < n)%Z -> P i j = Q i j) -> (forall i, (0 <= i < n)%Z -> x i = y i) -> coord n P x j = coord n Q y j.
Proof. intros n P Q x y j H G. apply rsum_ext. intros i Li. rewrite H, G by exact Li. reflexivity. Qed.
Lemma dform_ext : forall n d y d' y', (forall j, (0 <= j < n)%Z -> d j = d' j) -> (forall j, (0 <= j < n)%Z -> y j = y' j) -> dform n d y = dform n d' y'.
Proof. intros n d y d' y' H G. apply rsum_ext. intros i Li. rewrite H, G by exact Li. reflexivity. Qed.

Lemma ss_filter : forall {A} (R : A -> A -> Prop) (f : A -> bool) l, StronglySorted (fun x y => f x = true -> f y = true -> R x y) l -> StronglySorted R (filter f l).
Proof.
  intros A R f l S. induction S as [|a l S IH F]; [constructor|]. cbn. destruct (f a) eqn:E; [|exact IH]. constructor; [exact IH|].
  apply Forall_forall. intros y I. apply filter_In in I as [I FY]. rewrite Forall_forall in F. exact (F y I eq_refl FY).
Qed.

Section core.
Variable laed4 : Z -> Z -> (Z -> R) -> (Z -> R) -> R -> (Z -> R) * R.
Hypothesis LA : laed4_ok laed4.
Variable workers : Z.
Hypothesis LW : (1 <= workers)%Z.
Variables (nrtiles m n1 : Z) (rho tol : R) (i2 : Z -> Z) (d z : Z -> R) (c : Z -> coltype) (Q : Z -> Z -> R).
Hypothesis LT : (1 <= nrtiles)%Z.
Hypothesis LM : (1 <= n1 < m)%Z.
Hypothesis RHO : 0 <= rho.
Hypothesis TOL : 0 <= tol.
Hypothesis PERM : is_perm m i2.
Hypothesis ASC : ascending Rltb d i2 0 m.
Hypothesis CU : forall j, (0 <= j < n1)%Z -> c j = UpperHalf.
Hypothesis CL : forall j, (n1 <= j < m)%Z -> c j = LowerHalf.
Hypothesis QO : orthonormal m Q.
Hypothesis QU : forall i j, (0 <= j < n1)%Z -> (n1 <= i < m)%Z -> Q i j = 0.
Hypothesis QL : forall i j, (n1 <= j < m)%Z -> (0 <= i < n1)%Z -> Q i j = 0.
Hypothesis ZN : dot m z z = 1.
Variables (i3_0 i5_0 : Z -> Z) (ord : Z -> Z -> list Z) (q : Z -> Z -> R).
Hypothesis ORD : forall k s, (0 <= k)%Z -> Permutation (ord k s) (zrange 0 k).

(** rows outside of the block do not matter *)
Notation Qb := (fun i j => if (Z.leb 0 i && Z.ltb i m)%bool then Q i j else 0).
Lemma rot_in : forall rots i j, (0 <= i < m)%Z -> apply_rotations rots Qb i j = apply_rotations rots Q i j.
Proof using.
  intros rots i j Li. unfold apply_rotations. assert (X : forall P P', (forall j, P i j = P' i j) -> forall j, fold_left rotate rots P i j = fold_left rotate rots P' i j).
  { induction rots as [|g rots IH]; intros P P' H j0; [apply H|]. cbn [fold_left]. apply IH. intros j1. unfold rotate. rewrite !H. reflexivity. }
  apply X. intros j0. replace (Z.leb 0 i && Z.ltb i m)%bool with true by lia. reflexivity.
Qed.

Lemma merge_core : exists i1 d' z' c' rots, deflate_R rho tol m i2 d z c = (i1, d', z', c', rots) /\
  exists k nu nd nl i3 i5, stable_partition Rltb m c' d' i2 i3_0 i5_0 = (k, (nu, nd, nl), i3, i5) /\
  (1 <= k <= m)%Z /\ k = (nu + nd + nl)%Z /\ (0 <= nu /\ 0 <= nd /\ 0 <= nl)%Z /\ is_perm m i3 /\ is_perm m i5 /\ (forall l, ~ (0 <= l < m)%Z -> d' l = d l) /\
  forall d1 z1 i4 evals, (forall l, (0 <= l < m)%Z -> d1 l = d' (i3 l)) -> (forall l, (0 <= l < m)%Z -> z1 l = z' (i3 l)) -> (forall l, (0 <= l < m)%Z -> evals l = d1 l) ->
    (forall l, (0 <= l < m)%Z -> (0 <= i4 l < m)%Z /\ i3 (i4 l) = i5 l) ->
  exists ev w q', solve_rank1 laed4 workers nrtiles m k rho d1 z1 evals i4 (ord k) q = (ev, w, q') /\
    (forall i, ~ (0 <= i < m)%Z -> ev i = evals i) /\
    ascending Rltb ev (fun i => i) 0 k /\ ascending Rltb ev (fun i => i) k m /\
    forall E, (forall i j, (0 <= i < n1)%Z -> (0 <= j < k)%Z -> E i j = rsum 0 (nu + nd) (fun l => apply_rotations rots Q i (i5 l) * q' l j)) ->
      (forall i j, (n1 <= i < m)%Z -> (0 <= j < k)%Z -> E i j = rsum 0 (nd + nl) (fun l => apply_rotations rots Q i (i5 (nu + l)%Z) * q' (nu + l)%Z j)) ->
      (forall i j, (0 <= i < m)%Z -> (k <= j < m)%Z -> E i j = apply_rotations rots Q i (i5 j)) ->
      orthonormal m E /\
      forall x, Rabs (dform m ev (coord m E x) - (dform m d (coord m Q x) + rho * (dot m z (coord m Q x) * dot m z (coord m Q x)))) <= 3 * IZR m * tol * dot m x x.
Proof using LA LW LT LM RHO TOL PERM ASC CU CL QO QU QL ZN ORD.
  set (top := fun row => (row < n1)%Z).
  destruct (deflation_form rho tol m i2 d z c TOL ltac:(lia) PERM) with (top := top) (Q0 := Qb) as (i1 & d' & z' & c' & rots & ED & DI & FI).
  { intros a b La Lb. apply Rltb_false. apply ASC; lia. }
  { intros x Lx. destruct (Z.lt_ge_cases x n1); [left; apply CU; lia|right; apply CL; lia]. }
  { intros x Lx. unfold top. split; intros C row TR; destruct (Z.leb_spec 0 row), (Z.ltb_spec row m); cbn [andb]; try reflexivity.
    - destruct (Z.lt_ge_cases x n1); [apply QU; lia|rewrite CL in C by lia; discriminate].
    - destruct (Z.lt_ge_cases x n1); [rewrite CU in C by lia; discriminate|apply QL; lia]. }
  { eapply orthonormal_ext; [|exact QO]. intros i j Li Lj. cbv beta. replace (Z.leb 0 i && Z.ltb i m)%bool with true by lia. reflexivity. }
  exists i1, d', z', c', rots. split; [exact ED|]. destruct DI as [RNG CUR GAP REST NEXT KEPT ZZ ZCUR DEFL TY OUT ROTS]. destruct FI as [FO FZ FZZ FD].
  destruct (C34_partition R Rltb Rltb_weak m c' d' i2 i3_0 i5_0 ltac:(lia) PERM) as (k & nu & nd & nl & i3 & i5 & EP & HP). cbv zeta in HP.
  destruct HP as (Hnu & Hnd & Hnl & HK & HKD & P3 & P5 & T3 & D3 & A3 & T5).
  exists k, nu, nd, nl, i3, i5. split; [exact EP|].
  assert (K1 : forall p, (0 <= p < m)%Z -> c' (i2 p) <> Deflated -> (p <= i1)%Z).
  { intros p L C. destruct (Z.le_gt_cases p i1) as [X|X]; [exact X|]. exfalso. apply C, GAP. lia. }
  assert (KEPT3 : forall l, (0 <= l < k)%Z -> c' (i3 l) <> Deflated).
  { intros l Ll. assert (I : In (i3 l) (tab 0 k i3)) by (apply in_tab; exists l; split; [lia|reflexivity]). rewrite T3 in I. apply filter_In in I as [_ E]. intros X. rewrite X in E. discriminate. }
  assert (KIFF : forall l, (0 <= l < m)%Z -> (c' (i3 l) = Deflated <-> (k <= l)%Z)).
  { intros l Ll. split; [|intros; apply D3; lia]. intros E. destruct (Z.le_gt_cases k l); [assumption|]. exfalso. apply (KEPT3 l); [lia|exact E]. }
  assert (KM : (1 <= k <= m)%Z).
  { split; [|lia]. destruct (is_perm_onto m i3 (i2 i1) P3 (is_perm_in m i2 i1 PERM ltac:(lia))) as (l & Ll & E).
    assert (l < k)%Z; [|lia]. destruct (Z.lt_ge_cases l k); [assumption|]. exfalso. apply CUR. rewrite <- E. apply D3. lia. }
  split; [exact KM|]. split; [exact HK|]. split; [lia|]. split; [exact P3|]. split; [exact P5|]. split; [intros l Ll; apply OUT; exact Ll|].
  intros d1 z1 i4 evals HD1 HZ1 HEV H4.
  (* the kept values *)
  assert (DASC : forall p r, (0 <= p < r)%Z -> (r < k)%Z -> d1 p < d1 r).
  { intros p r L1 L2. rewrite !HD1 by lia. assert (S : StronglySorted (fun x y => d' x < d' y) (tab 0 k i3)).
    { rewrite T3. apply ss_filter. apply ss_tab. intros a b La Lb Ka Kb.
      assert (CA : c' (i2 a) <> Deflated) by (intros X; rewrite X in Ka; discriminate). assert (CB : c' (i2 b) <> Deflated) by (intros X; rewrite X in Kb; discriminate).
      apply KEPT; [lia|apply K1; [lia|exact CB]|exact CA|exact CB]. }
    rewrite ss_tab in S. apply S; lia. }
  assert (ZBIG : (2 <= k)%Z -> forall l, (0 <= l < k)%Z -> tol < Rabs (rho * z1 l)).
  { intros K2 l Ll. rewrite HZ1 by lia. destruct (is_perm_onto m i2 (i3 l) PERM (is_perm_in m i3 l P3 ltac:(lia))) as (p & Lp & E). rewrite <- E.
    assert (CP : c' (i2 p) <> Deflated) by (rewrite E; apply KEPT3; exact Ll). pose proof (K1 p Lp CP).
    destruct (Z.eq_dec p i1) as [->|N]; [|apply ZZ; [lia|exact CP]]. destruct ZCUR as [ZC|ALL]; [exact ZC|]. exfalso.
    set (l' := if Z.eqb l 0 then 1%Z else 0%Z). assert (LL' : (0 <= l' < k)%Z /\ l' <> l) by (unfold l'; destruct (Z.eqb_spec l 0); lia).
    destruct (is_perm_onto m i2 (i3 l') PERM (is_perm_in m i3 l' P3 ltac:(lia))) as (p' & Lp' & E').
    assert (CP' : c' (i2 p') <> Deflated) by (rewrite E'; apply KEPT3; lia). pose proof (K1 p' Lp' CP').
    destruct (Z.eq_dec p' i1) as [->|N']; [|apply CP', ALL; lia]. apply (proj2 LL'). apply (is_perm_inj m i3); try lia; try exact P3; try congruence. }
  assert (RP : (2 <= k)%Z -> 0 < rho).
  { intros K2. specialize (ZBIG K2 0%Z ltac:(lia)). destruct (Rle_lt_or_eq_dec 0 rho RHO) as [L|L]; [exact L|]. exfalso. rewrite <- L, Rmult_0_l, Rabs_R0 in ZBIG. lra. }
  assert (ZNZ : (2 <= k)%Z -> forall l, (0 <= l < k)%Z -> z1 l <> 0).
  { intros K2 l Ll E. specialize (ZBIG K2 l Ll). rewrite E, Rmult_0_r, Rabs_R0 in ZBIG. lra. }
  assert (ZSPLIT : forall f, rsum 0 m (fun l => f (i3 l)) = rsum 0 m f) by (intros f; apply rsum_perm; exact P3).
  assert (Z1N : rsum 0 k (fun l => z1 l * z1 l) <= 1).
  { rewrite <- ZN, <- FZZ. unfold dot. rewrite <- (ZSPLIT (fun i => z' i * z' i)). rewrite (rsum_app 0 k m) by lia.
    rewrite (rsum_ext 0 k (fun l => z1 l * z1 l) (fun l => z' (i3 l) * z' (i3 l))) by (intros l Ll; rewrite HZ1 by lia; reflexivity).
    assert (0 <= rsum k m (fun l => z' (i3 l) * z' (i3 l))) by (apply rsum_nonneg; intros; nra). lra. }
  (* bins *)
  assert (LU : Z.of_nat (length (filter (fun i => coltype_eqb (c' i) UpperHalf) (zrange 0 m))) = nu) by lia.
  assert (LDn : Z.of_nat (length (filter (fun i => coltype_eqb (c' i) Dense) (zrange 0 m))) = nd) by lia.
  assert (LLo : Z.of_nat (length (filter (fun i => coltype_eqb (c' i) LowerHalf) (zrange 0 m))) = nl) by lia.
  assert (T5' : tab 0 nu i5 = filter (fun i => coltype_eqb (c' i) UpperHalf) (zrange 0 m) /\ tab nu (nu + nd) i5 = filter (fun i => coltype_eqb (c' i) Dense) (zrange 0 m) /\
     tab (nu + nd) k i5 = filter (fun i => coltype_eqb (c' i) LowerHalf) (zrange 0 m) /\ tab k m i5 = tab k m i3).
  { rewrite (tab_app 0 nu m), (tab_app nu (nu + nd) m), (tab_app (nu + nd) k m) in T5 by lia.
    pose proof (tab_length 0 nu i5). pose proof (tab_length nu (nu + nd) i5). pose proof (tab_length (nu + nd) k i5).
    apply app_inj in T5 as [T51 T5]; [|lia]. apply app_inj in T5 as [T52 T5]; [|lia]. apply app_inj in T5 as [T53 T5]; [|lia]. repeat split; assumption. }
  destruct T5' as (T51 & T52 & T53 & T54).
  assert (CI5 : forall l, (0 <= l < k)%Z -> ((l < nu)%Z -> c' (i5 l) = UpperHalf) /\ ((nu + nd <= l)%Z -> c' (i5 l) = LowerHalf) /\ c' (i5 l) <> Deflated).
  { assert (G : forall lo hi t l, tab lo hi i5 = filter (fun i => coltype_eqb (c' i) t) (zrange 0 m) -> (lo <= l < hi)%Z -> c' (i5 l) = t).
    { intros lo hi t l T Ll. assert (I : In (i5 l) (tab lo hi i5)) by (apply in_tab; exists l; split; [lia|reflexivity]). rewrite T in I. apply filter_In in I as [_ E]. apply ctb_eq. exact E. }
    intros l Ll. split; [intros; eapply G; [exact T51|lia]|]. split; [intros; eapply G; [exact T53|lia]|].
    destruct (Z.lt_ge_cases l nu); [rewrite (G 0%Z nu UpperHalf l T51) by lia; discriminate|]. destruct (Z.lt_ge_cases l (nu + nd)); [rewrite (G nu (nu + nd)%Z Dense l T52) by lia; discriminate|].
    rewrite (G (nu + nd)%Z k LowerHalf l T53) by lia. discriminate. }
  assert (I53 : forall l, (k <= l < m)%Z -> i5 l = i3 l) by (intros l Ll; apply (tab_inj k m i5 i3 T54); lia).
  assert (I4K : forall i, (0 <= i < m)%Z -> (0 <= i4 i)%Z /\ ((i4 i < k)%Z <-> (i < k)%Z)).
  { intros i Li. destruct (H4 i Li) as [R4 E4]. split; [lia|]. split; intros L.
    - destruct (Z.lt_ge_cases i k); [assumption|]. exfalso. rewrite I53 in E4 by lia. apply (is_perm_inj m i3) in E4; [lia|exact P3|lia|lia].
    - destruct (Z.lt_ge_cases (i4 i) k); [assumption|]. exfalso. apply (proj2 (proj2 (CI5 i ltac:(lia)))). rewrite <- E4. apply D3. lia. }
  destruct (solve_rank1_ok laed4 LA workers LW nrtiles m k rho d1 z1 evals i4 (ord k) q LT ltac:(lia) (fun s => ORD k s ltac:(lia)) DASC RP ZNZ Z1N I4K) as (ev & w & q' & ES & EVO & EVA & U & UO & QU' & UF).
  exists ev, w, q'. split; [exact ES|].
  assert (EV2 : forall l, (k <= l < m)%Z -> ev l = d' (i3 l)) by (intros l Ll; rewrite EVO, HEV, HD1 by lia; reflexivity).
  split; [intros i Li; apply EVO; lia|]. split; [|split].
  { intros a b La Lb. apply Rltb_false. apply EVA; lia. }
  { intros a b La Lb. apply Rltb_false. rewrite !EV2 by lia. apply Rltb_false. apply A3; lia. }
  intros E HU HL HDf. set (Q' := apply_rotations rots Qb) in *.
  assert (RI : forall i j, (0 <= i < m)%Z -> apply_rotations rots Q i j = Q' i j) by (intros i j Li; symmetry; apply rot_in; exact Li).
  set (W := fun i l => Q' i (i3 l)). set (Ub := fun l j => if Z.ltb j k then (if Z.ltb l k then U l j else 0) else kron l j).
  assert (OW : orthonormal m W) by (exact (orthonormal_perm m i3 Q' P3 FO)).
  assert (P4 : is_perm k i4).
  { apply is_perm_intro.
    - intros i Li. destruct (I4K i ltac:(lia)). lia.
    - intros i j Li Lj X. destruct (H4 i ltac:(lia)) as [_ Ei]. destruct (H4 j ltac:(lia)) as [_ Ej]. apply (is_perm_inj m i5); try lia; [exact P5|congruence]. }
  assert (OU : orthonormal m Ub).
  { intros a b La Lb. unfold Ub. rewrite (rsum_app 0 k m) by lia. destruct (Z.ltb_spec a k), (Z.ltb_spec b k).
    - rewrite (rsum_0 k m) by (intros i Li; destruct (Z.ltb_spec i k); [lia|ring]). rewrite Rplus_0_r. rewrite <- UO by lia. apply rsum_ext. intros i Li. destruct (Z.ltb_spec i k); [reflexivity|lia].
    - rewrite (rsum_0 0 k) by (intros i Li; rewrite (kron_neq i b) by lia; ring). rewrite (rsum_0 k m) by (intros i Li; destruct (Z.ltb_spec i k); [lia|ring]). rewrite kron_neq by lia. ring.
    - rewrite (rsum_0 0 k) by (intros i Li; rewrite (kron_neq i a) by lia; ring). rewrite (rsum_0 k m) by (intros i Li; destruct (Z.ltb_spec i k); [lia|ring]). rewrite kron_neq by lia. ring.
    - rewrite (rsum_0 0 k) by (intros i Li; rewrite (kron_neq i a) by lia; ring). rewrite Rplus_0_l. rewrite (rsum_one k m _ a) by (lia || (intros i Li N; rewrite (kron_neq i a) by exact N; ring)). rewrite kron_eq. ring. }
  assert (HE : forall i j, (0 <= i < m)%Z -> (0 <= j < m)%Z -> E i j = rsum 0 m (fun l => W i l * Ub l j)).
  { intros i j Li Lj. unfold Ub. destruct (Z.ltb_spec j k) as [Lk|Lk].
    - assert (S : rsum 0 m (fun l => W i l * (if Z.ltb l k then U l j else 0)) = rsum 0 k (fun l => Q' i (i5 l) * q' l j)).
      { rewrite (rsum_app 0 k m) by lia. rewrite (rsum_0 k m) by (intros l Ll; destruct (Z.ltb_spec l k); [lia|ring]). rewrite Rplus_0_r.
        rewrite (rsum_ext 0 k _ (fun l => W i l * U l j)) by (intros l Ll; destruct (Z.ltb_spec l k); [reflexivity|lia]).
        rewrite <- (rsum_perm k i4 (fun l => W i l * U l j) P4). apply rsum_ext. intros l Ll. unfold W. destruct (H4 l ltac:(lia)) as [_ E4]. rewrite E4, QU' by lia. reflexivity. }
      rewrite S. destruct (Z.lt_ge_cases i n1) as [L1|L1].
      + rewrite HU by lia. rewrite (rsum_app 0 (nu + nd) k) by lia. rewrite (rsum_0 (nu + nd) k); [|].
        * rewrite Rplus_0_r. apply rsum_ext. intros l _. rewrite RI by lia. reflexivity.
        * intros l Ll. destruct (CI5 l ltac:(lia)) as (_ & C & _). destruct (TY (i5 l) (is_perm_in m i5 l P5 ltac:(lia))) as [_ T]. rewrite (T (C ltac:(lia)) i); [ring|]. unfold top. exact L1.
      + rewrite HL by lia. rewrite (rsum_app 0 nu k) by lia. rewrite (rsum_0 0 nu).
        * rewrite Rplus_0_l. replace (rsum nu k (fun l => Q' i (i5 l) * q' l j)) with (rsum (0 + nu) (nd + nl + nu) (fun l => Q' i (i5 l) * q' l j)) by (f_equal; lia).
          rewrite rsum_shift. apply rsum_ext. intros l _. rewrite RI by lia. rewrite (Z.add_comm nu l). reflexivity.
        * intros l Ll. destruct (CI5 l ltac:(lia)) as (C & _). destruct (TY (i5 l) (is_perm_in m i5 l P5 ltac:(lia))) as [T _]. rewrite (T (C ltac:(lia)) i); [ring|]. unfold top. lia.
    - rewrite HDf by lia. rewrite RI, I53 by lia. rewrite (rsum_one 0 m _ j) by (lia || (intros l Ll N; rewrite kron_neq by exact N; ring)). rewrite kron_eq. unfold W. ring. }
  assert (OE : orthonormal m E). { eapply orthonormal_ext; [intros i j Li Lj; symmetry; apply HE; assumption|]. apply orthonormal_mul; [lia|exact OW|exact OU]. }
  split; [exact OE|]. intros x. set (y := coord m Q' x). set (v := coord m W x).
  assert (VY : forall l, v l = y (i3 l)) by reflexivity.
  set (keep := fun j => negb (coltype_eqb (c' j) Deflated)). set (zk := fun j => if keep j then z' j else 0).
  assert (KEEP3 : forall l, (0 <= l < m)%Z -> keep (i3 l) = Z.ltb l k).
  { intros l Ll. unfold keep. pose proof (KIFF l Ll) as X. destruct (Z.ltb_spec l k), (c' (i3 l)) eqn:EC; cbn; try reflexivity; exfalso; (apply (KEPT3 l); [lia|exact EC]) || (assert (UpperHalf = Deflated) by (apply X; lia); discriminate) || (assert (LowerHalf = Deflated) by (apply X; lia); discriminate) || (assert (Dense = Deflated) by (apply X; lia); discriminate). }
  assert (NEW : dform m ev (coord m E x) = dform m d' y + rho * (dot m zk y * dot m zk y)).
  { assert (CE : forall j, (0 <= j < m)%Z -> coord m E x j = coord m Ub v j).
    { intros j Lj. unfold v. rewrite <- (coord_mul m W Ub x j). apply coord_ext; [|reflexivity]. intros i Li. apply HE; assumption. }
    assert (C1 : forall j, (0 <= j < k)%Z -> coord m E x j = coord k U v j).
    { intros j Lj. rewrite CE by lia. unfold coord. rewrite (rsum_app 0 k m) by lia. rewrite (rsum_0 k m).
      - rewrite Rplus_0_r. apply rsum_ext. intros l Ll. unfold Ub. destruct (Z.ltb_spec j k); [|lia]. destruct (Z.ltb_spec l k); [reflexivity|lia].
      - intros l Ll. unfold Ub. destruct (Z.ltb_spec j k); [|lia]. destruct (Z.ltb_spec l k); [lia|ring]. }
    assert (C2 : forall j, (k <= j < m)%Z -> coord m E x j = v j).
    { intros j Lj. rewrite CE by lia. unfold coord. rewrite (rsum_one 0 m _ j).
      - unfold Ub. destruct (Z.ltb_spec j k); [lia|]. rewrite kron_eq. ring.
      - lia.
      - intros l Ll N. unfold Ub. destruct (Z.ltb_spec j k); [lia|]. rewrite kron_neq by exact N. ring. }
    unfold dform at 1. rewrite (rsum_app 0 k m) by lia.
    rewrite (rsum_ext 0 k _ (fun j => ev j * (coord k U v j * coord k U v j))) by (intros j Lj; rewrite C1 by lia; reflexivity). rewrite UF.
    rewrite (rsum_ext k m _ (fun j => d' (i3 j) * (v j * v j))) by (intros j Lj; rewrite C2, EV2 by lia; reflexivity).
    rewrite (rsum_ext 0 k _ (fun j => d' (i3 j) * (v j * v j))) by (intros j Lj; rewrite HD1 by lia; reflexivity).
    assert (DZ : dot k z1 v = dot m zk y).
    { unfold dot. rewrite <- (ZSPLIT (fun i => zk i * y i)). rewrite (rsum_app 0 k m) by lia. rewrite (rsum_0 k m).
      - rewrite Rplus_0_r. apply rsum_ext. intros l Ll. rewrite HZ1, VY by lia. unfold zk. rewrite KEEP3 by lia. destruct (Z.ltb_spec l k); [reflexivity|lia].
      - intros l Ll. unfold zk. rewrite KEEP3 by lia. destruct (Z.ltb_spec l k); [lia|ring]. }
    rewrite DZ. assert (DD : dform m d' y = rsum 0 k (fun j => d' (i3 j) * (v j * v j)) + rsum k m (fun j => d' (i3 j) * (v j * v j))).
    { rewrite <- (rsum_app 0 k m) by lia. unfold dform. rewrite <- (ZSPLIT (fun j => d' j * (y j * y j))). reflexivity. }
    rewrite DD. ring. }
  assert (CQ : forall j, coord m Qb x j = coord m Q x j).
  { intros j. apply coord_ext; [|reflexivity]. intros i Li. cbv beta. replace (Z.leb 0 i && Z.ltb i m)%bool with true by lia. reflexivity. }
  specialize (FZ x). specialize (FD x). rewrite (dot_ext m z (coord m Qb x) z (coord m Q x)) in FZ by (intros; apply CQ || reflexivity).
  rewrite (dform_ext m d (coord m Qb x) d (coord m Q x)) in FD by (intros; apply CQ || reflexivity). fold y in FZ, FD.
  assert (YX : dot m y y = dot m x x) by (apply parseval; [lia|exact FO]).
  pose proof (drop_form m rho tol z' keep y ltac:(lia) RHO TOL ltac:(lra)) as DF. cbv zeta in DF. fold zk in DF. rewrite YX in DF.
  assert (DFH : forall j, (0 <= j < m)%Z -> keep j = false -> Rabs (rho * z' j) <= tol).
  { intros j Lj KJ. destruct (is_perm_onto m i2 j PERM Lj) as (p & Lp & <-). apply DEFL; [lia|]. unfold keep in KJ. destruct (c' (i2 p)); try discriminate. reflexivity. }
  specialize (DF DFH). rewrite NEW. rewrite <- FZ.
  assert (XX := dot_pos m x). assert (IM : 1 <= IZR m) by (apply IZR_le; lia).
  rewrite minus_IZR in FD.
  set (A := dform m d' y) in *. set (B := dform m d (coord m Q x)) in *. set (Zk := rho * (dot m zk y * dot m zk y)) in *. set (Zf := rho * (dot m z' y * dot m z' y)) in *.
  replace (A + Zk - (B + Zf)) with ((A - B) - (Zf - Zk)) by ring. eapply Rle_trans; [apply Rabs_triang|]. rewrite Rabs_Ropp.
  assert (0 <= tol * dot m x x) by (apply Rmult_le_pos; assumption). nra.
Qed.
End core.
