(** * One merge of the divide and conquer solver, on the arrays of the whole problem. *)
From Coq Require Import ZArith Lia List Bool Reals Lra Psatz Permutation.
From Verif Require Import CInt Loop DistModel TridiagModel TridiagProofs TridiagDeflation Properties_Tridiag DcSums DcSecular DcModel DcRank1 DcDeflate DcCore.
Import ListNotations.
Local Open Scope R_scope.

(** ** Block diagonal matrices *)
Section blockdiag.
Variables (n1 n2 : Z) (Q : Z -> Z -> R).
Hypothesis L1 : (0 <= n1)%Z.
Hypothesis L2 : (0 <= n2)%Z.
Notation m := (n1 + n2)%Z.
Hypothesis QU : forall i j, (0 <= j < n1)%Z -> (n1 <= i < m)%Z -> Q i j = 0.
Hypothesis QL : forall i j, (n1 <= j < m)%Z -> (0 <= i < n1)%Z -> Q i j = 0.
Lemma rsum_split2 : forall f, rsum 0 m f = rsum 0 n1 f + rsum 0 n2 (fun i => f (i + n1)%Z).
Proof using L1 L2. intros f. rewrite (rsum_app 0 n1 m) by lia. f_equal. replace (rsum n1 m f) with (rsum (0 + n1) (n2 + n1) f) by (f_equal; lia). apply rsum_shift. Qed.
Lemma blockdiag_orthonormal : orthonormal n1 Q -> orthonormal n2 (view2 n1 Q) -> orthonormal m Q.
Proof using L1 L2 QU QL.
  intros O1 O2 a b La Lb. rewrite rsum_split2. destruct (Z.lt_ge_cases a n1) as [A|A].
  - rewrite (rsum_0 0 n2) by (intros i Li; rewrite (QU (i + n1) a) by lia; ring). rewrite Rplus_0_r. destruct (Z.lt_ge_cases b n1) as [B|B]; [apply O1; lia|].
    rewrite kron_neq by lia. apply rsum_0. intros i Li. rewrite (QL i b) by lia. ring.
  - rewrite (rsum_0 0 n1) by (intros i Li; rewrite (QL i a) by lia; ring). rewrite Rplus_0_l. destruct (Z.lt_ge_cases b n1) as [B|B].
    + rewrite kron_neq by lia. apply rsum_0. intros i Li. rewrite (QU (i + n1) b) by lia. ring.
    + specialize (O2 (a - n1)%Z (b - n1)%Z ltac:(lia) ltac:(lia)). unfold view2 in O2. replace (a - n1 + n1)%Z with a in O2 by lia. replace (b - n1 + n1)%Z with b in O2 by lia. rewrite O2.
      unfold kron. destruct (Z.eqb_spec (a - n1) (b - n1)), (Z.eqb_spec a b); reflexivity || lia.
Qed.
Lemma blockdiag_coord1 : forall x j, (0 <= j < n1)%Z -> coord m Q x j = coord n1 Q x j.
Proof using L1 L2 QU. intros x j Lj. unfold coord. rewrite rsum_split2. rewrite (rsum_0 0 n2) by (intros i Li; rewrite QU by lia; ring). apply Rplus_0_r. Qed.
Lemma blockdiag_coord2 : forall x j, (0 <= j < n2)%Z -> coord m Q x (j + n1) = coord n2 (view2 n1 Q) (view n1 x) j.
Proof using L1 L2 QL. intros x j Lj. unfold coord. rewrite rsum_split2. rewrite (rsum_0 0 n1) by (intros i Li; rewrite QL by lia; ring). apply Rplus_0_l. Qed.
Lemma blockdiag_dform : forall d x, dform m d (coord m Q x) = dform n1 d (coord n1 Q x) + dform n2 (view n1 d) (coord n2 (view2 n1 Q) (view n1 x)).
Proof using L1 L2 QU QL.
  intros d x. unfold dform. rewrite rsum_split2. f_equal; apply rsum_ext; intros i Li; [rewrite blockdiag_coord1 by lia|rewrite blockdiag_coord2 by lia]; reflexivity.
Qed.
End blockdiag.

(** the rank-one vector *)
Definition zsign (rho : R) : R := if Rlt_dec rho 0 then -1 else 1.
Lemma zsign_sq : forall rho, zsign rho * zsign rho = 1.
Proof. intros. unfold zsign. destruct (Rlt_dec rho 0); ring. Qed.
Lemma zsign_abs : forall rho, Rabs rho * zsign rho = rho.
Proof. intros. unfold zsign. destruct (Rlt_dec rho 0); [rewrite Rabs_left by assumption; ring|rewrite Rabs_right by lra; ring]. Qed.
Definition zvec (n1 : Z) (rho : R) (Q : Z -> Z -> R) : Z -> R :=
  fun j => if Z.ltb j n1 then zsign rho * Q (n1 - 1)%Z j / sqrt 2 else Q n1 j / sqrt 2.
Lemma sqrt2_sq : / sqrt 2 * / sqrt 2 = 1 / 2.
Proof. rewrite <- Rinv_mult. rewrite sqrt_sqrt by lra. lra. Qed.

Section zvec.
Variables (n1 n2 : Z) (Q : Z -> Z -> R) (rho : R).
Hypothesis L1 : (1 <= n1)%Z.
Hypothesis L2 : (1 <= n2)%Z.
Notation m := (n1 + n2)%Z.
Hypothesis QU : forall i j, (0 <= j < n1)%Z -> (n1 <= i < m)%Z -> Q i j = 0.
Hypothesis QL : forall i j, (n1 <= j < m)%Z -> (0 <= i < n1)%Z -> Q i j = 0.
Hypothesis QO : orthonormal m Q.
Lemma zvec_form : forall j, (0 <= j < m)%Z -> zvec n1 rho Q j = / sqrt 2 * (zsign rho * Q (n1 - 1)%Z j + Q n1 j).
Proof using L1 L2 QU QL.
  intros j Lj. unfold zvec. destruct (Z.ltb_spec j n1).
  - rewrite (QU n1 j) by lia. unfold Rdiv. ring.
  - rewrite (QL (n1 - 1)%Z j) by lia. unfold Rdiv. ring.
Qed.
Lemma zvec_dot : forall x, dot m (zvec n1 rho Q) (coord m Q x) = / sqrt 2 * (zsign rho * x (n1 - 1)%Z + x n1).
Proof using L1 L2 QU QL QO.
  intros x. unfold dot. rewrite (rsum_ext 0 m _ (fun j => / sqrt 2 * (zsign rho * (Q (n1 - 1)%Z j * coord m Q x j) + Q n1 j * coord m Q x j))).
  - rewrite rsum_mul_l, rsum_add, rsum_mul_l. rewrite !coord_expand by (assumption || lia). reflexivity.
  - intros j Lj. rewrite zvec_form by lia. ring.
Qed.
Lemma zvec_norm : dot m (zvec n1 rho Q) (zvec n1 rho Q) = 1.
Proof using L1 L2 QU QL QO.
  unfold dot. rewrite (rsum_ext 0 m _ (fun j => 1 / 2 * ((Q (n1 - 1)%Z j * Q (n1 - 1)%Z j + 2 * zsign rho * (Q (n1 - 1)%Z j * Q n1 j)) + Q n1 j * Q n1 j))).
  - rewrite rsum_mul_l, !rsum_add, rsum_mul_l. rewrite !orthonormal_rows by (assumption || lia). rewrite !kron_eq, kron_neq by lia. lra.
  - intros j Lj. rewrite zvec_form by lia. rewrite <- sqrt2_sq.
    replace (/ sqrt 2 * (zsign rho * Q (n1 - 1)%Z j + Q n1 j) * (/ sqrt 2 * (zsign rho * Q (n1 - 1)%Z j + Q n1 j)))
      with (/ sqrt 2 * / sqrt 2 * ((zsign rho * zsign rho) * (Q (n1 - 1)%Z j * Q (n1 - 1)%Z j) + 2 * zsign rho * (Q (n1 - 1)%Z j * Q n1 j) + Q n1 j * Q n1 j)) by ring.
    rewrite zsign_sq. ring.
Qed.
Lemma zvec_rank1 : forall x, 2 * Rabs rho * (dot m (zvec n1 rho Q) (coord m Q x) * dot m (zvec n1 rho Q) (coord m Q x)) = Rabs rho * ((zsign rho * x (n1 - 1)%Z + x n1) * (zsign rho * x (n1 - 1)%Z + x n1)).
Proof using L1 L2 QU QL QO.
  intros x. rewrite zvec_dot. set (t := zsign rho * x (n1 - 1)%Z + x n1). replace (/ sqrt 2 * t * (/ sqrt 2 * t)) with ((/ sqrt 2 * / sqrt 2) * (t * t)) by ring. rewrite sqrt2_sq. field.
Qed.
End zvec.

(** ** Maxima *)
Lemma vec_max_le : forall m v M, 0 <= M -> (forall i, (0 <= i < m)%Z -> Rabs (v i) <= M) -> vec_max m v <= M.
Proof.
  intros m v M LM H. unfold vec_max. assert (X : forall l, (forall x, In x l -> x <= M) -> fold_right Rmax 0 l <= M).
  { induction l as [|a l IH]; intros G; [exact LM|]. cbn. apply Rmax_lub; [apply G; left; reflexivity|apply IH; intros; apply G; right; assumption]. }
  apply X. intros x I. apply in_tab in I as (i & Li & <-). apply H. exact Li.
Qed.
Lemma vec_max_nonneg : forall m v, 0 <= vec_max m v.
Proof. intros. unfold vec_max. generalize (tab 0 m (fun i => Rabs (v i))). induction l as [|a l IH]; cbn; [lra|]. eapply Rle_trans; [exact IH|apply Rmax_r]. Qed.
Lemma dot_one : forall m z i, dot m z z = 1 -> (0 <= i < m)%Z -> Rabs (z i) <= 1.
Proof. intros m z i E L. pose proof (dot_sq m z i L). rewrite E in H. apply Rabs_le. nra. Qed.

Section geo.
Variables (n nb : Z).
Hypothesis LNB : (1 <= nb)%Z.
Hypothesis LN : (1 <= n)%Z.
Notation nt := (dc_nt n nb).
Notation rows := (dc_rows n nb).
Notation size := (dc_size n nb).
(** first element after tile e - 1 *)
Definition hi (e : Z) : Z := Z.min (e * nb) n.
Lemma nt_bounds : ((nt - 1) * nb < n <= nt * nb)%Z /\ (1 <= nt)%Z.
Proof using LNB LN.
  unfold dc_nt, ceilDiv. rewrite Z.quot_div_nonneg by lia. pose proof (Z.div_mod (n + nb - 1) nb ltac:(lia)). pose proof (Z.mod_pos_bound (n + nb - 1) nb ltac:(lia)).
  set (q := ((n + nb - 1) / nb)%Z) in *. assert (1 <= q)%Z by (apply Z.div_le_lower_bound; lia). nia.
Qed.
Lemma start_lt : forall b, (b < nt)%Z -> (b * nb < n)%Z.
Proof using LNB LN. intros b L. pose proof nt_bounds. nia. Qed.
Lemma hi_start : forall b, (0 <= b < nt)%Z -> hi b = (b * nb)%Z.
Proof using LNB LN. intros b L. pose proof (start_lt b ltac:(lia)). unfold hi. lia. Qed.
Lemma hi_nt : hi nt = n.
Proof using LNB LN. pose proof nt_bounds. unfold hi. lia. Qed.
Lemma hi_le : forall a b, (a <= b)%Z -> (hi a <= hi b)%Z.
Proof using LNB LN. intros a b L. unfold hi. nia. Qed.
Lemma hi_lt : forall a b, (0 <= a < b)%Z -> (a < nt)%Z -> (hi a < hi b)%Z.
Proof using LNB LN. intros a b L1 L2. pose proof (start_lt a L2). unfold hi. nia. Qed.
Lemma size_hi : forall b e, (0 <= b < e)%Z -> (e <= nt)%Z -> size b e = (hi e - hi b)%Z.
Proof using LNB LN.
  intros b e L1 L2. rewrite (hi_start b) by lia. unfold dc_size, dc_rows, hi. pose proof (start_lt (e - 1) ltac:(lia)). nia.
Qed.
Lemma rows_hi : forall i, (0 <= i < nt)%Z -> rows i = (hi (i + 1) - i * nb)%Z /\ (1 <= rows i <= nb)%Z.
Proof using LNB LN. intros i L. unfold dc_rows, hi. pose proof (start_lt i ltac:(lia)). nia. Qed.
Lemma rows_full : forall i, (0 <= i)%Z -> (i + 1 < nt)%Z -> rows i = nb.
Proof using LNB LN. intros i L0 L. unfold dc_rows. pose proof (start_lt (i + 1) L). nia. Qed.

(** a loop over the elements of tiles b .. e - 1 that writes each element *)
Lemma tiled_at : forall {A : Type} (pos : Z -> Z -> Z) c (v : Z -> Z -> A) b e a p, (forall i j, pos i j = ((i - c) * nb + j)%Z) -> (0 <= b <= e)%Z -> (e <= nt)%Z ->
  fold_left (fun a i => fold_left (fun a j => upd a (pos i j) (v i (pos i j))) (zrange 0 (rows i)) a) (zrange b e) a p =
  if (Z.leb (b * nb) (p + c * nb) && Z.ltb (p + c * nb) (hi e))%bool then v ((p + c * nb) / nb)%Z p else a p.
Proof using LNB LN.
  intros A pos c v b e a p HP L1 L2. revert p.
  assert (IN : forall i r (a' : Z -> A) p, (0 <= r)%Z -> fold_left (fun a j => upd a (pos i j) (v i (pos i j))) (zrange 0 r) a' p = if (Z.leb ((i - c) * nb) p && Z.ltb p ((i - c) * nb + r))%bool then v i p else a' p).
  { intros i r a' p Lr. revert p. pattern r. apply natlike_ind; [| |exact Lr].
    - intros p. rewrite zrange_nil by lia. cbn [fold_left]. destruct (Z.leb_spec ((i - c) * nb) p), (Z.ltb_spec p ((i - c) * nb + 0)); cbn [andb]; lia || reflexivity.
    - intros x Lx IH p. unfold Z.succ. rewrite zrange_snoc, fold_left_app by lia. cbn [fold_left]. unfold upd at 1. rewrite IH. rewrite !HP.
      destruct (Z.eqb_spec p ((i - c) * nb + x)) as [->|N].
      + replace (Z.leb ((i - c) * nb) ((i - c) * nb + x) && Z.ltb ((i - c) * nb + x) ((i - c) * nb + (x + 1)))%bool with true by lia. reflexivity.
      + destruct (Z.leb_spec ((i - c) * nb) p), (Z.ltb_spec p ((i - c) * nb + x)), (Z.ltb_spec p ((i - c) * nb + (x + 1))); cbn [andb]; lia || reflexivity. }
  assert (X : forall k, (0 <= k)%Z -> (b + k <= e)%Z -> forall p, fold_left (fun a i => fold_left (fun a j => upd a (pos i j) (v i (pos i j))) (zrange 0 (rows i)) a) (zrange b (b + k)) a p =
    if (Z.leb (b * nb) (p + c * nb) && Z.ltb (p + c * nb) (hi (b + k)))%bool then v ((p + c * nb) / nb)%Z p else a p).
  { intros k Lk. pattern k. apply natlike_ind; [| |exact Lk].
    - intros _ p. rewrite zrange_nil by lia. cbn [fold_left]. rewrite Z.add_0_r. unfold hi. destruct (Z.leb_spec (b * nb) (p + c * nb)), (Z.ltb_spec (p + c * nb) (Z.min (b * nb) n)); cbn [andb]; lia || reflexivity.
    - intros x Lx IH Ls p. unfold Z.succ in *. rewrite Z.add_assoc, zrange_snoc, fold_left_app by lia. cbn [fold_left].
      destruct (rows_hi (b + x) ltac:(lia)) as [R1 R2]. rewrite IN by lia. rewrite IH by lia. rewrite R1. pose proof (hi_start (b + x) ltac:(lia)) as HS. pose proof (hi_lt (b + x) (b + x + 1) ltac:(lia) ltac:(lia)) as HL.
      set (h := hi (b + x + 1)) in *. rewrite HS in *.
      destruct (Z.leb_spec ((b + x - c) * nb) p) as [P1|P1], (Z.ltb_spec p ((b + x - c) * nb + (h - (b + x) * nb))) as [P2|P2]; cbn [andb].
      + assert (LH : (h <= (b + x + 1) * nb)%Z) by (unfold h, hi; lia).
        replace (Z.leb (b * nb) (p + c * nb) && Z.ltb (p + c * nb) h)%bool with true by (symmetry; apply andb_true_intro; split; [apply Z.leb_le; nia|apply Z.ltb_lt; nia]).
        replace ((p + c * nb) / nb)%Z with (b + x)%Z; [reflexivity|]. apply Z.div_unique with (r := (p + c * nb - (b + x) * nb)%Z); [left; nia|ring].
      + replace (Z.ltb (p + c * nb) ((b + x) * nb)) with false by (symmetry; apply Z.ltb_ge; nia). replace (Z.ltb (p + c * nb) h) with false by (symmetry; apply Z.ltb_ge; nia). reflexivity.
      + replace (Z.ltb (p + c * nb) ((b + x) * nb)) with true by (symmetry; apply Z.ltb_lt; nia). replace (Z.ltb (p + c * nb) h) with true by (symmetry; apply Z.ltb_lt; nia). reflexivity.
      + nia. }
  intros p. replace e with (b + (e - b))%Z by lia. apply X; lia.
Qed.
End geo.

Lemma put_block_in : forall {A} r c m k (B E : Z -> Z -> A) i j, (r <= i < r + m)%Z -> (c <= j < c + k)%Z -> put_block r c m k B E i j = B (i - r)%Z (j - c)%Z.
Proof. intros. unfold put_block. replace (Z.leb r i && Z.ltb i (r + m) && Z.leb c j && Z.ltb j (c + k))%bool with true by lia. reflexivity. Qed.
Lemma put_block_out : forall {A} r c m k (B E : Z -> Z -> A) i j, ~ ((r <= i < r + m)%Z /\ (c <= j < c + k)%Z) -> put_block r c m k B E i j = E i j.
Proof. intros. unfold put_block. replace (Z.leb r i && Z.ltb i (r + m) && Z.leb c j && Z.ltb j (c + k))%bool with false by lia. reflexivity. Qed.
Lemma ascending_ext : forall v v' idx idx' lo h, (forall p, (lo <= p < h)%Z -> v (idx p) = v' (idx' p)) -> ascending Rltb v idx lo h -> ascending Rltb v' idx' lo h.
Proof. intros v v' idx idx' lo h E A p q L1 L2. rewrite <- !E by lia. apply A; assumption. Qed.

Section merge.
Variables (n nb : Z) (eps : R) (workers : Z).
Variable laed4 : Z -> Z -> (Z -> R) -> (Z -> R) -> R -> (Z -> R) * R.
Hypothesis LNB : (1 <= nb)%Z.
Hypothesis LN : (1 <= n)%Z.
Hypothesis EPS : 0 <= eps.
Hypothesis LW : (1 <= workers)%Z.
Hypothesis LA : laed4_ok laed4.
Notation nt := (dc_nt n nb).
Notation size := (dc_size n nb).
Notation hi := (hi n nb).

(** the sorted order of the values of a subproblem *)
Definition sub_idx (s : dcs) (b e : Z) : Z -> Z := if Z.eqb e (b + 1) then fun i => i else view (b * nb) (s_i1 s).

Lemma merge_ok : forall (ord : Z -> Z -> list Z) b sp e rho (s : dcs), (0 <= b < sp)%Z -> (sp < e <= nt)%Z -> (forall k t, (0 <= k)%Z -> Permutation (ord k t) (zrange 0 k)) ->
  let o := (b * nb)%Z in let m := size b e in let n1 := size b sp in let n2 := size sp e in let o2 := (sp * nb)%Z in
  is_perm n1 (sub_idx s b sp) -> is_perm n2 (sub_idx s sp e) ->
  ascending Rltb (view o (s_d0 s)) (sub_idx s b sp) 0 n1 -> ascending Rltb (view o2 (s_d0 s)) (sub_idx s sp e) 0 n2 ->
  orthonormal n1 (view2 o (s_e0 s)) -> orthonormal n2 (view2 o2 (s_e0 s)) ->
  (forall i j, (o <= i < o2)%Z -> (o2 <= j < hi e)%Z -> s_e0 s i j = 0 /\ s_e0 s j i = 0) ->
  exists s', merge_subproblems n nb eps workers laed4 ord b sp e rho s = Some s' /\
    (forall i j, ~ ((o <= i < hi e)%Z /\ (o <= j < hi e)%Z) -> s_e0 s' i j = s_e0 s i j) /\
    (forall i, ~ (o <= i < hi e)%Z -> s_d0 s' i = s_d0 s i /\ s_i1 s' i = s_i1 s i /\ s_i2 s' i = s_i2 s i) /\
    is_perm m (view o (s_i1 s')) /\ ascending Rltb (view o (s_d0 s')) (view o (s_i1 s')) 0 m /\ (forall i, (o <= i < hi e)%Z -> s_i2 s' i = s_i1 s' i) /\
    orthonormal m (view2 o (s_e0 s')) /\
    forall x, Rabs (dform m (view o (s_d0 s')) (coord m (view2 o (s_e0 s')) x) -
      (dform n1 (view o (s_d0 s)) (coord n1 (view2 o (s_e0 s)) x) + dform n2 (view o2 (s_d0 s)) (coord n2 (view2 o2 (s_e0 s)) (view n1 x)) +
       Rabs rho * ((zsign rho * x (n1 - 1)%Z + x n1) * (zsign rho * x (n1 - 1)%Z + x n1)))) <=
     3 * IZR m * (8 * eps * Rmax (vec_max m (view o (s_d0 s))) 1) * dot m x x.
Proof using LNB LN EPS LW LA.
  intros ord b sp e rho s Lb Le ORD o m n1 n2 o2 P1 P2 A1 A2 O1 O2 ZE.
  assert (Hm : m = (hi e - o)%Z) by (unfold m; rewrite (size_hi n nb LNB LN), (hi_start n nb LNB LN b) by lia; reflexivity).
  assert (Hn1 : n1 = (o2 - o)%Z) by (unfold n1; rewrite (size_hi n nb LNB LN), (hi_start n nb LNB LN b), (hi_start n nb LNB LN sp) by lia; reflexivity).
  assert (Hn2 : n2 = (hi e - o2)%Z) by (unfold n2; rewrite (size_hi n nb LNB LN), (hi_start n nb LNB LN sp) by lia; reflexivity).
  pose proof (hi_lt n nb LNB LN b sp ltac:(lia) ltac:(lia)) as HL1. pose proof (hi_lt n nb LNB LN sp e ltac:(lia) ltac:(lia)) as HL2.
  rewrite (hi_start n nb LNB LN b), (hi_start n nb LNB LN sp) in HL1 by lia. rewrite (hi_start n nb LNB LN sp) in HL2 by lia. fold o o2 in HL1, HL2.
  assert (LM1 : (1 <= n1)%Z) by lia. assert (LM2 : (1 <= n2)%Z) by lia. assert (MM : m = (n1 + n2)%Z) by lia.
  set (Q := view2 o (s_e0 s)) in *. set (d := view o (s_d0 s)) in *.
  assert (QU : forall i j, (0 <= j < n1)%Z -> (n1 <= i < m)%Z -> Q i j = 0) by (intros i j Lj Li; exact (proj2 (ZE (j + o)%Z (i + o)%Z ltac:(lia) ltac:(lia)))).
  assert (QL : forall i j, (n1 <= j < m)%Z -> (0 <= i < n1)%Z -> Q i j = 0) by (intros i j Lj Li; exact (proj1 (ZE (i + o)%Z (j + o)%Z ltac:(lia) ltac:(lia)))).
  assert (V2 : forall i j, view2 n1 Q i j = view2 o2 (s_e0 s) i j) by (intros i j; unfold Q, view2; f_equal; lia).
  assert (OQ : orthonormal m Q).
  { rewrite MM in *. apply blockdiag_orthonormal; try lia; [exact QU|exact QL|exact O1|]. eapply orthonormal_ext; [|exact O2]. intros; symmetry; apply V2. }
  unfold merge_subproblems. fold o m n1 n2 o2.
  set (z0 := assemble_z n nb b sp e rho (s_e0 s) (s_z0 s)). set (z := view o z0). set (tol := calc_tolerance eps m (view o (s_d0 s)) z).
  assert (HZ : forall l, (0 <= l < m)%Z -> z l = zvec n1 rho Q l).
  { intros l Ll. unfold z, view, z0, assemble_z. rewrite (tiled_at n nb LNB LN (fun i j => (i * nb + j)%Z) 0 (fun i p => (if Z.ltb i sp && (if Rlt_dec rho 0 then true else false) then -1 else 1) *
        s_e0 s ((sp - (if Z.ltb i sp then 1 else 0)) * nb + (if Z.ltb i sp then dc_rows n nb (sp - (if Z.ltb i sp then 1 else 0)) - 1 else 0))%Z p / sqrt 2) b e) by (intros; lia).
    fold o. replace (l + o + 0 * nb)%Z with (l + o)%Z by lia. replace (Z.leb o (l + o) && Z.ltb (l + o) (hi e))%bool with true by lia.
    unfold zvec, zsign. assert (DV : Z.ltb ((l + o) / nb) sp = Z.ltb l n1).
    { destruct (Z.ltb_spec l n1), (Z.ltb_spec ((l + o) / nb) sp) as [X|X]; try reflexivity; exfalso.
      - assert ((l + o) / nb < sp)%Z by (apply Z.div_lt_upper_bound; lia). lia.
      - assert (sp <= (l + o) / nb)%Z by (apply Z.div_le_lower_bound; lia). lia. }
    rewrite DV. destruct (Z.ltb_spec l n1); cbn [andb].
    - rewrite (rows_full n nb LNB LN) by lia. unfold Q, view2. replace ((sp - 1) * nb + (nb - 1))%Z with (n1 - 1 + o)%Z by lia. destruct (Rlt_dec rho 0); reflexivity.
    - unfold Q, view2. replace ((sp - 0) * nb + 0)%Z with (n1 + o)%Z by lia. rewrite Rmult_1_l. reflexivity. }
  assert (ZN : dot m z z = 1).
  { rewrite (dot_ext m z z (zvec n1 rho Q) (zvec n1 rho Q)) by exact HZ. rewrite MM in *. apply zvec_norm; assumption || lia. }
  assert (TB : tol <= 8 * eps * Rmax (vec_max m d) 1).
  { unfold tol, calc_tolerance. fold d. apply Rmult_le_compat_l; [lra|]. apply Rle_max_compat_l. apply vec_max_le; [lra|]. intros i Li. apply dot_one with (m := m); assumption. }
  assert (TOL : 0 <= tol). { unfold tol, calc_tolerance. apply Rmult_le_pos; [lra|]. eapply Rle_trans; [apply vec_max_nonneg|apply Rmax_l]. }
  set (c := at_ o (init_coltypes nb (dc_rows n nb) b sp e) (s_c s)).
  assert (HC : forall l, (0 <= l < m)%Z -> view o c l = if Z.ltb l n1 then UpperHalf else LowerHalf).
  { intros l Ll. unfold view, c, at_, init_coltypes. replace (l + o - o)%Z with l by lia.
    rewrite (tiled_at n nb LNB LN (fun i j => ((i - b) * nb + j)%Z) b (fun i p => if Z.ltb i sp then UpperHalf else LowerHalf) b e) by (intros; lia).
    fold o. replace (Z.leb o (l + o) && Z.ltb (l + o) (hi e))%bool with true by lia.
    destruct (Z.ltb_spec l n1), (Z.ltb_spec ((l + o) / nb) sp) as [X|X]; try reflexivity; exfalso.
    - assert ((l + o) / nb < sp)%Z by (apply Z.div_lt_upper_bound; lia). lia.
    - assert (sp <= (l + o) / nb)%Z by (apply Z.div_le_lower_bound; lia). lia. }
  set (i1a := if Z.eqb sp (b + 1) then _ else s_i1 s). set (i1b := if Z.eqb (sp + 1) e then _ else i1a). set (i1c := at_ o2 (add_index n2 n1) i1b).
  assert (RF : forall i, (0 <= i)%Z -> (i + 1 < nt)%Z -> dc_rows n nb i = nb) by (intros; apply (rows_full n nb LNB LN); assumption).
  assert (RP : forall i, (0 <= i < nt)%Z -> (1 <= dc_rows n nb i <= nb)%Z) by (intros i Li; apply (rows_hi n nb LNB LN i Li)).
  assert (I1a : forall i, i1a i = if (Z.leb o i && Z.ltb i o2)%bool then sub_idx s b sp (i - o) else s_i1 s i).
  { intros i. unfold i1a, sub_idx. destruct (Z.eqb_spec sp (b + 1)) as [E|E].
    - unfold at_. rewrite C34_initial_index; [|lia|lia|intros; lia|specialize (RP (sp - 1)%Z ltac:(lia)); lia]. fold (size b sp). fold n1. unfold view.
      destruct (Z.leb_spec 0 (i - o)), (Z.ltb_spec (i - o) n1), (Z.leb_spec o i), (Z.ltb_spec i o2); cbn [andb]; try lia; try reflexivity; f_equal; lia.
    - unfold view. destruct (Z.leb_spec o i), (Z.ltb_spec i o2); cbn [andb]; try reflexivity. f_equal. unfold o. lia. }
  assert (I1b : forall i, i1b i = if (Z.leb o i && Z.ltb i o2)%bool then sub_idx s b sp (i - o) else if (Z.leb o2 i && Z.ltb i (hi e))%bool then sub_idx s sp e (i - o2) else s_i1 s i).
  { intros i. unfold i1b, sub_idx at 2. rewrite (Z.eqb_sym e (sp + 1)). destruct (Z.eqb_spec (sp + 1) e) as [E|E].
    - unfold at_. rewrite C34_initial_index; [|lia|lia|intros; lia|specialize (RP (e - 1)%Z ltac:(lia)); lia]. fold (size sp e). fold n2. unfold view. rewrite I1a. replace (i - o2 + o2)%Z with i by lia.
      destruct (Z.leb_spec 0 (i - o2)), (Z.ltb_spec (i - o2) n2), (Z.leb_spec o i), (Z.ltb_spec i o2), (Z.leb_spec o2 i), (Z.ltb_spec i (hi e)); cbn [andb]; try lia; reflexivity.
    - rewrite I1a. unfold view. destruct (Z.leb_spec o i), (Z.ltb_spec i o2), (Z.leb_spec o2 i), (Z.ltb_spec i (hi e)); cbn [andb]; try reflexivity; f_equal; unfold o2; lia. }
  assert (I1c : forall l, (0 <= l < m)%Z -> view o i1c l = if Z.ltb l n1 then sub_idx s b sp l else (sub_idx s sp e (l - n1) + n1)%Z).
  { intros l Ll. unfold view, i1c, at_. rewrite C34_add_index. unfold view. rewrite !I1b. replace (l + o - o2 + o2)%Z with (l + o)%Z by lia. replace (l + o - o)%Z with l by lia. replace (l + o - o2)%Z with (l - n1)%Z by lia.
    destruct (Z.leb_spec 0 (l - n1)), (Z.ltb_spec (l - n1) n2), (Z.leb_spec o (l + o)), (Z.ltb_spec (l + o) o2), (Z.leb_spec o2 (l + o)), (Z.ltb_spec (l + o) (hi e)), (Z.ltb_spec l n1); cbn [andb]; try lia; reflexivity. }
  assert (I1o : forall i, ~ (o <= i < hi e)%Z -> i1c i = s_i1 s i).
  { intros i Li. unfold i1c, at_. rewrite C34_add_index. unfold view. rewrite !I1b. replace (i - o2 + o2)%Z with i by lia.
    destruct (Z.leb_spec 0 (i - o2)), (Z.ltb_spec (i - o2) n2), (Z.leb_spec o i), (Z.ltb_spec i o2), (Z.leb_spec o2 i), (Z.ltb_spec i (hi e)); cbn [andb]; try lia; reflexivity. }
  assert (PI1 : is_perm m (view o i1c)).
  { apply is_perm_intro.
    - intros i Li. rewrite I1c by lia. destruct (Z.ltb_spec i n1); [pose proof (is_perm_in n1 _ i P1 ltac:(lia)); lia|pose proof (is_perm_in n2 _ (i - n1)%Z P2 ltac:(lia)); lia].
    - intros i j Li Lj. rewrite !I1c by lia. destruct (Z.ltb_spec i n1), (Z.ltb_spec j n1); intros E.
      + apply (is_perm_inj n1 (sub_idx s b sp)); assumption || lia.
      + pose proof (is_perm_in n1 _ i P1 ltac:(lia)). pose proof (is_perm_in n2 _ (j - n1)%Z P2 ltac:(lia)). lia.
      + pose proof (is_perm_in n1 _ j P1 ltac:(lia)). pose proof (is_perm_in n2 _ (i - n1)%Z P2 ltac:(lia)). lia.
      + assert (i - n1 = j - n1)%Z; [|lia]. apply (is_perm_inj n2 (sub_idx s sp e)); assumption || lia. }
  destruct (C34_sort_index R Rltb Rltb_weak m n1 d (view o i1c) (view o (s_i2 s))) as (i2 & EI2 & _ & PI2 & AI2 & I2o).
  { lia. }
  { eapply ascending_ext; [|exact A1]. intros p Lp. cbv beta. rewrite I1c by lia. destruct (Z.ltb_spec p n1); [reflexivity|lia]. }
  { intros p q Lp Lq. rewrite !I1c by lia. destruct (Z.ltb_spec p n1), (Z.ltb_spec q n1); try lia. pose proof (A2 (p - n1)%Z (q - n1)%Z ltac:(lia) ltac:(lia)) as AA. unfold view in AA. unfold d, view.
    replace (sub_idx s sp e (q - n1) + n1 + o)%Z with (sub_idx s sp e (q - n1) + o2)%Z by lia. replace (sub_idx s sp e (p - n1) + n1 + o)%Z with (sub_idx s sp e (p - n1) + o2)%Z by lia. exact AA. }
  specialize (PI2 PI1). fold d. rewrite EI2. fold d in tol.
  destruct (merge_core laed4 LA workers LW (e - b) m n1 (scale_rho rho) tol i2 d z (view o c) Q) with (i3_0 := view o (s_i3 s)) (i5_0 := view o (s_i5 s)) (ord := ord) (q := view2 o (s_e2 s))
    as (ii & d' & z' & c' & rots & ED & k & nu & nd & nl & i3 & i5 & EP & KM & KS & KN & P3 & P5 & DO & REST); try assumption; try lia.
  { unfold scale_rho. pose proof (Rabs_pos rho). lra. }
  { intros j Lj. rewrite HC by lia. destruct (Z.ltb_spec j n1); [reflexivity|lia]. }
  { intros j Lj. rewrite HC by lia. destruct (Z.ltb_spec j n1); [lia|reflexivity]. }
  change (view o z0) with z. rewrite ED. rewrite EP.
  set (e0r := put_block o o m m (apply_rotations rots (view2 o (s_e0 s))) (s_e0 s)).
  set (e1 := put_block o o m m (fun i j => e0r (o + i)%Z (o + i5 j)%Z) (s_e1 s)).
  set (d1 := apply_index m i3 d' (view o (s_d1 s))). set (z1 := apply_index m i3 z' (view o (s_z1 s))).
  set (evals := fold_left (fun a i => upd a i (d1 i)) (zrange 0 m) d').
  set (i2' := invert_index m i3 i2). set (i4 := apply_index m i5 i2' (view o (s_i4 s))).
  destruct (C34_invert_index m i3 i2 P3) as (PI2' & INV1 & INV2 & INVo). fold i2' in PI2', INV1, INV2, INVo.
  assert (HD1 : forall l, (0 <= l < m)%Z -> d1 l = d' (i3 l)) by (intros l Ll; unfold d1; rewrite C34_apply_index; replace (Z.leb 0 l && Z.ltb l m)%bool with true by lia; reflexivity).
  assert (HZ1 : forall l, (0 <= l < m)%Z -> z1 l = z' (i3 l)) by (intros l Ll; unfold z1; rewrite C34_apply_index; replace (Z.leb 0 l && Z.ltb l m)%bool with true by lia; reflexivity).
  assert (HEV : forall l, evals l = if (Z.leb 0 l && Z.ltb l m)%bool then d1 l else d' l) by (intros l; unfold evals; apply fold_copy_at).
  assert (HI4 : forall l, (0 <= l < m)%Z -> (0 <= i4 l < m)%Z /\ i3 (i4 l) = i5 l).
  { intros l Ll. assert (E4 : i4 l = i2' (i5 l)) by (unfold i4; rewrite C34_apply_index; replace (Z.leb 0 l && Z.ltb l m)%bool with true by lia; reflexivity).
    pose proof (is_perm_in m i5 l P5 Ll). rewrite E4. split; [apply is_perm_in; assumption|apply INV2; assumption]. }
  destruct (REST d1 z1 i4 evals HD1 HZ1) as (ev & w & q' & ES & EVO & EA1 & EA2 & RE).
  { intros l Ll. rewrite HEV. replace (Z.leb 0 l && Z.ltb l m)%bool with true by lia. reflexivity. }
  { exact HI4. }
  rewrite ES. set (e2 := put_block o o m m q' (s_e2 s)). set (ef := multiply_eigenvectors o m n1 n2 k (nu, nd, nl) e0r e1 e2).
  assert (II : forall j, init_index nb (dc_rows n nb) b e (view o i1c) j = if (Z.leb 0 j && Z.ltb j m)%bool then j else view o i1c j).
  { intros j. rewrite C34_initial_index; [reflexivity|lia|lia|intros; apply RF; lia|specialize (RP (e - 1)%Z ltac:(lia)); lia]. }
  set (iid := init_index nb (dc_rows n nb) b e (view o i1c)) in *.
  destruct (C34_sort_index R Rltb Rltb_weak m k ev iid i2') as (r & ER & _ & PR & AR & Ro).
  { lia. }
  { eapply ascending_ext; [|exact EA1]. intros p Lp. cbv beta. rewrite II. replace (Z.leb 0 p && Z.ltb p m)%bool with true by lia. reflexivity. }
  { eapply ascending_ext; [|exact EA2]. intros p Lp. cbv beta. rewrite II. replace (Z.leb 0 p && Z.ltb p m)%bool with true by lia. reflexivity. }
  assert (PID : is_perm m iid) by (apply (is_perm_ext m (fun i => i)); [intros i Li; rewrite II; replace (Z.leb 0 i && Z.ltb i m)%bool with true by lia; reflexivity|apply is_perm_id]).
  specialize (PR PID). rewrite ER. eexists. split; [reflexivity|]. cbn [s_e0 s_d0 s_i1 s_i2].
  set (i1f := fold_left (fun a i => upd a i (r i)) (zrange 0 m) iid).
  assert (HI1 : forall j, i1f j = if (Z.leb 0 j && Z.ltb j m)%bool then r j else iid j) by (intros j; unfold i1f; apply fold_copy_at).
  assert (VI1 : forall l, (0 <= l < m)%Z -> view o (fun i => i1f (i - o)%Z) l = r l).
  { intros l Ll. unfold view. replace (l + o - o)%Z with l by lia. rewrite HI1. replace (Z.leb 0 l && Z.ltb l m)%bool with true by lia. reflexivity. }
  assert (VD : forall l, view o (fun i => ev (i - o)%Z) l = ev l) by (intros l; unfold view; f_equal; lia).
  assert (E1 : forall i l, (0 <= i < m)%Z -> (0 <= l < m)%Z -> e1 (o + i)%Z (o + l)%Z = apply_rotations rots Q i (i5 l)).
  { intros i l Li Ll. pose proof (is_perm_in m i5 l P5 Ll). unfold e1. rewrite put_block_in by lia. replace (o + i - o)%Z with i by lia. replace (o + l - o)%Z with l by lia. unfold e0r. rewrite put_block_in by lia. fold Q. f_equal; lia. }
  assert (E2 : forall l j, (0 <= l < m)%Z -> (0 <= j < m)%Z -> e2 (o + l)%Z (o + j)%Z = q' l j).
  { intros l j Ll Lj. unfold e2. rewrite put_block_in by lia. f_equal; lia. }
  destruct (RE (view2 o ef)) as [OE FE].
  { intros i j Li Lj. unfold view2, ef, multiply_eigenvectors. rewrite put_block_out by lia. rewrite put_block_out by lia. rewrite put_block_in by lia.
    apply rsum_ext. intros l Ll. rewrite <- E1, <- E2 by lia. f_equal; f_equal; lia. }
  { intros i j Li Lj. unfold view2, ef, multiply_eigenvectors. rewrite put_block_out by lia. rewrite put_block_in by lia.
    apply rsum_ext. intros l Ll. rewrite <- E1, <- E2 by lia. f_equal; f_equal; lia. }
  { intros i j Li Lj. unfold view2, ef, multiply_eigenvectors. rewrite put_block_in by lia. rewrite <- E1 by lia. f_equal; lia. }
  split; [|split; [|split; [|split; [|split; [|split]]]]].
  - intros i j Lij. unfold ef, multiply_eigenvectors. rewrite !put_block_out by lia. unfold e0r. apply put_block_out. lia.
  - intros i Li. split; [|split].
    + rewrite EVO by lia. rewrite HEV. replace (Z.leb 0 (i - o) && Z.ltb (i - o) m)%bool with false by lia. rewrite DO by lia. unfold d, view. f_equal. lia.
    + rewrite HI1, II. replace (Z.leb 0 (i - o) && Z.ltb (i - o) m)%bool with false by lia. unfold view. rewrite I1o by lia. f_equal. lia.
    + rewrite Ro, INVo, I2o by lia. unfold view. f_equal. lia.
  - apply (is_perm_ext m r); [intros i Li; symmetry; apply VI1; exact Li|exact PR].
  - eapply ascending_ext; [|exact AR]. intros p Lp. cbv beta. rewrite VI1 by lia. rewrite VD. reflexivity.
  - intros i Li. rewrite HI1. replace (Z.leb 0 (i - o) && Z.ltb (i - o) m)%bool with true by lia. reflexivity.
  - exact OE.
  - intros x. specialize (FE x). rewrite (dform_ext m _ (coord m (view2 o ef) x) ev (coord m (view2 o ef) x)) by (intros; apply VD || reflexivity).
    assert (DS : dform m d (coord m Q x) = dform n1 d (coord n1 Q x) + dform n2 (view o2 (s_d0 s)) (coord n2 (view2 o2 (s_e0 s)) (view n1 x))).
    { rewrite MM in *. rewrite blockdiag_dform; [|lia|lia|exact QU|exact QL]. f_equal. apply dform_ext.
      - intros j Lj. unfold d, view. f_equal. lia.
      - intros j Lj. apply coord_ext; [intros; apply V2|reflexivity]. }
    rewrite <- DS. assert (ZR : scale_rho rho * (dot m z (coord m Q x) * dot m z (coord m Q x)) = Rabs rho * ((zsign rho * x (n1 - 1)%Z + x n1) * (zsign rho * x (n1 - 1)%Z + x n1))).
    { unfold scale_rho. rewrite (dot_ext m z (coord m Q x) (zvec n1 rho Q) (coord m Q x)) by (exact HZ || reflexivity). clearbody z tol. clear - MM LM1 LM2 QU QL OQ. rewrite MM in *. apply zvec_rank1; assumption || lia. }
    rewrite <- ZR. eapply Rle_trans; [exact FE|]. assert (IM : 0 <= IZR m) by (apply IZR_le; lia). assert (XX := dot_pos m x).
    apply Rmult_le_compat_r; [exact XX|]. apply Rmult_le_compat_l; [lra|]. exact TB.
Qed.
End merge.
