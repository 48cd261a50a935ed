(** * bt_reduction_to_band, local: proofs *)
From Coq Require Import ZArith Lia List Bool Permutation Ring.
From Verif Require Import Loop StarField DenseSpec Tiling DenseJobs TileJobs RefKernels BlockJobs HouseSpec HouseModel HouseProofs HouseQR TFactorProofs MultiJobs Red2BandModel Red2BandSpec Red2BandProofs Red2BandTheory BtRed2BandModel.
Import ListNotations.
Local Open Scope Z_scope.

Section idx.
Variables n mb b : Z.
Hypothesis (Hb : 0 <= b) (Hmb : 0 < mb).
Variable k : Z.
Hypothesis (K0 : 0 <= k) (K1 : k * mb < bt_nrefls n b).
Notation i0 := (bi0 mb b k). Notation ri := (bri mb b k). Notation e := (b_row mb b k). Notation rows := (brows n mb b k). Notation ptl := (btl n mb b k).
Notation nrt := (r2b_nrt n mb). Notation nr := (bt_refl n mb b k).
Lemma b_nr_pos : 0 < nr <= mb.
Proof using Hb Hmb K0 K1. unfold bt_refl. lia. Qed.
Lemma b_nr_n : e + nr < n.
Proof using Hb Hmb K0 K1. unfold bt_refl, bt_nrefls, b_row in *. lia. Qed.
Lemma b_row_pos : 0 <= e.
Proof using Hb Hmb K0 K1. unfold b_row. nia. Qed.
Lemma b_row_split : e = i0 * mb + e mod mb.
Proof using Hb Hmb K0 K1. unfold bi0. pose proof (Z.div_mod e mb). lia. Qed.
Lemma b_mod : 0 <= e mod mb < mb.
Proof using Hb Hmb K0 K1. apply Z.mod_pos_bound. exact Hmb. Qed.
Lemma b_i0_bound : 0 <= i0 < nrt.
Proof using Hb Hmb K0 K1. pose proof b_nr_pos. pose proof b_nr_n. pose proof (nrt_spec n mb Hmb). pose proof b_row_split. pose proof b_mod. pose proof b_row_pos. nia. Qed.
Lemma b_ri_bound : forall i, 0 <= ri i < mb.
Proof using Hb Hmb K0 K1. intros i. unfold bri. pose proof b_mod. destruct (i =? i0); lia. Qed.
Lemma b_rows_pos : forall i, i0 <= i < nrt -> 0 < rows i /\ ri i + rows i <= mb /\ i * mb + ri i + rows i <= n.
Proof using Hb Hmb K0 K1.
  intros i L. unfold brows, r2b_sz. pose proof (nrt_spec n mb Hmb). pose proof (b_ri_bound i). assert (i * mb + ri i < n).
  { unfold bri. destruct (Z.eqb_spec i i0) as [->|N]; [pose proof b_nr_n; pose proof b_nr_pos; pose proof b_row_split; lia|nia]. }
  lia.
Qed.
Lemma btl_ok : tiling_ok ptl.
Proof using Hb Hmb K0 K1. split; cbn [tl_n tl_sz btl]; [pose proof b_i0_bound; lia|]. intros x L. apply b_rows_pos. lia. Qed.
Lemma btl_n : tl_n ptl = nrt - i0.
Proof using. reflexivity. Qed.
Lemma btl_n_pos : 0 < tl_n ptl.
Proof using Hb Hmb K0 K1. rewrite btl_n. pose proof b_i0_bound. lia. Qed.
Lemma b_rows_last : forall i, i0 <= i -> i + 1 < nrt -> ri i + rows i = mb.
Proof using Hb Hmb K0 K1. intros i L1 L2. unfold brows, r2b_sz. pose proof (nrt_spec n mb Hmb). nia. Qed.
Lemma btl_off : forall x, 0 <= x < nrt - i0 -> e + tl_off ptl x = (i0 + x) * mb + ri (i0 + x).
Proof using Hb Hmb K0 K1.
  intros x [L0 L1]. revert L1. pattern x. apply natlike_ind; [| |exact L0].
  - intros _. rewrite off_0. unfold bri. replace (i0 + 0) with i0 by lia. rewrite Z.eqb_refl. pose proof b_row_split. lia.
  - intros y Y IH L. rewrite <- Z.add_1_r in *. rewrite off_succ by lia. rewrite Z.add_assoc, IH by lia. cbn [tl_sz btl].
    pose proof (b_rows_last (i0 + y)). unfold bri at 2. destruct (Z.eqb_spec (i0 + (y + 1)) i0); [lia|]. lia.
Qed.
Lemma btl_size : tl_size ptl = n - e.
Proof using Hb Hmb K0 K1.
  unfold tl_size. rewrite btl_n. pose proof b_i0_bound. replace (nrt - i0) with (nrt - i0 - 1 + 1) by lia. rewrite off_succ by lia.
  pose proof (btl_off (nrt - i0 - 1) ltac:(lia)). cbn [tl_sz btl]. unfold brows, r2b_sz. pose proof (nrt_spec n mb Hmb).
  replace (i0 + (nrt - i0 - 1)) with (nrt - 1) in * by lia. lia.
Qed.
Lemma b_loc_row : forall x p, 0 <= x < tl_n ptl -> 0 <= p < tl_sz ptl x ->
  (e + (tl_off ptl x + p)) / mb = i0 + x /\ (e + (tl_off ptl x + p)) mod mb = ri (i0 + x) + p.
Proof using Hb Hmb K0 K1.
  intros x p Lk Lp. rewrite btl_n in Lk. pose proof (btl_off x Lk). cbn [tl_sz btl] in Lp. pose proof (b_rows_pos (i0 + x) ltac:(lia)). pose proof (b_ri_bound (i0 + x)).
  replace (e + (tl_off ptl x + p)) with (mb * (i0 + x) + (ri (i0 + x) + p)) by lia. split.
  - symmetry. apply (Z.div_unique_pos _ mb _ (ri (i0 + x) + p)); lia.
  - symmetry. apply (Z.mod_unique_pos _ mb (i0 + x)); lia.
Qed.
Lemma b_loc_col : forall q, 0 <= q < nr -> (k * mb + q) / mb = k /\ (k * mb + q) mod mb = q.
Proof using Hb Hmb K0 K1.
  intros q Lq. pose proof b_nr_pos. split.
  - symmetry. apply (Z.div_unique_pos _ mb _ q); lia.
  - symmetry. apply (Z.mod_unique_pos _ mb k); lia.
Qed.
(** the column of the reflector that starts in the first row of a tile *)
Lemma j_diag_off : forall x, 0 <= x < tl_n ptl -> j_diag mb b k (i0 + x) = tl_off ptl x.
Proof using Hb Hmb K0 K1.
  intros x L. rewrite btl_n in L. pose proof (btl_off x L). pose proof (off_nonneg ptl btl_ok x). rewrite btl_n in *. unfold j_diag, bri in *.
  pose proof b_mod. destruct (Z.eqb_spec (i0 + x) i0); [|lia]. assert (x = 0) as -> by lia. rewrite off_0 in *. pose proof b_row_split. lia.
Qed.
End idx.

Section step.
Context {K : starfield} (kn : kernels K) (KO : kernels_ok kn).
Local Open Scope sf_scope.
Add Ring KringBT : (fring K).
Variables n mb b : Z.
Variable tc : tiling.
Variable avail_t : Z.
Hypothesis (Hb : (0 <= b)%Z) (Hmb : (0 < mb)%Z) (TC : tiling_ok tc) (AT : (0 < avail_t)%Z).
Variable k : Z.
Hypothesis (K0 : (0 <= k)%Z) (K1 : (k * mb < bt_nrefls n b)%Z).
Notation i0 := (bi0 mb b k). Notation ri := (bri mb b k). Notation e := (b_row mb b k). Notation rows := (brows n mb b k). Notation t := (btl n mb b k).
Notation nrt := (r2b_nrt n mb). Notation nr := (bt_refl n mb b k). Notation vid := (bvid n mb b k). Notation jd := (j_diag mb b k).
Notation m := (n - e)%Z.
Notation G := (@r2b_mat K mb).
(** mat_c in a state *)
Definition bt_c (mb : Z) (tc : tiling) (st : tstore (mat K)) : mat K := fun a c =>
  st (bC (a / mb) (tl_tile tc c)) (a mod mb)%Z (c - tl_off tc (tl_tile tc c))%Z.
Notation C := (bt_c mb tc).
Lemma BOK : tiling_ok t.
Proof using Hb Hmb K0 K1. apply btl_ok; assumption. Qed.
Lemma BNT : (0 < tl_n t)%Z.
Proof using Hb Hmb K0 K1. apply btl_n_pos; assumption. Qed.
Lemma SZ : tl_size t = m.
Proof using Hb Hmb K0 K1. apply btl_size; assumption. Qed.
Definition bhas (id : Z -> tid) (c : Z) (M : mat K) (s : tstore (mat K)) : Prop :=
  forall x p q, (0 <= x < tl_n t)%Z -> (0 <= p < tl_sz t x)%Z -> (0 <= q < c)%Z -> s (id (i0 + x)%Z) p q = M (tl_off t x + p)%Z q.
Ltac bneq := let E := fresh in intros E; apply (f_equal t_mat) in E; cbv [bV bTau bC bT bPV bPW bW2 bWs par] in E; cbn [t_mat] in E;
  pose proof (Z.mod_pos_bound (bt_nblocks n mb b - 1 - k) 2 eq_refl); lia.
Lemma bvid_not : forall i x, x <> bV i k -> x <> bPV n mb b k i -> x <> vid i.
Proof using. intros i x N1 N2. unfold bvid. destruct (_ <? _)%Z; assumption. Qed.

(** *** V *)
Lemma bt_V_phase : forall s, let s' := trun (bt_setup_V n mb b k) s in
  bhas vid nr (unit_lower (fun a q => G s (e + a)%Z (k * mb + q)%Z)) s' /\ forall x, (forall i, x <> bPV n mb b k i) -> s' x = s x.
Proof using Hb Hmb K0 K1.
  intros s s'. pose proof (b_nr_pos n mb b Hb Hmb k K0 K1) as NP.
  set (body := fun i => if (jd i <? nr)%Z then [TJob [bV i k] (bPV n mb b k i) (in1 (fun (a v : mat K) => hh_upper (jd i) (rows i) nr (sub (ri i) 0 a) v))] else []).
  destruct (run_blocks body (bPV n mb b k) (zrange i0 nrt) s) as [R1 R2].
  { apply zrange_NoDup. }
  { intros x y _ _ E. injection E. auto. }
  { intros x y _ I0. unfold body in I0. destruct (jd x <? nr)%Z; [|destruct I0]. destruct I0 as [<-|[]]. cbn [tj_out tj_in]. split; [reflexivity|]. intros z [<-|[]] k' _. bneq. }
  fold (for_up i0 nrt body) in R1, R2. change (for_up i0 nrt body) with (bt_setup_V (K := K) n mb b k) in R1, R2. fold s' in R1, R2. split.
  2:{ intros x N. apply R2. intros i _. apply N. }
  intros x p q Lx Lp Lq. pose proof (j_diag_off n mb b Hb Hmb k K0 K1 x Lx) as JD. pose proof (off_nonneg t BOK x ltac:(lia)) as OF.
  assert (GV : G s (e + (tl_off t x + p))%Z (k * mb + q)%Z = sub (ri (i0 + x)) 0 (s (bV (i0 + x) k)) p q).
  { unfold r2b_mat, sub. destruct (b_loc_row n mb b Hb Hmb k K0 K1 x p Lx Lp) as [-> ->], (b_loc_col n mb b Hb Hmb k K0 K1 q Lq) as [-> ->]. rewrite Z.add_0_l. reflexivity. }
  unfold bvid, unit_lower. rewrite GV. assert (Lp' := Lp). cbn [tl_sz btl] in Lp'. destruct (Z.ltb_spec (jd (i0 + x)) nr) as [J|J].
  - rewrite btl_n in Lx. rewrite R1 by (apply in_zrange; lia). unfold body. destruct (Z.ltb_spec (jd (i0 + x)) nr) as [_|]; [|lia].
    rewrite trun_cons. cbn [trun fold_left]. unfold texec. cbn [tj_out]. rewrite tset_eq. unfold tval. cbn [tj_fun tj_in tj_out map in1]. unfold hh_upper. rewrite JD.
    assert (PS : paste 0 0 (rows (i0 + x)) nr (s (bPV n mb b k (i0 + x))) (sub (ri (i0 + x)) 0 (s (bV (i0 + x) k))) p q = sub (ri (i0 + x)) 0 (s (bV (i0 + x) k)) p q).
    { unfold paste. destruct (Z.leb_spec 0 p), (Z.ltb_spec p (0 + rows (i0 + x))), (Z.leb_spec 0 q), (Z.ltb_spec q (0 + nr)); try lia. cbn [andb]. rewrite !Z.sub_0_r. reflexivity. }
    rewrite PS. destruct (Z.leb_spec 0 p), (Z.ltb_spec p (rows (i0 + x))), (Z.ltb_spec q nr); try lia. cbn [andb]. rewrite andb_true_r.
    destruct (Z.leb_spec (tl_off t x) q), (Z.eqb_spec p (q - tl_off t x)), (Z.ltb_spec p (q - tl_off t x)), (Z.eqb_spec (tl_off t x + p) q), (Z.ltb_spec q (tl_off t x + p)); try lia; reflexivity.
  - rewrite R2 by (intros i _; bneq). destruct (Z.eqb_spec (tl_off t x + p) q), (Z.ltb_spec q (tl_off t x + p)); try lia.
    unfold sub, bri. destruct (Z.eqb_spec (i0 + x) i0) as [E0|E0]; [|rewrite !Z.add_0_l; reflexivity].
    assert (x = 0)%Z as -> by lia. rewrite off_0 in JD. lia.
Qed.

(** *** T *)
Lemma bt_gemv_nodup : NoDup (mj_out (bt_gemv n mb b avail_t k : mjob (mat K))).
Proof using.
  cbn [bt_gemv mj_out]. constructor.
  - intros I0. apply in_map_iff in I0 as (i & E & _). revert E. bneq.
  - apply FinFun.Injective_map_NoDup; [|apply zrange_NoDup]. intros x y E. injection E. auto.
Qed.
Lemma bt_T_phase : forall s V, bhas vid nr V s ->
  let s' := trun [bt_trmv n mb b k] (mexec s (bt_gemv n mb b avail_t k)) in
  t_rec m nr V (s' (bT k)) (col_vec (s (bTau k))) /\ forall x, x <> bT k -> (forall w, x <> bWs n mb b k w) -> s' x = s x.
Proof using Hb Hmb K0 K1 AT.
  intros s V HV s'. split.
  - set (vs := map s (map vid (zrange i0 nrt) ++ [bTau k])).
    pose proof (b_i0_bound n mb b Hb Hmb k K0 K1) as IB. pose proof (b_nr_pos n mb b Hb Hmb k K0 K1) as NP.
    assert (NTH : nth_tile vs (nrt - i0)%Z = s (bTau k)).
    { unfold nth_tile, vs. rewrite map_app, app_nth2 by (rewrite !map_length; pose proof (zrange_length i0 nrt); lia).
      rewrite !map_length. replace (Z.to_nat (nrt - i0) - length (zrange i0 nrt))%nat with 0%nat by (pose proof (zrange_length i0 nrt); lia). reflexivity. }
    assert (NTV : forall x, (0 <= x < tl_n t)%Z -> nth_tile vs x = s (vid (i0 + x))).
    { intros x Lx. rewrite btl_n in Lx. unfold nth_tile, vs. rewrite map_app, app_nth1 by (rewrite !map_length; pose proof (zrange_length i0 nrt); lia).
      rewrite map_map. apply (nth_tile_map (fun x => s (vid x)) i0 nrt x). lia. }
    assert (E : s' (bT k) = tfactor t avail_t nr (nth_tile vs) (col_vec (s (bTau k))) (s (bT k))).
    { unfold s'. rewrite trun_cons. cbn [trun fold_left]. unfold texec. cbn [tj_out bt_trmv]. rewrite tset_eq. unfold tval. cbn [tj_fun tj_in tj_out map in1 bt_trmv].
      unfold tfactor. destruct (Z.eqb_spec nr 0); [lia|].
      rewrite (mexec_frame s (bt_gemv n mb b avail_t k) (bTau k)).
      - f_equal. rewrite (mexec_at s _ 0%nat (bT k) (step_gemv t avail_t nr (nth_tile vs) (col_vec (nth_tile vs (nrt - i0)%Z)) (s (bT k)))); [rewrite NTH; reflexivity|apply bt_gemv_nodup|reflexivity|reflexivity].
      - cbn [bt_gemv mj_out]. intros [E|I0]; [revert E; bneq|]. apply in_map_iff in I0 as (w & E & _). revert E. bneq. }
    rewrite E. assert (TF := tfactor_rec t BOK BNT avail_t nr (nth_tile vs) (col_vec (s (bTau k))) (s (bT k)) AT ltac:(lia)).
    rewrite SZ in TF. destruct TF as (T1 & T2 & T3). split; [exact T1|]. split; [exact T2|]. intros p q Lp Lq. rewrite T3 by assumption. apply fsum_ext. intros r Lr. f_equal. f_equal.
    apply fsum_ext. intros a La. destruct (elem_split t BOK a) as (x & y & Lx & Ly & ->); [rewrite SZ; lia|].
    rewrite !stack_at by first [exact BOK | assumption]. rewrite NTV by assumption. rewrite !HV by (try assumption; lia). reflexivity.
  - intros x N1 N2. unfold s'. rewrite trun_frame by (intros y [<-|[]]; cbn; congruence). apply mexec_frame. cbn [bt_gemv mj_out]. intros [E|I0]; [congruence|].
    apply in_map_iff in I0 as (w & E & _). apply (N2 w). congruence.
Qed.

(** *** W = V T^H *)
Lemma bt_W_phase : forall s (V T : mat K) tau, bhas vid nr V s -> s (bT k) = T -> t_rec m nr V T tau ->
  let s' := trun (bt_W kn n mb b k) s in
  bhas (bPW n mb b k) nr (mmul nr V (adj T)) s' /\ forall x, (forall i, x <> bPW n mb b k i) -> s' x = s x.
Proof using KO Hb Hmb K0 K1.
  intros s V T tau HV HT (TL & _ & _) s'. unfold s', bt_W.
  set (job := fun i => TJob [bT k; vid i] (bPW n mb b k i) (in2 (fun T v _ => trmm kn Right Upper ConjTrans NonUnit (rows i) nr f1 T v))).
  destruct (run_each i0 nrt job s) as [R1 R2].
  { intros x y _ _ E. injection E. auto. }
  { intros x y _ _ I0. cbn in I0. destruct I0 as [E|[E|[]]]; revert E; [bneq|]. intros E. symmetry in E. revert E. apply bvid_not; bneq. }
  split.
  - intros x p q Lk Lp Lq. assert (Lk' := Lk). rewrite btl_n in Lk'. specialize (R1 (i0 + x)%Z ltac:(lia)). change (tj_out (job (i0 + x)%Z)) with (bPW n mb b k (i0 + x)) in R1. unfold job in R1. rewrite R1.
    unfold tval. cbn [tj_fun tj_in tj_out map in2]. rewrite (trmm_ok kn KO Right Upper ConjTrans NonUnit (rows (i0 + x)) nr f1 (s (bT k)) (s (vid (i0 + x))) p q) by (cbn [tl_sz btl] in Lp; lia).
    rewrite HT. unfold mmul. transitivity (fsum 0 nr (fun r => s (vid (i0 + x)%Z) p r * opm ConjTrans (trim Upper NonUnit T) r q)); [ring|].
    apply fsum_ext. intros r Lr. rewrite HV by assumption. f_equal. unfold adj, opm, trim, in_tri.
    destruct (Z.eqb_spec q r); [reflexivity|]. destruct (Z.leb_spec q r); [reflexivity|]. f_equal. symmetry. apply TL; lia.
  - intros x N. apply R2. intros i _ E. apply (N i). cbn in E. congruence.
Qed.

(** *** C *)
Definition chas (A : mat K) (s : tstore (mat K)) : Prop :=
  forall x j p q, (0 <= x < tl_n t)%Z -> (0 <= j < tl_n tc)%Z -> (0 <= p < tl_sz t x)%Z -> (0 <= q < tl_sz tc j)%Z ->
  sub (ri (i0 + x)) 0 (s (bC (i0 + x) j)) p q = A (tl_off t x + p)%Z (tl_off tc j + q)%Z.
Lemma C_at : forall s x j p q, (0 <= x < tl_n t)%Z -> (0 <= j < tl_n tc)%Z -> (0 <= p < tl_sz t x)%Z -> (0 <= q < tl_sz tc j)%Z ->
  C s (e + (tl_off t x + p))%Z (tl_off tc j + q)%Z = sub (ri (i0 + x)) 0 (s (bC (i0 + x) j)) p q.
Proof using Hb Hmb TC K0 K1.
  intros s x j p q Lx Lj Lp Lq. unfold bt_c, sub. rewrite tile_of_elem by assumption. destruct (b_loc_row n mb b Hb Hmb k K0 K1 x p Lx Lp) as [-> ->]. f_equal. lia.
Qed.
Lemma bt_W2_phase : forall s (W A : mat K), bhas (bPW n mb b k) nr W s -> chas A s ->
  let s' := trun (bt_W2 kn n mb b tc k) s in
  (forall j p q, (0 <= j < tl_n tc)%Z -> (0 <= p < nr)%Z -> (0 <= q < tl_sz tc j)%Z -> s' (bW2 n mb b k j) p q = mmul m (adj W) A p (tl_off tc j + q)%Z) /\
  forall x, (forall j, x <> bW2 n mb b k j) -> s' x = s x.
Proof using KO Hb Hmb TC K0 K1.
  intros s W A HW HA s'. pose proof BOK as BOK'. unfold s', bt_W2. rewrite trun_app. set (z := trun (for_up 0 (tl_n tc) (fun j => [jset0 (bW2 n mb b k j)])) s).
  destruct (run_each 0 (tl_n tc) (fun j => jset0 (K := K) (bW2 n mb b k j)) s) as [Z1 Z2].
  { intros x y _ _ E. injection E. auto. }
  { intros x y _ _ []. }
  fold z in Z1, Z2. cbn [tj_out jset0] in Z1, Z2.
  set (S := fun x => forall j, x <> bW2 n mb b k j).
  assert (ZS : forall x, S x -> z x = s x) by (intros x Sx; apply Z2; intros i _ E; apply (Sx i); congruence).
  set (body := fun j => for_up i0 nrt (fun i => [TJob [bPW n mb b k i; bC i j] (bW2 n mb b k j) (in2 (fun w c w2 => gemm kn ConjTrans NoTrans nr (tl_sz tc j) (rows i) f1 w (sub (ri i) 0 c) f1 w2))])).
  destruct (run_blocks body (bW2 n mb b k) (zrange 0 (tl_n tc)) z) as [R1 R2].
  { apply zrange_NoDup. }
  { intros x y _ _ E. injection E. auto. }
  { intros x y _ I0. unfold body in I0. apply in_for_up in I0 as (i & _ & [<-|[]]). cbn [tj_out tj_in]. split; [reflexivity|]. intros w [<-|[<-|[]]] k' _; bneq. }
  fold (for_up 0 (tl_n tc) body) in R1, R2. split.
  - intros j p q Lj Lp Lq. rewrite R1 by (apply in_zrange; lia). unfold body.
    rewrite (acc_up i0 nrt _ S (bW2 n mb b k j) (fun X => X p q) (fun i => fsum 0 (rows i) (fun u => fconj (W (tl_off t (i - i0) + u)%Z p) * A (tl_off t (i - i0) + u)%Z (tl_off tc j + q)%Z))).
    + rewrite Z1 by exact Lj. unfold tval. cbn [tj_fun jset0]. unfold mmul. rewrite <- SZ. rewrite fsum_tiles by exact BOK'.
      match goal with |- _ + fsum i0 nrt ?f = _ => replace (fsum i0 nrt f) with (fsum (0 + i0) (nrt - i0 + i0) f) by (f_equal; lia) end. rewrite fsum_shift. rewrite btl_n.
      match goal with |- _ + ?x = _ => transitivity x; [ring|] end.
      apply fsum_ext. intros x Lx. replace (x + i0 - i0)%Z with x by lia. cbn [tl_sz btl]. replace (x + i0)%Z with (i0 + x)%Z by lia. reflexivity.
    + intros i st w _ N. apply trun_frame. intros y [<-|[]]. cbn. intros E. apply (N j). congruence.
    + intros i st Li AG. rewrite trun_cons. cbn [trun fold_left]. unfold texec. cbn [tj_out]. rewrite tset_eq. unfold tval. cbn [tj_fun tj_in tj_out map in2].
      rewrite (gemm_ok kn KO ConjTrans NoTrans nr (tl_sz tc j) (rows i) f1 (st (bPW n mb b k i)) (sub (ri i) 0 (st (bC i j))) f1 (st (bW2 n mb b k j))) by assumption.
      unfold mmul. transitivity (st (bW2 n mb b k j) p q + fsum 0 (rows i) (fun r => opm ConjTrans (st (bPW n mb b k i)) p r * opm NoTrans (sub (ri i) 0 (st (bC i j))) r q)); [ring|]. f_equal.
      apply fsum_ext. intros u Lu. unfold opm. rewrite !AG, !ZS by (intros j'; bneq).
      assert (Lu' : (0 <= u < tl_sz t (i - i0))%Z) by (cbn [tl_sz btl]; replace (i0 + (i - i0))%Z with i by lia; exact Lu).
      assert (Li2 : (0 <= i - i0 < tl_n t)%Z) by (rewrite btl_n; lia). pose proof (HW _ _ p Li2 Lu' Lp) as H1. pose proof (HA _ _ _ q Li2 Lj Lu' Lq) as H2. replace (i0 + (i - i0))%Z with i in H1, H2 by lia. rewrite H1, H2. reflexivity.
  - intros x N. rewrite R2 by (intros j _; apply N). apply ZS. exact N.
Qed.
Lemma bt_update_phase : forall s (V W2 A : mat K), bhas vid nr V s -> chas A s ->
  (forall j p q, (0 <= j < tl_n tc)%Z -> (0 <= p < nr)%Z -> (0 <= q < tl_sz tc j)%Z -> s (bW2 n mb b k j) p q = W2 p (tl_off tc j + q)%Z) ->
  let s' := trun (bt_update kn n mb b tc k) s in
  (forall i j, (i0 <= i < nrt)%Z -> (0 <= j < tl_n tc)%Z -> exists S, s' (bC i j) = paste (ri i) 0 (rows i) (tl_sz tc j) (s (bC i j)) S /\
    forall p q, (0 <= p < rows i)%Z -> (0 <= q < tl_sz tc j)%Z -> S p q = A (tl_off t (i - i0) + p)%Z (tl_off tc j + q)%Z - mmul nr V W2 (tl_off t (i - i0) + p)%Z (tl_off tc j + q)%Z) /\
  forall x, (forall i j, (i0 <= i < nrt)%Z -> (0 <= j < tl_n tc)%Z -> x <> bC i j) -> s' x = s x.
Proof using KO Hb Hmb K0 K1.
  intros s V W2 A HV HA HW s'. unfold s', bt_update, for_up.
  set (job := fun j i => TJob [vid i; bW2 n mb b k j] (bC i j) (in2 (fun v w2 c =>
       paste (ri i) 0 (rows i) (tl_sz tc j) c (gemm kn NoTrans NoTrans (rows i) (tl_sz tc j) nr (fopp f1) v w2 f1 (sub (ri i) 0 c))))).
  rewrite (flat_pairs (fun j i => [job j i])).
  destruct (run_each_in (pairs (zrange 0 (tl_n tc)) (zrange i0 nrt)) (fun ji => job (fst ji) (snd ji)) s) as [R1 R2].
  { apply nodup_pairs; apply zrange_NoDup. }
  { intros [x1 x2] [y1 y2] _ _ E. cbn in E. injection E as -> ->. reflexivity. }
  { intros [x1 x2] [y1 y2] _ _ I0. cbn in I0. destruct I0 as [E|[E|[]]]; revert E; [|bneq]. intros E. symmetry in E. revert E. apply bvid_not; bneq. }
  split.
  - intros i j Li Lj. specialize (R1 (j, i)). cbn [fst snd] in R1. change (tj_out (job j i)) with (bC i j) in R1.
    rewrite R1 by (apply in_pairs; split; apply in_zrange; lia). unfold tval, job. cbn [tj_fun tj_in tj_out map in2]. eexists. split; [reflexivity|].
    intros p q Lp Lq. rewrite (gemm_ok kn KO NoTrans NoTrans (rows i) (tl_sz tc j) nr (fopp f1) (s (vid i)) (s (bW2 n mb b k j)) f1 (sub (ri i) 0 (s (bC i j)))) by assumption.
    assert (Lp' : (0 <= p < tl_sz t (i - i0))%Z) by (cbn [tl_sz btl]; replace (i0 + (i - i0))%Z with i by lia; exact Lp).
    assert (Li2 : (0 <= i - i0 < tl_n t)%Z) by (rewrite btl_n; lia). pose proof (HA _ _ _ q Li2 Lj Lp' Lq) as H2. replace (i0 + (i - i0))%Z with i in H2 by lia. rewrite H2.
    unfold mmul, opm. rewrite (fsum_ext 0 nr _ (fun r => V (tl_off t (i - i0) + p)%Z r * W2 r (tl_off tc j + q)%Z)); [ring|].
    intros r Lr. pose proof (HV _ _ r Li2 Lp' Lr) as H1. replace (i0 + (i - i0))%Z with i in H1 by lia. rewrite H1, HW by assumption. reflexivity.
  - intros x N. apply R2. intros [j i] I0 E. apply in_pairs in I0 as [I1 I2]. apply in_zrange in I1, I2. apply (N i j I2 I1). cbn in E. congruence.
Qed.

(** *** one iteration *)
Theorem bt_step_ok : forall st, let s := mrun (bt_step kn n mb b tc avail_t k) st in
  let Q := refl_prod m (unit_lower (fun a q => G st (e + a)%Z (k * mb + q)%Z)) (col_vec (st (bTau k))) (Z.to_nat nr) in
  (forall a c, (0 <= a < m)%Z -> (0 <= c < tl_size tc)%Z -> C s (e + a)%Z c = mmul m Q (fun r c => C st (e + r)%Z c) a c) /\
  (forall a c, (0 <= a < e)%Z -> C s a c = C st a c) /\
  (forall x, (t_mat x = 0 \/ t_mat x = 1)%Z -> s x = st x).
Proof using KO Hb Hmb TC K0 K1 AT.
  intros st s Q. set (V := unit_lower (fun a q => G st (e + a)%Z (k * mb + q)%Z)) in *.
  unfold s, bt_step in *. clear s. rewrite !mrun_app.
  assert (MJ : forall (l : list (tjob (mat K))) u x, mrun (map mj l) u x = trun l u x) by (intros; apply mrun_mj).
  set (s1 := mrun (map mj (bt_setup_V n mb b k)) st). set (s2 := mrun [bt_gemv n mb b avail_t k] s1). set (s3 := mrun [mj (bt_trmv n mb b k)] s2).
  set (s4 := mrun (map mj (bt_W kn n mb b k)) s3). set (s5 := mrun (map mj (bt_W2 kn n mb b tc k)) s4). set (s6 := mrun (map mj (bt_update kn n mb b tc k)) s5).
  destruct (bt_V_phase st) as [V1 V2]. 
  assert (E1 : forall x, s1 x = trun (bt_setup_V n mb b k) st x) by apply MJ.
  assert (HV1 : bhas vid nr V s1) by (intros x p q Lx Lp Lq; rewrite E1; apply V1; assumption).
  assert (F1 : forall x, (forall i, x <> bPV n mb b k i) -> s1 x = st x) by (intros x N; rewrite E1; apply V2; exact N).
  destruct (bt_T_phase s1 V HV1) as [T1 T2].
  assert (E3 : forall x, s3 x = trun [bt_trmv n mb b k] (mexec s1 (bt_gemv n mb b avail_t k)) x) by (intros x; unfold s3, s2; rewrite <- (MJ [bt_trmv n mb b k]); reflexivity).
  assert (F3 : forall x, x <> bT k -> (forall w, x <> bWs n mb b k w) -> s3 x = s1 x) by (intros x N1 N2; rewrite E3; apply T2; assumption).
  rewrite <- E3 in T1.
  assert (VT : forall i, vid i <> bT k) by (intros i E; symmetry in E; revert E; apply bvid_not; bneq).
  assert (VWs : forall i w, vid i <> bWs n mb b k w) by (intros i w E; symmetry in E; revert E; apply bvid_not; bneq).
  assert (HV3 : bhas vid nr V s3) by (intros x p q Lx Lp Lq; rewrite F3 by first [apply VT | intros; apply VWs]; apply HV1; assumption).
  destruct (bt_W_phase s3 V (s3 (bT k)) _ HV3 eq_refl T1) as [W1 W2].
  set (W := mmul nr V (adj (s3 (bT k)))) in *.
  assert (HW4 : bhas (bPW n mb b k) nr W s4) by (intros x p q Lx Lp Lq; unfold s4; rewrite MJ; apply W1; assumption).
  assert (F4 : forall x, (forall i, x <> bPW n mb b k i) -> s4 x = s3 x) by (intros x N; unfold s4; rewrite MJ; apply W2; exact N).
  set (A := fun r c => C st (e + r)%Z c).
  assert (CF : forall i j, s4 (bC i j) = st (bC i j)) by (intros i j; rewrite F4, F3, F1 by (intros; bneq); reflexivity).
  assert (HA4 : chas A s4).
  { intros x j p q Lx Lj Lp Lq. rewrite CF. unfold A. symmetry. apply C_at; assumption. }
  destruct (bt_W2_phase s4 W A HW4 HA4) as [X1 X2].
  assert (HX5 : forall j p q, (0 <= j < tl_n tc)%Z -> (0 <= p < nr)%Z -> (0 <= q < tl_sz tc j)%Z -> s5 (bW2 n mb b k j) p q = mmul m (adj W) A p (tl_off tc j + q)%Z).
  { intros j p q Lj Lp Lq. unfold s5. rewrite MJ. apply X1; assumption. }
  assert (F5 : forall x, (forall j, x <> bW2 n mb b k j) -> s5 x = s4 x) by (intros x N; unfold s5; rewrite MJ; apply X2; exact N).
  assert (HV5 : bhas vid nr V s5).
  { intros x p q Lx Lp Lq. rewrite F5 by (intros j E; symmetry in E; revert E; apply bvid_not; bneq). rewrite F4 by (intros j E; symmetry in E; revert E; apply bvid_not; bneq). apply HV3; assumption. }
  assert (CF5 : forall i j, s5 (bC i j) = st (bC i j)) by (intros i j; rewrite F5 by (intros; bneq); apply CF).
  assert (HA5 : chas A s5) by (intros x j p q Lx Lj Lp Lq; rewrite CF5; rewrite <- (CF (i0 + x)%Z j); apply HA4; assumption).
  destruct (bt_update_phase s5 V (mmul m (adj W) A) A HV5 HA5 HX5) as [U1 U2].
  assert (E6 : forall x, s6 x = trun (bt_update kn n mb b tc k) s5 x) by apply MJ.
  split; [|split].
  - intros a c La Lc. destruct (elem_split t BOK a) as (x & p & Lx & Lp & ->); [rewrite SZ; lia|]. destruct (elem_split tc TC c Lc) as (j & q & Lj & Lq & ->).
    rewrite C_at by assumption. rewrite E6. assert (Lx' := Lx). rewrite btl_n in Lx'. destruct (U1 (i0 + x)%Z j ltac:(lia) Lj) as (S & -> & ES).
    unfold sub, paste. assert (Lp' := Lp). cbn [tl_sz btl] in Lp'.
    destruct (Z.leb_spec (ri (i0 + x)) (ri (i0 + x) + p)), (Z.ltb_spec (ri (i0 + x) + p) (ri (i0 + x) + rows (i0 + x))), (Z.leb_spec 0 (0 + q)), (Z.ltb_spec (0 + q) (0 + tl_sz tc j)); try lia. cbn [andb].
    replace (ri (i0 + x) + p - ri (i0 + x))%Z with p by lia. replace (0 + q - 0)%Z with q by lia. rewrite ES by assumption. replace (i0 + x - i0)%Z with x by lia.
    set (a := (tl_off t x + p)%Z). set (c := (tl_off tc j + q)%Z).
    pose proof (b_nr_pos n mb b Hb Hmb k K0 K1) as NP.
    transitivity (mmul m (fun i j => ident i j - block nr V (s3 (bT k)) i j) A a c).
    + rewrite mmul_sub_l. rewrite mmul_ident_l by exact La. f_equal. unfold block. rewrite !mmul_assoc.
      apply mmul_ext; [reflexivity|]. intros r Lr. transitivity (mmul nr (s3 (bT k)) (mmul m (adj V) A) r c); [|reflexivity].
      rewrite <- mmul_assoc. apply mmul_ext; [|reflexivity]. intros u Lu. unfold W. rewrite adj_mmul. apply mmul_ext; [|reflexivity]. intros v Lv. apply adj_adj.
    + apply mmul_ext; [|reflexivity]. intros r Lr. symmetry. unfold Q.
      assert (TR : t_rec m nr V (s3 (bT k)) (col_vec (st (bTau k)))).
      { replace (col_vec (st (bTau k))) with (col_vec (s1 (bTau k))); [exact T1|]. rewrite F1 by (intros; bneq). reflexivity. }
      pose proof (t_rec_prod m (Z.to_nat nr) V (s3 (bT k)) (col_vec (st (bTau k)))) as TP. rewrite Z2Nat.id in TP by lia. apply TP; assumption.
  - intros a c La. unfold bt_c. rewrite E6. pose proof (b_row_split n mb b Hb Hmb k K0 K1) as ES. pose proof (Z.div_mod a mb) as DA. pose proof (Z.mod_pos_bound a mb Hmb).
    destruct (Z.lt_ge_cases (a / mb) i0) as [L|L].
    + rewrite U2; [rewrite CF5; reflexivity|]. intros i j Li Lj E. injection E. lia.
    + assert (EI : (a / mb = i0)%Z) by (pose proof (b_mod n mb b Hb Hmb k K0 K1); nia).
      destruct (Z.lt_ge_cases (tl_tile tc c) 0) as [T0|T0]; [rewrite U2; [rewrite CF5; reflexivity|intros i j Li Lj E; injection E; lia]|].
      destruct (Z.lt_ge_cases (tl_tile tc c) (tl_n tc)) as [TN|TN]; [|rewrite U2; [rewrite CF5; reflexivity|intros i j Li Lj E; injection E; lia]].
      pose proof (b_i0_bound n mb b Hb Hmb k K0 K1). destruct (U1 (a / mb)%Z (tl_tile tc c) ltac:(lia) ltac:(lia)) as (S & -> & _). rewrite CF5.
      unfold paste. rewrite EI. unfold bri. rewrite Z.eqb_refl. destruct (Z.leb_spec (e mod mb) (a mod mb)); [nia|]. reflexivity.
  - intros x Lx. rewrite E6. rewrite U2 by (intros i j _ _ E; subst x; cbn in Lx; lia).
    assert (PB := Z.mod_pos_bound (bt_nblocks n mb b - 1 - k) 2 eq_refl).
    rewrite F5, F4, F3, F1; try reflexivity; intros; intros E; subst x; cbv [bPV bPW bW2 bWs bT par] in Lx; cbn [t_mat] in Lx; lia.
Qed.
End step.

Section run.
Context {K : starfield} (kn : kernels K) (KO : kernels_ok kn).
Local Open Scope sf_scope.
Add Ring KringBR : (fring K).
Variables n mb b : Z.
Variable tc : tiling.
Variable avail_t : Z.
Hypothesis (Hb : (0 <= b)%Z) (Hmb : (0 < mb)%Z) (TC : tiling_ok tc) (AT : (0 < avail_t)%Z).
Notation G := (@r2b_mat K mb). Notation C := (@bt_c K mb tc).
Notation nb := (bt_nblocks n mb b). Notation total := (bt_nrefls n b).
(** the taus in a state: tiles of mb elements *)
Definition bt_taus (mb : Z) (st : tstore (mat K)) : Z -> F K := fun r => st (bTau (r / mb)) (r mod mb)%Z 0%Z.
Lemma nb_spec : (0 < total)%Z -> ((nb - 1) * mb < total <= nb * mb)%Z.
Proof using Hmb. intros L. unfold bt_nblocks, ceil_div. pose proof (Z.div_mod (total + mb - 1) mb). pose proof (Z.mod_pos_bound (total + mb - 1) mb Hmb). lia. Qed.
Definition q_from (st : tstore (mat K)) (k : Z) : mat K :=
  refl_prod n (fun a c => band_vectors b (G st) a (k * mb + c)%Z) (fun c => bt_taus mb st (k * mb + c)%Z) (Z.to_nat (total - k * mb)).
Lemma q_block : forall st k, (0 <= k)%Z -> (k * mb < total)%Z ->
  meq n n (q_from st k) (mmul n (emb (b_row mb b k) (refl_prod (n - b_row mb b k) (unit_lower (fun a q => G st (b_row mb b k + a)%Z (k * mb + q)%Z)) (col_vec (st (bTau k))) (Z.to_nat (bt_refl n mb b k)))) (q_from st (k + 1))).
Proof using Hb Hmb.
  intros st k K0 K1 a c La Lc. pose proof (b_nr_pos n mb b Hb Hmb k K0 K1) as NP. pose proof (b_nr_n n mb b Hb Hmb k K0 K1) as NN. pose proof (b_row_pos n mb b Hb Hmb k K0 K1) as BP.
  unfold q_from. assert (EN : Z.to_nat (total - k * mb) = (Z.to_nat (bt_refl n mb b k) + Z.to_nat (total - (k + 1) * mb))%nat) by (unfold bt_refl in *; lia).
  rewrite EN, refl_prod_add by assumption. apply mmul_ext; intros r Lr.
  - rewrite (emb_refl_prod n (b_row mb b k) _ (unit_lower (fun a q => G st (b_row mb b k + a)%Z (k * mb + q)%Z))); try assumption; try lia.
    + apply (emb_ext n); try assumption. apply refl_prod_ext; [reflexivity|]. intros i Li. unfold bt_taus, col_vec. rewrite Z2Nat.id in Li by lia.
      destruct (b_loc_col n mb b Hb Hmb k K0 K1 i Li) as [-> ->]. reflexivity.
    + intros x y Lx Ly. rewrite Z2Nat.id in Ly by lia. unfold band_vectors, unit_lower. unfold b_row in *.
      destruct (Z.ltb_spec x (k * mb + y + b)), (Z.eqb_spec x (k * mb + y + b)), (Z.ltb_spec x (k * mb + b)), (Z.eqb_spec (x - (k * mb + b)) y), (Z.ltb_spec y (x - (k * mb + b))); try lia; try reflexivity.
      f_equal. lia.
  - rewrite Z2Nat.id by lia. destruct (Z.eq_dec (bt_refl n mb b k) mb) as [E|E].
    + rewrite E. apply (refl_prod_ext n); try assumption.
      * intros i x _ _. f_equal. lia.
      * intros i _. f_equal. lia.
    + assert (E0 : Z.to_nat (total - (k + 1) * mb) = 0%nat) by (unfold bt_refl in *; lia). rewrite E0. reflexivity.
Qed.
Lemma bt_blocks_run : forall d k st, (0 < total)%Z -> (k = nb - Z.of_nat d)%Z -> (0 <= k)%Z ->
  let s := mrun (flat_map (bt_step kn n mb b tc avail_t) (rev (zrange k nb))) st in
  (forall a c, (0 <= a < n)%Z -> (0 <= c < tl_size tc)%Z -> C s a c = mmul n (q_from st k) (C st) a c) /\
  (forall x, (t_mat x = 0 \/ t_mat x = 1)%Z -> s x = st x).
Proof using KO Hb Hmb TC AT.
  induction d as [|d IH]; intros k st TP Ek Lk s; pose proof (nb_spec TP) as NS.
  - unfold s. rewrite zrange_nil by lia. cbn [rev flat_map mrun fold_left]. split; [|reflexivity]. intros a c La Lc. unfold q_from.
    replace (Z.to_nat (total - k * mb)) with 0%nat by nia. cbn [refl_prod]. symmetry. apply mmul_ident_l. exact La.
  - specialize (IH (k + 1)%Z st TP ltac:(lia) ltac:(lia)). cbv zeta in IH. destruct IH as [I1 I2].
    unfold s in *. clear s. rewrite zrange_cons by lia. cbn [rev]. rewrite flat_map_app, mrun_app. cbn [flat_map]. rewrite app_nil_r.
    set (s1 := mrun (flat_map (bt_step kn n mb b tc avail_t) (rev (zrange (k + 1) nb))) st) in *.
    assert (K1 : (k * mb < total)%Z) by nia.
    destruct (bt_step_ok kn KO n mb b tc avail_t Hb Hmb TC AT k Lk K1 s1) as (S1 & S2 & S3). set (s := mrun _ s1) in *.
    set (e := b_row mb b k) in *. pose proof (b_nr_n n mb b Hb Hmb k Lk K1) as NN. pose proof (b_row_pos n mb b Hb Hmb k Lk K1) as BP. pose proof (b_nr_pos n mb b Hb Hmb k Lk K1) as NP. fold e in NN, BP.
    assert (GE : forall a q, G s1 a q = G st a q) by (intros a q; unfold r2b_mat; rewrite I2 by (left; reflexivity); reflexivity).
    split; [|intros x Lx; rewrite S3, I2 by exact Lx; reflexivity].
    intros a c La Lc. rewrite (mmul_ext n _ _ (C st) (C st) a c (fun r Lr => q_block st k Lk K1 a r La Lr) (fun _ _ => eq_refl)). rewrite mmul_assoc. fold e.
    rewrite emb_l by (try assumption; lia). destruct (Z.ltb_spec a e) as [A|A].
    + rewrite S2 by lia. apply I1; assumption.
    + replace a with (e + (a - e))%Z at 1 by lia. rewrite S1 by lia. apply mmul_ext; intros r Lr.
      * apply (refl_prod_ext (n - e)); try lia; [intros i x _ _; unfold unit_lower; rewrite GE; reflexivity|]. intros i _. unfold col_vec. rewrite I2 by (right; reflexivity). reflexivity.
      * apply I1; lia.
Qed.
Theorem bt_run : forall st, let s := mrun (bt_reduction_to_band kn n mb b tc avail_t) st in
  (forall a c, (0 <= a < n)%Z -> (0 <= c < tl_size tc)%Z -> C s a c = mmul n (q_of n b (G st) (bt_taus mb st)) (C st) a c) /\
  (forall x, (t_mat x = 0 \/ t_mat x = 1)%Z -> s x = st x).
Proof using KO Hb Hmb TC AT.
  intros st s. unfold s, bt_reduction_to_band. clear s.
  destruct ((r2b_nrt n mb =? 0) || (tl_n tc =? 0))%Z eqn:E.
  - split; [|reflexivity]. intros a c La Lc. exfalso. apply orb_true_iff in E as [E|E]; apply Z.eqb_eq in E.
    + pose proof (nrt_spec n mb Hmb). lia.
    + unfold tl_size in Lc. rewrite E, off_0 in Lc. lia.
  - destruct (Z.leb_spec total 0) as [L|L].
    + split; [|reflexivity]. intros a c La Lc. unfold q_of. unfold bt_nrefls in L. replace (Z.to_nat (n - b - 1)) with 0%nat by lia. cbn [refl_prod]. symmetry. apply mmul_ident_l. exact La.
    + pose proof (nb_spec L) as NS. destruct (bt_blocks_run (Z.to_nat nb) 0 st L ltac:(nia) ltac:(lia)) as [B1 B2]. split; [|exact B2].
      intros a c La Lc. rewrite B1 by assumption. apply mmul_ext; [|reflexivity]. intros r Lr. unfold q_from, q_of. rewrite Z.mul_0_l, Z.sub_0_r. unfold bt_nrefls. apply (refl_prod_ext n); try assumption; reflexivity.
Qed.

(** Every task reads and updates distinct tiles *)
Ltac bn E := cbn [tj_in tj_out bt_trmv] in E; apply (f_equal t_mat) in E; cbv [bV bTau bC bT bPV bPW bW2 bWs par] in E; cbn [t_mat] in E; lia.
Lemma bt_step_jobs_ok : forall k, Forall mjob_ok (bt_step kn n mb b tc avail_t k).
Proof using.
  intros k. assert (PB := Z.mod_pos_bound (bt_nblocks n mb b - 1 - k) 2 eq_refl).
  assert (MJ : forall l : list (tjob (mat K)), Forall tjob_ok l -> Forall mjob_ok (map mj l)).
  { intros l F0. rewrite Forall_forall in *. intros x I0. apply in_map_iff in I0 as (y & <- & I0). apply mj_ok. apply F0. exact I0. }
  assert (VN : forall i x, (t_mat x <> 0)%Z -> (t_mat x <> 4 + par n mb b k)%Z -> bvid n mb b k i <> x).
  { intros i x N1 N2 E. subst x. unfold bvid in N1, N2. destruct (_ <? _)%Z; cbv [bV bPV] in N1, N2; cbn [t_mat] in N1, N2; congruence. }
  unfold bt_step. repeat (apply Forall_app; split).
  - apply MJ. apply Forall_forall. intros x I0. apply in_for_up in I0 as (i & _ & I0). destruct (_ <? _)%Z; [|destruct I0]. destruct I0 as [<-|[]]. intros [E|[]]. bn E.
  - constructor; [|constructor]. split; [apply bt_gemv_nodup|]. intros x I0 I1. cbn [bt_gemv mj_in mj_out] in I0, I1.
    assert (TM : (t_mat x = 3 \/ t_mat x = 10 + par n mb b k)%Z) by (destruct I0 as [<-|I0]; [left; reflexivity|]; apply in_map_iff in I0 as (w & <- & _); right; reflexivity).
    unfold par in *. apply in_app_or in I1 as [I1|[<-|[]]]; [|cbv [bTau] in TM; cbn [t_mat] in TM; lia]. apply in_map_iff in I1 as (i & E & _). revert E. apply VN; unfold par; lia.
  - constructor; [|constructor]. apply mj_ok. intros [E|[]]. bn E.
  - apply MJ. apply Forall_forall. intros x I0. apply in_for_up in I0 as (i & _ & [<-|[]]). cbn [tjob_ok tj_in tj_out]. intros [E|[E|[]]]; [bn E|]. cbn [tj_out] in E. revert E. apply VN; cbv [bPW bC t_mat par]; lia.
  - apply MJ. apply Forall_forall. intros x I0. unfold bt_W2 in I0. apply in_app_or in I0 as [I0|I0].
    + apply in_for_up in I0 as (i & _ & [<-|[]]). intros [].
    + apply in_for_up in I0 as (i & _ & I0). apply in_for_up in I0 as (i' & _ & [<-|[]]). intros [E|[E|[]]]; bn E.
  - apply MJ. apply Forall_forall. intros x I0. apply in_for_up in I0 as (i & _ & I0). apply in_for_up in I0 as (i' & _ & [<-|[]]). intros [E|[E|[]]]; [|bn E].
    cbn [tj_out] in E. revert E. apply VN; cbv [bPW bC t_mat par]; lia.
Qed.
Lemma bt_jobs_ok : Forall mjob_ok (bt_reduction_to_band kn n mb b tc avail_t).
Proof using.
  unfold bt_reduction_to_band. destruct (_ || _)%bool; [constructor|]. destruct (_ <=? _)%Z; [constructor|].
  apply Forall_forall. intros x I0. apply in_flat_map in I0 as (k & _ & I0). revert x I0. apply Forall_forall. apply bt_step_jobs_ok.
Qed.
End run.
