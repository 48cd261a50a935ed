(** * A step on a ring buffer does what the step on the unrolled band does *)
From Coq Require Import ZArith Lia List Bool Ring.
From Verif Require Import Loop StarField DenseSpec HouseSpec HouseModel B2TMsgModel B2TMsgSpec B2TMsgProofs SemModel B2TModel B2TFrame B2TDistModel B2TDistStruct B2TDistVal B2TDistSplit B2TDistRing.
Import ListNotations.
Local Open Scope Z_scope.

Section step.
Context {K : starfield} (lf : larfg_fn K) (g : msg_cfg).
Hypothesis G : cfg_ok g.
Hypothesis LF : larfg_local lf.
Notation size := (m_size g).
Notation nb := (m_nb g).
Notation b := (m_b g).
Notation nbb := (nb_band g).
Implicit Types B BL : Z -> F K.
(** the place of an element of the band in the ring buffer of block k; the elements of the columns [lo, hi); their places *)
Definition rf (k z : Z) : Z := ring g k (z / (2 * b)) * (2 * b) + z mod (2 * b).
Definition Ww (lo hi z : Z) : bool := (lo <=? z / (2 * b)) && (z / (2 * b) <? hi).
Definition Sw (k lo hi z : Z) : bool := existsb (fun c => ring g k c =? z / (2 * b)) (zrange lo hi).
Lemma ncols_lo : forall k, 2 + nbb <= ncols g k.
Proof using G. intros k. unfold ncols. pose proof (nbb2 g G). destruct (k =? 0); lia. Qed.
Lemma ring_range : forall k c, 0 <= ring g k c < ncols g k.
Proof using G. intros k c. apply Z.mod_pos_bound. pose proof (ncols_lo k). pose proof (nbb2 g G). lia. Qed.
Lemma co : forall c o, 0 <= o < 2 * b -> (c * (2 * b) + o) / (2 * b) = c /\ (c * (2 * b) + o) mod (2 * b) = o.
Proof using G. intros c o Lo. pose proof (g_b g G). rewrite Z.add_comm, Z.div_add, Z.mod_add, Z.div_small, Z.mod_small by lia. lia. Qed.
Lemma oc : forall z, exists c o, 0 <= o < 2 * b /\ z = c * (2 * b) + o.
Proof using G. intros z. pose proof (g_b g G). exists (z / (2 * b)), (z mod (2 * b)). split; [apply Z.mod_pos_bound; lia|]. pose proof (Z.div_mod z (2 * b)). lia. Qed.
Lemma rf_at : forall k c o, 0 <= o < 2 * b -> rf k (c * (2 * b) + o) = rptr g k o c.
Proof using G. intros k c o Lo. unfold rf, rptr, b_ld. destruct (co c o Lo) as [-> ->]. lia. Qed.
Lemma Ww_at : forall lo hi c o, 0 <= o < 2 * b -> (Ww lo hi (c * (2 * b) + o) = true <-> lo <= c < hi).
Proof using G. intros lo hi c o Lo. unfold Ww. destruct (co c o Lo) as [-> _]. lia. Qed.
Lemma ring_inj : forall k c c', Z.abs (c - c') < ncols g k -> ring g k c = ring g k c' -> c = c'.
Proof using G.
  intros k c c' L E. unfold ring in E. pose proof (ncols_lo k). pose proof (nbb2 g G). pose proof (Z.div_mod (c - nbb * k) (ncols g k) ltac:(lia)). pose proof (Z.div_mod (c' - nbb * k) (ncols g k) ltac:(lia)).
  set (q := (c - nbb * k) / ncols g k) in *. set (q' := (c' - nbb * k) / ncols g k) in *. assert (E2 : c - c' = (q - q') * ncols g k) by lia.
  assert (Q : q - q' = 0 \/ 1 <= q - q' \/ q - q' <= -1) by lia. destruct Q as [Q|[Q|Q]]; [rewrite Q in E2; lia|nia|nia].
Qed.
Lemma rf_inj : forall k lo hi, hi - lo <= ncols g k -> forall z z', Ww lo hi z = true -> Ww lo hi z' = true -> rf k z = rf k z' -> z = z'.
Proof using G.
  intros k lo hi L z z' W W' E. destruct (oc z) as (c & o & Lo & ->), (oc z') as (c' & o' & Lo' & ->). rewrite Ww_at in W, W' by assumption. rewrite !rf_at in E by assumption. unfold rptr, b_ld in E.
  replace (2 * b - 1 + 1) with (2 * b) in E by lia. pose proof (g_b g G). assert (ring g k c = ring g k c' /\ o = o') as [E1 ->] by (destruct (co (ring g k c) o Lo) as [X1 X2]; destruct (co (ring g k c') o' Lo') as [X3 X4]; rewrite E in X1, X2; split; congruence). apply ring_inj in E1; [|lia]. subst. reflexivity.
Qed.
Lemma Sw_at : forall k lo hi i o, 0 <= o < 2 * b -> (Sw k lo hi (i * (2 * b) + o) = true <-> exists c, lo <= c < hi /\ ring g k c = i).
Proof using G.
  intros k lo hi i o Lo. unfold Sw. destruct (co i o Lo) as [-> _]. rewrite existsb_exists. split; intros (c & H1 & H2); exists c; rewrite in_zrange in *; split; try assumption; lia.
Qed.
Lemma rptr_co : forall k o c, rptr g k o c = ring g k c * (2 * b) + o.
Proof using. intros. unfold rptr, b_ld. lia. Qed.
Lemma rf_S : forall k lo hi z, Ww lo hi z = true -> Sw k lo hi (rf k z) = true.
Proof using G.
  intros k lo hi z W. destruct (oc z) as (c & o & Lo & ->). rewrite Ww_at in W by exact Lo. rewrite rf_at, rptr_co by exact Lo. apply Sw_at; [exact Lo|]. exists c. auto.
Qed.
Lemma ring_next : forall k j y, 0 <= y < next_split g k j -> ring g k (j + y) = ring g k j + y.
Proof using G.
  intros k j y L. unfold next_split in L. pose proof (ring_range k j) as R. unfold ring in *. pose proof (ncols_lo k). pose proof (nbb2 g G). replace (j + y - nbb * k) with (j - nbb * k + y) by lia.
  rewrite <- (Z.mod_small ((j - nbb * k) mod ncols g k + y) (ncols g k)) by lia. rewrite Z.add_mod_idemp_l by lia. reflexivity.
Qed.
Lemma ring_wrap : forall k j, ring g k (j + next_split g k j) = 0.
Proof using G.
  intros k j. unfold next_split, ring. pose proof (ncols_lo k). pose proof (nbb2 g G). pose proof (Z.div_mod (j - nbb * k) (ncols g k) ltac:(lia)) as E. set (q := (j - nbb * k) / ncols g k) in *. set (r := (j - nbb * k) mod ncols g k) in *.
  replace (j + (ncols g k - r) - nbb * k) with (0 + (q + 1) * ncols g k) by lia. rewrite Z.mod_add by lia. apply Z.mod_0_l. lia.
Qed.
Notation At k lo hi := (at_ (rf k) (Ww lo hi)).
Lemma at_piece : forall k lo hi c0 off m n c, lo <= c0 -> c0 + n <= hi -> (forall y, 0 <= y < n -> ring g k (c0 + y) = ring g k c0 + y) ->
  (forall x y, 0 <= x < m -> 0 <= y < n -> c x y = true -> 0 <= off + x - y < 2 * b) -> At k lo hi (ptr b off c0) (rptr g k off c0) (b_ld b) m n c.
Proof using G.
  intros k lo hi c0 off m n c L1 L2 CT RG x y Lx Ly C. specialize (RG x y Lx Ly C). replace (ptr b off c0 + x + y * b_ld b) with ((c0 + y) * (2 * b) + (off + x - y)) by (unfold ptr, b_ld; lia). split; [apply Ww_at; lia|].
  rewrite rf_at, !rptr_co, CT by lia. unfold b_ld. lia.
Qed.
Lemma at_col : forall k lo hi c0 off n, lo <= c0 < hi -> 0 <= off -> off + n <= 2 * b -> forall i, 0 <= i < n -> Ww lo hi (ptr b off c0 + i) = true /\ rf k (ptr b off c0 + i) = rptr g k off c0 + i.
Proof using G.
  intros k lo hi c0 off n L1 L2 L3 i Li. replace (ptr b off c0 + i) with (c0 * (2 * b) + (off + i)) by (unfold ptr, b_ld; lia). split; [apply Ww_at; lia|]. rewrite rf_at, !rptr_co by lia. lia.
Qed.

(** ** do_step *)
Notation low := (fun i j : Z => j <=? i).
Theorem step_ring : forall k w tau v v' B0 B BL, let j := first_row b w in let n := size_hhr size b w in let m := Z.min b (size - b - j) in
  0 < n <= b -> (0 < m -> n = b) ->
  wrel (rf k) (Ww j (j + n)) (Sw k j (j + n)) B0 B BL -> (forall i, 0 <= i < n -> v i = v' i) ->
  rrel (rf k) (Ww j (j + n)) (Sw k j (j + n)) (if 1 <? m then m else n) B0 (do_step_d lf g k w tau v B) (do_step lf size b w tau v' BL).
Proof using G LF.
  intros k w tau v v' B0 B BL j n m Ln Mn R EV. pose proof (g_b g G) as Hb. pose proof (ncols_lo k) as NC. destruct (g_spb g G) as [BS SP].
  assert (HN : j + n - j <= ncols g k) by nia. pose proof (rf_inj k j (j + n) HN) as IJ. pose proof (rf_S k j (j + n)) as RS. assert (LD : b_ld b = 2 * b - 1) by reflexivity.
  assert (Lm : m <= b) by (unfold m; lia). unfold do_step_d. fold j n. pose proof (ring_range k j) as RR. assert (N1 : 1 <= next_split g k j) by (unfold next_split; lia).
  destruct (Z.ltb_spec (next_split g k j) n) as [SP1|SP1].
  - unfold do_step_split_d, do_step. fold j n m. cbv zeta. set (n1 := next_split g k j) in *. set (n2 := n - n1). assert (En : n = n1 + n2) by (unfold n2; lia). assert (L2 : 0 < n2) by (unfold n2; lia).
    assert (CT1 : forall y, 0 <= y < n1 -> ring g k (j + y) = ring g k j + y) by (intros y Ly; apply ring_next; exact Ly).
    assert (RW : ring g k (j + n1) = 0) by apply ring_wrap.
    assert (CT2 : forall y, 0 <= y < n2 -> ring g k (j + n1 + y) = ring g k (j + n1) + y) by (intros y Ly; apply ring_next; unfold next_split; rewrite RW; nia).
    assert (R1 : wrel (rf k) (Ww j (j + n)) (Sw k j (j + n)) B0 (hh_herm2 n1 n2 tau v B (rptr g k 0 j) (rptr g k 0 (j + n1)) (b_ld b)) (hh_herm n tau v' BL (ptr b 0 j) (b_ld b))).
    { assert (X : wrel (rf k) (Ww j (j + n)) (Sw k j (j + n)) B0 (hh_herm2 n1 n2 tau v B (rptr g k 0 j) (rptr g k 0 (j + n1)) (b_ld b)) (hh_herm2 n1 n2 tau v' BL (ptr b 0 j) (ptr b 0 (j + n1)) (b_ld b))).
      { apply herm2_win; try assumption; try lia.
        - apply at_piece; [lia|lia|exact CT1|intros x y Lx Ly C; lia].
        - replace (ptr b 0 j + n1) with (ptr b n1 j) by (unfold ptr; lia). replace (rptr g k 0 j + n1) with (rptr g k n1 j) by (unfold rptr; lia). apply at_piece; [lia|lia|exact CT1|intros x y Lx Ly C; lia].
        - apply at_piece; [lia|lia|exact CT2|intros x y Lx Ly C; lia].
        - intros i Li. apply EV. lia. }
      destruct X as [X1 X2]. split; [|exact X2]. intros z Wz. rewrite <- X1 by exact Wz. rewrite En. rewrite herm_split by lia. f_equal. unfold ptr. lia. }
    revert R1. set (B1 := hh_herm2 _ _ _ _ _ _ _ _). set (BL1 := hh_herm _ _ _ _ _ _). intros R1.
    assert (R2 : wrel (rf k) (Ww j (j + n)) (Sw k j (j + n)) B0 (if 0 <? m then hh_right2 m n1 n2 tau v B1 (rptr g k n j) (rptr g k n2 (j + n1)) (b_ld b) else B1) (if 0 <? m then hh_right m n tau v' BL1 (ptr b n j) (b_ld b) else BL1)).
    { destruct (Z.ltb_spec 0 m) as [M0|M0]; [|exact R1]. specialize (Mn M0).
      assert (X : wrel (rf k) (Ww j (j + n)) (Sw k j (j + n)) B0 (hh_right2 m n1 n2 tau v B1 (rptr g k n j) (rptr g k n2 (j + n1)) (b_ld b)) (hh_right2 m n1 n2 tau v' BL1 (ptr b n j) (ptr b n2 (j + n1)) (b_ld b))).
      { apply right2_win; try assumption; try lia.
        - apply at_piece; [lia|lia|exact CT1|intros x y Lx Ly C; lia].
        - apply at_piece; [lia|lia|exact CT2|intros x y Lx Ly C; lia].
        - intros i Li. apply EV. lia. }
      destruct X as [X1 X2]. split; [|exact X2]. intros z Wz. rewrite <- X1 by exact Wz. transitivity (hh_right m (n1 + n2) tau v' BL1 (ptr b n j) (b_ld b) z); [rewrite <- En; reflexivity|]. rewrite right_split by lia. f_equal. unfold ptr. lia. }
    revert R2. set (B2 := if 0 <? m then hh_right2 _ _ _ _ _ _ _ _ _ else B1). set (BL2 := if 0 <? m then hh_right _ _ _ _ _ _ _ else BL1). intros R2.
    destruct (Z.ltb_spec 1 m) as [M1|M1]; [|split; [reflexivity|split; [exact EV|exact R2]]]. specialize (Mn ltac:(lia)).
    pose proof (refl_win (rf k) (Ww j (j + n)) (Sw k j (j + n)) IJ RS lf LF B0 B2 BL2 (ptr b n j) (rptr g k n j) m v v' ltac:(lia) (at_col k j (j + n) j n m ltac:(lia) ltac:(lia) ltac:(lia)) R2) as (E1 & E2 & R3).
    destruct (hh_reflector lf m v B2 (rptr g k n j)) as [[ta1 v1] B3], (hh_reflector lf m v' BL2 (ptr b n j)) as [[ta2 v2] BL3]. cbn [fst snd] in *. subst ta2. split; [reflexivity|]. split; [exact E2|]. cbn [snd].
    assert (X : wrel (rf k) (Ww j (j + n)) (Sw k j (j + n)) B0 (hh_left2 m (n1 - 1) n2 ta1 v1 B3 (rptr g k (n - 1) (j + 1)) (rptr g k n2 (j + n1)) (b_ld b)) (hh_left2 m (n1 - 1) n2 ta1 v2 BL3 (ptr b (n - 1) (j + 1)) (ptr b n2 (j + n1)) (b_ld b))).
    { apply left2_win; try assumption; try lia.
      - apply at_piece; [lia|lia| |intros x y Lx Ly C; lia]. intros y Ly. rewrite <- Z.add_assoc, !CT1 by lia. lia.
      - apply at_piece; [lia|lia|exact CT2|intros x y Lx Ly C; lia]. }
    destruct X as [X1 X2]. split; [|exact X2]. intros z Wz. rewrite <- X1 by exact Wz. replace (n - 1) with (n1 - 1 + n2) at 1 by lia. rewrite left_split by lia. f_equal. unfold ptr, b_ld. lia.
  - unfold do_step_full_d, do_step. fold j n m. cbv zeta.
    assert (CT : forall y, 0 <= y < n -> ring g k (j + y) = ring g k j + y) by (intros y Ly; apply ring_next; lia).
    assert (R1 : wrel (rf k) (Ww j (j + n)) (Sw k j (j + n)) B0 (hh_herm n tau v B (rptr g k 0 j) (b_ld b)) (hh_herm n tau v' BL (ptr b 0 j) (b_ld b))).
    { apply herm_win; try assumption; try lia. apply at_piece; [lia|lia|exact CT|intros x y Lx Ly C; lia]. }
    revert R1. set (B1 := hh_herm _ _ _ B _ _). set (BL1 := hh_herm _ _ _ BL _ _). intros R1.
    assert (R2 : wrel (rf k) (Ww j (j + n)) (Sw k j (j + n)) B0 (if 0 <? m then hh_right m n tau v B1 (rptr g k n j) (b_ld b) else B1) (if 0 <? m then hh_right m n tau v' BL1 (ptr b n j) (b_ld b) else BL1)).
    { destruct (Z.ltb_spec 0 m) as [M0|M0]; [|exact R1]. specialize (Mn M0). apply right_win; try assumption; try lia. apply at_piece; [lia|lia|exact CT|intros x y Lx Ly C; lia]. }
    revert R2. set (B2 := if 0 <? m then hh_right _ _ _ v _ _ _ else B1). set (BL2 := if 0 <? m then hh_right _ _ _ v' _ _ _ else BL1). intros R2.
    destruct (Z.ltb_spec 1 m) as [M1|M1]; [|split; [reflexivity|split; [exact EV|exact R2]]]. specialize (Mn ltac:(lia)).
    pose proof (refl_win (rf k) (Ww j (j + n)) (Sw k j (j + n)) IJ RS lf LF B0 B2 BL2 (ptr b n j) (rptr g k n j) m v v' ltac:(lia) (at_col k j (j + n) j n m ltac:(lia) ltac:(lia) ltac:(lia)) R2) as (E1 & E2 & R3).
    destruct (hh_reflector lf m v B2 (rptr g k n j)) as [[ta1 v1] B3], (hh_reflector lf m v' BL2 (ptr b n j)) as [[ta2 v2] BL3]. cbn [fst snd] in *. subst ta2. split; [reflexivity|]. split; [exact E2|]. cbn [snd].
    apply left_win; try assumption; try lia. apply at_piece; [lia|lia| |intros x y Lx Ly C; lia]. intros y Ly. rewrite <- Z.add_assoc, !CT by lia. lia.
Qed.
End step.
