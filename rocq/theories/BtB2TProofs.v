(** * Back transformation band to tridiagonal: every block of reflectors, and all of them *)
From Coq Require Import ZArith Lia List Bool Ring Permutation Sorting.Sorted.
From Verif Require Import Loop StarField DenseSpec Tiling RefKernels DenseJobs Reorder HouseSpec HouseModel HouseQR MultiJobs Red2BandModel Red2BandSpec B2TModel B2TSched B2TResult B2TAlg BtB2TModel BtB2TTile BtB2TApply.
Import ListNotations.
Local Open Scope Z_scope.

Section dims.
Variable cplx : bool.
Variables m b : Z.
Hypothesis Hb : 2 <= b.
Hypothesis Hm : (if cplx then 1 else 2) < m.
Notation jl := (j_last cplx m b).
Variables j step : Z.
Hypothesis Hj : 0 <= j <= jl.
Hypothesis Hst : 0 <= step < t_steps m b (j * b).
Notation i := (t_i j step).
Notation k := (t_nrefls cplx m b j step).
Notation rows := (t_rows_v m b j step).
Lemma jl_spec : jl * b <= t_sweeps cplx m - 1 < (jl + 1) * b.
Proof using Hb Hm. unfold j_last. assert (D := Z.div_mod (t_sweeps cplx m - 1) b ltac:(lia)). assert (M := Z.mod_pos_bound (t_sweeps cplx m - 1) b ltac:(lia)). nia. Qed.
Lemma j_bound : j * b <= t_sweeps cplx m - 1.
Proof using Hb Hm Hj. assert (J := jl_spec). nia. Qed.
Lemma step_bound : i * b < m - 2 \/ (cplx = true /\ j = jl /\ step = 0 /\ i * b = m - 2).
Proof using Hb Hm Hj Hst.
  assert (J := jl_spec). assert (JB := j_bound). unfold t_i. revert Hst. unfold t_steps. destruct (Z.eqb_spec (j * b) (m - 2)) as [E|E]; intros Hs.
  - right. unfold t_sweeps in *. destruct cplx; [|lia]. split; [reflexivity|]. assert (step = 0) by lia. subst step. replace (j + 0) with j by lia. repeat split; nia.
  - left. destruct Hs as [S0 S1]. apply ceil_div_lt in S1; [|lia]. lia.
Qed.
Lemma size1_iff : t_size1 cplx m b j step = true <-> cplx = true /\ j = jl.
Proof using Hb Hm Hj Hst.
  split; [intros C; unfold t_size1 in C; destruct cplx; [|discriminate]; apply andb_prop in C as [C _]; cbn in C; apply Z.eqb_eq in C; auto|].
  intros [C1 C2]. assert (J := jl_spec). assert (TS : t_sweeps cplx m = m - 1) by (unfold t_sweeps; rewrite C1; reflexivity). rewrite TS in J. rewrite <- C2 in J.
  assert (S1 : t_steps m b (j * b) = 1).
  { unfold t_steps. destruct (Z.eqb_spec (j * b) (m - 2)); [reflexivity|]. apply Z.le_antisymm.
    - apply Z.lt_succ_r. apply Z.nle_gt. intros G. assert (L : 1 < ceil_div (m - j * b - 2) b) by lia. apply ceil_div_lt in L; [|lia]. nia.
    - assert (0 < ceil_div (m - j * b - 2) b); [|lia]. apply ceil_div_lt; nia. }
  unfold t_size1. rewrite <- C2, Z.eqb_refl. rewrite C1. cbn [andb]. apply Z.eqb_eq. lia.
Qed.
Lemma i_nonneg : 0 <= i.
Proof using Hj Hst. unfold t_i. lia. Qed.
Lemma k_val : k = Z.min b (m - i * b - 1 - (if t_size1 cplx m b j step then 0 else 1)).
Proof using Hb Hm Hj Hst. unfold t_nrefls. assert (j * b <= i * b) by (unfold t_i; nia). destruct (t_size1 cplx m b j step); lia. Qed.
Lemma k_pos : 0 < k <= b.
Proof using Hb Hm Hj Hst.
  rewrite k_val. destruct step_bound as [B|(B1 & B2 & B3 & B4)]; [destruct (t_size1 cplx m b j step); lia|].
  rewrite (proj2 size1_iff) by auto. lia.
Qed.
Lemma k_rows : k <= rows.
Proof using Hb Hm Hj Hst. assert (KV := k_val). unfold t_rows_v. destruct (t_size1 cplx m b j step); lia. Qed.
Lemma rows_k : rows <= k - 1 + b.
Proof using Hb Hm Hj Hst. assert (KV := k_val). unfold t_rows_v. destruct (t_size1 cplx m b j step); lia. Qed.
Lemma rows_end : i * b + 1 + rows <= m.
Proof using. unfold t_rows_v. lia. Qed.
Lemma hh_rows_cases : t_hh_rows m b j step = b \/ rows < t_hh_rows m b j step <= b.
Proof using Hb. unfold t_hh_rows, t_rows_v. lia. Qed.
Lemma across_iff : t_across m b j step = true <-> (i + 1) * b < m.
Proof using Hb Hm Hj Hst.
  assert (P := k_pos). assert (R := k_rows). assert (B := rows_end). unfold t_across, e_rows. assert (A := ceil_div_lt m b i ltac:(lia)). assert (C := ceil_div_lt m b (i + 1) ltac:(lia)).
  split; intros Q.
  - apply C. assert (i < ceil_div m b) by (apply A; lia). destruct (Z.eqb_spec i (ceil_div m b - 1)); [discriminate|lia].
  - apply C in Q. destruct (Z.eqb_spec i (ceil_div m b - 1)); [lia|reflexivity].
Qed.
End dims.

Section block.
Context {K : starfield} (kn : kernels K) (KO : kernels_ok kn).
Local Open Scope sf_scope.
Add Ring KringBB : (fring K).
Variable larft : @larft_fn K.
Hypothesis LO : larft_ok larft.
Variable cplx : bool.
Variables m b g : Z.
Variable tc : tiling.
Hypothesis Hb : (2 <= b)%Z.
Hypothesis Hg : (0 < g)%Z.
Hypothesis TC : tiling_ok tc.
Hypothesis Hm : ((if cplx then 1 else 2) < m)%Z.
Notation jl := (j_last cplx m b).

(** the matrix of reflectors and the matrix E in a state *)
Definition bt_hh (st : tstore (mat K)) : mat K := fun a c => st (tHH (a / b) (c / b)) (a mod b)%Z (c mod b)%Z.
Definition bt_e (st : tstore (mat K)) : mat K := fun a c => st (tE (a / b) (tl_tile tc c)) (a mod b)%Z (c - tl_off tc (tl_tile tc c))%Z.

Section one.
Variables j step : Z.
Hypothesis Hj : (0 <= j <= jl)%Z.
Hypothesis Hst : (0 <= step < t_steps m b (j * b))%Z.
Notation i := (t_i j step).
Notation k := (t_nrefls cplx m b j step).
Notation rows := (t_rows_v m b j step).
Notation ng := (ceil_div k g).
(** the reflectors of the block *)
Definition blk : list (Z * Z) := map (fun r => (j * b + r, step)%Z) (zrange 0 k).

Lemma div_b : forall x y, (0 <= y < b)%Z -> ((x * b + y) / b = x)%Z.
Proof using Hb. intros x y L. rewrite Z.div_add_l by lia. rewrite Z.div_small by exact L. lia. Qed.
Lemma mod_b : forall x y, (0 <= y < b)%Z -> ((x * b + y) mod b = y)%Z.
Proof using Hb. intros x y L. rewrite Z.add_comm, Z.mod_add by lia. apply Z.mod_small. exact L. Qed.
Lemma blk_start : forall r, hht_start b (j * b + r) step = (i * b + 1 + r)%Z.
Proof using. intros r. unfold hht_start, t_i. lia. Qed.
Lemma blk_pos : forall r, (0 <= r < b)%Z -> hht_pos b (j * b + r) step = (i * b)%Z.
Proof using Hb. intros r L. unfold hht_pos. rewrite div_b by exact L. unfold t_i. lia. Qed.

Section with_v.
Variable st : tstore (mat K).
Notation HH := (bt_hh st).
Notation hh := (st (tHH i j)).
Variable V : mat K.
Hypothesis HV : forall p q, (0 <= p < rows)%Z -> (0 <= q < k)%Z -> V p q = well_formed b hh p q.
Lemma HH_at : forall p q, (0 <= p < b)%Z -> (0 <= q < b)%Z -> HH (i * b + p)%Z (j * b + q)%Z = hh p q.
Proof using Hb. intros p q Lp Lq. unfold bt_hh. rewrite !div_b, !mod_b by assumption. reflexivity. Qed.
Notation jb := (group_jb k g).
Notation ib := (group_ib b rows k g).
Notation G x := ((x * g)%Z).
Lemma vec_group : forall x c a, (0 <= x < ng)%Z -> (0 <= c < jb (G x))%Z -> (0 <= a < m)%Z ->
  hht_vec m b HH (j * b + G x + c) step a = at_rows (i * b + 1 + G x) (ib (G x)) (fun p => gv V (G x) p c) a.
Proof using Hb Hg Hm Hj Hst HV.
  intros x c a Lx Lc La. assert (KP := k_pos cplx m b Hb Hm j step Hj Hst). assert (KR := k_rows cplx m b Hb Hm j step Hj Hst). assert (RK := rows_k cplx m b Hb Hm j step Hj Hst).
  assert (B := group_bounds b rows k g ltac:(lia) ltac:(lia) Hg x Lx). set (j0 := G x) in *.
  unfold hht_vec. cbv zeta. replace (j * b + j0 + c)%Z with (j * b + (j0 + c))%Z by lia. rewrite blk_start, blk_pos by lia. unfold hht_len. rewrite blk_start.
  assert (RE := rows_end m b j step). assert (RV : rows = (Z.min (2 * b) (m - i * b) - 1)%Z) by reflexivity.
  unfold at_rows. destruct ((i * b + 1 + j0 <=? a) && (a <? i * b + 1 + j0 + ib j0))%Z eqn:C.
  - unfold gv, sub. rewrite HV by lia. unfold well_formed.
    destruct (Z.eqb_spec a (i * b + 1 + (j0 + c))) as [E|E]; [replace (j0 + (a - (i * b + 1 + j0)) =? j0 + c)%Z with true by lia; reflexivity|].
    replace (j0 + (a - (i * b + 1 + j0)) =? j0 + c)%Z with false by lia.
    destruct (Z.ltb_spec (i * b + 1 + (j0 + c)) a) as [L|L].
    + replace (j0 + (a - (i * b + 1 + j0)) <? j0 + c)%Z with false by lia.
      destruct (Z.ltb_spec a (i * b + 1 + (j0 + c) + Z.min b (m - (i * b + 1 + (j0 + c))))) as [L2|L2]; cbn [andb].
      * replace (j0 + (a - (i * b + 1 + j0)) <? j0 + c + b)%Z with true by lia. rewrite HH_at by lia. f_equal. lia.
      * replace (j0 + (a - (i * b + 1 + j0)) <? j0 + c + b)%Z with false by lia. reflexivity.
    + cbn [andb]. replace (j0 + (a - (i * b + 1 + j0)) <? j0 + c)%Z with true by lia. reflexivity.
  - assert (ID : ib j0 = Z.min (jb j0 + b - 1) (rows - j0)) by reflexivity.
    replace (a =? i * b + 1 + (j0 + c))%Z with false by lia.
    replace ((i * b + 1 + (j0 + c) <? a) && (a <? i * b + 1 + (j0 + c) + Z.min b (m - (i * b + 1 + (j0 + c)))))%Z with false by lia. reflexivity.
Qed.
Lemma group_happly : forall x (E : mat K) a q, (0 <= x < ng)%Z -> (0 <= a < m)%Z ->
  happly m b HH (map (fun r => (j * b + r, step)%Z) (zrange (G x) (G x + jb (G x)))) E a q = win (i * b + 1 + G x) (ib (G x)) (gr b rows k g hh V (G x)) E a q.
Proof using Hb Hg Hm Hj Hst HV.
  intros x E a q Lx La. assert (KP := k_pos cplx m b Hb Hm j step Hj Hst). assert (KR := k_rows cplx m b Hb Hm j step Hj Hst).
  assert (B := group_bounds b rows k g ltac:(lia) ltac:(lia) Hg x Lx). assert (IN := i_nonneg cplx m b j step Hj Hst). assert (RE := rows_end m b j step).
  replace (map (fun r => (j * b + r, step)%Z) (zrange (G x) (G x + jb (G x)))) with (map (fun c => (j * b + G x + c, step)%Z) (zrange 0 (Z.of_nat (Z.to_nat (jb (G x)))))).
  - unfold gr. apply happly_window; [nia|lia|lia| | |exact La].
    + intros c a' Lc La'. rewrite Z2Nat.id in Lc by lia. apply vec_group; assumption.
    + intros c Lc. rewrite Z2Nat.id in Lc by lia. replace (j * b + G x + c)%Z with (j * b + (G x + c))%Z by lia. rewrite blk_pos by lia.
      replace (i * b)%Z with (i * b + 0)%Z by lia. rewrite HH_at by lia. reflexivity.
  - rewrite Z2Nat.id by lia. assert (S : forall n lo, (0 <= n)%Z -> zrange lo (lo + n) = map (fun c => (lo + c)%Z) (zrange 0 n)).
    { intros n lo Ln. pattern n. apply natlike_ind; [rewrite !zrange_nil by lia; reflexivity| |exact Ln]. intros y Ly IH. unfold Z.succ.
      replace (lo + (y + 1))%Z with (lo + y + 1)%Z by lia. rewrite !zrange_snoc by lia. rewrite map_app, <- IH. reflexivity. }
    rewrite S by lia. rewrite map_map. apply map_ext. intros c. f_equal. lia.
Qed.
Lemma win_shift : forall o s n (R E : mat K) p q, win s n R (fun p q => E (o + p)%Z q) p q = win (o + s)%Z n R E (o + p)%Z q.
Proof using.
  intros o s n R E p q. unfold win. replace ((o + s <=? o + p) && (o + p <? o + s + n))%Z with ((s <=? p) && (p <? s + n))%Z by lia.
  destruct ((s <=? p) && (p <? s + n))%Z; [|reflexivity]. unfold mmul. apply fsum_ext. intros r _. f_equal; f_equal; lia.
Qed.
Lemma groups_from : forall n x (E : mat K) p q, (x = ng - Z.of_nat n)%Z -> (0 <= x)%Z -> (0 <= p < 1 + rows)%Z ->
  apply_spec b rows k g hh V (rev (map (fun x => (x * g)%Z) (zrange x ng))) (fun p q => E (i * b + p)%Z q) p q =
  happly m b HH (map (fun r => (j * b + r, step)%Z) (zrange (G x) k)) E (i * b + p)%Z q.
Proof using Hb Hg Hm Hj Hst HV.
  assert (KP := k_pos cplx m b Hb Hm j step Hj Hst). assert (KR := k_rows cplx m b Hb Hm j step Hj Hst). assert (IN := i_nonneg cplx m b j step Hj Hst). assert (RE := rows_end m b j step).
  induction n as [|n IH]; intros x E p q Ex Lx Lp.
  - replace x with ng by lia. rewrite zrange_nil by lia. cbn. rewrite zrange_nil; [reflexivity|]. assert (C := ceil_div_lt k g ng Hg). lia.
  - rewrite zrange_cons by lia. cbn [map rev]. unfold apply_spec. rewrite fold_left_app. cbn [fold_left]. fold (apply_spec b rows k g hh V (rev (map (fun x => (x * g)%Z) (zrange (x + 1) ng))) (fun p q => E (i * b + p)%Z q)).
    assert (B := group_bounds b rows k g ltac:(lia) ltac:(lia) Hg x ltac:(lia)). assert (NX := group_next b rows k g ltac:(lia) ltac:(lia) Hg x ltac:(lia)).
    assert (ZE : zrange ((x + 1) * g) k = zrange (G x + jb (G x)) k) by (rewrite NX; destruct (Z.le_gt_cases ((x + 1) * g) k); [f_equal; lia | rewrite !zrange_nil by lia; reflexivity]).
    rewrite (zrange_app (G x) (G x + jb (G x)) k) by lia. rewrite map_app, happly_app. rewrite group_happly by lia.
    replace (i * b + 1 + G x)%Z with (i * b + (G x + 1))%Z by lia. rewrite <- win_shift. apply win_ext; [lia| |].
    + intros r Lr. rewrite IH by lia. rewrite ZE. reflexivity.
    + intros N. rewrite IH by lia. rewrite ZE. reflexivity.
Qed.
Lemma block_happly : forall (E : mat K) p q, (0 <= p < 1 + rows)%Z ->
  apply_spec b rows k g hh V (rev (group_cols k g)) (fun p q => E (i * b + p)%Z q) p q = happly m b HH blk E (i * b + p)%Z q.
Proof using Hb Hg Hm Hj Hst HV.
  intros E p q Lp. assert (KP := k_pos cplx m b Hb Hm j step Hj Hst). unfold group_cols.
  assert (NG : (0 < ng)%Z) by (apply ceil_div_lt; lia). rewrite (groups_from (Z.to_nat ng) 0 E p q) by lia. reflexivity.
Qed.
Lemma block_outside : forall (E : mat K) a q, (0 <= a < m)%Z -> (a < i * b + 1 \/ i * b + 1 + rows <= a)%Z -> happly m b HH blk E a q = E a q.
Proof using Hb Hm Hj Hst.
  intros E a q La O. apply happly_outside; [exact La|]. intros p I0. unfold blk in I0. apply in_map_iff in I0 as (r & <- & I0). apply in_zrange in I0. cbn [fst snd].
  apply hht_vec_out; [lia|]. rewrite blk_start. assert (KP := k_pos cplx m b Hb Hm j step Hj Hst). assert (KV := k_val cplx m b Hb Hm j step Hj Hst).
  assert (RV : rows = (Z.min (2 * b) (m - i * b) - 1)%Z) by reflexivity. lia.
Qed.
Lemma spec_ext : forall l (e1 e2 : mat K) q, (forall j, In j l -> exists x, (0 <= x < ng)%Z /\ j = (x * g)%Z) -> (forall p, (0 <= p < 1 + rows)%Z -> e1 p q = e2 p q) -> forall p, (0 <= p < 1 + rows)%Z ->
  apply_spec b rows k g hh V l e1 p q = apply_spec b rows k g hh V l e2 p q.
Proof using Hb Hg Hm Hj Hst.
  assert (KP := k_pos cplx m b Hb Hm j step Hj Hst). assert (KR := k_rows cplx m b Hb Hm j step Hj Hst).
  unfold apply_spec. induction l as [|y l IH]; intros e1 e2 q IN E p Lp; [apply E; exact Lp|]. cbn [fold_left]. apply IH; [intros; apply IN; right; assumption| |exact Lp].
  intros p' Lp'. destruct (IN y (or_introl eq_refl)) as (x & Lx & ->). assert (B := group_bounds b rows k g ltac:(lia) ltac:(lia) Hg x Lx). apply win_ext; [lia|intros; apply E; lia|intros; apply E; lia].
Qed.
End with_v.
(** ** The jobs of a block *)
Definition colE (s : tstore (mat K)) (je : Z) : mat K := fun a q => s (tE (a / b) je) (a mod b)%Z q.
Notation tVi := (tV cplx m b j i).
Notation tWi := (tW cplx m b j i).
Lemma compute_nodup : NoDup (mj_out (t_compute kn larft cplx m b g j step)).
Proof using.
  unfold t_compute. cbn [mj_out]. unfold tV, tT, tW, t_par. set (r := ((jl - j) mod 2)%Z). assert (0 <= r < 2)%Z by (apply Z.mod_pos_bound; lia).
  repeat constructor; cbn [In]; intros I0; repeat (destruct I0 as [I0|I0]); try contradiction; assert (IM := f_equal t_mat I0); assert (IR := f_equal t_row I0); unfold tE in IM, IR; cbn [t_mat t_row] in IM, IR; lia.
Qed.
Lemma apply_nodup : forall je, NoDup (mj_out (t_apply kn cplx m b g tc j step je)).
Proof using.
  intros je. unfold t_apply, tW2, t_par. set (r := ((jl - j) mod 2)%Z). assert (0 <= r < 2)%Z by (apply Z.mod_pos_bound; lia).
  destruct (t_across m b j step); cbn [mj_out]; repeat constructor; cbn [In]; intros I0; repeat (destruct I0 as [I0|I0]); try contradiction; assert (IM := f_equal t_mat I0); assert (IR := f_equal t_row I0); unfold tE in IM, IR; cbn [t_mat t_row] in IM, IR; lia.
Qed.
Lemma apply_frame : forall s je x, x <> tW2 cplx m b j je -> (forall r, x <> tE r je) -> mexec s (t_apply kn cplx m b g tc j step je) x = s x.
Proof using.
  intros s je x N1 N2. apply mexec_frame. unfold t_apply. destruct (t_across m b j step); cbn [mj_out In]; intros I0; repeat (destruct I0 as [I0|I0]); try contradiction; first [apply N1; congruence | eapply N2; symmetry; exact I0].
Qed.
Lemma apply_rows_frame : forall s je r, r <> i -> r <> (i + 1)%Z -> mexec s (t_apply kn cplx m b g tc j step je) (tE r je) = s (tE r je).
Proof using.
  intros s je r N1 N2. apply mexec_frame. unfold t_apply, tW2, t_par. set (z := ((jl - j) mod 2)%Z). assert (0 <= z < 2)%Z by (apply Z.mod_pos_bound; lia).
  destruct (t_across m b j step); cbn [mj_out In]; intros I0; repeat (destruct I0 as [I0|I0]); try contradiction; assert (IM := f_equal t_mat I0); assert (IR := f_equal t_row I0); unfold tE in IM, IR; cbn [t_mat t_row] in IM, IR; lia.
Qed.
Lemma row_cases : forall a r, (r * b <= a < (r + 1) * b)%Z -> (a / b = r /\ a mod b = a - r * b)%Z.
Proof using Hb.
  intros a r L. replace a with (r * b + (a - r * b))%Z by lia. rewrite div_b, mod_b by lia. split; lia.
Qed.
Lemma apply_ok : forall (st s : tstore (mat K)) (V W : mat K) je,
  (forall p q, (0 <= p < rows)%Z -> (0 <= q < k)%Z -> V p q = well_formed b (st (tHH i j)) p q) ->
  (forall x, (0 <= x < ng)%Z -> meq (group_ib b rows k g (x * g)) (group_ib b rows k g (x * g)) (gr b rows k g (st (tHH i j)) V (x * g))
     (msub ident (mmul (group_jb k g (x * g)) (sub (x * g) (x * g) W) (adj (gv V (x * g)))))) ->
  s tVi = V -> s tWi = W -> (0 <= je < tl_n tc)%Z ->
  forall a q, (0 <= a < m)%Z -> (0 <= q < tl_sz tc je)%Z ->
  colE (mexec s (t_apply kn cplx m b g tc j step je)) je a q = happly m b (bt_hh st) blk (colE s je) a q.
Proof using Hb Hg Hm Hj Hst KO LO.
  intros st s V W je HV HW SV SW Lje a q La Lq. set (s' := mexec s (t_apply kn cplx m b g tc j step je)).
  assert (KP := k_pos cplx m b Hb Hm j step Hj Hst). assert (KR := k_rows cplx m b Hb Hm j step Hj Hst). assert (IN := i_nonneg cplx m b j step Hj Hst).
  assert (RV : rows = (Z.min (2 * b) (m - i * b) - 1)%Z) by reflexivity. assert (AI := across_iff cplx m b Hb Hm j step Hj Hst).
  assert (OUT : (a < i * b \/ i * b + 1 + rows <= a)%Z -> colE s' je a q = happly m b (bt_hh st) blk (colE s je) a q).
  { intros O. rewrite block_outside by (first [assumption | lia]). unfold colE. cut (s' (tE (a / b) je) = s (tE (a / b) je)); [intros EQ; rewrite EQ; reflexivity|]. unfold s'. apply apply_rows_frame.
    - assert (DA := Z.div_mod a b ltac:(lia)). assert (MA := Z.mod_pos_bound a b ltac:(lia)). intros E. rewrite E in DA. destruct O as [O|O]; [lia|]. lia.
    - assert (DA := Z.div_mod a b ltac:(lia)). assert (MA := Z.mod_pos_bound a b ltac:(lia)). intros E. rewrite E in DA. destruct O as [O|O]; [lia|]. lia. }
  destruct (Z.lt_ge_cases a (i * b)) as [O1|O1]; [apply OUT; lia|]. destruct (Z.le_gt_cases (i * b + 1 + rows) a) as [O2|O2]; [apply OUT; lia|]. clear OUT.
  set (p := (a - i * b)%Z). replace a with (i * b + p)%Z by (unfold p; lia). assert (Lp : (0 <= p < 1 + rows)%Z) by (unfold p; lia).
  cut (colE s' je (i * b + p)%Z q = apply_spec b rows k g (st (tHH i j)) V (rev (group_cols k g)) (fun p q => colE s je (i * b + p)%Z q) p q); [intros EQ; rewrite EQ; apply block_happly; assumption|].
  destruct (t_across m b j step) eqn:AC.
  - assert (L1 : ((i + 1) * b < m)%Z) by (apply AI; reflexivity). assert (E1 : e_sz m b i = b) by (unfold e_sz; lia).
    assert (E2 : rows = (b + e_sz m b (i + 1) - 1)%Z) by (unfold e_sz; lia). assert (E3 : (0 < e_sz m b (i + 1) <= b)%Z) by (unfold e_sz; lia).
    set (res := apply_double kn b (e_sz m b (i + 1)) k g (tl_sz tc je) V W (s (tW2 cplx m b j je)) (s (tE i je)) (s (tE (i + 1) je))).
    assert (VALS : mvals (t_apply kn cplx m b g tc j step je) s = [fst (fst res); snd (fst res); snd res]).
    { unfold mvals, t_apply. rewrite AC. cbn [mj_in mj_out mj_fun map]. rewrite SV, SW, E1. fold res. destruct res as [[x y] z]. reflexivity. }
    assert (S1 : s' (tE i je) = snd (fst res)) by (apply (mexec_at _ _ 1%nat); [apply apply_nodup|unfold t_apply; rewrite AC; reflexivity|rewrite VALS; reflexivity]).
    assert (S2 : s' (tE (i + 1) je) = snd res) by (apply (mexec_at _ _ 2%nat); [apply apply_nodup|unfold t_apply; rewrite AC; reflexivity|rewrite VALS; reflexivity]).
    transitivity (stack2 b (snd (fst res)) (snd res) p q).
    + unfold colE, stack2. destruct (Z.ltb_spec p b) as [PB|PB].
      * rewrite div_b, mod_b by lia. rewrite S1. reflexivity.
      * replace (i * b + p)%Z with ((i + 1) * b + (p - b))%Z by lia. rewrite div_b, mod_b by lia. rewrite S2. reflexivity.
    + unfold res. rewrite (double_spec kn KO larft LO b rows k g ltac:(lia) ltac:(lia) Hg (st (tHH i j)) V HV W HW (e_sz m b (i + 1)) (tl_sz tc je) _ _ _ E3 E2 ltac:(lia) p q ltac:(lia) Lq).
      apply spec_ext; [apply group_in| |exact Lp]. intros p' Lp'. unfold colE, stack2. destruct (Z.ltb_spec p' b) as [PB|PB].
      * rewrite div_b, mod_b by lia. reflexivity.
      * replace (i * b + p')%Z with ((i + 1) * b + (p' - b))%Z by lia. rewrite div_b, mod_b by lia. reflexivity.
  - assert (L1 : (m <= (i + 1) * b)%Z) by (destruct (Z.lt_ge_cases ((i + 1) * b) m) as [L|L]; [apply AI in L; discriminate|exact L]).
    set (res := apply_single kn rows k g (tl_sz tc je) V W (s (tW2 cplx m b j je)) (s (tE i je))).
    assert (VALS : mvals (t_apply kn cplx m b g tc j step je) s = [fst res; snd res]).
    { unfold mvals, t_apply. rewrite AC. cbn [mj_in mj_out mj_fun map]. rewrite SV, SW. fold res. destruct res as [x y]. reflexivity. }
    assert (S1 : s' (tE i je) = snd res) by (apply (mexec_at _ _ 1%nat); [apply apply_nodup|unfold t_apply; rewrite AC; reflexivity|rewrite VALS; reflexivity]).
    transitivity (snd res p q).
    + unfold colE. rewrite div_b, mod_b by lia. rewrite S1. reflexivity.
    + unfold res. rewrite (single_spec kn KO larft LO b rows k g ltac:(lia) ltac:(lia) Hg (st (tHH i j)) V HV W HW (tl_sz tc je) _ _ ltac:(lia) p q Lq).
      apply spec_ext; [apply group_in| |exact Lp]. intros p' Lp'. unfold colE. rewrite div_b, mod_b by lia. reflexivity.
Qed.
(** the application to all tile columns *)
Lemma apply_all : forall (st s : tstore (mat K)) (V W : mat K) n,
  (forall p q, (0 <= p < rows)%Z -> (0 <= q < k)%Z -> V p q = well_formed b (st (tHH i j)) p q) ->
  (forall x, (0 <= x < ng)%Z -> meq (group_ib b rows k g (x * g)) (group_ib b rows k g (x * g)) (gr b rows k g (st (tHH i j)) V (x * g))
     (msub ident (mmul (group_jb k g (x * g)) (sub (x * g) (x * g) W) (adj (gv V (x * g)))))) ->
  s tVi = V -> s tWi = W -> (0 <= n <= tl_n tc)%Z ->
  let s' := mrun (map (t_apply kn cplx m b g tc j step) (zrange 0 n)) s in
  (forall x, t_mat x <> 1%Z -> (t_mat x < 8)%Z -> s' x = s x) /\ (forall r je, (n <= je)%Z -> s' (tE r je) = s (tE r je)) /\
  (forall je a q, (0 <= je < n)%Z -> (0 <= a < m)%Z -> (0 <= q < tl_sz tc je)%Z -> colE s' je a q = happly m b (bt_hh st) blk (colE s je) a q).
Proof using Hb Hg Hm Hj Hst KO LO.
  intros st s V W n HV HW SV SW Ln. assert (N0 : (0 <= n)%Z) by lia. revert Ln. pattern n. apply natlike_ind; [| |exact N0].
  - intros _. rewrite zrange_nil by lia. cbn. split; [reflexivity|]. split; [reflexivity|]. intros; lia.
  - intros y Ly IH Ln. destruct (IH ltac:(lia)) as (I1 & I2 & I3). clear IH. unfold Z.succ in *. rewrite zrange_snoc, map_app by lia. cbv zeta. rewrite mrun_app. cbn [map]. rewrite mrun_cons. cbn [mrun fold_left].
    set (s1 := mrun (map (t_apply kn cplx m b g tc j step) (zrange 0 y)) s) in *.
    assert (PR : forall z, (0 <= t_par cplx m b z < 2)%Z) by (intros z; apply Z.mod_pos_bound; lia).
    split; [|split].
    + intros x N1 N2. rewrite apply_frame; [apply I1; assumption| |].
      * intros ->. specialize (PR j). unfold tW2 in N2. cbn [t_mat] in N2. lia.
      * intros r ->. cbn in N1. lia.
    + intros r je L. rewrite apply_frame; [apply I2; lia| |].
      * intros E. assert (P := PR j). assert (IM := f_equal t_mat E). unfold tE, tW2 in IM; cbn [t_mat] in IM. lia.
      * intros r' E. assert (IM := f_equal t_col E). unfold tE in IM; cbn [t_col] in IM. lia.
    + intros je a q Lje La Lq. destruct (Z.eq_dec je y) as [->|N].
      * rewrite (apply_ok st s1 V W) by (first [assumption | lia | rewrite I1; [assumption | unfold tV, tW; cbn [t_mat]; specialize (PR j); lia | unfold tV, tW; cbn [t_mat]; specialize (PR j); lia]]).
        apply happly_col; [|exact La]. intros a' La'. unfold colE. rewrite I2 by lia. reflexivity.
      * rewrite <- I3 by (first [assumption | lia]). unfold colE. rewrite apply_frame; [reflexivity| |].
        -- intros E. assert (P := PR j). assert (IM := f_equal t_mat E). unfold tE, tW2 in IM; cbn [t_mat] in IM. lia.
        -- intros r' E. assert (IM := f_equal t_col E). unfold tE in IM; cbn [t_col] in IM. lia.
Qed.
Theorem block_ok : forall st : tstore (mat K), let s := mrun (t_step kn larft cplx m b g tc j step) st in
  (forall a c, (0 <= a < m)%Z -> (0 <= c < tl_size tc)%Z -> bt_e s a c = happly m b (bt_hh st) blk (bt_e st) a c) /\
  (forall x y, s (tHH x y) = st (tHH x y)).
Proof using Hb Hg Hm Hj Hst KO LO TC.
  intros st. cbv zeta. unfold t_step. rewrite mrun_cons. set (s1 := mexec st (t_compute kn larft cplx m b g j step)).
  assert (KP := k_pos cplx m b Hb Hm j step Hj Hst). assert (KR := k_rows cplx m b Hb Hm j step Hj Hst). assert (RK := rows_k cplx m b Hb Hm j step Hj Hst).
  set (V := setup_v b rows k (t_hh_rows m b j step) (st (tHH i j)) (st tVi)).
  set (W := compute_w kn b rows k g V (compute_t larft b rows k g (st (tHH i j)) V (st (tT cplx m b j i))) (st tWi)).
  assert (VALS : mvals (t_compute kn larft cplx m b g j step) st = [V; compute_t larft b rows k g (st (tHH i j)) V (st (tT cplx m b j i)); W]) by reflexivity.
  assert (SV : s1 tVi = V) by (apply (mexec_at _ _ 0%nat); [apply compute_nodup|reflexivity|rewrite VALS; reflexivity]).
  assert (SW : s1 tWi = W) by (apply (mexec_at _ _ 2%nat); [apply compute_nodup|reflexivity|rewrite VALS; reflexivity]).
  assert (FR : forall x, (t_mat x < 2)%Z -> s1 x = st x).
  { intros x L. apply mexec_frame. assert (P : (0 <= t_par cplx m b j < 2)%Z) by (apply Z.mod_pos_bound; lia). unfold t_compute. cbn [mj_out In]. intros I0. unfold tV, tT, tW in I0. repeat (destruct I0 as [I0|I0]); try contradiction; subst x; cbn [t_mat] in L; lia. }
  assert (HV : forall p q, (0 <= p < rows)%Z -> (0 <= q < k)%Z -> V p q = well_formed b (st (tHH i j)) p q).
  { intros p q Lp Lq. unfold V. apply setup_v_at; [lia|lia|lia|apply hh_rows_cases; exact Hb|exact Lp|exact Lq]. }
  assert (HW : forall x, (0 <= x < ng)%Z -> meq (group_ib b rows k g (x * g)) (group_ib b rows k g (x * g)) (gr b rows k g (st (tHH i j)) V (x * g))
     (msub ident (mmul (group_jb k g (x * g)) (sub (x * g) (x * g) W) (adj (gv V (x * g)))))).
  { intros x Lx. exact (group_factor kn KO larft LO b rows k g ltac:(lia) ltac:(lia) Hg (st (tHH i j)) V HV _ _ x Lx). }
  destruct (apply_all st s1 V W (tl_n tc) HV HW SV SW ltac:(destruct TC; lia)) as (A1 & A2 & A3).
  set (s := mrun (map (t_apply kn cplx m b g tc j step) (zrange 0 (tl_n tc))) s1) in *. split.
  - intros a c La Lc. destruct (elem_split tc TC c Lc) as (je & q & Lje & Lq & ->). unfold bt_e at 1. rewrite tile_of_elem by assumption.
    replace (tl_off tc je + q - tl_off tc je)%Z with q by lia. change (s (tE (a / b) je) (a mod b)%Z q) with (colE s je a q). rewrite A3 by assumption.
    apply happly_col; [|exact La]. intros a' La'. unfold bt_e. rewrite tile_of_elem by assumption. replace (tl_off tc je + q - tl_off tc je)%Z with q by lia. unfold colE. rewrite FR by (cbn; lia). reflexivity.
  - intros x y. rewrite A1 by (cbn; lia). apply FR. cbn. lia.
Qed.
End one.
End block.
