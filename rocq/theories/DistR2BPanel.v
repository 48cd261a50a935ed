(** * Distributed reduction_to_band: the panel task *)
From Coq Require Import ZArith Lia List Bool Permutation Ring.
From Verif Require Import CInt Loop StarField DenseSpec Tiling DenseJobs TileJobs RefKernels BlockJobs TriangularProofs HouseSpec HouseModel HouseProofs HouseQR TFactorProofs MultiJobs
  Red2BandModel Red2BandSpec Red2BandProofs Red2BandTheory
  DistModel DistSpec DistBuilt DistThms DistMachine DistGrid PanelModel PanelProofs DistSim DistProg DistPhase DistLocal DistInverseModel DistTriModel DistTriProofs DistMultModel DistMultProofs DistBtR2BModel DistBtR2BProofs DistR2BModel DistR2BIdx.
Import ListNotations.
Local Open Scope Z_scope.

Section panel.
Context {P Q : Z} {Ls : coord -> layout} {D : coord -> Z -> axis} {nt : coord -> Z} {n mb b j : Z} (C : r2b_ctx P Q Ls D nt n mb b j).
Context {K : starfield} (rs : roots K).
Variables avail minwork : Z -> Z.
Local Open Scope sf_scope.
Add Ring KringPan : (fring K).
Notation rks := (ranks P Q).
Notation mem := (members P Q).
Notation co := (co Q).
Notation nrt := (r2b_nrt n mb).
Notation i0 := (i0 mb b j). Notation j0 := (j0 mb b j). Notation cj := (cj mb b j). Notation ri := (ri mb b j).
Notation e_row := (e_row b j). Notation e_col := (e_col b j). Notation rows := (rows n mb b j). Notation t := (ptl n mb b j).
Notation nr := (n_refl n b j).
Notation rows_of r := (rowsof Q Ls i0 nrt r).
Notation onp := (onp (Q := Q) (Ls := Ls) (mb := mb) (b := b) (j := j)).
Notation gx := (gx (Q := Q) (D := D) (mb := mb) (b := b) (j := j)).
Notation voff := (voff (n := n) (mb := mb) (b := b) (j := j)).
Notation wP := (wP (Q := Q) (Ls := Ls) (mb := mb) (b := b) (j := j)).
Notation len r := (Z.of_nat (length (q_rows Q mb b D r j))).
Notation ptile r x := (ptile Q mb b D r j x).
Notation head r := (head Q mb b D r j).
Notation ltl r := (ltl Q mb b D r j).
Notation in_tile r x := (in_tile Q n mb b D r j x).
Notation m := (n - e_row)%Z.
Let Hb := c_b _ _ _ _ _ _ _ _ _ C.
Let Hmb := c_mb _ _ _ _ _ _ _ _ _ C.
Let Hdiv := c_div _ _ _ _ _ _ _ _ _ C.
Let J0 := c_j0 _ _ _ _ _ _ _ _ _ C.
Let J1 := c_j1 _ _ _ _ _ _ _ _ _ C.
Let HP := c_P C.
Let HQ := c_Q C.
Lemma tsize : tl_size t = m. Proof using C. apply ptl_size; assumption. Qed.
Lemma nr_b : (0 < nr <= b)%Z. Proof using C. split; [apply n_refl_pos; assumption|apply n_refl_b]. Qed.
Lemma nr_m : (nr <= m)%Z. Proof using C. pose proof (n_refl_n n b Hb j J0 J1). lia. Qed.

Section rank.
Variable r : Z.
Hypothesis (R : In r rks) (O : onp r = true).
Definition rhas (M : mat K) (s : tstore (mat K)) : Prop := forall x p q, (0 <= x < len r)%Z -> (0 <= p < rows (gx r x))%Z -> (0 <= q < b)%Z ->
  sub (ri (gx r x)) cj (s (ptile r x)) p q = M (voff (gx r x) + p)%Z q.
Definition rout (s s' : tstore (mat K)) : Prop := forall x p q, (0 <= x < len r)%Z -> ~ (ri (gx r x) <= p < ri (gx r x) + rows (gx r x) /\ cj <= q < cj + b)%Z -> s' (ptile r x) p q = s (ptile r x) p q.
Lemma ptile_inj : forall x y, (0 <= x < len r)%Z -> (0 <= y < len r)%Z -> ptile r x = ptile r y -> x = y.
Proof using C R O. intros x y Lx Ly E. rewrite !(ptile_x C) in E by assumption. apply (gx_inj C r x y R Lx Ly). injection E. auto. Qed.
Lemma ptile_mat : forall x, t_mat (ptile r x) = 0%Z. Proof using. reflexivity. Qed.
Lemma in_tile_in : forall x (A S : mat K) p q, (0 <= x < len r)%Z -> (0 <= p < rows (gx r x))%Z -> (0 <= q < b)%Z -> sub (ri (gx r x)) cj (in_tile r x A S) p q = S p q.
Proof using C R.
  intros x A S p q Lx Lp Lq. unfold DistR2BModel.in_tile, sub, paste. rewrite (psub_x C), (prows_x C) by assumption. rewrite pcols_b by assumption.
  destruct (Z.leb_spec (ri (gx r x)) (ri (gx r x) + p)), (Z.ltb_spec (ri (gx r x) + p) (ri (gx r x) + rows (gx r x))), (Z.leb_spec cj (cj + q)), (Z.ltb_spec (cj + q) (cj + b)); try lia. cbn [andb]. f_equal; lia.
Qed.
Lemma in_tile_out : forall x (A S : mat K) p q, (0 <= x < len r)%Z -> ~ (ri (gx r x) <= p < ri (gx r x) + rows (gx r x) /\ cj <= q < cj + b)%Z -> in_tile r x A S p q = A p q.
Proof using C R.
  intros x A S p q Lx N. unfold DistR2BModel.in_tile, paste. rewrite (psub_x C), (prows_x C) by assumption. rewrite pcols_b by assumption.
  destruct (Z.leb_spec (ri (gx r x)) p), (Z.ltb_spec p (ri (gx r x) + rows (gx r x))), (Z.leb_spec cj q), (Z.ltb_spec q (cj + b)); try lia; reflexivity.
Qed.
Lemma off_case : forall x, (0 <= x < len r)%Z -> if head r && (x =? 0)%Z then voff (gx r x) = 0%Z else (nr <= voff (gx r x))%Z.
Proof using C R.
  intros x Lx. pose proof (gx_0 C r x R Lx) as E. pose proof (gx_in C r x R Lx) as I0. apply rows_bound in I0 as [I0 _]. rewrite <- E. destruct (Z.eqb_spec (gx r x) i0) as [E0|E0].
  - rewrite E0. apply voff_0.
  - apply (voff_pos C). lia.
Qed.
Lemma lp_at : forall s M x p q, rhas M s -> (0 <= x < len r)%Z -> (0 <= p < rows (gx r x))%Z -> (0 <= q < b)%Z ->
  lpanel Q mb b D r j (map s (map (DistR2BModel.ptile Q mb b D r j) (tiles Q mb b D r j))) x p q = M (voff (gx r x) + p)%Z q.
Proof using C R.
  intros s M x p q H Lx Lp Lq. unfold lpanel. rewrite (psub_x C) by assumption. unfold tiles. rewrite map_map, nth_tile_map by lia. rewrite Z.add_0_l. apply H; assumption.
Qed.
(** part of rank r of a sum over the rows from row c on *)
Definition rpart (c : Z) (g : Z -> F K) : F K := lsum (rows_of r) (fun i => fsum (if (i =? i0)%Z then c else 0%Z) (rows i) (fun p => g (voff i + p)%Z)).
Lemma rpart_x : forall c g, rpart c g = fsum 0 (len r) (fun x => fsum (if head r && (x =? 0)%Z then c else 0%Z) (rows (gx r x)) (fun p => g (voff (gx r x) + p)%Z)).
Proof using C R.
  intros c g. unfold rpart. rewrite <- (loc_sum C) by exact R. apply fsum_ext. intros x Lx. rewrite (gx_0 C) by assumption. reflexivity.
Qed.
Lemma x0sq_val : forall s M c, rhas M s -> (0 <= c < nr)%Z ->
  x0_and_squares (ltl r) (head r) (lpanel Q mb b D r j (map s (map (DistR2BModel.ptile Q mb b D r j) (tiles Q mb b D r j)))) c =
  (if head r then M c c else 0, rpart c (fun a => fconj (M a c) * M a c)).
Proof using C R.
  intros s M c H Lc. pose proof nr_b as NB. rewrite rpart_x. unfold x0_and_squares. cbn [fst snd]. rewrite fold_sum_range. change (tl_n (ltl r)) with (len r).
  set (pp := lpanel _ _ _ _ _ _ _).
  assert (SZ : forall x lo, (0 <= x < len r)%Z -> (0 <= lo)%Z -> fsum lo (tl_sz (ltl r) x) (fun p => fconj (pp x p c) * pp x p c) = fsum lo (rows (gx r x)) (fun p => fconj (M (voff (gx r x) + p)%Z c) * M (voff (gx r x) + p)%Z c)).
  { intros x lo Lx Llo. rewrite (ltl_sz C) by assumption. apply fsum_ext. intros p Lp. unfold pp. rewrite !(lp_at s M) by (try assumption; lia). reflexivity. }
  destruct (head r) eqn:HD; cbn [fst snd].
  - pose proof (head_len C r R HD) as HL. pose proof (off_case 0 ltac:(lia)) as OC. rewrite HD in OC. cbn [andb Z.eqb] in OC. f_equal.
    + unfold pp. rewrite (lp_at s M) by (try assumption; try lia; pose proof (gx_0 C r 0%Z R ltac:(lia)) as G; rewrite HD in G; cbn in G; apply Z.eqb_eq in G; rewrite G;
        pose proof (n_refl_rows n mb b Hb Hmb Hdiv j J0 J1) as N; cbn [tl_sz ptl] in N; rewrite Z.add_0_r in N; lia). rewrite OC. reflexivity.
    + rewrite (fsum_cons 0 (len r)) by lia. cbn [andb Z.eqb]. rewrite SZ by lia. f_equal. apply fsum_ext. intros x Lx. destruct (Z.eqb_spec x 0); [lia|]. apply SZ; lia.
  - f_equal. cbn [andb]. transitivity (fsum 0 (len r) (fun x => fsum 0 (tl_sz (ltl r) x) (fun p => fconj (pp x p c) * pp x p c))); [ring|]. apply fsum_ext. intros x Lx. apply SZ; lia.
Qed.
(** the reflector *)
Lemma refl_val : forall M c x A p q, (0 <= c < nr)%Z -> (0 <= x < len r)%Z -> (0 <= p < rows (gx r x))%Z -> (0 <= q < b)%Z ->
  (forall p' q', (0 <= p' < rows (gx r x))%Z -> (0 <= q' < b)%Z -> A p' q' = M (voff (gx r x) + p')%Z q') ->
  fst (reflector_and_tau rs (ltl r) (head r) (fun _ => A) c (M c c, m_sq t M c)) x p q = m_refl t rs M c (voff (gx r x) + p)%Z q.
Proof using C R.
  intros M c x A p q Lc Lx Lp Lq HA. unfold reflector_and_tau, m_refl. fold (m_y t rs M c). destruct (feq_dec K (m_sq t M c) 0); cbn [fst snd]; [apply HA; assumption|].
  unfold scale_reflector. rewrite each_tile_at. change (tl_n (ltl r)) with (len r). destruct (Z.leb_spec 0 x), (Z.ltb_spec x (len r)); try lia. cbn [andb]. rewrite (ltl_sz C) by assumption.
  pose proof (off_case x Lx) as OC.
  assert (E' : forall q', (0 <= q' < b)%Z -> A p q' = M (voff (gx r x) + p)%Z q') by (intros q' Lq'; apply HA; assumption).
  assert (PS : (if head r then pset (fun _ => A) 0 (mset A c c (m_y t rs M c)) else (fun _ => A)) x p q =
    if ((head r && (x =? 0)%Z) && (p =? c)%Z && (q =? c)%Z)%bool then m_y t rs M c else A p q).
  { destruct (head r); cbn [andb]; [|reflexivity]. unfold pset, mset. destruct (Z.eqb_spec x 0); cbn [andb]; reflexivity. }
  rewrite PS. destruct (head r && (x =? 0)%Z)%bool; cbn [andb].
  - rewrite OC in *. cbn [Z.add] in *. destruct (Z.eqb_spec q c) as [->|Nq]; cbn [andb].
    + rewrite ?andb_true_r, E' by lia. destruct (Z.leb_spec (c + 1) p), (Z.ltb_spec p (rows (gx r x))); try lia; cbn [andb]; destruct (Z.eqb_spec p c), (Z.ltb_spec p c); try lia; try reflexivity.
    + rewrite andb_false_r. apply E'. lia.
  - rewrite !E' by lia. destruct (Z.eqb_spec q c) as [->|Nq]; cbn [andb]; [|reflexivity].
    destruct (Z.leb_spec 0 p), (Z.ltb_spec p (rows (gx r x))); try lia. cbn [andb]. destruct (Z.eqb_spec (voff (gx r x) + p) c), (Z.ltb_spec (voff (gx r x) + p) c); try lia. reflexivity.
Qed.
Lemma tau_val : forall (PP : HouseModel.panel) hd M c, snd (reflector_and_tau rs (ltl r) hd PP c (M c c, m_sq t M c)) = m_tau t rs M c.
Proof using. intros PP hd M c. unfold reflector_and_tau, m_tau. fold (m_y t rs M c). destruct (feq_dec K (m_sq t M c) 0); reflexivity. Qed.

(** the tiles of the panel, all written *)
Lemma tile_jobs : forall (job : Z -> tjob (mat K)) (S : Z -> mat K -> mat K) xs s, Permutation xs (zrange 0 (len r)) ->
  (forall x, (0 <= x < len r)%Z -> tj_out (job x) = ptile r x /\ tval (job x) s = in_tile r x (s (ptile r x)) (S x (s (ptile r x)))) ->
  (forall x u, (0 <= x < len r)%Z -> In u (tj_in (job x)) -> t_mat u <> 0%Z) ->
  let s' := trun (map job xs) s in
  (forall x p q, (0 <= x < len r)%Z -> (0 <= p < rows (gx r x))%Z -> (0 <= q < b)%Z -> sub (ri (gx r x)) cj (s' (ptile r x)) p q = S x (s (ptile r x)) p q) /\
  rout s s' /\ (forall y, (forall x, (0 <= x < len r)%Z -> y <> ptile r x) -> s' y = s y).
Proof using C R O.
  intros job S xs s PE OUT IN s'.
  assert (IX : forall x, In x xs <-> (0 <= x < len r)%Z). { intros x. rewrite <- in_zrange. split; apply Permutation_in; [|symmetry]; exact PE. }
  destruct (indep_run (map job xs) s) as [R1 R2].
  - rewrite map_map. rewrite (map_ext_in _ (fun x => ptile r x)) by (intros x Ix; apply OUT, IX; exact Ix).
    assert (ND : NoDup xs) by (apply (Permutation_NoDup (Permutation_sym PE)), zrange_NoDup).
    clear s' OUT IN PE. assert (IX' : forall x, In x xs -> (0 <= x < len r)%Z) by (intros x; apply IX). clear IX. induction xs as [|x xs IH]; [constructor|]. apply NoDup_cons_iff in ND as [N1 N2]. cbn [map]. constructor.
    + intros I0. apply in_map_iff in I0 as (y & E & Iy). apply N1. rewrite (ptile_inj x y); [exact Iy|apply IX'; left; reflexivity|apply IX'; right; exact Iy|symmetry; exact E].
    + apply IH; [exact N2|]. intros y Iy. apply IX'. right. exact Iy.
  - intros a c Ia Ic I0. apply in_map_iff in Ia as (x & <- & Ix), Ic as (y & <- & Iy). apply IX in Ix, Iy. apply (IN y _ Iy I0). rewrite (proj1 (OUT x Ix)). reflexivity.
  - assert (V : forall x, (0 <= x < len r)%Z -> s' (ptile r x) = in_tile r x (s (ptile r x)) (S x (s (ptile r x)))).
    { intros x Lx. destruct (OUT x Lx) as [E1 E2]. rewrite <- E2, <- E1. apply R1. apply in_map, IX. exact Lx. }
    split; [|split].
    + intros x p q Lx Lp Lq. rewrite V by exact Lx. apply in_tile_in; assumption.
    + intros x p q Lx N. rewrite V by exact Lx. apply in_tile_out; assumption.
    + intros y Y. apply R2. intros I0. rewrite map_map in I0. apply in_map_iff in I0 as (x & E & Ix). apply IX in Ix. apply (Y x Ix). rewrite <- E. apply OUT. exact Ix.
Qed.

(** the batches of the threads *)
Notation nwk := (nw Q mb b D avail minwork r j).
Notation bt := (batch Q mb b D avail minwork r j).
Lemma nwk_pos : (0 < nwk)%Z. Proof using. unfold nw, panel_nworkers. lia. Qed.
Lemma bt_pos : (0 < len r)%Z -> (0 < bt)%Z. Proof using. intros L. apply ceil_div_pos; [exact L|apply nwk_pos]. Qed.
Lemma bt_in : forall k x, (0 < len r)%Z -> (0 <= x)%Z -> In x (zrange (w_begin bt k) (w_end (ltl r) bt k)) <-> (x < len r /\ x / bt = k)%Z.
Proof using. intros k x L Lx. rewrite in_zrange. apply (in_batch (ltl r)); [apply bt_pos; exact L|exact Lx]. Qed.
Lemma bt_range : forall k x, (0 <= k)%Z -> In x (zrange (w_begin bt k) (w_end (ltl r) bt k)) -> (0 <= x < len r)%Z /\ (x / bt = k)%Z.
Proof using.
  intros k x Lk I0. assert (I1 := I0). apply in_zrange in I1. unfold w_begin, w_end in I1. change (tl_n (ltl r)) with (len r) in I1.
  destruct (Z.eq_dec (len r) 0) as [E|E].
  - exfalso. assert (bt = 0)%Z; [|nia]. unfold batch. change (tl_n (ltl r)) with (len r). rewrite E. unfold ceil_div. pose proof nwk_pos. apply Z.div_small. lia.
  - assert (0 < len r)%Z by lia. pose proof (bt_pos H). assert (0 <= x)%Z by nia. apply bt_in in I0; [|assumption..]. lia.
Qed.
Definition upd_order : list Z := flat_map (fun k => zrange (w_begin bt k) (w_end (ltl r) bt k)) (zrange 0 nwk).
Lemma upd_perm : Permutation upd_order (zrange 0 (len r)).
Proof using.
  apply NoDup_Permutation; [|apply zrange_NoDup|].
  - apply flat_map_NoDup; [apply zrange_NoDup|intros; apply zrange_NoDup|]. intros k k' y Ik Ik' I1 I2. apply in_zrange in Ik, Ik'. apply bt_range in I1; [|lia]. apply bt_range in I2; lia.
  - intros x. unfold upd_order. rewrite in_flat_map, in_zrange. split.
    + intros (k & Ik & Ix). apply in_zrange in Ik. apply bt_range in Ix; lia.
    + intros L. assert (L0 : (0 < len r)%Z) by lia. pose proof (bt_pos L0). exists (x / bt)%Z. split; [|apply bt_in; lia]. apply in_zrange. split; [apply Z.div_pos; lia|].
      apply Z.div_lt_upper_bound; [lia|]. pose proof (ceil_div_cover (len r) nwk nwk_pos). unfold batch. change (tl_n (ltl r)) with (len r). lia.
Qed.
Lemma batch_map : forall {X} (f : Z -> Z -> X), flat_map (fun k => map (f k) (zrange (w_begin bt k) (w_end (ltl r) bt k))) (zrange 0 nwk) = map (fun x => f (x / bt)%Z x) upd_order.
Proof using.
  intros X f. unfold upd_order. rewrite flat_map_concat_map, (flat_map_concat_map _ (zrange 0 nwk)), concat_map, map_map. f_equal. apply map_ext_in. intros k Ik. apply in_zrange in Ik.
  apply map_ext_in. intros x Ix. apply bt_range in Ix; [|lia]. rewrite (proj2 Ix). reflexivity.
Qed.
Lemma batch_sum : forall (g : Z -> F K), fsum 0 nwk (fun k => fsum (w_begin bt k) (w_end (ltl r) bt k) g) = fsum 0 (len r) g.
Proof using.
  intros g. pose proof nwk_pos as NW. destruct (Z.eq_dec (len r) 0) as [E|E].
  - rewrite E, (fsum_nil 0 0) by lia. apply fsum_0. intros k Lk. apply fsum_nil. unfold w_begin, w_end. change (tl_n (ltl r)) with (len r). assert (bt = 0)%Z; [|nia]. unfold batch. change (tl_n (ltl r)) with (len r). rewrite E. unfold ceil_div. apply Z.div_small. lia.
  - pose proof (bt_pos ltac:(lia)). apply (sum_batches (len r) bt nwk g); try lia. pose proof (ceil_div_cover (len r) nwk NW). unfold batch. change (tl_n (ltl r)) with (len r). lia.
Qed.
(** w *)
Lemma w_val : forall s M c, rhas M s -> (0 <= c < nr)%Z ->
  let s' := trun (p_w Q mb b D avail minwork r j c ++ [p_wred Q mb b D avail minwork r j]) s in
  (forall q, (0 <= q)%Z -> (c + 1 + q < b)%Z -> s' (qW r j 0) q 0%Z = rpart c (fun a => fconj (M a (c + 1 + q)%Z) * M a c)) /\ (forall y, t_mat y <> 16%Z -> s' y = s y).
Proof using C R.
  intros s M c H Lc s'. pose proof nwk_pos as NW. pose proof nr_b as NB. unfold s'. rewrite trun_app. set (s1 := trun (p_w _ _ _ _ _ _ _ _ _) s).
  destruct (indep_run (p_w (K := K) Q mb b D avail minwork r j c) s) as [R1 R2].
  { unfold p_w. rewrite map_map. cbn [tj_out]. apply FinFun.Injective_map_NoDup; [|apply zrange_NoDup]. intros x y E. injection E. auto. }
  { intros a a' Ia Ia' I0. unfold p_w in Ia, Ia'. apply in_map_iff in Ia as (x & <- & Ix), Ia' as (y & <- & Iy). cbn [tj_in tj_out] in I0. apply in_map_iff in I0 as (z & E & _). discriminate E. }
  fold s1 in R1, R2. assert (F1 : forall y, t_mat y <> 16%Z -> s1 y = s y).
  { intros y Y. apply R2. intros I0. unfold p_w in I0. rewrite map_map in I0. apply in_map_iff in I0 as (k & <- & _). apply Y. reflexivity. }
  set (job := fun k => TJob (map (DistR2BModel.ptile Q mb b D r j) (tiles Q mb b D r j)) (qW r j k) (fun vs (_ : mat K) => fun q (_ : Z) =>
    w_trailing (ltl r) (head r && (k =? 0)%Z) (lpanel Q mb b D r j vs) c (w_begin bt k) (w_end (ltl r) bt k) (fun _ => 0) q)) in *.
  assert (V1 : forall k q, (0 <= k < nwk)%Z -> (0 <= q)%Z -> (c + 1 + q < b)%Z ->
    s1 (qW r j k) q 0%Z = fsum (w_begin bt k) (w_end (ltl r) bt k) (fun x => fsum (if head r && (x =? 0)%Z then c else 0%Z) (rows (gx r x)) (fun p => fconj (M (voff (gx r x) + p)%Z (c + 1 + q)%Z) * M (voff (gx r x) + p)%Z c))).
  { intros k q Lk Lq Lq2. change (qW r j k) with (tj_out (job k)). rewrite R1 by (apply (in_map job), in_zrange; exact Lk). unfold tval, job. cbn [tj_fun tj_in tj_out]. unfold w_trailing. rewrite fold_sum_fun.
    set (pp := lpanel _ _ _ _ _ _ _).
    transitivity (fsum (w_begin bt k) (w_end (ltl r) bt k) (fun x => fsum (if (x =? 0)%Z && (head r && (k =? 0)%Z) then c else 0%Z) (tl_sz (ltl r) x) (fun p => fconj (pp x p (c + 1 + q)%Z) * pp x p c))); [unfold fsum at 2, lsum; ring|].
    apply fsum_ext. intros x Lx. destruct (bt_range k x ltac:(lia) ltac:(apply in_zrange; exact Lx)) as [Lx2 Ex]. rewrite (ltl_sz C) by assumption.
    replace ((x =? 0)%Z && (head r && (k =? 0)%Z))%bool with (head r && (x =? 0)%Z)%bool.
    - apply fsum_ext. intros p Lp. unfold pp. rewrite !(lp_at s M) by (try assumption; destruct (head r && (x =? 0)%Z); lia). reflexivity.
    - destruct (Z.eqb_spec x 0) as [->|]; cbn [andb]; [|rewrite andb_false_r; reflexivity]. rewrite Z.div_0_l in Ex by (pose proof (bt_pos ltac:(lia)); lia). rewrite <- Ex. cbn [Z.eqb]. reflexivity. }
  split.
  - intros q Lq Lq2. rewrite trun_cons. cbn [trun fold_left]. unfold texec. change (tj_out (p_wred Q mb b D avail minwork r j)) with (qW r j 0). rewrite tset_eq. unfold tval. cbn [p_wred tj_fun tj_in tj_out].
    unfold reduce_vectors. rewrite fold_sum_fun. cbn [Z.eqb]. rewrite rpart_x, <- batch_sum. rewrite (fsum_cons 0 nwk) by lia. unfold col_vec at 1. rewrite V1 by lia. f_equal.
    change (fold_right (fun i s0 => ?f i + s0) 0 (zrange 1 nwk)) with (fsum 1 nwk f). apply fsum_ext. intros k Lk. destruct (Z.eqb_spec k 0); [lia|]. unfold col_vec. rewrite map_map, nth_tile_map by lia.
    replace (1 + (k - 1))%Z with k by lia. apply V1; lia.
  - intros y Y. rewrite trun_cons. cbn [trun fold_left]. unfold texec. rewrite tset_neq; [apply F1; exact Y|]. intros ->. apply Y. reflexivity.
Qed.
(** the update of the trailing part of the panel *)
Lemma upd_val2 : forall s M c tau w, rhas M s -> (0 <= c < nr)%Z -> s (qTau r j) c 0%Z = tau -> (forall q, (0 <= q)%Z -> (c + 1 + q < b)%Z -> s (qW r j 0) q 0%Z = w q) ->
  let s' := trun (p_upd Q n mb b D avail minwork r j c) s in
  rhas (fun a q => if ((c <? q) && (c <=? a))%Z then M a q + - fconj tau * M a c * fconj (w (q - (c + 1))%Z) else M a q) s' /\ rout s s' /\
  (forall y, (forall x, (0 <= x < len r)%Z -> y <> ptile r x) -> s' y = s y).
Proof using C R O.
  intros s M c tau w H Lc HT HW s'. pose proof nr_b as NB. unfold s', p_upd.
  rewrite (batch_map (fun k x => TJob [qTau r j; qW r j 0] (ptile r x) (in2 (fun ta w a =>
    in_tile r x a (update_trailing (ltl r) (head r && (k =? 0)%Z) b c (col_vec w) (ta c 0%Z) x (x + 1) (fun _ => sub (psub Q mb b D r j (l0 Q mb b D r j + x)) cj a) x))))).
  destruct (tile_jobs (fun x => TJob [qTau r j; qW r j 0] (ptile r x) (in2 (fun ta w a =>
    in_tile r x a (update_trailing (ltl r) (head r && (x / bt =? 0)%Z) b c (col_vec w) (ta c 0%Z) x (x + 1) (fun _ => sub (psub Q mb b D r j (l0 Q mb b D r j + x)) cj a) x))))
    (fun x a => update_trailing (ltl r) (head r && (x / bt =? 0)%Z) b c (col_vec (s (qW r j 0))) (s (qTau r j) c 0%Z) x (x + 1) (fun _ => sub (psub Q mb b D r j (l0 Q mb b D r j + x)) cj a) x) upd_order s upd_perm) as (A1 & A2 & A3).
  - intros x Lx. split; [reflexivity|]. unfold tval. cbn [tj_fun tj_in tj_out map in2]. reflexivity.
  - intros x u Lx [<-|[<-|[]]]; discriminate.
  - split; [|split; assumption]. intros x p q Lx Lp Lq. rewrite A1 by assumption. unfold update_trailing. rewrite each_tile_at. destruct (Z.leb_spec x x), (Z.ltb_spec x (x + 1)); try lia. cbn [andb].
    rewrite (ltl_sz C), (psub_x C) by assumption. rewrite HT. pose proof (off_case x Lx) as OC.
    replace ((x =? 0)%Z && (head r && (x / bt =? 0)%Z))%bool with (head r && (x =? 0)%Z)%bool.
    2:{ destruct (Z.eqb_spec x 0) as [->|]; cbn [andb]; [|rewrite andb_false_r; reflexivity]. rewrite Z.div_0_l by (pose proof (bt_pos ltac:(lia)); lia). reflexivity. }
    rewrite !H by (try assumption; lia). unfold col_vec.
    replace ((if head r && (x =? 0)%Z then c else 0) <=? p)%Z with (c <=? voff (gx r x) + p)%Z.
    2:{ destruct (head r && (x =? 0)%Z)%bool; [rewrite OC; f_equal|]. destruct (Z.leb_spec c (voff (gx r x) + p)), (Z.leb_spec 0 p); lia. }
    destruct (Z.ltb_spec c q), (Z.ltb_spec q b), (Z.ltb_spec p (rows (gx r x))); try lia; cbn [andb]; [|reflexivity]. rewrite andb_true_r. destruct (c <=? voff (gx r x) + p)%Z; [|reflexivity]. rewrite HW by lia. reflexivity.
Qed.

Definition rkeep (B : Z -> Prop) (s s' : tstore (mat K)) : Prop := rout s s' /\ forall y, (t_mat y < 15)%Z \/ (17 < t_mat y)%Z -> y <> qTau r j -> (forall c, B c -> y <> qBr r j c) -> (forall x, (0 <= x < len r)%Z -> y <> ptile r x) -> s' y = s y.
Lemma rout_refl : forall s s', (forall y, t_mat y = 0%Z -> s' y = s y) -> rout s s'.
Proof using. intros s s' H x p q _ _. rewrite H by reflexivity. reflexivity. Qed.
Lemma rout_trans : forall s1 s2 s3, rout s1 s2 -> rout s2 s3 -> rout s1 s3.
Proof using. intros s1 s2 s3 A B x p q Lx N. rewrite B, A by assumption. reflexivity. Qed.
Lemma rhas_eq : forall M s s', (forall y, t_mat y = 0%Z -> s' y = s y) -> rhas M s -> rhas M s'.
Proof using. intros M s s' E H x p q Lx Lp Lq. unfold sub. rewrite E by reflexivity. apply H; assumption. Qed.
Lemma rhas_ext : forall M M' s, (forall a q, (0 <= a < m)%Z -> (0 <= q < b)%Z -> M a q = M' a q) -> rhas M s -> rhas M' s.
Proof using C R.
  intros M M' s E H x p q Lx Lp Lq. rewrite H by assumption. apply E; [|exact Lq]. apply (voff_bound C); [|exact Lp]. pose proof (gx_in C r x R Lx) as I0. apply rows_bound in I0. exact (proj1 I0).
Qed.
Lemma refl_rank : forall s M c, rhas M s -> (0 <= c < nr)%Z -> get_xs (s (qXs r j)) = (M c c, m_sq t M c) ->
  let s' := trun ([p_tau rs Q mb b D r j c] ++ p_refl rs Q n mb b D r j c ++ [p_branch r j c]) s in
  rhas (m_refl t rs M c) s' /\ (forall p q, s' (qTau r j) p q = if ((p =? c) && (q =? 0))%Z then m_tau t rs M c else s (qTau r j) p q) /\
  s' (qBr r j c) 0%Z 0%Z = m_tau t rs M c /\ rout s s' /\ (forall y, y <> qTau r j -> y <> qBr r j c -> (forall x, (0 <= x < len r)%Z -> y <> ptile r x) -> s' y = s y).
Proof using C R O.
  intros s M c H Lc HX s'. unfold s'. rewrite !trun_app. set (s1 := trun [p_tau rs Q mb b D r j c] s). set (s2 := trun (p_refl rs Q n mb b D r j c) s1).
  assert (F1 : forall y, y <> qTau r j -> s1 y = s y).
  { intros y Y. unfold s1. rewrite trun_cons. cbn [trun fold_left]. unfold texec. apply tset_neq. intros ->. apply Y. reflexivity. }
  assert (V1 : forall p q, s1 (qTau r j) p q = if ((p =? c) && (q =? 0))%Z then m_tau t rs M c else s (qTau r j) p q).
  { intros p q. unfold s1. rewrite trun_cons. cbn [trun fold_left]. unfold texec. change (tj_out (p_tau rs Q mb b D r j c)) with (qTau r j). rewrite tset_eq. unfold tval. cbn [p_tau tj_fun tj_in tj_out map in1].
    rewrite HX, tau_val. reflexivity. }
  destruct (tile_jobs (fun x => TJob [qXs r j] (ptile r x) (in1 (fun xs a => in_tile r x a (fst (reflector_and_tau rs (ltl r) (head r) (fun _ => sub (psub Q mb b D r j (l0 Q mb b D r j + x)) cj a) c (get_xs xs)) x))))
    (fun x a => fst (reflector_and_tau rs (ltl r) (head r) (fun _ => sub (psub Q mb b D r j (l0 Q mb b D r j + x)) cj a) c (M c c, m_sq t M c)) x) (tiles Q mb b D r j) s1) as (A1 & A2 & A3).
  { apply Permutation_refl. }
  { intros x Lx. split; [reflexivity|]. unfold tval. cbn [tj_fun tj_in tj_out map in1]. rewrite (F1 (qXs r j)) by discriminate. rewrite HX. reflexivity. }
  { intros x u Lx [<-|[]]. discriminate. }
  change (trun _ s1) with s2 in A1, A2, A3. unfold rout in A2.
  assert (F3 : forall y, y <> qBr r j c -> trun [p_branch r j c] s2 y = s2 y).
  { intros y Y. rewrite trun_cons. cbn [trun fold_left]. unfold texec. apply tset_neq. intros ->. apply Y. reflexivity. }
  split; [|split; [|split; [|split]]].
  - apply (rhas_eq _ s2); [intros y Y; apply F3; intros ->; discriminate Y|]. intros x p q Lx Lp Lq. rewrite A1 by assumption. apply refl_val; try assumption.
    intros p' q' Lp' Lq'. rewrite F1 by discriminate. rewrite (psub_x C) by assumption. apply H; assumption.
  - intros p q. rewrite F3 by discriminate. rewrite A3 by (intros; discriminate). apply V1.
  - rewrite trun_cons. cbn [trun fold_left]. unfold texec. change (tj_out (p_branch r j c)) with (qBr r j c). rewrite tset_eq. unfold tval. cbn [p_branch tj_fun tj_in tj_out map in1].
    rewrite A3 by (intros; discriminate). rewrite V1, !Z.eqb_refl. reflexivity.
  - apply (rout_trans _ s2); [apply (rout_trans _ s1); [apply rout_refl; intros y Y; apply F1; intros ->; discriminate Y|exact A2]|]. apply rout_refl. intros y Y. apply F3. intros ->. discriminate Y.
  - intros y Y1 Y2 Y3. rewrite F3, A3, F1 by assumption. reflexivity.
Qed.
(** one element of the head *)
Lemma set_head : forall s M c v (job : tjob (mat K)), rhas M s -> (0 <= c < nr)%Z -> head r = true -> tj_out job = ptile r 0 ->
  tval job s = in_tile r 0 (s (ptile r 0)) (mset (sub (psub Q mb b D r j (l0 Q mb b D r j)) cj (s (ptile r 0))) c c v) ->
  let s' := trun [job] s in
  rhas (fun a q => if ((a =? c) && (q =? c))%Z then v else M a q) s' /\ rout s s' /\ (forall y, y <> ptile r 0 -> s' y = s y).
Proof using C R O.
  intros s M c v job H Lc HD OUT VAL s'. pose proof (head_len C r R HD) as HL. pose proof nr_b as NB.
  assert (V : s' (ptile r 0) = in_tile r 0 (s (ptile r 0)) (mset (sub (psub Q mb b D r j (l0 Q mb b D r j)) cj (s (ptile r 0))) c c v)).
  { unfold s'. rewrite trun_cons. cbn [trun fold_left]. unfold texec. rewrite OUT, tset_eq. exact VAL. }
  assert (F : forall y, y <> ptile r 0 -> s' y = s y). { intros y Y. unfold s'. rewrite trun_cons. cbn [trun fold_left]. unfold texec. rewrite OUT. apply tset_neq. exact Y. }
  pose proof (off_case 0 ltac:(lia)) as OC. rewrite HD in OC. cbn [andb Z.eqb] in OC.
  split; [|split; [|exact F]].
  - intros x p q Lx Lp Lq. destruct (Z.eq_dec x 0) as [->|N].
    + rewrite V, in_tile_in by assumption. unfold mset. rewrite OC, Z.add_0_l. destruct ((p =? c) && (q =? c))%Z; [reflexivity|].
      rewrite <- (Z.add_0_r (l0 Q mb b D r j)), (psub_x C) by assumption. rewrite H by assumption. rewrite OC. reflexivity.
    + unfold sub. rewrite F by (intros E; apply N; apply ptile_inj; [exact Lx|lia|exact E]). pose proof (off_case x Lx) as OX. destruct (Z.eqb_spec x 0); [contradiction|]. rewrite andb_false_r in OX.
      destruct (Z.eqb_spec (voff (gx r x) + p) c); [lia|]. cbn [andb]. apply H; assumption.
  - intros x p q Lx N. destruct (Z.eq_dec x 0) as [->|N0]; [rewrite V; apply in_tile_out; assumption|]. rewrite F; [reflexivity|]. intros E. apply N0. apply ptile_inj; [exact Lx|lia|exact E].
Qed.
Lemma head_rank : forall s M c, rhas M s -> (0 <= c < nr)%Z ->
  let s' := trun (p_head Q n mb b D r j c) s in
  rhas (fun a q => if ((a =? c) && (q =? c))%Z then 1 else M a q) s' /\ (head r = true -> s' (qY r j) 0%Z 0%Z = M c c) /\ rout s s' /\
  (forall y, t_mat y <> 17%Z -> (forall x, (0 <= x < len r)%Z -> y <> ptile r x) -> s' y = s y).
Proof using C R O.
  intros s M c H Lc s'. unfold s', p_head. pose proof nr_b as NB. destruct (head r) eqn:HD.
  - pose proof (head_len C r R HD) as HL.
    set (h1 := TJob [ptile r 0] (qY r j) (in1 (fun (a : mat K) (_ : mat K) => fun _ _ => sub (psub Q mb b D r j (l0 Q mb b D r j)) cj a c c))).
    match goal with |- context [trun [?a; ?h] s] => change (trun [a; h] s) with (trun [h] (trun [h1] s)); set (h2 := h) end. set (s1 := trun [h1] s).
    assert (F1 : forall y, y <> qY r j -> s1 y = s y). { intros y Y. unfold s1. rewrite trun_cons. cbn [trun fold_left]. unfold texec. apply tset_neq. exact Y. }
    pose proof (off_case 0 ltac:(lia)) as OC. rewrite HD in OC. cbn [andb Z.eqb] in OC.
    destruct (set_head s1 M c 1 h2) as (A1 & A2 & A3).
    { apply (rhas_eq _ s); [|exact H]. intros y Y. apply F1. intros ->. discriminate Y. }
    { exact Lc. } { exact HD. } { reflexivity. } { reflexivity. }
    split; [exact A1|]. split; [|split].
    + intros _. rewrite A3 by discriminate. unfold s1. rewrite trun_cons. cbn [trun fold_left]. unfold texec. change (tj_out h1) with (qY r j). rewrite tset_eq. unfold tval, h1. cbn [tj_fun tj_in tj_out map in1].
      rewrite <- (Z.add_0_r (l0 Q mb b D r j)), (psub_x C) by (try assumption; lia). rewrite H; [rewrite OC; reflexivity|lia| |lia].
      pose proof (gx_0 C r 0%Z R ltac:(lia)) as G. rewrite HD in G. cbn in G. apply Z.eqb_eq in G. rewrite G. pose proof (n_refl_rows n mb b Hb Hmb Hdiv j J0 J1) as N. cbn [tl_sz ptl] in N. rewrite Z.add_0_r in N. lia.
    + apply (rout_trans _ s1); [|exact A2]. apply rout_refl. intros y Y. apply F1. intros ->. discriminate Y.
    + intros y Y1 Y2. rewrite A3 by (apply Y2; lia). apply F1. intros ->. apply Y1. reflexivity.
  - cbn [trun fold_left]. split; [|split; [discriminate|split; [apply rout_refl; reflexivity|reflexivity]]].
    intros x p q Lx Lp Lq. rewrite H by assumption. pose proof (off_case x Lx) as OX. rewrite HD in OX. cbn [andb] in OX. destruct (Z.eqb_spec (voff (gx r x) + p) c); [lia|]. reflexivity.
Qed.
Lemma restore_rank : forall s M c v, rhas M s -> (0 <= c < nr)%Z -> (head r = true -> s (qY r j) 0%Z 0%Z = v) ->
  let s' := trun (p_restore Q n mb b D r j c) s in
  rhas (fun a q => if ((a =? c) && (q =? c))%Z then v else M a q) s' /\ rout s s' /\ (forall y, (forall x, (0 <= x < len r)%Z -> y <> ptile r x) -> s' y = s y).
Proof using C R O.
  intros s M c v H Lc HY s'. unfold s', p_restore. destruct (head r) eqn:HD.
  - pose proof (head_len C r R HD) as HL.
    match goal with |- context [trun [?h] s] => destruct (set_head s M c v h H Lc HD) as (A1 & A2 & A3) end.
    { reflexivity. }
    { unfold tval. cbn [tj_fun tj_in tj_out map in1]. rewrite HY by reflexivity. reflexivity. }
    split; [exact A1|]. split; [exact A2|]. intros y Y. apply A3. apply Y. lia.
  - cbn [trun fold_left]. split; [|split; [apply rout_refl; reflexivity|reflexivity]].
    intros x p q Lx Lp Lq. rewrite H by assumption. pose proof (off_case x Lx) as OX. rewrite HD in OX. cbn [andb] in OX. destruct (Z.eqb_spec (voff (gx r x) + p) c); [lia|]. reflexivity.
Qed.
End rank.

(** ** All the ranks of the process column *)
Definition onl (f : Z -> list (tjob (mat K))) : list (event (mat K)) := elocal P Q (fun r => if onp r then f r else []).
Lemma onl_run : forall f st, (forall r, In r rks -> onp r = true -> own_tiles r (f r)) ->
  Forall (event_ok mem rks) (onl f) /\ (forall r, In r rks -> proj mem r (onl f) = if onp r then map ALoc (f r) else []) /\
  (forall r y, In r rks -> onp r = true -> t_rank y = r -> erun mem (onl f) st y = trun (f r) st y) /\
  (forall y, (In (t_rank y) rks -> onp (t_rank y) = true -> False) -> erun mem (onl f) st y = st y).
Proof using C.
  intros f st OW. assert (OW' : forall r, In r rks -> own_tiles r (if onp r then f r else [])).
  { intros r R. destruct (onp r) eqn:O; [apply OW; assumption|apply own_nil]. }
  unfold onl. split; [apply elocal_ok; exact OW'|]. split; [|split].
  - intros r R. rewrite (elocal_proj P Q HP HQ) by exact R. destruct (onp r); reflexivity.
  - intros r y R O E. rewrite (elocal_at P Q HP HQ _ st y r OW' R E). rewrite O. reflexivity.
  - intros y Y. apply (elocal_frame P Q HP HQ _ st y OW'). intros r jb R I0 E. destruct (onp r) eqn:O; [|destruct I0]. apply Y; rewrite <- E, (OW r R O jb (tj_out jb) I0 (or_intror eq_refl)); assumption.
Qed.
Ltac own := repeat first [apply own_app | apply own_nil].
Lemma own_map : forall {X} r (f : X -> tjob (mat K)) l, (forall x u, In x l -> In u (tj_in (f x)) \/ u = tj_out (f x) -> t_rank u = r) -> own_tiles r (map f l).
Proof using. intros X r f l H jb u I0 I1. apply in_map_iff in I0 as (x & <- & Ix). apply (H x u Ix I1). Qed.
Lemma own_1 : forall r (jb : tjob (mat K)), (forall u, In u (tj_in jb) \/ u = tj_out jb -> t_rank u = r) -> own_tiles r [jb].
Proof using. intros r jb H jb' u [<-|[]]. apply H. Qed.
Lemma in_mp : forall {X} (f : X -> tid) l u r, (forall x, t_rank (f x) = r) -> In u (map f l) -> t_rank u = r.
Proof using. intros X f l u r H I0. apply in_map_iff in I0 as (x & <- & _). apply H. Qed.
Definition jobs1 (c r : Z) : list (tjob (mat K)) := [p_x0sq Q mb b D r j c].
Definition jobs2 (c r : Z) : list (tjob (mat K)) := [p_tau rs Q mb b D r j c] ++ p_refl rs Q n mb b D r j c ++ [p_branch r j c].
Definition jobs3 (c r : Z) : list (tjob (mat K)) := p_head Q n mb b D r j c ++ p_w Q mb b D avail minwork r j c ++ [p_wred Q mb b D avail minwork r j].
Definition jobs4 (c r : Z) : list (tjob (mat K)) := p_upd Q n mb b D avail minwork r j c ++ p_restore Q n mb b D r j c.
Lemma jobs1_own : forall c r, own_tiles r (jobs1 c r).
Proof using. intros c r. apply own_1. intros u [[<-|I0]| ->]; [reflexivity|apply (in_mp _ _ _ r) in I0; [exact I0|reflexivity]|reflexivity]. Qed.
Lemma jobs2_own : forall c r, own_tiles r (jobs2 c r).
Proof using.
  intros c r. unfold jobs2. own.
  - apply own_1. intros u [[<-|[]]| ->]; reflexivity.
  - apply own_map. intros x u _ [[<-|[]]| ->]; reflexivity.
  - apply own_1. intros u [[<-|[]]| ->]; reflexivity.
Qed.
Lemma jobs3_own : forall c r, own_tiles r (jobs3 c r).
Proof using.
  intros c r. unfold jobs3. own.
  - unfold p_head. destruct (head r); [|apply own_nil]. intros jb u [<-|[<-|[]]]; [intros [[<-|[]]| ->]|intros [[]| ->]]; reflexivity.
  - apply own_map. intros x u _ [I0| ->]; [apply (in_mp _ _ _ r) in I0; [exact I0|reflexivity]|reflexivity].
  - apply own_1. intros u [I0| ->]; [apply (in_mp _ _ _ r) in I0; [exact I0|reflexivity]|reflexivity].
Qed.
Lemma jobs4_own : forall c r, own_tiles r (jobs4 c r).
Proof using.
  intros c r. unfold jobs4. own.
  - unfold p_upd. intros jb u I0. apply in_flat_map in I0 as (k & _ & I0). apply in_map_iff in I0 as (x & <- & _). intros [[<-|[<-|[]]]| ->]; reflexivity.
  - unfold p_restore. destruct (head r); [|apply own_nil]. intros jb u [<-|[]] [[<-|[]]| ->]; reflexivity.
Qed.
Notation pc := (CCol2 (tile_owner (Ls Col) j0)).
Definition e_refl (d : bool) (c : Z) : list (event (mat K)) :=
  onl (jobs1 c) ++ [eallred P Q pc (fun r => qXs r j)] ++ onl (jobs2 c) ++
  (if d && (0 <? b - (c + 1))%Z then onl (jobs3 c) ++ [eallred P Q pc (fun r => qW r j 0)] ++ onl (jobs4 c) else []).
Lemma e_refl_ok : forall d c, Forall (event_ok mem rks) (e_refl d c).
Proof using C.
  intros d c. assert (st0 : tstore (mat K)) by (intros x p q; exact 0).
  unfold e_refl. rewrite !Forall_app. split; [apply (onl_run _ st0); intros; apply jobs1_own|]. split; [constructor; [apply (panel_allred C pc (fun r => qXs r j) st0); auto|constructor]|].
  split; [apply (onl_run _ st0); intros; apply jobs2_own|]. destruct (_ && _); [|constructor]. rewrite !Forall_app. split; [apply (onl_run _ st0); intros; apply jobs3_own|].
  split; [constructor; [apply (panel_allred C pc (fun r => qW r j 0%Z) st0); auto|constructor]|]. apply (onl_run _ st0); intros; apply jobs4_own.
Qed.
Lemma e_refl_proj : forall dec d c r, In r rks -> dec r j c = d ->
  proj mem r (e_refl d c) = if onp r then p_step rs P Q n mb b D avail minwork dec r j c else [].
Proof using C.
  intros dec d c r R ED. assert (st0 : tstore (mat K)) by (intros x p q; exact 0).
  unfold e_refl. rewrite !(proj_app' P Q). rewrite (proj1 (proj2 (onl_run (jobs1 c) st0 (fun r _ _ => jobs1_own c r)))), (proj1 (proj2 (onl_run (jobs2 c) st0 (fun r _ _ => jobs2_own c r)))) by exact R.
  rewrite (proj1 (proj2 (panel_allred C pc (fun r => qXs r j) st0 (or_introl eq_refl) (fun r => eq_refl)))) by exact R.
  assert (E3 : proj mem r (if d && (0 <? b - (c + 1))%Z then onl (jobs3 c) ++ [eallred P Q pc (fun r => qW r j 0)] ++ onl (jobs4 c) else []) =
    if onp r then (if d && (0 <? b - (c + 1))%Z then map ALoc (jobs3 c r) ++ [ACom (all_reduce P Q pc (qW r j 0))] ++ map ALoc (jobs4 c r) else []) else []).
  { destruct (d && _).
    - rewrite !(proj_app' P Q). rewrite (proj1 (proj2 (onl_run (jobs3 c) st0 (fun r _ _ => jobs3_own c r)))), (proj1 (proj2 (onl_run (jobs4 c) st0 (fun r _ _ => jobs4_own c r)))) by exact R.
      rewrite (proj1 (proj2 (panel_allred C pc (fun r => qW r j 0%Z) st0 (or_introl eq_refl) (fun r => eq_refl)))) by exact R. destruct (onp r); reflexivity.
    - destruct (onp r); reflexivity. }
  rewrite E3. destruct (onp r) eqn:O; [|reflexivity]. apply Z.eqb_eq in O. unfold p_step, pcomm. rewrite ED, O. reflexivity.
Qed.
(** *** One reflector *)
Definition phas (M : mat K) (s : tstore (mat K)) : Prop := forall r, In r rks -> onp r = true -> rhas r M s.
Definition pkeep (B : Z -> Prop) (s s' : tstore (mat K)) : Prop := (forall r, In r rks -> onp r = true -> rout r s s') /\
  forall y, (t_mat y < 15)%Z \/ (17 < t_mat y)%Z -> (forall r, In r rks -> onp r = true -> y <> qTau r j) -> (forall r c, In r rks -> onp r = true -> B c -> y <> qBr r j c) ->
    (forall r x, In r rks -> onp r = true -> (0 <= x < len r)%Z -> y <> ptile r x) -> s' y = s y.
Lemma pkeep_trans : forall (B1 B2 B3 : Z -> Prop) s1 s2 s3, (forall c, B1 c -> B3 c) -> (forall c, B2 c -> B3 c) -> pkeep B1 s1 s2 -> pkeep B2 s2 s3 -> pkeep B3 s1 s3.
Proof using.
  intros B1 B2 B3 s1 s2 s3 H1 H2 [A1 A2] [E1 E2]. split; [intros r R O; apply (rout_trans r s1 s2 s3); [apply A1|apply E1]; assumption|].
  intros y Y1 Y2 Y3 Y4. rewrite E2, A2; [reflexivity|assumption..|intros; apply Y3; auto|assumption|assumption|assumption|intros; apply Y3; auto|assumption].
Qed.
Lemma pkeep_refl : forall B s, pkeep B s s.
Proof using. intros B s. split; [intros r R O; apply rout_refl; reflexivity|reflexivity]. Qed.
Lemma rhas_at : forall r M s s', (forall y, t_rank y = r -> s' y = s y) -> rhas r M s -> rhas r M s'.
Proof using. intros r M s s' E H x p q Lx Lp Lq. unfold sub. rewrite E by reflexivity. apply H; assumption. Qed.
Lemma onl_at : forall f st, (forall r, own_tiles r (f r)) -> forall r, In r rks -> onp r = true -> forall y, t_rank y = r -> erun mem (onl f) st y = trun (f r) st y.
Proof using C. intros f st OW r R O y E. apply (proj1 (proj2 (proj2 (onl_run f st (fun r _ _ => OW r)))) r y); assumption. Qed.
Lemma onl_keep : forall B f st, (forall r, own_tiles r (f r)) -> (forall r, In r rks -> onp r = true -> rkeep r B st (trun (f r) st)) -> pkeep B st (erun mem (onl f) st).
Proof using C.
  intros B f st OW H. split.
  - intros r R O x p q Lx N. rewrite (onl_at f st OW r R O) by reflexivity. apply (proj1 (H r R O)); assumption.
  - intros y Y1 Y2 Y3 Y4. destruct (in_dec Z.eq_dec (t_rank y) rks) as [R|N]; [destruct (onp (t_rank y)) eqn:O|].
    + rewrite (onl_at f st OW _ R O y eq_refl). apply (proj2 (H _ R O)); auto.
    + apply (proj2 (proj2 (proj2 (onl_run f st (fun r _ _ => OW r))))). intros _. congruence.
    + apply (proj2 (proj2 (proj2 (onl_run f st (fun r _ _ => OW r))))). intros X. contradiction.
Qed.
Lemma pc_keep : forall B tl st, (forall r, t_rank (tl r) = r) -> (forall r, (15 <= t_mat (tl r) <= 17)%Z) -> pkeep B st (erun mem [eallred P Q pc tl] st).
Proof using C.
  intros B tl st TR TM. pose proof (proj2 (proj2 (proj2 (panel_allred C pc tl st (or_introl eq_refl) TR)))) as F. change (erun mem [eallred P Q pc tl] st) with (eexec mem st (eallred P Q pc tl)). split.
  - intros r R O. apply rout_refl. intros y Y. apply F. intros r' _ _ ->. specialize (TM r'). lia.
  - intros y Y _ _ _. apply F. intros r' _ _ ->. specialize (TM r'). lia.
Qed.
Lemma sq_sum : forall c g, (0 <= c <= nr)%Z -> lsum (zrange 0 P) (fun x => rpart (wP x) c g) = fsum c m g.
Proof using C. intros c g Lc. unfold rpart. rewrite (col_sum C), (panel_sum C) by exact Lc. reflexivity. Qed.
Lemma rpart_ext : forall r c g g', In r rks -> (0 <= c)%Z -> (forall a, (c <= a < m)%Z -> g a = g' a) -> (0 <= c <= nr)%Z -> rpart r c g = rpart r c g'.
Proof using C.
  intros r c g g' R Lc E Lc2. unfold rpart. apply lsum_ext. intros i Ii. apply rows_bound in Ii as [Li _]. apply fsum_ext. intros p Lp. apply E.
  pose proof (voff_bound C i p Li) as VB. destruct (Z.eqb_spec i i0) as [->|N]; [rewrite voff_0 in *; lia|]. pose proof (voff_pos C i ltac:(lia)). lia.
Qed.
(** the first two tasks: the value of x0 and the sum of the squares, on every rank *)
Lemma xs_phase : forall st M c, phas M st -> (0 <= c < nr)%Z ->
  let st' := erun mem (onl (jobs1 c) ++ [eallred P Q pc (fun r => qXs r j)]) st in
  (forall r, In r rks -> onp r = true -> get_xs (st' (qXs r j)) = (M c c, m_sq t M c)) /\ (forall y, (forall r, In r rks -> onp r = true -> y <> qXs r j) -> st' y = st y).
Proof using C.
  intros st M c H Lc st'. unfold st'. rewrite (erun_app P Q). set (s1 := erun mem (onl (jobs1 c)) st). pose proof nr_b as NB.
  assert (V1 : forall r, In r rks -> onp r = true -> s1 (qXs r j) = mk_xs (if head r then M c c else 0, rpart r c (fun a => fconj (M a c) * M a c))).
  { intros r R O. unfold s1. rewrite (onl_at _ st (jobs1_own c) r R O) by reflexivity. unfold jobs1. rewrite trun_cons. cbn [trun fold_left]. unfold texec.
    change (tj_out (p_x0sq Q mb b D r j c)) with (qXs r j). rewrite tset_eq. unfold tval. cbn [p_x0sq tj_fun tj_in tj_out map tl]. f_equal. apply x0sq_val; [exact R|exact (H r R O)|exact Lc]. }
  assert (F1 : forall y, (forall r, In r rks -> onp r = true -> y <> qXs r j) -> s1 y = st y).
  { intros y Y. destruct (in_dec Z.eq_dec (t_rank y) rks) as [R|N]; [destruct (onp (t_rank y)) eqn:O|].
    - unfold s1. rewrite (onl_at _ st (jobs1_own c) _ R O y eq_refl). unfold jobs1. rewrite trun_cons. cbn [trun fold_left]. unfold texec. apply tset_neq. apply Y; assumption.
    - apply (proj2 (proj2 (proj2 (onl_run (jobs1 c) st (fun r _ _ => jobs1_own c r))))). intros _. congruence.
    - apply (proj2 (proj2 (proj2 (onl_run (jobs1 c) st (fun r _ _ => jobs1_own c r))))). intros X. contradiction. }
  destruct (panel_allred C pc (fun r => qXs r j) s1 (or_introl eq_refl) (fun r => eq_refl)) as (_ & _ & A3 & A4).
  change (erun mem [eallred P Q pc (fun r => qXs r j)] s1) with (eexec mem s1 (eallred P Q pc (fun r => qXs r j))). split.
  - intros r R O. unfold get_xs. rewrite !A3 by assumption. f_equal.
    + rewrite <- (head_sum C (M c c)). apply lsum_ext. intros x Ix. apply in_zrange in Ix. rewrite V1 by (first [apply (wP_in C) | apply (wP_onp C)]; exact Ix). reflexivity.
    + unfold m_sq. fold m. transitivity (fsum c m (fun a => fconj (M a c) * M a c)); [|rewrite <- tsize; reflexivity]. rewrite <- sq_sum by lia. apply lsum_ext. intros x Ix. apply in_zrange in Ix. rewrite V1 by (first [apply (wP_in C) | apply (wP_onp C)]; exact Ix). reflexivity.
  - intros y Y. rewrite A4, F1 by assumption. reflexivity.
Qed.
(** the reflector, tau and the value of the branch *)
Lemma refl_phase : forall st M c, phas M st -> (0 <= c < nr)%Z -> (forall r, In r rks -> onp r = true -> get_xs (st (qXs r j)) = (M c c, m_sq t M c)) ->
  let st' := erun mem (onl (jobs2 c)) st in
  phas (m_refl t rs M c) st' /\
  (forall r, In r rks -> onp r = true -> (forall p q, st' (qTau r j) p q = if ((p =? c) && (q =? 0))%Z then m_tau t rs M c else st (qTau r j) p q) /\ st' (qBr r j c) 0%Z 0%Z = m_tau t rs M c) /\
  pkeep (fun c' => c' = c) st st'.
Proof using C.
  intros st M c H Lc HX st'.
  assert (RR : forall r, In r rks -> onp r = true -> _) by (intros r R O; exact (refl_rank r R O st M c (H r R O) Lc (HX r R O))). cbn zeta in RR.
  assert (AT : forall r, In r rks -> onp r = true -> forall y, t_rank y = r -> st' y = trun (jobs2 c r) st y) by (intros r R O y E; apply (onl_at _ st (jobs2_own c)); assumption).
  split; [|split].
  - intros r R O. apply (rhas_at _ _ (trun (jobs2 c r) st)); [apply (AT r R O)|]. apply (RR r R O).
  - intros r R O. rewrite !(AT r R O) by reflexivity. destruct (RR r R O) as (_ & A2 & A3 & _). split; [exact A2|exact A3].
  - apply onl_keep; [apply jobs2_own|]. intros r R O. destruct (RR r R O) as (_ & _ & _ & A4 & A5). split; [exact A4|]. intros y Y1 Y2 Y3 Y4. apply A5; [exact Y2|apply Y3; reflexivity|exact Y4].
Qed.
(** the update of the rest of the panel *)
Lemma upd_phase : forall st M c, phas (m_refl t rs M c) st -> (0 <= c < nr)%Z -> (c + 1 < b)%Z -> m_sq t M c <> 0 -> (forall r, In r rks -> onp r = true -> st (qTau r j) c 0%Z = m_tau t rs M c) ->
  let st' := erun mem (onl (jobs3 c) ++ [eallred P Q pc (fun r => qW r j 0)] ++ onl (jobs4 c)) st in
  phas (m_step t rs b M c) st' /\ (forall r, In r rks -> onp r = true -> st' (qTau r j) = st (qTau r j)) /\ pkeep (fun _ => False) st st'.
Proof using C.
  intros st M c H Lc Cb SQN HT st'. unfold st'. rewrite !(erun_app P Q). clear st'. pose proof nr_b as NB. pose proof nr_m as NM.
  set (M1 := fun a q => if ((a =? c) && (q =? c))%Z then 1 else m_refl t rs M c a q).
  set (s1 := erun mem (onl (jobs3 c)) st). set (s2 := erun mem [eallred P Q pc (fun r => qW r j 0%Z)] s1). set (s3 := erun mem (onl (jobs4 c)) s2).
  assert (AT1 : forall r, In r rks -> onp r = true -> forall y, t_rank y = r -> s1 y = trun (jobs3 c r) st y) by (intros r R O y E; apply (onl_at _ st (jobs3_own c)); assumption).
  assert (L1 : forall r, In r rks -> onp r = true ->
    rhas r M1 (trun (jobs3 c r) st) /\ (head r = true -> trun (jobs3 c r) st (qY r j) 0%Z 0%Z = m_refl t rs M c c c) /\
    (forall q, (0 <= q)%Z -> (c + 1 + q < b)%Z -> trun (jobs3 c r) st (qW r j 0) q 0%Z = rpart r c (fun a => fconj (M1 a (c + 1 + q)%Z) * M1 a c)) /\
    rout r st (trun (jobs3 c r) st) /\ (forall y, t_mat y <> 16%Z -> t_mat y <> 17%Z -> (forall x, (0 <= x < len r)%Z -> y <> ptile r x) -> trun (jobs3 c r) st y = st y)).
  { intros r R O. unfold jobs3. rewrite trun_app. destruct (head_rank r R O st (m_refl t rs M c) c (H r R O) Lc) as (A1 & A2 & A3 & A4).
    destruct (w_val r R _ M1 c A1 Lc) as [W1 W2]. set (s0 := trun (p_head Q n mb b D r j c) st) in *. set (s0' := trun (p_w _ _ _ _ _ _ _ _ _ ++ _) s0) in *.
    split; [apply (rhas_eq r _ s0); [intros y Y; apply W2; lia|exact A1]|]. split; [intros HD; rewrite W2 by (cbn; lia); apply A2; exact HD|]. split; [exact W1|].
    split; [apply (rout_trans r st s0); [exact A3|apply rout_refl; intros y Y; apply W2; lia]|]. intros y Y1 Y2 Y3. rewrite W2, A4 by assumption. reflexivity. }
  destruct (panel_allred C pc (fun r => qW r j 0%Z) s1 (or_introl eq_refl) (fun r => eq_refl)) as (_ & _ & A3 & A4).
  change (eexec mem s1 _) with s2 in A3, A4.
  assert (F2 : forall y, t_mat y <> 16%Z -> s2 y = s1 y) by (intros y Y; apply A4; intros r _ _ ->; apply Y; reflexivity).
  set (w := fun q => fsum c m (fun a => fconj (M1 a (c + 1 + q)%Z) * M1 a c)).
  assert (VW : forall r q, In r rks -> onp r = true -> (0 <= q)%Z -> (c + 1 + q < b)%Z -> s2 (qW r j 0) q 0%Z = w q).
  { intros r q R O Lq Lq2. rewrite A3 by assumption. unfold w. rewrite <- sq_sum by lia. apply lsum_ext. intros x Ix. apply in_zrange in Ix. pose proof (wP_in C x Ix) as RX. pose proof (wP_onp C x Ix) as OX.
    rewrite (AT1 _ RX OX) by reflexivity. apply (proj1 (proj2 (proj2 (L1 _ RX OX)))); assumption. }
  assert (L2 : forall r, In r rks -> onp r = true -> rhas r M1 s2).
  { intros r R O. apply (rhas_eq r _ s1); [intros y Y; apply F2; lia|]. apply (rhas_at r _ (trun (jobs3 c r) st)); [apply (AT1 r R O)|]. apply (L1 r R O). }
  assert (T2 : forall r, In r rks -> onp r = true -> s2 (qTau r j) = st (qTau r j)).
  { intros r R O. rewrite F2 by discriminate. rewrite (AT1 r R O) by reflexivity. apply (L1 r R O); discriminate. }
  assert (Y2 : forall r, In r rks -> onp r = true -> head r = true -> s2 (qY r j) 0%Z 0%Z = m_refl t rs M c c c).
  { intros r R O HD. rewrite F2 by discriminate. rewrite (AT1 r R O) by reflexivity. apply (L1 r R O). exact HD. }
  assert (AT3 : forall r, In r rks -> onp r = true -> forall y, t_rank y = r -> s3 y = trun (jobs4 c r) s2 y) by (intros r R O y E; apply (onl_at _ s2 (jobs4_own c)); assumption).
  assert (L3 : forall r, In r rks -> onp r = true -> rhas r (m_step t rs b M c) (trun (jobs4 c r) s2) /\ rout r s2 (trun (jobs4 c r) s2) /\
    (forall y, (forall x, (0 <= x < len r)%Z -> y <> ptile r x) -> trun (jobs4 c r) s2 y = s2 y)).
  { intros r R O. unfold jobs4. rewrite trun_app.
    destruct (upd_val2 r R O s2 M1 c (m_tau t rs M c) w (L2 r R O) Lc) as (U1 & U2 & U3).
    { rewrite T2 by assumption. apply HT; assumption. } { intros q Lq Lq2. apply VW; assumption. }
    set (s0 := trun (p_upd _ _ _ _ _ _ _ _ _ _) s2) in *. destruct (restore_rank r R O s0 _ c (m_refl t rs M c c c) U1 Lc) as (V1 & V2 & V3).
    { intros HD. rewrite U3 by (intros; discriminate). apply Y2; assumption. }
    split; [|split; [apply (rout_trans r s2 s0); assumption|intros y Y; rewrite V3, U3 by assumption; reflexivity]].
    revert V1. apply rhas_ext; [exact R|]. intros a q La Lq. unfold M1, m_step.
    destruct (Z.eqb_spec q c) as [->|Nq].
    - rewrite Z.ltb_irrefl. cbn [andb]. rewrite !andb_true_r. destruct (Z.eqb_spec a c) as [->|]; reflexivity.
    - rewrite !andb_false_r. destruct (Z.ltb_spec c q), (Z.ltb_spec q b); try lia; cbn [andb]; try reflexivity. destruct (Z.leb_spec c a); [|reflexivity].
      assert (MR : forall a', m_refl t rs M c a' q = M a' q) by (intros a'; unfold m_refl; destruct (feq_dec K (m_sq t M c) 0); [reflexivity|]; destruct (Z.eqb_spec q c); [lia|reflexivity]).
      assert (MV : forall a', (c <= a')%Z -> (if ((a' =? c) && (c =? c))%Z then 1 else m_refl t rs M c a' c) = m_v t rs M c a').
      { intros a' La'. unfold m_v. destruct (Z.ltb_spec a' c); [lia|]. rewrite Z.eqb_refl, andb_true_r. reflexivity. }
      rewrite MR, MV by lia. f_equal. f_equal. f_equal. unfold w. rewrite tsize. apply fsum_ext. intros a' La'. unfold M1. replace (c + 1 + (q - (c + 1)))%Z with q by lia.
      rewrite MV by lia. destruct (Z.eqb_spec q c); [lia|]. rewrite andb_false_r, MR. reflexivity. }
  split; [|split].
  - intros r R O. apply (rhas_at r _ (trun (jobs4 c r) s2)); [apply (AT3 r R O)|]. apply (L3 r R O).
  - intros r R O. rewrite (AT3 r R O) by reflexivity. rewrite (proj2 (proj2 (L3 r R O))) by (intros; discriminate). apply T2; assumption.
  - apply (pkeep_trans (fun _ => False) (fun _ => False) _ st s1); [tauto|tauto| |].
    + apply onl_keep; [apply jobs3_own|]. intros r R O. destruct (L1 r R O) as (_ & _ & _ & B1 & B2). split; [exact B1|]. intros y Y _ _ Y4. apply B2; [lia|lia|exact Y4].
    + apply (pkeep_trans (fun _ => False) (fun _ => False) _ s1 s2); [tauto|tauto| |].
      * apply pc_keep; [reflexivity|]. intros r. cbn [qW t_mat]. lia.
      * apply onl_keep; [apply jobs4_own|]. intros r R O. destruct (L3 r R O) as (_ & B1 & B2). split; [exact B1|]. intros y _ _ _ Y4. apply B2. exact Y4.
Qed.
(** one reflector *)
Lemma refl_step : forall st M c d, phas M st -> (0 <= c < nr)%Z -> (d = false <-> m_tau t rs M c = 0) ->
  let st' := erun mem (e_refl d c) st in
  phas (m_step t rs b M c) st' /\
  (forall r, In r rks -> onp r = true -> (forall p q, st' (qTau r j) p q = if ((p =? c) && (q =? 0))%Z then m_tau t rs M c else st (qTau r j) p q) /\ st' (qBr r j c) 0%Z 0%Z = m_tau t rs M c) /\
  pkeep (fun c' => c' = c) st st'.
Proof using C.
  intros st M c d H Lc ED st'. unfold st', e_refl. rewrite app_assoc, !(erun_app P Q (_ ++ _)). pose proof nr_m as NM. pose proof nr_b as NB.
  destruct (xs_phase st M c H Lc) as [X1 X2]. set (s1 := erun mem (onl (jobs1 c) ++ _) st) in *.
  assert (KX : pkeep (fun c' => c' = c) st s1). { split; [intros r R O; apply rout_refl; intros y Y; apply X2; intros r' _ _ ->; discriminate Y|]. intros y Y _ _ _. apply X2. intros r' _ _ ->. cbn [qXs t_mat] in Y. lia. }
  assert (H1 : phas M s1). { intros r R O. apply (rhas_eq r _ st); [intros y Y; apply X2; intros r' _ _ ->; discriminate Y|]. exact (H r R O). }
  rewrite (erun_app P Q). destruct (refl_phase s1 M c H1 Lc X1) as (R1 & R2 & R3). set (s2 := erun mem (onl (jobs2 c)) s1) in *.
  assert (T1 : forall r, In r rks -> onp r = true -> s1 (qTau r j) = st (qTau r j)) by (intros r R O; apply X2; intros; discriminate).
  destruct (d && (0 <? b - (c + 1))%Z)%bool eqn:DB.
  - apply andb_true_iff in DB as [-> DB]. apply Z.ltb_lt in DB.
    assert (SQN : m_sq t M c <> 0). { intros E. assert (X : true = false); [apply ED|discriminate X]. unfold m_tau. destruct (feq_dec K (m_sq t M c) 0); [reflexivity|contradiction]. }
    destruct (upd_phase s2 M c R1 Lc ltac:(lia) SQN) as (U1 & U2 & U3).
    { intros r R O. rewrite (proj1 (R2 r R O)), !Z.eqb_refl. reflexivity. }
    set (s3 := erun mem (onl (jobs3 c) ++ _) s2) in *. split; [exact U1|]. split.
    + intros r R O. split.
      * intros p q. rewrite U2 by assumption. rewrite (proj1 (R2 r R O)), T1 by assumption. reflexivity.
      * rewrite (proj2 U3); [apply (R2 r R O)|cbn [qBr t_mat]; lia|intros; discriminate|intros ? ? _ _ []|intros; discriminate].
    + apply (pkeep_trans (fun c' => c' = c) (fun c' => c' = c) _ st s1); [auto|auto|exact KX|]. apply (pkeep_trans (fun c' => c' = c) (fun _ => False) _ s1 s2); [auto|tauto|exact R3|exact U3].
  - cbn [erun fold_left]. split; [|split].
    + intros r R O. apply (rhas_ext r R (m_refl t rs M c)); [|apply R1; assumption]. intros a q La Lq. unfold m_step.
      destruct (Z.ltb_spec c q) as [Cq|]; [|reflexivity]. destruct (Z.ltb_spec q b); [|lia]. cbn [andb]. destruct (Z.leb_spec c a); [|reflexivity].
      destruct d; cbn [andb] in DB; [apply Z.ltb_ge in DB; lia|]. assert (T0 : m_tau t rs M c = 0) by (apply ED; reflexivity).
      rewrite T0, fconj_0. unfold m_refl. rewrite (m_tau_0 t rs M c) by (rewrite ?tsize; try exact T0; lia). destruct (feq_dec K 0 0) as [_|X]; [ring|congruence].
    + intros r R O. split; [|apply (R2 r R O)]. intros p q. rewrite (proj1 (R2 r R O)), T1 by assumption. reflexivity.
    + apply (pkeep_trans (fun c' => c' = c) (fun c' => c' = c) _ st s1); [auto|auto|exact KX|exact R3].
Qed.
(** ** The whole panel *)
(** the panel after c reflectors *)
Definition Mx (M : mat K) (c : Z) : mat K := fst (m_run rs t b (Z.to_nat c) M (fun _ => 0)).
Definition taux (M : mat K) (c : Z) : F K := m_tau t rs (Mx M c) c.
Definition pdec (M : mat K) (c : Z) : bool := if feq_dec K (taux M c) 0 then false else true.
Definition e_panel (M : mat K) : list (event (mat K)) := flat_map (fun c => e_refl (pdec M c) c) (zrange 0 nr).
Lemma fst_run : forall k M taus, fst (m_run rs t b k M taus) = Mx M (Z.of_nat k).
Proof using.
  intros k M taus. unfold Mx. rewrite Nat2Z.id. induction k as [|k IH]; [reflexivity|]. unfold m_run in *. rewrite Nat2Z.inj_succ. unfold Z.succ. rewrite zrange_snoc by lia. rewrite !fold_left_app. cbn [fold_left fst]. rewrite IH. reflexivity.
Qed.
Lemma Mx_S : forall M c, (0 <= c)%Z -> Mx M (c + 1) = m_step t rs b (Mx M c) c.
Proof using.
  intros M c L. unfold Mx. replace (Z.to_nat (c + 1)) with (S (Z.to_nat c)) by lia. unfold m_run. rewrite Nat2Z.inj_succ, Z2Nat.id by lia. unfold Z.succ. rewrite zrange_snoc by lia. rewrite !fold_left_app. reflexivity.
Qed.
Lemma snd_run : forall k M taus i, snd (m_run rs t b k M taus) i = if ((0 <=? i) && (i <? Z.of_nat k))%Z then taux M i else taus i.
Proof using.
  intros k M taus i. induction k as [|k IH]; [destruct (Z.leb_spec 0 i), (Z.ltb_spec i (Z.of_nat 0)); try lia; reflexivity|].
  pose proof (fst_run k M taus) as FR. unfold m_run in *. rewrite Nat2Z.inj_succ. unfold Z.succ. rewrite zrange_snoc by lia. rewrite !fold_left_app. cbn [fold_left snd]. rewrite IH, FR.
  destruct (Z.eqb_spec i (Z.of_nat k)) as [->|N]; [destruct (Z.leb_spec 0 (Z.of_nat k)), (Z.ltb_spec (Z.of_nat k) (Z.of_nat k + 1)); try lia; reflexivity|].
  destruct (Z.leb_spec 0 i), (Z.ltb_spec i (Z.of_nat k)), (Z.ltb_spec i (Z.of_nat k + 1)); try lia; reflexivity.
Qed.
Lemma pdec_iff : forall M c, pdec M c = false <-> taux M c = 0.
Proof using. intros M c. unfold pdec. destruct (feq_dec K (taux M c) 0); split; congruence. Qed.
Lemma e_panel_ok : forall M, Forall (event_ok mem rks) (e_panel M).
Proof using C. intros M. apply forall_flat. intros c _. apply e_refl_ok. Qed.
Lemma e_panel_proj : forall dec M r, In r rks -> (forall c, (0 <= c < nr)%Z -> dec r j c = pdec M c) ->
  proj mem r (e_panel M) = if onp r then p_panel rs P Q n mb b D avail minwork dec r j else [].
Proof using C.
  intros dec M r R ED. unfold e_panel, p_panel. rewrite (proj_flat P Q). destruct (onp r) eqn:O.
  - rewrite !flat_map_concat_map. f_equal. apply map_ext_in. intros c Ic. apply in_zrange in Ic. rewrite (e_refl_proj dec _ c r R (ED c Ic)), O. reflexivity.
  - apply flat_map_nil. intros c Ic. apply in_zrange in Ic. rewrite (e_refl_proj dec _ c r R (ED c Ic)), O. reflexivity.
Qed.
Lemma panel_run : forall st M, phas M st ->
  let st' := erun mem (e_panel M) st in
  phas (Mx M nr) st' /\
  (forall r, In r rks -> onp r = true -> (forall p q, st' (qTau r j) p q = if ((0 <=? p) && (p <? nr) && (q =? 0))%Z then taux M p else st (qTau r j) p q) /\
    forall c, (0 <= c < nr)%Z -> st' (qBr r j c) 0%Z 0%Z = taux M c) /\
  pkeep (fun c => 0 <= c < nr)%Z st st'.
Proof using C.
  intros st M H. pose proof nr_b as NB.
  assert (G : forall k, (0 <= k <= nr)%Z -> let st' := erun mem (flat_map (fun c => e_refl (pdec M c) c) (zrange 0 k)) st in
    phas (Mx M k) st' /\
    (forall r, In r rks -> onp r = true -> (forall p q, st' (qTau r j) p q = if ((0 <=? p) && (p <? k) && (q =? 0))%Z then taux M p else st (qTau r j) p q) /\
      forall c, (0 <= c < k)%Z -> st' (qBr r j c) 0%Z 0%Z = taux M c) /\
    pkeep (fun c => 0 <= c < k)%Z st st').
  2:{ apply (G nr). lia. }
  intros k Lk. rewrite <- (Z2Nat.id k) by lia. assert (Lk' : (Z.of_nat (Z.to_nat k) <= nr)%Z) by lia. revert Lk'. generalize (Z.to_nat k). clear k Lk. intros k Lk. induction k as [|k IH].
  - cbn [Z.of_nat]. cbn [zrange flat_map]. cbn zeta. change (erun mem (flat_map _ (zrange 0 0)) st) with st. split; [exact H|]. split; [|apply pkeep_refl]. intros r R O. split; [|lia].
    intros p q. destruct (Z.leb_spec 0 p), (Z.ltb_spec p 0); try lia; reflexivity.
  - rewrite Nat2Z.inj_succ in *. unfold Z.succ in *. specialize (IH ltac:(lia)). cbn zeta in *. rewrite zrange_snoc by lia. rewrite flat_map_app, (erun_app P Q). cbn [flat_map]. rewrite app_nil_r.
    set (s1 := erun mem (flat_map _ (zrange 0 (Z.of_nat k))) st) in *. destruct IH as (I1 & I2 & I3).
    destruct (refl_step s1 (Mx M (Z.of_nat k)) (Z.of_nat k) (pdec M (Z.of_nat k)) I1 ltac:(lia) (pdec_iff M _)) as (R1 & R2 & R3). set (s2 := erun mem (e_refl _ _) s1) in *. fold (taux M (Z.of_nat k)) in R2.
    split; [rewrite Mx_S by lia; exact R1|]. split.
    + intros r R O. destruct (R2 r R O) as [A1 A2], (I2 r R O) as [B1 B2]. split.
      * intros p q. rewrite A1, B1. destruct (Z.eqb_spec p (Z.of_nat k)) as [->|N]; cbn [andb].
        -- destruct (Z.leb_spec 0 (Z.of_nat k)), (Z.ltb_spec (Z.of_nat k) (Z.of_nat k)), (Z.ltb_spec (Z.of_nat k) (Z.of_nat k + 1)); try lia. cbn [andb]. destruct (q =? 0)%Z; reflexivity.
        -- destruct (Z.leb_spec 0 p), (Z.ltb_spec p (Z.of_nat k)), (Z.ltb_spec p (Z.of_nat k + 1)); try lia; reflexivity.
      * intros c Lc. destruct (Z.eq_dec c (Z.of_nat k)) as [->|N]; [exact A2|]. rewrite (proj2 R3); [apply B2; lia|cbn [qBr t_mat]; lia|intros; discriminate| |intros; discriminate].
        intros r' c' _ _ -> E. injection E. lia.
    + apply (pkeep_trans (fun c => 0 <= c < Z.of_nat k)%Z (fun c => c = Z.of_nat k) _ st s1); [lia|lia|exact I3|exact R3].
Qed.
End panel.
