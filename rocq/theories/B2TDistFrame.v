(** * What the tasks of the distributed band_to_tridiagonal read and write is inside their footprints *)
From Coq Require Import ZArith Lia List Bool Ring.
From Verif Require Import Loop StarField DenseSpec HouseSpec HouseModel B2TMsgModel B2TMsgSpec B2TMsgProofs SemModel SemProofs B2TModel B2TSched B2TFrame B2TDistModel B2TDistStruct B2TDistSeq B2TDistVal B2TDistSplit B2TDistRing B2TDistStep B2TDistCopy.
Import ListNotations.
Local Open Scope Z_scope.

Section frame.
Context {K : starfield} (lf : larfg_fn K) (g : msg_cfg) (A : mat K).
Hypothesis G : cfg_ok g.
Hypothesis LF : larfg_local lf.
Notation size := (m_size g).
Notation nb := (m_nb g).
Notation b := (m_b g).
Notation nbb := (nb_band g).
Notation spb := (steps_per_block g).
Notation tpb := (tiles_per_block g).
Notation wpt := (workers_per_tile g).
Notation mem := (dloc -> list (F K)).
Notation Eff := (b2td_eff lf g A).
Notation aok := (B2TDistSeq.act_ok g).
Notation S_ k lo hi := (wrel (rf g k) (Ww g lo hi) (Sw g k lo hi)).
(** the local algorithm on the same matrix *)
Lemma l_size : 0 <= size. Proof using G. apply G. Qed.
Lemma l_div : nb mod b = 0. Proof using G. apply G. Qed.
Notation lok := (B2TSched.act_ok (m_cplx g) size nb b).

Definition unroll (m : mem) (k : Z) : Z -> F K := fun z => bmem g m k (rf g k z).
Lemma wrel_unroll : forall (m : mem) k lo hi, S_ k lo hi (bmem g m k) (bmem g m k) (unroll m k).
Proof using. intros. split; [intros z _; reflexivity|apply stays_refl]. Qed.
Lemma bmem_at : forall (m : mem) k i o, 0 <= o < 2 * b -> bmem g m k (i * (2 * b) + o) = vget (m (LCol k i)) o.
Proof using G. intros m k i o Lo. unfold bmem. destruct (co g G i o Lo) as [-> ->]. reflexivity. Qed.
Lemma unroll_at : forall (m : mem) k c o, 0 <= o < 2 * b -> unroll m k (c * (2 * b) + o) = vget (m (LCol k (ring g k c))) o.
Proof using G. intros m k c o Lo. unfold unroll. rewrite (rf_at g G) by exact Lo. rewrite (rptr_co g). apply bmem_at. exact Lo. Qed.
Lemma col_get : forall (B : Z -> F K) i o, 0 <= o < 2 * b -> vget (col_at g B i) o = B (i * (2 * b) + o).
Proof using. intros B i o Lo. unfold col_at. rewrite vget_range by lia. f_equal. Qed.
Lemma col_ext : forall (B B' : Z -> F K) i, (forall o, 0 <= o < 2 * b -> B (i * (2 * b) + o) = B' (i * (2 * b) + o)) -> col_at g B i = col_at g B' i.
Proof using. intros B B' i E. apply map_ext_in. intros o Io. apply in_zrange in Io. apply E. lia. Qed.
Lemma touches_iff : forall a k i, touches g a k i = true <-> let '(blk, lo, hi) := B2TDistModel.cols_of g a in k = blk /\ exists c, lo <= c < hi /\ ring g k c = i.
Proof using.
  intros a k i. unfold touches. destruct (B2TDistModel.cols_of g a) as [[blk lo] hi]. rewrite andb_true_iff, existsb_exists. split.
  - intros [E (c & I & Ec)]. apply in_zrange in I. split; [lia|]. exists c. split; [lia|lia].
  - intros [-> (c & L & <-)]. split; [apply Z.eqb_refl|]. exists c. rewrite in_zrange. split; [lia|apply Z.eqb_refl].
Qed.
Lemma agree_unroll : forall (m m' : mem) k lo hi, (forall c, lo <= c < hi -> m (LCol k (ring g k c)) = m' (LCol k (ring g k c))) -> agree (Ww g lo hi) (unroll m k) (unroll m' k).
Proof using G. intros m m' k lo hi E z Wz. destruct (oc g G z) as (c & o & Lo & ->). rewrite (Ww_at g G) in Wz by exact Lo. rewrite !unroll_at by exact Lo. rewrite E by exact Wz. reflexivity. Qed.

(** ** geometry of the steps *)
Lemma wid_d_eq : forall s t, 0 <= t -> wid_d g s t = (s, t).
Proof using G.
  intros s t Lt. destruct (kb g G t Lt) as (K0 & K1 & K2). unfold wid_d, set_id.
  assert (H : forall n q, Nat.iter n next_id (s, q) = (s, q + Z.of_nat n)). { induction n as [|n IH]; intros q; [cbn; f_equal; lia|]. cbn [Nat.iter nat_rect]. change (nat_rect _ _ _ n) with (Nat.iter n next_id (s, q)). rewrite IH. unfold next_id. cbn [fst snd]. f_equal. lia. }
  rewrite H. f_equal. lia.
Qed.
Lemma wid_l_eq : forall s t, 0 <= t -> wid s t = (s, t).
Proof using G. intros s t Lt. apply (wid_eq size nb b 1 l_size (g_b g G) (g_nb g G) l_div ltac:(lia)). exact Lt. Qed.
Lemma step_geo : forall s t, 0 <= s < sweeps g -> 0 <= t < steps g s -> let j := first_row b (s, t) in let n := size_hhr size b (s, t) in let m := Z.min b (size - b - j) in
  j = 1 + s + t * b /\ 0 < n <= b /\ j + n = Z.min size (1 + s + (t + 1) * b) /\ (0 < m -> n = b) /\ m <= b /\ (t + 1 < steps g s -> 1 < m /\ size_hhr size b (s, t + 1) = m).
Proof using G.
  intros s t Ls Lt. cbv zeta. pose proof (proj1 (B2TDistStruct.steps_lt g G s t) (proj2 Lt)) as H. pose proof (B2TDistStruct.sweeps_le g) as SL. pose proof (g_b g G). unfold size_hhr, first_row. cbn [fst snd].
  assert (X : t + 1 < steps g s -> if s =? size - 2 then t + 1 < 1 else (t + 1) * b < size - s - 2) by (apply (B2TDistStruct.steps_lt g G s (t + 1))).
  destruct (Z.eqb_spec s (size - 2)) as [E|N].
  - assert (t = 0) by lia. subst t. repeat split; try lia.
  - repeat split; try lia.
Qed.
Lemma do_step_tail : forall k w tau v B i, let j := first_row b w in let m := Z.min b (size - b - j) in (1 < m -> m <= i) -> snd (fst (do_step_d lf g k w tau v B)) i = v i.
Proof using.
  intros k w tau v B i j m L. unfold do_step_d, do_step_split_d, do_step_full_d. fold j m. cbv zeta.
  destruct (_ <? size_hhr size b w); (destruct (Z.ltb_spec 1 m); [|reflexivity]); unfold hh_reflector; destruct (lf m _) as [[be x] ta]; cbn [fst snd]; (destruct (Z.eqb_spec i 0); [lia|]); (replace ((0 <? i) && (i <? m)) with false by lia); reflexivity.
Qed.

(** ** footprints *)
Lemma step_local : forall k s t tau v v' B B', 0 <= s < sweeps g -> 0 <= t < steps g s -> (forall i, v i = v' i) -> agree (Ww g (first_row b (s, t)) (first_row b (s, t) + size_hhr size b (s, t))) (fun z => B (rf g k z)) (fun z => B' (rf g k z)) ->
  fst (fst (do_step_d lf g k (s, t) tau v B)) = fst (fst (do_step_d lf g k (s, t) tau v' B')) /\
  (forall i, 0 <= i -> snd (fst (do_step_d lf g k (s, t) tau v B)) i = snd (fst (do_step_d lf g k (s, t) tau v' B')) i) /\
  (forall z, Ww g (first_row b (s, t)) (first_row b (s, t) + size_hhr size b (s, t)) z = true -> snd (do_step_d lf g k (s, t) tau v B) (rf g k z) = snd (do_step_d lf g k (s, t) tau v' B') (rf g k z)).
Proof using G LF.
  intros k s t tau v v' B B' Ls Lt EV AG. pose proof (step_geo s t Ls Lt) as GE. cbv zeta in GE. destruct GE as (EJ & Ln & EN & EB & Lm & _). set (j := first_row b (s, t)) in *. set (n := size_hhr size b (s, t)) in *.
  assert (OK : lok (B2TModel.Step s t)) by (cbn [B2TSched.act_ok]; exact (conj Ls Lt)).
  destruct (step_ring lf g G LF k (s, t) tau v v B B (fun z => B (rf g k z)) Ln EB (conj (fun z _ => eq_refl) (stays_refl _ _)) (fun i _ => eq_refl)) as (E1 & E2 & [E3 _]).
  destruct (step_ring lf g G LF k (s, t) tau v' v' B' B' (fun z => B' (rf g k z)) Ln EB (conj (fun z _ => eq_refl) (stays_refl _ _)) (fun i _ => eq_refl)) as (D1 & D2 & [D3 _]).
  pose proof (step_agree lf (m_cplx g) size nb b 1 l_size (g_b g G) (g_nb g G) l_div ltac:(lia) LF s t tau v v' (fun z => B (rf g k z)) (fun z => B' (rf g k z)) OK EV) as SA.
  rewrite wid_l_eq in SA by lia.
  destruct SA as (F1 & F2 & F3).
  { intros z Sz. apply AG. unfold B2TModel.touches, Ww in *. cbn [B2TModel.cols_of fst snd] in Sz. lia. }
  cbv zeta in E2, D2. fold j n in E2, D2, E3, D3. split; [exact (eq_trans E1 (eq_trans F1 (eq_sym D1)))|]. split.
  - intros i Li. destruct (Z_lt_ge_dec i (if 1 <? Z.min b (size - b - j) then Z.min b (size - b - j) else n)) as [L|L]; [exact (eq_trans (E2 i (conj Li L)) (eq_trans (F2 i) (eq_sym (D2 i (conj Li L)))))|].
    rewrite !do_step_tail; [apply EV| |]; fold j; destruct (Z.ltb_spec 1 (Z.min b (size - b - j))); lia.
  - intros z Wz. refine (eq_trans (eq_sym (E3 z Wz)) (eq_trans (F3 z _) (D3 z Wz))). unfold B2TModel.touches, Ww in *. cbn [B2TModel.cols_of fst snd]. lia.
Qed.
Lemma tri_ext : forall (B B' : Z -> F K) st nd ne, 0 < nd <= ncols g 0 -> nd - 1 <= ne <= nd -> (forall c o, st <= c < st + nd -> 0 <= o < 2 * b -> B (rptr g 0 o c) = B' (rptr g 0 o c)) -> tri_copy_d g B st nd ne = tri_copy_d g B' st nd ne.
Proof using G.
  intros B B' st nd ne L1 L2 E. pose proof (g_b g G) as Hb. unfold tri_copy_d. pose proof (ring_range g G 0 st) as RR. set (n1 := next_split g 0 st). assert (N1 : 1 <= n1) by (unfold n1, next_split; lia).
  assert (RE : forall off c n, 0 <= off < 2 -> st <= c -> c + n <= st + nd -> (forall y, 0 <= y < n -> ring g 0 (c + y) = ring g 0 c + y) -> band_row g B 0 off c n = band_row g B' 0 off c n).
  { intros off c n Lo Lc Ln CT. apply map_ext_in. intros i Ii. apply in_zrange in Ii. f_equal. replace (rptr g 0 off c + i * (b_ld b + 1)) with (rptr g 0 off (c + i)) by (unfold rptr, b_ld; rewrite CT by lia; lia). apply E; lia. }
  assert (CT1 : forall y, 0 <= y < n1 -> ring g 0 (st + y) = ring g 0 st + y) by (intros y Ly; apply ring_next; [exact G|exact Ly]). assert (RW : ring g 0 (st + n1) = 0) by (apply ring_wrap; exact G).
  assert (CT2 : forall y, 0 <= y < ncols g 0 -> ring g 0 (st + n1 + y) = ring g 0 (st + n1) + y) by (intros y Ly; apply ring_next; [exact G|unfold next_split; rewrite RW; lia]).
  destruct (Z.ltb_spec n1 nd) as [S|S].
  - rewrite !(RE _ st n1), !(RE 0 (st + n1)), !(RE 1 (st + n1)); try reflexivity; try lia; try exact CT1; intros y Ly; apply CT2; lia.
  - rewrite !(RE _ st); try reflexivity; try lia; intros y Ly; apply CT1; lia.
Qed.
Lemma fin_geo : forall i, 0 < size -> i = size \/ (i = size - 1 /\ m_cplx g = false) -> 0 <= tri_tile g i < ntl g /\ 0 < fin_nd g i <= nb /\ fin_nd g i - 1 <= fin_ne g i <= fin_nd g i /\ fin_nd g i = tszd g (tri_tile g i) /\ B2TDistModel.tri_start g i = tri_tile g i * nb.
Proof using G.
  intros i SZ H. pose proof (g_nb g G) as Hn. pose proof (g_b g G) as Hb. pose proof (b_div_nb g G) as BN. assert (Q : 0 <= tri_tile g i /\ tri_tile g i * nb < size).
  { unfold tri_tile. destruct (Z.eq_dec i 0) as [->|NZ].
    - change (0 - 1) with (- (1)). rewrite Z.quot_opp_l, Z.quot_small by lia. lia.
    - rewrite Z.quot_div_nonneg by lia. pose proof (Z.div_pos (i - 1) nb ltac:(lia) Hn). pose proof (Z.mul_div_le (i - 1) nb Hn). lia. }
  split; [split; [lia|]; apply (ntl_lt g G); lia|]. unfold fin_nd, fin_ne, tszd, B2TDistModel.tri_start. lia.
Qed.

Definition copy_l (jt : Z) (BL : Z -> F K) : Z -> F K := let BL := copy_diag size nb b A jt BL in if jt <? ntl g - 1 then copy_off_diag size nb b A jt BL else BL.
Lemma copy_ring : forall jt B0 B BL, 0 <= jt < ntl g -> S_ (jt / tpb) (jt * nb) (jt * nb + tszd g jt) B0 B BL -> S_ (jt / tpb) (jt * nb) (jt * nb + tszd g jt) B0 (copy_d g A (jt / tpb) jt B) (copy_l jt BL).
Proof using G.
  intros jt B0 B BL L R. unfold copy_d, copy_l. cbv zeta. apply (copyd_ring g A G jt B0 B BL L) in R. destruct (Z.ltb_spec jt (ntl g - 1)); [|exact R]. apply (copyo_ring g A G jt); [lia|exact R].
Qed.
Lemma copy_l_agree : forall jt S B B', 0 <= jt < ntl g -> agree S B B' -> agree S (copy_l jt B) (copy_l jt B').
Proof using G.
  intros jt S B B' L AG. unfold copy_l. cbv zeta. pose proof (copyd_agree (m_cplx g) size nb b 1 A l_size (g_b g G) (g_nb g G) l_div ltac:(lia) jt B B' S) as D.
  assert (OK : lok (CopyD jt)) by exact L. specialize (D OK AG). destruct (Z.ltb_spec jt (ntl g - 1)) as [C|C]; [|exact D].
  apply (copyo_agree (m_cplx g) size nb b 1 A l_size (g_b g G) (g_nb g G) l_div ltac:(lia)); [|exact D]. change (0 <= jt < ntl g - 1). lia.
Qed.
Lemma agree_S : forall (m m' : mem) k lo hi, (forall c, lo <= c < hi -> m (LCol k (ring g k c)) = m' (LCol k (ring g k c))) -> agree (Sw g k lo hi) (bmem g m k) (bmem g m' k).
Proof using G. intros m m' k lo hi E z Sz. destruct (oc g G z) as (i & o & Lo & ->). apply (Sw_at g G) in Sz; [|exact Lo]. destruct Sz as (c & Lc & <-). rewrite !bmem_at, E by assumption. reflexivity. Qed.
Lemma tile_hi : forall jt, Z.min size ((jt + 1) * nb) = jt * nb + tszd g jt.
Proof using. intros jt. unfold tszd. lia. Qed.
Lemma init_geo : forall s, 0 <= s < sweeps g -> 0 < Z.min (size - s - 1) b /\ forall i, 0 <= i < Z.min (size - s - 1) b -> Sw g 0 s (s + 1) (rptr g 0 1 s + i) = true.
Proof using G.
  intros s Ls. pose proof (B2TDistStruct.sweeps_le g). pose proof (g_b g G). split; [lia|]. intros i Li. rewrite rptr_co. replace (ring g 0 s * (2 * b) + 1 + i) with (ring g 0 s * (2 * b) + (1 + i)) by lia.
  apply (Sw_at g G); [lia|]. exists s. split; [lia|reflexivity].
Qed.
Lemma nb_nbb : nb <= nbb. Proof using G. destruct (g_bb g G) as [E L]. pose proof (g_nb g G). rewrite E. nia. Qed.
Lemma nbb_cols : forall k, nbb < ncols g k. Proof using G. intros k. pose proof (ncols_lo g G k). lia. Qed.
(** what an action writes depends only on what it is said to read *)
Theorem eff_inside_d : forall a (m m' : mem), 0 < size -> aok a -> (forall l, drd g a l = true -> m l = m' l) -> forall l, dwr g a l = true -> Eff a m l = Eff a m' l.
Proof using G LF.
  intros a m m' SZ [OK X] RD l W.
  assert (COL : let '(k, lo, hi) := B2TDistModel.cols_of g a in forall c, lo <= c < hi -> m (LCol k (ring g k c)) = m' (LCol k (ring g k c))).
  { destruct (B2TDistModel.cols_of g a) as [[k lo] hi] eqn:E. intros c Lc. apply RD. cbn [drd]. apply touches_iff. rewrite E. split; [reflexivity|]. exists c. auto. }
  assert (WRK : forall k w, B2TDistModel.uses_worker g a k w = true -> m (LWk k w) = m' (LWk k w)) by (intros k w U; apply RD; exact U).
  pose proof (g_b g G) as Hb. pose proof nb_nbb as NN. pose proof (nbb_cols 0) as NC. pose proof (g_nb g G) as Hn.
  assert (TI : forall k i, dwr g a (LCol k i) = true -> let '(blk, lo, hi) := B2TDistModel.cols_of g a in k = blk /\ exists c, lo <= c < hi /\ ring g k c = i) by (intros k i U; apply touches_iff; cbn [dwr] in U; apply andb_prop in U; tauto).
  destruct a as [j|s k|s k|s|s|s t|s t|s k|s k|i]; cbn [owner B2TDistStruct.tok] in OK.
  - destruct l as [k' i| | | | |]; try discriminate W. specialize (TI k' i W). cbn [B2TDistModel.cols_of] in TI, COL. destruct TI as (-> & c & Lc & <-). cbn [b2td_eff]. rewrite Z.eqb_refl. apply col_ext. intros o Lo.
    rewrite tile_hi in Lc, COL. destruct (copy_ring j _ _ _ OK (wrel_unroll m (j / tpb) (j * nb) (j * nb + tszd g j))) as [E1 _]. destruct (copy_ring j _ _ _ OK (wrel_unroll m' (j / tpb) (j * nb) (j * nb + tszd g j))) as [E2 _].
    rewrite <- (rptr_co g), <- (rf_at g G) by exact Lo. assert (Wz : Ww g (j * nb) (j * nb + tszd g j) (c * (2 * b) + o) = true) by (apply (Ww_at g G); assumption).
    rewrite <- E1, <- E2 by exact Wz. apply (copy_l_agree j (Ww g (j * nb) (j * nb + tszd g j))); [exact OK| |exact Wz]. apply agree_unroll. exact COL.
  - destruct l as [| |s' k'| | |]; try (cbn [dwr writes_cols] in W; rewrite ?andb_false_r in W; discriminate W). cbn [dwr] in W. cbn [b2td_eff]. rewrite W. apply map_ext_in. intros o Io. apply in_zrange in Io. rewrite (rptr_co g), Z.add_0_r, !bmem_at by lia. cbn [B2TDistModel.cols_of] in COL. rewrite COL by lia. reflexivity.
  - destruct l as [k' i| | | | |]; try discriminate W. specialize (TI k' i W). cbn [B2TDistModel.cols_of] in TI. destruct TI as (-> & c & Lc & <-). cbn [b2td_eff]. rewrite Z.eqb_refl. assert (c = next_j g s k) by lia. subst c. apply col_ext. intros o Lo. rewrite (rptr_co g), Z.add_0_r.
    replace ((ring g k (next_j g s k) * (2 * b) <=? ring g k (next_j g s k) * (2 * b) + o) && (ring g k (next_j g s k) * (2 * b) + o <? ring g k (next_j g s k) * (2 * b) + 2 * b)) with true by lia. f_equal. apply RD. cbn [drd]. rewrite !Z.eqb_refl. reflexivity.
  - destruct (init_geo s OK) as [L IN]. cbn [B2TDistModel.cols_of] in COL. cbn [b2td_eff]. unfold start_sweep_d. assert (EW : m (LWk 0 (s mod wpt)) = m' (LWk 0 (s mod wpt))) by (apply WRK; unfold B2TDistModel.uses_worker; cbn [worker_of]; rewrite !Z.eqb_refl; reflexivity). rewrite EW.
    pose proof (refl_agree (Sw g 0 s (s + 1)) lf LF (Z.min (size - s - 1) b) (wvec (m' (LWk 0 (s mod wpt)))) (wvec (m' (LWk 0 (s mod wpt)))) (bmem g m 0) (bmem g m' 0) (rptr g 0 1 s) L IN (agree_S m m' 0 s (s + 1) COL) (fun i => eq_refl)) as (E1 & E2 & E3).
    destruct (hh_reflector _ _ _ _ _) as [[tau v] B]. destruct (hh_reflector _ _ _ (bmem g m' 0) _) as [[tau' v'] B']. cbn [fst snd] in *. destruct l as [k' i|k' w'| | | |]; try discriminate W; unfold put_d.
    + specialize (TI k' i W). cbn [B2TDistModel.cols_of] in TI. destruct TI as (-> & c & Lc & <-). rewrite Z.eqb_refl. apply col_ext. intros o Lo. apply E3. apply (Sw_at g G); [exact Lo|]. exists c. auto.
    + cbn [dwr B2TDistModel.uses_worker worker_of writes_worker] in W. rewrite andb_true_r in W. rewrite W. unfold wdata. f_equal; [exact E1|]. apply map_ext. exact E2.
  - destruct l as [| | | | |i]; try (cbn [dwr writes_cols] in W; rewrite ?andb_false_r in W; discriminate W). cbn [dwr] in W. cbn [b2td_eff]. rewrite W. cbn [B2TDistModel.cols_of] in COL. apply tri_ext; [lia|lia|]. intros c o Lc Lo. rewrite (rptr_co g), !bmem_at, COL by lia. reflexivity.
  - destruct l as [| | | |s' t'|]; try (cbn [dwr writes_cols writes_worker] in W; rewrite ?andb_false_r in W; discriminate W).
    + exfalso. specialize (TI _ _ W). cbn [B2TDistModel.cols_of] in TI. destruct TI as (_ & c & Lc & _). lia.
    + cbn [dwr] in W. cbn [b2td_eff]. rewrite W. rewrite (WRK (t / spb) (s mod wpt)); [reflexivity|]. unfold B2TDistModel.uses_worker; cbn [worker_of]; rewrite !Z.eqb_refl; reflexivity.
  - destruct OK as [Ls Lt]. cbn [B2TDistModel.cols_of] in COL. cbn [b2td_eff]. assert (EW : m (LWk (t / spb) (s mod wpt)) = m' (LWk (t / spb) (s mod wpt))) by (apply WRK; unfold B2TDistModel.uses_worker; cbn [worker_of]; rewrite !Z.eqb_refl; reflexivity).
    rewrite EW, wid_d_eq by lia. pose proof (step_geo s t Ls Lt) as GE. cbv zeta in GE. destruct GE as (EJ & Ln & EN & _).
    destruct (step_local (t / spb) s t (wtau (m' (LWk (t / spb) (s mod wpt)))) (wvec (m' (LWk (t / spb) (s mod wpt)))) (wvec (m' (LWk (t / spb) (s mod wpt)))) (bmem g m (t / spb)) (bmem g m' (t / spb)) Ls Lt (fun i => eq_refl)) as (E1 & E2 & E3).
    { apply (agree_unroll m m'). rewrite EN, EJ. exact COL. }
    destruct (do_step_d _ _ _ _ _ _ (bmem g m _)) as [[tau v] B]. destruct (do_step_d _ _ _ _ _ _ (bmem g m' _)) as [[tau' v'] B']. cbn [fst snd] in *. destruct l as [k' i|k' w'| | | |]; try discriminate W; unfold put_d.
    + specialize (TI k' i W). cbn [B2TDistModel.cols_of] in TI. destruct TI as (-> & c & Lc & <-). rewrite Z.eqb_refl. apply col_ext. intros o Lo. rewrite <- (rptr_co g), <- (rf_at g G) by exact Lo. apply E3. apply (Ww_at g G); [exact Lo|]. rewrite EN, EJ. exact Lc.
    + cbn [dwr B2TDistModel.uses_worker worker_of writes_worker] in W. rewrite andb_true_r in W. rewrite W. unfold wdata. f_equal; [exact E1|]. apply map_ext_in. intros i Ii. apply in_zrange in Ii. apply E2. lia.
  - destruct l as [| | |s' k'| |]; try (cbn [dwr writes_cols writes_worker] in W; rewrite ?andb_false_r in W; discriminate W).
    + exfalso. specialize (TI _ _ W). cbn [B2TDistModel.cols_of] in TI. destruct TI as (_ & c & Lc & _). lia.
    + cbn [dwr] in W. cbn [b2td_eff]. rewrite W. rewrite (WRK k (s mod wpt)); [reflexivity|]. unfold B2TDistModel.uses_worker; cbn [worker_of]; rewrite !Z.eqb_refl; reflexivity.
  - destruct l as [|k' w'| | | |]; try (cbn [dwr writes_cols writes_worker] in W; rewrite ?andb_false_r in W; discriminate W).
    + exfalso. specialize (TI _ _ W). cbn [B2TDistModel.cols_of] in TI. destruct TI as (_ & c & Lc & _). lia.
    + cbn [dwr B2TDistModel.uses_worker worker_of writes_worker] in W. rewrite andb_true_r in W. cbn [b2td_eff]. rewrite W. rewrite (RD (LMW s k)); [reflexivity|]. cbn [drd]. rewrite !Z.eqb_refl. reflexivity.
  - destruct l as [| | | | |j]; try (cbn [dwr writes_cols] in W; rewrite ?andb_false_r in W; discriminate W). cbn [dwr] in W. cbn [b2td_eff]. rewrite W. cbn [B2TDistModel.cols_of] in COL. destruct (fin_geo i SZ OK) as (F1 & F2 & F3 & F4 & F5).
    apply tri_ext; [lia|lia|]. intros c o Lc Lo. rewrite (rptr_co g), !bmem_at, COL by (unfold fin_nd in *; lia). reflexivity.
Qed.
(** what is not in the footprint is not changed *)
Theorem eff_outside_d : forall a (m : mem) l, 0 < size -> aok a -> dwr g a l = false -> match l with LCol _ _ => forall o, 0 <= o < 2 * b -> vget (Eff a m l) o = vget (m l) o | _ => Eff a m l = m l end.
Proof using G LF.
  intros a m l SZ [OK X] W.
  assert (TI : forall k i o, writes_cols a = true -> dwr g a (LCol k i) = false -> 0 <= o < 2 * b -> let '(blk, lo, hi) := B2TDistModel.cols_of g a in k = blk -> Sw g blk lo hi (i * (2 * b) + o) = false).
  { intros k i o WC U Lo. pose proof (touches_iff a k i) as TF. cbn [dwr] in U. rewrite WC, andb_true_r in U. destruct (B2TDistModel.cols_of g a) as [[blk lo] hi]. intros <-. destruct (Sw _ _ _ _ _) eqn:E; [|reflexivity]. apply (Sw_at g G) in E; [|exact Lo]. rewrite (proj2 TF) in U; [discriminate|]. auto. }
  pose proof (g_b g G) as Hb.
  destruct a as [j|s k|s k|s|s|s t|s t|s k|s k|i]; cbn [owner B2TDistStruct.tok] in OK; cbn [b2td_eff].
  - destruct l as [k' i| | | | |]; try reflexivity. intros o Lo. destruct (Z.eqb_spec k' (j / tpb)) as [->|N]; [|reflexivity]. specialize (TI (j / tpb) i o eq_refl W Lo). cbn [B2TDistModel.cols_of] in TI. specialize (TI eq_refl). rewrite tile_hi in TI.
    destruct (copy_ring j _ _ _ OK (wrel_unroll m (j / tpb) (j * nb) (j * nb + tszd g j))) as [_ ST]. rewrite col_get by exact Lo. rewrite (ST _ TI). apply bmem_at. exact Lo.
  - destruct l; try reflexivity. cbn [dwr] in W. rewrite W. reflexivity.
  - destruct l as [k' i| | | | |]; try reflexivity. intros o Lo. destruct (Z.eqb_spec k' k) as [->|N]; [|reflexivity]. specialize (TI k i o eq_refl W Lo). cbn [B2TDistModel.cols_of] in TI. specialize (TI eq_refl).
    rewrite col_get by exact Lo. cbv zeta. rewrite (rptr_co g), Z.add_0_r. assert (N : i <> ring g k (next_j g s k)). { intros ->. rewrite (proj2 (Sw_at g G k _ _ _ o Lo)) in TI; [discriminate|]. exists (next_j g s k). split; [lia|reflexivity]. }
    replace ((ring g k (next_j g s k) * (2 * b) <=? i * (2 * b) + o) && (i * (2 * b) + o <? ring g k (next_j g s k) * (2 * b) + 2 * b)) with false; [apply bmem_at; exact Lo|]. symmetry. apply andb_false_iff. set (r := ring g k (next_j g s k)) in *. rewrite Z.leb_gt, Z.ltb_ge. nia.
  - destruct (init_geo s OK) as [L IN]. unfold start_sweep_d. pose proof (refl_stays (Sw g 0 s (s + 1)) lf (Z.min (size - s - 1) b) (wvec (m (LWk 0 (s mod wpt)))) (bmem g m 0) (rptr g 0 1 s) L IN) as ST.
    destruct (hh_reflector _ _ _ _ _) as [[tau v] B]. cbn [snd] in ST. destruct l as [k' i|k' w'| | | |]; try reflexivity; unfold put_d.
    + intros o Lo. destruct (Z.eqb_spec k' 0) as [->|N]; [|reflexivity]. specialize (TI 0 i o eq_refl W Lo). cbn [B2TDistModel.cols_of] in TI. specialize (TI eq_refl). rewrite col_get by exact Lo. rewrite (ST _ TI). apply bmem_at. exact Lo.
    + cbn [dwr B2TDistModel.uses_worker worker_of writes_worker] in W. rewrite andb_true_r in W. rewrite W. reflexivity.
  - destruct l; try reflexivity. cbn [dwr] in W. rewrite W. reflexivity.
  - destruct l; try reflexivity. cbn [dwr] in W. rewrite W. reflexivity.
  - destruct OK as [Ls Lt]. rewrite wid_d_eq by lia. pose proof (step_geo s t Ls Lt) as GE. cbv zeta in GE. destruct GE as (EJ & Ln & EN & EB & _). set (k := t / spb) in *. set (w := m (LWk k (s mod wpt))).
    destruct (step_ring lf g G LF k (s, t) (wtau w) (wvec w) (wvec w) (bmem g m k) (bmem g m k) (unroll m k) Ln EB (wrel_unroll m k _ _) (fun i _ => eq_refl)) as (_ & _ & [_ ST]).
    destruct (do_step_d _ _ _ _ _ _ _) as [[tau v] B]. cbn [snd] in ST. destruct l as [k' i|k' w'| | | |]; try reflexivity; unfold put_d.
    + intros o Lo. destruct (Z.eqb_spec k' k) as [->|N]; [|reflexivity]. specialize (TI k i o eq_refl W Lo). cbn [B2TDistModel.cols_of] in TI. specialize (TI eq_refl). rewrite col_get by exact Lo. rewrite ST; [apply bmem_at; exact Lo|]. rewrite EN, EJ. exact TI.
    + cbn [dwr B2TDistModel.uses_worker worker_of writes_worker] in W. rewrite andb_true_r in W. fold k in W. rewrite W. reflexivity.
  - destruct l; try reflexivity. cbn [dwr] in W. rewrite W. reflexivity.
  - destruct l as [|k' w'| | | |]; try reflexivity. cbn [dwr B2TDistModel.uses_worker worker_of writes_worker] in W. rewrite andb_true_r in W. rewrite W. reflexivity.
  - destruct l; try reflexivity. cbn [dwr] in W. rewrite W. reflexivity.
Qed.
End frame.
