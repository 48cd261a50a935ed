(** * The distributed band_to_tridiagonal computes what the local one computes *)
From Coq Require Import ZArith Lia List Bool Ring.
From Verif Require Import Loop StarField DenseSpec HouseSpec HouseModel B2TMsgModel B2TMsgSpec B2TMsgProofs SemModel SemProofs B2TModel B2TSched B2TFrame B2TResult B2TNum B2TDistModel B2TDistStruct B2TDistSeq B2TDistVal B2TDistSplit B2TDistRing B2TDistStep B2TDistCopy B2TDistFrame.
Import ListNotations.
Local Open Scope Z_scope.

Section sim.
Context {K : starfield} (lf : larfg_fn K) (g : msg_cfg) (A : mat K).
Hypothesis G : cfg_ok g.
Hypothesis LF : larfg_local lf.
Variable rdv : dthread -> bool.
Notation size := (m_size g).
Notation nb := (m_nb g).
Notation b := (m_b g).
Notation nbb := (nb_band g).
Notation spb := (steps_per_block g).
Notation tpb := (tiles_per_block g).
Notation wpt := (workers_per_tile g).
Notation mem := (dloc -> list (F K)).
Notation meml := (loc -> F K).
Notation PD := (b2td_val lf g A rdv).
Notation PL := (b2t lf (m_cplx g) size nb b 1 A).
Notation lok := (B2TSched.act_ok (m_cplx g) size nb b).
Notation S_ k lo hi := (wrel (rf g k) (Ww g lo hi) (Sw g k lo hi)).
Notation wl s := (worker size b 1 s).
Notation hn s t := (size_hhr size b (s, t)).

(** the columns [lo, size) of the band are in the ring buffers of the blocks H *)
Definition Rc (H : Z -> Z) (lo : Z) (mD : mem) (mL : meml) : Prop := forall c o, lo <= c < size -> 0 <= o < 2 * b -> vget (mD (LCol (H c) (ring g (H c) c))) o = mL (LB (c * (2 * b) + o)).
Definition HHr (s t : Z) (mD : mem) (mL : meml) : Prop := forall s' t', 0 <= s' < sweeps g -> 0 <= t' < steps g s' -> s' < s \/ (s' = s /\ t' < t) -> forall i, 0 <= i < hn s' t' -> vget (mD (LHH s' t')) i = mL (B2TModel.LHH (hht_pos b s' t' + i) s').
Definition Tr (hi : Z) (mD : mem) (mL : meml) : Prop := forall c, 0 <= c < hi -> vget (mD (LTri (c / nb))) (c mod nb) = mL (LTd c) /\ (c < size - 1 -> vget (mD (LTri (c / nb))) (tszd g (c / nb) + c mod nb) = mL (LTe c)).
Definition Wk (s k n : Z) (mD : mem) (mL : meml) : Prop := wtau (mD (LWk k (s mod wpt))) = mL (LTau (wl s)) /\ forall i, 0 <= i < n -> wvec (mD (LWk k (s mod wpt))) i = mL (LVec (wl s) i).
(** the block of a column at the beginning of sweep s, after q messages *)
Definition home (s q c : Z) : Z := if c <=? s then 0 else let d := (c - s) / nbb in if ((c - s) mod nbb =? 0) && (d <=? q) then d - 1 else d.
Definition spread (H : Z -> Z) (lo : Z) : Prop := forall c c', lo <= c < size -> lo <= c' < size -> H c = H c' -> Z.abs (c - c') < ncols g (H c).

Lemma home_range : forall s q c, s < c -> 0 <= home s q c /\ home s q c * nbb <= c - s <= (home s q c + 1) * nbb.
Proof using G.
  intros s q c L. pose proof (nbb2 g G) as N2. unfold home. replace (c <=? s) with false by lia. cbv zeta. pose proof (Z.div_mod (c - s) nbb ltac:(lia)). pose proof (Z.mod_pos_bound (c - s) nbb ltac:(lia)). pose proof (Z.div_pos (c - s) nbb ltac:(lia) ltac:(lia)).
  set (d := (c - s) / nbb) in *. destruct ((c - s) mod nbb =? 0) eqn:E; cbn [andb]; [|nia]. apply Z.eqb_eq in E. assert (1 <= d) by nia. destruct (d <=? q); nia.
Qed.
Lemma home_spread : forall s q lo, s - nbb <= lo -> spread (home s q) lo.
Proof using G.
  intros s q lo L c c' Lc Lc' E. pose proof (nbb2 g G) as N2.
  assert (X : forall c, c <= s -> home s q c = 0) by (intros x Lx; unfold home; replace (x <=? s) with true by lia; reflexivity).
  pose proof (home_range s q c) as R. pose proof (home_range s q c') as R'. rewrite <- E in R'. pose proof (X c) as X1. pose proof (X c') as X2. rewrite <- E in X2. unfold ncols.
  set (h := home s q c) in *. destruct (Z.eqb_spec h 0) as [Z0|NZ]; [rewrite Z0 in *; lia|]. assert (s < c) by lia. assert (s < c') by lia. nia.
Qed.
Lemma wrel_Rc : forall H lo mD mL k wlo whi, Rc H lo mD mL -> (forall c, wlo <= c < whi -> lo <= c < size /\ H c = k) -> S_ k wlo whi (bmem g mD k) (bmem g mD k) (m_band mL).
Proof using G.
  intros H lo mD mL k wlo whi R WD. split; [|apply stays_refl]. intros z Wz. destruct (oc g G z) as (c & o & Lo & ->). apply (Ww_at g G) in Wz; [|exact Lo]. destruct (WD c Wz) as [Lc E]. rewrite (rf_at g G), (rptr_co g), (bmem_at g G) by exact Lo. unfold m_band. rewrite <- (R c o Lc Lo), E. reflexivity.
Qed.
Lemma cols_step : forall H lo k wlo whi (mD : mem) (mL : meml) (mD' : mem) (mL' : meml), Rc H lo mD mL -> spread H lo -> (forall c, wlo <= c < whi -> lo <= c < size /\ H c = k) ->
  (forall c o, wlo <= c < whi -> 0 <= o < 2 * b -> vget (mD' (LCol k (ring g k c))) o = mL' (LB (c * (2 * b) + o))) ->
  (forall k' i, ~ (k' = k /\ exists c, wlo <= c < whi /\ ring g k c = i) -> mD' (LCol k' i) = mD (LCol k' i)) ->
  (forall c o, 0 <= o < 2 * b -> ~ (wlo <= c < whi) -> mL' (LB (c * (2 * b) + o)) = mL (LB (c * (2 * b) + o))) -> Rc H lo mD' mL'.
Proof using G.
  intros H lo k wlo whi mD mL mD' mL' R SP WD IN OUT LOC c o Lc Lo. destruct (Z_lt_ge_dec c wlo) as [L1|L1]; [|destruct (Z_lt_ge_dec c whi) as [L2|L2]; [destruct (WD c ltac:(lia)) as [_ ->]; apply IN; [lia|exact Lo]|]];
  (rewrite LOC by (try exact Lo; lia); rewrite OUT; [apply R; assumption|]; intros (E & c' & Lc' & ER); destruct (WD c' Lc') as [Lc2 E2]; assert (c' = c) by (apply (ring_inj g G k); [rewrite <- E2; apply SP; [exact Lc2|exact Lc|congruence]|congruence]); lia).
Qed.
Lemma Rc_home : forall H H' lo lo' mD mL, Rc H lo mD mL -> lo <= lo' -> (forall c, lo' <= c < size -> H' c = H c) -> Rc H' lo' mD mL.
Proof using. intros H H' lo lo' mD mL R L E c o Lc Lo. rewrite E by exact Lc. apply R; [lia|exact Lo]. Qed.
Lemma sxd : forall a (m : mem) l, sexec PD a m l = if dwr g a l then b2td_eff lf g A a m l else m l.
Proof using. reflexivity. Qed.
Lemma sxl : forall a (m : meml) l, lok a -> sexec PL a m l = b2t_eff lf size nb b 1 A a m l.
Proof using G. intros a m l OK. apply (sx lf (m_cplx g) size nb b 1 A (l_size g G) (g_b g G) (g_nb g G) (l_div g G) ltac:(lia)). exact OK. Qed.
(** an action that does not write columns *)
Lemma keep_cols : forall H lo a mD mL mL', writes_cols a = false \/ (forall k i, touches g a k i = false) -> Rc H lo mD mL -> (forall z, mL' (LB z) = mL (LB z)) -> Rc H lo (sexec PD a mD) mL'.
Proof using.
  intros H lo a mD mL mL' N R E c o Lc Lo. rewrite sxd, E. cbn [dwr]. replace (touches g a (H c) (ring g (H c) c) && writes_cols a) with false; [apply R; assumption|]. destruct N as [->| ->]; [rewrite andb_false_r; reflexivity|reflexivity].
Qed.
Lemma local_keep : forall a (m : meml) c o, 0 <= o < 2 * b -> ~ (fst (B2TModel.cols_of size nb b a) <= c < snd (B2TModel.cols_of size nb b a)) -> sexec PL a m (LB (c * (2 * b) + o)) = m (LB (c * (2 * b) + o)).
Proof using G.
  intros a m c o Lo N. unfold sexec. cbn [wr b2t b2t_wr]. unfold B2TModel.touches. destruct (co g G c o Lo) as [-> _]. cbv zeta.
  replace ((fst (B2TModel.cols_of size nb b a) <=? c) && (c <? snd (B2TModel.cols_of size nb b a))) with false by lia. reflexivity.
Qed.
Lemma untouched : forall a k lo hi (m : mem) k' i, B2TDistModel.cols_of g a = (k, lo, hi) -> ~ (k' = k /\ exists c, lo <= c < hi /\ ring g k c = i) -> sexec PD a m (LCol k' i) = m (LCol k' i).
Proof using.
  intros a k lo hi m k' i E N. rewrite sxd. cbn [dwr]. destruct (touches g a k' i) eqn:T; [|reflexivity]. exfalso. apply N. apply touches_iff in T. rewrite E in T. destruct T as (-> & c & Lc & Ec). split; [reflexivity|]. exists c. auto.
Qed.
Lemma touched : forall a k lo hi (m : mem) c, B2TDistModel.cols_of g a = (k, lo, hi) -> writes_cols a = true -> lo <= c < hi -> sexec PD a m (LCol k (ring g k c)) = b2td_eff lf g A a m (LCol k (ring g k c)).
Proof using.
  intros a k lo hi m c E W L. rewrite sxd. cbn [dwr]. rewrite W, andb_true_r. replace (touches g a k (ring g k c)) with true; [reflexivity|]. symmetry. apply touches_iff. rewrite E. split; [reflexivity|]. exists c. auto.
Qed.

(** ** Copy *)
Lemma copy_sim : forall j mD mL, 0 <= j < ntl g -> Rc (home 0 0) 0 mD mL -> Rc (home 0 0) 0 (srun PD [Copy j] mD) (srun PL (CopyD j :: (if j <? nt size nb - 1 then [CopyO j] else [])) mL).
Proof using G.
  intros j mD mL L R. set (mL' := srun PL _ mL). cbn [srun fold_left]. destruct (tile_cols g G j L) as (T1 & T2 & T3). pose proof (nbb2 g G) as N2. pose proof (g_nb g G).
  assert (WD : forall c, j * nb <= c < j * nb + tszd g j -> 0 <= c < size /\ home 0 0 c = j / tpb).
  { intros c Lc. assert (0 <= j * nb) by nia. split; [unfold tszd in Lc; lia|]. unfold home. destruct (Z.leb_spec c 0); cbv zeta.
    - assert (c = 0) by lia. assert (j = 0) by nia. subst j. rewrite Z.div_0_l; [reflexivity|]. pose proof (tpb1 g G). lia.
    - rewrite Z.sub_0_r. pose proof (Z.div_mod c nbb ltac:(lia)). pose proof (Z.mod_pos_bound c nbb ltac:(lia)). destruct (c mod nbb =? 0) eqn:E; cbn [andb]; [apply Z.eqb_eq in E; assert (1 <= c / nbb) by nia; replace (c / nbb <=? 0) with false by lia|]; symmetry; apply (Z.div_unique c nbb _ (c - j / tpb * nbb)); lia. }
  assert (ML : forall z, mL' (LB z) = copy_l g A j (m_band mL) z).
  { intros z. unfold mL', copy_l. change (ntl g) with (nt size nb). cbv zeta. cbn [srun fold_left]. assert (OKD : lok (CopyD j)) by exact L. destruct (Z.ltb_spec j (nt size nb - 1)) as [C|C]; cbn [fold_left]; [|rewrite sxl by exact OKD; reflexivity].
    assert (OKO : lok (CopyO j)) by (cbn [B2TSched.act_ok]; lia). rewrite sxl by exact OKO. cbn [b2t_eff].
    apply (copyo_agree (m_cplx g) size nb b 1 A (l_size g G) (g_b g G) (g_nb g G) (l_div g G) ltac:(lia) j _ _ (fun _ => true) OKO); [|reflexivity]. intros y _. unfold m_band at 1. rewrite sxl by exact OKD. reflexivity. }
  apply (cols_step _ _ (j / tpb) (j * nb) (j * nb + tszd g j) mD mL); [exact R|apply home_spread; lia|exact WD| | |].
  - intros c o Lc Lo. rewrite (touched (Copy j) (j / tpb) (j * nb) (j * nb + tszd g j)); [|cbn [B2TDistModel.cols_of]; rewrite tile_hi; reflexivity|reflexivity|exact Lc]. cbn [b2td_eff]. rewrite Z.eqb_refl, (col_get g) by exact Lo. rewrite ML.
    destruct (copy_ring g A G j _ _ _ L (wrel_Rc _ _ _ _ _ _ _ R WD)) as [E _]. rewrite (E (c * (2 * b) + o)) by (apply (Ww_at g G); assumption). rewrite (rf_at g G), (rptr_co g) by exact Lo. reflexivity.
  - intros k' i N. apply (untouched (Copy j) (j / tpb) (j * nb) (j * nb + tszd g j)); [cbn [B2TDistModel.cols_of]; rewrite tile_hi; reflexivity|exact N].
  - intros c o Lo N. unfold mL'. cbn [srun fold_left]. destruct (j <? nt size nb - 1); cbn [fold_left]; rewrite ?local_keep by (try exact Lo; exact N); reflexivity.
Qed.
(** ** Columns *)
Lemma home_moved : forall s k, 0 <= k -> home s (k + 1) (next_j g s k) = k /\ home s k (next_j g s k) = k + 1.
Proof using G.
  intros s k L. pose proof (nbb2 g G) as N2. unfold home, next_j. assert (0 <= k * nbb) by nia. replace (s + (k + 1) * nbb <=? s) with false by nia. cbv zeta. replace (s + (k + 1) * nbb - s) with ((k + 1) * nbb) by lia. rewrite Z.div_mul, Z.mod_mul by lia. cbn [Z.eqb andb]. replace (k + 1 <=? k + 1) with true by lia. replace (k + 1 <=? k) with false by lia. lia.
Qed.
Lemma home_other : forall s k c, 0 <= k -> c <> next_j g s k -> home s (k + 1) c = home s k c.
Proof using G.
  intros s k c L N. pose proof (nbb2 g G) as N2. unfold home, next_j in *. destruct (Z.leb_spec c s); [reflexivity|]. cbv zeta. pose proof (Z.div_mod (c - s) nbb ltac:(lia)). destruct (Z.eqb_spec ((c - s) mod nbb) 0) as [E|E]; cbn [andb]; [|reflexivity].
  destruct (Z.leb_spec ((c - s) / nbb) k), (Z.leb_spec ((c - s) / nbb) (k + 1)); try reflexivity; try lia. exfalso. apply N. assert ((c - s) / nbb = k + 1) by lia. nia.
Qed.
Lemma message_sim : forall s k lo mD mL, 0 <= s -> 0 <= k -> s - nbb <= lo <= s -> Rc (home s k) lo mD mL -> Rc (home s (k + 1)) lo (srun PD (if next_j g s k <? size then [SendC s (k + 1); RecvC s k] else []) mD) mL.
Proof using G.
  intros s k lo mD mL L0 Lk Llo R. pose proof (nbb2 g G) as N2. pose proof (g_b g G). destruct (home_moved s k Lk) as [M1 M2]. destruct (Z.ltb_spec (next_j g s k) size) as [C|C].
  2: { apply (Rc_home _ _ lo lo _ _ R ltac:(lia)). intros c Lc. apply home_other; [exact Lk|]. lia. }
  cbn [srun fold_left]. set (m1 := sexec PD (SendC s (k + 1)) mD). assert (NJ : s < next_j g s k) by (unfold next_j; nia). intros c o Lc Lo.
  assert (M1C : forall k i, m1 (LCol k i) = mD (LCol k i)) by (intros; unfold m1; rewrite sxd; cbn [dwr writes_cols]; rewrite andb_false_r; reflexivity).
  destruct (Z.eq_dec c (next_j g s k)) as [->|N].
  - rewrite M1. rewrite (touched (RecvC s k) k (next_j g s k) (next_j g s k + 1)); [|reflexivity|reflexivity|lia]. cbn [b2td_eff]. rewrite Z.eqb_refl, (col_get g) by exact Lo. cbv zeta. rewrite (rptr_co g), Z.add_0_r.
    set (r := ring g k (next_j g s k)). replace ((r * (2 * b) <=? r * (2 * b) + o) && (r * (2 * b) + o <? r * (2 * b) + 2 * b)) with true by lia. replace (r * (2 * b) + o - r * (2 * b)) with o by lia.
    unfold m1. rewrite sxd. cbn [dwr b2td_eff]. rewrite !Z.eqb_refl. cbn [andb]. rewrite vget_range by lia. replace (s + (k + 1) * nbb) with (next_j g s k) by reflexivity. rewrite (rptr_co g), Z.add_0_r, (bmem_at g G) by exact Lo.
    rewrite <- (R (next_j g s k) o) by (try exact Lo; lia). rewrite M2. reflexivity.
  - rewrite <- (R c o Lc Lo), <- (home_other s k c Lk N). rewrite (untouched (RecvC s k) k (next_j g s k) (next_j g s k + 1)); [rewrite M1C; reflexivity|reflexivity|]. intros (E & c' & Lc' & ER). assert (c' = next_j g s k) by lia. subst c'. apply N. symmetry.
    apply (ring_inj g G k); [|congruence]. pose proof (home_spread s (k + 1) lo ltac:(lia) (next_j g s k) c ltac:(lia) ltac:(lia)) as SP. rewrite M1 in SP. apply SP. symmetry. exact E.
Qed.
Lemma home_full : forall s q c, 0 <= s < sweeps g -> c < size -> (forall k, cv g s k -> k < q) -> home s q c = home (s + 1) 0 c.
Proof using G.
  intros s q c Ls Lc H. pose proof (nbb2 g G) as N2. unfold home. destruct (Z.leb_spec c s), (Z.leb_spec c (s + 1)); try lia; cbv zeta.
  - assert (c = s + 1) by lia. subst c. replace (s + 1 - s) with 1 by lia. rewrite Z.div_small, Z.mod_small by lia. reflexivity.
  - assert (X : home (s + 1) 0 c = (c - s - 1) / nbb).
    { unfold home. replace (c <=? s + 1) with false by lia. cbv zeta. replace (c - (s + 1)) with (c - s - 1) by lia. destruct (Z.eqb_spec ((c - s - 1) mod nbb) 0) as [E|E]; cbn [andb]; [|reflexivity]. pose proof (Z.div_mod (c - s - 1) nbb ltac:(lia)). assert (1 <= (c - s - 1) / nbb) by nia. replace ((c - s - 1) / nbb <=? 0) with false by lia. reflexivity. }
    unfold home in X. replace (c <=? s + 1) with false in X by lia. cbv zeta in X. rewrite X. pose proof (Z.div_mod (c - s) nbb ltac:(lia)) as D. pose proof (Z.mod_pos_bound (c - s) nbb ltac:(lia)). destruct (Z.eqb_spec ((c - s) mod nbb) 0) as [E|E]; cbn [andb].
    + set (d := (c - s) / nbb) in *. assert (1 <= d) by nia. replace (d <=? q) with true. 2: { symmetry. apply Z.leb_le. pose proof (H (d - 1)) as HH. unfold cv, next_j in HH. replace (d - 1 + 1) with d in HH by lia. lia. }
      apply (Z.div_unique _ _ _ (nbb - 1)); lia.
    + apply (Z.div_unique _ _ _ ((c - s) mod nbb - 1)); lia.
Qed.

(** ** The steps *)
Definition Inv (H : Z -> Z) (lo s t hi : Z) (mD : mem) (mL : meml) : Prop := Rc H lo mD mL /\ HHr s t mD mL /\ Tr hi mD mL.
Lemma keep_hh : forall a s t mD mL mL', (forall s t, dwr g a (LHH s t) = false) -> HHr s t mD mL -> (forall i j, mL' (B2TModel.LHH i j) = mL (B2TModel.LHH i j)) -> HHr s t (sexec PD a mD) mL'.
Proof using. intros a s t mD mL mL' N R E s' t' Ls Lt C i Li. rewrite E, sxd, N. apply R; assumption. Qed.
Lemma keep_tri : forall a hi mD mL mL', (forall i, dwr g a (LTri i) = false) -> Tr hi mD mL -> (forall i, mL' (LTd i) = mL (LTd i)) -> (forall i, mL' (LTe i) = mL (LTe i)) -> Tr hi (sexec PD a mD) mL'.
Proof using. intros a hi mD mL mL' N R E1 E2 c Lc. rewrite E1, E2, sxd, N. apply R. exact Lc. Qed.
Lemma wvec_wdata : forall tau (v : Z -> F K) i, 0 <= i < b -> wvec (wdata g tau v) i = v i.
Proof using. intros tau v i Li. unfold wvec, vget, wdata. replace (Z.to_nat (1 + i)) with (S (Z.to_nat i)) by lia. cbn [nth]. change (nth (Z.to_nat i) (map v (zrange 0 b)) f0) with (vget (map v (zrange 0 b)) i). rewrite vget_range by lia. f_equal. Qed.
Lemma put_sim : forall H lo s t hi a a' k wlo whi (r r' : F K * (Z -> F K) * (Z -> F K)) n (mD : mem) (mL : meml),
  Inv H lo s t hi mD mL -> spread H lo -> (forall c, wlo <= c < whi -> lo <= c < size /\ H c = k) ->
  B2TDistModel.cols_of g a = (k, wlo, whi) -> B2TModel.cols_of size nb b a' = (wlo, whi) -> writes_cols a = true -> (forall l, b2td_eff lf g A a mD l = put_d g mD k (s mod wpt) r l) ->
  dwr g a (LWk k (s mod wpt)) = true -> (forall s t, dwr g a (LHH s t) = false) -> (forall i, dwr g a (LTri i) = false) -> lok a' -> (forall l, b2t_eff lf size nb b 1 A a' mL l = put mL (wl s) r' l) ->
  rrel (rf g k) (Ww g wlo whi) (Sw g k wlo whi) n (bmem g mD k) r r' -> n <= b ->
  Inv H lo s t hi (sexec PD a mD) (sexec PL a' mL) /\ Wk s k n (sexec PD a mD) (sexec PL a' mL).
Proof using G.
  intros H lo s t hi a a' k wlo whi r r' n mD mL (I1 & I2 & I3) SP WD C1 C2 WC ED WW NH NT OK EL (R1 & R2 & [R3 _]) Ln. destruct r as [[tau v] B], r' as [[tau' v'] B']. cbn [fst snd] in *. unfold put_d in ED. unfold put in EL. split; [split; [|split]|].
  - apply (cols_step _ _ k wlo whi mD mL _ _ I1 SP WD).
    + intros c o Lc Lo. rewrite (touched a k wlo whi mD c C1 WC Lc), ED, Z.eqb_refl, (col_get g) by exact Lo. rewrite sxl, EL by exact OK. rewrite R3 by (apply (Ww_at g G); assumption). rewrite (rf_at g G), (rptr_co g) by exact Lo. reflexivity.
    + intros k' i N. apply (untouched a k wlo whi); assumption.
    + intros c o Lo N. apply local_keep; [exact Lo|]. rewrite C2. exact N.
  - apply (keep_hh a s t mD mL _ NH I2). intros i j. rewrite sxl, EL by exact OK. reflexivity.
  - apply (keep_tri a hi mD mL _ NT I3); intros i; rewrite sxl, EL by exact OK; reflexivity.
  - unfold Wk. rewrite sxd, WW, ED, !Z.eqb_refl. cbn [andb]. rewrite sxl, EL, Z.eqb_refl by exact OK. split; [rewrite <- R1; reflexivity|]. intros i Li. rewrite sxl, EL, Z.eqb_refl by exact OK. rewrite wvec_wdata by lia. apply R2. exact Li.
Qed.
Lemma home_step : forall s t c, 0 <= s -> 0 <= t -> 1 + s + t * b <= c < 1 + s + (t + 1) * b -> home (s + 1) 0 c = t / spb.
Proof using G.
  intros s t c Ls Lt Lc. pose proof (nbb2 g G) as N2. destruct (kb g G t Lt) as (K0 & K1 & K2). pose proof (nbb_e g G (t / spb)) as E1. pose proof (nbb_e g G (t / spb + 1)) as E2. pose proof (g_b g G) as Hb. set (k := t / spb) in *. assert (k * nbb <= c - (s + 1) < (k + 1) * nbb) by nia. unfold home. destruct (Z.leb_spec c (s + 1)).
  - assert (c = s + 1) by nia. subst c. nia.
  - cbv zeta. assert (D : (c - (s + 1)) / nbb = k) by (symmetry; apply (Z.div_unique _ _ _ (c - (s + 1) - k * nbb)); lia). rewrite D. destruct (Z.eqb_spec ((c - (s + 1)) mod nbb) 0) as [E|E]; cbn [andb]; [|reflexivity]. pose proof (Z.div_mod (c - (s + 1)) nbb ltac:(lia)) as DM. rewrite D in DM. replace (k <=? 0) with false by nia. reflexivity.
Qed.
Lemma init_sim : forall lo s hi mD mL, 0 <= s < sweeps g -> s + 1 - nbb <= lo <= s -> Inv (home (s + 1) 0) lo s 0 hi mD mL ->
  Inv (home (s + 1) 0) lo s 0 hi (sexec PD (Init s) mD) (sexec PL (B2TModel.Init s) mL) /\ Wk s 0 (hn s 0) (sexec PD (Init s) mD) (sexec PL (B2TModel.Init s) mL).
Proof using G LF.
  intros lo s hi mD mL Ls Llo IV. destruct (init_geo g G s Ls) as [L _]. pose proof (B2TDistStruct.sweeps_le g). pose proof (g_b g G).
  assert (WD : forall c, s <= c < s + 1 -> lo <= c < size /\ home (s + 1) 0 c = 0) by (intros c Lc; split; [lia|]; unfold home; replace (c <=? s + 1) with true by lia; reflexivity).
  pose proof (start_ring lf g G LF s (wvec (mD (LWk 0 (s mod wpt)))) (fun i => mL (LVec (wl s) i)) _ _ _ L (wrel_Rc _ _ _ _ _ _ _ (proj1 IV) WD)) as RR. replace (hn s 0) with (Z.min (size - s - 1) b) by (unfold size_hhr, first_row; cbn [fst snd]; lia).
  eapply put_sim; try exact IV; try exact WD; try exact RR; try reflexivity; try (apply home_spread; lia); try exact Ls; try lia. cbn [dwr B2TDistModel.uses_worker worker_of writes_worker]. rewrite !Z.eqb_refl. reflexivity.
Qed.
Lemma step_sim : forall lo s t hi mD mL, 0 <= s < sweeps g -> 0 <= t < steps g s -> s + 1 - nbb <= lo <= s -> Inv (home (s + 1) 0) lo s (t + 1) hi mD mL -> Wk s (t / spb) (hn s t) mD mL ->
  Inv (home (s + 1) 0) lo s (t + 1) hi (sexec PD (Step s t) mD) (sexec PL (B2TModel.Step s t) mL) /\ (t + 1 < steps g s -> Wk s (t / spb) (hn s (t + 1)) (sexec PD (Step s t) mD) (sexec PL (B2TModel.Step s t) mL)).
Proof using G LF.
  intros lo s t hi mD mL Ls Lt Llo IV [W1 W2]. pose proof (step_geo g G s t Ls Lt) as GE. cbv zeta in GE. destruct GE as (EJ & Ln & EN & EB & Lm & NX). pose proof (g_b g G).
  assert (WD : forall c, first_row b (s, t) <= c < first_row b (s, t) + hn s t -> lo <= c < size /\ home (s + 1) 0 c = t / spb) by (intros c Lc; split; [nia|]; apply home_step; lia).
  pose proof (step_ring lf g G LF (t / spb) (s, t) (wtau (mD (LWk (t / spb) (s mod wpt)))) (wvec (mD (LWk (t / spb) (s mod wpt)))) (fun i => mL (LVec (wl s) i)) _ _ _ Ln EB (wrel_Rc _ _ _ _ _ _ _ (proj1 IV) WD) W2) as RR. cbv zeta in RR.
  set (n' := if 1 <? Z.min b (size - b - first_row b (s, t)) then Z.min b (size - b - first_row b (s, t)) else hn s t) in *.
  assert (R : Inv (home (s + 1) 0) lo s (t + 1) hi (sexec PD (Step s t) mD) (sexec PL (B2TModel.Step s t) mL) /\ Wk s (t / spb) n' (sexec PD (Step s t) mD) (sexec PL (B2TModel.Step s t) mL)).
  { eapply put_sim; try exact IV; try exact WD; try exact RR; try reflexivity; try (apply home_spread; lia); try (split; assumption).
    - cbn [B2TDistModel.cols_of]. rewrite EN, EJ. reflexivity.
    - cbn [B2TModel.cols_of]. rewrite EN, EJ. reflexivity.
    - intros l. cbn [b2td_eff]. rewrite (wid_d_eq g G) by lia. reflexivity.
    - cbn [dwr B2TDistModel.uses_worker worker_of writes_worker]. rewrite !Z.eqb_refl. reflexivity.
    - intros l. cbn [b2t_eff]. rewrite (wid_l_eq g G) by lia. rewrite W1. reflexivity.
    - unfold n'. destruct (1 <? _); lia. }
  destruct R as [RI RW]. split; [exact RI|]. intros Lt'. destruct (NX Lt') as [M1 M2]. unfold n' in RW. replace (1 <? Z.min b (size - b - first_row b (s, t))) with true in RW by lia. rewrite M2. exact RW.
Qed.
Lemma save_sim : forall H lo s t hi mD mL, 0 <= s < sweeps g -> 0 <= t < steps g s -> Inv H lo s t hi mD mL -> Wk s (t / spb) (hn s t) mD mL ->
  Inv H lo s (t + 1) hi (sexec PD (SaveV s t) mD) (sexec PL (B2TModel.SaveV s t) mL) /\ Wk s (t / spb) (hn s t) (sexec PD (SaveV s t) mD) (sexec PL (B2TModel.SaveV s t) mL).
Proof using G.
  intros H lo s t hi mD mL Ls Lt (I1 & I2 & I3) [W1 W2]. assert (OK : lok (B2TModel.SaveV s t)) by (split; assumption). pose proof (step_geo g G s t Ls Lt) as GE. cbv zeta in GE. destruct GE as (EJ & Ln & _). pose proof (g_b g G).
  assert (EL : forall l, sexec PL (B2TModel.SaveV s t) mL l = b2t_eff lf size nb b 1 A (B2TModel.SaveV s t) mL l) by (intros l; apply sxl; exact OK). cbn [b2t_eff] in EL.
  assert (HR : hh_row nb b s t = hht_pos b s t) by (apply (hh_row_eq size nb b 1 (l_size g G) (g_b g G) (g_nb g G) (l_div g G) ltac:(lia))). rewrite HR, (wid_l_eq g G) in EL by lia.
  split; [split; [|split]|].
  - apply (keep_cols H lo _ mD mL); [|exact I1|intros z; rewrite EL; reflexivity]. right. intros k i. destruct (touches g (SaveV s t) k i) eqn:E; [|reflexivity]. apply touches_iff in E. cbn [B2TDistModel.cols_of] in E. destruct E as (_ & c & Lc & _). lia.
  - intros s' t' Ls' Lt' C i Li. rewrite EL, sxd. cbn [dwr b2td_eff]. destruct (Z.eq_dec s' s) as [->|Ns].
    + rewrite Z.eqb_refl. cbn [andb]. destruct (Z.eq_dec t' t) as [->|Nt].
      * rewrite Z.eqb_refl. cbv zeta. rewrite (wid_d_eq g G) by lia. replace ((hht_pos b s t <=? hht_pos b s t + i) && (hht_pos b s t + i <? hht_pos b s t + hn s t)) with true by lia. destruct (Z.eqb_spec (hht_pos b s t + i) (hht_pos b s t)).
        -- assert (i = 0) by lia. subst i. exact W1.
        -- replace (hht_pos b s t + i - hht_pos b s t) with i by lia. rewrite <- W2 by exact Li. unfold vget at 1. replace (Z.to_nat i) with (S (Z.to_nat (i - 1))) by lia. cbn [nth]. change (nth (Z.to_nat (i - 1)) ?l f0) with (vget l (i - 1)). rewrite vget_range by lia. f_equal. lia.
      * pose proof (step_geo g G s t' Ls Lt') as GE. cbv zeta in GE. destruct GE as (_ & Ln' & _). assert (LT : t' < t) by lia. replace (t' =? t) with false by lia. replace ((hht_pos b s t <=? hht_pos b s t' + i) && (hht_pos b s t' + i <? hht_pos b s t + hn s t)) with false by (unfold hht_pos; nia).
        apply I2; [exact Ls|exact Lt'|lia|exact Li].
    + replace (s' =? s) with false by lia. cbn [andb]. apply I2; [exact Ls'|exact Lt'|lia|exact Li].
  - apply (keep_tri _ hi mD mL); [reflexivity|exact I3|intros i; rewrite EL; reflexivity|intros i; rewrite EL; reflexivity].
  - unfold Wk. rewrite sxd. cbn [dwr writes_worker]. rewrite andb_false_r. split; [rewrite EL; exact W1|]. intros i Li. rewrite EL. apply W2. exact Li.
Qed.
Lemma move_sim : forall H lo s t hi k n mD mL, 0 <= n <= b -> Inv H lo s t hi mD mL -> Wk s (k - 1) n mD mL -> 
  Inv H lo s t hi (srun PD [SendW s (k - 1); RecvW s k] mD) mL /\ Wk s k n (srun PD [SendW s (k - 1); RecvW s k] mD) mL.
Proof using G.
  intros H lo s t hi k n mD mL Ln (I1 & I2 & I3) [W1 W2]. cbn [srun fold_left]. pose proof (g_b g G).
  assert (NT : forall a k' i, a = SendW s (k - 1) \/ a = RecvW s k -> touches g a k' i = false).
  { intros a k' i Ea. destruct (touches g a k' i) eqn:E; [|reflexivity]. apply touches_iff in E. destruct Ea as [->| ->]; cbn [B2TDistModel.cols_of] in E; destruct E as (_ & c & Lc & _); lia. }
  split.
  - split; [|split].
    + apply (keep_cols H lo _ _ mL); [right; intros; apply NT; auto| |reflexivity]. apply (keep_cols H lo _ _ mL); [right; intros; apply NT; auto|exact I1|reflexivity].
    + apply (keep_hh _ _ _ _ mL); [reflexivity| |reflexivity]. apply (keep_hh _ _ _ _ mL); [reflexivity|exact I2|reflexivity].
    + apply (keep_tri _ _ _ mL); [reflexivity| |reflexivity|reflexivity]. apply (keep_tri _ _ _ mL); [reflexivity|exact I3|reflexivity|reflexivity].
  - unfold Wk. rewrite sxd. cbn [dwr B2TDistModel.uses_worker worker_of writes_worker b2td_eff]. rewrite !Z.eqb_refl. cbn [andb]. rewrite sxd. cbn [dwr b2td_eff]. replace (k - 1 + 1) with k by lia. rewrite !Z.eqb_refl. cbn [andb].
    split; [unfold wtau; rewrite !vget_range by lia; exact W1|]. intros i Li. rewrite <- W2 by exact Li. unfold wvec. rewrite !vget_range by lia. f_equal.
Qed.
(** ** The tridiagonal matrix *)
Lemma tri_sim : forall H lo T st nd ne hi (mD : mem) (mL : meml) (mD' : mem) (mL' : meml), 0 <= T -> st = T * nb -> 0 < nd <= nb -> nd - 1 <= ne <= nd -> nd = tszd g T -> (forall c, c < st + nd -> c < size - 1 -> c < st + ne) ->
  (forall c, st <= c < st + nd -> lo <= c < size /\ H c = 0) -> Rc H lo mD mL -> Tr hi mD mL -> st <= hi ->
  (forall i, mD' (LTri i) = if i =? T then tri_copy_d g (bmem g mD 0) st nd ne else mD (LTri i)) ->
  (forall i, mL' (LTd i) = if (st <=? i) && (i <? st + nd) then re (mL (LB (ptr b 0 i))) else mL (LTd i)) -> (forall i, mL' (LTe i) = if (st <=? i) && (i <? st + ne) then re (mL (LB (ptr b 1 i))) else mL (LTe i)) ->
  Tr (st + nd) mD' mL'.
Proof using G.
  intros H lo T st nd ne hi mD mL mD' mL' LT ES Lnd Lne ET LE WD R TR Lhi ED EL1 EL2 c Lc. pose proof (g_nb g G) as Hn. pose proof (g_b g G) as Hb. pose proof (nb_nbb g G). pose proof (nbb_cols g G 0). pose proof (Z.div_mod c nb ltac:(lia)) as D. pose proof (Z.mod_pos_bound c nb Hn) as MB.
  rewrite ED, EL1, EL2. destruct (Z_lt_ge_dec c st) as [L1|L1].
  - replace (c / nb =? T) with false by nia. replace (st <=? c) with false by lia. cbn [andb]. apply TR. lia.
  - assert (E : c / nb = T) by (symmetry; apply (Z.div_unique c nb T (c - st)); lia). assert (EM : c mod nb = c - st) by (rewrite E in D; lia). rewrite E, Z.eqb_refl, EM. destruct (tri_get g G (bmem g mD 0) st nd ne ltac:(lia) Lne) as [T1 T2]. destruct (WD c ltac:(lia)) as [Lc' HC].
    assert (CV : forall o, 0 <= o < 2 -> bmem g mD 0 (rptr g 0 o c) = mL (LB (ptr b o c))) by (intros o Lo; rewrite (rptr_co g), (bmem_at g G), ptr_eq by lia; rewrite <- (R c o) by lia; rewrite HC; reflexivity).
    split.
    + replace ((st <=? c) && (c <? st + nd)) with true by lia. rewrite T1 by lia. replace (st + (c - st)) with c by lia. rewrite CV by lia. reflexivity.
    + intros Lc2. specialize (LE c ltac:(lia) Lc2). replace ((st <=? c) && (c <? st + ne)) with true by lia. rewrite <- ET, T2 by lia. replace (st + (c - st)) with c by lia. rewrite CV by lia. reflexivity.
Qed.

(** ** The loops *)
Lemma loop2 : forall (fD : Z -> list dact) (fL : Z -> list act) (I : Z -> mem -> meml -> Prop) n mD mL, 0 <= n -> I 0 mD mL ->
  (forall x mD mL, 0 <= x < n -> I x mD mL -> I (x + 1) (srun PD (fD x) mD) (srun PL (fL x) mL)) -> I n (srun PD (flat_map fD (zrange 0 n)) mD) (srun PL (flat_map fL (zrange 0 n)) mL).
Proof using.
  intros fD fL I n mD mL Ln I0 ST. assert (H : forall x, 0 <= x -> x <= n -> I x (srun PD (flat_map fD (zrange 0 x)) mD) (srun PL (flat_map fL (zrange 0 x)) mL)); [|apply H; lia].
  intros x X. pattern x. apply natlike_ind; [intros _; exact I0| |exact X]. clear x X. intros x X IH Lx. rewrite <- Z.add_1_r in *. rewrite Loop.zrange_snoc by lia. rewrite !flat_map_app, !srun_app. cbn [flat_map]. rewrite !app_nil_r. apply ST; [lia|]. apply IH. lia.
Qed.
Definition lsweep (s : Z) : list act := B2TModel.Init s :: (if (s + 1) mod nb =? 0 then [B2TModel.TriS s] else []) ++ flat_map (fun t => [B2TModel.SaveV s t; B2TModel.Step s t]) (zrange 0 (steps g s)).
Lemma messages_sim : forall s lo hi mD mL n, 0 <= s -> 0 <= n -> s - nbb <= lo <= s -> Inv (home s 0) lo s 0 hi mD mL ->
  Inv (home s n) lo s 0 hi (srun PD (flat_map (fun k => if next_j g s k <? size then [SendC s (k + 1); RecvC s k] else []) (zrange 0 n)) mD) mL.
Proof using G.
  intros s lo hi mD mL n Ls Ln Llo IV. pattern n. apply natlike_ind; [exact IV| |exact Ln]. clear n Ln. intros n Ln IH. rewrite <- Z.add_1_r. rewrite Loop.zrange_snoc by lia. rewrite flat_map_app, srun_app. cbn [flat_map]. rewrite app_nil_r.
  set (m := srun PD (flat_map _ (zrange 0 n)) mD) in *. clearbody m. destruct IH as (I1 & I2 & I3). split; [apply message_sim; [exact Ls|exact Ln|exact Llo|exact I1]|].
  destruct (next_j g s n <? size); cbn [srun fold_left]; [|split; assumption]. split.
  - apply (keep_hh _ _ _ _ mL); [reflexivity| |reflexivity]. apply (keep_hh _ _ _ _ mL); [reflexivity|exact I2|reflexivity].
  - apply (keep_tri _ _ _ mL); [reflexivity| |reflexivity|reflexivity]. apply (keep_tri _ _ _ mL); [reflexivity|exact I3|reflexivity|reflexivity].
Qed.
Lemma steps_sim : forall s lo hi mD mL, 0 <= s < sweeps g -> s + 1 - nbb <= lo <= s -> Inv (home (s + 1) 0) lo s 0 hi mD mL -> Wk s 0 (hn s 0) mD mL ->
  Inv (home (s + 1) 0) lo s (steps g s) hi
    (srun PD (flat_map (fun t => (if (0 <? t) && (t mod spb =? 0) then [SendW s (t / spb - 1); RecvW s (t / spb)] else []) ++ [SaveV s t; Step s t]) (zrange 0 (steps g s))) mD)
    (srun PL (flat_map (fun t => [B2TModel.SaveV s t; B2TModel.Step s t]) (zrange 0 (steps g s))) mL).
Proof using G LF.
  intros s lo hi mD mL Ls Llo IV W. pose proof (steps_pos g G s Ls) as SP. pose proof (spb1 g G) as S1.
  pose proof (loop2 (fun t => (if (0 <? t) && (t mod spb =? 0) then [SendW s (t / spb - 1); RecvW s (t / spb)] else []) ++ [SaveV s t; Step s t]) (fun t => [B2TModel.SaveV s t; B2TModel.Step s t])
    (fun t mD mL => Inv (home (s + 1) 0) lo s t hi mD mL /\ (t < steps g s -> Wk s (if t =? 0 then 0 else (t - 1) / spb) (hn s t) mD mL)) (steps g s) mD mL ltac:(lia) (conj IV (fun _ => W))) as LP. cbv beta in LP. apply LP; clear LP.
  clear mD mL IV W. intros t mD mL Lt [IV W]. specialize (W ltac:(lia)). pose proof (step_geo g G s t Ls Lt) as GE. cbv zeta in GE. destruct GE as (_ & Ln & _). rewrite srun_app.
  assert (M : Inv (home (s + 1) 0) lo s t hi (srun PD (if (0 <? t) && (t mod spb =? 0) then [SendW s (t / spb - 1); RecvW s (t / spb)] else []) mD) mL /\ Wk s (t / spb) (hn s t) (srun PD (if (0 <? t) && (t mod spb =? 0) then [SendW s (t / spb - 1); RecvW s (t / spb)] else []) mD) mL).
  { destruct (Z.eqb_spec t 0) as [->|N]; [cbn [Z.ltb Z.compare andb srun fold_left]; rewrite Z.div_0_l by lia; split; assumption|]. replace (0 <? t) with true by lia. cbn [andb]. destruct (Z.eqb_spec (t mod spb) 0) as [E|E].
    - pose proof (kb0 g G t ltac:(lia) E) as ET. apply move_sim; [lia|exact IV|]. replace (t / spb - 1) with ((t - 1) / spb); [exact W|]. apply (kb_eq g G). lia.
    - cbn [srun fold_left]. destruct (kbn g G t ltac:(lia) E) as [_ EQ]. rewrite EQ in W. split; assumption. }
  set (m1 := srun PD (if (0 <? t) && (t mod spb =? 0) then [SendW s (t / spb - 1); RecvW s (t / spb)] else []) mD) in *. clearbody m1. destruct M as [IV1 W1]. cbn [srun fold_left]. destruct (save_sim _ lo s t hi m1 mL Ls Lt IV1 W1) as [IV2 W2]. destruct (step_sim lo s t hi _ _ Ls Lt Llo IV2 W2) as [IV3 W3]. split; [exact IV3|]. intros L. replace (t + 1 =? 0) with false by lia. replace (t + 1 - 1) with t by lia. apply W3. exact L.
Qed.
Lemma sweep_sim : forall s mD mL, 0 <= s < sweeps g -> Inv (home s 0) (s / nb * nb) s 0 (s / nb * nb) mD mL -> Inv (home (s + 1) 0) ((s + 1) / nb * nb) (s + 1) 0 ((s + 1) / nb * nb) (srun PD (sweep_seq g s) mD) (srun PL (lsweep s) mL).
Proof using G LF.
  intros s mD mL Ls IV. pose proof (g_nb g G) as Hn. pose proof (nb_nbb g G) as NN. pose proof (spb1 g G) as S1. pose proof (steps_pos g G s Ls) as SP. pose proof (B2TDistStruct.sweeps_le g) as SL.
  pose proof (Z.div_mod s nb ltac:(lia)) as D. pose proof (Z.mod_pos_bound s nb Hn) as MB. set (lo := s / nb * nb) in *. assert (Llo : s + 1 - nbb <= lo <= s) by lia.
  unfold sweep_seq, lsweep. rewrite srun_app. set (m1 := srun PD (flat_map _ _) mD). assert (N0 : 0 <= ceil_div (steps g s) spb) by (pose proof (proj2 (ceil_div_lt (steps g s) spb 0 ltac:(lia)) ltac:(lia)); lia).
  assert (IV1 : Inv (home s (ceil_div (steps g s) spb)) lo s 0 lo m1 mL) by (apply messages_sim; [lia|exact N0|lia|exact IV]). clearbody m1. clear IV mD.
  assert (IV2 : Inv (home (s + 1) 0) lo s 0 lo m1 mL). { destruct IV1 as (I1 & I2). split; [|exact I2]. apply (Rc_home _ _ lo lo _ _ I1 ltac:(lia)). intros c Lc. symmetry. apply home_full; [exact Ls|lia|]. intros k C. apply ceil_div_lt; [lia|]. apply (cv_active g G s k C). }
  clear IV1. cbn [srun fold_left]. change (fold_left (fun m a => sexec PD a m) ?l ?x) with (srun PD l x). change (fold_left (fun m a => sexec PL a m) ?l ?x) with (srun PL l x). rewrite !srun_app.
  destruct (init_sim lo s lo m1 mL Ls Llo IV2) as [IV3 W3]. set (mD3 := sexec PD (Init s) m1) in *. set (mL3 := sexec PL (B2TModel.Init s) mL) in *. clearbody mD3 mL3. clear IV2 m1 mL.
  assert (T : Inv (home (s + 1) 0) lo s 0 ((s + 1) / nb * nb) (srun PD (if (s + 1) mod nb =? 0 then [TriS s] else []) mD3) (srun PL (if (s + 1) mod nb =? 0 then [B2TModel.TriS s] else []) mL3) /\
    Wk s 0 (hn s 0) (srun PD (if (s + 1) mod nb =? 0 then [TriS s] else []) mD3) (srun PL (if (s + 1) mod nb =? 0 then [B2TModel.TriS s] else []) mL3)).
  { destruct (Z.eqb_spec ((s + 1) mod nb) 0) as [E|N]; cbn [srun fold_left].
    - pose proof (Z.div_mod (s + 1) nb ltac:(lia)) as D1. assert (EQ : (s + 1) / nb = s / nb + 1) by nia. assert (E1 : (s + 1) / nb * nb = s + 1) by lia. rewrite E1. assert (E0 : s - (nb - 1) = lo) by (unfold lo; lia). assert (OK : lok (B2TModel.TriS s)) by (split; assumption).
      assert (EL : forall l, sexec PL (B2TModel.TriS s) mL3 l = tri_copy b (s - (nb - 1)) nb nb mL3 l) by (intros l; apply (sxl (B2TModel.TriS s)); exact OK). rewrite E0 in EL. destruct IV3 as (I1 & I2 & I3). split; [split; [|split]|].
      + apply (keep_cols _ _ _ _ mL3); [left; reflexivity|exact I1|intros z; rewrite EL; reflexivity].
      + apply (keep_hh _ _ _ _ mL3); [reflexivity|exact I2|intros i j; rewrite EL; reflexivity].
      + replace (s + 1) with (lo + nb) at 1 by lia. apply (tri_sim (home (s + 1) 0) lo (s / nb) lo nb nb lo mD3 mL3); try reflexivity; try lia; try exact I1; try exact I3.
        * unfold tszd. fold lo. lia.
        * intros c Lc. split; [lia|]. unfold home. replace (c <=? s + 1) with true by lia. reflexivity.
        * intros i. rewrite sxd. cbn [dwr b2td_eff]. rewrite E0. destruct (i =? s / nb); reflexivity.
        * intros i. rewrite EL. reflexivity.
        * intros i. rewrite EL. reflexivity.
      + destruct W3 as [W1 W2]. split; [rewrite EL; exact W1|]. intros i Li. rewrite EL. apply W2. exact Li.
    - assert (EQ : (s + 1) / nb = s / nb). { symmetry. apply (Z.div_unique _ _ _ (s mod nb + 1)); [|lia]. left. split; [lia|]. destruct (Z.eq_dec (s mod nb + 1) nb) as [Q|Q]; [|lia]. exfalso. apply N. replace (s + 1) with ((s / nb + 1) * nb) by lia. apply Z.mod_mul. lia. }
      rewrite EQ. split; assumption. }
  destruct T as [IV4 W4]. set (mD4 := srun PD (if (s + 1) mod nb =? 0 then [TriS s] else []) mD3) in *. set (mL4 := srun PL (if (s + 1) mod nb =? 0 then [B2TModel.TriS s] else []) mL3) in *. clearbody mD4 mL4.
  destruct (steps_sim s lo ((s + 1) / nb * nb) mD4 mL4 Ls Llo IV4 W4) as (J1 & J2 & J3). split; [|split; [|exact J3]].
  - apply (Rc_home _ _ lo _ _ _ J1); [|reflexivity]. unfold lo. pose proof (Z.div_le_mono s (s + 1) nb Hn ltac:(lia)). nia.
  - intros s' t' Ls' Lt' C i Li. apply J2; [exact Ls'|exact Lt'| |exact Li]. destruct C as [C|C]; [|lia]. destruct (Z.eq_dec s' s) as [->|N]; [right; split; [reflexivity|apply Lt']|left; lia].
Qed.
(** ** The whole algorithm *)
Definition m0l (m0 : mem) : meml := fun l => match l with LB z => vget (m0 (LCol (home 0 0 (z / (2 * b))) (ring g (home 0 0 (z / (2 * b))) (z / (2 * b))))) (z mod (2 * b)) | _ => f0 end.
Lemma fin_sim : forall i s lo hi t mD mL, (i = size \/ i = size - 1 /\ m_cplx g = false) -> 0 < size -> (forall c, c < size -> home s 0 c = 0) -> lo <= B2TDistModel.tri_start g i -> Inv (home s 0) lo s t hi mD mL ->
  (hi <= B2TDistModel.tri_start g i -> Inv (home s 0) lo s t hi (sexec PD (TriF i) mD) mL) /\
  (B2TDistModel.tri_start g i <= hi -> lok (B2TModel.TriF i) -> Inv (home s 0) lo s t (B2TDistModel.tri_start g i + fin_nd g i) (sexec PD (TriF i) mD) (sexec PL (B2TModel.TriF i) mL)).
Proof using G.
  intros i s lo hi t mD mL Hi SZ HM Llo (I1 & I2 & I3). destruct (fin_geo g G i SZ Hi) as (F1 & F2 & F3 & F4 & F5). pose proof (g_nb g G) as Hn. split.
  - intros Lh. split; [apply (keep_cols _ _ _ _ mL); [left; reflexivity|exact I1|reflexivity]|]. split; [apply (keep_hh _ _ _ _ mL); [reflexivity|exact I2|reflexivity]|].
    intros c Lc. rewrite sxd. cbn [dwr]. pose proof (Z.mul_div_le c nb Hn). replace (c / nb =? tri_tile g i) with false by nia. apply I3. exact Lc.
  - intros Lh OK. assert (EL : forall l, sexec PL (B2TModel.TriF i) mL l = tri_copy b (B2TDistModel.tri_start g i) (fin_nd g i) (fin_ne g i) mL l) by (intros l; apply (sxl (B2TModel.TriF i)); exact OK).
    split; [apply (keep_cols _ _ _ _ mL); [left; reflexivity|exact I1|intros z; rewrite EL; reflexivity]|]. split; [apply (keep_hh _ _ _ _ mL); [reflexivity|exact I2|intros x y; rewrite EL; reflexivity]|].
    apply (tri_sim (home s 0) lo (tri_tile g i) (B2TDistModel.tri_start g i) (fin_nd g i) (fin_ne g i) hi mD mL); try lia; try exact I1; try exact I3.
    + intros c L1 L2. unfold fin_nd, fin_ne in *. lia.
    + intros c Lc. assert (c < size) by (unfold fin_nd in Lc; lia). split; [lia|]. apply HM. lia.
    + intros x. rewrite sxd. cbn [dwr b2td_eff]. destruct (x =? tri_tile g i); reflexivity.
    + intros x. rewrite EL. reflexivity.
    + intros x. rewrite EL. reflexivity.
Qed.
Theorem dist_local : forall m0, 0 < size -> let mD := srun PD (dseq g) m0 in let mL := srun PL (b2t_seq (m_cplx g) size nb b) (m0l m0) in HHr (sweeps g) 0 mD mL /\ Tr size mD mL.
Proof using G LF.
  intros m0 SZ. cbv zeta. unfold dseq, b2t_seq. replace (size =? 0) with false by lia. rewrite !srun_app. pose proof (g_nb g G) as Hn. pose proof (g_b g G) as Hb. pose proof (nbb2 g G) as N2. pose proof (b_div_nb g G) as BN.
  assert (NT : 0 <= ntl g) by (pose proof (proj2 (ntl_lt g G 0) ltac:(lia)); lia).
  (* the copies *)
  replace (map Copy (zrange 0 (ntl g))) with (flat_map (fun j => [Copy j]) (zrange 0 (ntl g))) by (clear; induction (zrange 0 (ntl g)) as [|x l IH]; [reflexivity|cbn; f_equal; exact IH]).
  assert (R0 : Rc (home 0 0) 0 m0 (m0l m0)). { intros c o Lc Lo. unfold m0l. destruct (co g G c o Lo) as [-> ->]. reflexivity. }
  pose proof (loop2 (fun j => [Copy j]) (fun k => CopyD k :: (if k <? nt size nb - 1 then [CopyO k] else [])) (fun _ => Rc (home 0 0) 0) (ntl g) m0 (m0l m0) NT R0 (fun j mD mL Lj => copy_sim j mD mL Lj)) as R1.
  change (nt size nb) with (ntl g) in *. set (mD1 := srun PD (flat_map _ (zrange 0 (ntl g))) m0) in *. set (mL1 := srun PL (flat_map _ (zrange 0 (ntl g))) (m0l m0)) in *. clearbody mD1 mL1.
  (* the sweeps *)
  assert (IV1 : Inv (home 0 0) (0 / nb * nb) 0 0 (0 / nb * nb) mD1 mL1). { rewrite Z.div_0_l by lia. split; [exact R1|]. split; [intros s t Ls Lt C; lia|intros c Lc; lia]. }
  set (sw := Z.max 0 (sweeps g)). assert (ZR : zrange 0 (sweeps g) = zrange 0 sw) by (unfold sw; destruct (Z.leb_spec 0 (sweeps g)); [rewrite Z.max_r by lia; reflexivity|rewrite Z.max_l by lia; rewrite !zrange_nil by lia; reflexivity]).
  change (nr_sweeps (m_cplx g) size) with (sweeps g). rewrite !ZR.
  pose proof (loop2 (sweep_seq g) lsweep (fun s mD mL => Inv (home s 0) (s / nb * nb) s 0 (s / nb * nb) mD mL) sw mD1 mL1 ltac:(unfold sw; lia) IV1 (fun s mD mL Ls => sweep_sim s mD mL ltac:(unfold sw in Ls; lia))) as IV2. cbv beta in IV2. unfold lsweep in IV2. change (steps g) with (nr_steps size b) in IV2.
  set (mD2 := srun PD (flat_map _ (zrange 0 sw)) mD1) in *. set (mL2 := srun PL (flat_map _ (zrange 0 sw)) mL1) in *. clearbody mD2 mL2.
  (* the end *)
  assert (SW : sweeps g = if m_cplx g then size - 1 else size - 2) by reflexivity.
  assert (HM : forall c, c < size -> home sw 0 c = 0). { intros c Lc. unfold home. destruct (Z.leb_spec c sw); [reflexivity|]. assert (c - sw = 1) by (unfold sw in *; rewrite SW in *; destruct (m_cplx g); lia). rewrite H0, Z.div_small, Z.mod_small by lia. reflexivity. }
  assert (TS : B2TDistModel.tri_start g size = (size - 1) / nb * nb) by (unfold B2TDistModel.tri_start, tri_tile; rewrite Z.quot_div_nonneg by lia; reflexivity).
  assert (HW : forall mD mL, HHr sw 0 mD mL -> HHr (sweeps g) 0 mD mL) by (intros mD mL H s t Ls Lt C i Li; apply H; [exact Ls|exact Lt|unfold sw; lia|exact Li]).
  assert (FIN : forall mD mL lo hi, Inv (home sw 0) lo sw 0 hi mD mL -> lo <= (size - 1) / nb * nb <= hi -> HHr (sweeps g) 0 (sexec PD (TriF size) mD) (sexec PL (B2TModel.TriF size) mL) /\ Tr size (sexec PD (TriF size) mD) (sexec PL (B2TModel.TriF size) mL)).
  { intros mD mL lo hi IV [L1 L2]. destruct (fin_sim size sw lo hi 0 mD mL (or_introl eq_refl) SZ HM ltac:(lia) IV) as [_ F]. destruct F as (_ & F2 & F3); [lia|left; reflexivity|]. split; [apply HW; exact F2|]. replace (B2TDistModel.tri_start g size + fin_nd g size) with size in F3; [exact F3|]. unfold fin_nd. rewrite TS.
    pose proof (Z.div_mod (size - 1) nb ltac:(lia)). pose proof (Z.mod_pos_bound (size - 1) nb Hn). lia. }
  cbn [srun fold_left]. destruct (m_cplx g) eqn:CX.
  - change (extra_tri true size nb) with false. cbn [fold_left]. apply (FIN _ _ _ _ IV2). assert (sw = size - 1) by (unfold sw; lia). rewrite H. lia.
  - change (srun PD [TriF (size - 1)] mD2) with (sexec PD (TriF (size - 1)) mD2). assert (EX : extra_tri false size nb = ((size - 1) mod nb =? 0)) by reflexivity.
    assert (TS1 : B2TDistModel.tri_start g (size - 1) = sw / nb * nb).
    { unfold B2TDistModel.tri_start, tri_tile. destruct (Z.eq_dec size 1) as [E1|N1].
      - assert (E0 : sw = 0) by (unfold sw; lia). rewrite E0, E1. change (1 - 1 - 1) with (- (1)). rewrite Z.quot_opp_l, Z.quot_small, Z.div_0_l by lia. reflexivity.
      - rewrite Z.quot_div_nonneg by lia. f_equal. f_equal. unfold sw. lia. }
    pose proof (Z.div_mod (size - 1) nb ltac:(lia)) as D1. pose proof (Z.mod_pos_bound (size - 1) nb Hn) as MB.
    destruct (fin_sim (size - 1) sw (sw / nb * nb) (sw / nb * nb) 0 mD2 mL2 (or_intror (conj eq_refl CX)) SZ HM ltac:(lia) IV2) as [F1 F2]. destruct (Z.eqb_spec ((size - 1) mod nb) 0) as [E|N]; rewrite EX; cbn [fold_left].
    + change (srun PL [B2TModel.TriF (size - 1)] mL2) with (sexec PL (B2TModel.TriF (size - 1)) mL2). assert (OK : lok (B2TModel.TriF (size - 1))) by (right; split; [reflexivity|]; rewrite CX, EX; lia).
      apply (FIN _ _ _ _ (F2 ltac:(lia) OK)). unfold fin_nd. rewrite TS1. destruct (Z.eq_dec size 1) as [E1|N1]; [assert (E0 : sw = 0) by (unfold sw; lia); rewrite E0, E1; cbn [Z.sub]; change (1 - 1) with 0; rewrite Z.div_0_l by lia; lia|].
      assert (ES : sw = size - 2) by (unfold sw; lia). rewrite ES. assert (T2 : (size - 2) / nb = (size - 1) / nb - 1) by (symmetry; apply (Z.div_unique _ _ _ (nb - 1)); lia). rewrite T2. lia.
    + apply (FIN _ _ _ _ (F1 ltac:(lia))). assert (ES : sw = size - 2) by (unfold sw; destruct (Z.eq_dec size 1) as [E1|N1]; [exfalso; apply N; rewrite E1; change (1 - 1) with 0; apply Z.mod_0_l; lia|lia]). rewrite ES.
      assert (T2 : (size - 2) / nb = (size - 1) / nb) by (symmetry; apply (Z.div_unique _ _ _ ((size - 1) mod nb - 1)); lia). rewrite T2. lia.
Qed.
End sim.
