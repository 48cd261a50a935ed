(** * Distributed back transformation band to tridiagonal: the order of the blocks, and the whole program *)
From Coq Require Import ZArith Lia List Bool Ring Sorting.Sorted.
From Verif Require Import CInt Loop StarField DenseSpec Tiling RefKernels DistModel DistSpec DistProofs DistBuilt DistThms DistCtor DenseJobs TileJobs HouseSpec HouseModel MultiJobs Reorder Red2BandModel Red2BandSpec B2TModel B2TSched B2TResult B2TAlg BtB2TModel BtB2TTile BtB2TApply BtB2TProofs BtB2TFinal
  DistMachine DistGrid PanelModel PanelProofs Properties_Panel DistLocal DistTriModel DistMat DistBtB2TModel DistBtB2TFacts DistBtB2TIdx DistBtB2TEvents DistBtB2TTile DistBtB2TProofs.
Import ListNotations.
Local Open Scope Z_scope.

Section order.
Variable cplx : bool.
Variables m b : Z.
Hypothesis Hb : 2 <= b.
Hypothesis Hm : (if cplx then 1 else 2) < m.
Notation jl := (j_last cplx m b).
Lemma steps_char : forall j st, 0 <= j -> 0 <= st -> (st < t_steps m b (j * b) <-> (j + st) * b < m - 2 \/ (st = 0 /\ j * b = m - 2)).
Proof using Hb.
  intros j st Lj Ls. unfold t_steps. destruct (Z.eqb_spec (j * b) (m - 2)) as [E|E]; [nia|]. rewrite ceil_div_lt by lia. split; [intros; left; nia|intros [L|[_ L]]; [nia|contradiction]].
Qed.
Section ep.
Variable k : Z.
Hypothesis Hk : k <= jl.
Notation cond j := (2 * j - k < j + t_steps m b (j * b)).
Lemma cond_char : forall j, Z.max 0 k <= j -> (cond j <-> (2 * j - k) * b < m - 2 \/ (j = k /\ j * b = m - 2)).
Proof using Hb. intros j Lj. assert (S := steps_char j (j - k) ltac:(lia) ltac:(lia)). replace (j + (j - k)) with (2 * j - k) in S by lia. rewrite Z.sub_move_0_r in S || idtac. lia. Qed.
Lemma cond_down : forall j j', Z.max 0 k <= j <= j' -> cond j' -> cond j.
Proof using Hb. intros j j' L C. apply cond_char in C; [|lia]. apply cond_char; [lia|]. destruct (Z.eq_dec j j') as [->|N]; [exact C|]. left. destruct C as [C|[C _]]; [nia|lia]. Qed.
Lemma cond_last : forall j, Z.max 0 k <= j -> cond j -> j <= jl.
Proof using Hb Hm Hk.
  intros j L C. apply cond_char in C; [|exact L]. destruct C as [C|[-> _]]; [|exact Hk]. assert (J := jl_spec cplx m b Hb Hm). unfold t_sweeps in J. assert (j * b <= (2 * j - k) * b) by nia.
  destruct cplx; nia.
Qed.
Lemma in_from : forall f j i' j', Z.max 0 k <= j -> (In (i', j') (epoch_from m b f (2 * j - k) j) <-> i' = 2 * j' - k /\ j <= j' < j + Z.of_nat f /\ cond j').
Proof using Hb.
  induction f as [|f IH]; intros j i' j' Lj; [cbn; lia|]. cbn [epoch_from]. destruct (Z.ltb_spec (2 * j - k) (j + t_steps m b (j * b))) as [C|C].
  - cbn [In]. replace (2 * j - k + 2) with (2 * (j + 1) - k) by lia. rewrite IH by lia. split.
    + intros [E|E]; [assert (E1 : i' = 2 * j - k) by congruence; assert (E2 : j' = j) by congruence; subst i' j'; split; [reflexivity|split; [lia|exact C]]|]. lia.
    + intros (E1 & E2 & E3). destruct (Z.eq_dec j' j) as [->|]; [left; subst i'; reflexivity|]. right. lia.
  - cbn [In]. split; [intros []|]. intros (_ & L & C'). assert (cond j) by (apply (cond_down j j'); lia). lia.
Qed.
Lemma in_epoch : forall i j, In (i, j) (epoch m b k) <-> k = 2 * j - i /\ 0 <= j <= jl /\ 0 <= i - j < t_steps m b (j * b).
Proof using Hb Hm Hk.
  intros i j. unfold epoch. replace (Z.abs k) with (2 * Z.max 0 k - k) by lia. rewrite in_from by lia. split.
  - intros (-> & L & C). assert (J := cond_last j ltac:(lia) C). lia.
  - intros (-> & L & S). assert (JB := jl_spec cplx m b Hb Hm). unfold t_sweeps in JB. assert (jl < m) by (destruct cplx; nia). rewrite Z2Nat.id by (destruct cplx; lia). lia.
Qed.
Lemma from_sorted : forall f i j, StronglySorted (fun p q => snd p < snd q) (epoch_from m b f i j) /\ (forall p, In p (epoch_from m b f i j) -> j <= snd p).
Proof using.
  induction f as [|f IH]; intros i j; cbn [epoch_from]; [split; [constructor|intros p []]|]. destruct (_ <? _); [|split; [constructor|intros p []]].
  destruct (IH (i + 2) (j + 1)) as [S B]. split; [constructor; [exact S|]|].
  - apply Forall_forall. intros p Ip. specialize (B p Ip). cbn [snd]. lia.
  - intros p [<-|Ip]; [cbn; lia|]. specialize (B p Ip). lia.
Qed.
End ep.
(** the blocks (j, step) in the order of the program *)
Definition dblocks : list (Z * Z) := flat_map (fun k => map (fun ij => (snd ij, fst ij - snd ij)) (epoch m b k)) (epochs cplx m b).
Lemma in_epochs : forall k, In k (epochs cplx m b) <-> - t_steps m b 0 < k <= jl.
Proof using. intros k. unfold epochs. rewrite <- in_rev, in_zrange. lia. Qed.
Lemma in_dblocks : forall j step, In (j, step) dblocks <-> 0 <= j <= jl /\ 0 <= step < t_steps m b (j * b).
Proof using Hb Hm.
  intros j step. unfold dblocks. rewrite in_flat_map. split.
  - intros (k & Ik & I0). apply in_epochs in Ik. apply in_map_iff in I0 as ([i j'] & E & I0). cbn [fst snd] in E. injection E as -> <-. apply in_epoch in I0; [|lia]. tauto.
  - intros [A B]. exists (j - step). split.
    + apply in_epochs. split; [|lia]. assert (S0 : step < t_steps m b (0 * b)); [|cbn in S0; lia]. apply steps_char; [lia|lia|]. assert (S := proj1 (steps_char j step ltac:(lia) ltac:(lia)) ltac:(lia)). assert (0 <= j * b) by nia.
      destruct S as [S|[S1 S2]]; [left; nia|]. subst step. destruct (Z.eq_dec (m - 2) 0); [right; lia|left; nia].
    + apply in_map_iff. exists (j + step, j). split; [cbn [fst snd]; f_equal; lia|]. apply in_epoch; [lia|]. lia.
Qed.
Definition lt_skew (p q : Z * Z) : Prop :=
  let kp := fst p / b - snd p in let kq := fst q / b - snd q in
  kp < kq \/ (kp = kq /\ (fst q / b < fst p / b \/ (fst q / b = fst p / b /\ fst p < fst q))).
Definition dall : list (Z * Z) := flat_map (blk_of cplx m b) (rev dblocks).
Lemma in_dall : forall x, In x dall <-> In x (hht_list cplx m b).
Proof using Hb Hm.
  intros [sw st]. rewrite <- (in_all_refl cplx m b Hb Hm). unfold dall, all_refl. rewrite !in_flat_map. split; intros ([j step] & I1 & I2); exists (j, step); (split; [|exact I2]); apply in_rev in I1; apply -> in_rev.
  - apply in_blocks. apply in_dblocks. exact I1.
  - apply in_dblocks. apply (in_blocks cplx m b). exact I1.
Qed.
Lemma blk_row : forall j step p, 0 <= j <= jl -> 0 <= step < t_steps m b (j * b) -> In p (blk_of cplx m b (j, step)) -> fst p / b = j /\ snd p = step.
Proof using Hb Hm.
  intros j step [sw st] Lj Ls I0. apply in_blk in I0; [|exact Lj|exact Ls]. destruct I0 as [-> L]. assert (KP := k_pos cplx m b Hb Hm j step Lj Ls). cbn [fst snd].
  replace sw with (j * b + (sw - j * b)) by lia. rewrite div_b by (first [exact Hb | lia]). auto.
Qed.
Lemma dall_sorted : StronglySorted lt_skew dall.
Proof using Hb Hm.
  unfold dall, dblocks. rewrite rev_flat_map. unfold epochs. rewrite rev_involutive. rewrite flat_map_flat_map. apply (sorted_flat_gen lt_skew Z.lt); [apply zrange_sorted| |].
  - intros k Ik. apply in_zrange in Ik. rewrite <- map_rev, flat_map_map. apply (sorted_flat_gen lt_skew (fun a c => snd c < snd a)).
    + apply (sorted_rev (fun p q : Z * Z => snd p < snd q)). apply from_sorted.
    + intros [i j] I0. apply in_rev in I0. apply in_epoch in I0; [|lia]. destruct I0 as (-> & Lj & Ls). cbn [fst snd]. unfold blk_of, blk. cbn [fst snd]. apply (sorted_map lt_skew Z.lt); [apply zrange_sorted|].
      intros x y Ix Iy L. apply in_zrange in Ix, Iy. assert (KP := k_pos cplx m b Hb Hm j (i - j) Lj Ls). unfold lt_skew. cbn [fst snd]. rewrite !div_b by (first [exact Hb | lia]). lia.
    + intros [i1 j1] [i2 j2] a c I1 I2 L Ia Ic. apply in_rev in I1, I2. apply in_epoch in I1, I2; [|lia|lia]. destruct I1 as (E1 & L1 & S1), I2 as (E2 & L2 & S2). cbn [fst snd] in L, Ia, Ic.
      apply blk_row in Ia, Ic; [|assumption|assumption|assumption|assumption]. unfold lt_skew. destruct Ia as [-> ->], Ic as [-> ->]. cbv zeta. lia.
  - intros k1 k2 a c I1 I2 L Ia Ic. apply in_zrange in I1, I2. apply in_flat_map in Ia as (p1 & J1 & Ia). apply in_flat_map in Ic as (p2 & J2 & Ic).
    apply in_rev, in_map_iff in J1 as ([i1 j1] & <- & J1). apply in_rev, in_map_iff in J2 as ([i2 j2] & <- & J2). apply in_epoch in J1, J2; [|lia|lia]. destruct J1 as (E1 & L1 & S1), J2 as (E2 & L2 & S2). cbn [fst snd] in Ia, Ic.
    apply blk_row in Ia, Ic; [|assumption|assumption|assumption|assumption]. unfold lt_skew. destruct Ia as [-> ->], Ic as [-> ->]. cbv zeta. left. lia.
Qed.
Lemma skew_order : forall {K : starfield} (V E : mat K), eqrows m (happly m b V dall E) (happly m b V (hht_list cplx m b) E).
Proof using Hb Hm.
  intros K V E. apply (happly_reorder m b V ltac:(lia) lt_skew lt_lex).
  - apply dall_sorted.
  - apply hht_list_sorted.
  - intros x. unfold lt_skew. lia.
  - intros x y. unfold lt_lex. lia.
  - apply in_dall.
  - intros [s1 t1] [s2 t2] _ _ L O. unfold lt_skew, overlap, hht_start in *. unfold lt_lex. cbn [fst snd] in *. cbv zeta in L.
    assert (D1 := Z.div_mod s1 b ltac:(lia)). assert (D2 := Z.div_mod s2 b ltac:(lia)). assert (M1 := Z.mod_pos_bound s1 b ltac:(lia)). assert (M2 := Z.mod_pos_bound s2 b ltac:(lia)).
    set (j1 := s1 / b) in *. set (j2 := s2 / b) in *. clearbody j1 j2. destruct L as [L|[L [L2|[L2 L3]]]]; [|exfalso; nia|left; lia].
    destruct (Z.lt_trichotomy s1 s2) as [H|[H|H]]; [left; exact H| |].
    + subst s2. assert (j1 = j2) by nia. subst j2. exfalso. assert (t2 + 1 <= t1) by lia. nia.
    + exfalso. assert (j2 <= j1) by nia. assert (t2 + 1 <= t1) by lia. nia.
Qed.
End order.

Section final.
Context {K : starfield} (kn : kernels K) (KO : kernels_ok kn).
Variable larft : @larft_fn K.
Hypothesis LO : larft_ok larft.
Variable cplx : bool.
Variables P Q m mb b g ne nb : Z.
Variables srcH srcE : pair_Z.
Variables DH DE : coord -> Z -> axis.
Hypothesis DDH : distributed P Q (m, m) (mb, mb) (mb, mb) srcH (0, 0) DH.
Hypothesis DDE : distributed P Q (m, ne) (mb, nb) (b, nb) srcE (0, 0) DE.
Hypothesis SR : fst srcE = fst srcH.
Hypothesis Hb : 2 <= b.
Hypothesis Hg : 0 < g.
Notation mem := (members P Q).
Notation rks := (ranks P Q).
Definition g_one (p : Z * Z) : list (event (mat K)) := g_block kn larft cplx P Q m mb b g srcH DH DE (fst p - snd p) (fst p) (snd p).
Definition g_all : list (event (mat K)) :=
  if (m =? 0) || (ne =? 0) then [] else if m <=? (if cplx then 1 else 2) then [] else flat_map g_one (dblocks cplx m b).
Lemma epochs_trivial : 0 < m <= (if cplx then 1 else 2) -> epochs cplx m b = [] \/ t_sweeps cplx m = 0.
Proof using DDH DDE Hb.
  intros L. unfold t_sweeps. destruct cplx; [right; lia|]. destruct (Z.eq_dec m 2) as [->|N]; [right; lia|]. left. assert (m = 1) by lia. subst m.
  unfold epochs, j_last, t_sweeps, t_steps, ceil_div. change (0 =? 1 - 2) with false. cbv iota. rewrite (Z.div_small (1 - 0 - 2 + b - 1) b) by lia.
  rewrite zrange_nil; [reflexivity|]. assert ((1 - 2 - 1) / b < 0) by (apply Z.div_lt_upper_bound; lia). lia.
Qed.
Lemma all_proj : forall r, In r rks -> dist_bt_b2t kn larft cplx P Q m mb b g DH DE r = proj mem r g_all.
Proof using DDH DDE SR Hb Hg.
  intros r R. unfold dist_bt_b2t, g_all. rewrite (x_hsize P Q m mb srcH DH DDH) by exact R. rewrite (x_esize P Q m mb b ne nb srcE DE DDE) by exact R.
  destruct ((m =? 0) || (ne =? 0)) eqn:E0; [reflexivity|]. assert (MP : 0 <= m) by (destruct DDH as (_ & _ & A & _); destruct (A Row) as (B & _); exact B).
  destruct (Z.leb_spec m (if cplx then 1 else 2)) as [L|L].
  - destruct (epochs_trivial ltac:(lia)) as [E|E]; rewrite E; [|reflexivity]. destruct (t_sweeps cplx m =? 0); reflexivity.
  - replace (t_sweeps cplx m =? 0) with false by (unfold t_sweeps; destruct cplx; lia). rewrite (proj_flat P Q). unfold dblocks. rewrite flat_map_flat_map. apply flat_map_ext_in. intros k Ik. apply in_epochs in Ik.
    rewrite flat_map_map. apply flat_map_ext_in. intros [i j] I0. apply (in_epoch cplx m b Hb L k ltac:(lia)) in I0. destruct I0 as (EK & Lj & Ls). unfold g_one. cbn [fst snd].
    rewrite (block_proj kn larft cplx P Q m mb b g ne nb srcH srcE DH DE DDH DDE SR Hb L (j - (i - j)) j (i - j) Lj Ls r R).
    replace (j - (i - j)) with k by lia. replace (j + (i - j)) with i by lia. reflexivity.
Qed.
Lemma all_ok : Forall (event_ok mem rks) g_all.
Proof using DDH DDE Hb.
  unfold g_all. destruct (_ || _); [constructor|]. destruct (Z.leb_spec m (if cplx then 1 else 2)) as [L|L]; [constructor|]. apply forall_flat. intros [j step] I0.
  apply (in_dblocks cplx m b Hb L) in I0. destruct I0 as [Lj Ls]. apply (block_ok kn larft cplx P Q m mb b g ne nb srcH srcE DH DE DDH DDE Hb L _ j step Lj Ls).
Qed.
Lemma HHd_ext : forall s st : tstore (mat K), (forall x, t_mat x = 0 -> s x = st x) -> forall a c, HHd P Q mb srcH s a c = HHd P Q mb srcH st a c.
Proof using. intros s st E a c. unfold HHd, dmat. rewrite E by reflexivity. reflexivity. Qed.
Lemma dblocks_run : (if cplx then 1 else 2) < m -> forall bs, (forall p, In p bs -> In p (dblocks cplx m b)) -> forall st : tstore (mat K),
  let s := erun mem (flat_map g_one bs) st in
  (forall x, t_mat x = 0 -> s x = st x) /\
  (forall a y, 0 <= a < m -> 0 <= y < ne -> Ed P Q mb b nb srcE s a y = happly m b (HHd P Q mb srcH st) (flat_map (blk_of cplx m b) (rev bs)) (Ed P Q mb b nb srcE st) a y).
Proof using KO LO DDH DDE SR Hb Hg.
  intros Hm. induction bs as [|[j step] bs IH]; intros SUB st; [split; reflexivity|]. cbn [flat_map]. cbv zeta. rewrite (erun_app P Q).
  assert (IB := SUB (j, step) (or_introl eq_refl)). apply (in_dblocks cplx m b Hb Hm) in IB. destruct IB as [Lj Ls].
  destruct (block_run kn KO larft LO cplx P Q m mb b g ne nb srcH srcE DH DE DDH DDE SR Hb Hg Hm (j - step) j step Lj Ls st) as [B1 B2].
  set (s1 := erun mem (g_one (j, step)) st) in *. change (erun mem (g_block kn larft cplx P Q m mb b g srcH DH DE (j - step) j step) st) with s1 in B1, B2.
  destruct (IH (fun p I0 => SUB p (or_intror I0)) s1) as [I1 I2]. clear IH. split.
  - intros x Lx. rewrite I1, B1 by exact Lx. reflexivity.
  - intros a y La Ly. rewrite I2 by assumption. cbn [rev]. rewrite flat_map_app, happly_app. cbn [flat_map]. rewrite app_nil_r.
    rewrite (happly_V m b _ (HHd P Q mb srcH s1) (HHd P Q mb srcH st)) by (apply HHd_ext; exact B1). apply happly_col; [|exact La]. intros a' La'. apply B2; assumption.
Qed.
Theorem all_run : forall st : tstore (mat K), let s := erun mem g_all st in
  (forall x, t_mat x = 0 -> s x = st x) /\
  meq m ne (Ed P Q mb b nb srcE s) (mmul m (hht_product m b (HHd P Q mb srcH st) (hht_list cplx m b)) (Ed P Q mb b nb srcE st)).
Proof using KO LO DDH DDE SR Hb Hg.
  intros st. cbv zeta. unfold g_all. destruct ((m =? 0) || (ne =? 0)) eqn:E0; [split; [reflexivity|]; intros a c La Lc; lia|].
  destruct (Z.leb_spec m (if cplx then 1 else 2)) as [L|L].
  - split; [reflexivity|]. intros a c La Lc. cbn [erun fold_left]. unfold hht_list. rewrite zrange_nil by (unfold hht_sweeps; destruct cplx; lia). cbn. symmetry. apply mmul_ident_l. exact La.
  - destruct (dblocks_run L (dblocks cplx m b) (fun p I0 => I0) st) as [B1 B2]. split; [exact B1|]. intros a c La Lc. rewrite B2 by assumption. rewrite <- happly_product by exact La. apply (skew_order cplx m b Hb L). exact La.
Qed.
End final.
