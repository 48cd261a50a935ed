(** * Distributed reduction_to_band: all the iterations, against the local algorithm *)
From Coq Require Import ZArith Lia List Bool Permutation Ring.
From Verif Require Import CInt Loop StarField DenseSpec Tiling DenseJobs TileJobs RefKernels BlockJobs TriangularProofs HouseSpec HouseModel HouseProofs HouseQR TFactorProofs MultiJobs
  Red2BandModel Red2BandSpec Red2BandProofs Red2BandTheory
  DistModel DistSpec DistBuilt DistThms DistMachine DistGrid PanelModel PanelProofs DistSim DistProg DistPhase DistLocal DistInverseModel DistTriModel DistTriProofs DistMultModel DistMultProofs DistBtR2BModel DistBtR2BProofs DistR2BModel DistR2BIdx DistR2BPanel DistR2BStep DistR2BTrail DistR2BIter.
Import ListNotations.
Local Open Scope Z_scope.

Section all.
Context {K : starfield} (kn : kernels K) (KO : kernels_ok kn) (rs : roots K).
Variables (P Q : Z) (Ls : coord -> layout) (D : coord -> Z -> axis) (nt : coord -> Z).
Hypothesis GA : grid_axes P Q Ls D nt.
Variables n mb b : Z.
Hypothesis (Hb : 0 < b) (Hmb : 0 < mb) (Hdiv : mb mod b = 0).
Hypothesis NT : forall rc, nt rc = r2b_nrt n mb.
Hypothesis SZ : forall r rc i, In r (ranks P Q) -> 0 <= i < r2b_nrt n mb -> szt Q D r rc i = r2b_sz n mb i.
Variables avail minwork avail_t : Z -> Z.
Hypothesis AT : forall r, In r (ranks P Q) -> 0 < avail_t r.
Notation rks := (ranks P Q).
Notation mem := (members P Q).
Notation G := (dG (K := K) Q Ls mb).
Notation onp j r := (onp (Q := Q) (Ls := Ls) (mb := mb) (b := b) (j := j) r).
Lemma ctx : forall j, 0 <= j -> j * b < r2b_nrefls n b -> r2b_ctx P Q Ls D nt n mb b j.
Proof using GA Hb Hmb Hdiv NT SZ. intros j J0 J1. constructor; assumption. Qed.

(** the panel before iteration j, the states between the iterations and the branches *)
Definition pm (s : tstore (mat K)) (j : Z) : mat K := fun a q => G s (e_row b j + a) (e_col b j + q).
Notation it j M := (eIter (P := P) (Q := Q) (Ls := Ls) (D := D) (n := n) (mb := mb) (b := b) (j := j) kn rs avail minwork avail_t M).
Notation tx j M c := (taux (n := n) (mb := mb) (b := b) (j := j) rs M c).
Variable st0 : tstore (mat K).
Fixpoint stq (k : nat) : tstore (mat K) := match k with O => st0 | S k => erun mem (it (Z.of_nat k) (pm (stq k) (Z.of_nat k))) (stq k) end.
Definition r2b_dec (r j c : Z) : bool := pdec (n := n) (mb := mb) (b := b) (j := j) rs (pm (stq (Z.to_nat j)) j) c.
Definition e_r2b : list (event (mat K)) := if r2b_nrefls n b =? 0 then [] else flat_map (fun j => it j (pm (stq (Z.to_nat j)) j)) (zrange 0 (r2b_ntiles n b)).
Lemma ntiles_j : forall j, 0 <= j < r2b_ntiles n b -> r2b_nrefls n b <> 0 -> j * b < r2b_nrefls n b.
Proof using Hb.
  intros j L N. assert (NP : 0 < r2b_nrefls n b) by (unfold r2b_nrefls in *; lia). unfold r2b_ntiles in L. assert (j <= (r2b_nrefls n b - 1) / b) by lia. pose proof (Z.mul_div_le (r2b_nrefls n b - 1) b Hb). nia.
Qed.
Lemma e_r2b_ok : Forall (event_ok mem rks) e_r2b.
Proof using GA Hb Hmb Hdiv NT SZ.
  unfold e_r2b. destruct (Z.eqb_spec (r2b_nrefls n b) 0) as [E|E]; [constructor|]. apply forall_flat. intros j Lj. apply in_zrange in Lj.
  apply (eIter_ok (ctx j ltac:(lia) (ntiles_j j Lj E))).
Qed.
Lemma e_r2b_proj : forall r, In r rks -> proj mem r e_r2b = dist_red2band kn rs P Q n mb b D avail minwork avail_t r2b_dec r.
Proof using GA Hb Hmb Hdiv NT SZ.
  intros r R. unfold e_r2b, dist_red2band. destruct (Z.eqb_spec (r2b_nrefls n b) 0) as [E|E]; [reflexivity|]. rewrite (proj_flat P Q). apply flat_map_ext_in. intros j Lj. apply in_zrange in Lj.
  apply (eIter_proj (ctx j ltac:(lia) (ntiles_j j Lj E))); [exact R|]. reflexivity.
Qed.
Lemma run_stq : forall k, erun mem (flat_map (fun j => it j (pm (stq (Z.to_nat j)) j)) (zrange 0 (Z.of_nat k))) st0 = stq k.
Proof using.
  induction k as [|k IH]; [reflexivity|]. rewrite Nat2Z.inj_succ, <- Z.add_1_r. rewrite zrange_snoc by lia. rewrite flat_map_app, (erun_app P Q), IH. cbn [flat_map]. rewrite app_nil_r, Nat2Z.id. reflexivity.
Qed.

(** ** The local algorithm on the same matrix *)
Definition lcfg : r2b_cfg := R2BCfg kn 1 1 1 (fun j i => zrange 0 (panel_nworkers (ptl n mb b j) 1 1)).
Lemma lcfg_ok : cfg_ok n mb b lcfg. Proof using KO. split; [exact KO|]. split; [cbn; lia|]. intros j i _ _ _. apply Permutation_refl. Qed.
Definition linit : tstore (mat K) := fun y p q => G st0 (t_row y * mb + p) (t_col y * mb + q).
Lemma linit_mat : forall a q, r2b_mat mb linit a q = G st0 a q.
Proof using Hmb.
  intros a q. unfold r2b_mat, linit. cbn [rA t_row t_col]. pose proof (Z.div_mod a mb ltac:(lia)). pose proof (Z.div_mod q mb ltac:(lia)). f_equal; lia.
Qed.
Notation lstep j := (r2b_step (c_kn lcfg) rs n mb b (c_avail lcfg) (c_minwork lcfg) (c_avail_t lcfg) (c_ord lcfg) j).
Definition lst (k : Z) : tstore (mat K) := mrun (flat_map (fun j => lstep j) (zrange 0 k)) linit.
Definition sim (k : Z) (s l : tstore (mat K)) : Prop := meq n n (G s) (r2b_mat mb l) /\ real_diag n (r2b_mat mb l) /\
  forall j r q, 0 <= j < k -> In r rks -> onp j r = true -> 0 <= q < n_refl n b j ->
    s (qTau r j) q 0 = l (Red2BandModel.rTau j) q 0 /\ s (qBr r j q) 0 0 = tx j (pm (stq (Z.to_nat j)) j) q.
Lemma sim_step : forall k, 0 <= k -> k * b < r2b_nrefls n b -> sim k (stq (Z.to_nat k)) (lst k) -> sim (k + 1) (stq (Z.to_nat (k + 1))) (lst (k + 1)).
Proof using KO GA Hb Hmb Hdiv NT SZ AT.
  intros k K0 K1 (SG & RD & ST). pose proof (ctx k K0 K1) as C.
  assert (RDG : real_diag n (G (stq (Z.to_nat k)))) by (intros a La; unfold real; rewrite SG by assumption; apply RD; assumption).
  pose proof (n_refl_pos n b Hb k K1) as NP. pose proof (n_refl_b n b k) as NB. pose proof (n_refl_n n b Hb k K0 K1) as NN. pose proof (e_row_col b k) as ERC.
  assert (EC0 : 0 <= e_col b k) by (unfold e_col; nia).
  destruct lcfg_ok as (LO1 & LO2 & LO3).
  destruct (r2b_step_ok (c_kn lcfg) LO1 rs n mb b (c_avail lcfg) (c_minwork lcfg) (c_avail_t lcfg) (c_ord lcfg) Hb Hmb Hdiv k K0 K1 (fun i Li => LO3 k i K0 K1 Li) LO2 (lst k)) as (_ & _ & S3 & S4 & _ & S6 & S7).
  { intros a La. apply RD. lia. }
  destruct (iter_val C kn KO rs avail minwork avail_t AT (stq (Z.to_nat k))) as (D1 & D2 & D3 & D4 & D5).
  { intros a La. apply RDG. lia. }
  pose proof (real_diag_step rs n mb b ltac:(unfold r2b_nrefls in K1; lia) Hb Hmb Hdiv lcfg k (lst k) lcfg_ok K0 K1 RD) as RD'.
  assert (EL : lst (k + 1) = mrun (lstep k) (lst k)) by (unfold lst; rewrite zrange_snoc by lia; rewrite flat_map_app, mrun_app; cbn [flat_map]; rewrite app_nil_r; reflexivity).
  assert (ES : stq (Z.to_nat (k + 1)) = erun mem (it k (pm (stq (Z.to_nat k)) k)) (stq (Z.to_nat k))).
  { replace (Z.to_nat (k + 1)) with (S (Z.to_nat k)) by lia. cbn [stq]. rewrite Z2Nat.id by lia. reflexivity. }
  rewrite EL, ES. clear EL ES. set (l' := mrun (lstep k) (lst k)) in *. set (l := lst k) in *. set (s := stq (Z.to_nat k)) in *. fold (pm s k) in D1, D2, D4. set (M0 := pm s k) in *.
  change (fun a q => G s (e_row b k + a) (e_col b k + q)) with M0 in *. set (s' := erun mem (it k M0) s) in *.
  set (m := n - e_row b k) in *. set (t := ptl n mb b k) in *. set (nr := n_refl n b k) in *.
  cbv zeta in S7. destruct S7 as [R1 R2].
  destruct (m_run_ext rs t b (Z.to_nat nr) M0 (fun a q => r2b_mat mb l (e_row b k + a) (e_col b k + q)) (col_vec (l (Red2BandModel.rTau k))) (col_vec (l (Red2BandModel.rTau k)))) as [X1 X2].
  { unfold t. rewrite ptl_size by assumption. unfold nr. lia. } { unfold nr. lia. }
  { intros a q La Lq. unfold t in La. rewrite ptl_size in La by assumption. apply SG; lia. } { reflexivity. }
  assert (ETAU : forall q, 0 <= q < nr -> tx k M0 q = col_vec (l' (Red2BandModel.rTau k)) q).
  { intros q Lq. rewrite R2. fold t nr. rewrite <- X2. unfold t. rewrite (snd_run (n := n) (mb := mb) (b := b) (j := k) rs). destruct (Z.leb_spec 0 q), (Z.ltb_spec q (Z.of_nat (Z.to_nat nr))); try lia. reflexivity. }
  assert (EP : forall a q, 0 <= a < m -> 0 <= q < b -> G s' (e_row b k + a) (e_col b k + q) = r2b_mat mb l' (e_row b k + a) (e_col b k + q)).
  { intros a q La Lq. rewrite D1 by assumption. rewrite R1 by assumption. fold t nr. rewrite <- X1; [|unfold t; rewrite ptl_size by assumption; exact La|exact Lq].
    unfold t. rewrite (fst_run (n := n) (mb := mb) (b := b) (j := k) rs). rewrite Z2Nat.id by lia. reflexivity. }
  split; [|split; [exact RD'|]].
  - intros a q La Lq. destruct (Z.lt_ge_cases a (e_row b k)) as [A|A]; [rewrite S4, D3 by lia; apply SG; assumption|].
    destruct (Z.lt_ge_cases q (e_col b k)) as [Cq|Cq]; [rewrite S4, D3 by lia; apply SG; assumption|].
    destruct (Z.lt_ge_cases a q) as [AQ|AQ]; [rewrite S4, D3 by lia; apply SG; assumption|].
    destruct (Z.lt_ge_cases q (e_row b k)) as [Dq|Dq].
    + replace a with (e_row b k + (a - e_row b k)) by lia. replace q with (e_col b k + (q - e_col b k)) by lia. apply EP; unfold m; lia.
    + replace a with (e_row b k + (a - e_row b k)) by lia. replace q with (e_row b k + (q - e_row b k)) by lia. rewrite S3, D2 by (unfold m; lia). fold m.
      assert (EQ : meq m m (refl_prod m (unit_lower (Mx (n := n) (mb := mb) (b := b) (j := k) rs M0 nr)) (fun c => tx k M0 c) (Z.to_nat nr))
                           (refl_prod m (unit_lower (fun a q => r2b_mat mb l' (e_row b k + a) (e_col b k + q))) (col_vec (l' (Red2BandModel.rTau k))) (Z.to_nat nr))).
      { apply refl_prod_ext; [|intros; apply ETAU; lia]. intros i x Li Lx. unfold unit_lower. rewrite <- EP, D1 by lia. reflexivity. }
      apply mmul_ext; intros r Lr; [unfold adj, opm; rewrite EQ by (unfold m in *; lia); reflexivity|]. apply mmul_ext; intros u Lu; [|apply EQ; unfold m in *; lia].
      unfold herm. rewrite !SG by (unfold m in *; lia). reflexivity.
  - intros j r q Lj R O Lq. destruct (Z.eq_dec j k) as [->|N].
    + destruct (D4 r R O q Lq) as [T1 T2]. rewrite T1, T2. split; [rewrite ETAU by exact Lq; reflexivity|reflexivity].
    + destruct (D5 r j N) as [T1 T2]. rewrite T1, T2. rewrite S6 by exact N. apply ST; (assumption || lia).
Qed.
Lemma sim_all : real_diag n (G st0) -> r2b_nrefls n b <> 0 -> forall k, 0 <= k -> k <= r2b_ntiles n b -> sim k (stq (Z.to_nat k)) (lst k).
Proof using KO GA Hb Hmb Hdiv NT SZ AT.
  intros RD N k K0. pattern k. apply natlike_ind; [| |exact K0].
  - intros _. split; [|split].
    + intros a q _ _. symmetry. apply linit_mat.
    + intros a La. unfold real, lst. rewrite zrange_nil by lia. cbn [flat_map mrun fold_left]. rewrite linit_mat. apply RD. exact La.
    + intros j r q Lj. lia.
  - intros y Y IH L. rewrite <- Z.add_1_r in *. apply sim_step; [exact Y|apply ntiles_j; [lia|exact N]|apply IH; lia].
Qed.
Theorem dist_r2b_run : 0 <= n -> real_diag n (G st0) ->
  let s := erun mem e_r2b st0 in
  exists tau, is_band_reduction n b (G st0) (G s) tau /\
    forall j r q, 0 <= j -> j * b < r2b_nrefls n b -> In r rks -> onp j r = true -> 0 <= q < n_refl n b j ->
      s (qTau r j) q 0 = tau (j * b + q) /\ (r2b_dec r j q = false <-> s (qBr r j q) 0 0 = f0).
Proof using KO GA Hb Hmb Hdiv NT SZ AT.
  intros Hn RD s. set (l := mrun (r2b_jobs rs n mb b lcfg) linit).
  assert (RDL : real_diag n (r2b_mat mb linit)) by (intros a La; unfold real; rewrite linit_mat; apply RD; exact La).
  pose proof (r2b_run kn KO rs n mb b 1 1 1 (c_ord lcfg) Hn Hb Hmb Hdiv ltac:(lia) (fun j i A B Cc => proj2 (proj2 lcfg_ok) j i A B Cc) linit RDL) as R. cbv zeta in R.
  change (mrun (reduction_to_band kn rs n mb b 1 1 1 (c_ord lcfg)) linit) with l in R. destruct R as (R1 & R2 & R3 & R4).
  assert (S : meq n n (G s) (r2b_mat mb l) /\ forall j r q, 0 <= j -> j * b < r2b_nrefls n b -> In r rks -> onp j r = true -> 0 <= q < n_refl n b j ->
      s (qTau r j) q 0 = l (Red2BandModel.rTau j) q 0 /\ (r2b_dec r j q = false <-> s (qBr r j q) 0 0 = f0)).
  { unfold s, l, e_r2b, r2b_jobs, reduction_to_band. destruct (Z.eqb_spec (r2b_nrefls n b) 0) as [E|E].
    - split; [intros a q _ _; symmetry; apply linit_mat|]. intros j r q J0 J1. nia.
    - assert (NT0 : 0 <= r2b_ntiles n b) by (unfold r2b_ntiles; pose proof (Z.div_pos (r2b_nrefls n b - 1) b); unfold r2b_nrefls in *; lia).
      pose proof (run_stq (Z.to_nat (r2b_ntiles n b))) as RS. rewrite Z2Nat.id in RS by lia. rewrite RS.
      destruct (sim_all RD E (r2b_ntiles n b) NT0 ltac:(lia)) as (A1 & _ & A3). split; [exact A1|]. intros j r q J0 J1 Rr O Lq.
      assert (LJ : j < r2b_ntiles n b). { unfold r2b_ntiles. assert (j <= (r2b_nrefls n b - 1) / b) by (apply Z.div_le_lower_bound; lia). lia. }
      destruct (A3 j r q ltac:(lia) Rr O Lq) as [T1 T2]. split; [exact T1|]. rewrite T2. unfold r2b_dec. apply pdec_iff. }
  clearbody s. destruct S as [EG ET]. exists (r2b_taus b l).
  assert (EQ : meq n n (q_of n b (G s) (r2b_taus b l)) (refl_prod n (band_vectors b (r2b_mat mb l)) (r2b_taus b l) (Z.to_nat (r2b_nrefls n b)))).
  { unfold q_of, r2b_nrefls. replace (Z.to_nat (Z.max 0 (n - b - 1))) with (Z.to_nat (n - b - 1)) by lia. apply refl_prod_ext; [|reflexivity].
    intros i q Li Lq. unfold band_vectors. rewrite EG by lia. reflexivity. }
  assert (BL : meq n n (band b (herm Lower (G s))) (herm Lower (lower_band b (r2b_mat mb l)))).
  { intros i q Li Lq. unfold band, herm, in_tri, lower_band.
    destruct (Z.leb_spec q i), (Z.leb_spec (Z.abs (i - q)) b), (Z.ltb_spec (q + b) i), (Z.ltb_spec (i + b) q); try lia; rewrite ?fconj_0, ?EG by assumption; reflexivity. }
  split.
  - split; [|split; [|split]].
    + eapply unitary_ext; [|exact R2]. intros i q Li Lq. symmetry. apply EQ; assumption.
    + intros i Li. unfold real. rewrite EG by assumption. apply R1. exact Li.
    + intros i q Li Lq. transitivity (herm Lower (r2b_mat mb linit) i q); [unfold herm; rewrite !linit_mat; reflexivity|]. rewrite R3 by assumption. apply conj_ext; try assumption; [intros u v Lu Lv; symmetry; apply EQ; assumption|].
      intros u v Lu Lv. symmetry. apply BL; assumption.
    + intros i q Li Lq L. rewrite EG, R4, linit_mat by assumption. reflexivity.
  - intros j r q J0 J1 Rr O Lq. destruct (ET j r q J0 J1 Rr O Lq) as [T1 T2]. split; [|exact T2]. rewrite T1. unfold r2b_taus. pose proof (n_refl_b n b j).
    rewrite <- (Z.div_unique_pos (j * b + q) b j q) by lia. rewrite <- (Z.mod_unique_pos (j * b + q) b j q) by lia. reflexivity.
Qed.
End all.
