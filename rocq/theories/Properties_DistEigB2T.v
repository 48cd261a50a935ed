(** * C52, C53 with the modelled band_to_tridiagonal: only the tridiagonal eigensolver is left as a contract *)
From Coq Require Import ZArith Lia List Bool Ring Reals.
From Verif Require Import CInt Loop StarField DenseSpec Tiling DenseJobs RefKernels HouseSpec HouseModel HouseQR CplxField MultiJobs Red2BandModel Red2BandSpec Red2BandTheory
  Properties_Inverse SemModel B2TSpec B2TModel B2TResult BtB2TModel BtB2TFinal BandSizeModel EigSpec EigModel EigProofs
  DistModel DistSpec DistMachine DistGrid PanelModel Properties_Panel DistMat DistEigModel Properties_B2TNum Properties_B2T Properties_Eig Properties_DistBtB2T Properties_DistEig
  B2TMsgModel B2TMsgSpec B2TDistModel B2TDistVal Properties_B2TDist Properties_B2TDistNum.
Import ListNotations.
Local Open Scope Z_scope.

(** band_to_tridiag.h:149-176 on a P x Q grid: the matrix has blocks of nb x nb from rank src, band size b; base is the tuning parameter of the size of the blocks of the
    band. (d, e, V) is what some execution leaves: on one rank the local algorithm is called, with nthreads threads. *)
Definition b2t_call {K : starfield} (lf : larfg_fn K) (P Q nb base : Z) (src : pair_Z) (nthreads : Z) (cplx : bool) (n b : Z) (A : mat K) (d e : Z -> F K) (V : mat K) : Prop :=
  nb mod b = 0 /\
  if (P =? 1) && (Q =? 1) then
    exists m0 s, sreach thread_eq (b2t lf cplx n nb b nthreads A) m0 s /\ sfinal (b2t lf cplx n nb b nthreads A) s /\
      (forall i, 0 <= i < n -> d i = memo s (LTd i)) /\ (forall i, 0 <= i < n - 1 -> e i = memo s (LTe i)) /\ (forall i j, V i j = memo s (B2TModel.LHH i j))
  else
    let g := Cfg n nb b base P Q src cplx in
    exists rdv m0 s, sreach dthread_eq (b2td_val lf g A rdv) m0 s /\ sfinal (b2td_val lf g A rdv) s /\
      (forall i, 0 <= i < n -> d i = trid_d g (memo s) i) /\ (forall i, 0 <= i < n - 1 -> e i = trid_e g (memo s) i) /\ holds_reflectors g (memo s) V.

Section contract.
Context {K : starfield} (lf : larfg_fn K).
Variables (P Q nb base nthreads : Z) (src : pair_Z).
Hypothesis LF : larfg_ok lf.
Hypothesis HP : 0 < P.
Hypothesis HQ : 0 < Q.
Hypothesis Hnb : 0 < nb <= base.
Hypothesis Hth : 0 < nthreads.
Lemma two_ranks : (P =? 1) && (Q =? 1) = false -> 2 <= P * Q.
Proof. intros E. apply andb_false_iff in E. destruct E; nia. Qed.
Theorem b2t_call_ok : b2t_ok (b2t_call lf P Q nb base src nthreads).
Proof.
  intros cplx n b A d e V Hn Hb RD RK (Hd & H). destruct ((P =? 1) && (Q =? 1)) eqn:E.
  - destruct H as (m0 & s & R & FN & Ed & Ee & EV). pose proof (C46_tridiagonal_reduction K lf cplx n nb b nthreads A Hn Hb ltac:(lia) Hd Hth LF RD RK m0) as [_ X]. specialize (X s R FN). cbv beta in X.
    refine (reduction_in _ _ _ _ _ _ _ _ _ _ _ _ _ _ X); [lia| | |]; intros; [rewrite EV; reflexivity|symmetry; auto|symmetry; auto].
  - cbv zeta in H. destruct H as (rdv & m0 & s & R & FN & Ed & Ee & EV). set (g := Cfg n nb b base P Q src cplx) in *. pose proof (two_ranks E).
    assert (G : cfg_ok g) by (unfold cfg_ok; cbn; repeat split; lia).
    pose proof (C56_tridiagonal_reduction_distributed K lf g rdv A G LF RD RK m0) as [_ X]. specialize (X s R FN). cbv beta in X. specialize (X V EV).
    refine (reduction_in _ _ _ _ _ _ _ _ _ _ _ _ _ _ X); [cbn; lia| | |]; cbn; intros; [reflexivity|symmetry; auto|symmetry; auto].
Qed.
(** some result exists *)
Theorem b2t_call_total : forall cplx n b A, 0 <= n -> 2 <= b -> nb mod b = 0 -> real_diag n A -> (cplx = false -> forall x : F K, fconj x = x) ->
  exists d e V, b2t_call lf P Q nb base src nthreads cplx n b A d e V.
Proof.
  intros cplx n b A Hn Hb Hd RD RK. unfold b2t_call. destruct ((P =? 1) && (Q =? 1)) eqn:E.
  - destruct (execution_exists _ _ _ _ (C46_tridiagonal_reduction K lf cplx n nb b nthreads A Hn Hb ltac:(lia) Hd Hth LF RD RK (fun _ => f0))) as (s & R & FN & _).
    eexists _, _, _. split; [exact Hd|]. exists (fun _ => f0), s. split; [exact R|]. split; [exact FN|]. split; [reflexivity|]. split; reflexivity.
  - pose proof (two_ranks E). set (g := Cfg n nb b base P Q src cplx). assert (G : cfg_ok g) by (unfold cfg_ok; cbn; repeat split; lia).
    destruct (execution_exists _ _ _ _ (C56_tridiagonal_reduction_distributed K lf g (fun _ => true) A G LF RD RK (fun _ => []))) as (s & R & FN & _).
    exists (trid_d g (memo s)), (trid_e g (memo s)), (fun r sw => nth (Z.to_nat (r mod b)) (memo s (B2TDistModel.LHH sw (r / b - sw / b))) f0). split; [exact Hd|].
    exists (fun _ => true), (fun _ => []), s. split; [exact R|]. split; [exact FN|]. split; [reflexivity|]. split; [reflexivity|].
    intros sw t i Ls Lt Li. change (m_b g) with b in *. unfold hht_pos. assert (L2 : 0 <= i < b) by (unfold hht_len in Li; lia).
    rewrite Z.add_comm, Z.div_add, Z.mod_add, Z.div_small, Z.mod_small by lia. replace (0 + (sw / b + t) - sw / b) with t by lia. reflexivity.
Qed.
End contract.

(** the eigensolver with this band_to_tridiagonal *)
Definition with_b2t {K : starfield} (g : dist_eig_cfg K) (r : bool -> Z -> Z -> mat K -> (Z -> F K) -> (Z -> F K) -> mat K -> Prop) : dist_eig_cfg K :=
  DistEigCfg K (h_kn g) (h_rs g) (h_panel_avail g) (h_panel_min g) (h_t_avail g) r (h_ts g) (h_larft g) (h_group g) (h_bt_avail g) (h_bmin g).
(** what is left: BLAS/LAPACK kernels, positive numbers of threads and sizes, and the distributed tridiagonal eigensolver *)
Definition dist_eig_ok_b2t {K : starfield} (g : dist_eig_cfg K) (P Q : Z) : Prop :=
  kernels_ok (h_kn g) /\ (forall r, In r (ranks P Q) -> 0 < h_t_avail g r) /\ ts_ok (h_ts g) /\
  larft_ok (h_larft g) /\ 0 < h_group g /\ (forall r, In r (ranks P Q) -> 0 < h_bt_avail g r) /\ 2 <= h_bmin g <= i64_max.
Lemma ok_with : forall (K : starfield) (g : dist_eig_cfg K) lf P Q mb base src nthreads, dist_eig_ok_b2t g P Q -> larfg_ok lf -> 0 < P -> 0 < Q -> 0 < mb <= base -> 0 < nthreads ->
  dist_eig_ok (with_b2t g (b2t_call lf P Q mb base src nthreads)) P Q.
Proof. intros K g lf P Q mb base src nthreads (H1 & H2 & H3 & H4 & H5 & H6 & H7) LF HP HQ Hm Ht. repeat (split; [first [assumption|apply b2t_call_ok; assumption]|]). exact H7. Qed.

(** C52 for the modelled band_to_tridiagonal. The distributed tridiagonal_eigensolver enters through its contract; Properties_DistEigFull.v removes it. *)
Theorem C52_eigensolver_distributed_b2t_contract : forall (K : starfield) (g : dist_eig_cfg K) (lf : larfg_fn K) (cplx : bool) (P Q n mb k base nthreads : Z) (srcA srcE : pair_Z) DA (st : tstore (mat K)),
  0 <= k <= n -> 2 <= mb <= i64_max -> mb <= base -> 0 < P -> 0 < Q -> 0 < nthreads -> larfg_ok lf -> dist_eig_ok_b2t g P Q -> (cplx = false -> forall x : F K, fconj x = x) ->
  distributed P Q (n, n) (mb, mb) (mb, mb) srcA (0, 0) DA -> fst srcE = fst srcA ->
  real_diag n (dmat P Q (mb, mb) srcA 0 st) ->
  every_dist_eigensolver_call (with_b2t g (b2t_call lf P Q mb base srcA nthreads)) cplx P Q srcA srcE DA Lower n mb k st (fun r => exists lam E, r = Ok (lam, E) /\
    exists E', meq n k E E' /\ is_eigendecomposition n n (herm Lower (dmat P Q (mb, mb) srcA 0 st)) lam E').
Proof. intros. apply C52_eigensolver_distributed_contract; try assumption. apply ok_with; try assumption. lia. Qed.
Theorem C53_gen_eigensolver_distributed_b2t_contract : forall (K : starfield) (g : dist_eig_cfg K) (lf : larfg_fn K) (cplx factorize : bool) (P Q n mb k base nthreads : Z) (srcA srcE : pair_Z) DA (st : tstore (mat K)),
  0 <= k <= n -> 2 <= mb <= i64_max -> mb <= base -> 0 < P -> 0 < Q -> 0 < nthreads -> larfg_ok lf -> dist_eig_ok_b2t g P Q -> (cplx = false -> forall x : F K, fconj x = x) ->
  distributed P Q (n, n) (mb, mb) (mb, mb) srcA (0, 0) DA -> fst srcE = fst srcA ->
  let A := dmat P Q (mb, mb) srcA 0 st in
  let B := dmat P Q (mb, mb) srcA 1 st in
  real_diag n A -> (if factorize then exists T, is_factor Lower n B T else nonsingular NonUnit n B) ->
  every_dist_gen_eigensolver_call (with_b2t g (b2t_call lf P Q mb base srcA nthreads)) cplx P Q srcA srcE DA Lower factorize n mb k st (fun r => exists lam X, r = Ok (lam, X) /\
    exists X', meq n k X X' /\
      is_gen_eigendecomposition n n (herm Lower A) (if factorize then herm Lower B else factored Lower n B) lam X').
Proof. intros. apply C53_gen_eigensolver_distributed_contract; try assumption. apply ok_with; try assumption. lia. Qed.
(** The call speaks about at least one complete run. *)
Theorem C52_some_run_distributed_b2t : forall (K : starfield) (g : dist_eig_cfg K) (lf : larfg_fn K) (cplx : bool) (P Q n mb k base nthreads : Z) (srcA srcE : pair_Z) DA (st : tstore (mat K)),
  0 <= k <= n -> 2 <= mb <= i64_max -> mb <= base -> 0 < P -> 0 < Q -> 0 < nthreads -> larfg_ok lf -> dist_eig_ok_b2t g P Q -> (cplx = false -> forall x : F K, fconj x = x) ->
  distributed P Q (n, n) (mb, mb) (mb, mb) srcA (0, 0) DA -> fst srcE = fst srcA ->
  (forall b, b = mb \/ get_band_size (h_bmin g) mb = Ok b -> exists DE, distributed P Q (n, k) (mb, mb) (b, mb) srcE (0, 0) DE) ->
  real_diag n (dmat P Q (mb, mb) srcA 0 st) ->
  (forall d e U, unitary n U -> meq n n (herm Lower (dmat P Q (mb, mb) srcA 0 st)) (conjugate n U (tridiag d e)) -> exists lam E, h_ts g n d e lam E) ->
  forall R, every_dist_eigensolver_call (with_b2t g (b2t_call lf P Q mb base srcA nthreads)) cplx P Q srcA srcE DA Lower n mb k st R -> exists lam E, R (Ok (lam, E)).
Proof.
  intros K g lf cplx P Q n mb k base nthreads srcA srcE DA st Hk Hmb Hbase HP HQ Ht LF GO RK HA SR DEX RD TT R HR.
  apply (C52_some_run_distributed K (with_b2t g (b2t_call lf P Q mb base srcA nthreads)) cplx P Q n mb k srcA srcE DA st Hk Hmb (ok_with K g lf P Q mb base srcA nthreads GO LF HP HQ ltac:(lia) Ht) RK HA SR DEX RD) in HR; [exact HR| |exact TT].
  intros b A Hb Hd RDA. apply b2t_call_total; try assumption; lia.
Qed.

(** ** The example of Properties_DistEig with the modelled band_to_tridiagonal: 2 x 3 ranks, blocks of 4 x 4, A starts on rank (1, 2), E on (1, 0); blocks of the band of 4 columns *)
Example C52_hypotheses_hold_b2t : exists DA, distributed 2 3 (7, 7) (4, 4) (4, 4) (1, 2) (0, 0) DA /\
  forall R, every_dist_eigensolver_call (with_b2t ex_dg (b2t_call (ref_larfg complex_roots) 2 3 4 6 (1, 2) 2)) true 2 3 (1, 2) (1, 0) DA Lower 7 4 5 (ex_dst (fun _ => ex_eig_A)) R ->
  exists lam E, R (Ok (lam, E)) /\ exists E', meq 7 5 E E' /\ is_eigendecomposition 7 7 (herm Lower ex_eig_A) lam E'.
Proof.
  destruct (ex_dg_dist 7 7 4 (1, 2)) as [DA HA]; try (cbn; lia). exists DA. split; [exact HA|]. intros R HR.
  set (st := ex_dst (fun _ => ex_eig_A)) in *.
  assert (EM : forall a c, dmat 2 3 (4, 4) (1, 2) 0 st a c = ex_eig_A a c) by (intros; apply (dmat_store 2 3 4 4 (1, 2) 0 (fun _ => ex_eig_A)); lia).
  assert (EA : meq 7 7 (herm Lower (dmat 2 3 (4, 4) (1, 2) 0 st)) (herm Lower ex_eig_A)) by (intros i j _ _; unfold herm; rewrite !EM; reflexivity).
  assert (RD : real_diag 7 (dmat 2 3 (4, 4) (1, 2) 0 st)) by (intros i Li; unfold real; rewrite !EM; apply ex_A_conj; assumption).
  assert (GO : dist_eig_ok_b2t ex_dg 2 3) by (destruct ex_dg_ok as (H1 & H2 & _ & H4); split; [exact H1|split; [exact H2|exact H4]]).
  set (S := fun r : eig_result complex_field => R r /\ exists lam E, r = Ok (lam, E) /\ exists E', meq 7 5 E E' /\ is_eigendecomposition 7 7 (herm Lower (dmat 2 3 (4, 4) (1, 2) 0 st)) lam E').
  destruct (C52_some_run_distributed_b2t complex_field ex_dg (ref_larfg complex_roots) true 2 3 7 4 5 6 2 (1, 2) (1, 0) DA st ltac:(lia) ltac:(unfold i64_max; lia) ltac:(lia) ltac:(lia) ltac:(lia) ltac:(lia) (ref_larfg_ok _) GO ltac:(discriminate) HA eq_refl ex_dg_retiled RD) with (R := S)
    as (lam & E & RR & lam' & E' & EQ & X & MX & EV & ON & RL).
  - intros d e U UU ET. apply (ex_total 7 (herm Lower ex_eig_A) ex_lam ex_P ex_A_eig d e U UU). intros i j Li Lj. rewrite <- EA by assumption. apply ET; assumption.
  - apply dist_call_and; [exact HR|]. apply C52_eigensolver_distributed_b2t_contract; try assumption; try discriminate; try lia; [unfold i64_max; lia|apply ref_larfg_ok|reflexivity].
  - injection EQ as <- <-. exists lam, E. split; [exact RR|]. exists X. split; [exact MX|]. split; [|split; assumption]. intros i c Li Lc. rewrite <- EV by assumption. apply mmul_ext; [|reflexivity]. intros r Lr. symmetry. apply EA; assumption.
Qed.

(** ** Assumptions *)
Print Assumptions b2t_call_ok.
Print Assumptions b2t_call_total.
Print Assumptions C52_eigensolver_distributed_b2t_contract.
Print Assumptions C53_gen_eigensolver_distributed_b2t_contract.
Print Assumptions C52_some_run_distributed_b2t.
