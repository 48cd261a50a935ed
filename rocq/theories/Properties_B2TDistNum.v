(** * C56: the distributed band_to_tridiagonal returns a unitary reduction of the band to tridiagonal form *)
From Coq Require Import ZArith Lia List Bool Ring Reals.
From Verif Require Import Loop StarField DenseSpec RefKernels HouseSpec HouseQR HouseModel SemModel SemProofs Red2BandSpec Red2BandTheory
  B2TModel B2TSched B2TFrame B2TSpec B2TResult B2TNum B2TFinal Properties_B2T Properties_B2TNum CplxField
  B2TMsgModel B2TMsgSpec B2TMsgProofs B2TDistModel B2TDistStruct B2TDistSeq B2TDistFinal B2TDistVal B2TDistSplit B2TDistRing B2TDistStep B2TDistCopy B2TDistFrame B2TDistSim Properties_B2TDist.
Import ListNotations.
Local Open Scope Z_scope.

(** ** The result, read off the memory *)
(** rows of tile t of mat_trid: element (c, 0) and (c, 1) are in tile c / nb, which is stored column after column *)
Definition tile_rows (g : msg_cfg) (t : Z) : Z := Z.min (m_nb g) (m_size g - t * m_nb g).
Definition trid_d {K : starfield} (g : msg_cfg) (m : dloc -> list (F K)) (c : Z) : F K := nth (Z.to_nat (c mod m_nb g)) (m (LTri (c / m_nb g))) f0.
Definition trid_e {K : starfield} (g : msg_cfg) (m : dloc -> list (F K)) (c : Z) : F K := nth (Z.to_nat (tile_rows g (c / m_nb g) + c mod m_nb g)) (m (LTri (c / m_nb g))) f0.
(** V holds the reflectors at their places in mat_v (band_to_tridiag.h:26-64): HHT(s, t) in column s from row [hht_pos] on, tau first *)
Definition holds_reflectors {K : starfield} (g : msg_cfg) (m : dloc -> list (F K)) (V : mat K) : Prop :=
  forall s t i, 0 <= s < hht_sweeps (m_cplx g) (m_size g) -> 0 <= t < hht_count (m_size g) (m_b g) s -> 0 <= i < hht_len (m_size g) (m_b g) s t ->
    V (hht_pos (m_b g) s t + i) s = nth (Z.to_nat i) (m (LHH s t)) f0.

Section results.
Context {K : starfield}.
Lemma hht_in : forall cplx n b s t, 0 < b -> In (s, t) (hht_list cplx n b) -> 0 <= s < hht_sweeps cplx n /\ 0 <= t < hht_count n b s /\ 0 < hht_len n b s t.
Proof.
  intros cplx n b s t Hb I0. unfold hht_list in I0. apply in_flat_map in I0 as (s' & Is & I0). apply in_map_iff in I0 as (t' & T1 & It). injection T1 as -> ->. apply in_zrange in Is, It. split; [exact Is|]. split; [exact It|].
  unfold hht_sweeps in Is. unfold hht_len, hht_start. unfold hht_count in It. destruct (Z.eqb_spec s (n - 2)) as [->|N]; [lia|]. unfold ceil_div in It.
  assert (s < n - 1) by (destruct cplx; lia). assert (Q : t + 1 <= (n - s - 2 + b - 1) / b) by lia. apply (Z.mul_le_mono_nonneg_r _ _ b) in Q; [|lia]. pose proof (Z.mul_div_le (n - s - 2 + b - 1) b Hb). nia.
Qed.
Lemma reduction_in : forall cplx n b (A V V' : mat K) d d' e e', 0 < b ->
  (forall s t i, 0 <= s < hht_sweeps cplx n -> 0 <= t < hht_count n b s -> 0 <= i < hht_len n b s t -> V (hht_pos b s t + i) s = V' (hht_pos b s t + i) s) ->
  (forall i, 0 <= i < n -> d i = d' i) -> (forall i, 0 <= i < n - 1 -> e i = e' i) ->
  is_tridiagonal_reduction cplx n b A V d e -> is_tridiagonal_reduction cplx n b A V' d' e'.
Proof.
  intros cplx n b A V V' d d' e e' Hb EV ED EE (U & D & E & EQ).
  assert (QE : meq n n (hht_product n b V (hht_list cplx n b)) (hht_product n b V' (hht_list cplx n b))).
  { apply hht_product_ext; intros [s t] Ip; destruct (hht_in cplx n b s t Hb Ip) as (L1 & L2 & L3); [|exact L3]. intros _ r Lr. apply EV; assumption. }
  split; [eapply unitary_ext; [exact QE|exact U]|]. split; [intros i Li; rewrite <- ED by exact Li; apply D; exact Li|]. split; [intros i Li; rewrite <- EE by exact Li; apply E; exact Li|].
  intros i c Li Lc. rewrite EQ by assumption. apply conj_ext; try assumption. intros x y Lx Ly. unfold tridiag. destruct (Z.eqb_spec x y); [apply ED; lia|]. destruct (Z.eqb_spec x (y + 1)); [apply EE; lia|]. destruct (Z.eqb_spec y (x + 1)); [apply EE; lia|reflexivity].
Qed.
Variable lf : larfg_fn K.
Lemma all_runs : forall g rdv (A : mat K), cfg_ok g -> larfg_local lf -> forall m0,
  every_execution dthread_eq (b2td_val lf g A rdv) m0 (fun m => forall l, m l = srun (b2td_val lf g A rdv) (dseq g) m0 l).
Proof.
  intros g rdv A G LF m0. apply (b2td_all g G). intros a Ia m m' RD l W. apply (in_seq g G) in Ia as [SZ OK]. apply (eff_inside_d lf g A G LF a m m' SZ OK RD l W).
Qed.
End results.

(** For all matrix sizes, block sizes nb, band sizes b that divide nb, sizes of the blocks of the band, grids of at least two ranks, source ranks, initial contents of the memory,
    Hermitian matrices, choices of the sends that wait for their receive: every execution of the tasks of all the ranks ends (it is free of
    deadlocks and of data races), and then the reflectors and the numbers in mat_trid are a reduction of the band of the input:
    Q = HHT(0, 0) HHT(0, 1) ... HHT(1, 0) ... is unitary, d and e are real, and band(A) = Q T Q^H, T the tridiagonal matrix of d and e. *)
Theorem C56_tridiagonal_reduction_distributed : forall (K : starfield) (lf : larfg_fn K) (g : msg_cfg) (rdv : dthread -> bool) (A : mat K),
  cfg_ok g -> larfg_ok lf -> real_diag (m_size g) A -> (m_cplx g = false -> forall x : F K, fconj x = x) ->
  forall m0, every_execution dthread_eq (b2td_val lf g A rdv) m0 (fun m =>
    forall V, holds_reflectors g m V -> is_tridiagonal_reduction (m_cplx g) (m_size g) (m_b g) A V (trid_d g m) (trid_e g m)).
Proof.
  intros K lf g rdv A G LF RA RK m0. destruct (all_runs lf g rdv A G (proj1 LF) m0) as [H1 H2]. split; [exact H1|]. intros st R FN V HV. specialize (H2 st R FN). cbv beta in H2.
  pose proof G as (Hs & Hb & Hn & Hd & _). destruct (Z.eq_dec (m_size g) 0) as [E0|N0].
  { rewrite E0 in *. split; [split; intros i j Li; lia|]. split; [intros; lia|]. split; [intros; lia|]. intros i j Li. lia. }
  assert (SZ : 0 < m_size g) by lia. destruct (dist_local lf g A G (proj1 LF) rdv m0 SZ) as [HH TR]. cbv zeta in HH, TR.
  pose proof (seq_result lf (m_cplx g) (m_size g) (m_nb g) (m_b g) 1 A Hs Hb Hn Hd ltac:(lia) LF RA RK (m0l g m0) SZ) as T. cbv zeta in T.
  set (mL := srun (b2t lf (m_cplx g) (m_size g) (m_nb g) (m_b g) 1 A) (b2t_seq (m_cplx g) (m_size g) (m_nb g) (m_b g)) (m0l g m0)) in *. clearbody mL.
  refine (reduction_in _ _ _ _ _ _ _ _ _ _ _ _ _ _ T); [lia| | |].
  - intros s t i Ls Lt Li. rewrite HV by assumption. rewrite H2. symmetry. apply (HH s t); try assumption. left. exact (proj2 Ls).
  - intros c Lc. unfold trid_d. rewrite H2. symmetry. exact (proj1 (TR c Lc)).
  - intros c Lc. unfold trid_e. rewrite H2. symmetry. exact (proj2 (TR c ltac:(lia)) ltac:(lia)).
Qed.

(** The distributed call returns what the local call (with one thread) returns on the same matrix, for some initial contents of its memory, whatever the executions of the two: number by number. *)
Theorem C56_same_as_local : forall (K : starfield) (lf : larfg_fn K) (g : msg_cfg) (rdv : dthread -> bool) (A : mat K),
  cfg_ok g -> 0 < m_size g -> larfg_local lf -> forall m0, exists m0', forall st st',
    sreach dthread_eq (b2td_val lf g A rdv) m0 st -> sfinal (b2td_val lf g A rdv) st ->
    sreach thread_eq (b2t lf (m_cplx g) (m_size g) (m_nb g) (m_b g) 1 A) m0' st' -> sfinal (b2t lf (m_cplx g) (m_size g) (m_nb g) (m_b g) 1 A) st' ->
    (forall c, 0 <= c < m_size g -> trid_d g (memo st) c = memo st' (LTd c)) /\ (forall c, 0 <= c < m_size g - 1 -> trid_e g (memo st) c = memo st' (LTe c)) /\
    holds_reflectors g (memo st) (fun i j => memo st' (B2TModel.LHH i j)).
Proof.
  intros K lf g rdv A G SZ LF m0. exists (m0l g m0). intros st st' R FN R' FN'. pose proof G as (Hs & Hb & Hn & Hd & _).
  pose proof (proj2 (all_runs lf g rdv A G LF m0) st R FN) as H2. pose proof (proj2 (C40_sweeps_schedule K lf (m_cplx g) (m_size g) (m_nb g) (m_b g) 1 A Hs Hb Hn Hd ltac:(lia) LF (m0l g m0)) st' R' FN') as H3. cbv beta in H2, H3.
  destruct (dist_local lf g A G LF rdv m0 SZ) as [HH TR]. cbv zeta in HH, TR. split; [|split].
  - intros c Lc. unfold trid_d. rewrite H2, H3. exact (proj1 (TR c Lc)).
  - intros c Lc. unfold trid_e. rewrite H2, H3. exact (proj2 (TR c ltac:(lia)) ltac:(lia)).
  - intros s t i Ls Lt Li. rewrite H2, H3. symmetry. apply (HH s t); try assumption. left. exact (proj2 Ls).
Qed.

(** The memory by which races are defined (C55) is the real one: an action changes no element outside the places that it is said to write, and what it
    writes depends only on the places that it is said to read. *)
Theorem C56_footprints : forall (K : starfield) (lf : larfg_fn K) (g : msg_cfg) (rdv : dthread -> bool) (A : mat K), cfg_ok g -> larfg_local lf ->
  let P := b2td_val lf g A rdv in
  forall th a, In th (threads P) -> In (IAct a) (SemModel.prog P th) ->
    (forall m l, wr P a l = false -> match l with LCol _ _ => forall o, 0 <= o < 2 * m_b g -> nth (Z.to_nat o) (eff P a m l) f0 = nth (Z.to_nat o) (m l) f0 | _ => eff P a m l = m l end) /\
    (forall m m' l, (forall x, rd P a x = true -> m x = m' x) -> wr P a l = true -> eff P a m l = eff P a m' l).
Proof.
  intros K lf g rdv A G LF P th a It Ia. assert (SQ : In a (dseq g)) by (apply (proj2 (C55_sequential_order g rdv G)); exists th; auto). apply (in_seq g G) in SQ as [SZ OK]. split.
  - intros m l W. exact (eff_outside_d lf g A G LF a m l SZ OK W).
  - intros m m' l R W. exact (eff_inside_d lf g A G LF a m m' SZ OK R l W).
Qed.

(** A step on the ring buffer of a block, where the columns of the step may be split by the end of the buffer, does to the columns what the step of the local
    algorithm does to the whole band BL, and changes nothing else in the buffer. Column c of the band is at place ring(c) of the buffer. *)
Theorem C56_step_on_ring : forall (K : starfield) (lf : larfg_fn K) (g : msg_cfg), cfg_ok g -> larfg_local lf ->
  forall k s t tau v B BL, let j := 1 + s + t * m_b g in let n := Z.min (m_b g) (m_size g - j) in let m := Z.min (m_b g) (m_size g - m_b g - j) in
  0 < n -> (forall c o, j <= c < j + n -> 0 <= o < 2 * m_b g -> BL (c * (2 * m_b g) + o) = B (ring g k c * (2 * m_b g) + o)) ->
  let '(tau1, v1, B1) := do_step_d lf g k (s, t) tau v B in let '(tau2, v2, BL2) := do_step lf (m_size g) (m_b g) (s, t) tau v BL in
  tau1 = tau2 /\ (forall i, 0 <= i < (if 1 <? m then m else n) -> v1 i = v2 i) /\
  (forall c o, j <= c < j + n -> 0 <= o < 2 * m_b g -> BL2 (c * (2 * m_b g) + o) = B1 (ring g k c * (2 * m_b g) + o)) /\
  (forall i o, 0 <= o < 2 * m_b g -> (forall c, j <= c < j + n -> ring g k c <> i) -> B1 (i * (2 * m_b g) + o) = B (i * (2 * m_b g) + o)).
Proof.
  intros K lf g G LF k s t tau v B BL j n m Ln R0. pose proof (step_ring lf g G LF k (s, t) tau v v B B BL) as S. cbv zeta in S. change (first_row (m_b g) (s, t)) with j in S. change (size_hhr (m_size g) (m_b g) (s, t)) with n in S. fold m in S.
  assert (Nb : 0 < n <= m_b g) by (unfold n in *; lia). assert (MN : 0 < m -> n = m_b g) by (unfold m, n; lia).
  assert (W0 : wrel (rf g k) (Ww g j (j + n)) (Sw g k j (j + n)) B B BL).
  { split; [|apply stays_refl]. intros z Wz. destruct (oc g G z) as (c & o & Lo & ->). apply (Ww_at g G) in Wz; [|exact Lo]. rewrite (rf_at g G), (rptr_co g) by exact Lo. apply R0; assumption. }
  specialize (S Nb MN W0 (fun i _ => eq_refl)). destruct (do_step_d lf g k (s, t) tau v B) as [[tau1 v1] B1]. destruct (do_step lf (m_size g) (m_b g) (s, t) tau v BL) as [[tau2 v2] BL2]. destruct S as (S1 & S2 & S3 & S4).
  split; [exact S1|]. split; [exact S2|]. split.
  - intros c o Lc Lo. rewrite S3 by (apply (Ww_at g G); assumption). rewrite (rf_at g G), (rptr_co g) by exact Lo. reflexivity.
  - intros i o Lo NO. apply S4. destruct (Sw g k j (j + n) (i * (2 * m_b g) + o)) eqn:E; [|reflexivity]. apply (Sw_at g G) in E; [|exact Lo]. destruct E as (c & Lc & E). exfalso. exact (NO c Lc E).
Qed.

(** ** A concrete case: a complex matrix of size 21, nb 4, band 2, blocks of the band of 8 columns, a grid of 2 x 2 ranks; every send waits for its receive. *)
Example C56_hypotheses_hold : forall m0, let P := b2td_val (ref_larfg complex_roots) g_ex55 ex_cplx (fun _ => true) in exists st, sreach dthread_eq P m0 st /\ sfinal P st /\
  exists V, holds_reflectors g_ex55 (memo st) V /\ is_tridiagonal_reduction true 21 2 ex_cplx V (trid_d g_ex55 (memo st)) (trid_e g_ex55 (memo st)).
Proof.
  intros m0 P. assert (RD : real_diag 21 ex_cplx) by (intros i Li; unfold real, ex_cplx; rewrite Z.eqb_refl; cbn; apply f_equal2; [reflexivity|apply Ropp_0]).
  destruct (execution_exists dthread_eq P m0 _ (C56_tridiagonal_reduction_distributed complex_field (ref_larfg complex_roots) g_ex55 (fun _ => true) ex_cplx (proj1 C55_hypotheses_hold) (ref_larfg_ok _) RD ltac:(discriminate) m0)) as (st & R & FN & H).
  exists st. split; [exact R|]. split; [exact FN|].
  set (V := fun r s => nth (Z.to_nat (r mod 2)) (memo st (LHH s (r / 2 - s / 2))) f0 : F complex_field).
  assert (HV : holds_reflectors g_ex55 (memo st) V).
  { intros s t i Ls Lt Li. change (m_b g_ex55) with 2 in *. unfold V, hht_pos. assert (L2 : 0 <= i < 2) by (unfold hht_len in Li; lia).
    rewrite Z.add_comm, Z.div_add, Z.mod_add, Z.div_small, Z.mod_small by lia. replace (0 + (s / 2 + t) - s / 2) with t by lia. reflexivity. }
  exists V. split; [exact HV|exact (H V HV)].
Qed.
(** some steps are split by the end of the ring buffer: the columns 17 and 18 of block 0 are at the places 17 and 0; the buffer of block 1 has 10 places, of which the last and the first hold the columns 17 and 18. *)
Example C56_split_step : next_split g_ex55 0 (first_row 2 (0, 8)) = 1 /\ next_split g_ex55 1 (first_row 2 (8, 4)) = 1 /\ size_hhr 21 2 (8, 4) = 2 /\ 4 < steps g_ex55 8 /\ steps_per_block g_ex55 = 4.
Proof. repeat split; vm_compute; reflexivity. Qed.

(** ** Assumptions *)
Print Assumptions C56_tridiagonal_reduction_distributed.
Print Assumptions C56_same_as_local.
Print Assumptions C56_footprints.
Print Assumptions C56_step_on_ring.
