(** * C44: reduction of a Hermitian matrix to band form (distributed). *)
From Coq Require Import ZArith Lia List Bool Permutation Reals Lra.
From Verif Require Import CInt Loop StarField DenseSpec Tiling DenseJobs TileJobs BlockJobs RefKernels HouseSpec HouseModel HouseQR CplxField MultiJobs Red2BandModel Red2BandSpec Red2BandProofs Red2BandTheory Properties_Red2Band
  DistModel DistSpec DistBuilt DistThms DistCtor DistMachine DistAdapt DistGrid PanelModel PanelProofs Properties_Panel DistMat DistTriModel DistMultModel DistMultProofs Properties_DistMult DistBtR2BModel DistBtR2BProofs DistR2BModel DistR2BIdx DistR2BPanel DistR2BStep DistR2BTrail DistR2BIter DistR2BProofs DistR2BAdapt.
Import ListNotations.
Local Open Scope Z_scope.

(** taus in tiles of b elements (mat_taus retiled by the band size); tau x on all the ranks of the process column of column x of A *)
Definition r2b_taus_on_columns {K : starfield} (P Q mb b : Z) (src : pair_Z) (count : Z) (tau : Z -> F K) (st : tstore (mat K)) : Prop :=
  forall p x, 0 <= p < P -> 0 <= x < count -> st (Tid (rk Q p ((snd src + x / mb) mod Q)) 1 (x / b) 0) (x mod b) 0 = tau x.
(** the ranks of the process column of reflector x recorded the value they branched on, and took the branch that the code takes for it:
    no update if tau is zero *)
Definition branches_follow {K : starfield} (P Q mb b : Z) (src : pair_Z) (count : Z) (dec : Z -> Z -> Z -> bool) (st : tstore (mat K)) : Prop :=
  forall p x, 0 <= p < P -> 0 <= x < count -> let r := rk Q p ((snd src + x / mb) mod Q) in
    dec r (x / b) (x mod b) = false <-> st (qBr r (x / b) (x mod b)) 0 0 = f0.

Section bridge.
Context {K : starfield} (kn : kernels K) (KO : kernels_ok kn) (rs : roots K).
Variables (P Q n mb b : Z) (src : pair_Z) (D : coord -> Z -> axis) (avail minwork avail_t : Z -> Z).
Hypothesis (Hb : 0 < b) (Hdiv : mb mod b = 0) (AT : forall r, In r (ranks P Q) -> 0 < avail_t r).
Hypothesis HD : distributed P Q (n, n) (mb, mb) (mb, mb) src (0, 0) D.
Variable st0 : tstore (mat K).
Hypothesis RD : real_diag n (dmat P Q (mb, mb) src 0 st0).
Let Ls := arg_layout (n, n) (mb, mb) (mb, mb) (P, Q) src (0, 0).
Let ev := e_r2b kn rs P Q Ls D n mb b avail minwork avail_t st0.
Let dec := r2b_dec kn rs P Q Ls D n mb b avail minwork avail_t st0.
Lemma g_mb : 0 <= n /\ 0 < mb. Proof using HD. destruct (da_arg _ _ _ _ _ _ HD Row) as (P1 & P2 & _). cbn [sel fst snd] in P1, P2. auto. Qed.
Lemma g_NT : forall rc, ax_nr_tiles (D rc 0) = r2b_nrt n mb. Proof using HD. intros []; [apply (da_nt _ _ _ _ _ _ HD Row)|apply (da_nt _ _ _ _ _ _ HD Col)]. Qed.
Lemma g_SZ : forall r rc i, In r (ranks P Q) -> 0 <= i < r2b_nrt n mb -> szt Q D r rc i = r2b_sz n mb i.
Proof using HD. intros r [] i R _; [apply (da_sz _ _ _ _ _ _ HD r Row i R)|apply (da_sz _ _ _ _ _ _ HD r Col i R)]. Qed.
Lemma g_dG : forall (st : tstore (mat K)) x y, dG Q Ls mb st x y = dmat P Q (mb, mb) src 0 st x y.
Proof using HD. intros st x y. unfold dG, dmat, qA. cbn [mk]. unfold Ls. rewrite <- (da_rank _ _ _ _ _ _ HD). reflexivity. Qed.
Lemma g_ok : Forall (event_ok (members P Q) (ranks P Q)) ev.
Proof using HD Hb Hdiv. destruct g_mb. eapply e_r2b_ok; [exact (distributed_axes _ _ _ _ _ _ _ _ HD)|assumption|assumption|exact Hdiv|exact g_NT|exact g_SZ]. Qed.
Lemma g_proj : forall r, In r (ranks P Q) -> dist_red2band kn rs P Q n mb b D avail minwork avail_t dec r = proj (members P Q) r ev.
Proof using HD Hb Hdiv. destruct g_mb. intros r R. symmetry. eapply e_r2b_proj; [exact (distributed_axes _ _ _ _ _ _ _ _ HD)|assumption|assumption|exact Hdiv|exact g_NT|exact g_SZ|exact R]. Qed.
Lemma g_post : forall st, (forall x, st x = erun (members P Q) ev st0 x) ->
  exists tau, is_band_reduction n b (dmat P Q (mb, mb) src 0 st0) (dmat P Q (mb, mb) src 0 st) tau /\
    r2b_taus_on_columns P Q mb b src (n - b - 1) tau st /\ branches_follow P Q mb b src (n - b - 1) dec st.
Proof using KO Hb Hdiv AT HD RD.
  destruct g_mb as [Hn Hmb]. destruct (da_pos _ _ _ _ _ _ HD) as [HP HQ]. intros st ST.
  destruct (dist_r2b_run kn KO rs P Q Ls D (fun rc => ax_nr_tiles (D rc 0)) (distributed_axes _ _ _ _ _ _ _ _ HD) n mb b Hb Hmb Hdiv g_NT g_SZ avail minwork avail_t AT st0 Hn) as (tau & R1 & R2).
  { intros x Lx. unfold real. rewrite g_dG. apply RD. exact Lx. }
  fold ev in R1, R2. exists tau.
  assert (X : forall p x, 0 <= p < P -> 0 <= x < n - b - 1 -> let r := rk Q p ((snd src + x / mb) mod Q) in st (qTau r (x / b)) (x mod b) 0 = tau x /\ (dec r (x / b) (x mod b) = false <-> st (qBr r (x / b) (x mod b)) 0 0 = f0)).
  { intros p x Lp Lx r. set (j := x / b). set (q := x mod b). pose proof (Z.div_mod x b ltac:(lia)) as DM. pose proof (Z.mod_pos_bound x b Hb) as MB. fold j q in DM, MB.
    assert (J0 : 0 <= j) by (apply Z.div_pos; lia). assert (J1 : j * b < r2b_nrefls n b) by (unfold r2b_nrefls; lia).
    assert (Lq : 0 <= q < n_refl n b j) by (unfold n_refl, r2b_nrefls; lia).
    assert (C : 0 <= (snd src + x / mb) mod Q < Q) by (apply Z.mod_pos_bound; lia).
    destruct (co_mk P Q HP HQ Row p ((snd src + x / mb) mod Q) Lp C) as [CM1 CM2]. cbn [other mk] in CM1, CM2. fold r in CM1, CM2.
    assert (R : In r (ranks P Q)) by (apply (in_ranks P Q HP HQ); rewrite CM1, CM2; auto).
    assert (EJ : j0 mb b j = x / mb).
    { unfold j0, e_col. assert (exists w, mb = w * b /\ 0 < w) as (w & -> & W) by (exists (mb / b); pose proof (Z.div_mod mb b ltac:(lia)); nia).
      rewrite (Z.mul_comm w b), <- !Z.div_div by lia. fold j. rewrite (Z.div_mul j b) by lia. reflexivity. }
    assert (O : onp (Q := Q) (Ls := Ls) (mb := mb) (b := b) (j := j) r = true).
    { unfold onp. apply Z.eqb_eq. rewrite EJ. unfold Ls. rewrite (da_own _ _ _ _ _ _ HD Col). cbn [sel snd]. symmetry. exact CM2. }
    destruct (R2 j r q J0 J1 R O Lq) as [T1 T2]. rewrite !ST. rewrite T1. replace (j * b + q) with x by lia. auto. }
  split; [|split; intros p x Lp Lx; apply X; assumption].
  destruct R1 as (U1 & U2 & U3 & U4).
  assert (EG : forall x y, dmat P Q (mb, mb) src 0 st x y = dG Q Ls mb (erun (members P Q) ev st0) x y) by (intros; rewrite <- g_dG; unfold dG; rewrite ST; reflexivity).
  assert (EQ : meq n n (q_of n b (dG Q Ls mb (erun (members P Q) ev st0)) tau) (q_of n b (dmat P Q (mb, mb) src 0 st) tau)).
  { apply refl_prod_ext; [|reflexivity]. intros i q _ _. unfold band_vectors. rewrite EG. reflexivity. }
  split; [|split; [|split]].
  - eapply unitary_ext; [exact EQ|exact U1].
  - intros i Li. unfold real. rewrite EG. apply U2. exact Li.
  - intros i q Li Lq. transitivity (herm Lower (dG Q Ls mb st0) i q); [unfold herm; rewrite !g_dG; reflexivity|]. rewrite U3 by assumption.
    apply conj_ext; try assumption. intros u v Lu Lv. unfold band, herm. rewrite !EG. reflexivity.
  - intros i q Li Lq L. rewrite EG, U4 by assumption. apply g_dG.
Qed.
Lemma g_agree : forall r a t, In r (ranks P Q) -> In a (dist_red2band_if kn rs P Q n mb b D avail minwork avail_t (fun t => dec (t_rank t) (t_row t) (t_col t)) r) ->
  In t (act_writes a) -> r2b_rec t = true -> r2b_decide (erun (members P Q) ev st0 t) = dec (t_rank t) (t_row t) (t_col t).
Proof using KO Hb Hdiv AT HD RD.
  intros r a t R Ia W RC. destruct (rec_in kn rs P Q n mb b D avail minwork avail_t _ r a t Ia W RC) as (j & c & -> & Lj & NZ & O & Lc). destruct g_mb as [Hn Hmb].
  pose proof (distributed_axes _ _ _ _ _ _ _ _ HD) as GA. pose proof (ntiles_j n b Hb j Lj NZ) as J1.
  destruct (dist_r2b_run kn KO rs P Q Ls D (fun rc => ax_nr_tiles (D rc 0)) GA n mb b Hb Hmb Hdiv g_NT g_SZ avail minwork avail_t AT st0 Hn) as (tau & _ & R2).
  { intros x Lx. unfold real. rewrite g_dG. apply RD. exact Lx. }
  fold ev in R2. rewrite (on_panel_eq (ctx P Q Ls D (fun rc => ax_nr_tiles (D rc 0)) GA n mb b Hb Hmb Hdiv g_NT g_SZ j ltac:(lia) J1) r R) in O.
  destruct (R2 j r c ltac:(lia) J1 R O Lc) as [_ T2]. cbn [qBr t_rank t_row t_col]. fold dec in T2. unfold r2b_decide. fold (qBr r j c) in *. destruct (feq_dec K (erun (members P Q) ev st0 (qBr r j c) 0 0) f0) as [E|E].
  - symmetry. apply T2. exact E.
  - destruct (dec r j c); [reflexivity|]. exfalso. apply E. apply T2. reflexivity.
Qed.
End bridge.

(** C44 (distributed): for every field with the square roots the code takes, kernels that meet their contracts, P x Q grid, size, tile size,
    band size (dividing the tile size), numbers of threads of the ranks and schedule of every rank and of MPI: if A is Hermitian (its
    diagonal is real), the ranks' collective calls match although every rank decides by itself, from its data, which of them it makes; no
    rank waits for ever; the program terminates; and at the end mat_a holds a unitary Q (as reflectors, with their scalars in the
    tiles of mat_taus of all the ranks of the process column of each reflector) and a band matrix B in the lower triangle with
    A = Q B Q^H; the strict upper triangle is not changed. *)
Theorem C44_reduction_to_band_distributed : forall (K : starfield) (kn : kernels K), kernels_ok kn ->
  forall (rs : roots K) P Q n mb b src D (avail minwork avail_t : Z -> Z), 0 < b -> mb mod b = 0 -> (forall r, In r (ranks P Q) -> 0 < avail_t r) ->
  distributed P Q (n, n) (mb, mb) (mb, mb) src (0, 0) D ->
  forall st0 : tstore (mat K), real_diag n (dmat P Q (mb, mb) src 0 st0) ->
  every_adaptive_run (members P Q) (ranks P Q) r2b_rec r2b_decide (dist_red2band_if kn rs P Q n mb b D avail minwork avail_t) st0 (fun st =>
    exists tau, is_band_reduction n b (dmat P Q (mb, mb) src 0 st0) (dmat P Q (mb, mb) src 0 st) tau /\
      r2b_taus_on_columns P Q mb b src (n - b - 1) tau st).
Proof.
  intros K kn KO rs P Q n mb b src D avail minwork avail_t Hb Hdiv AT HD st0 RD.
  set (Ls := arg_layout (n, n) (mb, mb) (mb, mb) (P, Q) src (0, 0)).
  eapply (every_adaptive_run_intro (members P Q) (ranks P Q) r2b_rec r2b_decide _
    (fun t => r2b_dec kn rs P Q Ls D n mb b avail minwork avail_t st0 (t_rank t) (t_row t) (t_col t)) (e_r2b kn rs P Q Ls D n mb b avail minwork avail_t st0)).
  - intros r R. exact (g_proj kn rs P Q n mb b src D avail minwork avail_t Hb Hdiv HD st0 r R).
  - apply (g_ok kn rs P Q n mb b src D avail minwork avail_t Hb Hdiv HD st0).
  - intros d1 d2 r. apply prog_pd.
  - intros r i i' a a' t R. apply recs_once. apply prog_nodup.
  - apply (g_agree kn KO rs P Q n mb b src D avail minwork avail_t Hb Hdiv AT HD st0 RD).
  - intros st ST. destruct (g_post kn KO rs P Q n mb b src D avail minwork avail_t Hb Hdiv AT HD st0 RD st ST) as (tau & R1 & R2 & _). exists tau. auto.
Qed.

(** C44 (distributed): the machine above lets an action run only after the branches before it are decided. For the branches that the
    code takes, any schedule allowed by the tiles and the communicators only (for instance work on other tiles submitted after the panel task, while it
    runs) gives the same. *)
Theorem C44_reduction_to_band_distributed_schedules : forall (K : starfield) (kn : kernels K), kernels_ok kn ->
  forall (rs : roots K) P Q n mb b src D (avail minwork avail_t : Z -> Z), 0 < b -> mb mod b = 0 -> (forall r, In r (ranks P Q) -> 0 < avail_t r) ->
  distributed P Q (n, n) (mb, mb) (mb, mb) src (0, 0) D ->
  forall st0 : tstore (mat K), real_diag n (dmat P Q (mb, mb) src 0 st0) ->
  exists dec, every_run (members P Q) (ranks P Q) (dist_red2band kn rs P Q n mb b D avail minwork avail_t dec) st0 (fun st =>
    branches_follow P Q mb b src (n - b - 1) dec st /\
    exists tau, is_band_reduction n b (dmat P Q (mb, mb) src 0 st0) (dmat P Q (mb, mb) src 0 st) tau /\
      r2b_taus_on_columns P Q mb b src (n - b - 1) tau st).
Proof.
  intros K kn KO rs P Q n mb b src D avail minwork avail_t Hb Hdiv AT HD st0 RD.
  set (Ls := arg_layout (n, n) (mb, mb) (mb, mb) (P, Q) src (0, 0)).
  exists (r2b_dec kn rs P Q Ls D n mb b avail minwork avail_t st0).
  apply (every_run_intro (members P Q) (ranks P Q) _ (e_r2b kn rs P Q Ls D n mb b avail minwork avail_t st0)).
  - intros r R. exact (g_proj kn rs P Q n mb b src D avail minwork avail_t Hb Hdiv HD st0 r R).
  - apply (g_ok kn rs P Q n mb b src D avail minwork avail_t Hb Hdiv HD st0).
  - intros st ST. destruct (g_post kn KO rs P Q n mb b src D avail minwork avail_t Hb Hdiv AT HD st0 RD st ST) as (tau & R1 & R2 & R3). split; [exact R3|]. exists tau. auto.
Qed.

(** A 7 x 7 complex Hermitian matrix in tiles of 4 x 4 on a 2 x 3 grid, starting on rank (1, 2); band of size 2. *)
Definition exd_r2b : tstore (mat complex_field) := fun u p q => if t_mat u =? 0 then ex_r2b_A (t_row u * 4 + p) (t_col u * 4 + q) else (0%R, 0%R).
Lemma exd_r2b_mat : forall a q, dmat 2 3 (4, 4) (1, 2) 0 exd_r2b a q = ex_r2b_A a q.
Proof.
  intros a q. unfold dmat, exd_r2b. cbn [t_mat t_row t_col fst snd]. change (0 =? 0) with true. cbv beta iota. f_equal; rewrite Z.mul_comm; symmetry; apply Z.div_mod; discriminate.
Qed.
Example C44_distributed_hypotheses_hold : exists D, distributed 2 3 (7, 7) (4, 4) (4, 4) (1, 2) (0, 0) D /\
  let prog := dist_red2band_if complex_kernels complex_roots 2 3 7 4 2 D (fun r => 1 + r) (fun _ => 1) (fun r => 1 + r) in
  exists s, areach (members 2 3) (ranks 2 3) r2b_rec r2b_decide prog exd_r2b s /\ afinal (ranks 2 3) r2b_decide prog s /\
    exists tau, is_band_reduction 7 2 ex_r2b_A (dmat 2 3 (4, 4) (1, 2) 0 (d_store s)) tau.
Proof.
  assert (EX : exists D, distributed 2 3 (7, 7) (4, 4) (4, 4) (1, 2) (0, 0) D).
  { apply distributed_exists.
    - intros pr pc X1 X2 rc. unfold i32_max, i64_max. destruct rc; cbn; repeat split; try lia; exists 1; lia.
    - unfold i32_max. lia.
    - unfold i32_max. lia.
    - intros rc. unfold i32_max, i64_max. destruct rc; cbn; lia. }
  destruct EX as [D HD]. exists D. split; [exact HD|]. intros prog.
  assert (AT : forall r, In r (ranks 2 3) -> 0 < 1 + r).
  { intros r R. apply (in_ranks_rc 2 3 ltac:(lia) ltac:(lia) Row) in R as [C1 C2]. pose proof (mk_co 2 3 ltac:(lia) ltac:(lia) Row r) as M. cbn [mk other gs] in *. unfold rk in M. lia. }
  assert (RD : real_diag 7 (dmat 2 3 (4, 4) (1, 2) 0 exd_r2b)).
  { intros a La. unfold real. rewrite exd_r2b_mat. unfold ex_r2b_A. rewrite Z.sub_diag. cbn [fconj complex_field]. unfold c_conj. cbn [fst snd]. f_equal. cbn. lra. }
  destruct (every_adaptive_run_final _ _ _ _ _ _ _ (C44_reduction_to_band_distributed complex_field complex_kernels complex_kernels_ok complex_roots 2 3 7 4 2 (1, 2) D (fun r => 1 + r) (fun _ => 1) (fun r => 1 + r) ltac:(lia) eq_refl AT HD exd_r2b RD)) as (s & R & F & tau & (Q1 & Q2 & Q3 & Q4) & _).
  exists s. split; [exact R|]. split; [exact F|]. exists tau. split; [exact Q1|]. split; [exact Q2|]. split.
  - intros i j Li Lj. rewrite <- Q3 by assumption. unfold herm. rewrite !exd_r2b_mat. reflexivity.
  - intros i j Li Lj L. rewrite Q4 by assumption. apply exd_r2b_mat.
Qed.

(** ** Assumptions *)
Print Assumptions C44_reduction_to_band_distributed.
Print Assumptions C44_reduction_to_band_distributed_schedules.
