(** * C45: back transformation of the reduction to band (distributed). *)
From Coq Require Import ZArith Lia List Bool Permutation QArith Qcanon.
From Verif Require Import CInt Loop StarField DenseSpec Tiling DenseJobs TileJobs BlockJobs RefKernels HouseSpec HouseModel HouseQR Red2BandModel Red2BandSpec Red2BandProofs Red2BandTheory BtRed2BandModel BtRed2BandProofs
  DistModel DistSpec DistBuilt DistThms DistCtor DistMachine DistGrid PanelModel PanelProofs Properties_Panel DistMat DistTriModel DistMultModel DistMultProofs Properties_DistMult DistBtR2BModel DistBtR2BProofs.
Import ListNotations.
Local Open Scope Z_scope.

(** taus in tiles of mb elements, tile k on all the ranks of the process column of the tile column k of mat_v *)
Definition taus_on_columns {K : starfield} (P Q mb : Z) (srcV : pair_Z) (count : Z) (tau : Z -> F K) (st : tstore (mat K)) : Prop :=
  forall p x, 0 <= p < P -> 0 <= x < count -> st (Tid (rk Q p ((snd srcV + x / mb) mod Q)) 1 (x / mb) 0) (x mod mb) 0 = tau x.

(** C45 (distributed): for every field, kernels that meet their contracts, P x Q grid, sizes, block sizes, band size, numbers of
    threads, reflectors, taus, matrix C and schedule of every rank and of MPI. mat_v is n x n in blocks of mb x mb, mat_c n x nc in
    blocks of mb x nb on the same grid, both starting on the same rank row. The ranks' collective calls match, no rank waits for
    ever, and at the end mat_c holds Q C, Q the product of the reflectors stored below the band of V; V and the taus are not
    changed, on any rank. *)
Theorem C45_bt_reduction_to_band_distributed : forall (K : starfield) (kn : kernels K), kernels_ok kn ->
  forall P Q n nc mb nb b srcV srcC DV DC (avail : Z -> Z), 0 <= b -> (forall r, In r (ranks P Q) -> 0 < avail r) ->
  distributed P Q (n, n) (mb, mb) (mb, mb) srcV (0, 0) DV ->
  distributed P Q (n, nc) (mb, nb) (mb, nb) srcC (0, 0) DC ->
  fst srcC = fst srcV ->
  forall (tau : Z -> F K) (st0 : tstore (mat K)), taus_on_columns P Q mb srcV (n - b - 1) tau st0 ->
  every_run (members P Q) (ranks P Q) (dist_bt_red2band kn P Q n mb b DV DC avail) st0 (fun st =>
    meq n nc (dmat P Q (mb, nb) srcC 2 st) (mmul n (q_of n b (dmat P Q (mb, mb) srcV 0 st0) tau) (dmat P Q (mb, nb) srcC 2 st0)) /\
    (forall r i j, st (rV r i j) = st0 (rV r i j)) /\ (forall r k, st (rTau r k) = st0 (rTau r k))).
Proof.
  intros K kn KO P Q n nc mb nb b srcV srcC DV DC avail Hb AT HV HC SR tau st0 TI.
  pose proof (distributed_axes _ _ _ _ _ _ _ _ HV) as GAV. pose proof (distributed_axes _ _ _ _ _ _ _ _ HC) as GAC.
  destruct (da_arg _ _ _ _ _ _ HC Row) as (P1 & P2 & _), (da_arg _ _ _ _ _ _ HC Col) as (P3 & P4 & _). cbn [sel fst snd] in P1, P2, P3, P4.
  destruct (da_pos _ _ _ _ _ _ HV) as [HP HQ].
  set (LV := arg_layout (n, n) (mb, mb) (mb, mb) (P, Q) srcV (0, 0)) in *. set (LC := arg_layout (n, nc) (mb, nb) (mb, nb) (P, Q) srcC (0, 0)) in *.
  set (tc := dtil nc nb). assert (TC : tiling_ok tc) by (apply dt_ok; assumption).
  assert (ECR : forall p, 0 <= p < P -> DC Row p = DV Row p) by (apply (g_ECR P Q n nc n mb nb mb srcV srcC DV DC HV HC SR)).
  assert (NTV : ax_nr_tiles (DV Row 0) = r2b_nrt n mb /\ ax_nr_tiles (DV Col 0) = r2b_nrt n mb) by (split; [apply (da_nt _ _ _ _ _ _ HV Row)|apply (da_nt _ _ _ _ _ _ HV Col)]).
  assert (NTC : ax_nr_tiles (DC Row 0) = r2b_nrt n mb /\ ax_nr_tiles (DC Col 0) = tl_n tc) by (split; [apply (da_nt _ _ _ _ _ _ HC Row)|apply (da_nt _ _ _ _ _ _ HC Col)]).
  assert (SZV : forall r i, In r (ranks P Q) -> 0 <= i < r2b_nrt n mb -> szt Q DV r Row i = r2b_sz n mb i) by (intros r i R _; apply (da_sz _ _ _ _ _ _ HV r Row i R)).
  assert (SZC : forall r j, In r (ranks P Q) -> 0 <= j < tl_n tc -> szt Q DC r Col j = tl_sz tc j) by (intros r i R _; apply (da_sz _ _ _ _ _ _ HC r Col i R)).
  assert (EV : forall (st : tstore (mat K)) x y, mV Q LV mb st x y = dmat P Q (mb, mb) srcV 0 st x y).
  { intros st x y. unfold mV, dmat, wV. cbn [mk]. rewrite <- (da_rank _ _ _ _ _ _ HV). reflexivity. }
  assert (EC : forall (st : tstore (mat K)) x y, 0 <= y < nc -> mC Q LV LC mb tc st x y = dmat P Q (mb, nb) srcC 2 st x y).
  { intros st x y Ly. unfold mC, dmat, wC. cbn [mk]. destruct (dt_elem nc nb ltac:(lia) P4 y Ly) as (A1 & A2 & A3). fold tc in A1, A2, A3.
    rewrite <- A3 at 1 2 3 4. rewrite (tile_of_elem tc TC _ _ A1 A2). rewrite <- (da_rank _ _ _ _ _ _ HC).
    assert (E1 : tile_owner (arg_layout (n, nc) (mb, nb) (mb, nb) (P, Q) srcC (0, 0) Row) (x / mb) = tile_owner (LV Row) (x / mb)) by (unfold LV, arg_layout; cbn [sel fst snd]; rewrite SR; reflexivity).
    cbn [fst snd]. rewrite E1. unfold LC. f_equal. lia. }
  assert (TI' : taus_in P Q LV n mb b tau st0).
  { intros r k q R O Lk Lq. apply Z.eqb_eq in O. unfold LV in O. rewrite (da_own _ _ _ _ _ _ HV Col k) in O. cbn [sel snd] in O.
    destruct (in_ranks_rc P Q HP HQ Row r) as [X _]. destruct (X R) as [C1 C2].
    assert (B : 0 <= k * mb + q < n - b - 1) by (unfold bt_refl, bt_nrefls in Lq; nia). assert (Bq : 0 <= q < mb) by (unfold bt_refl in Lq; lia).
    pose proof (TI (co Q Row r) (k * mb + q) C1 B) as T1.
    assert (D1 : (k * mb + q) / mb = k) by (symmetry; apply (Z.div_unique_pos _ mb _ q); lia). assert (D2 : (k * mb + q) mod mb = q) by (symmetry; apply (Z.mod_unique_pos _ mb k); lia).
    rewrite D1, D2, O in T1. rewrite <- T1. unfold rTau. f_equal. f_equal. symmetry. apply (mk_co P Q HP HQ Row). }
  assert (NTC2 := proj2 NTC).
  apply (every_run_intro (members P Q) (ranks P Q) _ (e_dbt_all kn P Q LV LC DV n mb b tc avail)).
  - intros r R. eapply dbt_all_proj; eassumption.
  - eapply dbt_all_ok; eassumption.
  - intros st ST. destruct (dbt_run kn KO P Q LV LC DV DC (fun c => ax_nr_tiles (DV c 0)) (fun c => ax_nr_tiles (DC c 0)) GAV GAC n mb b tc avail Hb P2 TC AT NTV NTC SZV tau st0 TI') as [R1 R2]. split; [|split].
    + assert (Sc : tl_size tc = nc) by (apply dt_size; assumption). rewrite Sc in R1.
      intros i j Li Lj. rewrite <- (EC st i j Lj). transitivity (mC Q LV LC mb tc (erun (members P Q) (e_dbt_all kn P Q LV LC DV n mb b tc avail) st0) i j); [unfold mC; rewrite ST; reflexivity|].
      rewrite R1 by assumption. apply mmul_ext; intros x Lx; [|apply EC; exact Lj]. unfold q_of. apply (refl_prod_ext n); try assumption; [|reflexivity]. intros u v _ _. unfold band_vectors. rewrite EV. reflexivity.
    + intros r i j. rewrite ST. apply R2. left. reflexivity.
    + intros r k. rewrite ST. apply R2. right. reflexivity.
Qed.

(** C45: applied to the output of reduction_to_band: eigenvectors of the band matrix, distributed in mat_c, become eigenvectors of
    A with the same eigenvalues, and orthonormal columns stay orthonormal. *)
Theorem C45_eigenvectors_distributed : forall (K : starfield) (kn : kernels K), kernels_ok kn ->
  forall P Q n nc mb nb b srcV srcC DV DC (avail : Z -> Z), 0 <= b -> (forall r, In r (ranks P Q) -> 0 < avail r) ->
  distributed P Q (n, n) (mb, mb) (mb, mb) srcV (0, 0) DV ->
  distributed P Q (n, nc) (mb, nb) (mb, nb) srcC (0, 0) DC ->
  fst srcC = fst srcV ->
  forall (tau : Z -> F K) (st0 : tstore (mat K)) (A0 : mat K) (lam : Z -> F K), taus_on_columns P Q mb srcV (n - b - 1) tau st0 ->
  let V := dmat P Q (mb, mb) srcV 0 st0 in let C0 := dmat P Q (mb, nb) srcC 2 st0 in
  is_band_reduction n b A0 V tau ->
  meq n nc (mmul n (band b (herm Lower V)) C0) (fun i c => fmul (lam c) (C0 i c)) ->
  every_run (members P Q) (ranks P Q) (dist_bt_red2band kn P Q n mb b DV DC avail) st0 (fun st =>
    let C := dmat P Q (mb, nb) srcC 2 st in
    meq n nc (mmul n (herm Lower A0) C) (fun i c => fmul (lam c) (C i c)) /\
    meq nc nc (mmul n (adj C) C) (mmul n (adj C0) C0)).
Proof.
  intros K kn KO P Q n nc mb nb b srcV srcC DV DC avail Hb AT HV HC SR tau st0 A0 lam TI V C0 (U & RD & EA & _) EV.
  intros s RS. destruct (C45_bt_reduction_to_band_distributed K kn KO P Q n nc mb nb b srcV srcC DV DC avail Hb AT HV HC SR tau st0 TI s RS) as (F1 & F2).
  split; [|exact F2]. intros FN. destruct (F1 FN) as (Q1 & _). clear F1 F2. fold V C0 in Q1. intros C. fold C in Q1. set (QQ := q_of n b V tau) in *. set (B := band b (herm Lower V)) in *. destruct U as [U1 U2]. split.
  - intros i c Li Lc. transitivity (mmul n (mmul n QQ (mmul n B (adj QQ))) (mmul n QQ C0) i c).
    { apply mmul_ext; intros r Lr; [apply EA; assumption|apply Q1; assumption]. }
    rewrite mmul_assoc. rewrite (Q1 i c Li Lc).
    transitivity (mmul n QQ (fun i c => fmul (lam c) (C0 i c)) i c).
    + apply mmul_ext; [reflexivity|]. intros r Lr. rewrite mmul_assoc. rewrite <- EV by assumption. apply mmul_ext; [reflexivity|]. intros u Lu. rewrite <- mmul_assoc.
      transitivity (mmul n ident C0 u c); [|apply mmul_ident_l; exact Lu]. apply mmul_ext; [|reflexivity]. intros v Lv. apply U1; assumption.
    + unfold mmul. rewrite <- fsum_mul_l. apply fsum_ext. intros r _. rewrite !(Ring_theory.Rmul_assoc (fring K)), (Ring_theory.Rmul_comm (fring K) (QQ i r)). reflexivity.
  - intros i c Li Lc. transitivity (mmul n (adj (mmul n QQ C0)) (mmul n QQ C0) i c).
    { apply mmul_ext; intros r Lr; [unfold adj, opm; f_equal; apply Q1; assumption|apply Q1; assumption]. }
    transitivity (mmul n (mmul n (adj C0) (adj QQ)) (mmul n QQ C0) i c).
    { apply mmul_ext; [|reflexivity]. intros r Lr. apply adj_mmul. }
    rewrite mmul_assoc. apply mmul_ext; [reflexivity|]. intros r Lr. rewrite <- mmul_assoc.
    transitivity (mmul n ident C0 r c); [|apply mmul_ident_l; exact Lr]. apply mmul_ext; [|reflexivity]. intros v Lv. apply U1; assumption.
Qed.

(** A 9 x 5 matrix C in blocks of 3 x 2 elements and a 9 x 9 matrix V in blocks of 3 x 3 on a 2 x 3 grid, band of size 2; both start
    on rank row 1. Six reflectors in two blocks; the second panel starts inside a tile. *)
Definition exd_num (x y : Z) : F gauss_field := (Q2Qc (inject_Z x), Q2Qc (inject_Z y)).
Definition exd_tau (x : Z) : F gauss_field := exd_num (x + 1) x.
Definition exd_bt : tstore (mat gauss_field) := fun u p q =>
  if t_mat u =? 1 then exd_tau (t_row u * 3 + p) else exd_num (t_mat u + t_row u * 3 + p) (t_col u * 2 + q).
Example C45_distributed_hypotheses_hold : bt_nrefls 9 2 = 6 /\ bt_nblocks 9 3 2 = 2 /\ b_row 3 2 1 mod 3 = 2 /\ taus_on_columns 2 3 3 (1, 2) (9 - 2 - 1) exd_tau exd_bt /\
  exists DV DC, distributed 2 3 (9, 9) (3, 3) (3, 3) (1, 2) (0, 0) DV /\ distributed 2 3 (9, 5) (3, 2) (3, 2) (1, 0) (0, 0) DC /\
  exists st, dreach (members 2 3) (ranks 2 3) (dist_bt_red2band gauss_kernels 2 3 9 3 2 DV DC (fun r => 1 + r)) exd_bt st /\
    dfinal (ranks 2 3) (dist_bt_red2band gauss_kernels 2 3 9 3 2 DV DC (fun r => 1 + r)) st /\
    meq 9 5 (dmat 2 3 (3, 2) (1, 0) 2 (d_store st)) (mmul 9 (q_of 9 2 (dmat 2 3 (3, 3) (1, 2) 0 exd_bt) exd_tau) (dmat 2 3 (3, 2) (1, 0) 2 exd_bt)).
Proof.
  assert (TI : taus_on_columns 2 3 3 (1, 2) (9 - 2 - 1) exd_tau exd_bt).
  { intros p x Lp Lx. unfold exd_bt. cbn [t_mat t_row Z.eqb Pos.eqb]. f_equal. pose proof (Z.div_mod x 3). lia. }
  split; [reflexivity|]. split; [reflexivity|]. split; [reflexivity|]. split; [exact TI|].
  assert (EX : forall size block src, 0 <= fst size <= 9 -> 0 <= snd size <= 9 -> 0 < fst block < 9 -> 0 < snd block < 9 -> 0 <= fst src < 2 -> 0 <= snd src < 3 -> exists D, distributed 2 3 size block block src (0, 0) D).
  { intros [sr sc] [br bc] [a b] L1 L2 L5 L6 L3 L4. cbn [fst snd] in *. apply distributed_exists.
    - intros pr pc X1 X2 rc. unfold i32_max, i64_max. destruct rc; cbn; repeat split; try lia; exists 1; lia.
    - unfold i32_max. lia.
    - unfold i32_max. lia.
    - intros rc. unfold i32_max, i64_max. destruct rc; cbn; lia. }
  destruct (EX (9, 9) (3, 3) (1, 2)) as [DV HV]; try (cbn; lia). destruct (EX (9, 5) (3, 2) (1, 0)) as [DC HC]; try (cbn; lia).
  exists DV, DC. split; [exact HV|]. split; [exact HC|].
  assert (AT : forall r, In r (ranks 2 3) -> 0 < 1 + r).
  { intros r R. apply (in_ranks_rc 2 3 ltac:(lia) ltac:(lia) Row) in R as [C1 C2]. pose proof (mk_co 2 3 ltac:(lia) ltac:(lia) Row r) as M. cbn [mk other gs] in *. unfold rk in M. lia. }
  destruct (every_run_final _ _ _ _ _ (C45_bt_reduction_to_band_distributed gauss_field gauss_kernels gauss_kernels_ok 2 3 9 5 3 2 2 (1, 2) (1, 0) DV DC (fun r => 1 + r) ltac:(lia) AT HV HC eq_refl exd_tau exd_bt TI)) as (st & R & F & X & _). exists st. auto.
Qed.

(** ** Assumptions *)
Print Assumptions C45_bt_reduction_to_band_distributed.
Print Assumptions C45_eigenvectors_distributed.
