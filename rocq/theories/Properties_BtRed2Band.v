(** * C45: back transformation of the reduction to band (local). *)
From Coq Require Import ZArith Lia List Bool Permutation Reals Lra Ring.
From Verif Require Import Loop StarField DenseSpec Tiling DenseJobs TileJobs RefKernels HouseSpec HouseModel HouseQR CplxField MultiJobs Red2BandModel Red2BandSpec Red2BandProofs Red2BandTheory BtRed2BandModel BtRed2BandProofs Properties_Red2Band.
Import ListNotations.
Local Open Scope Z_scope.

(** C45: for every field, kernels that meet their contracts, sizes, tile sizes, column tiling of C, band size, number of threads,
    reflectors, taus, matrix C and schedule: the program terminates, C becomes Q C, Q the product of the reflectors stored below
    the band of V, and V and the taus are not changed. *)
Theorem C45_bt_reduction_to_band : forall (K : starfield) (kn : kernels K), kernels_ok kn ->
  forall (n mb b : Z) (tc : tiling) (avail : Z), 0 <= b -> 0 < mb -> tiling_ok tc -> 0 < avail ->
  forall st0 : tstore (mat K),
  every_schedule_m (bt_reduction_to_band kn n mb b tc avail) st0 (fun st =>
    meq n (tl_size tc) (bt_c mb tc st) (mmul n (q_of n b (r2b_mat mb st0) (bt_taus mb st0)) (bt_c mb tc st0)) /\
    (forall i j, st (bV i j) = st0 (bV i j)) /\ (forall k, st (bTau k) = st0 (bTau k))).
Proof.
  intros K kn KO n mb b tc avail Hb Hmb TC AT st0. apply every_schedule_m_intro; [apply bt_jobs_ok|]. intros st E.
  destruct (bt_run kn KO n mb b tc avail Hb Hmb TC AT st0) as [R1 R2]. split; [|split].
  - intros a c La Lc. rewrite <- R1 by assumption. unfold bt_c. rewrite E. reflexivity.
  - intros i j. rewrite E. apply R2. left. reflexivity.
  - intros k. rewrite E. apply R2. right. reflexivity.
Qed.

(** C45: applied to the output of reduction_to_band (C44): eigenvectors of the band matrix become eigenvectors of A, with the same
    eigenvalues, and orthonormal columns stay orthonormal. *)
Theorem C45_eigenvectors : forall (K : starfield) (kn : kernels K), kernels_ok kn ->
  forall (n mb b : Z) (tc : tiling) (avail : Z), 0 <= b -> 0 < mb -> tiling_ok tc -> 0 < avail ->
  forall (st0 : tstore (mat K)) (A0 : mat K) (lam : Z -> F K),
  is_band_reduction n b A0 (r2b_mat mb st0) (bt_taus mb st0) ->
  meq n (tl_size tc) (mmul n (band b (herm Lower (r2b_mat mb st0))) (bt_c mb tc st0)) (fun i c => fmul (lam c) (bt_c mb tc st0 i c)) ->
  every_schedule_m (bt_reduction_to_band kn n mb b tc avail) st0 (fun st =>
    meq n (tl_size tc) (mmul n (herm Lower A0) (bt_c mb tc st)) (fun i c => fmul (lam c) (bt_c mb tc st i c)) /\
    meq (tl_size tc) (tl_size tc) (mmul n (adj (bt_c mb tc st)) (bt_c mb tc st)) (mmul n (adj (bt_c mb tc st0)) (bt_c mb tc st0))).
Proof.
  intros K kn KO n mb b tc avail Hb Hmb TC AT st0 A0 lam (U & RD & EA & _) EV s0 E0 s RS.
  destruct (C45_bt_reduction_to_band K kn KO n mb b tc avail Hb Hmb TC AT st0 s0 E0 s RS) as (P1 & P2 & P3).
  split; [|split; assumption]. intros FN. destruct (P1 FN) as (Q1 & _). clear P1 P2 P3. set (st := fun x => AsyncModel.st_store s (enc x)) in *.
  set (Q := q_of n b (r2b_mat mb st0) (bt_taus mb st0)) in *. set (B := band b (herm Lower (r2b_mat mb st0))) in *.
  set (C0 := bt_c mb tc st0) in *. set (C1 := bt_c mb tc st) in *. destruct U as [U1 U2]. split.
  - intros i c Li Lc. transitivity (mmul n (mmul n Q (mmul n B (adj Q))) (mmul n Q C0) i c).
    { apply mmul_ext; intros r Lr; [apply EA; assumption|apply Q1; assumption]. }
    rewrite mmul_assoc. rewrite (Q1 i c Li Lc).
    transitivity (mmul n Q (fun i c => fmul (lam c) (C0 i c)) i c).
    + apply mmul_ext; [reflexivity|]. intros r Lr. rewrite mmul_assoc. rewrite <- EV by assumption. apply mmul_ext; [reflexivity|]. intros u Lu. rewrite <- mmul_assoc.
      transitivity (mmul n ident C0 u c); [|apply mmul_ident_l; exact Lu]. apply mmul_ext; [|reflexivity]. intros v Lv. apply U1; assumption.
    + unfold mmul. rewrite <- fsum_mul_l. apply fsum_ext. intros r _. rewrite !(Ring_theory.Rmul_assoc (fring K)), (Ring_theory.Rmul_comm (fring K) (Q i r)). reflexivity.
  - intros i c Li Lc. transitivity (mmul n (adj (mmul n Q C0)) (mmul n Q C0) i c).
    { apply mmul_ext; intros r Lr; [unfold adj, opm; f_equal; apply Q1; assumption|apply Q1; assumption]. }
    transitivity (mmul n (mmul n (adj C0) (adj Q)) (mmul n Q C0) i c).
    { apply mmul_ext; [|reflexivity]. intros r Lr. apply adj_mmul. }
    rewrite mmul_assoc. apply mmul_ext; [reflexivity|]. intros r Lr. rewrite <- mmul_assoc.
    transitivity (mmul n ident C0 r c); [|apply mmul_ident_l; exact Lr]. apply mmul_ext; [|reflexivity]. intros v Lv. apply U1; assumption.
Qed.

(** A 9x5 complex matrix C in tiles of 3 rows and 2, 3 columns, band of size 2, two threads; V and the taus are arbitrary numbers.
    Six reflectors in two blocks; the second panel starts inside a tile. *)
Definition ex_bt_tc : tiling := Tiling 2 (fun k => if k =? 0 then 2 else 3).
Definition ex_bt_st : tstore (mat complex_field) := fun x p q => (IZR (t_mat x + t_row x * 3 + p), IZR (t_col x * 3 + q)).
Example C45_hypotheses_hold : tiling_ok ex_bt_tc /\ tl_size ex_bt_tc = 5 /\ bt_nrefls 9 2 = 6 /\ bt_nblocks 9 3 2 = 2 /\ b_row 3 2 1 mod 3 = 2 /\
  exists s0 s, AsyncModel.reachable (msubmitted (bt_reduction_to_band complex_kernels 9 3 2 ex_bt_tc 2)) s0 s /\
    AsyncModel.final (msubmitted (bt_reduction_to_band complex_kernels 9 3 2 ex_bt_tc 2)) s /\
    meq 9 5 (bt_c 3 ex_bt_tc (fun x => AsyncModel.st_store s (enc x))) (mmul 9 (q_of 9 2 (r2b_mat 3 ex_bt_st) (bt_taus 3 ex_bt_st)) (bt_c 3 ex_bt_tc ex_bt_st)).
Proof.
  assert (OK : tiling_ok ex_bt_tc) by (split; [cbn; lia|]; intros k Lk; cbn; destruct (k =? 0); lia).
  split; [exact OK|]. split; [reflexivity|]. split; [reflexivity|]. split; [reflexivity|]. split; [reflexivity|].
  destruct (every_schedule_m_run _ _ _ (bt_jobs_ok complex_kernels 9 3 2 ex_bt_tc 2)
    (C45_bt_reduction_to_band complex_field complex_kernels complex_kernels_ok 9 3 2 ex_bt_tc 2 ltac:(lia) ltac:(lia) OK ltac:(lia) ex_bt_st)) as (s0 & s & _ & R & FN & Q & _).
  exists s0, s. split; [exact R|]. split; [exact FN|]. exact Q.
Qed.
(** The hypotheses of the composition: a real diagonal matrix is its own reduction (all taus zero), with the unit vectors as
    eigenvectors. *)
Section diagonal.
Context {K : starfield}.
Local Open Scope sf_scope.
Add Ring KringBD : (fring K).
Lemma refl_prod_zero : forall n (V : mat K) tau k, (forall c, tau c = 0) -> meq n n (refl_prod n V tau k) ident.
Proof.
  intros n V tau k TZ. induction k as [|k IH]; intros a c La Lc; cbn [refl_prod]; [reflexivity|].
  rewrite <- (mmul_ident_r n ident a c) by assumption. apply mmul_ext; intros r Lr; [apply IH; assumption|].
  unfold reflector. rewrite TZ. ring.
Qed.
Lemma diag_reduction : forall n b (A : mat K) tau, (0 <= b)%Z -> (forall c, tau c = 0) -> real_diag n A ->
  (forall a c, a <> c -> A a c = 0) -> is_band_reduction n b A A tau.
Proof.
  intros n b A tau Hb TZ RD DG. assert (Q : meq n n (q_of n b A tau) ident) by (apply refl_prod_zero; exact TZ). unfold is_band_reduction.
  set (U := q_of n b A tau) in *. clearbody U.
  assert (QA : meq n n (adj U) ident) by (intros a c La Lc; rewrite <- adj_ident; unfold adj, opm; f_equal; apply Q; assumption).
  split; [|split; [exact RD|split; [|reflexivity]]].
  - split; intros a c La Lc; rewrite <- (mmul_ident_r n ident a c) by assumption; apply mmul_ext; intros r Lr; first [apply Q|apply QA]; assumption.
  - intros a c La Lc. unfold conjugate. symmetry. transitivity (mmul n ident (mmul n (herm Lower A) ident) a c).
    + apply mmul_ext; intros r Lr; [apply Q; assumption|]. apply mmul_ext; intros s Ls; [|apply QA; assumption].
      unfold band, herm, in_tri. destruct (Z.leb_spec (Z.abs (r - s)) b); [reflexivity|]. destruct (s <=? r)%Z; rewrite DG by lia; [reflexivity|symmetry; apply fconj_0].
    + rewrite mmul_ident_l, mmul_ident_r by assumption. reflexivity.
Qed.
End diagonal.
Definition ex_diag_st : tstore (mat complex_field) := fun x p q =>
  if t_mat x =? 1 then (0%R, 0%R) else
  let a := t_row x * 3 + p in let c := (if t_mat x =? 0 then t_col x * 3 else t_col x * 2) + q in
  if a =? c then if t_mat x =? 0 then (IZR a, 0%R) else (1%R, 0%R) else (0%R, 0%R).
Definition ex_lam (c : Z) : F complex_field := (IZR c, 0%R).
Lemma ex_diag_mat : forall a c, r2b_mat 3 ex_diag_st a c = if a =? c then (IZR a, 0%R) else (0%R, 0%R).
Proof.
  intros a c. unfold r2b_mat, ex_diag_st. cbn [rA t_mat t_row t_col]. change (0 =? 1) with false. change (0 =? 0) with true. cbv beta iota zeta.
  rewrite !(Z.mul_comm _ 3), <- !Z.div_mod by discriminate. reflexivity.
Qed.
Lemma ex_diag_c : forall a c, 0 <= c < 5 -> bt_c 3 ex_bt_tc ex_diag_st a c = (if a =? c then (1%R, 0%R) else (0%R, 0%R)).
Proof.
  intros a c Lc. unfold bt_c, ex_diag_st, bC. cbn [t_mat t_row t_col]. change (2 =? 1) with false. change (2 =? 0) with false. cbv beta iota zeta.
  rewrite (Z.mul_comm _ 3), <- Z.div_mod by discriminate.
  replace (tl_tile ex_bt_tc c * 2 + (c - tl_off ex_bt_tc (tl_tile ex_bt_tc c))) with c; [reflexivity|].
  assert (c = 0 \/ c = 1 \/ c = 2 \/ c = 3 \/ c = 4) as [->|[->|[->|[->| ->]]]] by lia; reflexivity.
Qed.
Example C45_composition_hypotheses_hold :
  is_band_reduction 9 2 (r2b_mat 3 ex_diag_st) (r2b_mat 3 ex_diag_st) (bt_taus 3 ex_diag_st) /\
  meq 9 (tl_size ex_bt_tc) (mmul 9 (band 2 (herm Lower (r2b_mat 3 ex_diag_st))) (bt_c 3 ex_bt_tc ex_diag_st))
    (fun i c => fmul (ex_lam c) (bt_c 3 ex_bt_tc ex_diag_st i c)) /\
  bt_c 3 ex_bt_tc ex_diag_st 4 4 = (1%R, 0%R).
Proof.
  split; [|split].
  - apply diag_reduction; [lia|intros c; reflexivity| |].
    + intros i Li. unfold real. rewrite ex_diag_mat, Z.eqb_refl. cbn [fconj complex_field]. unfold c_conj. cbn [fst snd]. f_equal. apply Ropp_0.
    + intros a c N. rewrite ex_diag_mat. apply Z.eqb_neq in N. rewrite N. reflexivity.
  - intros i c Li Lc. change (tl_size ex_bt_tc) with 5 in Lc. unfold mmul.
    rewrite (fsum_one 0 9 _ i) by (try exact Li; intros r Lr N; rewrite ex_diag_c by exact Lc; unfold band, herm, in_tri; rewrite !ex_diag_mat;
      rewrite (proj2 (Z.eqb_neq i r)), (proj2 (Z.eqb_neq r i)) by congruence; destruct (Z.abs (i - r) <=? 2), (r <=? i), (r =? c); cbn [fmul fconj f0 complex_field]; unfold c_mul, c_conj; cbn [fst snd]; f_equal; ring).
    rewrite ex_diag_c by exact Lc. unfold band, herm, in_tri. rewrite Z.sub_diag, Z.leb_refl, ex_diag_mat, Z.eqb_refl.
    change (Z.abs 0 <=? 2) with true. cbv iota. unfold ex_lam. destruct (Z.eqb_spec i c) as [->|N]; [reflexivity|].
    cbn [fmul complex_field]. unfold c_mul. cbn [fst snd]. f_equal; ring.
  - rewrite ex_diag_c by lia. reflexivity.
Qed.

(** ** Assumptions *)
Print Assumptions C45_bt_reduction_to_band.
Print Assumptions C45_eigenvectors.
