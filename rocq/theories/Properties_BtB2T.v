(** * C47: back transformation of the reduction of a band matrix to tridiagonal form (local). *)
From Coq Require Import ZArith Lia List Bool Ring Reals.
From Verif Require Import Loop StarField DenseSpec Tiling DenseJobs RefKernels HouseSpec HouseModel HouseQR CplxField MultiJobs Red2BandModel Red2BandSpec
  B2TResult BtB2TModel BtB2TProofs BtB2TFinal Properties_Red2Band.
Import ListNotations.
Local Open Scope Z_scope.

(** C47: for every field, kernels that meet their contracts, size, band size, group size, column tiling of E, reflectors (any numbers),
    matrix E and schedule: the program terminates, E becomes Q E, Q the product of the reflectors in the order documented by
    band_to_tridiagonal (the one of C46), and the reflectors are not changed. *)
Theorem C47_bt_band_to_tridiag : forall (K : starfield) (kn : kernels K) (larft : @larft_fn K), kernels_ok kn -> larft_ok larft ->
  forall (cplx : bool) (m b g : Z) (tc : tiling), 2 <= b -> 0 < g -> tiling_ok tc ->
  forall st0 : tstore (mat K),
  every_schedule_m (bt_band_to_tridiag kn larft cplx m b g tc) st0 (fun st =>
    meq m (tl_size tc) (bt_e b tc st) (mmul m (hht_product m b (bt_hh b st0) (hht_list cplx m b)) (bt_e b tc st0)) /\
    (forall i j, st (tHH i j) = st0 (tHH i j))).
Proof.
  intros K kn larft KO LO cplx m b g tc Hb Hg TC st0. apply every_schedule_m_intro; [apply bt_b2t_jobs_ok|]. intros st E.
  destruct (bt_b2t_run kn KO larft LO cplx m b g tc Hb Hg TC st0) as [R1 R2]. split.
  - intros a c La Lc. rewrite <- R1 by assumption. unfold bt_e. rewrite E. reflexivity.
  - intros i j. rewrite E. apply R2.
Qed.

(** C47: applied to the output of band_to_tridiagonal (C46): eigenvectors of the tridiagonal matrix become eigenvectors of the band
    matrix, with the same eigenvalues, and orthonormal columns stay orthonormal. *)
Theorem C47_eigenvectors : forall (K : starfield) (kn : kernels K) (larft : @larft_fn K), kernels_ok kn -> larft_ok larft ->
  forall (cplx : bool) (m b g : Z) (tc : tiling), 2 <= b -> 0 < g -> tiling_ok tc ->
  forall (st0 : tstore (mat K)) (A : mat K) (d e lam : Z -> F K),
  is_tridiagonal_reduction cplx m b A (bt_hh b st0) d e ->
  meq m (tl_size tc) (mmul m (tridiag d e) (bt_e b tc st0)) (fun i c => fmul (lam c) (bt_e b tc st0 i c)) ->
  every_schedule_m (bt_band_to_tridiag kn larft cplx m b g tc) st0 (fun st =>
    meq m (tl_size tc) (mmul m (band b (herm Lower A)) (bt_e b tc st)) (fun i c => fmul (lam c) (bt_e b tc st i c)) /\
    meq (tl_size tc) (tl_size tc) (mmul m (adj (bt_e b tc st)) (bt_e b tc st)) (mmul m (adj (bt_e b tc st0)) (bt_e b tc st0))).
Proof.
  intros K kn larft KO LO cplx m b g tc Hb Hg TC st0 A d e lam (U & _ & _ & EA) EV s0 E0 s RS.
  destruct (C47_bt_band_to_tridiag K kn larft KO LO cplx m b g tc Hb Hg TC st0 s0 E0 s RS) as (P1 & P2 & P3).
  split; [|split; assumption]. intros FN. destruct (P1 FN) as (Q1 & _). clear P1 P2 P3. set (st := fun x => AsyncModel.st_store s (enc x)) in *.
  set (Q := hht_product m b (bt_hh b st0) (hht_list cplx m b)) in *. set (B := band b (herm Lower A)) in *.
  set (C0 := bt_e b tc st0) in *. set (C1 := bt_e b tc st) in *. set (T := tridiag d e) in *. destruct U as [U1 U2]. split.
  - intros i c Li Lc. transitivity (mmul m (mmul m Q (mmul m T (adj Q))) (mmul m Q C0) i c).
    { apply mmul_ext; intros r Lr; [apply EA; assumption|apply Q1; assumption]. }
    rewrite mmul_assoc. rewrite (Q1 i c Li Lc).
    transitivity (mmul m Q (fun i c => fmul (lam c) (C0 i c)) i c).
    + apply mmul_ext; [reflexivity|]. intros r Lr. rewrite mmul_assoc. rewrite <- EV by assumption. apply mmul_ext; [reflexivity|]. intros u Lu. rewrite <- mmul_assoc.
      transitivity (mmul m ident C0 u c); [|apply mmul_ident_l; exact Lu]. apply mmul_ext; [|reflexivity]. intros v Lv. apply U1; assumption.
    + unfold mmul. rewrite <- fsum_mul_l. apply fsum_ext. intros r _. rewrite !(Ring_theory.Rmul_assoc (fring K)), (Ring_theory.Rmul_comm (fring K) (Q i r)). reflexivity.
  - intros i c Li Lc. transitivity (mmul m (adj (mmul m Q C0)) (mmul m Q C0) i c).
    { apply mmul_ext; intros r Lr; [unfold adj, opm; f_equal; apply Q1; assumption|apply Q1; assumption]. }
    transitivity (mmul m (mmul m (adj C0) (adj Q)) (mmul m Q C0) i c).
    { apply mmul_ext; [|reflexivity]. intros r Lr. apply adj_mmul. }
    rewrite mmul_assoc. apply mmul_ext; [reflexivity|]. intros r Lr. rewrite <- mmul_assoc.
    transitivity (mmul m ident C0 r c); [|apply mmul_ident_l; exact Lr]. apply mmul_ext; [|reflexivity]. intros v Lv. apply U1; assumption.
Qed.

(** An 11x5 complex matrix E in tiles of 2, 3 columns, band of size 2, groups of one reflector; an 13x5 one, band of size 4, groups of three; the
    reflectors are arbitrary numbers. *)
Definition ex_tc : tiling := Tiling 2 (fun k => if k =? 0 then 2 else 3).
Definition ex_bt2_st : tstore (mat complex_field) := fun x p q => (IZR (t_mat x + t_row x * 3 + p), IZR (t_col x * 3 + q)).
Example C47_hypotheses_hold : forall m b g, (m = 11 /\ b = 2 /\ g = 1) \/ (m = 14 /\ b = 4 /\ g = 3) ->
  larft_ok (@ref_larft complex_field) /\ tiling_ok ex_tc /\ tl_size ex_tc = 5 /\
  exists s0 s, AsyncModel.reachable (msubmitted (bt_band_to_tridiag complex_kernels ref_larft true m b g ex_tc)) s0 s /\
    AsyncModel.final (msubmitted (bt_band_to_tridiag complex_kernels ref_larft true m b g ex_tc)) s /\
    meq m 5 (bt_e b ex_tc (fun x => AsyncModel.st_store s (enc x))) (mmul m (hht_product m b (bt_hh b ex_bt2_st) (hht_list true m b)) (bt_e b ex_tc ex_bt2_st)).
Proof.
  intros m b g C. assert (OK : tiling_ok ex_tc) by (split; [cbn; lia|]; intros k Lk; cbn; destruct (k =? 0); lia).
  split; [apply ref_larft_ok|]. split; [exact OK|]. split; [reflexivity|].
  destruct (every_schedule_m_run _ _ _ (bt_b2t_jobs_ok complex_kernels ref_larft true m b g ex_tc)
    (C47_bt_band_to_tridiag complex_field complex_kernels ref_larft complex_kernels_ok ref_larft_ok true m b g ex_tc ltac:(lia) ltac:(lia) OK ex_bt2_st)) as (s0 & s & _ & R & FN & Q & _).
  exists s0, s. split; [exact R|]. split; [exact FN|]. exact Q.
Qed.
(** not trivial: the number of reflectors and of jobs; blocks with two tiles and with one; a last reflector of size one *)
Example C47_not_trivial : length (hht_list true 11 2) = 26%nat /\ length (hht_list true 14 4) = 25%nat /\
  length (bt_band_to_tridiag complex_kernels ref_larft true 14 4 3 ex_tc) = 21%nat /\
  t_across 14 4 2 0 = true /\ t_across 14 4 3 0 = false /\ t_nrefls true 11 2 4 0 = 2 /\ t_nrefls true 14 4 3 0 = 1 /\ t_nrefls true 14 4 1 1 = 4.
Proof. repeat split; vm_compute; reflexivity. Qed.
(** The hypotheses of the composition are those of C46: see Properties_B2TNum.C46_hypotheses_hold. A diagonal matrix with all taus zero: *)
Section diagonal.
Context {K : starfield}.
Local Open Scope sf_scope.
Add Ring KringB2 : (fring K).
Lemma hht_zero : forall m b (V : mat K) ps, (forall a c, V a c = 0) -> meq m m (hht_product m b V ps) ident.
Proof.
  intros m b V ps Z0. induction ps as [|p ps IH] using rev_ind; intros a c La Lc; [reflexivity|]. unfold hht_product. rewrite fold_left_app. cbn [fold_left]. fold (hht_product m b V ps).
  rewrite <- (mmul_ident_r m ident a c) by assumption. apply mmul_ext; intros r Lr; [apply IH; assumption|]. unfold hht, reflector. rewrite Z0. ring.
Qed.
Lemma diag_tridiagonal : forall cplx m b (A V : mat K) (d : Z -> F K), (0 <= b)%Z -> (forall a c, V a c = 0) -> (forall i, fconj (d i) = d i) ->
  (forall a c, A a c = if (a =? c)%Z then d a else 0) -> is_tridiagonal_reduction cplx m b A V d (fun _ => 0).
Proof.
  intros cplx m b A V d Hb Z0 RD EA. assert (Q := hht_zero m b V (hht_list cplx m b) Z0). unfold is_tridiagonal_reduction. cbv zeta. set (U := hht_product m b V (hht_list cplx m b)) in *. clearbody U.
  assert (QA : meq m m (adj U) ident) by (intros a c La Lc; rewrite <- adj_ident; unfold adj, opm; f_equal; apply Q; assumption).
  split; [|split; [intros; apply RD|split; [intros; apply fconj_0|]]].
  - split; intros a c La Lc; rewrite <- (mmul_ident_r m ident a c) by assumption; apply mmul_ext; intros r Lr; first [apply Q|apply QA]; assumption.
  - intros a c La Lc. unfold conjugate. symmetry. transitivity (mmul m ident (mmul m (tridiag d (fun _ => 0)) ident) a c).
    + apply mmul_ext; intros r Lr; [apply Q; assumption|]. apply mmul_ext; intros s Ls; [reflexivity|apply QA; assumption].
    + rewrite mmul_ident_l, mmul_ident_r by assumption. unfold tridiag, band, herm, in_tri. rewrite !EA. rewrite (Z.eqb_sym c a).
      destruct (Z.eqb_spec a c) as [->|N].
      * rewrite Z.leb_refl. replace (Z.abs (c - c) <=? b)%Z with true by lia. reflexivity.
      * destruct (Z.abs (a - c) <=? b)%Z, (c <=? a)%Z, (a =? c + 1)%Z, (c =? a + 1)%Z; try reflexivity; symmetry; apply fconj_0.
Qed.
End diagonal.
Definition ex_bt2_diag : tstore (mat complex_field) := fun x p q => if t_mat x =? 0 then (0%R, 0%R) else
  if t_row x * 4 + p =? t_col x * 2 + q then (1%R, 0%R) else (0%R, 0%R).
Definition ex_d (c : Z) : F complex_field := (IZR c, 0%R).
Lemma ex_bt2_e : forall a c, 0 <= c < 5 -> bt_e 4 ex_tc ex_bt2_diag a c = if a =? c then (1%R, 0%R) else (0%R, 0%R).
Proof.
  intros a c Lc. unfold bt_e, ex_bt2_diag, tE. cbn [t_mat t_row t_col]. change (1 =? 0) with false. cbv iota.
  rewrite (Z.mul_comm _ 4), <- Z.div_mod by discriminate.
  replace (tl_tile ex_tc c * 2 + (c - tl_off ex_tc (tl_tile ex_tc c))) with c; [reflexivity|].
  assert (c = 0 \/ c = 1 \/ c = 2 \/ c = 3 \/ c = 4) as [->|[->|[->|[->| ->]]]] by lia; reflexivity.
Qed.
Example C47_composition_hypotheses_hold :
  is_tridiagonal_reduction true 14 4 (fun a c => if a =? c then ex_d a else f0) (bt_hh 4 ex_bt2_diag) ex_d (fun _ => f0) /\
  meq 14 (tl_size ex_tc) (mmul 14 (tridiag ex_d (fun _ => f0)) (bt_e 4 ex_tc ex_bt2_diag)) (fun i c => fmul (ex_d c) (bt_e 4 ex_tc ex_bt2_diag i c)) /\
  bt_e 4 ex_tc ex_bt2_diag 4 4 = (1%R, 0%R).
Proof.
  split; [|split].
  - apply diag_tridiagonal; [lia|intros; reflexivity| |reflexivity]. intros i. cbn. unfold c_conj, ex_d. cbn [fst snd]. f_equal. apply Ropp_0.
  - intros i c Li Lc. change (tl_size ex_tc) with 5 in Lc. unfold mmul.
    rewrite (fsum_one 0 14 _ i) by (try exact Li; intros r Lr N; unfold tridiag; rewrite (proj2 (Z.eqb_neq i r)) by congruence; destruct (i =? r + 1), (r =? i + 1); cbn [fmul f0 complex_field]; unfold c_mul; cbn [fst snd]; f_equal; ring).
    rewrite ex_bt2_e by exact Lc. unfold tridiag. rewrite Z.eqb_refl. unfold ex_d. destruct (Z.eqb_spec i c) as [->|N]; [reflexivity|].
    cbn [fmul complex_field]. unfold c_mul. cbn [fst snd]. f_equal; ring.
  - rewrite ex_bt2_e by lia. reflexivity.
Qed.

(** ** Assumptions *)
Print Assumptions C47_bt_band_to_tridiag.
Print Assumptions C47_eigenvectors.
