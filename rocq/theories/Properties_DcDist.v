(** * C57: the distributed tridiagonal divide and conquer eigensolver. *)
From Coq Require Import ZArith Lia List Bool Reals Lra Psatz Permutation.
From Verif Require B2TSpec DenseJobs.
From Verif Require Import CInt Loop StarField DenseSpec HouseSpec CplxField B2TResult EigSpec DistModel DistSpec DistProofs DistThms DistBuilt DistCtor Properties_Dist TridiagModel TridiagProofs TridiagDeflation Properties_Tridiag
  DcSums DcSecular DcModel DcRank1 DcDeflate DcCore DcMerge DcSolver DcEig DcLaed4 EigModel Properties_Eig Properties_Dc DcDistModel DcDistPart DcDistMerge DcDistSolver.
Import ListNotations.
Local Open Scope R_scope.

(** ** What the solver is called with *)
(** The eigenvectors: an n x n matrix distributed in any way, with numbers of ranks and tiles that int can count *)
Definition evecs_dist (n : Z) (rank : pair_Z) (Ls : DistModel.coord -> layout) (dist : distribution) : Prop :=
  built rank Ls dist /\ (forall rc, l_size (Ls rc) = n) /\
  forall rc, (l_grid (Ls rc) <= i32_max /\ n + l_block (Ls rc) <= i64_max /\ l_grid (Ls rc) + n / l_block (Ls rc) + 1 <= i32_max)%Z.
(** The orders in which the ranks and threads treat the columns of a rank-one problem, in each merge and step; columns are (process column, local index) *)
Definition dist_orders_ok (ord : Z * Z * Z -> list (Z * Z) -> Z -> list (Z * Z)) : Prop := forall merge columns step, Permutation (ord merge columns step) columns.
(** At least one thread on every rank *)
Definition threads_ok (nth : Z * Z * Z -> Z -> Z -> Z) : Prop := forall merge p c, (1 <= nth merge p c)%Z.

Lemma evecs_fit : forall n rank Ls dist, (0 <= n)%Z -> evecs_dist n rank Ls dist ->
  forall rc, (l_grid (Ls rc) <= i32_max /\ ax_offset (get rc dist) + n <= i64_max /\ ax_src (get rc dist) + (ax_offset (get rc dist) + n) / ax_block (get rc dist) <= i32_max)%Z.
Proof.
  intros n rank Ls dist Ln (B & S & F) rc. destruct (F rc) as (F1 & F2 & F3). pose proof (T_reported _ _ _ (built_models _ _ _ B rc)) as T.
  assert (E : ax_block (get rc dist) = l_block (Ls rc) /\ (0 <= ax_offset (get rc dist) < l_block (Ls rc))%Z /\ (0 <= ax_src (get rc dist) < l_grid (Ls rc))%Z) by lia. destruct E as (EB & EO & ES).
  rewrite EB. split; [exact F1|]. split; [lia|]. assert ((ax_offset (get rc dist) + n) / l_block (Ls rc) <= n / l_block (Ls rc) + 1)%Z; [|lia].
  rewrite <- (Z.div_add n 1) by lia. apply Z.div_le_mono; lia.
Qed.

(** ** C57: the eigenvectors keep their owner *)
(** For every distribution of the columns, column types, values and sorted order: the distributed partition counts the kept columns; its first result (i3, rows of the
    rank-one problem) lists the kept ones in sorted order, then the deflated ones ascending; its second result (i5) moves no column to another rank, and on each rank
    lists the columns of that rank by type, upper, dense, lower, deflated, each type in the order of i3; its local version for this rank (i5b) is i5 in local indices,
    so that the permutation of the columns needs no communication; the first columns of a rank, as many as are counted, are its kept ones. i4 and i6 refer
    to the position in i3, i2 to the inverse of i6. *)
Theorem C57_partition : forall (T : Type) (ltb : T -> T -> bool), strict_weak ltb -> forall rank Ls d, built rank Ls d ->
  forall types (evals : Z -> T) perm is0 isc0 i5lc0 i40 i60, is_perm (ax_size (get Col d)) perm ->
  let a := get Col d in let n := l_size (Ls Col) in let own := owner (Ls Col) in let me := DistBuilt.sel Col rank in
  let kept i := negb (coltype_eqb (types i) Deflated) in
  let R := dist_partition ltb a types evals perm is0 isc0 i5lc0 i40 i60 in
  let k := dp_ret_k R in
  k = Z.of_nat (length (filter kept (zrange 0 n))) /\
  is_perm n (dp_is R) /\ map (dp_is R) (zrange 0 k) = filter kept (map perm (zrange 0 n)) /\ ascending ltb evals (dp_is R) k n /\
  is_perm n (dp_isc R) /\ (forall j, (0 <= j < n)%Z -> own (dp_isc R j) = own j) /\
  (forall r, (0 <= r < l_grid (Ls Col))%Z -> let all t := filter (fun i => Z.eqb (own i) r && coltype_eqb (types i) t) (map (dp_is R) (zrange 0 n)) in
     map (dp_isc R) (filter (fun j => Z.eqb (own j) r) (zrange 0 n)) = all UpperHalf ++ all Dense ++ all LowerHalf ++ all Deflated) /\
  dp_ret_k_lc R = Z.of_nat (length (filter (fun i => Z.eqb (own i) me && kept i) (zrange 0 n))) /\
  (forall l, (0 <= l < ax_local_size a)%Z ->
     ax_global_element_from_local_element a (dp_i5lc R l) = dp_isc R (ax_global_element_from_local_element a l) /\ (0 <= dp_i5lc R l < ax_local_size a)%Z /\
     (kept (dp_isc R (ax_global_element_from_local_element a l)) = true <-> (l < dp_ret_k_lc R)%Z)) /\
  (forall l l', (0 <= l < ax_local_size a)%Z -> (0 <= l' < ax_local_size a)%Z -> dp_i5lc R l = dp_i5lc R l' -> l = l') /\
  (forall j, (0 <= j < n)%Z -> (0 <= dp_i4 R j < n)%Z /\ dp_is R (dp_i4 R j) = dp_isc R j) /\
  is_perm n (dp_i6o R) /\ is_perm n (dp_perm R) /\ (forall j, (0 <= j < n)%Z -> dp_perm R (dp_i6o R j) = j /\ dp_i6o R (dp_perm R j) = j) /\
  (forall j, (0 <= j < n)%Z -> if kept (dp_isc R j) then dp_i6o R j = Z.of_nat (length (filter (fun i => kept (dp_isc R i)) (zrange 0 j))) else dp_i6o R j = dp_i4 R j).
Proof.
  intros T ltb SW rank Ls d B types evals perm is0 isc0 i5lc0 i40 i60 PP. pose proof (dist_partition_ok T ltb SW rank Ls d B types evals perm is0 isc0 i5lc0 i40 i60 PP) as OK. cbv zeta. set (R := dist_partition _ _ _ _ _ _ _ _ _ _) in *.
  destruct OK as [Hk His Hkept Hdefl Hasc Hisc Hown Hlist Hklc Hloc _ Hi4 Hi6 Hi6k Hi6d [Hpm Hinv]]. destruct (geo_size rank Ls d B) as [ES LS]. fold (ndef types) in *. rewrite ES in *. set (n := l_size (Ls Col)) in *.
  assert (OW : forall e, (0 <= e < n)%Z -> ax_rank_global_element (get Col d) e = owner (Ls Col) e) by (intros e Le; apply (geo_own rank Ls d B e); lia).
  assert (ISr : forall i, In i (tab 0 n (dp_is R)) -> (0 <= i < n)%Z) by (intros i I; apply in_zrange; eapply Permutation_in; [exact His|exact I]).
  pose proof (built_models _ _ _ B Col) as MD. pose proof (T_reported _ _ _ MD) as (_ & _ & _ & TG & TR & _). destruct (C01_owner_and_local_slot rank Ls d Col B) as [C1 C2]. cbv zeta in C1, C2. destruct (C02_local_global_inverse rank Ls d Col B) as (D1 & D2 & _). cbv zeta in D1, D2. fold n in C1, C2, D1, D2.
  set (me := DistBuilt.sel Col rank) in *.
  assert (ME : forall l, (0 <= l < ax_local_size (get Col d))%Z -> (0 <= me < l_grid (Ls Col))%Z).
  { intros l Ll. destruct (D1 l Ll) as (X & Y & _). rewrite <- Y. apply (C1 _ X). }
  assert (KLC : dp_ret_k_lc R = dp_k_lc (get Col d) types (dp_is R) me) by (unfold R, dist_partition; destruct (fold_left _ _ _) as [[? ?] ?]; cbn [dp_ret_k_lc dp_is]; rewrite TR; reflexivity).
  assert (I5 : forall l, (0 <= l < ax_local_size (get Col d))%Z -> dp_i5lc R l = ax_local_element_from_global_element (get Col d) (dp_isc R (ax_global_element_from_local_element (get Col d) l))).
  { assert (UP : forall (f o : Z -> Z) m, (0 <= m)%Z -> forall l, (0 <= l < m)%Z -> fold_left (fun o i => upd o i (f i)) (zrange 0 m) o l = f l).
    { intros f o m Lm. pattern m. apply natlike_ind; [lia| |exact Lm]. intros x Lx IH l Ll. unfold Z.succ in *. rewrite zrange_snoc, fold_left_app by lia. cbn [fold_left]. unfold upd at 1. destruct (Z.eqb_spec l x) as [->|N]; [reflexivity|]. apply IH. lia. }
    intros l Ll. unfold R, dist_partition. destruct (fold_left _ _ _) as [[? ?] ?]. cbn [dp_i5lc dp_isc]. unfold dp_i5_lc. apply (UP (fun l => ax_local_element_from_global_element (get Col d) (dp_bins (get Col d) types _ isc0 (ax_global_element_from_local_element (get Col d) l)))); lia. }
  assert (LOC : forall l, (0 <= l < ax_local_size (get Col d))%Z -> ax_global_element_from_local_element (get Col d) (dp_i5lc R l) = dp_isc R (ax_global_element_from_local_element (get Col d) l) /\ (0 <= dp_i5lc R l < ax_local_size (get Col d))%Z).
  { intros l Ll. rewrite I5 by assumption. destruct (D1 l Ll) as (X & Y & _). set (j := ax_global_element_from_local_element (get Col d) l) in *. pose proof (is_perm_in n (dp_isc R) j Hisc X) as Lj.
    assert (OJ : owner (Ls Col) (dp_isc R j) = me) by (rewrite <- OW, Hown, OW by assumption; exact Y). destruct (D2 _ Lj OJ). auto. }
  split; [apply Hk|]. split; [exact His|]. split; [exact Hkept|]. split; [exact Hasc|]. split; [exact Hisc|].
  split; [intros j Lj; pose proof (is_perm_in n (dp_isc R) j Hisc Lj); rewrite <- !OW by assumption; apply Hown; assumption|].
  split.
  { intros r Lr. specialize (Hlist r Lr). cbv zeta in Hlist. change (map (dp_is R) (zrange 0 n)) with (tab 0 n (dp_is R)).
    assert (FA : forall t, filter (fun i => Z.eqb (owner (Ls Col) i) r && coltype_eqb (types i) t) (tab 0 n (dp_is R)) = filter (fun i => Z.eqb (ax_rank_global_element (get Col d) i) r && coltype_eqb (types i) t) (tab 0 n (dp_is R))) by (intros t; apply filter_ext_in; intros i I; rewrite OW by (apply ISr; exact I); reflexivity).
    rewrite !FA, <- Hlist. f_equal. apply filter_ext_in. intros i I. apply in_zrange in I. rewrite OW by exact I. reflexivity. }
  split.
  { destruct (Z.eq_dec n 0) as [Z0|NZ].
    - rewrite KLC, Z0. assert (DP : dp_k_lc (get Col d) types (dp_is R) me = 0%Z); [|rewrite DP; reflexivity]. unfold dp_k_lc, dp_offsets, dp_count. rewrite ES, Z0. reflexivity.
    - rewrite KLC, Hklc.
      + f_equal. f_equal. apply filter_ext_in. intros i I. apply in_zrange in I. rewrite OW by exact I. reflexivity.
      + pose proof (DistProofs.w_rank _ (DistProofs.w_p _ (DistBuilt.m_wf _ _ _ MD))) as WR. lia. }
  split.
  { intros l Ll. destruct (LOC l Ll) as [L1 L2]. split; [exact L1|]. split; [exact L2|]. destruct (D1 l Ll) as (X & Y & Z1). set (j := ax_global_element_from_local_element (get Col d) l) in *.
    assert (OJ : ax_rank_global_element (get Col d) j = me) by (rewrite OW by assumption; exact Y). specialize (Hloc j X). rewrite OJ in Hloc.
    assert (GP : gpos d j = l). { rewrite <- Z1. unfold gpos. rewrite (geo_cnt rank Ls d B) by lia. rewrite OJ. symmetry. apply (C1 j X). exact Y. }
    rewrite GP, <- KLC in Hloc. destruct (types (dp_isc R j)); cbn [coltype_eqb negb]; split; intros Q; try reflexivity; try discriminate; destruct Hloc as [H1 H2]; try (specialize (H1 eq_refl); lia); destruct (Z.lt_ge_cases l (dp_ret_k_lc R)); try assumption; specialize (H2 ltac:(lia)); discriminate. }
  split.
  { intros l l' Ll Ll' E. destruct (LOC l Ll) as [L1 _]. destruct (LOC l' Ll') as [L1' _]. rewrite E, L1' in L1. destruct (D1 l Ll) as (X & _ & Y). destruct (D1 l' Ll') as (X' & _ & Y'). apply (is_perm_inj n (dp_isc R)) in L1; try assumption. congruence. }
  split; [exact Hi4|]. split; [exact Hi6|]. split; [exact Hpm|]. split; [exact Hinv|].
  intros j Lj. specialize (Hi6k j Lj). specialize (Hi6d j Lj). unfold ndef in Hi6k. destruct (types (dp_isc R j)) eqn:ET; cbn [coltype_eqb negb]; try (apply Hi6k; discriminate). apply Hi6d. reflexivity.
Qed.

(** ** C57: the result *)
(** As C50, for every distribution of the eigenvectors over a process grid (sizes, blocks, source rank, offset), numbers of threads on the ranks, and orders in which ranks and
    threads treat the columns: lam ascending, E orthonormal, and the error of the decomposition is that of deflation. All ranks hold the same lam, and E is the matrix
    that the ranks together hold. *)
Theorem C57_tridiagonal_solver_distributed : forall (n nb : Z) (eps : R) laed4 stedc rank Ls dist nth ord (d e : Z -> R) (s : dcs),
  (0 <= n)%Z -> (1 <= nb)%Z -> 0 <= eps -> laed4_ok laed4 -> stedc_ok nb stedc -> evecs_dist n rank Ls dist -> threads_ok nth -> dist_orders_ok ord ->
  exists lam E, tridiag_solver_dist n nb eps laed4 stedc dist nth ord d e s = Some (lam, E) /\
    (forall p q, (0 <= p <= q)%Z -> (q < n)%Z -> lam p <= lam q) /\
    (forall a b, (0 <= a < n)%Z -> (0 <= b < n)%Z -> rsum 0 n (fun i => E i a * E i b) = if Z.eqb a b then 1 else 0) /\
    let bound := ((1 + 24 * IZR n * eps) ^ Z.to_nat (ceilDiv n nb - 1) - 1) * Rmax 1 (tnorm n d e) in
    (forall x, Rabs (rsum 0 n (fun i => rsum 0 n (fun j => x i * trid d e i j * x j)) - rsum 0 n (fun c => lam c * Rsqr (rsum 0 n (fun i => E i c * x i)))) <= bound * rsum 0 n (fun i => Rsqr (x i))) /\
    (forall c, (0 <= c < n)%Z -> rsum 0 n (fun i => Rsqr (rsum 0 n (fun j => trid d e i j * E j c) - lam c * E i c)) <= Rsqr bound).
Proof.
  intros n nb eps laed4 stedc rank Ls dist nth ord d e s Ln Lnb Le LA ST DI TH ORD. destruct (Z.eq_dec n 0) as [->|N].
  { exists (s_d1 s), (s_e2 s). split; [reflexivity|]. split; [lia|]. split; [lia|]. cbv zeta. split; [|lia]. intros x. rewrite !rsum_nil by lia. rewrite Rminus_diag_eq by reflexivity. rewrite Rabs_R0. lra. }
  assert (L1 : (1 <= n)%Z) by lia. set (B := tnorm n d e).
  assert (HB : forall i, (0 <= i < n)%Z -> row_sum n d e i <= B).
  { intros i Li. unfold B, tnorm. eapply Rle_trans; [|apply (vec_max_ge n (row_sum n d e) i Li)]. apply Rle_abs. }
  pose proof (evecs_fit n rank Ls dist Ln DI) as FIT. destruct DI as (BD & SZ & _).
  destruct (solver_dist_ok n nb eps laed4 stedc rank Ls dist nth Lnb L1 Le LA BD SZ FIT TH (stedc_ok_form nb stedc ST) d e B HB ord s ORD) as (lam & E & ES & AS & OR & FM).
  exists lam, E. split; [exact ES|]. split; [exact AS|]. split; [intros a b La Lb; exact (OR a b La Lb)|]. cbv zeta.
  set (bound := ((1 + 24 * IZR n * eps) ^ Z.to_nat (ceilDiv n nb - 1) - 1) * Rmax 1 B).
  assert (DB : dlt n eps B (dc_nt n nb - 1) = bound) by (unfold dlt, bound, dc_nt; ring).
  assert (FX : forall x, dot n x (mvec n (trid d e) x) = rsum 0 n (fun i => rsum 0 n (fun j => x i * trid d e i j * x j))).
  { intros x. unfold dot, mvec. apply rsum_ext. intros i _. rewrite <- rsum_mul_l. apply rsum_ext. intros. ring. }
  assert (FD : forall x, dform n lam (coord n E x) = rsum 0 n (fun c => lam c * Rsqr (rsum 0 n (fun i => E i c * x i)))) by reflexivity.
  assert (FM' : forall x, Rabs (dform n lam (coord n E x) - dot n x (mvec n (trid d e) x)) <= bound * dot n x x) by (intros x; rewrite <- DB, <- tform_trid by lia; apply FM).
  assert (B0 : 0 <= bound).
  { rewrite <- DB. pose proof (nt_bounds n nb Lnb L1) as [_ NT]. apply (dlt_le n eps L1 Le B (dc_nt n nb - 1) (dc_nt n nb - 1)). lia. }
  split.
  - intros x. rewrite <- FX, <- FD, Rabs_minus_sym. exact (FM' x).
  - intros c Lc. exact (residual n (trid d e) lam E bound Ln (trid_sym d e) OR B0 FM' c Lc).
Qed.
(** With exact comparisons (eps = 0) the result is an eigendecomposition. *)
Theorem C57_exact : forall (n nb : Z) laed4 stedc rank Ls dist nth ord (d e : Z -> R) (s : dcs),
  (0 <= n)%Z -> (1 <= nb)%Z -> laed4_ok laed4 -> stedc_ok nb stedc -> evecs_dist n rank Ls dist -> threads_ok nth -> dist_orders_ok ord ->
  exists lam E, tridiag_solver_dist n nb 0 laed4 stedc dist nth ord d e s = Some (lam, E) /\
    (forall p q, (0 <= p <= q)%Z -> (q < n)%Z -> lam p <= lam q) /\ is_eigendecomposition (K := real_field) n n (trid d e) lam E.
Proof.
  intros n nb laed4 stedc rank Ls dist nth ord d e s Ln Lnb LA ST DI TH ORD.
  destruct (C57_tridiagonal_solver_distributed n nb 0 laed4 stedc rank Ls dist nth ord d e s Ln Lnb ltac:(lra) LA ST DI TH ORD) as (lam & E & ES & AS & OR & FM & _). exists lam, E. split; [exact ES|]. split; [exact AS|].
  apply form_eig; [exact Ln|apply trid_sym|intros a b La Lb; exact (OR a b La Lb)|]. intros x. specialize (FM x). replace ((1 + 24 * IZR n * 0) ^ Z.to_nat (ceilDiv n nb - 1) - 1) with 0 in FM by (rewrite Rmult_0_r, Rplus_0_r, pow1; ring). rewrite !Rmult_0_l in FM.
  assert (FX : dot n x (mvec n (trid d e) x) = rsum 0 n (fun i => rsum 0 n (fun j => x i * trid d e i j * x j))).
  { unfold dot, mvec. apply rsum_ext. intros i _. rewrite <- rsum_mul_l. apply rsum_ext. intros. ring. }
  rewrite FX. set (u := rsum 0 n (fun i => rsum 0 n _)) in *. change (dform n lam (coord n E x)) with (rsum 0 n (fun c => lam c * Rsqr (rsum 0 n (fun i => E i c * x i)))). set (v := rsum 0 n (fun c => lam c * _)) in *.
  pose proof (Rabs_pos (u - v)). assert (A0 : Rabs (u - v) = 0) by lra. destruct (Req_dec (u - v) 0) as [Z0|NZ]; [lra|]. apply Rabs_no_R0 in NZ. contradiction.
Qed.

(** ** The solver meets what C52 and C53 ask of the tridiagonal solver *)
(** the n x n eigenvectors in blocks of nb x nb on a P x Q grid, from rank src *)
Definition on_grid (P Q nb : Z) (src : pair_Z) (n : Z) (dist : distribution) : Prop :=
  exists rank, dist_ctor (n, n) (nb, nb) (nb, nb) (P, Q) rank src (0, 0)%Z = Ok dist.
(** numbers that int can count *)
Definition countable (P Q nb n : Z) : Prop := (P <= i32_max /\ Q <= i32_max /\ n + nb <= i64_max /\ P + n / nb + 1 <= i32_max /\ Q + n / nb + 1 <= i32_max)%Z.
Definition dc_dist_real (P Q nb : Z) (src : pair_Z) laed4 stedc : Z -> (Z -> R) -> (Z -> R) -> (Z -> R) -> (Z -> Z -> R) -> Prop :=
  fun n d e lam E => (0 <= n)%Z /\ countable P Q nb n /\ exists dist nth ord s, on_grid P Q nb src n dist /\ threads_ok nth /\ dist_orders_ok ord /\
    tridiag_solver_dist n nb 0 laed4 stedc dist nth ord d e s = Some (lam, E).
Definition dc_dist_complex (P Q nb : Z) (src : pair_Z) laed4 stedc : Z -> (Z -> cplx) -> (Z -> cplx) -> (Z -> cplx) -> (Z -> Z -> cplx) -> Prop :=
  fun n d e lam E => exists l V, dc_dist_real P Q nb src laed4 stedc n (fun i => fst (d i)) (fun i => fst (e i)) l V /\
    lam = (fun i => (l i, 0)) /\ E = cast_to_complex V.
Lemma on_grid_dist : forall P Q nb src n dist, (0 <= n)%Z -> (1 <= nb)%Z -> (0 <= fst src < P)%Z -> (0 <= snd src < Q)%Z -> countable P Q nb n -> on_grid P Q nb src n dist ->
  exists rank Ls, evecs_dist n rank Ls dist.
Proof.
  intros P Q nb src n dist Ln Lnb S1 S2 (C1 & C2 & C3 & C4 & C5) (rank & ED). exists rank, (arg_layout (n, n) (nb, nb) (nb, nb) (P, Q) src (0, 0)%Z). split; [|split].
  - apply built_ctor; [| |exact ED].
    + intros rc. destruct rc; split; cbn; try lia; exists 1%Z; lia.
    + intros rc. unfold blocks_fit_int. destruct rc; cbn [DistBuilt.sel fst snd]; rewrite ?Z.div_0_l by lia; unfold i32_max; lia.
  - intros rc. destruct rc; reflexivity.
  - intros rc. destruct rc; cbn [arg_layout l_grid l_block DistBuilt.sel fst snd]; lia.
Qed.
Lemma on_grid_exists : forall P Q nb src n, (0 <= n)%Z -> (1 <= nb)%Z -> (0 <= fst src < P)%Z -> (0 <= snd src < Q)%Z -> countable P Q nb n -> exists dist, on_grid P Q nb src n dist.
Proof.
  intros P Q nb src n Ln Lnb S1 S2 (C1 & C2 & C3 & C4 & C5). destruct (ctor_accepts (n, n) (nb, nb) (nb, nb) (P, Q) (0, 0)%Z src (0, 0)%Z) as (d & E & _).
  - intros rc. unfold documented_pre. destruct rc; cbn; repeat split; try lia; exists 1%Z; lia.
  - intros rc. destruct rc; cbn [DistBuilt.sel fst snd]; unfold i64_max; lia.
  - intros rc. destruct rc; cbn [DistBuilt.sel fst snd]; rewrite Z.div_0_l by lia; lia.
  - exists d, (0, 0)%Z. exact E.
Qed.
Section grid.
Variables (P Q nb : Z) (src : pair_Z).
Variable laed4 : Z -> Z -> (Z -> R) -> (Z -> R) -> R -> (Z -> R) * R.
Variable stedc : Z -> (Z -> R) -> (Z -> R) -> (Z -> R) * (Z -> Z -> R).
Hypothesis Lnb : (1 <= nb)%Z.
Hypothesis S1 : (0 <= fst src < P)%Z.
Hypothesis S2 : (0 <= snd src < Q)%Z.
Hypothesis LA : laed4_ok laed4.
Hypothesis ST : stedc_ok nb stedc.
Lemma solver_dist_eig : forall n d e lam E, dc_dist_real P Q nb src laed4 stedc n d e lam E -> is_eigendecomposition (K := real_field) n n (trid d e) lam E.
Proof using Lnb S1 S2 LA ST.
  intros n d e lam E (Ln & CT & dist & nth & ord & s & DI & TH & ORD & ES). destruct (on_grid_dist P Q nb src n dist Ln Lnb S1 S2 CT DI) as (rank & Ls & EV).
  destruct (C57_exact n nb laed4 stedc rank Ls dist nth ord d e s Ln Lnb LA ST EV TH ORD) as (lam' & E' & ES' & _ & EG). rewrite ES in ES'. injection ES' as <- <-. exact EG.
Qed.
Lemma solver_dist_total : forall n d e, (0 <= n)%Z -> countable P Q nb n -> exists lam E, dc_dist_real P Q nb src laed4 stedc n d e lam E.
Proof using Lnb S1 S2 LA ST.
  intros n d e Ln CT. destruct (on_grid_exists P Q nb src n Ln Lnb S1 S2 CT) as (dist & DI). destruct (on_grid_dist P Q nb src n dist Ln Lnb S1 S2 CT DI) as (rank & Ls & EV).
  assert (TH : threads_ok (fun _ _ _ => 1%Z)) by (intros m p c; lia). assert (ORD : dist_orders_ok (fun _ l _ => l)) by (intros m l t; reflexivity).
  destruct (C57_exact n nb laed4 stedc rank Ls dist _ _ d e dcs_0 Ln Lnb LA ST EV TH ORD) as (lam & E & ES & _). exists lam, E. split; [exact Ln|]. split; [exact CT|]. exists dist, (fun _ _ _ => 1%Z), (fun _ l _ => l), dcs_0. auto.
Qed.
Theorem C57_ts_ok_real : ts_ok (K := real_field) (dc_dist_real P Q nb src laed4 stedc).
Proof using Lnb S1 S2 LA ST. intros n d e lam E _ _ H. apply solver_dist_eig. exact H. Qed.
Theorem C57_ts_ok_complex : ts_ok (K := complex_field) (dc_dist_complex P Q nb src laed4 stedc).
Proof using Lnb S1 S2 LA ST. intros n d e lam E HD HE (l & V & H & -> & ->). apply eig_complex; [exact HD|exact HE|]. apply solver_dist_eig. exact H. Qed.
End grid.

(** ** Concrete cases *)
(** the example of merge.h:386-428: two process columns, tiles of 3 columns on ranks 0, 1, 0; the columns have types U L X U U X L L X and ascending values *)
Definition ex_types (i : Z) : coltype := nth (Z.to_nat i) [UpperHalf; LowerHalf; Deflated; UpperHalf; UpperHalf; Deflated; LowerHalf; LowerHalf; Deflated] Deflated.
Definition ex_axes (r : Z) : distribution := match dist_ctor (9, 9)%Z (3, 3)%Z (3, 3)%Z (1, 2)%Z (0, r)%Z (0, 0)%Z (0, 0)%Z with Ok d => d | _ => Dist default_axis default_axis end.
Definition ex_part (r : Z) : dpart := dist_partition Z.ltb (get Col (ex_axes r)) ex_types (fun i => i) (fun i => i) (fun _ => 0%Z) (fun _ => 0%Z) (fun _ => 0%Z) (fun _ => 0%Z) (fun _ => 0%Z).
Example C57_code_comment : map (dp_is (ex_part 0)) (zrange 0 9) = [0; 1; 3; 4; 6; 7; 2; 5; 8]%Z /\ map (dp_isc (ex_part 0)) (zrange 0 9) = [0; 1; 6; 3; 4; 5; 7; 2; 8]%Z /\
  map (dp_i5lc (ex_part 0)) (zrange 0 6) = [0; 1; 3; 4; 2; 5]%Z /\ map (dp_i5lc (ex_part 1)) (zrange 0 3) = [0; 1; 2]%Z /\ dp_ret_k (ex_part 0) = 6%Z /\ dp_ret_k_lc (ex_part 0) = 4%Z /\ dp_ret_k_lc (ex_part 1) = 2%Z.
Proof. vm_compute. repeat split. Qed.
(** 5 rows in tiles of 2 rows on 2 x 2 ranks from rank (1, 0): three leaves and two merges; two threads, the columns in reverse order *)
Example C57_five : exists dist, on_grid 2 2 2 (1, 0)%Z 5 dist /\
  exists lam E, tridiag_solver_dist 5 2 0 exact_laed4 exact_stedc dist (fun _ _ _ => 2%Z) (fun _ l _ => rev l) (fun i => IZR i) (fun i => 1 - IZR i) dcs_0 = Some (lam, E) /\
  (forall p q, (0 <= p <= q)%Z -> (q < 5)%Z -> lam p <= lam q) /\ is_eigendecomposition (K := real_field) 5 5 (trid (fun i => IZR i) (fun i => 1 - IZR i)) lam E.
Proof.
  assert (CT : countable 2 2 2 5) by (unfold countable, i32_max, i64_max; change (5 / 2)%Z with 2%Z; lia).
  destruct (on_grid_exists 2 2 2 (1, 0)%Z 5 ltac:(lia) ltac:(lia) ltac:(cbn; lia) ltac:(cbn; lia) CT) as (dist & DI). exists dist. split; [exact DI|].
  destruct (on_grid_dist 2 2 2 (1, 0)%Z 5 dist ltac:(lia) ltac:(lia) ltac:(cbn; lia) ltac:(cbn; lia) CT DI) as (rank & Ls & EV).
  apply (C57_exact 5 2 exact_laed4 exact_stedc rank Ls); try lia; [apply exact_laed4_ok|apply exact_stedc_ok|exact EV|intros m p c; lia|]. intros m l t. symmetry. apply Permutation_rev.
Qed.

(** ** Assumptions *)
Print Assumptions C57_partition.
Print Assumptions C57_tridiagonal_solver_distributed.
Print Assumptions C57_exact.
Print Assumptions C57_ts_ok_real.
Print Assumptions C57_ts_ok_complex.
