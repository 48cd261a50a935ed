(** * One merge of the distributed divide and conquer solver, on the arrays of the whole problem. *)
From Coq Require Import ZArith Lia List Bool Reals Lra Psatz Permutation.
From Verif Require Import CInt Loop DistModel DistSpec DistProofs DistThms DistBuilt DistCtor Properties_Dist TridiagModel TridiagProofs TridiagDeflation Properties_Tridiag DcSums DcSecular DcModel DcRank1 DcDeflate DcCore DcMerge DcDistModel DcDistPart DcDistRank1 DcDistCore.
Import ListNotations.
Local Open Scope Z_scope.

Lemma NoDup_flat : forall {A B : Type} (f : A -> list B) (g : B -> A) l, NoDup l -> (forall a, In a l -> NoDup (f a) /\ forall x, In x (f a) -> g x = a) -> NoDup (flat_map f l).
Proof.
  intros A B f g l ND. induction ND as [|a l NI ND IH]; intros H; [constructor|]. cbn [flat_map].
  assert (APP : forall l1 l2 : list B, NoDup l1 -> NoDup l2 -> (forall x, In x l1 -> ~ In x l2) -> NoDup (l1 ++ l2)).
  { intros l1 l2 N1. induction N1 as [|x l1 NX N1 IH1]; intros N2 D; [exact N2|]. cbn. constructor.
    - intros I. apply in_app_or in I as [I|I]; [contradiction|]. apply (D x); [left; reflexivity|exact I].
    - apply IH1; [exact N2|]. intros y Iy. apply D. right. exact Iy. }
  apply APP.
  - apply H. left. reflexivity.
  - apply IH. intros a' I. apply H. right. exact I.
  - intros x I J. apply in_flat_map in J as (a' & Ia' & J). destruct (H a (or_introl eq_refl)) as [_ E1]. destruct (H a' (or_intror Ia')) as [_ E2]. specialize (E1 x I). specialize (E2 x J). apply NI. congruence.
Qed.

Section cols.
Variables (rank : pair_Z) (Ls : DistModel.coord -> layout) (ds : distribution).
Hypothesis B : built rank Ls ds.
Notation ac := (get Col ds).
Notation m := (ax_size ac).
Notation own := (ax_rank_global_element ac).
Notation gl := (global_element_from_local_element_on_rank ac).
Lemma grid_eq : ax_grid ac = l_grid (Ls Col) /\ 0 < l_grid (Ls Col).
Proof using B. split; [apply (T_reported _ _ _ (built_models _ _ _ B Col))|]. pose proof (T_reported _ _ _ (built_models _ _ _ B Col)) as T. lia. Qed.
Lemma pairs_cols : forall lo hi, (forall r, 0 <= r < ax_grid ac -> 0 <= lo r /\ hi r <= gnloc ds r) ->
  NoDup (map (d1_col ac) (d1_pairs ac lo hi)) /\ forall j, In j (map (d1_col ac) (d1_pairs ac lo hi)) <-> 0 <= j < m /\ lo (own j) <= gpos ds j < hi (own j).
Proof using B.
  intros lo hi H. destruct grid_eq as [GE GP]. assert (E : map (d1_col ac) (d1_pairs ac lo hi) = flat_map (fun c => map (gl c) (zrange (lo c) (hi c))) (zrange 0 (ax_grid ac))).
  { unfold d1_pairs. generalize (zrange 0 (ax_grid ac)) as l. induction l as [|c l IH]; [reflexivity|]. cbn [flat_map]. rewrite map_app, IH, map_map. reflexivity. }
  rewrite E. split.
  - apply (NoDup_flat _ own); [apply zrange_NoDup|]. intros c I. apply in_zrange in I. destruct (H c I) as [H1 H2].
    assert (F : forall p, In p (zrange (lo c) (hi c)) -> 0 <= gl c p < m /\ own (gl c p) = c /\ gpos ds (gl c p) = p) by (intros p J; apply in_zrange in J; apply (geo_gl rank Ls ds B); lia).
    split.
    + assert (INJ : forall l, NoDup l -> (forall p, In p l -> gpos ds (gl c p) = p) -> NoDup (map (gl c) l)).
      { intros l ND. induction ND as [|x l NI ND IH]; intros G; [constructor|]. cbn [map]. constructor; [|apply IH; intros; apply G; right; assumption].
        intros J. apply in_map_iff in J as (y & E2 & J). pose proof (G x (or_introl eq_refl)) as X1. pose proof (G y (or_intror J)) as X2. rewrite E2 in X2. apply NI. rewrite <- X1, X2. exact J. }
      apply INJ; [apply zrange_NoDup|]. intros p J. apply (F p J).
    + intros x J. apply in_map_iff in J as (p & <- & J). apply (F p J).
  - intros j. rewrite in_flat_map. split.
    + intros (c & I & J). apply in_zrange in I. apply in_map_iff in J as (p & <- & J). apply in_zrange in J. destruct (H c I) as [H1 H2]. destruct (geo_gl rank Ls ds B c p ltac:(lia) ltac:(lia)) as (R1 & R2 & R3). rewrite R2, R3. lia.
    + intros (Lj & Lp). destruct (geo_own rank Ls ds B j Lj) as [_ LO]. exists (own j). split; [apply in_zrange; lia|]. apply in_map_iff. exists (gpos ds j). split; [apply (geo_pos rank Ls ds B); exact Lj|apply in_zrange; exact Lp].
Qed.
(** a local column before another one has the smaller global index *)
Lemma gl_le : forall j p, 0 <= j < m -> 0 <= p < gnloc ds (own j) -> (gl (own j) p <= j <-> p <= gpos ds j).
Proof using B.
  intros j p Lj Lp. destruct (geo_own rank Ls ds B j Lj) as [_ LO]. destruct (geo_gl rank Ls ds B (own j) p LO Lp) as (R1 & R2 & R3). set (e := gl (own j) p) in *.
  unfold gpos in R3. rewrite R2 in R3. unfold gpos. rewrite <- R3. set (f := fun e' => own e' =? own j). split; intros L.
  - pose proof (count_mono f e j L). lia.
  - destruct (Z.le_gt_cases e j); [assumption|]. exfalso. assert (count f j < count f e); [|lia]. apply (count_lt f j e); [lia|]. unfold f. apply Z.eqb_refl.
Qed.
Section part.
Variables (T : Type) (ltb : T -> T -> bool) (types : Z -> coltype) (evals : Z -> T) (perm : Z -> Z) (R : dpart).
Hypothesis OK : dpart_ok ltb ds (l_grid (Ls Col)) types evals perm R.
Notation klc := (dp_k_lc ac types (dp_is R)).
Lemma klc_range : forall r, 0 <= r < ax_grid ac -> 0 <= klc r <= gnloc ds r.
Proof using B OK.
  intros r Lr. destruct grid_eq as [GE GP]. rewrite (pd_k_lc _ _ _ _ _ _ _ OK) by lia. rewrite (geo_nloc rank Ls ds B) by lia. split; [lia|]. apply inj_le.
  generalize (zrange 0 m) as l. induction l as [|x l IH]; [cbn; lia|]. cbn [filter]. destruct (own x =? r); cbn [andb]; [|exact IH]. destruct (ndef types x); cbn [length]; lia.
Qed.
Lemma i6_kept : forall j, 0 <= j < m -> (dp_i6o R j < dp_ret_k R <-> types (dp_isc R j) <> Deflated).
Proof using OK.
  intros j Lj. split.
  - intros L E. destruct (pd_i6d _ _ _ _ _ _ _ OK j Lj E). lia.
  - intros N. destruct (pd_i6k _ _ _ _ _ _ _ OK j Lj N). lia.
Qed.
Lemma i4_kept : forall j, 0 <= j < m -> (dp_i4 R j < dp_ret_k R <-> types (dp_isc R j) <> Deflated).
Proof using OK.
  intros j Lj. destruct (pd_i4 _ _ _ _ _ _ _ OK j Lj) as [L E]. rewrite <- E. rewrite (pd_defl _ _ _ _ _ _ _ OK) by exact L. lia.
Qed.
Lemma i4_perm : is_perm m (dp_i4 R).
Proof using OK.
  apply is_perm_intro; [intros i Li; apply (pd_i4 _ _ _ _ _ _ _ OK i Li)|]. intros i j Li Lj E. destruct (pd_i4 _ _ _ _ _ _ _ OK i Li) as [_ Ei]. destruct (pd_i4 _ _ _ _ _ _ _ OK j Lj) as [_ Ej].
  apply (is_perm_inj m (dp_isc R)); try assumption; [apply (pd_isc _ _ _ _ _ _ _ OK)|]. congruence.
Qed.
Lemma kept_cols : Permutation (map (d1_col ac) (d1_pairs ac (fun _ => 0) klc)) (filter (fun j => dp_i6o R j <? dp_ret_k R) (zrange 0 m)).
Proof using B OK.
  destruct (pairs_cols (fun _ => 0) klc) as [ND IN]; [intros r Lr; pose proof (klc_range r Lr); lia|]. apply NoDup_Permutation; [exact ND|apply NoDup_filter, zrange_NoDup|].
  intros j. rewrite IN, filter_In, in_zrange, Z.ltb_lt. split.
  - intros (Lj & L0 & Lp). split; [exact Lj|]. apply i6_kept; [exact Lj|]. intros E. apply (pd_local _ _ _ _ _ _ _ OK j Lj) in E. lia.
  - intros (Lj & L6). split; [exact Lj|]. destruct (geo_pos rank Ls ds B j Lj) as [LP _]. apply (i6_kept j Lj) in L6. split; [lia|]. destruct (Z.lt_ge_cases (gpos ds j) (klc (own j))) as [X|X]; [exact X|]. exfalso. apply L6, (pd_local _ _ _ _ _ _ _ OK j Lj), X.
Qed.
Lemma defl_cols : Permutation (map (d1_col ac) (d1_pairs ac klc (d1_nloc ac))) (filter (fun j => dp_ret_k R <=? dp_i6o R j) (zrange 0 m)).
Proof using B OK.
  destruct (pairs_cols klc (d1_nloc ac)) as [ND IN]; [intros r Lr; pose proof (klc_range r Lr); split; [lia|]; apply Z.le_refl|]. apply NoDup_Permutation; [exact ND|apply NoDup_filter, zrange_NoDup|].
  intros j. rewrite IN, filter_In, in_zrange, Z.leb_le. split.
  - intros (Lj & L0 & Lp). split; [exact Lj|]. apply (pd_i6d _ _ _ _ _ _ _ OK j Lj). apply (pd_local _ _ _ _ _ _ _ OK j Lj), L0.
  - intros (Lj & L6). split; [exact Lj|]. destruct (geo_pos rank Ls ds B j Lj) as [LP _]. split; [|apply LP]. apply (pd_local _ _ _ _ _ _ _ OK j Lj). pose proof (i6_kept j Lj) as X. destruct (types (dp_isc R j)) eqn:E; try reflexivity; exfalso; assert (dp_i6o R j < dp_ret_k R) by (apply X; discriminate); lia.
Qed.
(** the columns that multiplyEigenvectors copies are the deflated ones *)
Lemma copied : forall j, 0 <= j < m -> ((klc (own j) <? d1_nloc ac (own j)) && (gl (own j) (klc (own j)) <=? j))%bool = (dp_ret_k R <=? dp_i6o R j).
Proof using B OK.
  intros j Lj. destruct (geo_pos rank Ls ds B j Lj) as [LP _]. destruct (geo_own rank Ls ds B j Lj) as [_ LO]. destruct grid_eq as [GE GP]. pose proof (klc_range (own j) ltac:(lia)) as KR.
  change (d1_nloc ac (own j)) with (gnloc ds (own j)). pose proof (pd_local _ _ _ _ _ _ _ OK j Lj) as PL. pose proof (i6_kept j Lj) as KI.
  destruct (Z.leb_spec (dp_ret_k R) (dp_i6o R j)) as [X|X].
  - assert (D : types (dp_isc R j) = Deflated) by (destruct (types (dp_isc R j)) eqn:E; try reflexivity; exfalso; assert (dp_i6o R j < dp_ret_k R) by (apply KI; discriminate); lia).
    apply PL in D. apply andb_true_intro. split; [apply Z.ltb_lt; lia|]. apply Z.leb_le. apply gl_le; lia.
  - apply KI in X. assert (N : gpos ds j < klc (own j)) by (destruct (Z.lt_ge_cases (gpos ds j) (klc (own j))) as [Y|Y]; [exact Y|]; exfalso; apply X, PL, Y).
    destruct (Z.ltb_spec (klc (own j)) (gnloc ds (own j))) as [Y|Y]; [|reflexivity]. cbn [andb]. apply Z.leb_gt. destruct (Z.lt_ge_cases j (gl (own j) (klc (own j)))) as [W|W]; [exact W|]. exfalso. apply gl_le in W; lia.
Qed.
End part.
End cols.

Local Open Scope R_scope.
Section merge.
Variables (n nb : Z) (eps : R).
Variable laed4 : Z -> Z -> (Z -> R) -> (Z -> R) -> R -> (Z -> R) * R.
Variables (rank : pair_Z) (Ls : DistModel.coord -> layout) (dist : distribution) (nth : Z * Z * Z -> Z -> Z -> Z).
Hypothesis LNB : (1 <= nb)%Z.
Hypothesis LN : (1 <= n)%Z.
Hypothesis EPS : 0 <= eps.
Hypothesis LA : laed4_ok laed4.
Hypothesis BD : built rank Ls dist.
Hypothesis SZ : forall rc, l_size (Ls rc) = n.
(** no overflow in the arguments of sub-matrices *)
Hypothesis FIT : forall rc, (l_grid (Ls rc) <= i32_max /\ ax_offset (get rc dist) + n <= i64_max /\ ax_src (get rc dist) + (ax_offset (get rc dist) + n) / ax_block (get rc dist) <= i32_max)%Z.
Hypothesis NTH : forall t p c, (1 <= nth t p c)%Z.
Notation nt := (dc_nt n nb).
Notation size := (dc_size n nb).
Notation hi := (hi n nb).
Notation sub_idx := (sub_idx nb).

Lemma sub_ok : forall o m, (0 <= o)%Z -> (0 <= m)%Z -> (o + m <= n)%Z -> exists ds Ls', sub_distribution dist (o, o) (m, m) = Ok ds /\ built rank Ls' ds /\ forall rc, ax_size (get rc ds) = m.
Proof using LN BD SZ FIT.
  intros o m Lo Lm Le.
  assert (REP : forall rc, (0 <= ax_offset (get rc dist) < ax_block (get rc dist))%Z /\ (0 <= ax_src (get rc dist))%Z) by (intros rc; pose proof (T_reported _ _ _ (built_models _ _ _ BD rc)) as T; lia).
  assert (LE : forall rc, ((ax_offset (get rc dist) + o) / ax_block (get rc dist) <= (ax_offset (get rc dist) + n) / ax_block (get rc dist))%Z) by (intros rc; destruct (REP rc); apply Z.div_le_mono; lia).
  assert (SEL : forall rc (x : Z), DistBuilt.sel rc (x, x) = x) by (intros [|] x; reflexivity).
  destruct (C07_window_accepted_iff_inside rank Ls dist (o, o) (m, m) BD) as [[_ ACC] _].
  { intros rc. rewrite SEL. destruct (FIT rc) as (F1 & F2 & F3). specialize (LE rc). lia. }
  destruct ACC as (ds & ES). { intros rc. rewrite !SEL, SZ. lia. }
  assert (F : forall rc, blocks_fit_int (ax_offset (get rc dist) + DistBuilt.sel rc (o, o))%Z (ax_block (get rc dist))). { intros rc. rewrite SEL. unfold blocks_fit_int. destruct (FIT rc) as (F1 & F2 & F3). destruct (REP rc). specialize (LE rc). lia. }
  eexists ds, _. split; [exact ES|]. split; [eapply built_sub; eassumption|]. intros rc. rewrite (proj1 (C07_sub_distribution_is_restriction _ _ _ _ _ _ rc BD F ES)). apply SEL.
Qed.

Lemma merge_dist_ok : forall (ord : list (Z * Z) -> Z -> list (Z * Z)) b sp e rho (s : dcs), (0 <= b < sp)%Z -> (sp < e <= nt)%Z -> (forall l t, Permutation (ord l t) l) ->
  let o := (b * nb)%Z in let m := size b e in let n1 := size b sp in let n2 := size sp e in let o2 := (sp * nb)%Z in
  is_perm n1 (sub_idx s b sp) -> is_perm n2 (sub_idx s sp e) ->
  ascending Rltb (view o (s_d0 s)) (sub_idx s b sp) 0 n1 -> ascending Rltb (view o2 (s_d0 s)) (sub_idx s sp e) 0 n2 ->
  orthonormal n1 (view2 o (s_e0 s)) -> orthonormal n2 (view2 o2 (s_e0 s)) ->
  (forall i j, (o <= i < o2)%Z -> (o2 <= j < hi e)%Z -> s_e0 s i j = 0 /\ s_e0 s j i = 0) ->
  exists s', merge_dist n nb eps laed4 dist nth ord b sp e rho s = Some s' /\
    (forall i j, ~ ((o <= i < hi e)%Z /\ (o <= j < hi e)%Z) -> s_e0 s' i j = s_e0 s i j) /\
    (forall i, ~ (o <= i < hi e)%Z -> s_d0 s' i = s_d0 s i /\ s_i1 s' i = s_i1 s i) /\
    is_perm m (view o (s_i1 s')) /\ ascending Rltb (view o (s_d0 s')) (view o (s_i1 s')) 0 m /\
    orthonormal m (view2 o (s_e0 s')) /\
    forall x, Rabs (dform m (view o (s_d0 s')) (coord m (view2 o (s_e0 s')) x) -
      (dform n1 (view o (s_d0 s)) (coord n1 (view2 o (s_e0 s)) x) + dform n2 (view o2 (s_d0 s)) (coord n2 (view2 o2 (s_e0 s)) (view n1 x)) +
       Rabs rho * ((zsign rho * x (n1 - 1)%Z + x n1) * (zsign rho * x (n1 - 1)%Z + x n1)))) <=
     3 * IZR m * (8 * eps * Rmax (vec_max m (view o (s_d0 s))) 1) * dot m x x.
Proof using LNB LN EPS LA BD SZ FIT NTH.
  intros ord b sp e rho s Lb Le ORD o m n1 n2 o2 P1 P2 A1 A2 O1 O2 ZE.
  assert (Hm : m = (hi e - o)%Z) by (unfold m; rewrite (size_hi n nb LNB LN), (hi_start n nb LNB LN b) by lia; reflexivity).
  assert (Hn1 : n1 = (o2 - o)%Z) by (unfold n1; rewrite (size_hi n nb LNB LN), (hi_start n nb LNB LN b), (hi_start n nb LNB LN sp) by lia; reflexivity).
  assert (Hn2 : n2 = (hi e - o2)%Z) by (unfold n2; rewrite (size_hi n nb LNB LN), (hi_start n nb LNB LN sp) by lia; reflexivity).
  pose proof (hi_lt n nb LNB LN b sp ltac:(lia) ltac:(lia)) as HL1. pose proof (hi_lt n nb LNB LN sp e ltac:(lia) ltac:(lia)) as HL2.
  rewrite (hi_start n nb LNB LN b), (hi_start n nb LNB LN sp) in HL1 by lia. rewrite (hi_start n nb LNB LN sp) in HL2 by lia. fold o o2 in HL1, HL2.
  assert (LM1 : (1 <= n1)%Z) by lia. assert (LM2 : (1 <= n2)%Z) by lia. assert (MM : m = (n1 + n2)%Z) by lia.
  set (Q := view2 o (s_e0 s)) in *. set (d := view o (s_d0 s)) in *.
  assert (QU : forall i j, (0 <= j < n1)%Z -> (n1 <= i < m)%Z -> Q i j = 0) by (intros i j Lj Li; exact (proj2 (ZE (j + o)%Z (i + o)%Z ltac:(lia) ltac:(lia)))).
  assert (QL : forall i j, (n1 <= j < m)%Z -> (0 <= i < n1)%Z -> Q i j = 0) by (intros i j Lj Li; exact (proj1 (ZE (i + o)%Z (j + o)%Z ltac:(lia) ltac:(lia)))).
  assert (V2 : forall i j, view2 n1 Q i j = view2 o2 (s_e0 s) i j) by (intros i j; unfold Q, view2; f_equal; lia).
  assert (OQ : orthonormal m Q).
  { rewrite MM in *. apply blockdiag_orthonormal; try lia; [exact QU|exact QL|exact O1|]. eapply orthonormal_ext; [|exact O2]. intros; symmetry; apply V2. }

  assert (HN : (hi e <= n)%Z) by (unfold DcMerge.hi; lia). assert (O0 : (0 <= o)%Z) by (unfold o; nia).
  destruct (sub_ok o m O0 ltac:(lia) ltac:(lia)) as (ds & Lds & ESUB & BS & AS).
  unfold merge_dist. fold o m n1 n2 o2. rewrite ESUB.
  set (z0 := assemble_z n nb b sp e rho (s_e0 s) (s_z0 s)). set (z := view o z0). set (tol := calc_tolerance eps m (view o (s_d0 s)) z).
  assert (HZ : forall l, (0 <= l < m)%Z -> z l = zvec n1 rho Q l).
  { intros l Ll. unfold z, view, z0, assemble_z. rewrite (tiled_at n nb LNB LN (fun i j => (i * nb + j)%Z) 0 (fun i p => (if Z.ltb i sp && (if Rlt_dec rho 0 then true else false) then -1 else 1) *
        s_e0 s ((sp - (if Z.ltb i sp then 1 else 0)) * nb + (if Z.ltb i sp then dc_rows n nb (sp - (if Z.ltb i sp then 1 else 0)) - 1 else 0))%Z p / sqrt 2) b e) by (intros; lia).
    fold o. replace (l + o + 0 * nb)%Z with (l + o)%Z by lia. replace (Z.leb o (l + o) && Z.ltb (l + o) (hi e))%bool with true by lia.
    unfold zvec, zsign. assert (DV : Z.ltb ((l + o) / nb) sp = Z.ltb l n1).
    { destruct (Z.ltb_spec l n1), (Z.ltb_spec ((l + o) / nb) sp) as [X|X]; try reflexivity; exfalso.
      - assert ((l + o) / nb < sp)%Z by (apply Z.div_lt_upper_bound; lia). lia.
      - assert (sp <= (l + o) / nb)%Z by (apply Z.div_le_lower_bound; lia). lia. }
    rewrite DV. destruct (Z.ltb_spec l n1); cbn [andb].
    - rewrite (rows_full n nb LNB LN) by lia. unfold Q, view2. replace ((sp - 1) * nb + (nb - 1))%Z with (n1 - 1 + o)%Z by lia. destruct (Rlt_dec rho 0); reflexivity.
    - unfold Q, view2. replace ((sp - 0) * nb + 0)%Z with (n1 + o)%Z by lia. rewrite Rmult_1_l. reflexivity. }
  assert (ZN : dot m z z = 1).
  { rewrite (dot_ext m z z (zvec n1 rho Q) (zvec n1 rho Q)) by exact HZ. rewrite MM in *. apply zvec_norm; assumption || lia. }
  assert (TB : tol <= 8 * eps * Rmax (vec_max m d) 1).
  { unfold tol, calc_tolerance. fold d. apply Rmult_le_compat_l; [lra|]. apply Rle_max_compat_l. apply vec_max_le; [lra|]. intros i Li. apply dot_one with (m := m); assumption. }
  assert (TOL : 0 <= tol). { unfold tol, calc_tolerance. apply Rmult_le_pos; [lra|]. eapply Rle_trans; [apply vec_max_nonneg|apply Rmax_l]. }
  set (c := at_ o (init_coltypes nb (dc_rows n nb) b sp e) (s_c s)).
  assert (HC : forall l, (0 <= l < m)%Z -> view o c l = if Z.ltb l n1 then UpperHalf else LowerHalf).
  { intros l Ll. unfold view, c, at_, init_coltypes. replace (l + o - o)%Z with l by lia.
    rewrite (tiled_at n nb LNB LN (fun i j => ((i - b) * nb + j)%Z) b (fun i p => if Z.ltb i sp then UpperHalf else LowerHalf) b e) by (intros; lia).
    fold o. replace (Z.leb o (l + o) && Z.ltb (l + o) (hi e))%bool with true by lia.
    destruct (Z.ltb_spec l n1), (Z.ltb_spec ((l + o) / nb) sp) as [X|X]; try reflexivity; exfalso.
    - assert ((l + o) / nb < sp)%Z by (apply Z.div_lt_upper_bound; lia). lia.
    - assert (sp <= (l + o) / nb)%Z by (apply Z.div_le_lower_bound; lia). lia. }
  set (i1a := if Z.eqb sp (b + 1) then _ else s_i1 s). set (i1b := if Z.eqb (sp + 1) e then _ else i1a). set (i1c := at_ o2 (add_index n2 n1) i1b).
  assert (RF : forall i, (0 <= i)%Z -> (i + 1 < nt)%Z -> dc_rows n nb i = nb) by (intros; apply (rows_full n nb LNB LN); assumption).
  assert (RP : forall i, (0 <= i < nt)%Z -> (1 <= dc_rows n nb i <= nb)%Z) by (intros i Li; apply (rows_hi n nb LNB LN i Li)).
  assert (I1a : forall i, i1a i = if (Z.leb o i && Z.ltb i o2)%bool then sub_idx s b sp (i - o) else s_i1 s i).
  { intros i. unfold i1a, sub_idx. destruct (Z.eqb_spec sp (b + 1)) as [E|E].
    - unfold at_. rewrite C34_initial_index; [|lia|lia|intros; lia|specialize (RP (sp - 1)%Z ltac:(lia)); lia]. fold (size b sp). fold n1. unfold view.
      destruct (Z.leb_spec 0 (i - o)), (Z.ltb_spec (i - o) n1), (Z.leb_spec o i), (Z.ltb_spec i o2); cbn [andb]; try lia; try reflexivity; f_equal; lia.
    - unfold view. destruct (Z.leb_spec o i), (Z.ltb_spec i o2); cbn [andb]; try reflexivity. f_equal. unfold o. lia. }
  assert (I1b : forall i, i1b i = if (Z.leb o i && Z.ltb i o2)%bool then sub_idx s b sp (i - o) else if (Z.leb o2 i && Z.ltb i (hi e))%bool then sub_idx s sp e (i - o2) else s_i1 s i).
  { intros i. unfold i1b, sub_idx at 2. rewrite (Z.eqb_sym e (sp + 1)). destruct (Z.eqb_spec (sp + 1) e) as [E|E].
    - unfold at_. rewrite C34_initial_index; [|lia|lia|intros; lia|specialize (RP (e - 1)%Z ltac:(lia)); lia]. fold (size sp e). fold n2. unfold view. rewrite I1a. replace (i - o2 + o2)%Z with i by lia.
      destruct (Z.leb_spec 0 (i - o2)), (Z.ltb_spec (i - o2) n2), (Z.leb_spec o i), (Z.ltb_spec i o2), (Z.leb_spec o2 i), (Z.ltb_spec i (hi e)); cbn [andb]; try lia; reflexivity.
    - rewrite I1a. unfold view. destruct (Z.leb_spec o i), (Z.ltb_spec i o2), (Z.leb_spec o2 i), (Z.ltb_spec i (hi e)); cbn [andb]; try reflexivity; f_equal; unfold o2; lia. }
  assert (I1c : forall l, (0 <= l < m)%Z -> view o i1c l = if Z.ltb l n1 then sub_idx s b sp l else (sub_idx s sp e (l - n1) + n1)%Z).
  { intros l Ll. unfold view, i1c, at_. rewrite C34_add_index. unfold view. rewrite !I1b. replace (l + o - o2 + o2)%Z with (l + o)%Z by lia. replace (l + o - o)%Z with l by lia. replace (l + o - o2)%Z with (l - n1)%Z by lia.
    destruct (Z.leb_spec 0 (l - n1)), (Z.ltb_spec (l - n1) n2), (Z.leb_spec o (l + o)), (Z.ltb_spec (l + o) o2), (Z.leb_spec o2 (l + o)), (Z.ltb_spec (l + o) (hi e)), (Z.ltb_spec l n1); cbn [andb]; try lia; reflexivity. }
  assert (I1o : forall i, ~ (o <= i < hi e)%Z -> i1c i = s_i1 s i).
  { intros i Li. unfold i1c, at_. rewrite C34_add_index. unfold view. rewrite !I1b. replace (i - o2 + o2)%Z with i by lia.
    destruct (Z.leb_spec 0 (i - o2)), (Z.ltb_spec (i - o2) n2), (Z.leb_spec o i), (Z.ltb_spec i o2), (Z.leb_spec o2 i), (Z.ltb_spec i (hi e)); cbn [andb]; try lia; reflexivity. }
  assert (PI1 : is_perm m (view o i1c)).
  { apply is_perm_intro.
    - intros i Li. rewrite I1c by lia. destruct (Z.ltb_spec i n1); [pose proof (is_perm_in n1 _ i P1 ltac:(lia)); lia|pose proof (is_perm_in n2 _ (i - n1)%Z P2 ltac:(lia)); lia].
    - intros i j Li Lj. rewrite !I1c by lia. destruct (Z.ltb_spec i n1), (Z.ltb_spec j n1); intros E.
      + apply (is_perm_inj n1 (sub_idx s b sp)); assumption || lia.
      + pose proof (is_perm_in n1 _ i P1 ltac:(lia)). pose proof (is_perm_in n2 _ (j - n1)%Z P2 ltac:(lia)). lia.
      + pose proof (is_perm_in n1 _ j P1 ltac:(lia)). pose proof (is_perm_in n2 _ (i - n1)%Z P2 ltac:(lia)). lia.
      + assert (i - n1 = j - n1)%Z; [|lia]. apply (is_perm_inj n2 (sub_idx s sp e)); assumption || lia. }
  destruct (C34_sort_index R Rltb Rltb_weak m n1 d (view o i1c) (view o (s_i2 s))) as (i2 & EI2 & _ & PI2 & AI2 & I2o).
  { lia. }
  { eapply ascending_ext; [|exact A1]. intros p Lp. cbv beta. rewrite I1c by lia. destruct (Z.ltb_spec p n1); [reflexivity|lia]. }
  { intros p q Lp Lq. rewrite !I1c by lia. destruct (Z.ltb_spec p n1), (Z.ltb_spec q n1); try lia. pose proof (A2 (p - n1)%Z (q - n1)%Z ltac:(lia) ltac:(lia)) as AA. unfold view in AA. unfold d, view.
    replace (sub_idx s sp e (q - n1) + n1 + o)%Z with (sub_idx s sp e (q - n1) + o2)%Z by lia. replace (sub_idx s sp e (p - n1) + n1 + o)%Z with (sub_idx s sp e (p - n1) + o2)%Z by lia. exact AA. }
  specialize (PI2 PI1). fold d. rewrite EI2. fold d in tol.

  destruct (dist_core m n1 (scale_rho rho) tol i2 d z (view o c) Q) as (ii & d' & z' & c' & rots & ED & DO & TYV & REST); try assumption; try lia.
  { unfold scale_rho. pose proof (Rabs_pos rho). lra. }
  { intros j Lj. rewrite HC by lia. destruct (Z.ltb_spec j n1); [reflexivity|lia]. }
  { intros j Lj. rewrite HC by lia. destruct (Z.ltb_spec j n1); [lia|reflexivity]. }
  change (view o z0) with z. rewrite ED.
  set (RR := dist_partition Rltb (get Col ds) c' d' i2 (view o (s_i3 s)) (view o (s_i5 s)) (fun _ => 0%Z) (view o (s_i4 s)) (fun _ => 0%Z)).
  assert (PP : is_perm (ax_size (get Col ds)) i2) by (rewrite AS; exact PI2).
  pose proof (dist_partition_ok R Rltb Rltb_weak rank Lds ds BS c' d' i2 (view o (s_i3 s)) (view o (s_i5 s)) (fun _ => 0%Z) (view o (s_i4 s)) (fun _ => 0%Z) PP) as OK. fold RR in OK.
  assert (I6K := i6_kept Lds ds R Rltb c' d' i2 RR OK). assert (I4K := i4_kept Lds ds R Rltb c' d' i2 RR OK). assert (P4 := i4_perm Lds ds R Rltb c' d' i2 RR OK).
  assert (KEPTC := kept_cols rank Lds ds BS R Rltb c' d' i2 RR OK). assert (DEFLC := defl_cols rank Lds ds BS R Rltb c' d' i2 RR OK). assert (COP := copied rank Lds ds BS R Rltb c' d' i2 RR OK).
  assert (GG := grid_eq rank Lds ds BS). assert (OWNC := geo_own rank Lds ds BS).
  assert (ROWN : forall i, (0 <= i < m)%Z -> (0 <= ax_rank_global_element (get Row ds) i < ax_grid (get Row ds))%Z).
  { intros i Li. pose proof (T_reported _ _ _ (built_models _ _ _ BS Row)) as T. destruct T as (T1 & _ & _ & T4 & _). rewrite AS in T1. destruct (proj1 (C01_owner_and_local_slot rank Lds ds Row BS) i ltac:(lia)) as (EO & RO & _). rewrite EO, T4. exact RO. }
  destruct OK as [PK P3 T3 D3 A3 P5 _ _ _ _ UDL H4 P6 _ H6D [PI6 INV6]]. rewrite !AS in *.
  set (k := dp_ret_k RR) in *. set (i3 := dp_is RR) in *. set (i5 := dp_isc RR) in *. set (i4 := dp_i4 RR) in *. set (i6 := dp_i6o RR) in *. set (i2' := dp_perm RR) in *. set (klc := dp_k_lc (get Col ds) c' i3) in *.
  destruct (dp_ret_udl RR) as [[ua ub] uc] eqn:EU. destruct UDL as (UA & UB & UUp & ULo & UDe).
  destruct (REST k i3 ltac:(lia) P3 T3 D3) as [K1 REST2].
  set (e0r := put_block o o m m (apply_rotations rots (view2 o (s_e0 s))) (s_e0 s)).
  set (e1 := put_block o o m m (fun i j => e0r (o + i)%Z (o + i5 j)%Z) (s_e1 s)).
  set (d1 := apply_index m i3 d' (view o (s_d1 s))). set (z1 := apply_index m i3 z' (view o (s_z1 s))).
  assert (HD1 : forall l, (0 <= l < m)%Z -> d1 l = d' (i3 l)) by (intros l Ll; unfold d1; rewrite C34_apply_index; replace (Z.leb 0 l && Z.ltb l m)%bool with true by lia; reflexivity).
  assert (HZ1 : forall l, (0 <= l < m)%Z -> z1 l = z' (i3 l)) by (intros l Ll; unfold z1; rewrite C34_apply_index; replace (Z.leb 0 l && Z.ltb l m)%bool with true by lia; reflexivity).
  destruct (REST2 d1 z1 HD1 HZ1) as (DASC & RPOS & ZNZ & Z1N & FIN).
  destruct (solve_rank1_dist_ok laed4 LA (get Row ds) (get Col ds) (nth (b, sp, e)) k klc (scale_rho rho) d1 z1 d' i4 i6 i2' (ord (d1_pairs (get Col ds) (fun _ => 0%Z) klc)))
    as (ev & q' & ES1 & EVI & EVO & LASC & U & UO & QU' & UF); unfold d1_n; rewrite ?AS; try assumption; try lia.
  { intros p c0. apply NTH. }
  { intros st. apply ORD. }
  { intros j Lj. destruct (INV6 j Lj) as [_ X]. split; [apply is_perm_in; assumption|exact X]. }
  { intros j Lj. destruct GG as [G1 _]. rewrite G1. apply OWNC. exact Lj. }
  unfold d1_n in EVI, EVO, QU'. rewrite AS in EVI, EVO, QU'. rewrite ES1.
  set (e2 := put_block o o m m q' (s_e2 s)). set (ef := multiply_eigenvectors_dist (get Col ds) o n1 n2 klc (ua, ub, uc) e0r e1 e2).
  assert (EVK : forall p, (0 <= p < m)%Z -> ev (i2' p) = if Z.ltb p k then r1_lam laed4 k (scale_rho rho) d1 z1 p else d1 p).
  { intros p Lp. pose proof (is_perm_in m i2' p PI6 Lp) as L. rewrite EVI by exact L. rewrite (proj2 (INV6 p Lp)). reflexivity. }
  destruct (C34_sort_index R Rltb Rltb_weak m k ev i2' (view o i1c)) as (r & ER & _ & PR & AR & Ro).
  { lia. }
  { intros p q Lp Lq. rewrite !EVK by lia. replace (Z.ltb p k) with true by lia. replace (Z.ltb q k) with true by lia. apply Rltb_false. apply LASC; lia. }
  { intros p q Lp Lq. rewrite !EVK by lia. replace (Z.ltb p k) with false by lia. replace (Z.ltb q k) with false by lia. rewrite !HD1 by lia. apply A3; lia. }
  specialize (PR PI6). rewrite ER. eexists. split; [reflexivity|]. cbn [s_e0 s_d0 s_i1 s_i2].
  assert (VI1 : forall l, view o (fun i => r (i - o)%Z) l = r l) by (intros l; unfold view; f_equal; lia).
  assert (VD : forall l, view o (fun i => ev (i - o)%Z) l = ev l) by (intros l; unfold view; f_equal; lia).
  assert (E1 : forall i l, (0 <= i < m)%Z -> (0 <= l < m)%Z -> e1 (o + i)%Z (o + l)%Z = apply_rotations rots Q i (i5 l)).
  { intros i l Li Ll. pose proof (is_perm_in m i5 l P5 Ll). unfold e1. rewrite put_block_in by lia. replace (o + i - o)%Z with i by lia. replace (o + l - o)%Z with l by lia. unfold e0r. rewrite put_block_in by lia. fold Q. f_equal; lia. }
  assert (E2 : forall l j, (0 <= l < m)%Z -> (0 <= j < m)%Z -> e2 (o + l)%Z (o + j)%Z = q' l j).
  { intros l j Ll Lj. unfold e2. rewrite put_block_in by lia. f_equal; lia. }
  assert (EFD : forall i j, (0 <= i < m)%Z -> (0 <= j < m)%Z -> (k <= i6 j)%Z -> view2 o ef i j = apply_rotations rots Q i (i3 (i6 j))).
  { intros i j Li Lj L6. unfold view2, ef, multiply_eigenvectors_dist. rewrite !AS. rewrite put_block_in by lia. replace (i + o - o)%Z with i by lia. replace (j + o - o)%Z with j by lia.
    assert (DJ : c' (i5 j) = Deflated). { destruct (c' (i5 j)) eqn:X; try reflexivity; exfalso; assert (i6 j < k)%Z by (apply (I6K j Lj); rewrite X; discriminate); lia. }
    rewrite COP by exact Lj. replace (Z.leb k (i6 j)) with true by lia. rewrite E1 by assumption. destruct (H6D j Lj DJ) as [-> _]. rewrite (proj2 (H4 j Lj)). reflexivity. }
  assert (EFK : forall i j, (0 <= i < m)%Z -> (0 <= j < m)%Z -> (i6 j < k)%Z -> view2 o ef i j = rsum 0 k (fun l => apply_rotations rots Q i (i3 l) * U l (i6 j))).
  { intros i j Li Lj L6. assert (KJ : c' (i5 j) <> Deflated) by (apply (I6K j Lj); exact L6).
    assert (LC : (j < uc)%Z) by (destruct (Z.lt_ge_cases j uc); [assumption|]; exfalso; apply KJ, UDe; lia).
    set (g := fun l => apply_rotations rots Q i (i5 l) * q' l j).
    assert (S : rsum 0 k (fun l => apply_rotations rots Q i (i3 l) * U l (i6 j)) = rsum 0 m g).
    { rewrite (rsum_ext 0 m g (fun l => (fun x => if Z.ltb x k then apply_rotations rots Q i (i3 x) * U x (i6 j) else 0) (i4 l))).
      - rewrite (rsum_perm m i4 (fun x => if Z.ltb x k then apply_rotations rots Q i (i3 x) * U x (i6 j) else 0) P4). rewrite (rsum_app 0 k m) by lia. rewrite (rsum_0 k m) by (intros l Ll; destruct (Z.ltb_spec l k); [lia|reflexivity]).
        rewrite Rplus_0_r. apply rsum_ext. intros l Ll. destruct (Z.ltb_spec l k); [reflexivity|lia].
      - intros l Ll. unfold g. rewrite QU' by assumption. destruct (Z.ltb (i4 l) k); [|ring]. rewrite (proj2 (H4 l Ll)). reflexivity. }
    assert (GD : forall l, (0 <= l < m)%Z -> c' (i5 l) = Deflated -> g l = 0).
    { intros l Ll D. unfold g. rewrite QU' by assumption. destruct (Z.ltb_spec (i4 l) k) as [X|X]; [|ring]. exfalso. apply (I4K l Ll) in X. contradiction. }
    rewrite S. unfold view2, ef, multiply_eigenvectors_dist. rewrite !AS. rewrite put_block_in by lia. replace (i + o - o)%Z with i by lia. replace (j + o - o)%Z with j by lia.
    rewrite COP by exact Lj. replace (Z.leb k (i6 j)) with false by lia. destruct (Z.lt_ge_cases i n1) as [L1|L1].
    - rewrite put_block_out by lia. rewrite put_block_in by lia. replace (o + i - o)%Z with i by lia. replace (o + j - o)%Z with j by lia.
      rewrite (rsum_app 0 ub m) by lia. rewrite (rsum_0 ub m g).
      + rewrite Rplus_0_r. apply rsum_ext. intros l Ll. unfold g. rewrite E1, E2 by lia. reflexivity.
      + intros l Ll. destruct (Z.lt_ge_cases l uc) as [Lc|Lc]; [|apply GD; [lia|apply UDe; lia]]. destruct (ULo l ltac:(lia)) as [X|X]; [|apply GD; [lia|exact X]].
        unfold g. pose proof (is_perm_in m i5 l P5 ltac:(lia)). rewrite (proj2 (TYV i (i5 l) Li ltac:(lia)) X L1). ring.
    - rewrite put_block_in by lia. replace (o + i - (o + n1))%Z with (i - n1)%Z by lia. replace (o + j - o)%Z with j by lia.
      rewrite (rsum_app 0 uc m) by lia. rewrite (rsum_0 uc m g) by (intros l Ll; apply GD; [lia|apply UDe; lia]). rewrite Rplus_0_r. rewrite (rsum_app 0 ua uc) by lia. rewrite (rsum_0 0 ua g).
      + rewrite Rplus_0_l. replace (rsum ua uc g) with (rsum (0 + ua) (uc - ua + ua) g) by (f_equal; lia). rewrite rsum_shift. apply rsum_ext. intros l Ll. unfold g. rewrite <- E1, <- E2 by lia. f_equal; f_equal; lia.
      + intros l Ll. unfold g. pose proof (is_perm_in m i5 l P5 ltac:(lia)). rewrite (proj1 (TYV i (i5 l) Li ltac:(lia)) (UUp l ltac:(lia)) L1). ring. }
  destruct (FIN (r1_lam laed4 k (scale_rho rho) d1 z1) U (fun i j => view2 o ef i (i2' j)) UO UF) as [OE' FE'].
  { intros i j Li Lj. pose proof (is_perm_in m i2' j PI6 Lj) as L2. destruct (INV6 j Lj) as [_ IJ]. destruct (Z.ltb_spec j k) as [X|X].
    - rewrite EFK by (assumption || (rewrite IJ; lia)). rewrite IJ. reflexivity.
    - rewrite EFD by (assumption || (rewrite IJ; lia)). rewrite IJ. reflexivity. }
  assert (OE : orthonormal m (view2 o ef)).
  { eapply orthonormal_ext; [|exact (orthonormal_perm m i6 _ P6 OE')]. intros i j Li Lj. cbv beta. rewrite (proj1 (INV6 j Lj)). reflexivity. }
  split; [|split; [|split; [|split; [|split]]]].
  - intros i j Lij. unfold ef, multiply_eigenvectors_dist. rewrite !AS. rewrite !put_block_out by lia. unfold e0r. apply put_block_out. lia.
  - intros i Li. split.
    + rewrite EVO by lia. rewrite DO by lia. unfold d, view. f_equal. lia.
    + rewrite Ro by lia. unfold view. rewrite I1o by lia. f_equal. lia.
  - apply (is_perm_ext m r); [intros i Li; symmetry; apply VI1|exact PR].
  - eapply ascending_ext; [|exact AR]. intros p Lp. cbv beta. rewrite VI1, VD. reflexivity.
  - exact OE.
  - intros x. pose proof (FE' x) as FE. replace (dform m _ (coord m (fun i j => view2 o ef i (i2' j)) x)) with (dform m (view o (fun i => ev (i - o)%Z)) (coord m (view2 o ef) x)) in FE.
    2: { unfold dform. rewrite <- (rsum_perm m i2' _ PI6). apply rsum_ext. intros j Lj. rewrite VD, EVK by exact Lj. reflexivity. }
    assert (DS : dform m d (coord m Q x) = dform n1 d (coord n1 Q x) + dform n2 (view o2 (s_d0 s)) (coord n2 (view2 o2 (s_e0 s)) (view n1 x))).
    { rewrite MM in *. rewrite blockdiag_dform; [|lia|lia|exact QU|exact QL]. f_equal. apply dform_ext.
      - intros j Lj. unfold d, view. f_equal. lia.
      - intros j Lj. apply coord_ext; [intros; apply V2|reflexivity]. }
    rewrite <- DS. assert (ZR : scale_rho rho * (dot m z (coord m Q x) * dot m z (coord m Q x)) = Rabs rho * ((zsign rho * x (n1 - 1)%Z + x n1) * (zsign rho * x (n1 - 1)%Z + x n1))).
    { unfold scale_rho. rewrite (dot_ext m z (coord m Q x) (zvec n1 rho Q) (coord m Q x)) by (exact HZ || reflexivity). clearbody z tol. clear - MM LM1 LM2 QU QL OQ. rewrite MM in *. apply zvec_rank1; assumption || lia. }
    rewrite <- ZR. eapply Rle_trans; [exact FE|]. assert (IM : 0 <= IZR m) by (apply IZR_le; lia). assert (XX := dot_pos m x).
    apply Rmult_le_compat_r; [exact XX|]. apply Rmult_le_compat_l; [lra|]. exact TB.
Qed.
End merge.
