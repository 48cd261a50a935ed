(** * The distributed divide and conquer solver: the leaves, and the distributed merges one after the other. *)
From Coq Require Import ZArith Lia List Bool Reals Lra Psatz Permutation.
From Verif Require Import CInt Loop DistModel DistSpec DistBuilt TridiagModel TridiagProofs TridiagDeflation Properties_Tridiag DcSums DcSecular DcModel DcRank1 DcDeflate DcCore DcMerge DcSolver DcDistModel DcDistMerge.
Import ListNotations.
Local Open Scope R_scope.

Section solver.
Variables (n nb : Z) (eps : R).
Variable laed4 : Z -> Z -> (Z -> R) -> (Z -> R) -> R -> (Z -> R) * R.
Variable stedc : Z -> (Z -> R) -> (Z -> R) -> (Z -> R) * (Z -> Z -> R).
Variables (rank : pair_Z) (Ls : DistModel.coord -> layout) (dist : distribution) (nth : Z * Z * Z -> Z -> Z -> Z).
Hypothesis LNB : (1 <= nb)%Z.
Hypothesis LN : (1 <= n)%Z.
Hypothesis EPS : 0 <= eps.
Hypothesis LA : laed4_ok laed4.
Hypothesis BD : built rank Ls dist.
Hypothesis SZD : forall rc, l_size (Ls rc) = n.
Hypothesis FIT : forall rc, (l_grid (Ls rc) <= i32_max /\ ax_offset (get rc dist) + n <= i64_max /\ ax_src (get rc dist) + (ax_offset (get rc dist) + n) / ax_block (get rc dist) <= i32_max)%Z.
Hypothesis NTH : forall t p c, (1 <= nth t p c)%Z.
Hypothesis ST : stedc_form nb stedc.
Variables (D e : Z -> R) (B : R).
Hypothesis HB : forall i, (0 <= i < n)%Z -> row_sum n D e i <= B.
Notation nt := (dc_nt n nb).
Notation size := (dc_size n nb).
Notation hi := (hi n nb).
Notation rows := (dc_rows n nb).
Notation M := (Rmax 1 B).
Notation dlt := (DcSolver.dlt n eps B).
Notation qf := (DcSolver.qf n nb D e).

(** what holds of the solved subproblem of tiles [b, t) *)
Record blk (s : dcs) (b t : Z) : Prop := {
  k_perm : is_perm (size b t) (sub_idx nb s b t);
  k_asc : ascending Rltb (view (b * nb) (s_d0 s)) (sub_idx nb s b t) 0 (size b t);
  k_orth : orthonormal (size b t) (view2 (b * nb) (s_e0 s));
  k_form : forall x, Rabs (dform (size b t) (view (b * nb) (s_d0 s)) (coord (size b t) (view2 (b * nb) (s_e0 s)) x) - qf b t x) <= dlt (t - b - 1) * dot (size b t) x x }.

Lemma blk_values : forall s b t i, (0 <= b < t)%Z -> (t <= nt)%Z -> blk s b t -> (0 <= i < size b t)%Z -> Rabs (view (b * nb) (s_d0 s) i) <= B + dlt (t - b - 1).
Proof using LNB LN HB.
  intros s b t i L1 L2 K Li. set (m := size b t) in *. set (Q := view2 (b * nb) (s_e0 s)). set (x := fun l => Q l i).
  pose proof (k_form s b t K x) as F. pose proof (k_orth s b t K) as O. fold m in F, O. fold Q in F, O.
  assert (CX : forall c, (0 <= c < m)%Z -> coord m Q x c = kron c i) by (intros c Lc; unfold coord, x; apply O; lia).
  assert (XX : dot m x x = 1) by (unfold dot, x; rewrite O by lia; apply kron_eq).
  assert (DF : dform m (view (b * nb) (s_d0 s)) (coord m Q x) = view (b * nb) (s_d0 s) i).
  { unfold dform. rewrite (rsum_one 0 m _ i) by (lia || (intros c Lc N; rewrite CX, kron_neq by lia; ring)). rewrite CX, kron_eq by lia. ring. }
  rewrite DF, XX in F. pose proof (qf_bound n nb LNB LN D e B HB b t x L1 L2) as QB. fold m in QB. rewrite XX in QB. set (v := view (b * nb) (s_d0 s) i) in *. replace v with ((v - qf b t x) + qf b t x) by ring. eapply Rle_trans; [apply Rabs_triang|]. lra.
Qed.

Lemma merge_blk : forall (ord : list (Z * Z) -> Z -> list (Z * Z)) b sp t (s : dcs), (0 <= b < sp)%Z -> (sp < t <= nt)%Z -> (forall l r, Permutation (ord l r) l) ->
  blk s b sp -> blk s sp t -> (forall i j, (b * nb <= i < sp * nb)%Z -> (sp * nb <= j < hi t)%Z -> s_e0 s i j = 0 /\ s_e0 s j i = 0) ->
  exists s', merge_dist n nb eps laed4 dist nth ord b sp t (e (sp * nb - 1)%Z) s = Some s' /\ blk s' b t /\
    (forall i j, ~ ((b * nb <= i < hi t)%Z /\ (b * nb <= j < hi t)%Z) -> s_e0 s' i j = s_e0 s i j) /\
    (forall i, ~ (b * nb <= i < hi t)%Z -> s_d0 s' i = s_d0 s i /\ s_i1 s' i = s_i1 s i).
Proof using LNB LN EPS LA BD SZD FIT NTH HB.
  intros ord b sp t s L1 L2 ORD K1 K2 ZE. destruct (geo3 n nb LNB LN b sp t L1 L2) as (G1 & G2 & G3 & G4).
  destruct (merge_dist_ok n nb eps laed4 rank Ls dist nth LNB LN EPS LA BD SZD FIT NTH ord b sp t (e (sp * nb - 1)%Z) s L1 L2 ORD (k_perm _ _ _ K1) (k_perm _ _ _ K2) (k_asc _ _ _ K1) (k_asc _ _ _ K2) (k_orth _ _ _ K1) (k_orth _ _ _ K2) ZE)
    as (s' & ES & FE & FV & PM & AS & OR & FM).
  exists s'. split; [exact ES|]. split; [|split; [exact FE|exact FV]].
  assert (SI : sub_idx nb s' b t = view (b * nb) (s_i1 s')) by (unfold sub_idx; destruct (Z.eqb_spec t (b + 1)); [lia|reflexivity]).
  constructor; try rewrite SI; try assumption. intros x. specialize (FM x).
  rewrite (qf_merge n nb LNB LN D e b sp t x L1 L2). set (m := size b t) in *. set (n1 := size b sp) in *. set (n2 := size sp t) in *.
  pose proof (k_form _ _ _ K1 x) as F1. pose proof (k_form _ _ _ K2 (view n1 x)) as F2. fold n1 in F1. fold n2 in F2.
  set (k := (t - b - 2)%Z). assert (D1 := dlt_le n eps LN EPS B (sp - b - 1) k ltac:(lia)). assert (D2 := dlt_le n eps LN EPS B (t - sp - 1) k ltac:(lia)). assert (DK := dlt_succ n eps B k ltac:(lia)). replace (k + 1)%Z with (t - b - 1)%Z in DK by lia.
  assert (XS : dot m x x = dot n1 x x + dot n2 (view n1 x) (view n1 x)) by (unfold dot; rewrite G1; apply rsum_split2; lia).
  assert (P1 := dot_pos n1 x). assert (P2 := dot_pos n2 (view n1 x)).
  assert (VM : Rmax (vec_max m (view (b * nb) (s_d0 s))) 1 <= M + dlt k).
  { pose proof (M_ge B) as MG. assert (B <= M) by apply Rmax_r. apply Rmax_lub; [|lra]. apply vec_max_le; [lra|]. intros i Li. destruct (Z.lt_ge_cases i n1) as [Li1|Li1].
    - pose proof (blk_values s b sp i ltac:(lia) ltac:(lia) K1 ltac:(lia)). lra.
    - pose proof (blk_values s sp t (i - n1)%Z ltac:(lia) ltac:(lia) K2 ltac:(lia)) as V. unfold view in V. replace (i - n1 + sp * nb)%Z with (i + b * nb)%Z in V by lia. unfold view. lra. }
  set (W := dform m _ _) in *. set (U1 := dform n1 _ _) in *. set (U2 := dform n2 _ _) in *. set (q1 := qf b sp x) in *. set (q2 := qf sp t (view n1 x)) in *. set (rr := Rabs _ * _) in *.
  replace (W - (q1 + q2 + rr)) with ((W - (U1 + U2 + rr)) + ((U1 - q1) + (U2 - q2))) by ring.
  eapply Rle_trans; [apply Rabs_triang|]. eapply Rle_trans; [apply Rplus_le_compat_l, Rabs_triang|].
  assert (F1' : Rabs (U1 - q1) <= dlt k * dot n1 x x) by (eapply Rle_trans; [exact F1|apply Rmult_le_compat_r; lra]).
  assert (F2' : Rabs (U2 - q2) <= dlt k * dot n2 (view n1 x) (view n1 x)) by (eapply Rle_trans; [exact F2|apply Rmult_le_compat_r; lra]).
  assert (FM' : Rabs (W - (U1 + U2 + rr)) <= 24 * IZR n * eps * (M + dlt k) * dot m x x).
  { eapply Rle_trans; [exact FM|]. apply Rmult_le_compat_r; [lra|].
    assert (0 <= IZR m <= IZR n) by (split; apply IZR_le; [lia|]; unfold m; rewrite (size_hi n nb LNB LN) by lia; pose proof (hi_start n nb LNB LN b ltac:(lia)); unfold DcMerge.hi in *; nia).
    set (V := Rmax _ 1) in *. assert (0 <= V) by (eapply Rle_trans; [|apply Rmax_r]; lra). replace (3 * IZR m * (8 * eps * V)) with (24 * (IZR m * (eps * V))) by ring. replace (24 * IZR n * eps * (M + dlt k)) with (24 * (IZR n * (eps * (M + dlt k)))) by ring.
    apply Rmult_le_compat_l; [lra|]. apply Rmult_le_compat; [lra|apply Rmult_le_pos; assumption|lra|]. apply Rmult_le_compat_l; assumption. }
  rewrite <- DK. replace ((24 * IZR n * eps * (M + dlt k) + dlt k) * dot m x x) with (24 * IZR n * eps * (M + dlt k) * dot m x x + (dlt k * dot n1 x x + dlt k * dot n2 (view n1 x) (view n1 x))) by (rewrite XS; ring). lra.
Qed.

Definition dinv (R : list (Z * Z)) (s : dcs) : Prop :=
  (forall b t, In (b, t) R -> blk s b t) /\
  (forall i j, (0 <= i < n)%Z -> (0 <= j < n)%Z -> (forall b t, In (b, t) R -> ~ ((b * nb <= i < hi t)%Z /\ (b * nb <= j < hi t)%Z)) -> s_e0 s i j = 0).

Lemma blk_frame : forall s s' b t, (0 <= b < t)%Z -> (t <= nt)%Z -> (forall i j, (b * nb <= i < hi t)%Z -> (b * nb <= j < hi t)%Z -> s_e0 s' i j = s_e0 s i j) ->
  (forall i, (b * nb <= i < hi t)%Z -> s_d0 s' i = s_d0 s i /\ s_i1 s' i = s_i1 s i) -> blk s b t -> blk s' b t.
Proof using LNB LN.
  intros s s' b t L1 L2 FE FV [KP KA KO KF]. pose proof (size_hi n nb LNB LN b t ltac:(lia) ltac:(lia)) as SH. rewrite (hi_start n nb LNB LN b) in SH by lia. set (m := size b t) in *. set (o := (b * nb)%Z) in *.
  assert (VE : forall i j, (0 <= i < m)%Z -> (0 <= j < m)%Z -> view2 o (s_e0 s) i j = view2 o (s_e0 s') i j) by (intros; unfold view2; symmetry; apply FE; lia).
  assert (VD : forall i, (0 <= i < m)%Z -> view o (s_d0 s) i = view o (s_d0 s') i) by (intros; unfold view; symmetry; apply FV; lia).
  assert (VI : forall i, (0 <= i < m)%Z -> sub_idx nb s b t i = sub_idx nb s' b t i).
  { intros i Li. unfold sub_idx. destruct (Z.eqb t (b + 1)); [reflexivity|]. fold o. unfold view. symmetry. apply FV. lia. }
  constructor; fold m o.
  - apply (is_perm_ext m (sub_idx nb s b t)); assumption.
  - intros p q Lp Lq. rewrite <- !VI by lia. rewrite <- !VD by (apply is_perm_in; [exact KP|lia]). apply KA; assumption.
  - eapply orthonormal_ext; [exact VE|exact KO].
  - intros x. rewrite (dform_ext m _ _ (view o (s_d0 s)) (coord m (view2 o (s_e0 s)) x)); [apply KF|intros; symmetry; apply VD; assumption|]. intros j Lj. apply coord_ext; [intros; symmetry; apply VE; assumption|reflexivity].
Qed.

Lemma merges_inv : forall (ord : Z * Z * Z -> list (Z * Z) -> Z -> list (Z * Z)) (off : Z -> R), (forall tr l r, Permutation (ord tr l r) l) -> (forall s, (1 <= s < nt)%Z -> off (s - 1)%Z = e (s * nb - 1)%Z) ->
  forall R l R', merges R l R' -> chain 0 R nt -> forall s, dinv R s ->
  exists s', fold_left (fun r tr => match r with None => None | Some s => let '(b, m, t) := tr in merge_dist n nb eps laed4 dist nth (ord tr) b m t (off (m - 1)%Z) s end) l (Some s) = Some s' /\ dinv R' s'.
Proof using LNB LN EPS LA BD SZD FIT NTH HB.
  intros ord off ORD OFF R l R' MG. induction MG as [R|R1 R2 b sp t l R' LT MG IH]; intros CH s INV; [exists s; split; [reflexivity|exact INV]|].
  apply chain_app in CH as (mid & CH1 & CH2). cbn in CH2. destruct CH2 as (-> & Lbs & _ & Lst & CH2). pose proof (chain_le _ _ _ CH1) as LB. pose proof (chain_le _ _ _ CH2) as LTn.
  destruct INV as [KB KZ].
  assert (IN1 : forall b' t', In (b', t') R1 -> (0 <= b' < t')%Z /\ (t' <= mid)%Z) by (intros; eapply chain_in; eassumption).
  assert (IN2 : forall b' t', In (b', t') R2 -> (t <= b' < t')%Z /\ (t' <= nt)%Z) by (intros; eapply chain_in; eassumption).
  pose proof (hi_start n nb LNB LN mid ltac:(lia)) as HM. pose proof (hi_start n nb LNB LN sp ltac:(lia)) as HS. pose proof (hi_lt n nb LNB LN mid sp ltac:(lia) ltac:(lia)) as HL1. pose proof (hi_lt n nb LNB LN sp t ltac:(lia) ltac:(lia)) as HL2.
  assert (HN : (hi t <= n)%Z) by (unfold DcMerge.hi; lia).
  assert (SEP : forall b' t', In (b', t') R1 \/ In (b', t') R2 -> (hi t' <= mid * nb)%Z \/ (hi t <= b' * nb)%Z).
  { intros b' t' [I|I].
    - left. destruct (IN1 _ _ I). pose proof (hi_le n nb LNB LN t' mid ltac:(lia)). lia.
    - right. destruct (IN2 _ _ I). pose proof (hi_le n nb LNB LN t b' ltac:(lia)). rewrite (hi_start n nb LNB LN b') in H1 by lia. lia. }
  destruct (merge_blk (ord (mid, sp, t)) mid sp t s ltac:(lia) ltac:(lia) (ORD (mid, sp, t))) as (s' & ES & KN & FE & FV).
  { apply KB. apply in_or_app. right. left. reflexivity. }
  { apply KB. apply in_or_app. right. right. left. reflexivity. }
  { intros i j Li Lj. assert (Z0 : forall b' t', In (b', t') (R1 ++ (mid, sp) :: (sp, t) :: R2) -> ~ ((b' * nb <= i < hi t')%Z /\ (b' * nb <= j < hi t')%Z)).
    { intros b' t' I. apply in_app_or in I as [I|[I|[I|I]]].
      - destruct (SEP b' t' (or_introl I)); [lia|]. destruct (IN1 _ _ I). pose proof (hi_le n nb LNB LN t' mid ltac:(lia)). lia.
      - injection I as <- <-. lia.
      - injection I as <- <-. lia.
      - destruct (IN2 _ _ I). pose proof (hi_le n nb LNB LN t b' ltac:(lia)). rewrite (hi_start n nb LNB LN b') in H1 by lia. lia. }
    assert (0 <= mid * nb)%Z by nia.
    split; apply KZ; try lia; [exact Z0|]. intros b' t' I [A1 A2]. apply (Z0 b' t' I). auto. }
  destruct (IH) with (s := s') as (s2 & EF & INV2).
  { apply chain_app. exists mid. split; [exact CH1|]. cbn. repeat split; try lia. exact CH2. }
  { split.
    - intros b' t' I. apply in_app_or in I as [I|[I|I]].
      + destruct (IN1 _ _ I) as [A1 A2]. assert (SP := hi_le n nb LNB LN t' mid ltac:(lia)). apply (blk_frame s); try lia.
        * intros i j Li Lj. apply FE. lia.
        * intros i Li. apply FV. lia.
        * apply KB. apply in_or_app. left. exact I.
      + injection I as <- <-. exact KN.
      + destruct (IN2 _ _ I) as [A1 A2]. assert (SP := hi_le n nb LNB LN t b' ltac:(lia)). rewrite (hi_start n nb LNB LN b') in SP by lia. apply (blk_frame s); try lia.
        * intros i j Li Lj. apply FE. lia.
        * intros i Li. apply FV. lia.
        * apply KB. apply in_or_app. right. right. right. exact I.
    - intros i j Li Lj H. rewrite FE.
      + apply KZ; try assumption. intros b' t' I [A1 A2]. apply in_app_or in I as [I|[I|[I|I]]].
        * apply (H b' t'); [apply in_or_app; left; exact I|auto].
        * injection I as <- <-. apply (H mid t); [apply in_or_app; right; left; reflexivity|]. lia.
        * injection I as <- <-. apply (H mid t); [apply in_or_app; right; left; reflexivity|]. lia.
        * apply (H b' t'); [apply in_or_app; right; right; exact I|auto].
      + apply (H mid t). apply in_or_app. right. left. reflexivity. }
  exists s2. split; [|exact INV2]. cbn [fold_left]. rewrite (OFF sp) by lia. rewrite ES. exact EF.
Qed.

Theorem solver_dist_ok : forall (ord : Z * Z * Z -> list (Z * Z) -> Z -> list (Z * Z)) (s : dcs), (forall tr l r, Permutation (ord tr l r) l) ->
  exists lam E, tridiag_solver_dist n nb eps laed4 stedc dist nth ord D e s = Some (lam, E) /\
    (forall p q, (0 <= p <= q)%Z -> (q < n)%Z -> lam p <= lam q) /\ orthonormal n E /\
    (forall x, Rabs (dform n lam (coord n E x) - tform n D e x) <= dlt (nt - 1) * dot n x x).
Proof using LNB LN EPS LA BD SZD FIT NTH ST HB.
  intros ord s ORD. unfold tridiag_solver_dist. destruct (Z.eqb_spec n 0); [lia|]. pose proof (nt_bounds n nb LNB LN) as [NB NT1].
  destruct (Z.eqb_spec nt 1) as [N1|N1].
  - destruct (solve_leaf_ok n nb stedc LNB LN ST e D (s_e2 s)) as (d1 & ev & ES & FE & H). rewrite ES. specialize (H 0%Z ltac:(lia)). cbv zeta in H. change (0 * nb)%Z with 0%Z in H.
    assert (RN : rows 0 = n) by (unfold dc_rows; lia). rewrite RN in H. destruct H as (A & O & F).
    assert (VW : forall l, (0 <= l < n)%Z -> offload_diagonal n nb d1 (s_d1 s) l = d1 l) by (intros l Ll; rewrite (offload_at n nb LNB LN); replace (Z.leb 0 l && Z.ltb l n)%bool with true by lia; reflexivity).
    assert (V0 : forall (f : Z -> R) i, view 0 f i = f i) by (intros; unfold view; f_equal; lia).
    assert (V2 : forall (f : Z -> Z -> R) i j, view2 0 f i j = f i j) by (intros; unfold view2; f_equal; lia).
    eexists _, _. split; [reflexivity|]. split; [|split].
    + intros p q Lp Lq. rewrite !VW by lia. specialize (A p q Lp Lq). apply Rltb_false in A. rewrite !V0 in A. exact A.
    + eapply orthonormal_ext; [|exact O]. intros; apply V2.
    + intros x. rewrite (dform_ext n _ _ (view 0 d1) (coord n (view2 0 ev) x)).
      * rewrite F. rewrite (tform_ext n _ _ D e) by (intros; apply V0). rewrite Rminus_diag_eq by reflexivity. rewrite Rabs_R0. apply Rmult_le_pos; [apply (dlt_le n eps LN EPS B) with (k' := (nt - 1)%Z); lia|apply dot_pos].
      * intros j Lj. rewrite VW, V0 by lia. reflexivity.
      * intros j Lj. apply coord_ext; [intros; symmetry; apply V2|reflexivity].
  - destruct (cuppens_at n nb LNB LN D e) as (Dc & off & EC & OFF & _). rewrite EC. destruct (solve_leaf_ok n nb stedc LNB LN ST e Dc (fun _ _ => 0)) as (d1 & ev & ES & FE & H). rewrite ES.
    destruct (C35_schedule nt NT1) as (l & EG & MG & _). rewrite EG.
    set (s0 := DCS ev _ _ _ _ _ _ _ _ _ _ _ _).
    destruct (merges_inv ord off ORD OFF _ _ _ MG (chain_leaves nt ltac:(lia)) s0) as (s' & EF & INV).
    { split.
      - intros b t I. unfold leaves in I. apply in_map_iff in I as (i & E & Li). injection E as <- <-. apply in_zrange in Li. destruct (H i Li) as (A & O & F). pose proof (rows_hi n nb LNB LN i Li) as [R1 R2].
        assert (HIn : (hi (i + 1) <= n)%Z) by (unfold DcMerge.hi; lia). assert (0 <= i * nb)%Z by nia.
        assert (SZ : size i (i + 1) = rows i) by (unfold dc_size; replace (i + 1 - 1)%Z with i by lia; lia).
        assert (SI : sub_idx nb s0 i (i + 1) = fun i => i) by (unfold sub_idx; rewrite Z.eqb_refl; reflexivity).
        assert (VD : forall j, (0 <= j < rows i)%Z -> view (i * nb) (s_d0 s0) j = view (i * nb) d1 j).
        { intros j Lj. unfold view, s0. cbn [s_d0]. rewrite (offload_at n nb LNB LN). replace (Z.leb 0 (j + i * nb) && Z.ltb (j + i * nb) n)%bool with true by lia. reflexivity. }
        constructor; rewrite ?SI, ?SZ; try lia.
        + apply is_perm_id.
        + intros p q Lp Lq. rewrite !VD by lia. apply A; assumption.
        + exact O.
        + intros x. change (s_e0 s0) with ev. rewrite (dform_ext (rows i) _ _ (view (i * nb) d1) (coord (rows i) (view2 (i * nb) ev) x)) by (exact VD || reflexivity). rewrite F. rewrite (leaf_form n nb LNB LN D e Dc off i x EC Li).
          rewrite Rminus_diag_eq by reflexivity. rewrite Rabs_R0. apply Rmult_le_pos; [apply (dlt_le n eps LN EPS B) with (k' := (i + 1 - i - 1)%Z); lia|apply dot_pos].
      - intros i j Li Lj G. change (s_e0 s0 i j) with (ev i j). apply FE. intros t Lt. apply G. unfold leaves. apply in_map_iff. exists t. split; [reflexivity|]. apply in_zrange. lia. }
    rewrite EF. destruct INV as [KB _]. destruct (KB 0%Z nt (or_introl eq_refl)) as [KP KA KO KF]. assert (SZ : size 0 nt = n) by (rewrite (size_hi n nb LNB LN), (hi_nt n nb LNB LN), (hi_start n nb LNB LN) by lia; lia).
    rewrite SZ in *. change (0 * nb)%Z with 0%Z in *.
    assert (SI : forall i, (0 <= i < n)%Z -> sub_idx nb s' 0 nt i = s_i1 s' i).
    { intros i Li. unfold sub_idx. destruct (Z.eqb_spec nt (0 + 1)); [lia|]. change (0 * nb)%Z with 0%Z. unfold view. rewrite Z.add_0_r. reflexivity. }
    assert (PI : is_perm n (s_i1 s')) by (apply (is_perm_ext n (sub_idx nb s' 0 nt)); assumption).
    assert (V0 : forall (f : Z -> R) i, view 0 f i = f i) by (intros; unfold view; f_equal; lia).
    assert (V2 : forall (f : Z -> Z -> R) i j, view2 0 f i j = f i j) by (intros; unfold view2; f_equal; lia).
    assert (HLm : forall i, (0 <= i < n)%Z -> apply_index n (s_i1 s') (s_d0 s') (s_d1 s') i = s_d0 s' (s_i1 s' i)) by (intros i Li; rewrite C34_apply_index; replace (Z.leb 0 i && Z.ltb i n)%bool with true by lia; reflexivity).
    assert (HE : forall i j, (0 <= i < n)%Z -> (0 <= j < n)%Z -> put_block 0 0 n n (fun i j => s_e0 s' i (s_i1 s' j)) (s_e2 s') i j = s_e0 s' i (s_i1 s' j)).
    { intros i j Li Lj. rewrite put_block_in by lia. f_equal; [lia|]. f_equal. lia. }
    eexists _, _. split; [reflexivity|]. split; [|split].
    + intros p q Lp Lq. rewrite !HLm by lia. specialize (KA p q Lp Lq). apply Rltb_false in KA. rewrite !V0, !SI in KA by lia. exact KA.
    + eapply orthonormal_ext; [intros i j Li Lj; symmetry; apply HE; assumption|]. apply (orthonormal_perm n (s_i1 s') (s_e0 s')); [exact PI|]. eapply orthonormal_ext; [|exact KO]. intros; apply V2.
    + intros x. specialize (KF x). replace (dform n (view 0 (s_d0 s')) (coord n (view2 0 (s_e0 s')) x)) with (dform n (apply_index n (s_i1 s') (s_d0 s') (s_d1 s')) (coord n (put_block 0 0 n n (fun i j => s_e0 s' i (s_i1 s' j)) (s_e2 s')) x)) in KF.
      * replace (qf 0 nt x) with (tform n D e x) in KF; [replace (nt - 0 - 1)%Z with (nt - 1)%Z in KF by lia; exact KF|]. unfold DcSolver.qf. rewrite SZ. change (Z.ltb 0 0) with false. replace (Z.ltb nt nt) with false by lia. cbv zeta iota.
        rewrite (tform_ext n (view (0 * nb) D) (view (0 * nb) e) D e) by (intros; apply V0). ring.
      * symmetry. unfold dform at 1. rewrite <- (rsum_perm n (s_i1 s') _ PI). apply rsum_ext. intros j Lj. rewrite HLm by lia. rewrite V0.
        assert (CE : coord n (view2 0 (s_e0 s')) x (s_i1 s' j) = coord n (put_block 0 0 n n (fun i j => s_e0 s' i (s_i1 s' j)) (s_e2 s')) x j).
        { unfold coord. apply rsum_ext. intros i Li. rewrite HE by assumption. rewrite V2. reflexivity. }
        rewrite CE. reflexivity.
Qed.
End solver.
