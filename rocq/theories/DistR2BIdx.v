(** * Distributed reduction_to_band: indices *)
From Coq Require Import ZArith Lia List Bool Permutation Ring.
From Verif Require Import CInt Loop StarField DenseSpec Tiling DenseJobs TileJobs RefKernels BlockJobs TriangularProofs HouseSpec HouseModel HouseProofs HouseQR TFactorProofs MultiJobs
  Red2BandModel Red2BandSpec Red2BandProofs Red2BandTheory
  DistModel DistSpec DistBuilt DistThms DistMachine DistGrid PanelModel PanelProofs DistSim DistProg DistPhase DistLocal DistInverseModel DistTriModel DistTriProofs DistMultModel DistMultProofs DistBtR2BModel DistBtR2BProofs DistR2BModel.
Import ListNotations.
Local Open Scope Z_scope.

(** tasks that write different tiles none of them reads *)
Lemma indep_run : forall {V} (L : list (tjob V)) (st : tstore V), NoDup (map tj_out L) ->
  (forall a c, In a L -> In c L -> ~ In (tj_out a) (tj_in c)) ->
  (forall a, In a L -> trun L st (tj_out a) = tval a st) /\ (forall x, ~ In x (map tj_out L) -> trun L st x = st x).
Proof.
  intros V L. induction L as [|j L IH] using rev_ind; intros st ND IN; [split; [intros a []|reflexivity]|].
  rewrite map_app in ND. cbn [map] in ND. apply NoDup_remove in ND as [ND NI]. rewrite app_nil_r in ND, NI.
  destruct (IH st ND) as [I1 I2]. { intros a c Ia Ic. apply IN; apply in_or_app; left; assumption. }
  rewrite trun_app, trun_cons. cbn [trun fold_left]. change (fold_left texec L st) with (trun L st). unfold texec. split.
  - intros a Ia. apply in_app_or in Ia as [Ia|[<-|[]]].
    + rewrite tset_neq; [apply I1; exact Ia|]. intros E. apply NI. rewrite <- E. apply in_map. exact Ia.
    + rewrite tset_eq. unfold tval. rewrite I2 by exact NI. f_equal. apply map_ext_in. intros x Ix. apply I2. intros Ix2. apply in_map_iff in Ix2 as (a & <- & Ia).
      apply (IN a j); [apply in_or_app; left; exact Ia|apply in_or_app; right; left; reflexivity|exact Ix].
  - intros x X. rewrite map_app in X. cbn [map] in X. rewrite tset_neq; [apply I2|]; intros E; apply X; apply in_or_app; [left; exact E|right; left; symmetry; exact E].
Qed.

(** what is assumed of the grid, the matrix and the iteration *)
Record r2b_ctx (P Q : Z) (Ls : coord -> layout) (D : coord -> Z -> axis) (nt : coord -> Z) (n mb b j : Z) : Prop := RCtx {
  c_ga : grid_axes P Q Ls D nt;
  c_b : 0 < b; c_mb : 0 < mb; c_div : mb mod b = 0; c_j0 : 0 <= j; c_j1 : j * b < r2b_nrefls n b;
  c_nt : forall rc, nt rc = r2b_nrt n mb;
  c_sz : forall r rc i, In r (ranks P Q) -> 0 <= i < r2b_nrt n mb -> szt Q D r rc i = r2b_sz n mb i;
}.

Section idx.
Context {P Q : Z} {Ls : coord -> layout} {D : coord -> Z -> axis} {nt : coord -> Z} {n mb b j : Z} (C : r2b_ctx P Q Ls D nt n mb b j).
Notation rks := (ranks P Q).
Notation mem := (members P Q).
Notation co := (co Q).
Notation nrt := (r2b_nrt n mb).
Notation i0 := (i0 mb b j). Notation j0 := (j0 mb b j). Notation cj := (cj mb b j). Notation ri := (ri mb b j).
Notation e_row := (e_row b j). Notation e_col := (e_col b j). Notation rows := (rows n mb b j). Notation t := (ptl n mb b j).
Notation nr := (n_refl n b j).
Notation oR i := (tile_owner (Ls Row) i).
Notation oC i := (tile_owner (Ls Col) i).
Let GA := c_ga _ _ _ _ _ _ _ _ _ C.
Let Hb := c_b _ _ _ _ _ _ _ _ _ C.
Let Hmb := c_mb _ _ _ _ _ _ _ _ _ C.
Let Hdiv := c_div _ _ _ _ _ _ _ _ _ C.
Let J0 := c_j0 _ _ _ _ _ _ _ _ _ C.
Let J1 := c_j1 _ _ _ _ _ _ _ _ _ C.
Let NT := c_nt _ _ _ _ _ _ _ _ _ C.
Let SZ := c_sz _ _ _ _ _ _ _ _ _ C.
Lemma c_P : 0 < P. Proof using C. apply (ga_P _ _ _ _ _ GA). Qed.
Lemma c_Q : 0 < Q. Proof using C. apply (ga_Q _ _ _ _ _ GA). Qed.
Let HP := c_P.
Let HQ := c_Q.
Notation rows_of r := (rowsof Q Ls i0 nrt r).
Definition onp (r : Z) : bool := oC j0 =? co Col r.
Lemma c_i0 : 0 <= i0 < nrt. Proof using C. apply i0_bound; assumption. Qed.
Lemma c_jc : 0 <= j0 <= i0. Proof using C. apply (j0_bound mb b Hb Hmb j J0). Qed.
Lemma c_own : forall rc i, 0 <= tile_owner (Ls rc) i < gs P Q rc. Proof using C. intros. apply (own_range _ _ _ _ _ GA). Qed.
Lemma c_co : forall r rc, In r rks -> 0 <= co rc r < gs P Q rc. Proof using C. intros. apply (rank_co _ _ _ _ _ GA). assumption. Qed.
Lemma own_eq : forall r rc i, In r rks -> 0 <= i -> t_own Q D r rc i = tile_owner (Ls rc) i.
Proof using C. intros. apply (t_own_eq _ _ _ _ _ GA); assumption. Qed.
Lemma on_panel_eq : forall r, In r rks -> on_panel Q mb b D r j = onp r.
Proof using C. intros r R. unfold on_panel, v0_col, onp. pose proof c_jc. rewrite own_eq by (try assumption; lia). reflexivity. Qed.
Lemma head_eq : forall r, In r rks -> head Q mb b D r j = (oR i0 =? co Row r).
Proof using C. intros r R. unfold head, v0_row. pose proof c_i0. rewrite own_eq by (try assumption; lia). reflexivity. Qed.
Lemma nt_eq : forall r rc, In r rks -> ax_nr_tiles (ax Q D r rc) = nrt.
Proof using C. intros r rc R. rewrite (rank_nt _ _ _ _ _ GA) by exact R. apply NT. Qed.
Lemma lnt_eq : forall r rc, In r rks -> lnt Q D r rc = t_nx Q D r rc nrt.
Proof using C. intros r rc R. unfold lnt. rewrite (loop_end _ _ _ _ _ GA) by exact R. rewrite NT. reflexivity. Qed.
Lemma loop_eq : forall r rc lo hi, In r rks -> 0 <= lo <= hi -> hi <= nrt -> map (t_gl Q D r rc) (zrange (t_nx Q D r rc lo) (t_nx Q D r rc hi)) = filter (fun i => tile_owner (Ls rc) i =? co rc r) (zrange lo hi).
Proof using C. intros r rc lo hi R L1 L2. apply (tiles_here P Q Ls D nt GA); [exact R|exact L1|rewrite NT; exact L2]. Qed.
Lemma q_rows_map : forall r, In r rks -> map (t_gl Q D r Row) (q_rows Q mb b D r j) = rows_of r.
Proof using C. intros r R. unfold q_rows. rewrite lnt_eq by exact R. pose proof c_i0. apply loop_eq; [exact R|lia|lia]. Qed.
Lemma gl_in : forall r l, In r rks -> In l (q_rows Q mb b D r j) -> In (t_gl Q D r Row l) (rows_of r).
Proof using C. intros r l R I0. rewrite <- q_rows_map by exact R. apply in_map. exact I0. Qed.
Lemma rows_bound : forall r i, In i (rows_of r) <-> i0 <= i < nrt /\ oR i = co Row r.
Proof using. intros r i. apply rows_in. Qed.
Lemma gl_nx : forall r rc i, In r rks -> 0 <= i < nrt -> tile_owner (Ls rc) i = co rc r -> t_gl Q D r rc (t_nx Q D r rc i) = i.
Proof using C. intros r rc i R L O. apply (glx P Q Ls D nt r rc i GA R); [rewrite NT; exact L|exact O]. Qed.
Lemma gl_loc : forall r rc i, In r rks -> 0 <= i < nrt -> tile_owner (Ls rc) i = co rc r -> t_gl Q D r rc (t_loc Q D r rc i) = i.
Proof using C. intros r rc i R L O. apply (t_gl_loc _ _ _ _ _ GA); [exact R|rewrite NT; exact L|exact O]. Qed.
(** the tile of a rank in which the view starts *)
Lemma gl_i0 : forall r l, In r rks -> In l (q_rows Q mb b D r j) -> (oR i0 = co Row r /\ l = t_nx Q D r Row i0) <-> t_gl Q D r Row l = i0.
Proof using C.
  intros r l R I0. pose proof c_i0 as IB. split.
  - intros [O ->]. apply gl_nx; assumption.
  - intros E. pose proof (gl_in r l R I0) as I1. rewrite E in I1. apply rows_bound in I1 as [_ O]. split; [exact O|].
    apply (nodup_map_eq (t_gl Q D r Row) (q_rows Q mb b D r j)).
    + rewrite q_rows_map by exact R. apply rows_nd.
    + exact I0.
    + unfold q_rows in *. apply in_zrange in I0. apply in_zrange. lia.
    + rewrite E. symmetry. apply gl_nx; assumption.
Qed.
Lemma psub_eq : forall r l, In r rks -> In l (q_rows Q mb b D r j) -> psub Q mb b D r j l = ri (t_gl Q D r Row l).
Proof using C.
  intros r l R I0. unfold psub, Red2BandModel.ri. rewrite head_eq by exact R. pose proof (gl_i0 r l R I0) as G.
  destruct (Z.eqb_spec (t_gl Q D r Row l) i0), (Z.eqb_spec (oR i0) (co Row r)), (Z.eqb_spec l (t_nx Q D r Row i0)); cbn [andb]; try reflexivity; tauto.
Qed.
Lemma prows_eq : forall r l, In r rks -> In l (q_rows Q mb b D r j) -> prows Q mb b D r j l = rows (t_gl Q D r Row l).
Proof using C.
  intros r l R I0. unfold prows. rewrite psub_eq by assumption. rewrite SZ; [reflexivity|exact R|]. pose proof (gl_in r l R I0) as I1. apply rows_bound in I1 as [I1 _]. pose proof c_i0. lia.
Qed.
Lemma jcol_eq : forall r, In r rks -> onp r = true -> jcol Q mb b D r j = j0.
Proof using C. intros r R O. apply Z.eqb_eq in O. unfold jcol. pose proof c_jc. pose proof c_i0. apply gl_nx; [exact R|lia|exact O]. Qed.
Lemma atile_eq : forall r l, In r rks -> onp r = true -> atile Q mb b D r j l = qA r (t_gl Q D r Row l) j0.
Proof using C. intros r l R O. unfold atile. rewrite jcol_eq by assumption. reflexivity. Qed.
(** local tile x of the panel *)
Definition gx (r x : Z) : Z := t_gl Q D r Row (l0 Q mb b D r j + x).
Notation len r := (Z.of_nat (length (q_rows Q mb b D r j))).
Lemma gx_l : forall r x, 0 <= x < len r -> In (l0 Q mb b D r j + x) (q_rows Q mb b D r j).
Proof using. intros r x L. unfold q_rows, l0 in *. pose proof (zrange_length (t_nx Q D r Row i0) (lnt Q D r Row)). apply in_zrange. lia. Qed.
Lemma gx_in : forall r x, In r rks -> 0 <= x < len r -> In (gx r x) (rows_of r).
Proof using C. intros r x R L. apply gl_in; [exact R|]. apply gx_l. exact L. Qed.
Lemma len_rows : forall r, In r rks -> length (rows_of r) = length (q_rows Q mb b D r j).
Proof using C. intros r R. rewrite <- q_rows_map by exact R. apply map_length. Qed.
Lemma gx_nth : forall r x, In r rks -> 0 <= x < len r -> nth (Z.to_nat x) (rows_of r) 0 = gx r x.
Proof using C.
  intros r x R L. rewrite <- q_rows_map by exact R. apply nth_error_nth. rewrite nth_error_map. unfold q_rows in *. pose proof (zrange_length (t_nx Q D r Row i0) (lnt Q D r Row)).
  rewrite zrange_nth by lia. reflexivity.
Qed.
Lemma gx_inj : forall r x y, In r rks -> 0 <= x < len r -> 0 <= y < len r -> gx r x = gx r y -> x = y.
Proof using C.
  intros r x y R Lx Ly E. assert (X : l0 Q mb b D r j + x = l0 Q mb b D r j + y); [|lia].
  apply (nodup_map_eq (t_gl Q D r Row) (q_rows Q mb b D r j)); [rewrite q_rows_map by exact R; apply rows_nd|apply gx_l; exact Lx|apply gx_l; exact Ly|exact E].
Qed.
Lemma gx_ex : forall r i, In r rks -> In i (rows_of r) -> exists x, 0 <= x < len r /\ gx r x = i.
Proof using C.
  intros r i R I0. rewrite <- q_rows_map in I0 by exact R. apply in_map_iff in I0 as (l & <- & I0). exists (l - l0 Q mb b D r j). unfold gx. unfold q_rows, l0 in *. apply in_zrange in I0.
  pose proof (zrange_length (t_nx Q D r Row i0) (lnt Q D r Row)). split; [lia|]. f_equal. lia.
Qed.
Lemma gx_0 : forall r x, In r rks -> 0 <= x < len r -> (gx r x =? i0) = (head Q mb b D r j && (x =? 0)).
Proof using C.
  intros r x R L. rewrite head_eq by exact R. pose proof (gl_i0 r _ R (gx_l r x L)) as G. unfold gx. unfold l0 in *.
  destruct (Z.eqb_spec (t_gl Q D r Row (t_nx Q D r Row i0 + x)) i0), (Z.eqb_spec (oR i0) (co Row r)), (Z.eqb_spec x 0); cbn [andb]; try reflexivity; exfalso; assert (E : t_nx Q D r Row i0 + x = t_nx Q D r Row i0 <-> x = 0) by lia; tauto.
Qed.
Lemma psub_x : forall r x, In r rks -> 0 <= x < len r -> psub Q mb b D r j (l0 Q mb b D r j + x) = ri (gx r x).
Proof using C. intros r x R L. apply psub_eq; [exact R|apply gx_l; exact L]. Qed.
Lemma prows_x : forall r x, In r rks -> 0 <= x < len r -> prows Q mb b D r j (l0 Q mb b D r j + x) = rows (gx r x).
Proof using C. intros r x R L. apply prows_eq; [exact R|apply gx_l; exact L]. Qed.
Lemma ptile_x : forall r x, In r rks -> onp r = true -> ptile Q mb b D r j x = qA r (gx r x) j0.
Proof using C. intros r x R O. unfold ptile. apply atile_eq; assumption. Qed.
Lemma head_len : forall r, In r rks -> head Q mb b D r j = true -> 0 < len r.
Proof using C.
  intros r R H. rewrite head_eq in H by exact R. apply Z.eqb_eq in H. assert (I0 : In i0 (rows_of r)) by (apply rows_bound; pose proof c_i0; lia).
  rewrite <- len_rows by exact R. destruct (rows_of r); [destruct I0|cbn [length]; lia].
Qed.
(** rows of the panel *)
Definition voff (i : Z) : Z := tl_off t (i - i0).
Lemma row_x : forall r i, In i (rows_of r) -> 0 <= i - i0 < tl_n t /\ tl_sz t (i - i0) = rows i /\ i0 + (i - i0) = i.
Proof using. intros r i I0. apply rows_bound in I0 as [L _]. rewrite ptl_n. split; [lia|]. split; [|lia]. cbn [tl_sz ptl]. f_equal. lia. Qed.
Lemma c_tok : tiling_ok t. Proof using C. apply ptl_ok; assumption. Qed.
Lemma c_tn : 0 < tl_n t. Proof using C. apply ptl_n_pos; assumption. Qed.
Lemma voff_0 : voff i0 = 0. Proof using. unfold voff. rewrite Z.sub_diag. apply off_0. Qed.
Lemma voff_pos : forall i, i0 < i < nrt -> nr <= voff i.
Proof using C.
  intros i L. unfold voff. pose proof (n_refl_rows n mb b Hb Hmb Hdiv j J0 J1) as N. assert (tl_off t 1 <= tl_off t (i - i0)) by (apply (off_le t c_tok); rewrite ?ptl_n; lia). rewrite off_1 in H. lia.
Qed.
Lemma voff_bound : forall i p, i0 <= i < nrt -> 0 <= p < rows i -> 0 <= voff i + p < n - e_row.
Proof using C.
  intros i p Li Lp. unfold voff. rewrite <- (ptl_size n mb b Hb Hmb Hdiv j J0 J1). apply (elem_bound t c_tok); [rewrite ptl_n; lia|]. cbn [tl_sz ptl]. replace (i0 + (i - i0)) with i by lia. exact Lp.
Qed.
Lemma ltl_sz : forall r x, In r rks -> 0 <= x < len r -> tl_sz (ltl Q mb b D r j) x = rows (gx r x).
Proof using C. intros r x R L. cbn [ltl tl_sz]. apply prows_x; assumption. Qed.
Lemma ltl_ok : forall r, In r rks -> tiling_ok (ltl Q mb b D r j).
Proof using C.
  intros r R. split; [cbn [ltl tl_n]; lia|]. intros x L. cbn [ltl tl_n] in L. rewrite ltl_sz by assumption. pose proof (gx_in r x R L) as I0. apply rows_bound in I0 as [L0 _].
  apply (rows_pos n mb b Hb Hmb Hdiv j J0 J1). exact L0.
Qed.
(** the process column of the panel *)
Definition wP (x : Z) : Z := mk Q Row x (oC j0).
Lemma wP_in : forall x, 0 <= x < P -> In (wP x) rks.
Proof using C. intros x L. apply (mk_rank _ _ _ _ _ GA Row); [exact L|apply (c_own Col)]. Qed.
Lemma wP_co : forall x, 0 <= x < P -> co Row (wP x) = x /\ co Col (wP x) = oC j0.
Proof using C. intros x L. apply (co_mk P Q HP HQ Row); [exact L|apply (c_own Col)]. Qed.
Lemma wP_onp : forall x, 0 <= x < P -> onp (wP x) = true.
Proof using C. intros x L. unfold onp. rewrite (proj2 (wP_co x L)). apply Z.eqb_refl. Qed.
Lemma wP_r : forall r, In r rks -> onp r = true -> wP (co Row r) = r.
Proof using C. intros r R O. apply Z.eqb_eq in O. unfold wP. rewrite O. apply (mk_co P Q HP HQ Row). Qed.
Context {K : starfield}.
Local Open Scope sf_scope.
Add Ring KringIdx : (fring K).
(** sums over the tile rows of the panel, of the ranks of its process column *)
Lemma col_sum : forall (g : Z -> F K), lsum (zrange 0 P) (fun x => lsum (rows_of (wP x)) g) = fsum 0 (tl_n t) (fun x => g (i0 + x)%Z).
Proof using C.
  intros g. transitivity (lsum (zrange 0 P) (fun x => lsum (filter (fun i => (oR i =? x)%Z) (zrange i0 nrt)) g)).
  - apply lsum_ext. intros x Ix. apply in_zrange in Ix. unfold rowsof. rewrite (proj1 (wP_co x Ix)). reflexivity.
  - rewrite lsum_owner by (intros i _; apply (c_own Row)). rewrite lsum_fsum, ptl_n.
    match goal with |- fsum i0 nrt ?f = _ => replace (fsum i0 nrt f) with (fsum (0 + i0) (nrt - i0 + i0) f) by (f_equal; lia) end. rewrite fsum_shift. apply fsum_ext. intros x _. f_equal. lia.
Qed.
Lemma loc_sum : forall r (g : Z -> F K), In r rks -> fsum 0 (len r) (fun x => g (gx r x)) = lsum (rows_of r) g.
Proof using C.
  intros r g R. rewrite <- fsum_nth. rewrite len_rows by exact R. apply fsum_ext. intros x Lx. rewrite gx_nth by assumption. reflexivity.
Qed.
(** a sum over the rows of the panel from row c on *)
Lemma panel_sum : forall c (g : Z -> F K), (0 <= c <= nr)%Z ->
  fsum c (n - e_row) g = fsum 0 (tl_n t) (fun x => fsum (if (i0 + x =? i0)%Z then c else 0%Z) (rows (i0 + x)) (fun p => g (voff (i0 + x) + p)%Z)).
Proof using C.
  intros c g Lc. rewrite <- (ptl_size n mb b Hb Hmb Hdiv j J0 J1). pose proof (n_refl_rows n mb b Hb Hmb Hdiv j J0 J1). rewrite (fsum_from t c_tok c_tn) by lia.
  apply fsum_ext. intros x Lx. unfold voff. replace (i0 + x - i0)%Z with x by lia. cbn [tl_sz ptl]. destruct (Z.eqb_spec x 0), (Z.eqb_spec (i0 + x) i0); try lia; reflexivity.
Qed.
Lemma head_sum : forall (v : F K), lsum (zrange 0 P) (fun x => if head Q mb b D (wP x) j then v else 0) = v.
Proof using C.
  intros v. rewrite (lsum_ext _ _ (fun x => if (x =? oR i0)%Z then v else 0)).
  - apply gsum_single; [apply zrange_NoDup|]. apply in_zrange. apply (c_own Row).
  - intros x Ix. apply in_zrange in Ix. rewrite head_eq by (apply wP_in; exact Ix). rewrite (proj1 (wP_co x Ix)), Z.eqb_sym. reflexivity.
Qed.
(** an all-reduction over the process column of the panel *)
Lemma panel_allred : forall cc (tl : Z -> tid) (st : tstore (mat K)), cc = CCol2 (oC j0) \/ cc = cm Col (oC j0) -> (forall r, t_rank (tl r) = r) ->
  event_ok mem rks (eallred (K := K) P Q cc tl) /\
  (forall r, In r rks -> proj mem r [eallred (K := K) P Q cc tl] = if onp r then [ACom (all_reduce P Q cc (tl r))] else []) /\
  (forall r p q, In r rks -> onp r = true -> eexec mem st (eallred P Q cc tl) (tl r) p q = lsum (zrange 0 P) (fun x => st (tl (wP x)) p q)) /\
  (forall y, (forall r, In r rks -> onp r = true -> y <> tl r) -> eexec mem st (eallred P Q cc tl) y = st y).
Proof using C.
  intros cc tl st EC TR. assert (EM : mem cc = map wP (zrange 0 P)).
  { pose proof (c_own Col j0) as O. cbn [gs] in O. destruct EC as [-> | ->]; cbn [members cm]; rewrite (proj2 (Z.leb_le 0 (oC j0))), (proj2 (Z.ltb_lt _ _)) by lia; reflexivity. }
  assert (IM : forall r, In r (mem cc) <-> In r rks /\ onp r = true).
  { intros r. rewrite EM, in_map_iff. split.
    - intros (x & <- & Ix). apply in_zrange in Ix. split; [apply wP_in; exact Ix|apply wP_onp; exact Ix].
    - intros [R O]. exists (co Row r). split; [apply wP_r; assumption|]. apply in_zrange. apply (c_co r Row R). }
  split; [apply (eallred_ok P Q HP HQ); intros; apply TR|]. split; [|split].
  - intros r R. rewrite eallred_proj. destruct (member_spec mem cc r) as [M|M]; rewrite IM in M.
    + rewrite (proj2 M). reflexivity.
    + destruct (onp r); [exfalso; apply M; auto|reflexivity].
  - intros r p q R O. rewrite eallred_at; [|apply IM; auto|apply TR]. rewrite msum_lsum, EM. generalize (zrange 0 P). intros l. unfold lsum. induction l as [|x l IH]; cbn [map fold_right]; [reflexivity|]. rewrite IH. reflexivity.
  - intros y Y. apply eallred_frame. intros r M. apply IM in M. apply Y; apply M.
Qed.
End idx.
