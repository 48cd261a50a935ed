(** * Distributed reduction_to_band: one whole iteration *)
From Coq Require Import ZArith Lia List Bool Permutation Ring.
From Verif Require Import CInt Loop StarField DenseSpec Tiling DenseJobs TileJobs RefKernels BlockJobs TriangularProofs HouseSpec HouseModel HouseProofs HouseQR TFactorProofs MultiJobs
  Red2BandModel Red2BandSpec Red2BandProofs Red2BandTheory
  DistModel DistSpec DistBuilt DistThms DistMachine DistGrid PanelModel PanelProofs DistSim DistProg DistPhase DistLocal DistInverseModel DistTriModel DistTriProofs DistMultModel DistMultProofs DistBtR2BModel DistBtR2BProofs DistR2BModel DistR2BIdx DistR2BPanel DistR2BStep DistR2BTrail.
Import ListNotations.
Local Open Scope Z_scope.

(** the matrix the ranks store: the owner of a tile has it *)
Definition dG {K : starfield} (Q : Z) (Ls : coord -> layout) (mb : Z) (s : tstore (mat K)) : mat K := fun a q =>
  s (qA (mk Q Row (tile_owner (Ls Row) (a / mb)) (tile_owner (Ls Col) (q / mb))) (a / mb) (q / mb)) (a mod mb) (q mod mb).

Section iter.
Context {P Q : Z} {Ls : coord -> layout} {D : coord -> Z -> axis} {nt : coord -> Z} {n mb b j : Z} (C : r2b_ctx P Q Ls D nt n mb b j).
Context {K : starfield} (kn : kernels K) (KO : kernels_ok kn) (rs : roots K).
Variables avail minwork avail_t : Z -> Z.
Hypothesis AT : forall r, In r (ranks P Q) -> 0 < avail_t r.
Local Open Scope sf_scope.
Add Ring KringIter : (fring K).
Notation rks := (ranks P Q).
Notation mem := (members P Q).
Notation co := (co Q).
Notation nrt := (r2b_nrt n mb).
Notation i0 := (i0 mb b j). Notation j0 := (j0 mb b j). Notation cj := (cj mb b j). Notation ri := (ri mb b j).
Notation e_row := (e_row b j). Notation e_col := (e_col b j). Notation rows := (rows n mb b j). Notation t := (ptl n mb b j).
Notation nr := (n_refl n b j).
Notation rows_of r := (rowsof Q Ls i0 nrt r).
Notation onp := (onp (Q := Q) (Ls := Ls) (mb := mb) (b := b) (j := j)).
Notation gx := (gx (Q := Q) (D := D) (mb := mb) (b := b) (j := j)).
Notation voff := (voff (n := n) (mb := mb) (b := b) (j := j)).
Notation wP := (wP (Q := Q) (Ls := Ls) (mb := mb) (b := b) (j := j)).
Notation len r := (Z.of_nat (length (q_rows Q mb b D r j))).
Notation l0 r := (l0 Q mb b D r j).
Notation onl := (onl (K := K) (P := P) (Q := Q) (Ls := Ls) (mb := mb) (b := b) (j := j)).
Notation phas := (phas (K := K) (P := P) (Q := Q) (Ls := Ls) (D := D) (n := n) (mb := mb) (b := b) (j := j)).
Notation oR i := (tile_owner (Ls Row) i).
Notation oC i := (tile_owner (Ls Col) i).
Notation m := (n - e_row)%Z.
Notation gl r c l := (t_gl Q D r c l).
Let GA := c_ga _ _ _ _ _ _ _ _ _ C.
Let Hb := c_b _ _ _ _ _ _ _ _ _ C.
Let Hmb := c_mb _ _ _ _ _ _ _ _ _ C.
Let Hdiv := c_div _ _ _ _ _ _ _ _ _ C.
Let J0 := c_j0 _ _ _ _ _ _ _ _ _ C.
Let J1 := c_j1 _ _ _ _ _ _ _ _ _ C.
Let HP := c_P C.
Let HQ := c_Q C.
Ltac ids := unfold mV, mW, mX, mVt, mWt, mXt in *; pose proof (Z.mod_pos_bound j 2 eq_refl); lia.


Notation vid r i := (p_tile r (pV_linked Q mb b D r j) i).
Notation eBV := (eB (P := P) (Q := Q) (Ls := Ls) (n := n) (mb := mb) (b := b) (j := j) (K := K) (fun r => pV_linked Q mb b D r j) (mV j) (mVt j) (nrt - 1)).
Notation eBW := (eB (P := P) (Q := Q) (Ls := Ls) (n := n) (mb := mb) (b := b) (j := j) (K := K) (wpan (n := n) (mb := mb) (b := b) (j := j) (mW j)) (mW j) (mWt j) (nrt - 1)).
Notation eBX := (eB (P := P) (Q := Q) (Ls := Ls) (n := n) (mb := mb) (b := b) (j := j) (K := K) (wpan (n := n) (mb := mb) (b := b) (j := j) (mX j)) (mX j) (mXt j) (hiX (n := n) (mb := mb) (b := b) (j := j))).
Notation ePan := (e_panel (P := P) (Q := Q) (Ls := Ls) (D := D) (n := n) (mb := mb) (b := b) (j := j) rs avail minwork).
Notation eTf := (eT (P := P) (Q := Q) (Ls := Ls) (D := D) (n := n) (mb := mb) (b := b) (j := j) avail_t).
Notation eXx := (eX (P := P) (Q := Q) (Ls := Ls) (D := D) (n := n) (mb := mb) (b := b) (j := j) kn).
Notation eWw := (eW2 (P := P) (Q := Q) (Ls := Ls) (D := D) (n := n) (mb := mb) (b := b) (j := j) kn).
Notation eUp := (eU (P := P) (Q := Q) (D := D) (n := n) (mb := mb) (b := b) (j := j) kn).
Notation Mxx M c := (Mx (n := n) (mb := mb) (b := b) (j := j) rs M c).
Notation tauxx M c := (taux (n := n) (mb := mb) (b := b) (j := j) rs M c).
Notation pdecx M c := (pdec (n := n) (mb := mb) (b := b) (j := j) rs M c).

(** the trigger of the next panel changes nothing *)
Definition eTrig : list (event (mat K)) := elocal P Q (fun r => q_trigger P Q mb b D r j).
Lemma trig_own : forall r, In r rks -> own_tiles r (q_trigger (K := K) P Q mb b D r j).
Proof using C.
  intros r R. unfold q_trigger. destruct (_ =? _)%Z; [|intros ? ? []]. apply own_1. intros u [[<-|[]]| ->]; [|reflexivity].
  rewrite (proj2 (bcX_eq C (K := K) r R)).
  destruct (bc_sem C (K := K) (wpan (n := n) (mb := mb) (b := b) (j := j) (mX j)) (mX j) (mXt j) (hiX (n := n) (mb := mb) (b := b) (j := j)) (fun r0 R0 => wpan_pid (mX j) r0 R0)
    (fun r0 i R0 I0 => wpan_ids (mX j) (mXt j) r0 i ltac:(ids) R0 I0) (fun _ _ _ _ _ => eq_refl) (proj1 (hiTX C)) r R) as [_ E]. rewrite E.
  unfold p_tile at 1. cbn [p_ext p_id pTafter]. destruct (_ && _)%bool; reflexivity.
Qed.
Lemma trig_run : forall st y, erun mem eTrig st y = st y.
Proof using C.
  intros st y. unfold eTrig. rewrite (elocal_run P Q HP HQ) by exact trig_own. destruct (existsb _ _); [|reflexivity]. unfold q_trigger. destruct (_ =? _)%Z; [|reflexivity].
  cbn [trun fold_left]. unfold texec, tval. cbn [tj_fun tj_in tj_out map]. unfold tset. destruct (tid_eqb_spec y (qTrig (t_rank y) (j + 1))) as [E|E]; [rewrite <- E; reflexivity|reflexivity].
Qed.

(** ** The iteration as a list of events *)
Definition eIter (M : mat K) : list (event (mat K)) :=
  ePan M ++ onl (fun r => q_setup_V Q n mb b D r j) ++ eTf ++ eBV ++ onl (fun r => q_W kn Q n mb b D r j) ++ eBW ++ eXx ++ eWw ++ eBX ++ eTrig ++ eUp.
Lemma eIter_ok : forall M, Forall (event_ok mem rks) (eIter M).
Proof using C.
  intros M. unfold eIter, eT, eW2, eX. rewrite !Forall_app. set (s0 := fun _ : tid => (fun _ _ => 0) : mat K).
  assert (OL : forall f, (forall r, In r rks -> own_tiles r (f r)) -> Forall (event_ok mem rks) (onl f)) by (intros f F; apply (onl_run C f s0); intros; apply F; assumption).
  repeat match goal with |- _ /\ _ => split end.
  - apply (e_panel_ok C).
  - apply OL. intros r _. apply setup_own.
  - apply OL. intros r R. apply (jT1_own C). exact R.
  - apply (sumT_run C s0).
  - apply OL. intros r _. apply jT2_own.
  - apply (bc_ok C); [apply (pv_pid C)|apply (pv_ids C)|apply (pv_leaf C)|apply (hiT1 C)].
  - apply OL. apply (W_own C).
  - apply (bc_ok C); [intros; cbn; auto|intros; eapply wpan_ids; [ids|eassumption|eassumption]|reflexivity|apply (hiT1 C)].
  - apply (elocal_ok P Q). apply (xl_own C).
  - unfold eRC. destruct (1 <? P)%Z; [|constructor]. apply (reds_ok C). intros. apply tgt_rank.
  - unfold eRR. destruct (1 <? Q)%Z; [|constructor]. apply (reds_ok C). reflexivity.
  - apply OL. apply (W2_own C).
  - apply (sumT_run C s0).
  - apply OL. apply (updX_own C).
  - apply (bc_ok C); [intros; cbn; auto|intros; eapply wpan_ids; [ids|eassumption|eassumption]|reflexivity|apply (hiTX C)].
  - apply (elocal_ok P Q). exact trig_own.
  - apply (elocal_ok P Q). apply (ul_own C).
Qed.
Lemma eIter_proj : forall dec M r, In r rks -> (forall c, (0 <= c < nr)%Z -> dec r j c = pdecx M c) ->
  proj mem r (eIter M) = dr2b_step kn rs P Q n mb b D avail minwork avail_t dec r j.
Proof using C.
  intros dec M r R DEC. unfold eIter, dr2b_step, eT, eW2, eX. pose proof (nr_m C). pose proof (nr_b C). destruct (Z.ltb_spec e_row n) as [_|]; [|lia]. rewrite !proj_app'. set (s0 := fun _ : tid => (fun _ _ => 0) : mat K).
  assert (OL : forall f, (forall r, In r rks -> own_tiles r (f r)) -> proj mem r (onl f) = if onp r then map ALoc (f r) else []) by (intros f F; apply (onl_run C f s0); [intros; apply F; assumption|exact R]).
  rewrite (e_panel_proj C) with (dec := dec) by assumption. rewrite (on_panel_eq C) by exact R.
  rewrite (OL (fun r => q_setup_V Q n mb b D r j)) by (intros; apply setup_own).
  rewrite (OL (jT1 _)) by (apply (jT1_own C)). rewrite (OL jT2) by (intros; apply jT2_own). rewrite (OL (fun r => q_W kn Q n mb b D r j)) by (apply (W_own C)).
  rewrite (OL (fun r => q_W2 kn Q n mb b D r j)) by (apply (W2_own C)). rewrite (OL (fun r => q_updX kn Q n mb b D r j)) by (apply (updX_own C)).
  rewrite (proj1 (proj2 (sumT_run C s0))) by exact R.
  rewrite <- (proj1 (bcV_eq C (K := K) r R)), <- (proj1 (bcW_eq C (K := K) r R)), <- (proj1 (bcX_eq C (K := K) r R)).
  unfold eTrig, eU. rewrite !(elocal_proj P Q HP HQ) by exact R. rewrite <- (RC_proj C (K := K)), <- (RR_proj C (K := K)) by exact R.
  unfold xl, ul, jT1, jT2. destruct (onp r); rewrite ?map_app, <- ?app_assoc; reflexivity.
Qed.

(** ** The matrix *)
Notation G := (dG (K := K) Q Ls mb).
Lemma mk_own : forall i k, let r := mk Q Row (oR i) (oC k) in In r rks /\ co Row r = oR i /\ co Col r = oC k.
Proof using C.
  intros i k r. pose proof (c_own C Row i) as O1. pose proof (c_own C Col k) as O2. cbn [gs] in O1, O2.
  destruct (co_mk P Q HP HQ Row (oR i) (oC k) O1 O2) as [E1 E2]. cbn [other] in E2. split; [apply (mk_in P Q HP HQ Row); assumption|]. split; assumption.
Qed.
Lemma mk_is : forall r i k, oR i = co Row r -> oC k = co Col r -> mk Q Row (oR i) (oC k) = r.
Proof using C. intros r i k E1 E2. rewrite E1, E2. exact (mk_co P Q HP HQ Row r). Qed.
Lemma loc_i : forall i p, (i0 <= i < nrt)%Z -> (0 <= p < rows i)%Z -> ((e_row + (voff i + p)) / mb = i /\ (e_row + (voff i + p)) mod mb = ri i + p)%Z.
Proof using C.
  intros i p Li Lp. unfold DistR2BIdx.voff. destruct (loc_row n mb b Hb Hmb Hdiv j J0 J1 (i - i0)%Z p) as [E1 E2].
  { rewrite ptl_n. lia. } { cbn [tl_sz ptl]. replace (i0 + (i - i0))%Z with i by lia. exact Lp. }
  replace (i0 + (i - i0))%Z with i in * by lia. split; assumption.
Qed.
Lemma rsplit : forall a, (e_row <= a < n)%Z -> exists i p, (i0 <= i < nrt)%Z /\ (0 <= p < rows i)%Z /\ a = (e_row + (voff i + p))%Z.
Proof using C.
  intros a La. destruct (row_split n mb b Hb Hmb Hdiv j J0 J1 a La) as (k & p & Lk & Lp & E). rewrite ptl_n in Lk. cbn [tl_sz ptl] in Lp. exists (i0 + k)%Z, p. split; [lia|]. split; [exact Lp|].
  unfold DistR2BIdx.voff. replace (i0 + k - i0)%Z with k by lia. exact E.
Qed.
Lemma voff_b : forall i p, (i0 <= i < nrt)%Z -> (0 <= p < rows i)%Z -> (0 <= voff i + p < m)%Z.
Proof using C.
  intros i p Li Lp. unfold DistR2BIdx.voff. rewrite <- (tsize C). apply elem_bound; [apply (c_tok C)|rewrite ptl_n; lia|]. cbn [tl_sz ptl]. replace (i0 + (i - i0))%Z with i by lia. exact Lp.
Qed.
Lemma G_trl : forall s r i k p q, oR i = co Row r -> oC k = co Col r -> (i0 <= i < nrt)%Z -> (i0 <= k < nrt)%Z -> (0 <= p < rows i)%Z -> (0 <= q < rows k)%Z ->
  G s (e_row + (voff i + p))%Z (e_row + (voff k + q))%Z = s (qA r i k) (ri i + p)%Z (ri k + q)%Z.
Proof using C.
  intros s r i k p q O1 O2 Li Lk Lp Lq. unfold dG. destruct (loc_i i p Li Lp) as [-> ->], (loc_i k q Lk Lq) as [-> ->]. rewrite (mk_is r) by assumption. reflexivity.
Qed.
Lemma G_pan : forall s r i p q, oR i = co Row r -> onp r = true -> (i0 <= i < nrt)%Z -> (0 <= p < rows i)%Z -> (0 <= q < b)%Z ->
  G s (e_row + (voff i + p))%Z (e_col + q)%Z = s (qA r i j0) (ri i + p)%Z (cj + q)%Z.
Proof using C.
  intros s r i p q O1 O2 Li Lp Lq. apply Z.eqb_eq in O2. unfold dG. destruct (loc_i i p Li Lp) as [-> ->], (loc_col mb b Hb Hmb Hdiv j q Lq) as [-> ->]. rewrite (mk_is r) by assumption. reflexivity.
Qed.
Lemma phas_G : forall s M, phas M s <-> forall a q, (0 <= a < m)%Z -> (0 <= q < b)%Z -> M a q = G s (e_row + a)%Z (e_col + q)%Z.
Proof using C.
  intros s M. split.
  - intros H a q La Lq. destruct (rsplit (e_row + a)%Z ltac:(lia)) as (i & p & Li & Lp & E). assert (a = voff i + p)%Z as -> by lia.
    destruct (own_row C i Li) as (R & O & I0). rewrite (G_pan s (wP (oR i))) by (try assumption; apply rows_bound in I0 as [_ I0]; exact I0).
    destruct (gx_ex C _ i R I0) as (x & Lx & Ex). pose proof (H _ R O x p q Lx) as Hx. rewrite (ptile_x C) in Hx by assumption. rewrite Ex in Hx. unfold sub in Hx. symmetry. apply Hx; assumption.
  - intros H r R O x p q Lx Lp Lq. pose proof (gx_in C r x R Lx) as I0. apply rows_bound in I0 as [Li Oi]. rewrite (ptile_x C) by assumption. unfold sub.
    rewrite <- (G_pan s r) by assumption. symmetry. apply H; [apply voff_b; assumption|exact Lq].
Qed.
(** what the panel task leaves *)
Lemma keep_G : forall s s' B, pkeep (K := K) (P := P) (Q := Q) (Ls := Ls) (D := D) (n := n) (mb := mb) (b := b) (j := j) B s s' -> forall a q, (0 <= a < n)%Z -> (0 <= q < n)%Z -> ~ (e_row <= a /\ e_col <= q < e_col + b)%Z -> G s' a q = G s a q.
Proof using C.
  intros s s' B [K1 K2] a q La Lq N. unfold dG. set (r := mk Q Row (oR (a / mb)) (oC (q / mb))). destruct (mk_own (a / mb) (q / mb)) as (R & Er & Ec). fold r in R, Er, Ec.
  assert (AB : (a / mb < nrt)%Z) by (pose proof (nrt_spec n mb Hmb); apply Z.div_lt_upper_bound; lia).
  destruct (Z.eq_dec (q / mb) j0) as [EJ|NJ]; [destruct (Z.le_gt_cases i0 (a / mb)) as [LI|LI]|].
  - assert (O : onp r = true) by (apply Z.eqb_eq; rewrite Ec, EJ; reflexivity).
    assert (I0 : In (a / mb)%Z (rows_of r)) by (apply rows_bound; split; [lia|symmetry; exact Er]).
    destruct (gx_ex C r _ R I0) as (x & Lx & Ex). pose proof (K1 r R O x (a mod mb)%Z (q mod mb)%Z Lx) as KK. rewrite (ptile_x C) in KK by assumption. rewrite Ex in KK. rewrite EJ. apply KK. clear KK.
    intros [A1 A2]. apply N. pose proof (Z.div_mod a mb ltac:(lia)). pose proof (Z.div_mod q mb ltac:(lia)). pose proof (e_row_split mb b Hmb j). pose proof (e_col_split mb b Hmb j).
    rewrite EJ in *. split; [|lia]. unfold Red2BandModel.ri in A1. destruct (Z.eqb_spec (a / mb) i0) as [E0|E0]; [rewrite E0 in *; lia|]. pose proof (Z.mod_pos_bound e_row mb Hmb). pose proof (Z.mod_pos_bound a mb Hmb). nia.
  - rewrite K2; [reflexivity|left; cbn; lia| | |]; intros; try discriminate. intros E. rewrite (ptile_x C) in E by assumption. injection E as _ E _. pose proof (gx_in C _ _ H H1) as I0. apply rows_bound in I0. lia.
  - rewrite K2; [reflexivity|left; cbn; lia| | |]; intros; try discriminate. intros E. rewrite (ptile_x C) in E by assumption. injection E as _ _ E. lia.
Qed.
Lemma trl_G : forall s At, (forall a c, (0 <= a < m)%Z -> (0 <= c < m)%Z -> At a c = G s (e_row + a)%Z (e_row + c)%Z) -> trl (K := K) (P := P) (Q := Q) (Ls := Ls) (n := n) (mb := mb) (b := b) (j := j) At s.
Proof using C.
  intros s At H r i k u v R Lk Li Oi Ok Lu Lv. unfold sub. rewrite <- G_trl by (try assumption; lia). symmetry. apply H; apply voff_b; (assumption || lia).
Qed.

Notation vtT r := (tT (P := P) (Q := Q) (D := D) (mb := mb) (b := b) (j := j) (K := K) (fun r => pV_linked Q mb b D r j) (mVt j) (nrt - 1) r).
Notation wtT r := (tT (P := P) (Q := Q) (D := D) (mb := mb) (b := b) (j := j) (K := K) (wpan (n := n) (mb := mb) (b := b) (j := j) (mW j)) (mWt j) (nrt - 1) r).
Notation xtT r := (tT (P := P) (Q := Q) (D := D) (mb := mb) (b := b) (j := j) (K := K) (wpan (n := n) (mb := mb) (b := b) (j := j) (mX j)) (mXt j) (hiX (n := n) (mb := mb) (b := b) (j := j)) r).
Notation rhas f M r s := (rhas (K := K) (Q := Q) (Ls := Ls) (n := n) (mb := mb) (b := b) (j := j) f M r s).
Notation thas f hi M r s := (thas (K := K) (Q := Q) (Ls := Ls) (n := n) (mb := mb) (b := b) (j := j) f hi M r s).
Notation xid := (xid (j := j)).
Lemma upd_G : forall s (V X At : mat K), (forall r, In r rks -> rhas (fun i => vid r i) V r s) -> (forall r, In r rks -> thas (fun k => vtT r k) (nrt - 1) V r s) ->
  (forall r, In r rks -> rhas (xid r) X r s) -> (forall r, In r rks -> thas (fun k => xtT r k) (hiX (n := n) (mb := mb) (b := b) (j := j)) X r s) ->
  (forall a c, (0 <= a < m)%Z -> (0 <= c < m)%Z -> At a c = G s (e_row + a)%Z (e_row + c)%Z) -> real_diag m At ->
  let s' := erun mem eUp s in
  (forall a q, (0 <= a < n)%Z -> (0 <= q < n)%Z -> G s' a q = if ((e_row <=? q) && (q <=? a))%Z then upd_val n b j V X At (a - e_row)%Z (q - e_row)%Z else G s a q) /\
  (forall x, t_mat x <> 0%Z -> s' x = s x).
Proof using C KO.
  intros s V X At HV HVT HX HXT HA RD s'. destruct (update_val C kn KO V X At s HV HVT HX HXT (trl_G s At HA) RD) as (U1 & U2 & U3). fold s' in U1, U2, U3. split.
  2:{ intros x N. apply U3. intros r i k _ _ _ E. apply N. rewrite E. reflexivity. }
  intros a q La Lq. pose proof (e_row_split mb b Hmb j) as ES. pose proof (Z.div_mod a mb ltac:(lia)) as DA. pose proof (Z.div_mod q mb ltac:(lia)) as DQ.
  pose proof (Z.mod_pos_bound a mb Hmb) as MA. pose proof (Z.mod_pos_bound q mb Hmb) as MQ. pose proof (Z.mod_pos_bound e_row mb Hmb) as ME.
  assert (AB : (a / mb < nrt)%Z) by (pose proof (nrt_spec n mb Hmb); apply Z.div_lt_upper_bound; lia).
  set (r := mk Q Row (oR (a / mb)) (oC (q / mb))). destruct (mk_own (a / mb) (q / mb)) as (R & Er & Ec). fold r in R, Er, Ec.
  assert (IN : (i0 <= q / mb <= a / mb)%Z -> In (a / mb)%Z (rows_of r) /\ In (q / mb)%Z (filter (fun k => oC k =? co Col r)%Z (zrange i0 (a / mb + 1)))).
  { intros L. split; [apply rows_bound; split; [lia|symmetry; exact Er]|]. apply cols_in'. split; [lia|symmetry; exact Ec]. }
  destruct (Z.leb_spec e_row q) as [LQ|LQ]; cbn [andb].
  - destruct (rsplit q ltac:(lia)) as (k & v & Lk & Lv & EQ). destruct (loc_i k v Lk Lv) as [EQ1 EQ2]. rewrite <- EQ in EQ1, EQ2.
    destruct (Z.leb_spec q a) as [QA|QA].
    + destruct (rsplit a ltac:(lia)) as (i & u & Li & Lu & EA). destruct (loc_i i u Li Lu) as [EA1 EA2]. rewrite <- EA in EA1, EA2.
      assert (KI : (k <= i)%Z) by (rewrite <- EQ1, <- EA1; apply Z.div_le_mono; lia).
      unfold dG. fold r. destruct IN as [I1 I2]; [lia|]. rewrite EA1, EQ1 in *. rewrite EA2, EQ2. rewrite U1 by assumption.
      replace (a - e_row)%Z with (voff i + u)%Z by lia. replace (q - e_row)%Z with (voff k + v)%Z by lia.
      destruct (Z.eqb_spec i k) as [->|N]; cbn [andb]; [|reflexivity]. destruct (Z.ltb_spec u v); [lia|reflexivity].
    + unfold dG. fold r. destruct (Z.lt_ge_cases (a / mb) (q / mb)) as [Cc|Cc].
      { rewrite U3; [reflexivity|]. intros r' i k' _ I1 I2 E. apply cols_in' in I2. injection E as _ E2 E3. lia. }
      assert (EAQ : (a / mb = q / mb)%Z) by (pose proof (Z.div_le_mono a q mb Hmb); lia).
      destruct IN as [I1 I2]; [lia|]. destruct (Z.lt_ge_cases a e_row) as [AE|AE].
      * apply U2; [assumption|assumption|assumption|]. rewrite EAQ, EQ1 in *. unfold Red2BandModel.ri. destruct (Z.eqb_spec k i0) as [E|E]; [rewrite E in *; lia|]. nia.
      * destruct (rsplit a ltac:(lia)) as (i & u & Li & Lu & EA). destruct (loc_i i u Li Lu) as [EA1 EA2]. rewrite <- EA in EA1, EA2.
        assert (i = k) as -> by lia. rewrite EA1, EQ1 in *. rewrite EA2, EQ2. rewrite U1 by assumption. rewrite Z.eqb_refl. destruct (Z.ltb_spec u v); [reflexivity|lia].
  - unfold dG. fold r. destruct (Z.lt_ge_cases (q / mb) i0) as [Cc|Cc].
    { rewrite U3; [reflexivity|]. intros r' i k' _ I1 I2 E. apply cols_in' in I2. injection E as _ E2 E3. lia. }
    destruct (Z.lt_ge_cases (a / mb) (q / mb)) as [C2|C2].
    { rewrite U3; [reflexivity|]. intros r' i k' _ I1 I2 E. apply cols_in' in I2. injection E as _ E2 E3. lia. }
    assert (QI : (q / mb = i0)%Z) by nia. destruct IN as [I1 I2]; [lia|]. apply U2; [assumption|assumption|assumption|]. rewrite QI. unfold Red2BandModel.ri at 3 4. rewrite Z.eqb_refl. rewrite QI in *. lia.
Qed.

Theorem iter_val : forall st, (forall a, (e_row <= a < n)%Z -> real (G st a a)) ->
  let M0 := fun a q => G st (e_row + a)%Z (e_col + q)%Z in
  let At := fun a c => G st (e_row + a)%Z (e_row + c)%Z in
  let st' := erun mem (eIter M0) st in
  let Qm := refl_prod m (unit_lower (Mxx M0 nr)) (fun c => tauxx M0 c) (Z.to_nat nr) in
  (forall a q, (0 <= a < m)%Z -> (0 <= q < b)%Z -> G st' (e_row + a)%Z (e_col + q)%Z = Mxx M0 nr a q) /\
  (forall a c, (0 <= c <= a)%Z -> (a < m)%Z -> G st' (e_row + a)%Z (e_row + c)%Z = mmul m (adj Qm) (mmul m (herm Lower At) Qm) a c) /\
  (forall a q, (0 <= a < n)%Z -> (0 <= q < n)%Z -> ~ (e_row <= a /\ e_col <= q <= a)%Z -> G st' a q = G st a q) /\
  (forall r, In r rks -> onp r = true -> (forall q, (0 <= q < nr)%Z -> st' (qTau r j) q 0%Z = tauxx M0 q /\ st' (qBr r j q) 0%Z 0%Z = tauxx M0 q)) /\
  (forall r k, k <> j -> st' (qTau r k) = st (qTau r k) /\ forall c, st' (qBr r k c) = st (qBr r k c)).
Proof using C KO AT.
  intros st RD M0 At st' Qm. pose proof (nr_b C) as NB. pose proof (nr_m C) as NM. pose proof (e_row_col b j) as ERC. pose proof (J_n n b Hb j J0 J1) as JN.
  assert (EC0 : (0 <= e_col)%Z) by (unfold Red2BandModel.e_col; nia).
  assert (P0 : phas M0 st) by (apply phas_G; reflexivity).
  set (s1 := erun mem (ePan M0) st). set (s2 := erun mem (onl (fun r => q_setup_V Q n mb b D r j)) s1). set (s3 := erun mem eTf s2). set (s4 := erun mem eBV s3).
  set (s5 := erun mem (onl (fun r => q_W kn Q n mb b D r j)) s4). set (s6 := erun mem eBW s5). set (s7 := erun mem eXx s6). set (s8 := erun mem eWw s7). set (s9 := erun mem eBX s8).
  set (s10 := erun mem eTrig s9). set (s11 := erun mem eUp s10).
  assert (E : st' = s11) by (unfold st', eIter; rewrite !(erun_app P Q); reflexivity). rewrite E. clear E.
  (* panel *)
  destruct (panel_run C rs avail minwork st M0 P0) as (P1 & TB1 & K1). fold s1 in P1, TB1, K1.
  (* V *)
  destruct (V_val C s1 _ P1) as [V2 F2]. fold s2 in V2, F2. set (V := unit_lower (Mxx M0 nr)) in *.
  (* T *)
  destruct (T_val C avail_t AT s2 V (fun c => tauxx M0 c) V2) as [T3 F3].
  { intros r q R O Lq. rewrite F2 by (cbn [t_mat qTau qT qA qBr]; ids). destruct (TB1 r R O) as [T _]. rewrite T. destruct (Z.leb_spec 0 q), (Z.ltb_spec q nr); try lia. reflexivity. }
  fold s3 in T3, F3.
  assert (V3 : forall r, In r rks -> onp r = true -> rhas (fun i => vid r i) V r s3).
  { intros r R O i p q I0 Lp Lq. rewrite F3 by (destruct (vid_mat C r i R I0) as [E|E]; rewrite E; ids). apply V2; assumption. }
  (* V everywhere *)
  destruct (bc_has C (fun r => pV_linked Q mb b D r j) (mV j) (mVt j) (nrt - 1)%Z (pv_pid C) (pv_ids C) (pv_leaf C) (hiT1 C) V s3 V3) as (V4 & VT4 & F4). fold s4 in V4, VT4, F4.
  (* W *)
  set (T := s3 (qT (wP 0) j)).
  assert (TR : t_rec m nr V T (fun c => tauxx M0 c)) by (apply T3; [apply (wP_in C); lia|apply (wP_onp C); lia]).
  destruct (W_val C kn KO s4 V T (fun c => tauxx M0 c)) as [W5 F5]; [intros; apply V4; assumption|intros r R O; rewrite F4 by (cbn [t_mat qTau qT qA qBr]; ids); apply T3; assumption|exact TR|].
  fold s5 in W5, F5. set (W := mmul nr V T) in *.
  destruct (bc_has C (wpan (n := n) (mb := mb) (b := b) (j := j) (mW j)) (mW j) (mWt j) (nrt - 1)%Z (fun r R => wpan_pid (mW j) r R) (fun r i R I0 => wpan_ids (mW j) (mWt j) r i ltac:(ids) R I0) (fun _ _ _ _ _ => eq_refl) (hiT1 C) W s5 W5) as (W6 & WT6 & F6).
  fold s6 in W6, WT6, F6.
  (* the matrix is not changed before the update *)
  assert (A6 : forall r i k, s6 (qA r i k) = s1 (qA r i k)) by (intros; rewrite F6, F5, F4, F3, F2 by (cbn [t_mat qTau qT qA qBr]; ids); reflexivity).
  assert (G1 : forall a q, (0 <= a < n)%Z -> (0 <= q < n)%Z -> ~ (e_row <= a /\ e_col <= q < e_col + b)%Z -> G s1 a q = G st a q) by (apply (keep_G st s1 _ K1)).
  assert (AT1 : forall a c, (0 <= a < m)%Z -> (0 <= c < m)%Z -> At a c = G s1 (e_row + a)%Z (e_row + c)%Z) by (intros a c La Lc; unfold At; symmetry; apply G1; lia).
  assert (TR6 : trl (K := K) (P := P) (Q := Q) (Ls := Ls) (n := n) (mb := mb) (b := b) (j := j) At s6) by (apply trl_G; intros a c La Lc; rewrite AT1 by assumption; unfold dG; rewrite A6; reflexivity).
  assert (RDA : real_diag m At) by (intros a La; apply RD; lia).
  (* X *)
  destruct (X_val C kn KO At W s6 TR6 RDA W6 WT6) as [X7 F7]. fold s7 in X7, F7. set (X := mmul m (herm Lower At) W) in *.
  assert (V7 : forall r, In r rks -> rhas (fun i => vid r i) V r s7).
  { intros r R i p q I0 Lp Lq. rewrite F7, F6, F5 by (destruct (vid_mat C r i R I0) as [E|E]; rewrite E; ids). apply V4; assumption. }
  assert (W7 : forall r, In r rks -> onp r = true -> rhas (fun i => Tid r (mW j) i 0) W r s7).
  { intros r R O i p q I0 Lp Lq. rewrite F7 by (cbn [t_mat]; ids). apply W6; assumption. }
  destruct (W2_val C kn KO V W X s7 (fun r R _ => V7 r R) W7 X7) as [X8 F8]. fold s8 in X8, F8. set (W2 := mmul m (adj W) X) in *. set (X' := fun a q => X a q - fhalf * mmul nr V W2 a q) in *.
  destruct (bc_has C (wpan (n := n) (mb := mb) (b := b) (j := j) (mX j)) (mX j) (mXt j) (hiX (n := n) (mb := mb) (b := b) (j := j)) (fun r R => wpan_pid (mX j) r R) (fun r i R I0 => wpan_ids (mX j) (mXt j) r i ltac:(ids) R I0) (fun _ _ _ _ _ => eq_refl) (proj1 (hiTX C)) X' s8 X8) as (X9 & XT9 & F9).
  fold s9 in X9, XT9, F9.
  assert (E10 : forall y, s10 y = s9 y) by (intros; apply trig_run).
  assert (V10 : forall r, In r rks -> rhas (fun i => vid r i) V r s10).
  { intros r R i p q I0 Lp Lq. rewrite E10, F9, F8 by (destruct (vid_mat C r i R I0) as [E|E]; rewrite E; ids). apply V7; assumption. }
  assert (VT10 : forall r, In r rks -> thas (fun k => vtT r k) (nrt - 1) V r s10).
  { intros r R k p q Lk Ok Lp Lq. assert (M : (t_mat (vtT r k) = 0 \/ t_mat (vtT r k) = mV j \/ t_mat (vtT r k) = mVt j)%Z).
    { rewrite (vtT_eq C) by assumption. destruct (Z.eqb_spec (oR k) (co Row r)); [|right; right; reflexivity]. destruct (vid_mat C r k R) as [E'|E']; [apply rows_bound; split; [lia|assumption]| |]; rewrite E'; auto. }
    rewrite E10, F9, F8, F7, F6, F5 by (destruct M as [M|[M|M]]; rewrite M; ids). apply VT4; assumption. }
  assert (X10 : forall r, In r rks -> rhas (xid r) X' r s10) by (intros r R i p q I0 Lp Lq; rewrite E10; apply (X9 r R i p q); assumption).
  assert (XT10 : forall r, In r rks -> thas (fun k => xtT r k) (hiX (n := n) (mb := mb) (b := b) (j := j)) X' r s10) by (intros r R k p q Lk Ok Lp Lq; rewrite E10; apply XT9; assumption).
  assert (A10 : forall r i k, s10 (qA r i k) = s1 (qA r i k)) by (intros; rewrite E10, F9, F8, F7, A6 by (cbn [t_mat qTau qT qA qBr]; ids); reflexivity).
  assert (G10 : forall a q, G s10 a q = G s1 a q) by (intros; unfold dG; rewrite A10; reflexivity).
  destruct (upd_G s10 V X' At V10 VT10 X10 XT10) as [U F11]; [intros a c La Lc; rewrite G10; apply AT1; assumption|exact RDA|]. fold s11 in U, F11.
  assert (FT : forall y, (t_mat y = 1 \/ t_mat y = 18)%Z -> s11 y = s1 y).
  { intros y M. rewrite F11, E10, F9, F8, F7, F6, F5, F4, F3, F2 by (destruct M as [M|M]; rewrite M; ids). reflexivity. }
  split; [|split; [|split; [|split]]].
  - intros a q La Lq. rewrite U by lia. destruct (Z.leb_spec e_row (e_col + q)); [lia|]. cbn [andb]. rewrite G10. symmetry. apply (proj1 (phas_G s1 (Mxx M0 nr)) P1); assumption.
  - intros a c Lc La. rewrite U by lia. destruct (Z.leb_spec e_row (e_row + c)), (Z.leb_spec (e_row + c) (e_row + a)); try lia. cbn [andb].
    replace (e_row + a - e_row)%Z with a by lia. replace (e_row + c - e_row)%Z with c by lia. unfold upd_val.
    assert (TS := two_sided m nr (herm Lower At) V T W X W2). assert (HH : meq m m (adj (herm Lower At)) (herm Lower At)) by (apply herm_herm; exact RDA).
    specialize (TS HH ltac:(reflexivity) ltac:(reflexivity) ltac:(reflexivity) a c ltac:(lia) ltac:(lia)).
    assert (HL : herm Lower At a c = At a c) by (unfold herm, in_tri; destruct (Z.leb_spec c a); [reflexivity|lia]). rewrite HL in TS. unfold X'. rewrite TS.
    assert (QB : meq m m Qm (fun i k => ident i k - block nr V T i k)).
    { intros i k Li Lk. assert (TRP := t_rec_prod m (Z.to_nat nr) V T (fun c => tauxx M0 c)). rewrite Z2Nat.id in TRP by lia. apply TRP; assumption. }
    apply mmul_ext; intros x Lx; [unfold adj, opm; rewrite QB by lia; reflexivity|]. apply mmul_ext; [reflexivity|]. intros u Lu. symmetry. apply QB; lia.
  - intros a q La Lq N. rewrite U by assumption. destruct (Z.leb_spec e_row q), (Z.leb_spec q a); try lia; cbn [andb]; rewrite G10; apply G1; lia.
  - intros r R O q Lq. destruct (TB1 r R O) as [T1 B1]. rewrite !FT by (cbn; auto). rewrite T1, B1 by exact Lq. destruct (Z.leb_spec 0 q), (Z.ltb_spec q nr); try lia. split; reflexivity.
  - intros r k N. destruct K1 as [_ K1]. split; [|intros c]; rewrite FT by (cbn; auto); apply K1; intros; try discriminate; cbn; try lia; try (intros E; injection E; lia); intros E; rewrite (ptile_x C) in E by assumption; discriminate E.
Qed.

End iter.
