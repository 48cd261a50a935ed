(** * From the steps to the result of band_to_tridiagonal *)
From Coq Require Import ZArith Lia List Bool Ring.
From Verif Require Import Loop StarField DenseSpec RefKernels HouseSpec HouseQR HouseModel SemModel SemProofs Red2BandSpec Red2BandTheory
  B2TModel B2TSched B2TFrame B2TSpec B2TResult B2TAlg B2TStore B2TCopy B2TNum.
Import ListNotations.
Local Open Scope Z_scope.

Section final.
Context {K : starfield} (lf : larfg_fn K).
Local Open Scope sf_scope.
Add Ring KringFI : (fring K).
Variables (cplx : bool) (size nb b nthreads : Z) (A : mat K).
Hypothesis Hs : (0 <= size)%Z.
Hypothesis Hb : (2 <= b)%Z.
Hypothesis Hnb : (0 < nb)%Z.
Hypothesis Hdiv : (nb mod b = 0)%Z.
Hypothesis Hth : (0 < nthreads)%Z.
Hypothesis LF : larfg_ok lf.
Hypothesis RA : real_diag size A.
Hypothesis RK : cplx = false -> forall x : F K, fconj x = x.
Notation P := (b2t lf cplx size nb b nthreads A).
Notation ok := (act_ok cplx size nb b).
Notation sweeps := (nr_sweeps cplx size).
Notation steps := (nr_steps size b).
Notation mem := (loc -> F K).
Notation L m := (low b (fun z => m (LB z))).
Notation Vm m := (fun i j => m (LHH i j)).
Notation wk s := (worker size b nthreads s).
Notation between := (between size b A).
Notation pend := (pend size b nthreads A).
Notation before := (before size b).

Definition same_work (m m' : mem) : Prop := (forall z, m' (LB z) = m (LB z)) /\ (forall w, m' (LTau w) = m (LTau w)) /\ (forall w i, m' (LVec w i) = m (LVec w i)) /\ (forall i j, m' (LHH i j) = m (LHH i j)).
Lemma pend_ext : forall s t m m', (0 <= s < sweeps)%Z -> (0 <= t < steps s)%Z -> same_work m m' -> pend s t m -> pend s t m'.
Proof using Hs Hb Hnb Hdiv Hth.
  intros s t m m' Ls Lt (EB & ET & EV & EH) PD. assert (LE : forall i c, L m' i c = L m i c) by (intros i c; apply low_ext; exact EB).
  assert (QE : meq size size (hht_product size b (Vm m') (before s t)) (hht_product size b (Vm m) (before s t))).
  { apply hht_product_ext; [intros p Ip _ r Lr; apply EH|]. intros p Ip. apply in_before in Ip as [[I1 I2]|[I1 I2]]; [| |lia]; [apply (len_pos cplx size nb b nthreads); lia|rewrite I1; apply (len_pos cplx size nb b nthreads); lia]. }
  unfold B2TNum.pend in *. cbv zeta in *. destruct PD as (V0 & TE & (Z1 & Z2 & Z3) & OR & UN & X & HX & LD & EQ). rewrite ET, EV. split; [exact V0|]. split; [|split; [|split; [|split]]].
  - erewrite norm2_ext; [exact TE|]. intros i _. apply EV.
  - split; [|split]; intros; rewrite LE; auto.
  - intros c Lc Li. rewrite !LE. apply OR; assumption.
  - eapply unitary_ext; [|exact UN]. intros i c Li Lc. symmetry. apply QE; assumption.
  - exists X. split; [exact HX|]. split; [eapply left_done_ext; [|exact LE|exact LD]; intros r _; symmetry; apply EV|].
    intros i c Li Lc. rewrite EQ by assumption. apply conj_ext; try assumption; [intros a d La Ld; symmetry; apply QE; assumption|intros a d _ _; reflexivity].
Qed.
Lemma between_ext : forall s m m', (0 <= s <= Z.max 0 sweeps)%Z -> same_work m m' -> between s m -> between s m'.
Proof using Hs Hb Hnb Hdiv Hth.
  intros s m m' Ls (EB & ET & EV & EH) ((Z1 & Z2 & Z3) & RD & OR & UN & EQ). assert (LE : forall i c, L m' i c = L m i c) by (intros i c; apply low_ext; exact EB).
  assert (QE : meq size size (hht_product size b (Vm m') (before s 0)) (hht_product size b (Vm m) (before s 0))).
  { apply hht_product_ext; [intros p Ip _ r Lr; apply EH|]. intros p Ip. apply in_before in Ip as [[I1 I2]|[I1 I2]]; [|lia|lia]. apply (len_pos cplx size nb b nthreads); lia. }
  split; [|split; [|split; [|split]]].
  - split; [|split]; intros; rewrite LE; auto.
  - intros i Li. unfold real. rewrite LE. apply RD. exact Li.
  - intros c Lc Li. rewrite !LE. apply OR; assumption.
  - eapply unitary_ext; [|exact UN]. intros i c Li Lc. symmetry. apply QE; assumption.
  - intros i c Li Lc. rewrite EQ by assumption. apply conj_ext; try assumption; [intros a d La Ld; symmetry; apply QE; assumption|]. intros x y Lx Ly. apply herm_ext. intros. symmetry. apply LE.
Qed.

(** ** The part of the result that has been copied *)
Definition tri (lo hi : Z) (m : mem) : Prop := forall i, (lo <= i < hi)%Z -> m (LTd i) = re (L m i i) /\ ((i + 1 < size)%Z -> m (LTe i) = re (L m (i + 1)%Z i)).
Lemma tri_keep : forall a lo hi m, (0 <= lo)%Z -> is_tri a = false -> (hi <= fst (cols_of size nb b a) \/ snd (cols_of size nb b a) <= lo)%Z -> tri lo hi m -> tri lo hi (sexec P a m).
Proof using Hb.
  intros a lo hi m L0 NT O T i Li. destruct (T i Li) as [T1 T2]. rewrite !(keep_col lf cplx size nb b nthreads A Hb) by lia.
  assert (W : forall l, match l with LTd _ | LTe _ => sexec P a m l = m l | _ => True end).
  { intros l. unfold sexec. cbn [wr b2t]. destruct l; try exact I; cbn [b2t_wr]; unfold tri_range, tri_last; destruct a; try discriminate NT; cbn [fst snd]; rewrite ?andb_false_r; try reflexivity;
    match goal with |- (if ?c then _ else _) = _ => replace c with false by lia; reflexivity end. }
  rewrite (W (LTd i)), (W (LTe i)). split; [exact T1|exact T2].
Qed.
(** tri_copy *)
Lemma tri_copy_work : forall st nd ne (m : mem), same_work m (tri_copy b st nd ne m).
Proof using. intros. repeat split. Qed.
Lemma low_diag : forall (m : mem) i, L m i i = m (LB (ptr b 0 i)).
Proof using Hb. intros m i. unfold low, ptr, b_ld. replace (i - i <? 2 * b)%Z with true by lia. f_equal. f_equal. ring. Qed.
Lemma low_off : forall (m : mem) i, L m (i + 1)%Z i = m (LB (ptr b 1 i)).
Proof using Hb. intros m i. unfold low, ptr, b_ld. replace (i + 1 - i <? 2 * b)%Z with true by lia. f_equal. f_equal. ring. Qed.
Lemma tri_copy_new : forall st nd ne (m m' : mem) lo, (forall l, m' l = tri_copy b st nd ne m l) -> (lo <= st)%Z -> (nd <= ne + 1)%Z -> (size <= st + nd \/ nd <= ne)%Z -> tri lo st m -> tri lo (st + nd) m'.
Proof using Hb.
  intros st nd ne m m' lo E Llo NE NS T i Li. rewrite low_diag, low_off, !E. cbn [tri_copy]. destruct (Z.ltb_spec i st) as [B|B].
  - replace (st <=? i)%Z with false by lia. cbn [andb]. destruct (T i ltac:(lia)) as [T1 T2]. rewrite low_diag in T1. rewrite low_off in T2. auto.
  - replace (st <=? i)%Z with true by lia. replace (i <? st + nd)%Z with true by lia. cbn [andb]. split; [reflexivity|]. intros I1. replace (i <? st + ne)%Z with true by lia. reflexivity.
Qed.

(** ** A sweep *)
Definition sweep_acts (s : Z) : list act := Init s :: (if (s + 1) mod nb =? 0 then [TriS s] else [])%Z ++ flat_map (fun t => [SaveV s t; Step s t]) (zrange 0 (steps s)).
Lemma steps_run : forall s m, (0 <= s < sweeps)%Z -> pend s 0 m -> forall hi, (0 <= hi <= s + 1)%Z -> tri 0 hi m -> forall t, (0 <= t <= steps s)%Z ->
  let m' := srun P (flat_map (fun t => [SaveV s t; Step s t]) (zrange 0 t)) m in (if (t <? steps s)%Z then pend s t m' else between (s + 1) m') /\ tri 0 hi m'.
Proof using Hs Hb Hnb Hdiv Hth LF.
  intros s m Ls PD hi Lhi T t [T0 T1]. revert T1. pattern t. apply natlike_ind; [| |exact T0].
  - intros _. cbn. pose proof (steps_pos cplx size nb b nthreads Hs Hb Hnb Hdiv Hth s Ls). replace (0 <? steps s)%Z with true by lia. auto.
  - clear t T0. intros t X IH Lx. rewrite <- Z.add_1_r in *. rewrite zrange_snoc by lia. rewrite flat_map_app, srun_app. cbn [flat_map app].
    specialize (IH ltac:(lia)). cbv zeta in IH |- *. destruct IH as [IH IT]. replace (t <? steps s)%Z with true in IH by lia.
    set (m1 := srun P _ m) in IH, IT |- *. cbn [srun fold_left]. destruct (save_step lf cplx size nb b nthreads A Hs Hb Hnb Hdiv Hth s t m1 Ls ltac:(lia) IH) as [P1 S1]. split.
    + apply (step_num lf cplx size nb b nthreads A Hs Hb Hnb Hdiv Hth LF s t); [exact Ls|lia|exact P1|exact S1].
    + assert (0 <= t * b)%Z by nia. apply tri_keep; [lia|reflexivity|cbn [cols_of fst snd]; lia|]. apply tri_keep; [lia|reflexivity|cbn [cols_of fst snd]; lia|exact IT].
Qed.
Lemma sweep_run : forall s m, (0 <= s < sweeps)%Z -> between s m -> tri 0 (s / nb * nb) m -> between (s + 1) (srun P (sweep_acts s) m) /\ tri 0 ((s + 1) / nb * nb) (srun P (sweep_acts s) m).
Proof using Hs Hb Hnb Hdiv Hth LF.
  intros s m Ls BT T. unfold sweep_acts. cbn [srun fold_left]. change (fold_left (fun m a => sexec P a m) ?l ?x) with (srun P l x). rewrite srun_app.
  pose proof (init_step lf cplx size nb b nthreads A Hs Hb Hnb Hdiv Hth LF s m Ls BT) as PD. pose proof (steps_pos cplx size nb b nthreads Hs Hb Hnb Hdiv Hth s Ls) as SP.
  pose proof (sweeps_le cplx size nb b nthreads Hs Hb Hnb Hdiv Hth) as SL.
  pose proof (Z.div_mod s nb ltac:(lia)) as D. pose proof (Z.mod_pos_bound s nb Hnb) as MB.
  assert (T1 : tri 0 (s / nb * nb) (sexec P (Init s) m)) by (apply tri_keep; [lia|reflexivity|cbn [cols_of fst snd]; nia|exact T]).
  set (m1 := sexec P (Init s) m) in *. clearbody m1. destruct (Z.eqb_spec ((s + 1) mod nb) 0) as [E|N].
  - pose proof (Z.div_mod (s + 1) nb ltac:(lia)) as D1. assert (EQ : ((s + 1) / nb = s / nb + 1)%Z) by nia. cbn [srun fold_left].
    assert (OK : ok (TriS s)) by (split; assumption). assert (M2 : forall l, sexec P (TriS s) m1 l = tri_copy b (s - (nb - 1)) nb nb m1 l) by (intros l; apply (sx lf cplx size nb b nthreads A Hs Hb Hnb Hdiv Hth (TriS s) m1 l OK)).
    set (m2 := sexec P (TriS s) m1) in *. clearbody m2. replace ((s + 1) / nb * nb)%Z with (s + 1)%Z by lia.
    rewrite EQ in D1. assert (SQ : (s - (nb - 1) = s / nb * nb)%Z) by lia. assert (0 <= s / nb * nb)%Z by (pose proof (Z.div_pos s nb ltac:(lia) Hnb); nia).
    assert (T2 : tri 0 (s + 1) m2). { replace (s + 1)%Z with (s - (nb - 1) + nb)%Z by lia. apply (tri_copy_new _ _ nb m1); [exact M2|lia|lia|right; lia|]. rewrite SQ. exact T1. }
    assert (P2 : pend s 0 m2). { apply (pend_ext s 0 m1); [exact Ls|lia| |exact PD]. repeat split; intros; rewrite M2; reflexivity. }
    pose proof (steps_run s m2 Ls P2 (s + 1) ltac:(lia) T2 (steps s) ltac:(lia)) as R. cbv zeta in R. rewrite Z.ltb_irrefl in R. exact R.
  - assert (EQ : ((s + 1) / nb = s / nb)%Z). { symmetry. apply (Z.div_unique _ _ _ (s mod nb + 1)); [|lia]. left. split; [lia|]. destruct (Z.eq_dec (s mod nb + 1) nb) as [Q|Q]; [|lia]. exfalso. apply N.
      replace (s + 1)%Z with ((s / nb + 1) * nb)%Z by lia. apply Z.mod_mul. lia. }
    cbn [srun fold_left]. rewrite EQ. pose proof (steps_run s m1 Ls PD (s / nb * nb) ltac:(pose proof (Z.div_pos s nb ltac:(lia) Hnb); nia) T1 (steps s) ltac:(lia)) as R. cbv zeta in R. rewrite Z.ltb_irrefl in R. exact R.
Qed.
Lemma sweeps_run : forall m s, (0 <= s <= Z.max 0 sweeps)%Z -> between 0 m -> between s (srun P (flat_map sweep_acts (zrange 0 s)) m) /\ tri 0 (s / nb * nb) (srun P (flat_map sweep_acts (zrange 0 s)) m).
Proof using Hs Hb Hnb Hdiv Hth LF.
  intros m s [S0 S1] BT. revert S1. pattern s. apply natlike_ind; [| |exact S0].
  - intros _. split; [exact BT|]. intros i Li. rewrite Z.div_0_l in Li by lia. lia.
  - intros x X IH Lx. rewrite <- Z.add_1_r in *. rewrite zrange_snoc by lia. rewrite flat_map_app, srun_app. cbn [flat_map]. rewrite app_nil_r. destruct IH as [I1 I2]; [lia|]. apply sweep_run; [lia|exact I1|exact I2].
Qed.
(** ** The end *)
Lemma re_real : forall x : F K, fconj x = x -> re x = x.
Proof using. intros x E. unfold re. rewrite E. change (fmul (fadd x x) fhalf) with ((x + x) * fhalf). transitivity (x * (fhalf + fhalf)); [ring|]. rewrite fhalf_2. ring. Qed.
Lemma at_end : forall m, between (Z.max 0 sweeps) m -> tri 0 size m -> is_tridiagonal_reduction cplx size b A (Vm m) (fun i => m (LTd i)) (fun i => m (LTe i)).
Proof using Hs Hb Hnb Hdiv Hth RK.
  intros m ((Z1 & Z2 & Z3) & RD & OR & UN & EQ) T.
  assert (LI : hht_list cplx size b = before (Z.max 0 sweeps) 0).
  { unfold hht_list, B2TNum.before. change (map (pair (Z.max 0 sweeps)) (zrange 0 0)) with (@nil (Z * Z)). rewrite app_nil_r. change (hht_sweeps cplx size) with sweeps. change (hht_count size b) with steps.
    destruct (Z.leb_spec 0 sweeps); [rewrite Z.max_r by lia; reflexivity|]. rewrite Z.max_l by lia. rewrite !zrange_nil by lia. reflexivity. }
  assert (SW : sweeps = if cplx then (size - 1)%Z else (size - 2)%Z) by reflexivity.
  assert (OF : forall i, (0 <= i < size - 1)%Z -> fconj (L m (i + 1)%Z i) = L m (i + 1)%Z i).
  { intros i Li. destruct cplx eqn:C; [apply OR; lia|]. apply RK. reflexivity. }
  assert (DE : forall i, (0 <= i < size)%Z -> m (LTd i) = L m i i) by (intros i Li; rewrite (proj1 (T i Li)); apply re_real; apply RD; exact Li).
  assert (EE : forall i, (0 <= i < size - 1)%Z -> m (LTe i) = L m (i + 1)%Z i) by (intros i Li; rewrite (proj2 (T i ltac:(lia))) by lia; apply re_real; apply OF; exact Li).
  unfold is_tridiagonal_reduction. rewrite LI. split; [exact UN|]. split; [intros i Li; rewrite DE by exact Li; apply RD; exact Li|]. split; [intros i Li; rewrite EE by exact Li; apply OF; exact Li|].
  intros i c Li Lc. rewrite EQ by assumption. apply conj_ext; try assumption; [intros ? ? _ _; reflexivity|]. clear i c Li Lc. intros i c Li Lc.
  assert (ZZ : forall i c, (0 <= c)%Z -> (c + 1 < i < size)%Z -> L m i c = 0) by (intros x y L0 Lx; destruct (Z.ltb_spec y (Z.max 0 sweeps)); [apply Z1; lia|destruct cplx; lia]).
  unfold herm, in_tri, tridiag. destruct (Z.leb_spec c i) as [C|C].
  - destruct (Z.eqb_spec i c) as [->|N]; [symmetry; apply DE; exact Lc|]. destruct (Z.eqb_spec i (c + 1)) as [->|N1]; [symmetry; apply EE; lia|]. replace (c =? i + 1)%Z with false by lia. apply ZZ; lia.
  - replace (i =? c)%Z with false by lia. replace (i =? c + 1)%Z with false by lia. destruct (Z.eqb_spec c (i + 1)) as [->|N1]; [rewrite OF by lia; symmetry; apply EE; lia|]. rewrite ZZ by lia. apply fconj_0.
Qed.
Lemma tri_final : forall i m lo, i = size \/ (i = size - 1)%Z /\ extra_tri cplx size nb = true -> (0 < size)%Z -> (0 <= lo)%Z -> tri lo (tri_start nb i) m -> (lo <= tri_start nb i)%Z ->
  let m' := sexec P (TriF i) m in same_work m m' /\ tri lo (tri_start nb i + tri_nd size nb i) m'.
Proof using Hs Hb Hnb Hdiv Hth.
  intros i m lo OK SZ L0 T LT. cbv zeta. assert (M' : forall l, sexec P (TriF i) m l = tri_copy b (tri_start nb i) (tri_nd size nb i) (tri_ne size nb i) m l) by (intros l; apply (sx lf cplx size nb b nthreads A Hs Hb Hnb Hdiv Hth (TriF i) m l OK)).
  split; [repeat split; intros; rewrite M'; reflexivity|]. apply (tri_copy_new _ _ (tri_ne size nb i) m); [exact M'|exact LT| | |exact T]; unfold tri_nd, tri_ne; lia.
Qed.
Theorem seq_result : forall m0, (0 < size)%Z -> let m := srun P (b2t_seq cplx size nb b) m0 in is_tridiagonal_reduction cplx size b A (Vm m) (fun i => m (LTd i)) (fun i => m (LTe i)).
Proof using Hs Hb Hnb Hdiv Hth LF RA RK.
  intros m0 SZ. cbv zeta. unfold b2t_seq. replace (size =? 0)%Z with false by lia. rewrite !srun_app.
  assert (NT : (0 <= nt size nb)%Z) by (pose proof (nt_lt size nb b nthreads Hs Hb Hnb Hdiv Hth (-1)); lia).
  pose proof (copy_run lf cplx size nb b nthreads A Hs Hb Hnb Hdiv Hth (nt size nb) m0 ltac:(lia)) as C. unfold copy_acts in C.
  set (m1 := srun P (flat_map _ (zrange 0 (nt size nb))) m0) in *. clearbody m1.
  assert (B0 := start size nb b nthreads A Hs Hb Hnb Hdiv Hth RA m1 C).
  destruct (sweeps_run m1 (Z.max 0 sweeps) ltac:(lia) B0) as [B1 T1]. unfold sweep_acts in B1, T1.
  replace (zrange 0 (Z.max 0 sweeps)) with (zrange 0 sweeps) in B1, T1 by (destruct (Z.leb_spec 0 sweeps); [rewrite Z.max_r by lia; reflexivity|rewrite Z.max_l by lia; rewrite !zrange_nil by lia; reflexivity]).
  set (m2 := srun P (flat_map _ (zrange 0 sweeps)) m1) in *. clearbody m2.
  assert (NB2 : (2 <= nb)%Z) by (destruct (nb_b size nb b nthreads Hs Hb Hnb Hdiv Hth) as (q & E & Lq); nia).
  assert (SW : sweeps = if cplx then (size - 1)%Z else (size - 2)%Z) by reflexivity.
  assert (TS : tri_start nb size = ((size - 1) / nb * nb)%Z) by (unfold tri_start; rewrite Z.quot_div_nonneg by lia; reflexivity).
  pose proof (Z.div_mod (size - 1) nb ltac:(lia)) as D. pose proof (Z.mod_pos_bound (size - 1) nb Hnb) as MB.
  assert (D0 : (0 <= (size - 1) / nb)%Z) by (apply Z.div_pos; lia).
  assert (FIN : forall m, between (Z.max 0 sweeps) m -> tri 0 ((size - 1) / nb * nb) m -> is_tridiagonal_reduction cplx size b A (Vm (sexec P (TriF size) m)) (fun i => sexec P (TriF size) m (LTd i)) (fun i => sexec P (TriF size) m (LTe i))).
  { intros m BM TM. rewrite <- TS in TM. destruct (tri_final size m 0 (or_introl eq_refl) SZ ltac:(lia) TM ltac:(nia)) as [SW' T']. apply at_end; [apply (between_ext _ m); [lia|exact SW'|exact BM]|].
    replace (tri_start nb size + tri_nd size nb size)%Z with size in T' by (unfold tri_nd; rewrite TS; lia). exact T'. }
  cbn [srun fold_left]. apply FIN.
  - destruct (extra_tri cplx size nb) eqn:X; cbn [fold_left]; [|exact B1].
    apply (between_ext _ m2); [lia| |exact B1]. assert (M' := fun l => sx lf cplx size nb b nthreads A Hs Hb Hnb Hdiv Hth (TriF (size - 1)) m2 l (or_intror (conj eq_refl X))). split; [|split; [|split]]; intros; change (srun P [TriF (size - 1)] m2) with (sexec P (TriF (size - 1)) m2); rewrite M'; reflexivity.
  - destruct (extra_tri cplx size nb) eqn:X; cbn [fold_left].
    + unfold extra_tri in X. apply andb_prop in X as [X1 X2]. assert (CF : cplx = false) by (destruct cplx; [discriminate X1|reflexivity]). apply Z.eqb_eq in X2.
      assert (SW2 : sweeps = (size - 2)%Z) by (rewrite SW, CF; reflexivity). destruct (Z.eq_dec size 1) as [E1|N1]; [intros i Li; rewrite E1 in Li; change (1 - 1)%Z with 0%Z in Li; rewrite Z.div_0_l in Li by lia; lia|].
      assert (T2 : ((size - 2) / nb = (size - 1) / nb - 1)%Z) by (symmetry; apply (Z.div_unique _ _ _ (nb - 1)); lia).
      assert (TS1 : tri_start nb (size - 1) = ((size - 2) / nb * nb)%Z) by (unfold tri_start; replace (size - 1 - 1)%Z with (size - 2)%Z by lia; rewrite Z.quot_div_nonneg by lia; reflexivity).
      assert (1 <= (size - 1) / nb)%Z by nia. rewrite SW2, Z.max_r in T1 by lia. rewrite <- TS1 in T1.
      destruct (tri_final (size - 1) m2 0) as [_ T']; [right; split; [reflexivity|unfold extra_tri; rewrite CF; cbn [negb andb]; lia]|exact SZ|lia|exact T1|rewrite TS1; nia|].
      replace (tri_start nb (size - 1) + tri_nd size nb (size - 1))%Z with ((size - 1) / nb * nb)%Z in T'; [exact T'|]. unfold tri_nd. rewrite TS1, T2. nia.
    + destruct (Z.eq_dec size 1) as [E1|N1]; [intros i Li; rewrite E1 in Li; change (1 - 1)%Z with 0%Z in Li; rewrite Z.div_0_l in Li by lia; lia|].
      replace ((size - 1) / nb * nb)%Z with (Z.max 0 sweeps / nb * nb)%Z; [exact T1|]. rewrite SW. destruct cplx; [rewrite Z.max_r by lia; reflexivity|]. rewrite Z.max_r by lia. unfold extra_tri in X. cbn [negb andb] in X.
      f_equal. symmetry. apply (Z.div_unique _ _ _ ((size - 1) mod nb - 1)) ; [lia|]. lia.
Qed.
End final.
Section results.
Context {K : starfield}.
Local Open Scope sf_scope.
Add Ring KringRS : (fring K).
Lemma hht_ext : forall N b (V V' : mat K) p i c, (forall i j, V i j = V' i j) -> hht N b V p i c = hht N b V' p i c.
Proof. intros N b V V' p i c E. unfold hht. rewrite E. apply reflector_ext. intros x. unfold hht_vec. rewrite E. reflexivity. Qed.
Lemma product_ext : forall N b (V V' : mat K) ps, (forall i j, V i j = V' i j) -> meq N N (hht_product N b V ps) (hht_product N b V' ps).
Proof.
  intros N b V V' ps E. unfold hht_product. rewrite <- !fold_left_rev_right. induction (rev ps) as [|p l IH]; intros i j Li Lj; [reflexivity|]. cbn [fold_right].
  apply mmul_ext; intros r Lr; [apply IH; assumption|apply hht_ext; exact E].
Qed.
Lemma reduction_ext : forall cplx N b (A V V' : mat K) d d' e e', (forall i j, V i j = V' i j) -> (forall i, d i = d' i) -> (forall i, e i = e' i) ->
  is_tridiagonal_reduction cplx N b A V d e -> is_tridiagonal_reduction cplx N b A V' d' e'.
Proof.
  intros cplx N b A V V' d d' e e' EV ED EE (U & D & E & EQ). pose proof (product_ext N b V V' (hht_list cplx N b) EV) as QE. split; [eapply unitary_ext; [exact QE|exact U]|].
  split; [intros i Li; rewrite <- ED; apply D; exact Li|]. split; [intros i Li; rewrite <- EE; apply E; exact Li|]. intros i c Li Lc. rewrite EQ by assumption. apply conj_ext; try assumption.
  intros x y Lx Ly. unfold tridiag. rewrite ED, !EE. reflexivity.
Qed.
Lemma mvec_mmul : forall N (M M' : mat K) y i, mvec N (mmul N M M') y i = mvec N M (mvec N M' y) i.
Proof. intros N M M' y i. exact (mmul_assoc N N M M' (fun r (_ : Z) => y r) i 0%Z). Qed.
Lemma mvec_ext : forall N (M M' : mat K) y y' i, (forall r, (0 <= r < N)%Z -> M i r = M' i r) -> (forall r, (0 <= r < N)%Z -> y r = y' r) -> mvec N M y i = mvec N M' y' i.
Proof. intros N M M' y y' i E1 E2. apply fsum_ext. intros r Lr. rewrite E1, E2 by exact Lr. reflexivity. Qed.
Lemma mvec_scale : forall N (M : mat K) lam y i, mvec N M (fun r => lam * y r) i = lam * mvec N M y i.
Proof. intros N M lam y i. unfold mvec. rewrite <- fsum_mul_l. apply fsum_ext. intros r _. ring. Qed.
Lemma mvec_ident : forall N y i, (0 <= i < N)%Z -> mvec N (ident : mat K) y i = y i.
Proof. intros N y i Li. exact (mmul_ident_l N (fun r (_ : Z) => y r) i 0%Z Li). Qed.
Lemma eigen_conj : forall N (B Q T : mat K), unitary N Q -> meq N N B (conjugate N Q T) -> forall lam y, is_eigenpair N T lam y <-> is_eigenpair N B lam (mvec N Q y).
Proof.
  intros N B Q T [U1 U2] E lam y.
  assert (UI : forall z i, (0 <= i < N)%Z -> mvec N (adj Q) (mvec N Q z) i = z i).
  { intros z i Li. rewrite <- mvec_mmul. rewrite (mvec_ext N _ ident z z i); [apply mvec_ident; exact Li|intros r Lr; apply U1; assumption|reflexivity]. }
  assert (BQ : forall i, (0 <= i < N)%Z -> mvec N B (mvec N Q y) i = mvec N Q (mvec N T y) i).
  { intros i Li. rewrite (mvec_ext N B (conjugate N Q T) _ (mvec N Q y) i) by (try reflexivity; intros r Lr; apply E; assumption). unfold conjugate. rewrite mvec_mmul. apply mvec_ext; [reflexivity|]. intros r Lr.
    rewrite mvec_mmul. apply mvec_ext; [reflexivity|]. intros x Lx. apply UI. exact Lx. }
  split; intros H i Li.
  - rewrite BQ by exact Li. rewrite <- mvec_scale. apply mvec_ext; [reflexivity|exact H].
  - rewrite <- (UI (mvec N T y) i Li). transitivity (lam * mvec N (adj Q) (mvec N Q y) i); [|rewrite UI by exact Li; reflexivity]. rewrite <- mvec_scale. apply mvec_ext; [reflexivity|]. intros r Lr. rewrite <- BQ by exact Lr. apply H. exact Lr.
Qed.
End results.
