(** * band_to_tridiagonal computes a unitary reduction to tridiagonal form *)
From Coq Require Import ZArith Lia List Bool Ring.
From Verif Require Import Loop StarField DenseSpec RefKernels HouseSpec HouseQR HouseModel SemModel SemProofs Red2BandSpec Red2BandTheory
  B2TModel B2TSched B2TFrame B2TSpec B2TResult B2TAlg B2TStore B2TCopy.
Import ListNotations.
Local Open Scope Z_scope.

Section ext.
Context {K : starfield}.
Local Open Scope sf_scope.
Add Ring KringNX : (fring K).
Lemma low_ext : forall b (B B' : Z -> F K) i c, (forall z, B z = B' z) -> low b B i c = low b B' i c.
Proof. intros b B B' i c E. unfold low. rewrite E. reflexivity. Qed.
Lemma at_rows_ext : forall j n (v v' : Z -> F K) i, (forall r, (0 <= r < n)%Z -> v r = v' r) -> at_rows j n v i = at_rows j n v' i.
Proof. intros j n v v' i E. unfold at_rows. destruct ((j <=? i) && (i <? j + n))%Z eqn:C; [apply E; lia|reflexivity]. Qed.
Lemma reflector_ext : forall (tau : F K) v v' i j, (forall i, v i = v' i) -> reflector tau v i j = reflector tau v' i j.
Proof. intros tau v v' i j E. unfold reflector. rewrite !E. reflexivity. Qed.
Lemma left_done_ext : forall N j n (v v' : Z -> F K) tau X S S', (forall r, (0 <= r < n)%Z -> v r = v' r) -> (forall i c, S' i c = S i c) -> left_done N j n v tau X S -> left_done N j n v' tau X S'.
Proof.
  intros N j n v v' tau X S S' EV ES L i c Lc Li. rewrite ES, L by assumption. destruct ((c <? j) && (j <=? i))%Z; [|reflexivity].
  apply mmul_ext; [|reflexivity]. intros r _. unfold adj, opm. f_equal. apply reflector_ext. intros x. apply at_rows_ext. exact EV.
Qed.
Lemma herm_ext : forall (S S' : mat K) i c, (forall i c, S i c = S' i c) -> herm Lower S i c = herm Lower S' i c.
Proof. intros S S' i c E. unfold herm. rewrite !E. reflexivity. Qed.
Lemma hht_product_ext : forall N b (V V' : mat K) ps, (forall p, In p ps -> (0 < hht_len N b (fst p) (snd p))%Z -> forall r, (0 <= r < hht_len N b (fst p) (snd p))%Z -> V (hht_pos b (fst p) (snd p) + r)%Z (fst p) = V' (hht_pos b (fst p) (snd p) + r)%Z (fst p)) ->
  (forall p, In p ps -> (0 < hht_len N b (fst p) (snd p))%Z) -> meq N N (hht_product N b V ps) (hht_product N b V' ps).
Proof.
  intros N b V V' ps. unfold hht_product. rewrite <- !fold_left_rev_right. intros E P.
  assert (E' : forall p, In p (rev ps) -> forall r, (0 <= r < hht_len N b (fst p) (snd p))%Z -> V (hht_pos b (fst p) (snd p) + r)%Z (fst p) = V' (hht_pos b (fst p) (snd p) + r)%Z (fst p))
    by (intros p Ip; apply in_rev in Ip; apply E; auto).
  assert (P' : forall p, In p (rev ps) -> (0 < hht_len N b (fst p) (snd p))%Z) by (intros p Ip; apply in_rev in Ip; auto).
  clear E P. induction (rev ps) as [|p l IH]; intros i j Li Lj; [reflexivity|]. cbn [fold_right]. apply mmul_ext; intros r Lr.
  - apply IH; [intros q Iq; apply E'; right; exact Iq|intros q Iq; apply P'; right; exact Iq|assumption|assumption].
  - specialize (E' p (or_introl eq_refl)). specialize (P' p (or_introl eq_refl)). unfold hht. pose proof (E' 0%Z ltac:(lia)) as E0. rewrite Z.add_0_r in E0. rewrite E0. apply reflector_ext. intros x. unfold hht_vec.
    destruct (x =? hht_start b (fst p) (snd p))%Z; [reflexivity|]. destruct ((hht_start b (fst p) (snd p) <? x) && (x <? hht_start b (fst p) (snd p) + hht_len N b (fst p) (snd p)))%Z eqn:C; [|reflexivity]. apply E'. lia.
Qed.
Lemma hht_product_snoc : forall N b (V : mat K) ps p, hht_product N b V (ps ++ [p]) = mmul N (hht_product N b V ps) (hht N b V p).
Proof. intros. unfold hht_product. rewrite fold_left_app. reflexivity. Qed.
End ext.

Section num.
Context {K : starfield} (lf : larfg_fn K).
Local Open Scope sf_scope.
Add Ring KringNU : (fring K).
Variables (cplx : bool) (size nb b nthreads : Z) (A : mat K).
Hypothesis Hs : (0 <= size)%Z.
Hypothesis Hb : (2 <= b)%Z.
Hypothesis Hnb : (0 < nb)%Z.
Hypothesis Hdiv : (nb mod b = 0)%Z.
Hypothesis Hth : (0 < nthreads)%Z.
Hypothesis LF : larfg_ok lf.
Hypothesis RA : real_diag size A.
Notation nt := (nt size nb).
Notation P := (b2t lf cplx size nb b nthreads A).
Notation ok := (act_ok cplx size nb b).
Notation sweeps := (nr_sweeps cplx size).
Notation steps := (nr_steps size b).
Notation mem := (loc -> F K).
Notation L m := (low b (fun z => m (LB z))).
Notation Vm m := (fun i j => m (LHH i j)).
Notation AB := (band b (herm Lower A)).
Notation wk s := (worker size b nthreads s).

Lemma sx : forall a (m : mem) l, ok a -> sexec P a m l = b2t_eff lf size nb b nthreads A a m l.
Proof using Hs Hb Hnb Hdiv Hth.
  intros a m l OK. unfold sexec. cbn [wr eff b2t]. destruct (b2t_wr size nb b nthreads a l) eqn:W; [reflexivity|]. symmetry. apply (eff_outside lf cplx size nb b nthreads A); assumption.
Qed.
Lemma keep_col : forall a (m : mem) i c, (0 <= c <= i)%Z -> (c < fst (cols_of size nb b a) \/ snd (cols_of size nb b a) <= c)%Z -> L (sexec P a m) i c = L m i c.
Proof using Hb.
  intros a m i c Lc O. unfold low. destruct (Z.ltb_spec (i - c) (2 * b)); [|reflexivity]. unfold sexec. cbn [wr b2t b2t_wr].
  replace (touches size nb b a (c * (2 * b) + (i - c))) with false; [reflexivity|]. unfold touches. cbv zeta. rewrite Z.add_comm, Z.div_add, Z.div_small by lia. lia.
Qed.

(** ** Copy *)
Definition copied (k : Z) (m : mem) : Prop := forall i c, (0 <= c < k * nb)%Z -> (c <= i < size)%Z -> L m i c = if (b <? i - c)%Z then 0 else A i c.
Definition copy_acts (k : Z) : list act := CopyD k :: (if (k <? nt - 1)%Z then [CopyO k] else []).
Lemma copy_step : forall k m, (0 <= k < nt)%Z -> copied k m -> copied (k + 1) (srun P (copy_acts k) m).
Proof using Hs Hb Hnb Hdiv Hth.
  intros k m Lk C i c Lc Li. assert (NK : forall k, (k < nt <-> k * nb < size)%Z) by apply (nt_lt size nb b nthreads Hs Hb Hnb Hdiv Hth).
  assert (TK : (tsz size nb k = Z.min nb (size - k * nb))%Z) by reflexivity. assert (SK := proj1 (NK k) (proj2 Lk)).
  destruct (Z.ltb_spec c (k * nb)) as [O|I].
  - rewrite <- C by lia. unfold copy_acts. destruct (k <? nt - 1)%Z; cbn [srun fold_left].
    + rewrite !keep_col; try reflexivity; try lia; cbn [cols_of fst snd]; lia.
    + rewrite !keep_col; try reflexivity; try lia; cbn [cols_of fst snd]; lia.
  - assert (D : L (sexec P (CopyD k) m) i c = if (b <? i - c)%Z then 0 else if ((c <? k * nb + tsz size nb k - b) || (i <? k * nb + tsz size nb k))%Z then A i c else L m i c).
    { rewrite <- (copy_diag_low size nb b A Hs Hb Hnb k (fun z => m (LB z)) i c Lk) by lia. apply low_ext. intros z. rewrite sx by exact Lk. reflexivity. }
    unfold copy_acts. destruct (Z.ltb_spec k (nt - 1)) as [N|N]; cbn [srun fold_left].
    + assert (OK : ok (CopyO k)) by (cbn; lia). assert (S1 := proj1 (NK (k + 1)%Z) ltac:(lia)).
      rewrite (low_ext b _ (copy_off_diag size nb b A k (fun z => sexec P (CopyD k) m (LB z)))) by (intros z; rewrite sx by exact OK; reflexivity).
      rewrite (copy_off_low size nb b A Hs Hb Hnb Hdiv) by lia. rewrite D.
      destruct (Z.ltb_spec b (i - c)); [replace (i - c <=? b)%Z with false by lia; rewrite andb_false_r; reflexivity|]. replace (i - c <=? b)%Z with true by lia. rewrite andb_true_r.
      destruct (Z.leb_spec ((k + 1) * nb) i); [reflexivity|]. replace (i <? k * nb + tsz size nb k)%Z with true by lia. rewrite orb_true_r. reflexivity.
    + rewrite D. destruct (b <? i - c)%Z; [reflexivity|]. assert (~ (k + 1 < nt)%Z) by lia. assert (~ ((k + 1) * nb < size)%Z) by (rewrite <- NK; assumption).
      replace (i <? k * nb + tsz size nb k)%Z with true by lia. rewrite orb_true_r. reflexivity.
Qed.
Lemma copy_run : forall k m, (0 <= k <= nt)%Z -> copied k (srun P (flat_map copy_acts (zrange 0 k)) m).
Proof using Hs Hb Hnb Hdiv Hth.
  intros k m [K0 K1]. revert K1. pattern k. apply natlike_ind; [| |exact K0].
  - intros _ i c Lc. lia.
  - intros x X IH Lx. rewrite <- Z.add_1_r in *. rewrite zrange_snoc by lia. rewrite flat_map_app, srun_app. cbn [flat_map]. rewrite app_nil_r. apply copy_step; [lia|]. apply IH. lia.
Qed.

(** ** The invariants *)
Definition before (s t : Z) : list (Z * Z) := flat_map (fun sw => map (pair sw) (zrange 0 (steps sw))) (zrange 0 s) ++ map (pair s) (zrange 0 t).
Notation QP m ps := (hht_product size b (Vm m) ps).
(** where zeros are stored: sweep s, t steps done *)
Definition zeros (s t : Z) (S : mat K) : Prop :=
  (forall i c, (0 <= c <= s)%Z -> (c + 1 < i < size)%Z -> S i c = 0) /\
  (forall i c, (s < c <= i)%Z -> (i < size)%Z -> (1 + s + ((c - s - 1) / b + 2) * b <= i)%Z -> S i c = 0) /\
  (forall t' i, (0 <= t' < t)%Z -> (1 + s + t' * b + b < i < size)%Z -> S i (1 + s + t' * b)%Z = 0).
(** before sweep s *)
Definition zeros_b (s : Z) (S : mat K) : Prop :=
  (forall i c, (0 <= c < s)%Z -> (c + 1 < i < size)%Z -> S i c = 0) /\
  (forall i, (s + b < i < size)%Z -> S i s = 0) /\
  (forall i c, (s < c <= i)%Z -> (i < size)%Z -> (1 + s + ((c - s - 1) / b + 2) * b <= i)%Z -> S i c = 0).
Definition offreal (s : Z) (S : mat K) : Prop := forall c, (0 <= c < s)%Z -> (c + 1 < size)%Z -> fconj (S (c + 1)%Z c) = S (c + 1)%Z c.
Definition between (s : Z) (m : mem) : Prop :=
  zeros_b s (L m) /\ real_diag size (L m) /\ offreal s (L m) /\ unitary size (QP m (before s 0)) /\
  meq size size AB (conjugate size (QP m (before s 0)) (herm Lower (L m))).
Definition pend (s t : Z) (m : mem) : Prop :=
  let j := (1 + s + t * b)%Z in let n := Z.min b (size - j) in
  let v := fun i => m (LVec (wk s) i) in let tau := m (LTau (wk s)) in
  v 0%Z = 1 /\ tau + fconj tau = tau * fconj tau * norm2 n v /\
  zeros s t (L m) /\ offreal (s + 1) (L m) /\ unitary size (QP m (before s t)) /\
  exists X, hermitian size X /\ left_done size j n v tau X (L m) /\ meq size size AB (conjugate size (QP m (before s t)) X).
(** the reflector of the pending step is in mat_v *)
Definition saved (s t : Z) (m : mem) : Prop :=
  m (LHH (hht_pos b s t) s) = m (LTau (wk s)) /\ forall r, (1 <= r < hht_len size b s t)%Z -> m (LHH (hht_pos b s t + r)%Z s) = m (LVec (wk s) r).

Lemma band_AB : forall i c, (0 <= c <= i)%Z -> AB i c = if (b <? i - c)%Z then 0 else A i c.
Proof using. intros i c Lc. unfold band, herm, in_tri. replace (c <=? i)%Z with true by lia. replace (Z.abs (i - c) <=? b)%Z with (negb (b <? i - c)%Z) by lia. destruct (b <? i - c)%Z; reflexivity. Qed.
Lemma AB_hermitian : hermitian size AB.
Proof using RA.
  intros i c Li Lc. unfold band. replace (Z.abs (c - i)) with (Z.abs (i - c)) by lia. destruct (Z.abs (i - c) <=? b)%Z; [|apply fconj_0]. apply (hermitian_herm size A RA); assumption.
Qed.
Lemma start : forall m, copied nt m -> between 0 m.
Proof using Hs Hb Hnb Hdiv Hth RA.
  intros m C. assert (C' : forall i c, (0 <= c <= i)%Z -> (i < size)%Z -> L m i c = AB i c).
  { intros i c Lc Li. rewrite band_AB by lia. apply C; [|lia]. pose proof (nt_lt size nb b nthreads Hs Hb Hnb Hdiv Hth nt). lia. }
  assert (Q0 : before 0 0 = []) by reflexivity. unfold between. rewrite Q0. cbn [hht_product fold_left].
  assert (HA := AB_hermitian). split; [|split; [|split; [|split]]].
  - split; [intros i c Lc; lia|]. split.
    + intros i Li. rewrite C', band_AB by lia. replace (b <? i - 0)%Z with true by lia. reflexivity.
    + intros i c Lc Li LL. rewrite C', band_AB by lia. replace (b <? i - c)%Z with true; [reflexivity|]. pose proof (Z.mod_pos_bound (c - 0 - 1) b ltac:(lia)). pose proof (Z.div_mod (c - 0 - 1) b ltac:(lia)). nia.
  - intros i Li. unfold real. rewrite C' by lia. apply HA; assumption.
  - intros c Lc. lia.
  - apply unitary_ident.
  - assert (E : meq size size (herm Lower (L m)) AB) by (apply herm_lower; [exact HA|intros i c Lc Li; apply C'; lia]).
    intros i c Li Lc. symmetry. rewrite (conj_ext size ident ident (herm Lower (L m)) AB) by (try assumption; intros ? ? _ _; reflexivity).
    unfold conjugate. rewrite mmul_ident_l by exact Li. rewrite (mmul_ext size AB AB _ ident) by (intros; first [apply adj_ident|reflexivity]). apply mmul_ident_r. exact Lc.
Qed.

Lemma in_before : forall s t p, (0 <= s)%Z -> In p (before s t) -> ((0 <= fst p < s)%Z /\ (0 <= snd p < steps (fst p))%Z) \/ (fst p = s /\ (0 <= snd p < t)%Z).
Proof using.
  intros s t p Ls I. unfold before in I. apply in_app_or in I as [I|I].
  - apply in_flat_map in I as (sw & Is & Ip). apply in_map_iff in Ip as (st & <- & Ist). apply in_zrange in Is, Ist. cbn. auto.
  - apply in_map_iff in I as (st & <- & Ist). apply in_zrange in Ist. cbn. auto.
Qed.
Lemma len_pos : forall s t, (0 <= s < sweeps)%Z -> (0 <= t < steps s)%Z -> (0 < hht_len size b s t)%Z.
Proof using Hs Hb Hnb Hdiv Hth.
  intros s t Ls Lt. unfold hht_len, hht_start. pose proof (proj1 (steps_lt cplx size nb b nthreads Hs Hb Hnb Hdiv Hth s t Ls) (proj2 Lt)) as H. pose proof (sweeps_le cplx size nb b nthreads Hs Hb Hnb Hdiv Hth) as SL.
  destruct (Z.eqb_spec s (size - 2)); [assert (t = 0%Z) by lia; subst t; lia|lia].
Qed.
Lemma before_snoc : forall s t, (0 <= t)%Z -> before s (t + 1) = before s t ++ [(s, t)].
Proof using. intros s t Lt. unfold before. rewrite zrange_snoc by lia. rewrite map_app, app_assoc. reflexivity. Qed.
Lemma before_next : forall s, (0 <= s)%Z -> before (s + 1) 0 = before s (steps s).
Proof using. intros s Ls. unfold before. rewrite zrange_snoc by lia. rewrite flat_map_app. cbn [flat_map map]. rewrite !app_nil_r. reflexivity. Qed.

(** ** The transitions *)
Lemma init_step : forall s m, (0 <= s < sweeps)%Z -> between s m -> pend s 0 (sexec P (Init s) m).
Proof using Hs Hb Hnb Hdiv Hth LF.
  intros s m Ls ((Z1 & Z2 & Z3) & RD & OR & UN & EQ). assert (OK : ok (Init s)) by exact Ls.
  pose proof (sweeps_le cplx size nb b nthreads Hs Hb Hnb Hdiv Hth) as SL.
  set (m' := sexec P (Init s) m). assert (M' : forall l, m' l = put m (wk s) (start_sweep lf size b s (fun i => m (LVec (wk s) i)) (m_band m)) l) by (intros l; apply (sx (Init s) m l OK)). clearbody m'.
  unfold start_sweep in M'. set (n := Z.min (size - s - 1) b) in *.
  assert (HS : hermitian size (herm Lower (L m))) by (apply hermitian_herm; exact RD).
  pose proof (new_refl lf b Hb LF size n 1 s (fun i => m (LVec (wk s) i)) (m_band m) ltac:(lia) ltac:(lia) ltac:(lia) ltac:(lia) HS) as NR.
  unfold new_reflector in NR. change (1 <? 1)%Z with false in NR. cbv iota in NR. destruct (hh_reflector lf n (fun i => m (LVec (wk s) i)) (m_band m) (ptr b 1 s)) as [[tau v] B'].
  destruct NR as (V0 & TE & LD & ZC & RC & UC). { intros r c Lr Lc. apply Z1; lia. }
  assert (LE : forall i c, L m' i c = low b B' i c) by (intros i c; apply low_ext; intros z; apply M').
  assert (TV : m' (LTau (wk s)) = tau) by (rewrite M'; unfold put; rewrite Z.eqb_refl; reflexivity).
  assert (VV : forall i, m' (LVec (wk s) i) = v i) by (intros i; rewrite M'; unfold put; rewrite Z.eqb_refl; reflexivity).
  assert (HH : forall i j, m' (LHH i j) = m (LHH i j)) by (intros i j; rewrite M'; reflexivity).
  assert (QE : meq size size (QP m' (before s 0)) (QP m (before s 0))).
  { apply hht_product_ext; [intros p Ip _ r Lr; apply HH|]. intros p Ip. apply in_before in Ip as [[I1 I2]|[I1 I2]]; [|lia|lia]. apply len_pos; lia. }
  unfold pend. cbv zeta. replace (1 + s + 0 * b)%Z with (s + 1)%Z by lia. replace (Z.min b (size - (s + 1))) with n by (unfold n; lia). rewrite TV, VV.
  split; [exact V0|]. split; [rewrite (norm2_ext n (fun i => m' (LVec (wk s) i)) v) by (intros; apply VV); exact TE|]. split; [|split; [|split]].
  - split; [|split].
    + intros i c Lc Li. rewrite LE. destruct (Z.eq_dec c s) as [->|N]; [|rewrite UC by lia; apply Z1; lia].
      destruct (Z.ltb_spec i (s + 1 + n)); [apply ZC; lia|]. rewrite UC by lia. apply Z2. lia.
    + intros i c Lc Li LL. rewrite LE. rewrite UC by lia. apply Z3; lia.
    + intros t' i Lt. lia.
  - intros c Lc Li. rewrite LE. destruct (Z.eq_dec c s) as [->|N]; [exact RC|]. rewrite UC by lia. apply OR; lia.
  - eapply unitary_ext; [|exact UN]. intros i c Li Lc. symmetry. apply QE; assumption.
  - exists (herm Lower (L m)). split; [exact HS|]. split.
    + eapply left_done_ext; [|exact LE|exact LD]. intros r _. symmetry. apply VV.
    + intros i c Li Lc. rewrite EQ by assumption. apply conj_ext; try assumption; [intros a d La Ld; symmetry; apply QE; assumption|intros a d _ _; reflexivity].
Qed.
Lemma hh_row_eq : forall s t, hh_row nb b s t = hht_pos b s t.
Proof using Hs Hb Hnb Hdiv Hth.
  intros s t. destruct (nb_b size nb b nthreads Hs Hb Hnb Hdiv Hth) as (q & E & Lq). unfold hh_row, hht_pos. cbv zeta.
  set (e := (s mod nb / b * b + t * b)%Z). assert (EE : ((s / nb + e / nb) * nb + e mod nb = s / nb * nb + e)%Z) by (pose proof (Z.div_mod e nb ltac:(lia)); lia). rewrite EE. unfold e.
  pose proof (Z.div_mod s nb ltac:(lia)) as D. assert (SB : (s / b = s / nb * q + s mod nb / b)%Z).
  { rewrite D at 1. replace (nb * (s / nb) + s mod nb)%Z with (s mod nb + (s / nb * q) * b)%Z by (rewrite E; lia). rewrite Z.div_add by lia. lia. }
  rewrite SB. rewrite E at 2. lia.
Qed.
Lemma pos_apart : forall s t t', (0 <= t' < t)%Z -> (hht_pos b s t' + hht_len size b s t' <= hht_pos b s t)%Z.
Proof using Hb. intros s t t' Lt. unfold hht_pos, hht_len. nia. Qed.
Lemma save_step : forall s t m, (0 <= s < sweeps)%Z -> (0 <= t < steps s)%Z -> pend s t m -> pend s t (sexec P (SaveV s t) m) /\ saved s t (sexec P (SaveV s t) m).
Proof using Hs Hb Hnb Hdiv Hth.
  intros s t m Ls Lt PD. assert (OK : ok (SaveV s t)) by (split; assumption).
  set (m' := sexec P (SaveV s t) m). assert (M' : forall l, m' l = b2t_eff lf size nb b nthreads A (SaveV s t) m l) by (intros l; apply (sx (SaveV s t) m l OK)). clearbody m'. cbn [b2t_eff] in M'.
  assert (SZ : size_hhr size b (wid s t) = hht_len size b s t) by (rewrite (wid_eq size nb b nthreads Hs Hb Hnb Hdiv Hth) by lia; reflexivity).
  assert (LP := len_pos s t Ls Lt).
  assert (LE : forall i c, L m' i c = L m i c) by (intros i c; apply low_ext; intros z; apply M').
  assert (TV : m' (LTau (wk s)) = m (LTau (wk s))) by (rewrite M'; reflexivity).
  assert (VV : forall i, m' (LVec (wk s) i) = m (LVec (wk s) i)) by (intros i; rewrite M'; reflexivity).
  assert (QE : meq size size (QP m' (before s t)) (QP m (before s t))).
  { apply hht_product_ext.
    - intros p Ip _ r Lr. rewrite M'. destruct (Z.eqb_spec (fst p) s) as [E|N]; [|reflexivity]. apply in_before in Ip as [[I1 I2]|[I1 I2]]; [lia| |lia].
      rewrite hh_row_eq. pose proof (pos_apart s t (snd p) I2). rewrite E in *. replace (hht_pos b s t <=? hht_pos b s (snd p) + r)%Z with false by lia. reflexivity.
    - intros p Ip. apply in_before in Ip as [[I1 I2]|[I1 I2]]; [| |lia]; [apply len_pos; lia|rewrite I1; apply len_pos; lia]. }
  split.
  - unfold pend in *. cbv zeta in *. destruct PD as (V0 & TE & (Z1 & Z2 & Z3) & OR & UN & X & HX & LD & EQ). rewrite TV, VV. split; [exact V0|]. split; [|split; [|split; [|split]]].
    + erewrite norm2_ext; [exact TE|]. intros i _. apply VV.
    + split; [|split]; intros; rewrite LE; auto.
    + intros c Lc Li. rewrite !LE. apply OR; assumption.
    + eapply unitary_ext; [|exact UN]. intros i c Li Lc. symmetry. apply QE; assumption.
    + exists X. split; [exact HX|]. split; [eapply left_done_ext; [|exact LE|exact LD]; intros r _; symmetry; apply VV|].
      intros i c Li Lc. rewrite EQ by assumption. apply conj_ext; try assumption; [intros a d La Ld; symmetry; apply QE; assumption|intros a d _ _; reflexivity].
  - split.
    + rewrite !M'. rewrite hh_row_eq, SZ, !Z.eqb_refl. replace ((true && (hht_pos b s t <=? hht_pos b s t) && (hht_pos b s t <? hht_pos b s t + hht_len size b s t)))%Z with true by lia. reflexivity.
    + intros r Lr. rewrite !M'. rewrite hh_row_eq, SZ, Z.eqb_refl. replace ((true && (hht_pos b s t <=? hht_pos b s t + r) && (hht_pos b s t + r <? hht_pos b s t + hht_len size b s t)))%Z with true by lia.
      replace (hht_pos b s t + r =? hht_pos b s t)%Z with false by lia. f_equal. f_equal. lia.
Qed.

(** H of the pending step is HHT(s, t) *)
Lemma saved_hht : forall s t m, (0 < hht_len size b s t)%Z -> saved s t m -> m (LVec (wk s) 0) = 1 ->
  forall i c, hht size b (Vm m) (s, t) i c = reflector (m (LTau (wk s))) (at_rows (1 + s + t * b) (Z.min b (size - (1 + s + t * b))) (fun i => m (LVec (wk s) i))) i c.
Proof using.
  intros s t m LP [S1 S2] V0 i c. unfold hht. cbn [fst snd]. rewrite S1. apply reflector_ext. clear i c. intros i. unfold hht_vec, at_rows. unfold hht_len, hht_start in *.
  set (j := (1 + s + t * b)%Z) in *. set (n := Z.min b (size - j)) in *. destruct (Z.eqb_spec i j) as [->|N].
  - replace ((j <=? j) && (j <? j + n))%Z with true by lia. rewrite Z.sub_diag. symmetry. exact V0.
  - replace (j <=? i)%Z with (j <? i)%Z by lia. destruct (Z.ltb_spec j i); cbn [andb]; [|reflexivity]. destruct (Z.ltb_spec i (j + n)); [|reflexivity]. apply S2. lia.
Qed.
Lemma step_num : forall s t m, (0 <= s < sweeps)%Z -> (0 <= t < steps s)%Z -> pend s t m -> saved s t m ->
  let m' := sexec P (Step s t) m in if (t + 1 <? steps s)%Z then pend s (t + 1) m' else between (s + 1) m'.
Proof using Hs Hb Hnb Hdiv Hth LF.
  intros s t m Ls Lt PD SV. assert (OK : ok (Step s t)) by (split; assumption). pose proof (sweeps_le cplx size nb b nthreads Hs Hb Hnb Hdiv Hth) as SL.
  cbv zeta. pose proof (fun i c => keep_col (Step s t) m i c) as KC. cbn [cols_of fst snd] in KC.
  set (m' := sexec P (Step s t) m) in *. assert (M' : forall l, m' l = put m (wk s) (do_step lf size b (wid s t) (m (LTau (wk s))) (fun i => m (LVec (wk s) i)) (m_band m)) l) by (intros l; apply (sx (Step s t) m l OK)). clearbody m'.
  rewrite (wid_eq size nb b nthreads Hs Hb Hnb Hdiv Hth) in M' by lia.
  unfold pend in PD. cbv zeta in PD. destruct PD as (V0 & TE & (Z1 & Z2 & Z3) & OR & UN & X & HX & LD & EQ).
  assert (LP := len_pos s t Ls Lt). pose proof (saved_hht s t m LP SV V0) as HT.
  pose proof (proj1 (steps_lt cplx size nb b nthreads Hs Hb Hnb Hdiv Hth s t Ls) (proj2 Lt)) as ST.
  pose proof (steps_lt cplx size nb b nthreads Hs Hb Hnb Hdiv Hth s (t + 1)%Z Ls) as ST1.
  unfold do_step in M'. cbv zeta in M'. unfold size_hhr, first_row in M'. cbn [fst snd] in M'. unfold hht_len, hht_start in LP.
  replace (1 + s + (t + 1) * b)%Z with (1 + s + t * b + b)%Z in KC by ring. assert (JP : (1 + s <= 1 + s + t * b)%Z) by nia.
  assert (ST' : (1 + s + t * b < size)%Z) by (destruct (Z.eqb_spec s (size - 2)); [assert (t = 0%Z) by lia; subst t; lia|lia]).
  assert (DIV : forall c, (1 + s + t * b <= c < 1 + s + t * b + b)%Z -> ((c - s - 1) / b = t)%Z) by (intros c Lc; symmetry; apply (Z.div_unique _ _ _ (c - (1 + s + t * b))); lia).
  assert (NXT : (t + 1 < steps s <-> 1 + s + t * b + b + 1 < size)%Z) by (rewrite ST1; destruct (Z.eqb_spec s (size - 2)); [subst s; split; intros; nia|lia]).
  set (j := (1 + s + t * b)%Z) in *. set (n := Z.min b (size - j)) in *. set (v := fun i => m (LVec (wk s) i)) in *. set (tau := m (LTau (wk s))) in *.
  assert (UH : unitary size (reflector tau (at_rows j n v))) by (apply (rows_unitary size j n v tau); [lia|lia|lia|exact TE]).
  assert (HS : hermitian size (herm Lower (L m))).
  { apply hermitian_herm. intros i Li. unfold real. rewrite LD by lia. replace ((i <? j) && (j <=? i))%Z with false by lia. apply HX; assumption. }
  assert (ZB : forall i c, (j <= c < j + b)%Z -> (j + 2 * b <= i < size)%Z -> L m i c = 0) by (intros i c Lc Li; apply Z2; [lia|lia|rewrite DIV by lia; unfold j in Li; lia]).
  pose proof (apply_low b Hb size n tau v (m_band m) j ltac:(lia) ltac:(lia) eq_refl HS ltac:(intros i c Lc Li; apply ZB; lia)) as RD.
  cbv zeta in RD, M'. set (B1 := if (0 <? Z.min b (size - b - j))%Z then _ else _) in *. clearbody B1.
  pose proof (apply_pending size j n v tau ltac:(lia) ltac:(lia) ltac:(lia) X _ _ HX LD RD) as AP.
  set (H := reflector tau (at_rows j n v)) in *. set (X1 := conjugate size (adj H) X) in *.
  assert (HX1 : hermitian size X1) by (intros i c Li Lc; apply conj_hermitian; exact HX).
  assert (HL := herm_lower size X1 _ HX1 AP).
  assert (Y0 : forall i c, (j <= c < j + b)%Z -> (j + 2 * b <= i < size)%Z -> low b B1 i c = 0).
  { intros i c Lc Li. rewrite RD by lia. replace (c <? j)%Z with false by lia. change (fun z => m_band m z) with (m_band m). rewrite (rows_out j n v i) by lia.
    replace (zvec j n v (herm Lower (low b (m_band m))) i) with (0 : F K); [change (m_band m) with (fun z => m (LB z)); rewrite ZB by lia; ring|].
    symmetry. apply fsum_0. intros r Lr. unfold herm, in_tri. replace (j + r <=? i)%Z with true by lia. change (m_band m) with (fun z => m (LB z)). rewrite ZB by lia. ring. }
  assert (QE : forall mm : mem, (forall i c, mm (LHH i c) = m (LHH i c)) -> meq size size (QP mm (before s (t + 1))) (mmul size (QP m (before s t)) H)).
  { intros mm EM i c Li Lc. rewrite before_snoc by lia. rewrite hht_product_snoc. apply mmul_ext; intros r Lr.
    - apply hht_product_ext; try assumption; [intros p Ip _ x Lx; apply EM|]. intros p Ip. apply in_before in Ip as [[I1 I2]|[I1 I2]]; [| |lia]; [apply len_pos; lia|rewrite I1; apply len_pos; lia].
    - unfold H. rewrite <- HT. unfold hht. cbn [fst snd]. rewrite EM. apply reflector_ext. intros x. unfold hht_vec. rewrite EM. reflexivity. }
  assert (UQ : unitary size (mmul size (QP m (before s t)) H)) by (apply unitary_mul; assumption).
  assert (EQ1 : meq size size AB (conjugate size (mmul size (QP m (before s t)) H) (herm Lower (low b B1)))).
  { intros i c Li Lc. rewrite EQ by assumption. rewrite (undo size _ H X UH i c Li Lc). apply conj_ext; try assumption; [intros ? ? _ _; reflexivity|]. intros x y Lx Ly. symmetry. apply HL; assumption. }
  assert (KL : forall i c, (0 <= c <= i)%Z -> (c < j \/ j + b <= c)%Z -> L m' i c = L m i c) by (intros i c Lc O; apply KC; lia). clear KC.
  destruct (Z.ltb_spec (t + 1) (steps s)) as [N|N].
  - assert (SZ : (j + b + 1 < size)%Z) by (apply NXT; exact N). assert (EN : n = b) by (unfold n; lia).
    set (m1 := Z.min b (size - b - j)) in *. replace (1 <? m1)%Z with true in M' by lia. rewrite EN in M'.
    assert (HS1 : hermitian size (herm Lower (low b B1))) by (eapply hermitian_ext; [|exact HX1]; intros x y Lx Ly; symmetry; apply HL; assumption).
    pose proof (new_refl lf b Hb LF size m1 b j v B1 ltac:(lia) ltac:(lia) ltac:(lia) ltac:(lia) HS1) as NR.
    unfold new_reflector in NR. destruct (hh_reflector lf m1 v B1 (ptr b b j)) as [[tau' v'] B2]. replace (1 <? b)%Z with true in NR by lia.
    destruct NR as (V0' & TE' & LD' & ZC & RC & UC).
    { intros r c Lr Lc. rewrite RD by lia. replace (c <? j)%Z with true by lia. change (L m r c = 0). destruct (Z.leb_spec c s) as [C|C]; [apply Z1; lia|]. apply Z2; [lia|lia|].
      assert ((c - s - 1) / b < t)%Z by (apply Z.div_lt_upper_bound; unfold j in *; lia). unfold j in *. nia. }
    set (B3 := hh_left m1 (b - 1) tau' v' B2 (ptr b (b - 1) (j + 1)) (b_ld b)) in *. clearbody B3.
    assert (LE : forall i c, L m' i c = low b B3 i c) by (intros i c; apply low_ext; intros z; apply M').
    assert (TV : m' (LTau (wk s)) = tau') by (rewrite M'; unfold put; rewrite Z.eqb_refl; reflexivity).
    assert (VV : forall i, m' (LVec (wk s) i) = v' i) by (intros i; rewrite M'; unfold put; rewrite Z.eqb_refl; reflexivity).
    specialize (QE m' ltac:(intros i c; rewrite M'; reflexivity)).
    unfold pend. cbv zeta. replace (1 + s + (t + 1) * b)%Z with (j + b)%Z by (unfold j; ring). replace (Z.min b (size - (j + b))) with m1 by (unfold m1; lia). rewrite TV, VV.
    split; [exact V0'|]. split; [rewrite (norm2_ext m1 (fun i => m' (LVec (wk s) i)) v') by (intros; apply VV); exact TE'|]. split; [|split; [|split]].
    + split; [|split].
      * intros i c Lc Li. rewrite KL by lia. apply Z1; lia.
      * intros i c Lc Li LL. destruct (Z.ltb_spec c j); [rewrite KL by lia; apply Z2; lia|]. destruct (Z.leb_spec (j + b) c); [rewrite KL by lia; apply Z2; lia|].
        rewrite DIV in LL by lia. rewrite LE, UC by (unfold j in *; lia). apply Y0; [lia|]. unfold j in *. lia.
      * intros t' i Lt' Li. destruct (Z.eq_dec t' t) as [->|NT].
        -- fold j in Li |- *. rewrite LE. destruct (Z.ltb_spec i (j + b + m1)); [apply ZC; lia|]. rewrite UC by lia. apply Y0; lia.
        -- assert (1 + s + t' * b < j)%Z by (unfold j; nia). assert (0 <= t' * b)%Z by nia. rewrite KL by lia. apply Z3; lia.
    + intros c Lc Li. rewrite !KL by lia. apply OR; lia.
    + eapply unitary_ext; [|exact UQ]. intros i c Li Lc. symmetry. apply QE; assumption.
    + exists (herm Lower (low b B1)). split; [exact HS1|]. split.
      * eapply left_done_ext; [|exact LE|exact LD']. intros r _. symmetry. apply VV.
      * intros i c Li Lc. rewrite EQ1 by assumption. apply conj_ext; try assumption; [intros a d La Ld; symmetry; apply QE; assumption|intros a d _ _; reflexivity].
  - assert (SZ : ~ (j + b + 1 < size)%Z) by (rewrite <- NXT; lia). replace (1 <? Z.min b (size - b - j))%Z with false in M' by lia.
    assert (LE : forall i c, L m' i c = low b B1 i c) by (intros i c; apply low_ext; intros z; apply M').
    specialize (QE m' ltac:(intros i c; rewrite M'; reflexivity)). replace (t + 1)%Z with (steps s) in QE by lia.
    unfold between. rewrite before_next by lia. split; [|split; [|split; [|split]]].
    + split; [|split].
      * intros i c Lc Li. rewrite KL by lia. apply Z1; lia.
      * intros i Li. destruct (Z.eq_dec t 0) as [->|NT]; [unfold j in *; lia|]. assert (s + 1 < j)%Z by (unfold j; nia). rewrite KL by lia.
        replace (s + 1)%Z with (1 + s + 0 * b)%Z by ring. apply Z3; lia.
      * intros i c Lc Li LL. pose proof (Z.div_mod (c - (s + 1) - 1) b ltac:(lia)) as D. pose proof (Z.mod_pos_bound (c - (s + 1) - 1) b ltac:(lia)) as MB.
        set (q := ((c - (s + 1) - 1) / b)%Z) in *. assert (Lq : (0 <= q)%Z) by (apply Z.div_pos; lia). destruct (Z.eq_dec ((c - (s + 1) - 1) mod b) (b - 1)) as [E|E].
        -- assert (EC : (c = 1 + s + (q + 1) * b)%Z) by lia. destruct (Z.ltb_spec (q + 1) t) as [Q|Q]; [|unfold j in *; nia].
           assert (c < j)%Z by (unfold j; nia). rewrite KL by lia. rewrite EC. apply Z3; lia.
        -- assert (Q : ((c - s - 1) / b = q)%Z) by (symmetry; apply (Z.div_unique _ _ _ ((c - (s + 1) - 1) mod b + 1)); lia).
           destruct (Z.ltb_spec c j); [rewrite KL by lia; apply Z2; [lia|lia|rewrite Q; lia]|]. destruct (Z.leb_spec (j + b) c); [rewrite KL by lia; apply Z2; [lia|lia|rewrite Q; lia]|].
           rewrite DIV in Q by lia. subst t. rewrite LE. apply Y0; [lia|]. unfold j in *. lia.
    + intros i Li. unfold real. rewrite LE, AP by lia. apply HX1; assumption.
    + intros c Lc Li. rewrite !KL by lia. apply OR; lia.
    + eapply unitary_ext; [|exact UQ]. intros i c Li Lc. symmetry. apply QE; assumption.
    + intros i c Li Lc. rewrite EQ1 by assumption. apply conj_ext; try assumption; [intros a d La Ld; symmetry; apply QE; assumption|]. intros x y Lx Ly. apply herm_ext. intros. symmetry. apply LE.
Qed.
End num.
