(** * The eigensolvers: composition of the reductions and back transformations *)
From Coq Require Import ZArith Lia List Bool Ring.
From Verif Require Import CInt Loop StarField DenseSpec Tiling DenseJobs RefKernels HouseSpec HouseModel HouseQR MultiJobs Red2BandModel Red2BandSpec Red2BandTheory
  SemModel B2TSpec B2TModel B2TResult B2TNum BtRed2BandModel BtRed2BandProofs BtB2TModel BtB2TProofs BandSizeModel DistMat EigSpec EigModel.
Import ListNotations.
Local Open Scope Z_scope.

Lemma every_schedule_m_impl : forall {V} (js : list (mjob V)) st0 (Q R : tstore V -> Prop), (forall st, Q st -> R st) -> every_schedule_m js st0 Q -> every_schedule_m js st0 R.
Proof. intros V js st0 Q R I E s0 M s1 R1. destruct (E s0 M s1 R1) as [A B]. split; [|exact B]. intros F1. apply I. exact (A F1). Qed.

Section eig.
Context {K : starfield}.
Local Open Scope sf_scope.
Add Ring KringE : (fring K).
Lemma mmul_scale : forall n (Q C : mat K) (lam : Z -> F K) i c, mmul n Q (fun i c => lam c * C i c) i c = lam c * mmul n Q C i c.
Proof. intros. unfold mmul. rewrite <- fsum_mul_l. apply fsum_ext. intros r _. ring. Qed.
(** eigenvectors are carried over by a unitary similarity *)
Lemma conj_eig : forall n k (A B Q E : mat K) lam, unitary n Q -> meq n n A (conjugate n Q B) -> is_eigendecomposition n k B lam E ->
  is_eigendecomposition n k A lam (mmul n Q E).
Proof.
  intros n k A B Q E lam [U1 U2] EA (EV & ON & RL). split; [|split; [|exact RL]].
  - intros i c Li Lc. transitivity (mmul n (mmul n Q (mmul n B (adj Q))) (mmul n Q E) i c).
    { apply mmul_ext; [|reflexivity]. intros r Lr. apply EA; assumption. }
    rewrite mmul_assoc. rewrite <- mmul_scale. apply mmul_ext; [reflexivity|]. intros r Lr. rewrite mmul_assoc. rewrite <- EV by assumption. apply mmul_ext; [reflexivity|].
    intros u Lu. rewrite <- mmul_assoc. rewrite <- (mmul_ident_l n E u c) by assumption. apply mmul_ext; [|reflexivity]. intros v Lv. apply U1; assumption.
  - intros i c Li Lc. transitivity (mmul n (mmul n (adj E) (adj Q)) (mmul n Q E) i c).
    { apply mmul_ext; [|reflexivity]. intros r Lr. apply adj_mmul. }
    rewrite mmul_assoc. rewrite <- ON by assumption. apply mmul_ext; [reflexivity|]. intros r Lr. rewrite <- mmul_assoc.
    rewrite <- (mmul_ident_l n E r c) by assumption. apply mmul_ext; [|reflexivity]. intros v Lv. apply U1; assumption.
Qed.
Lemma eig_ext : forall n k (A : mat K) lam E E', (0 <= n)%Z -> meq n k E E' -> is_eigendecomposition n k A lam E -> is_eigendecomposition n k A lam E'.
Proof.
  intros n k A lam E E' Hn EE (EV & ON & RL). split; [|split; [|exact RL]].
  - intros i c Li Lc. rewrite <- EE by assumption. rewrite <- EV by assumption. apply mmul_ext; [reflexivity|]. intros r Lr. symmetry. apply EE; assumption.
  - intros i c Li Lc. rewrite <- ON by assumption. apply mmul_ext; intros r Lr; [unfold adj, opm; f_equal|]; symmetry; apply EE; assumption.
Qed.
(** the leading columns *)
Lemma eig_le : forall n k k' (A : mat K) lam E, (k <= k')%Z -> is_eigendecomposition n k' A lam E -> is_eigendecomposition n k A lam E.
Proof. intros n k k' A lam E L (EV & ON & RL). split; [intros i c Li Lc; apply EV; lia|split; [intros i c Li Lc; apply ON; lia|intros c Lc; apply RL; lia]]. Qed.

(** the reflectors of band_to_tridiagonal are stored inside the matrix *)
Lemma product_in : forall (cplx : bool) (n b : Z) (V V' : mat K), (0 < b)%Z -> meq n n V V' -> meq n n (hht_product n b V (hht_list cplx n b)) (hht_product n b V' (hht_list cplx n b)).
Proof.
  intros cplx n b V V' Hb E. assert (L : forall p, In p (hht_list cplx n b) -> (0 <= fst p < n - 1)%Z /\ (0 <= snd p)%Z /\ (0 < hht_len n b (fst p) (snd p))%Z).
  { intros [sw st] I0. unfold hht_list in I0. apply in_flat_map in I0 as (s & Is & I0). apply in_map_iff in I0 as (t & T1 & It). injection T1 as -> ->.
    apply in_zrange in Is, It. cbn [fst snd]. unfold hht_sweeps in Is. split; [destruct cplx; lia|]. split; [lia|]. unfold hht_len, hht_start.
    unfold hht_count in It. destruct (Z.eqb_spec sw (n - 2)) as [->|N]; [lia|]. unfold ceil_div in It.
    assert (st * b < n - sw - 2)%Z; [|lia]. assert (st + 1 <= (n - sw - 2 + b - 1) / b)%Z as Q by lia. apply (Z.mul_le_mono_nonneg_r _ _ b) in Q; [|lia].
    pose proof (Z.mul_div_le (n - sw - 2 + b - 1) b Hb). nia. }
  apply hht_product_ext; [|intros p Ip; apply L; exact Ip]. intros p Ip _ r Lr. destruct (L p Ip) as (L1 & L2 & L3). apply E; [|lia].
  unfold hht_len, hht_start in Lr. unfold hht_pos. pose proof (Z.mul_div_le (fst p) b Hb). pose proof (Z.div_pos (fst p) b ltac:(lia) Hb). nia.
Qed.
Lemma q_of_in : forall n b (A A' : mat K) (t t' : Z -> F K), (0 <= b)%Z -> meq n n A A' -> (forall r, (0 <= r < n - b - 1)%Z -> t r = t' r) -> meq n n (q_of n b A t) (q_of n b A' t').
Proof.
  intros n b A A' t t' Hb E ET. unfold q_of. destruct (Z.le_gt_cases (n - b - 1) 0) as [L|L].
  { replace (Z.to_nat (n - b - 1)) with 0%nat by lia. intros i j _ _. reflexivity. }
  apply refl_prod_ext; rewrite Z2Nat.id by lia.
  - intros i c Li Lc. unfold band_vectors. rewrite E by lia. reflexivity.
  - exact ET.
Qed.
End eig.

Lemma eig_call_impl : forall {K : starfield} (g : eig_cfg K) cplx u n mb k st (Q R : eig_result K -> Prop), (forall r, Q r -> R r) ->
  every_eigensolver_call g cplx u n mb k st Q -> every_eigensolver_call g cplx u n mb k st R.
Proof.
  intros K g cplx u n mb k st Q R I. unfold every_eigensolver_call. destruct (get_band_size (g_bmin g) mb) as [b| |]; try apply I.
  destruct u; [|apply I]. destruct (b <? 2); [apply I|]. intros H. eapply every_schedule_m_impl; [|exact H]. clear H. cbv beta. intros st1 H m0.
  destruct (H m0) as [H1 H2]. split; [exact H1|]. clear H H1. intros s2 R2 F2 lam e1 T st2 E1 E2. specialize (H2 s2 R2 F2 lam e1 T st2 E1 E2).
  eapply every_schedule_m_impl; [|exact H2]. clear H2. cbv beta. intros st3 H st4 E3 E4 E5. specialize (H st4 E3 E4 E5).
  eapply every_schedule_m_impl; [|exact H]. clear H. cbv beta. intros st5. apply I.
Qed.
Lemma every_schedule_m_and : forall {V} (js : list (mjob V)) st0 (Q R : tstore V -> Prop), every_schedule_m js st0 Q -> every_schedule_m js st0 R -> every_schedule_m js st0 (fun s => Q s /\ R s).
Proof. intros V js st0 Q R A B s0 M s1 R1. destruct (A s0 M s1 R1) as [A1 A2], (B s0 M s1 R1) as [B1 _]. split; [auto|exact A2]. Qed.
Lemma every_execution_and : forall {T Act L V} teq (P : sys T Act L V) m0 (Q R : (L -> V) -> Prop), every_execution teq P m0 Q -> every_execution teq P m0 R -> every_execution teq P m0 (fun m => Q m /\ R m).
Proof. intros T Act L V teq P m0 Q R [A1 A2] [B1 B2]. split; [exact A1|]. intros st RS FN. split; [apply A2|apply B2]; assumption. Qed.
Lemma tile_dtil : forall k mb c, 0 < mb -> 0 <= c < k -> tl_tile (dtil k mb) c * mb + (c - tl_off (dtil k mb) (tl_tile (dtil k mb) c)) = c.
Proof.
  intros k mb c H L. destruct (dt_elem k mb ltac:(lia) H c L) as (L1 & L2 & L3). rewrite <- L3 at 1 3. rewrite tile_of_elem by (try assumption; apply dt_ok; lia).
  rewrite (dt_off_eq k mb ltac:(lia) H) by exact L1. lia.
Qed.
Lemma every_schedule_and : forall {V} (js : list (@tjob V)) st0 (Q R : tstore V -> Prop), every_schedule js st0 Q -> every_schedule js st0 R -> every_schedule js st0 (fun s => Q s /\ R s).
Proof. intros V js st0 Q R A B s0 M s1 R1. destruct (A s0 M s1 R1) as [A1 A2], (B s0 M s1 R1) as [B1 _]. split; [auto|exact A2]. Qed.
