(** * Distributed back transformation band to tridiagonal: what the jobs on the tiles of one or two ranks compute *)
From Coq Require Import ZArith Lia List Bool Ring.
From Verif Require Import Loop StarField DenseSpec Tiling RefKernels DenseJobs TileJobs HouseSpec HouseModel HouseQR MultiJobs Red2BandModel B2TModel B2TSched BtB2TModel BtB2TTile.
Import ListNotations.
Local Open Scope Z_scope.

Section tile.
Context {K : starfield} (kn : kernels K) (KO : kernels_ok kn).
Local Open Scope sf_scope.
Add Ring KringDBT : (fring K).
Variable larft : @larft_fn K.
Hypothesis LO : larft_ok larft.

(** a rank that has the part of the reflectors inside the matrix computes the same V, and the factor W of the block *)
Section vw.
Variables b rows k g hr : Z.
Hypothesis Hb : (0 < b)%Z.
Hypothesis Hk : (0 < k <= rows)%Z.
Hypothesis Hg : (0 < g)%Z.
Hypothesis RK : (rows <= k - 1 + b)%Z.
Hypothesis HR : (hr = b \/ rows < hr <= b)%Z.
Variables hh hh0 : mat K.
Hypothesis AG : forall p q, (0 <= p < hr)%Z -> (0 <= q < k)%Z -> hh p q = hh0 p q.
Lemma v_ok : forall v p q, (0 <= p < rows)%Z -> (0 <= q < k)%Z -> setup_v b rows k hr hh v p q = well_formed b hh0 p q.
Proof using Hb Hk RK HR AG.
  intros v p q Lp Lq. rewrite setup_v_at by (first [assumption | lia]). unfold well_formed.
  destruct (Z.eqb_spec p q); [reflexivity|]. destruct (Z.ltb_spec p q); [reflexivity|]. destruct (Z.ltb_spec p (q + b)); [|reflexivity]. apply AG; lia.
Qed.
Lemma w_ok : forall v t w x, (0 <= x < ceil_div k g)%Z -> let V := setup_v b rows k hr hh v in
  meq (group_ib b rows k g (x * g)) (group_ib b rows k g (x * g)) (gr b rows k g hh0 V (x * g))
     (msub ident (mmul (group_jb k g (x * g)) (sub (x * g) (x * g) (compute_w kn b rows k g V (compute_t larft b rows k g hh V t) w)) (adj (gv V (x * g))))).
Proof using Hb Hk Hg RK HR AG KO LO.
  intros v t w x Lx V a c La Lc. assert (B := group_bounds b rows k g Hb Hk Hg x Lx).
  rewrite <- (group_factor kn KO larft LO b rows k g Hb Hk Hg hh V) by (first [exact Lx | exact La | exact Lc | intros p q Lp Lq; unfold V; rewrite setup_v_at by (first [assumption | lia]); reflexivity]).
  unfold gr. apply refl_prod_ext; [reflexivity| |exact La|exact Lc]. intros i Li. unfold gtau. symmetry. apply AG; lia.
Qed.
End vw.

(** the two ranks: the application of the block with one group *)
Section two.
Variables b rows k bot cols : Z.
Hypothesis Hb : (2 <= b)%Z.
Hypothesis Hk : (0 < k <= b)%Z.
Hypothesis KR : (k <= rows)%Z.
Hypothesis RK : (rows <= k - 1 + b)%Z.
Hypothesis Hbot : (0 < bot <= b)%Z.
Hypothesis ER : (rows = b + bot - 1)%Z.
Variables hh Vt Vb Wt Wb : mat K.
Hypothesis HVt : forall p q, (0 <= p < rows)%Z -> (0 <= q < k)%Z -> Vt p q = well_formed b hh p q.
Hypothesis HVb : forall p q, (0 <= p < rows)%Z -> (0 <= q < k)%Z -> Vb p q = well_formed b hh p q.
Definition factor (V W : mat K) : Prop := forall x, (0 <= x < ceil_div k b)%Z ->
  meq (group_ib b rows k b (x * b)) (group_ib b rows k b (x * b)) (gr b rows k b hh V (x * b))
     (msub ident (mmul (group_jb k b (x * b)) (sub (x * b) (x * b) W) (adj (gv V (x * b))))).
Hypothesis HWt : factor Vt Wt.
Hypothesis HWb : factor Vb Wb.
Lemma one_group : ceil_div k b = 1%Z.
Proof using Hb Hk. apply Z.le_antisymm; [apply Z.lt_succ_r, Z.nle_gt; intros G; assert (L : (1 < ceil_div k b)%Z) by lia; apply ceil_div_lt in L; lia|]. assert ((0 < ceil_div k b)%Z); [apply ceil_div_lt; lia|lia]. Qed.
Lemma ib0 : group_ib b rows k b (0 * b) = rows. Proof using Hb Hk KR RK. unfold group_ib, group_jb. lia. Qed.
Lemma jb0 : group_jb k b (0 * b) = k. Proof using Hb Hk. unfold group_jb. lia. Qed.
Lemma factor0 : forall V W, factor V W -> meq rows rows (refl_prod rows V (fun x => hh 0%Z x) (Z.to_nat k)) (msub ident (mmul k W (adj V))).
Proof using Hb Hk KR RK.
  intros V W FA a c La Lc. assert (F0 := FA 0%Z ltac:(rewrite one_group; lia)). rewrite ib0, jb0 in F0. unfold gr in F0. rewrite ib0, jb0 in F0.
  specialize (F0 a c La Lc). etransitivity; [|etransitivity; [exact F0|]].
  - apply refl_prod_ext; [intros; unfold gv, sub; f_equal; lia|intros; unfold gtau; f_equal; lia|exact La|exact Lc].
  - reflexivity.
Qed.
Variables et eb zt zb zt' zb' w1 w2 w3 w4 : mat K.
(** the parts of the two ranks (993-999), and their sums *)
Hypothesis Ezt : forall r q, (0 <= r < k)%Z -> (0 <= q < cols)%Z -> zt r q = gemm kn ConjTrans NoTrans k cols (b - 1) f1 (sub 0 0 Vt) (sub 1 0 et) f0 w1 r q.
Hypothesis Ezb : forall r q, (0 <= r < k)%Z -> (0 <= q < cols)%Z -> zb r q = gemm kn ConjTrans NoTrans k cols bot f1 (sub (b - 1) 0 Vb) (sub 0 0 eb) f0 w2 r q.
Hypothesis Ezt' : forall r q, (0 <= r < k)%Z -> (0 <= q < cols)%Z -> zt' r q = zb r q + 1 * zt r q.
Hypothesis Ezb' : forall r q, (0 <= r < k)%Z -> (0 <= q < cols)%Z -> zb' r q = zt r q + 1 * zb r q.
Lemma two_spec : forall p q, (0 <= p < b + bot)%Z -> (0 <= q < cols)%Z ->
  stack2 b (paste 1 0 (b - 1) cols et (gemm kn NoTrans NoTrans (b - 1) cols k (fopp f1) (sub 0 0 Wt) zt' f1 (sub 1 0 et)))
           (paste 0 0 bot cols eb (gemm kn NoTrans NoTrans bot cols k (fopp f1) (sub (b - 1) 0 Wb) zb' f1 (sub 0 0 eb))) p q =
  apply_spec b rows k b hh Vt (rev (group_cols k b)) (stack2 b et eb) p q.
Proof using Hb Hk KR RK Hbot ER HVt HVb HWt HWb Ezt Ezb Ezt' Ezb' KO.
  intros p q Lp Lq. set (e0 := stack2 b et eb).
  assert (SUM : forall V, (forall p q, (0 <= p < rows)%Z -> (0 <= q < k)%Z -> V p q = well_formed b hh p q) -> forall r, (0 <= r < k)%Z -> fsum 0 rows (fun a => fconj (V a r) * e0 (1 + a)%Z q) = zt r q + zb r q).
  { intros V HV r Lr. rewrite Ezt, Ezb by assumption. rewrite !(gemm_ok kn KO) by lia. unfold mmul, opm. replace rows with (b - 1 + bot)%Z by lia. rewrite (fsum_app 0 (b - 1) (b - 1 + bot)) by lia.
    rewrite (fsum_ext 0 (b - 1) (fun a => fconj (V a r) * e0 (1 + a)%Z q) (fun a => fconj (sub 0 0 Vt a r) * sub 1 0 et a q)).
    2:{ intros a La. unfold sub. rewrite HV, HVt by lia. unfold e0, stack2. replace (1 + a <? b)%Z with true by lia. f_equal; f_equal; f_equal; lia. }
    replace (fsum (b - 1) (b - 1 + bot) (fun a => fconj (V a r) * e0 (1 + a)%Z q)) with (fsum 0 bot (fun a => fconj (sub (b - 1) 0 Vb a r) * sub 0 0 eb a q)); [ring|].
    replace (fsum (b - 1) (b - 1 + bot) (fun a => fconj (V a r) * e0 (1 + a)%Z q)) with (fsum (0 + (b - 1)) (bot + (b - 1)) (fun a => fconj (V a r) * e0 (1 + a)%Z q)) by (f_equal; lia).
    rewrite fsum_shift. apply fsum_ext. intros a La. unfold sub. rewrite HV, HVb by lia. unfold e0, stack2. replace (1 + (a + (b - 1)) <? b)%Z with false by lia. replace (a + (b - 1))%Z with (b - 1 + a)%Z by lia. f_equal. f_equal; lia. }
  unfold group_cols. rewrite one_group. replace (zrange 0 1) with [0%Z] by reflexivity. cbn [map rev app]. unfold apply_spec. cbn [fold_left]. rewrite ib0. change (0 * b + 1)%Z with 1%Z.
  assert (GR : forall a c, (0 <= a < rows)%Z -> (0 <= c < rows)%Z -> gr b rows k b hh Vt (0 * b) a c = refl_prod rows Vt (fun x => hh 0%Z x) (Z.to_nat k) a c).
  { intros a c La Lc. unfold gr. rewrite ib0, jb0. apply refl_prod_ext; [intros; unfold gv, sub; f_equal; lia|intros; unfold gtau; f_equal; lia|exact La|exact Lc]. }
  destruct (Z.eq_dec p 0) as [->|NP].
  - unfold win. replace ((1 <=? 0) && (0 <? 1 + rows))%Z with false by lia. unfold e0, stack2. replace (0 <? b)%Z with true by lia. rewrite paste_out by lia. reflexivity.
  - destruct (Z.lt_ge_cases p b) as [PB|PB].
    + rewrite (win_update _ _ k _ Vt Wt); [|intros a c La Lc; rewrite GR by assumption; apply factor0; assumption|lia].
      unfold stack2 at 1. replace (p <? b)%Z with true by lia. rewrite paste_in by lia. rewrite (gemm_ok kn KO) by lia. unfold mmul at 1. unfold opm at 1 2.
      replace (sub 1 0 et (p - 1)%Z (q - 0)%Z) with (e0 p q) by (unfold e0, stack2, sub; replace (p <? b)%Z with true by lia; f_equal; lia).
      rewrite (fsum_ext 0 k _ (fun r => Wt (p - 1)%Z r * fsum 0 rows (fun a => fconj (Vt a r) * e0 (1 + a)%Z q))); [ring|].
      intros r Lr. rewrite (SUM Vt HVt) by lia. unfold sub. replace (q - 0)%Z with q by lia. rewrite Ezt' by lia. replace (0 + (p - 1))%Z with (p - 1)%Z by lia. replace (0 + r)%Z with r by lia. ring.
    + rewrite (win_update _ _ k _ Vb Wb); [| |lia].
      * unfold stack2 at 1. replace (p <? b)%Z with false by lia. rewrite paste_in by lia. rewrite (gemm_ok kn KO) by lia. unfold mmul at 1. unfold opm at 1 2.
        replace (sub 0 0 eb (p - b - 0)%Z (q - 0)%Z) with (e0 p q) by (unfold e0, stack2, sub; replace (p <? b)%Z with false by lia; f_equal; lia).
        rewrite (fsum_ext 0 k _ (fun r => Wb (p - 1)%Z r * fsum 0 rows (fun a => fconj (Vb a r) * e0 (1 + a)%Z q))); [ring|].
        intros r Lr. rewrite (SUM Vb HVb) by lia. unfold sub. replace (q - 0)%Z with q by lia. rewrite Ezb' by lia. replace (b - 1 + (p - b - 0))%Z with (p - 1)%Z by lia. replace (0 + r)%Z with r by lia. ring.
      * intros a c La Lc. rewrite GR by assumption. rewrite <- (factor0 Vb Wb HWb a c La Lc). apply refl_prod_ext; [|reflexivity|exact La|exact Lc].
        intros i x Li Lx. rewrite HVt, HVb by lia. reflexivity.
Qed.
End two.
End tile.
