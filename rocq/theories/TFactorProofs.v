(** * The T factor: I - V T V^H is the product of the reflectors, whatever the number of workers *)
From Coq Require Import ZArith Lia List Bool Ring.
From Verif Require Import Loop StarField DenseSpec Tiling RefKernels HouseSpec HouseModel HouseProofs HouseQR.
Import ListNotations.
Local Open Scope Z_scope.

Section tf.
Context {K : starfield}.
Local Open Scope sf_scope.
Add Ring KringTF : (fring K).

(** V T V^H restricted to k columns *)
Definition block (k : Z) (V T : mat K) : mat K := mmul k (mmul k V T) (adj V).
(** the recurrence that defines the T factor *)
Definition t_rec (m k : Z) (V T : mat K) (tau : Z -> F K) : Prop :=
  (forall p q, (0 <= p < k)%Z -> (0 <= q < k)%Z -> (q < p)%Z -> T p q = 0) /\
  (forall q, (0 <= q < k)%Z -> T q q = tau q) /\
  (forall p q, (0 <= p < q)%Z -> (q < k)%Z -> T p q = fsum 0 q (fun r => T p r * (- tau q * fsum 0 m (fun a => fconj (V a r) * V a q)))).
Lemma block_succ : forall m k (V T : mat K) tau a b, (0 <= k)%Z -> t_rec m (k + 1) V T tau ->
  block (k + 1) V T a b = block k V T a b + (fsum 0 k (fun p => V a p * T p k) + V a k * tau k) * fconj (V b k).
Proof.
  intros m k V T tau a b Lk (LO & DI & RE). unfold block. unfold mmul at 1. rewrite fsum_snoc by lia.
  assert (R : mmul (k + 1) V T a k = fsum 0 k (fun p => V a p * T p k) + V a k * tau k).
  { unfold mmul. rewrite fsum_snoc by lia. rewrite DI by lia. reflexivity. }
  rewrite R. unfold adj at 2. unfold opm. f_equal. apply fsum_ext. intros q Lq. f_equal. unfold mmul. rewrite fsum_snoc by lia. rewrite (LO k q) by lia. ring.
Qed.
Lemma t_rec_prod : forall m k (V T : mat K) tau, t_rec m (Z.of_nat k) V T tau ->
  forall a b, (0 <= a < m)%Z -> (0 <= b < m)%Z -> refl_prod m V tau k a b = ident a b - block (Z.of_nat k) V T a b.
Proof.
  intros m k V T tau. induction k as [|k IH]; intros TR a b La Lb.
  - cbn [refl_prod]. unfold block, mmul at 1. rewrite fsum_nil by lia. ring.
  - set (kz := Z.of_nat k) in *. replace (Z.of_nat (S k)) with (kz + 1)%Z in * by (unfold kz; lia).
    rewrite (block_succ m kz V T tau a b) by (unfold kz; (lia || exact TR)). cbn [refl_prod]. fold kz.
    assert (TR' : t_rec m kz V T tau).
    { destruct TR as (A & B & C). split; [|split]; intros; [apply A|apply B|apply C]; lia. }
    rewrite (mmul_ext m _ (fun i j => ident i j - block kz V T i j) _ (reflector (tau kz) (fun i => V i kz))); [|intros r Lr; apply IH; assumption|reflexivity].
    rewrite mmul_refl_r by exact Lb.
    set (s := fun r => fsum 0 m (fun c => fconj (V c r) * V c kz)).
    assert (S1 : fsum 0 m (fun r => (ident a r - block kz V T a r) * V r kz) = V a kz - fsum 0 kz (fun q => mmul kz V T a q * s q)).
    { rewrite (fsum_ext 0 m _ (fun r => ident a r * V r kz - block kz V T a r * V r kz)) by (intros; ring). rewrite fsum_sub.
      f_equal; [apply (mmul_ident_l m V a kz La)|]. unfold block. unfold mmul at 1.
      rewrite (fsum_ext 0 m _ (fun r => fsum 0 kz (fun q => mmul kz V T a q * adj V q r * V r kz))) by (intros; rewrite fsum_mul_r; reflexivity).
      rewrite fsum_swap. apply fsum_ext. intros q Lq. unfold s. rewrite <- fsum_mul_l. apply fsum_ext. intros c Lc. unfold adj, opm. ring. }
    rewrite S1.
    assert (S2 : fsum 0 kz (fun p => V a p * T p kz) = - tau kz * fsum 0 kz (fun q => mmul kz V T a q * s q)).
    { destruct TR as (_ & _ & RE). rewrite (fsum_ext 0 kz _ (fun p => fsum 0 kz (fun r => V a p * T p r * (- tau kz * s r)))).
      2:{ intros p Lp. rewrite RE by lia. rewrite <- fsum_mul_l. apply fsum_ext. intros r Lr. fold (s r). ring. }
      rewrite fsum_swap. rewrite <- fsum_mul_l. apply fsum_ext. intros r Lr. unfold mmul. rewrite fsum_mul_r. ring. }
    rewrite S2. ring.
Qed.

(** ** The loops *)
Lemma loop_gemv_at : forall k rows (V T : mat K) p q, loop_gemv k rows V T p q =
  if ((0 <=? p) && (p <? q) && (q <? k))%Z then T p q + - T q q * fsum 0 rows (fun r => fconj (V r p) * V r q) else T p q.
Proof.
  intros k rows V T p q. unfold loop_gemv. destruct (Z.le_gt_cases 0 k) as [Lk|Lk].
  2:{ rewrite zrange_nil by lia. cbn [fold_left]. destruct (Z.leb_spec 0 p), (Z.ltb_spec p q), (Z.ltb_spec q k); try lia; reflexivity. }
  revert p q. pattern k. apply natlike_ind; [| |exact Lk].
  - intros p q. rewrite zrange_nil by lia. cbn [fold_left]. destruct (Z.leb_spec 0 p), (Z.ltb_spec p q), (Z.ltb_spec q 0); try lia; reflexivity.
  - intros j Lj IH p q. unfold Z.succ. rewrite zrange_snoc by lia. rewrite fold_left_app. cbn [fold_left]. rewrite !IH.
    destruct (Z.eqb_spec q j) as [->|Nq]; cbn [andb].
    + rewrite Z.ltb_irrefl, !andb_false_r. cbn [andb].
      destruct (Z.ltb_spec j (j + 1)); [|lia]. rewrite andb_true_r. reflexivity.
    + destruct (Z.leb_spec 0 p), (Z.ltb_spec p q), (Z.ltb_spec q j), (Z.ltb_spec q (j + 1)); cbn [andb]; try lia; reflexivity.
Qed.
Lemma loop_trmv_at : forall k (T : mat K), (0 <= k)%Z -> let T' := loop_trmv k T in
  (forall p q, ((0 <=? p) && (p <? q) && (q <? k))%Z = false -> T' p q = T p q) /\
  (forall p q, (0 <= p < q)%Z -> (q < k)%Z -> T' p q = fsum 0 q (fun r => trim Upper NonUnit T' p r * T r q)).
Proof.
  intros k T Lk. pattern k. apply natlike_ind; [| |exact Lk].
  - cbn zeta. unfold loop_trmv. rewrite zrange_nil by lia. cbn [fold_left]. split; [reflexivity|intros; lia].
  - intros j Lj [IH1 IH2]. cbn zeta in *. unfold Z.succ. set (T1 := loop_trmv j T) in *.
    set (T2 := fun p q => if ((q =? j) && (0 <=? p) && (p <? j))%Z then fsum 0 j (fun r => trim Upper NonUnit T1 p r * T1 r j) else T1 p q).
    assert (ET : loop_trmv (j + 1) T = T2) by (unfold loop_trmv; rewrite zrange_snoc by lia; rewrite fold_left_app; reflexivity).
    rewrite ET. clear ET.
    assert (OLD : forall p q, q <> j -> T2 p q = T1 p q) by (intros p q N; unfold T2; destruct (Z.eqb_spec q j); [contradiction|reflexivity]).
    split.
    + intros p q C. unfold T2. destruct (Z.eqb_spec q j) as [->|N]; cbn [andb].
      * destruct (Z.ltb_spec j (j + 1)); [|lia]. rewrite andb_true_r in C. rewrite C. apply IH1. rewrite Z.ltb_irrefl, andb_false_r. reflexivity.
      * apply IH1. destruct (Z.leb_spec 0 p), (Z.ltb_spec p q), (Z.ltb_spec q j), (Z.ltb_spec q (j + 1)); cbn [andb] in *; try reflexivity; try discriminate; lia.
    + intros p q Lp Lq. destruct (Z.eq_dec q j) as [->|N].
      * unfold T2 at 1. rewrite Z.eqb_refl. destruct (Z.leb_spec 0 p), (Z.ltb_spec p j); try lia. cbn [andb].
        apply fsum_ext. intros r Lr. f_equal.
        -- unfold trim. rewrite OLD by lia. reflexivity.
        -- apply IH1. rewrite Z.ltb_irrefl, andb_false_r. reflexivity.
      * rewrite OLD by assumption. rewrite IH2 by lia. apply fsum_ext. intros r Lr. f_equal. unfold trim. rewrite OLD by lia. reflexivity.
Qed.

Variable t : tiling.
Hypothesis TOK : tiling_ok t.
Hypothesis NT : (0 < tl_n t)%Z.
Let m := tl_size t.
Lemma gemv_worker_at : forall k batch (V : @panel K) taus w p q, (0 <= p < k)%Z -> (0 <= q < k)%Z ->
  gemv_worker t k batch V taus w p q =
  if (p =? q)%Z then taus p else if (p <? q)%Z then - taus q * fsum (w_begin batch w) (w_end t batch w) (fun i => fsum 0 (tl_sz t i) (fun r => fconj (V i r p) * V i r q)) else 0.
Proof using.
  intros k batch V taus w. unfold gemv_worker. set (T0 := taus_diag k taus (fun _ _ => 0)).
  assert (H : forall l (T : mat K), (forall c, (0 <= c < k)%Z -> T c c = taus c) -> forall p q, (0 <= p < k)%Z -> (0 <= q < k)%Z ->
    fold_left (fun T i => loop_gemv k (tl_sz t i) (V i) T) l T p q =
    if (p <? q)%Z then T p q + - taus q * fold_right (fun i s => fsum 0 (tl_sz t i) (fun r => fconj (V i r p) * V i r q) + s) 0 l else T p q).
  { induction l as [|x l IH]; intros T D p q Lp Lq; cbn [fold_left fold_right].
    - destruct (p <? q)%Z; ring.
    - rewrite IH; [|intros c Lc; rewrite loop_gemv_at, Z.ltb_irrefl, andb_false_r; apply D; exact Lc|exact Lp|exact Lq].
      rewrite loop_gemv_at. destruct (Z.leb_spec 0 p), (Z.ltb_spec q k); try lia. rewrite andb_true_r, andb_true_l. destruct (p <? q)%Z; [|reflexivity].
      rewrite D by lia. ring. }
  assert (D0 : forall p q, (0 <= p < k)%Z -> T0 p q = if (p =? q)%Z then taus p else 0).
  { intros p q Lp. unfold T0, taus_diag. destruct (Z.leb_spec 0 p), (Z.ltb_spec p k); try lia. rewrite !andb_true_r. reflexivity. }
  intros p q Lp Lq. rewrite H; try assumption.
  - rewrite D0 by lia. fold (fsum (w_begin batch w) (w_end t batch w) (fun i => fsum 0 (tl_sz t i) (fun r => fconj (V i r p) * V i r q))).
    destruct (Z.eqb_spec p q), (Z.ltb_spec p q); try lia; try reflexivity. ring.
  - intros c Lc. rewrite D0 by lia. rewrite Z.eqb_refl. reflexivity.
Qed.
Lemma step_gemv_at : forall av k (V : @panel K) taus T p q, (0 < av)%Z -> (0 <= p < k)%Z -> (0 <= q < k)%Z -> p <> q ->
  step_gemv t av k V taus T p q = if (p <? q)%Z then - taus q * fsum 0 m (fun a => fconj (stack t V a p) * stack t V a q) else 0.
Proof using TOK NT.
  intros av k V taus T p q AV Lp Lq N. unfold step_gemv. destruct (Z.eqb_spec (tl_n t) 0); [lia|].
  set (B := tfactor_batch t av). set (nw := tfactor_nworkers t av).
  assert (BP : (0 < B)%Z) by (apply ceil_div_pos; lia).
  assert (NW : (1 <= nw)%Z) by (unfold nw, tfactor_nworkers; lia).
  assert (CV : (tl_n t <= nw * B)%Z). { pose proof (ceil_div_cover (tl_n t) B BP). unfold nw, tfactor_nworkers. fold B. nia. }
  assert (H : forall l (A : mat K), fold_left (fun T w => fun p q => T p q + 1 * gemv_worker t k B V taus w p q) l A p q
    = A p q + fold_right (fun w s => gemv_worker t k B V taus w p q + s) 0 l).
  { induction l as [|x l IH]; intros A; cbn [fold_left fold_right]; [ring|]. rewrite IH. ring. }
  rewrite H. transitivity (fsum 0 nw (fun w => gemv_worker t k B V taus w p q)); [rewrite (fsum_cons 0 nw) by lia; reflexivity|].
  set (g := fun i => fsum 0 (tl_sz t i) (fun r => fconj (V i r p) * V i r q)).
  rewrite (fsum_ext 0 nw _ (fun w => if (p <? q)%Z then - taus q * fsum (w * B) (Z.min (w * B + B) (tl_n t)) g else 0)).
  2:{ intros w Lw. rewrite gemv_worker_at by assumption. destruct (Z.eqb_spec p q); [contradiction|]. reflexivity. }
  destruct (p <? q)%Z; [|apply fsum_0; reflexivity]. rewrite fsum_mul_l, sum_batches by lia. f_equal.
  unfold m. rewrite fsum_tiles by exact TOK. apply fsum_ext. intros i Li. unfold g. apply fsum_ext. intros r Lr. rewrite !stack_at by assumption. reflexivity.
Qed.
Theorem tfactor_rec : forall av k (V : @panel K) taus T, (0 < av)%Z -> (0 < k)%Z -> t_rec m k (stack t V) (tfactor t av k V taus T) taus.
Proof using TOK NT.
  intros av k V taus T AV Lk. unfold tfactor. destruct (Z.eqb_spec k 0); [lia|]. unfold copy_diag_and_trmv.
  set (S0 := taus_diag k taus (step_gemv t av k V taus T)).
  destruct (loop_trmv_at k S0 ltac:(lia)) as [H1 H2]. set (T' := loop_trmv k S0) in *.
  assert (SD : forall p q, (0 <= p < k)%Z -> S0 p q = if (p =? q)%Z then taus p else step_gemv t av k V taus T p q).
  { intros p q Lp. unfold S0, taus_diag. destruct (Z.leb_spec 0 p), (Z.ltb_spec p k); try lia. rewrite !andb_true_r. reflexivity. }
  assert (LO : forall p q, (0 <= p < k)%Z -> (0 <= q < k)%Z -> (q < p)%Z -> T' p q = 0).
  { intros p q Lp Lq L. rewrite H1 by (destruct (Z.ltb_spec p q); [lia|]; rewrite andb_false_r; reflexivity).
    rewrite SD by lia. destruct (Z.eqb_spec p q); [lia|]. rewrite step_gemv_at by lia. destruct (Z.ltb_spec p q); [lia|reflexivity]. }
  split; [exact LO|split].
  - intros q Lq. rewrite H1 by (rewrite Z.ltb_irrefl, andb_false_r; reflexivity). rewrite SD by lia. rewrite Z.eqb_refl. reflexivity.
  - intros p q Lp Lq. rewrite H2 by lia. apply fsum_ext. intros r Lr. f_equal.
    + unfold trim. cbn [in_tri]. destruct (Z.eqb_spec p r) as [->|]; [reflexivity|].
      destruct (Z.leb_spec p r); [reflexivity|]. symmetry. apply LO; lia.
    + rewrite SD by lia. destruct (Z.eqb_spec r q); [lia|]. rewrite step_gemv_at by lia. destruct (Z.ltb_spec r q); [reflexivity|lia].
Qed.
End tf.
