(** * Triangular solve and multiplication: all the variants at once. *)
From Coq Require Import ZArith Lia List Bool Permutation.
From Verif Require Import Loop StarField DenseSpec Tiling DenseJobs TileJobs TriangularModel.
Import ListNotations.
Local Open Scope Z_scope.

Section lsum.
Context {K : starfield}.
Local Open Scope sf_scope.
Add Ring KringL : (fring K).
(** sum over a list of indices *)
Definition lsum (l : list Z) (f : Z -> F K) : F K := fold_right (fun k a => f k + a) 0 l.
Lemma lsum_app : forall a b f, lsum (a ++ b) f = lsum a f + lsum b f.
Proof.
  unfold lsum. induction a as [|x a IH]; intros b f; cbn [app fold_right].
  - set (z := fold_right (fun k a => f k + a) 0 b). ring.
  - rewrite IH. ring.
Qed.
Lemma lsum_ext : forall l f g, (forall k, In k l -> f k = g k) -> lsum l f = lsum l g.
Proof.
  induction l as [|x l IH]; intros f g E; cbn; [reflexivity|]. rewrite (E x) by (left; reflexivity).
  fold (lsum l f) (lsum l g). rewrite (IH f g); [reflexivity|]. intros k I0. apply E. right. exact I0.
Qed.
Lemma lsum_0 : forall l f, (forall k, In k l -> f k = 0) -> lsum l f = 0.
Proof.
  intros l f E. rewrite (lsum_ext l f (fun _ => 0) E). clear. induction l as [|x l IH]; cbn; [reflexivity|]. fold (lsum l (fun _ => 0)). rewrite IH. ring.
Qed.
Lemma lsum_perm : forall a b f, Permutation a b -> lsum a f = lsum b f.
Proof. intros a b f P. unfold lsum. induction P; cbn [fold_right]; try congruence. ring. Qed.
Lemma lsum_fsum : forall lo hi f, lsum (zrange lo hi) f = fsum lo hi f.
Proof. reflexivity. Qed.
End lsum.

Section sweep.
Context {K : starfield} (kn : kernels K) (KO : kernels_ok kn).
Context (s : side) (u : uplo) (o : op) (d : diag) (al : F K) (ta tb : tiling) (OKa : tiling_ok ta).
Local Open Scope sf_scope.
Add Ring KringS : (fring K).
Let sa := tl_sz ta.
Let sb := tl_sz tb.
Let off := tl_off ta.
Definition bx (k j : Z) : tid := match s with Left => B_ k j | Right => B_ j k end.
Definition aix (i k : Z) : tid := match s, o with Left, NoTrans => A_ i k | Left, _ => A_ k i | Right, NoTrans => A_ k i | Right, _ => A_ i k end.
Definition g_gm c i k j : tjob (mat K) := match s with
  | Left => jgemm kn o NoTrans (sa i) (sb j) (sa k) c (aix i k) (bx k j) 1 (bx i j)
  | Right => jgemm kn NoTrans o (sb j) (sa i) (sa k) c (bx k j) (aix i k) 1 (bx i j) end.
Definition g_ts k j : tjob (mat K) := match s with
  | Left => jtrsm kn Left u o d (sa k) (sb j) al (A_ k k) (bx k j)
  | Right => jtrsm kn Right u o d (sb j) (sa k) al (A_ k k) (bx k j) end.
Definition g_tm k j : tjob (mat K) := match s with
  | Left => jtrmm kn Left u o d (sa k) (sb j) al (A_ k k) (bx k j)
  | Right => jtrmm kn Right u o d (sb j) (sa k) al (A_ k k) (bx k j) end.
(** transposed for the right side *)
Definition xo (B : mat K) : mat K := fun p q => match s with Left => B p q | Right => B q p end.
Definition xv (st : tstore (mat K)) k j : mat K := xo (st (bx k j)).
(** op(A), transposed for the right side *)
Definition amat (st : tstore (mat K)) : mat K := gather ta ta (fun i j => st (A_ i j)).
Definition tm (st : tstore (mat K)) (i k : Z) : mat K := fun p r =>
  xo (opm o (trim u d (amat st))) (off i + p)%Z (off k + r)%Z.
Definition low : bool := match s with Left => eff_low u o | Right => negb (eff_low u o) end.
(** index i comes after k in a forward substitution *)
Definition ord (k i : Z) : Prop := if low then (k < i)%Z else (i < k)%Z.

Lemma bx_inj : forall k j k' j', bx k j = bx k' j' -> k = k' /\ j = j'.
Proof. intros k j k' j'. unfold bx, B_. destruct s; intros E; injection E; auto. Qed.
Lemma bx_a : forall k j i i', bx k j <> A_ i i'.
Proof. intros. unfold bx, B_, A_. destruct s; discriminate. Qed.
Lemma aix_a : forall i k, exists a b, aix i k = A_ a b.
Proof. intros. unfold aix. destruct s, o; eauto. Qed.
Lemma gm_out : forall c i k j, tj_out (g_gm c i k j) = bx i j.
Proof. intros. unfold g_gm. destruct s; reflexivity. Qed.
Lemma gm_in : forall c i k j x, In x (tj_in (g_gm c i k j)) -> x = aix i k \/ x = bx k j.
Proof. intros c i k j x. unfold g_gm. destruct s; cbn; intuition. Qed.
Lemma ts_out : forall k j, tj_out (g_ts k j) = bx k j. Proof. intros. unfold g_ts. destruct s; reflexivity. Qed.
Lemma ts_in : forall k j, tj_in (g_ts k j) = [A_ k k]. Proof. intros. unfold g_ts. destruct s; reflexivity. Qed.
Lemma tm_out : forall k j, tj_out (g_tm k j) = bx k j. Proof. intros. unfold g_tm. destruct s; reflexivity. Qed.
Lemma tm_in : forall k j, tj_in (g_tm k j) = [A_ k k]. Proof. intros. unfold g_tm. destruct s; reflexivity. Qed.

(** the tile read by the update *)
Lemma tm_raw : forall st i k p r, (0 <= i < tl_n ta)%Z -> (0 <= k < tl_n ta)%Z -> (0 <= p < sa i)%Z -> (0 <= r < sa k)%Z -> ord k i ->
  tm st i k p r = match s with Left => opm o (st (aix i k)) p r | Right => opm o (st (aix i k)) r p end.
Proof.
  intros st i k p r Li Lk Lp Lr Q. unfold tm, xo, amat, off, ord, low, eff_low, aix in *.
  destruct s, u, o; cbn [negb] in Q; unfold opm; rewrite trim_tiles by assumption; unfold trim_tile.
  all: match goal with |- context [(?a =? ?b)%Z] => destruct (Z.eqb_spec a b); [lia|] end.
  all: unfold in_tri; match goal with |- context [(?a <=? ?b)%Z] => rewrite (proj2 (Z.leb_le a b)) by lia end; reflexivity.
Qed.
Lemma tm_zero : forall st i k p r, (0 <= i < tl_n ta)%Z -> (0 <= k < tl_n ta)%Z -> (0 <= p < sa i)%Z -> (0 <= r < sa k)%Z -> ord i k ->
  tm st i k p r = 0.
Proof.
  intros st i k p r Li Lk Lp Lr Q. unfold tm, xo, amat, off, ord, low, eff_low in *.
  destruct s, u, o; cbn [negb] in Q; unfold opm; rewrite trim_tiles by assumption; unfold trim_tile.
  all: match goal with |- context [(?a =? ?b)%Z] => destruct (Z.eqb_spec a b); [lia|] end.
  all: unfold in_tri; match goal with |- context [(?a <=? ?b)%Z] => rewrite (proj2 (Z.leb_gt a b)) by lia end; try reflexivity; apply fconj_0.
Qed.
Lemma tm_diag : forall st k p r, (0 <= k < tl_n ta)%Z -> (0 <= p < sa k)%Z -> (0 <= r < sa k)%Z ->
  tm st k k p r = xo (opm o (trim u d (st (A_ k k)))) p r.
Proof.
  intros st k p r Lk Lp Lr. unfold tm, xo, amat, off. destruct s, o; unfold opm; rewrite trim_tiles by assumption; unfold trim_tile;
  rewrite Z.eqb_refl; reflexivity.
Qed.

(** the kernels, oriented *)
Lemma gm_val : forall c st i k j p q, (0 <= i < tl_n ta)%Z -> (0 <= k < tl_n ta)%Z -> ord k i -> (0 <= p < sa i)%Z -> (0 <= q < sb j)%Z ->
  xo (tval (g_gm c i k j) st) p q = xv st i j p q + c * fsum 0 (sa k) (fun r => tm st i k p r * xv st k j r q).
Proof.
  intros c st i k j p q Li Lk Q Lp Lq. unfold g_gm, xv, xo. destruct s eqn:ES.
  - change (gemm kn o NoTrans (sa i) (sb j) (sa k) c (st (aix i k)) (st (bx k j)) 1 (st (bx i j)) p q = st (bx i j) p q + c * fsum 0 (sa k) (fun r => tm st i k p r * st (bx k j) r q)).
    rewrite (gemm_ok kn KO o NoTrans (sa i) (sb j) (sa k) c (st (aix i k)) (st (bx k j)) 1 (st (bx i j)) p q Lp Lq). unfold mmul.
    rewrite (fsum_ext 0 (sa k) (fun r => tm st i k p r * st (bx k j) r q) (fun r => opm o (st (aix i k)) p r * opm NoTrans (st (bx k j)) r q)); [ring|].
    intros r Lr. rewrite tm_raw by assumption. rewrite ES. reflexivity.
  - change (gemm kn NoTrans o (sb j) (sa i) (sa k) c (st (bx k j)) (st (aix i k)) 1 (st (bx i j)) q p = st (bx i j) q p + c * fsum 0 (sa k) (fun r => tm st i k p r * st (bx k j) q r)).
    rewrite (gemm_ok kn KO NoTrans o (sb j) (sa i) (sa k) c (st (bx k j)) (st (aix i k)) 1 (st (bx i j)) q p Lq Lp). unfold mmul.
    rewrite (fsum_ext 0 (sa k) (fun r => tm st i k p r * st (bx k j) q r) (fun r => opm NoTrans (st (bx k j)) q r * opm o (st (aix i k)) r p)); [ring|].
    intros r Lr. rewrite tm_raw by assumption. rewrite ES. cbn [opm]. ring.
Qed.
Definition nonsing (st : tstore (mat K)) : Prop := nonsingular d (tl_size ta) (amat st).
Lemma nonsing_tile : forall st k, nonsing st -> (0 <= k < tl_n ta)%Z -> nonsingular d (sa k) (st (A_ k k)).
Proof.
  intros st k N L. unfold nonsing, nonsingular in *. destruct d; [|exact N]. intros i Li.
  specialize (N (tl_off ta k + i)%Z (elem_bound ta OKa k i L Li)). unfold amat in N. rewrite gather_at in N by assumption. exact N.
Qed.
Lemma ts_val : forall st k j p q, nonsing st -> (0 <= k < tl_n ta)%Z -> (0 <= p < sa k)%Z -> (0 <= q < sb j)%Z ->
  fsum 0 (sa k) (fun r => tm st k k p r * xo (tval (g_ts k j) st) r q) = al * xv st k j p q.
Proof.
  intros st k j p q N Lk Lp Lq. pose proof (nonsing_tile st k N Lk) as NS.
  transitivity (fsum 0 (sa k) (fun r => xo (opm o (trim u d (st (A_ k k)))) p r * xo (tval (g_ts k j) st) r q)).
  { apply fsum_ext. intros r Lr. rewrite tm_diag by assumption. reflexivity. }
  unfold g_ts, xv, xo. destruct s.
  - exact (trsm_ok kn KO Left u o d (sa k) (sb j) al (st (A_ k k)) (st (bx k j)) NS p q Lp Lq).
  - rewrite <- (trsm_ok kn KO Right u o d (sb j) (sa k) al (st (A_ k k)) (st (bx k j)) NS q p Lq Lp). unfold mmul. apply fsum_ext. intros r _.
    change (tval (jtrsm kn Right u o d (sb j) (sa k) al (A_ k k) (bx k j)) st) with (trsm kn Right u o d (sb j) (sa k) al (st (A_ k k)) (st (bx k j))). ring.
Qed.
Lemma tmm_val : forall st k j p q, (0 <= k < tl_n ta)%Z -> (0 <= p < sa k)%Z -> (0 <= q < sb j)%Z ->
  xo (tval (g_tm k j) st) p q = al * fsum 0 (sa k) (fun r => tm st k k p r * xv st k j r q).
Proof.
  intros st k j p q Lk Lp Lq.
  rewrite (fsum_ext 0 (sa k) (fun r => tm st k k p r * xv st k j r q) (fun r => xo (opm o (trim u d (st (A_ k k)))) p r * xv st k j r q))
    by (intros r Lr; rewrite tm_diag by assumption; reflexivity).
  unfold g_tm, xv, xo. destruct s.
  - exact (trmm_ok kn KO Left u o d (sa k) (sb j) al (st (A_ k k)) (st (bx k j)) p q Lp Lq).
  - change (trmm kn Right u o d (sb j) (sa k) al (st (A_ k k)) (st (bx k j)) q p =
      al * fsum 0 (sa k) (fun r => opm o (trim u d (st (A_ k k))) r p * st (bx k j) q r)).
    rewrite (trmm_ok kn KO Right u o d (sb j) (sa k) al (st (A_ k k)) (st (bx k j)) q p Lq Lp). unfold mmul. f_equal. apply fsum_ext. intros r _. ring.
Qed.
(** tiles of mat_a are not changed by jobs that update mat_b *)
Lemma tm_same : forall st st' i k p r, (forall a b, st' (A_ a b) = st (A_ a b)) -> tm st' i k p r = tm st i k p r.
Proof. intros st st' i k p r E. unfold tm, xo, opm, trim, amat, gather. destruct s, o; rewrite !E; reflexivity. Qed.
Lemma nonsing_same : forall st st', (forall a b, st' (A_ a b) = st (A_ a b)) -> nonsing st -> nonsing st'.
Proof.
  intros st st' E N. unfold nonsing, nonsingular in *. destruct d; [|exact N]. intros i Li. unfold amat, gather in *. rewrite E. apply N. exact Li.
Qed.

(** ** One index k: solve, then update *)
Context (js : list Z) (NDj : NoDup js).
Definition solve_k c k (aft : list Z) : list (tjob (mat K)) :=
  flat_map (fun j => [g_ts k j] ++ flat_map (fun i => [g_gm c i k j]) aft) js.
(** what one index k does, however it is computed *)
Definition solve_step c k (aft : list Z) (st st' : tstore (mat K)) : Prop :=
  (forall a b, st' (A_ a b) = st (A_ a b)) /\
  (forall j, In j js -> st' (bx k j) = tval (g_ts k j) st) /\
  (forall i j, In j js -> In i aft -> st' (bx i j) = tval (g_gm c i k j) (tset st (bx k j) (st' (bx k j)))) /\
  (forall i j, i <> k -> ~ In i aft -> st' (bx i j) = st (bx i j)) /\
  (forall x, (forall i j, (i = k \/ In i aft) -> In j js -> x <> bx i j) -> st' x = st x).
Lemma solve_k_run : forall c k aft st, NoDup aft -> ~ In k aft -> solve_step c k aft st (trun (solve_k c k aft) st).
Proof.
  intros c k aft st ND NK. unfold solve_step.
  assert (G : (fun l st' => (forall x, (forall i j, (i = k \/ In i aft) -> In j l -> x <> bx i j) -> st' x = st x) /\
    (forall j, In j l -> st' (bx k j) = tval (g_ts k j) st) /\
    (forall i j, In j l -> In i aft -> st' (bx i j) = tval (g_gm c i k j) (tset st (bx k j) (st' (bx k j))))) js (trun (solve_k c k aft) st)).
  { apply (run_list_inv (fun j => [g_ts k j] ++ flat_map (fun i => [g_gm c i k j]) aft) js
      (fun l st' => (forall x, (forall i j, (i = k \/ In i aft) -> In j l -> x <> bx i j) -> st' x = st x) /\
    (forall j, In j l -> st' (bx k j) = tval (g_ts k j) st) /\
    (forall i j, In j l -> In i aft -> st' (bx i j) = tval (g_gm c i k j) (tset st (bx k j) (st' (bx k j)))))).
    - split; [intros; reflexivity|]. split; [intros j []|intros i j []].
    - intros l1 j l2 s1 E (I1 & I2 & I3). rewrite trun_app. cbn [trun fold_left].
      set (s2 := texec s1 (g_ts k j)). fold (trun (flat_map (fun i => [g_gm c i k j]) aft) s2).
      assert (NJ : ~ In j l1).
      { intros Q. rewrite E in NDj. apply NoDup_remove_2 in NDj. apply NDj. apply in_or_app. left. exact Q. }
      assert (COL : forall i, (i = k \/ In i aft) -> s1 (bx i j) = st (bx i j)).
      { intros i Hi. apply I1. intros i' j' _ Ij' Q. apply bx_inj in Q as [_ ->]. contradiction. }
      assert (AA : forall a b, s1 (A_ a b) = st (A_ a b)) by (intros a b; apply I1; intros i' j' _ _ Q; symmetry in Q; apply bx_a in Q; exact Q).
      assert (T2 : s2 (bx k j) = tval (g_ts k j) st).
      { unfold s2, texec. rewrite ts_out, tset_eq. apply tval_ext. intros x. rewrite ts_in, ts_out. intros [[<-|[]]| ->]; [apply AA|apply COL; auto]. }
      assert (O2 : forall x, x <> bx k j -> s2 x = s1 x) by (intros x N; unfold s2, texec; rewrite ts_out; apply tset_neq; exact N).
      destruct (run_each_in aft (fun i => g_gm c i k j) s2 ND) as [R1 R2].
      { intros a b _ _ Q. rewrite !gm_out in Q. apply bx_inj in Q. tauto. }
      { intros a b Ia Ib Q. rewrite gm_out in Q. apply gm_in in Q as [Q|Q].
        - destruct (aix_a a k) as (x & y & Ex). rewrite Ex in Q. apply bx_a in Q. exact Q.
        - apply bx_inj in Q as [-> _]. contradiction. }
      set (s3 := trun (flat_map (fun i => [g_gm c i k j]) aft) s2) in *.
      assert (K3 : s3 (bx k j) = s2 (bx k j)).
      { apply R2. intros a Ia Q. rewrite gm_out in Q. apply bx_inj in Q as [-> _]. contradiction. }
      assert (OTH : forall i j', j' <> j -> s3 (bx i j') = s1 (bx i j')).
      { intros i j' N. rewrite R2; [apply O2; intros Q; apply bx_inj in Q; tauto|]. intros a _ Q. rewrite gm_out in Q. apply bx_inj in Q. intuition. }
      split; [|split].
      + intros x N. rewrite R2.
        * rewrite O2; [apply I1; intros i' j' Hi Ij'; apply N; [exact Hi|apply in_or_app; left; exact Ij']|].
          apply N; [left; reflexivity|apply in_or_app; right; left; reflexivity].
        * intros a Ia Q. rewrite gm_out in Q. symmetry in Q. revert Q. apply N; [right; exact Ia|apply in_or_app; right; left; reflexivity].
      + intros j' Ij'. apply in_app_or in Ij' as [Ij'|[<-|[]]].
        * rewrite OTH by (intros ->; contradiction). apply I2. exact Ij'.
        * rewrite K3. exact T2.
      + intros i j' Ij' Ii. apply in_app_or in Ij' as [Ij'|[<-|[]]].
        * rewrite !OTH by (intros ->; contradiction). apply I3; assumption.
        * rewrite K3. rewrite <- (gm_out c i k j) at 1. rewrite (R1 i Ii). apply tval_ext. intros x. rewrite gm_out. intros [Ix| ->].
          { apply gm_in in Ix as [->| ->].
            - destruct (aix_a i k) as (a & b & ->). rewrite O2 by (intros Q; symmetry in Q; apply bx_a in Q; exact Q). rewrite tset_neq by (intros Q; symmetry in Q; apply bx_a in Q; exact Q). apply AA.
            - rewrite tset_eq. reflexivity. }
          { assert (NN : bx i j <> bx k j) by (intros Q; apply bx_inj in Q as [-> _]; contradiction).
            rewrite O2, tset_neq by exact NN. apply COL. right. exact Ii. } }
  destruct G as (G1 & G2 & G3). split; [|split; [exact G2|split; [exact G3|split]]].
  - intros a b. apply G1. intros i j _ _ Q. symmetry in Q. apply bx_a in Q. exact Q.
  - intros i j N1 N2. apply G1. intros i' j' Hi _ Q. apply bx_inj in Q as [-> _]. destruct Hi; contradiction.
  - exact G1.
Qed.
(** ** One index k: update, then multiply *)
Definition mult_k c k (bef : list Z) : list (tjob (mat K)) :=
  flat_map (fun j => flat_map (fun i => [g_gm c i k j]) bef ++ [g_tm k j]) js.
Definition mult_step c k (bef : list Z) (st st' : tstore (mat K)) : Prop :=
  (forall a b, st' (A_ a b) = st (A_ a b)) /\
  (forall j, In j js -> st' (bx k j) = tval (g_tm k j) st) /\
  (forall i j, In j js -> In i bef -> st' (bx i j) = tval (g_gm c i k j) st) /\
  (forall i j, i <> k -> ~ In i bef -> st' (bx i j) = st (bx i j)) /\
  (forall x, (forall i j, (i = k \/ In i bef) -> In j js -> x <> bx i j) -> st' x = st x).
Lemma mult_k_run : forall c k bef st, NoDup bef -> ~ In k bef -> mult_step c k bef st (trun (mult_k c k bef) st).
Proof.
  intros c k bef st ND NK. unfold mult_step.
  set (I := fun l (st' : tstore (mat K)) => (forall x, (forall i j, (i = k \/ In i bef) -> In j l -> x <> bx i j) -> st' x = st x) /\
    (forall j, In j l -> st' (bx k j) = tval (g_tm k j) st) /\
    (forall i j, In j l -> In i bef -> st' (bx i j) = tval (g_gm c i k j) st)).
  assert (G : I js (trun (mult_k c k bef) st)).
  { apply (run_list_inv (fun j => flat_map (fun i => [g_gm c i k j]) bef ++ [g_tm k j]) js I); unfold I.
    - split; [intros; reflexivity|]. split; [intros j []|intros i j []].
    - intros l1 j l2 s1 E (I1 & I2 & I3). rewrite trun_app. cbn [trun fold_left].
      set (s2 := trun (flat_map (fun i => [g_gm c i k j]) bef) s1).
      assert (NJ : ~ In j l1).
      { intros Q. rewrite E in NDj. apply NoDup_remove_2 in NDj. apply NDj. apply in_or_app. left. exact Q. }
      assert (COL : forall i, (i = k \/ In i bef) -> s1 (bx i j) = st (bx i j)).
      { intros i Hi. apply I1. intros i' j' _ Ij' Q. apply bx_inj in Q as [_ ->]. contradiction. }
      assert (AA : forall a b, s1 (A_ a b) = st (A_ a b)) by (intros a b; apply I1; intros i' j' _ _ Q; symmetry in Q; apply bx_a in Q; exact Q).
      destruct (run_each_in bef (fun i => g_gm c i k j) s1 ND) as [R1 R2].
      { intros a b _ _ Q. rewrite !gm_out in Q. apply bx_inj in Q. tauto. }
      { intros a b Ia Ib Q. rewrite gm_out in Q. apply gm_in in Q as [Q|Q].
        - destruct (aix_a a k) as (x & y & Ex). rewrite Ex in Q. apply bx_a in Q. exact Q.
        - apply bx_inj in Q as [-> _]. contradiction. }
      fold s2 in R1, R2.
      assert (K2 : s2 (bx k j) = st (bx k j)).
      { rewrite R2; [apply COL; auto|]. intros a Ia Q. rewrite gm_out in Q. apply bx_inj in Q as [-> _]. contradiction. }
      assert (A2 : forall a b, s2 (A_ a b) = st (A_ a b)).
      { intros a b. rewrite R2; [apply AA|]. intros a' _ Q. rewrite gm_out in Q. apply bx_a in Q. exact Q. }
      set (s3 := texec s2 (g_tm k j)).
      assert (T3 : s3 (bx k j) = tval (g_tm k j) st).
      { unfold s3, texec. rewrite tm_out, tset_eq. apply tval_ext. intros x. rewrite tm_in, tm_out. intros [[<-|[]]| ->]; [apply A2|exact K2]. }
      assert (O3 : forall x, x <> bx k j -> s3 x = s2 x) by (intros x N; unfold s3, texec; rewrite tm_out; apply tset_neq; exact N).
      assert (OTH : forall i j', j' <> j -> s3 (bx i j') = s1 (bx i j')).
      { intros i j' N. rewrite O3 by (intros Q; apply bx_inj in Q; tauto). apply R2. intros a _ Q. rewrite gm_out in Q. apply bx_inj in Q. intuition. }
      split; [|split].
      + intros x N. rewrite O3; [rewrite R2|].
        * apply I1. intros i' j' Hi Ij'. apply N; [exact Hi|apply in_or_app; left; exact Ij'].
        * intros a Ia Q. rewrite gm_out in Q. symmetry in Q. revert Q. apply N; [right; exact Ia|apply in_or_app; right; left; reflexivity].
        * apply N; [left; reflexivity|apply in_or_app; right; left; reflexivity].
      + intros j' Ij'. apply in_app_or in Ij' as [Ij'|[<-|[]]].
        * rewrite OTH by (intros ->; contradiction). apply I2. exact Ij'.
        * exact T3.
      + intros i j' Ij' Ii. apply in_app_or in Ij' as [Ij'|[<-|[]]].
        * rewrite !OTH by (intros ->; contradiction). apply I3; assumption.
        * rewrite O3 by (intros Q; apply bx_inj in Q as [-> _]; contradiction).
          rewrite <- (gm_out c i k j) at 1. rewrite (R1 i Ii). apply tval_ext. intros x. rewrite gm_out. intros [Ix| ->].
          { apply gm_in in Ix as [->| ->]; [destruct (aix_a i k) as (a & b & ->); apply AA|apply COL; auto]. }
          { apply COL. right. exact Ii. } }
  destruct G as (G1 & G2 & G3). split; [|split; [exact G2|split; [exact G3|split]]].
  - intros a b. apply G1. intros i j _ _ Q. symmetry in Q. apply bx_a in Q. exact Q.
  - intros i j N1 N2. apply G1. intros i' j' Hi _ Q. apply bx_inj in Q as [-> _]. destruct Hi; contradiction.
  - exact G1.
Qed.

(** ** The whole sweep *)
(** ks: all the indices, each before those it must precede *)
Definition sweep (ks : list Z) (before : Z -> Z -> Prop) : Prop :=
  NoDup ks /\ (forall k, In k ks <-> (0 <= k < tl_n ta)%Z) /\
  forall l1 k l2, ks = l1 ++ k :: l2 -> (forall i, In i l1 <-> (0 <= i < tl_n ta)%Z /\ before i k) /\ (forall i, In i l2 <-> (0 <= i < tl_n ta)%Z /\ before k i).
Context (ks : list Z) (aft : Z -> list Z).
Let term (st : tstore (mat K)) (i k j p q : Z) : F K := fsum 0 (sa k) (fun r => tm st i k p r * xv st k j r q).

Section solve.
Context (SW : sweep ks ord) (AFT : forall k, In k ks -> NoDup (aft k) /\ forall i, In i (aft k) <-> (0 <= i < tl_n ta)%Z /\ ord k i).
Context (c : F K) (C : al * c = - (1)) (st0 : tstore (mat K)) (NS : nonsing st0).
Record SINV (l : list Z) (st : tstore (mat K)) : Prop := {
  s_a : forall a b, st (A_ a b) = st0 (A_ a b);
  s_done : forall i j p q, In i l -> In j js -> (0 <= p < sa i)%Z -> (0 <= q < sb j)%Z -> lsum l (fun k => term st i k j p q) = al * xv st0 i j p q;
  s_todo : forall i j p q, (0 <= i < tl_n ta)%Z -> ~ In i l -> In j js -> (0 <= p < sa i)%Z -> (0 <= q < sb j)%Z ->
     al * xv st i j p q = al * xv st0 i j p q - lsum l (fun k => term st i k j p q);
  s_frame : forall x, (forall i j, (0 <= i < tl_n ta)%Z -> In j js -> x <> bx i j) -> st x = st0 x }.
Lemma ord_irr : forall k, ~ ord k k. Proof. intros k. unfold ord. destruct low; lia. Qed.
Lemma ord_asym : forall i k, ord i k -> ~ ord k i. Proof. intros i k. unfold ord. destruct low; lia. Qed.
Lemma ord_tot : forall i k, i <> k -> ord i k \/ ord k i. Proof. intros i k. unfold ord. destruct low; lia. Qed.
Lemma SINV_step : forall l1 k l2 st st', ks = l1 ++ k :: l2 -> SINV l1 st -> solve_step c k (aft k) st st' -> SINV (l1 ++ [k]) st'.
Proof.
  destruct SW as (ND & IN & OR). intros l1 k l2 st st' E I0 (A1 & T1 & G1 & O1 & X1). destruct (OR l1 k l2 E) as [BEF AFTL].
    assert (Ik : In k ks) by (rewrite E; apply in_or_app; right; left; reflexivity).
    pose proof (proj1 (IN k) Ik) as Lk. destruct (AFT k Ik) as [NDa INa].
    assert (NKa : ~ In k (aft k)) by (rewrite INa; intros [_ Q]; exact (ord_irr k Q)).

    assert (TMS : forall i k' p r, tm st' i k' p r = tm st i k' p r) by (intros; apply tm_same; exact A1).
    assert (SAME : forall i j, In i l1 -> st' (bx i j) = st (bx i j)).
    { intros i j Ii. apply BEF in Ii as [Li Q]. apply O1; [intros ->; exact (ord_irr k Q)|]. rewrite INa. intros [_ Q']. exact (ord_asym _ _ Q Q'). }
    assert (TERM : forall i k' j p q, In k' l1 -> term st' i k' j p q = term st i k' j p q).
    { intros i k' j p q Ik'. unfold term. apply fsum_ext. intros r _. rewrite TMS. unfold xv. rewrite SAME by exact Ik'. reflexivity. }
    assert (NK1 : ~ In k l1) by (intros Q; apply BEF in Q as [_ Q]; exact (ord_irr k Q)).
    split.
    + intros a b. rewrite A1. apply (s_a _ _ I0).
    + intros i j p q Ii Ij Lp Lq. rewrite lsum_app. cbn [lsum fold_right].
      rewrite (lsum_ext l1 _ (fun k' => term st i k' j p q)) by (intros k' Ik'; apply TERM; exact Ik').
      apply in_app_or in Ii as [Ii|[<-|[]]].
      * rewrite (s_done _ _ I0) by assumption. assert (Z0 : term st' i k j p q = 0).
        { unfold term. apply fsum_0. intros r Lr. apply BEF in Ii as [Li Q]. rewrite tm_zero by assumption. ring. }
        rewrite Z0. ring.
      * assert (E1 : term st' k k j p q = al * xv st k j p q).
        { unfold term. rewrite <- (ts_val st k j p q); try assumption; [|apply (nonsing_same st0); [apply (s_a _ _ I0)|exact NS]].
          apply fsum_ext. intros r _. rewrite TMS. unfold xv. rewrite (T1 j Ij). reflexivity. }
        rewrite E1, (s_todo _ _ I0) by assumption. ring.
    + intros i j p q Li Ni Ij Lp Lq. rewrite lsum_app. cbn [lsum fold_right].
      rewrite (lsum_ext l1 _ (fun k' => term st i k' j p q)) by (intros k' Ik'; apply TERM; exact Ik').
      assert (Ni1 : ~ In i l1) by (intros Q; apply Ni; apply in_or_app; left; exact Q).
      assert (Nik : i <> k) by (intros ->; apply Ni; apply in_or_app; right; left; reflexivity).
      assert (Q : ord k i) by (destruct (ord_tot i k Nik) as [Q|Q]; [exfalso; apply Ni1; apply BEF; auto|exact Q]).
      assert (Ia : In i (aft k)) by (apply INa; auto).
      unfold xv at 1. rewrite (G1 i j Ij Ia). rewrite gm_val by assumption.
      set (st1 := tset st (bx k j) (st' (bx k j))).
      assert (A1' : forall a b, st1 (A_ a b) = st (A_ a b)) by (intros a b; unfold st1; apply tset_neq; intros Q'; symmetry in Q'; apply bx_a in Q'; exact Q').
      assert (EX : xv st1 i j p q = xv st i j p q).
      { unfold xv, st1. rewrite tset_neq; [reflexivity|]. intros Q'. apply bx_inj in Q'. tauto. }
      rewrite EX.
      assert (ET : fsum 0 (sa k) (fun r => tm st1 i k p r * xv st1 k j r q) = term st' i k j p q).
      { unfold term. apply fsum_ext. intros r _. rewrite TMS, (tm_same st st1) by exact A1'. unfold xv, st1. rewrite tset_eq. reflexivity. }
      rewrite ET. transitivity (al * xv st i j p q + (al * c) * term st' i k j p q); [ring|]. rewrite C, (s_todo _ _ I0) by assumption. ring.
    + intros x N. rewrite X1; [apply (s_frame _ _ I0); exact N|]. intros i j Hi Ij. apply N; [|exact Ij].
      destruct Hi as [->|Hi]; [exact Lk|apply INa in Hi; tauto].
Qed.
Theorem solve_sweep : SINV ks (trun (flat_map (fun k => solve_k c k (aft k)) ks) st0).
Proof.
  apply (run_list_inv (fun k => solve_k c k (aft k)) ks SINV).
  - split; try reflexivity.
    + intros i j p q [].
    + intros. cbn. ring.
  - intros l1 k l2 st E I0. apply (SINV_step l1 k l2 st); [exact E|exact I0|]. destruct SW as (ND & IN & OR).
    assert (Ik : In k ks) by (rewrite E; apply in_or_app; right; left; reflexivity).
    destruct (AFT k Ik) as [NDa INa]. apply solve_k_run; [exact NDa|]. rewrite INa. intros [_ Q]. exact (ord_irr k Q).
Qed.
End solve.

(** alpha = 0: the result is zero whatever the factor of the update *)
Section solve0.
Context (SW : sweep ks ord) (AFT : forall k, In k ks -> NoDup (aft k) /\ forall i, In i (aft k) <-> (0 <= i < tl_n ta)%Z /\ ord k i).
Context (c : F K) (A0 : al = 0) (st0 : tstore (mat K)) (NS : nonsing st0).
Lemma tri_tile : forall st k, nonsing st -> (0 <= k < tl_n ta)%Z -> is_tri low (sa k) (fun p r => tm st k k p r).
Proof.
  intros st k N L. pose proof (op_trim_tri u o d (sa k) (st (A_ k k)) (nonsing_tile st k N L)) as [D T]. split.
  - intros i Li. rewrite tm_diag by assumption. unfold xo. destruct s; apply D; exact Li.
  - intros i r Li Lr Q. rewrite tm_diag by assumption. unfold xo, low in *. destruct s; apply T; try assumption. destruct (eff_low u o); exact Q.
Qed.
Record ZINV (l : list Z) (st : tstore (mat K)) : Prop := {
  z_a : forall a b, st (A_ a b) = st0 (A_ a b);
  z_done : forall i j p q, In i l -> In j js -> (0 <= p < sa i)%Z -> (0 <= q < sb j)%Z -> xv st i j p q = 0;
  z_frame : forall x, (forall i j, (0 <= i < tl_n ta)%Z -> In j js -> x <> bx i j) -> st x = st0 x }.
Lemma ZINV_step : forall l1 k l2 st st', ks = l1 ++ k :: l2 -> ZINV l1 st -> solve_step c k (aft k) st st' -> ZINV (l1 ++ [k]) st'.
Proof.
  destruct SW as (ND & IN & OR). intros l1 k l2 st st' E I0 (A1 & T1 & G1 & O1 & X1). destruct (OR l1 k l2 E) as [BEF AFTL].
    assert (Ik : In k ks) by (rewrite E; apply in_or_app; right; left; reflexivity).
    pose proof (proj1 (IN k) Ik) as Lk. destruct (AFT k Ik) as [NDa INa].
    assert (NKa : ~ In k (aft k)) by (rewrite INa; intros [_ Q]; exact (ord_irr k Q)).
 split.
    + intros a b. rewrite A1. apply (z_a _ _ I0).
    + intros i j p q Ii Ij Lp Lq. apply in_app_or in Ii as [Ii|[<-|[]]].
      * unfold xv. rewrite O1; [apply (z_done _ _ I0); assumption| |].
        { intros ->. apply BEF in Ii as [_ Q]. exact (ord_irr _ Q). }
        { apply BEF in Ii as [Li Q]. rewrite INa. intros [_ Q']. exact (ord_asym _ _ Q Q'). }
      * assert (NS' : nonsing st) by (apply (nonsing_same st0); [apply (z_a _ _ I0)|exact NS]).
        apply (tri_unique low (sa k) (fun p r => tm st k k p r) (fun r => xv st' k j r q) (fun _ => 0)); [apply tri_tile; assumption| |exact Lp].
        intros b Lb. unfold xv. rewrite (T1 j Ij). rewrite (ts_val st k j b q NS' Lk Lb Lq), A0.
        rewrite (fsum_0 0 (sa k)); [ring|]. intros r _. ring.
    + intros x N. rewrite X1; [apply (z_frame _ _ I0); exact N|]. intros i j Hi Ij. apply N; [|exact Ij].
      destruct Hi as [->|Hi]; [exact Lk|apply INa in Hi; tauto].
Qed.
Theorem solve_sweep0 : ZINV ks (trun (flat_map (fun k => solve_k c k (aft k)) ks) st0).
Proof.
  apply (run_list_inv (fun k => solve_k c k (aft k)) ks ZINV).
  - split; try reflexivity. intros i j p q [].
  - intros l1 k l2 st E I0. apply (ZINV_step l1 k l2 st); [exact E|exact I0|]. destruct SW as (ND & IN & OR).
    assert (Ik : In k ks) by (rewrite E; apply in_or_app; right; left; reflexivity).
    destruct (AFT k Ik) as [NDa INa]. apply solve_k_run; [exact NDa|]. rewrite INa. intros [_ Q]. exact (ord_irr k Q).
Qed.
End solve0.

Section mult.
Definition drd (i k : Z) : Prop := ord k i.
Context (SW : sweep ks drd) (AFT : forall k, In k ks -> NoDup (aft k) /\ forall i, In i (aft k) <-> (0 <= i < tl_n ta)%Z /\ drd i k).
Context (st0 : tstore (mat K)).
Let term0 (i k j p q : Z) : F K := fsum 0 (sa k) (fun r => tm st0 i k p r * xv st0 k j r q).
Record MINV (l : list Z) (st : tstore (mat K)) : Prop := {
  m_a : forall a b, st (A_ a b) = st0 (A_ a b);
  m_done : forall i j p q, In i l -> In j js -> (0 <= p < sa i)%Z -> (0 <= q < sb j)%Z -> xv st i j p q = al * lsum l (fun k => term0 i k j p q);
  m_todo : forall i j, ~ In i l -> In j js -> st (bx i j) = st0 (bx i j);
  m_frame : forall x, (forall i j, (0 <= i < tl_n ta)%Z -> In j js -> x <> bx i j) -> st x = st0 x }.
Lemma MINV_step : forall l1 k l2 st st', ks = l1 ++ k :: l2 -> MINV l1 st -> mult_step al k (aft k) st st' -> MINV (l1 ++ [k]) st'.
Proof.
  destruct SW as (ND & IN & OR). intros l1 k l2 st st' E I0 (A1 & T1 & G1 & O1 & X1). destruct (OR l1 k l2 E) as [BEF AFTL].
    assert (Ik : In k ks) by (rewrite E; apply in_or_app; right; left; reflexivity).
    pose proof (proj1 (IN k) Ik) as Lk. destruct (AFT k Ik) as [NDa INa].
    assert (NKa : ~ In k (aft k)) by (rewrite INa; intros [_ Q]; exact (ord_irr k Q)).

    assert (NK1 : ~ In k l1) by (intros Q; apply BEF in Q as [_ Q]; exact (ord_irr k Q)).
    assert (TMS : forall i k' p r, tm st i k' p r = tm st0 i k' p r) by (intros; apply tm_same; apply (m_a _ _ I0)).
    split.
    + intros a b. rewrite A1. apply (m_a _ _ I0).
    + intros i j p q Ii Ij Lp Lq. rewrite lsum_app. cbn [lsum fold_right].
      apply in_app_or in Ii as [Ii|[<-|[]]].
      * pose proof (proj1 (BEF i) Ii) as [Li Q]. assert (Ia : In i (aft k)) by (apply INa; auto).
        unfold xv. rewrite (G1 i j Ij Ia). rewrite gm_val by assumption. rewrite (m_done _ _ I0) by assumption.
        rewrite (fsum_ext 0 (sa k) _ (fun r => tm st0 i k p r * xv st0 k j r q)).
        { fold (term0 i k j p q). ring. }
        { intros r _. rewrite TMS. unfold xv. rewrite (m_todo _ _ I0 k j NK1 Ij). reflexivity. }
      * unfold xv. rewrite (T1 j Ij), tmm_val by assumption.
        rewrite (lsum_0 l1).
        { rewrite (fsum_ext 0 (sa k) _ (fun r => tm st0 k k p r * xv st0 k j r q)).
          - fold (term0 k k j p q). ring.
          - intros r _. rewrite TMS. unfold xv. rewrite (m_todo _ _ I0 k j NK1 Ij). reflexivity. }
        { intros k' Ik'. apply BEF in Ik' as [Lk' Q]. unfold term0. apply fsum_0. intros r Lr. rewrite tm_zero by assumption. ring. }
    + intros i j Ni Ij. rewrite O1.
      * apply (m_todo _ _ I0); [intros Q; apply Ni; apply in_or_app; left; exact Q|exact Ij].
      * intros ->. apply Ni. apply in_or_app. right. left. reflexivity.
      * rewrite INa. intros Q. apply Ni. apply in_or_app. left. apply BEF. exact Q.
    + intros x N. rewrite X1; [apply (m_frame _ _ I0); exact N|]. intros i j Hi Ij. apply N; [|exact Ij].
      destruct Hi as [->|Hi]; [exact Lk|apply INa in Hi; tauto].
Qed.
Theorem mult_sweep : MINV ks (trun (flat_map (fun k => mult_k al k (aft k)) ks) st0).
Proof.
  apply (run_list_inv (fun k => mult_k al k (aft k)) ks MINV).
  - split; try reflexivity. intros i j p q [].
  - intros l1 k l2 st E I0. apply (MINV_step l1 k l2 st); [exact E|exact I0|]. destruct SW as (ND & IN & OR).
    assert (Ik : In k ks) by (rewrite E; apply in_or_app; right; left; reflexivity).
    destruct (AFT k Ik) as [NDa INa]. apply mult_k_run; [exact NDa|]. rewrite INa. intros [_ Q]. exact (ord_irr k Q).
Qed.
End mult.
(** ** Right-looking solution: row k is updated with all the rows already solved, then solved *)
Section dot.
Context (SW : sweep ks ord) (BEF : forall k, In k ks -> NoDup (aft k) /\ forall i, In i (aft k) <-> (0 <= i < tl_n ta)%Z /\ ord i k).
Context (c : F K) (st0 : tstore (mat K)) (NS : nonsing st0).
Definition dot_step k (bef : list Z) (st st' : tstore (mat K)) : Prop :=
  (forall a b, st' (A_ a b) = st (A_ a b)) /\
  (forall j p q, In j js -> (0 <= p < sa k)%Z -> (0 <= q < sb j)%Z ->
     fsum 0 (sa k) (fun r => tm st k k p r * xv st' k j r q) = al * (xv st k j p q + c * lsum bef (fun i => term st k i j p q))) /\
  (forall x, (forall j, In j js -> x <> bx k j) -> st' x = st x).
Record TINV (l : list Z) (st : tstore (mat K)) : Prop := {
  t_a : forall a b, st (A_ a b) = st0 (A_ a b);
  t_done : forall i j p q, In i l -> In j js -> (0 <= p < sa i)%Z -> (0 <= q < sb j)%Z -> lsum l (fun k => term st i k j p q) = al * xv st0 i j p q;
  t_todo : forall i j, ~ In i l -> st (bx i j) = st0 (bx i j);
  t_frame : forall x, (forall i j, (0 <= i < tl_n ta)%Z -> In j js -> x <> bx i j) -> st x = st0 x }.
Lemma TINV_nil : TINV [] st0.
Proof. split; try reflexivity. intros i j p q []. Qed.
Lemma TINV_step : al * c = - (1) -> forall l1 k l2 st st', ks = l1 ++ k :: l2 -> TINV l1 st -> dot_step k (aft k) st st' -> TINV (l1 ++ [k]) st'.
Proof.
  intros C. destruct SW as (ND & IN & OR). intros l1 k l2 st st' E I0 (A1 & T1 & X1). destruct (OR l1 k l2 E) as [BEFL AFTL].
  assert (Ik : In k ks) by (rewrite E; apply in_or_app; right; left; reflexivity).
  pose proof (proj1 (IN k) Ik) as Lk. destruct (BEF k Ik) as [NDb INb].
  assert (NK1 : ~ In k l1) by (intros Q; apply BEFL in Q as [_ Q]; exact (ord_irr k Q)).
  assert (ND1 : NoDup l1). { rewrite E in ND. revert ND. generalize (k :: l2). clear. intros b. induction l1 as [|x l1 IH]; intros ND; [constructor|]. inversion ND as [|? ? N1 N2]; subst. constructor; [intros Q; apply N1; apply in_or_app; left; exact Q|apply IH; exact N2]. }
  assert (PERM : Permutation (aft k) l1). { apply NoDup_Permutation; [exact NDb|exact ND1|]. intros i. rewrite INb, BEFL. reflexivity. }
  assert (TMS : forall i k' p r, tm st' i k' p r = tm st i k' p r) by (intros; apply tm_same; exact A1).
  assert (SAME : forall i j, i <> k -> st' (bx i j) = st (bx i j)) by (intros i j Ni; apply X1; intros j' _ Q; apply bx_inj in Q; tauto).
  assert (TERM : forall i k' j p q, In k' l1 -> term st' i k' j p q = term st i k' j p q).
  { intros i k' j p q Ik'. unfold term. apply fsum_ext. intros r _. rewrite TMS. unfold xv. rewrite SAME by (intros ->; contradiction). reflexivity. }
  split.
  - intros a b. rewrite A1. apply (t_a _ _ I0).
  - intros i j p q Ii Ij Lp Lq. rewrite lsum_app. cbn [lsum fold_right].
    rewrite (lsum_ext l1 _ (fun k' => term st i k' j p q)) by (intros k' Ik'; apply TERM; exact Ik').
    apply in_app_or in Ii as [Ii|[<-|[]]].
    + rewrite (t_done _ _ I0) by assumption. assert (Z0 : term st' i k j p q = 0).
      { unfold term. apply fsum_0. intros r Lr. apply BEFL in Ii as [Li Q]. rewrite tm_zero by assumption. ring. }
      rewrite Z0. ring.
    + assert (E1 : term st' k k j p q = al * (xv st k j p q + c * lsum l1 (fun i => term st k i j p q))).
      { unfold term at 1. rewrite (fsum_ext 0 (sa k) _ (fun r => tm st k k p r * xv st' k j r q)) by (intros r _; rewrite TMS; reflexivity).
        rewrite T1 by assumption. rewrite (lsum_perm _ _ _ PERM). reflexivity. }
      rewrite E1. unfold xv at 1. rewrite (t_todo _ _ I0) by exact NK1. fold (xv st0 k j). set (S := lsum l1 (fun i => term st k i j p q)). 
      transitivity (S + (al * xv st0 k j p q + (al * c) * S) + 0); [ring|]. rewrite C. ring.
  - intros i j Ni. rewrite SAME; [apply (t_todo _ _ I0); intros Q; apply Ni; apply in_or_app; left; exact Q|]. intros ->. apply Ni. apply in_or_app. right. left. reflexivity.
  - intros x N. rewrite X1; [apply (t_frame _ _ I0); exact N|]. intros j Ij. apply N; [exact Lk|exact Ij].
Qed.
Lemma ZDOT_step : al = 0 -> forall l1 k l2 st st', ks = l1 ++ k :: l2 -> ZINV st0 l1 st -> dot_step k (aft k) st st' -> ZINV st0 (l1 ++ [k]) st'.
Proof.
  intros A0. destruct SW as (ND & IN & OR). intros l1 k l2 st st' E I0 (A1 & T1 & X1). destruct (OR l1 k l2 E) as [BEFL AFTL].
  assert (Ik : In k ks) by (rewrite E; apply in_or_app; right; left; reflexivity).
  pose proof (proj1 (IN k) Ik) as Lk.
  assert (NK1 : ~ In k l1) by (intros Q; apply BEFL in Q as [_ Q]; exact (ord_irr k Q)). split.
  - intros a b. rewrite A1. apply (z_a _ _ _ I0).
  - intros i j p q Ii Ij Lp Lq. apply in_app_or in Ii as [Ii|[<-|[]]].
    + unfold xv. rewrite X1; [apply (z_done _ _ _ I0); assumption|]. intros j' _ Q. apply bx_inj in Q as [-> _]. contradiction.
    + assert (NS' : nonsing st) by (apply (nonsing_same st0); [apply (z_a _ _ _ I0)|exact NS]).
      apply (tri_unique low (sa k) (fun p r => tm st k k p r) (fun r => xv st' k j r q) (fun _ => 0)); [apply tri_tile; assumption| |exact Lp].
      intros b Lb. rewrite (T1 j b q Ij Lb Lq), A0. rewrite (fsum_0 0 (sa k)); [ring|]. intros r _. ring.
  - intros x N. rewrite X1; [apply (z_frame _ _ _ I0); exact N|]. intros j Ij. apply N; [exact Lk|exact Ij].
Qed.
End dot.
End sweep.
