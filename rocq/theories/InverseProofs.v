(** * Triangular inverse: both variants at once, seen through the lower triangle. *)
From Coq Require Import ZArith Lia List Bool.
From Verif Require Import Loop StarField DenseSpec Tiling DenseJobs TileJobs BlockJobs CholeskyModel CholeskyProofs RefKernels InverseModel.
Import ListNotations.
Local Open Scope Z_scope.

Section orient.
Context {K : starfield} (kn : kernels K) (KO : kernels_ok kn) (u : uplo) (d : diag).
Local Open Scope sf_scope.
Add Ring KringI : (fring K).
(** the matrix seen as a lower one: itself or its transpose *)
Definition otm (A : mat K) : mat K := fun i j => match u with Lower => A i j | Upper => A j i end.
Lemma trim_otm : forall A i j, otm (trim u d A) i j = trim Lower d (otm A) i j.
Proof.
  intros A i j. unfold otm, trim. destruct u; [reflexivity|]. cbn [in_tri]. rewrite (Z.eqb_sym i j). destruct (j =? i)%Z; reflexivity.
Qed.
Definition o_ts1 m n (A B : mat K) : mat K :=
  match u with Lower => trsm kn Right Lower NoTrans d m n (- (1)) A B | Upper => trsm kn Left Upper NoTrans d n m (- (1)) A B end.
Definition o_ts2 m n (A B : mat K) : mat K :=
  match u with Lower => trsm kn Left Lower NoTrans d m n 1 A B | Upper => trsm kn Right Upper NoTrans d n m 1 A B end.
Definition o_gm m n k (A B C : mat K) : mat K :=
  match u with Lower => gemm kn NoTrans NoTrans m n k 1 A B 1 C | Upper => gemm kn NoTrans NoTrans n m k 1 B A 1 C end.
Lemma nonsing_otm : forall n A, nonsingular d n (otm A) <-> nonsingular d n A.
Proof. intros n A. unfold nonsingular, otm. destruct d, u; reflexivity. Qed.
Lemma o_ts1_ok : forall m n A B, nonsingular d n A -> forall i j, (0 <= i < m)%Z -> (0 <= j < n)%Z ->
  fsum 0 n (fun r => otm (o_ts1 m n A B) i r * trim Lower d (otm A) r j) = - otm B i j.
Proof.
  intros m n A B N i j Li Lj.
  rewrite (fsum_ext 0 n _ (fun r => otm (o_ts1 m n A B) i r * otm (trim u d A) r j)) by (intros r _; rewrite trim_otm; reflexivity).
  unfold o_ts1, otm. destruct u.
  - pose proof (trsm_ok kn KO Right Lower NoTrans d m n (- (1)) A B N i j Li Lj) as E. cbn beta iota in E. unfold mmul, opm in E. rewrite E. ring.
  - pose proof (trsm_ok kn KO Left Upper NoTrans d n m (- (1)) A B N j i Lj Li) as E. cbn beta iota in E. unfold mmul, opm in E.
    transitivity (- (1) * B j i); [rewrite <- E|ring]. apply fsum_ext. intros r _. ring.
Qed.
Lemma o_ts2_ok : forall m n A B, nonsingular d m A -> forall i j, (0 <= i < m)%Z -> (0 <= j < n)%Z ->
  fsum 0 m (fun r => trim Lower d (otm A) i r * otm (o_ts2 m n A B) r j) = otm B i j.
Proof.
  intros m n A B N i j Li Lj.
  rewrite (fsum_ext 0 m _ (fun r => otm (trim u d A) i r * otm (o_ts2 m n A B) r j)) by (intros r _; rewrite trim_otm; reflexivity).
  unfold o_ts2, otm. destruct u.
  - pose proof (trsm_ok kn KO Left Lower NoTrans d m n 1 A B N i j Li Lj) as E. cbn beta iota in E. unfold mmul, opm in E. rewrite E. ring.
  - pose proof (trsm_ok kn KO Right Upper NoTrans d n m 1 A B N j i Lj Li) as E. cbn beta iota in E. unfold mmul, opm in E.
    transitivity (1 * B j i); [rewrite <- E|ring]. apply fsum_ext. intros r _. ring.
Qed.
Lemma o_gm_ok : forall m n k A B C i j, (0 <= i < m)%Z -> (0 <= j < n)%Z ->
  otm (o_gm m n k A B C) i j = otm C i j + fsum 0 k (fun r => otm A i r * otm B r j).
Proof.
  intros m n k A B C i j Li Lj. unfold o_gm, otm. destruct u.
  - rewrite (gemm_ok kn KO NoTrans NoTrans m n k 1 A B 1 C i j Li Lj). unfold mmul, opm. ring.
  - rewrite (gemm_ok kn KO NoTrans NoTrans n m k 1 B A 1 C j i Lj Li). unfold mmul, opm.
    rewrite (fsum_ext 0 k (fun r => B j r * A r i) (fun r => A r i * B j r)) by (intros r _; ring). ring.
Qed.
(** inverse and orientation *)
Lemma trtri_otm : forall n A A', is_trtri u d n A A' <-> is_trtri Lower d n (otm A) (otm A').
Proof.
  intros n A A'. unfold is_trtri.
  assert (P : forall X Y, meq n n (mmul n (trim Lower d (otm X)) (trim Lower d (otm Y))) ident <->
    match u with Lower => meq n n (mmul n (trim u d X) (trim u d Y)) ident | Upper => meq n n (mmul n (trim u d Y) (trim u d X)) ident end).
  { intros X Y.
    assert (Q : forall i j, mmul n (trim Lower d (otm X)) (trim Lower d (otm Y)) i j = match u with Lower => mmul n (trim u d X) (trim u d Y) i j | Upper => mmul n (trim u d Y) (trim u d X) j i end).
    { intros i j. unfold mmul. rewrite (fsum_ext 0 n _ (fun r => otm (trim u d X) i r * otm (trim u d Y) r j)) by (intros r _; rewrite !trim_otm; reflexivity).
      unfold otm. destruct u; [reflexivity|]. apply fsum_ext. intros r _. ring. }
    unfold meq. destruct u.
    - split; intros E i j Li Lj; [rewrite <- Q|rewrite Q]; apply E; assumption.
    - split; intros E i j Li Lj.
      + rewrite <- Q, (E j i Lj Li). unfold ident. rewrite Z.eqb_sym. reflexivity.
      + rewrite Q, (E j i Lj Li). unfold ident. rewrite Z.eqb_sym. reflexivity. }
  assert (O : meq_out u n A' A <-> meq_out Lower n (otm A') (otm A)).
  { unfold meq_out, otm. destruct u; [reflexivity|]. cbn [in_tri]. split; intros E i j Li Lj; apply E; assumption. }
  rewrite !P, <- O. unfold otm. destruct u; tauto.
Qed.
End orient.

Section trinv.
Context {K : starfield} (kn : kernels K) (KO : kernels_ok kn) (t : tiling) (OK : tiling_ok t) (u : uplo) (d : diag).
Local Open Scope sf_scope.
Add Ring KringJ : (fring K).
Let nt := tl_n t.
Let sz := tl_sz t.
Let off := tl_off t.
Let tu := tu u.
Definition g_ts1 i k : tjob (mat K) := TJob [tu k k] (tu i k) (in1 (fun A B => o_ts1 kn u d (sz i) (sz k) A B)).
Definition g_ts2 k j : tjob (mat K) := TJob [tu k k] (tu k j) (in1 (fun A B => o_ts2 kn u d (sz k) (sz j) A B)).
Definition g_gmi i k j : tjob (mat K) :=
  match u with
  | Lower => TJob [tu i k; tu k j] (tu i j) (in2 (fun A B C => o_gm kn u (sz i) (sz j) (sz k) A B C))
  | Upper => TJob [tu k j; tu i k] (tu i j) (in2 (fun B A C => o_gm kn u (sz i) (sz j) (sz k) A B C))
  end.
Definition g_row k i := [g_ts1 i k] ++ for_up 0 k (fun j => [g_gmi i k j]).
Definition g_rows k := for_up (k + 1) nt (g_row k).
Definition g_last k := for_up 0 k (fun j => [g_ts2 k j]).
Definition g_istep k : list (tjob (mat K)) := g_rows k ++ g_last k ++ [jtrtri kn u d (sz k) (tu k k)].
Lemma inverse_generic : triangular_inverse kn t u d = for_down (nt - 1) 0 g_istep.
Proof. unfold triangular_inverse, g_istep, g_rows, g_row, g_last, g_ts1, g_ts2, g_gmi, tu, CholeskyProofs.tu. destruct u; reflexivity. Qed.

Lemma gmi_out : forall i k j, tj_out (g_gmi i k j) = tu i j.
Proof. intros. unfold g_gmi. destruct u; reflexivity. Qed.
Lemma gmi_in : forall i k j x, In x (tj_in (g_gmi i k j)) -> x = tu i k \/ x = tu k j.
Proof. intros i k j x. unfold g_gmi. destruct u; cbn; intuition. Qed.
Lemma gmi_val : forall i k j st, tval (g_gmi i k j) st = o_gm kn u (sz i) (sz j) (sz k) (st (tu i k)) (st (tu k j)) (st (tu i j)).
Proof. intros i k j st. unfold g_gmi, tu. destruct u eqn:E; unfold tval; cbn; reflexivity. Qed.

Lemma row_run : forall k i st, (0 <= k)%Z -> (k < i)%Z ->
  (trun (g_row k i) st (tu i k) = o_ts1 kn u d (sz i) (sz k) (st (tu k k)) (st (tu i k))) /\
  (forall j, (0 <= j < k)%Z -> trun (g_row k i) st (tu i j) = o_gm kn u (sz i) (sz j) (sz k) (trun (g_row k i) st (tu i k)) (st (tu k j)) (st (tu i j))) /\
  (forall x, (forall j, (0 <= j <= k)%Z -> x <> tu i j) -> trun (g_row k i) st x = st x).
Proof.
  intros k i st Lk Li. unfold g_row. rewrite trun_app. cbn [trun fold_left]. set (s1 := texec st (g_ts1 i k)).
  fold (trun (for_up 0 k (fun j => [g_gmi i k j])) s1).
  assert (T1 : s1 (tu i k) = o_ts1 kn u d (sz i) (sz k) (st (tu k k)) (st (tu i k))) by (unfold s1, texec; cbn [g_ts1 tj_out]; rewrite tset_eq; reflexivity).
  assert (O1 : forall x, x <> tu i k -> s1 x = st x) by (intros x N; unfold s1, texec; cbn [g_ts1 tj_out]; apply tset_neq; exact N).
  destruct (run_each 0 k (fun j => g_gmi i k j) s1) as [R1 R2].
  { intros a b _ _ E. rewrite !gmi_out in E. apply tu_inj in E. tauto. }
  { intros a b La Lb Q. rewrite gmi_out in Q. apply gmi_in in Q as [Q|Q]; apply tu_inj in Q; lia. }
  assert (K3 : trun (for_up 0 k (fun j => [g_gmi i k j])) s1 (tu i k) = s1 (tu i k)).
  { apply R2. intros a La Q. rewrite gmi_out in Q. apply tu_inj in Q. lia. }
  rewrite K3. split; [exact T1|]. split.
  - intros j Lj. rewrite <- (gmi_out i k j) at 1. rewrite (R1 j Lj), gmi_val. rewrite (O1 (tu k j)), (O1 (tu i j)) by (intros Q; apply tu_inj in Q; lia). reflexivity.
  - intros x N. rewrite R2; [apply O1; apply N; lia|]. intros a La Q. rewrite gmi_out in Q. symmetry in Q. revert Q. apply N. lia.
Qed.
(** effect of one step *)
Lemma istep_run : forall k st, (0 <= k < nt)%Z -> let st' := trun (g_istep k) st in
  (forall i, (k < i < nt)%Z -> st' (tu i k) = o_ts1 kn u d (sz i) (sz k) (st (tu k k)) (st (tu i k))) /\
  (forall i j, (k < i < nt)%Z -> (0 <= j < k)%Z -> st' (tu i j) = o_gm kn u (sz i) (sz j) (sz k) (st' (tu i k)) (st (tu k j)) (st (tu i j))) /\
  (forall j, (0 <= j < k)%Z -> st' (tu k j) = o_ts2 kn u d (sz k) (sz j) (st (tu k k)) (st (tu k j))) /\
  (st' (tu k k) = trtri kn u d (sz k) (st (tu k k))) /\
  (forall x, (forall i j, (k <= i < nt)%Z -> (0 <= j <= k)%Z -> x <> tu i j) -> st' x = st x).
Proof.
  intros k st Lk. cbv zeta. unfold g_istep. rewrite !trun_app. cbn [trun fold_left]. fold (trun (g_rows k) st).
  set (s1 := trun (g_rows k) st). fold (trun (g_last k) s1). set (s2 := trun (g_last k) s1).
  set (W := fun i x => exists j, (0 <= j <= k)%Z /\ x = tu i j).
  destruct (run_blocks_gen (g_row k) W (zrange (k + 1) nt) st) as [B1 B2]; [apply zrange_NoDup| | |].
  { intros a b x _ _ (j & _ & ->) (j' & _ & E). apply tu_inj in E. tauto. }
  { intros i j Ii Ij. apply in_zrange in Ii. unfold g_row in Ij. apply in_app_or in Ij as [[<-|[]]|Ij].
    - split; [exists k; split; [lia|reflexivity]|]. cbn. intros x [<-|[]] i' Ii' _ (j' & _ & E). apply tu_inj in E. apply in_zrange in Ii'. lia.
    - apply in_for_up in Ij as (j' & Lj & [<-|[]]). rewrite gmi_out. split; [exists j'; split; [lia|reflexivity]|].
      intros x Ix i' Ii' Ni (j'' & _ & ->). apply in_zrange in Ii'. apply gmi_in in Ix as [E|E]; apply tu_inj in E; lia. }
  fold (for_up (k + 1) nt (g_row k)) in B1, B2. change (for_up (k + 1) nt (g_row k)) with (g_rows k) in B1, B2. fold s1 in B1, B2.
  assert (RW : forall i j, (k < i < nt)%Z -> (0 <= j <= k)%Z -> s1 (tu i j) = trun (g_row k i) st (tu i j)).
  { intros i j Li Lj. apply B1; [apply in_zrange; lia|]. intros i' _ N (j' & _ & E). apply tu_inj in E. lia. }
  assert (S1 : forall i j, (i <= k)%Z -> s1 (tu i j) = st (tu i j)).
  { intros i j Li. apply B2. intros i' Ii' (j' & _ & E). apply in_zrange in Ii'. apply tu_inj in E. lia. }
  destruct (run_each 0 k (fun j => g_ts2 k j) s1) as [C1 C2].
  { intros a b _ _ E. cbn in E. apply tu_inj in E. tauto. }
  { intros a b La Lb. cbn. intros [E|[]]. apply tu_inj in E. lia. }
  change (for_up 0 k (fun i => [g_ts2 k i])) with (g_last k) in C1, C2. fold s2 in C1, C2.
  assert (S2 : forall x, (forall j, (0 <= j < k)%Z -> x <> tu k j) -> s2 x = s1 x).
  { intros x N. apply C2. intros a La E. cbn in E. symmetry in E. revert E. apply N. exact La. }
  set (s3 := texec s2 (jtrtri kn u d (sz k) (tu k k))).
  assert (O3 : forall x, x <> tu k k -> s3 x = s2 x) by (intros x N; unfold s3, texec; apply tset_neq; exact N).
  assert (X : forall i j, (k < i)%Z -> s3 (tu i j) = s1 (tu i j)).
  { intros i j Li. rewrite O3 by (intros E; apply tu_inj in E; lia). apply S2. intros j' _ E. apply tu_inj in E. lia. }
  split; [|split; [|split; [|split]]].
  - intros i Li. rewrite X by lia. rewrite RW by lia. apply row_run; lia.
  - intros i j Li Lj. rewrite !X by lia. rewrite !RW by lia. apply row_run; lia.
  - intros j Lj. rewrite O3 by (intros E; apply tu_inj in E; lia). transitivity (tval (g_ts2 k j) s1); [exact (C1 j Lj)|]. unfold tval. cbn [g_ts2 tj_in tj_out tj_fun map in1]. rewrite !S1 by lia. reflexivity.
  - unfold s3, texec. cbn [jtrtri tj_out]. rewrite tset_eq. unfold tval. cbn [jtrtri tj_in tj_out tj_fun map]. f_equal.
    rewrite S2 by (intros j Lj E; apply tu_inj in E; lia). apply S1. lia.
  - intros x N. rewrite O3 by (apply N; lia). rewrite S2 by (intros j Lj; apply N; lia). apply B2. intros i Ii (j & Lj & E). apply in_zrange in Ii. revert E. apply N; lia.
Qed.

Context (st0 : tstore (mat K)).
Let ov (st : tstore (mat K)) i j : mat K := otm u (st (tu i j)).
(** the triangular matrix, tile by tile *)
Let TT (st : tstore (mat K)) i j : mat K := trim_tile Lower d (ov st) i j.
Let inr (i p : Z) : Prop := (0 <= i < nt)%Z /\ (0 <= p < sz i)%Z.
Definition A0 : mat K := gather t t (fun i j => st0 (A_ i j)).
Hypothesis NS : nonsingular d (tl_size t) A0.
Let P (st : tstore (mat K)) l i j p q : F K := fsum 0 (sz l) (fun r => TT st i l p r * TT st0 l j r q).
Definition delta (i j p q : Z) : F K := if (i =? j)%Z && (p =? q)%Z then 1 else 0.
Record IINV (k : Z) (st : tstore (mat K)) : Prop := {
  i_inv : forall i j p q, inr i p -> inr j q -> (k <= i)%Z -> (k <= j)%Z -> fsum k nt (fun l => P st l i j p q) = delta i j p q;
  i_part : forall i j p q, inr i p -> inr j q -> (k <= i)%Z -> (j < k)%Z -> ov st i j p q = fsum k nt (fun l => P st l i j p q);
  i_same : forall i j, (i < k)%Z -> st (tu i j) = st0 (tu i j);
  i_frame : forall x, (forall i j, (0 <= i < nt)%Z -> (0 <= j <= i)%Z -> x <> tu i j) -> st x = st0 x;
  i_out : forall i p q, inr i p -> inr i q -> (p < q \/ d = Unit /\ p = q)%Z -> ov st i i p q = ov st0 i i p q }.
Lemma TT_up : forall st i j p q, (i < j)%Z -> TT st i j p q = 0.
Proof. intros st i j p q L. unfold TT, trim_tile. destruct (Z.eqb_spec i j); [lia|]. cbn [in_tri]. rewrite (proj2 (Z.leb_gt j i)) by lia. reflexivity. Qed.
Lemma TT_low : forall st i j p q, (j < i)%Z -> TT st i j p q = ov st i j p q.
Proof. intros st i j p q L. unfold TT, trim_tile. destruct (Z.eqb_spec i j); [lia|]. cbn [in_tri]. rewrite (proj2 (Z.leb_le j i)) by lia. reflexivity. Qed.
Lemma TT_diag : forall st i p q, TT st i i p q = trim Lower d (ov st i i) p q.
Proof. intros st i p q. unfold TT, trim_tile. rewrite Z.eqb_refl. reflexivity. Qed.
Lemma TT_ext : forall st st' i j p q, st (tu i j) = st' (tu i j) -> TT st i j p q = TT st' i j p q.
Proof. intros st st' i j p q E. unfold TT, trim_tile, trim, ov. rewrite E. reflexivity. Qed.
Lemma gather_otm : forall st i j p q, inr i p -> inr j q ->
  otm u (gather t t (fun i j => st (A_ i j))) (off i + p)%Z (off j + q)%Z = ov st i j p q.
Proof.
  intros st i j p q [Li Lp] [Lj Lq]. unfold ov, otm, tu, CholeskyProofs.tu, sw, off. destruct u; rewrite gather_at by assumption; reflexivity.
Qed.
Lemma NS_tile : forall k, (0 <= k < nt)%Z -> nonsingular d (sz k) (st0 (tu k k)).
Proof.
  intros k Lk. pose proof (proj2 (nonsing_otm u d _ _) NS) as N. apply (nonsing_otm u d). unfold nonsingular in *. destruct d; [|exact I].
  intros p Lp. specialize (N (off k + p)%Z (elem_bound t OK k p Lk Lp)). unfold A0 in N. rewrite gather_otm in N by (split; assumption). exact N.
Qed.
Lemma tt_trim_ov : forall st k p q, trim Lower d (otm u (st (tu k k))) p q = TT st k k p q.
Proof. intros. rewrite TT_diag. reflexivity. Qed.

Lemma istep_inv : forall k st, (0 <= k < nt)%Z -> IINV (k + 1) st -> IINV k (trun (g_istep k) st).
Proof.
  intros k st Lk I0. destruct (istep_run k st Lk) as (E1 & E2 & E3 & E4 & E5). set (st' := trun (g_istep k) st) in *.
  assert (SK : forall j, st (tu k j) = st0 (tu k j)) by (intros j; apply (i_same _ _ I0); lia).
  assert (UN : forall i j, (i < k \/ k < j)%Z -> st' (tu i j) = st (tu i j)).
  { intros i j Q. apply E5. intros a b La Lb E. apply tu_inj in E. lia. }
  pose proof (NS_tile k Lk) as NK. rewrite <- SK in NK.
  pose proof (trtri_ok kn KO u d (sz k) _ NK) as TI. rewrite <- E4 in TI. apply trtri_otm in TI. destruct TI as (TI1 & TI2 & TI3 & TI4).
  assert (X1 : forall p q, (0 <= p < sz k)%Z -> (0 <= q < sz k)%Z -> fsum 0 (sz k) (fun r => TT st' k k p r * TT st k k r q) = if (p =? q)%Z then 1 else 0).
  { intros p q Lp Lq. pose proof (TI2 p q Lp Lq) as E. unfold mmul, ident in E. rewrite <- E. apply fsum_ext. intros r _. rewrite !TT_diag. reflexivity. }
  assert (TL : forall i l p q, (k < l)%Z -> TT st' i l p q = TT st i l p q) by (intros i l p q Q; apply TT_ext; apply UN; lia).
  assert (TK : forall j p q, TT st0 k j p q = TT st k j p q) by (intros j p q; apply TT_ext; symmetry; apply SK).
  assert (SUM : forall i j p q, fsum k nt (fun l => P st' l i j p q) = P st' k i j p q + fsum (k + 1) nt (fun l => P st l i j p q)).
  { intros i j p q. rewrite fsum_cons by lia. f_equal. apply fsum_ext. intros l Ll. unfold P. apply fsum_ext. intros r _. rewrite TL by lia. reflexivity. }
  assert (ROWK : forall j p q, fsum (k + 1) nt (fun l => P st l k j p q) = 0).
  { intros j p q. apply fsum_0. intros l Ll. unfold P. apply fsum_0. intros r _. rewrite TT_up by lia. ring. }
  split.
  - intros i j p q Ri Rj Li Lj. rewrite SUM. destruct (Z.eq_dec i k) as [->|Ni].
    + rewrite ROWK. destruct (Z.eq_dec j k) as [->|Nj].
      * unfold P. rewrite (fsum_ext 0 (sz k) _ (fun r => TT st' k k p r * TT st k k r q)) by (intros r _; rewrite TK; reflexivity).
        rewrite X1 by (try apply Ri; apply Rj). unfold delta. rewrite Z.eqb_refl. cbn [andb]. destruct (p =? q)%Z; ring.
      * assert (Z0 : P st' k k j p q = 0) by (unfold P; apply fsum_0; intros r _; rewrite (TT_up st0 k j) by lia; ring).
        rewrite Z0. unfold delta. destruct (Z.eqb_spec k j); [lia|]. cbn [andb]. ring.
    + destruct (Z.eq_dec j k) as [->|Nj].
      * assert (EK : P st' k i k p q = - ov st i k p q).
        { unfold P. rewrite (fsum_ext 0 (sz k) _ (fun r => otm u (o_ts1 kn u d (sz i) (sz k) (st (tu k k)) (st (tu i k))) p r * trim Lower d (otm u (st (tu k k))) r q)).
          - rewrite o_ts1_ok; [reflexivity|exact KO|exact NK|apply Ri|apply Rj].
          - intros r _. rewrite TT_low by lia. unfold ov. rewrite E1 by (destruct Ri; lia). rewrite TK, TT_diag. reflexivity. }
        rewrite EK, (i_part _ _ I0 i k) by (try assumption; lia). unfold delta. destruct (Z.eqb_spec i k); [lia|]. cbn [andb]. ring.
      * assert (Z0 : P st' k i j p q = 0) by (unfold P; apply fsum_0; intros r _; rewrite (TT_up st0 k j) by lia; ring).
        rewrite Z0. rewrite (i_inv _ _ I0) by (try assumption; lia). ring.
  - intros i j p q Ri Rj Li Lj. rewrite SUM. destruct (Z.eq_dec i k) as [->|Ni].
    + rewrite ROWK.
      assert (Y : forall r, (0 <= r < sz k)%Z -> TT st0 k j r q = mmul (sz k) (TT st k k) (ov st' k j) r q).
      { intros r Lr. rewrite TK, TT_low by lia. unfold mmul. unfold ov at 2. rewrite E3 by (destruct Rj; lia).
        rewrite (fsum_ext 0 (sz k) _ (fun s => trim Lower d (otm u (st (tu k k))) r s * otm u (o_ts2 kn u d (sz k) (sz j) (st (tu k k)) (st (tu k j))) s q)) by (intros s _; rewrite TT_diag; reflexivity).
        rewrite o_ts2_ok; [reflexivity|exact KO|exact NK|exact Lr|apply Rj]. }
      assert (EK : P st' k k j p q = ov st' k j p q); [|rewrite EK; ring].
      unfold P. rewrite (fsum_ext 0 (sz k) _ (fun r => TT st' k k p r * mmul (sz k) (TT st k k) (ov st' k j) r q)) by (intros r Lr; rewrite Y by exact Lr; reflexivity).
      fold (mmul (sz k) (TT st' k k) (mmul (sz k) (TT st k k) (ov st' k j)) p q). rewrite <- mmul_assoc.
      rewrite <- (mmul_ident_l (sz k) (ov st' k j) p q) by apply Ri. unfold mmul at 1 3. apply fsum_ext. intros r Lr. f_equal. apply X1; [apply Ri|exact Lr].
    + unfold ov. rewrite E2 by (destruct Ri, Rj; lia). rewrite o_gm_ok; [|exact KO|apply Ri|apply Rj]. fold (ov st i j p q).
      rewrite (i_part _ _ I0 i j) by (try assumption; lia).
      assert (EK : fsum 0 (sz k) (fun r => otm u (st' (tu i k)) p r * otm u (st (tu k j)) r q) = P st' k i j p q).
      { unfold P. apply fsum_ext. intros r _. rewrite TK, !TT_low by lia. reflexivity. }
      rewrite EK. ring.
  - intros i j Li. rewrite UN by lia. apply (i_same _ _ I0). lia.
  - intros x N. rewrite E5; [apply (i_frame _ _ I0); exact N|]. intros i j Li Lj. apply N; lia.
  - intros i p q Ri Rq Q. rewrite <- (i_out _ _ I0 i p q Ri Rq Q). destruct (Z.lt_total i k) as [C|[C|C]].
    + unfold ov. rewrite UN by lia. reflexivity.
    + subst i. unfold ov. destruct Q as [Q|[Q1 Q2]].
      * apply (TI3 p q); [apply Ri|apply Rq|]. cbn. apply Z.leb_gt. exact Q.
      * subst q. apply TI4; [exact Q1|apply Ri].
    + unfold ov. rewrite UN by lia. reflexivity.
Qed.
Theorem inverse_run : IINV 0 (trun (triangular_inverse kn t u d) st0).
Proof.
  rewrite inverse_generic. pose proof (proj1 OK) as L0. fold nt in L0.
  change 0%Z with (0 - 1 + 1)%Z at 1. apply (for_down_inv (nt - 1) 0 g_istep (fun k => IINV (k + 1))); [lia| |].
  - replace (nt - 1 + 1)%Z with nt by lia. split; try reflexivity; intros i j p q [Ri _] [Rj _]; lia.
  - intros k st L I0. replace (k - 1 + 1)%Z with k by lia. apply istep_inv; [lia|exact I0].
Qed.
Lemma final_trtri : forall st, IINV 0 st -> is_trtri u d (tl_size t) A0 (gather t t (fun i j => st (A_ i j))).
Proof.
  intros st I0. apply trtri_otm. set (A1 := gather t t (fun i j => st (A_ i j))).
  assert (TG : forall s i j p q, inr i p -> inr j q -> trim Lower d (otm u (gather t t (fun i j => s (A_ i j)))) (off i + p)%Z (off j + q)%Z = TT s i j p q).
  { intros s i j p q [Li Lp] [Lj Lq]. unfold TT. unfold off. rewrite <- (trim_tiles t Lower d (ov s) i j p q OK Li Lj Lp Lq).
    unfold trim. rewrite gather_at by assumption. fold off. rewrite gather_otm by (split; assumption). reflexivity. }
  assert (XM : meq (tl_size t) (tl_size t) (mmul (tl_size t) (trim Lower d (otm u A1)) (trim Lower d (otm u A0))) ident).
  { apply meq_tiles; [exact OK|exact OK|]. intros i j p q Li Lj Lp Lq. unfold mmul. rewrite fsum_tiles by exact OK.
    transitivity (delta i j p q).
    - rewrite <- (i_inv _ _ I0 i j p q) by (try (split; assumption); lia). unfold P. fold nt. apply fsum_ext. intros l Ll. apply fsum_ext. intros r Lr.
      unfold A1, A0. fold off. rewrite !TG by (split; assumption). reflexivity.
    - unfold delta, ident. destruct (Z.eqb_spec (tl_off t i + p) (tl_off t j + q)) as [E|N].
      + apply tile_unique in E; try assumption. destruct E as [-> ->]. rewrite !Z.eqb_refl. reflexivity.
      + destruct (Z.eqb_spec i j) as [->|_]; [|reflexivity]. destruct (Z.eqb_spec p q) as [->|_]; [contradiction|reflexivity]. }
  set (M := trim Lower d (otm u A0)) in *. set (X := trim Lower d (otm u A1)) in *.
  assert (TR : is_tri true (tl_size t) M) by exact (op_trim_tri Lower NoTrans d _ _ (proj2 (nonsing_otm u d _ _) NS)).
  assert (TRT : is_tri false (tl_size t) (fun i j => M j i)).
  { destruct TR as [D T]. split; [exact D|]. intros i r Li Lr Q. apply T; assumption. }
  destruct (tri_inverse false (tl_size t) (fun i j => M j i) (fun i j => X j i) TRT) as (E' & _ & _).
  { intros i j Li Lj. transitivity (@ident K j i); [|unfold ident; rewrite Z.eqb_sym; reflexivity]. rewrite <- (XM j i Lj Li). unfold mmul. apply fsum_ext. intros r _. ring. }
  split; [|split; [exact XM|split]].
  - intros i j Li Lj. transitivity (@ident K j i); [|unfold ident; rewrite Z.eqb_sym; reflexivity]. rewrite <- (E' j i Lj Li). unfold mmul. apply fsum_ext. intros r _. unfold X, M. ring.
  - intros a b La Lb Q. destruct (elem_split t OK a La) as (i & p & Li & Lp & ->). destruct (elem_split t OK b Lb) as (j & q & Lj & Lq & ->).
    rewrite in_tri_tiles in Q by assumption. unfold A1, A0. fold off. rewrite !gather_otm by (split; assumption).
    destruct (Z.eqb_spec i j) as [->|N]; cbn in Q; apply Z.leb_gt in Q.
    + apply (i_out _ _ I0); [split; assumption|split; assumption|]. left. exact Q.
    + unfold ov. rewrite (i_frame _ _ I0); [reflexivity|]. intros a b La' Lb' E. apply tu_inj in E. lia.
  - intros DU a La. destruct (elem_split t OK a La) as (i & p & Li & Lp & ->). unfold A1, A0. fold off. rewrite !gather_otm by (split; assumption).
    apply (i_out _ _ I0); [split; assumption|split; assumption|]. right. auto.
Qed.
End trinv.
