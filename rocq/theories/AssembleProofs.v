(** * Cholesky assembly (inverse from a triangular inverse): both variants at once, seen through the lower triangle. *)
From Coq Require Import ZArith Lia List Bool.
From Verif Require Import Loop StarField DenseSpec Tiling DenseJobs TileJobs BlockJobs CholeskyModel CholeskyProofs RefKernels InverseModel.
Import ListNotations.
Local Open Scope Z_scope.

Section orient.
Context {K : starfield} (kn : kernels K) (KO : kernels_ok kn) (u : uplo).
Local Open Scope sf_scope.
Add Ring KringA1 : (fring K).
Definition a_gm m n k (A B C : mat K) : mat K :=
  match u with Lower => gemm kn ConjTrans NoTrans m n k 1 A B 1 C | Upper => gemm kn NoTrans ConjTrans n m k 1 B A 1 C end.
Definition a_hk n k (A C : mat K) : mat K :=
  match u with Lower => herk kn Lower ConjTrans n k 1 A 1 C | Upper => herk kn Upper NoTrans n k 1 A 1 C end.
Definition a_tm m n (A B : mat K) : mat K :=
  match u with Lower => trmm kn Left Lower ConjTrans NonUnit m n 1 A B | Upper => trmm kn Right Upper ConjTrans NonUnit n m 1 A B end.
Lemma a_gm_ok : forall m n k A B C i j, (0 <= i < m)%Z -> (0 <= j < n)%Z ->
  orm u (a_gm m n k A B C) i j = orm u C i j + fsum 0 k (fun r => fconj (orm u A r i) * orm u B r j).
Proof.
  intros m n k A B C i j Li Lj. unfold a_gm, orm. destruct u.
  - rewrite (gemm_ok kn KO ConjTrans NoTrans m n k 1 A B 1 C i j Li Lj). unfold mmul, opm. ring.
  - rewrite (gemm_ok kn KO NoTrans ConjTrans n m k 1 B A 1 C j i Lj Li). unfold mmul, opm.
    rewrite fconj_add, !fconj_mul, fconj_1, fsum_conj.
    rewrite (fsum_ext 0 k (fun r => fconj (B j r * fconj (A i r))) (fun r => fconj (fconj (A i r)) * fconj (B j r))); [ring|].
    intros r _. rewrite fconj_mul. ring.
Qed.
Lemma a_hk_ok : forall n k A C, (forall i, (0 <= i < n)%Z -> real (orm u C i i)) ->
  forall i j, (0 <= i < n)%Z -> (0 <= j < n)%Z ->
  orm u (a_hk n k A C) i j =
    if (j <=? i)%Z then orm u C i j + fsum 0 k (fun r => fconj (orm u A r i) * orm u A r j) else orm u C i j.
Proof.
  intros n k A C RD i j Li Lj. unfold a_hk. destruct u.
  - destruct (herk_ok kn KO Lower ConjTrans n k 1 A 1 C) as [T O]; [discriminate|apply real_1|apply real_1|exact RD|].
    destruct (j <=? i)%Z eqn:Q; unfold orm; [|apply O; assumption]. rewrite (T i j Li Lj Q). unfold gram, mmul, opm. ring.
  - assert (RD' : real_diag n C). { intros p L. specialize (RD p L). unfold orm, real in *. rewrite fconj_conj in RD. symmetry. exact RD. }
    destruct (herk_ok kn KO Upper NoTrans n k 1 A 1 C) as [T O]; [discriminate|apply real_1|apply real_1|exact RD'|].
    destruct (j <=? i)%Z eqn:Q; unfold orm; [|f_equal; apply O; assumption]. rewrite (T j i Lj Li Q). unfold gram, mmul, opm.
    rewrite fconj_add, !fconj_mul, fconj_1, fsum_conj.
    rewrite (fsum_ext 0 k (fun r => fconj (A j r * fconj (A i r))) (fun r => fconj (fconj (A i r)) * fconj (A j r))); [ring|].
    intros r _. rewrite fconj_mul. ring.
Qed.
Lemma a_tm_ok : forall m n A B i j, (0 <= i < m)%Z -> (0 <= j < n)%Z ->
  orm u (a_tm m n A B) i j = fsum 0 m (fun r => fconj (trim Lower NonUnit (orm u A) r i) * orm u B r j).
Proof.
  intros m n A B i j Li Lj. rewrite (fsum_ext 0 m _ (fun r => fconj (orm u (trim u NonUnit A) r i) * orm u B r j)) by (intros r _; rewrite trim_orm; reflexivity).
  unfold a_tm, orm. destruct u.
  - rewrite (trmm_ok kn KO Left Lower ConjTrans NonUnit m n 1 A B i j Li Lj). unfold mmul, opm. ring.
  - rewrite (trmm_ok kn KO Right Upper ConjTrans NonUnit n m 1 A B j i Lj Li). unfold mmul, opm. rewrite fconj_mul, fconj_1, fsum_conj.
    transitivity (fsum 0 m (fun r => fconj (B j r * fconj (trim Upper NonUnit A i r)))); [ring|].
    apply fsum_ext. intros r _. rewrite fconj_mul. ring.
Qed.
Lemma orm_diag_real : forall (A : mat K) p, real (orm u A p p) <-> real (A p p).
Proof. intros A p. unfold orm, real. destruct u; [reflexivity|]. rewrite fconj_conj. split; congruence. Qed.
Lemma a_lauum_ok : forall n A, (forall i, (0 <= i < n)%Z -> real (orm u A i i)) -> forall i j, (0 <= i < n)%Z -> (0 <= j < n)%Z ->
  orm u (lauum kn u n A) i j =
    if (j <=? i)%Z then fsum 0 n (fun r => fconj (trim Lower NonUnit (orm u A) r i) * trim Lower NonUnit (orm u A) r j) else orm u A i j.
Proof.
  intros n A RD i j Li Lj.
  rewrite (fsum_ext 0 n _ (fun r => fconj (orm u (trim u NonUnit A) r i) * orm u (trim u NonUnit A) r j)) by (intros r _; rewrite !trim_orm; reflexivity).
  destruct (lauum_ok kn KO u n A) as [T O]. { intros p Lp. apply orm_diag_real. apply RD. exact Lp. }
  unfold orm. destruct u.
  - destruct (j <=? i)%Z eqn:Q; [|apply O; assumption]. rewrite (T i j Li Lj Q). reflexivity.
  - destruct (j <=? i)%Z eqn:Q; [|f_equal; apply O; assumption]. rewrite (T j i Lj Li Q). unfold mmul, opm. rewrite fsum_conj. apply fsum_ext.
    intros r _. rewrite fconj_mul. ring.
Qed.
Lemma lauum_orm : forall n (A A' : mat K), is_lauum u n A A' <-> is_lauum Lower n (orm u A) (orm u A').
Proof.
  intros n A A'. unfold is_lauum. rewrite (meq_out_orm u n A' A), (meq_tri_orm u n A'). apply and_iff_compat_r.
  assert (Q : forall i j, orm u match u with
     | Lower => mmul n (opm ConjTrans (trim Lower NonUnit A)) (trim Lower NonUnit A)
     | Upper => mmul n (trim Upper NonUnit A) (opm ConjTrans (trim Upper NonUnit A)) end i j = mmul n (opm ConjTrans (trim Lower NonUnit (orm u A))) (trim Lower NonUnit (orm u A)) i j).
  { intros i j. unfold mmul at 3. unfold opm at 3.
    rewrite (fsum_ext 0 n _ (fun r => fconj (orm u (trim u NonUnit A) r i) * orm u (trim u NonUnit A) r j)) by (intros r _; rewrite !trim_orm; reflexivity).
    unfold orm. destruct u; [reflexivity|]. unfold mmul, opm. rewrite fsum_conj. apply fsum_ext. intros r _. rewrite fconj_mul. ring. }
  split; intros E i j Li Lj T; [rewrite <- Q|rewrite Q]; apply E; assumption.
Qed.
End orient.

Section asm.
Context {K : starfield} (kn : kernels K) (KO : kernels_ok kn) (t : tiling) (OK : tiling_ok t) (u : uplo).
Local Open Scope sf_scope.
Add Ring KringA2 : (fring K).
Let nt := tl_n t.
Let sz := tl_sz t.
Let off := tl_off t.
Let tu := tu u.
Definition assemble := match u with Lower => assemble_call_L kn t | Upper => assemble_call_U kn t end.
Definition g_agm k i j : tjob (mat K) :=
  match u with
  | Lower => TJob [tu k i; tu k j] (tu i j) (in2 (fun A B C => a_gm kn u (sz i) (sz j) (sz k) A B C))
  | Upper => TJob [tu k j; tu k i] (tu i j) (in2 (fun B A C => a_gm kn u (sz i) (sz j) (sz k) A B C))
  end.
Definition g_ahk k i : tjob (mat K) := TJob [tu k i] (tu i i) (in1 (fun A C => a_hk kn u (sz i) (sz k) A C)).
Definition g_atm k j : tjob (mat K) := TJob [tu k k] (tu k j) (in1 (fun A B => a_tm kn u (sz k) (sz j) A B)).
Definition g_arow k i := for_up 0 i (fun j => [g_agm k i j]) ++ [g_ahk k i].
Definition g_arows k := for_up 0 k (g_arow k).
Definition g_alast k := for_up 0 k (fun j => [g_atm k j]).
Definition g_astep k : list (tjob (mat K)) := g_arows k ++ g_alast k ++ [jlauum kn u (sz k) (tu k k)].
Lemma assemble_generic : assemble = for_up 0 nt g_astep.
Proof. unfold assemble, g_astep, g_arows, g_arow, g_alast, g_agm, g_ahk, g_atm, tu, CholeskyProofs.tu. destruct u; reflexivity. Qed.
Lemma agm_out : forall k i j, tj_out (g_agm k i j) = tu i j.
Proof. intros. unfold g_agm. destruct u; reflexivity. Qed.
Lemma agm_in : forall k i j x, In x (tj_in (g_agm k i j)) -> x = tu k i \/ x = tu k j.
Proof. intros i k j x. unfold g_agm. destruct u; cbn; intuition. Qed.
Lemma agm_val : forall k i j st, tval (g_agm k i j) st = a_gm kn u (sz i) (sz j) (sz k) (st (tu k i)) (st (tu k j)) (st (tu i j)).
Proof. intros k i j st. unfold g_agm, tu. destruct u eqn:E; unfold tval; cbn; reflexivity. Qed.

Lemma arows_run : forall k st, (0 <= k < nt)%Z ->
  (forall i, (0 <= i < k)%Z -> trun (g_arows k) st (tu i i) = a_hk kn u (sz i) (sz k) (st (tu k i)) (st (tu i i))) /\
  (forall i j, (0 <= j < i)%Z -> (i < k)%Z -> trun (g_arows k) st (tu i j) = a_gm kn u (sz i) (sz j) (sz k) (st (tu k i)) (st (tu k j)) (st (tu i j))) /\
  (forall x, (forall i j, (0 <= j <= i)%Z -> (i < k)%Z -> x <> tu i j) -> trun (g_arows k) st x = st x).
Proof.
  intros k st L.
  assert (OUT : forall i x, (0 <= i)%Z -> In x (map tj_out (g_arow k i)) -> exists j, (0 <= j <= i)%Z /\ x = tu i j).
  { intros i x Li I0. unfold g_arow in I0. rewrite map_app in I0. apply in_app_or in I0 as [I0|[<-|[]]]; [|exists i; split; [lia|reflexivity]].
    rewrite in_outs_for_up in I0. destruct I0 as (j & Lj & [<-|[]]). exists j. split; [lia|apply agm_out]. }
  destruct (trun_par (g_arows k) st) as [A B].
  - apply nodup_for_up.
    + intros i Li. unfold g_arow. rewrite map_app. apply nodup_app.
      * apply nodup_for_up.
        { intros j _. cbn. constructor; [intros []|constructor]. }
        { intros i1 i2 x L1 L2 [E1|[]] [E2|[]]. rewrite agm_out in *. subst x. apply tu_inj in E2. lia. }
      * cbn. constructor; [intros []|constructor].
      * intros x Q [<-|[]]. rewrite in_outs_for_up in Q. destruct Q as (j & Lj & [E|[]]). rewrite agm_out in E. cbn in E. apply tu_inj in E. lia.
    + intros i1 i2 x L1 L2 I1 I2. apply OUT in I1 as (j1 & _ & ->); [|lia]. apply OUT in I2 as (j2 & _ & E); [|lia]. apply tu_inj in E. tauto.
  - intros a b Ia Ib Q.
    apply in_for_up in Ib as (i & Li & Ib). destruct (OUT i (tj_out b)) as (j & _ & E); [lia|apply in_map; exact Ib|]. rewrite E in Q.
    apply in_for_up in Ia as (i' & Li' & Ia). unfold g_arow in Ia. apply in_app_or in Ia as [Ia|[<-|[]]].
    + apply in_for_up in Ia as (j' & Lj' & [<-|[]]). apply agm_in in Q as [Q|Q]; apply tu_inj in Q; lia.
    + cbn in Q. destruct Q as [Q|[]]. apply tu_inj in Q. lia.
  - split; [|split].
    + intros i Li. apply (A (g_ahk k i)). apply in_for_up. exists i. split; [lia|]. apply in_or_app. right. left. reflexivity.
    + intros i j Lj Li. rewrite <- agm_val, <- (agm_out k i j). apply A. apply in_for_up. exists i. split; [lia|]. apply in_or_app. left.
      apply in_for_up. exists j. split; [lia|left; reflexivity].
    + intros x N. apply B. unfold g_arows. rewrite in_outs_for_up. intros (i & Li & I0). apply OUT in I0 as (j & Lj & E); [|lia]. revert E. apply N; lia.
Qed.
Lemma astep_run : forall k st, (0 <= k < nt)%Z ->
  let st' := trun (g_astep k) st in
  (forall i, (0 <= i < k)%Z -> st' (tu i i) = a_hk kn u (sz i) (sz k) (st (tu k i)) (st (tu i i))) /\
  (forall i j, (0 <= j < i)%Z -> (i < k)%Z -> st' (tu i j) = a_gm kn u (sz i) (sz j) (sz k) (st (tu k i)) (st (tu k j)) (st (tu i j))) /\
  (forall j, (0 <= j < k)%Z -> st' (tu k j) = a_tm kn u (sz k) (sz j) (st (tu k k)) (st (tu k j))) /\
  (st' (tu k k) = lauum kn u (sz k) (st (tu k k))) /\
  (forall x, (forall i j, (0 <= j <= i)%Z -> (i <= k)%Z -> x <> tu i j) -> st' x = st x).
Proof.
  intros k st L st'. unfold st', g_astep. clear st'. rewrite !trun_app. cbn [trun fold_left].
  set (s1 := trun (g_arows k) st). set (s2 := trun (g_alast k) s1). fold (trun (g_alast k) s1). fold s2.
  destruct (arows_run k st L) as (R1 & R2 & R3). fold s1 in R1, R2, R3.
  destruct (run_each 0 k (fun j => g_atm k j) s1) as [C1 C2].
  { intros a b _ _ E. cbn in E. apply tu_inj in E. tauto. }
  { intros a b La Lb. cbn. intros [E|[]]. apply tu_inj in E. lia. }
  change (for_up 0 k (fun i => [g_atm k i])) with (g_alast k) in C1, C2. fold s2 in C1, C2.
  assert (S2 : forall x, (forall j, (0 <= j < k)%Z -> x <> tu k j) -> s2 x = s1 x).
  { intros x N. apply C2. intros a La E. cbn in E. symmetry in E. revert E. apply N. exact La. }
  assert (RK : forall j, s1 (tu k j) = st (tu k j)) by (intros j; apply R3; intros a b La Lb E; apply tu_inj in E; lia).
  set (s3 := texec s2 (jlauum kn u (sz k) (tu k k))).
  assert (O3 : forall x, x <> tu k k -> s3 x = s2 x) by (intros x N; unfold s3, texec; apply tset_neq; exact N).
  assert (X : forall i j, (i < k)%Z -> s3 (tu i j) = s1 (tu i j)).
  { intros i j Li. rewrite O3 by (intros E; apply tu_inj in E; lia). apply S2. intros j' _ E. apply tu_inj in E. lia. }
  split; [|split; [|split; [|split]]].
  - intros i Li. rewrite X by lia. apply R1; lia.
  - intros i j Lj Li. rewrite X by lia. apply R2; lia.
  - intros j Lj. rewrite O3 by (intros E; apply tu_inj in E; lia). transitivity (tval (g_atm k j) s1); [exact (C1 j Lj)|]. unfold tval. cbn [g_atm tj_in tj_out tj_fun map in1]. rewrite !RK. reflexivity.
  - unfold s3, texec. cbn [jlauum tj_out]. rewrite tset_eq. unfold tval. cbn [jlauum tj_in tj_out tj_fun map]. f_equal.
    rewrite S2 by (intros j Lj E; apply tu_inj in E; lia). apply RK.
  - intros x N. rewrite O3 by (apply N; lia). rewrite S2 by (intros j Lj; apply N; lia). apply R3. intros i j Lj Li. apply N; lia.
Qed.

Context (st0 : tstore (mat K)).
Let ov (st : tstore (mat K)) i j : mat K := orm u (st (tu i j)).
Let TT i j : mat K := trim_tile Lower NonUnit (ov st0) i j.
Let inr (i p : Z) : Prop := (0 <= i < nt)%Z /\ (0 <= p < sz i)%Z.
Let A0 : mat K := gather t t (fun i j => st0 (A_ i j)).
Hypothesis RD : real_diag (tl_size t) A0.
Let P l i j p q : F K := fsum 0 (sz l) (fun r => fconj (TT l i r p) * TT l j r q).
Record AINV (k : Z) (st : tstore (mat K)) : Prop := {
  a_val : forall i j p q, inr i p -> inr j q -> (i < k)%Z -> (j < i \/ j = i /\ q <= p)%Z -> ov st i j p q = fsum 0 k (fun l => P l i j p q);
  a_same : forall i j, (k <= i)%Z -> st (tu i j) = st0 (tu i j);
  a_frame : forall x, (forall i j, (0 <= i < nt)%Z -> (0 <= j <= i)%Z -> x <> tu i j) -> st x = st0 x;
  a_out : forall i p q, inr i p -> inr i q -> (p < q)%Z -> ov st i i p q = ov st0 i i p q }.
Lemma AT_up : forall i j p q, (i < j)%Z -> TT i j p q = 0.
Proof. intros i j p q L. unfold TT, trim_tile. destruct (Z.eqb_spec i j); [lia|]. cbn [in_tri]. rewrite (proj2 (Z.leb_gt j i)) by lia. reflexivity. Qed.
Lemma AT_low : forall i j p q, (j < i)%Z -> TT i j p q = ov st0 i j p q.
Proof. intros i j p q L. unfold TT, trim_tile. destruct (Z.eqb_spec i j); [lia|]. cbn [in_tri]. rewrite (proj2 (Z.leb_le j i)) by lia. reflexivity. Qed.
Lemma AT_diag : forall i p q, TT i i p q = trim Lower NonUnit (ov st0 i i) p q.
Proof. intros i p q. unfold TT, trim_tile. rewrite Z.eqb_refl. reflexivity. Qed.
Lemma gather_orm : forall st i j p q, inr i p -> inr j q ->
  orm u (gather t t (fun i j => st (A_ i j))) (off i + p)%Z (off j + q)%Z = ov st i j p q.
Proof.
  intros st i j p q [Li Lp] [Lj Lq]. unfold ov, orm, tu, CholeskyProofs.tu, sw, off. destruct u; rewrite gather_at by assumption; reflexivity.
Qed.
Lemma RD_tile : forall k p, inr k p -> real (ov st0 k k p p).
Proof.
  intros k p R. rewrite <- gather_orm by exact R. apply orm_diag_real. apply RD. destruct R. apply elem_bound; assumption.
Qed.
Lemma P_real : forall k i p, real (fsum 0 k (fun l => P l i i p p)).
Proof. intros k i p. unfold real. rewrite fsum_conj. apply fsum_ext. intros l _. unfold P. rewrite fsum_conj. apply fsum_ext. intros r _. rewrite fconj_mul, fconj_conj. ring. Qed.

Lemma astep_inv : forall k st, (0 <= k < nt)%Z -> AINV k st -> AINV (k + 1) (trun (g_astep k) st).
Proof.
  intros k st Lk I0. destruct (astep_run k st Lk) as (E1 & E2 & E3 & E4 & E5). set (st' := trun (g_astep k) st) in *.
  assert (SK : forall j, st (tu k j) = st0 (tu k j)) by (intros j; apply (a_same _ _ I0); lia).
  assert (HK : forall i, (0 <= i < k)%Z -> forall p q, (0 <= p < sz i)%Z -> (0 <= q < sz i)%Z ->
    ov st' i i p q = if (q <=? p)%Z then ov st i i p q + fsum 0 (sz k) (fun r => fconj (ov st k i r p) * ov st k i r q) else ov st i i p q).
  { intros i Li p q Lp Lq. unfold ov. rewrite E1 by exact Li. apply a_hk_ok; try assumption. intros a La. fold (ov st i i a a).
    rewrite (a_val _ _ I0) by (try (split; [lia|assumption]); lia). apply P_real. }
  assert (LK : forall p q, (0 <= p < sz k)%Z -> (0 <= q < sz k)%Z -> ov st' k k p q = if (q <=? p)%Z then P k k k p q else ov st k k p q).
  { intros p q Lp Lq. unfold ov. rewrite E4, a_lauum_ok; try assumption.
    - destruct (q <=? p)%Z; [|reflexivity]. unfold P. apply fsum_ext. intros r _. rewrite !AT_diag. unfold ov. rewrite SK. reflexivity.
    - intros a La. rewrite SK. apply RD_tile. split; assumption. }
  assert (ZK : forall j p q, fsum 0 k (fun l => P l k j p q) = 0).
  { intros j p q. apply fsum_0. intros l Ll. unfold P. apply fsum_0. intros r _. rewrite (AT_up l k) by lia. rewrite fconj_0. ring. }
  split.
  - intros i j p q Ri Rj Li C. rewrite fsum_snoc by lia. destruct (Z.eq_dec i k) as [->|Ni].
    + rewrite ZK. destruct C as [C|[-> C]].
      * unfold ov. rewrite E3 by (destruct Rj; lia). rewrite a_tm_ok; [|exact KO|apply Ri|apply Rj].
        assert (E : fsum 0 (sz k) (fun r => fconj (trim Lower NonUnit (orm u (st (tu k k))) r p) * orm u (st (tu k j)) r q) = P k k j p q).
        { unfold P. apply fsum_ext. intros r _. rewrite AT_diag, AT_low by exact C. unfold ov. rewrite !SK. reflexivity. }
        rewrite E. ring.
      * rewrite LK; [|apply Ri|apply Rj]. rewrite (proj2 (Z.leb_le q p) C). ring.
    + assert (E : forall l, (l < k)%Z -> fsum 0 (sz k) (fun r => fconj (ov st k i r p) * ov st k l r q) = P k i l p q).
      { intros l Ll. unfold P. apply fsum_ext. intros r _. rewrite !AT_low by lia. unfold ov. rewrite !SK. reflexivity. }
      rewrite <- (a_val _ _ I0 i j p q Ri Rj) by (try exact C; lia). destruct C as [C|[-> C]].
      * unfold ov. rewrite E2 by (destruct Ri, Rj; lia). rewrite a_gm_ok; [|exact KO|apply Ri|apply Rj]. f_equal. apply E. lia.
      * rewrite HK; [|destruct Ri; lia|apply Ri|apply Rj]. rewrite (proj2 (Z.leb_le q p) C). f_equal. apply E. lia.
  - intros i j Li. rewrite E5; [apply (a_same _ _ I0); lia|]. intros a b La Lb E. apply tu_inj in E. lia.
  - intros x N. rewrite E5; [apply (a_frame _ _ I0); exact N|]. intros i j Li Lj. apply N; lia.
  - intros i p q Ri Rq Q. rewrite <- (a_out _ _ I0 i p q Ri Rq Q). destruct (Z.lt_total i k) as [C|[->|C]].
    + rewrite HK; [|destruct Ri; lia|apply Ri|apply Rq]. rewrite (proj2 (Z.leb_gt q p)) by lia. reflexivity.
    + rewrite LK; [|apply Ri|apply Rq]. rewrite (proj2 (Z.leb_gt q p)) by lia. reflexivity.
    + unfold ov. rewrite E5; [reflexivity|]. intros a b La Lb E. apply tu_inj in E. lia.
Qed.
Theorem assemble_run : AINV nt (trun assemble st0).
Proof.
  rewrite assemble_generic. pose proof (proj1 OK) as L0. fold nt in L0.
  apply (for_up_inv 0 nt g_astep AINV); [lia| |].
  - split; try reflexivity. intros i j p q [Ri _] _ L. lia.
  - intros k st L I0. apply astep_inv; [lia|exact I0].
Qed.
Lemma final_lauum : forall st, AINV nt st -> is_lauum u (tl_size t) A0 (gather t t (fun i j => st (A_ i j))).
Proof.
  intros st I0. apply lauum_orm. split.
  - intros a b La Lb Q. destruct (elem_split t OK a La) as (i & p & Li & Lp & ->). destruct (elem_split t OK b Lb) as (j & q & Lj & Lq & ->).
    rewrite in_tri_tiles in Q by assumption. fold off. rewrite gather_orm by (split; assumption).
    rewrite (a_val _ _ I0); [|split; assumption|split; assumption|lia|destruct (Z.eqb_spec i j); cbn in Q; lia].
    unfold mmul. rewrite fsum_tiles by exact OK. apply fsum_ext. intros l Ll. unfold P. apply fsum_ext. intros r Lr. unfold opm.
    assert (TG : forall i p, inr i p -> trim Lower NonUnit (orm u A0) (tl_off t l + r)%Z (off i + p)%Z = TT l i r p).
    { intros i' p' [Li' Lp']. unfold TT, off. rewrite <- (trim_tiles t Lower NonUnit (ov st0) l i' r p' OK Ll Li' Lr Lp').
      unfold trim. rewrite gather_at by assumption. unfold A0. fold off. rewrite gather_orm by (split; assumption). reflexivity. }
    rewrite !TG by (split; assumption). reflexivity.
  - intros a b La Lb Q. destruct (elem_split t OK a La) as (i & p & Li & Lp & ->). destruct (elem_split t OK b Lb) as (j & q & Lj & Lq & ->).
    rewrite in_tri_tiles in Q by assumption. unfold A0. fold off. rewrite !gather_orm by (split; assumption).
    destruct (Z.eqb_spec i j) as [->|N]; cbn in Q; apply Z.leb_gt in Q.
    + apply (a_out _ _ I0); [split; assumption|split; assumption|lia].
    + unfold ov. rewrite (a_frame _ _ I0); [reflexivity|]. intros a b La' Lb' E. apply tu_inj in E. lia.
Qed.
End asm.
