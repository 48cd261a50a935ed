(** * Cholesky factorization: both variants at once, seen through the lower triangle. *)
From Coq Require Import ZArith Lia List Bool.
From Verif Require Import Loop StarField DenseSpec Tiling DenseJobs TileJobs CholeskyModel.
Import ListNotations.
Local Open Scope Z_scope.

Section orient.
Context {K : starfield}.
Local Open Scope sf_scope.
Add Ring KringC : (fring K).
(** the matrix seen as a lower one: itself or its conjugate transpose *)
Definition orm (u : uplo) (A : mat K) : mat K := fun i j => match u with Lower => A i j | Upper => fconj (A j i) end.
Definition sw {X} (u : uplo) (f : Z -> Z -> X) (i j : Z) : X := match u with Lower => f i j | Upper => f j i end.
Lemma orm_invol : forall u A i j, orm u (orm u A) i j = A i j.
Proof. intros [] A i j; unfold orm; [reflexivity|apply fconj_conj]. Qed.
Lemma trim_orm : forall u (A : mat K) i j, orm u (trim u NonUnit A) i j = trim Lower NonUnit (orm u A) i j.
Proof.
  intros [] A i j; [reflexivity|]. unfold orm, trim. cbn [in_tri]. rewrite (Z.eqb_sym i j).
  destruct (j =? i)%Z; [reflexivity|]. destruct (j <=? i)%Z; [reflexivity|apply fconj_0].
Qed.
Lemma in_tri_sw : forall u i j, in_tri u i j = sw u (in_tri Lower) i j.
Proof. intros [] i j; reflexivity. Qed.
Lemma fpos_conj : forall x : F K, fpos x -> fpos (fconj x).
Proof. intros x P. rewrite fpos_real; exact P. Qed.
Lemma factor_orm1 : forall u n (A T : mat K), is_factor u n A T -> is_factor Lower n (orm u A) (orm u T).
Proof.
  intros [] n A T [P E]; [split; [exact P|exact E]|]. split.
  - intros i L. unfold orm. apply fpos_conj. apply P. exact L.
  - intros i j Li Lj Q. unfold orm at 3. rewrite <- (E j i) by assumption. unfold mmul. rewrite fsum_conj. apply fsum_ext. intros r _.
    unfold opm. rewrite <- !trim_orm. unfold orm. rewrite !fconj_mul, !fconj_conj. ring.
Qed.
Lemma factor_ext : forall u n (A A1 T T1 : mat K), is_factor u n A T -> meq_tri u n A A1 -> meq_tri u n T T1 -> is_factor u n A1 T1.
Proof.
  intros u n A A1 T T1 [P E] EA ET.
  assert (TR : forall i j, (0 <= i < n)%Z -> (0 <= j < n)%Z -> trim u NonUnit T i j = trim u NonUnit T1 i j).
  { intros i j Li Lj. unfold trim. destruct (Z.eqb_spec i j) as [->|N].
    - apply ET; auto. destruct u; cbn; apply Z.leb_refl.
    - destruct (in_tri u i j) eqn:Q; [apply ET; auto|reflexivity]. }
  split.
  - intros i L. rewrite <- ET; [apply P; exact L| | |]; auto. destruct u; cbn; apply Z.leb_refl.
  - intros i j Li Lj Q. rewrite <- (EA i j), <- (E i j) by assumption. destruct u; unfold mmul; apply fsum_ext; intros r Lr; unfold opm;
    rewrite !TR by assumption; reflexivity.
Qed.
Lemma factor_orm2 : forall u n (A T : mat K), is_factor Lower n (orm u A) (orm u T) -> is_factor u n A T.
Proof.
  intros u n A T E. destruct u; [exact E|]. destruct E as [P E]. split.
  - intros i L. specialize (P i L). unfold orm in P. apply fpos_conj in P. rewrite fconj_conj in P. exact P.
  - intros i j Li Lj Q. specialize (E j i Lj Li Q). unfold orm in E at 3. rewrite <- (fconj_conj K (A i j)), <- E. unfold mmul. rewrite fsum_conj.
    apply fsum_ext. intros r _. unfold opm. rewrite <- !trim_orm. unfold orm. rewrite !fconj_mul, !fconj_conj. ring.
Qed.
Lemma meq_tri_orm : forall u n (A B : mat K), meq_tri u n A B <-> meq_tri Lower n (orm u A) (orm u B).
Proof.
  intros [] n A B; [reflexivity|]. split; intros E i j Li Lj Q.
  - unfold orm. f_equal. apply E; assumption.
  - specialize (E j i Lj Li Q). unfold orm in E. rewrite <- (fconj_conj K (A i j)), E, fconj_conj. reflexivity.
Qed.
Lemma meq_out_orm : forall u n (A B : mat K), meq_out u n A B <-> meq_out Lower n (orm u A) (orm u B).
Proof.
  intros [] n A B; [reflexivity|]. split; intros E i j Li Lj Q.
  - unfold orm. f_equal. apply E; assumption.
  - specialize (E j i Lj Li Q). unfold orm in E. rewrite <- (fconj_conj K (A i j)), E, fconj_conj. reflexivity.
Qed.

Context (kn : kernels K) (KO : kernels_ok kn).
Definition o_side (u : uplo) := match u with Lower => Right | Upper => Left end.
Definition o_trsm (u : uplo) m n (A B : mat K) : mat K :=
  match u with Lower => trsm kn Right Lower ConjTrans NonUnit m n 1 A B | Upper => trsm kn Left Upper ConjTrans NonUnit n m 1 A B end.
Definition o_herk (u : uplo) n k (A C : mat K) : mat K :=
  match u with Lower => herk kn Lower NoTrans n k (- (1)) A 1 C | Upper => herk kn Upper ConjTrans n k (- (1)) A 1 C end.
Definition o_gemm (u : uplo) m n k (A B C : mat K) : mat K :=
  match u with Lower => gemm kn NoTrans ConjTrans m n k (- (1)) A B 1 C | Upper => gemm kn ConjTrans NoTrans n m k (- (1)) B A 1 C end.
Lemma o_potrf_ok : forall u n A, (exists T, is_factor Lower n (orm u A) T) ->
  is_factor Lower n (orm u A) (orm u (potrf kn u n A)) /\
  forall i j, (0 <= i < n)%Z -> (0 <= j < n)%Z -> (i < j)%Z -> orm u (potrf kn u n A) i j = orm u A i j.
Proof.
  intros u n A [T E]. destruct (potrf_ok kn KO u n A) as [F1 F2].
  - exists (orm u T). apply factor_orm2. apply (factor_ext Lower n (orm u A) (orm u A) T); [exact E| |]; intros i j Li Lj Q; [reflexivity|].
    rewrite orm_invol. reflexivity.
  - split; [apply factor_orm1; exact F1|]. intros i j Li Lj Q. unfold orm. destruct u; [|f_equal]; apply F2; try assumption; cbn; apply Z.leb_gt; lia.
Qed.
Lemma o_trsm_ok : forall u m n A B, (forall i, (0 <= i < n)%Z -> orm u A i i <> 0) ->
  forall i j, (0 <= i < m)%Z -> (0 <= j < n)%Z ->
  fsum 0 n (fun r => orm u (o_trsm u m n A B) i r * fconj (trim Lower NonUnit (orm u A) j r)) = orm u B i j.
Proof.
  intros u m n A B N i j Li Lj. destruct u; cbn [o_trsm].
  - pose proof (trsm_ok kn KO Right Lower ConjTrans NonUnit m n 1 A B N i j Li Lj) as E. cbn beta iota in E. unfold mmul in E.
    unfold orm at 3. transitivity (1 * B i j); [rewrite <- E|ring]. apply fsum_ext. intros r _. reflexivity.
  - assert (N' : nonsingular NonUnit n A). { intros k L Q. apply (N k L). unfold orm. rewrite Q. apply fconj_0. }
    pose proof (trsm_ok kn KO Left Upper ConjTrans NonUnit n m 1 A B N' j i Lj Li) as E. cbn beta iota in E. unfold mmul in E.
    unfold orm at 3. transitivity (fconj (1 * B j i)); [rewrite <- E|f_equal; ring]. rewrite fsum_conj. apply fsum_ext. intros r _.
    rewrite <- trim_orm. unfold orm, opm. rewrite fconj_mul, !fconj_conj. ring.
Qed.
Lemma real_m1 : real (- (1) : F K). Proof. unfold real. rewrite fconj_opp, fconj_1. reflexivity. Qed.
Lemma real_1 : real (1 : F K). Proof. unfold real. apply fconj_1. Qed.
Lemma o_herk_ok : forall u n k A C, (forall i, (0 <= i < n)%Z -> real (orm u C i i)) ->
  forall i j, (0 <= i < n)%Z -> (0 <= j < n)%Z ->
  orm u (o_herk u n k A C) i j =
    if (j <=? i)%Z then orm u C i j - fsum 0 k (fun r => orm u A i r * fconj (orm u A j r)) else orm u C i j.
Proof.
  intros u n k A C RD i j Li Lj. destruct u; cbn [o_herk].
  - destruct (herk_ok kn KO Lower NoTrans n k (- (1)) A 1 C) as [T O]; [discriminate|apply real_m1|apply real_1|exact RD|].
    destruct (j <=? i)%Z eqn:Q; unfold orm; [|apply O; assumption]. rewrite (T i j Li Lj Q). unfold gram, mmul, opm. ring.
  - assert (RD' : real_diag n C). { intros p L. specialize (RD p L). unfold orm, real in *. rewrite fconj_conj in RD. symmetry. exact RD. }
    destruct (herk_ok kn KO Upper ConjTrans n k (- (1)) A 1 C) as [T O]; [discriminate|apply real_m1|apply real_1|exact RD'|].
    destruct (j <=? i)%Z eqn:Q; unfold orm; [|f_equal; apply O; assumption]. rewrite (T j i Lj Li Q). unfold gram, mmul, opm.
    rewrite fconj_add, !fconj_mul, fconj_opp, fconj_1, fsum_conj.
    rewrite (fsum_ext 0 k (fun r => fconj (A r i) * fconj (fconj (A r j))) (fun r => fconj (fconj (A r j) * A r i))); [ring|].
    intros r _. rewrite fconj_mul. ring.
Qed.
Lemma o_gemm_ok : forall u m n k A B C i j, (0 <= i < m)%Z -> (0 <= j < n)%Z ->
  orm u (o_gemm u m n k A B C) i j = orm u C i j - fsum 0 k (fun r => orm u A i r * fconj (orm u B j r)).
Proof.
  intros u m n k A B C i j Li Lj. destruct u; cbn [o_gemm]; unfold orm.
  - rewrite (gemm_ok kn KO NoTrans ConjTrans m n k (- (1)) A B 1 C i j Li Lj). unfold mmul, opm. ring.
  - rewrite (gemm_ok kn KO ConjTrans NoTrans n m k (- (1)) B A 1 C j i Lj Li). unfold mmul, opm.
    rewrite fconj_add, !fconj_mul, fconj_opp, fconj_1, fsum_conj.
    rewrite (fsum_ext 0 k (fun r => fconj (A r i) * fconj (fconj (B r j))) (fun r => fconj (fconj (B r j) * A r i))); [ring|].
    intros r _. rewrite fconj_mul. ring.
Qed.
End orient.

Section chol.
Context {K : starfield} (kn : kernels K) (KO : kernels_ok kn) (t : tiling) (OK : tiling_ok t) (u : uplo).
Local Open Scope sf_scope.
Add Ring KringD : (fring K).
Let nt := tl_n t.
Let sz := tl_sz t.
Let off := tl_off t.
Definition tu (i j : Z) : tid := sw u A_ i j.
Definition g_trsm i k : tjob (mat K) := TJob [tu k k] (tu i k) (in1 (fun A B => o_trsm kn u (sz i) (sz k) A B)).
Definition g_herk j k : tjob (mat K) := TJob [tu j k] (tu j j) (in1 (fun A C => o_herk kn u (sz j) (sz k) A C)).
Definition g_gemm i j k : tjob (mat K) :=
  match u with
  | Lower => TJob [tu i k; tu j k] (tu i j) (in2 (fun A B C => o_gemm kn u (sz i) (sz j) (sz k) A B C))
  | Upper => TJob [tu j k; tu i k] (tu i j) (in2 (fun B A C => o_gemm kn u (sz i) (sz j) (sz k) A B C))
  end.
Definition g_panel k := for_up (k + 1) nt (fun i => [g_trsm i k]).
Definition g_trail k := for_up (k + 1) nt (fun j => [g_herk j k] ++ for_up (j + 1) nt (fun i => [g_gemm i j k])).
Definition g_step k : list (tjob (mat K)) := [jpotrf kn u (sz k) (tu k k)] ++ g_panel k ++ g_trail k.
Lemma program_generic : cholesky_factorization kn t u = for_up 0 nt g_step.
Proof. unfold cholesky_factorization, g_step, g_panel, g_trail, g_trsm, g_herk, g_gemm, tu. destruct u; reflexivity. Qed.

Lemma tu_inj : forall i j i' j', tu i j = tu i' j' -> i = i' /\ j = j'.
Proof. intros i j i' j'. unfold tu, sw, A_. destruct u; intros E; injection E; auto. Qed.
Lemma gemm_out : forall i j k, tj_out (g_gemm i j k) = tu i j.
Proof. intros. unfold g_gemm. destruct u; reflexivity. Qed.
Lemma gemm_in : forall i j k x, In x (tj_in (g_gemm i j k)) -> x = tu i k \/ x = tu j k.
Proof. intros i j k x. unfold g_gemm. destruct u; cbn; intuition. Qed.
Lemma gemm_val : forall i j k st, tval (g_gemm i j k) st = o_gemm kn u (sz i) (sz j) (sz k) (st (tu i k)) (st (tu j k)) (st (tu i j)).
Proof. intros i j k st. unfold g_gemm. destruct u eqn:E; unfold tval; cbn; rewrite ?E; reflexivity. Qed.

(** effect of the panel *)
Lemma panel_run : forall k st, (0 <= k < nt)%Z ->
  (forall i, (k < i < nt)%Z -> trun (g_panel k) st (tu i k) = o_trsm kn u (sz i) (sz k) (st (tu k k)) (st (tu i k))) /\
  (forall i j, ~ (j = k /\ (k < i < nt)%Z) -> trun (g_panel k) st (tu i j) = st (tu i j)).
Proof.
  intros k st L. destruct (run_each (k + 1) nt (fun i => g_trsm i k) st) as [A B].
  - intros a b _ _ E. cbn in E. apply tu_inj in E. tauto.
  - intros a b La Lb. cbn. intros [E|[]]. apply tu_inj in E. lia.
  - split.
    + intros i Li. apply (A i). lia.
    + intros i j N. apply B. intros a La E. cbn in E. apply tu_inj in E. lia.
Qed.
(** effect of the update of the trailing matrix *)
Lemma trail_run : forall k st, (0 <= k < nt)%Z ->
  (forall j, (k < j < nt)%Z -> trun (g_trail k) st (tu j j) = o_herk kn u (sz j) (sz k) (st (tu j k)) (st (tu j j))) /\
  (forall i j, (k < j < i)%Z -> (i < nt)%Z -> trun (g_trail k) st (tu i j) = o_gemm kn u (sz i) (sz j) (sz k) (st (tu i k)) (st (tu j k)) (st (tu i j))) /\
  (forall i j, ~ (k < j <= i /\ i < nt)%Z -> trun (g_trail k) st (tu i j) = st (tu i j)).
Proof.
  intros k st L.
  assert (OUT : forall j x, In x (map tj_out ([g_herk j k] ++ for_up (j + 1) nt (fun i => [g_gemm i j k]))) -> exists i, (i = j \/ j < i < nt)%Z /\ x = tu i j).
  { intros j x I0. cbn [app map] in I0. destruct I0 as [<-|I0]; [exists j; split; [lia|reflexivity]|].
    rewrite in_outs_for_up in I0. destruct I0 as (i & Li & [<-|[]]). exists i. split; [lia|apply gemm_out]. }
  destruct (trun_par (g_trail k) st) as [A B].
  - apply nodup_for_up.
    + intros j Lj. cbn [app map]. constructor.
      * rewrite in_outs_for_up. intros (i & Li & [E|[]]). rewrite gemm_out in E. cbn in E. apply tu_inj in E. lia.
      * apply nodup_for_up.
        { intros i _. cbn. constructor; [intros []|constructor]. }
        { intros i1 i2 x L1 L2 [E1|[]] [E2|[]]. rewrite gemm_out in *. subst x. apply tu_inj in E2. lia. }
    + intros j1 j2 x L1 L2 I1 I2. apply OUT in I1 as (i1 & _ & ->). apply OUT in I2 as (i2 & _ & E). apply tu_inj in E. tauto.
  - intros a b Ia Ib Q.
    assert (R : exists i, tj_out b = tu i i \/ exists j, (k < j)%Z /\ tj_out b = tu i j).
    { apply in_for_up in Ib as (j & Lj & Ib). destruct (OUT j (tj_out b)) as (i & _ & E); [apply in_map; exact Ib|]. exists i. right. exists j. split; [lia|exact E]. }
    assert (R' : exists i j, (k < j)%Z /\ tj_out b = tu i j).
    { apply in_for_up in Ib as (j & Lj & Ib). destruct (OUT j (tj_out b)) as (i & _ & E); [apply in_map; exact Ib|]. exists i, j. split; [lia|exact E]. }
    clear R. destruct R' as (i & j & Lj & E). rewrite E in Q.
    apply in_for_up in Ia as (j' & Lj' & Ia). cbn [app] in Ia. destruct Ia as [<-|Ia].
    + cbn in Q. destruct Q as [Q|[]]. apply tu_inj in Q. lia.
    + apply in_for_up in Ia as (i' & Li' & [<-|[]]). apply gemm_in in Q as [Q|Q]; apply tu_inj in Q; lia.
  - split; [|split].
    + intros j Lj. apply (A (g_herk j k)). apply in_for_up. exists j. split; [lia|left; reflexivity].
    + intros i j Lj Li. rewrite <- gemm_val, <- (gemm_out i j k). apply A. apply in_for_up. exists j. split; [lia|]. right.
      apply in_for_up. exists i. split; [lia|left; reflexivity].
    + intros i j N. apply B. unfold g_trail. rewrite in_outs_for_up. intros (j' & Lj' & I0). apply OUT in I0 as (i' & Li' & E). apply tu_inj in E. lia.
Qed.

(** ** The factor, tile by tile *)
Context (st0 : tstore (mat K)) (T : mat K).
Let A0 : mat K := gather t t (fun i j => st0 (A_ i j)).
Hypothesis FAC : is_factor u (tl_size t) A0 T.
Let L0 := orm u T.
Let TL (i j p q : Z) : F K := trim Lower NonUnit L0 (off i + p)%Z (off j + q)%Z.
Let D (l i j p q : Z) : F K := fsum 0 (sz l) (fun r => TL i l p r * fconj (TL j l q r)).
Let ov (st : tstore (mat K)) i j : mat K := orm u (st (tu i j)).
Definition inr (i p : Z) : Prop := (0 <= i < nt)%Z /\ (0 <= p < sz i)%Z.

Lemma gather_orm : forall st i j p q, inr i p -> inr j q ->
  orm u (gather t t (fun i j => st (A_ i j))) (off i + p)%Z (off j + q)%Z = ov st i j p q.
Proof.
  intros st i j p q [Li Lp] [Lj Lq]. unfold ov, orm, tu, sw, off. destruct u; rewrite gather_at by assumption; reflexivity.
Qed.
Lemma elem : forall i p, inr i p -> (0 <= off i + p < tl_size t)%Z.
Proof. intros i p [Li Lp]. apply elem_bound; assumption. Qed.
Definition low (i j p q : Z) : Prop := (j < i \/ j = i /\ q <= p)%Z.
Lemma low_in : forall i j p q, inr i p -> inr j q -> low i j p q -> in_tri Lower (off i + p) (off j + q) = true.
Proof.
  intros i j p q [Li Lp] [Lj Lq] Q. unfold off. rewrite in_tri_tiles by assumption. destruct (Z.eqb_spec i j) as [->|N]; cbn; apply Z.leb_le; unfold low in Q; lia.
Qed.
Lemma A0_sum : forall i j p q, inr i p -> inr j q -> low i j p q -> ov st0 i j p q = fsum 0 nt (fun l => D l i j p q).
Proof.
  intros i j p q Ri Rj Q. rewrite <- gather_orm by assumption. fold A0.
  destruct (factor_orm1 u _ _ _ FAC) as [_ E]. rewrite <- (E (off i + p)%Z (off j + q)%Z (elem i p Ri) (elem j q Rj) (low_in i j p q Ri Rj Q)).
  unfold mmul. rewrite fsum_tiles by exact OK. reflexivity.
Qed.
Lemma TL_zero : forall i l p r, inr i p -> inr l r -> (i < l)%Z -> TL i l p r = 0.
Proof.
  intros i l p r [Li Lp] [Ll Lr] Q. unfold TL. apply trim_zero. unfold off. rewrite in_tri_tiles by assumption.
  destruct (Z.eqb_spec i l); [lia|]. cbn. apply Z.leb_gt. lia.
Qed.
Lemma TL_low : forall i j p q, inr i p -> inr j q -> low i j p q -> TL i j p q = L0 (off i + p)%Z (off j + q)%Z.
Proof.
  intros i j p q Ri Rj Q. unfold TL, trim. rewrite (low_in i j p q Ri Rj Q). destruct (_ =? _)%Z; reflexivity.
Qed.
Lemma TL_diag : forall k p q, inr k p -> inr k q -> TL k k p q = trim Lower NonUnit (cut t t L0 k k) p q.
Proof.
  intros k p q [Lk Lp] [_ Lq]. unfold TL, trim, cut. fold off. cbn [in_tri].
  destruct (Z.eqb_spec (off k + p) (off k + q)), (Z.eqb_spec p q); try lia; [reflexivity|].
  destruct (Z.leb_spec (off k + q) (off k + p)), (Z.leb_spec q p); try lia; reflexivity.
Qed.
Lemma D_zero : forall l i j p q, inr i p -> inr j q -> (0 <= l < nt)%Z -> (i < l \/ j < l)%Z -> D l i j p q = 0.
Proof.
  intros l i j p q Ri Rj Ll Q. unfold D. apply fsum_0. intros r Lr.
  assert (Rl : inr l r) by (split; assumption). destruct Q as [Q|Q]; [rewrite (TL_zero i l)|rewrite (TL_zero j l), fconj_0]; auto; ring.
Qed.
Lemma L0_pos : forall k p, inr k p -> fpos (L0 (off k + p)%Z (off k + p)%Z).
Proof. intros k p R. destruct (factor_orm1 u _ _ _ FAC) as [P _]. apply P. apply elem. exact R. Qed.
Lemma D_real : forall l i p, real (D l i i p p).
Proof.
  intros l i p. unfold real, D. rewrite fsum_conj. apply fsum_ext. intros r _. rewrite fconj_mul, fconj_conj. ring.
Qed.

(** ** Invariant *)
Record INV (k : Z) (st : tstore (mat K)) : Prop := {
  inv_done : forall i j p q, inr i p -> inr j q -> low i j p q -> (j < k)%Z -> ov st i j p q = L0 (off i + p)%Z (off j + q)%Z;
  inv_todo : forall i j p q, inr i p -> inr j q -> low i j p q -> (k <= j)%Z -> ov st i j p q = fsum k nt (fun l => D l i j p q);
  inv_out : forall i p q, inr i p -> inr i q -> (p < q)%Z -> ov st i i p q = ov st0 i i p q;
  inv_up : forall i j, (i < j)%Z -> st (tu i j) = st0 (tu i j) }.

Lemma inv_init : INV 0 st0.
Proof.
  split; try reflexivity.
  - intros i j p q Ri [Lj _] _ Q. lia.
  - intros i j p q Ri Rj Q _. apply A0_sum; assumption.
Qed.
Lemma real_sum : forall lo hi (f : Z -> F K), (forall l, (lo <= l < hi)%Z -> real (f l)) -> real (fsum lo hi f).
Proof. intros lo hi f R. unfold real. rewrite fsum_conj. apply fsum_ext. exact R. Qed.

Lemma diag_potrf : forall k st, (0 <= k < nt)%Z -> INV k st -> is_factor Lower (sz k) (ov st k k) (cut t t L0 k k).
Proof.
  intros k st L I0. split.
  - intros p Lp. unfold cut. apply L0_pos. split; assumption.
  - intros p q Lp Lq Q. cbn in Q. apply Z.leb_le in Q.
    assert (Rp : inr k p) by (split; assumption). assert (Rq : inr k q) by (split; assumption).
    rewrite (inv_todo _ _ I0 k k p q Rp Rq) by (unfold low; lia).
    rewrite (fsum_one k nt _ k ltac:(lia)).
    + unfold D, mmul. apply fsum_ext. intros r Lr. unfold opm. rewrite !TL_diag by (split; assumption). reflexivity.
    + intros l Ll N. apply D_zero; try assumption; lia.
Qed.

Lemma step_inv : forall k st, (0 <= k < nt)%Z -> INV k st -> INV (k + 1) (trun (g_step k) st).
Proof.
  intros k st L I0. unfold g_step. rewrite !trun_app. cbn [trun fold_left].
  set (st1 := texec st (jpotrf kn u (sz k) (tu k k))). fold (trun (g_panel k) st1). set (st2 := trun (g_panel k) st1). set (st3 := trun (g_trail k) st2).
  (* potrf *)
  assert (P1 : st1 (tu k k) = potrf kn u (sz k) (st (tu k k))) by (unfold st1, texec; rewrite tset_eq; reflexivity).
  assert (P2 : forall i j, ~ (i = k /\ j = k) -> st1 (tu i j) = st (tu i j)).
  { intros i j N. unfold st1, texec. apply tset_neq. cbn. intros E. apply tu_inj in E. tauto. }
  destruct (o_potrf_ok kn KO u (sz k) (st (tu k k))) as [PF PO]; [exists (cut t t L0 k k); apply diag_potrf; assumption|].
  pose proof (factor_unique_lower _ _ _ _ PF (diag_potrf k st L I0)) as PU.
  assert (P3 : forall p q, inr k p -> inr k q -> low k k p q -> ov st1 k k p q = L0 (off k + p)%Z (off k + q)%Z).
  { intros p q [_ Lp] [_ Lq] Q. unfold ov. rewrite P1. unfold low in Q. rewrite (PU p q Lp Lq); [reflexivity|]. cbn. apply Z.leb_le. lia. }
  assert (TR : forall p q, inr k p -> inr k q -> trim Lower NonUnit (ov st1 k k) p q = TL k k p q).
  { intros p q Rp Rq. rewrite TL_diag by assumption. unfold trim, cut. fold off. destruct (Z.eqb_spec p q) as [->|N]; [apply P3; unfold low; auto; lia|].
    cbn [in_tri]. destruct (Z.leb_spec q p); [apply P3; unfold low; auto; lia|reflexivity]. }
  (* panel *)
  destruct (panel_run k st1 L) as [Q1 Q2]. fold st2 in Q1, Q2.
  assert (Q3 : forall i p q, inr i p -> inr k q -> (k < i)%Z -> ov st2 i k p q = TL i k p q).
  { intros i p q Ri Rq Li.
    assert (E1 : forall b, inr k b -> fsum 0 (sz k) (fun r => TL k k b r * fconj (ov st2 i k p r)) = fsum 0 (sz k) (fun r => TL k k b r * fconj (TL i k p r))).
    { intros b Rb.
      assert (NS : forall a, (0 <= a < sz k)%Z -> orm u (st1 (tu k k)) a a <> 0).
      { intros a La. fold (ov st1 k k a a). rewrite P3 by (unfold low, inr; auto; lia). apply fpos_neq. apply L0_pos. split; assumption. }
      pose proof (o_trsm_ok kn KO u (sz i) (sz k) (st1 (tu k k)) (st1 (tu i k)) NS p b (proj2 Ri) (proj2 Rb)) as E.
      unfold ov. rewrite (Q1 i) by (destruct Ri; lia).
      rewrite (P2 i k) in E by lia. fold (ov st i k p b) in E. rewrite (inv_todo _ _ I0 i k p b Ri Rb) in E by (unfold low; lia).
      rewrite (fsum_one k nt _ k ltac:(lia)) in E by (intros l Ll N; apply D_zero; try assumption; lia).
      transitivity (fconj (D k i k p b)).
      - rewrite <- E, fsum_conj, (P2 i k) by lia. apply fsum_ext. intros r Lr. rewrite fconj_mul, fconj_conj.
        fold (ov st1 k k). rewrite TR by (try assumption; split; assumption). ring.
      - unfold D. rewrite fsum_conj. apply fsum_ext. intros r _. rewrite fconj_mul, fconj_conj. ring. }
    assert (X : fconj (ov st2 i k p q) = fconj (TL i k p q)).
    { apply (tri_unique true (sz k) (fun b r => TL k k b r) (fun r => fconj (ov st2 i k p r)) (fun r => fconj (TL i k p r))); [| |exact (proj2 Rq)].
      - split.
        + intros a La. rewrite TL_low by (unfold low, inr; auto; lia). apply fpos_neq. apply L0_pos. split; assumption.
        + intros a r La Lr Q. rewrite TL_diag by (split; assumption). apply trim_zero. cbn. apply Z.leb_gt. exact Q.
      - intros b Lb. apply E1. split; [lia|exact Lb]. }
    rewrite <- (fconj_conj K (ov st2 i k p q)), X. apply fconj_conj. }
  (* trailing matrix *)
  destruct (trail_run k st2 L) as (R1 & R2 & R3). fold st3 in R1, R2, R3.
  assert (S2 : forall i j, (k < j)%Z -> st2 (tu i j) = st (tu i j)) by (intros i j Lj; rewrite Q2, P2 by lia; reflexivity).
  split.
  - intros i j p q Ri Rj Lo Lj. unfold ov. rewrite R3 by lia. fold (ov st2 i j p q).
    destruct (Z.eq_dec j k) as [->|N].
    + destruct Lo as [Lo|[E Lo]].
      * rewrite Q3 by assumption. apply TL_low; try assumption. left. exact Lo.
      * subst i. unfold ov. rewrite Q2 by lia. apply P3; try assumption. right. lia.
    + unfold ov. rewrite Q2, P2 by lia. apply (inv_done _ _ I0); try assumption. lia.
  - intros i j p q Ri Rj Lo Lj.
    assert (SUB : fsum k nt (fun l => D l i j p q) - D k i j p q = fsum (k + 1) nt (fun l => D l i j p q)).
    { rewrite (fsum_cons k nt) by lia. ring. }
    rewrite <- SUB. destruct Ri as [Li Lp], Rj as [Ljn Lq].
    destruct (Z.eq_dec i j) as [->|N].
    + unfold ov. rewrite (R1 j) by lia. rewrite o_herk_ok; try assumption.
      * unfold low in Lo. rewrite (proj2 (Z.leb_le q p)) by lia. rewrite S2 by lia.
        fold (ov st j j p q). rewrite (inv_todo _ _ I0) by (unfold low, inr; auto; lia). f_equal. unfold D.
        apply fsum_ext. intros r Lr. fold (ov st2 j k p r) (ov st2 j k q r). rewrite !Q3 by (unfold inr; auto; lia). reflexivity.
      * intros a La. rewrite S2 by lia. fold (ov st j j a a). rewrite (inv_todo _ _ I0) by (unfold low, inr; auto; lia).
        apply real_sum. intros l _. apply D_real.
    + assert (Lij : (j < i)%Z) by (unfold low in Lo; lia).
      unfold ov. rewrite (R2 i j) by lia. rewrite o_gemm_ok by assumption. rewrite S2 by lia.
      fold (ov st i j p q). rewrite (inv_todo _ _ I0) by (unfold low, inr; auto; lia). f_equal. unfold D.
      apply fsum_ext. intros r Lr. fold (ov st2 i k p r) (ov st2 j k q r). rewrite !Q3 by (unfold inr; auto; lia). reflexivity.
  - intros i p q Ri Rq Q. rewrite <- (inv_out _ _ I0 i p q Ri Rq Q). destruct (Z.lt_total i k) as [C|[C|C]].
    + unfold ov. rewrite R3, Q2, P2 by lia. reflexivity.
    + subst i. unfold ov. rewrite R3, Q2 by lia. rewrite P1. apply PO; [exact (proj2 Ri)|exact (proj2 Rq)|exact Q].
    + unfold ov. destruct Ri as [Li Lp], Rq as [_ Lq]. rewrite (R1 i) by lia. rewrite o_herk_ok; try assumption.
      * rewrite (proj2 (Z.leb_gt q p)) by lia. rewrite S2 by lia. reflexivity.
      * intros a La. rewrite S2 by lia. fold (ov st i i a a). rewrite (inv_todo _ _ I0) by (unfold low, inr; auto; lia).
        apply real_sum. intros l _. apply D_real.
  - intros i j Lij. rewrite R3, Q2, P2 by lia. apply (inv_up _ _ I0). exact Lij.
Qed.

Lemma final_potrf : forall st, INV nt st -> is_potrf u (tl_size t) A0 (gather t t (fun i j => st (A_ i j))).
Proof.
  intros st I0. split.
  - apply factor_orm2. apply (factor_ext Lower _ (orm u A0) (orm u A0) (orm u T)); [apply factor_orm1; exact FAC|intros i j _ _ _; reflexivity|].
    intros a b La Lb Q. destruct (elem_split t OK a La) as (i & p & Li & Lp & ->). destruct (elem_split t OK b Lb) as (j & q & Lj & Lq & ->).
    fold off. rewrite gather_orm by (split; assumption). symmetry. apply (inv_done _ _ I0); try (split; assumption); [|unfold nt; lia].
    rewrite in_tri_tiles in Q by assumption. unfold low. destruct (Z.eqb_spec i j); cbn in Q; apply Z.leb_le in Q; lia.
  - assert (G : forall i j p q, inr i p -> inr j q -> ~ low i j p q -> ov st i j p q = ov st0 i j p q).
    { intros i j p q Ri Rj N. unfold low in N. destruct (Z.eq_dec i j) as [->|E]; [apply (inv_out _ _ I0); auto; lia|].
      unfold ov. rewrite (inv_up _ _ I0 i j) by lia. reflexivity. }
    apply meq_out_orm. intros a b La Lb Q.
    destruct (elem_split t OK a La) as (i & p & Li & Lp & ->). destruct (elem_split t OK b Lb) as (j & q & Lj & Lq & ->).
    rewrite in_tri_tiles in Q by assumption. unfold A0. fold off. rewrite !gather_orm by (split; assumption). apply G; try (split; assumption).
    unfold low. destruct (Z.eqb_spec i j); cbn in Q; apply Z.leb_gt in Q; lia.
Qed.
Theorem cholesky_run : INV nt (trun (cholesky_factorization kn t u) st0).
Proof.
  rewrite program_generic. apply (for_up_inv 0 nt g_step INV).
  - destruct OK. unfold nt. lia.
  - apply inv_init.
  - intros k st L. apply step_inv. exact L.
Qed.
End chol.
