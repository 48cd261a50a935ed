(** * Reduction to standard form: both variants at once, seen through the lower triangle. *)
From Coq Require Import ZArith Lia List Bool.
From Verif Require Import Loop StarField DenseSpec Tiling DenseJobs TileJobs BlockJobs CholeskyModel CholeskyProofs RefKernels GenToStdModel.
Import ListNotations.
Local Open Scope Z_scope.

Section orient.
Context {K : starfield} (kn : kernels K) (KO : kernels_ok kn) (u : uplo).
Local Open Scope sf_scope.
Add Ring KringH1 : (fring K).
Lemma real_half : real (fhalf : F K).
Proof.
  unfold real. pose proof (@fhalf_2 K) as E. assert (E' : fconj (fhalf : F K) + fconj fhalf = 1) by (rewrite <- fconj_add, E; apply fconj_1).
  transitivity (fconj (fhalf : F K) * (fhalf + fhalf)); [rewrite E; ring|]. transitivity ((fconj (fhalf : F K) + fconj fhalf) * fhalf); [ring|]. rewrite E'. ring.
Qed.
Lemma orm_0 : forall (A : mat K) i, A i i = 0 -> orm u A i i = 0.
Proof. intros A i E. unfold orm. destruct u; [exact E|rewrite E; apply fconj_0]. Qed.
Lemma orm_real : forall (A : mat K) p, real (orm u A p p) <-> real (A p p).
Proof. intros A p. unfold orm, real. destruct u; [reflexivity|]. rewrite fconj_conj. split; congruence. Qed.
Lemma herm_orm : forall (A : mat K) i j, (i = j -> real (A i i)) -> herm u A i j = herm Lower (orm u A) i j.
Proof.
  intros A i j R. unfold herm, orm. destruct u; [reflexivity|]. cbn [in_tri]. destruct (Z.leb_spec i j), (Z.leb_spec j i); try lia.
  - assert (i = j) as -> by lia. symmetry. apply R. reflexivity.
  - rewrite fconj_conj. reflexivity.
  - reflexivity.
Qed.
Lemma hl_orm : forall (T : mat K) i j, hl u T i j = trim Lower NonUnit (orm u T) i j.
Proof. intros T i j. rewrite <- trim_orm. unfold hl, orm, opm. destruct u; reflexivity. Qed.
Lemma hegst_orm : forall n (A T A' : mat K), real_diag n A -> real_diag n A' -> (is_hegst u n A T A' <-> is_hegst Lower n (orm u A) (orm u T) (orm u A')).
Proof.
  intros n A T A' R R'. rewrite !is_hegst_alt. rewrite (meq_out_orm u n A' A).
  assert (E : forall i j, (0 <= i < n)%Z -> (0 <= j < n)%Z -> mmul n (mmul n (hl u T) (herm u A')) (opm ConjTrans (hl u T)) i j =
     mmul n (mmul n (hl Lower (orm u T)) (herm Lower (orm u A'))) (opm ConjTrans (hl Lower (orm u T))) i j).
  { intros i j Li Lj. assert (HE : meq n n (hl u T) (hl Lower (orm u T))) by (intros a b _ _; apply hl_orm).
    apply (mmul_meq n n n); try assumption; [apply mmul_meq; [exact HE|]|].
    - intros a b La Lb. apply herm_orm. intros <-. apply R'. exact La.
    - intros a b La Lb. unfold opm. rewrite HE by assumption. reflexivity. }
  assert (E2 : forall i j, (0 <= i < n)%Z -> (0 <= j < n)%Z -> herm u A i j = herm Lower (orm u A) i j).
  { intros i j Li Lj. apply herm_orm. intros <-. apply R. exact Li. }
  split; intros (P1 & P2 & P3); (split; [|split; [|exact P3]]).
  - intros i j Li Lj. rewrite <- E, <- E2 by assumption. apply P1; assumption.
  - intros i Li. apply orm_real. apply P2. exact Li.
  - intros i j Li Lj. rewrite E, E2 by assumption. apply P1; assumption.
  - exact R'.
Qed.
Definition o_hemm m n (A B C : mat K) : mat K :=
  match u with Lower => hemm kn Right Lower m n (- fhalf) A B 1 C | Upper => hemm kn Left Upper n m (- fhalf) A B 1 C end.
Definition o_her2k n k (A B C : mat K) : mat K :=
  match u with Lower => her2k kn Lower NoTrans n k (- (1)) A B 1 C | Upper => her2k kn Upper ConjTrans n k (- (1)) A B 1 C end.
Definition o_fs m n (A B : mat K) : mat K :=
  match u with Lower => trsm kn Left Lower NoTrans NonUnit m n 1 A B | Upper => trsm kn Right Upper NoTrans NonUnit n m 1 A B end.
Definition o_g2 m n k (A B C : mat K) : mat K :=
  match u with Lower => gemm kn NoTrans NoTrans m n k (- (1)) A B 1 C | Upper => gemm kn NoTrans NoTrans n m k (- (1)) B A 1 C end.
Lemma o_hemm_ok : forall m n A B C, (forall p, (0 <= p < n)%Z -> real (orm u A p p)) -> forall i j, (0 <= i < m)%Z -> (0 <= j < n)%Z ->
  orm u (o_hemm m n A B C) i j = orm u C i j - fhalf * fsum 0 n (fun r => orm u B i r * herm Lower (orm u A) r j).
Proof.
  intros m n A B C R i j Li Lj. assert (RD : real_diag n A) by (intros p Lp; apply orm_real; apply R; exact Lp). unfold o_hemm, orm. destruct u.
  - rewrite (hemm_ok kn KO Right Lower m n (- fhalf) A B 1 C RD i j Li Lj). unfold mmul. change (fun i j => A i j) with A. ring.
  - rewrite (hemm_ok kn KO Left Upper n m (- fhalf) A B 1 C RD j i Lj Li). unfold mmul. rewrite fconj_add, !fconj_mul, fconj_1, fconj_opp, fsum_conj.
    rewrite (real_half). rewrite (fsum_ext 0 n (fun r => fconj (herm Upper A j r * B r i)) (fun r => fconj (B r i) * herm Lower (fun i j => fconj (A j i)) r j)); [ring|].
    intros r _. rewrite fconj_mul. unfold herm. cbn [in_tri]. destruct (j <=? r)%Z; rewrite ?fconj_conj; ring.
Qed.
Lemma o_her2k_ok : forall n k A B C, (forall p, (0 <= p < n)%Z -> real (orm u C p p)) -> forall i j, (0 <= i < n)%Z -> (0 <= j < n)%Z ->
  orm u (o_her2k n k A B C) i j =
    if (j <=? i)%Z then orm u C i j - fsum 0 k (fun r => orm u A i r * fconj (orm u B j r)) - fsum 0 k (fun r => orm u B i r * fconj (orm u A j r)) else orm u C i j.
Proof.
  intros n k A B C R i j Li Lj. assert (RD : real_diag n C) by (intros p Lp; apply orm_real; apply R; exact Lp). unfold o_her2k. destruct u.
  - destruct (her2k_ok kn KO Lower NoTrans n k (- (1)) A B 1 C) as [T O]; [discriminate|apply real_1|exact RD|].
    destruct (j <=? i)%Z eqn:Q; unfold orm; [|apply O; assumption]. rewrite (T i j Li Lj Q). unfold gram, mmul, opm. rewrite fconj_opp, fconj_1. ring.
  - destruct (her2k_ok kn KO Upper ConjTrans n k (- (1)) A B 1 C) as [T O]; [discriminate|apply real_1|exact RD|].
    destruct (j <=? i)%Z eqn:Q; unfold orm; [|f_equal; apply O; assumption]. rewrite (T j i Lj Li Q). unfold gram, mmul, opm.
    rewrite !fconj_add, !fconj_mul, !fconj_opp, !fconj_conj, !fconj_1, !fsum_conj.
    rewrite (fsum_ext 0 k (fun r => fconj (fconj (A r j) * B r i)) (fun r => fconj (B r i) * fconj (fconj (A r j)))) by (intros r _; rewrite fconj_mul; ring).
    rewrite (fsum_ext 0 k (fun r => fconj (fconj (B r j) * A r i)) (fun r => fconj (A r i) * fconj (fconj (B r j)))) by (intros r _; rewrite fconj_mul; ring).
    rewrite ?fconj_opp, ?fconj_1. ring.
Qed.
Lemma o_fs_ok : forall m n A B, (forall p, (0 <= p < m)%Z -> orm u A p p <> 0) -> forall i j, (0 <= i < m)%Z -> (0 <= j < n)%Z ->
  fsum 0 m (fun r => trim Lower NonUnit (orm u A) i r * orm u (o_fs m n A B) r j) = orm u B i j.
Proof.
  intros m n A B N i j Li Lj.
  rewrite (fsum_ext 0 m _ (fun r => orm u (trim u NonUnit A) i r * orm u (o_fs m n A B) r j)) by (intros r _; rewrite trim_orm; reflexivity).
  unfold o_fs, orm in *. destruct u.
  - pose proof (trsm_ok kn KO Left Lower NoTrans NonUnit m n 1 A B N i j Li Lj) as E. cbn beta iota in E. unfold mmul, opm in E. rewrite E. ring.
  - assert (N' : nonsingular NonUnit m A). { intros p Lp Q. apply (N p Lp). rewrite Q. apply fconj_0. }
    pose proof (trsm_ok kn KO Right Upper NoTrans NonUnit n m 1 A B N' j i Lj Li) as E. cbn beta iota in E. unfold mmul, opm in E.
    transitivity (fconj (1 * B j i)); [rewrite <- E, fsum_conj|f_equal; ring]. apply fsum_ext. intros r _. rewrite fconj_mul. ring.
Qed.
Lemma o_g2_ok : forall m n k A B C i j, (0 <= i < m)%Z -> (0 <= j < n)%Z ->
  orm u (o_g2 m n k A B C) i j = orm u C i j - fsum 0 k (fun r => orm u A i r * orm u B r j).
Proof.
  intros m n k A B C i j Li Lj. unfold o_g2, orm. destruct u.
  - rewrite (gemm_ok kn KO NoTrans NoTrans m n k (- (1)) A B 1 C i j Li Lj). unfold mmul, opm. ring.
  - rewrite (gemm_ok kn KO NoTrans NoTrans n m k (- (1)) B A 1 C j i Lj Li). unfold mmul, opm. rewrite fconj_add, !fconj_mul, fconj_opp, fconj_1, fsum_conj.
    rewrite (fsum_ext 0 k (fun r => fconj (B j r * A r i)) (fun r => fconj (A r i) * fconj (B j r))); [ring|]. intros r _. rewrite fconj_mul. ring.
Qed.
End orient.

Section g2s.
Context {K : starfield} (kn : kernels K) (KO : kernels_ok kn) (t : tiling) (OK : tiling_ok t) (u : uplo).
Local Open Scope sf_scope.
Add Ring KringH2 : (fring K).
Let nt := tl_n t.
Let sz := tl_sz t.
Let off := tl_off t.
Let tA := tu u.
Definition tL (i j : Z) : tid := sw u L_ i j.
Definition g_hg k : tjob (mat K) := TJob [tL k k] (tA k k) (in1 (fun L A => hegst kn u (sz k) A L)).
Definition g_ts k i : tjob (mat K) := TJob [tL k k] (tA i k) (in1 (fun A B => o_trsm kn u (sz i) (sz k) A B)).
Definition g_hm k i : tjob (mat K) := TJob [tA k k; tL i k] (tA i k) (in2 (fun A B C => o_hemm kn u (sz i) (sz k) A B C)).
Definition g_h2 k j : tjob (mat K) := TJob [tA j k; tL j k] (tA j j) (in2 (fun A B C => o_her2k kn u (sz j) (sz k) A B C)).
Definition g_gp k i j : list (tjob (mat K)) :=
  match u with
  | Lower => [TJob [tA i k; tL j k] (tA i j) (in2 (fun A B C => o_gemm kn u (sz i) (sz j) (sz k) A B C));
              TJob [tL i k; tA j k] (tA i j) (in2 (fun A B C => o_gemm kn u (sz i) (sz j) (sz k) A B C))]
  | Upper => [TJob [tA j k; tL i k] (tA i j) (in2 (fun B A C => o_gemm kn u (sz i) (sz j) (sz k) A B C));
              TJob [tL j k; tA i k] (tA i j) (in2 (fun B A C => o_gemm kn u (sz i) (sz j) (sz k) A B C))]
  end.
Definition g_fs k j : tjob (mat K) := TJob [tL j j] (tA j k) (in1 (fun A B => o_fs kn u (sz j) (sz k) A B)).
Definition g_g2 k j i : tjob (mat K) :=
  match u with
  | Lower => TJob [tL i j; tA j k] (tA i k) (in2 (fun A B C => o_g2 kn u (sz i) (sz k) (sz j) A B C))
  | Upper => TJob [tA j k; tL i j] (tA i k) (in2 (fun B A C => o_g2 kn u (sz i) (sz k) (sz j) A B C))
  end.
Definition g_pan k := for_up (k + 1) nt (fun i => [g_ts k i; g_hm k i]).
Definition g_trc k j := [g_h2 k j] ++ for_up (j + 1) nt (fun i => g_gp k i j).
Definition g_trl k := for_up (k + 1) nt (g_trc k).
Definition g_hms k := for_up (k + 1) nt (fun i => [g_hm k i]).
Definition g_sol k j := [g_fs k j] ++ for_up (j + 1) nt (fun i => [g_g2 k j i]).
Definition g_slv k := for_up (k + 1) nt (g_sol k).
Definition g_gstep k : list (tjob (mat K)) := [g_hg k] ++ (if k =? nt - 1 then [] else g_pan k ++ g_trl k ++ g_hms k ++ g_slv k)%Z.
Lemma g2s_generic : gen_to_std kn t u = for_up 0 nt g_gstep.
Proof. unfold gen_to_std, g_gstep, g_pan, g_trl, g_trc, g_hms, g_slv, g_sol, g_hg, g_ts, g_hm, g_h2, g_gp, g_fs, g_g2, tA, tL, tu. destruct u; reflexivity. Qed.
Lemma for_nil : forall lo hi (body : Z -> list (tjob (mat K))), (hi <= lo)%Z -> for_up lo hi body = [].
Proof. intros lo hi body L. unfold for_up. rewrite zrange_nil by exact L. reflexivity. Qed.
Lemma gstep_all : forall k, g_gstep k = [g_hg k] ++ g_pan k ++ g_trl k ++ g_hms k ++ g_slv k.
Proof.
  intros k. unfold g_gstep. destruct (Z.eqb_spec k (nt - 1)) as [->|_]; [|reflexivity].
  unfold g_pan, g_trl, g_hms, g_slv. rewrite !for_nil by lia. reflexivity.
Qed.
Lemma tA_inj : forall i j i' j', tA i j = tA i' j' -> i = i' /\ j = j'.
Proof. apply tu_inj. Qed.
Lemma tA_tL : forall i j i' j', tA i j <> tL i' j'.
Proof. intros i j i' j'. unfold tA, tL, tu, sw, A_, L_. destruct u; discriminate. Qed.
Lemma gp_out : forall k i j x, In x (g_gp k i j) -> tj_out x = tA i j.
Proof. intros k i j x. unfold g_gp. destruct u; cbn; intros [<-|[<-|[]]]; reflexivity. Qed.
Lemma gp_in : forall k i j x y, In x (g_gp k i j) -> In y (tj_in x) -> y = tA i k \/ y = tA j k \/ exists a b, y = tL a b.
Proof. intros k i j x y. unfold g_gp. destruct u; cbn; intros [<-|[<-|[]]]; cbn; intros [<-|[<-|[]]]; eauto. Qed.
Lemma g2_out : forall k j i, tj_out (g_g2 k j i) = tA i k.
Proof. intros. unfold g_g2. destruct u; reflexivity. Qed.
Lemma g2_in : forall k j i x, In x (tj_in (g_g2 k j i)) -> x = tA j k \/ x = tL i j.
Proof. intros k j i x. unfold g_g2. destruct u; cbn; intuition. Qed.
Lemma g2_val : forall k j i st, tval (g_g2 k j i) st = o_g2 kn u (sz i) (sz k) (sz j) (st (tL i j)) (st (tA j k)) (st (tA i k)).
Proof. intros k j i st. unfold g_g2, tA, tL. destruct u eqn:E; unfold tval; cbn; reflexivity. Qed.
Ltac inj := repeat match goal with
  | E : tA _ _ = tA _ _ |- _ => apply tA_inj in E
  | E : tA _ _ = tL _ _ |- _ => exfalso; exact (tA_tL _ _ _ _ E)
  | E : tL _ _ = tA _ _ |- _ => exfalso; symmetry in E; exact (tA_tL _ _ _ _ E) end.

(** ** Effects of the phases of a step *)
Let ov (st : tstore (mat K)) i j : mat K := orm u (st (tA i j)).
Let lv (st : tstore (mat K)) i j : mat K := orm u (st (tL i j)).
Let inr (i p : Z) : Prop := (0 <= i < nt)%Z /\ (0 <= p < sz i)%Z.
Lemma pan_run : forall k st, (0 <= k < nt)%Z ->
  (forall i, (k < i < nt)%Z -> trun (g_pan k) st (tA i k) = o_hemm kn u (sz i) (sz k) (st (tA k k)) (st (tL i k)) (o_trsm kn u (sz i) (sz k) (st (tL k k)) (st (tA i k)))) /\
  (forall x, (forall i, (k < i < nt)%Z -> x <> tA i k) -> trun (g_pan k) st x = st x).
Proof.
  intros k st L. destruct (run_blocks (fun i => [g_ts k i; g_hm k i]) (fun i => tA i k) (zrange (k + 1) nt) st) as [B1 B2].
  - apply zrange_NoDup.
  - intros a b _ _ E. inj. tauto.
  - intros i j Ii [<-|[<-|[]]]; (split; [reflexivity|]); cbn; intros x Ix k' Ik' ->; apply in_zrange in Ik'; repeat destruct Ix as [Ix|Ix]; try contradiction; inj; lia.
  - split.
    + intros i Li. unfold g_pan, for_up. rewrite (B1 i) by (apply in_zrange; lia). cbn [trun fold_left]. unfold texec. cbn [g_ts g_hm tj_out]. rewrite tset_eq.
      unfold tval. cbn [g_ts g_hm tj_in tj_out tj_fun map in1 in2]. rewrite tset_eq. rewrite !tset_neq by (intros E; inj; lia). reflexivity.
    + intros x N. apply B2. intros i Ii. apply in_zrange in Ii. apply N. lia.
Qed.
Lemma hms_run : forall k st, (0 <= k < nt)%Z ->
  (forall i, (k < i < nt)%Z -> trun (g_hms k) st (tA i k) = o_hemm kn u (sz i) (sz k) (st (tA k k)) (st (tL i k)) (st (tA i k))) /\
  (forall x, (forall i, (k < i < nt)%Z -> x <> tA i k) -> trun (g_hms k) st x = st x).
Proof.
  intros k st L. destruct (run_each (k + 1) nt (fun i => g_hm k i) st) as [B1 B2].
  - intros a b _ _ E. cbn in E. inj. tauto.
  - intros a b La Lb. cbn. intros [E|[E|[]]]; inj; lia.
  - split.
    + intros i Li. apply (B1 i). lia.
    + intros x N. apply B2. intros i Ii E. cbn in E. symmetry in E. revert E. apply N. lia.
Qed.
(** the two updates of a trailing tile, in whatever order *)
Lemma gp_val : forall k i j st p q, (k < j < i)%Z -> (0 <= p < sz i)%Z -> (0 <= q < sz j)%Z ->
  orm u (trun (g_gp k i j) st (tA i j)) p q = ov st i j p q - fsum 0 (sz k) (fun r => ov st i k p r * fconj (lv st j k q r)) - fsum 0 (sz k) (fun r => lv st i k p r * fconj (ov st j k q r)).
Proof.
  intros k i j st p q L Lp Lq. unfold g_gp. unfold ov, lv.
  assert (N : forall a b, tL a b <> tA i j) by (intros a b E; inj).
  assert (N1 : tA i k <> tA i j) by (intros E; inj; lia). assert (N2 : tA j k <> tA i j) by (intros E; inj; lia).
  destruct u eqn:U; cbn [trun fold_left]; unfold texec; cbn [tj_out]; rewrite tset_eq; unfold tval; cbn [tj_in tj_out tj_fun map in2]; rewrite tset_eq, !tset_neq by (first [apply N|exact N1|exact N2]); rewrite <- U.
  - rewrite !o_gemm_ok by assumption. reflexivity.
  - rewrite !o_gemm_ok by assumption. ring.
Qed.
Lemma trl_run : forall k st, (0 <= k < nt)%Z ->
  (forall j, (k < j < nt)%Z -> trun (g_trl k) st (tA j j) = o_her2k kn u (sz j) (sz k) (st (tA j k)) (st (tL j k)) (st (tA j j))) /\
  (forall i j, (k < j < i)%Z -> (i < nt)%Z -> trun (g_trl k) st (tA i j) = trun (g_gp k i j) st (tA i j)) /\
  (forall x, (forall i j, (k < j <= i)%Z -> (i < nt)%Z -> x <> tA i j) -> trun (g_trl k) st x = st x).
Proof.
  intros k st L. set (W := fun j x => exists i, (j <= i < nt)%Z /\ x = tA i j).
  assert (JJ : forall j a, (k < j)%Z -> (j < nt)%Z -> In a (g_trc k j) -> W j (tj_out a) /\ forall x, In x (tj_in a) -> (exists i, x = tA i k) \/ (exists a b, x = tL a b)).
  { intros j a Lj Lj' [<-|Ia].
    - split; [exists j; split; [lia|reflexivity]|]. cbn. intros x [<-|[<-|[]]]; eauto.
    - apply in_for_up in Ia as (i & Li & Ia). rewrite (gp_out k i j a Ia). split; [exists i; split; [lia|reflexivity]|].
      intros x Ix. destruct (gp_in k i j a x Ia Ix) as [->|[->|(c & d & ->)]]; eauto. }
  destruct (run_blocks_gen (g_trc k) W (zrange (k + 1) nt) st) as [B1 B2]; [apply zrange_NoDup| | |].
  { intros a b x _ _ (i & _ & ->) (i' & _ & E). inj. tauto. }
  { intros j a Ij Ia. apply in_zrange in Ij. destruct (JJ j a) as [J1 J2]; [lia|lia|exact Ia|]. split; [exact J1|]. intros x Ix j' Ij' _ (i & Li & ->).
    apply in_zrange in Ij'. destruct (J2 _ Ix) as [(i' & E)|(c & d & E)]; inj; lia. }
  fold (for_up (k + 1) nt (g_trc k)) in B1, B2. change (for_up (k + 1) nt (g_trc k)) with (g_trl k) in B1, B2.
  assert (B1' : forall i j, (k < j <= i)%Z -> (i < nt)%Z -> trun (g_trl k) st (tA i j) = trun (g_trc k j) st (tA i j)).
  { intros i j Lj Li. apply B1; [apply in_zrange; lia|]. intros j' _ N (i' & _ & E). inj. lia. }
  assert (C : forall j s, (k < j < nt)%Z -> (forall i, (j < i < nt)%Z -> trun (for_up (j + 1) nt (fun i => g_gp k i j)) s (tA i j) = trun (g_gp k i j) s (tA i j)) /\
     (forall x, (forall i, (j < i < nt)%Z -> x <> tA i j) -> trun (for_up (j + 1) nt (fun i => g_gp k i j)) s x = s x)).
  { intros j s Lj. destruct (run_blocks (fun i => g_gp k i j) (fun i => tA i j) (zrange (j + 1) nt) s) as [D1 D2].
    - apply zrange_NoDup.
    - intros a b _ _ E. inj. tauto.
    - intros i a Ii Ia. split; [exact (gp_out k i j a Ia)|]. intros x Ix i' Ii' ->. apply in_zrange in Ii, Ii'. destruct (gp_in k i j a _ Ia Ix) as [E|[E|(c & d & E)]]; inj; lia.
    - split; [intros i Li; apply D1; apply in_zrange; lia|]. intros x N. apply D2. intros i Ii. apply in_zrange in Ii. apply N. lia. }
  split; [|split].
  - intros j Lj. rewrite B1' by lia. unfold g_trc. rewrite trun_app. destruct (C j (trun [g_h2 k j] st) Lj) as [_ C2].
    rewrite C2 by (intros i Li E; inj; lia). cbn [trun fold_left]. unfold texec. cbn [g_h2 tj_out]. rewrite tset_eq. reflexivity.
  - intros i j Lj Li. rewrite B1' by lia. unfold g_trc. rewrite trun_app. destruct (C j (trun [g_h2 k j] st)) as [C1 _]; [lia|]. rewrite C1 by lia.
    apply (trun_local (g_gp k i j) (fun x => x <> tA j j)); [| |intros E; inj; lia].
    + intros a Ia. rewrite (gp_out k i j a Ia). split; [intros E; inj; lia|]. intros x Ix ->. destruct (gp_in k i j a _ Ia Ix) as [E|[E|(c & d & E)]]; inj; lia.
    + intros x N. cbn [trun fold_left]. unfold texec. cbn [g_h2 tj_out]. apply tset_neq. exact N.
  - intros x N. apply B2. intros j Ij (i & Li & ->). apply in_zrange in Ij. apply (N i j); [lia|lia|reflexivity].
Qed.
Let LT (st : tstore (mat K)) i j : mat K := trim_tile Lower NonUnit (lv st) i j.
Lemma LT_up : forall st i j p q, (i < j)%Z -> LT st i j p q = 0.
Proof. intros st i j p q L. unfold LT, trim_tile. destruct (Z.eqb_spec i j); [lia|]. cbn [in_tri]. rewrite (proj2 (Z.leb_gt j i)) by lia. reflexivity. Qed.
Lemma LT_low : forall st i j p q, (j < i)%Z -> LT st i j p q = lv st i j p q.
Proof. intros st i j p q L. unfold LT, trim_tile. destruct (Z.eqb_spec i j); [lia|]. cbn [in_tri]. rewrite (proj2 (Z.leb_le j i)) by lia. reflexivity. Qed.
Lemma LT_diag : forall st i p q, LT st i i p q = trim Lower NonUnit (lv st i i) p q.
Proof. intros st i p q. unfold LT, trim_tile. rewrite Z.eqb_refl. reflexivity. Qed.
Lemma LT_ext : forall st st' i j p q, st (tL i j) = st' (tL i j) -> LT st i j p q = LT st' i j p q.
Proof. intros st st' i j p q E. unfold LT, trim_tile, trim, lv. rewrite E. reflexivity. Qed.
(** forward substitution *)
Lemma slv_run : forall k st, (0 <= k < nt)%Z -> (forall i p, inr i p -> lv st i i p p <> 0) ->
  (forall i p q, (k < i)%Z -> inr i p -> (0 <= q < sz k)%Z ->
     fsum (k + 1) nt (fun j => fsum 0 (sz j) (fun r => LT st i j p r * ov (trun (g_slv k) st) j k r q)) = ov st i k p q) /\
  (forall x, (forall i, (k < i < nt)%Z -> x <> tA i k) -> trun (g_slv k) st x = st x).
Proof.
  intros k st L NS.
  set (S := fun m (s : tstore (mat K)) i p q => fsum (k + 1) m (fun j => fsum 0 (sz j) (fun r => LT st i j p r * ov s j k r q))).
  set (I := fun m s => (forall i p q, (k < i)%Z -> inr i p -> (0 <= q < sz k)%Z -> if (i <? m)%Z then S m s i p q = ov st i k p q else ov s i k p q = ov st i k p q - S m s i p q) /\
    (forall x, (forall i, (k < i < nt)%Z -> x <> tA i k) -> s x = st x)).
  assert (G : I nt (trun (g_slv k) st)).
  - unfold g_slv. apply (for_up_inv (k + 1) nt (g_sol k) I); [lia| |].
    + split; [|reflexivity]. intros i p q Li Ri Lq. destruct (Z.ltb_spec i (k + 1)); [lia|]. unfold S. rewrite fsum_nil by lia. ring.
    + intros m s Lm [I1 I2]. unfold g_sol. rewrite trun_app. cbn [trun fold_left]. set (s1 := texec s (g_fs k m)).
      fold (trun (for_up (m + 1) nt (fun i => [g_g2 k m i])) s1). set (s2 := trun (for_up (m + 1) nt (fun i => [g_g2 k m i])) s1).
      assert (T1 : s1 (tA m k) = o_fs kn u (sz m) (sz k) (s (tL m m)) (s (tA m k))) by (unfold s1, texec; cbn [g_fs tj_out]; rewrite tset_eq; reflexivity).
      assert (O1 : forall x, x <> tA m k -> s1 x = s x) by (intros x N; unfold s1, texec; cbn [g_fs tj_out]; apply tset_neq; exact N).
      destruct (run_each (m + 1) nt (fun i => g_g2 k m i) s1) as [R1 R2].
      { intros a b _ _ E. rewrite !g2_out in E. inj. tauto. }
      { intros a b La Lb Q. rewrite g2_out in Q. apply g2_in in Q as [Q|Q]; inj; lia. }
      fold s2 in R1, R2.
      assert (F2 : forall x, (forall i, (m < i < nt)%Z -> x <> tA i k) -> s2 x = s1 x).
      { intros x N. apply R2. intros a La Q. rewrite g2_out in Q. symmetry in Q. revert Q. apply N. lia. }
      assert (V2 : forall i, (m < i < nt)%Z -> s2 (tA i k) = o_g2 kn u (sz i) (sz k) (sz m) (s1 (tL i m)) (s1 (tA m k)) (s1 (tA i k))).
      { intros i Li. rewrite <- (g2_out k m i) at 1. rewrite (R1 i) by lia. apply g2_val. }
      assert (LS : forall a b, s (tL a b) = st (tL a b)) by (intros a b; apply I2; intros i _ E; inj).
      assert (K2 : s2 (tA m k) = s1 (tA m k)) by (apply F2; intros i Li E; inj; lia).
      assert (EQ : forall j, (k < j < m)%Z -> s2 (tA j k) = s (tA j k)).
      { intros j Lj. rewrite F2 by (intros i Li E; inj; lia). apply O1. intros E. inj. lia. }
      assert (SE : forall i p q, S (m + 1)%Z s2 i p q = S m s i p q + fsum 0 (sz m) (fun r => LT st i m p r * ov s2 m k r q)).
      { intros i p q. unfold S. rewrite fsum_snoc by lia. f_equal. apply fsum_ext. intros j Lj. apply fsum_ext. intros r _. unfold ov. rewrite EQ by lia. reflexivity. }
      assert (YM : forall p q, (0 <= p < sz m)%Z -> (0 <= q < sz k)%Z -> fsum 0 (sz m) (fun r => LT st m m p r * ov s2 m k r q) = ov s m k p q).
      { intros p q Lp Lq. rewrite (fsum_ext 0 (sz m) _ (fun r => trim Lower NonUnit (orm u (s (tL m m))) p r * orm u (o_fs kn u (sz m) (sz k) (s (tL m m)) (s (tA m k))) r q)).
        - rewrite o_fs_ok; [reflexivity|exact KO| |exact Lp|exact Lq]. intros a La. rewrite LS. apply NS. split; [lia|exact La].
        - intros r _. rewrite LT_diag. unfold lv, ov. rewrite K2, T1, LS. reflexivity. }
      split.
      * intros i p q Li Ri Lq. rewrite SE. specialize (I1 i p q Li Ri Lq). destruct (Z.ltb_spec i m) as [C|C], (Z.ltb_spec i (m + 1)) as [D|D]; try lia.
        { rewrite I1. rewrite fsum_0; [ring|]. intros r _. rewrite LT_up by lia. ring. }
        { assert (i = m) as -> by lia. rewrite YM by (try apply Ri; exact Lq). rewrite I1. ring. }
        { unfold ov. rewrite V2 by (destruct Ri; lia). rewrite o_g2_ok; [|exact KO|apply Ri|exact Lq].
          rewrite (O1 (tA i k)) by (intros E; inj; lia). fold (ov s i k p q). rewrite I1.
          rewrite (fsum_ext 0 (sz m) (fun r => orm u (s1 (tL i m)) p r * orm u (s1 (tA m k)) r q) (fun r => LT st i m p r * ov s2 m k r q)).
          - unfold ov. ring.
          - intros r _. rewrite LT_low by lia. unfold lv, ov. rewrite K2, (O1 (tL i m)), LS by (intros E; inj). reflexivity. }
      * intros x N. rewrite F2 by (intros i Li; apply N; lia). rewrite O1 by (apply N; lia). apply I2. exact N.
  - destruct G as [G1 G2]. split; [|exact G2]. intros i p q Li Ri Lq. specialize (G1 i p q Li Ri Lq). destruct (Z.ltb_spec i nt); [exact G1|destruct Ri; lia].
Qed.

(** the values computed by a step *)
Let Wt st k i : mat K := o_trsm kn u (sz i) (sz k) (st (tL k k)) (st (tA i k)).
Let Ct (st : tstore (mat K)) k : mat K := hegst kn u (sz k) (st (tA k k)) (st (tL k k)).
Let Vt st k i : mat K := o_hemm kn u (sz i) (sz k) (Ct st k) (st (tL i k)) (Wt st k i).
Let Xt st k i : mat K := o_hemm kn u (sz i) (sz k) (Ct st k) (st (tL i k)) (Vt st k i).
Lemma gstep_run : forall k st, (0 <= k < nt)%Z -> (forall i p, inr i p -> lv st i i p p <> 0) ->
  (forall i p, inr i p -> (k < i)%Z -> real (ov st i i p p)) ->
  let st' := trun (g_gstep k) st in
  (st' (tA k k) = Ct st k) /\ 
  (forall i p q, (k < i)%Z -> inr i p -> (0 <= q < sz k)%Z ->
     fsum (k + 1) nt (fun j => fsum 0 (sz j) (fun r => LT st i j p r * ov st' j k r q)) = orm u (Xt st k i) p q) /\ 
  (forall i j p q, (k < j < i)%Z -> inr i p -> inr j q ->
     ov st' i j p q = ov st i j p q - fsum 0 (sz k) (fun r => orm u (Vt st k i) p r * fconj (lv st j k q r)) - fsum 0 (sz k) (fun r => lv st i k p r * fconj (orm u (Vt st k j) q r))) /\ 
  (forall i p q, (k < i)%Z -> inr i p -> inr i q -> ov st' i i p q = if (q <=? p)%Z then
     ov st i i p q - fsum 0 (sz k) (fun r => orm u (Vt st k i) p r * fconj (lv st i k q r)) - fsum 0 (sz k) (fun r => lv st i k p r * fconj (orm u (Vt st k i) q r)) else ov st i i p q) /\ 
  (forall x, (forall i j, (k <= j <= i)%Z -> (i < nt)%Z -> x <> tA i j) -> st' x = st x).
Proof.
  intros k st L NS RL st'. unfold st'. rewrite gstep_all, !trun_app. clear st'. cbn [trun fold_left]. set (s1 := texec st (g_hg k)).
  fold (trun (g_pan k) s1). set (s2 := trun (g_pan k) s1). fold (trun (g_trl k) s2). set (s3 := trun (g_trl k) s2).
  fold (trun (g_hms k) s3). set (s4 := trun (g_hms k) s3). fold (trun (g_slv k) s4).
  assert (T1 : s1 (tA k k) = Ct st k) by (unfold s1, texec; cbn [g_hg tj_out]; rewrite tset_eq; reflexivity).
  assert (O1 : forall x, x <> tA k k -> s1 x = st x) by (intros x N; unfold s1, texec; cbn [g_hg tj_out]; apply tset_neq; exact N).
  destruct (pan_run k s1 L) as [P1 P2]. fold s2 in P1, P2. destruct (trl_run k s2 L) as (Q1 & Q2 & Q3). fold s3 in Q1, Q2, Q3.
  destruct (hms_run k s3 L) as [R1 R2]. fold s4 in R1, R2.
  assert (LL1 : forall a b, s1 (tL a b) = st (tL a b)) by (intros a b; apply O1; intros E; inj).
  assert (LL2 : forall a b, s2 (tL a b) = st (tL a b)) by (intros a b; rewrite P2 by (intros i _ E; inj); apply LL1).
  assert (LL3 : forall a b, s3 (tL a b) = st (tL a b)) by (intros a b; rewrite Q3 by (intros i j _ _ E; inj); apply LL2).
  assert (LL4 : forall a b, s4 (tL a b) = st (tL a b)) by (intros a b; rewrite R2 by (intros i _ E; inj); apply LL3).
  assert (K2 : s2 (tA k k) = Ct st k) by (rewrite P2 by (intros i Li E; inj; lia); exact T1).
  assert (K3 : s3 (tA k k) = Ct st k) by (rewrite Q3 by (intros i j Lj Li E; inj; lia); exact K2).
  assert (K4 : s4 (tA k k) = Ct st k) by (rewrite R2 by (intros i Li E; inj; lia); exact K3).
  assert (V2 : forall i, (k < i < nt)%Z -> s2 (tA i k) = Vt st k i).
  { intros i Li. rewrite P1 by exact Li. unfold Vt, Wt. rewrite T1, !LL1, O1 by (intros E; inj; lia). reflexivity. }
  assert (V3 : forall i, (k < i < nt)%Z -> s3 (tA i k) = Vt st k i).
  { intros i Li. rewrite Q3 by (intros a b La Lb E; inj; lia). apply V2. exact Li. }
  assert (X4 : forall i, (k < i < nt)%Z -> s4 (tA i k) = Xt st k i).
  { intros i Li. rewrite R1 by exact Li. rewrite K3, LL3, V3 by exact Li. reflexivity. }
  assert (T2 : forall i j, (k < j)%Z -> s2 (tA i j) = st (tA i j)).
  { intros i j Lj. rewrite P2 by (intros a La E; inj; lia). apply O1. intros E; inj; lia. }
  destruct (slv_run k s4 L) as [S1 S2]. { intros i p Ri. unfold lv. rewrite LL4. apply NS. exact Ri. }
  set (st' := trun (g_slv k) s4) in *.
  assert (T5 : forall i j, (k < j)%Z -> st' (tA i j) = s3 (tA i j)).
  { intros i j Lj. rewrite S2 by (intros a La E; inj; lia). apply R2. intros a La E; inj; lia. }
  split; [|split; [|split; [|split]]].
  - rewrite S2 by (intros i Li E; inj; lia). exact K4.
  - intros i p q Li Ri Lq. rewrite <- (X4 i) by (destruct Ri; lia). fold (ov s4 i k p q). rewrite <- (S1 i p q Li Ri Lq). apply fsum_ext. intros j Lj. apply fsum_ext. intros r _.
    rewrite (LT_ext s4 st) by apply LL4. reflexivity.
  - intros i j p q Lij Ri Rj. unfold ov at 1. rewrite T5 by lia. rewrite Q2 by (destruct Ri; lia). rewrite gp_val; [|exact Lij|apply Ri|apply Rj].
    unfold ov, lv. rewrite T2 by lia. rewrite !V2 by (destruct Ri, Rj; lia). rewrite !LL2. reflexivity.
  - intros i p q Li Rp Rq. unfold ov at 1. rewrite T5 by lia. rewrite Q1 by (destruct Rp; lia). rewrite o_her2k_ok; [|exact KO| |apply Rp|apply Rq].
    + rewrite T2 by lia. rewrite !V2 by (destruct Rp; lia). rewrite !LL2. reflexivity.
    + intros a La. rewrite T2 by lia. apply RL; [|exact Li]. split; [apply Rp|exact La].
  - intros x N. rewrite S2 by (intros i Li; apply N; lia). rewrite R2 by (intros i Li; apply N; lia). rewrite Q3 by (intros i j Lj Li; apply N; lia).
    rewrite P2 by (intros i Li; apply N; lia). apply O1. apply N; lia.
Qed.

(** ** The invariant *)
Context (st0 : tstore (mat K)).
Let A0 : mat K := gather t t (fun i j => st0 (A_ i j)).
Let L0 : mat K := gather t t (fun i j => st0 (L_ i j)).
Hypothesis NS : nonsingular NonUnit (tl_size t) L0.
Hypothesis RD : real_diag (tl_size t) A0.
Definition tsum (f : Z -> Z -> F K) : F K := fsum 0 nt (fun a => fsum 0 (sz a) (f a)).
Definition HT (st : tstore (mat K)) (i j : Z) : mat K := herm_tile Lower (ov st) i j.
Definition Chat (k : Z) (st : tstore (mat K)) (a b r s : Z) : F K := if (Z.min a b <? k)%Z then HT st a b r s else 0.
Definition bil (M : Z -> Z -> Z -> Z -> F K) (i j p q : Z) : F K :=
  tsum (fun b s => tsum (fun a r => LT st0 i a p r * M a b r s) * fconj (LT st0 j b q s)).
Record GINV (k : Z) (st : tstore (mat K)) : Prop := {
  g_val : forall i j p q, inr i p -> inr j q -> (j < i \/ j = i /\ q <= p)%Z ->
    ov st0 i j p q = bil (Chat k st) i j p q + (if (j <? k)%Z then 0 else ov st i j p q);
  g_real : forall i p, inr i p -> real (ov st i i p p);
  g_frame : forall x, (forall i j, (0 <= i < nt)%Z -> (0 <= j <= i)%Z -> x <> tA i j) -> st x = st0 x;
  g_out : forall i p q, inr i p -> inr i q -> (p < q)%Z -> ov st i i p q = ov st0 i i p q }.
Lemma tsum_ext : forall f g, (forall a r, inr a r -> f a r = g a r) -> tsum f = tsum g.
Proof. intros f g E. unfold tsum. apply fsum_ext. intros a La. apply fsum_ext. intros r Lr. apply E. split; assumption. Qed.
Lemma tsum_add : forall f g, tsum (fun a r => f a r + g a r) = tsum f + tsum g.
Proof. intros f g. unfold tsum. rewrite <- fsum_add. apply fsum_ext. intros a _. apply fsum_add. Qed.
Lemma tsum_split : forall k f, (0 <= k < nt)%Z -> tsum f = fsum 0 k (fun a => fsum 0 (sz a) (f a)) + (fsum 0 (sz k) (f k) + fsum (k + 1) nt (fun a => fsum 0 (sz a) (f a))).
Proof. intros k f L. unfold tsum. rewrite (fsum_app 0 k nt) by lia. rewrite (fsum_cons k nt) by lia. reflexivity. Qed.
Lemma bil_add : forall M N P i j p q, (forall a b r s, inr a r -> inr b s -> P a b r s = M a b r s + N a b r s) -> bil P i j p q = bil M i j p q + bil N i j p q.
Proof.
  intros M N P i j p q E. unfold bil. rewrite <- tsum_add. apply tsum_ext. intros b s Rb.
  rewrite (tsum_ext (fun a r => LT st0 i a p r * P a b r s) (fun a r => LT st0 i a p r * M a b r s + LT st0 i a p r * N a b r s)) by (intros a r Ra; rewrite E by assumption; ring).
  rewrite tsum_add. ring.
Qed.
Lemma gather_lorm : forall st i j p q, inr i p -> inr j q -> orm u (gather t t (fun i j => st (L_ i j))) (off i + p)%Z (off j + q)%Z = lv st i j p q.
Proof. intros st i j p q [Li Lp] [Lj Lq]. unfold lv, orm, tL, sw, off. destruct u; rewrite gather_at by assumption; reflexivity. Qed.
Lemma gather_aorm : forall st i j p q, inr i p -> inr j q -> orm u (gather t t (fun i j => st (A_ i j))) (off i + p)%Z (off j + q)%Z = ov st i j p q.
Proof. intros st i j p q [Li Lp] [Lj Lq]. unfold ov, orm, tA, tu, sw, off. destruct u; rewrite gather_at by assumption; reflexivity. Qed.
Lemma NS_at : forall i p, inr i p -> lv st0 i i p p <> 0.
Proof.
  intros i p R. rewrite <- gather_lorm by exact R. pose proof (NS (off i + p)%Z (elem_bound t OK i p (proj1 R) (proj2 R))) as N. unfold L0 in N. intros Q. apply N.
  unfold orm in Q. clear - Q. destruct u; [exact Q|]. rewrite <- (fconj_conj K _), Q. apply fconj_0.
Qed.
Lemma RD_at : forall i p, inr i p -> real (ov st0 i i p p).
Proof. intros i p R. rewrite <- gather_aorm by exact R. apply orm_real. apply RD. apply elem_bound; [exact OK|apply R|apply R]. Qed.

Lemma gstep_inv : forall k st, (0 <= k < nt)%Z -> GINV k st -> GINV (k + 1) (trun (g_gstep k) st).
Proof.
  intros k st Lk I0.
  assert (LS : forall a b, st (tL a b) = st0 (tL a b)) by (intros a b; apply (g_frame _ _ I0); intros i j _ _ E; inj).
  assert (LTS : forall a b p q, LT st a b p q = LT st0 a b p q) by (intros; apply LT_ext; apply LS).
  destruct (gstep_run k st Lk) as (E1 & E2 & E3 & E4 & E5).
  { intros i p R. unfold lv. rewrite LS. apply NS_at. exact R. }
  { intros i p R _. apply (g_real _ _ I0). exact R. }
  set (st' := trun (g_gstep k) st) in *.
  assert (NSK : nonsingular NonUnit (sz k) (st (tL k k))).
  { intros p Lp Q. apply (NS_at k p); [split; assumption|]. unfold lv. rewrite <- LS. apply orm_0. exact Q. }
  assert (RDK : real_diag (sz k) (st (tA k k))) by (intros p Lp; apply (orm_real u); apply (g_real _ _ I0); split; assumption).
  pose proof (hegst_ok kn KO u (sz k) _ _ NSK RDK) as HG. change (hegst kn u (sz k) (st (tA k k)) (st (tL k k))) with (Ct st k) in HG. rewrite <- E1 in HG.
  assert (RDK' : real_diag (sz k) (st' (tA k k))) by (apply HG).
  apply hegst_orm in HG; [|exact RDK|exact RDK']. destruct HG as (HG1 & HG2 & HG3). fold (ov st' k k) in HG1, HG2, HG3. fold (ov st k k) in HG1, HG3. fold (lv st k k) in HG1.
  set (HC := herm Lower (ov st' k k)) in *.
  assert (HH : forall r s, (0 <= r < sz k)%Z -> (0 <= s < sz k)%Z -> fconj (HC s r) = HC r s) by (intros r s Lr Ls; exact (herm_herm Lower (sz k) _ HG2 r s Lr Ls)).
  set (G := fun i p s => fsum 0 (sz k) (fun r => lv st i k p r * HC r s)).
  assert (VW : forall i p s, inr i p -> (0 <= s < sz k)%Z -> orm u (Vt st k i) p s = orm u (Wt st k i) p s - fhalf * G i p s).
  { intros i p s Ri Ls. unfold Vt. rewrite o_hemm_ok; [|exact KO|intros a La; rewrite <- E1; apply HG2; exact La|apply Ri|exact Ls]. unfold G, HC, ov. rewrite E1. reflexivity. }
  assert (XV : forall i p s, inr i p -> (0 <= s < sz k)%Z -> orm u (Xt st k i) p s = orm u (Vt st k i) p s - fhalf * G i p s).
  { intros i p s Ri Ls. unfold Xt. rewrite o_hemm_ok; [|exact KO|intros a La; rewrite <- E1; apply HG2; exact La|apply Ri|exact Ls]. unfold G, HC, ov. rewrite E1. reflexivity. }
  assert (WS : forall i p q, inr i p -> (0 <= q < sz k)%Z -> fsum 0 (sz k) (fun r => orm u (Wt st k i) p r * fconj (LT st0 k k q r)) = ov st i k p q).
  { intros i p q Ri Lq. rewrite (fsum_ext 0 (sz k) _ (fun r => orm u (Wt st k i) p r * fconj (trim Lower NonUnit (orm u (st (tL k k))) q r))).
    - unfold Wt. rewrite o_trsm_ok; [reflexivity|exact KO| |apply Ri|exact Lq]. intros a La. rewrite LS. apply (NS_at k a). split; assumption.
    - intros r _. rewrite <- LTS, LT_diag. reflexivity. }
  (* the change of the computed part *)
  set (Zs := fun i p s => fsum (k + 1) nt (fun a => fsum 0 (sz a) (fun r => LT st0 i a p r * ov st' a k r s))).
  assert (ZX : forall i p s, (k < i)%Z -> inr i p -> (0 <= s < sz k)%Z -> Zs i p s = orm u (Xt st k i) p s).
  { intros i p s Li Ri Ls. rewrite <- (E2 i p s Li Ri Ls). apply fsum_ext. intros a _. apply fsum_ext. intros r _. rewrite LTS. reflexivity. }
  assert (Z0 : forall i p s, (i <= k)%Z -> Zs i p s = 0).
  { intros i p s Li. apply fsum_0. intros a La. apply fsum_0. intros r _. rewrite LT_up by lia. ring. }
  set (D := fun a b r s => (if (b =? k)%Z then (if (a =? k)%Z then HC r s else if (k <? a)%Z then ov st' a k r s else 0) else if (k <? b)%Z then (if (a =? k)%Z then fconj (ov st' b k s r) else 0) else 0) : F K).
  assert (CH : forall a b r s, inr a r -> inr b s -> Chat (k + 1) st' a b r s = Chat k st a b r s + D a b r s).
  { intros a b r s Ra Rb. unfold Chat, D.
    assert (OLD : (Z.min a b < k)%Z -> HT st' a b r s = HT st a b r s).
    { intros Q. assert (T : forall i j, (j < k)%Z -> st' (tA i j) = st (tA i j)) by (intros i j Lj; apply E5; intros i' j' Lj' _ E; inj; lia).
      unfold HT, herm_tile, opm. destruct (Z.eqb_spec a b) as [->|N].
      - unfold herm, ov. rewrite T by lia. reflexivity.
      - cbn [in_tri]. destruct (Z.leb_spec b a); unfold ov; rewrite T by lia; reflexivity. }
    destruct (Z.ltb_spec (Z.min a b) (k + 1)) as [C|C], (Z.ltb_spec (Z.min a b) k) as [C'|C']; try lia.
    - rewrite OLD by exact C'. destruct (Z.eqb_spec b k) as [->|Nb].
      + destruct (Z.eqb_spec a k) as [->|Na]; [lia|]. destruct (Z.ltb_spec k a); [lia|]. ring.
      + destruct (Z.ltb_spec k b); [|ring]. destruct (Z.eqb_spec a k); [lia|ring].
    - unfold HT, herm_tile, opm. destruct (Z.eqb_spec b k) as [->|Nb].
      + destruct (Z.eqb_spec a k) as [->|Na]; [fold HC; ring|]. destruct (Z.ltb_spec k a); [|lia]. cbn [in_tri]. destruct (Z.leb_spec k a); [ring|lia].
      + destruct (Z.ltb_spec k b); [|lia]. destruct (Z.eqb_spec a k) as [->|Na]; [|lia]. destruct (Z.eqb_spec k b); [lia|]. cbn [in_tri]. destruct (Z.leb_spec b k); [lia|ring].
    - destruct (Z.eqb_spec b k) as [->|Nb]; [lia|]. destruct (Z.ltb_spec k b); [|ring]. destruct (Z.eqb_spec a k); [lia|ring]. }
  assert (DV : forall i j p q, inr i p -> inr j q -> bil D i j p q =
    fsum 0 (sz k) (fun s => (fsum 0 (sz k) (fun r => LT st0 i k p r * HC r s) + Zs i p s) * fconj (LT st0 j k q s)) +
    fsum 0 (sz k) (fun r => LT st0 i k p r * fconj (Zs j q r))).
  { intros i j p q Ri Rj. unfold bil. rewrite (tsum_split k) by exact Lk.
    rewrite fsum_0. 2:{ intros b Lb. apply fsum_0. intros s _. assert (T0 : tsum (fun a r => LT st0 i a p r * D a b r s) = 0).
      { apply fsum_0. intros a _. apply fsum_0. intros r _. unfold D. destruct (Z.eqb_spec b k); [lia|]. destruct (Z.ltb_spec k b); [lia|]. ring. }
      rewrite T0. ring. }
    assert (B1 : fsum 0 (sz k) (fun s => tsum (fun a r => LT st0 i a p r * D a k r s) * fconj (LT st0 j k q s)) =
       fsum 0 (sz k) (fun s => (fsum 0 (sz k) (fun r => LT st0 i k p r * HC r s) + Zs i p s) * fconj (LT st0 j k q s))).
    { apply fsum_ext. intros s _. f_equal. rewrite (tsum_split k) by exact Lk. rewrite fsum_0.
      2:{ intros a La. apply fsum_0. intros r _. unfold D. rewrite Z.eqb_refl. destruct (Z.eqb_spec a k); [lia|]. destruct (Z.ltb_spec k a); [lia|]. ring. }
      assert (T1 : fsum 0 (sz k) (fun r => LT st0 i k p r * D k k r s) = fsum 0 (sz k) (fun r => LT st0 i k p r * HC r s)).
      { apply fsum_ext. intros r _. unfold D. rewrite Z.eqb_refl. reflexivity. }
      assert (T2 : fsum (k + 1) nt (fun a => fsum 0 (sz a) (fun r => LT st0 i a p r * D a k r s)) = Zs i p s).
      { apply fsum_ext. intros a La. apply fsum_ext. intros r _. unfold D. rewrite Z.eqb_refl. destruct (Z.eqb_spec a k); [lia|]. destruct (Z.ltb_spec k a); [reflexivity|lia]. }
      rewrite T1, T2. ring. }
    assert (B2 : fsum (k + 1) nt (fun b => fsum 0 (sz b) (fun s => tsum (fun a r => LT st0 i a p r * D a b r s) * fconj (LT st0 j b q s))) =
       fsum 0 (sz k) (fun r => LT st0 i k p r * fconj (Zs j q r))).
    { transitivity (fsum (k + 1) nt (fun b => fsum 0 (sz k) (fun r => fsum 0 (sz b) (fun s => LT st0 i k p r * fconj (LT st0 j b q s * ov st' b k s r))))).
      - apply fsum_ext. intros b Lb. rewrite fsum_swap. apply fsum_ext. intros s _. rewrite (tsum_split k) by exact Lk.
        rewrite fsum_0. 2:{ intros a La. apply fsum_0. intros r _. unfold D. destruct (Z.eqb_spec b k); [lia|]. destruct (Z.eqb_spec a k); [lia|]. destruct (k <? b)%Z; ring. }
        rewrite (fsum_0 (k + 1) nt). 2:{ intros a La. apply fsum_0. intros r _. unfold D. destruct (Z.eqb_spec b k); [lia|]. destruct (Z.eqb_spec a k); [lia|]. destruct (k <? b)%Z; ring. }
        transitivity (fsum 0 (sz k) (fun r => LT st0 i k p r * D k b r s) * fconj (LT st0 j b q s)); [ring|]. rewrite <- fsum_mul_r. apply fsum_ext. intros r _.
        unfold D. destruct (Z.eqb_spec b k); [lia|]. destruct (Z.ltb_spec k b); [|lia]. rewrite Z.eqb_refl, fconj_mul. ring.
      - rewrite fsum_swap. apply fsum_ext. intros r _. unfold Zs. rewrite fsum_conj, <- fsum_mul_l. apply fsum_ext. intros b _. rewrite fsum_conj, <- fsum_mul_l. reflexivity. }
    rewrite B1, B2. ring. }
  split.
  - intros i j p q Ri Rj LW. rewrite (g_val _ _ I0 i j p q Ri Rj LW). rewrite (bil_add (Chat k st) D (Chat (k + 1) st')) by exact CH. rewrite DV by assumption.
    set (B := bil (Chat k st) i j p q). clearbody B.
    destruct (Z.ltb_spec j k) as [C|C], (Z.ltb_spec j (k + 1)) as [C'|C']; try lia.
    + rewrite !fsum_0; [ring| |].
      * intros r _. rewrite Z0, fconj_0 by lia. ring.
      * intros s _. rewrite (LT_up st0 j k), fconj_0 by lia. ring.
    + assert (j = k) as -> by lia. rewrite (fsum_0 0 (sz k) (fun r => LT st0 i k p r * fconj (Zs k q r))) by (intros r _; rewrite Z0, fconj_0 by lia; ring).
      destruct (Z.eq_dec i k) as [->|Ni].
      * assert (QP : (q <= p)%Z) by lia.
        pose proof (HG1 p q (proj2 Ri) (proj2 Rj)) as HG. unfold herm in HG at 1. cbn [in_tri] in HG. rewrite (proj2 (Z.leb_le q p) QP) in HG.
        assert (T : fsum 0 (sz k) (fun s => (fsum 0 (sz k) (fun r => LT st0 k k p r * HC r s) + Zs k p s) * fconj (LT st0 k k q s)) = ov st k k p q).
        { rewrite <- HG. unfold mmul at 1. apply fsum_ext. intros s _. rewrite Z0 by lia. unfold mmul, opm.
          rewrite <- (LTS k k q s), LT_diag. rewrite (fsum_ext 0 (sz k) (fun r => LT st0 k k p r * HC r s) (fun r => trim Lower NonUnit (lv st k k) p r * HC r s)) by (intros r _; rewrite <- LTS, LT_diag; reflexivity). ring. }
        rewrite T. ring.
      * assert (T : fsum 0 (sz k) (fun s => (fsum 0 (sz k) (fun r => LT st0 i k p r * HC r s) + Zs i p s) * fconj (LT st0 k k q s)) = ov st i k p q).
        { rewrite <- (WS i p q Ri (proj2 Rj)). apply fsum_ext. intros s Ls. f_equal. rewrite ZX, XV, VW by (try assumption; lia).
          rewrite (fsum_ext 0 (sz k) (fun r => LT st0 i k p r * HC r s) (fun r => lv st i k p r * HC r s)) by (intros r _; rewrite <- LTS, LT_low by lia; reflexivity).
          change (fsum 0 (sz k) (fun r => lv st i k p r * HC r s)) with (G i p s). transitivity (orm u (Wt st k i) p s + G i p s * (1 - (fhalf + fhalf))); [ring|]. rewrite fhalf_2. ring. }
        rewrite T. ring.
    + assert (T : fsum 0 (sz k) (fun s => (fsum 0 (sz k) (fun r => LT st0 i k p r * HC r s) + Zs i p s) * fconj (LT st0 j k q s)) + fsum 0 (sz k) (fun r => LT st0 i k p r * fconj (Zs j q r)) =
        fsum 0 (sz k) (fun r => orm u (Vt st k i) p r * fconj (lv st j k q r)) + fsum 0 (sz k) (fun r => lv st i k p r * fconj (orm u (Vt st k j) q r))).
      { assert (GG : fsum 0 (sz k) (fun s => G i p s * fconj (lv st j k q s)) = fsum 0 (sz k) (fun r => lv st i k p r * fconj (G j q r))).
        { unfold G. transitivity (fsum 0 (sz k) (fun s => fsum 0 (sz k) (fun r => lv st i k p r * HC r s * fconj (lv st j k q s)))).
          { apply fsum_ext. intros s _. rewrite fsum_mul_r. reflexivity. }
          rewrite fsum_swap. apply fsum_ext. intros r Lr. rewrite fsum_conj, <- fsum_mul_l. apply fsum_ext. intros s Ls. rewrite fconj_mul, HH by assumption. ring. }
        rewrite (fsum_ext 0 (sz k) (fun s => (fsum 0 (sz k) (fun r => LT st0 i k p r * HC r s) + Zs i p s) * fconj (LT st0 j k q s))
           (fun s => orm u (Vt st k i) p s * fconj (lv st j k q s) + fhalf * (G i p s * fconj (lv st j k q s)))).
        2:{ intros s Ls. rewrite ZX, XV by (try assumption; lia).
          rewrite (fsum_ext 0 (sz k) (fun r => LT st0 i k p r * HC r s) (fun r => lv st i k p r * HC r s)) by (intros r _; rewrite <- LTS, LT_low by lia; reflexivity).
          change (fsum 0 (sz k) (fun r => lv st i k p r * HC r s)) with (G i p s). rewrite <- LTS, LT_low by lia.
          transitivity (orm u (Vt st k i) p s * fconj (lv st j k q s) + ((fhalf + fhalf) - fhalf) * (G i p s * fconj (lv st j k q s))); [rewrite fhalf_2|]; ring. }
        rewrite (fsum_ext 0 (sz k) (fun r => LT st0 i k p r * fconj (Zs j q r)) (fun r => lv st i k p r * fconj (orm u (Vt st k j) q r) - fhalf * (lv st i k p r * fconj (G j q r)))).
        2:{ intros r Lr. rewrite ZX, XV by (try assumption; lia). rewrite <- LTS, LT_low by lia. rewrite fconj_sub, fconj_mul, real_half. ring. }
        rewrite fsum_add, fsum_sub, !fsum_mul_l, GG. ring. }
      rewrite T. destruct LW as [LW|[<- LW]].
      * rewrite (E3 i j p q) by (try assumption; lia). ring.
      * rewrite (E4 j p q) by (try assumption; lia). rewrite (proj2 (Z.leb_le q p) LW). ring.
  - intros i p Ri. destruct (Z.lt_total i k) as [C|[->|C]].
    + unfold ov. rewrite E5 by (intros a b Lb _ E; inj; lia). apply (g_real _ _ I0). exact Ri.
    + apply HG2. apply Ri.
    + unfold real. rewrite (E4 i p p C Ri Ri), Z.leb_refl. rewrite !fconj_sub, !fsum_conj. rewrite (g_real _ _ I0 i p Ri).
      rewrite (fsum_ext 0 (sz k) (fun r => fconj (orm u (Vt st k i) p r * fconj (lv st i k p r))) (fun r => lv st i k p r * fconj (orm u (Vt st k i) p r))) by (intros r _; rewrite fconj_mul, fconj_conj; ring).
      rewrite (fsum_ext 0 (sz k) (fun r => fconj (lv st i k p r * fconj (orm u (Vt st k i) p r))) (fun r => orm u (Vt st k i) p r * fconj (lv st i k p r))) by (intros r _; rewrite fconj_mul, fconj_conj; ring).
      ring.
  - intros x N. rewrite E5; [apply (g_frame _ _ I0); exact N|]. intros i j Lj Li. apply N; lia.
  - intros i p q Rp Rq Q. rewrite <- (g_out _ _ I0 i p q Rp Rq Q). destruct (Z.lt_total i k) as [C|[->|C]].
    + unfold ov. rewrite E5 by (intros a b Lb _ E; inj; lia). reflexivity.
    + apply (HG3 p q (proj2 Rp) (proj2 Rq)). cbn. apply Z.leb_gt. exact Q.
    + rewrite (E4 i p q) by (try assumption; lia). rewrite (proj2 (Z.leb_gt q p) Q). reflexivity.
Qed.
Theorem g2s_run : GINV nt (trun (gen_to_std kn t u) st0).
Proof.
  rewrite g2s_generic. pose proof (proj1 OK) as Ln. fold nt in Ln.
  apply (for_up_inv 0 nt g_gstep GINV); [lia| |].
  - split; try reflexivity.
    + intros i j p q Ri Rj _. destruct (Z.ltb_spec j 0) as [C|_]; [destruct Rj; lia|].
      assert (B0 : bil (Chat 0 st0) i j p q = 0); [|rewrite B0; ring]. unfold bil. apply fsum_0. intros b Lb. apply fsum_0. intros s _.
      assert (T0 : tsum (fun a r => LT st0 i a p r * Chat 0 st0 a b r s) = 0); [|rewrite T0; ring].
      apply fsum_0. intros a La. apply fsum_0. intros r _. unfold Chat. destruct (Z.ltb_spec (Z.min a b) 0); [lia|ring].
    + intros i p Ri. apply RD_at. exact Ri.
  - intros k st L I0. apply gstep_inv; [lia|exact I0].
Qed.
Lemma final_hegst : forall st, GINV nt st -> is_hegst u (tl_size t) A0 L0 (gather t t (fun i j => st (A_ i j))).
Proof.
  intros st I0. set (A1 := gather t t (fun i j => st (A_ i j))).
  assert (RD1 : real_diag (tl_size t) A1).
  { intros a La. destruct (elem_split t OK a La) as (i & p & Li & Lp & ->). apply (orm_real u). unfold A1. fold off. rewrite gather_aorm by (split; assumption). apply (g_real _ _ I0). split; assumption. }
  apply hegst_orm; [exact RD|exact RD1|]. apply is_hegst_alt.
  assert (RO : real_diag (tl_size t) (orm u A1)) by (intros i Li; apply orm_real; apply RD1; exact Li).
  assert (RO0 : real_diag (tl_size t) (orm u A0)) by (intros i Li; apply orm_real; apply RD; exact Li).
  set (M := hl Lower (orm u L0)). set (H := herm Lower (orm u A1)).
  assert (BL : forall i j p q, inr i p -> inr j q -> mmul (tl_size t) (mmul (tl_size t) M H) (opm ConjTrans M) (off i + p)%Z (off j + q)%Z = bil (Chat nt st) i j p q).
  { intros i j p q Ri Rj. assert (ME : forall a b r s, inr a r -> inr b s -> M (off a + r)%Z (off b + s)%Z = LT st0 a b r s).
    { intros a b r s [La Lr] [Lb Ls]. unfold M, hl, LT. rewrite <- (trim_tiles t Lower NonUnit (lv st0) a b r s OK La Lb Lr Ls). fold off. unfold trim. unfold off at 5 6.
      rewrite gather_at by assumption. unfold L0. rewrite gather_lorm by (split; assumption). reflexivity. }
    assert (HE : forall a b r s, inr a r -> inr b s -> H (off a + r)%Z (off b + s)%Z = HT st a b r s).
    { intros a b r s [La Lr] [Lb Ls]. unfold H, HT. rewrite <- (herm_tiles t Lower (ov st) a b r s OK La Lb Lr Ls). fold off. unfold herm. unfold off at 5 6 7 8.
      rewrite !gather_at by assumption. unfold A1. rewrite !gather_aorm by (split; assumption). reflexivity. }
    unfold mmul at 1. rewrite fsum_tiles by exact OK. unfold bil, tsum. apply fsum_ext. intros b Lb. apply fsum_ext. intros s Ls. unfold opm. fold off. rewrite ME by (try assumption; split; assumption).
    f_equal. unfold mmul. rewrite fsum_tiles by exact OK. apply fsum_ext. intros a La. apply fsum_ext. intros r Lr. fold off. rewrite ME, HE by (try assumption; split; assumption).
    unfold Chat. destruct (Z.ltb_spec (Z.min a b) nt); [reflexivity|fold nt in La, Lb; lia]. }
  assert (LOW : forall a b, (0 <= a < tl_size t)%Z -> (0 <= b < tl_size t)%Z -> (b <= a)%Z -> mmul (tl_size t) (mmul (tl_size t) M H) (opm ConjTrans M) a b = orm u A0 a b).
  { intros a b La Lb Q. apply Z.leb_le in Q. change (in_tri Lower a b = true) in Q.
    destruct (elem_split t OK a La) as (i & p & Li & Lp & ->). destruct (elem_split t OK b Lb) as (j & q & Lj & Lq & ->).
    rewrite in_tri_tiles in Q by assumption. fold off. rewrite BL by (split; assumption). unfold A0. rewrite gather_aorm by (split; assumption).
    rewrite (g_val _ _ I0 i j p q); [|split; assumption|split; assumption|destruct (Z.eqb_spec i j); cbn in Q; lia].
    destruct (Z.ltb_spec j nt); [ring|fold nt in Lj; lia]. }
  split; [|split].
  - intros a b La Lb. unfold herm at 1. cbn [in_tri]. destruct (Z.leb_spec b a) as [Q|Q]; [apply LOW; assumption|].
    rewrite <- (LOW b a Lb La) by lia.
    transitivity (opm ConjTrans (mmul (tl_size t) (mmul (tl_size t) M H) (opm ConjTrans M)) a b); [|reflexivity].
    rewrite opm_mmul, mmul_assoc. apply (mmul_meq (tl_size t) (tl_size t) (tl_size t)); try assumption.
    + intros x y _ _. rewrite opm_invol. reflexivity.
    + intros x y Lx Ly. rewrite opm_mmul. apply (mmul_meq (tl_size t) (tl_size t) (tl_size t)); try assumption; [|intros z w _ _; reflexivity].
      intros z w Lz Lw. symmetry. apply (herm_herm Lower _ _ RO); assumption.
  - exact RO.
  - intros a b La Lb Q. destruct (elem_split t OK a La) as (i & p & Li & Lp & ->). destruct (elem_split t OK b Lb) as (j & q & Lj & Lq & ->).
    rewrite in_tri_tiles in Q by assumption. unfold A1, A0. fold off. rewrite !gather_aorm by (split; assumption).
    destruct (Z.eqb_spec i j) as [->|N]; cbn in Q; apply Z.leb_gt in Q.
    + apply (g_out _ _ I0); [split; assumption|split; assumption|lia].
    + unfold ov. rewrite (g_frame _ _ I0); [reflexivity|]. intros a b La' Lb' E. inj. lia.
Qed.
End g2s.
