(** * C30 (general and Hermitian multiplication, local) *)
From Coq Require Import ZArith Lia List Bool QArith Qcanon.
From Verif Require Import Loop StarField DenseSpec Tiling DenseJobs TileJobs BlockJobs RefKernels TriangularProofs MultModel.
Import ListNotations.
Local Open Scope Z_scope.

(** ** Accumulation into one tile *)
Section acc.
Context {K : starfield}.
Local Open Scope sf_scope.
Add Ring KringA : (fring K).
(** jobs js all update x, each adding its contribution, the first one after scaling by be *)
Lemma acc_run : forall (js : list Z) (job : Z -> tjob (mat K)) (x : tid) (m n : Z) (be : F K) (first : Z) (t : Z -> mat K) (st0 : tstore (mat K)),
  NoDup js -> (exists l, js = first :: l) ->
  (forall l, In l js -> tj_out (job l) = x /\ ~ In x (tj_in (job l))) ->
  (forall l st p q, In l js -> (forall y, y <> x -> st y = st0 y) -> (0 <= p < m)%Z -> (0 <= q < n)%Z ->
     tval (job l) st p q = t l p q + (if (l =? first)%Z then be else 1) * st x p q) ->
  forall p q, (0 <= p < m)%Z -> (0 <= q < n)%Z ->
    trun (flat_map (fun l => [job l]) js) st0 x p q = lsum js (fun l => t l p q) + be * st0 x p q.
Proof.
  intros js job x m n be first t st0 ND (tl & EJ) OUT VAL.
  set (I := fun l st => (forall y, y <> x -> st y = st0 y) /\ forall p q, (0 <= p < m)%Z -> (0 <= q < n)%Z ->
    st x p q = lsum l (fun l => t l p q) + (match l with [] => 1 | _ => be end) * st0 x p q).
  assert (G : I js (trun (flat_map (fun l => [job l]) js) st0)).
  { apply (run_list_inv (fun l => [job l]) js I); unfold I.
    - split; [reflexivity|]. intros p q _ _. cbn. ring.
    - intros l1 k l2 st E [I1 I2]. change (trun [job k] st) with (texec st (job k)).
      assert (Ik : In k js) by (rewrite E; apply in_or_app; right; left; reflexivity).
      destruct (OUT k Ik) as [O1 O2]. split.
      + intros y N. unfold texec. rewrite tset_neq by congruence. apply I1. exact N.
      + intros p q Lp Lq. unfold texec. rewrite O1, tset_eq. rewrite (VAL k st p q Ik I1 Lp Lq), (I2 p q Lp Lq), lsum_app. cbn [lsum fold_right].
        destruct l1 as [|a l1].
        * cbn [app]. rewrite E in EJ. injection EJ as <- _. rewrite Z.eqb_refl. cbn [lsum fold_right]. ring.
        * cbn [app]. destruct (Z.eqb_spec k first) as [->|_]; [|ring].
          exfalso. rewrite E in EJ. injection EJ as -> _. rewrite E in ND. inversion ND as [|? ? Q _]; subst. apply Q. apply in_or_app. right. left. reflexivity. }
  destruct G as [_ G]. intros p q Lp Lq. rewrite (G p q Lp Lq). rewrite EJ. reflexivity.
Qed.
End acc.

Section general.
Context {K : starfield} (kn : kernels K) (KO : kernels_ok kn) (tr tc tk : tiling) (OKr : tiling_ok tr) (OKc : tiling_ok tc) (OKk : tiling_ok tk).
Context (al be : F K).
Local Open Scope sf_scope.
Add Ring KringM : (fring K).
(** The matrix with the given tilings whose tiles are those of matrix number m in the memory *)
Definition matrix_in (ta tb : tiling) (m : Z) (st : tstore (mat K)) : mat K := gather ta tb (fun i j => st (Tid 0 m i j)).

Lemma MC_inj : forall a b, MC (snd a) (fst a) = MC (snd b) (fst b) -> a = b.
Proof. intros [a b] [c d] E. unfold MC in E. cbn in E. congruence. Qed.
Lemma in_pr : forall a b, In (a, b) (pairs (zrange 0 (tl_n tc)) (zrange 0 (tl_n tr))) <-> (0 <= a < tl_n tc)%Z /\ (0 <= b < tl_n tr)%Z.
Proof. intros a b. rewrite in_pairs, !in_zrange. reflexivity. Qed.
Lemma nd_pr : NoDup (pairs (zrange 0 (tl_n tc)) (zrange 0 (tl_n tr))).
Proof. apply nodup_pairs; apply zrange_NoDup. Qed.
Lemma product_tile : forall (st : tstore (mat K)) i j p q, (0 <= i < tl_n tr)%Z -> (0 <= j < tl_n tc)%Z -> (0 <= p < tl_sz tr i)%Z -> (0 <= q < tl_sz tc j)%Z ->
  mmul (tl_size tk) (matrix_in tr tk 0 st) (matrix_in tk tc 1 st) (tl_off tr i + p)%Z (tl_off tc j + q)%Z =
  lsum (zrange 0 (tl_n tk)) (fun k => mmul (tl_sz tk k) (st (MA i k)) (st (MB k j)) p q).
Proof.
  intros st i j p q Li Lj Lp Lq. rewrite lsum_fsum. unfold mmul. rewrite fsum_tiles by exact OKk. apply fsum_ext. intros k Lk. apply fsum_ext. intros r Lr.
  unfold matrix_in. rewrite !gather_at by assumption. reflexivity.
Qed.
Lemma general_seq : forall st0 st, (forall x, st x = trun (general_NN kn tr tc tk al be) st0 x) ->
  is_gemm NoTrans NoTrans (tl_size tr) (tl_size tc) (tl_size tk) al (matrix_in tr tk 0 st0) (matrix_in tk tc 1 st0) be (matrix_in tr tc 2 st0) (matrix_in tr tc 2 st) /\
  forall x, (forall i j, (0 <= i < tl_n tr)%Z -> (0 <= j < tl_n tc)%Z -> x <> MC i j) -> st x = st0 x.
Proof.
  intros st0 st E.
  assert (C : (forall i j p q, (0 <= i < tl_n tr)%Z -> (0 <= j < tl_n tc)%Z -> (0 <= p < tl_sz tr i)%Z -> (0 <= q < tl_sz tc j)%Z ->
      st (MC i j) p q = al * lsum (zrange 0 (tl_n tk)) (fun k => mmul (tl_sz tk k) (st0 (MA i k)) (st0 (MB k j)) p q) + be * st0 (MC i j) p q) /\
    forall x, (forall i j, (0 <= i < tl_n tr)%Z -> (0 <= j < tl_n tc)%Z -> x <> MC i j) -> st x = st0 x).
  { unfold general_NN in E. destruct (Z.eqb_spec (tl_n tk) 0) as [Z0|NZ].
    - rewrite Z0. rewrite zrange_nil by lia. cbn [lsum fold_right]. destruct (feq_dec K be 1) as [->|NB].
      + split; [|intros x _; apply E]. intros i j p q _ _ _ _. rewrite E. cbn [trun fold_left]. ring.
      + unfold for_up in E. rewrite (flat_pairs (fun j i => [jscal be (MC i j)])) in E.
        destruct (run_blocks (fun ab => [jscal be (MC (snd ab) (fst ab))]) (fun ab => MC (snd ab) (fst ab)) (pairs (zrange 0 (tl_n tc)) (zrange 0 (tl_n tr))) st0 nd_pr) as [R1 R2].
        * intros a b _ _. apply MC_inj.
        * intros k j _ [<-|[]]. split; [reflexivity|intros x []].
        * split.
          { intros i j p q Li Lj Lp Lq. rewrite E. pose proof (R1 (j, i) (proj2 (in_pr j i) (conj Lj Li))) as RR; cbn [fst snd] in RR; rewrite RR; clear RR. change (trun [jscal be (MC i j)] st0) with (texec st0 (jscal be (MC i j))).
            unfold texec. cbn [jscal tj_out]. rewrite tset_eq. unfold tval. cbn [jscal tj_out tj_fun tj_in]. ring. }
          { intros x N. rewrite E. apply R2. intros [a b] I0. apply in_pr in I0. apply N; tauto. }
    - assert (P : (0 < tl_n tk)%Z) by (destruct OKk; lia).
      set (body := fun j i => flat_map (fun k => [jgemm kn NoTrans NoTrans (tl_sz tr i) (tl_sz tc j) (tl_sz tk k) al (MA i k) (MB k j) (if (k =? 0)%Z then be else f1) (MC i j)]) (zrange 0 (tl_n tk))).
      assert (E' : forall x, st x = trun (flat_map (fun j => flat_map (fun i => body j i) (zrange 0 (tl_n tr))) (zrange 0 (tl_n tc))) st0 x) by exact E.
      rewrite (flat_pairs body) in E'.
      destruct (run_blocks (fun ab => body (fst ab) (snd ab)) (fun ab => MC (snd ab) (fst ab)) (pairs (zrange 0 (tl_n tc)) (zrange 0 (tl_n tr))) st0 nd_pr) as [R1 R2].
      + intros a b _ _. apply MC_inj.
      + intros [j i] t _ It. cbn [fst snd] in *. unfold body in It. apply in_flat_map in It as (k & _ & [<-|[]]). split; [reflexivity|].
        intros x [<-|[<-|[]]] k' _; unfold MA, MB, MC; discriminate.
      + split.
        * intros i j p q Li Lj Lp Lq. rewrite E'. pose proof (R1 (j, i) (proj2 (in_pr j i) (conj Lj Li))) as RR; cbn [fst snd] in RR; rewrite RR; clear RR. unfold body.
          rewrite (acc_run (zrange 0 (tl_n tk)) (fun k => jgemm kn NoTrans NoTrans (tl_sz tr i) (tl_sz tc j) (tl_sz tk k) al (MA i k) (MB k j) (if (k =? 0)%Z then be else f1) (MC i j))
            (MC i j) (tl_sz tr i) (tl_sz tc j) be 0 (fun k p q => al * mmul (tl_sz tk k) (st0 (MA i k)) (st0 (MB k j)) p q)).
          { f_equal. generalize (zrange 0 (tl_n tk)). induction l as [|a l IH]; cbn [lsum fold_right]; [ring|]. fold (lsum l (fun k => al * mmul (tl_sz tk k) (st0 (MA i k)) (st0 (MB k j)) p q)). rewrite IH. unfold lsum. ring. }
          { apply zrange_NoDup. }
          { rewrite zrange_cons by lia. eauto. }
          { intros l _. split; [reflexivity|]. cbn. unfold MA, MB, MC. intros [Q|[Q|[]]]; discriminate. }
          { intros l st1 p' q' _ EO Lp' Lq'.
            change (tval (jgemm kn NoTrans NoTrans (tl_sz tr i) (tl_sz tc j) (tl_sz tk l) al (MA i l) (MB l j) (if (l =? 0)%Z then be else 1) (MC i j)) st1)
              with (gemm kn NoTrans NoTrans (tl_sz tr i) (tl_sz tc j) (tl_sz tk l) al (st1 (MA i l)) (st1 (MB l j)) (if (l =? 0)%Z then be else 1) (st1 (MC i j))).
            rewrite (gemm_ok kn KO NoTrans NoTrans (tl_sz tr i) (tl_sz tc j) (tl_sz tk l) al (st1 (MA i l)) (st1 (MB l j)) (if (l =? 0)%Z then be else 1) (st1 (MC i j)) p' q' Lp' Lq').
            rewrite !EO by (unfold MA, MB, MC; discriminate). reflexivity. }
          { exact Lp. } { exact Lq. }
        * intros x N. rewrite E'. apply R2. intros [a b] I0. apply in_pr in I0. apply N; tauto. }
  destruct C as [C1 C2]. split; [|exact C2].
  apply meq_tiles; [exact OKr|exact OKc|]. intros i j p q Li Lj Lp Lq. unfold opm.
  rewrite product_tile by assumption. unfold matrix_in. rewrite !gather_at by assumption. apply C1; assumption.
Qed.
Lemma general_jobs_ok : Forall tjob_ok (general_NN kn tr tc tk al be).
Proof.
  apply Forall_forall. unfold general_NN. intros t. destruct (tl_n tk =? 0)%Z; [destruct (feq_dec K be 1); [intros []|]|]; intros I0.
  - apply in_for_up in I0 as (j & _ & I0). apply in_for_up in I0 as (i & _ & [<-|[]]). intros [].
  - apply in_for_up in I0 as (j & _ & I0). apply in_for_up in I0 as (i & _ & I0). apply in_for_up in I0 as (k & _ & [<-|[]]).
    unfold tjob_ok. cbn. unfold MA, MB, MC. intros [Q|[Q|[]]]; discriminate.
Qed.

(** Hermitian: the tiles of the Hermitian matrix A stored in the lower tiles *)
Lemma hermitian_seq : forall st0 st, real_diag (tl_size tr) (matrix_in tr tr 0 st0) -> (forall x, st x = trun (hermitian_LL kn tr tc al be) st0 x) ->
  is_hemm Left Lower (tl_size tr) (tl_size tc) al (matrix_in tr tr 0 st0) (matrix_in tr tc 1 st0) be (matrix_in tr tc 2 st0) (matrix_in tr tc 2 st) /\
  forall x, (forall i j, (0 <= i < tl_n tr)%Z -> (0 <= j < tl_n tc)%Z -> x <> MC i j) -> st x = st0 x.
Proof.
  intros st0 st RD E.
  assert (RDT : forall i, (0 <= i < tl_n tr)%Z -> real_diag (tl_sz tr i) (st0 (MA i i))).
  { intros i Li p Lp. specialize (RD (tl_off tr i + p)%Z (elem_bound tr OKr i p Li Lp)). unfold matrix_in in RD. rewrite gather_at in RD by assumption. exact RD. }
  set (job := fun i j l => if (l <? i)%Z then jgemm kn NoTrans NoTrans (tl_sz tr i) (tl_sz tc j) (tl_sz tr l) al (MA i l) (MB l j) (if (l =? 0)%Z then be else f1) (MC i j)
    else if (l =? i)%Z then jhemm kn Left Lower (tl_sz tr i) (tl_sz tc j) al (MA i i) (MB i j) (if (i =? 0)%Z then be else f1) (MC i j)
    else jgemm kn ConjTrans NoTrans (tl_sz tr i) (tl_sz tc j) (tl_sz tr l) al (MA l i) (MB l j) f1 (MC i j)).
  set (body := fun j i => flat_map (fun l => [job i j l]) (zrange 0 (tl_n tr))).
  assert (EQ : hermitian_LL kn tr tc al be = flat_map (fun j => flat_map (fun i => body j i) (zrange 0 (tl_n tr))) (zrange 0 (tl_n tc))).
  { unfold hermitian_LL, for_up. rewrite !flat_map_concat_map. f_equal. apply map_ext. intros j. rewrite !flat_map_concat_map. f_equal. apply map_ext_in. intros i Ii. apply in_zrange in Ii.
    unfold body. rewrite (zrange_app 0 i (tl_n tr)) by lia. rewrite (zrange_cons i) by lia. rewrite flat_map_app. cbn [flat_map app]. f_equal; [|f_equal].
    - rewrite !flat_map_concat_map. f_equal. apply map_ext_in. intros l Il. apply in_zrange in Il. unfold job. destruct (Z.ltb_spec l i); [reflexivity|lia].
    - unfold job. destruct (Z.ltb_spec i i); [lia|]. rewrite Z.eqb_refl. reflexivity.
    - rewrite !flat_map_concat_map. f_equal. apply map_ext_in. intros l Il. apply in_zrange in Il. unfold job. destruct (Z.ltb_spec l i); [lia|]. destruct (Z.eqb_spec l i); [lia|reflexivity]. }
  rewrite EQ, (flat_pairs body) in E. clear EQ.
  destruct (run_blocks (fun ab => body (fst ab) (snd ab)) (fun ab => MC (snd ab) (fst ab)) (pairs (zrange 0 (tl_n tc)) (zrange 0 (tl_n tr))) st0 nd_pr) as [R1 R2].
  { intros a b _ _. apply MC_inj. }
  { intros [j i] t _ It. cbn [fst snd] in *. unfold body in It. apply in_flat_map in It as (k & _ & [<-|[]]). unfold job.
    destruct (k <? i)%Z; [|destruct (k =? i)%Z]; (split; [reflexivity|]); intros x [<-|[<-|[]]] k' _; unfold MA, MB, MC; discriminate. }
  split.
  - apply meq_tiles; [exact OKr|exact OKc|]. intros i j p q Li Lj Lp Lq.
    transitivity (lsum (zrange 0 (tl_n tr)) (fun l => al * fsum 0 (tl_sz tr l) (fun r => herm Lower (matrix_in tr tr 0 st0) (tl_off tr i + p)%Z (tl_off tr l + r)%Z * st0 (MB l j) r q)) + be * st0 (MC i j) p q).
    2: { unfold mmul. rewrite fsum_tiles by exact OKr. unfold matrix_in at 4. rewrite gather_at by assumption. f_equal. rewrite <- lsum_fsum.
      rewrite (lsum_ext _ (fun k => fsum 0 (tl_sz tr k) (fun i0 => herm Lower (matrix_in tr tr 0 st0) (tl_off tr i + p)%Z (tl_off tr k + i0)%Z * matrix_in tr tc 1 st0 (tl_off tr k + i0)%Z (tl_off tc j + q)%Z))
        (fun l => fsum 0 (tl_sz tr l) (fun r => herm Lower (matrix_in tr tr 0 st0) (tl_off tr i + p)%Z (tl_off tr l + r)%Z * st0 (MB l j) r q))).
      - generalize (zrange 0 (tl_n tr)). induction l as [|a l IH]; cbn [lsum fold_right]; [ring|]. unfold lsum in IH. rewrite IH. ring.
      - intros l Il. apply in_zrange in Il. apply fsum_ext. intros r Lr. unfold matrix_in at 2. rewrite gather_at by assumption. reflexivity. }
    unfold matrix_in at 1. rewrite gather_at by assumption. change (Tid 0 2 i j) with (MC i j). rewrite E. pose proof (R1 (j, i) (proj2 (in_pr j i) (conj Lj Li))) as RR; cbn [fst snd] in RR; rewrite RR; clear RR. unfold body.
    apply (acc_run (zrange 0 (tl_n tr)) (job i j) (MC i j) (tl_sz tr i) (tl_sz tc j) be 0
      (fun l p q => al * fsum 0 (tl_sz tr l) (fun r => herm Lower (matrix_in tr tr 0 st0) (tl_off tr i + p)%Z (tl_off tr l + r)%Z * st0 (MB l j) r q))); [apply zrange_NoDup| | | |exact Lp|exact Lq].
    + rewrite zrange_cons by lia. eauto.
    + intros l _. unfold job. destruct (l <? i)%Z; [|destruct (l =? i)%Z]; (split; [reflexivity|]); cbn; unfold MA, MB, MC; intros [Q|[Q|[]]]; discriminate.
    + clear p q Lp Lq. intros l st1 p q Il EO Lp Lq. apply in_zrange in Il.
      assert (EA : forall a b, st1 (MA a b) = st0 (MA a b)) by (intros; apply EO; unfold MA, MC; discriminate).
      assert (EB : forall a b, st1 (MB a b) = st0 (MB a b)) by (intros; apply EO; unfold MB, MC; discriminate).
      assert (HT : forall r, (0 <= r < tl_sz tr l)%Z -> herm Lower (matrix_in tr tr 0 st0) (tl_off tr i + p)%Z (tl_off tr l + r)%Z = herm_tile Lower (fun a b => st0 (MA a b)) i l p r).
      { intros r Lr. unfold matrix_in. rewrite herm_tiles by assumption. reflexivity. }
      unfold job. destruct (Z.ltb_spec l i) as [Q|Q]; [|destruct (Z.eqb_spec l i) as [->|NE]].
      * change (tval (jgemm kn NoTrans NoTrans (tl_sz tr i) (tl_sz tc j) (tl_sz tr l) al (MA i l) (MB l j) (if (l =? 0)%Z then be else 1) (MC i j)) st1)
          with (gemm kn NoTrans NoTrans (tl_sz tr i) (tl_sz tc j) (tl_sz tr l) al (st1 (MA i l)) (st1 (MB l j)) (if (l =? 0)%Z then be else 1) (st1 (MC i j))).
        rewrite (gemm_ok kn KO NoTrans NoTrans (tl_sz tr i) (tl_sz tc j) (tl_sz tr l) al (st1 (MA i l)) (st1 (MB l j)) (if (l =? 0)%Z then be else 1) (st1 (MC i j)) p q Lp Lq).
        rewrite EA, EB. f_equal. f_equal. unfold mmul. apply fsum_ext. intros r Lr. rewrite HT by exact Lr. unfold herm_tile.
        destruct (Z.eqb_spec i l); [lia|]. unfold in_tri. rewrite (proj2 (Z.leb_le l i)) by lia. reflexivity.
      * change (tval (jhemm kn Left Lower (tl_sz tr i) (tl_sz tc j) al (MA i i) (MB i j) (if (i =? 0)%Z then be else 1) (MC i j)) st1)
          with (hemm kn Left Lower (tl_sz tr i) (tl_sz tc j) al (st1 (MA i i)) (st1 (MB i j)) (if (i =? 0)%Z then be else 1) (st1 (MC i j))).
        rewrite (hemm_ok kn KO Left Lower (tl_sz tr i) (tl_sz tc j) al (st1 (MA i i)) (st1 (MB i j)) (if (i =? 0)%Z then be else 1) (st1 (MC i j)) (eq_ind_r (real_diag (tl_sz tr i)) (RDT i Li) (EA i i)) p q Lp Lq).
        rewrite EA, EB. f_equal. f_equal. unfold mmul. apply fsum_ext. intros r Lr. rewrite HT by exact Lr. unfold herm_tile. rewrite Z.eqb_refl. reflexivity.
      * change (tval (jgemm kn ConjTrans NoTrans (tl_sz tr i) (tl_sz tc j) (tl_sz tr l) al (MA l i) (MB l j) 1 (MC i j)) st1)
          with (gemm kn ConjTrans NoTrans (tl_sz tr i) (tl_sz tc j) (tl_sz tr l) al (st1 (MA l i)) (st1 (MB l j)) 1 (st1 (MC i j))).
        rewrite (gemm_ok kn KO ConjTrans NoTrans (tl_sz tr i) (tl_sz tc j) (tl_sz tr l) al (st1 (MA l i)) (st1 (MB l j)) 1 (st1 (MC i j)) p q Lp Lq).
        rewrite EA, EB. destruct (Z.eqb_spec l 0); [lia|]. f_equal. f_equal. unfold mmul. apply fsum_ext. intros r Lr. rewrite HT by exact Lr. unfold herm_tile.
        destruct (Z.eqb_spec i l); [lia|]. unfold in_tri. rewrite (proj2 (Z.leb_gt l i)) by lia. reflexivity.
  - intros x N. rewrite E. apply R2. intros [a b] I0. apply in_pr in I0. apply N; tauto.
Qed.
Lemma hermitian_jobs_ok : Forall tjob_ok (hermitian_LL kn tr tc al be).
Proof.
  apply Forall_forall. unfold hermitian_LL. intros t I0. apply in_for_up in I0 as (j & _ & I0). apply in_for_up in I0 as (i & _ & I0).
  unfold tjob_ok. apply in_app_or in I0 as [I0|I0]; [|apply in_app_or in I0 as [I0|I0]].
  - apply in_for_up in I0 as (k & _ & [<-|[]]). cbn. unfold MA, MB, MC. intros [Q|[Q|[]]]; discriminate.
  - destruct I0 as [<-|[]]. cbn. unfold MA, MB, MC. intros [Q|[Q|[]]]; discriminate.
  - apply in_for_up in I0 as (k & _ & [<-|[]]). cbn. unfold MA, MB, MC. intros [Q|[Q|[]]]; discriminate.
Qed.
End general.

(** C30 (general, local): C = alpha A B + beta C for every tiling of the three matrices, including an empty inner dimension;
    nothing but C changes. *)
Theorem C30_general_multiplication_local : forall (K : starfield) (kn : kernels K), kernels_ok kn ->
  forall tr tc tk, tiling_ok tr -> tiling_ok tc -> tiling_ok tk -> forall (al be : F K) (st0 : tstore (mat K)),
  every_schedule (general_NN kn tr tc tk al be) st0 (fun st =>
    is_gemm NoTrans NoTrans (tl_size tr) (tl_size tc) (tl_size tk) al (matrix_in tr tk 0 st0) (matrix_in tk tc 1 st0) be (matrix_in tr tc 2 st0) (matrix_in tr tc 2 st) /\
    forall x, (forall i j, 0 <= i < tl_n tr -> 0 <= j < tl_n tc -> x <> Tid 0 2 i j) -> st x = st0 x).
Proof.
  intros K kn KO tr tc tk OKr OKc OKk al be st0. apply every_schedule_intro; [apply general_jobs_ok|].
  intros st E. apply (general_seq kn KO tr tc tk OKr OKc OKk al be st0 st E).
Qed.
(** C30 (Hermitian, local): C = alpha A B + beta C with A Hermitian, given by its lower triangle. *)
Theorem C30_hermitian_multiplication_local : forall (K : starfield) (kn : kernels K), kernels_ok kn ->
  forall tr tc, tiling_ok tr -> tiling_ok tc -> forall (al be : F K) (st0 : tstore (mat K)),
  real_diag (tl_size tr) (matrix_in tr tr 0 st0) ->
  every_schedule (hermitian_LL kn tr tc al be) st0 (fun st =>
    is_hemm Left Lower (tl_size tr) (tl_size tc) al (matrix_in tr tr 0 st0) (matrix_in tr tc 1 st0) be (matrix_in tr tc 2 st0) (matrix_in tr tc 2 st) /\
    forall x, (forall i j, 0 <= i < tl_n tr -> 0 <= j < tl_n tc -> x <> Tid 0 2 i j) -> st x = st0 x).
Proof.
  intros K kn KO tr tc OKr OKc al be st0 RD. apply every_schedule_intro; [apply hermitian_jobs_ok|].
  intros st E. apply (hermitian_seq kn KO tr tc OKr OKc al be st0 st RD E).
Qed.
(** The strictly upper tiles of A are not accessed. *)
Theorem C30_hermitian_tiles_accessed : forall (K : starfield) (kn : kernels K) tr tc al be t i j,
  In t (hermitian_LL kn tr tc al be) -> In (Tid 0 0 i j) (tj_in t) \/ tj_out t = Tid 0 0 i j -> j <= i.
Proof.
  intros K kn tr tc al be t i j I0 Q. unfold hermitian_LL in I0. apply in_for_up in I0 as (c & _ & I0). apply in_for_up in I0 as (r & _ & I0).
  assert (MM : forall a b, MA a b = Tid 0 0 i j -> a = i /\ b = j) by (unfold MA; intros a b X; injection X; auto).
  apply in_app_or in I0 as [I0|I0]; [|apply in_app_or in I0 as [I0|I0]].
  - apply in_for_up in I0 as (k & L & [<-|[]]). cbn in Q. unfold MB, MC in Q. destruct Q as [[Q|[Q|[]]]|Q]; try discriminate. apply MM in Q. lia.
  - destruct I0 as [<-|[]]. cbn in Q. unfold MB, MC in Q. destruct Q as [[Q|[Q|[]]]|Q]; try discriminate. apply MM in Q. lia.
  - apply in_for_up in I0 as (k & L & [<-|[]]). cbn in Q. unfold MB, MC in Q. destruct Q as [[Q|[Q|[]]]|Q]; try discriminate. apply MM in Q. lia.
Qed.

(** Instance: Gaussian rationals, reference kernels, uneven tiles, a Hermitian matrix with complex off-diagonal elements. *)
Definition mult_ex : tstore (mat gauss_field) := fun x p q => (Q2Qc (inject_Z (1 + t_row x + 2 * t_col x + p * q)), Q2Qc (inject_Z (t_row x - t_col x + p - q))).
Example C30_runs : 
  (exists s0 st, AsyncModel.reachable (submitted (general_NN gauss_kernels (Tiling 2 (fun k => k + 1)) (Tiling 2 (fun k => 3 - 2 * k)) (Tiling 3 (fun k => k + 2)) (1, 1)%Qc (0, 1)%Qc)) s0 st /\
    AsyncModel.final (submitted (general_NN gauss_kernels (Tiling 2 (fun k => k + 1)) (Tiling 2 (fun k => 3 - 2 * k)) (Tiling 3 (fun k => k + 2)) (1, 1)%Qc (0, 1)%Qc)) st) /\
  (exists s0 st, AsyncModel.reachable (submitted (hermitian_LL gauss_kernels (Tiling 2 (fun k => k + 1)) (Tiling 2 (fun k => 3 - 2 * k)) (1, 1)%Qc (0, 1)%Qc)) s0 st /\
    AsyncModel.final (submitted (hermitian_LL gauss_kernels (Tiling 2 (fun k => k + 1)) (Tiling 2 (fun k => 3 - 2 * k)) (1, 1)%Qc (0, 1)%Qc)) st).
Proof.
  set (tr := Tiling 2 (fun k => k + 1)). set (tc := Tiling 2 (fun k => 3 - 2 * k)). set (tk := Tiling 3 (fun k => k + 2)).
  assert (OKr : tiling_ok tr) by (split; [cbn; lia|intros k L; unfold tr in *; cbn [tl_sz tl_n] in *; lia]).
  assert (OKc : tiling_ok tc) by (split; [cbn; lia|intros k L; unfold tc in *; cbn [tl_sz tl_n] in *; lia]).
  assert (OKk : tiling_ok tk) by (split; [cbn; lia|intros k L; unfold tk in *; cbn [tl_sz tl_n] in *; lia]).
  assert (RD : real_diag (tl_size tr) (matrix_in tr tr 0 mult_ex)).
  { intros a La. destruct (elem_split tr OKr a La) as (k & p & Lk & Lp & ->). unfold matrix_in. rewrite gather_at by assumption. unfold mult_ex, real. cbn [t_row t_col].
    replace (k - k + p - p) with 0 by lia. change (g_conj (Q2Qc (inject_Z (1 + k + 2 * k + p * p)), Q2Qc (inject_Z 0)) = (Q2Qc (inject_Z (1 + k + 2 * k + p * p)), Q2Qc (inject_Z 0))). unfold g_conj. cbn [fst snd]. apply f_equal. apply Qc_is_canon. reflexivity. }
  split.
  - destruct (every_schedule_run _ _ _ (general_jobs_ok gauss_kernels tr tc tk _ _) (C30_general_multiplication_local _ _ gauss_kernels_ok tr tc tk OKr OKc OKk (1, 1)%Qc (0, 1)%Qc mult_ex)) as (s0 & st & _ & R & FN & _).
    exists s0, st. split; assumption.
  - destruct (every_schedule_run _ _ _ (hermitian_jobs_ok gauss_kernels tr tc _ _) (C30_hermitian_multiplication_local _ _ gauss_kernels_ok tr tc OKr OKc (1, 1)%Qc (0, 1)%Qc mult_ex RD)) as (s0 & st & _ & R & FN & _).
    exists s0, st. split; assumption.
Qed.

(** ** Assumptions *)
Print Assumptions C30_general_multiplication_local.
Print Assumptions C30_hermitian_multiplication_local.
Print Assumptions C30_hermitian_tiles_accessed.
