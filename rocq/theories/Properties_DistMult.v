(** * C30: the distributed general and Hermitian multiplications. *)
From Coq Require Import ZArith Lia List Bool Permutation QArith Qcanon.
From Verif Require Import CInt Loop StarField DenseSpec Tiling DenseJobs TileJobs BlockJobs RefKernels TriangularProofs MultModel Properties_Mult DistModel DistSpec DistBuilt DistThms DistCtor DistMachine DistGrid PanelModel PanelProofs Properties_Panel DistMat DistSim DistProg DistPhase DistLocal DistInverseModel DistTriModel DistTriProofs Properties_DistTri DistMultModel DistMultProofs.
Import ListNotations.
Local Open Scope Z_scope.

Lemma zrange_split : forall n l1 k l2, zrange 0 n = l1 ++ k :: l2 -> 0 <= k < n /\ l1 = zrange 0 k.
Proof.
  intros n l1 k l2 E. assert (L : 0 <= k < n) by (apply in_zrange; rewrite E; apply in_or_app; right; left; reflexivity). split; [exact L|].
  rewrite (zrange_app 0 k n) in E by lia. rewrite (zrange_cons k n) in E by lia. revert E. pose proof (zrange_NoDup 0 n) as ND. rewrite (zrange_app 0 k n) in ND by lia. rewrite (zrange_cons k n) in ND by lia.
  revert ND. generalize (zrange (k + 1) n). generalize (zrange 0 k). intros a. revert l1. induction a as [|x a IH]; intros l1 l ND E.
  - destruct l1 as [|y l1]; [reflexivity|]. injection E as <- E. cbn in ND. apply NoDup_cons_iff in ND as [N _]. exfalso. apply N. rewrite E. apply in_or_app. right. left. reflexivity.
  - destruct l1 as [|y l1].
    + injection E as -> E. cbn in ND. apply NoDup_cons_iff in ND as [N _]. exfalso. apply N. apply in_or_app. right. left. reflexivity.
    + injection E as <- E. f_equal. apply (IH l1 l); [|exact E]. cbn in ND. apply NoDup_cons_iff in ND as [_ ND]. exact ND.
Qed.

Section run.
Context {K : starfield} (kn : kernels K) (KO : kernels_ok kn).
Variables P Q : Z.
Variables LsA LsB : coord -> layout.
Variables DA DB DC : coord -> Z -> axis.
Variables ntA ntB : coord -> Z.
Hypothesis GAA : grid_axes P Q LsA DA ntA.
Hypothesis GAB : grid_axes P Q LsB DB ntB.
Variables tr tc tk : tiling.
Hypotheses (OKr : tiling_ok tr) (OKc : tiling_ok tc) (OKk : tiling_ok tk).
Hypothesis ECR : forall p, 0 <= p < P -> DC Row p = DA Row p.
Hypothesis ECC : forall p, 0 <= p < Q -> DC Col p = DB Col p.
Hypothesis NTR : ntA Row = tl_n tr.
Hypothesis NTC : ntB Col = tl_n tc.
Hypothesis NTK : ntA Col = tl_n tk /\ ntB Row = tl_n tk.
Notation rks := (ranks P Q).
Notation mem := (members P Q).
Hypothesis SZR : forall r k, In r rks -> 0 <= k < tl_n tr -> szt Q DA r Row k = tl_sz tr k.
Hypothesis SZC : forall r k, In r rks -> 0 <= k < tl_n tc -> szt Q DB r Col k = tl_sz tc k.
Hypothesis SZK : forall r k, In r rks -> 0 <= k < tl_n tk -> szt Q DA r Col k = tl_sz tk k.
Variables al be : F K.
Notation dabs := (dabs Q LsA LsB).
Local Open Scope sf_scope.
Add Ring KringPDM : (fring K).

(** ** General *)
Definition sjob (r : Z) (ji : Z * Z) : tjob (mat K) := jscal be (DC_ r (snd ji) (fst ji)).
Definition sjs (r : Z) : list (Z * Z) := list_prod (colsof Q LsB tc r) (rowsof Q LsA 0 (tl_n tr) r).
Definition eGS : list (event (mat K)) := if feq_dec K be 1 then [] else elocal P Q (fun r => flat_map (fun ji => [sjob r ji]) (sjs r)).
Lemma scale_proj : forall r, In r rks -> g_scale Q DC be r = proj mem r eGS.
Proof.
  intros r R. unfold g_scale, eGS. destruct (feq_dec K be 1); [reflexivity|]. rewrite (elocal_proj P Q (ga_P _ _ _ _ _ GAA) (ga_Q _ _ _ _ _ GAA)) by exact R. f_equal. unfold sjs.
  rewrite <- (prod_flat (fun j i => sjob r (j, i)) (colsof Q LsB tc r)) || rewrite <- prod_flat.
  rewrite <- (cols_loop P Q LsA LsB DA DB DC ntA ntB GAA GAB tc OKc ECC NTC r R). rewrite flat_map_map. apply flat_map_ext_in. intros lj Ilj.
  pose proof (proj1 OKr) as NP. rewrite <- (rows_loop P Q LsA DA ntA GAA tr NTR r 0 (tl_n tr) R) by lia. rewrite (nx0R P Q LsA DA ntA GAA r R).
  rewrite <- (lntR P Q LsA DA DC ntA GAA tr ECR NTR r R). rewrite flat_map_map. apply flat_map_ext_in. intros li Ili. unfold sjob. cbn [fst snd].
  rewrite (glR P Q LsA DA DC ntA GAA ECR r _ R), (glC P Q LsA DA DB DC ntA GAA ECC r _ R). reflexivity.
Qed.
Lemma scale_props : forall st : tstore (mat K), Forall (event_ok mem rks) eGS /\
  (forall i j p q, (0 <= i < tl_n tr)%Z -> (0 <= j < tl_n tc)%Z -> dabs (erun mem eGS st) (MC i j) p q = be * dabs st (MC i j) p q) /\
  (forall x, (0 <= t_mat x < 2)%Z -> dabs (erun mem eGS st) x = dabs st x).
Proof.
  intros st. unfold eGS. destruct (feq_dec K be 1) as [->|N].
  - split; [constructor|]. split; [|reflexivity]. intros i j p q _ _. cbn [erun fold_left]. ring.
  - destruct (phase_each P Q (ga_P _ _ _ _ _ GAA) (ga_Q _ _ _ _ _ GAA) sjs sjob st) as (A & B & C).
    + intros r R. apply prod_nodup; [apply cols_nd|apply rows_nd].
    + intros r x t R Ix. cbn [sjob jscal tj_in tj_out]. intros [[]| ->]. reflexivity.
    + intros r [j i] [j' i'] R _ _ E. cbn in E. injection E as -> ->. reflexivity.
    + intros r a b R _ _ [].
    + split; [apply elocal_ok; exact A|]. split.
      * intros i j p q Li Lj. change (dabs (erun mem (elocal P Q (fun r => flat_map (fun ji => [sjob r ji]) (sjs r))) st) (MC i j)) with (erun mem (elocal P Q (fun r => flat_map (fun ji => [sjob r ji]) (sjs r))) st (DC_ (wC Q LsA LsB i j) i j)).
        pose proof (B (wC Q LsA LsB i j) (j, i) (wC_in P Q LsA LsB DA DB ntA ntB GAA GAB i j)) as X. cbn [sjob tj_out jscal fst snd] in X. rewrite X; [reflexivity|].
        destruct (wC_co P Q LsA LsB DA DB ntA ntB GAA GAB i j) as [C1 C2]. apply in_prod_iff. rewrite (rows_in Q LsA), (cols_in Q LsB). rewrite C1, C2. auto.
      * intros x X. unfold DistMultProofs.dabs. destruct (Z.eqb_spec (t_mat x) 0) as [E0|E0]; [|destruct (Z.eqb_spec (t_mat x) 1) as [E1|E1]; [|lia]]; apply C; intros r y R Iy; cbn; unfold DA_, DB_, DC_; discriminate.
Qed.
Definition E_general : list (event (mat K)) := if (tl_n tk =? 0)%Z then eGS else flat_map (e_general kn P Q LsA LsB tr tc tk al be) (zrange 0 (tl_n tk)).
Definition general_inv (st0 : tstore (mat K)) (l : list Z) (st : tstore (mat K)) : Prop :=
  (forall x, (0 <= t_mat x < 2)%Z -> dabs st x = dabs st0 x) /\
  forall i j p q, (0 <= i < tl_n tr)%Z -> (0 <= j < tl_n tc)%Z -> (0 <= p < tl_sz tr i)%Z -> (0 <= q < tl_sz tc j)%Z ->
    dabs st (MC i j) p q = al * lsum l (fun k => mmul (tl_sz tk k) (dabs st0 (MA i k)) (dabs st0 (MB k j)) p q) + (match l with [] => 1 | _ => be end) * dabs st0 (MC i j) p q.
Lemma general_final : forall st0 st, (forall x, st x = erun mem E_general st0 x) ->
  is_gemm NoTrans NoTrans (tl_size tr) (tl_size tc) (tl_size tk) al (matrix_in tr tk 0 (dabs st0)) (matrix_in tk tc 1 (dabs st0)) be (matrix_in tr tc 2 (dabs st0)) (matrix_in tr tc 2 (dabs st)) /\
  (forall x, (0 <= t_mat x < 2)%Z -> dabs st x = dabs st0 x).
Proof.
  intros st0 st E. assert (EA : forall x, dabs st x = dabs (erun mem E_general st0) x) by (intros x; unfold DistMultProofs.dabs; rewrite !E; reflexivity).
  assert (G : (forall x, (0 <= t_mat x < 2)%Z -> dabs (erun mem E_general st0) x = dabs st0 x) /\
    forall i j p q, (0 <= i < tl_n tr)%Z -> (0 <= j < tl_n tc)%Z -> (0 <= p < tl_sz tr i)%Z -> (0 <= q < tl_sz tc j)%Z ->
    dabs (erun mem E_general st0) (MC i j) p q = al * lsum (zrange 0 (tl_n tk)) (fun k => mmul (tl_sz tk k) (dabs st0 (MA i k)) (dabs st0 (MB k j)) p q) + be * dabs st0 (MC i j) p q).
  { unfold E_general. destruct (Z.eqb_spec (tl_n tk) 0) as [Z0|NZ].
    - destruct (scale_props st0) as (_ & S1 & S2). split; [exact S2|]. intros i j p q Li Lj _ _. rewrite S1 by assumption. rewrite Z0, zrange_nil by lia. cbn [lsum fold_right]. ring.
    - assert (I : general_inv st0 (zrange 0 (tl_n tk)) (erun mem (flat_map (e_general kn P Q LsA LsB tr tc tk al be) (zrange 0 (tl_n tk))) st0)).
      { apply (loop_inv P Q (general_inv st0)).
        - split; [reflexivity|]. intros i j p q _ _ _ _. cbn [lsum fold_right]. ring.
        - intros l1 k l2 st1 EQ [I1 I2]. destruct (zrange_split _ _ _ _ EQ) as [Lk EL].
          destruct (general_run kn P Q LsA LsB DA DB ntA ntB GAA GAB tr tc tk OKr OKc NTR NTC al be k st1) as [R1 R2]. split.
          + intros x X. rewrite R2; [apply I1; exact X|lia|]. intros; lia.
          + intros i j p q Li Lj Lp Lq. rewrite R1 by assumption. rewrite (gemm_ok kn KO _ _ _ _ _ _ _ _ _ _ p q Lp Lq). unfold opm. rewrite (I2 i j p q Li Lj Lp Lq).
            rewrite !I1 by (cbn; lia). rewrite lsum_app. cbn [lsum fold_right]. subst l1. destruct (Z.eqb_spec k 0) as [->|Nk].
            * rewrite zrange_nil by lia. cbn [app lsum fold_right]. ring.
            * rewrite (zrange_cons 0 k) by lia. cbn [app]. ring. }
      destruct I as [I1 I2]. split; [exact I1|]. intros i j p q Li Lj Lp Lq. rewrite I2 by assumption. rewrite (zrange_cons 0 (tl_n tk)) by (destruct OKk; lia). reflexivity. }
  destruct G as [G1 G2]. split; [|intros x X; rewrite EA; apply G1; exact X].
  apply meq_tiles; [exact OKr|exact OKc|]. intros i j p q Li Lj Lp Lq. unfold opm. rewrite (product_tile tr tc tk OKr OKc OKk) by assumption. unfold matrix_in. rewrite !gather_at by assumption.
  change (Tid 0 2 i j) with (MC i j). rewrite EA. apply G2; assumption.
Qed.

(** ** Hermitian *)
Hypothesis TK : tk = tr.
Hypothesis EBR : forall p, (0 <= p < P)%Z -> DB Row p = DA Row p.
Definition E_hermitian : list (event (mat K)) := flat_map (e_hermitian kn P Q LsA LsB tr tc al be) (zrange 0 (tl_n tr)).
Definition hterm (st0 : tstore (mat K)) (i l j p q : Z) : F K := fsum 0 (tl_sz tr l) (fun r => herm Lower (matrix_in tr tr 0 (dabs st0)) (tl_off tr i + p)%Z (tl_off tr l + r)%Z * dabs st0 (MB l j) r q).
Definition hermitian_inv (st0 : tstore (mat K)) (l : list Z) (st : tstore (mat K)) : Prop :=
  (forall x, (0 <= t_mat x < 2)%Z -> dabs st x = dabs st0 x) /\
  forall i j p q, (0 <= i < tl_n tr)%Z -> (0 <= j < tl_n tc)%Z -> (0 <= p < tl_sz tr i)%Z -> (0 <= q < tl_sz tc j)%Z ->
    dabs st (MC i j) p q = al * lsum (if in_dec Z.eq_dec i l then zrange 0 (tl_n tr) else l) (fun k => hterm st0 i k j p q) + (match l with [] => 1 | _ => be end) * dabs st0 (MC i j) p q.
Lemma hermitian_final : forall st0 st, real_diag (tl_size tr) (matrix_in tr tr 0 (dabs st0)) -> (forall x, st x = erun mem E_hermitian st0 x) ->
  is_hemm Left Lower (tl_size tr) (tl_size tc) al (matrix_in tr tr 0 (dabs st0)) (matrix_in tr tc 1 (dabs st0)) be (matrix_in tr tc 2 (dabs st0)) (matrix_in tr tc 2 (dabs st)) /\
  (forall x, (0 <= t_mat x < 2)%Z -> dabs st x = dabs st0 x).
Proof.
  intros st0 st RD E. assert (EA : forall x, dabs st x = dabs (erun mem E_hermitian st0) x) by (intros x; unfold DistMultProofs.dabs; rewrite !E; reflexivity).
  assert (RDT : forall i, (0 <= i < tl_n tr)%Z -> real_diag (tl_sz tr i) (dabs st0 (MA i i))).
  { intros i Li p Lp. specialize (RD (tl_off tr i + p)%Z (elem_bound tr OKr i p Li Lp)). unfold matrix_in in RD. rewrite gather_at in RD by assumption. exact RD. }
  assert (HT : forall i l p r, (0 <= i < tl_n tr)%Z -> (0 <= l < tl_n tr)%Z -> (0 <= p < tl_sz tr i)%Z -> (0 <= r < tl_sz tr l)%Z ->
    herm Lower (matrix_in tr tr 0 (dabs st0)) (tl_off tr i + p)%Z (tl_off tr l + r)%Z = herm_tile Lower (fun a b => dabs st0 (MA a b)) i l p r).
  { intros i l p r Li Ll Lp Lr. unfold matrix_in. rewrite herm_tiles by assumption. reflexivity. }
  assert (I : hermitian_inv st0 (zrange 0 (tl_n tr)) (erun mem E_hermitian st0)).
  { apply (loop_inv P Q (hermitian_inv st0)).
    - split; [reflexivity|]. intros i j p q _ _ _ _. destruct (in_dec Z.eq_dec i []) as [[]|_]. cbn [lsum fold_right]. ring.
    - intros l1 k l2 st1 EQ [I1 I2]. destruct (zrange_split _ _ _ _ EQ) as [Lk EL].
      destruct (hermitian_run kn P Q LsA LsB DA DB ntA ntB GAA GAB tr tc tk OKc NTR NTC al be KO TK EBR k Lk st1) as (R1 & R2 & R3). split.
      + intros x X. rewrite R3; [apply I1; exact X|lia|]. intros; lia.
      + intros i j p q Li Lj Lp Lq. specialize (I2 i j p q Li Lj Lp Lq).
        assert (SG : forall b : F K, (if (k =? 0)%Z then be else 1) * ((match l1 with [] => 1 | _ => be end) * b) = match l1 ++ [k] with [] => 1 | _ => be end * b).
        { intros b. subst l1. destruct (Z.eqb_spec k 0) as [->|Nk]; [rewrite zrange_nil by lia; cbn [app]; ring|]. rewrite (zrange_cons 0 k) by lia. cbn [app]. ring. }
        destruct (Z.lt_trichotomy i k) as [LT|[->|GT]].
        * assert (Ii : In i l1) by (subst l1; apply in_zrange; lia). destruct (in_dec Z.eq_dec i l1) as [_|N]; [|contradiction]. destruct (in_dec Z.eq_dec i (l1 ++ [k])) as [_|N]; [|exfalso; apply N; apply in_or_app; left; exact Ii].
          rewrite R3; [|cbn; lia|cbn; intros; lia]. rewrite I2. destruct l1 as [|z l1]; [destruct Ii|]. reflexivity.
        * assert (Ni : ~ In k l1) by (subst l1; rewrite in_zrange; lia). destruct (in_dec Z.eq_dec k l1) as [X|_]; [contradiction|]. destruct (in_dec Z.eq_dec k (l1 ++ [k])) as [_|N]; [|exfalso; apply N; apply in_or_app; right; left; reflexivity].
          rewrite R1 by assumption. rewrite !I1 by (cbn; lia).
          rewrite (hemm_ok kn KO Left Lower _ _ _ _ _ _ _ (RDT k Lk) p q Lp Lq). rewrite I2.
          rewrite (zrange_app 0 k (tl_n tr)) by lia. rewrite (zrange_cons k (tl_n tr)) by lia. rewrite <- EL. rewrite lsum_app. cbn [lsum fold_right]. fold (lsum (zrange (k + 1) (tl_n tr)) (fun k0 => hterm st0 k k0 j p q)).
          assert (T1 : mmul (tl_sz tr k) (herm Lower (dabs st0 (MA k k))) (dabs st0 (MB k j)) p q = hterm st0 k k j p q).
          { unfold mmul, hterm. apply fsum_ext. intros r Lr. rewrite HT by assumption. unfold herm_tile. rewrite Z.eqb_refl. reflexivity. }
          assert (T2 : lsum (zrange (k + 1) (tl_n tr)) (fun i => mmul (tl_sz tr i) (opm ConjTrans (dabs st1 (MA i k))) (dabs st1 (MB i j)) p q) = lsum (zrange (k + 1) (tl_n tr)) (fun k0 => hterm st0 k k0 j p q)).
          { apply lsum_ext. intros l Il. apply in_zrange in Il. rewrite !I1 by (cbn; lia). unfold mmul, hterm. apply fsum_ext. intros r Lr. rewrite HT by (try assumption; lia). unfold herm_tile. destruct (Z.eqb_spec k l); [lia|]. unfold in_tri. rewrite (proj2 (Z.leb_gt l k)) by lia. reflexivity. }
          rewrite T1, T2. destruct (Z.eqb_spec k 0) as [->|Nk].
          -- assert (L0 : l1 = []) by (subst l1; apply zrange_nil; lia). rewrite L0. cbn [app lsum fold_right]. ring.
          -- assert (exists z l, l1 = z :: l) as (z & l & L0) by (subst l1; rewrite (zrange_cons 0 k) by lia; eauto). rewrite L0. cbn [app]. ring.
        * assert (Ni : ~ In i l1) by (subst l1; rewrite in_zrange; lia). destruct (in_dec Z.eq_dec i l1) as [X|_]; [contradiction|]. destruct (in_dec Z.eq_dec i (l1 ++ [k])) as [X|_]; [apply in_app_or in X as [X|[X|[]]]; [contradiction|lia]|].
          rewrite R2 by (try assumption; lia). rewrite (gemm_ok kn KO _ _ _ _ _ _ _ _ _ _ p q Lp Lq). unfold opm. rewrite I2. rewrite !I1 by (cbn; lia). rewrite lsum_app. cbn [lsum fold_right].
          assert (T1 : mmul (tl_sz tr k) (dabs st0 (MA i k)) (dabs st0 (MB k j)) p q = hterm st0 i k j p q).
          { unfold mmul, hterm. apply fsum_ext. intros r Lr. rewrite HT by assumption. unfold herm_tile. destruct (Z.eqb_spec i k); [lia|]. unfold in_tri. rewrite (proj2 (Z.leb_le k i)) by lia. reflexivity. }
          rewrite T1. destruct (Z.eqb_spec k 0) as [->|Nk].
          -- assert (L0 : l1 = []) by (subst l1; apply zrange_nil; lia). rewrite L0. cbn [app lsum fold_right]. ring.
          -- assert (exists z l, l1 = z :: l) as (z & l & L0) by (subst l1; rewrite (zrange_cons 0 k) by lia; eauto). rewrite L0. cbn [app]. ring. }
  destruct I as [G1 G2]. split; [|intros x X; rewrite EA; apply G1; exact X].
  apply meq_tiles; [exact OKr|exact OKc|]. intros i j p q Li Lj Lp Lq. unfold matrix_in at 1. rewrite gather_at by assumption. change (Tid 0 2 i j) with (MC i j). rewrite EA, (G2 i j p q Li Lj Lp Lq).
  destruct (in_dec Z.eq_dec i (zrange 0 (tl_n tr))) as [_|N]; [|exfalso; apply N; apply in_zrange; exact Li]. rewrite (zrange_cons 0 (tl_n tr)) at 2 by lia. f_equal.
  - f_equal. rewrite lsum_fsum. unfold mmul. rewrite fsum_tiles by exact OKr. apply fsum_ext. intros l Ll. unfold hterm. apply fsum_ext. intros r Lr. unfold matrix_in at 3. rewrite gather_at by assumption. reflexivity.
  - unfold matrix_in. rewrite gather_at by assumption. reflexivity.
Qed.
End run.

Lemma gemm_meq : forall {K : starfield} m n k al be (A A' B B' C C' X X' : mat K), meq m k A A' -> meq k n B B' -> meq m n C C' -> meq m n X X' ->
  is_gemm NoTrans NoTrans m n k al A B be C X -> is_gemm NoTrans NoTrans m n k al A' B' be C' X'.
Proof.
  intros K m n k al be A A' B B' C C' X X' EA EB EC EX H i j Li Lj. rewrite <- (EX i j Li Lj), <- (EC i j Li Lj), (H i j Li Lj). f_equal. f_equal. unfold opm, mmul. apply fsum_ext. intros r Lr. rewrite (EA i r Li Lr), (EB r j Lr Lj). reflexivity.
Qed.
Lemma hemm_meq : forall {K : starfield} m n al be (A A' B B' C C' X X' : mat K), meq m m A A' -> meq m n B B' -> meq m n C C' -> meq m n X X' ->
  is_hemm Left Lower m n al A B be C X -> is_hemm Left Lower m n al A' B' be C' X'.
Proof.
  intros K m n al be A A' B B' C C' X X' EA EB EC EX H i j Li Lj. rewrite <- (EX i j Li Lj), <- (EC i j Li Lj), (H i j Li Lj). f_equal. f_equal. unfold mmul. apply fsum_ext. intros r Lr. rewrite (EB r j Lr Lj). f_equal.
  unfold herm. rewrite (EA i r Li Lr), (EA r i Lr Li). reflexivity.
Qed.

Section args.
Context {K : starfield}.
Variables (P Q m n k mb nb kb : Z) (srcA srcB srcC : pair_Z) (DA DB DC : coord -> Z -> axis).
Hypothesis HA : distributed P Q (m, k) (mb, kb) (mb, kb) srcA (0, 0) DA.
Hypothesis HB : distributed P Q (k, n) (kb, nb) (kb, nb) srcB (0, 0) DB.
Hypothesis HC : distributed P Q (m, n) (mb, nb) (mb, nb) srcC (0, 0) DC.
Hypothesis SR : fst srcC = fst srcA.
Hypothesis SC : snd srcC = snd srcB.
Notation LA := (arg_layout (m, k) (mb, kb) (mb, kb) (P, Q) srcA (0, 0)).
Notation LB := (arg_layout (k, n) (kb, nb) (kb, nb) (P, Q) srcB (0, 0)).
Notation LC := (arg_layout (m, n) (mb, nb) (mb, nb) (P, Q) srcC (0, 0)).
Notation tr := (dtil m mb).
Notation tc := (dtil n nb).
Notation tk := (dtil k kb).
Lemma gpos : 0 <= m /\ 0 < mb /\ 0 <= n /\ 0 < nb /\ 0 <= k /\ 0 < kb.
Proof. destruct (da_arg _ _ _ _ _ _ HC Row) as (A1 & A2 & _), (da_arg _ _ _ _ _ _ HC Col) as (B1 & B2 & _), (da_arg _ _ _ _ _ _ HA Col) as (C1 & C2 & _). cbn [sel fst snd] in *. tauto. Qed.
Lemma g_ECR : forall p, 0 <= p < P -> DC Row p = DA Row p.
Proof.
  intros p Lp. pose proof (da_models _ _ _ _ _ _ HA Row p Lp) as M1. pose proof (da_models _ _ _ _ _ _ HC Row p Lp) as M2.
  assert (E : LC Row = LA Row) by (unfold arg_layout; cbn [sel fst snd]; rewrite SR; reflexivity). rewrite E in M2. eapply models_unique; [exact M2|exact M1|apply same_refl].
Qed.
Lemma g_ECC : forall p, 0 <= p < Q -> DC Col p = DB Col p.
Proof.
  intros p Lp. pose proof (da_models _ _ _ _ _ _ HB Col p Lp) as M1. pose proof (da_models _ _ _ _ _ _ HC Col p Lp) as M2.
  assert (E : LC Col = LB Col) by (unfold arg_layout; cbn [sel fst snd]; rewrite SC; reflexivity). rewrite E in M2. eapply models_unique; [exact M2|exact M1|apply same_refl].
Qed.
Lemma g_NTR : ax_nr_tiles (DA Row 0) = tl_n tr. Proof. apply (da_nt _ _ _ _ _ _ HA Row). Qed.
Lemma g_NTC : ax_nr_tiles (DB Col 0) = tl_n tc. Proof. apply (da_nt _ _ _ _ _ _ HB Col). Qed.
Lemma g_NTK : ax_nr_tiles (DA Col 0) = tl_n tk /\ ax_nr_tiles (DB Row 0) = tl_n tk. Proof. split; [apply (da_nt _ _ _ _ _ _ HA Col)|apply (da_nt _ _ _ _ _ _ HB Row)]. Qed.
Lemma g_SZR : forall r l, In r (ranks P Q) -> 0 <= l < tl_n tr -> szt Q DA r Row l = tl_sz tr l. Proof. intros r l R _. apply (da_sz _ _ _ _ _ _ HA r Row l R). Qed.
Lemma g_SZC : forall r l, In r (ranks P Q) -> 0 <= l < tl_n tc -> szt Q DB r Col l = tl_sz tc l. Proof. intros r l R _. apply (da_sz _ _ _ _ _ _ HB r Col l R). Qed.
Lemma g_SZK : forall r l, In r (ranks P Q) -> 0 <= l < tl_n tk -> szt Q DA r Col l = tl_sz tk l. Proof. intros r l R _. apply (da_sz _ _ _ _ _ _ HA r Col l R). Qed.
Lemma g_A : forall (st : tstore (mat K)), meq m k (matrix_in tr tk 0 (dabs Q LA LB st)) (dmat P Q (mb, kb) srcA 0 st).
Proof.
  intros st x y Lx Ly. destruct gpos as (A1 & A2 & A3 & A4 & A5 & A6). unfold matrix_in. rewrite gather_div by assumption.
  unfold dmat. rewrite <- (da_rank _ _ _ _ _ _ HA). reflexivity.
Qed.
Lemma g_B : forall (st : tstore (mat K)), meq k n (matrix_in tk tc 1 (dabs Q LA LB st)) (dmat P Q (kb, nb) srcB 1 st).
Proof.
  intros st x y Lx Ly. destruct gpos as (A1 & A2 & A3 & A4 & A5 & A6). unfold matrix_in. rewrite gather_div by assumption.
  unfold dmat. rewrite <- (da_rank _ _ _ _ _ _ HB). reflexivity.
Qed.
Lemma g_C : forall (st : tstore (mat K)), meq m n (matrix_in tr tc 2 (dabs Q LA LB st)) (dmat P Q (mb, nb) srcC 2 st).
Proof.
  intros st x y Lx Ly. destruct gpos as (A1 & A2 & A3 & A4 & A5 & A6). unfold matrix_in. rewrite gather_div by assumption.
  unfold dmat. rewrite <- (da_rank _ _ _ _ _ _ HC).
  assert (E1 : tile_owner (LC Row) (x / mb) = tile_owner (LA Row) (x / mb)) by (unfold arg_layout; cbn [sel fst snd]; rewrite SR; reflexivity).
  assert (E2 : tile_owner (LC Col) (y / nb) = tile_owner (LB Col) (y / nb)) by (unfold arg_layout; cbn [sel fst snd]; rewrite SC; reflexivity).
  cbn [fst snd]. rewrite E1, E2. reflexivity.
Qed.
Lemma m_empty_C : forall r, In r (ranks P Q) -> m_empty Q DC r = (m =? 0) || (n =? 0).
Proof.
  intros r R. destruct (da_pos _ _ _ _ _ _ HC) as [HP HQ]. unfold m_empty.
  assert (E : forall c, ax_size (ax Q DC r c) = sel c (m, n)).
  { intros c. assert (M : models (co Q c r) (LC c) (ax Q DC r c)) by (apply (da_models _ _ _ _ _ _ HC); apply (in_ranks_rc P Q HP HQ c) in R; apply R). symmetry. exact (ms _ _ _ M). }
  rewrite !E. reflexivity.
Qed.
End args.

(** C30 (general, distributed). mat_a is m x k, mat_b k x n, mat_c m x n, with blocks of mb x kb, kb x nb, mb x nb elements,
    distributed over the same P x Q grid; mat_c starts on the rank row of mat_a and on the rank column of mat_b. All the ranks
    call general_multiplication(grid, NoTrans, NoTrans, alpha, mat_a, mat_b, beta, mat_c). Whatever the schedulers and MPI
    do: the ranks' collective calls match, no rank waits for ever, and at the end mat_c holds alpha A B + beta C (also when k
    is 0) and mat_a and mat_b are unchanged. *)
Theorem C30_general_multiplication_distributed : forall (K : starfield) (kn : kernels K), kernels_ok kn ->
  forall P Q m n k mb nb kb srcA srcB srcC DA DB DC,
  distributed P Q (m, k) (mb, kb) (mb, kb) srcA (0, 0) DA ->
  distributed P Q (k, n) (kb, nb) (kb, nb) srcB (0, 0) DB ->
  distributed P Q (m, n) (mb, nb) (mb, nb) srcC (0, 0) DC ->
  fst srcC = fst srcA -> snd srcC = snd srcB ->
  forall (al be : F K) (st0 : tstore (mat K)),
  every_run (members P Q) (ranks P Q) (dist_general kn P Q DA DB DC al be) st0 (fun st =>
    is_gemm NoTrans NoTrans m n k al (dmat P Q (mb, kb) srcA 0 st0) (dmat P Q (kb, nb) srcB 1 st0) be (dmat P Q (mb, nb) srcC 2 st0) (dmat P Q (mb, nb) srcC 2 st) /\
    meq m k (dmat P Q (mb, kb) srcA 0 st) (dmat P Q (mb, kb) srcA 0 st0) /\ meq k n (dmat P Q (kb, nb) srcB 1 st) (dmat P Q (kb, nb) srcB 1 st0)).
Proof.
  intros K kn KO P Q m n k mb nb kb srcA srcB srcC DA DB DC HA HB HC SR SC al be st0.
  pose proof (distributed_axes _ _ _ _ _ _ _ _ HA) as GAA. pose proof (distributed_axes _ _ _ _ _ _ _ _ HB) as GAB.
  destruct (gpos P Q m n k mb nb kb srcA srcC DA DC HA HC) as (P1 & P2 & P3 & P4 & P5 & P6).
  pose proof (g_A (K:=K) P Q m n k mb nb kb srcA srcB srcC DA DC HA HC) as EA. pose proof (g_B (K:=K) P Q m n k mb nb kb srcA srcB srcC DA DB DC HA HB HC) as EB. pose proof (g_C (K:=K) P Q m n k mb nb kb srcA srcB srcC DA DC HA HC SR SC) as EC.
  pose proof (g_ECR P Q m n k mb nb kb srcA srcC DA DC HA HC SR) as ECR. pose proof (g_ECC P Q m n k mb nb kb srcB srcC DB DC HB HC SC) as ECC.
  pose proof (g_NTR P Q m k mb kb srcA DA HA) as NTR. pose proof (g_NTC P Q n k nb kb srcB DB HB) as NTC. pose proof (g_NTK P Q m n k mb nb kb srcA srcB DA DB HA HB) as NTK.
  pose proof (g_SZR P Q m k mb kb srcA DA HA) as SZR. pose proof (g_SZC P Q n k nb kb srcB DB HB) as SZC. pose proof (g_SZK P Q m k mb kb srcA DA HA) as SZK.
  set (tr := dtil m mb) in *. set (tc := dtil n nb) in *. set (tk := dtil k kb) in *. assert (OKr : tiling_ok tr) by (apply dt_ok; assumption). assert (OKc : tiling_ok tc) by (apply dt_ok; assumption). assert (OKk : tiling_ok tk) by (apply dt_ok; assumption).
  assert (Sr : tl_size tr = m) by (apply dt_size; assumption). assert (Sc : tl_size tc = n) by (apply dt_size; assumption). assert (Sk : tl_size tk = k) by (apply dt_size; assumption).
  set (LA := arg_layout (m, k) (mb, kb) (mb, kb) (P, Q) srcA (0, 0)) in *. set (LB := arg_layout (k, n) (kb, nb) (kb, nb) (P, Q) srcB (0, 0)) in *.
  set (E := if (m =? 0) || (n =? 0) then [] else E_general kn P Q LA LB tr tc tk al be).
  apply (every_run_intro (members P Q) (ranks P Q) _ E).
  - intros r R. unfold dist_general, E. rewrite (m_empty_C P Q m n mb nb srcC DC HC r R). destruct ((m =? 0) || (n =? 0)); [reflexivity|].
    rewrite (nrtK P Q LA DA _ _ GAA tk NTK r R) || rewrite (nrtK P Q LA DA (fun c => ax_nr_tiles (DA c 0)) (fun c => ax_nr_tiles (DB c 0)) GAA tk NTK r R). unfold E_general. destruct (tl_n tk =? 0).
    + eapply scale_proj; eassumption.
    + rewrite (proj_flat P Q). apply flat_map_ext_in. intros l Il. apply in_zrange in Il. eapply general_proj; eassumption.
  - unfold E. destruct ((m =? 0) || (n =? 0)); [constructor|]. unfold E_general. destruct (tl_n tk =? 0).
    + eapply (scale_props P Q LA LB DA DB _ _ GAA GAB tr tc be st0).
    + apply forall_flat. intros l Il. eapply general_ok; eassumption.
  - intros st ST. unfold E in ST. clear E. destruct ((m =? 0) || (n =? 0)) eqn:EM.
    + split; [|split; intros i j _ _; unfold dmat; rewrite ST; reflexivity]. intros i j Li Lj. exfalso. apply orb_true_iff in EM. rewrite !Z.eqb_eq in EM. lia.
    + destruct (general_final kn KO P Q LA LB DA DB _ _ GAA GAB tr tc tk OKr OKc OKk NTR NTC al be st0 st ST) as [F1 F2]. rewrite Sr, Sc, Sk in F1. split; [|split].
      * revert F1. apply gemm_meq; [apply EA|apply EB|apply EC|apply EC].
      * intros i j Li Lj. rewrite <- (EA st i j Li Lj), <- (EA st0 i j Li Lj). unfold matrix_in, gather. rewrite F2 by (cbn; lia). reflexivity.
      * intros i j Li Lj. rewrite <- (EB st i j Li Lj), <- (EB st0 i j Li Lj). unfold matrix_in, gather. rewrite F2 by (cbn; lia). reflexivity.
Qed.

(** C30 (Hermitian, distributed). mat_a is m x m with blocks of mb x mb elements, mat_b and mat_c are m x n with blocks of
    mb x nb elements, distributed in the same way, all over the same P x Q grid and from the same rank row. All the ranks call
    hermitian_multiplication(grid, Left, Lower, alpha, mat_a, mat_b, beta, mat_c) (the other values of side and uplo are not implemented
    in the library). If the diagonal of A is real then, whatever the schedulers and MPI do: the ranks' collective calls match, no rank waits for ever, and at the end mat_c holds alpha A B + beta C, where A
    is the Hermitian matrix given by the lower triangle of mat_a; mat_a and mat_b are unchanged. *)
Theorem C30_hermitian_multiplication_distributed : forall (K : starfield) (kn : kernels K), kernels_ok kn ->
  forall P Q m n mb nb srcA srcB DA DB DC,
  distributed P Q (m, m) (mb, mb) (mb, mb) srcA (0, 0) DA ->
  distributed P Q (m, n) (mb, nb) (mb, nb) srcB (0, 0) DB ->
  distributed P Q (m, n) (mb, nb) (mb, nb) srcB (0, 0) DC ->
  fst srcB = fst srcA ->
  forall (al be : F K) (st0 : tstore (mat K)), real_diag m (dmat P Q (mb, mb) srcA 0 st0) ->
  every_run (members P Q) (ranks P Q) (dist_hermitian kn P Q DA DB DC al be) st0 (fun st =>
    is_hemm Left Lower m n al (dmat P Q (mb, mb) srcA 0 st0) (dmat P Q (mb, nb) srcB 1 st0) be (dmat P Q (mb, nb) srcB 2 st0) (dmat P Q (mb, nb) srcB 2 st) /\
    meq m m (dmat P Q (mb, mb) srcA 0 st) (dmat P Q (mb, mb) srcA 0 st0) /\ meq m n (dmat P Q (mb, nb) srcB 1 st) (dmat P Q (mb, nb) srcB 1 st0)).
Proof.
  intros K kn KO P Q m n mb nb srcA srcB DA DB DC HA HB HC SR al be st0 RD.
  pose proof (distributed_axes _ _ _ _ _ _ _ _ HA) as GAA. pose proof (distributed_axes _ _ _ _ _ _ _ _ HB) as GAB.
  destruct (gpos P Q m n m mb nb mb srcA srcB DA DC HA HC) as (P1 & P2 & P3 & P4 & P5 & P6).
  pose proof (g_A (K:=K) P Q m n m mb nb mb srcA srcB srcB DA DC HA HC) as EA. pose proof (g_B (K:=K) P Q m n m mb nb mb srcA srcB srcB DA DB DC HA HB HC) as EB. pose proof (g_C (K:=K) P Q m n m mb nb mb srcA srcB srcB DA DC HA HC SR eq_refl) as EC.
  pose proof (g_ECR P Q m n m mb nb mb srcA srcB DA DC HA HC SR) as ECR. pose proof (g_ECC P Q m n m mb nb mb srcB srcB DB DC HB HC eq_refl) as ECC.
  pose proof (g_ECR P Q m n m mb nb mb srcA srcB DA DB HA HB SR) as EBR.
  pose proof (g_NTR P Q m m mb mb srcA DA HA) as NTR. pose proof (g_NTC P Q n m nb mb srcB DB HB) as NTC. pose proof (g_NTK P Q m n m mb nb mb srcA srcB DA DB HA HB) as NTK.
  pose proof (g_SZR P Q m m mb mb srcA DA HA) as SZR. pose proof (g_SZC P Q n m nb mb srcB DB HB) as SZC. pose proof (g_SZK P Q m m mb mb srcA DA HA) as SZK.
  set (tr := dtil m mb) in *. set (tc := dtil n nb) in *. assert (OKr : tiling_ok tr) by (apply dt_ok; assumption). assert (OKc : tiling_ok tc) by (apply dt_ok; assumption).
  assert (Sr : tl_size tr = m) by (apply dt_size; assumption). assert (Sc : tl_size tc = n) by (apply dt_size; assumption).
  set (LA := arg_layout (m, m) (mb, mb) (mb, mb) (P, Q) srcA (0, 0)) in *. set (LB := arg_layout (m, n) (mb, nb) (mb, nb) (P, Q) srcB (0, 0)) in *.
  set (E := if (m =? 0) || (n =? 0) then [] else E_hermitian kn P Q LA LB tr tc al be).
  apply (every_run_intro (members P Q) (ranks P Q) _ E).
  - intros r R. unfold dist_hermitian, E. rewrite (m_empty_C P Q m n mb nb srcB DB HB r R). destruct ((m =? 0) || (n =? 0)); [reflexivity|].
    rewrite (nrtK P Q LA DA (fun c => ax_nr_tiles (DA c 0)) (fun c => ax_nr_tiles (DB c 0)) GAA tr NTK r R).
    unfold E_hermitian. rewrite (proj_flat P Q). apply flat_map_ext_in. intros l Il. apply in_zrange in Il. eapply hermitian_proj; try eassumption. reflexivity.
  - unfold E. destruct ((m =? 0) || (n =? 0)); [constructor|]. unfold E_hermitian. apply forall_flat. intros l Il. apply in_zrange in Il. eapply hermitian_ok; eassumption.
  - intros st ST. unfold E in ST. clear E. destruct ((m =? 0) || (n =? 0)) eqn:EM.
    + split; [|split; intros i j _ _; unfold dmat; rewrite ST; reflexivity]. intros i j Li Lj. exfalso. apply orb_true_iff in EM. rewrite !Z.eqb_eq in EM. lia.
    + destruct (hermitian_final kn KO P Q LA LB DA DB _ _ GAA GAB tr tc tr OKr OKc NTR NTC al be eq_refl EBR st0 st) as [F1 F2]; [|exact ST|].
      { rewrite Sr. intros i Li. unfold real. rewrite (EA st0 i i Li Li). apply RD. exact Li. }
      rewrite Sr, Sc in F1. split; [|split].
      * revert F1. apply hemm_meq; [apply EA|apply EB|apply EC|apply EC].
      * intros i j Li Lj. rewrite <- (EA st i j Li Lj), <- (EA st0 i j Li Lj). unfold matrix_in, gather. rewrite F2 by (cbn; lia). reflexivity.
      * intros i j Li Lj. rewrite <- (EB st i j Li Lj), <- (EB st0 i j Li Lj). unfold matrix_in, gather. rewrite F2 by (cbn; lia). reflexivity.
Qed.

(** Complex 3 x 4 times 4 x 5 (blocks 2 x 3, 3 x 2) and Hermitian 3 x 3 times 3 x 5 over a 2 x 3 grid: complete runs end with the products. *)
Definition exd_mul : tstore (mat gauss_field) := fun x p q => (Q2Qc (inject_Z (1 + t_row x + 2 * t_col x + p * q)), Q2Qc (inject_Z (2 * (t_row x - t_col x) + p - q))).
Definition exm_al : F gauss_field := (1, 1)%Qc.
Definition exm_be : F gauss_field := (0, 1)%Qc.
Example C30_distributed_multiplication_runs :
  (exists DA DB DC, distributed 2 3 (3, 4) (2, 3) (2, 3) (1, 0) (0, 0) DA /\ distributed 2 3 (4, 5) (3, 2) (3, 2) (0, 2) (0, 0) DB /\ distributed 2 3 (3, 5) (2, 2) (2, 2) (1, 2) (0, 0) DC /\
    exists st, dreach (members 2 3) (ranks 2 3) (dist_general gauss_kernels 2 3 DA DB DC exm_al exm_be) exd_mul st /\ dfinal (ranks 2 3) (dist_general gauss_kernels 2 3 DA DB DC exm_al exm_be) st /\
    is_gemm NoTrans NoTrans 3 5 4 exm_al (dmat 2 3 (2, 3) (1, 0) 0 exd_mul) (dmat 2 3 (3, 2) (0, 2) 1 exd_mul) exm_be (dmat 2 3 (2, 2) (1, 2) 2 exd_mul) (dmat 2 3 (2, 2) (1, 2) 2 (d_store st))) /\
  (exists DA DB DC, distributed 2 3 (3, 3) (2, 2) (2, 2) (1, 0) (0, 0) DA /\ distributed 2 3 (3, 5) (2, 2) (2, 2) (1, 2) (0, 0) DB /\ distributed 2 3 (3, 5) (2, 2) (2, 2) (1, 2) (0, 0) DC /\
    exists st, dreach (members 2 3) (ranks 2 3) (dist_hermitian gauss_kernels 2 3 DA DB DC exm_al exm_be) exd_mul st /\ dfinal (ranks 2 3) (dist_hermitian gauss_kernels 2 3 DA DB DC exm_al exm_be) st /\
    is_hemm Left Lower 3 5 exm_al (dmat 2 3 (2, 2) (1, 0) 0 exd_mul) (dmat 2 3 (2, 2) (1, 2) 1 exd_mul) exm_be (dmat 2 3 (2, 2) (1, 2) 2 exd_mul) (dmat 2 3 (2, 2) (1, 2) 2 (d_store st))).
Proof.
  assert (EX : forall size block src, 0 <= fst size <= 9 -> 0 <= snd size <= 9 -> 0 < fst block < 9 -> 0 < snd block < 9 -> 0 <= fst src < 2 -> 0 <= snd src < 3 -> exists D, distributed 2 3 size block block src (0, 0) D).
  { intros [sr sc] [br bc] [a b] L1 L2 L5 L6 L3 L4. cbn [fst snd] in *. apply distributed_exists.
    - intros pr pc X1 X2 rc. unfold i32_max, i64_max. destruct rc; cbn; repeat split; try lia; exists 1; lia.
    - unfold i32_max. lia.
    - unfold i32_max. lia.
    - intros rc. unfold i32_max, i64_max. destruct rc; cbn; lia. }
  split.
  - destruct (EX (3, 4) (2, 3) (1, 0)) as [DA HA]; try (cbn; lia). destruct (EX (4, 5) (3, 2) (0, 2)) as [DB HB]; try (cbn; lia). destruct (EX (3, 5) (2, 2) (1, 2)) as [DC HC]; try (cbn; lia).
    exists DA, DB, DC. split; [exact HA|]. split; [exact HB|]. split; [exact HC|].
    destruct (every_run_final _ _ _ _ _ (C30_general_multiplication_distributed gauss_field gauss_kernels gauss_kernels_ok 2 3 3 5 4 2 2 3 _ _ _ DA DB DC HA HB HC eq_refl eq_refl exm_al exm_be exd_mul)) as (st & R & F & X & _). exists st. auto.
  - destruct (EX (3, 3) (2, 2) (1, 0)) as [DA HA]; try (cbn; lia). destruct (EX (3, 5) (2, 2) (1, 2)) as [DB HB]; try (cbn; lia). destruct (EX (3, 5) (2, 2) (1, 2)) as [DC HC]; try (cbn; lia).
    exists DA, DB, DC. split; [exact HA|]. split; [exact HB|]. split; [exact HC|].
    assert (RD : real_diag 3 (dmat 2 3 (2, 2) (1, 0) 0 exd_mul)).
    { intros i Li. unfold dmat, exd_mul, real. cbn [t_row t_col fst snd]. set (a := i / 2). set (c := i mod 2). replace (2 * (a - a) + c - c) with 0 by lia.
      change (g_conj (Q2Qc (inject_Z (1 + a + 2 * a + c * c)), Q2Qc (inject_Z 0)) = (Q2Qc (inject_Z (1 + a + 2 * a + c * c)), Q2Qc (inject_Z 0))). unfold g_conj. cbn [fst snd]. apply f_equal. apply Qc_is_canon. reflexivity. }
    destruct (every_run_final _ _ _ _ _ (C30_hermitian_multiplication_distributed gauss_field gauss_kernels gauss_kernels_ok 2 3 3 5 2 2 _ _ DA DB DC HA HB HC eq_refl exm_al exm_be exd_mul RD)) as (st & R & F & X & _). exists st. auto.
Qed.

(** ** Assumptions *)
Print Assumptions C30_general_multiplication_distributed.
Print Assumptions C30_hermitian_multiplication_distributed.
