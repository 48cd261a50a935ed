(** * C29, C30: the distributed triangular solver and triangular multiplication. *)
From Coq Require Import ZArith Lia List Bool Permutation QArith Qcanon.
From Verif Require Import CInt Loop StarField DenseSpec Tiling DenseJobs TileJobs RefKernels TriangularModel TriangularProofs Properties_Triangular DistModel DistSpec DistBuilt DistThms DistCtor DistMachine DistGrid PanelModel PanelProofs Properties_Panel DistMat DistTriModel DistTriProofs.
Import ListNotations.
Local Open Scope Z_scope.

Lemma dloop_updown : forall up n, dloop up 0 n = updown up n.
Proof. intros [] n; unfold dloop, updown; [reflexivity|]. replace (n - 1 + 1) with n by lia. reflexivity. Qed.

Section run.
Context {K : starfield} (kn : kernels K) (KO : kernels_ok kn).
Variables P Q : Z.
Variables LsA LsB : coord -> layout.
Variables DA DB : coord -> Z -> axis.
Variables ntA ntB : coord -> Z.
Hypothesis GAA : grid_axes P Q LsA DA ntA.
Hypothesis GAB : grid_axes P Q LsB DB ntB.
Variables tr tc : tiling.
Hypotheses (OKr : tiling_ok tr) (OKc : tiling_ok tc).
Variables (s : side) (u : uplo) (o : op) (d : diag) (al : F K).
Let ta := match s with Left => tr | Right => tc end.
Let tb := match s with Left => tc | Right => tr end.
Hypothesis SH : forall p, 0 <= p < gs P Q (rcs s) -> DB (rcs s) p = DA (rcs s) p.
Hypothesis NTA : forall c, ntA c = tl_n ta.
Hypothesis NTB : ntB (other (rcs s)) = tl_n tb.
Notation rks := (ranks P Q).
Notation mem := (members P Q).
Hypothesis SZA : forall r c k, In r rks -> 0 <= k < tl_n ta -> szt Q DA r c k = tl_sz ta k.
Hypothesis SZB : forall r k, In r rks -> 0 <= k < tl_n tb -> szt Q DB r (other (rcs s)) k = tl_sz tb k.
Notation lw := (low s u o).
Notation abs := (abs Q LsA LsB s).
Notation js := (zrange 0 (tl_n tb)).
Add Ring KringPDT : (fring K).
Let Oa : tiling_ok ta. Proof. unfold ta. destruct s; assumption. Qed.

Lemma loop_inv : forall (I : list Z -> tstore (mat K) -> Prop) (E : Z -> list (event (mat K))) ks st, I [] st ->
  (forall l1 k l2 st, ks = l1 ++ k :: l2 -> I l1 st -> I (l1 ++ [k]) (erun mem (E k) st)) -> I ks (erun mem (flat_map E ks) st).
Proof.
  clear. intros I E ks st I0 STEP. assert (G : forall l2 l1 st, ks = l1 ++ l2 -> I l1 st -> I ks (erun mem (flat_map E l2) st)).
  { induction l2 as [|k l2 IH]; intros l1 s0 EQ I1; cbn [flat_map].
    - rewrite app_nil_r in EQ. subst l1. exact I1.
    - rewrite erun_app. apply (IH (l1 ++ [k])); [rewrite <- app_assoc; exact EQ|]. apply (STEP l1 k l2); assumption. }
  apply (G ks [] st); [reflexivity|exact I0].
Qed.
(** what the local theorems conclude, from their invariants *)
Definition Term (st : tstore (mat K)) (i k j p q : Z) : F K := fsum 0 (tl_sz ta k) (fun r => fmul (tm s u o d ta st i k p r) (xv s st k j r q)).
Lemma fin_solve : forall st0 st, (forall a b, st (A_ a b) = st0 (A_ a b)) ->
  (forall i j p q, 0 <= i < tl_n ta -> 0 <= j < tl_n tb -> 0 <= p < tl_sz ta i -> 0 <= q < tl_sz tb j -> lsum (updown lw (tl_n ta)) (fun k => Term st i k j p q) = fmul al (xv s st0 i j p q)) ->
  is_trsm s u o d (tl_size tr) (tl_size tc) al (matA tr tc s st0) (matB tr tc st0) (matB tr tc st).
Proof.
  intros st0 st SA DN. apply (meq_oriented tr tc OKr OKc s). intros k j p q Lk Lj Lp Lq. cbv zeta. fold ta tb in Lk, Lj, Lp, Lq |- *.
  rewrite <- (xo_ext tr tc s _ _ _ _ (fun i j => opprod_at tr tc s u o d (matA tr tc s st0) (matB tr tc st) i j)). rewrite (xo_mul tr tc).
  rewrite (matB_tile tr tc OKr OKc s) by assumption. rewrite <- DN by assumption.
  rewrite (opprod_tiles tr tc OKr OKc s u o d) by assumption. fold ta. rewrite (lsum_perm _ _ _ (Permutation_sym (updown_perm lw (tl_n ta)))). apply lsum_ext. intros l Il. apply fsum_ext. intros r Lr.
  rewrite (tm_same s u o d ta st0 _ k l p r SA). reflexivity.
Qed.
Lemma fin_zero : forall st0 st, al = f0 ->
  (forall i j p q, 0 <= i < tl_n ta -> 0 <= j < tl_n tb -> 0 <= p < tl_sz ta i -> 0 <= q < tl_sz tb j -> xv s st i j p q = f0) ->
  is_trsm s u o d (tl_size tr) (tl_size tc) al (matA tr tc s st0) (matB tr tc st0) (matB tr tc st).
Proof.
  intros st0 st Z0 DN. apply (meq_oriented tr tc OKr OKc s). intros k j p q Lk Lj Lp Lq. cbv zeta. fold ta tb in Lk, Lj, Lp, Lq |- *.
  rewrite <- (xo_ext tr tc s _ _ _ _ (fun i j => opprod_at tr tc s u o d (matA tr tc s st0) (matB tr tc st) i j)). rewrite (xo_mul tr tc), Z0.
  rewrite (opprod_tiles tr tc OKr OKc s u o d) by assumption. fold ta. rewrite lsum_0; [ring|]. intros l Il. apply in_zrange in Il. apply fsum_0. intros r Lr.
  rewrite DN by assumption. ring.
Qed.
Lemma fin_mult : forall st0 st,
  (forall i j p q, 0 <= i < tl_n ta -> 0 <= j < tl_n tb -> 0 <= p < tl_sz ta i -> 0 <= q < tl_sz tb j -> xv s st i j p q = fmul al (lsum (updown (negb lw) (tl_n ta)) (fun k => Term st0 i k j p q))) ->
  is_trmm s u o d (tl_size tr) (tl_size tc) al (matA tr tc s st0) (matB tr tc st0) (matB tr tc st).
Proof.
  intros st0 st DN. apply (meq_oriented tr tc OKr OKc s). intros k j p q Lk Lj Lp Lq. cbv zeta. fold ta tb in Lk, Lj, Lp, Lq |- *. rewrite (matB_tile tr tc OKr OKc s) by assumption.
  rewrite (xo_mul tr tc). rewrite <- (xo_ext tr tc s _ _ _ _ (fun i j => opprod_at tr tc s u o d (matA tr tc s st0) (matB tr tc st0) i j)). rewrite (opprod_tiles tr tc OKr OKc s u o d) by assumption.
  rewrite DN by assumption. f_equal. apply lsum_perm. apply updown_perm.
Qed.

(** ** The solver *)
Definition eS (k : Z) : list (event (mat K)) := match o with
  | NoTrans => e_solveN kn P Q LsA LsB DA DB s ta tb al u d lw k
  | _ => e_solveT kn P Q LsA LsB DA DB s ta tb al u d (negb lw) k o end.
Definition pS (r k : Z) : list (act (mat K)) := match o with
  | NoTrans => solve_step_N kn P Q DA DB al s u d lw r k
  | _ => solve_step_T kn P Q DA DB al s u o d (negb lw) (match s, u with Right, Upper => lnt Q DB r Col | _, _ => lnt Q DA r (rcs s) end) r k end.
Lemma solver_prog : forall r, dist_solver kn P Q DA DB al s u o d r = unless_empty Q DB r (flat_map (pS r) (dloop lw 0 (nta Q DA r))).
Proof. intros r. unfold pS. clear. destruct s, u, o; reflexivity. Qed.
Lemma step_proj : forall r k, In r rks -> 0 <= k < tl_n ta -> pS r k = proj mem r (eS k).
Proof.
  intros r k R Lk. assert (E : match s, u with Right, Upper => lnt Q DB r Col | _, _ => lnt Q DA r (rcs s) end = lnt Q DA r (rcs s)).
  { destruct (match s, u with Right, Upper => true | _, _ => false end) eqn:B.
    - pose proof (lntB P Q LsA DA DB ntA GAA s SH r R) as X. revert X B. clear. destruct s, u; try discriminate. intros X _. exact X.
    - revert B. clear. destruct s, u; try discriminate; reflexivity. }
  unfold pS, eS. rewrite E. destruct o.
  - eapply solveN_proj; eassumption.
  - eapply solveT_proj; try eassumption. reflexivity.
  - eapply solveT_proj; try eassumption. reflexivity.
Qed.
Lemma step_ok : forall k, 0 <= k < tl_n ta -> Forall (event_ok mem rks) (eS k).
Proof.
  intros k Lk. unfold eS. destruct o eqn:EO.
  - eapply solveN_ok; eassumption.
  - eapply solveT_ok; try eassumption. destruct (low s u Trans); reflexivity.
  - eapply solveT_ok; try eassumption. destruct (low s u ConjTrans); reflexivity.
Qed.
Lemma aft_lw : forall k, 0 <= k < tl_n ta -> forall i, In i (after_list lw (tl_n ta) k) <-> ulo lw k <= i < uhi ta lw k.
Proof. intros k Lk i. rewrite after_in by exact Lk. unfold ulo, uhi. destruct lw; lia. Qed.
Definition befl (k : Z) : list Z := after_list (negb lw) (tl_n ta) k.
Lemma bef_lw : forall k, 0 <= k < tl_n ta -> forall i, In i (befl k) <-> ulo (negb lw) k <= i < uhi ta (negb lw) k.
Proof. intros k Lk i. unfold befl. rewrite after_in by exact Lk. unfold ulo, uhi. destruct lw; cbn [negb]; lia. Qed.
Lemma befl_ok : forall k, In k (updown lw (tl_n ta)) -> NoDup (befl k) /\ forall i, In i (befl k) <-> 0 <= i < tl_n ta /\ ord s u o i k.
Proof.
  intros k Ik. apply updown_in in Ik. split; [apply after_nodup|]. intros i. unfold befl. rewrite after_in by exact Ik. unfold ord. destruct lw; cbn [negb]; reflexivity.
Qed.
Lemma split_in : forall up n l1 k l2, updown up n = l1 ++ k :: l2 -> 0 <= k < n.
Proof. intros up n l1 k l2 E. apply (updown_in up n). rewrite E. apply in_or_app. right. left. reflexivity. Qed.
Theorem solver_final : forall st0 st, nonsing d ta (abs st0) -> (forall x, st x = erun mem (flat_map eS (updown lw (tl_n ta))) st0 x) ->
  is_trsm s u o d (tl_size tr) (tl_size tc) al (matA tr tc s (abs st0)) (matB tr tc (abs st0)) (matB tr tc (abs st)) /\
  (forall a b, abs st (A_ a b) = abs st0 (A_ a b)).
Proof.
  intros st0 st NS E.
  assert (EA : forall x, abs st x = abs (erun mem (flat_map eS (updown lw (tl_n ta))) st0) x).
  { intros x. unfold DistTriProofs.abs. rewrite !E. reflexivity. }
  assert (EM : forall i j, matB tr tc (abs st) i j = matB tr tc (abs (erun mem (flat_map eS (updown lw (tl_n ta))) st0)) i j).
  { intros i j. unfold matB, gather. rewrite EA. reflexivity. }
  assert (X : is_trsm s u o d (tl_size tr) (tl_size tc) al (matA tr tc s (abs st0)) (matB tr tc (abs st0)) (matB tr tc (abs (erun mem (flat_map eS (updown lw (tl_n ta))) st0))) /\
    (forall a b, abs (erun mem (flat_map eS (updown lw (tl_n ta))) st0) (A_ a b) = abs st0 (A_ a b))).
  2:{ destruct X as [X1 X2]. split; [|intros a b; rewrite EA; apply X2]. revert X1 EM. generalize (matB tr tc (abs st)) (matB tr tc (abs (erun mem (flat_map eS (updown lw (tl_n ta))) st0))). clear.
      intros B B' H EM. unfold is_trsm, meq in *. intros i j Li Lj. rewrite <- (H i j Li Lj). destruct s; unfold mmul; apply fsum_ext; intros k _; rewrite EM; reflexivity. }
  clear E EA EM st. destruct (feq_dec K al f0) as [Z0|NZ].
  - assert (I : ZINV s ta tb js (abs st0) (updown lw (tl_n ta)) (abs (erun mem (flat_map eS (updown lw (tl_n ta))) st0))).
    { apply (loop_inv (fun l st => ZINV s ta tb js (abs st0) l (abs st)) eS).
      - split; [reflexivity|intros i j p q []|reflexivity].
      - intros l1 k l2 st1 EQ I0. pose proof (split_in _ _ _ _ _ EQ) as Lk.
        assert (NS1 : nonsing d ta (abs st1)) by (apply (nonsing_same d ta (abs st0)); [apply (z_a _ _ _ _ _ _ _ I0)|exact NS]).
        unfold eS. destruct (match o with NoTrans => true | _ => false end) eqn:BO.
        + assert (EO : o = NoTrans) by (destruct o; [reflexivity|discriminate|discriminate]).
          apply (ZINV_step kn KO s u o d al ta tb Oa js _ (after_list lw (tl_n ta)) (sweep_solve tr tc s u o) (after_solve tr tc s u o) (dbeta al) Z0 (abs st0) NS l1 k l2 (abs st1) _ EQ I0).
          pose proof (solveN_run kn P Q LsA LsB DA DB ntA ntB GAA GAB s ta tb SH NTA NTB SZA SZB al u d lw k Lk (after_list lw (tl_n ta) k) st1 (aft_lw k Lk)) as H. rewrite EO in *. exact H.
        + assert (TR : o <> NoTrans) by (intros ->; discriminate).
          assert (LO : lw = negb (negb lw)) by (destruct lw; reflexivity).
          apply (ZDOT_step s u o d al ta tb Oa js _ befl (sweep_solve tr tc s u o) (dbeta al) (abs st0) NS Z0 l1 k l2 (abs st1) _ EQ I0).
          pose proof (solveT_run kn KO P Q LsA LsB DA DB ntA ntB GAA GAB s ta tb Oa SH NTA NTB SZA SZB al u d (negb lw) k Lk o TR LO (befl k) st1 (after_nodup _ _ _) (bef_lw k Lk) NS1) as H.
          clear -H TR. destruct o; [contradiction|exact H|exact H]. }
    split; [|apply (z_a _ _ _ _ _ _ _ I)]. apply (fin_zero (abs st0) _ Z0). intros i j p q Li Lj. apply (z_done _ _ _ _ _ _ _ I); [apply updown_in; exact Li|apply in_zrange; exact Lj].
  - assert (C : fmul al (dbeta al) = fopp f1). { unfold dbeta. transitivity (fopp (fmul al (finv al))); [ring|]. rewrite finv_r by exact NZ. reflexivity. }
    destruct (match o with NoTrans => true | _ => false end) eqn:BO.
    + assert (EO : o = NoTrans) by (destruct o; [reflexivity|discriminate|discriminate]).
      assert (I : SINV s u o d al ta tb js (abs st0) (updown lw (tl_n ta)) (abs (erun mem (flat_map eS (updown lw (tl_n ta))) st0))).
      { apply (loop_inv (fun l st => SINV s u o d al ta tb js (abs st0) l (abs st)) eS).
        - split; try reflexivity. + intros i j p q []. + intros i j p q _ _ _ _ _. cbn [lsum fold_right]. ring.
        - intros l1 k l2 st1 EQ I0. pose proof (split_in _ _ _ _ _ EQ) as Lk.
          apply (SINV_step kn KO s u o d al ta tb Oa js _ (after_list lw (tl_n ta)) (sweep_solve tr tc s u o) (after_solve tr tc s u o) (dbeta al) C (abs st0) NS l1 k l2 (abs st1) _ EQ I0).
          pose proof (solveN_run kn P Q LsA LsB DA DB ntA ntB GAA GAB s ta tb SH NTA NTB SZA SZB al u d lw k Lk (after_list lw (tl_n ta) k) st1 (aft_lw k Lk)) as H. unfold eS. rewrite EO in *. exact H. }
      split; [|apply (s_a _ _ _ _ _ _ _ _ _ _ _ I)]. apply fin_solve; [apply (s_a _ _ _ _ _ _ _ _ _ _ _ I)|]. intros i j p q Li Lj Lp Lq.
      apply (s_done _ _ _ _ _ _ _ _ _ _ _ I); [apply updown_in; exact Li|apply in_zrange; exact Lj|exact Lp|exact Lq].
    + assert (TR : o <> NoTrans) by (intros ->; discriminate).
      assert (LO : lw = negb (negb lw)) by (destruct lw; reflexivity).
      assert (I : TINV s u o d al ta tb js (abs st0) (updown lw (tl_n ta)) (abs (erun mem (flat_map eS (updown lw (tl_n ta))) st0))).
      { apply (loop_inv (fun l st => TINV s u o d al ta tb js (abs st0) l (abs st)) eS).
        - apply TINV_nil.
        - intros l1 k l2 st1 EQ I0. pose proof (split_in _ _ _ _ _ EQ) as Lk.
          assert (NS1 : nonsing d ta (abs st1)) by (apply (nonsing_same d ta (abs st0)); [apply (t_a _ _ _ _ _ _ _ _ _ _ _ I0)|exact NS]).
          apply (TINV_step s u o d al ta tb Oa js _ befl (sweep_solve tr tc s u o) befl_ok (dbeta al) (abs st0) C l1 k l2 (abs st1) _ EQ I0).
          pose proof (solveT_run kn KO P Q LsA LsB DA DB ntA ntB GAA GAB s ta tb Oa SH NTA NTB SZA SZB al u d (negb lw) k Lk o TR LO (befl k) st1 (after_nodup _ _ _) (bef_lw k Lk) NS1) as H.
          unfold eS. clear -H TR. destruct o; [contradiction|exact H|exact H]. }
      split; [|apply (t_a _ _ _ _ _ _ _ _ _ _ _ I)]. apply fin_solve; [apply (t_a _ _ _ _ _ _ _ _ _ _ _ I)|]. intros i j p q Li Lj Lp Lq.
      apply (t_done _ _ _ _ _ _ _ _ _ _ _ I); [apply updown_in; exact Li|apply in_zrange; exact Lj|exact Lp|exact Lq].
Qed.
(** ** The multiplication, op = NoTrans *)
Hypothesis NOo : o = NoTrans.
Definition jdir : bool := match s, u with Right, Upper => false | _, _ => true end.
Definition eM (k : Z) : list (event (mat K)) := e_multN kn P Q LsA LsB DA DB s ta tb al u d lw k jdir.
Lemma mult_prog : forall r, dist_multiplication kn P Q DA DB al s u d r = unless_empty Q DB r (flat_map (mult_step_N kn P Q DA DB al s u d lw jdir r) (dloop (negb lw) 0 (nta Q DA r))).
Proof. intros r. rewrite NOo. unfold jdir. clear. destruct s, u; reflexivity. Qed.
Lemma aft_drd : forall k, In k (updown (negb lw) (tl_n ta)) -> NoDup (after_list lw (tl_n ta) k) /\ forall i, In i (after_list lw (tl_n ta) k) <-> 0 <= i < tl_n ta /\ drd s u o i k.
Proof.
  intros k Ik. apply updown_in in Ik. split; [apply after_nodup|]. intros i. rewrite after_in by exact Ik. unfold drd, ord. destruct lw; reflexivity.
Qed.
Theorem mult_final : forall st0 st, (forall x, st x = erun mem (flat_map eM (updown (negb lw) (tl_n ta))) st0 x) ->
  is_trmm s u o d (tl_size tr) (tl_size tc) al (matA tr tc s (abs st0)) (matB tr tc (abs st0)) (matB tr tc (abs st)) /\
  (forall a b, abs st (A_ a b) = abs st0 (A_ a b)).
Proof.
  intros st0 st E.
  assert (EA : forall x, abs st x = abs (erun mem (flat_map eM (updown (negb lw) (tl_n ta))) st0) x).
  { intros x. unfold DistTriProofs.abs. rewrite !E. reflexivity. }
  assert (EM : forall i j, matB tr tc (abs st) i j = matB tr tc (abs (erun mem (flat_map eM (updown (negb lw) (tl_n ta))) st0)) i j).
  { intros i j. unfold matB, gather. rewrite EA. reflexivity. }
  assert (I : MINV s u o d al ta tb js (abs st0) (updown (negb lw) (tl_n ta)) (abs (erun mem (flat_map eM (updown (negb lw) (tl_n ta))) st0))).
  { apply (loop_inv (fun l st => MINV s u o d al ta tb js (abs st0) l (abs st)) eM).
    - split; try reflexivity. intros i j p q [].
    - intros l1 k l2 st1 EQ I0. pose proof (split_in _ _ _ _ _ EQ) as Lk.
      apply (MINV_step kn KO s u o d al ta tb Oa js _ (after_list lw (tl_n ta)) (sweep_mult tr tc s u o) aft_drd (abs st0) l1 k l2 (abs st1) _ EQ I0).
      pose proof (multN_run kn P Q LsA LsB DA DB ntA ntB GAA GAB s ta tb SH NTA NTB SZA SZB al u d lw k Lk jdir (after_list lw (tl_n ta) k) st1 (aft_lw k Lk)) as H. unfold eM. rewrite NOo in *. exact H. }
  split; [|intros a b; rewrite EA; apply (m_a _ _ _ _ _ _ _ _ _ _ _ I)]. intros i j Li Lj. rewrite EM. revert i j Li Lj. apply fin_mult. intros i j p q Li Lj Lp Lq.
  apply (m_done _ _ _ _ _ _ _ _ _ _ _ I); [apply updown_in; exact Li|apply in_zrange; exact Lj|exact Lp|exact Lq].
Qed.
End run.

(** ** Statements about matrices *)
Lemma trsm_ext : forall {K : starfield} s u o d m n al (A A' B B' X X' : mat K), let na := match s with Left => m | Right => n end in
  meq na na A A' -> meq m n B B' -> meq m n X X' -> is_trsm s u o d m n al A B X -> is_trsm s u o d m n al A' B' X'.
Proof.
  intros K s u o d m n al A A' B B' X X' na EA EB EX H i j Li Lj. rewrite <- (EB i j Li Lj). rewrite <- (H i j Li Lj).
  assert (T : forall a b, 0 <= a < na -> 0 <= b < na -> opm o (trim u d A') a b = opm o (trim u d A) a b).
  { intros a b La Lb. unfold opm, trim. destruct o; rewrite ?(EA a b), ?(EA b a) by assumption; reflexivity. }
  unfold na in *. destruct s; unfold mmul; apply fsum_ext; intros r Lr; rewrite T by assumption; rewrite EX by assumption; reflexivity.
Qed.
Lemma trmm_ext : forall {K : starfield} s u o d m n al (A A' B B' X X' : mat K), let na := match s with Left => m | Right => n end in
  meq na na A A' -> meq m n B B' -> meq m n X X' -> is_trmm s u o d m n al A B X -> is_trmm s u o d m n al A' B' X'.
Proof.
  intros K s u o d m n al A A' B B' X X' na EA EB EX H i j Li Lj. rewrite <- (EX i j Li Lj). rewrite (H i j Li Lj).
  assert (T : forall a b, 0 <= a < na -> 0 <= b < na -> opm o (trim u d A') a b = opm o (trim u d A) a b).
  { intros a b La Lb. unfold opm, trim. destruct o; rewrite ?(EA a b), ?(EA b a) by assumption; reflexivity. }
  f_equal. unfold na in *. destruct s; unfold mmul; apply fsum_ext; intros r Lr; rewrite T by assumption; rewrite EB by assumption; reflexivity.
Qed.

Section args.
Context {K : starfield}.
Variables (P Q m n mb nb : Z) (srcA srcB : pair_Z) (DA DB : coord -> Z -> axis) (s : side).
Let na := match s with Left => m | Right => n end.
Let ba := match s with Left => mb | Right => nb end.
Hypothesis HA : distributed P Q (na, na) (ba, ba) (ba, ba) srcA (0, 0) DA.
Hypothesis HB : distributed P Q (m, n) (mb, nb) (mb, nb) srcB (0, 0) DB.
Hypothesis SRC : sel (rcs s) srcA = sel (rcs s) srcB.
Notation LA := (arg_layout (na, na) (ba, ba) (ba, ba) (P, Q) srcA (0, 0)).
Notation LB := (arg_layout (m, n) (mb, nb) (mb, nb) (P, Q) srcB (0, 0)).
Notation tr := (dtil m mb).
Notation tc := (dtil n nb).
Lemma arg_pos : 0 <= m /\ 0 < mb /\ 0 <= n /\ 0 < nb.
Proof. destruct (da_arg _ _ _ _ _ _ HB Row) as (A1 & A2 & _), (da_arg _ _ _ _ _ _ HB Col) as (B1 & B2 & _). auto. Qed.
Lemma arg_SH : forall p, 0 <= p < gs P Q (rcs s) -> DB (rcs s) p = DA (rcs s) p.
Proof.
  intros p Lp. pose proof (da_models _ _ _ _ _ _ HA (rcs s) p Lp) as MA. pose proof (da_models _ _ _ _ _ _ HB (rcs s) p Lp) as MB.
  assert (E : LB (rcs s) = LA (rcs s)).
  { revert SRC. unfold na, ba. clear. destruct s; cbn [rcs sel fst snd]; intros E; unfold arg_layout; cbn [sel fst snd]; rewrite E; reflexivity. }
  rewrite E in MB. eapply models_unique; [exact MB|exact MA|apply same_refl].
Qed.
Lemma arg_NTA : forall c, ax_nr_tiles (DA c 0) = tl_n (match s with Left => tr | Right => tc end).
Proof. intros c. rewrite (da_nt _ _ _ _ _ _ HA). unfold na, ba. clear. destruct c, s; reflexivity. Qed.
Lemma arg_NTB : ax_nr_tiles (DB (other (rcs s)) 0) = tl_n (match s with Left => tc | Right => tr end).
Proof. rewrite (da_nt _ _ _ _ _ _ HB). clear. destruct s; reflexivity. Qed.
Lemma arg_SZA : forall r c k, In r (ranks P Q) -> 0 <= k < tl_n (match s with Left => tr | Right => tc end) -> szt Q DA r c k = tl_sz (match s with Left => tr | Right => tc end) k.
Proof. intros r c k R _. unfold szt. rewrite (da_sz _ _ _ _ _ _ HA) by exact R. unfold na, ba. clear. destruct c, s; reflexivity. Qed.
Lemma arg_SZB : forall r k, In r (ranks P Q) -> 0 <= k < tl_n (match s with Left => tc | Right => tr end) -> szt Q DB r (other (rcs s)) k = tl_sz (match s with Left => tc | Right => tr end) k.
Proof. intros r k R _. unfold szt. rewrite (da_sz _ _ _ _ _ _ HB) by exact R. clear. destruct s; reflexivity. Qed.
Lemma arg_A : forall (st : tstore (mat K)), meq na na (matA tr tc s (abs Q LA LB s st)) (dmat P Q (ba, ba) srcA 0 st).
Proof.
  intros st x y Lx Ly. destruct arg_pos as (A1 & A2 & A3 & A4). unfold matA. assert (E : forall i j, abs Q LA LB s st (Tid 0 0 i j) = st (Tid (drank P Q srcA i j) 0 i j)).
  { intros i j. rewrite <- (da_rank _ _ _ _ _ _ HA). unfold abs, wA, AT. cbn [t_rank t_mat t_row t_col Z.eqb negb]. unfold na, ba. clear. destruct s; reflexivity. }
  transitivity (gather (dtil na ba) (dtil na ba) (fun i j => abs Q LA LB s st (Tid 0 0 i j)) x y); [unfold na, ba; clear; destruct s; reflexivity|].
  rewrite gather_div; [|revert A2 A4; unfold ba; clear; destruct s; auto|revert A2 A4; unfold ba; clear; destruct s; auto|exact Lx|exact Ly]. rewrite E. reflexivity.
Qed.
Lemma arg_B : forall (st : tstore (mat K)), meq m n (matB tr tc (abs Q LA LB s st)) (dmat P Q (mb, nb) srcB 1 st).
Proof.
  intros st x y Lx Ly. destruct arg_pos as (A1 & A2 & A3 & A4). unfold matB. assert (E : forall i j, abs Q LA LB s st (Tid 0 1 i j) = st (Tid (drank P Q srcB i j) 1 i j)).
  { intros i j. rewrite <- (da_rank _ _ _ _ _ _ HB). assert (OW : forall k, tile_owner (LA (rcs s)) k = tile_owner (LB (rcs s)) k).
    { intros k. rewrite (da_own _ _ _ _ _ _ HA), (da_own _ _ _ _ _ _ HB), SRC. reflexivity. }
    unfold abs, wB, BT. cbn [t_rank t_mat t_row t_col Z.eqb negb]. change (1 =? 0) with false. change (1 =? 1) with true. cbv iota. rewrite OW. clear. destruct s; reflexivity. }
  rewrite gather_div by assumption. rewrite E. reflexivity.
Qed.
Lemma arg_empty : forall r, In r (ranks P Q) -> b_empty Q DB r = (m =? 0) || (n =? 0).
Proof.
  intros r R. destruct (da_pos _ _ _ _ _ _ HB) as [HP HQ]. unfold b_empty.
  assert (E : forall c, ax_size (ax Q DB r c) = sel c (m, n)).
  { intros c. assert (M : models (co Q c r) (LB c) (ax Q DB r c)) by (apply (da_models _ _ _ _ _ _ HB); apply (in_ranks_rc P Q HP HQ c) in R; apply R).
    symmetry. exact (ms _ _ _ M). }
  rewrite !E. reflexivity.
Qed.
Lemma arg_nta : forall r, In r (ranks P Q) -> nta Q DA r = tl_n (match s with Left => tr | Right => tc end).
Proof. intros r R. unfold nta. rewrite (rank_nt _ _ _ _ _ (distributed_axes _ _ _ _ _ _ _ _ HA)) by exact R. apply arg_NTA. Qed.
End args.

(** C29 (distributed). mat_b is an m x n matrix, mat_a is square, of the size of the rows (Left) or columns (Right) of
    mat_b, with the same block size; both are distributed over the same P x Q grid, and their first tiles along that
    direction are on the same rank row (Left) or column (Right).  All the ranks call
    triangular_solver(grid, side, uplo, op, diag, alpha, mat_a, mat_b).  If the triangle of mat_a is non singular, then,
    whatever the schedulers and MPI do: the ranks' collective calls match, no rank waits for ever, and at the end mat_b
    holds the solution of op(A) X = alpha B, resp. X op(A) = alpha B, and mat_a is unchanged. *)
Theorem C29_triangular_solve_distributed : forall (K : starfield) (kn : kernels K), kernels_ok kn ->
  forall P Q m n mb nb srcA srcB DA DB s,
  let na := match s with Left => m | Right => n end in let ba := match s with Left => mb | Right => nb end in
  distributed P Q (na, na) (ba, ba) (ba, ba) srcA (0, 0) DA ->
  distributed P Q (m, n) (mb, nb) (mb, nb) srcB (0, 0) DB ->
  match s with Left => fst srcA = fst srcB | Right => snd srcA = snd srcB end ->
  forall u o d (al : F K) (st0 : tstore (mat K)), nonsingular d na (dmat P Q (ba, ba) srcA 0 st0) ->
  every_run (members P Q) (ranks P Q) (dist_solver kn P Q DA DB al s u o d) st0 (fun st =>
    is_trsm s u o d m n al (dmat P Q (ba, ba) srcA 0 st0) (dmat P Q (mb, nb) srcB 1 st0) (dmat P Q (mb, nb) srcB 1 st) /\
    meq na na (dmat P Q (ba, ba) srcA 0 st) (dmat P Q (ba, ba) srcA 0 st0)).
Proof.
  intros K kn KO P Q m n mb nb srcA srcB DA DB s na ba HA HB SRC0 u o d al st0 NS.
  assert (SRC : sel (rcs s) srcA = sel (rcs s) srcB) by (revert SRC0; clear; destruct s; auto). clear SRC0.
  pose proof (distributed_axes _ _ _ _ _ _ _ _ HA) as GAA. pose proof (distributed_axes _ _ _ _ _ _ _ _ HB) as GAB.
  destruct (arg_pos P Q m n mb nb srcB DB HB) as (P1 & P2 & P3 & P4).
  set (tr := dtil m mb). set (tc := dtil n nb). assert (OKr : tiling_ok tr) by (apply dt_ok; assumption). assert (OKc : tiling_ok tc) by (apply dt_ok; assumption).
  assert (Sr : tl_size tr = m) by (apply dt_size; assumption). assert (Sc : tl_size tc = n) by (apply dt_size; assumption).
  pose proof (arg_SH P Q m n mb nb srcA srcB DA DB s HA HB SRC) as SH. pose proof (arg_NTA P Q m n mb nb srcA DA s HA) as NTA. pose proof (arg_NTB P Q m n mb nb srcB DB s HB) as NTB.
  pose proof (arg_SZA P Q m n mb nb srcA DA s HA) as SZA. pose proof (arg_SZB P Q m n mb nb srcB DB s HB) as SZB. fold tr tc in NTA, NTB, SZA, SZB.
  set (LA := arg_layout (na, na) (ba, ba) (ba, ba) (P, Q) srcA (0, 0)) in *. set (LB := arg_layout (m, n) (mb, nb) (mb, nb) (P, Q) srcB (0, 0)) in *.
  pose proof (arg_A (K:=K) P Q m n mb nb srcA srcB DA DB s HA HB) as EA. pose proof (arg_B (K:=K) P Q m n mb nb srcA srcB DA DB s HA HB SRC) as EB. fold na ba in EA. fold tr tc LA LB in EA, EB.
  set (E := if (m =? 0) || (n =? 0) then [] else flat_map (eS kn P Q LA LB DA DB tr tc s u o d al) (updown (low s u o) (tl_n (match s with Left => tr | Right => tc end)))).
  apply (every_run_intro (members P Q) (ranks P Q) _ E).
  - intros r R. rewrite solver_prog. unfold unless_empty, E. rewrite (arg_empty P Q m n mb nb srcB DB HB r R). destruct ((m =? 0) || (n =? 0)); [reflexivity|].
    rewrite (arg_nta P Q m n mb nb srcA DA s HA r R), dloop_updown, (proj_flat P Q). apply flat_map_ext_in. intros k Ik. apply updown_in in Ik.
    eapply step_proj; eassumption.
  - unfold E. destruct ((m =? 0) || (n =? 0)); [constructor|]. apply forall_flat. intros k Ik. apply updown_in in Ik. eapply step_ok; eassumption.
  - intros st ST. unfold E in ST. clear E. destruct ((m =? 0) || (n =? 0)) eqn:EM.
    + split; [|intros i j _ _; unfold dmat; rewrite ST; reflexivity]. intros i j Li Lj. exfalso. apply orb_true_iff in EM. rewrite !Z.eqb_eq in EM. lia.
    + destruct (solver_final kn KO P Q LA LB DA DB _ _ GAA GAB tr tc OKr OKc s u o d al SH NTA NTB SZA SZB st0 st) as [F1 F2]; [|exact ST|].
      * unfold nonsing, nonsingular. destruct d; [|exact I]. intros i Li.
        assert (Li' : 0 <= i < na). { revert Li. unfold na. rewrite <- Sr, <- Sc. clear. destruct s; auto. }
        specialize (NS i Li'). rewrite <- (EA st0 i i Li' Li') in NS. exact NS.
      * rewrite Sr, Sc in F1. split.
        -- revert F1. apply trsm_ext; [apply EA|apply EB|apply EB].
        -- intros i j Li Lj. rewrite <- (EA st i j Li Lj), <- (EA st0 i j Li Lj). unfold matA, gather. rewrite F2. reflexivity.
Qed.
(** C30 (triangular, distributed). As C29, for triangular_multiplication(grid, side, uplo, NoTrans, diag, alpha, mat_a, mat_b)
    (the other values of op are not implemented in the library). *)
Theorem C30_triangular_multiplication_distributed : forall (K : starfield) (kn : kernels K), kernels_ok kn ->
  forall P Q m n mb nb srcA srcB DA DB s,
  let na := match s with Left => m | Right => n end in let ba := match s with Left => mb | Right => nb end in
  distributed P Q (na, na) (ba, ba) (ba, ba) srcA (0, 0) DA ->
  distributed P Q (m, n) (mb, nb) (mb, nb) srcB (0, 0) DB ->
  match s with Left => fst srcA = fst srcB | Right => snd srcA = snd srcB end ->
  forall u d (al : F K) (st0 : tstore (mat K)),
  every_run (members P Q) (ranks P Q) (dist_multiplication kn P Q DA DB al s u d) st0 (fun st =>
    is_trmm s u NoTrans d m n al (dmat P Q (ba, ba) srcA 0 st0) (dmat P Q (mb, nb) srcB 1 st0) (dmat P Q (mb, nb) srcB 1 st) /\
    meq na na (dmat P Q (ba, ba) srcA 0 st) (dmat P Q (ba, ba) srcA 0 st0)).
Proof.
  intros K kn KO P Q m n mb nb srcA srcB DA DB s na ba HA HB SRC0 u d al st0.
  assert (SRC : sel (rcs s) srcA = sel (rcs s) srcB) by (revert SRC0; clear; destruct s; auto). clear SRC0.
  pose proof (distributed_axes _ _ _ _ _ _ _ _ HA) as GAA. pose proof (distributed_axes _ _ _ _ _ _ _ _ HB) as GAB.
  destruct (arg_pos P Q m n mb nb srcB DB HB) as (P1 & P2 & P3 & P4).
  set (tr := dtil m mb). set (tc := dtil n nb). assert (OKr : tiling_ok tr) by (apply dt_ok; assumption). assert (OKc : tiling_ok tc) by (apply dt_ok; assumption).
  assert (Sr : tl_size tr = m) by (apply dt_size; assumption). assert (Sc : tl_size tc = n) by (apply dt_size; assumption).
  pose proof (arg_SH P Q m n mb nb srcA srcB DA DB s HA HB SRC) as SH. pose proof (arg_NTA P Q m n mb nb srcA DA s HA) as NTA. pose proof (arg_NTB P Q m n mb nb srcB DB s HB) as NTB.
  pose proof (arg_SZA P Q m n mb nb srcA DA s HA) as SZA. pose proof (arg_SZB P Q m n mb nb srcB DB s HB) as SZB. fold tr tc in NTA, NTB, SZA, SZB.
  set (LA := arg_layout (na, na) (ba, ba) (ba, ba) (P, Q) srcA (0, 0)) in *. set (LB := arg_layout (m, n) (mb, nb) (mb, nb) (P, Q) srcB (0, 0)) in *.
  pose proof (arg_A (K:=K) P Q m n mb nb srcA srcB DA DB s HA HB) as EA. pose proof (arg_B (K:=K) P Q m n mb nb srcA srcB DA DB s HA HB SRC) as EB. fold na ba in EA. fold tr tc LA LB in EA, EB.
  set (E := if (m =? 0) || (n =? 0) then [] else flat_map (eM kn P Q LA LB DA DB tr tc s u NoTrans d al) (updown (negb (low s u NoTrans)) (tl_n (match s with Left => tr | Right => tc end)))).
  apply (every_run_intro (members P Q) (ranks P Q) _ E).
  - intros r R. rewrite (mult_prog kn P Q DA DB s u NoTrans d al eq_refl). unfold unless_empty, E. rewrite (arg_empty P Q m n mb nb srcB DB HB r R). destruct ((m =? 0) || (n =? 0)); [reflexivity|].
    rewrite (arg_nta P Q m n mb nb srcA DA s HA r R), dloop_updown, (proj_flat P Q). apply flat_map_ext_in. intros k Ik. apply updown_in in Ik.
    eapply multN_proj; eassumption.
  - unfold E. destruct ((m =? 0) || (n =? 0)); [constructor|]. apply forall_flat. intros k Ik. apply updown_in in Ik. eapply multN_ok; eassumption.
  - intros st ST. unfold E in ST. clear E. destruct ((m =? 0) || (n =? 0)) eqn:EM.
    + split; [|intros i j _ _; unfold dmat; rewrite ST; reflexivity]. intros i j Li Lj. exfalso. apply orb_true_iff in EM. rewrite !Z.eqb_eq in EM. lia.
    + destruct (mult_final kn KO P Q LA LB DA DB _ _ GAA GAB tr tc OKr OKc s u NoTrans d al SH NTA NTB SZA SZB eq_refl st0 st ST) as [F1 F2].
      rewrite Sr, Sc in F1. split.
      * revert F1. apply trmm_ext; [apply EA|apply EB|apply EB].
      * intros i j Li Lj. rewrite <- (EA st i j Li Lj), <- (EA st0 i j Li Lj). unfold matA, gather. rewrite F2. reflexivity.
Qed.

(** A 3 x 5 complex matrix in tiles of 2 x 2 over a 2 x 3 grid; mat_a 3 x 3 or 5 x 5, its first tile on another rank of the
    same row (column): a complete run of every variant ends with the solution, resp. the product. *)
Definition exd_tri : tstore (mat gauss_field) := fun x p q => (Q2Qc (inject_Z (1 + t_row x + 2 * t_col x + p + q)), Q2Qc (inject_Z (t_row x + p - q))).
Definition exd_al : F gauss_field := (1, 1)%Qc.
Example C29_distributed_runs : forall s, let na := match s with Left => 3 | Right => 5 end in let srcA := match s with Left => (1, 0) | Right => (0, 2) end in
  exists DA DB, distributed 2 3 (na, na) (2, 2) (2, 2) srcA (0, 0) DA /\ distributed 2 3 (3, 5) (2, 2) (2, 2) (1, 2) (0, 0) DB /\ forall u d,
  (forall o, exists st, dreach (members 2 3) (ranks 2 3) (dist_solver gauss_kernels 2 3 DA DB exd_al s u o d) exd_tri st /\ dfinal (ranks 2 3) (dist_solver gauss_kernels 2 3 DA DB exd_al s u o d) st /\
    is_trsm s u o d 3 5 exd_al (dmat 2 3 (2, 2) srcA 0 exd_tri) (dmat 2 3 (2, 2) (1, 2) 1 exd_tri) (dmat 2 3 (2, 2) (1, 2) 1 (d_store st))) /\
  (exists st, dreach (members 2 3) (ranks 2 3) (dist_multiplication gauss_kernels 2 3 DA DB exd_al s u d) exd_tri st /\ dfinal (ranks 2 3) (dist_multiplication gauss_kernels 2 3 DA DB exd_al s u d) st /\
    is_trmm s u NoTrans d 3 5 exd_al (dmat 2 3 (2, 2) srcA 0 exd_tri) (dmat 2 3 (2, 2) (1, 2) 1 exd_tri) (dmat 2 3 (2, 2) (1, 2) 1 (d_store st))).
Proof.
  intros s na srcA.
  assert (EX : forall size src, 0 <= fst size <= 9 -> 0 <= snd size <= 9 -> 0 <= fst src < 2 -> 0 <= snd src < 3 -> exists D, distributed 2 3 size (2, 2) (2, 2) src (0, 0) D).
  { intros [sr sc] [a b] L1 L2 L3 L4. cbn [fst snd] in *. apply distributed_exists.
    - intros pr pc X1 X2 rc. unfold i32_max, i64_max. destruct rc; cbn; repeat split; try lia; exists 1; reflexivity.
    - unfold i32_max. lia.
    - unfold i32_max. lia.
    - intros rc. unfold i32_max, i64_max. destruct rc; cbn; lia. }
  destruct (EX (na, na) srcA) as [DA HA]; [unfold na; destruct s; cbn; lia|unfold na; destruct s; cbn; lia|unfold srcA; destruct s; cbn; lia|unfold srcA; destruct s; cbn; lia|].
  destruct (EX (3, 5) (1, 2)) as [DB HB]; [cbn; lia|cbn; lia|cbn; lia|cbn; lia|].
  exists DA, DB. split; [exact HA|]. split; [exact HB|]. intros u d.
  assert (BA : (2, 2) = (match s with Left => 2 | Right => 2 end, match s with Left => 2 | Right => 2 end)) by (destruct s; reflexivity).
  assert (HA' : distributed 2 3 (match s with Left => 3 | Right => 5 end, match s with Left => 3 | Right => 5 end) (match s with Left => 2 | Right => 2 end, match s with Left => 2 | Right => 2 end) (match s with Left => 2 | Right => 2 end, match s with Left => 2 | Right => 2 end) srcA (0, 0) DA) by (rewrite <- BA; exact HA).
  assert (SR : match s with Left => fst srcA = fst (1, 2) | Right => snd srcA = snd (1, 2) end) by (unfold srcA; destruct s; reflexivity).
  split.
  - intros o. assert (NS : nonsingular d na (dmat 2 3 (2, 2) srcA 0 exd_tri)).
    { destruct d; [|exact I]. cbn [nonsingular]. intros i Li. unfold dmat, exd_tri. cbn [t_row t_col fst snd]. intros X. apply (f_equal fst) in X. cbn [fst f0 gauss_field] in X. apply (f_equal this) in X.
      set (v := 1 + i / 2 + 2 * (i / 2) + i mod 2 + i mod 2) in *. assert (V : 0 < v) by (pose proof (Z.div_pos i 2 ltac:(lia) ltac:(lia)); pose proof (Z.mod_pos_bound i 2 ltac:(lia)); unfold v; lia).
      change (Qred (inject_Z v) = Qred 0) in X. assert (X' : (inject_Z v == 0)%Q) by (rewrite <- (Qred_correct (inject_Z _)), X; reflexivity).
      unfold Qeq, inject_Z in X'. cbn [Qnum Qden] in X'. lia. }
    pose proof (C29_triangular_solve_distributed gauss_field gauss_kernels gauss_kernels_ok 2 3 3 5 2 2 srcA (1, 2) DA DB s HA' HB SR u o d exd_al exd_tri) as T. cbv zeta in T. rewrite <- BA in T.
    destruct (every_run_final _ _ _ _ _ (T NS)) as (st & R & F & X & _). exists st. auto.
  - pose proof (C30_triangular_multiplication_distributed gauss_field gauss_kernels gauss_kernels_ok 2 3 3 5 2 2 srcA (1, 2) DA DB s HA' HB SR u d exd_al exd_tri) as T. cbv zeta in T. rewrite <- BA in T.
    destruct (every_run_final _ _ _ _ _ T) as (st & R & F & X & _). exists st. auto.
Qed.

(** ** Assumptions *)
Print Assumptions solver_final.
Print Assumptions mult_final.
Print Assumptions C29_triangular_solve_distributed.
Print Assumptions C30_triangular_multiplication_distributed.
