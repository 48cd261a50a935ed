(** * The distributed rank-one solver returns the eigenvalues and orthonormal eigenvectors of diag(d) + rho z z^T, its columns and rows in the order of the distributed partition. *)
From Coq Require Import ZArith Lia List Bool Reals Lra Psatz Permutation.
From Verif Require Import CInt Loop DistModel DistSpec StarField TridiagModel TridiagProofs TridiagDeflation DcSums DcSecular DcModel DcRank1 DcDeflate DcCore DcDistModel.
Import ListNotations.
Local Open Scope R_scope.

Lemma fold_mul_list : forall {A : Type} (f : A -> R) l w, fold_left (fun w t => w * f t) l w = w * fold_right (fun x p => f x * p) 1 l.
Proof. intros A f l. induction l as [|a l IH]; intros w; cbn; [ring|]. rewrite IH. ring. Qed.
Lemma lprodz_ext : forall f g l, (forall x, In x l -> f x = g x) -> lprodz f l = lprodz g l.
Proof. intros f g l H. unfold lprodz. induction l as [|a l IH]; [reflexivity|]. cbn. rewrite (H a) by (left; reflexivity). rewrite IH by (intros; apply H; right; assumption). reflexivity. Qed.
Lemma lprodz_map : forall f (g : Z -> Z) l, lprodz (fun x => f (g x)) l = lprodz f (map g l).
Proof. intros. unfold lprodz. induction l as [|a l IH]; [reflexivity|]. cbn. rewrite IH. reflexivity. Qed.
Lemma fold_map : forall {A B S : Type} (F : S -> B -> S) (g : A -> B) l s, fold_left (fun s p => F s (g p)) l s = fold_left F (map g l) s.
Proof. intros A B S F g l. induction l as [|a l IH]; intros s; [reflexivity|]. cbn. apply IH. Qed.

Section rank1.
Variable laed4 : Z -> Z -> (Z -> R) -> (Z -> R) -> R -> (Z -> R) * R.
Hypothesis LA : laed4_ok laed4.
Variables (ar ac : axis) (nth : Z -> Z -> Z) (k : Z) (k_lc : Z -> Z) (rho : R) (d z evals : Z -> R) (i4 i6 i2 : Z -> Z) (ord : Z -> list (Z * Z)).
Notation n := (d1_n ac).
Notation own := (ax_rank_global_element ac).
Notation rown := (ax_rank_global_element ar).
Hypothesis NTH : forall p c, (1 <= nth p c)%Z.
Hypothesis LK : (1 <= k <= n)%Z.
Hypothesis LG : (1 <= ax_grid ac)%Z.
Hypothesis ORD : forall s, Permutation (ord s) (d1_pairs ac (fun _ => 0%Z) k_lc).
(** the columns of the first k_lc local columns are the kept ones, the others the deflated ones *)
Hypothesis KEPT : Permutation (map (d1_col ac) (d1_pairs ac (fun _ => 0%Z) k_lc)) (filter (fun j => Z.ltb (i6 j) k) (zrange 0 n)).
Hypothesis DEFL : Permutation (map (d1_col ac) (d1_pairs ac k_lc (d1_nloc ac))) (filter (fun j => Z.leb k (i6 j)) (zrange 0 n)).
Hypothesis P6 : is_perm n i6.
Hypothesis P2 : forall j, (0 <= j < n)%Z -> (0 <= i2 j < n)%Z /\ i6 (i2 j) = j.
Hypothesis P4 : is_perm n i4.
Hypothesis OWN : forall j, (0 <= j < n)%Z -> (0 <= own j < ax_grid ac)%Z.
Hypothesis ROWN : forall i, (0 <= i < n)%Z -> (0 <= rown i < ax_grid ar)%Z.
Hypothesis DASC : forall p r, (0 <= p < r)%Z -> (r < k)%Z -> d p < d r.
Hypothesis RHO : (2 <= k)%Z -> 0 < rho.
Hypothesis ZNZ : (2 <= k)%Z -> forall l, (0 <= l < k)%Z -> z l <> 0.
Hypothesis ZN : rsum 0 k (fun l => z l * z l) <= 1.
Notation lam := (r1_lam laed4 k rho d z).
Notation delta := (r1_delta laed4 k rho d z).
Notation cols s := (map (d1_col ac) (ord s)).
Definition kc (c : Z) : bool := ((Z.leb 0 c && Z.ltb c n) && Z.ltb (i6 c) k)%bool.

Lemma cols_perm : forall s, Permutation (cols s) (filter (fun j => Z.ltb (i6 j) k) (zrange 0 n)).
Proof using ORD KEPT. intros s. etransitivity; [apply Permutation_map, ORD|exact KEPT]. Qed.
Lemma cols_nodup : forall s, NoDup (cols s).
Proof using ORD KEPT. intros s. eapply Permutation_NoDup; [symmetry; apply cols_perm|]. apply NoDup_filter, zrange_NoDup. Qed.
Lemma existsb_in : forall c l, existsb (Z.eqb c) l = true <-> In c l.
Proof using. intros c l. rewrite existsb_exists. split; [intros (x & I & E); apply Z.eqb_eq in E; subst; exact I|intros I; exists c; split; [exact I|apply Z.eqb_refl]]. Qed.
Lemma cols_exists : forall s c, existsb (Z.eqb c) (cols s) = kc c.
Proof using ORD KEPT.
  intros s c. apply eq_true_iff_eq. rewrite existsb_in. unfold kc. rewrite !andb_true_iff, Z.leb_le, !Z.ltb_lt. split; intros I.
  - eapply Permutation_in in I; [|apply cols_perm]. apply filter_In in I as [I E]. apply in_zrange in I. apply Z.ltb_lt in E. lia.
  - eapply Permutation_in; [symmetry; apply cols_perm|]. apply filter_In. split; [apply in_zrange; lia|apply Z.ltb_lt; lia].
Qed.
Lemma defl_exists : forall c, existsb (Z.eqb c) (map (d1_col ac) (d1_pairs ac k_lc (d1_nloc ac))) = ((Z.leb 0 c && Z.ltb c n) && Z.leb k (i6 c))%bool.
Proof using DEFL.
  intros c. apply eq_true_iff_eq. rewrite existsb_in. rewrite !andb_true_iff, !Z.leb_le, !Z.ltb_lt. split; intros I.
  - eapply Permutation_in in I; [|apply DEFL]. apply filter_In in I as [I E]. apply in_zrange in I. apply Z.leb_le in E. lia.
  - eapply Permutation_in; [symmetry; apply DEFL|]. apply filter_In. split; [apply in_zrange; lia|apply Z.leb_le; lia].
Qed.
Lemma kc_in : forall c, kc c = true -> (0 <= c < n)%Z /\ (0 <= i6 c < k)%Z.
Proof using P6. intros c K. unfold kc in K. rewrite !andb_true_iff, Z.leb_le, !Z.ltb_lt in K. pose proof (is_perm_in n i6 c P6 ltac:(lia)). lia. Qed.
Lemma kc_true : forall c, (0 <= c < n)%Z -> (i6 c < k)%Z -> kc c = true.
Proof using. intros c L1 L2. unfold kc. lia. Qed.
Lemma pair_col : forall s p, In p (ord s) -> kc (d1_col ac p) = true.
Proof using ORD KEPT. intros s p I. rewrite <- (cols_exists s). apply existsb_in, in_map, I. Qed.

Lemma step0_at : forall c, d1_step0 ac k k_lc d i6 evals c = if ((Z.leb 0 c && Z.ltb c n) && Z.leb k (i6 c))%bool then d (i6 c) else evals c.
Proof using LK P6 DEFL.
  intros c. unfold d1_step0. destruct (Z.ltb_spec k n) as [L|L].
  - rewrite (fold_map (fun ev j => upd ev j (d (i6 j)))). rewrite (fold_upd (fun j => d (i6 j))). rewrite defl_exists. reflexivity.
  - destruct (Z.leb_spec 0 c), (Z.ltb_spec c n); cbn [andb]; try reflexivity. pose proof (is_perm_in n i6 c P6 ltac:(lia)). destruct (Z.leb_spec k (i6 c)); [lia|reflexivity].
Qed.
Lemma step1_at : forall ev0 q ev q1, d1_step1 laed4 ac k rho d z i4 i6 (ord 1) ev0 q = (ev, q1) ->
  (forall c, ev c = if kc c then lam (i6 c) else ev0 c) /\
  (forall r c, q1 r c = if (kc c && ((Z.leb 0 r && Z.ltb r n) && Z.ltb (i4 r) k))%bool then delta (i6 c) (i4 r) else q r c).
Proof using ORD KEPT.
  intros ev0 q ev q1 E. unfold d1_step1 in E.
  set (F := fun (q : Z -> Z -> R) j r c => if ((Z.eqb c j) && (Z.leb 0 r) && (Z.ltb r n) && (Z.ltb (i4 r) k))%bool then delta (i6 j) (i4 r) else q r c).
  assert (X : forall l ev q, fold_left (fun s p => let '(ev, q) := s in let j := d1_col ac p in let '(delta, lam) := laed4 k (i6 j) d z rho in
      (upd ev j lam, fun r c => if ((Z.eqb c j) && (Z.leb 0 r) && (Z.ltb r n) && (Z.ltb (i4 r) k))%bool then delta (i4 r) else q r c)) l (ev, q) =
     (fold_left (fun ev j => upd ev j (lam (i6 j))) (map (d1_col ac) l) ev, fold_left F (map (d1_col ac) l) q)).
  { induction l as [|a l IH]; intros ev1 q0; [reflexivity|]. cbn [fold_left map]. rewrite <- IH. unfold r1_lam. unfold F at 1. unfold r1_delta. cbv zeta. destruct (laed4 k (i6 (d1_col ac a)) d z rho) as [de la]. reflexivity. }
  rewrite X in E. injection E as E1 E2. subst ev q1. split.
  - intros c. rewrite (fold_upd (fun j => lam (i6 j))). rewrite cols_exists. reflexivity.
  - intros r c. rewrite (fold_cols (fun j col r => if ((Z.leb 0 r) && (Z.ltb r n) && (Z.ltb (i4 r) k))%bool then delta (i6 j) (i4 r) else col r)).
    + rewrite cols_exists. destruct (kc c); cbn [andb]; reflexivity.
    + intros j a b H r'. rewrite H. reflexivity.
    + intros q0 j r' c'. unfold F. destruct (Z.eqb_spec c' j) as [->|]; cbn [andb]; reflexivity.
    + apply cols_nodup.
Qed.

(** ** Weights *)
Lemma pairs_in : forall p, In p (d1_pairs ac (fun _ => 0%Z) k_lc) <-> (0 <= fst p < ax_grid ac)%Z /\ (0 <= snd p < k_lc (fst p))%Z.
Proof using.
  intros [c l]. unfold d1_pairs. rewrite in_flat_map. cbn [fst snd]. split.
  - intros (x & I & J). apply in_zrange in I. apply in_map_iff in J as (y & E & J). injection E as <- <-. apply in_zrange in J. lia.
  - intros (I & J). exists c. split; [apply in_zrange; lia|]. apply in_map_iff. exists l. split; [reflexivity|apply in_zrange; lia].
Qed.
Lemma thread_in : forall i p, In p (d1_pairs ac (fun _ => 0%Z) k_lc) -> (0 <= d1_thread ar nth k_lc i p < nth (rown i) (fst p))%Z.
Proof using NTH.
  intros i p I. apply pairs_in in I as [I J]. unfold d1_thread. set (nt := nth (rown i) (fst p)). pose proof (NTH (rown i) (fst p)) as NP. fold nt in NP. set (K := k_lc (fst p)) in *.
  assert (B : (0 < ceilDiv K nt)%Z /\ (K <= ceilDiv K nt * nt)%Z).
  { unfold ceilDiv. rewrite Z.quot_div_nonneg by lia. pose proof (Z.div_mod (K + nt - 1) nt ltac:(lia)). pose proof (Z.mod_pos_bound (K + nt - 1) nt ltac:(lia)). nia. }
  destruct B as [B1 B2]. split; [apply Z.div_pos; lia|]. apply Z.div_lt_upper_bound; lia.
Qed.
Definition wprod (ws : Z -> Z -> Z -> R) (i : Z) : R := lprodz (fun c => lprodz (fun t => ws c t i) (zrange 0 (nth (rown i) c))) (zrange 0 (ax_grid ac)).
Lemma weights_at : forall ws i, d1_weights ar ac nth z i4 ws i = copysign (sqrt (- wprod ws i)) (z (i4 i)).
Proof using NTH LG.
  intros ws i. unfold d1_weights. cbv zeta. do 3 f_equal. unfold wprod.
  assert (LOC : forall c, fold_left (fun w t => w * ws c t i) (zrange 1 (nth (rown i) c)) (ws c 0%Z i) = lprodz (fun t => ws c t i) (zrange 0 (nth (rown i) c))).
  { intros c. rewrite fold_mul_list. rewrite (zrange_cons 0 (nth (rown i) c)) by (pose proof (NTH (rown i) c); lia). reflexivity. }
  rewrite (fold_mul_list (fun c => fold_left (fun w t => w * ws c t i) (zrange 1 (nth (rown i) c)) (ws c 0%Z i))). rewrite LOC.
  rewrite (zrange_cons 0 (ax_grid ac)) by lia. unfold lprodz at 2. cbn [fold_right]. f_equal. apply (lprodz_ext _ _ (zrange (0 + 1) (ax_grid ac))). intros c _. apply LOC.
Qed.
Definition wfac (q : Z -> Z -> R) (i j : Z) : R := if Z.eqb (i4 i) (i6 j) then 1 else q i j / (d (i4 i) - d (i6 j)).
Lemma step2b_prod : forall q ws i, (0 <= i < n)%Z -> (i4 i < k)%Z -> wprod (d1_step2b ar ac nth k k_lc d i4 i6 (ord 2) q ws) i = wprod ws i * lprodz (wfac q i) (cols 2).
Proof using NTH ORD.
  intros q ws i Li Lk. unfold d1_step2b.
  assert (IN : forall p, In p (ord 2) -> In p (d1_pairs ac (fun _ => 0%Z) k_lc)) by (intros p I; eapply Permutation_in; [apply ORD|exact I]).
  revert ws. revert IN. generalize (ord 2) as l. induction l as [|p l IH]; intros IN ws; [unfold lprodz at 1; cbn; ring|]. cbn [fold_left map]. rewrite IH by (intros; apply IN; right; assumption).
  change (lprodz (wfac q i) (d1_col ac p :: map (d1_col ac) l)) with (wfac q i (d1_col ac p) * lprodz (wfac q i) (map (d1_col ac) l)). rewrite <- Rmult_assoc. f_equal.
  pose proof (IN p (or_introl eq_refl)) as IP. pose proof (thread_in i p IP) as TI. apply pairs_in in IP as [IC _]. unfold wprod. set (j := d1_col ac p). set (t0 := d1_thread ar nth k_lc i p) in *.
  set (g := fun c t => if (Z.eqb c (fst p) && Z.eqb t t0)%bool then wfac q i j else 1).
  assert (W : forall c t, (if (Z.eqb c (fst p) && Z.leb 0 i && Z.ltb i n && Z.eqb t t0)%bool then
        if Z.leb k (i4 i) then ws c t i else if Z.eqb (i4 i) (i6 j) then ws c t i else ws c t i * (q i j / (d (i4 i) - d (i6 j))) else ws c t i) = ws c t i * g c t).
  { intros c t. unfold g, wfac. replace (Z.leb 0 i) with true by lia. replace (Z.ltb i n) with true by lia. rewrite !andb_true_r. replace (Z.leb k (i4 i)) with false by lia.
    destruct (Z.eqb c (fst p) && Z.eqb t t0)%bool; [|ring]. destruct (Z.eqb (i4 i) (i6 j)); ring. }
  rewrite (lprodz_ext _ (fun c => lprodz (fun t => ws c t i) (zrange 0 (nth (rown i) c)) * lprodz (fun t => g c t) (zrange 0 (nth (rown i) c)))).
  - rewrite lprodz_mul. f_equal. rewrite (lprodz_one _ _ (fst p)).
    + rewrite (lprodz_one _ _ t0); [unfold g; rewrite !Z.eqb_refl; reflexivity|apply zrange_NoDup|apply in_zrange; lia|].
      intros x _ N. unfold g. destruct (Z.eqb_spec x t0); [contradiction|]. rewrite andb_false_r. reflexivity.
    + apply zrange_NoDup.
    + apply in_zrange. lia.
    + intros c _ N. unfold g. destruct (Z.eqb_spec c (fst p)); [contradiction|]. cbn [andb]. clear. unfold lprodz. induction (zrange 0 (nth (rown i) c)) as [|a l0 IH0]; [reflexivity|]. cbn. rewrite IH0. ring.
  - intros c _. rewrite <- lprodz_mul. apply lprodz_ext. intros t _. apply W.
Qed.
Lemma init_prod : forall q i, (0 <= i < n)%Z -> (i4 i < k)%Z -> wprod (d1_init ac k i4 i2 q) i = q i (i2 (i4 i)).
Proof using NTH LG LK P2 P4 OWN.
  intros q i Li Lk. pose proof (is_perm_in n i4 i P4 Li) as L4. destruct (P2 (i4 i) L4) as [LJ _]. pose proof (OWN _ LJ) as LO. unfold wprod. set (j := i2 (i4 i)) in *.
  assert (G : forall c, lprodz (fun t => d1_init ac k i4 i2 q c t i) (zrange 0 (nth (rown i) c)) = if Z.eqb c (own j) then q i j else 1).
  { intros c. rewrite (lprodz_one _ _ 0%Z).
    - unfold d1_init. cbn [Z.eqb]. replace (Z.leb k (i4 i)) with false by lia. reflexivity.
    - apply zrange_NoDup.
    - apply in_zrange. pose proof (NTH (rown i) c). lia.
    - intros t _ N. unfold d1_init. destruct (Z.eqb_spec t 0); [contradiction|reflexivity]. }
  rewrite (lprodz_ext _ (fun c => if Z.eqb c (own j) then q i j else 1)) by (intros; apply G). rewrite (lprodz_one _ _ (own j)).
  - rewrite Z.eqb_refl. reflexivity.
  - apply zrange_NoDup.
  - apply in_zrange. lia.
  - intros c _ N. destruct (Z.eqb_spec c (own j)); [contradiction|reflexivity].
Qed.
Lemma i6_cols : forall s, Permutation (map i6 (cols s)) (zrange 0 k).
Proof using ORD KEPT P6 LK.
  intros s. etransitivity; [apply Permutation_map, cols_perm|]. apply NoDup_Permutation.
  - apply (NoDup_map_inv (fun x => x)). rewrite map_id. apply (Permutation_NoDup (l := filter (fun x => Z.ltb x k) (map i6 (zrange 0 n)))).
    + assert (X : forall l, filter (fun x => Z.ltb x k) (map i6 l) = map i6 (filter (fun j => Z.ltb (i6 j) k) l)). { induction l as [|a l IH]; [reflexivity|]. cbn. destruct (Z.ltb (i6 a) k); cbn; rewrite IH; reflexivity. }
      rewrite X. reflexivity.
    + apply NoDup_filter. eapply Permutation_NoDup; [symmetry; exact P6|apply zrange_NoDup].
  - apply zrange_NoDup.
  - intros x. rewrite in_map_iff, in_zrange. split.
    + intros (j & <- & I). apply filter_In in I as [I E]. apply in_zrange in I. apply Z.ltb_lt in E. pose proof (is_perm_in n i6 j P6 I). lia.
    + intros L. destruct (is_perm_onto n i6 x P6 ltac:(lia)) as (j & Lj & <-). exists j. split; [reflexivity|]. apply filter_In. split; [apply in_zrange; exact Lj|apply Z.ltb_lt; lia].
Qed.

Theorem solve_rank1_dist_ok : exists ev q', solve_rank1_dist laed4 ar ac nth k k_lc rho d z i4 i6 i2 ord evals (fun _ _ => 0) = (ev, q') /\
  (forall j, (0 <= j < n)%Z -> ev j = if Z.ltb (i6 j) k then lam (i6 j) else d (i6 j)) /\ (forall j, ~ (0 <= j < n)%Z -> ev j = evals j) /\ (forall a b, (0 <= a <= b)%Z -> (b < k)%Z -> lam a <= lam b) /\
  exists U, orthonormal k U /\ (forall i j, (0 <= i < n)%Z -> (0 <= j < n)%Z -> (i6 j < k)%Z -> q' i j = if Z.ltb (i4 i) k then U (i4 i) (i6 j) else 0) /\
    forall y, rsum 0 k (fun j => lam j * (coord k U y j * coord k U y j)) = rsum 0 k (fun i => d i * (y i * y i)) + rho * (dot k z y * dot k z y).
Proof using LA NTH LK LG ORD KEPT DEFL P6 P2 P4 OWN ROWN DASC RHO ZNZ ZN.
  unfold solve_rank1_dist. destruct (d1_step1 laed4 ac k rho d z i4 i6 (ord 1) (d1_step0 ac k k_lc d i6 evals) (fun _ _ => 0)) as [ev q1] eqn:E1. destruct (step1_at _ _ _ _ E1) as [EV Q1].
  assert (EVI : forall j, (0 <= j < n)%Z -> ev j = if Z.ltb (i6 j) k then lam (i6 j) else d (i6 j)).
  { intros j Lj. rewrite EV, step0_at. unfold kc. replace (Z.leb 0 j) with true by lia. replace (Z.ltb j n) with true by lia. cbn [andb]. destruct (Z.ltb_spec (i6 j) k), (Z.leb_spec k (i6 j)); reflexivity || lia. }
  assert (EVO : forall j, ~ (0 <= j < n)%Z -> ev j = evals j).
  { intros j Lj. rewrite EV, step0_at. unfold kc. replace (Z.leb 0 j && Z.ltb j n)%bool with false by lia. reflexivity. }
  assert (Q1I : forall i j, (0 <= i < n)%Z -> kc j = true -> q1 i j = if Z.ltb (i4 i) k then delta (i6 j) (i4 i) else 0).
  { intros i j Li Kj. rewrite Q1, Kj. replace (Z.leb 0 i && Z.ltb i n)%bool with true by lia. cbn [andb]. reflexivity. }
  assert (R4 : forall i, (0 <= i < n)%Z -> (0 <= i4 i < n)%Z) by (intros; apply is_perm_in; assumption).
  assert (LASC : forall a b, (0 <= a <= b)%Z -> (b < k)%Z -> lam a <= lam b).
  { intros a b La Lb. destruct (Z.eq_dec a b) as [->|N]; [lra|]. apply Rlt_le, lam_asc; assumption || lia. }
  destruct (Z.leb_spec k 2) as [K2|K2].
  - exists ev, q1. split; [reflexivity|]. split; [exact EVI|]. split; [exact EVO|]. split; [exact LASC|]. destruct (Z.eq_dec k 2) as [EK|NK].
    + assert (L2 : (2 <= k)%Z) by lia. pose proof (RHO L2) as RH. set (U := fun l j => delta j l). exists U.
      assert (LF := lam_facts laed4 LA k rho d z DASC RHO ZNZ ZN L2). assert (DL := d_lam laed4 LA k rho d z DASC RHO ZNZ ZN L2). assert (LN := lam_neq laed4 LA k rho d z DASC RHO ZNZ ZN L2).
      assert (EIG : forall i j, (0 <= i < k)%Z -> (0 <= j < k)%Z -> d i * U i j + rho * z i * rsum 0 k (fun l => z l * U l j) = lam j * U i j).
      { intros i j Li Lj. destruct (LF j Lj) as (_ & _ & SEC & D2 & _). destruct (D2 EK) as (_ & c & HC).
        apply (secular_eigenvector k d (lam j) rho z c (fun l => U l j)); [intros l Ll; apply DL; assumption|exact SEC|exact HC|exact Li]. }
      assert (UN : forall j, (0 <= j < k)%Z -> rsum 0 k (fun i => U i j * U i j) = 1).
      { intros j Lj. destruct (LF j Lj) as (_ & _ & _ & D2 & _). apply (D2 EK). }
      split; [|split].
      * apply (rank1_orthonormal k d lam rho z U); assumption.
      * intros i j Li Lj L6. rewrite Q1I by (assumption || (apply kc_true; assumption)). reflexivity.
      * intros y. rewrite <- (rank1_form k d lam rho z U) by (assumption || lia). reflexivity.
    + assert (EK : k = 1%Z) by lia. destruct (laed4 k 0%Z d z rho) as [de la] eqn:EL. destruct (LA k 0%Z d z rho de la ltac:(lia) EL) as [H1 _]. destruct (H1 EK) as [HL HD].
      assert (L0 : lam 0%Z = la) by (unfold r1_lam; rewrite EL; reflexivity). assert (D0 : delta 0%Z 0%Z = 1) by (unfold r1_delta; rewrite EL; exact HD).
      assert (S1 : forall f, rsum 0 k f = f 0%Z) by (intros f; rewrite EK, rsum_cons, rsum_nil by lia; ring).
      exists (fun _ _ => 1). split; [|split].
      * intros a b La Lb. assert (a = 0%Z) as -> by lia. assert (b = 0%Z) as -> by lia. rewrite S1, kron_eq. ring.
      * intros i j Li Lj L6. pose proof (kc_true j Lj L6) as KJ. rewrite Q1I by assumption. destruct (kc_in j KJ). pose proof (R4 i Li). destruct (Z.ltb_spec (i4 i) k); [|reflexivity].
        replace (i6 j) with 0%Z by lia. replace (i4 i) with 0%Z by lia. exact D0.
      * intros y. unfold coord, dot. rewrite !S1. rewrite L0, HL by lia. ring.
  - assert (L2 : (2 <= k)%Z) by lia. assert (K3 : (3 <= k)%Z) by lia. pose proof (RHO L2) as RH. pose proof (ZNZ L2) as ZZ.
    assert (LF := lam_facts laed4 LA k rho d z DASC RHO ZNZ ZN L2). assert (DL := d_lam laed4 LA k rho d z DASC RHO ZNZ ZN L2). assert (LN := lam_neq laed4 LA k rho d z DASC RHO ZNZ ZN L2).
    set (Qx := fun r c => d r - lam c).
    assert (Q1D : forall i j, (0 <= i < n)%Z -> kc j = true -> (i4 i < k)%Z -> q1 i j = Qx (i4 i) (i6 j)).
    { intros i j Li Kj L4. rewrite Q1I by assumption. destruct (Z.ltb_spec (i4 i) k); [|lia]. destruct (kc_in j Kj). pose proof (R4 i Li). apply (LF (i6 j) ltac:(lia)); lia. }
    set (w := d1_weights ar ac nth z i4 (d1_step2b ar ac nth k k_lc d i4 i6 (ord 2) q1 (d1_init ac k i4 i2 q1))).
    assert (WV : forall i, (0 <= i < n)%Z -> (i4 i < k)%Z -> w i = sqrt rho * z (i4 i)).
    { intros i Li L4. pose proof (R4 i Li) as L4'. unfold w. rewrite weights_at. rewrite step2b_prod, init_prod by assumption. destruct (P2 (i4 i) L4') as [LJ EJ]. rewrite Q1D; [|exact Li|apply kc_true; lia|exact L4]. rewrite EJ.
      rewrite (lprodz_ext (wfac q1 i) (fun j => zfac d Qx (i4 i) (i6 j))).
      - rewrite (lprodz_map (zfac d Qx (i4 i)) i6). rewrite (lprodz_perm _ _ _ (i6_cols 2)).
        rewrite (weight_value laed4 LA k rho d z DASC RHO ZNZ ZN K3 Qx (i4 i)) by (lia || reflexivity). apply copysign_weight. exact RH.
      - intros j I. unfold wfac, zfac. destruct (Z.eqb (i4 i) (i6 j)); [reflexivity|]. rewrite Q1D; [reflexivity|exact Li| |exact L4]. rewrite <- (cols_exists 2). apply existsb_in. exact I. }
    set (q2 := d1_step3a ac k i4 (ord 3) w q1).
    assert (Q2 : forall i j, (0 <= i < n)%Z -> kc j = true -> q2 i j = if Z.ltb (i4 i) k then sqrt rho * z (i4 i) / Qx (i4 i) (i6 j) else 0).
    { intros i j Li Kj. unfold q2, d1_step3a.
      rewrite (fold_map (fun (q : Z -> Z -> R) j r c => if ((Z.eqb c j) && (Z.leb 0 r) && (Z.ltb r n) && negb (Z.leb k (i4 r)))%bool then (w r / q r j)%R else q r c)).
      rewrite (fold_cols (fun j col r => if ((Z.leb 0 r) && (Z.ltb r n) && negb (Z.leb k (i4 r)))%bool then (w r / col r)%R else col r)).
      - rewrite cols_exists, Kj. replace (Z.leb 0 i && Z.ltb i n)%bool with true by lia. cbn [andb]. destruct (Z.ltb_spec (i4 i) k), (Z.leb_spec k (i4 i)); try lia; cbn [negb].
        + rewrite WV, Q1D by assumption. reflexivity.
        + rewrite Q1I by assumption. destruct (Z.ltb_spec (i4 i) k); [lia|reflexivity].
      - intros j' a b H r. rewrite !H. reflexivity.
      - intros q0 j' r c. destruct (Z.eqb_spec c j') as [->|]; cbn [andb]; reflexivity.
      - apply cols_nodup. }
    set (sv := fun l j => sqrt rho * z l / Qx l j). set (SS := fun j => rsum 0 k (fun l => sv l j * sv l j)).
    assert (SQ : forall j, kc j = true -> d1_squares ar ac q2 j = SS (i6 j)).
    { intros j Kj. unfold d1_squares. rewrite rsum_swap. rewrite (rsum_ext 0 n _ (fun i => (fun l => if Z.ltb l k then sv l (i6 j) * sv l (i6 j) else 0) (i4 i))).
      - rewrite (rsum_perm n i4 (fun l => if Z.ltb l k then sv l (i6 j) * sv l (i6 j) else 0) P4). rewrite (rsum_app 0 k n) by lia. rewrite (rsum_0 k n) by (intros l Ll; destruct (Z.ltb_spec l k); [lia|reflexivity]).
        rewrite Rplus_0_r. apply rsum_ext. intros l Ll. destruct (Z.ltb_spec l k); [reflexivity|lia].
      - intros i Li. rewrite (rsum_one 0 (ax_grid ar) _ (rown i)).
        + rewrite Z.eqb_refl. rewrite !Q2 by assumption. destruct (Z.ltb (i4 i) k); [reflexivity|ring].
        + apply ROWN. exact Li.
        + intros p _ N. destruct (Z.eqb_spec (rown i) p); [congruence|reflexivity]. }
    eexists ev, _. split; [reflexivity|]. split; [exact EVI|]. split; [exact EVO|]. split; [exact LASC|].
    set (nrm := fun j => sqrt (SS j)). set (U := fun l j => 1 / nrm j * sv l j). exists U.
    assert (NP : forall j, (0 <= j < k)%Z -> 0 < SS j).
    { intros j Lj. apply Rlt_le_trans with (sv 0%Z j * sv 0%Z j).
      - assert (sv 0%Z j <> 0). { unfold sv, Qx. pose proof (DL 0%Z j ltac:(lia) Lj). assert (sqrt rho <> 0) by (apply Rgt_not_eq, sqrt_lt_R0; exact RH).
          unfold Rdiv. apply Rmult_integral_contrapositive. split; [apply Rmult_integral_contrapositive; split; [assumption|apply ZZ; lia]|]. apply Rinv_neq_0_compat. lra. }
        nra.
      - apply (rsum_ge_one 0 k (fun i => sv i j * sv i j)); [intros; nra|lia]. }
    assert (NRM : forall j, (0 <= j < k)%Z -> nrm j <> 0 /\ nrm j * nrm j = SS j).
    { intros j Lj. specialize (NP j Lj). unfold nrm. split; [apply Rgt_not_eq, sqrt_lt_R0; exact NP|apply sqrt_sqrt; lra]. }
    assert (UN : forall j, (0 <= j < k)%Z -> rsum 0 k (fun i => U i j * U i j) = 1).
    { intros j Lj. destruct (NRM j Lj) as [N1 N2]. rewrite (rsum_ext 0 k _ (fun i => / (nrm j * nrm j) * (sv i j * sv i j))) by (intros; unfold U; field; exact N1).
      rewrite rsum_mul_l. fold (SS j). rewrite <- N2. field. exact N1. }
    assert (EIG : forall i j, (0 <= i < k)%Z -> (0 <= j < k)%Z -> d i * U i j + rho * z i * rsum 0 k (fun l => z l * U l j) = lam j * U i j).
    { intros i j Li Lj. destruct (LF j Lj) as (_ & _ & SEC & _). destruct (NRM j Lj) as [N1 N2].
      apply (secular_eigenvector k d (lam j) rho z (sqrt rho / nrm j) (fun l => U l j)); [intros l Ll; apply DL; assumption|exact SEC| |exact Li].
      intros l Ll. unfold U, sv, Qx. pose proof (DL l j Ll Lj). field. split; (exact N1 || lra). }
    split; [|split].
    + apply (rank1_orthonormal k d lam rho z U); assumption.
    + intros i j Li Lj L6. pose proof (kc_true j Lj L6) as KJ. unfold d1_step3c.
      rewrite (fold_map (fun (q : Z -> Z -> R) j r c => if ((Z.eqb c j) && (Z.leb 0 r) && (Z.ltb r n))%bool then (1 / sqrt (d1_squares ar ac q2 j) * q r j)%R else q r c)).
      rewrite (fold_cols (fun j col r => if ((Z.leb 0 r) && (Z.ltb r n))%bool then (1 / sqrt (d1_squares ar ac q2 j) * col r)%R else col r)).
      * rewrite cols_exists, KJ. replace (Z.leb 0 i && Z.ltb i n)%bool with true by lia. rewrite SQ, Q2 by assumption. destruct (Z.ltb (i4 i) k); [reflexivity|ring].
      * intros j' a b H r. rewrite !H. reflexivity.
      * intros q0 j' r c. destruct (Z.eqb_spec c j') as [->|]; cbn [andb]; reflexivity.
      * apply cols_nodup.
    + intros y. rewrite <- (rank1_form k d lam rho z U) by (assumption || lia). reflexivity.
Qed.
End rank1.
