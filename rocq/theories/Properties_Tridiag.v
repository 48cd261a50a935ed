(** * C34, C35: index bookkeeping and subproblem schedule of the divide and conquer tridiagonal solver. *)
From Coq Require Import ZArith Lia List Bool Permutation Sorted Reals Lra.
From Verif Require Import CInt Loop DistModel TridiagModel TridiagProofs TridiagDeflation.
Import ListNotations.
Local Open Scope Z_scope.

(** ** C35: the schedule *)
(** [merges R l R']: the merges l, in this order, lead from the solved ranges R (of tiles, from left to right) to the
    solved ranges R'; a merge (b, s, e) is allowed if [b, s) and [s, e) are solved, adjacent and not empty. *)
Inductive merges : list (Z * Z) -> list (Z * Z * Z) -> list (Z * Z) -> Prop :=
| merges_nil : forall R, merges R [] R
| merges_cons : forall R1 R2 b s e l R', b < s < e -> merges (R1 ++ (b, e) :: R2) l R' ->
    merges (R1 ++ (b, s) :: (s, e) :: R2) ((b, s, e) :: l) R'.
(** single tiles *)
Definition leaves (b e : Z) : list (Z * Z) := map (fun i => (i, i + 1)) (zrange b e).
Lemma merges_app : forall R l R' l' R'', merges R l R' -> merges R' l' R'' -> merges R (l ++ l') R''.
Proof. intros R l R' l' R'' M. revert l' R''. induction M as [R|R1 R2 b s e l R' L M IH]; intros l' R'' M'; [exact M'|]. cbn. apply merges_cons; [exact L|]. apply IH. exact M'. Qed.

(** C35. For every number n >= 1 of tiles the solver generates a list of merges that leads from the n single
    tiles, each solved as a leaf, to the whole range; the split points are 1, ..., n-1, each exactly once: every off-diagonal
    value removed by Cuppen's decomposition (number i_split - 1) is used by exactly one merge. *)
Theorem C35_schedule : forall n, 1 <= n ->
  exists l, generate_subproblem_indices n = Some l /\ merges (leaves 0 n) l [(0, n)] /\
    Permutation (map (fun t => snd (fst t)) l) (zrange 1 n).
Proof.
  intros n Ln. unfold generate_subproblem_indices. destruct (Z.eqb_spec n 0); [lia|].
  destruct (split_ind (fun b e l => (forall R1 R2, merges (R1 ++ leaves b e ++ R2) l (R1 ++ (b, e) :: R2)) /\
     Permutation (map (fun t => snd (fst t)) l) (zrange (b + 1) e))) with (m := Z.to_nat n) (b := 0) (e := n) as (l & E & M & P).
  - intros b Lb. split; [|rewrite zrange_nil by lia; constructor]. intros R1 R2. unfold leaves. rewrite zrange_cons, zrange_nil by lia. constructor.
  - intros b s e l r Lb Ls [Ml Pl] [Mr Pr]. split.
    + intros R1 R2. unfold leaves in *. rewrite (zrange_app b s e) by lia. rewrite map_app, <- app_assoc.
      eapply merges_app; [apply Ml|].
      eapply merges_app.
      * specialize (Mr (R1 ++ [(b, s)]) R2). rewrite <- !app_assoc in Mr. cbn [app] in Mr. exact Mr.
      * apply merges_cons; [lia|constructor].
    + rewrite !map_app. cbn [map fst snd]. rewrite Pl, Pr. rewrite (zrange_app (b + 1) s e) by lia. apply Permutation_app_head.
      rewrite (zrange_cons s e) by lia. rewrite Permutation_app_comm. reflexivity.
  - lia.
  - lia.
  - exists l. split; [exact E|]. split; [|exact P]. specialize (M [] []). rewrite app_nil_r in M. exact M.
Qed.
Example C35_schedule_5 : generate_subproblem_indices 5 = Some [(0, 1, 2); (0, 2, 3); (3, 4, 5); (0, 3, 5)] /\ generate_subproblem_indices 0 = Some [].
Proof. split; reflexivity. Qed.

(** ** C34: index arrays *)
(** The number of elements in the tiles [b, e) of a vector with tiles of nb elements (the last one may be shorter). *)
Theorem C34_initial_index : forall nb rows b e index, 0 < nb -> b < e -> (forall i, b <= i < e - 1 -> rows i = nb) -> 0 <= rows (e - 1) <= nb ->
  let n := (e - b - 1) * nb + rows (e - 1) in
  forall j, init_index nb rows b e index j = if (0 <=? j) && (j <? n) then j else index j.
Proof.
  intros nb rows b e index Lnb Lbe R RL n j. unfold init_index.
  assert (X : forall m, 0 <= m -> b + m <= e -> forall a j, fold_left (fun a i => fold_left (fun a e => upd a ((i - b) * nb + e) ((i - b) * nb + e)) (zrange 0 (rows i)) a) (zrange b (b + m)) a j =
     if (0 <=? j) && (j <? (if b + m =? e then n else m * nb)) then j else a j).
  { intros m L0. pattern m. apply natlike_ind; [| |exact L0].
    - intros _ a j0. rewrite zrange_nil by lia. cbn [fold_left]. destruct (Z.eqb_spec (b + 0) e); [lia|]. destruct (Z.leb_spec 0 j0), (Z.ltb_spec j0 (0 * nb)); cbn [andb]; lia || reflexivity.
    - intros x Lx IH Ls a j0. unfold Z.succ in *. rewrite Z.add_assoc, zrange_snoc, fold_left_app by lia. cbn [fold_left].
      set (a' := fold_left _ (zrange b (b + x)) a).
      assert (IN : forall o, fold_left (fun a e => upd a (o + e) (o + e)) (zrange 0 (rows (b + x))) a' j0 = if (o <=? j0) && (j0 <? o + rows (b + x)) then j0 else a' j0).
      { intros o. assert (F : fold_left (fun a e => upd a (o + e) (o + e)) (zrange 0 (rows (b + x))) a' = fold_left (fun a i => upd a i i) (map (fun e => o + e) (zrange 0 (rows (b + x)))) a').
        { generalize (zrange 0 (rows (b + x))) as l. intros l. generalize a' as q. induction l as [|y l IHl]; intros q; [reflexivity|]. cbn. apply IHl. }
        rewrite F. rewrite (fold_upd (fun i => i)).
        replace (existsb (Z.eqb j0) (map (fun e => o + e) (zrange 0 (rows (b + x))))) with ((o <=? j0) && (j0 <? o + rows (b + x))); [reflexivity|].
        apply eq_true_iff_eq. rewrite existsb_exists. split.
        - intros E. apply andb_prop in E as [E1 E2]. apply Z.leb_le in E1. apply Z.ltb_lt in E2. exists j0. split; [|apply Z.eqb_refl]. apply in_map_iff. exists (j0 - o). split; [lia|apply in_zrange; lia].
        - intros (y & I & E). apply Z.eqb_eq in E. subst y. apply in_map_iff in I as (i & <- & I). apply in_zrange in I. apply andb_true_intro. split; [apply Z.leb_le|apply Z.ltb_lt]; lia. }
      rewrite (IN ((b + x - b) * nb)). unfold a'. rewrite IH by lia. replace (b + x - b) with x by lia.
      destruct (Z.eqb_spec (b + x) e); [lia|]. assert (RX : rows (b + x) = if b + x + 1 =? e then rows (e - 1) else nb).
      { destruct (Z.eqb_spec (b + x + 1) e); [f_equal; lia|apply R; lia]. }
      assert (NE : (if b + x + 1 =? e then n else (x + 1) * nb) = x * nb + rows (b + x)).
      { rewrite RX. destruct (Z.eqb_spec (b + x + 1) e); [unfold n; replace (e - b - 1) with x by lia; reflexivity|ring]. }
      assert (0 <= rows (b + x)) by (rewrite RX; destruct (_ =? _); lia).
      rewrite NE. destruct (Z.leb_spec (x * nb) j0), (Z.ltb_spec j0 (x * nb + rows (b + x))), (Z.leb_spec 0 j0), (Z.ltb_spec j0 (x * nb)); cbn [andb]; nia || reflexivity. }
  specialize (X (e - b) ltac:(lia) ltac:(lia) index j). replace (b + (e - b)) with e in X by lia. rewrite Z.eqb_refl in X. exact X.
Qed.

(** Strict weak orders: operator< of the element types, for values that are not NaN. *)
Definition strict_weak {T : Type} (ltb : T -> T -> bool) : Prop :=
  (forall a, ltb a a = false) /\ (forall a b c, ltb b a = false -> ltb c b = false -> ltb c a = false) /\ (forall a b, ltb a b = true -> ltb b a = false).
(** the values v (idx lo), ..., v (idx (hi - 1)) are in ascending order *)
Definition ascending {T : Type} (ltb : T -> T -> bool) (v : Z -> T) (idx : Z -> Z) (lo hi : Z) : Prop :=
  forall p q, lo <= p <= q -> q < hi -> ltb (v (idx q)) (v (idx p)) = false.

Lemma ss_tab : forall {A} (R : A -> A -> Prop) (a : Z -> A) lo hi, StronglySorted R (tab lo hi a) <-> forall p q, lo <= p < q -> q < hi -> R (a p) (a q).
Proof.
  intros A R a lo hi. destruct (Z.le_gt_cases lo hi) as [L|L].
  2: { rewrite tab_nil by lia. split; [lia|constructor]. }
  assert (X : forall m, 0 <= m -> StronglySorted R (tab lo (lo + m) a) <-> (forall p q, lo <= p < q -> q < lo + m -> R (a p) (a q))).
  { intros m L0. pattern m. apply natlike_ind; [| |exact L0].
    - rewrite tab_nil by lia. split; [lia|constructor].
    - intros x Lx IH. unfold Z.succ. rewrite Z.add_assoc, tab_snoc by lia. rewrite ss_app, IH. split.
      + intros (A1 & _ & A3) p q L1 L2. destruct (Z.eq_dec q (lo + x)) as [->|N]; [|apply A1; lia]. apply A3; [apply in_tab; exists p; split; [lia|reflexivity]|left; reflexivity].
      + intros H. repeat split.
        * intros p q L1 L2. apply H; lia.
        * repeat constructor.
        * intros y z I [<-|[]]. apply in_tab in I as (p & Lp & <-). apply H; lia. }
  specialize (X (hi - lo) ltac:(lia)). replace (lo + (hi - lo)) with hi in X by lia. exact X.
Qed.
Lemma ascending_asc : forall {T} (ltb : T -> T -> bool) v idx lo hi, (forall a, ltb a a = false) -> ascending ltb v idx lo hi <-> asc ltb v (tab lo hi idx).
Proof.
  intros T ltb v idx lo hi IRR. unfold asc. rewrite ss_tab. split.
  - intros A p q L1 L2. apply A; lia.
  - intros A p q L1 L2. destruct (Z.eq_dec p q) as [->|N]; [apply IRR|]. apply A; lia.
Qed.
Lemma nth_error_same : forall {A} (l l' : list A), (forall i, nth_error l i = nth_error l' i) -> l = l'.
Proof.
  intros A l. induction l as [|x l IH]; intros [|y l'] H.
  - reflexivity.
  - specialize (H O). discriminate H.
  - specialize (H O). discriminate H.
  - pose proof (H O) as H0. cbn in H0. inversion H0; subst. f_equal. apply IH. intros i. exact (H (S i)).
Qed.
Lemma write_list_tab : forall {A} (out : Z -> A) l n, Z.of_nat (length l) = n -> tab 0 n (write_list out l) = l.
Proof.
  intros A out l n <-. apply nth_error_same. intros i. destruct (Nat.lt_ge_cases i (length l)) as [L|L].
  - replace i with (Z.to_nat (Z.of_nat i)) at 1 by lia. rewrite tab_nth by lia. cbn. unfold write_list. destruct (Z.leb_spec 0 (Z.of_nat i)); [|lia]. rewrite Nat2Z.id.
    destruct (nth_error l i) eqn:E; [reflexivity|]. apply nth_error_None in E. lia.
  - rewrite (proj2 (nth_error_None _ _)) by (pose proof (tab_length 0 (Z.of_nat (length l)) (write_list out l)); lia). symmetry. apply nth_error_None. lia.
Qed.

(** Sorting: if the values are ascending along in[0..k) and along in[k..n), then out is a rearrangement of in
    (a permutation if in is one) along which the values are ascending. *)
Theorem C34_sort_index : forall (T : Type) (ltb : T -> T -> bool), strict_weak ltb ->
  forall n k (v : Z -> T) inn out, 0 <= k <= n -> ascending ltb v inn 0 k -> ascending ltb v inn k n ->
  exists r, sort_index ltb n k v inn out = Some r /\ Permutation (tab 0 n r) (tab 0 n inn) /\ (is_perm n inn -> is_perm n r) /\
    ascending ltb v r 0 n /\ forall j, ~ 0 <= j < n -> r j = out j.
Proof.
  intros T ltb (IRR & TR & AS) n k v inn out Lk A1 A2. unfold sort_index. destruct (Z.leb_spec k n); [|lia]. eexists. split; [reflexivity|].
  set (m := std_merge _ _ _). assert (P : Permutation m (tab 0 n inn)) by (rewrite (tab_app 0 k n) by lia; apply merge_perm).
  assert (LM : Z.of_nat (length m) = n) by (rewrite (Permutation_length P); pose proof (tab_length 0 n inn); lia).
  assert (TM : tab 0 n (write_list out m) = m) by (apply write_list_tab; exact LM).
  split; [rewrite TM; exact P|]. split; [|split].
  - intros PI. unfold is_perm. rewrite TM, P. exact PI.
  - apply ascending_asc; [exact IRR|]. rewrite TM. apply merge_asc; [exact TR|exact AS| |]; apply ascending_asc; assumption.
  - intros j Lj. unfold write_list. destruct (Z.leb_spec 0 j) as [L0|L0]; [|reflexivity]. rewrite (proj2 (nth_error_None _ _)) by lia. reflexivity.
Qed.
(** and the first range must fit: otherwise the call aborts *)
Theorem C34_sort_index_rejects : forall (T : Type) (ltb : T -> T -> bool) n k (v : Z -> T) inn out, n < k -> sort_index ltb n k v inn out = None.
Proof. intros. unfold sort_index. destruct (Z.leb_spec k n); [lia|reflexivity]. Qed.

(** Inverting a permutation gives its inverse, on both sides. *)
Theorem C34_invert_index : forall n p out, is_perm n p ->
  let q := invert_index n p out in
  is_perm n q /\ (forall i, 0 <= i < n -> q (p i) = i) /\ (forall j, 0 <= j < n -> p (q j) = j) /\ forall j, ~ 0 <= j < n -> q j = out j.
Proof.
  intros n p out P q. destruct (invert_perm n p out P) as [A B]. destruct (invert_at n p out P) as [C D]. repeat split; assumption.
Qed.
(** Applying an index; composing two permutations *)
Theorem C34_apply_index : forall (A : Type) n idx (inn out : Z -> A),
  forall j, apply_index n idx inn out j = if (0 <=? j) && (j <? n) then inn (idx j) else out j.
Proof. intros. apply apply_index_at. Qed.
Theorem C34_compose_index : forall n p q out, is_perm n p -> is_perm n q -> is_perm n (apply_index n p q out) /\ forall j, 0 <= j < n -> apply_index n p q out j = q (p j).
Proof.
  intros n p q out P Q. assert (X : forall j, 0 <= j < n -> apply_index n p q out j = q (p j)).
  { intros j L. rewrite apply_index_at. destruct (Z.leb_spec 0 j), (Z.ltb_spec j n); cbn [andb]; lia || reflexivity. }
  split; [|exact X]. apply (is_perm_ext n (fun i => q (p i))); [intros i L; symmetry; apply X; exact L|]. apply is_perm_comp; assumption.
Qed.
Theorem C34_add_index : forall n val a j, add_index n val a j = if (0 <=? j) && (j <? n) then a j + val else a j.
Proof. intros. apply add_index_at. Qed.

(** Partition: k columns are not deflated; index_sorted lists them first, in the order of perm (stable), then the deflated
    ones in ascending order of their values; index_sorted_coltype lists the upper, the dense and the lower ones, each
    in their initial order, and then the deflated ones exactly as index_sorted; both are permutations, and the reported counts are right. *)
Theorem C34_partition : forall (T : Type) (ltb : T -> T -> bool), strict_weak ltb ->
  forall n types (evals : Z -> T) perm is0 isc0, 0 <= n -> is_perm n perm ->
  exists k nu nd nl is isc, stable_partition ltb n types evals perm is0 isc0 = (k, (nu, nd, nl), is, isc) /\
    let kept i := negb (coltype_eqb (types i) Deflated) in
    let all t := filter (fun i => coltype_eqb (types i) t) (zrange 0 n) in
    nu = Z.of_nat (length (all UpperHalf)) /\ nd = Z.of_nat (length (all Dense)) /\ nl = Z.of_nat (length (all LowerHalf)) /\
    k = nu + nd + nl /\ n - k = Z.of_nat (length (all Deflated)) /\
    is_perm n is /\ is_perm n isc /\
    tab 0 k is = filter kept (tab 0 n perm) /\
    (forall i, k <= i < n -> types (is i) = Deflated) /\ ascending ltb evals is k n /\
    tab 0 n isc = all UpperHalf ++ all Dense ++ all LowerHalf ++ tab k n is.
Proof.
  intros T ltb (IRR & TR & AS) n types evals perm is0 isc0 Ln P.
  destruct (stable_partition_ok ltb IRR TR AS n types evals perm is0 isc0 Ln P) as (k & nu & nd & nl & is & isc & E & PT).
  exists k, nu, nd, nl, is, isc. split; [exact E|]. intros kept all.
  destruct (pt_range PT P Ln) as [RK EK]. split; [apply PT|]. split; [apply PT|]. split; [apply PT|]. split; [exact EK|]. split; [|split; [|split; [|split; [|split; [|split]]]]].
  - pose proof (Permutation_length (filter_split (ndef types) (zrange 0 n))) as LT. rewrite app_length in LT. pose proof (zrange_length 0 n) as LZ.
    pose proof (pt_k _ _ _ _ _ _ _ _ _ _ _ PT) as KK. unfold all.
    assert (filter (fun i => coltype_eqb (types i) Deflated) (zrange 0 n) = filter (fun x => negb (ndef types x)) (zrange 0 n)) as ->.
    { apply filter_ext. intros i. unfold ndef. rewrite negb_involutive. reflexivity. }
    lia.
  - apply (pt_is_perm PT P Ln).
  - apply (pt_isc_perm PT P Ln).
  - apply PT.
  - intros i Li. destruct (coltype_eqb (types (is i)) Deflated) eqn:Q; [apply ctb_eq; exact Q|].
    assert (i < k); [|lia]. apply (pt_below PT P Ln i ltac:(lia)). unfold ndef. rewrite Q. reflexivity.
  - apply ascending_asc; [exact IRR|]. apply PT.
  - apply PT.
Qed.
Example C34_partition_ex :
  let types i := nth (Z.to_nat i) [UpperHalf; Deflated; LowerHalf; Dense; Deflated; UpperHalf] Deflated in
  let perm i := nth (Z.to_nat i) [4; 2; 0; 1; 5; 3] 0 in
  let evals i := nth (Z.to_nat i) [30; 40; 20; 60; 10; 50] 0 in
  let '(k, udl, is, isc) := stable_partition Z.ltb 6 types evals perm (fun _ => 0) (fun _ => 0) in
  (k, udl, tab 0 6 is, tab 0 6 isc) = (4, (2, 1, 1), [2; 0; 5; 3; 4; 1], [0; 5; 3; 2; 4; 1]).
Proof. reflexivity. Qed.

(** ** C34: what deflation leaves to the rank-one solver *)
(** In exact arithmetic, for any tolerance tol >= 0 and any rho, for a non-empty problem whose values d are ascending along ip:
    afterwards the values of the columns that are not deflated are strictly ascending along ip, at least one is left, and
    if more than one is left none of their z is negligible (in particular none is zero): these are the requirements of the secular equation solver.
    The z of every deflated column is negligible.  Types are right about the structure of the rotated columns: a
    column of type UpperHalf (LowerHalf) vanishes in the rows of the second (first) subproblem. *)
Theorem C34_deflation : forall rho tol len ip d0 z0 c0 (top : Z -> Prop) Q0, (0 <= tol)%R -> 1 <= len -> is_perm len ip ->
  (forall p q, 0 <= p <= q -> q < len -> (d0 (ip p) <= d0 (ip q))%R) ->
  (forall x, 0 <= x < len -> c0 x = UpperHalf \/ c0 x = LowerHalf) ->
  (forall x row, 0 <= x < len -> (c0 x = UpperHalf -> ~ top row -> Q0 row x = 0%R) /\ (c0 x = LowerHalf -> top row -> Q0 row x = 0%R)) ->
  exists i1 d z c rots, deflate_R rho tol len ip d0 z0 c0 = (i1, d, z, c, rots) /\
    (forall p q, 0 <= p < q -> q < len -> c (ip p) <> Deflated -> c (ip q) <> Deflated -> (d (ip p) < d (ip q))%R) /\
    (exists p, 0 <= p < len /\ c (ip p) <> Deflated) /\
    (forall p q, 0 <= p < len -> 0 <= q < len -> p <> q -> c (ip p) <> Deflated -> c (ip q) <> Deflated -> (tol < Rabs (rho * z (ip p)))%R) /\
    (forall p, 0 <= p < len -> c (ip p) = Deflated -> (Rabs (rho * z (ip p)) <= tol)%R) /\
    (forall x row, 0 <= x < len -> (c x = UpperHalf -> ~ top row -> apply_rotations rots Q0 row x = 0%R) /\ (c x = LowerHalf -> top row -> apply_rotations rots Q0 row x = 0%R)) /\
    (forall g, In g rots -> 0 <= r_i g < len /\ 0 <= r_j g < len /\ r_i g <> r_j g /\ (r_c g * r_c g + r_s g * r_s g = 1)%R).
Proof.
  intros rho tol len ip d0 z0 c0 top Q0 TOL LEN PERM ASC TYPES TYPED.
  destruct (deflation_inv rho tol len ip d0 z0 c0 TOL LEN PERM ASC TYPES top Q0) as (i1 & d & z & c & rots & E & I).
  { intros x Lx. split; intros C row TR; [apply (proj1 (TYPED x row Lx))|apply (proj2 (TYPED x row Lx))]; assumption. }
  exists i1, d, z, c, rots. split; [exact E|]. destruct I as [RNG CUR GAP REST NEXT KEPT ZZ ZCUR DEFL TY OUT ROTS].
  assert (K1 : forall p, 0 <= p < len -> c (ip p) <> Deflated -> p <= i1).
  { intros p L C. destruct (Z.le_gt_cases p i1) as [X|X]; [exact X|]. exfalso. apply C, GAP. lia. }
  repeat split.
  - intros p q L1 L2 CP CQ. apply KEPT; try assumption. apply K1; [lia|exact CQ].
  - exists i1. split; [lia|exact CUR].
  - intros p q Lp Lq N CP CQ. pose proof (K1 p Lp CP). pose proof (K1 q Lq CQ). destruct (Z.eq_dec p i1) as [->|NP]; [|apply ZZ; [lia|exact CP]].
    destruct ZCUR as [ZC|ALL]; [exact ZC|]. exfalso. apply CQ, ALL. lia.
  - exact DEFL.
  - intros C TR. apply (proj1 (TY x ltac:(assumption))); assumption.
  - intros C TR. apply (proj2 (TY x ltac:(assumption))); assumption.
  - apply ROTS; assumption.
  - apply ROTS; assumption.
  - apply ROTS; assumption.
  - apply ROTS; assumption.
  - apply ROTS; assumption.
  - apply ROTS; assumption.
Qed.
(** not vacuous: two equal values in different halves *)
Example C34_deflation_ex : exists i1 d z c rots,
  deflate_R 1 0 2 (fun i => i) (fun _ => 5%R) (fun _ => 1%R) (fun i => if i =? 0 then UpperHalf else LowerHalf) = (i1, d, z, c, rots) /\
  c 0 = Dense /\ c 1 = Deflated /\ length rots = 1%nat.
Proof.
  unfold deflate_R, apply_deflation. change (zrange 1 2) with [1]. cbn [fold_left]. unfold deflate_step. cbn [Z.eqb].
  destruct (Rleb_spec (Rabs (1 * 1)) 0) as [H|_]; [rewrite Rmult_1_r, Rabs_R1 in H; lra|].
  destruct (Rleb_spec (Rabs (1 / Rhypot 1 1 * (1 / Rhypot 1 1) * (5 - 5))) 0) as [_|H]; [|exfalso; apply H; rewrite Rminus_diag_eq, Rmult_0_r, Rabs_R0 by reflexivity; lra].
  cbn [negb]. do 5 eexists. split; [reflexivity|]. repeat split; reflexivity.
Qed.

(** ** Assumptions *)
Print Assumptions C35_schedule.
Print Assumptions C34_initial_index.
Print Assumptions C34_sort_index.
Print Assumptions C34_sort_index_rejects.
Print Assumptions C34_invert_index.
Print Assumptions C34_apply_index.
Print Assumptions C34_compose_index.
Print Assumptions C34_add_index.
Print Assumptions C34_partition.
Print Assumptions C34_deflation.
