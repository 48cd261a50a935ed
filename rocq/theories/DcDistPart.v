(** * The distributed stable partition. *)
From Coq Require Import ZArith Lia List Bool Permutation.
From Verif Require Import CInt Loop DistModel DistSpec DistProofs DistThms DistBuilt Properties_Dist TridiagModel TridiagProofs Properties_Tridiag DcDistModel.
Import ListNotations.
Local Open Scope Z_scope.

Lemma fold_tab : forall {A B : Type} (f : A -> B -> A) (g : Z -> B) lo hi s, fold_left (fun s j => f s (g j)) (zrange lo hi) s = fold_left f (tab lo hi g) s.
Proof. intros. unfold tab. generalize (zrange lo hi) as l. intros l. revert s. induction l as [|x l IH]; intros s; [reflexivity|]. cbn. apply IH. Qed.

Section bins.
(** ranks, columns, owner of a column, column of a local index on a rank, number of columns of a rank *)
Variables (G n : Z) (own : Z -> Z) (gl : Z -> Z -> Z) (nloc : Z -> Z) (pos : Z -> Z).
Hypothesis OWN : forall e, 0 <= e < n -> 0 <= own e < G.
Hypothesis GL : forall r p, 0 <= r < G -> 0 <= p < nloc r -> 0 <= gl r p < n /\ own (gl r p) = r /\ pos (gl r p) = p.
Hypothesis POS : forall e, 0 <= e < n -> 0 <= pos e < nloc (own e) /\ gl (own e) (pos e) = e.
Hypothesis NLOC : forall r, 0 <= r < G -> nloc r = Z.of_nat (length (filter (fun e => own e =? r) (zrange 0 n))).
Variables (types : Z -> coltype) (L : list Z).
Hypothesis PL : Permutation L (zrange 0 n).

Definition sel (r : Z) (c : coltype) (x : Z) : bool := (own x =? r) && coltype_eqb (types x) c.
Definition bcnt (r : Z) (c : coltype) (l : list Z) : Z := Z.of_nat (length (filter (sel r c) l)).
Lemma bcnt_app : forall r c l l', bcnt r c (l ++ l') = bcnt r c l + bcnt r c l'.
Proof using. intros. unfold bcnt. rewrite filter_app, app_length. lia. Qed.
Lemma bcnt_nonneg : forall r c l, 0 <= bcnt r c l. Proof using. intros. unfold bcnt. lia. Qed.
Lemma in_L : forall x, In x L -> 0 <= x < n.
Proof using PL. intros x I. apply in_zrange. eapply Permutation_in; [exact PL|exact I]. Qed.
Lemma bcnt_total : forall r l, Z.of_nat (length (filter (fun e => own e =? r) l)) = bcnt r UpperHalf l + bcnt r Dense l + bcnt r LowerHalf l + bcnt r Deflated l.
Proof using.
  intros r l. unfold bcnt. induction l as [|x l IH]; [reflexivity|]. cbn [filter]. assert (SS : forall c, sel r c x = (own x =? r) && coltype_eqb (types x) c) by reflexivity. rewrite !SS. destruct (own x =? r); cbn [andb]; [|exact IH].
  destruct (types x); cbn [coltype_eqb length]; lia.
Qed.
Lemma bcnt_nloc : forall r, 0 <= r < G -> nloc r = bcnt r UpperHalf L + bcnt r Dense L + bcnt r LowerHalf L + bcnt r Deflated L.
Proof using NLOC PL. intros r Lr. rewrite NLOC by exact Lr. rewrite <- bcnt_total. f_equal. apply Permutation_length. apply perm_filter. symmetry. exact PL. Qed.
(** where the bin starts *)
Definition bbase (r : Z) (c : coltype) : Z :=
  match c with UpperHalf => 0 | Dense => bcnt r UpperHalf L | LowerHalf => bcnt r UpperHalf L + bcnt r Dense L | Deflated => bcnt r UpperHalf L + bcnt r Dense L + bcnt r LowerHalf L end.

(** counts *)
Definition cstep (o : Z -> Z -> Z) (jj : Z) : Z -> Z -> Z :=
  if negb (coltype_eqb (types jj) Deflated) then upd o (own jj) (upd (o (own jj)) (1 + ev_sort_order (types jj)) (o (own jj) (1 + ev_sort_order (types jj)) + 1)) else o.
Lemma cstep_at : forall l o r, fold_left cstep l o r 0 = o r 0 /\ forall c, c <> Deflated -> fold_left cstep l o r (1 + ev_sort_order c) = o r (1 + ev_sort_order c) + bcnt r c l.
Proof using.
  induction l as [|x l IH]; intros o r; [split; [reflexivity|intros; cbn; lia]|]. cbn [fold_left]. destruct (IH (cstep o x) r) as [I0 IC]. rewrite I0. unfold cstep.
  split; [|intros c NC; rewrite IC by exact NC; clear I0 IC; unfold cstep]; destruct (coltype_eqb (types x) Deflated) eqn:TD; cbn [negb].
  - reflexivity.
  - unfold upd. destruct (Z.eqb_spec r (own x)) as [->|]; [|reflexivity]. destruct (Z.eqb_spec 0 (1 + ev_sort_order (types x))) as [E|]; [destruct (types x); cbn in E; lia|reflexivity].
  - change (x :: l) with ([x] ++ l). rewrite bcnt_app. unfold bcnt at 2. cbn [filter]. unfold sel. apply ctb_eq in TD. rewrite TD. destruct c; try (exfalso; apply NC; reflexivity); cbn [coltype_eqb]; rewrite andb_false_r; cbn; lia.
  - change (x :: l) with ([x] ++ l). rewrite bcnt_app. unfold bcnt at 2. cbn [filter]. unfold sel. unfold upd. rewrite (Z.eqb_sym r (own x)). destruct (Z.eqb_spec (own x) r) as [<-|N]; cbn [andb]; [|cbn; lia].
    destruct (Z.eqb_spec (1 + ev_sort_order c) (1 + ev_sort_order (types x))) as [E|E].
    + assert (c = types x) as -> by (apply order_inj; lia). rewrite ctb_refl. cbn [length]. lia.
    + destruct (coltype_eqb (types x) c) eqn:Q; [apply ctb_eq in Q; subst c; lia|]. cbn [length]. lia.
Qed.
Lemma offsets_at : forall r c, partial_sum (fold_left cstep L (fun _ _ => 0) r) (ev_sort_order c) = bbase r c.
Proof using.
  intros r c. destruct (cstep_at L (fun _ _ => 0) r) as [I0 IC]. set (o := fold_left cstep L (fun _ _ => 0) r) in *.
  pose proof (IC UpperHalf ltac:(discriminate)) as IU. pose proof (IC Dense ltac:(discriminate)) as ID. pose proof (IC LowerHalf ltac:(discriminate)) as IL. cbn [ev_sort_order] in IU, ID, IL.
  change (1 + 0) with 1 in IU. change (1 + 1) with 2 in ID. change (1 + 2) with 3 in IL.
  unfold partial_sum, tab. destruct c; cbn [ev_sort_order bbase]; [change (zrange 0 (0 + 1)) with [0]|change (zrange 0 (2 + 1)) with [0; 1; 2]|change (zrange 0 (1 + 1)) with [0; 1]|change (zrange 0 (3 + 1)) with [0; 1; 2; 3]]; cbn [map fold_left]; rewrite ?I0, ?IU, ?ID, ?IL; lia.
Qed.

(** bins *)
Definition bstep (s : (Z -> Z -> Z) * (Z -> Z)) (jj : Z) : (Z -> Z -> Z) * (Z -> Z) :=
  let '(o, isc) := s in let r := own jj in let c := ev_sort_order (types jj) in
  (upd o r (upd (o r) c (o r c + 1)), upd isc (gl r (o r c)) jj).
Lemma bins_loop : forall isc0 l l2 o0, L = l ++ l2 -> (forall r c, o0 r (ev_sort_order c) = bbase r c) ->
  exists o isc, fold_left bstep l (o0, isc0) = (o, isc) /\ (forall r c, o r (ev_sort_order c) = bbase r c + bcnt r c l) /\
    forall r c, 0 <= r < G -> map (fun i => isc (gl r i)) (zrange (bbase r c) (bbase r c + bcnt r c l)) = filter (sel r c) l.
Proof using OWN GL NLOC PL.
  intros isc0 l. induction l as [|x l IH] using rev_ind; intros l2 o0 EL HO.
  - exists o0, isc0. split; [reflexivity|]. split; [intros; rewrite HO; unfold bcnt; cbn; lia|]. intros r c _. rewrite zrange_nil by (unfold bcnt; cbn; lia). reflexivity.
  - rewrite <- app_assoc in EL. destruct (IH _ _ EL HO) as (o & isc & E & HC & HB). rewrite fold_left_app, E. cbn [fold_left bstep].
    set (r0 := own x). set (c0 := types x).
    assert (Ix : 0 <= x < n) by (apply in_L; rewrite EL; apply in_or_app; right; left; reflexivity). assert (R0 : 0 <= r0 < G) by (apply OWN; exact Ix).
    assert (SX : forall r c, filter (sel r c) [x] = if (r =? r0) && coltype_eqb c0 c then [x] else []) by (intros; cbn [filter]; unfold sel; fold r0 c0; rewrite (Z.eqb_sym r0 r); reflexivity).
    assert (BX : forall r c, bcnt r c (l ++ [x]) = bcnt r c l + if (r =? r0) && coltype_eqb c0 c then 1 else 0) by (intros; rewrite bcnt_app; f_equal; unfold bcnt; rewrite SX; destruct (_ && _); reflexivity).
    assert (TOT : forall r c, bcnt r c L = bcnt r c l + (if (r =? r0) && coltype_eqb c0 c then 1 else 0) + bcnt r c l2).
    { intros. rewrite EL. change (x :: l2) with ([x] ++ l2). rewrite app_assoc, bcnt_app, BX. reflexivity. }
    set (p0 := o r0 (ev_sort_order c0)). assert (P0 : p0 = bbase r0 c0 + bcnt r0 c0 l) by apply HC.
    assert (BP : forall r c, 0 <= bbase r c) by (intros r c; pose proof (bcnt_nonneg r UpperHalf L); pose proof (bcnt_nonneg r Dense L); pose proof (bcnt_nonneg r LowerHalf L); destruct c; cbn [bbase]; lia).
    assert (BE : forall r c, 0 <= r < G -> bbase r c + bcnt r c L <= nloc r).
    { intros r c Lr. rewrite (bcnt_nloc r Lr). pose proof (bcnt_nonneg r UpperHalf L). pose proof (bcnt_nonneg r Dense L). pose proof (bcnt_nonneg r LowerHalf L). pose proof (bcnt_nonneg r Deflated L). destruct c; cbn [bbase]; lia. }
    assert (LP : 0 <= p0 < nloc r0).
    { rewrite P0. pose proof (BP r0 c0). pose proof (bcnt_nonneg r0 c0 l). pose proof (BE r0 c0 R0). specialize (TOT r0 c0). rewrite Z.eqb_refl, ctb_refl in TOT. cbn [andb] in TOT. pose proof (bcnt_nonneg r0 c0 l2). lia. }
    eexists _, _. split; [reflexivity|]. split.
    + intros r c. rewrite BX. unfold upd at 1. destruct (Z.eqb_spec r r0) as [->|N]; cbn [andb]; [|rewrite HC; lia]. unfold upd. destruct (Z.eqb_spec (ev_sort_order c) (ev_sort_order c0)) as [EO|EO].
      * apply order_inj in EO. subst c. rewrite ctb_refl. fold p0. lia.
      * destruct (coltype_eqb c0 c) eqn:Q; [apply ctb_eq in Q; subst c; lia|]. rewrite HC. lia.
    + intros r c Lr. rewrite filter_app, SX, BX.
      assert (OLD : map (fun i => upd isc (gl r0 p0) x (gl r i)) (zrange (bbase r c) (bbase r c + bcnt r c l)) = filter (sel r c) l).
      { rewrite <- (HB r c Lr). apply map_ext_in. intros i I. apply in_zrange in I. apply upd_neq. intros EQ.
        assert (Bd : 0 <= i < nloc r). { pose proof (BP r c). pose proof (BE r c Lr). specialize (TOT r c). pose proof (bcnt_nonneg r c l2). destruct (_ && _) in TOT; lia. }
        destruct (GL r i Lr Bd) as (_ & O1 & Q1). destruct (GL r0 p0 R0 LP) as (_ & O2 & Q2). rewrite EQ in O1, Q1. assert (ER : r = r0) by congruence. assert (EI : i = p0) by congruence. clear O1 O2 Q1 Q2 EQ Bd Lr. subst r i.
        pose proof (bcnt_nonneg r0 UpperHalf L). pose proof (bcnt_nonneg r0 Dense L). pose proof (bcnt_nonneg r0 LowerHalf L). pose proof (bcnt_nonneg r0 Deflated L).
        pose proof (TOT r0 c) as T1. pose proof (TOT r0 c0) as T0. rewrite Z.eqb_refl in T1, T0. rewrite ctb_refl in T0. cbn [andb] in T1, T0. pose proof (bcnt_nonneg r0 c l2). pose proof (bcnt_nonneg r0 c0 l2). pose proof (bcnt_nonneg r0 c0 l). pose proof (bcnt_nonneg r0 c l).
        rewrite P0 in I. clearbody c0. clear - I T1 T0 H H0 H1 H2 H3 H4 H5 H6. destruct c, c0; cbn [bbase coltype_eqb] in *; lia. }
      destruct (Z.eqb_spec r r0) as [->|N]; cbn [andb]; [|rewrite app_nil_r, Z.add_0_r; exact OLD].
      destruct (coltype_eqb c0 c) eqn:Q; [|rewrite app_nil_r, Z.add_0_r; exact OLD]. apply ctb_eq in Q. subst c.
      rewrite Z.add_assoc, zrange_snoc by (pose proof (bcnt_nonneg r0 c0 l); lia). rewrite map_app, OLD. cbn [map]. rewrite <- P0, upd_eq. reflexivity.
Qed.

(** what the bins contain *)
Variable isc : Z -> Z.
Hypothesis BINS : forall r c, 0 <= r < G -> map (fun i => isc (gl r i)) (zrange (bbase r c) (bbase r c + bcnt r c L)) = filter (sel r c) L.
Lemma rank_list : forall r, 0 <= r < G -> map (fun i => isc (gl r i)) (zrange 0 (nloc r)) = filter (sel r UpperHalf) L ++ filter (sel r Dense) L ++ filter (sel r LowerHalf) L ++ filter (sel r Deflated) L.
Proof using BINS NLOC PL.
  intros r Lr. pose proof (bcnt_nonneg r UpperHalf L). pose proof (bcnt_nonneg r Dense L). pose proof (bcnt_nonneg r LowerHalf L). pose proof (bcnt_nonneg r Deflated L).
  rewrite (bcnt_nloc r Lr). rewrite (zrange_app 0 (bbase r Dense)), (zrange_app (bbase r Dense) (bbase r LowerHalf)), (zrange_app (bbase r LowerHalf) (bbase r Deflated)) by (cbn [bbase]; lia).
  rewrite !map_app. rewrite <- !(BINS r) by exact Lr. cbn [bbase]. rewrite Z.add_0_l. reflexivity.
Qed.
Lemma isc_type : forall j c, 0 <= j < n -> (types (isc j) = c <-> bbase (own j) c <= pos j < bbase (own j) c + bcnt (own j) c L) /\ In (isc j) L /\ own (isc j) = own j.
Proof using BINS NLOC PL OWN POS.
  intros j c Lj. destruct (POS j Lj) as [LP EP]. pose proof (OWN j Lj) as LR. set (r := own j) in *. set (p := pos j) in *.
  pose proof (bcnt_nonneg r UpperHalf L). pose proof (bcnt_nonneg r Dense L). pose proof (bcnt_nonneg r LowerHalf L). pose proof (bcnt_nonneg r Deflated L). rewrite (bcnt_nloc r LR) in LP.
  assert (G1 : forall c', bbase r c' <= p < bbase r c' + bcnt r c' L -> In (isc j) L /\ own (isc j) = r /\ types (isc j) = c').
  { intros c' Lc. assert (I : In (isc j) (filter (sel r c') L)). { rewrite <- (BINS r c' LR). apply in_map_iff. exists p. split; [rewrite EP; reflexivity|apply in_zrange; exact Lc]. }
    apply filter_In in I as [I S]. unfold sel in S. apply andb_prop in S as [S1 S2]. apply Z.eqb_eq in S1. apply ctb_eq in S2. auto. }
  assert (EX : exists c', bbase r c' <= p < bbase r c' + bcnt r c' L).
  { destruct (Z.lt_ge_cases p (bbase r Dense)); [exists UpperHalf|destruct (Z.lt_ge_cases p (bbase r LowerHalf)); [exists Dense|destruct (Z.lt_ge_cases p (bbase r Deflated)); [exists LowerHalf|exists Deflated]]]; cbn [bbase] in *; lia. }
  destruct EX as (c' & Lc). destruct (G1 c' Lc) as (I & O & TY). split; [|split; assumption]. split; [intros <-; rewrite TY; exact Lc|]. intros Lc2. destruct (G1 c Lc2) as (_ & _ & X). exact X.
Qed.
Lemma isc_perm : is_perm n isc.
Proof using BINS NLOC PL OWN POS.
  apply is_perm_intro.
  - intros i Li. apply in_L. apply (isc_type i UpperHalf Li).
  - intros i j Li Lj E. destruct (isc_type i UpperHalf Li) as (_ & _ & O1). destruct (isc_type j UpperHalf Lj) as (_ & _ & O2).
    assert (OO : own i = own j) by congruence. destruct (POS i Li) as [Pi Gi]. destruct (POS j Lj) as [Pj Gj]. rewrite <- OO in Pj, Gj. pose proof (OWN i Li) as LR. set (r := own i) in *.
    assert (ND : NoDup (map (fun i => isc (gl r i)) (zrange 0 (nloc r)))).
    { rewrite (rank_list r LR). assert (NDL : NoDup L) by (eapply Permutation_NoDup; [symmetry; exact PL|apply zrange_NoDup]).
      eapply Permutation_NoDup; [|apply (NoDup_filter (fun e => own e =? r) NDL)]. clear. induction L as [|x l IH]; [constructor|]. cbn [filter]. assert (SS : forall c, sel r c x = (own x =? r) && coltype_eqb (types x) c) by reflexivity. rewrite !SS. destruct (own x =? r); cbn [andb]; [|exact IH].
      destruct (types x); cbn [coltype_eqb].
      - cbn [app]. constructor. exact IH.
      - etransitivity; [apply perm_skip, IH|]. rewrite !app_assoc. cbn [app]. rewrite <- !app_assoc. symmetry. rewrite !app_assoc. rewrite <- app_assoc. cbn [app]. rewrite <- Permutation_middle. rewrite <- !app_assoc. reflexivity.
      - etransitivity; [apply perm_skip, IH|]. symmetry. cbn [app]. rewrite <- Permutation_middle. reflexivity.
      - etransitivity; [apply perm_skip, IH|]. symmetry. rewrite !app_assoc. rewrite <- Permutation_middle. rewrite <- !app_assoc. reflexivity. }
    assert (pos i = pos j); [|congruence].
    assert (INJ : forall (f : Z -> Z) l, NoDup (map f l) -> forall x y, In x l -> In y l -> f x = f y -> x = y).
    { clear. intros f. induction l as [|a l IH]; intros N x y Ix Iy Exy; [contradiction|]. cbn in N. inversion_clear N as [|? ? NI N']. destruct Ix as [->|Ix], Iy as [->|Iy]; try reflexivity.
      - exfalso. apply NI. rewrite Exy. apply in_map. exact Iy.
      - exfalso. apply NI. rewrite <- Exy. apply in_map. exact Ix.
      - apply IH; assumption. }
    apply (INJ (fun i => isc (gl r i)) (zrange 0 (nloc r)) ND); [apply in_zrange; exact Pi|apply in_zrange; exact Pj|]. rewrite Gi, Gj. exact E.
Qed.
End bins.

(** ** Distributions *)
Lemma count_filter : forall P n, 0 <= n -> count P n = Z.of_nat (length (filter P (zrange 0 n))).
Proof.
  intros P n Ln. pattern n. apply natlike_ind; [reflexivity| |exact Ln]. intros x Lx IH. unfold Z.succ. rewrite count_succ, zrange_snoc, filter_app, app_length, IH by lia. cbn [filter]. destruct (P x); cbn [length]; lia.
Qed.
Lemma count_ext : forall P Q n, (forall i, 0 <= i < n -> P i = Q i) -> count P n = count Q n.
Proof.
  intros P Q n H. unfold count. assert (X : forall m, (m <= Z.to_nat n)%nat -> count_nat P m = count_nat Q m); [|apply X; lia].
  induction m as [|m IH]; intros Lm; [reflexivity|]. cbn. rewrite IH, H by lia. reflexivity.
Qed.
Section geo.
Variables (rank : pair_Z) (Ls : coord -> layout) (d : distribution).
Hypothesis B : built rank Ls d.
Notation a := (get Col d).
Notation L := (Ls Col).
Notation own := (ax_rank_global_element a).
Notation gl := (global_element_from_local_element_on_rank a).
Definition gnloc (r : Z) : Z := count (fun e => own e =? r) (ax_size a).
Definition gpos (e : Z) : Z := count (fun e' => own e' =? own e) e.
Lemma geo_size : ax_size a = l_size L /\ 0 <= l_size L.
Proof using B. split; [apply (T_reported _ _ _ (built_models _ _ _ B Col))|]. apply (built_models _ _ _ B Col). Qed.
Lemma geo_own : forall e, 0 <= e < ax_size a -> own e = owner L e /\ 0 <= own e < l_grid L.
Proof using B. intros e Le. rewrite (proj1 geo_size) in Le. destruct (proj1 (C01_owner_and_local_slot rank Ls d Col B) e Le) as (E & R & _). rewrite E. auto. Qed.
Lemma geo_cnt : forall r m, 0 <= m <= ax_size a -> count (fun e => own e =? r) m = count (owned L r) m.
Proof using B. intros r m Lm. apply count_ext. intros i Li. destruct (geo_own i ltac:(lia)) as [-> _]. reflexivity. Qed.
Lemma geo_gl : forall r p, 0 <= r < l_grid L -> 0 <= p < gnloc r -> 0 <= gl r p < ax_size a /\ own (gl r p) = r /\ gpos (gl r p) = p.
Proof using B.
  intros r p Lr Lp. destruct geo_size as [ES LS]. unfold gnloc in Lp. rewrite geo_cnt in Lp by lia. rewrite ES in Lp. destruct (C02_local_to_global_on_any_rank rank Ls d Col r p B Lr Lp) as (R & O & C).
  fold a in R, O, C. rewrite ES. split; [exact R|]. destruct (geo_own (gl r p) ltac:(lia)) as [E _]. split; [congruence|]. unfold gpos. rewrite geo_cnt by lia. rewrite E, O. exact C.
Qed.
Lemma geo_pos : forall e, 0 <= e < ax_size a -> 0 <= gpos e < gnloc (own e) /\ gl (own e) (gpos e) = e.
Proof using B.
  intros e Le. destruct (geo_own e Le) as [_ LR]. assert (LP : 0 <= gpos e < gnloc (own e)).
  { unfold gpos, gnloc. split; [apply count_bounds; lia|]. apply count_lt; [lia|apply Z.eqb_refl]. }
  split; [exact LP|]. destruct (geo_gl (own e) (gpos e) LR LP) as (R & O & P). set (e' := gl (own e) (gpos e)) in *.
  unfold gpos in P. rewrite O in P. set (f := fun e0 => own e0 =? own e) in *.
  destruct (Z.lt_trichotomy e' e) as [X|[X|X]]; [|exact X|].
  - pose proof (count_lt f e' e ltac:(lia) ltac:(unfold f; rewrite O; apply Z.eqb_refl)). lia.
  - pose proof (count_lt f e e' ltac:(lia) ltac:(unfold f; apply Z.eqb_refl)). lia.
Qed.
Lemma geo_nloc : forall r, 0 <= r < l_grid L -> gnloc r = Z.of_nat (length (filter (fun e => own e =? r) (zrange 0 (ax_size a)))).
Proof using B. intros r _. unfold gnloc. destruct geo_size. apply count_filter. lia. Qed.
(** the columns of a rank, in the order of their local indices *)
Lemma geo_list : forall r, 0 <= r < l_grid L -> map (gl r) (zrange 0 (gnloc r)) = filter (fun e => own e =? r) (zrange 0 (ax_size a)).
Proof using B.
  intros r Lr. destruct geo_size as [ES LS]. assert (X : forall m, 0 <= m -> m <= ax_size a -> map (gl r) (zrange 0 (count (fun e => own e =? r) m)) = filter (fun e => own e =? r) (zrange 0 m)).
  { intros m Lm. pattern m. apply natlike_ind; [reflexivity| |exact Lm]. intros x Lx IH Le. unfold Z.succ in *. rewrite count_succ, (zrange_snoc 0 x), filter_app, <- IH by lia. cbn [filter].
    pose proof (count_bounds (fun e => own e =? r) x Lx). destruct (Z.eqb_spec (own x) r) as [E|N]; [|rewrite Z.add_0_r, app_nil_r; reflexivity].
    rewrite zrange_snoc, map_app by lia. f_equal. cbn [map]. f_equal. destruct (geo_pos x ltac:(lia)) as [_ P]. unfold gpos in P. rewrite E in P. exact P. }
  apply X; lia.
Qed.
End geo.

(** ** Searches *)
Lemma search_up_ok : forall f stop n i, f = Z.to_nat (n - i) -> i <= n -> let r := search_up f stop n i in i <= r <= n /\ (forall j, i <= j < r -> stop j = false) /\ (r < n -> stop r = true).
Proof.
  induction f as [|f IH]; intros stop n i E Li; cbn [search_up].
  - split; [lia|]. split; [lia|]. lia.
  - destruct (Z.ltb_spec i n) as [L|L]; [|cbn; split; [lia|]; split; lia]. destruct (stop i) eqn:S; [cbn; split; [lia|]; split; [lia|]; intros; exact S|].
    destruct (IH stop n (i + 1) ltac:(lia) ltac:(lia)) as (A & C & D). cbv zeta. split; [lia|]. split; [|exact D]. intros j Lj. destruct (Z.eq_dec j i) as [->|]; [exact S|apply C; lia].
Qed.
Lemma search_down_ok : forall f stop i, (Z.to_nat (i + 1) <= f)%nat -> -1 <= i -> let r := search_down f stop i in -1 <= r <= i /\ (forall j, r < j <= i -> stop j = false) /\ (0 <= r -> stop r = true).
Proof.
  induction f as [|f IH]; intros stop i E Li; cbn [search_down].
  - split; [lia|]. split; [lia|]. lia.
  - destruct (Z.leb_spec 0 i) as [L|L]; [|cbn; split; [lia|]; split; lia]. destruct (stop i) eqn:S; [cbn; split; [lia|]; split; [lia|]; intros; exact S|].
    destruct (IH stop (i - 1) ltac:(lia) ltac:(lia)) as (A & C & D). cbv zeta. split; [lia|]. split; [|exact D]. intros j Lj. destruct (Z.eq_dec j i) as [->|]; [exact S|apply C; lia].
Qed.

(** ** The function *)
Record dpart_ok {T : Type} (ltb : T -> T -> bool) (d : distribution) (G : Z) (types : Z -> coltype) (evals : Z -> T) (perm : Z -> Z) (R : dpart) : Prop := {
  pd_k : 0 <= dp_ret_k R <= ax_size (get Col d) /\ dp_ret_k R = Z.of_nat (length (filter (ndef types) (zrange 0 (ax_size (get Col d)))));
  pd_is : is_perm (ax_size (get Col d)) (dp_is R);
  pd_kept : tab 0 (dp_ret_k R) (dp_is R) = filter (ndef types) (tab 0 (ax_size (get Col d)) perm);
  pd_defl : forall i, 0 <= i < ax_size (get Col d) -> (types (dp_is R i) = Deflated <-> dp_ret_k R <= i);
  pd_asc : ascending ltb evals (dp_is R) (dp_ret_k R) (ax_size (get Col d));
  pd_isc : is_perm (ax_size (get Col d)) (dp_isc R);
  pd_own : forall j, 0 <= j < ax_size (get Col d) -> ax_rank_global_element (get Col d) (dp_isc R j) = ax_rank_global_element (get Col d) j;
  pd_list : forall r, 0 <= r < G -> let all t := filter (fun i => (ax_rank_global_element (get Col d) i =? r) && coltype_eqb (types i) t) (tab 0 (ax_size (get Col d)) (dp_is R)) in
    map (dp_isc R) (filter (fun e => ax_rank_global_element (get Col d) e =? r) (zrange 0 (ax_size (get Col d)))) = all UpperHalf ++ all Dense ++ all LowerHalf ++ all Deflated;
  pd_k_lc : forall r, 0 <= r < G -> dp_k_lc (get Col d) types (dp_is R) r = Z.of_nat (length (filter (fun i => (ax_rank_global_element (get Col d) i =? r) && ndef types i) (zrange 0 (ax_size (get Col d)))));
  pd_local : forall j, 0 <= j < ax_size (get Col d) -> (types (dp_isc R j) = Deflated <-> dp_k_lc (get Col d) types (dp_is R) (ax_rank_global_element (get Col d) j) <= gpos d j);
  pd_udl : let '(u, b, c) := dp_ret_udl R in 0 <= u <= b /\ b <= c <= ax_size (get Col d) /\ (forall j, 0 <= j < u -> types (dp_isc R j) = UpperHalf) /\
    (forall j, b <= j < c -> types (dp_isc R j) = LowerHalf \/ types (dp_isc R j) = Deflated) /\ (forall j, c <= j < ax_size (get Col d) -> types (dp_isc R j) = Deflated);
  pd_i4 : forall j, 0 <= j < ax_size (get Col d) -> 0 <= dp_i4 R j < ax_size (get Col d) /\ dp_is R (dp_i4 R j) = dp_isc R j;
  pd_i6 : is_perm (ax_size (get Col d)) (dp_i6o R);
  pd_i6k : forall j, 0 <= j < ax_size (get Col d) -> types (dp_isc R j) <> Deflated -> 0 <= dp_i6o R j < dp_ret_k R /\ dp_i6o R j = Z.of_nat (length (filter (fun i => ndef types (dp_isc R i)) (zrange 0 j)));
  pd_i6d : forall j, 0 <= j < ax_size (get Col d) -> types (dp_isc R j) = Deflated -> dp_i6o R j = dp_i4 R j /\ dp_ret_k R <= dp_i6o R j;
  pd_perm : is_perm (ax_size (get Col d)) (dp_perm R) /\ (forall j, 0 <= j < ax_size (get Col d) -> dp_perm R (dp_i6o R j) = j /\ dp_i6o R (dp_perm R j) = j)
}.
Lemma ndef_true : forall types i, ndef types i = true <-> types i <> Deflated.
Proof. intros. unfold ndef. destruct (types i); cbn; split; congruence. Qed.
Lemma i6_loop : forall types isc i4 i60 m, 0 <= m ->
  let s := fold_left (fun s j => let '(i6, jnd) := s in if negb (coltype_eqb (types (isc j)) Deflated) then (upd i6 j jnd, jnd + 1) else (upd i6 j (i4 j), jnd)) (zrange 0 m) (i60, 0) in
  snd s = Z.of_nat (length (filter (fun i => ndef types (isc i)) (zrange 0 m))) /\
  forall j, 0 <= j < m -> fst s j = if ndef types (isc j) then Z.of_nat (length (filter (fun i => ndef types (isc i)) (zrange 0 j))) else i4 j.
Proof.
  intros types isc i4 i60 m Lm. pattern m. apply natlike_ind; [|intros x Lx IH|exact Lm].
  - cbv zeta. rewrite zrange_nil by lia. cbn. split; [reflexivity|intros; lia].
  - unfold Z.succ. cbv zeta in *. rewrite zrange_snoc, fold_left_app, filter_app, app_length by lia. cbn [fold_left]. destruct (fold_left _ (zrange 0 x) (i60, 0)) as [i6 jnd]. cbn [fst snd] in IH. destruct IH as [A C].
    change (negb (coltype_eqb (types (isc x)) Deflated)) with (ndef types (isc x)). cbn [filter]. destruct (ndef types (isc x)) eqn:N; cbn [fst snd length].
    + split; [lia|]. intros j Lj. destruct (Z.eq_dec j x) as [->|NE]; [rewrite upd_eq, N; exact A|rewrite upd_neq by exact NE; apply C; lia].
    + split; [lia|]. intros j Lj. destruct (Z.eq_dec j x) as [->|NE]; [rewrite upd_eq, N; reflexivity|rewrite upd_neq by exact NE; apply C; lia].
Qed.
Lemma dist_partition_ok : forall (T : Type) (ltb : T -> T -> bool), strict_weak ltb -> forall rank Ls d, built rank Ls d ->
  forall types (evals : Z -> T) perm is0 isc0 i5lc0 i40 i60, is_perm (ax_size (get Col d)) perm ->
  dpart_ok ltb d (l_grid (Ls Col)) types evals perm (dist_partition ltb (get Col d) types evals perm is0 isc0 i5lc0 i40 i60).
Proof.
  intros T ltb (IRR & TR & AS) rank Ls d B types evals perm is0 isc0 i5lc0 i40 i60 P. destruct (geo_size rank Ls d B) as [ES LS]. unfold dist_partition. set (n := ax_size (get Col d)) in *. assert (Ln : 0 <= n) by lia.
  assert (EK : dp_k (get Col d) types = Z.of_nat (length (filter (ndef types) (zrange 0 n)))) by reflexivity. set (k := dp_k (get Col d) types) in *.
  pose proof (perm_filter (ndef types) _ _ P) as PN. pose proof (perm_filter (fun i => negb (ndef types i)) _ _ P) as PD.
  pose proof (Permutation_length PN) as LN. pose proof (Permutation_length PD) as LD.
  pose proof (Permutation_length (filter_split (ndef types) (zrange 0 n))) as LT. rewrite app_length in LT. pose proof (zrange_length 0 n) as LZ.
  destruct (partition_loop ltb evals types perm k is0 n ltac:(lia) Ln ltac:(lia)) as (is & E & T1 & T2). rewrite E. clear E.
  assert (KD : k + Z.of_nat (length (filter (fun i => negb (ndef types i)) (tab 0 n perm))) = n) by lia. rewrite KD in T2. rewrite LN, <- EK in T1.
  assert (TD : Permutation (tab k n is) (filter (fun i => negb (ndef types i)) (tab 0 n perm))) by (rewrite T2, <- Permutation_rev, fold_insd_perm, app_nil_r; reflexivity).
  assert (P3 : is_perm n is). { unfold is_perm. rewrite (tab_app 0 k n) by lia. rewrite T1, TD, filter_split. exact P. }
  assert (D3 : forall i, 0 <= i < n -> (types (is i) = Deflated <-> k <= i)).
  { intros i Li. destruct (Z.lt_ge_cases i k) as [Lk|Lk].
    - split; [|lia]. intros E. assert (I : In (is i) (tab 0 k is)) by (apply in_tab; exists i; split; [lia|reflexivity]). rewrite T1 in I. apply filter_In in I as [_ I]. apply ndef_true in I. contradiction.
    - split; [lia|]. intros _. assert (I : In (is i) (tab k n is)) by (apply in_tab; exists i; split; [lia|reflexivity]). eapply Permutation_in in I; [|exact TD]. apply filter_In in I as [_ I].
      destruct (types (is i)) eqn:Q; try reflexivity; unfold ndef in I; rewrite Q in I; discriminate. }
  set (a := get Col d) in *. set (own := ax_rank_global_element a). set (gl := global_element_from_local_element_on_rank a). set (G := l_grid (Ls Col)).
  assert (OWN : forall e, 0 <= e < n -> 0 <= own e < G) by (intros e Le; apply (geo_own rank Ls d B); exact Le).
  set (L := tab 0 n is). assert (PL : Permutation L (zrange 0 n)) by exact P3.
  assert (GLH : forall r p, 0 <= r < G -> 0 <= p < gnloc d r -> 0 <= gl r p < n /\ own (gl r p) = r /\ gpos d (gl r p) = p) by exact (geo_gl rank Ls d B).
  assert (POSH : forall e, 0 <= e < n -> 0 <= gpos d e < gnloc d (own e) /\ gl (own e) (gpos d e) = e) by exact (geo_pos rank Ls d B).
  assert (NLH : forall r, 0 <= r < G -> gnloc d r = Z.of_nat (length (filter (fun e => own e =? r) (zrange 0 n)))) by exact (geo_nloc rank Ls d B).
  assert (OFF : forall r c, dp_offsets a types is r (ev_sort_order c) = bbase own types L r c).
  { intros r c. unfold dp_offsets, dp_count. fold own n. change (fold_left _ (zrange 0 n) (fun _ _ => 0)) with (fold_left (fun o j => cstep own types o (is j)) (zrange 0 n) (fun _ _ => 0)). rewrite (fold_tab (cstep own types) is). apply offsets_at. }
  destruct (bins_loop G n own gl (gnloc d) (gpos d) OWN GLH NLH types L PL isc0 L [] (dp_offsets a types is) (eq_sym (app_nil_r L)) OFF) as (oo & isc & EB & _ & BINS).
  assert (EI : dp_bins a types is isc0 = isc).
  { unfold dp_bins. fold own n. change (fold_left _ (zrange 0 n) (dp_offsets a types is, isc0)) with (fold_left (fun s j => bstep own gl types s (is j)) (zrange 0 n) (dp_offsets a types is, isc0)). rewrite (fold_tab (bstep own gl types) is). fold L. rewrite EB. reflexivity. }
  rewrite EI. clear EI EB.
  pose proof (isc_perm G n own gl (gnloc d) (gpos d) OWN POSH NLH types L PL isc BINS) as P5.
  pose proof (fun j c => isc_type G n own gl (gnloc d) (gpos d) OWN POSH NLH types L PL isc BINS j c) as TYP.
  set (i2 := invert_index n is perm). destruct (C34_invert_index n is perm P3) as (PI2 & INV1 & INV2 & _). fold i2 in PI2, INV1, INV2.
  set (i4 := apply_index n isc i2 i40).
  assert (H4 : forall j, 0 <= j < n -> i4 j = i2 (isc j)) by (intros j Lj; unfold i4; rewrite C34_apply_index; replace ((0 <=? j) && (j <? n)) with true by lia; reflexivity).
  assert (HI4 : forall j, 0 <= j < n -> 0 <= i4 j < n /\ is (i4 j) = isc j).
  { intros j Lj. pose proof (is_perm_in n isc j P5 Lj). rewrite H4 by exact Lj. split; [apply is_perm_in; assumption|apply INV2; assumption]. }
  set (i6 := dp_i6 a types isc i4 i60).
  destruct (i6_loop types isc i4 i60 n Ln) as [TOT HI6]. cbv zeta in TOT, HI6. change (forall j, 0 <= j < n -> i6 j = if ndef types (isc j) then Z.of_nat (length (filter (fun i => ndef types (isc i)) (zrange 0 j))) else i4 j) in HI6. clear TOT.
  set (nk := fun j => Z.of_nat (length (filter (fun i => ndef types (isc i)) (zrange 0 j)))) in *.
  assert (NKS : forall p q, 0 <= p < q -> q <= n -> ndef types (isc p) = true -> nk p < nk q).
  { intros p q Lp Lq NP. unfold nk. rewrite (zrange_app 0 p q), filter_app, app_length by lia. rewrite (zrange_cons p q) by lia. cbn [filter]. rewrite NP. cbn [length]. lia. }
  assert (NKN : nk n = k).
  { unfold nk. rewrite EK. f_equal. rewrite <- (Permutation_length (perm_filter (ndef types) _ _ P5)). unfold tab. generalize (zrange 0 n). induction l as [|x l IH]; [reflexivity|]. cbn [filter map]. destruct (ndef types (isc x)); cbn [length]; rewrite IH; reflexivity. }
  assert (K6 : forall j, 0 <= j < n -> types (isc j) <> Deflated -> 0 <= i6 j < k /\ i6 j = nk j).
  { intros j Lj ND. apply ndef_true in ND. rewrite HI6, ND by exact Lj. pose proof (NKS j n ltac:(lia) ltac:(lia) ND). fold (nk j). unfold nk at 1. split; [|reflexivity]. fold (nk j). rewrite <- NKN. unfold nk at 1. lia. }
  assert (D6 : forall j, 0 <= j < n -> types (isc j) = Deflated -> i6 j = i4 j /\ k <= i6 j).
  { intros j Lj ND. rewrite HI6 by exact Lj. unfold ndef. rewrite ND. cbn [coltype_eqb negb]. split; [reflexivity|]. destruct (HI4 j Lj) as [L4 E4]. apply (D3 (i4 j) L4). rewrite E4. exact ND. }
  assert (DEC : forall j, {types (isc j) = Deflated} + {types (isc j) <> Deflated}) by (intros j; destruct (types (isc j)); (left; reflexivity) || (right; discriminate)).
  assert (P6 : is_perm n i6).
  { apply is_perm_intro.
    - intros i Li. destruct (DEC i) as [Q|Q]; [destruct (D6 i Li Q) as [-> _]; apply HI4; exact Li|destruct (K6 i Li Q); lia].
    - intros i j Li Lj E. destruct (DEC i) as [Q|Q], (DEC j) as [Q'|Q'].
      + destruct (D6 i Li Q) as [X _]. destruct (D6 j Lj Q') as [Y _]. rewrite X, Y in E. destruct (HI4 i Li) as [_ U]. destruct (HI4 j Lj) as [_ V]. apply (is_perm_inj n isc); try assumption. congruence.
      + destruct (D6 i Li Q) as [_ X]. destruct (K6 j Lj Q') as [Y _]. lia.
      + destruct (D6 j Lj Q') as [_ X]. destruct (K6 i Li Q) as [Y _]. lia.
      + destruct (K6 i Li Q) as [_ X]. destruct (K6 j Lj Q') as [_ Y]. destruct (Z.lt_trichotomy i j) as [S|[S|S]]; [|exact S|].
        * pose proof (NKS i j ltac:(lia) ltac:(lia) (proj2 (ndef_true _ _) Q)). lia.
        * pose proof (NKS j i ltac:(lia) ltac:(lia) (proj2 (ndef_true _ _) Q')). lia. }
  destruct (C34_invert_index n i6 i2 P6) as (PI & J1 & J2 & _).
  constructor; cbn [dp_ret_k dp_ret_k_lc dp_ret_udl dp_is dp_isc dp_i5lc dp_i4 dp_i6o dp_perm]; fold a n own.
  - split; [lia|exact EK].
  - exact P3.
  - exact T1.
  - exact D3.
  - apply ascending_asc; [exact IRR|]. rewrite T2. apply desc_rev. apply fold_insd_desc; [exact TR|exact AS|constructor].
  - exact P5.
  - intros j Lj. apply (TYP j UpperHalf Lj).
  - intros r Lr. cbv zeta. transitivity (map (fun i => isc (gl r i)) (zrange 0 (gnloc d r))); [|exact (rank_list G n own gl (gnloc d) NLH types L PL isc BINS r Lr)].
    assert (GE : map (gl r) (zrange 0 (gnloc d r)) = filter (fun e => own e =? r) (zrange 0 n)) by exact (geo_list rank Ls d B r Lr). rewrite <- GE, map_map. reflexivity.
  - intros r Lr. unfold dp_k_lc. rewrite OFF. cbn [bbase]. rewrite <- (Permutation_length (perm_filter (fun i => (own i =? r) && ndef types i) _ _ PL)). fold L. unfold bcnt. clear. induction L as [|x l IH]; [reflexivity|].
    cbn [filter]. assert (SS : forall c, sel own types r c x = (own x =? r) && coltype_eqb (types x) c) by reflexivity. rewrite !SS. assert (NX : ndef types x = negb (coltype_eqb (types x) Deflated)) by reflexivity. rewrite NX. destruct (own x =? r); cbn [andb]; [|exact IH]. destruct (types x); cbn [coltype_eqb negb length]; lia.
  - intros j Lj. unfold dp_k_lc. rewrite OFF. destruct (TYP j Deflated Lj) as [TI _]. rewrite TI. destruct (POSH j Lj) as [LP _]. rewrite (bcnt_nloc G n own (gnloc d) NLH types L PL) in LP by (apply OWN; exact Lj). cbn [bbase]. lia.
  - unfold dp_udl. fold n. destruct (search_up_ok (Z.to_nat n) (fun i => negb (coltype_eqb (types (isc i)) UpperHalf)) n 0 ltac:(f_equal; lia) Ln) as (U1 & U2 & U3).
    destruct (search_down_ok (Z.to_nat n) (fun i => negb (coltype_eqb (types (isc i)) Deflated)) (n - 1) ltac:(lia) ltac:(lia)) as (C1 & C2 & C3). set (u := search_up _ _ n 0) in *. set (c := search_down _ _ (n - 1)) in *.
    destruct (search_down_ok (Z.to_nat n) (fun i => negb (coltype_eqb (types (isc i)) LowerHalf) && negb (coltype_eqb (types (isc i)) Deflated)) c ltac:(lia) ltac:(lia)) as (B1 & B2 & B3). set (b := search_down _ _ c) in *.
    assert (UU : forall j, 0 <= j < u -> types (isc j) = UpperHalf). { intros j Lj. specialize (U2 j Lj). apply negb_false_iff in U2. apply ctb_eq. exact U2. }
    assert (CC : forall j, c < j <= n - 1 -> types (isc j) = Deflated). { intros j Lj. specialize (C2 j Lj). apply negb_false_iff in C2. apply ctb_eq. exact C2. }
    assert (BB : forall j, b < j <= c -> types (isc j) = LowerHalf \/ types (isc j) = Deflated). { intros j Lj. specialize (B2 j Lj). apply andb_false_iff in B2 as [X|X]; apply negb_false_iff in X; apply ctb_eq in X; auto. }
    assert (UC : u <= c + 1). { destruct (Z.le_gt_cases u (c + 1)) as [X|X]; [exact X|]. exfalso. pose proof (UU (u - 1) ltac:(lia)) as Y. rewrite CC in Y by lia. discriminate. }
    assert (UB : u <= b + 1). { destruct (Z.le_gt_cases u (b + 1)) as [X|X]; [exact X|]. exfalso. pose proof (UU (b + 1) ltac:(lia)) as Y. destruct (BB (b + 1) ltac:(lia)) as [W|W]; congruence. }
    split; [lia|]. split; [lia|]. split; [exact UU|]. split; [intros j Lj; apply BB; lia|intros j Lj; apply CC; lia].
  - exact HI4.
  - exact P6.
  - intros j Lj ND. destruct (K6 j Lj ND) as [X Y]. split; [exact X|]. rewrite Y. reflexivity.
  - exact D6.
  - split; [exact PI|]. intros j Lj. split; [apply J1|apply J2]; exact Lj.
Qed.
