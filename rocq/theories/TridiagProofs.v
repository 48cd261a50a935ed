(** * Lemmas on the index bookkeeping of the tridiagonal solver. *)
From Coq Require Import ZArith Lia List Bool Permutation Sorted RelationClasses.
From Verif Require Import CInt Loop DistModel TridiagModel.
Import ListNotations.
Local Open Scope Z_scope.

(** ** Splitting *)
Lemma split_interval_mono : forall f f' b e l, (f <= f')%nat -> split_interval f b e = Some l -> split_interval f' b e = Some l.
Proof.
  induction f as [|f IH]; intros f' b e l L E.
  - destruct f'; cbn in *; destruct (b + 1 =? e); congruence.
  - destruct f' as [|f']; [lia|]. cbn [split_interval] in *. destruct (b + 1 =? e); [exact E|].
    destruct (split_interval f b (ceilDiv (b + e) 2)) as [l1|] eqn:E1; [|discriminate].
    destruct (split_interval f (ceilDiv (b + e) 2) e) as [l2|] eqn:E2; [|discriminate].
    rewrite (IH f' _ _ _ ltac:(lia) E1), (IH f' _ _ _ ltac:(lia) E2). exact E.
Qed.
Lemma mid_range : forall b e, 0 <= b -> b + 1 < e -> b < ceilDiv (b + e) 2 < e.
Proof.
  intros b e L1 L2. unfold ceilDiv. rewrite Z.quot_div_nonneg by lia.
  assert (b + 1 <= (b + e + 2 - 1) / 2) by (apply Z.div_le_lower_bound; lia).
  assert ((b + e + 2 - 1) / 2 < e) by (apply Z.div_lt_upper_bound; lia). lia.
Qed.
(** induction along the recursion *)
Lemma split_ind : forall P : Z -> Z -> list (Z * Z * Z) -> Prop,
  (forall b, 0 <= b -> P b (b + 1) []) ->
  (forall b s e l r, 0 <= b -> b < s < e -> P b s l -> P s e r -> P b e (l ++ r ++ [(b, s, e)])) ->
  forall m b e, 0 <= b < e -> e - b <= Z.of_nat m -> exists l, split_interval m b e = Some l /\ P b e l.
Proof.
  intros P P0 PS. induction m as [|m IH]; intros b e L1 L2; [lia|].
  cbn [split_interval]. destruct (Z.eqb_spec (b + 1) e) as [<-|N].
  - exists []. split; [reflexivity|]. apply P0. lia.
  - pose proof (mid_range b e ltac:(lia) ltac:(lia)) as M. set (s := ceilDiv (b + e) 2) in *.
    destruct (IH b s ltac:(lia) ltac:(lia)) as (l & El & Pl). destruct (IH s e ltac:(lia) ltac:(lia)) as (r & Er & Pr).
    rewrite El, Er. exists (l ++ r ++ [(b, s, e)]). split; [reflexivity|]. apply PS; assumption || lia.
Qed.

(** ** Arrays *)
Lemma upd_eq : forall {A} (a : Z -> A) i v, upd a i v i = v.
Proof. intros. unfold upd. rewrite Z.eqb_refl. reflexivity. Qed.
Lemma upd_neq : forall {A} (a : Z -> A) i v j, j <> i -> upd a i v j = a j.
Proof. intros. unfold upd. destruct (Z.eqb_spec j i); [contradiction|reflexivity]. Qed.
Lemma tab_nil : forall {A} lo hi (a : Z -> A), hi <= lo -> tab lo hi a = [].
Proof. intros. unfold tab. rewrite zrange_nil by lia. reflexivity. Qed.
Lemma tab_app : forall {A} lo mid hi (a : Z -> A), lo <= mid <= hi -> tab lo hi a = tab lo mid a ++ tab mid hi a.
Proof. intros. unfold tab. rewrite (zrange_app lo mid hi) by lia. apply map_app. Qed.
Lemma tab_snoc : forall {A} lo hi (a : Z -> A), lo <= hi -> tab lo (hi + 1) a = tab lo hi a ++ [a hi].
Proof. intros. unfold tab. rewrite zrange_snoc by lia. rewrite map_app. reflexivity. Qed.
Lemma tab_cons : forall {A} lo hi (a : Z -> A), lo < hi -> tab lo hi a = a lo :: tab (lo + 1) hi a.
Proof. intros. unfold tab. rewrite zrange_cons by lia. reflexivity. Qed.
Lemma tab_ext : forall {A} lo hi (a b : Z -> A), (forall i, lo <= i < hi -> a i = b i) -> tab lo hi a = tab lo hi b.
Proof. intros. unfold tab. apply map_ext_in. intros i I. apply H. apply in_zrange. exact I. Qed.
Lemma tab_length : forall {A} lo hi (a : Z -> A), Z.of_nat (length (tab lo hi a)) = Z.max 0 (hi - lo).
Proof. intros. unfold tab. rewrite map_length. apply zrange_length. Qed.
Lemma tab_nth : forall {A} lo hi (a : Z -> A) k, 0 <= k < hi - lo -> nth_error (tab lo hi a) (Z.to_nat k) = Some (a (lo + k)).
Proof. intros. unfold tab. rewrite nth_error_map, zrange_nth by lia. reflexivity. Qed.
Lemma in_tab : forall {A} lo hi (a : Z -> A) x, In x (tab lo hi a) <-> exists i, lo <= i < hi /\ a i = x.
Proof. intros. unfold tab. rewrite in_map_iff. split; intros (i & P & Q); exists i; rewrite in_zrange in *; auto. Qed.
(** a vector is determined by its list *)
Lemma tab_inj : forall {A} lo hi (a b : Z -> A), tab lo hi a = tab lo hi b -> forall i, lo <= i < hi -> a i = b i.
Proof.
  intros A lo hi a b E i L. pose proof (tab_nth lo hi a (i - lo) ltac:(lia)) as X. rewrite E, (tab_nth lo hi b (i - lo) ltac:(lia)) in X.
  injection X as X. replace (lo + (i - lo)) with i in X by lia. auto.
Qed.
Lemma fold_upd : forall {A} (f : Z -> A) l (a : Z -> A) j, fold_left (fun o i => upd o i (f i)) l a j = if existsb (Z.eqb j) l then f j else a j.
Proof.
  intros A f l. induction l as [|x l IH]; intros a j; [reflexivity|]. cbn [fold_left existsb]. rewrite IH.
  destruct (existsb (Z.eqb j) l); [rewrite orb_true_r; reflexivity|]. rewrite orb_false_r. unfold upd. destruct (Z.eqb_spec j x) as [->|]; reflexivity.
Qed.
Lemma existsb_zrange : forall j lo hi, existsb (Z.eqb j) (zrange lo hi) = (lo <=? j) && (j <? hi).
Proof.
  intros j lo hi. apply eq_true_iff_eq. rewrite existsb_exists. split.
  - intros (x & I & E). apply Z.eqb_eq in E. subst x. apply in_zrange in I. apply andb_true_intro. split; [apply Z.leb_le|apply Z.ltb_lt]; lia.
  - intros E. apply andb_prop in E as [E1 E2]. apply Z.leb_le in E1. apply Z.ltb_lt in E2. exists j. split; [apply in_zrange; lia|apply Z.eqb_refl].
Qed.
Lemma apply_index_at : forall {A} n idx (inn out : Z -> A) j, apply_index n idx inn out j = if (0 <=? j) && (j <? n) then inn (idx j) else out j.
Proof. intros. unfold apply_index. rewrite (fold_upd (fun i => inn (idx i))). rewrite existsb_zrange. reflexivity. Qed.
Lemma add_index_at : forall n v a j, add_index n v a j = if (0 <=? j) && (j <? n) then a j + v else a j.
Proof.
  intros n v a j. rewrite <- existsb_zrange. unfold add_index. generalize (zrange_NoDup 0 n). generalize (zrange 0 n) as l. intros l. revert a.
  induction l as [|x l IH]; intros a ND; [reflexivity|]. inversion_clear ND as [|? ? NI ND']. cbn [fold_left existsb]. rewrite IH by exact ND'.
  destruct (Z.eqb_spec j x) as [->|N].
  - cbn [orb]. rewrite upd_eq. destruct (existsb (Z.eqb x) l) eqn:E; [|reflexivity]. exfalso. apply existsb_exists in E as (y & I & E). apply Z.eqb_eq in E. subst y. contradiction.
  - cbn [orb]. rewrite upd_neq by exact N. reflexivity.
Qed.

(** ** Permutations of 0 .. n-1 *)
Definition is_perm (n : Z) (a : Z -> Z) : Prop := Permutation (tab 0 n a) (zrange 0 n).
Lemma is_perm_in : forall n a i, is_perm n a -> 0 <= i < n -> 0 <= a i < n.
Proof.
  intros n a i P L. apply in_zrange. eapply Permutation_in; [exact P|]. apply in_tab. exists i. auto.
Qed.
Lemma is_perm_onto : forall n a j, is_perm n a -> 0 <= j < n -> exists i, 0 <= i < n /\ a i = j.
Proof.
  intros n a j P L. apply in_tab. eapply Permutation_in; [symmetry; exact P|]. apply in_zrange. exact L.
Qed.
Lemma is_perm_inj : forall n a i j, is_perm n a -> 0 <= i < n -> 0 <= j < n -> a i = a j -> i = j.
Proof.
  intros n a i j P Li Lj E. assert (ND : NoDup (tab 0 n a)) by (eapply Permutation_NoDup; [symmetry; exact P|apply zrange_NoDup]).
  pose proof (tab_nth 0 n a i ltac:(lia)) as X. pose proof (tab_nth 0 n a j ltac:(lia)) as Y. cbn in X, Y.
  assert (Z.to_nat i = Z.to_nat j); [|lia]. apply (proj1 (NoDup_nth_error _) ND).
  - apply nth_error_Some. rewrite X. discriminate.
  - rewrite X, Y, E. reflexivity.
Qed.
Lemma is_perm_intro : forall n a, (forall i, 0 <= i < n -> 0 <= a i < n) -> (forall i j, 0 <= i < n -> 0 <= j < n -> a i = a j -> i = j) -> is_perm n a.
Proof.
  intros n a R I. unfold is_perm. apply NoDup_Permutation_bis.
  - unfold tab. generalize (zrange_NoDup 0 n). assert (forall x, In x (zrange 0 n) -> 0 <= x < n) as X by (intros x; apply in_zrange).
    revert X. generalize (zrange 0 n) as l. induction l as [|x l IH]; intros X ND; [constructor|]. inversion_clear ND as [|? ? NI ND']. cbn. constructor.
    + intros C. apply in_map_iff in C as (y & E & Iy). apply NI. rewrite (I x y (X x (or_introl eq_refl)) (X y (or_intror Iy)) (eq_sym E)). exact Iy.
    + apply IH; [intros y Iy; apply X; right; exact Iy|exact ND'].
  - unfold tab. rewrite map_length. reflexivity.
  - intros x I0. apply in_tab in I0 as (i & Li & <-). apply in_zrange. apply R. exact Li.
Qed.
Lemma is_perm_id : forall n, is_perm n (fun i => i).
Proof. intros n. unfold is_perm, tab. rewrite map_id. reflexivity. Qed.
Lemma is_perm_ext : forall n a b, (forall i, 0 <= i < n -> a i = b i) -> is_perm n a -> is_perm n b.
Proof. intros n a b E P. unfold is_perm. rewrite <- (tab_ext 0 n a b E). exact P. Qed.
Lemma is_perm_comp : forall n a b, is_perm n a -> is_perm n b -> is_perm n (fun i => a (b i)).
Proof.
  intros n a b A B. apply is_perm_intro.
  - intros i L. apply (is_perm_in n a); [exact A|]. apply (is_perm_in n b); assumption.
  - intros i j Li Lj E. apply (is_perm_inj n b); try assumption. apply (is_perm_inj n a); try assumption; apply (is_perm_in n b); assumption.
Qed.

Lemma invert_at : forall n p o, is_perm n p -> (forall i, 0 <= i < n -> invert_index n p o (p i) = i) /\ (forall j, ~ 0 <= j < n -> invert_index n p o j = o j).
Proof.
  intros n p o P. unfold invert_index.
  assert (X : forall m, 0 <= m <= n -> (forall i, 0 <= i < m -> fold_left (fun o i => upd o (p i) i) (zrange 0 m) o (p i) = i) /\
     (forall j, ~ 0 <= j < n -> fold_left (fun o i => upd o (p i) i) (zrange 0 m) o j = o j)).
  { intros m [L0 Lm]. revert Lm. pattern m. apply natlike_ind; [| |exact L0].
    - intros _. rewrite zrange_nil by lia. split; [lia|reflexivity].
    - intros x Lx IH Ls. unfold Z.succ in *. destruct (IH ltac:(lia)) as [IH1 IH2]. rewrite zrange_snoc by lia. rewrite fold_left_app. cbn [fold_left]. split.
      + intros i Li. destruct (Z.eq_dec i x) as [->|N]; [apply upd_eq|]. rewrite upd_neq; [apply IH1; lia|].
        intros E. apply N. apply (is_perm_inj n p); [exact P|lia|lia|exact E].
      + intros j Lj. rewrite upd_neq; [apply IH2; exact Lj|]. intros ->. apply Lj. apply (is_perm_in n p); [exact P|lia]. }
  destruct (Z.le_gt_cases 0 n) as [Ln|Ln].
  - destruct (X n ltac:(lia)) as [A B]. split; assumption.
  - rewrite zrange_nil by lia. split; [lia|reflexivity].
Qed.
Lemma invert_perm : forall n p o, is_perm n p -> is_perm n (invert_index n p o) /\ forall j, 0 <= j < n -> p (invert_index n p o j) = j.
Proof.
  intros n p o P. destruct (invert_at n p o P) as [A _].
  assert (B : forall j, 0 <= j < n -> p (invert_index n p o j) = j).
  { intros j L. destruct (is_perm_onto n p j P L) as (i & Li & <-). rewrite A by exact Li. reflexivity. }
  split; [|exact B]. apply is_perm_intro.
  - intros j L. destruct (is_perm_onto n p j P L) as (i & Li & <-). rewrite A; assumption.
  - intros i j Li Lj E. rewrite <- (B i Li), E. apply B. exact Lj.
Qed.

(** ** Merging *)
Section order.
Context {T : Type}.
Variable ltb : T -> T -> bool.
(** strict weak order (operator< on numbers, without NaN): being not less is a total preorder *)
Hypothesis IRR : forall a, ltb a a = false.
Hypothesis GE_TRANS : forall a b c, ltb b a = false -> ltb c b = false -> ltb c a = false.
Hypothesis ASYM : forall a b, ltb a b = true -> ltb b a = false.
(** a <= b *)
Definition vle (a b : T) : Prop := ltb b a = false.
Lemma vle_refl : forall a, vle a a. Proof. intros. apply IRR. Qed.
Lemma vle_trans : forall a b c, vle a b -> vle b c -> vle a c. Proof. intros. eapply GE_TRANS; eassumption. Qed.
Lemma lt_vle : forall a b, ltb a b = true -> vle a b. Proof. intros. apply ASYM. exact H. Qed.

Variable v : Z -> T.
(** in ascending order of values *)
Definition asc (l : list Z) : Prop := StronglySorted (fun i j => vle (v i) (v j)) l.
Let cmp := fun i1 i2 => ltb (v i1) (v i2).
Lemma merge_nil_r : forall l, std_merge cmp l [] = l.
Proof. destruct l; reflexivity. Qed.
Lemma merge_cons : forall a l1 b l2, std_merge cmp (a :: l1) (b :: l2) = if cmp b a then b :: std_merge cmp (a :: l1) l2 else a :: std_merge cmp l1 (b :: l2).
Proof. reflexivity. Qed.
Lemma merge_perm : forall l1 l2, Permutation (std_merge cmp l1 l2) (l1 ++ l2).
Proof.
  induction l1 as [|a l1 IH]; intros l2; [destruct l2; reflexivity|].
  induction l2 as [|b l2 IH2]; [rewrite merge_nil_r, app_nil_r; reflexivity|]. rewrite merge_cons. destruct (cmp b a).
  - rewrite IH2. rewrite <- Permutation_middle. reflexivity.
  - cbn. constructor. apply IH.
Qed.
Lemma merge_asc : forall l1 l2, asc l1 -> asc l2 -> asc (std_merge cmp l1 l2).
Proof.
  induction l1 as [|a l1 IH]; intros l2 S1 S2; [destruct l2; exact S2|].
  induction l2 as [|b l2 IH2]; [rewrite merge_nil_r; exact S1|]. rewrite merge_cons. unfold cmp at 1. destruct (ltb (v b) (v a)) eqn:E.
  - constructor; [apply IH2; inversion S2; assumption|]. apply Forall_forall. intros x I.
    apply (Permutation_in _ (merge_perm _ _)) in I. apply in_app_or in I as [[<-|I]|I].
    + apply lt_vle. exact E.
    + apply vle_trans with (v a); [apply lt_vle; exact E|]. inversion S1 as [|? ? _ F]. eapply Forall_forall in F; eassumption.
    + inversion S2 as [|? ? _ F]. eapply Forall_forall in F; eassumption.
  - constructor; [apply IH; [inversion S1; assumption|exact S2]|]. apply Forall_forall. intros x I.
    apply (Permutation_in _ (merge_perm _ _)) in I. apply in_app_or in I as [I|[<-|I]].
    + inversion S1 as [|? ? _ F]. eapply Forall_forall in F; eassumption.
    + exact E.
    + apply vle_trans with (v b); [exact E|]. inversion S2 as [|? ? _ F]. eapply Forall_forall in F; eassumption.
Qed.

(** ** Insertion of the deflated values *)
(** insertion in a descending list *)
Fixpoint insd (x : Z) (l : list Z) : list Z :=
  match l with [] => [x] | b :: t => if ltb (v b) (v x) then x :: l else b :: insd x t end.
Lemma insd_perm : forall x l, Permutation (insd x l) (x :: l).
Proof. induction l as [|b t IH]; [reflexivity|]. cbn. destruct (ltb (v b) (v x)); [reflexivity|]. rewrite IH. apply perm_swap. Qed.
Definition desc (l : list Z) : Prop := StronglySorted (fun i j => vle (v j) (v i)) l.
Lemma insd_desc : forall x l, desc l -> desc (insd x l).
Proof.
  induction l as [|b t IH]; intros D; [repeat constructor|]. cbn. destruct (ltb (v b) (v x)) eqn:E.
  - constructor; [exact D|]. constructor; [apply lt_vle; exact E|]. inversion D as [|? ? _ F]. apply Forall_forall. intros y I.
    eapply Forall_forall in F; [|exact I]. apply vle_trans with (v b); [exact F|apply lt_vle; exact E].
  - inversion D as [|? ? D' F]. constructor; [apply IH; exact D'|]. apply Forall_forall. intros y I. apply (Permutation_in _ (insd_perm _ _)) in I.
    destruct I as [<-|I]; [exact E|]. eapply Forall_forall in F; eassumption.
Qed.
Lemma ss_app : forall {A} (R : A -> A -> Prop) l1 l2, StronglySorted R (l1 ++ l2) <-> StronglySorted R l1 /\ StronglySorted R l2 /\ forall x y, In x l1 -> In y l2 -> R x y.
Proof.
  intros A R. induction l1 as [|a l1 IH]; intros l2; cbn.
  - split; [intros S; repeat split; [constructor|exact S|intros; contradiction]|tauto].
  - split.
    + intros S. inversion S as [|? ? S' F]. subst. apply IH in S' as (S1 & S2 & X). rewrite Forall_forall in F. repeat split.
      * constructor; [exact S1|]. apply Forall_forall. intros y I. apply F. apply in_or_app. left. exact I.
      * exact S2.
      * intros x y [<-|I] J; [apply F; apply in_or_app; right; exact J|apply X; assumption].
    + intros (S1 & S2 & X). inversion S1 as [|? ? S1' F]. subst. rewrite Forall_forall in F. constructor.
      * apply IH. repeat split; [exact S1'|exact S2|]. intros x y I J. apply X; [right; exact I|exact J].
      * apply Forall_forall. intros y I. apply in_app_or in I as [I|I]; [apply F; exact I|apply X; [left; reflexivity|exact I]].
Qed.
Lemma desc_rev : forall l, desc l -> asc (rev l).
Proof.
  induction l as [|a l IH]; intros D; cbn; [constructor|]. inversion D as [|? ? D' F]. subst. rewrite Forall_forall in F. apply ss_app. repeat split.
  - apply IH. exact D'.
  - repeat constructor.
  - intros x y I [<-|[]]. apply F. apply in_rev. exact I.
Qed.

(** the shifting loop inserts *)
Lemma shift_right_spec : forall m k x j is, m = Z.to_nat (j - k) -> k <= j ->
  exists j' is', shift_right ltb m k v (v x) j is = (j', is') /\ k <= j' <= j /\
    tab k (j + 1) (upd is' j' x) = rev (insd x (rev (tab k j is))) /\ (forall i, ~ k <= i <= j -> upd is' j' x i = is i).
Proof.
  induction m as [|m IH]; intros k x j is Em Lj.
  - assert (j = k) as -> by lia. exists k, is. cbn. split; [reflexivity|]. split; [lia|]. split.
    + rewrite tab_snoc, !tab_nil by lia. cbn. rewrite upd_eq. reflexivity.
    + intros i Li. apply upd_neq. lia.
  - cbn [shift_right]. destruct (Z.ltb_spec k j) as [L|L]; [|lia].
    assert (TB : tab k j is = tab k (j - 1) is ++ [is (j - 1)]). { replace j with (j - 1 + 1) at 1 by lia. apply tab_snoc. lia. }
    rewrite TB, rev_app_distr. cbn [rev app insd]. destruct (ltb (v (is (j - 1))) (v x)) eqn:E.
    + exists j, is. split; [reflexivity|]. split; [lia|]. split.
      * rewrite tab_snoc by lia. rewrite upd_eq. cbn [rev]. rewrite rev_involutive. f_equal. rewrite <- TB. apply tab_ext. intros i Li. apply upd_neq. lia.
      * intros i Li. apply upd_neq. lia.
    + destruct (IH k x (j - 1) (upd is j (is (j - 1))) ltac:(lia) ltac:(lia)) as (j' & is' & E1 & L1 & E2 & E3).
      exists j', is'. split; [exact E1|]. split; [lia|]. split.
      * rewrite tab_snoc by lia. cbn [rev]. f_equal.
        -- replace (j - 1 + 1) with j in E2 by lia. rewrite E2. do 3 f_equal. apply tab_ext. intros i Li. apply upd_neq. lia.
        -- f_equal. rewrite E3 by lia. apply upd_eq.
      * intros i Li. rewrite E3 by lia. apply upd_neq. lia.
Qed.

(** the partition loop *)
Definition ndef (types : Z -> coltype) (i : Z) : bool := negb (coltype_eqb (types i) Deflated).
Lemma partition_loop : forall types p k is0 m, 0 <= k ->
  let nd := filter (ndef types) (tab 0 m p) in let df := filter (fun i => negb (ndef types i)) (tab 0 m p) in
  0 <= m -> Z.of_nat (length nd) <= k ->
  exists is, fold_left (partition_step ltb types v p k) (zrange 0 m) (0, k, is0) = (Z.of_nat (length nd), k + Z.of_nat (length df), is) /\
    tab 0 (Z.of_nat (length nd)) is = nd /\ tab k (k + Z.of_nat (length df)) is = rev (fold_left (fun l x => insd x l) df []).
Proof.
  intros types p k is0 m Lk nd df Lm. subst nd df. pattern m. apply natlike_ind; [| |exact Lm].
  - intros _. rewrite tab_nil, zrange_nil by lia. cbn [fold_left filter length Z.of_nat rev]. exists is0. rewrite Z.add_0_r, !tab_nil by lia. auto.
  - intros x Lx IH. unfold Z.succ. rewrite tab_snoc, !filter_app, zrange_snoc by lia. rewrite fold_left_app.
    cbn [filter]. set (nd := filter (ndef types) (tab 0 x p)) in *. set (df := filter (fun i => negb (ndef types i)) (tab 0 x p)) in *. intros LL.
    assert (LN : Z.of_nat (length nd) <= k) by (rewrite app_length in LL; lia).
    destruct (IH LN) as (is & E & T1 & T2). rewrite E. cbn [fold_left partition_step]. change (negb (coltype_eqb (types (p x)) Deflated)) with (ndef types (p x)).
    destruct (ndef types (p x)) eqn:Q; cbn [negb].
    + rewrite app_nil_r. rewrite app_length in LL |- *. cbn [length] in LL |- *. exists (upd is (Z.of_nat (length nd)) (p x)).
      replace (Z.of_nat (length nd + 1)) with (Z.of_nat (length nd) + 1) by lia. split; [reflexivity|]. split.
      * rewrite tab_snoc by lia. rewrite upd_eq. f_equal. transitivity (tab 0 (Z.of_nat (length nd)) is); [|exact T1]. apply tab_ext. intros i Li. apply upd_neq. lia.
      * rewrite <- T2. apply tab_ext. intros i Li. apply upd_neq. lia.
    + rewrite app_nil_r. destruct (shift_right_spec (Z.to_nat (k + Z.of_nat (length df) - k)) k (p x) (k + Z.of_nat (length df)) is eq_refl ltac:(lia)) as (j' & is' & S1 & S2 & S3 & S4).
      rewrite S1. exists (upd is' j' (p x)). rewrite app_length. cbn [length]. replace (k + Z.of_nat (length df + 1)) with (k + Z.of_nat (length df) + 1) by lia.
      split; [reflexivity|]. split.
      * transitivity (tab 0 (Z.of_nat (length nd)) is); [|exact T1]. apply tab_ext. intros i Li. apply S4. lia.
      * rewrite S3, T2, rev_involutive, fold_left_app. reflexivity.
Qed.
Lemma fold_insd_perm : forall l acc, Permutation (fold_left (fun l x => insd x l) l acc) (l ++ acc).
Proof.
  induction l as [|x l IH]; intros acc; [reflexivity|]. cbn [fold_left]. rewrite IH. rewrite insd_perm. cbn. symmetry. apply Permutation_middle.
Qed.
Lemma fold_insd_desc : forall l acc, desc acc -> desc (fold_left (fun l x => insd x l) l acc).
Proof. induction l as [|x l IH]; intros acc D; [exact D|]. cbn. apply IH. apply insd_desc. exact D. Qed.
End order.

(** ** Bins *)
Section bins.
Variable types : Z -> coltype.
Definition of_type (c : coltype) (i : Z) : bool := coltype_eqb (types i) c.
Definition cnt (c : coltype) (l : list Z) : Z := Z.of_nat (length (filter (of_type c) l)).
Lemma cnt_app : forall c l l', cnt c (l ++ l') = cnt c l + cnt c l'.
Proof. intros. unfold cnt. rewrite filter_app, app_length. lia. Qed.
Lemma cnt_nonneg : forall c l, 0 <= cnt c l. Proof. intros. unfold cnt. lia. Qed.
Lemma ctb_refl : forall c, coltype_eqb c c = true. Proof. destruct c; reflexivity. Qed.
Lemma ctb_eq : forall a b, coltype_eqb a b = true -> a = b. Proof. destruct a, b; discriminate || reflexivity. Qed.
Lemma order_inj : forall a b, ev_sort_order a = ev_sort_order b -> a = b. Proof. destruct a, b; cbn; lia || reflexivity. Qed.

Lemma count_types_at : forall n c, 0 <= n -> c <> Deflated -> count_types n types (1 + ev_sort_order c) = cnt c (zrange 0 n).
Proof.
  intros n c Ln NC. unfold count_types. pattern n. apply natlike_ind; [| |exact Ln].
  - rewrite zrange_nil by lia. reflexivity.
  - intros x Lx IH. unfold Z.succ. rewrite zrange_snoc by lia. rewrite fold_left_app, cnt_app. cbn [fold_left]. unfold cnt at 2. cbn [filter]. unfold of_type at 1.
    destruct (negb (coltype_eqb (types x) Deflated)) eqn:Q.
    + destruct (coltype_eqb (types x) c) eqn:E.
      * apply ctb_eq in E. rewrite E. rewrite upd_eq, IH. reflexivity.
      * rewrite upd_neq; [rewrite IH; cbn; lia|]. intros X. assert (c = types x) as -> by (apply order_inj; lia). rewrite ctb_refl in E. discriminate.
    + assert (types x = Deflated) as D by (apply ctb_eq; destruct (coltype_eqb (types x) Deflated); [reflexivity|discriminate]).
      rewrite D. replace (coltype_eqb Deflated c) with false by (destruct c; congruence || reflexivity). rewrite IH. cbn. lia.
Qed.
Lemma count_types_0 : forall n, count_types n types 0 = 0.
Proof.
  intros n. unfold count_types. assert (X : forall l o, o 0 = 0 -> fold_left (fun o i => if negb (coltype_eqb (types i) Deflated) then upd o (1 + ev_sort_order (types i)) (o (1 + ev_sort_order (types i)) + 1) else o) l o 0 = 0).
  { induction l as [|x l IH]; intros o E; [exact E|]. cbn [fold_left]. apply IH. destruct (negb _); [|exact E]. rewrite upd_neq; [exact E|]. destruct (types x); cbn; lia. }
  apply X. reflexivity.
Qed.
(** base c: where the bin of c starts *)
Definition base (n : Z) (c : coltype) : Z :=
  let r := zrange 0 n in
  match c with UpperHalf => 0 | Dense => cnt UpperHalf r | LowerHalf => cnt UpperHalf r + cnt Dense r | Deflated => cnt UpperHalf r + cnt Dense r + cnt LowerHalf r end.
Lemma partial_sum_at : forall n c, 0 <= n -> partial_sum (count_types n types) (ev_sort_order c) = base n c.
Proof.
  intros n c Ln. unfold partial_sum.
  pose proof (count_types_0 n) as C0. pose proof (count_types_at n UpperHalf Ln ltac:(discriminate)) as C1.
  pose proof (count_types_at n Dense Ln ltac:(discriminate)) as C2. pose proof (count_types_at n LowerHalf Ln ltac:(discriminate)) as C3.
  cbn [ev_sort_order] in C1, C2, C3. change (1 + 0) with 1 in C1. change (1 + 1) with 2 in C2. change (1 + 2) with 3 in C3.
  assert (R : forall o : Z -> Z, tab 0 1 o = [o 0] /\ tab 0 2 o = [o 0; o 1] /\ tab 0 3 o = [o 0; o 1; o 2] /\ tab 0 4 o = [o 0; o 1; o 2; o 3]) by (intros o; repeat split).
  destruct (R (count_types n types)) as (R1 & R2 & R3 & R4).
  destruct c; cbn [ev_sort_order base]; [change (0 + 1) with 1; rewrite R1|change (2 + 1) with 3; rewrite R3|change (1 + 1) with 2; rewrite R2|change (3 + 1) with 4; rewrite R4]; cbn [fold_left]; lia.
Qed.

Lemma coltype_loop : forall n isc0 m, 0 <= m <= n ->
  exists offs isc, fold_left (coltype_step types) (zrange 0 m) (partial_sum (count_types n types), isc0) = (offs, isc) /\
   forall c, c <> Deflated -> offs (ev_sort_order c) = base n c + cnt c (zrange 0 m) /\ tab (base n c) (base n c + cnt c (zrange 0 m)) isc = filter (of_type c) (zrange 0 m).
Proof.
  intros n isc0 m [L0 Lm]. revert Lm. pattern m. apply natlike_ind; [| |exact L0].
  - intros Ln. rewrite zrange_nil by lia. exists (partial_sum (count_types n types)), isc0. split; [reflexivity|]. intros c NC. rewrite partial_sum_at by lia.
    unfold cnt. cbn. split; [lia|]. rewrite tab_nil by lia. reflexivity.
  - intros x Lx IH Ln. unfold Z.succ in *. destruct (IH ltac:(lia)) as (offs & isc & E & H). rewrite zrange_snoc by lia. rewrite fold_left_app, E. cbn [fold_left coltype_step].
    destruct (negb (coltype_eqb (types x) Deflated)) eqn:Q.
    + set (cx := types x) in *. assert (NX : cx <> Deflated) by (intros X; rewrite X in Q; discriminate).
      destruct (H cx NX) as [O1 T1]. rewrite O1.
      exists (upd offs (ev_sort_order cx) (base n cx + cnt cx (zrange 0 x) + 1)), (upd isc (base n cx + cnt cx (zrange 0 x)) x). split; [reflexivity|].
      intros c NC. destruct (H c NC) as [Oc Tc]. rewrite cnt_app, filter_app.
      destruct (coltype_eqb cx c) eqn:EC.
      * apply ctb_eq in EC. rewrite <- EC in *. assert (OT : of_type cx x = true) by apply ctb_refl. assert (CX : cnt cx [x] = 1) by (unfold cnt; cbn [filter]; rewrite OT; reflexivity). rewrite CX. cbn [filter]. rewrite OT.
        rewrite upd_eq. split; [lia|]. replace (base n cx + (cnt cx (zrange 0 x) + 1)) with (base n cx + cnt cx (zrange 0 x) + 1) by lia.
        rewrite tab_snoc by (pose proof (cnt_nonneg cx (zrange 0 x)); lia). rewrite upd_eq. f_equal. transitivity (tab (base n cx) (base n cx + cnt cx (zrange 0 x)) isc); [|exact T1]. apply tab_ext. intros i Li. apply upd_neq. lia.
      * assert (OT : of_type c x = false) by exact EC. assert (CX : cnt c [x] = 0) by (unfold cnt; cbn [filter]; rewrite OT; reflexivity). rewrite CX. cbn [filter]. rewrite OT. rewrite Z.add_0_r, app_nil_r.
        split; [rewrite upd_neq; [exact Oc|]; intros X; apply order_inj in X; rewrite X, ctb_refl in EC; discriminate|].
        transitivity (tab (base n c) (base n c + cnt c (zrange 0 x)) isc); [|exact Tc]. apply tab_ext. intros i Li. apply upd_neq. intros ->.
        (* the bins do not overlap *)
        assert (SP : zrange 0 n = zrange 0 x ++ [x] ++ zrange (x + 1) n).
        { rewrite (zrange_app 0 x n), (zrange_app x (x + 1) n) by lia. f_equal. f_equal. rewrite zrange_cons, zrange_nil by lia. reflexivity. }
        assert (TOT : forall t, cnt t (zrange 0 n) = cnt t (zrange 0 x) + cnt t [x] + cnt t (zrange (x + 1) n)) by (intros t; rewrite SP, !cnt_app; lia).
        pose proof (TOT cx) as Tcx. pose proof (TOT c) as Tcc. assert (cnt cx [x] = 1) by (unfold cnt; cbn [filter]; unfold of_type; fold cx; rewrite ctb_refl; reflexivity).
        pose proof (cnt_nonneg cx (zrange (x + 1) n)). pose proof (cnt_nonneg c (zrange (x + 1) n)). pose proof (cnt_nonneg c [x]).
        pose proof (cnt_nonneg cx (zrange 0 x)). pose proof (cnt_nonneg c (zrange 0 x)).
        pose proof (cnt_nonneg UpperHalf (zrange 0 n)). pose proof (cnt_nonneg Dense (zrange 0 n)). pose proof (cnt_nonneg LowerHalf (zrange 0 n)).
        destruct cx, c; cbn [base] in *; try discriminate; try contradiction; lia.
    + assert (types x = Deflated) as D by (apply ctb_eq; destruct (coltype_eqb (types x) Deflated); [reflexivity|discriminate]).
      exists offs, isc. split; [reflexivity|]. intros c NC. rewrite cnt_app, filter_app. destruct (H c NC) as [Oc Tc].
      assert (OT : of_type c x = false) by (unfold of_type; rewrite D; destruct c; congruence || reflexivity).
      assert (CX : cnt c [x] = 0) by (unfold cnt; cbn [filter]; rewrite OT; reflexivity). rewrite CX. cbn [filter]. rewrite OT. rewrite !Z.add_0_r, app_nil_r. auto.
Qed.
End bins.

(** ** The partition as a whole *)
Lemma perm_filter : forall {A} (f : A -> bool) l l', Permutation l l' -> Permutation (filter f l) (filter f l').
Proof.
  intros A f l l' P. induction P as [|x l l' P IH|x y l|l1 l2 l3 P1 IH1 P2 IH2]; cbn.
  - constructor.
  - destruct (f x); [constructor|]; exact IH.
  - destruct (f x), (f y); try apply perm_swap; reflexivity.
  - etransitivity; eassumption.
Qed.
Lemma filter_split : forall {A} (f : A -> bool) l, Permutation (filter f l ++ filter (fun x => negb (f x)) l) l.
Proof.
  intros A f. induction l as [|x l IH]; [constructor|]. cbn. destruct (f x); cbn; [constructor; exact IH|].
  rewrite <- Permutation_middle. constructor. exact IH.
Qed.
Lemma ndef_count : forall types l, Z.of_nat (length (filter (ndef types) l)) = cnt types UpperHalf l + cnt types Dense l + cnt types LowerHalf l.
Proof.
  intros types. unfold cnt. induction l as [|x l IH]; [reflexivity|]. cbn [filter].
  assert (E1 : forall c, of_type types c x = coltype_eqb (types x) c) by reflexivity. assert (E2 : ndef types x = negb (coltype_eqb (types x) Deflated)) by reflexivity.
  rewrite !E1, E2. destruct (types x); cbn [coltype_eqb negb length]; lia.
Qed.
Lemma fold_copy_at : forall {A} (is : Z -> A) k n a j, fold_left (fun a i => upd a i (is i)) (zrange k n) a j = if (k <=? j) && (j <? n) then is j else a j.
Proof. intros. rewrite fold_upd, existsb_zrange. reflexivity. Qed.

Lemma app_inj : forall {A} (a b c d : list A), length a = length c -> a ++ b = c ++ d -> a = c /\ b = d.
Proof.
  induction a as [|x a IH]; intros b [|y c] d L E; cbn in *; try discriminate; [auto|]. injection E as -> E. injection L as L.
  destruct (IH b c d L E) as [-> ->]. auto.
Qed.
Record partitioned {T : Type} (ltb : T -> T -> bool) (n : Z) (types : Z -> coltype) (evals : Z -> T) (perm is isc : Z -> Z) (k nu nd nl : Z) : Prop := {
  pt_k : k = Z.of_nat (length (filter (ndef types) (zrange 0 n)));
  pt_nu : nu = cnt types UpperHalf (zrange 0 n); pt_nd : nd = cnt types Dense (zrange 0 n); pt_nl : nl = cnt types LowerHalf (zrange 0 n);
  pt_kept : tab 0 k is = filter (ndef types) (tab 0 n perm);
  pt_defl : Permutation (tab k n is) (filter (fun i => negb (ndef types i)) (tab 0 n perm));
  pt_asc : asc ltb evals (tab k n is);
  pt_bins : tab 0 n isc = filter (of_type types UpperHalf) (zrange 0 n) ++ filter (of_type types Dense) (zrange 0 n) ++ filter (of_type types LowerHalf) (zrange 0 n) ++ tab k n is }.
Lemma stable_partition_ok : forall {T : Type} (ltb : T -> T -> bool), (forall a, ltb a a = false) -> (forall a b c, ltb b a = false -> ltb c b = false -> ltb c a = false) ->
  (forall a b, ltb a b = true -> ltb b a = false) ->
  forall n types evals perm is0 isc0, 0 <= n -> is_perm n perm ->
  exists k nu nd nl is isc, stable_partition ltb n types evals perm is0 isc0 = (k, (nu, nd, nl), is, isc) /\ partitioned ltb n types evals perm is isc k nu nd nl.
Proof.
  intros T ltb IRR TR AS n types evals perm is0 isc0 Ln P.
  unfold stable_partition. rewrite partial_sum_at by exact Ln.
  rewrite (count_types_at types n UpperHalf Ln), (count_types_at types n Dense Ln), (count_types_at types n LowerHalf Ln) by discriminate.
  set (k := base types n Deflated).
  assert (KN : k = Z.of_nat (length (filter (ndef types) (zrange 0 n)))) by (unfold k, base; rewrite ndef_count; lia).
  pose proof (perm_filter (ndef types) _ _ P) as PN. pose proof (perm_filter (fun i => negb (ndef types i)) _ _ P) as PD.
  pose proof (Permutation_length PN) as LN. pose proof (Permutation_length PD) as LD.
  pose proof (Permutation_length (filter_split (ndef types) (zrange 0 n))) as LT. rewrite app_length in LT. pose proof (zrange_length 0 n) as LZ.
  destruct (partition_loop ltb evals types perm k is0 n ltac:(lia) Ln ltac:(lia)) as (is & E & T1 & T2).
  rewrite E. destruct (coltype_loop types n isc0 n ltac:(lia)) as (offs & isc & E' & HC). rewrite E'.
  do 6 eexists. split; [reflexivity|].
  assert (KD : k + Z.of_nat (length (filter (fun i => negb (ndef types i)) (tab 0 n perm))) = n) by lia.
  rewrite KD in T2. rewrite LN, <- KN in T1.
  constructor; try reflexivity; try assumption.
  - rewrite T2. rewrite <- Permutation_rev. rewrite fold_insd_perm, app_nil_r. reflexivity.
  - rewrite T2. apply desc_rev. apply fold_insd_desc; [exact TR|exact AS|constructor].
  - set (r := zrange 0 n) in *.
    destruct (HC UpperHalf ltac:(discriminate)) as [_ B1]. destruct (HC Dense ltac:(discriminate)) as [_ B2]. destruct (HC LowerHalf ltac:(discriminate)) as [_ B3].
    cbn [base] in B1, B2, B3. fold r in B1, B2, B3. assert (K3 : k = cnt types UpperHalf r + cnt types Dense r + cnt types LowerHalf r) by reflexivity.
    pose proof (cnt_nonneg types UpperHalf r). pose proof (cnt_nonneg types Dense r). pose proof (cnt_nonneg types LowerHalf r).
    set (cu := cnt types UpperHalf r) in *. set (cd := cnt types Dense r) in *. set (cl := cnt types LowerHalf r) in *.
    rewrite (tab_app 0 cu n), (tab_app cu (cu + cd) n), (tab_app (cu + cd) k n) by lia. rewrite <- B1, <- B2, <- B3. rewrite <- K3.
    f_equal; [|f_equal; [|f_equal]]; apply tab_ext; intros i Li; rewrite fold_copy_at;
      destruct (Z.leb_spec k i), (Z.ltb_spec i n); cbn [andb]; try lia; reflexivity.
Qed.
Section partitioned_facts.
Context {T : Type} {ltb : T -> T -> bool} {n : Z} {types : Z -> coltype} {evals : Z -> T} {perm is isc : Z -> Z} {k nu nd nl : Z}.
Hypothesis PT : partitioned ltb n types evals perm is isc k nu nd nl.
Hypothesis P : is_perm n perm.
Hypothesis Ln : 0 <= n.
Lemma pt_range : 0 <= k <= n /\ k = nu + nd + nl.
Proof using PT P Ln.
  pose proof (pt_k _ _ _ _ _ _ _ _ _ _ _ PT) as K. pose proof (ndef_count types (zrange 0 n)) as C. rewrite <- K in C.
  rewrite (pt_nu _ _ _ _ _ _ _ _ _ _ _ PT), (pt_nd _ _ _ _ _ _ _ _ _ _ _ PT), (pt_nl _ _ _ _ _ _ _ _ _ _ _ PT). split; [|exact C].
  pose proof (Permutation_length (filter_split (ndef types) (zrange 0 n))) as LT. rewrite app_length in LT. pose proof (zrange_length 0 n). lia.
Qed.
Lemma pt_is_perm : is_perm n is.
Proof using PT P Ln.
  destruct pt_range as [R _]. unfold is_perm. rewrite (tab_app 0 k n) by lia. rewrite (pt_kept _ _ _ _ _ _ _ _ _ _ _ PT), (pt_defl _ _ _ _ _ _ _ _ _ _ _ PT).
  rewrite filter_split. exact P.
Qed.
Lemma pt_isc_perm : is_perm n isc.
Proof using PT P Ln.
  unfold is_perm. rewrite (pt_bins _ _ _ _ _ _ _ _ _ _ _ PT), (pt_defl _ _ _ _ _ _ _ _ _ _ _ PT). rewrite (perm_filter _ _ _ P).
  rewrite <- (filter_split (ndef types) (zrange 0 n)) at 5. rewrite !app_assoc. apply Permutation_app_tail.
  generalize (zrange 0 n) as l. induction l as [|x l IH]; [constructor|]. cbn [filter].
  assert (E1 : forall c, of_type types c x = coltype_eqb (types x) c) by reflexivity. assert (E2 : ndef types x = negb (coltype_eqb (types x) Deflated)) by reflexivity.
  rewrite !E1, E2. destruct (types x); cbn [coltype_eqb negb].
  - cbn. constructor. exact IH.
  - rewrite <- Permutation_middle. constructor. exact IH.
  - rewrite <- app_assoc. cbn [app]. rewrite <- Permutation_middle. constructor. rewrite app_assoc. exact IH.
  - exact IH.
Qed.
(** the deflated part is the same *)
Lemma pt_tail : forall i, k <= i < n -> isc i = is i.
Proof using PT P Ln.
  intros i L. destruct pt_range as [R E]. pose proof (pt_bins _ _ _ _ _ _ _ _ _ _ _ PT) as B. rewrite (tab_app 0 k n) in B by lia.
  rewrite !app_assoc in B. assert (LL : length (tab 0 k isc) = length ((filter (of_type types UpperHalf) (zrange 0 n) ++ filter (of_type types Dense) (zrange 0 n)) ++ filter (of_type types LowerHalf) (zrange 0 n))); [|destruct (app_inj _ _ _ _ LL B) as [_ B']; apply (tab_inj k n); assumption].
  rewrite !app_length. pose proof (tab_length 0 k isc). pose proof (pt_nu _ _ _ _ _ _ _ _ _ _ _ PT) as X1. pose proof (pt_nd _ _ _ _ _ _ _ _ _ _ _ PT) as X2. pose proof (pt_nl _ _ _ _ _ _ _ _ _ _ _ PT) as X3.
  unfold cnt in *. lia.
Qed.
(** what is below k is not deflated *)
Lemma pt_below : forall i, 0 <= i < n -> i < k <-> ndef types (is i) = true.
Proof using PT P Ln.
  intros i L. destruct pt_range as [R E]. split.
  - intros Lk. assert (I : In (is i) (tab 0 k is)) by (apply in_tab; exists i; split; [lia|reflexivity]).
    rewrite (pt_kept _ _ _ _ _ _ _ _ _ _ _ PT) in I. apply filter_In in I. apply I.
  - intros N. destruct (Z.lt_ge_cases i k) as [Lk|Lk]; [exact Lk|]. exfalso. assert (I : In (is i) (tab k n is)) by (apply in_tab; exists i; split; [lia|reflexivity]).
    apply (Permutation_in _ (pt_defl _ _ _ _ _ _ _ _ _ _ _ PT)) in I. apply filter_In in I as [_ I]. rewrite N in I. discriminate.
Qed.
End partitioned_facts.
