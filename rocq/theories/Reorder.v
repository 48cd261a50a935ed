(** * Submitting tile jobs in another order that keeps the order of conflicting jobs changes nothing. *)
From Coq Require Import ZArith Lia List Bool Permutation Sorting.Sorted.
From Verif Require Import Loop DenseJobs.
Import ListNotations.
Local Open Scope Z_scope.

Section reorder.
Context {V : Type}.
Definition conflict (a b : tjob V) : Prop := tj_out a = tj_out b \/ In (tj_out a) (tj_in b) \/ In (tj_out b) (tj_in a).
Lemma swap_two : forall (a b : tjob V) st x, ~ conflict a b -> texec (texec st a) b x = texec (texec st b) a x.
Proof.
  intros a b st x N. assert (N1 : tj_out a <> tj_out b) by (intros E; apply N; left; exact E).
  assert (N2 : ~ In (tj_out a) (tj_in b)) by (intros E; apply N; right; left; exact E). assert (N3 : ~ In (tj_out b) (tj_in a)) by (intros E; apply N; right; right; exact E).
  assert (VA : tval a (texec st b) = tval a st). { apply tval_ext. intros y Y. unfold texec. apply tset_neq. intros ->. destruct Y as [Y|Y]; [contradiction|congruence]. }
  assert (VB : tval b (texec st a) = tval b st). { apply tval_ext. intros y Y. unfold texec. apply tset_neq. intros ->. destruct Y as [Y|Y]; [contradiction|congruence]. }
  unfold texec at 1 3. rewrite VA, VB. unfold tset. destruct (tid_eqb_spec x (tj_out b)) as [->|X].
  - destruct (tid_eqb_spec (tj_out b) (tj_out a)); [congruence|]. unfold texec. rewrite tset_eq. reflexivity.
  - destruct (tid_eqb_spec x (tj_out a)) as [->|Y]; unfold texec; rewrite ?tset_eq; [reflexivity|]. rewrite !tset_neq by assumption. reflexivity.
Qed.
Lemma move_front : forall (p q : list (tjob V)) a, (forall b, In b p -> ~ conflict b a) -> forall st x, trun (p ++ a :: q) st x = trun (a :: p ++ q) st x.
Proof.
  induction p as [|b p IH]; intros q a N st x; [reflexivity|]. cbn [app]. rewrite !trun_cons. rewrite IH by (intros c Ic; apply N; right; exact Ic).
  rewrite trun_cons. apply trun_ext. intros y. apply swap_two. apply N. left. reflexivity.
Qed.
Definition before {X} (l : list X) (a b : X) : Prop := exists l1 l2, l = l1 ++ a :: l2 /\ In b l2.
Theorem trun_reorder : forall {X} (J : X -> tjob V) ks ks', NoDup ks -> NoDup ks' -> (forall x, In x ks <-> In x ks') ->
  (forall a b, before ks a b -> conflict (J a) (J b) -> before ks' a b) -> forall st x, trun (map J ks) st x = trun (map J ks') st x.
Proof.
  intros X J ks. induction ks as [|a t IH]; intros ks' ND ND' IN B st x.
  - destruct ks' as [|b ks']; [reflexivity|]. exfalso. apply (IN b). left. reflexivity.
  - inversion ND as [|? ? N1 N2]; subst. destruct (in_split a ks') as (p & q & E); [apply IN; left; reflexivity|]. subst ks'.
    assert (NP : forall b, In b p -> ~ conflict (J b) (J a)).
    { intros b Ib C. assert (NE : b <> a). { intros ->. apply NoDup_remove_2 in ND'. apply ND'. apply in_or_app. left. exact Ib. }
      assert (It : In b t). { destruct (proj2 (IN b)) as [E|E]; [apply in_or_app; left; exact Ib|congruence|exact E]. }
      destruct (B a b) as (l1 & l2 & E & I2).
      - exists [], t. auto.
      - unfold conflict in *. intuition congruence.
      - (* a occurs once: l1 = p, l2 = q *)
        assert (EE : forall l1 p : list X, p ++ a :: q = l1 ++ a :: l2 -> ~ In a p -> ~ In a l1 -> p = l1 /\ q = l2).
        { clear. induction l1 as [|y l1 IH]; intros [|z p] E Np Nl; pose proof (f_equal (hd a) E) as E1; pose proof (f_equal (@tl X) E) as E2; cbn in E1, E2; clear E; subst.
          - auto.
          - exfalso. apply Np. left. reflexivity.
          - exfalso. apply Nl. left. reflexivity.
          - destruct (IH p E2) as [A C]; [intros Y; apply Np; right; exact Y|intros Y; apply Nl; right; exact Y|]. subst. auto. }
        destruct (EE l1 p E) as [EA EC].
        + apply NoDup_remove_2 in ND'. intros Y. apply ND'. apply in_or_app. left. exact Y.
        + rewrite E in ND'. apply NoDup_remove_2 in ND'. intros Y. apply ND'. apply in_or_app. left. exact Y.
        + subst. apply NoDup_remove_1 in ND'. revert Ib I2 ND'. clear. induction l1 as [|y l1 IH]; intros I1 I2 ND; [destruct I1|]. cbn in ND. inversion ND as [|? ? A C]; subst.
          destruct I1 as [->|I1]; [apply A; apply in_or_app; right; exact I2|auto]. }
    rewrite map_app. cbn [map]. rewrite (move_front (map J p) (map J q) (J a)) by (intros b Ib; apply in_map_iff in Ib as (c & <- & Ic); apply NP; exact Ic).
    rewrite !trun_cons. rewrite <- map_app. apply IH; [exact N2|eapply NoDup_remove_1; exact ND'| |].
    + intros y. split; intros Iy.
      * assert (y <> a) by (intros ->; contradiction). destruct (in_app_or p (a :: q) y) as [I1|[I1|I1]]; [apply IN; right; exact Iy|apply in_or_app; auto|congruence|apply in_or_app; auto].
      * destruct (proj2 (IN y)) as [E|E]; [apply in_app_or in Iy as [I1|I1]; apply in_or_app; cbn; auto| |exact E]. subst y. apply NoDup_remove_2 in ND'. contradiction.
    + intros c b (l1 & l2 & E & I2) C. destruct (B c b) as (m1 & m2 & E' & I3); [exists (a :: l1), l2; cbn; rewrite E; auto|exact C|].
      assert (Na : c <> a) by (intros ->; apply N1; rewrite E; apply in_or_app; right; left; reflexivity).
      assert (Nb : b <> a) by (intros ->; apply N1; rewrite E; apply in_or_app; right; right; exact I2).
      (* remove a from p ++ a :: q = m1 ++ c :: m2 *)
      clear - E' I3 Na Nb. revert m1 E'. induction p as [|y p IH]; intros [|z m1] E'; pose proof (f_equal (hd a) E') as E1; pose proof (f_equal (@tl X) E') as E2; cbn in E1, E2; clear E'; subst.
      * congruence.
      * exists m1, m2. auto.
      * cbn [app]. assert (I3' : In b (p ++ q)). { apply in_app_or in I3 as [I3|[I3|I3]]; [apply in_or_app; auto|congruence|apply in_or_app; auto]. } exists [], (p ++ q). auto.
      * destruct (IH m1 E2) as (n1 & n2 & E & I4). exists (z :: n1), n2. cbn. rewrite E. auto.
Qed.

(** ** The same for lists sorted by some order *)
Lemma sorted_before : forall {X} (lt : X -> X -> Prop) l a b, StronglySorted lt l -> before l a b -> lt a b.
Proof.
  intros X lt l a b S (l1 & l2 & -> & I2). induction l1 as [|x l1 IH]; cbn in S; inversion S as [|? ? S1 S2]; subst.
  - rewrite Forall_forall in S2. apply S2. exact I2.
  - apply IH. exact S1.
Qed.
Lemma before_total : forall {X} (l : list X) a b, In a l -> In b l -> a <> b -> before l a b \/ before l b a.
Proof.
  intros X l a b Ia Ib N. apply in_split in Ia as (l1 & l2 & ->). apply in_app_or in Ib as [Ib|[Ib|Ib]].
  - right. apply in_split in Ib as (m1 & m2 & ->). exists m1, (m2 ++ a :: l2). split; [rewrite <- app_assoc; reflexivity|apply in_or_app; right; left; reflexivity].
  - congruence.
  - left. exists l1, l2. auto.
Qed.
Lemma sorted_nodup : forall {X} (lt : X -> X -> Prop) l, (forall x, ~ lt x x) -> StronglySorted lt l -> NoDup l.
Proof.
  intros X lt l IR S. induction S as [|x l S IH F]; constructor; [|exact IH]. intros I0. rewrite Forall_forall in F. apply (IR x). apply F. exact I0.
Qed.
Theorem trun_reorder_sorted : forall {X} (J : X -> tjob V) (lt lt' : X -> X -> Prop) ks ks',
  StronglySorted lt ks -> StronglySorted lt' ks' -> (forall x, ~ lt x x) -> (forall x y, lt' x y -> ~ lt' y x) -> (forall x, In x ks <-> In x ks') ->
  (forall a b, In a ks -> In b ks -> lt a b -> conflict (J a) (J b) -> lt' a b) -> forall st x, trun (map J ks) st x = trun (map J ks') st x.
Proof.
  intros X J lt lt' ks ks' S S' IR AS IN C st x. apply trun_reorder.
  - apply (sorted_nodup lt); assumption.
  - apply (sorted_nodup lt'); [|exact S']. intros y L. apply (AS y y L L).
  - exact IN.
  - intros a b B CF. assert (L := sorted_before lt ks a b S B).
    assert (Ia : In a ks) by (destruct B as (l1 & l2 & -> & _); apply in_or_app; right; left; reflexivity).
    assert (Ib : In b ks) by (destruct B as (l1 & l2 & -> & I2); apply in_or_app; right; right; exact I2).
    destruct (before_total ks' a b) as [B'|B']; [apply IN; exact Ia|apply IN; exact Ib|intros ->; apply (IR b); exact L|exact B'|].
    exfalso. apply (AS a b); [apply C; assumption|]. apply (sorted_before lt' ks'); assumption.
Qed.
Lemma sorted_app : forall {X} (lt : X -> X -> Prop) a b, StronglySorted lt a -> StronglySorted lt b -> (forall x y, In x a -> In y b -> lt x y) -> StronglySorted lt (a ++ b).
Proof.
  intros X lt a b SA SB C. induction SA as [|x a SA IH F]; [exact SB|]. cbn. constructor; [apply IH; intros; apply C; [right|]; assumption|].
  apply Forall_app. split; [exact F|]. apply Forall_forall. intros y Iy. apply C; [left; reflexivity|exact Iy].
Qed.
Lemma sorted_flat : forall {X} (lt : X -> X -> Prop) (f : Z -> list X) l, StronglySorted Z.lt l -> (forall i, In i l -> StronglySorted lt (f i)) ->
  (forall i j a b, In i l -> In j l -> i < j -> In a (f i) -> In b (f j) -> lt a b) -> StronglySorted lt (flat_map f l).
Proof.
  intros X lt f l S F C. induction S as [|x l S IH FA]; [constructor|]. cbn. apply sorted_app.
  - apply F. left. reflexivity.
  - apply IH; [intros; apply F; right; assumption|]. intros i j a b Ii Ij. apply C; right; assumption.
  - intros a b Ia Ib. apply in_flat_map in Ib as (y & Iy & Ib). rewrite Forall_forall in FA. apply (C x y); [left; reflexivity|right; exact Iy|apply FA; exact Iy|exact Ia|exact Ib].
Qed.
Lemma zrange_sorted : forall lo hi, StronglySorted Z.lt (zrange lo hi).
Proof.
  intros lo hi. remember (Z.to_nat (hi - lo)) as n eqn:E. revert lo E. induction n as [|n IH]; intros lo E.
  - rewrite zrange_nil by lia. constructor.
  - rewrite zrange_cons by lia. constructor; [apply IH; lia|]. apply Forall_forall. intros x Ix. apply in_zrange in Ix. lia.
Qed.
Lemma sorted_one : forall {X} (lt : X -> X -> Prop) x, StronglySorted lt [x].
Proof. intros. constructor; [constructor|constructor]. Qed.

(** ** The same for blocks of jobs *)
Definition bconflict (a b : list (tjob V)) : Prop := exists x y, In x a /\ In y b /\ conflict x y.
Definition tag {X} (J : X -> list (tjob V)) (x : X) : list (X * Z) := map (pair x) (zrange 0 (Z.of_nat (length (J x)))).
Definition tget {X} (d : tjob V) (J : X -> list (tjob V)) (p : X * Z) : tjob V := nth (Z.to_nat (snd p)) (J (fst p)) d.
Lemma nth_tags : forall (d : tjob V) (l : list (tjob V)), map (fun n => nth (Z.to_nat n) l d) (zrange 0 (Z.of_nat (length l))) = l.
Proof.
  intros d l. assert (G : forall l o, map (fun n => nth (Z.to_nat (n - o)) l d) (zrange o (o + Z.of_nat (length l))) = l).
  { clear l. induction l as [|a l IH]; intros o; [rewrite zrange_nil by (cbn; lia); reflexivity|]. rewrite zrange_cons by (cbn [length]; lia). cbn [map]. rewrite Z.sub_diag. cbn [Z.to_nat nth]. f_equal.
    rewrite <- (IH (o + 1)) at 2. replace (o + Z.of_nat (length (a :: l))) with (o + 1 + Z.of_nat (length l)) by (cbn [length]; lia). apply map_ext_in. intros n In0. apply in_zrange in In0.
    replace (Z.to_nat (n - o)) with (S (Z.to_nat (n - (o + 1)))) by lia. reflexivity. }
  transitivity (map (fun n => nth (Z.to_nat (n - 0)) l d) (zrange 0 (0 + Z.of_nat (length l)))); [|apply G]. rewrite Z.add_0_l. apply map_ext. intros n. rewrite Z.sub_0_r. reflexivity.
Qed.
Lemma tag_flat : forall {X} d (J : X -> list (tjob V)) ks, map (tget d J) (flat_map (tag J) ks) = flat_map J ks.
Proof.
  intros X d J ks. induction ks as [|k ks IH]; [reflexivity|]. cbn [flat_map]. rewrite map_app, IH. f_equal. unfold tag. rewrite map_map. unfold tget. cbn [fst snd]. apply nth_tags.
Qed.
Lemma in_tag : forall {X} (J : X -> list (tjob V)) ks p, In p (flat_map (tag J) ks) <-> In (fst p) ks /\ 0 <= snd p < Z.of_nat (length (J (fst p))).
Proof.
  intros X J ks [x n]. cbn [fst snd]. rewrite in_flat_map. split.
  - intros (y & Iy & I0). unfold tag in I0. apply in_map_iff in I0 as (m & E & Im). apply in_zrange in Im. inversion E; subst. auto.
  - intros (Ix & L). exists x. split; [exact Ix|]. unfold tag. apply in_map. apply in_zrange. exact L.
Qed.
Lemma sorted_tag : forall {X} (lt : X -> X -> Prop) (J : X -> list (tjob V)) ks, StronglySorted lt ks ->
  StronglySorted (fun a b => lt (fst a) (fst b) \/ fst a = fst b /\ snd a < snd b) (flat_map (tag J) ks).
Proof.
  intros X lt J ks S. induction S as [|x l S IH F]; [constructor|]. cbn [flat_map]. apply sorted_app; [|exact IH|].
  - unfold tag. generalize (zrange_sorted 0 (Z.of_nat (length (J x)))). induction 1 as [|n l' S' IH' F']; [constructor|]. cbn [map]. constructor; [exact IH'|].
    apply Forall_forall. intros p Ip. apply in_map_iff in Ip as (m & <- & Im). right. rewrite Forall_forall in F'. auto.
  - intros a b Ia Ib. left. unfold tag in Ia. apply in_map_iff in Ia as (n & <- & _). cbn [fst]. apply in_tag in Ib as [Ib _]. rewrite Forall_forall in F. auto.
Qed.
Theorem trun_reorder_blocks : forall {X} (J : X -> list (tjob V)) (lt lt' : X -> X -> Prop) ks ks',
  StronglySorted lt ks -> StronglySorted lt' ks' -> (forall x, ~ lt x x) -> (forall x y, lt' x y -> ~ lt' y x) -> (forall x, In x ks <-> In x ks') ->
  (forall a b, In a ks -> In b ks -> lt a b -> bconflict (J a) (J b) -> lt' a b) -> forall st x, trun (flat_map J ks) st x = trun (flat_map J ks') st x.
Proof.
  intros X J lt lt' ks ks' S S' IR AS IN C st x. destruct (flat_map J ks) as [|d t] eqn:E.
  - assert (N : flat_map J ks' = []); [|rewrite N; reflexivity]. destruct (flat_map J ks') as [|d t] eqn:E'; [reflexivity|]. exfalso.
    assert (I0 : In d (flat_map J ks')) by (rewrite E'; left; reflexivity). apply in_flat_map in I0 as (y & Iy & I0).
    assert (I1 : In d (flat_map J ks)) by (apply in_flat_map; exists y; split; [apply IN; exact Iy|exact I0]). rewrite E in I1. destruct I1.
  - rewrite <- E. clear E t. rewrite <- (tag_flat d J ks), <- (tag_flat d J ks').
    apply (trun_reorder_sorted (tget d J) _ _ _ _ (sorted_tag lt J ks S) (sorted_tag lt' J ks' S')).
    + intros [y n] [L|[_ L]]; cbn in L; [apply (IR y L)|lia].
    + assert (IR' : forall y, ~ lt' y y) by (intros y L; apply (AS y y L L)).
      intros [y n] [z m] [L|[Ee L]] [M|[Ef M]]; cbn in *; try subst; [apply (AS _ _ L M)|apply (IR' _ L)|apply (IR' _ M)|lia].
    + intros p. rewrite !in_tag, IN. tauto.
    + intros [y n] [z m] Ia Ib L CF. apply in_tag in Ia as [Ia La]. apply in_tag in Ib as [Ib Lb]. cbn [fst snd] in *. destruct L as [L|L]; [left|right; exact L].
      apply C; try assumption. exists (tget d J (y, n)), (tget d J (z, m)). split; [apply nth_In; cbn [fst snd]; lia|]. split; [apply nth_In; cbn [fst snd]; lia|exact CF].
Qed.
End reorder.
