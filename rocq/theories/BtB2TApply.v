(** * Products of the reflectors of band to tridiagonal applied to a matrix: windows, order of the factors *)
From Coq Require Import ZArith Lia List Bool Ring Permutation Sorting.Sorted.
From Verif Require Import Loop StarField DenseSpec Tiling RefKernels DenseJobs Reorder HouseSpec HouseModel HouseQR MultiJobs Red2BandModel Red2BandSpec B2TModel B2TSched B2TResult B2TAlg BtB2TModel BtB2TTile.
Import ListNotations.
Local Open Scope Z_scope.

Section reorder.
(** operations (up to an equivalence) applied in two orders that differ for commuting ones only *)
Context {X T : Type} (op : X -> T -> T) (eqv : T -> T -> Prop).
Hypothesis ER : forall t, eqv t t.
Hypothesis ET : forall a b c, eqv a b -> eqv b c -> eqv a c.
Hypothesis EO : forall x a b, eqv a b -> eqv (op x a) (op x b).
Variable conf : X -> X -> Prop.
Hypothesis CS : forall a b, conf a b -> conf b a.
Variable dom : X -> Prop.
Hypothesis COM : forall a b t, dom a -> dom b -> ~ conf a b -> eqv (op a (op b t)) (op b (op a t)).
Notation ops := (fun l t => fold_right op t l).
Lemma ops_ext : forall l a b, eqv a b -> eqv (ops l a) (ops l b).
Proof using EO. induction l as [|x l IH]; intros a b E; [exact E|]. cbn. apply EO. apply IH. exact E. Qed.
Lemma ops_front : forall p q a t, (forall b, In b p -> ~ conf b a) -> dom a -> (forall b, In b p -> dom b) -> eqv (ops (p ++ a :: q) t) (ops (a :: p ++ q) t).
Proof using ER ET EO COM.
  induction p as [|b p IH]; intros q a t N DA D; [apply ER|]. cbn [app fold_right].
  eapply ET; [apply EO; apply IH; [intros c Ic; apply N; right; exact Ic|exact DA|intros c Ic; apply D; right; exact Ic]|].
  cbn [fold_right]. apply COM; [apply D; left; reflexivity|exact DA|apply N; left; reflexivity].
Qed.
Theorem ops_reorder : forall ks ks', NoDup ks -> NoDup ks' -> (forall x, In x ks <-> In x ks') -> (forall x, In x ks -> dom x) ->
  (forall a b, before ks a b -> conf a b -> before ks' a b) -> forall t, eqv (ops ks t) (ops ks' t).
Proof using ER ET EO COM CS.
  induction ks as [|a t IH]; intros ks' ND ND' IN DM B x.
  - destruct ks' as [|b ks']; [apply ER|]. exfalso. apply (IN b). left. reflexivity.
  - inversion ND as [|? ? N1 N2]; subst. destruct (in_split a ks') as (p & q & E); [apply IN; left; reflexivity|]. subst ks'.
    assert (NP : forall b, In b p -> ~ conf b a).
    { intros b Ib C. assert (NE : b <> a). { intros ->. apply NoDup_remove_2 in ND'. apply ND'. apply in_or_app. left. exact Ib. }
      assert (It : In b t). { destruct (proj2 (IN b)) as [E|E]; [apply in_or_app; left; exact Ib|congruence|exact E]. }
      destruct (B a b) as (l1 & l2 & E & I2).
      - exists [], t. auto.
      - apply CS. exact C.
      - assert (EE : forall l1 p : list X, p ++ a :: q = l1 ++ a :: l2 -> ~ In a p -> ~ In a l1 -> p = l1 /\ q = l2).
        { clear. induction l1 as [|y l1 IH]; intros [|z p] E Np Nl; pose proof (f_equal (hd a) E) as E1; pose proof (f_equal (@tl X) E) as E2; cbn in E1, E2; clear E; subst.
          - auto.
          - exfalso. apply Np. left. reflexivity.
          - exfalso. apply Nl. left. reflexivity.
          - destruct (IH p E2) as [A C]; [intros Y; apply Np; right; exact Y|intros Y; apply Nl; right; exact Y|]. subst. auto. }
        destruct (EE l1 p E) as [EA EC].
        + apply NoDup_remove_2 in ND'. intros Y. apply ND'. apply in_or_app. left. exact Y.
        + rewrite E in ND'. apply NoDup_remove_2 in ND'. intros Y. apply ND'. apply in_or_app. left. exact Y.
        + subst. apply NoDup_remove_1 in ND'. revert Ib I2 ND'. clear. induction l1 as [|y l1 IH]; intros I1 I2 ND; [destruct I1|]. cbn in ND. inversion ND as [|? ? A C]; subst.
          destruct I1 as [->|I1]; [apply A; apply in_or_app; right; exact I2|auto]. }
    assert (DP : forall b, In b (p ++ q) -> dom b).
    { intros b Ib. apply DM. apply IN. apply in_app_or in Ib as [I1|I1]; apply in_or_app; cbn; auto. }
    eapply ET; [|].
    2:{ assert (F : eqv (ops (a :: p ++ q) x) (ops (p ++ a :: q) x)).
        { clear - ER ET EO COM CS NP DP DM. assert (DA : dom a) by (apply DM; left; reflexivity). induction p as [|b p IH]; [apply ER|]. cbn [app fold_right]. eapply ET; [|apply EO; apply IH].
          - cbn [fold_right]. apply COM; [exact DA|apply DP; left; reflexivity|]. intros C. apply (NP b); [left; reflexivity|]. apply CS. exact C.
          - intros c Ic. apply NP. right. exact Ic.
          - intros c Ic. apply DP. right. exact Ic. }
        exact F. }
    cbn [fold_right]. apply EO. apply IH; [exact N2|eapply NoDup_remove_1; exact ND'| |intros y Iy; apply DM; right; exact Iy|].
    + intros y. split; intros Iy.
      * assert (y <> a) by (intros ->; contradiction). destruct (in_app_or p (a :: q) y) as [I1|[I1|I1]]; [apply IN; right; exact Iy|apply in_or_app; auto|congruence|apply in_or_app; auto].
      * destruct (proj2 (IN y)) as [E|E]; [apply in_app_or in Iy as [I1|I1]; apply in_or_app; cbn; auto| |exact E]. subst y. apply NoDup_remove_2 in ND'. contradiction.
    + intros c b (l1 & l2 & E & I2) C. destruct (B c b) as (m1 & m2 & E' & I3); [exists (a :: l1), l2; cbn; rewrite E; auto|exact C|].
      assert (Na : c <> a) by (intros ->; apply N1; rewrite E; apply in_or_app; right; left; reflexivity).
      assert (Nb : b <> a) by (intros ->; apply N1; rewrite E; apply in_or_app; right; right; exact I2).
      clear - E' I3 Na Nb. revert m1 E'. induction p as [|y p IH]; intros [|z m1] E'; pose proof (f_equal (hd a) E') as E1; pose proof (f_equal (@tl X) E') as E2; cbn in E1, E2; clear E'; subst.
      * congruence.
      * exists m1, m2. auto.
      * cbn [app]. assert (I3' : In b (p ++ q)). { apply in_app_or in I3 as [I3|[I3|I3]]; [apply in_or_app; auto|congruence|apply in_or_app; auto]. } exists [], (p ++ q). auto.
      * destruct (IH m1 E2) as (n1 & n2 & E & I4). exists (z :: n1), n2. cbn. rewrite E. auto.
Qed.
Theorem ops_reorder_sorted : forall (lt lt' : X -> X -> Prop) ks ks',
  StronglySorted lt ks -> StronglySorted lt' ks' -> (forall x, ~ lt x x) -> (forall x y, lt' x y -> ~ lt' y x) -> (forall x, In x ks <-> In x ks') -> (forall x, In x ks -> dom x) ->
  (forall a b, In a ks -> In b ks -> lt a b -> conf a b -> lt' a b) -> forall t, eqv (ops ks t) (ops ks' t).
Proof using ER ET EO COM CS.
  intros lt lt' ks ks' S S' IR AS IN DM C t. apply ops_reorder.
  - apply (sorted_nodup lt); assumption.
  - apply (sorted_nodup lt'); [|exact S']. intros y L. apply (AS y y L L).
  - exact IN.
  - exact DM.
  - intros a b B CF. assert (L := sorted_before lt ks a b S B).
    assert (Ia : In a ks) by (destruct B as (l1 & l2 & -> & _); apply in_or_app; right; left; reflexivity).
    assert (Ib : In b ks) by (destruct B as (l1 & l2 & -> & I2); apply in_or_app; right; right; exact I2).
    destruct (before_total ks' a b) as [B'|B']; [apply IN; exact Ia|apply IN; exact Ib|intros ->; apply (IR b); exact L|exact B'|].
    exfalso. apply (AS a b); [apply C; assumption|]. apply (sorted_before lt' ks'); assumption.
Qed.
End reorder.

Section happly.
Context {K : starfield}.
Local Open Scope sf_scope.
Add Ring KringBA : (fring K).
Variables (m b : Z) (V : mat K).
Hypothesis Hb : (0 < b)%Z.
(** HHT(p_1) ... HHT(p_n) E *)
Definition happly (ps : list (Z * Z)) (E : mat K) : mat K := fold_right (fun p X => mmul m (hht m b V p) X) E ps.
Lemma happly_app : forall p q E, happly (p ++ q) E = happly p (happly q E).
Proof using. intros. unfold happly. apply fold_right_app. Qed.
Lemma happly_col : forall ps (E E' : mat K) c c', (forall a, (0 <= a < m)%Z -> E a c = E' a c') -> forall a, (0 <= a < m)%Z -> happly ps E a c = happly ps E' a c'.
Proof using.
  induction ps as [|p ps IH]; intros E E' c c' EE a La; [apply EE; exact La|]. cbn [happly fold_right]. unfold mmul. apply fsum_ext. intros r Lr. f_equal. apply IH; assumption.
Qed.
Lemma happly_product : forall ps E a c, (0 <= a < m)%Z -> happly ps E a c = mmul m (hht_product m b V ps) E a c.
Proof using.
  intros ps. induction ps as [|p ps IH] using rev_ind; intros E a c La.
  - unfold hht_product. cbn. symmetry. apply mmul_ident_l. exact La.
  - rewrite happly_app. unfold hht_product. rewrite fold_left_app. cbn [fold_left]. rewrite IH by exact La. cbn [happly fold_right]. unfold hht_product. rewrite mmul_assoc. reflexivity.
Qed.
Lemma hht_apply : forall p (E : mat K) a c, (0 <= a < m)%Z -> mmul m (hht m b V p) E a c =
  E a c - V (hht_pos b (fst p) (snd p)) (fst p) * hht_vec m b V (fst p) (snd p) a * fsum 0 m (fun r => fconj (hht_vec m b V (fst p) (snd p) r) * E r c).
Proof using. intros p E a c La. unfold hht. apply mmul_refl_l. exact La. Qed.
Lemma hht_vec_out : forall sw st a, (a < hht_start b sw st \/ hht_start b sw st + b <= a)%Z -> hht_vec m b V sw st a = 0.
Proof using Hb.
  intros sw st a L. unfold hht_vec. cbv zeta. replace (a =? hht_start b sw st)%Z with false by lia.
  replace ((hht_start b sw st <? a) && (a <? hht_start b sw st + hht_len m b sw st))%Z with false by (unfold hht_len; lia). reflexivity.
Qed.
Lemma happly_outside : forall ps (E : mat K) a c, (0 <= a < m)%Z -> (forall p, In p ps -> hht_vec m b V (fst p) (snd p) a = 0) -> happly ps E a c = E a c.
Proof using.
  induction ps as [|p ps IH]; intros E a c La Z0; [reflexivity|]. cbn [happly fold_right]. rewrite hht_apply by exact La. rewrite Z0 by (left; reflexivity).
  fold (happly ps E). rewrite IH by (first [exact La | intros; apply Z0; right; assumption]). ring.
Qed.
(** reflectors that act on different rows commute *)
Definition overlap (p q : Z * Z) : Prop := (hht_start b (fst p) (snd p) < hht_start b (fst q) (snd q) + b /\ hht_start b (fst q) (snd q) < hht_start b (fst p) (snd p) + b)%Z.
Lemma overlap_sym : forall p q, overlap p q -> overlap q p.
Proof using. unfold overlap. tauto. Qed.
Definition eqrows (X Y : mat K) : Prop := forall a c, (0 <= a < m)%Z -> X a c = Y a c.
Lemma hht_commute : forall p q E, ~ overlap p q -> eqrows (mmul m (hht m b V p) (mmul m (hht m b V q) E)) (mmul m (hht m b V q) (mmul m (hht m b V p) E)).
Proof using Hb.
  intros p q E NO a c La. rewrite !hht_apply by exact La.
  set (vp := hht_vec m b V (fst p) (snd p)). set (vq := hht_vec m b V (fst q) (snd q)).
  assert (Z0 : forall r, fconj (vp r) * vq r = 0 /\ fconj (vq r) * vp r = 0).
  { intros r. destruct (Z.lt_ge_cases r (hht_start b (fst p) (snd p))) as [A|A]; [|destruct (Z.lt_ge_cases r (hht_start b (fst p) (snd p) + b)) as [B|B]].
    1,3: unfold vp; rewrite hht_vec_out by lia; rewrite fconj_0; split; ring.
    unfold vq. rewrite hht_vec_out by (unfold overlap in NO; lia). rewrite fconj_0. split; ring. }
  set (tp := V (hht_pos b (fst p) (snd p)) (fst p)). set (tq := V (hht_pos b (fst q) (snd q)) (fst q)).
  set (sp := fsum 0 m (fun r => fconj (vp r) * E r c)). set (sq := fsum 0 m (fun r => fconj (vq r) * E r c)).
  rewrite (fsum_ext 0 m (fun r => fconj (vp r) * mmul m (hht m b V q) E r c) (fun r => fconj (vp r) * E r c)).
  2:{ intros r Lr. rewrite hht_apply by exact Lr. fold vq tq sq. transitivity (fconj (vp r) * E r c - tq * sq * (fconj (vp r) * vq r)); [ring|]. rewrite (proj1 (Z0 r)). ring. }
  rewrite (fsum_ext 0 m (fun r => fconj (vq r) * mmul m (hht m b V p) E r c) (fun r => fconj (vq r) * E r c)).
  2:{ intros r Lr. rewrite hht_apply by exact Lr. fold vp tp sp. transitivity (fconj (vq r) * E r c - tp * sp * (fconj (vq r) * vp r)); [ring|]. rewrite (proj2 (Z0 r)). ring. }
  fold sp sq. ring.
Qed.
Lemma happly_reorder : forall (lt lt' : Z * Z -> Z * Z -> Prop) ps ps',
  StronglySorted lt ps -> StronglySorted lt' ps' -> (forall x, ~ lt x x) -> (forall x y, lt' x y -> ~ lt' y x) -> (forall x, In x ps <-> In x ps') ->
  (forall p q, In p ps -> In q ps -> lt p q -> overlap p q -> lt' p q) -> forall E, eqrows (happly ps E) (happly ps' E).
Proof using Hb.
  intros lt lt' ps ps' S S' IR AS IN C E. apply (ops_reorder_sorted (fun p X => mmul m (hht m b V p) X) eqrows) with (conf := overlap) (dom := fun _ => True) (lt := lt) (lt' := lt').
  - intros t a c _. reflexivity.
  - intros x y z A B a c La. rewrite A, B by exact La. reflexivity.
  - intros p x y A a c La. apply mmul_ext; [reflexivity|]. intros r Lr. apply A. exact Lr.
  - apply overlap_sym.
  - intros p q t _ _ N. apply hht_commute. exact N.
  - exact S.
  - exact S'.
  - exact IR.
  - exact AS.
  - exact IN.
  - trivial.
  - exact C.
Qed.

(** ** reflectors of consecutive sweeps, as a block *)
Lemma win_ident : forall s n (E : mat K) a q, win s n ident E a q = E a q.
Proof using.
  intros s n E a q. unfold win. destruct ((s <=? a) && (a <? s + n))%Z eqn:C; [|reflexivity]. rewrite mmul_ident_l by lia. f_equal. lia.
Qed.
Lemma happly_window : forall sw0 st s n (Vg : mat K) (tau : Z -> F K) kk, (0 <= s)%Z -> (0 <= n)%Z -> (s + n <= m)%Z ->
  (forall c i, (0 <= c < Z.of_nat kk)%Z -> (0 <= i < m)%Z -> hht_vec m b V (sw0 + c) st i = at_rows s n (fun p => Vg p c) i) ->
  (forall c, (0 <= c < Z.of_nat kk)%Z -> V (hht_pos b (sw0 + c) st) (sw0 + c)%Z = tau c) ->
  forall E a q, (0 <= a < m)%Z -> happly (map (fun c => (sw0 + c, st)%Z) (zrange 0 (Z.of_nat kk))) E a q = win s n (refl_prod n Vg tau kk) E a q.
Proof using.
  intros sw0 st s n Vg tau kk Hs Hn HN. induction kk as [|kk IH]; intros HV HT E a q La.
  - cbn. symmetry. apply win_ident.
  - replace (Z.of_nat (S kk)) with (Z.of_nat kk + 1)%Z in * by lia. rewrite zrange_snoc, map_app by lia. cbn [map]. rewrite happly_app.
    rewrite IH by (intros; first [apply HV | apply HT | assumption]; lia). cbn [happly fold_right].
    set (p := (sw0 + Z.of_nat kk, st)%Z). set (v := fun i => Vg i (Z.of_nat kk)).
    assert (EH : forall i, (0 <= i < m)%Z -> mmul m (hht m b V p) E i q = E i q - tau (Z.of_nat kk) * at_rows s n v i * fsum 0 n (fun r => fconj (v r) * E (s + r)%Z q)).
    { intros i Li. rewrite hht_apply by exact Li. unfold p. cbn [fst snd]. rewrite HT by lia. rewrite HV by lia. fold v. f_equal. f_equal.
      rewrite (sum_rows m s n) by (first [assumption | lia | intros r Lr O; rewrite HV by lia; fold v; rewrite rows_out by exact O; rewrite fconj_0; ring]).
      apply fsum_ext. intros r Lr. rewrite HV by lia. fold v. rewrite rows_in by exact Lr. reflexivity. }
    unfold win. destruct ((s <=? a) && (a <? s + n))%Z eqn:C.
    + cbn [refl_prod]. rewrite mmul_assoc. apply mmul_ext; [reflexivity|]. intros r Lr. rewrite EH by lia. rewrite rows_in by exact Lr. rewrite mmul_refl_l by exact Lr. reflexivity.
    + rewrite EH by exact La. rewrite rows_out by lia. ring.
Qed.
End happly.
