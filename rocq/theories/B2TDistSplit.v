(** * The kernels for a matrix in two parts do what those for a matrix in one part do *)
From Coq Require Import ZArith Lia List Bool Ring.
From Verif Require Import Loop StarField DenseSpec HouseSpec HouseModel B2TModel B2TFrame B2TDistVal.
Import ListNotations.
Local Open Scope Z_scope.

Section split.
Context {K : starfield}.
Local Open Scope sf_scope.
Add Ring KringSL : (fring K).
Implicit Types B : Z -> F K.
Lemma rect_pos : forall B p ld m n c f d e x y, (0 <= d)%Z -> (0 <= m)%Z -> (d + m <= ld)%Z -> (0 <= x < ld)%Z ->
  rect_set B (p + d + e * ld)%Z ld m n c f (p + x + y * ld)%Z =
  if ((d <=? x) && (x <? d + m) && (e <=? y) && (y <? e + n))%Z && c (x - d)%Z (y - e)%Z then f (x - d)%Z (y - e)%Z else B (p + x + y * ld)%Z.
Proof.
  intros B p ld m n c f d e x y Hd H0 Hm Hx. unfold rect_set. replace (p + x + y * ld - (p + d + e * ld))%Z with (x - d + (y - e) * ld)%Z by lia. rewrite Z.mod_add, Z.div_add by lia. destruct (Z.leb_spec d x) as [L|L].
  - rewrite Z.mod_small, Z.div_small, Z.add_0_l by lia. cbv zeta. replace ((x - d <? m) && (0 <=? y - e) && (y - e <? n))%Z with (true && (x <? d + m) && (e <=? y) && (y <? e + n))%Z by lia. reflexivity.
  - replace (x - d)%Z with (x - d + ld + (-1) * ld)%Z at 1 2 3 4 by lia. rewrite !Z.mod_add, !(Z.mod_small (x - d + ld)) by lia. cbv zeta. cbn [andb]. destruct (Z.ltb_spec (x - d + ld) m) as [Q|Q]; [lia|]. reflexivity.
Qed.
Lemma ger_pos : forall B m n al u w p ld d e x y, (0 <= d)%Z -> (0 <= m)%Z -> (d + m <= ld)%Z -> (0 <= x < ld)%Z ->
  ger m n al u w B (p + d + e * ld)%Z ld (p + x + y * ld)%Z =
  if ((d <=? x) && (x <? d + m) && (e <=? y) && (y <? e + n))%Z then B (p + x + y * ld)%Z + al * u (x - d)%Z * fconj (w (y - e)%Z) else B (p + x + y * ld)%Z.
Proof.
  intros B m n al u w p ld d e x y Hd H0 Hm Hx. unfold ger. rewrite rect_pos by assumption. unfold everywhere, view. rewrite andb_true_r. replace (p + d + e * ld + (x - d) + (y - e) * ld)%Z with (p + x + y * ld)%Z by lia. reflexivity.
Qed.
Lemma her2_pos : forall B n u w p ld d e x y, (0 <= d)%Z -> (0 <= n)%Z -> (d + n <= ld)%Z -> (0 <= x < ld)%Z ->
  her2 n u w B (p + d + e * ld)%Z ld (p + x + y * ld)%Z =
  if ((d <=? x) && (x <? d + n) && (e <=? y) && (y <? e + n))%Z && (y - e <=? x - d)%Z then B (p + x + y * ld)%Z + - (u (x - d)%Z * fconj (w (y - e)%Z)) + - (w (x - d)%Z * fconj (u (y - e)%Z)) else B (p + x + y * ld)%Z.
Proof.
  intros B n u w p ld d e x y Hd H0 Hm Hx. unfold her2. rewrite rect_pos by assumption. unfold view. replace (p + d + e * ld + (x - d) + (y - e) * ld)%Z with (p + x + y * ld)%Z by lia. reflexivity.
Qed.
Lemma addr_of : forall p ld z, (0 < ld)%Z -> exists x y, (0 <= x < ld)%Z /\ z = (p + x + y * ld)%Z.
Proof. intros p ld z L. exists ((z - p) mod ld)%Z, ((z - p) / ld)%Z. split; [apply Z.mod_pos_bound; lia|]. pose proof (Z.div_mod (z - p) ld). lia. Qed.
Lemma sum_split : forall n1 n2 (f : Z -> F K), (0 <= n1)%Z -> (0 <= n2)%Z -> fsum 0 (n1 + n2) f = fsum 0 n1 f + fsum 0 n2 (fun i => f (n1 + i)%Z).
Proof.
  intros n1 n2 f H1 H2. rewrite (fsum_app 0 n1 (n1 + n2)) by lia. f_equal. replace (n1 + n2)%Z with (n2 + n1)%Z by lia. rewrite <- (Z.add_0_l n1) at 1. rewrite fsum_shift. apply fsum_ext. intros i _. f_equal. lia.
Qed.

Lemma left_split : forall m n1 n2 tau v B p ld z, (0 < ld)%Z -> (0 <= m <= ld)%Z -> (0 <= n1)%Z -> (0 <= n2)%Z ->
  hh_left m (n1 + n2) tau v B p ld z = hh_left2 m n1 n2 tau v B p (p + n1 * ld) ld z.
Proof.
  intros m n1 n2 tau v B p ld z Hl Hm H1 H2. destruct (addr_of p ld z Hl) as (x & y & Hx & ->). unfold hh_left2, hh_left.
  set (w1 := fun y => fsum 0 m (fun x => fconj (view B p ld x y) * v x)). set (G1 := ger m n1 (- fconj tau) v w1 B p ld).
  assert (P1 : forall x y, (0 <= x < ld)%Z -> G1 (p + x + y * ld)%Z = if ((0 <=? x) && (x <? 0 + m) && (0 <=? y) && (y <? 0 + n1))%Z then B (p + x + y * ld)%Z + - fconj tau * v (x - 0)%Z * fconj (w1 (y - 0)%Z) else B (p + x + y * ld)%Z).
  { intros x' y' Hx'. unfold G1. rewrite <- (ger_pos B m n1 _ v w1 p ld 0 0 x' y') by lia. f_equal. lia. }
  set (w2 := fun y => fsum 0 m (fun x => fconj (view G1 (p + n1 * ld) ld x y) * v x)).
  assert (W2 : forall y, (0 <= y)%Z -> w2 y = w1 (n1 + y)%Z).
  { intros y' Hy'. unfold w2, w1, view. apply fsum_ext. intros i Hi. f_equal. f_equal. replace (p + n1 * ld + i + y' * ld)%Z with (p + i + (n1 + y') * ld)%Z by lia. rewrite P1 by lia. replace (n1 + y' <? 0 + n1)%Z with false by lia. rewrite andb_false_r. reflexivity. }
  replace (p + n1 * ld)%Z with (p + 0 + n1 * ld)%Z by lia. rewrite ger_pos by lia. rewrite P1 by lia.
  replace (ger m (n1 + n2) (- fconj tau) v w1 B p ld) with (ger m (n1 + n2) (- fconj tau) v w1 B (p + 0 + 0 * ld)%Z ld) by (f_equal; lia). rewrite ger_pos by lia. rewrite !Z.sub_0_r.
  destruct (Z.leb_spec 0 x); [|lia]. cbn [andb]. destruct (Z.ltb_spec x (0 + m)); cbn [andb]; [|reflexivity].
  destruct (Z.leb_spec 0 y); cbn [andb].
  - destruct (Z.ltb_spec y (0 + (n1 + n2))), (Z.leb_spec n1 y), (Z.ltb_spec y (n1 + n2)), (Z.ltb_spec y (0 + n1)); cbn [andb]; try lia; try reflexivity.
    rewrite W2 by lia. replace (n1 + (y - n1))%Z with y by lia. reflexivity.
  - destruct (Z.leb_spec n1 y); [lia|]. reflexivity.
Qed.
Lemma right_split : forall m n1 n2 tau v B p ld z, (0 < ld)%Z -> (0 <= m <= ld)%Z -> (0 <= n1)%Z -> (0 <= n2)%Z ->
  hh_right m (n1 + n2) tau v B p ld z = hh_right2 m n1 n2 tau v B p (p + n1 * ld) ld z.
Proof.
  intros m n1 n2 tau v B p ld z Hl Hm H1 H2. destruct (addr_of p ld z Hl) as (x & y & Hx & ->). unfold hh_right2, hh_right.
  set (w1 := fun x => fsum 0 (n1 + n2) (fun y => view B p ld x y * v y)). cbv zeta.
  set (w2 := fun x => fsum 0 n1 (fun y => view B p ld x y * v y) + fsum 0 n2 (fun y => view B (p + n1 * ld) ld x y * v (n1 + y)%Z)).
  assert (W : forall x, w1 x = w2 x).
  { intros x'. unfold w1, w2. rewrite sum_split by lia. f_equal. apply fsum_ext. intros i Hi. unfold view. f_equal. f_equal. lia. }
  replace (ger m (n1 + n2) (- tau) w1 v B p ld) with (ger m (n1 + n2) (- tau) w1 v B (p + 0 + 0 * ld)%Z ld) by (f_equal; lia). rewrite ger_pos by lia.
  replace (p + n1 * ld)%Z with (p + 0 + n1 * ld)%Z by lia. rewrite ger_pos by lia.
  replace (ger m n1 (- tau) w2 v B p ld) with (ger m n1 (- tau) w2 v B (p + 0 + 0 * ld)%Z ld) by (f_equal; lia). rewrite ger_pos by lia. rewrite !Z.sub_0_r, !W.
  destruct (Z.leb_spec 0 x); [|lia]. cbn [andb]. destruct (Z.ltb_spec x (0 + m)); cbn [andb]; [|reflexivity].
  destruct (Z.leb_spec 0 y); cbn [andb].
  - destruct (Z.ltb_spec y (0 + (n1 + n2))), (Z.leb_spec n1 y), (Z.ltb_spec y (n1 + n2)), (Z.ltb_spec y (0 + n1)); cbn [andb]; try lia; try reflexivity.
    replace (n1 + (y - n1))%Z with y by lia. reflexivity.
  - destruct (Z.leb_spec n1 y); [lia|]. reflexivity.
Qed.
Lemma her2_split : forall n1 n2 u v B p ld z, (0 < ld)%Z -> (0 <= n1)%Z -> (0 <= n2)%Z -> (n1 + n2 <= ld)%Z ->
  her2 (n1 + n2) u v B p ld z =
  her2 n2 (fun i => u (n1 + i)%Z) (fun i => v (n1 + i)%Z) (ger n2 n1 (- (1)) (fun i => v (n1 + i)%Z) u (ger n2 n1 (- (1)) (fun i => u (n1 + i)%Z) v (her2 n1 u v B p ld) (p + n1)%Z ld) (p + n1)%Z ld) (p + n1 + n1 * ld)%Z ld z.
Proof.
  intros n1 n2 u v B p ld z Hl H1 H2 H12. destruct (addr_of p ld z Hl) as (x & y & Hx & ->). rewrite her2_pos by lia.
  replace (p + n1)%Z with (p + n1 + 0 * ld)%Z by lia. rewrite !ger_pos by lia.
  replace (her2 n1 u v B p ld) with (her2 n1 u v B (p + 0 + 0 * ld)%Z ld) by (f_equal; lia).
  replace (her2 (n1 + n2) u v B p ld) with (her2 (n1 + n2) u v B (p + 0 + 0 * ld)%Z ld) by (f_equal; lia).
  rewrite !her2_pos by lia. rewrite !Z.sub_0_r. replace (n1 + (x - n1))%Z with x by lia. replace (n1 + (y - n1))%Z with y by lia. replace (y - n1 <=? x - n1)%Z with (y <=? x)%Z by lia.
  replace (0 + (n1 + n2))%Z with (n1 + n2)%Z by lia. replace (0 + n1)%Z with n1 by lia.
  destruct (Z.leb_spec 0 x); [|lia]. cbn [andb].
  destruct (Z.ltb_spec x (n1 + n2)), (Z.leb_spec n1 x), (Z.leb_spec 0 y), (Z.ltb_spec y (n1 + n2)), (Z.leb_spec n1 y), (Z.ltb_spec y n1), (Z.ltb_spec x n1), (Z.leb_spec y x); cbn [andb]; try lia; try reflexivity; ring.
Qed.
Lemma her2_ext : forall n u u' v B p ld z, (0 < ld)%Z -> (0 <= n <= ld)%Z -> (forall i, (0 <= i < n)%Z -> u i = u' i) -> her2 n u v B p ld z = her2 n u' v B p ld z.
Proof.
  intros n u u' v B p ld z Hl Hn E. destruct (addr_of p ld z Hl) as (x & y & Hx & ->).
  replace (her2 n u v B p ld) with (her2 n u v B (p + 0 + 0 * ld)%Z ld) by (f_equal; lia). replace (her2 n u' v B p ld) with (her2 n u' v B (p + 0 + 0 * ld)%Z ld) by (f_equal; lia). rewrite !her2_pos by lia.
  match goal with |- (if ?c then _ else _) = _ => destruct c eqn:C end; [|reflexivity]. rewrite !E by lia. reflexivity.
Qed.
Lemma herm_split : forall n1 n2 tau v B p ld z, (0 < ld)%Z -> (0 <= n1)%Z -> (0 <= n2)%Z -> (n1 + n2 <= ld)%Z ->
  hh_herm (n1 + n2) tau v B p ld z = hh_herm2 n1 n2 tau v B p (p + n1 + n1 * ld) ld z.
Proof.
  intros n1 n2 tau v B p ld z Hl H1 H2 H12. unfold hh_herm2, hh_herm.
  set (w0 := fun x => tau * fsum 0 (n1 + n2) (fun y => herm Lower (view B p ld) x y * v y)). cbv zeta.
  set (w1 := fun x => if (x <? n1)%Z
        then tau * fsum 0 n1 (fun y : Z => herm Lower (view B p ld) x y * v y) + tau * fsum 0 n2 (fun y : Z => fconj (view B (p + n1) ld y x) * v (n1 + y)%Z)
        else tau * fsum 0 n2 (fun y : Z => herm Lower (view B (p + n1 + n1 * ld) ld) (x - n1)%Z y * v (n1 + y)%Z) + tau * fsum 0 n1 (fun y : Z => view B (p + n1) ld (x - n1)%Z y * v y)).
  assert (W : forall x, (0 <= x < n1 + n2)%Z -> w0 x = w1 x).
  { intros x' Hx'. unfold w0, w1. rewrite sum_split by lia. destruct (Z.ltb_spec x' n1) as [L|L].
    - transitivity (tau * fsum 0 n1 (fun y => herm Lower (view B p ld) x' y * v y) + tau * fsum 0 n2 (fun i => herm Lower (view B p ld) x' (n1 + i)%Z * v (n1 + i)%Z)); [ring|]. f_equal. f_equal. apply fsum_ext. intros i Hi. f_equal.
      unfold herm, in_tri, view. destruct (Z.leb_spec (n1 + i) x'); [lia|]. f_equal. f_equal. lia.
    - transitivity (tau * fsum 0 n2 (fun i => herm Lower (view B p ld) x' (n1 + i)%Z * v (n1 + i)%Z) + tau * fsum 0 n1 (fun y => herm Lower (view B p ld) x' y * v y)); [ring|]. f_equal.
      + f_equal. apply fsum_ext. intros i Hi. f_equal. unfold herm, in_tri, view. destruct (Z.leb_spec (n1 + i) x'), (Z.leb_spec i (x' - n1)); [f_equal; lia|lia|lia|f_equal; f_equal; lia].
      + f_equal. apply fsum_ext. intros i Hi. f_equal. unfold herm, in_tri, view. destruct (Z.leb_spec i x'); [|lia]. f_equal. lia. }
  assert (TM : fsum 0 (n1 + n2) (fun x => fconj (w0 x) * v x) = fsum 0 (n1 + n2) (fun x => fconj (w1 x) * v x)).
  { apply fsum_ext. intros i Hi. rewrite W by lia. reflexivity. }
  transitivity (her2 (n1 + n2) (fun x => w0 x + (- fsum 0 (n1 + n2) (fun x => fconj (w0 x) * v x) * tau * fhalf) * v x) v B p ld z); [reflexivity|].
  rewrite TM. clear TM. set (tmp := - fsum 0 (n1 + n2) (fun x => fconj (w1 x) * v x) * tau * fhalf).
  rewrite (her2_ext (n1 + n2) _ (fun x => w1 x + tmp * v x)) by (try lia; intros i Hi; rewrite W by lia; reflexivity).
  apply her2_split; assumption.
Qed.
End split.
