(** * The kernels on a ring buffer and on the unrolled band *)
From Coq Require Import ZArith Lia List Bool Ring.
From Verif Require Import Loop StarField DenseSpec HouseSpec HouseModel B2TModel B2TFrame B2TDistVal B2TDistSplit.
Import ListNotations.
Local Open Scope Z_scope.

Section win.
Context {K : starfield}.
Implicit Types B BL : Z -> F K.
(** f: place in the ring buffer of an element of the band; W: the elements in question; S: the places that may change *)
Variables (f : Z -> Z) (W S : Z -> bool).
Hypothesis INJ : forall z z', W z = true -> W z' = true -> f z = f z' -> z = z'.
Hypothesis WS : forall z, W z = true -> S (f z) = true.
Definition wrel (B0 B BL : Z -> F K) : Prop := (forall z, W z = true -> BL z = B (f z)) /\ stays S B0 B.
Definition at_ (p q ld m n : Z) (c : Z -> Z -> bool) : Prop := forall x y, 0 <= x < m -> 0 <= y < n -> c x y = true -> W (p + x + y * ld) = true /\ f (p + x + y * ld) = q + x + y * ld.
Lemma at_sub : forall p q ld m n c m' n' c', at_ p q ld m n c -> m' <= m -> n' <= n -> (forall x y, 0 <= x < m' -> 0 <= y < n' -> c' x y = true -> c x y = true) -> at_ p q ld m' n' c'.
Proof using. intros p q ld m n c m' n' c' H Lm Ln C x y Lx Ly Cx. apply H; [lia|lia|apply C; assumption]. Qed.
Lemma rect_win : forall B0 B BL p q ld m n c u v, 0 < ld -> m <= ld -> at_ p q ld m n c -> wrel B0 B BL -> (forall x y, 0 <= x < m -> 0 <= y < n -> c x y = true -> u x y = v x y) ->
  wrel B0 (rect_set B q ld m n c u) (rect_set BL p ld m n c v).
Proof using INJ WS.
  intros B0 B BL p q ld m n c u v Ll Lm AT [R ST] UV. split.
  - intros z Wz. destruct (rect_case B q ld m n c u (f z) Ll Lm) as [(x & y & Lx & Ly & C & E & EV)|E].
    + destruct (AT x y Lx Ly C) as [W1 E1]. rewrite <- E1 in E. apply INJ in E; [|exact Wz|exact W1]. subst z. rewrite rect_at, EV by assumption. symmetry. apply UV; assumption.
    + destruct (rect_case BL p ld m n c v z Ll Lm) as [(x & y & Lx & Ly & C & -> & EV)|EV]; [|rewrite EV, E; apply R, Wz].
      destruct (AT x y Lx Ly C) as [W1 E1]. rewrite EV, E1, rect_at by assumption. symmetry. apply UV; assumption.
  - eapply stays_trans; [exact ST|]. apply rect_stays; [exact Ll|exact Lm|]. intros x y Lx Ly C. destruct (AT x y Lx Ly C) as [W1 <-]. apply WS, W1.
Qed.
Lemma view_win : forall B0 B BL p q ld m n c x y, at_ p q ld m n c -> wrel B0 B BL -> 0 <= x < m -> 0 <= y < n -> c x y = true -> view BL p ld x y = view B q ld x y.
Proof using. intros B0 B BL p q ld m n c x y AT [R _] Lx Ly C. unfold view. destruct (AT x y Lx Ly C) as [W1 E1]. rewrite R, E1 by exact W1. reflexivity. Qed.
Lemma ger_win : forall B0 B BL p q ld m n al u u' w w', 0 < ld -> m <= ld -> at_ p q ld m n everywhere -> wrel B0 B BL -> (forall i, 0 <= i < m -> u i = u' i) -> (forall i, 0 <= i < n -> w i = w' i) ->
  wrel B0 (ger m n al u w B q ld) (ger m n al u' w' BL p ld).
Proof using INJ WS.
  intros B0 B BL p q ld m n al u u' w w' Ll Lm AT R EU EW. apply rect_win; try assumption. intros x y Lx Ly C. rewrite (view_win B0 B BL p q ld m n everywhere x y), EU, EW by assumption. reflexivity.
Qed.
Notation low := (fun i j : Z => j <=? i).
Lemma her2_win : forall B0 B BL p q ld n u u' w w', 0 < ld -> n <= ld -> at_ p q ld n n low -> wrel B0 B BL -> (forall i, 0 <= i < n -> u i = u' i) -> (forall i, 0 <= i < n -> w i = w' i) ->
  wrel B0 (her2 n u w B q ld) (her2 n u' w' BL p ld).
Proof using INJ WS.
  intros B0 B BL p q ld n u u' w w' Ll Lm AT R EU EW. apply rect_win; try assumption. intros x y Lx Ly C. rewrite (view_win B0 B BL p q ld n n low x y), !EU, !EW by assumption. reflexivity.
Qed.
Lemma hview : forall B0 B BL p q ld n x y, at_ p q ld n n low -> wrel B0 B BL -> 0 <= x < n -> 0 <= y < n -> herm Lower (view B q ld) x y = herm Lower (view BL p ld) x y.
Proof using.
  intros B0 B BL p q ld n x y AT R Lx Ly. unfold herm, in_tri. destruct (Z.leb_spec y x); [symmetry; apply (view_win B0 B BL p q ld n n low); try assumption; lia|].
  f_equal. symmetry. apply (view_win B0 B BL p q ld n n low); try assumption; lia.
Qed.
Lemma herm_win : forall B0 B BL p q ld n tau v v', 0 < ld -> n <= ld -> at_ p q ld n n low -> wrel B0 B BL -> (forall i, 0 <= i < n -> v i = v' i) ->
  wrel B0 (hh_herm n tau v B q ld) (hh_herm n tau v' BL p ld).
Proof using INJ WS.
  intros B0 B BL p q ld n tau v v' Ll Ln AT R EV. unfold hh_herm. cbv zeta.
  assert (E : forall x, 0 <= x < n -> fmul tau (fsum 0 n (fun y => fmul (herm Lower (view B q ld) x y) (v y))) = fmul tau (fsum 0 n (fun y => fmul (herm Lower (view BL p ld) x y) (v' y)))).
  { intros x Lx. f_equal. apply fsum_ext. intros y Ly. rewrite (hview B0 B BL p q ld n x y), EV by assumption. reflexivity. }
  assert (T : fsum 0 n (fun x => fmul (fconj (fmul tau (fsum 0 n (fun y => fmul (herm Lower (view B q ld) x y) (v y))))) (v x)) = fsum 0 n (fun x => fmul (fconj (fmul tau (fsum 0 n (fun y => fmul (herm Lower (view BL p ld) x y) (v' y))))) (v' x))).
  { apply fsum_ext. intros x Lx. rewrite E, EV by assumption. reflexivity. }
  rewrite T. apply her2_win; try assumption. intros i Li. rewrite E, EV by assumption. reflexivity.
Qed.
Lemma right_win : forall B0 B BL p q ld m n tau v v', 0 < ld -> m <= ld -> at_ p q ld m n everywhere -> wrel B0 B BL -> (forall i, 0 <= i < n -> v i = v' i) ->
  wrel B0 (hh_right m n tau v B q ld) (hh_right m n tau v' BL p ld).
Proof using INJ WS.
  intros B0 B BL p q ld m n tau v v' Ll Lm AT R EV. unfold hh_right. apply ger_win; try assumption. intros i Li. apply fsum_ext. intros y Ly. rewrite (view_win B0 B BL p q ld m n everywhere i y), EV by (try assumption; reflexivity). reflexivity.
Qed.
Lemma left_win : forall B0 B BL p q ld m n tau v v', 0 < ld -> m <= ld -> at_ p q ld m n everywhere -> wrel B0 B BL -> (forall i, 0 <= i < m -> v i = v' i) ->
  wrel B0 (hh_left m n tau v B q ld) (hh_left m n tau v' BL p ld).
Proof using INJ WS.
  intros B0 B BL p q ld m n tau v v' Ll Lm AT R EV. unfold hh_left. apply ger_win; try assumption. intros i Li. apply fsum_ext. intros y Ly. rewrite (view_win B0 B BL p q ld m n everywhere y i), EV by (try assumption; reflexivity). reflexivity.
Qed.
Lemma herm2_win : forall B0 B BL p q p2 q2 ld n1 n2 tau v v', 0 < ld -> 0 <= n1 -> 0 <= n2 -> n1 + n2 <= ld -> at_ p q ld n1 n1 low -> at_ (p + n1) (q + n1) ld n2 n1 everywhere -> at_ p2 q2 ld n2 n2 low ->
  wrel B0 B BL -> (forall i, 0 <= i < n1 + n2 -> v i = v' i) -> wrel B0 (hh_herm2 n1 n2 tau v B q q2 ld) (hh_herm2 n1 n2 tau v' BL p p2 ld).
Proof using INJ WS.
  intros B0 B BL p q p2 q2 ld n1 n2 tau v v' Ll H1 H2 H12 A1 A2 A3 R EV. unfold hh_herm2. cbv zeta.
  match goal with |- context [fsum 0 (n1 + n2) (fun x => fmul (fconj (@?a x)) (v x))] => set (w := a) end.
  match goal with |- context [fsum 0 (n1 + n2) (fun x => fmul (fconj (@?a x)) (v' x))] => set (w' := a) end.
  assert (E : forall x, 0 <= x < n1 + n2 -> w x = w' x).
  { intros x Lx. unfold w, w'. destruct (Z.ltb_spec x n1).
    - f_equal; f_equal; apply fsum_ext; intros y Ly; [rewrite (hview B0 B BL p q ld n1 x y), EV by (try assumption; lia); reflexivity|]. rewrite (view_win B0 B BL (p + n1) (q + n1) ld n2 n1 everywhere y x), EV by (try assumption; try reflexivity; lia). reflexivity.
    - f_equal; f_equal; apply fsum_ext; intros y Ly; [rewrite (hview B0 B BL p2 q2 ld n2 (x - n1) y), EV by (try assumption; lia); reflexivity|]. rewrite (view_win B0 B BL (p + n1) (q + n1) ld n2 n1 everywhere (x - n1) y), EV by (try assumption; try reflexivity; lia). reflexivity. }
  assert (T : fsum 0 (n1 + n2) (fun x => fmul (fconj (w x)) (v x)) = fsum 0 (n1 + n2) (fun x => fmul (fconj (w' x)) (v' x))).
  { apply fsum_ext. intros x Lx. rewrite E, EV by assumption. reflexivity. }
  assert (T' : forall u, (forall x, u x = w x) -> fsum 0 (n1 + n2) (fun x => fmul (fconj (u x)) (v x)) = fsum 0 (n1 + n2) (fun x => fmul (fconj (w' x)) (v' x))).
  { intros u Q. rewrite <- T. apply fsum_ext. intros x _. rewrite Q. reflexivity. }
  set (tmp := fmul (fmul (fopp (fsum 0 (n1 + n2) (fun x => fmul (fconj (w x)) (v x)))) tau) fhalf) in *.
  set (tmp' := fmul (fmul (fopp (fsum 0 (n1 + n2) (fun x => fmul (fconj (w' x)) (v' x)))) tau) fhalf) in *.
  assert (TT : tmp = tmp') by (unfold tmp, tmp'; rewrite T; reflexivity).
  assert (E2 : forall x, 0 <= x < n1 + n2 -> fadd (w x) (fmul tmp (v x)) = fadd (w' x) (fmul tmp' (v' x))) by (intros x Lx; rewrite E, TT, EV by assumption; reflexivity).
  change (wrel B0 (her2 n2 (fun i => fadd (w (n1 + i)) (fmul tmp (v (n1 + i)))) (fun i => v (n1 + i)) (ger n2 n1 (fopp f1) (fun i => v (n1 + i)) (fun x => fadd (w x) (fmul tmp (v x)))
     (ger n2 n1 (fopp f1) (fun i => fadd (w (n1 + i)) (fmul tmp (v (n1 + i)))) v (her2 n1 (fun x => fadd (w x) (fmul tmp (v x))) v B q ld) (q + n1) ld) (q + n1) ld) q2 ld)
    (her2 n2 (fun i => fadd (w' (n1 + i)) (fmul tmp' (v' (n1 + i)))) (fun i => v' (n1 + i)) (ger n2 n1 (fopp f1) (fun i => v' (n1 + i)) (fun x => fadd (w' x) (fmul tmp' (v' x)))
     (ger n2 n1 (fopp f1) (fun i => fadd (w' (n1 + i)) (fmul tmp' (v' (n1 + i)))) v' (her2 n1 (fun x => fadd (w' x) (fmul tmp' (v' x))) v' BL p ld) (p + n1) ld) (p + n1) ld) p2 ld)).
  assert (C1 : forall i, 0 <= i < n1 -> fadd (w i) (fmul tmp (v i)) = fadd (w' i) (fmul tmp' (v' i))) by (intros i Li; apply E2; lia).
  assert (C2 : forall i, 0 <= i < n2 -> fadd (w (n1 + i)) (fmul tmp (v (n1 + i))) = fadd (w' (n1 + i)) (fmul tmp' (v' (n1 + i)))) by (intros i Li; apply E2; lia).
  assert (V1 : forall i, 0 <= i < n1 -> v i = v' i) by (intros i Li; apply EV; lia). assert (V2 : forall i, 0 <= i < n2 -> v (n1 + i) = v' (n1 + i)) by (intros i Li; apply EV; lia).
  apply her2_win; [lia|lia|assumption| |assumption|assumption]. apply ger_win; [lia|lia|assumption| |assumption|assumption]. apply ger_win; [lia|lia|assumption| |assumption|assumption]. apply her2_win; [lia|lia|assumption|assumption|assumption|assumption].
Qed.
Lemma right2_win : forall B0 B BL p q p2 q2 ld m n1 n2 tau v v', 0 < ld -> m <= ld -> 0 <= n1 -> 0 <= n2 -> at_ p q ld m n1 everywhere -> at_ p2 q2 ld m n2 everywhere -> wrel B0 B BL -> (forall i, 0 <= i < n1 + n2 -> v i = v' i) ->
  wrel B0 (hh_right2 m n1 n2 tau v B q q2 ld) (hh_right2 m n1 n2 tau v' BL p p2 ld).
Proof using INJ WS.
  intros B0 B BL p q p2 q2 ld m n1 n2 tau v v' Ll Lm H1 H2 A1 A2 R EV. unfold hh_right2. cbv zeta.
  assert (E : forall i, 0 <= i < m -> fadd (fsum 0 n1 (fun y => fmul (view B q ld i y) (v y))) (fsum 0 n2 (fun y => fmul (view B q2 ld i y) (v (n1 + y)))) = fadd (fsum 0 n1 (fun y => fmul (view BL p ld i y) (v' y))) (fsum 0 n2 (fun y => fmul (view BL p2 ld i y) (v' (n1 + y))))).
  { intros i Li. f_equal; apply fsum_ext; intros y Ly; [rewrite (view_win B0 B BL p q ld m n1 everywhere i y), EV by (try assumption; try reflexivity; lia); reflexivity|].
    rewrite (view_win B0 B BL p2 q2 ld m n2 everywhere i y), EV by (try assumption; try reflexivity; lia). reflexivity. }
  apply ger_win; [lia|lia|assumption| |exact E|intros i Li; apply EV; lia]. apply ger_win; [lia|lia|assumption|assumption|exact E|intros i Li; apply EV; lia].
Qed.
Lemma left2_win : forall B0 B BL p q p2 q2 ld m n1 n2 tau v v', 0 < ld -> m <= ld -> at_ p q ld m n1 everywhere -> at_ p2 q2 ld m n2 everywhere -> wrel B0 B BL -> (forall i, 0 <= i < m -> v i = v' i) ->
  wrel B0 (hh_left2 m n1 n2 tau v B q q2 ld) (hh_left2 m n1 n2 tau v' BL p p2 ld).
Proof using INJ WS. intros. unfold hh_left2. apply left_win; [assumption|assumption|assumption| |assumption]. apply left_win; assumption. Qed.
Variable lf : larfg_fn K.
Hypothesis LF : larfg_local lf.
(** same tau, the first n elements of v, related memories *)
Definition rrel (n : Z) (B0 : Z -> F K) (r r' : F K * (Z -> F K) * (Z -> F K)) : Prop := fst (fst r) = fst (fst r') /\ (forall i, 0 <= i < n -> snd (fst r) i = snd (fst r') i) /\ wrel B0 (snd r) (snd r').
Lemma refl_win : forall B0 B BL p q n v v', 0 < n -> (forall i, 0 <= i < n -> W (p + i) = true /\ f (p + i) = q + i) -> wrel B0 B BL -> rrel n B0 (hh_reflector lf n v B q) (hh_reflector lf n v' BL p).
Proof using INJ WS LF.
  intros B0 B BL p q n v v' Ln AT [R ST]. unfold hh_reflector.
  destruct (LF n (fun i => B (q + i)) (fun i => BL (p + i))) as (E1 & E2 & E3); [exact Ln|intros i Li; destruct (AT i Li) as [W1 E1]; rewrite R, E1 by exact W1; reflexivity|].
  destruct (lf n (fun i => B (q + i))) as [[be x] ta], (lf n (fun i => BL (p + i))) as [[be' x'] ta']. cbn [fst snd] in *. subst be' ta'. split; [reflexivity|]. cbn [fst snd]. split; [|split].
  - intros i Li. destruct (Z.eqb_spec i 0); [reflexivity|]. destruct ((0 <? i) && (i <? n)) eqn:C; [apply E3; lia|lia].
  - intros z Wz. destruct (AT 0 ltac:(lia)) as [W0 E0]. rewrite !Z.add_0_r in *. destruct (Z.eqb_spec z p) as [->|N]; [rewrite E0, Z.eqb_refl; reflexivity|].
    destruct (Z.eqb_spec (f z) q) as [Q|Q]; [exfalso; apply N, INJ; [exact Wz|exact W0|congruence]|].
    destruct ((p <? z) && (z <? p + n)) eqn:C.
    + destruct (AT (z - p) ltac:(lia)) as [_ E4]. replace (p + (z - p)) with z in E4 by lia. replace ((q <? f z) && (f z <? q + n)) with true by lia. reflexivity.
    + destruct ((q <? f z) && (f z <? q + n)) eqn:C2; [|apply R, Wz]. exfalso. destruct (AT (f z - q) ltac:(lia)) as [W4 E4]. assert (z = p + (f z - q)) by (apply INJ; [exact Wz|exact W4|lia]). lia.
  - intros z Sz. assert (NZ : forall i, 0 <= i < n -> z <> q + i) by (intros i Li ->; destruct (AT i Li) as [W1 E]; rewrite <- E, WS in Sz by exact W1; discriminate).
    destruct (Z.eqb_spec z q) as [->|]; [exfalso; apply (NZ 0); lia|]. destruct ((q <? z) && (z <? q + n)) eqn:C; [|apply ST, Sz]. exfalso. apply (NZ (z - q)); lia.
Qed.
End win.
