(** * The copy of the band *)
From Coq Require Import ZArith Lia List Bool Ring.
From Verif Require Import Loop StarField DenseSpec RefKernels HouseSpec HouseModel SemModel Red2BandSpec B2TModel B2TSched B2TFrame B2TStore.
Import ListNotations.
Local Open Scope Z_scope.

Section copy.
Context {K : starfield} (lf : larfg_fn K).
Variables (cplx : bool) (size nb b nthreads : Z) (A : mat K).
Hypothesis Hs : 0 <= size.
Hypothesis Hb : 2 <= b.
Hypothesis Hnb : 0 < nb.
Hypothesis Hdiv : nb mod b = 0.
Hypothesis Hth : 0 < nthreads.
Implicit Types B : Z -> F K.
Notation nt := (nt size nb).
Notation tsz := (tsz size nb).
Notation P := (b2t lf cplx size nb b nthreads A).
(** leading dimension 2 b: a rectangle of the storage *)
Lemma rect_low2 : forall B off j m n cnd f i c, 0 <= n -> 0 <= off -> off + m <= 2 * b -> c <= i ->
  low b (rect_set B (ptr b off j) (b_ld b + 1) m n cnd f) i c =
  if ((0 <=? i - c - off) && (i - c - off <? m) && (0 <=? c - j) && (c - j <? n)) && cnd (i - c - off) (c - j) then f (i - c - off) (c - j) else low b B i c.
Proof using Hb.
  intros B off j m n cnd f i c Hn Ho Hm Lc. unfold low. destruct (((0 <=? i - c - off) && (i - c - off <? m) && (0 <=? c - j) && (c - j <? n)) && cnd (i - c - off) (c - j)) eqn:E.
  - apply andb_prop in E as [E1 E2]. replace (i - c <? 2 * b) with true by lia.
    replace (c * (2 * b) + (i - c)) with (ptr b off j + (i - c - off) + (c - j) * (b_ld b + 1)) by (unfold ptr, b_ld; ring). apply rect_at; [unfold b_ld; lia|lia|lia|exact E2].
  - destruct (Z.ltb_spec (i - c) (2 * b)); [|reflexivity]. apply rect_out; [unfold b_ld; lia|unfold b_ld; lia|]. intros x y Lx Ly C A'.
    assert (A2 : c * (2 * b) + (i - c) = (j + y) * (2 * b) + (off + x)) by (rewrite A'; unfold ptr, b_ld; ring).
    apply (addr_inj b) in A2 as [-> E3]; [|lia|lia]. replace (i - (j + y) - off) with x in E by lia. replace (j + y - j) with y in E by lia. rewrite C in E. lia.
Qed.
Lemma copy_diag_low : forall k B i c, 0 <= k < nt -> k * nb <= c < k * nb + tsz k -> c <= i < size ->
  low b (copy_diag size nb b A k B) i c = if b <? i - c then f0 else if (c <? k * nb + tsz k - b) || (i <? k * nb + tsz k) then A i c else low b B i c.
Proof using Hs Hb Hnb.
  intros k B i c Lk Lc Li. unfold copy_diag. cbv zeta.
  assert (T0 : 0 < tsz k <= nb). { unfold B2TModel.tsz. destruct (proj1 (ceil_div_lt size nb k Hnb) (proj2 Lk)). unfold B2TModel.tsz. lia. }
  set (j := k * nb) in *. set (index := Z.max 0 (tsz k - b)).
  rewrite rect_low; [|exact Hb|lia|lia|intros; lia|lia].
  set (B1 := rect_set B _ _ _ _ _ _). set (B2 := if 0 <? index then _ else _).
  assert (L1 : low b B1 i c = if b <? i - c then f0 else low b B i c).
  { unfold B1. rewrite rect_low2; [|lia|lia|lia|lia]. unfold everywhere. rewrite andb_true_r. destruct (Z.ltb_spec b (i - c)).
    - destruct (Z.ltb_spec (i - c - (b + 1)) (b - 1)); [replace ((0 <=? i - c - (b + 1)) && true && (0 <=? c - j) && (c - j <? tsz k)) with true by lia; reflexivity|].
      rewrite andb_false_r. cbn [andb]. unfold low. replace (i - c <? 2 * b) with false by lia. reflexivity.
    - replace (0 <=? i - c - (b + 1)) with false by lia. reflexivity. }
  assert (L2 : low b B2 i c = if b <? i - c then f0 else if c <? j + index then A i c else low b B i c).
  { unfold B2. destruct (Z.ltb_spec 0 index).
    - rewrite rect_low2; [|lia|lia|lia|lia]. unfold everywhere. rewrite andb_true_r. rewrite L1. destruct (Z.ltb_spec b (i - c)).
      + replace (i - c - 0 <? b + 1) with false by lia. rewrite andb_false_r. reflexivity.
      + destruct (Z.ltb_spec c (j + index)).
        * replace ((0 <=? i - c - 0) && (i - c - 0 <? b + 1) && (0 <=? c - j) && (c - j <? index)) with true by lia. f_equal; lia.
        * replace (c - j <? index) with false by lia. rewrite andb_false_r. reflexivity.
    - rewrite L1. replace (c <? j + index) with false by lia. reflexivity. }
  rewrite L2. replace (c <? j + tsz k - b) with (c <? j + index) by (unfold index; lia).
  destruct (((0 <=? i - (j + index) - 0) && (i - (j + index) - 0 <? Z.min b (tsz k)) && (0 <=? c - (j + index)) && (c - (j + index) <? Z.min b (tsz k))) && (c - (j + index) <=? i - (j + index) - 0)) eqn:E.
  - replace (b <? i - c) with false by lia. replace (i <? j + tsz k) with true by (unfold index in *; lia). rewrite orb_true_r. f_equal; lia.
  - destruct (Z.ltb_spec b (i - c)); [reflexivity|]. destruct (Z.ltb_spec c (j + index)); [reflexivity|]. cbn [orb]. replace (i <? j + tsz k) with false by (unfold index in *; lia). reflexivity.
Qed.
Lemma copy_off_low : forall k B i c, 0 <= k < nt - 1 -> k * nb <= c < (k + 1) * nb -> c <= i < size ->
  low b (copy_off_diag size nb b A k B) i c = if ((k + 1) * nb <=? i) && (i - c <=? b) then A i c else low b B i c.
Proof using Hs Hb Hnb Hdiv.
  intros k B i c Lk Lc Li. unfold copy_off_diag. cbv zeta.
  assert (T0 : 0 < tsz (k + 1)). { unfold B2TModel.tsz. assert (L : k + 1 < nt) by lia. apply (ceil_div_lt size nb (k + 1) Hnb) in L. lia. }
  assert (IR : i < (k + 1) * nb + tsz (k + 1) \/ (k + 1) * nb + nb <= i) by (unfold B2TModel.tsz; lia).
  assert (BN : b <= nb). { apply Z.div_exact in Hdiv; [|lia]. assert (0 < nb / b); nia. }
  set (rows := tsz (k + 1)) in *. set (sz := Z.min b rows). set (j := k * nb) in *. replace ((k + 1) * nb) with (j + nb) in * by (unfold j; lia).
  set (B1 := rect_set B (ptr b b (j + (nb - b))) (b_ld b) sz sz (fun x y => x <=? y) _).
  assert (L1 : low b B1 i c = if ((j + nb <=? i) && (i <? j + nb + sz) && (c <? j + (nb - b) + sz) && (i - c <=? b)) then A i c else low b B i c).
  { unfold B1. rewrite rect_low; [|exact Hb|lia|lia|intros; lia|lia].
    destruct ((j + nb <=? i) && (i <? j + nb + sz) && (c <? j + (nb - b) + sz) && (i - c <=? b)) eqn:E.
    - replace (((0 <=? i - (j + (nb - b)) - b) && (i - (j + (nb - b)) - b <? sz) && (0 <=? c - (j + (nb - b))) && (c - (j + (nb - b)) <? sz)) && (i - (j + (nb - b)) - b <=? c - (j + (nb - b)))) with true by lia. f_equal; lia.
    - replace (((0 <=? i - (j + (nb - b)) - b) && (i - (j + (nb - b)) - b <? sz) && (0 <=? c - (j + (nb - b))) && (c - (j + (nb - b)) <? sz)) && (i - (j + (nb - b)) - b <=? c - (j + (nb - b)))) with false by lia. reflexivity. }
  destruct (Z.ltb_spec sz b) as [SB|SB].
  - replace (ptr b b (j + (nb - b)) + b_ld b * sz) with (ptr b (b - sz) (j + (nb - b) + sz)) by (unfold ptr, b_ld; ring).
    rewrite rect_low; [|exact Hb|lia|lia|intros; lia|lia]. rewrite L1. unfold everywhere. rewrite andb_true_r.
    destruct ((j + nb <=? i) && (i - c <=? b)) eqn:E.
    + destruct (Z.ltb_spec c (j + (nb - b) + sz)).
      * replace (0 <=? c - (j + (nb - b) + sz)) with false by lia. rewrite andb_false_r. cbn [andb].
        replace ((j + nb <=? i) && (i <? j + nb + sz) && true && (i - c <=? b)) with true by lia. reflexivity.
      * replace ((0 <=? i - (j + (nb - b) + sz) - (b - sz)) && (i - (j + (nb - b) + sz) - (b - sz) <? rows) && (0 <=? c - (j + (nb - b) + sz)) && (c - (j + (nb - b) + sz) <? b - sz)) with true by lia. f_equal; lia.
    + replace ((0 <=? i - (j + (nb - b) + sz) - (b - sz)) && (i - (j + (nb - b) + sz) - (b - sz) <? rows) && (0 <=? c - (j + (nb - b) + sz)) && (c - (j + (nb - b) + sz) <? b - sz)) with false by lia.
      replace ((j + nb <=? i) && (i <? j + nb + sz) && (c <? j + (nb - b) + sz) && (i - c <=? b)) with false by lia. reflexivity.
  - rewrite L1. destruct ((j + nb <=? i) && (i - c <=? b)) eqn:E.
    + replace ((j + nb <=? i) && (i <? j + nb + sz) && (c <? j + (nb - b) + sz) && (i - c <=? b)) with true by lia. reflexivity.
    + replace ((j + nb <=? i) && (i <? j + nb + sz) && (c <? j + (nb - b) + sz) && (i - c <=? b)) with false by lia. reflexivity.
Qed.
End copy.
