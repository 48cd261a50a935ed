(** * The compact band storage as a matrix, and the kernels as operations on it *)
From Coq Require Import ZArith Lia List Bool Ring.
From Verif Require Import Loop StarField DenseSpec RefKernels HouseSpec HouseQR GenToStdProofs Red2BandSpec Red2BandTheory HouseModel B2TModel B2TFrame B2TSpec B2TAlg.
Import ListNotations.
Local Open Scope Z_scope.

Section store.
Context {K : starfield} (lf : larfg_fn K).
Local Open Scope sf_scope.
Add Ring KringST : (fring K).
Variable b : Z.
Hypothesis Hb : (2 <= b)%Z.
Implicit Types B : Z -> F K.
(** element (i, c), c <= i: column c of the storage, at distance i - c; nothing is stored further than 2 b - 1 from the diagonal *)
Definition low B : mat K := fun i c => if (i - c <? 2 * b)%Z then B (c * (2 * b) + (i - c))%Z else 0.

Lemma view_low : forall B off j x y, (0 <= off + x - y < 2 * b)%Z -> view B (ptr b off j) (b_ld b) x y = low B (j + off + x)%Z (j + y)%Z.
Proof using. intros B off j x y L. unfold view, low, ptr, b_ld. replace (j + off + x - (j + y) <? 2 * b)%Z with true by lia. f_equal. ring. Qed.
Lemma addr_inj : forall c c' o o', (0 <= o < 2 * b)%Z -> (0 <= o' < 2 * b)%Z -> (c * (2 * b) + o = c' * (2 * b) + o')%Z -> c = c' /\ o = o'.
Proof using. intros c c' o o' L L' E. apply (Z.div_mod_unique (2 * b)); lia. Qed.
Lemma rect_low : forall B off j m n cnd f i c, (0 <= n)%Z -> (m <= 2 * b - 1)%Z ->
  (forall x y, (0 <= x < m)%Z -> (0 <= y < n)%Z -> cnd x y = true -> (0 <= off + x - y < 2 * b)%Z) -> (c <= i)%Z ->
  low (rect_set B (ptr b off j) (b_ld b) m n cnd f) i c =
  if (((0 <=? i - j - off) && (i - j - off <? m) && (0 <=? c - j) && (c - j <? n)) && cnd (i - j - off) (c - j))%Z%bool then f (i - j - off)%Z (c - j)%Z else low B i c.
Proof using Hb.
  intros B off j m n cnd f i c Hn Hm IN Lc. unfold low. destruct (((0 <=? i - j - off) && (i - j - off <? m) && (0 <=? c - j) && (c - j <? n)) && cnd (i - j - off) (c - j))%Z%bool eqn:E.
  - apply andb_prop in E as [E1 E2]. assert (L := IN (i - j - off)%Z (c - j)%Z ltac:(lia) ltac:(lia) E2). replace (i - c <? 2 * b)%Z with true by lia.
    replace (c * (2 * b) + (i - c))%Z with (ptr b off j + (i - j - off) + (c - j) * b_ld b)%Z by (unfold ptr, b_ld; ring). apply rect_at; [unfold b_ld; lia|lia|lia|exact E2].
  - destruct (Z.ltb_spec (i - c) (2 * b)); [|reflexivity]. apply rect_out; [unfold b_ld; lia|unfold b_ld; lia|]. intros x y Lx Ly C A.
    assert (L := IN x y Lx Ly C). assert (A' : (c * (2 * b) + (i - c) = (j + y) * (2 * b) + (off + x - y))%Z) by (rewrite A; unfold ptr, b_ld; ring).
    apply addr_inj in A' as [-> E3]; [|lia|lia]. replace (i - j - off)%Z with x in E by lia. replace (j + y - j)%Z with y in E by lia. rewrite C in E. lia.
Qed.
Lemma half_real : fconj (fhalf : F K) = fhalf.
Proof using. pose proof (@fhalf_2 K) as E. assert (E' : fconj (fhalf : F K) + fconj fhalf = 1) by (rewrite <- fconj_add, E; apply fconj_1).
  transitivity (fconj (fhalf : F K) * (fhalf + fhalf)); [rewrite E; ring|]. transitivity ((fconj (fhalf : F K) + fconj fhalf) * fhalf); [ring|]. rewrite E'. ring. Qed.

(** hh_herm *)
Lemma herm_low : forall N n tau v B j i c, (0 <= j)%Z -> (0 <= n <= b)%Z -> (j + n <= N)%Z -> (0 <= c <= i)%Z -> hermitian N (herm Lower (low B)) ->
  low (hh_herm n tau v B (ptr b 0 j) (b_ld b)) i c =
  if ((j <=? c) && (i <? j + n))%Z then
    low B i c - tau * zvec j n v (herm Lower (low B)) i * fconj (at_rows j n v c) - fconj tau * at_rows j n v i * fconj (zvec j n v (herm Lower (low B)) c)
      + tau * fconj tau * anum j n v (herm Lower (low B)) * at_rows j n v i * fconj (at_rows j n v c)
  else low B i c.
Proof using Hb.
  intros N n tau v B j i c Hj Hn HN Lc HS. unfold hh_herm, her2. cbv zeta. rewrite rect_low; [|lia|lia|intros; lia|lia].
  replace (((0 <=? i - j - 0) && (i - j - 0 <? n) && (0 <=? c - j) && (c - j <? n)) && (c - j <=? i - j - 0))%Z%bool with ((j <=? c) && (i <? j + n))%Z by lia.
  destruct ((j <=? c) && (i <? j + n))%Z eqn:E; [|reflexivity].
  assert (W : forall x, (0 <= x < n)%Z -> fsum 0 n (fun y => herm Lower (view B (ptr b 0 j) (b_ld b)) x y * v y) = zvec j n v (herm Lower (low B)) (j + x)%Z).
  { intros x Lx. apply fsum_ext. intros y Ly. f_equal. unfold herm, in_tri. replace (j + y <=? j + x)%Z with (y <=? x)%Z by lia.
    destruct (Z.leb_spec y x); rewrite view_low by lia; rewrite Z.add_0_r; reflexivity. }
  set (S := herm Lower (low B)) in *.
  assert (D : fsum 0 n (fun x => fconj (tau * fsum 0 n (fun y => herm Lower (view B (ptr b 0 j) (b_ld b)) x y * v y)) * v x) = fconj tau * anum j n v S).
  { rewrite <- (anum_real N j n v Hj (proj1 Hn) HN S HS). unfold anum. rewrite fsum_conj, <- fsum_mul_l. apply fsum_ext. intros x Lx. rewrite W by exact Lx. rewrite !fconj_mul, fconj_conj. ring. }
  rewrite D, !W by lia. replace (i - j - 0)%Z with (i - j)%Z by lia. rewrite view_low by lia. replace (j + 0 + (i - j))%Z with i by lia. replace (j + (c - j))%Z with c by lia. replace (j + (i - j))%Z with i by lia.
  unfold at_rows. replace ((j <=? c) && (c <? j + n))%Z with true by lia. replace ((j <=? i) && (i <? j + n))%Z with true by lia.
  set (zi := zvec j n v S i). set (zc := zvec j n v S c). rewrite !fconj_add, !fconj_mul, !fconj_opp, !fconj_mul, !fconj_conj, half_real, (anum_real N j n v Hj (proj1 Hn) HN S HS).
  set (a := anum j n v S). set (x := v (i - j)%Z). set (y := fconj (v (c - j)%Z)).
  transitivity (low B i c - tau * zi * y - fconj tau * x * fconj zc + tau * fconj tau * a * x * y * (fhalf + fhalf)); [ring|rewrite fhalf_2; ring].
Qed.
(** hh_right *)
Lemma right_low : forall m n tau v B j i c, (0 <= j)%Z -> (0 < n <= b)%Z -> (m <= b)%Z -> (0 < m -> n = b)%Z -> (0 <= c <= i)%Z ->
  low (if (0 <? m)%Z then hh_right m n tau v B (ptr b n j) (b_ld b) else B) i c =
  if ((j <=? c) && (c <? j + n) && (j + n <=? i) && (i <? j + n + m))%Z then
    low B i c - tau * zvec j n v (herm Lower (low B)) i * fconj (at_rows j n v c)
  else low B i c.
Proof using Hb.
  intros m n tau v B j i c Hj Hn Hm NB Lc. destruct (Z.ltb_spec 0 m) as [M|M].
  2:{ replace ((j <=? c) && (c <? j + n) && (j + n <=? i) && (i <? j + n + m))%Z with false by lia. reflexivity. }
  specialize (NB M). subst n. unfold hh_right, ger. rewrite rect_low; [|lia|lia|intros; lia|lia]. unfold everywhere. rewrite andb_true_r.
  replace ((0 <=? i - j - b) && (i - j - b <? m) && (0 <=? c - j) && (c - j <? b))%Z with ((j <=? c) && (c <? j + b) && (j + b <=? i) && (i <? j + b + m))%Z by lia.
  destruct ((j <=? c) && (c <? j + b) && (j + b <=? i) && (i <? j + b + m))%Z eqn:E; [|reflexivity].
  rewrite view_low by lia. replace (j + b + (i - j - b))%Z with i by lia. replace (j + (c - j))%Z with c by lia.
  unfold at_rows. replace ((j <=? c) && (c <? j + b))%Z with true by lia.
  replace (fsum 0 b (fun y => view B (ptr b b j) (b_ld b) (i - j - b)%Z y * v y)) with (zvec j b v (herm Lower (low B)) i); [ring|].
  apply fsum_ext. intros y Ly. rewrite view_low by lia. replace (j + b + (i - j - b))%Z with i by lia. unfold herm, in_tri. replace (j + y <=? i)%Z with true by lia. reflexivity.
Qed.
(** the two together: what remains to be done of the transformation *)
Lemma apply_low : forall N n tau v B j, (0 <= j)%Z -> (0 < n <= b)%Z -> let m := Z.min b (N - b - j) in n = Z.min b (N - j) -> hermitian N (herm Lower (low B)) ->
  (forall i c, (j <= c < j + n)%Z -> (j + 2 * b <= i < N)%Z -> low B i c = 0) ->
  rest_done N j n v tau (low B) (low (let B1 := hh_herm n tau v B (ptr b 0 j) (b_ld b) in if (0 <? m)%Z then hh_right m n tau v B1 (ptr b n j) (b_ld b) else B1)).
Proof using Hb.
  intros N n tau v B j Hj Hn m En HS Z0 i c Lc Li. cbv zeta. rewrite right_low by lia.
  set (B1 := hh_herm n tau v B (ptr b 0 j) (b_ld b)).
  assert (HL : forall i c, (0 <= c <= i)%Z -> low B1 i c = if ((j <=? c) && (i <? j + n))%Z then
    low B i c - tau * zvec j n v (herm Lower (low B)) i * fconj (at_rows j n v c) - fconj tau * at_rows j n v i * fconj (zvec j n v (herm Lower (low B)) c)
      + tau * fconj tau * anum j n v (herm Lower (low B)) * at_rows j n v i * fconj (at_rows j n v c) else low B i c)
    by (intros i' c' L'; apply (herm_low N); (assumption || lia)).
  assert (ZB : (j + n <= i)%Z -> zvec j n v (herm Lower (low B1)) i = zvec j n v (herm Lower (low B)) i).
  { intros L. apply fsum_ext. intros r Lr. f_equal. unfold herm, in_tri. replace (j + r <=? i)%Z with true by lia. rewrite HL by lia. replace (i <? j + n)%Z with false by lia. rewrite andb_false_r. reflexivity. }
  destruct (Z.ltb_spec c j) as [C|C].
  - replace (j <=? c)%Z with false by lia. cbn [andb]. rewrite HL by exact Lc. replace (j <=? c)%Z with false by lia. reflexivity.
  - replace (j <=? c)%Z with true by lia. cbn [andb]. destruct (Z.ltb_spec i (j + n)) as [I|I].
    + replace (j + n <=? i)%Z with false by lia. rewrite andb_false_r. cbn [andb]. rewrite HL by exact Lc. replace ((j <=? c) && (i <? j + n))%Z with true by lia. reflexivity.
    + replace (j + n <=? i)%Z with true by lia. rewrite andb_true_r. rewrite (rows_out j n v i) by lia. rewrite HL by exact Lc. replace (i <? j + n)%Z with false by lia. rewrite andb_false_r.
      destruct (Z.ltb_spec c (j + n)) as [C2|C2]; cbn [andb].
      * destruct (Z.ltb_spec i (j + n + m)) as [M|M]; [rewrite ZB by exact I; ring|].
        assert (ZZ : zvec j n v (herm Lower (low B)) i = 0).
        { apply fsum_0. intros r Lr. unfold herm, in_tri. replace (j + r <=? i)%Z with true by lia. rewrite Z0 by lia. ring. }
        rewrite ZZ. ring.
      * rewrite (rows_out j n v c) by lia. rewrite fconj_0. ring.
Qed.

(** a new reflector, from column col and the rows [col + off, col + off + m), applied to the columns [col, col + n) where col + n <= col + off is the first row *)
Lemma reflector_low : forall m v0 B col off i c, (0 < m)%Z -> (0 <= off)%Z -> (off + m <= 2 * b)%Z -> (c <= i)%Z ->
  let r := hh_reflector lf m v0 B (ptr b off col) in let beta := fst (fst (lf m (fun i => B (ptr b off col + i)%Z))) in
  low (snd r) i c = if ((c =? col) && (col + off <=? i) && (i <? col + off + m))%Z then if (i =? col + off)%Z then beta else 0 else low B i c.
Proof using Hb.
  intros m v0 B col off i c Hm Ho Hom Lc. unfold hh_reflector. destruct (lf m (fun i => B (ptr b off col + i)%Z)) as [[beta x] tau]. cbn [fst snd]. unfold low, ptr, b_ld.
  destruct (Z.ltb_spec (i - c) (2 * b)) as [L|L].
  2:{ replace ((c =? col) && (col + off <=? i) && (i <? col + off + m))%Z with false by lia. reflexivity. }
  destruct (Z.eqb_spec c col) as [->|N]; cbn [andb].
  - replace (col * (2 * b) + (i - col) =? col * (2 * b - 1 + 1) + off)%Z with (i =? col + off)%Z by lia.
    replace ((col * (2 * b - 1 + 1) + off <? col * (2 * b) + (i - col)) && (col * (2 * b) + (i - col) <? col * (2 * b - 1 + 1) + off + m))%Z with ((col + off <? i) && (i <? col + off + m))%Z by lia.
    destruct (Z.eqb_spec i (col + off)), (Z.leb_spec (col + off) i), (Z.ltb_spec (col + off) i), (Z.ltb_spec i (col + off + m)); cbn [andb]; try lia; reflexivity.
  - assert (NE : forall o, (0 <= o < 2 * b)%Z -> (c * (2 * b) + (i - c) <> col * (2 * b) + o)%Z) by (intros o Lo E; apply addr_inj in E; [tauto|lia|lia]).
    replace (col * (2 * b - 1 + 1) + off)%Z with (col * (2 * b) + off)%Z by lia.
    destruct (Z.eqb_spec (c * (2 * b) + (i - c)) (col * (2 * b) + off)); [exfalso; apply (NE off); lia|].
    destruct ((col * (2 * b) + off <? c * (2 * b) + (i - c)) && (c * (2 * b) + (i - c) <? col * (2 * b) + off + m))%Z eqn:E; [|reflexivity].
    exfalso. apply (NE (c * (2 * b) + (i - c) - col * (2 * b))%Z); lia.
Qed.
Lemma left_low : forall m n tau v B off col i c, (0 <= n)%Z -> (m <= b)%Z -> (n <= off <= b)%Z -> (0 <= off)%Z -> (c <= i)%Z ->
  low (hh_left m n tau v B (ptr b off col) (b_ld b)) i c =
  if ((col <=? c) && (c <? col + n) && (col + off <=? i) && (i <? col + off + m))%Z then
    low B i c - fconj tau * v (i - (col + off))%Z * fsum 0 m (fun r => fconj (v r) * low B (col + off + r)%Z c)
  else low B i c.
Proof using Hb.
  intros m n tau v B off col i c Hn Hm Ho Ho2 Lc. unfold hh_left, ger. rewrite rect_low; [|lia|lia|intros; lia|lia]. unfold everywhere. rewrite andb_true_r.
  replace ((0 <=? i - col - off) && (i - col - off <? m) && (0 <=? c - col) && (c - col <? n))%Z with ((col <=? c) && (c <? col + n) && (col + off <=? i) && (i <? col + off + m))%Z by lia.
  destruct ((col <=? c) && (c <? col + n) && (col + off <=? i) && (i <? col + off + m))%Z eqn:E; [|reflexivity].
  rewrite view_low by lia. replace (col + off + (i - col - off))%Z with i by lia. replace (col + (c - col))%Z with c by lia.
  rewrite fsum_conj. replace (i - (col + off))%Z with (i - col - off)%Z by lia.
  rewrite (fsum_ext 0 m (fun i0 => fconj (fconj (view B (ptr b off col) (b_ld b) i0 (c - col)%Z) * v i0)) (fun r => fconj (v r) * low B (col + off + r)%Z c)); [ring|].
  intros r Lr. rewrite fconj_mul, fconj_conj, view_low by lia. replace (col + (c - col))%Z with c by lia. ring.
Qed.
Lemma larfg_use : larfg_ok lf -> forall n x v, (0 < n)%Z -> let '(beta, u, tau) := lf n x in (forall i, (0 <= i < n)%Z -> v i = house_v u i) ->
  fconj beta = beta /\ tau + fconj tau = tau * fconj tau * norm2 n v /\
  forall i, (0 <= i < n)%Z -> x i - fconj tau * v i * fsum 0 n (fun r => fconj (v r) * x r) = if (i =? 0)%Z then beta else 0.
Proof using.
  intros [_ LF] n x v Ln. specialize (LF n x Ln). destruct (lf n x) as [[beta u] tau]. intros EV. destruct LF as (BR & [U _] & C). split; [exact BR|].
  assert (V0 : house_v u 0%Z = 1) by reflexivity. set (h := house_v u) in *. split.
  - specialize (U 0%Z 0%Z ltac:(lia) ltac:(lia)). rewrite (mmul_ext n _ (reflector (fconj tau) h) _ (reflector tau h)) in U by (intros; first [apply adj_reflector | reflexivity]).
    rewrite mmul_refl_l in U by lia. rewrite (fsum_ext 0 n (fun r => fconj (h r) * reflector tau h r 0%Z) (fun r => fconj (h r) * ident r 0%Z - tau * (fconj (h r) * h r))) in U.
    2:{ intros r Lr. unfold reflector. rewrite V0, fconj_1. ring. }
    rewrite fsum_sub, fsum_mul_l in U. fold (norm2 n h) in U. rewrite (fsum_one 0 n _ 0%Z) in U by (first [lia | intros r Lr NE; unfold ident; apply Z.eqb_neq in NE; rewrite NE; ring]).
    unfold reflector, ident in U. cbn [Z.eqb] in U. rewrite V0, fconj_1 in U.
    rewrite (norm2_ext n v h EV). transitivity (tau + fconj tau + (1 - tau * 1 * 1 - fconj tau * 1 * (1 * 1 - tau * norm2 n h)) - 1); [rewrite U; ring|ring].
  - intros i Li. rewrite <- (C i Li). transitivity (mmul n (reflector (fconj tau) h) (fun r (_ : Z) => x r) i 0%Z).
    + rewrite mmul_refl_l by exact Li. rewrite (EV i Li). f_equal. f_equal. apply fsum_ext. intros r Lr. rewrite (EV r Lr). reflexivity.
    + apply fsum_ext. intros r _. rewrite adj_reflector. reflexivity.
Qed.
(** hh_reflector then hh_left (which does nothing when off = 1) *)
Definition new_reflector (m off col : Z) (v0 : Z -> F K) B : F K * (Z -> F K) * (Z -> F K) :=
  let '(tau, v, B) := hh_reflector lf m v0 B (ptr b off col) in (tau, v, if (1 <? off)%Z then hh_left m (off - 1) tau v B (ptr b (off - 1) (col + 1)) (b_ld b) else B).
Lemma new_refl : larfg_ok lf -> forall N m off col v0 B, (0 <= col)%Z -> (0 < m <= b)%Z -> (1 <= off <= b)%Z -> (col + off + m <= N)%Z -> hermitian N (herm Lower (low B)) ->
  (forall r c, (col + off <= r < col + off + m)%Z -> (0 <= c < col)%Z -> low B r c = 0) ->
  let '(tau, v, B') := new_reflector m off col v0 B in
  v 0%Z = 1 /\ tau + fconj tau = tau * fconj tau * norm2 m v /\ left_done N (col + off) m v tau (herm Lower (low B)) (low B') /\
  (forall i, (col + off < i < col + off + m)%Z -> low B' i col = 0) /\ fconj (low B' (col + off)%Z col) = low B' (col + off)%Z col /\
  (forall i c, (0 <= c <= i)%Z -> (c < col \/ col + off <= c \/ i < col + off \/ col + off + m <= i)%Z -> low B' i c = low B i c).
Proof using Hb.
  intros LF N m off col v0 B Hc Hm Ho HN HS Z0. unfold new_reflector.
  assert (RL := fun i c L => reflector_low m v0 B col off i c (proj1 Hm) ltac:(lia) ltac:(lia) L). cbv zeta in RL.
  assert (LU := fun v => larfg_use LF m (fun i => B (ptr b off col + i)%Z) v (proj1 Hm)). unfold hh_reflector in *.
  assert (XE : forall r, (0 <= r < m)%Z -> B (ptr b off col + r)%Z = low B (col + off + r)%Z col).
  { intros r Lr. unfold low, ptr, b_ld. replace (col + off + r - col <? 2 * b)%Z with true by lia. f_equal. lia. }
  destruct (lf m (fun i => B (ptr b off col + i)%Z)) as [[beta u] tau]. cbn [fst snd] in *.
  set (v := fun i => if (i =? 0)%Z then 1 else if ((0 <? i) && (i <? m))%Z then u i else v0 i) in *. set (B2 := fun z => if (z =? ptr b off col)%Z then beta else _) in *.
  destruct (LU v) as (BR & TE & CE). { intros i Li. unfold v, house_v. destruct (Z.eqb_spec i 0); [reflexivity|]. replace ((0 <? i) && (i <? m))%Z with true by lia. reflexivity. }
  set (B3 := if (1 <? off)%Z then _ else _).
  assert (L3 : forall i c, (c <= i)%Z -> low B3 i c = if ((col + 1 <=? c) && (c <? col + off) && (col + off <=? i) && (i <? col + off + m))%Z then
      low B2 i c - fconj tau * v (i - (col + off))%Z * fsum 0 m (fun r => fconj (v r) * low B2 (col + off + r)%Z c) else low B2 i c).
  { intros i c L. unfold B3. destruct (Z.ltb_spec 1 off).
    - rewrite left_low by lia. replace (col + 1 + (off - 1))%Z with (col + off)%Z by lia. replace (col + 1 + (off - 1))%Z with (col + off)%Z by lia. reflexivity.
    - replace ((col + 1 <=? c) && (c <? col + off) && (col + off <=? i) && (i <? col + off + m))%Z with false by lia. reflexivity. }
  assert (UN : forall i c, (0 <= c <= i)%Z -> (c < col \/ col + off <= c \/ i < col + off \/ col + off + m <= i)%Z -> low B3 i c = low B i c).
  { intros i c L O. rewrite L3 by lia. replace ((col + 1 <=? c) && (c <? col + off) && (col + off <=? i) && (i <? col + off + m))%Z with false by lia.
    rewrite RL by lia. replace ((c =? col) && (col + off <=? i) && (i <? col + off + m))%Z with false by lia. reflexivity. }
  assert (CO : forall i, (col + off <= i < col + off + m)%Z -> low B3 i col = if (i =? col + off)%Z then beta else 0).
  { intros i L. rewrite L3 by lia. replace (col + 1 <=? col)%Z with false by lia. cbn [andb]. rewrite RL by lia. replace ((col =? col) && (col + off <=? i) && (i <? col + off + m))%Z with true by lia. reflexivity. }
  split; [reflexivity|]. split; [exact TE|]. split; [|split; [|split; [|exact UN]]].
  - intros i c Lc Li. assert (X : forall i c, (c <= i)%Z -> herm Lower (low B) i c = low B i c) by (intros i' c' L; unfold herm, in_tri; replace (c' <=? i')%Z with true by lia; reflexivity).
    destruct ((c <? col + off) && (col + off <=? i))%Z eqn:E.
    2:{ rewrite X by lia. apply UN; lia. }
    rewrite (left_at N (col + off) m v tau) by lia. rewrite X by lia. rewrite (fsum_ext 0 m _ (fun r => fconj (v r) * low B (col + off + r)%Z c)) by (intros r Lr; rewrite X by lia; reflexivity).
    destruct (Z.ltb_spec i (col + off + m)) as [I|I].
    2:{ rewrite (rows_out (col + off) m v i) by lia. rewrite UN by lia. ring. }
    replace i with (col + off + (i - (col + off)))%Z at 3 by lia. rewrite rows_in by lia.
    destruct (Z.ltb_spec c col) as [C|C]; [|destruct (Z.eq_dec c col) as [->|NC]].
    + rewrite UN by lia. rewrite fsum_0; [ring|]. intros r Lr. rewrite Z0 by lia. ring.
    + rewrite CO by lia. specialize (CE (i - (col + off))%Z ltac:(lia)). rewrite XE in CE by lia. replace (col + off + (i - (col + off)))%Z with i in CE by lia.
      rewrite (fsum_ext 0 m _ (fun r => fconj (v r) * low B (col + off + r)%Z col)) in CE by (intros r Lr; rewrite XE by lia; reflexivity). rewrite CE.
      replace (i - (col + off) =? 0)%Z with (i =? col + off)%Z by lia. reflexivity.
    + rewrite L3 by lia. replace ((col + 1 <=? c) && (c <? col + off) && (col + off <=? i) && (i <? col + off + m))%Z with true by lia.
      assert (R2 : forall r, (c <= r)%Z -> low B2 r c = low B r c) by (intros r Lr; rewrite RL by lia; replace (c =? col)%Z with false by lia; reflexivity).
      rewrite R2 by lia. f_equal. f_equal. apply fsum_ext. intros r Lr. rewrite R2 by lia. reflexivity.
  - intros i L. rewrite CO by lia. replace (i =? col + off)%Z with false by lia. reflexivity.
  - rewrite CO by lia. rewrite Z.eqb_refl. exact BR.
Qed.
End store.
