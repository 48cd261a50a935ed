(** Elementary facts about floor division used throughout. *)
From Coq Require Import ZArith Lia Bool.
Open Scope Z_scope.

Lemma div_eq : forall a b q r, 0 <= r < b -> a = q * b + r -> a / b = q.
Proof. intros a b q r H E. symmetry. apply (Z.div_unique a b q r); lia. Qed.

Lemma mod_eq : forall a b q r, 0 <= r < b -> a = q * b + r -> a mod b = r.
Proof. intros a b q r H E. symmetry. apply (Z.mod_unique a b q r); lia. Qed.

Lemma div_mod_dec : forall a b, 0 < b -> a = (a / b) * b + a mod b /\ 0 <= a mod b < b.
Proof.
  intros a b H. split.
  - rewrite (Z.div_mod a b) at 1 by lia. lia.
  - apply Z.mod_pos_bound; lia.
Qed.

Lemma div_succ : forall p B, 0 < B ->
  (p mod B + 1 < B /\ (p + 1) / B = p / B /\ (p + 1) mod B = p mod B + 1)
  \/ (p mod B + 1 = B /\ (p + 1) / B = p / B + 1 /\ (p + 1) mod B = 0).
Proof.
  intros p B H. destruct (div_mod_dec p B H) as [E R].
  destruct (Z_lt_ge_dec (p mod B + 1) B) as [L|L].
  - left. split; [lia|]. split.
    + apply (div_eq _ _ _ (p mod B + 1)); lia.
    + apply (mod_eq _ _ (p / B)); lia.
  - right. split; [lia|]. split.
    + apply (div_eq _ _ _ 0); lia.
    + apply (mod_eq _ _ (p / B + 1)); lia.
Qed.

Lemma quot_nonneg_div : forall a b, 0 <= a -> 0 < b -> Z.quot a b = a / b.
Proof. intros. apply Z.quot_div_nonneg; lia. Qed.

Lemma rem_nonneg_mod : forall a b, 0 <= a -> 0 < b -> Z.rem a b = a mod b.
Proof. intros. apply Z.rem_mod_nonneg; lia. Qed.

Lemma div_nonneg : forall a b, 0 <= a -> 0 < b -> 0 <= a / b.
Proof. intros. apply Z.div_pos; lia. Qed.

Lemma div_div_mul : forall a b c, 0 < b -> 0 < c -> a / b / c = a / (b * c).
Proof. intros. apply Z.div_div; lia. Qed.

Lemma mod_small_eq : forall a b, 0 <= a < b -> a mod b = a.
Proof. intros. apply Z.mod_small; lia. Qed.

Lemma div_le_mono : forall a b c, 0 < c -> a <= b -> a / c <= b / c.
Proof. intros. apply Z.div_le_mono; lia. Qed.

(** (x + y) mod g, pulled apart: rank arithmetic *)
Lemma mod_sub_eq : forall w s r g, 0 < g -> 0 <= s < g -> 0 <= r < g ->
  ((s + w) mod g = r <-> w mod g = (r + g - s) mod g).
Proof.
  intros w s r g Hg Hs Hr.
  destruct (div_mod_dec w g Hg) as [Ew Rw].
  set (W := w mod g) in *. set (q := w / g) in *.
  assert (A : (s + w) mod g = (s + W) mod g).
  { rewrite Ew. replace (s + (q * g + W)) with (s + W + q * g) by lia. apply Z.mod_add; lia. }
  rewrite A. clear A Ew.
  destruct (Z_lt_ge_dec (s + W) g) as [L|L].
  - rewrite (mod_eq (s + W) g 0 (s + W)) by lia.
    destruct (Z_lt_ge_dec r s).
    + rewrite (mod_eq (r + g - s) g 0 (r + g - s)) by lia. lia.
    + rewrite (mod_eq (r + g - s) g 1 (r - s)) by lia. lia.
  - rewrite (mod_eq (s + W) g 1 (s + W - g)) by lia.
    destruct (Z_lt_ge_dec r s).
    + rewrite (mod_eq (r + g - s) g 0 (r + g - s)) by lia. lia.
    + rewrite (mod_eq (r + g - s) g 1 (r - s)) by lia. lia.
Qed.

(** ** Block-cyclic counting *)

(** Number of positions in [0,p) whose block b = position/B satisfies b mod G = r. *)
Definition cc (B G r p : Z) : Z :=
  let b := p / B in
  (b / G) * B + (if r <? b mod G then B else if r =? b mod G then p mod B else 0).

Lemma cc_step : forall B G r p, 0 < B -> 0 < G -> 0 <= r < G ->
  cc B G r (p + 1) = cc B G r p + (if (p / B) mod G =? r then 1 else 0).
Proof.
  intros B G r p HB HG Hr. unfold cc.
  assert (Hw : 0 <= (p / B) mod G < G) by (apply Z.mod_pos_bound; lia).
  destruct (div_succ p B HB) as [(A1 & A2 & A3)|(A1 & A2 & A3)]; rewrite A2, A3.
  - destruct (Z.ltb_spec r ((p/B) mod G)); destruct (Z.eqb_spec r ((p/B) mod G));
      destruct (Z.eqb_spec ((p/B) mod G) r); lia.
  - destruct (div_succ (p / B) G HG) as [(C1 & C2 & C3)|(C1 & C2 & C3)]; rewrite C2, C3.
    + destruct (Z.ltb_spec r ((p/B) mod G)); destruct (Z.eqb_spec r ((p/B) mod G));
      destruct (Z.eqb_spec ((p/B) mod G) r);
      destruct (Z.ltb_spec r ((p/B) mod G + 1)); destruct (Z.eqb_spec r ((p/B) mod G + 1)); lia.
    + destruct (Z.ltb_spec r ((p/B) mod G)); destruct (Z.eqb_spec r ((p/B) mod G));
      destruct (Z.eqb_spec ((p/B) mod G) r);
      destruct (Z.ltb_spec r 0); destruct (Z.eqb_spec r 0); lia.
Qed.

Lemma cc_0 : forall B G r, 0 < B -> 0 < G -> 0 <= r < G -> cc B G r 0 = 0.
Proof.
  intros. unfold cc. rewrite !Z.div_0_l, !Z.mod_0_l by lia.
  destruct (Z.ltb_spec r 0); destruct (Z.eqb_spec r 0); lia.
Qed.

(** In the first block only the rank 0 (relative to the source) owns positions. *)
Lemma cc_first_block : forall B G r p, 0 < B -> 0 < G -> 0 <= r < G -> 0 <= p < B ->
  cc B G r p = if r =? 0 then p else 0.
Proof.
  intros. unfold cc. rewrite (Z.div_small p B), (Z.mod_small p B), Z.div_0_l, Z.mod_0_l by lia.
  destruct (Z.ltb_spec r 0); destruct (Z.eqb_spec r 0); lia.
Qed.

(** Elements are counted tile by tile. *)
Lemma cc_tile : forall k nb G r T t, 0 < k -> 0 < nb -> 0 < G -> 0 <= r < G -> 0 <= t <= nb ->
  cc (k * nb) G r (T * nb + t) = cc k G r T * nb + (if (T / k) mod G =? r then t else 0).
Proof.
  intros k nb G r T t Hk Hnb HG Hr Ht.
  destruct (Z.eq_dec t nb) as [->|Hne].
  - (* whole tile *)
    replace (T * nb + nb) with ((T + 1) * nb + 0) by lia.
    assert (X : forall U, cc (k * nb) G r (U * nb + 0) = cc k G r U * nb).
    { intros U. unfold cc.
      assert (E : (U * nb + 0) / (k * nb) = U / k).
      { rewrite Z.add_0_r. rewrite (Z.mul_comm k nb), <- Z.div_div, Z.div_mul by lia. reflexivity. }
      rewrite E.
      assert (F : (U * nb + 0) mod (k * nb) = (U mod k) * nb).
      { rewrite Z.add_0_r. rewrite Z.mul_mod_distr_r by lia. reflexivity. }
      rewrite F.
      destruct (r <? (U / k) mod G); destruct (r =? (U / k) mod G); lia. }
    rewrite X. rewrite cc_step by lia. destruct ((T / k) mod G =? r); lia.
  - unfold cc.
    destruct (div_mod_dec T k Hk) as [ET RT].
    assert (E : (T * nb + t) / (k * nb) = T / k).
    { apply (div_eq _ _ _ ((T mod k) * nb + t)); nia. }
    assert (F : (T * nb + t) mod (k * nb) = (T mod k) * nb + t).
    { apply (mod_eq _ _ (T / k)); nia. }
    rewrite E, F. rewrite (Z.eqb_sym ((T / k) mod G) r).
    destruct (Z.ltb_spec r ((T / k) mod G)); destruct (Z.eqb_spec r ((T / k) mod G)); lia.
Qed.

Lemma cc_mono_step : forall B G r p, 0 < B -> 0 < G -> 0 <= r < G ->
  cc B G r p <= cc B G r (p + 1) <= cc B G r p + 1.
Proof. intros. rewrite cc_step by lia. destruct ((p / B) mod G =? r); lia. Qed.

Lemma cc_mono : forall B G r p q, 0 < B -> 0 < G -> 0 <= r < G -> p <= q ->
  cc B G r p <= cc B G r q.
Proof.
  intros B G r p q HB HG Hr Hpq.
  replace q with (p + Z.of_nat (Z.to_nat (q - p))) by lia.
  induction (Z.to_nat (q - p)) as [|n IH].
  - rewrite Z.add_0_r. lia.
  - replace (p + Z.of_nat (S n)) with (p + Z.of_nat n + 1) by lia.
    pose proof (cc_mono_step B G r (p + Z.of_nat n) HB HG Hr). lia.
Qed.

(** Position of the l-th owned tile *)
Lemma cc_inv : forall k G r x, 0 < k -> 0 < G -> 0 <= r < G -> 
  let p := (G * (x / k) + r) * k + x mod k in
  cc k G r p = x /\ (p / k) mod G = r.
Proof.
  intros k G r x Hk HG Hr p.
  destruct (div_mod_dec x k Hk) as [Ex Rx].
  assert (E : p / k = G * (x / k) + r) by (apply (div_eq _ _ _ (x mod k)); unfold p; lia).
  assert (F : p mod k = x mod k) by (apply (mod_eq _ _ (G * (x / k) + r)); unfold p; lia).
  assert (D : (G * (x / k) + r) / G = x / k) by (apply (div_eq _ _ _ r); lia).
  assert (M : (G * (x / k) + r) mod G = r) by (apply (mod_eq _ _ (x / k)); lia).
  unfold cc. rewrite E, D, M, F. rewrite Z.ltb_irrefl, Z.eqb_refl. split; lia.
Qed.

Lemma cc_inv_pos : forall k G r p, 0 < k -> 0 < G -> 0 <= r < G ->
  (p / k) mod G = r ->
  let x := cc k G r p in
  (G * (x / k) + r) * k + x mod k = p.
Proof.
  intros k G r p Hk HG Hr Hown x.
  assert (Ex : x = (p / k / G) * k + p mod k).
  { unfold x, cc. rewrite Hown, Z.ltb_irrefl, Z.eqb_refl. reflexivity. }
  pose proof (Z.mod_pos_bound p k Hk) as R.
  assert (D : x / k = p / k / G) by (apply (div_eq _ _ _ (p mod k)); lia).
  assert (M : x mod k = p mod k) by (apply (mod_eq _ _ (p / k / G)); lia).
  rewrite D, M.
  destruct (div_mod_dec p k Hk) as [Ep _].
  destruct (div_mod_dec (p / k) G HG) as [Eb _]. rewrite Hown in Eb. nia.
Qed.
