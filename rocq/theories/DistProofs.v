(** Proofs about the distribution model. *)
From Coq Require Import ZArith Lia Bool List Znumtheory.
From Verif Require Import CInt DistModel DistSpec DivLemmas.
Open Scope Z_scope.

(** ** Counting *)
Lemma count_0 : forall P n, n <= 0 -> count P n = 0.
Proof. intros P n H. unfold count. replace (Z.to_nat n) with O by lia. reflexivity. Qed.

Lemma count_succ : forall P n, 0 <= n -> count P (n + 1) = count P n + (if P n then 1 else 0).
Proof.
  intros P n H. unfold count. replace (Z.to_nat (n + 1)) with (S (Z.to_nat n)) by lia.
  cbn [count_nat]. rewrite Z2Nat.id by lia. reflexivity.
Qed.

Lemma count_ext : forall P Q n, (forall k, 0 <= k < n -> P k = Q k) -> count P n = count Q n.
Proof.
  intros P Q n H. unfold count.
  assert (X : forall m, (Z.of_nat m <= n) -> count_nat P m = count_nat Q m).
  { induction m; intros Hm; cbn; [reflexivity|].
    rewrite IHm by lia. rewrite (H (Z.of_nat m)) by lia. reflexivity. }
  destruct (Z_le_gt_dec n 0).
  - replace (Z.to_nat n) with O by lia. reflexivity.
  - apply X. lia.
Qed.

Lemma count_bounds : forall P n, 0 <= n -> 0 <= count P n <= n.
Proof.
  intros P n H. unfold count.
  assert (X : forall m, 0 <= count_nat P m <= Z.of_nat m).
  { induction m; cbn [count_nat]; [lia|]. destruct (P (Z.of_nat m)); lia. }
  specialize (X (Z.to_nat n)). lia.
Qed.

Lemma count_mono : forall P m n, m <= n -> count P m <= count P n.
Proof.
  intros P m n H. destruct (Z_le_gt_dec m 0).
  - rewrite (count_0 P m) by lia. destruct (Z_le_gt_dec n 0).
    + rewrite count_0 by lia; lia.
    + apply count_bounds; lia.
  - replace n with (m + Z.of_nat (Z.to_nat (n - m))) by lia.
    induction (Z.to_nat (n - m)) as [|k IH].
    + rewrite Z.add_0_r; lia.
    + replace (m + Z.of_nat (S k)) with (m + Z.of_nat k + 1) by lia.
      rewrite count_succ by lia. destruct (P _); lia.
Qed.

Lemma count_lt : forall P m n, 0 <= m < n -> P m = true -> count P m < count P n.
Proof.
  intros P m n H Hm. pose proof (count_mono P (m + 1) n ltac:(lia)).
  rewrite count_succ, Hm in H0 by lia. lia.
Qed.

Lemma count_inj : forall P m n, 0 <= m -> 0 <= n -> P m = true -> P n = true ->
  count P m = count P n -> m = n.
Proof.
  intros P m n Hm Hn Pm Pn E.
  destruct (Z_lt_ge_dec m n). { pose proof (count_lt P m n ltac:(lia) Pm). lia. }
  destruct (Z_lt_ge_dec n m). { pose proof (count_lt P n m ltac:(lia) Pn). lia. }
  lia.
Qed.

(** If c steps exactly when P holds, c counts P. *)
Lemma count_of_step : forall (P : Z -> bool) (c : Z -> Z) n, 0 <= n ->
  (forall k, 0 <= k < n -> c (k + 1) = c k + (if P k then 1 else 0)) ->
  count P n = c n - c 0.
Proof.
  intros P c n Hn Hs.
  assert (X : forall m, Z.of_nat m <= n -> count P (Z.of_nat m) = c (Z.of_nat m) - c 0).
  { induction m as [|m IH]; intros Hm.
    - rewrite count_0 by lia. cbn. lia.
    - replace (Z.of_nat (S m)) with (Z.of_nat m + 1) in * by lia.
      rewrite count_succ by lia. rewrite IH by lia.
      rewrite (Hs (Z.of_nat m)) by lia. lia. }
  specialize (X (Z.to_nat n)). rewrite Z2Nat.id in X by lia. apply X. lia.
Qed.

Lemma sumZ_0 : forall f n, n <= 0 -> sumZ f n = 0.
Proof. intros f n H. unfold sumZ. replace (Z.to_nat n) with O by lia. reflexivity. Qed.

Lemma sumZ_succ : forall f n, 0 <= n -> sumZ f (n + 1) = sumZ f n + f n.
Proof.
  intros f n H. unfold sumZ. replace (Z.to_nat (n + 1)) with (S (Z.to_nat n)) by lia.
  cbn [sum_nat]. rewrite Z2Nat.id by lia. reflexivity.
Qed.

Lemma sumZ_of_step : forall f (c : Z -> Z) n, 0 <= n ->
  (forall k, 0 <= k < n -> c (k + 1) = c k + f k) -> sumZ f n = c n - c 0.
Proof.
  intros f c n Hn Hs.
  assert (X : forall m, Z.of_nat m <= n -> sumZ f (Z.of_nat m) = c (Z.of_nat m) - c 0).
  { induction m as [|m IH]; intros Hm.
    - rewrite sumZ_0 by lia. cbn. lia.
    - replace (Z.of_nat (S m)) with (Z.of_nat m + 1) in * by lia.
      rewrite sumZ_succ by lia. rewrite IH by lia.
      rewrite (Hs (Z.of_nat m)) by lia. lia. }
  specialize (X (Z.to_nat n)). rewrite Z2Nat.id in X by lia. apply X. lia.
Qed.

Lemma sumZ_ext : forall f g n, (forall k, 0 <= k < n -> f k = g k) -> sumZ f n = sumZ g n.
Proof.
  intros f g n H. unfold sumZ.
  assert (X : forall m, (Z.of_nat m <= n) -> sum_nat f m = sum_nat g m).
  { induction m; intros Hm; cbn; [reflexivity|].
    rewrite IHm by lia. rewrite (H (Z.of_nat m)) by lia. reflexivity. }
  destruct (Z_le_gt_dec n 0).
  - replace (Z.to_nat n) with O by lia. reflexivity.
  - apply X. lia.
Qed.

(** ** Well-formed axes *)
Definition layout_of (a : axis) : layout :=
  Layout (ax_size a) (ax_block a) (ax_tile a) (ax_grid a) (ax_src a) (ax_offset a).

(** parameters are fine *)
Record wfp (a : axis) : Prop := {
  w_size : 0 <= ax_size a;
  w_tile : 0 < ax_tile a;
  w_k : 0 < tiles_per_block a;
  w_block : ax_block a = tiles_per_block a * ax_tile a;
  w_grid : 0 < ax_grid a;
  w_rank : 0 <= ax_rank a < ax_grid a;
  w_src : 0 <= ax_src a < ax_grid a;
  w_off : 0 <= ax_offset a < ax_block a
}.

(** derived members are what the constructor computes *)
Record wf (a : axis) : Prop := {
  w_p : wfp a;
  w_nt : ax_nr_tiles a =
         if ax_size a >? 0 then ceilDiv (ax_size a + global_tile_element_offset a) (ax_tile a) else 0;
  w_lnt : ax_local_nr_tiles a = ax_next_local_tile_from_global_tile a (ax_nr_tiles a);
  w_ls : ax_local_size a = ax_compute_local_size a
}.

Definition rr (a : axis) (r : Z) : Z := (r + ax_grid a - ax_src a) mod ax_grid a.

Section axis.
Context (a : axis).
Hypothesis W : wfp a.

Local Notation nb := (ax_tile a).
Local Notation k := (tiles_per_block a).
Local Notation G := (ax_grid a).
Local Notation o := (ax_offset a).
Local Notation L := (layout_of a).

Let Wnb : 0 < nb := w_tile a W.
Let Wk : 0 < k := w_k a W.
Let WG : 0 < G := w_grid a W.
Let Wr := w_rank a W.
Let Ws := w_src a W.
Let Wo := w_off a W.
Let Wb := w_block a W.
Let Wsz := w_size a W.

Lemma gto_eq : global_tile_offset a = o / nb.
Proof. unfold global_tile_offset. apply quot_nonneg_div; lia. Qed.
Lemma gteo_eq : global_tile_element_offset a = o mod nb.
Proof. unfold global_tile_element_offset. apply rem_nonneg_mod; lia. Qed.

Lemma o_dec : o = (o / nb) * nb + o mod nb /\ 0 <= o mod nb < nb /\ 0 <= o / nb < k.
Proof.
  destruct (div_mod_dec o nb Wnb) as [E R]. split; [exact E|]. split; [exact R|].
  split; [apply div_nonneg; lia|]. apply Z.div_lt_upper_bound; lia.
Qed.

Lemma rr_range : forall r, 0 <= rr a r < G.
Proof. intros. unfold rr. apply Z.mod_pos_bound; lia. Qed.

Lemma rr_src : forall r, 0 <= r < G -> (rr a r = 0 <-> r = ax_src a).
Proof.
  intros r Hr. unfold rr. destruct (Z_lt_ge_dec r (ax_src a)).
  - rewrite (mod_eq _ _ 0 (r + G - ax_src a)) by lia. lia.
  - rewrite (mod_eq _ _ 1 (r - ax_src a)) by lia. lia.
Qed.

Lemma rr_rem : forall r, 0 <= r < G -> Z.rem (r + G - ax_src a) G = rr a r.
Proof. intros. unfold rr. apply rem_nonneg_mod; lia. Qed.

Lemma owner_rr : forall e r, 0 <= r < G ->
  (owner L e = r <-> ((o + e) / ax_block a) mod G = rr a r).
Proof. intros. unfold owner, rr. cbn. apply mod_sub_eq; lia. Qed.

Lemma owned_rr : forall e r, 0 <= r < G ->
  owned L r e = (((o + e) / ax_block a) mod G =? rr a r).
Proof.
  intros. unfold owned. pose proof (owner_rr e r H).
  destruct (Z.eqb_spec (owner L e) r); destruct (Z.eqb_spec (((o + e) / ax_block a) mod G) (rr a r)); tauto.
Qed.

Lemma div_block : forall p, p / ax_block a = p / nb / k.
Proof. intros. rewrite Wb, (Z.mul_comm k nb), Z.div_div by lia. reflexivity. Qed.

Lemma tile_owner_rr : forall t r, 0 <= r < G ->
  (tile_owner L t = r <-> ((o / nb + t) / k) mod G = rr a r).
Proof.
  intros. unfold tile_owner, rr. cbn. rewrite div_block, Z.div_mul by lia. apply mod_sub_eq; lia.
Qed.

Lemma tile_owned_rr : forall t r, 0 <= r < G ->
  tile_owned L r t = (((o / nb + t) / k) mod G =? rr a r).
Proof.
  intros. unfold tile_owned. pose proof (tile_owner_rr t r H).
  destruct (Z.eqb_spec (tile_owner L t) r); destruct (Z.eqb_spec (((o / nb + t) / k) mod G) (rr a r)); tauto.
Qed.

Lemma owner_range : forall e, 0 <= owner L e < G.
Proof. intros. unfold owner. apply Z.mod_pos_bound. cbn. lia. Qed.
Lemma tile_owner_range : forall e, 0 <= tile_owner L e < G.
Proof. intros. unfold tile_owner. apply Z.mod_pos_bound. cbn. lia. Qed.

Lemma owner_tile_of : forall e, owner L e = tile_owner L (tile_of L e).
Proof.
  intros e. unfold owner, tile_owner, tile_of. cbn.
  replace (o / nb + ((o + e) / nb - o / nb)) with ((o + e) / nb) by lia.
  rewrite !div_block, Z.div_mul by lia. reflexivity.
Qed.

(** *** tile ranks *)
Lemma ax_rank_global_tile_spec : forall t, 0 <= t -> ax_rank_global_tile a t = tile_owner L t.
Proof.
  intros t Ht. unfold ax_rank_global_tile, rank_global_tile, tile_owner. cbn.
  rewrite gto_eq. destruct o_dec as (E & R & Q).
  rewrite quot_nonneg_div by lia.
  rewrite rem_nonneg_mod by (try lia; assert (0 <= (t + o / nb) / k) by (apply div_nonneg; lia); lia).
  rewrite div_block, Z.div_mul by lia. f_equal. rewrite Z.add_comm. f_equal. f_equal. lia.
Qed.

(** *** counting *)
Definition cT (r T : Z) : Z := cc k G (rr a r) T.
Definition cE (r p : Z) : Z := cc (k * nb) G (rr a r) p.

Lemma count_tiles : forall r n, 0 <= r < G -> 0 <= n ->
  count (tile_owned L r) n = cT r (o / nb + n) - cT r (o / nb).
Proof.
  intros r n Hr Hn.
  rewrite (count_of_step _ (fun x => cT r (o / nb + x)) n Hn).
  - rewrite Z.add_0_r. reflexivity.
  - intros j Hj. unfold cT. rewrite Z.add_assoc, cc_step by (try apply rr_range; lia).
    rewrite tile_owned_rr by lia. reflexivity.
Qed.

Lemma count_elems : forall r n, 0 <= r < G -> 0 <= n ->
  count (owned L r) n = cE r (o + n) - cE r o.
Proof.
  intros r n Hr Hn.
  rewrite (count_of_step _ (fun x => cE r (o + x)) n Hn).
  - rewrite Z.add_0_r. reflexivity.
  - intros j Hj. unfold cE. rewrite Z.add_assoc, cc_step by (try apply rr_range; lia).
    rewrite owned_rr, Wb by lia. reflexivity.
Qed.

Lemma cT_first : forall r, 0 <= r < G -> cT r (o / nb) = if r =? ax_src a then o / nb else 0.
Proof.
  intros r Hr. destruct o_dec as (E & R & Q). pose proof (rr_range r).
  unfold cT. rewrite cc_first_block by lia. pose proof (rr_src r Hr).
  destruct (Z.eqb_spec (rr a r) 0); destruct (Z.eqb_spec r (ax_src a)); tauto.
Qed.

Lemma cE_first : forall r, 0 <= r < G -> cE r o = if r =? ax_src a then o else 0.
Proof.
  intros r Hr. pose proof (rr_range r).
  unfold cE. rewrite cc_first_block by lia. pose proof (rr_src r Hr).
  destruct (Z.eqb_spec (rr a r) 0); destruct (Z.eqb_spec r (ax_src a)); tauto.
Qed.

(** elements below position T*nb+t *)
Lemma cE_tile : forall r T t, 0 <= t <= nb ->
  cE r (T * nb + t) = cT r T * nb + (if (T / k) mod G =? rr a r then t else 0).
Proof. intros. unfold cE, cT. apply cc_tile; try lia. apply rr_range. Qed.

(** *** next_local_tile / local_tile / global_tile *)
Lemma next_local_eq : forall t r, 0 <= t -> 0 <= r < G ->
  next_local_tile_from_global_tile t k G r (ax_src a) (global_tile_offset a)
  = cT r (o / nb + t) - cT r (o / nb).
Proof.
  intros t r Ht Hr. rewrite cT_first by lia.
  unfold next_local_tile_from_global_tile, cT, cc. rewrite gto_eq.
  destruct o_dec as (E & R & Q).
  rewrite rr_rem by lia.
  rewrite (Z.add_comm t (o / nb)).
  assert (H0 : 0 <= (o / nb + t) / k) by (apply div_nonneg; lia).
  rewrite !(quot_nonneg_div (o / nb + t) k) by lia.
  rewrite (quot_nonneg_div _ G), (rem_nonneg_mod _ G), (rem_nonneg_mod _ k) by lia.
  set (b := (o / nb + t) / k) in *.
  destruct (Z.eqb_spec (rr a r) (b mod G)); destruct (Z.ltb_spec (rr a r) (b mod G));
    destruct (r =? ax_src a); lia.
Qed.

Lemma next_local_spec : forall t, 0 <= t ->
  ax_next_local_tile_from_global_tile a t = count (tile_owned L (ax_rank a)) t.
Proof.
  intros t Ht. unfold ax_next_local_tile_from_global_tile.
  rewrite next_local_eq, count_tiles by lia. reflexivity.
Qed.

Lemma local_tile_eq : forall t r, 0 <= t -> 0 <= r < G ->
  local_tile_from_global_tile t k G r (ax_src a) (global_tile_offset a)
  = if tile_owner L t =? r then count (tile_owned L r) t else -1.
Proof.
  intros t r Ht Hr. unfold local_tile_from_global_tile.
  fold (ax_rank_global_tile a t). rewrite ax_rank_global_tile_spec by lia.
  rewrite (Z.eqb_sym r (tile_owner L t)).
  destruct (Z.eqb_spec (tile_owner L t) r) as [Hown|Hown]; [|reflexivity].
  apply tile_owner_rr in Hown; [|lia].
  rewrite count_tiles, cT_first by lia. unfold cT, cc. rewrite gto_eq.
  destruct o_dec as (E & R & Q).
  rewrite (Z.add_comm t (o / nb)).
  assert (H0 : 0 <= (o / nb + t) / k) by (apply div_nonneg; lia).
  rewrite !(quot_nonneg_div (o / nb + t) k) by lia.
  rewrite (quot_nonneg_div _ G), (rem_nonneg_mod _ k) by lia.
  rewrite Hown, Z.ltb_irrefl, Z.eqb_refl. reflexivity.
Qed.

Lemma local_tile_spec : forall t, 0 <= t ->
  ax_local_tile_from_global_tile a t =
  if tile_owner L t =? ax_rank a then count (tile_owned L (ax_rank a)) t else -1.
Proof. intros. apply local_tile_eq; lia. Qed.

Lemma global_tile_eq : forall l r, 0 <= l -> 0 <= r < G ->
  let t := global_tile_from_local_tile l k G r (ax_src a) (global_tile_offset a) in
  0 <= t /\ tile_owner L t = r /\ count (tile_owned L r) t = l.
Proof.
  intros l r Hl Hr t.
  destruct o_dec as (E & R & Q).
  set (x := l + (if r =? ax_src a then o / nb else 0)).
  assert (Hx : 0 <= x) by (unfold x; destruct (r =? ax_src a); lia).
  assert (Et : t = (G * (x / k) + rr a r) * k + x mod k - o / nb).
  { unfold t, global_tile_from_local_tile. rewrite gto_eq, rr_rem by lia.
    replace (if r =? ax_src a then l + o / nb else l) with x
      by (unfold x; destruct (r =? ax_src a); lia).
    rewrite quot_nonneg_div, rem_nonneg_mod by lia. reflexivity. }
  destruct (cc_inv k G (rr a r) x Wk WG (rr_range r)) as [C1 C2].
  assert (Ht : 0 <= t).
  { rewrite Et. pose proof (rr_range r). pose proof (rr_src r Hr).
    destruct (div_mod_dec x k Wk) as [Ex Rx].
    assert (0 <= x / k) by (apply div_nonneg; lia).
    destruct (Z.eqb_spec r (ax_src a)) as [Heq|Heq].
    - assert (rr a r = 0) as -> by tauto. nia.
    - assert (0 < rr a r) by lia. nia. }
  split; [exact Ht|].
  assert (P : o / nb + t = (G * (x / k) + rr a r) * k + x mod k) by lia.
  split.
  - apply tile_owner_rr; [lia|]. rewrite P. exact C2.
  - rewrite count_tiles, cT_first by lia. unfold cT. rewrite P, C1. unfold x.
    destruct (r =? ax_src a); lia.
Qed.

Lemma global_tile_of_count : forall t r, 0 <= t -> 0 <= r < G -> tile_owner L t = r ->
  global_tile_from_local_tile (count (tile_owned L r) t) k G r (ax_src a) (global_tile_offset a) = t.
Proof.
  intros t r Ht Hr Hown.
  pose proof (count_bounds (tile_owned L r) t Ht) as CB.
  destruct (global_tile_eq (count (tile_owned L r) t) r ltac:(lia) Hr) as (A & B & C).
  eapply (count_inj (tile_owned L r)); try eassumption.
  - unfold tile_owned. apply Z.eqb_eq. exact B.
  - unfold tile_owned. apply Z.eqb_eq. exact Hown.
Qed.

(** *** elements and tiles *)
Lemma tile_of_elem : forall e, 0 <= e ->
  ax_global_tile_from_global_element a e = tile_of L e.
Proof.
  intros e He. unfold ax_global_tile_from_global_element, tile_from_element, tile_of. cbn.
  rewrite gteo_eq. destruct o_dec as (E & R & Q). rewrite quot_nonneg_div by lia.
  replace (o + e) with (e + o mod nb + (o / nb) * nb) by lia.
  rewrite Z.div_add by lia. lia.
Qed.

Lemma tile_of_nonneg : forall e, 0 <= e -> 0 <= tile_of L e.
Proof.
  intros. rewrite <- tile_of_elem by lia. unfold ax_global_tile_from_global_element, tile_from_element.
  rewrite gteo_eq. destruct o_dec as (E & R & Q). rewrite quot_nonneg_div by lia. apply div_nonneg; lia.
Qed.

Lemma first_of_tile_eq : forall t, 0 <= t ->
  first_of_tile L t = if t =? 0 then 0 else t * nb - o mod nb.
Proof.
  intros t Ht. unfold first_of_tile. cbn. destruct o_dec as (E & R & Q).
  destruct (Z.eqb_spec t 0); nia.
Qed.

Lemma tile_element_spec : forall e, 0 <= e ->
  ax_tile_element_from_global_element a e = e - first_of_tile L (tile_of L e).
Proof.
  intros e He. rewrite first_of_tile_eq by (apply tile_of_nonneg; lia).
  rewrite <- tile_of_elem by lia.
  unfold ax_tile_element_from_global_element, tile_element_from_element,
    ax_global_tile_from_global_element, tile_from_element.
  rewrite gteo_eq. destruct o_dec as (E & R & Q).
  rewrite quot_nonneg_div, rem_nonneg_mod by lia.
  destruct (div_mod_dec (e + o mod nb) nb Wnb) as [E2 R2].
  destruct (Z.ltb_spec (e + o mod nb) nb).
  - rewrite (Z.div_small (e + o mod nb)) in * by lia. rewrite Z.eqb_refl. lia.
  - assert (0 < (e + o mod nb) / nb) by (apply Z.div_str_pos; lia).
    destruct (Z.eqb_spec ((e + o mod nb) / nb) 0); lia.
Qed.

Lemma global_element_spec : forall t te, 0 <= t ->
  ax_global_element_from_global_tile_and_tile_element a t te = first_of_tile L t + te.
Proof.
  intros t te Ht. rewrite first_of_tile_eq by lia.
  unfold ax_global_element_from_global_tile_and_tile_element, element_from_tile_and_tile_element.
  rewrite gteo_eq. rewrite Z.gtb_ltb.
  destruct (Z.eqb_spec t 0); destruct (Z.ltb_spec 0 t); lia.
Qed.

(** the elements of tile t are [first t, first (t+1)) *)
Lemma tile_of_iff : forall e t, 0 <= e -> 0 <= t ->
  (tile_of L e = t <-> first_of_tile L t <= e < first_of_tile L (t + 1)).
Proof.
  intros e t He Ht. rewrite !first_of_tile_eq by lia.
  rewrite <- tile_of_elem by lia. unfold ax_global_tile_from_global_element, tile_from_element.
  rewrite gteo_eq. destruct o_dec as (E & R & Q). rewrite quot_nonneg_div by lia.
  destruct (div_mod_dec (e + o mod nb) nb Wnb) as [E2 R2].
  set (q := (e + o mod nb) / nb) in *.
  assert (Hq : 0 <= q) by (apply div_nonneg; lia).
  destruct (Z.eqb_spec (t + 1) 0); [lia|].
  destruct (Z.eqb_spec t 0); split; intros; try (subst; nia); nia.
Qed.

(** *** number of tiles *)
Definition nt_spec : Z :=
  if ax_size a >? 0 then ceilDiv (ax_size a + global_tile_element_offset a) nb else 0.

Lemma nt_spec_pos : 0 < ax_size a ->
  0 < nt_spec /\ nt_spec = tile_of L (ax_size a - 1) + 1.
Proof.
  intros H. unfold nt_spec. rewrite Z.gtb_ltb. destruct (Z.ltb_spec 0 (ax_size a)); [|lia].
  unfold ceilDiv. rewrite gteo_eq. destruct o_dec as (E & R & Q). rewrite quot_nonneg_div by lia.
  rewrite <- tile_of_elem by lia. unfold ax_global_tile_from_global_element, tile_from_element.
  rewrite gteo_eq, quot_nonneg_div by lia.
  replace (ax_size a + o mod nb + nb - 1) with (ax_size a - 1 + o mod nb + 1 * nb) by lia.
  rewrite Z.div_add by lia.
  assert (0 <= (ax_size a - 1 + o mod nb) / nb) by (apply div_nonneg; lia). lia.
Qed.

Lemma nt_spec_nonneg : 0 <= nt_spec.
Proof.
  destruct (Z_lt_ge_dec 0 (ax_size a)).
  - pose proof (nt_spec_pos l). lia.
  - unfold nt_spec. rewrite Z.gtb_ltb. destruct (Z.ltb_spec 0 (ax_size a)); lia.
Qed.

Lemma tile_of_mono : forall e f, 0 <= e <= f -> tile_of L e <= tile_of L f.
Proof.
  intros. unfold tile_of. cbn. pose proof (div_le_mono (o + e) (o + f) nb). lia.
Qed.

Lemma first_of_tile_nonneg : forall t, 0 <= first_of_tile L t.
Proof. intros. unfold first_of_tile. lia. Qed.

Lemma tile_of_first : forall t, 0 <= t -> tile_of L (first_of_tile L t) = t.
Proof.
  intros t Ht. apply tile_of_iff; try lia. apply first_of_tile_nonneg.
  rewrite !first_of_tile_eq by lia. destruct o_dec as (E & R & Q).
  destruct (Z.eqb_spec t 0); destruct (Z.eqb_spec (t + 1) 0); nia.
Qed.

Lemma is_tile_iff : forall t, is_tile L t <-> 0 <= t < nt_spec.
Proof.
  intros t. unfold is_tile. split.
  - intros (e & He & Et). cbn in He. pose proof (tile_of_nonneg e ltac:(lia)).
    pose proof (nt_spec_pos ltac:(lia)) as [_ ->].
    pose proof (tile_of_mono e (ax_size a - 1) ltac:(lia)). lia.
  - intros Ht.
    assert (Hs : 0 < ax_size a).
    { unfold nt_spec in Ht. rewrite Z.gtb_ltb in Ht. destruct (Z.ltb_spec 0 (ax_size a)); lia. }
    pose proof (nt_spec_pos Hs) as [_ Hn].
    exists (first_of_tile L t). split; [|apply tile_of_first; lia].
    pose proof (first_of_tile_nonneg t). cbn. split; [lia|].
    destruct (Z_lt_ge_dec (first_of_tile L t) (ax_size a)); [lia|exfalso].
    (* then the last element would be in an earlier tile *)
    assert (tile_of L (ax_size a - 1) = nt_spec - 1) by lia.
    apply tile_of_iff in H0; try lia.
    assert (first_of_tile L t <= first_of_tile L (nt_spec - 1)).
    { rewrite !first_of_tile_eq by lia. destruct o_dec as (E & R & Q).
      destruct (Z.eqb_spec t 0); destruct (Z.eqb_spec (nt_spec - 1) 0); nia. }
    lia.
Qed.

(** end of tile t, i.e. one past its last element *)
Lemma tile_end_eq : forall t, 0 <= t < nt_spec ->
  first_of_tile L t + ax_global_tile_size_of a t = Z.min (first_of_tile L (t + 1)) (ax_size a)
  /\ 0 < ax_global_tile_size_of a t <= nb.
Proof.
  intros t Ht.
  assert (Hf : first_of_tile L t < ax_size a).
  { apply is_tile_iff in Ht as T. destruct T as (e & He & Et). cbn in He.
    apply tile_of_iff in Et; lia. }
  rewrite !first_of_tile_eq in * by lia. unfold ax_global_tile_size_of.
  rewrite gteo_eq. destruct o_dec as (E & R & Q).
  destruct (Z.eqb_spec (t + 1) 0); [lia|].
  destruct (Z.eqb_spec t 0); subst; split; nia.
Qed.

(** *** local elements *)
Lemma lteo_eq : local_tile_element_offset a = if ax_rank a =? ax_src a then o mod nb else 0.
Proof. unfold local_tile_element_offset, is_source_rank. rewrite gteo_eq. reflexivity. Qed.

Lemma owner0 : tile_owner L 0 = ax_src a.
Proof.
  apply tile_owner_rr; [lia|]. destruct o_dec as (E & R & Q).
  rewrite Z.add_0_r, (Z.div_small (o / nb) k), Z.mod_0_l by lia.
  symmetry. apply rr_src; lia.
Qed.

(** number of owned elements before element e, e in tile t: all owned tiles before t,
    minus the offset of the first one, plus the offset in the tile if owned *)
Lemma count_elem_tile : forall r t x, 0 <= r < G -> 0 <= t ->
  first_of_tile L t <= x <= first_of_tile L (t + 1) ->
  count (owned L r) x =
  count (tile_owned L r) t * nb
  - (if (r =? ax_src a) && (0 <? t) then o mod nb else 0)
  + (if tile_owned L r t then x - first_of_tile L t else 0).
Proof.
  intros r t x Hr Ht Hx. destruct o_dec as (E & R & Q).
  pose proof (first_of_tile_nonneg t).
  assert (Hx0 : 0 <= x) by lia.
  rewrite !first_of_tile_eq in Hx by lia.
  rewrite count_elems, count_tiles, cT_first, cE_first by lia.
  rewrite first_of_tile_eq, tile_owned_rr by lia.
  set (y := x + o mod nb - t * nb).
  assert (Hy : 0 <= y <= nb).
  { unfold y. destruct (Z.eqb_spec t 0); destruct (Z.eqb_spec (t + 1) 0); nia. }
  replace (o + x) with ((o / nb + t) * nb + y) by (unfold y; lia).
  rewrite cE_tile by lia.
  set (ow := ((o / nb + t) / k) mod G =? rr a r).
  destruct (Z.eqb_spec t 0) as [T0|T0].
  - (* first tile *)
    subst t. destruct (Z.ltb_spec 0 0); [lia|]. rewrite andb_false_r.
    assert (OW : ow = (r =? ax_src a)).
    { unfold ow. pose proof (tile_owner_rr 0 r Hr) as T. rewrite owner0 in T.
      destruct (Z.eqb_spec (((o / nb + 0) / k) mod G) (rr a r)) as [H1|H1];
        destruct (Z.eqb_spec r (ax_src a)) as [H2|H2]; try reflexivity; exfalso.
      - apply H2. symmetry. apply T. exact H1.
      - apply H1, T. congruence. }
    rewrite OW, Z.add_0_r, cT_first by lia. unfold y. destruct (r =? ax_src a); lia.
  - destruct (Z.ltb_spec 0 t); [|lia]. rewrite andb_true_r. unfold y.
    destruct (r =? ax_src a); destruct ow; lia.
Qed.

Lemma first_le : forall t e, 0 <= e -> tile_of L e = t -> 0 <= t ->
  first_of_tile L t <= e <= first_of_tile L (t + 1).
Proof. intros t e He Et Ht. apply tile_of_iff in Et; lia. Qed.

Lemma count_tile_pos_src : forall r t, 0 <= r < G -> 0 <= t ->
  tile_owned L r t = true ->
  (r = ax_src a -> (0 < count (tile_owned L r) t <-> 0 < t)) /\
  (r <> ax_src a -> 0 < t).
Proof.
  intros r t Hr Ht Ho. split.
  - intros ->. split; intros H.
    + destruct (Z.eq_dec t 0); [subst; rewrite count_0 in H by lia; lia|lia].
    + assert (count (tile_owned L (ax_src a)) 0 < count (tile_owned L (ax_src a)) t).
      { apply count_lt; [lia|]. unfold tile_owned. rewrite owner0. apply Z.eqb_refl. }
      rewrite (count_0 _ 0) in H0; lia.
  - intros Hne. destruct (Z.eq_dec t 0); [|lia]. subst. exfalso.
    unfold tile_owned in Ho. rewrite owner0 in Ho. apply Z.eqb_eq in Ho. congruence.
Qed.

Lemma local_element_spec : forall e, 0 <= e ->
  ax_local_element_from_global_element a e =
  if owner L e =? ax_rank a then count (owned L (ax_rank a)) e else -1.
Proof.
  intros e He.
  pose proof (tile_of_nonneg e He) as Ht.
  unfold ax_local_element_from_global_element, ax_local_tile_from_global_element.
  rewrite tile_of_elem, local_tile_spec by lia.
  rewrite owner_tile_of.
  destruct (Z.eqb_spec (tile_owner L (tile_of L e)) (ax_rank a)) as [Ho|Ho]; [|reflexivity].
  pose proof (count_bounds (tile_owned L (ax_rank a)) (tile_of L e) Ht).
  destruct (Z.ltb_spec (count (tile_owned L (ax_rank a)) (tile_of L e)) 0); [lia|].
  rewrite (count_elem_tile (ax_rank a) (tile_of L e) e Wr Ht (first_le _ e He eq_refl Ht)).
  assert (TO : tile_owned L (ax_rank a) (tile_of L e) = true) by (apply Z.eqb_eq; exact Ho).
  rewrite TO, tile_element_spec by lia.
  unfold ax_local_element_from_local_tile_and_tile_element, element_from_tile_and_tile_element.
  rewrite lteo_eq, Z.gtb_ltb.
  destruct (count_tile_pos_src (ax_rank a) (tile_of L e) Wr Ht TO) as [S1 S2].
  destruct (Z.eqb_spec (ax_rank a) (ax_src a)) as [Hs|Hs]; cbn [andb].
  - specialize (S1 Hs).
    destruct (Z.ltb_spec 0 (count (tile_owned L (ax_rank a)) (tile_of L e)));
    destruct (Z.ltb_spec 0 (tile_of L e)); lia.
  - destruct (Z.ltb_spec 0 (count (tile_owned L (ax_rank a)) (tile_of L e))); lia.
Qed.

Lemma rank_global_element_spec : forall e, 0 <= e -> ax_rank_global_element a e = owner L e.
Proof.
  intros e He. unfold ax_rank_global_element. pose proof (tile_of_nonneg e He).
  rewrite tile_of_elem, ax_rank_global_tile_spec, owner_tile_of by lia. reflexivity.
Qed.

End axis.
