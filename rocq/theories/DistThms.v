(** Main lemmas about built distributions, phrased with the requested layout. *)
From Coq Require Import ZArith Lia Bool List Znumtheory.
From Verif Require Import CInt DistModel DistSpec DivLemmas DistProofs DistProofs2 DistBuilt.
Open Scope Z_scope.

Section models.
Context (r : Z) (L : layout) (a : axis).
Hypothesis M : models r L a.
Let WF := m_wf _ _ _ M.
Let W := w_p _ WF.
Let S := m_same _ _ _ M.

Lemma mr : ax_rank a = r. Proof. exact (m_rank _ _ _ M). Qed.
Lemma ms : l_size L = ax_size a. Proof. symmetry. exact (sl_size _ _ S). Qed.
Lemma mg : l_grid L = ax_grid a. Proof. symmetry. exact (sl_grid _ _ S). Qed.
Lemma mt : l_tile L = ax_tile a. Proof. symmetry. exact (sl_tile _ _ S). Qed.
Lemma mb : l_block L = ax_block a. Proof. symmetry. exact (sl_block _ _ S). Qed.
Lemma m_tile_of : forall e, tile_of (layout_of a) e = tile_of L e. Proof. exact (sl_tile_of _ _ S). Qed.
Lemma m_owner : forall e, owner (layout_of a) e = owner L e. Proof. exact (sl_owner _ _ S). Qed.
Lemma m_tile_owner : forall e, tile_owner (layout_of a) e = tile_owner L e. Proof. exact (sl_tile_owner _ _ S). Qed.
Lemma m_first : forall e, first_of_tile (layout_of a) e = first_of_tile L e. Proof. exact (sl_first _ _ S). Qed.
Lemma m_count : forall q n, count (owned (layout_of a) q) n = count (owned L q) n.
Proof. intros. apply count_ext. intros. unfold owned. rewrite m_owner. reflexivity. Qed.
Lemma m_count_t : forall q n, count (tile_owned (layout_of a) q) n = count (tile_owned L q) n.
Proof. intros. apply count_ext. intros. unfold tile_owned. rewrite m_tile_owner. reflexivity. Qed.
Lemma m_is_tile : forall t, is_tile L t <-> 0 <= t < ax_nr_tiles a.
Proof.
  intros. rewrite <- (wf_is_tile a WF). unfold is_tile. rewrite ms. cbn.
  split; intros (e & H & E); exists e; split; try assumption; [rewrite m_tile_of|rewrite <- m_tile_of]; assumption.
Qed.
Lemma m_rrange : 0 <= r < l_grid L. Proof. rewrite mg, <- mr. apply W. Qed.

(** C01 *)
Lemma T_owner : forall e, 0 <= e ->
  ax_rank_global_element a e = owner L e /\ 0 <= owner L e < l_grid L.
Proof.
  intros e He. rewrite (rank_global_element_spec a W), m_owner by lia. split; [reflexivity|].
  unfold owner. apply Z.mod_pos_bound. rewrite mg. apply W.
Qed.

Lemma T_local_element : forall e, 0 <= e ->
  ax_local_element_from_global_element a e = if owner L e =? r then count (owned L r) e else -1.
Proof. intros e He. rewrite (local_element_spec a W), m_owner, mr, m_count by lia. reflexivity. Qed.

Lemma T_local_size : ax_local_size a = count (owned L r) (l_size L).
Proof. rewrite (wf_ls a WF), m_count, mr, ms. reflexivity. Qed.

(** C02 *)
Lemma T_local_to_global_on_rank : forall q l, 0 <= q < l_grid L -> 0 <= l < count (owned L q) (l_size L) ->
  let e := global_element_from_local_element_on_rank a q l in
  0 <= e < l_size L /\ owner L e = q /\ count (owned L q) e = l.
Proof.
  intros q l Hq Hl. rewrite ms, mg in *. rewrite <- m_count in Hl.
  destruct (local_to_global_on_rank a WF q l Hq Hl) as (A & B & C & _). cbv zeta.
  rewrite <- m_owner, <- m_count. auto.
Qed.

Lemma T_local_to_global : forall l, 0 <= l < ax_local_size a ->
  let e := ax_global_element_from_local_element a l in
  0 <= e < l_size L /\ owner L e = r /\ ax_local_element_from_global_element a e = l.
Proof.
  intros l Hl e. rewrite T_local_size in Hl.
  destruct (T_local_to_global_on_rank r l m_rrange Hl) as (A & B & C).
  assert (E : e = global_element_from_local_element_on_rank a r l) by (unfold e; rewrite <- mr; reflexivity).
  rewrite <- E in A, B, C. rewrite T_local_element by lia. rewrite B, Z.eqb_refl. auto.
Qed.

Lemma T_global_to_local : forall e, 0 <= e < l_size L -> owner L e = r ->
  ax_global_element_from_local_element a (ax_local_element_from_global_element a e) = e.
Proof.
  intros e He Ho. rewrite T_local_element by lia. rewrite Ho, Z.eqb_refl.
  assert (Hl : 0 <= count (owned L r) e < ax_local_size a).
  { rewrite T_local_size. split; [apply count_bounds; lia|]. apply count_lt; [lia|]. apply Z.eqb_eq. exact Ho. }
  destruct (T_local_to_global (count (owned L r) e) Hl) as (A & B & C).
  rewrite T_local_element in C by lia. rewrite B, Z.eqb_refl in C.
  apply (count_inj (owned L r)); try lia; apply Z.eqb_eq; assumption.
Qed.

Lemma T_local_to_global_mono : forall l l', 0 <= l < l' -> l' < ax_local_size a ->
  ax_global_element_from_local_element a l < ax_global_element_from_local_element a l'.
Proof.
  intros l l' H H'.
  destruct (T_local_to_global l ltac:(lia)) as (A & B & C).
  destruct (T_local_to_global l' ltac:(lia)) as (A' & B' & C').
  rewrite T_local_element in C, C' by lia. rewrite B, Z.eqb_refl in C. rewrite B', Z.eqb_refl in C'.
  destruct (Z_lt_ge_dec (ax_global_element_from_local_element a l) (ax_global_element_from_local_element a l')); [assumption|].
  pose proof (count_mono (owned L r) (ax_global_element_from_local_element a l') (ax_global_element_from_local_element a l)). lia.
Qed.

(** C03 *)
Lemma T_tile_owner : forall t, 0 <= t -> ax_rank_global_tile a t = tile_owner L t.
Proof. intros. rewrite (ax_rank_global_tile_spec a W), m_tile_owner by lia. reflexivity. Qed.

Lemma T_tile_owner_elems : forall e, owner L e = tile_owner L (tile_of L e).
Proof. intros. rewrite <- m_owner, <- m_tile_owner, <- m_tile_of. apply (owner_tile_of a W). Qed.

Lemma T_local_tile : forall t, 0 <= t ->
  ax_local_tile_from_global_tile a t = if tile_owner L t =? r then count (tile_owned L r) t else -1.
Proof. intros. rewrite (local_tile_spec a W), m_tile_owner, m_count_t, mr by lia. reflexivity. Qed.

Lemma T_next_local : forall t, 0 <= t ->
  ax_next_local_tile_from_global_tile a t = count (tile_owned L r) t.
Proof. intros. rewrite (next_local_spec a W), m_count_t, mr by lia. reflexivity. Qed.

Lemma T_local_nr_tiles : ax_local_nr_tiles a = count (tile_owned L r) (ax_nr_tiles a).
Proof. rewrite (wf_lnt a WF), m_count_t, mr. reflexivity. Qed.

Lemma T_nt_nonneg : 0 <= ax_nr_tiles a. Proof. apply (wf_nt_nonneg a WF). Qed.

Lemma T_global_tile : forall l, 0 <= l < ax_local_nr_tiles a ->
  let t := ax_global_tile_from_local_tile a l in
  0 <= t < ax_nr_tiles a /\ tile_owner L t = r /\ count (tile_owned L r) t = l.
Proof.
  intros l Hl. destruct (local_tile_range a WF l Hl) as (A & B & C). cbv zeta.
  rewrite <- m_tile_owner, <- m_count_t, <- mr. auto.
Qed.

Lemma T_global_tile_inv : forall t, 0 <= t < ax_nr_tiles a -> tile_owner L t = r ->
  ax_global_tile_from_local_tile a (ax_local_tile_from_global_tile a t) = t.
Proof.
  intros t Ht Ho. rewrite T_local_tile, Ho, Z.eqb_refl by lia.
  rewrite <- m_count_t, <- mr. apply (global_tile_of_count a W); [lia|apply W|].
  rewrite m_tile_owner, mr. exact Ho.
Qed.

Lemma T_global_tile_on_rank : forall q l, 0 <= q < l_grid L ->
  0 <= l < count (tile_owned L q) (ax_nr_tiles a) ->
  let t := global_tile_from_local_tile_on_rank a q l in
  0 <= t < ax_nr_tiles a /\ tile_owner L t = q /\ count (tile_owned L q) t = l.
Proof.
  intros q l Hq Hl. rewrite mg in Hq.
  destruct (global_tile_eq a W l q ltac:(lia) Hq) as (A & B & C).
  unfold global_tile_from_local_tile_on_rank.
  change (Z.quot (ax_block a) (ax_tile a)) with (tiles_per_block a).
  set (t := global_tile_from_local_tile l (tiles_per_block a) (ax_grid a) q (ax_src a) (global_tile_offset a)) in *.
  cbv zeta. rewrite m_count_t in C. rewrite m_tile_owner in B. repeat split; try assumption.
  destruct (Z_lt_ge_dec t (ax_nr_tiles a)); [assumption|].
  pose proof (count_mono (tile_owned L q) (ax_nr_tiles a) t). lia.
Qed.

Lemma T_any_rank : forall t, 0 <= t ->
  local_tile_from_global_tile_any_rank a t = count (tile_owned L (tile_owner L t)) t.
Proof.
  intros t Ht. unfold local_tile_from_global_tile_any_rank. rewrite T_tile_owner by lia.
  change (Z.quot (ax_block a) (ax_tile a)) with (tiles_per_block a).
  rewrite (local_tile_eq a W) by (try lia; rewrite <- m_tile_owner; apply (tile_owner_range a W)).
  rewrite m_tile_owner, Z.eqb_refl, m_count_t. reflexivity.
Qed.

(** C04 *)
Lemma T_elem_to_tile : forall e, 0 <= e < l_size L ->
  let t := ax_global_tile_from_global_element a e in
  let te := ax_tile_element_from_global_element a e in
  t = tile_of L e /\ 0 <= t < ax_nr_tiles a /\ 0 <= te < ax_global_tile_size_of a t /\
  ax_global_element_from_global_tile_and_tile_element a t te = e.
Proof.
  intros e He t te. rewrite ms in He.
  assert (Et : t = tile_of (layout_of a) e) by (apply (tile_of_elem a W); lia).
  assert (Ht : 0 <= t < ax_nr_tiles a).
  { rewrite Et. apply (wf_is_tile a WF). exists e. split; [exact He|reflexivity]. }
  assert (Ete : te = e - first_of_tile (layout_of a) t) by (unfold te; rewrite Et; apply (tile_element_spec a W); lia).
  pose proof (proj1 (tile_of_iff a W e t ltac:(lia) ltac:(lia)) ltac:(symmetry; exact Et)) as R.
  pose proof (wf_tile_end a WF t Ht) as [E Sz].
  split; [rewrite Et; apply m_tile_of|]. split; [exact Ht|]. split; [lia|].
  rewrite (global_element_spec a W) by lia. lia.
Qed.

Lemma T_tile_to_elem : forall t te, 0 <= t < ax_nr_tiles a -> 0 <= te < ax_global_tile_size_of a t ->
  let e := ax_global_element_from_global_tile_and_tile_element a t te in
  0 <= e < l_size L /\ ax_global_tile_from_global_element a e = t /\
  ax_tile_element_from_global_element a e = te.
Proof.
  intros t te Ht Hte e. pose proof (wf_tile_end a WF t Ht) as [E Sz].
  assert (Ee : e = first_of_tile (layout_of a) t + te) by (apply (global_element_spec a W); lia).
  pose proof (first_of_tile_nonneg a t).
  assert (Et : tile_of (layout_of a) e = t) by (apply (tile_of_iff a W); lia).
  rewrite ms. split; [lia|].
  rewrite (tile_of_elem a W), (tile_element_spec a W), Et by lia. split; [reflexivity|lia].
Qed.

Lemma T_tile_sizes : forall t, 0 <= t < ax_nr_tiles a ->
  0 < ax_global_tile_size_of a t <= l_tile L /\
  (0 < t < ax_nr_tiles a - 1 -> ax_global_tile_size_of a t = l_tile L).
Proof.
  intros t Ht. rewrite mt. pose proof (wf_tile_end a WF t Ht) as [E Sz]. split; [exact Sz|].
  intros Hm. pose proof (first_end a WF t Ht) as [F _]. rewrite F in E by lia.
  rewrite !(first_of_tile_eq a W) in E by lia.
  destruct (Z.eqb_spec t 0); destruct (Z.eqb_spec (t + 1) 0); lia.
Qed.

Lemma T_tile_sum : sumZ (ax_global_tile_size_of a) (ax_nr_tiles a) = l_size L.
Proof.
  rewrite ms. pose proof (sum_tiles_range a WF 0 (ax_nr_tiles a)) as X.
  rewrite Z.sub_0_r in X. pose proof T_nt_nonneg.
  rewrite <- (sumZ_ext (fun j => ax_global_tile_size_of a (0 + j))) by (intros; f_equal; lia).
  rewrite X by lia. rewrite (bnd_0 a WF). unfold bnd. rewrite Z.eqb_refl. lia.
Qed.

Lemma T_local_tile_size : forall l, 0 <= l < ax_local_nr_tiles a ->
  ax_local_tile_size_of a l = ax_global_tile_size_of a (ax_global_tile_from_local_tile a l).
Proof. apply (local_tile_size_spec a WF). Qed.

Lemma T_local_tile_sum : sumZ (ax_local_tile_size_of a) (ax_local_nr_tiles a) = ax_local_size a.
Proof.
  pose proof (sum_local_tiles_range a WF 0 (ax_local_nr_tiles a)) as X.
  rewrite Z.sub_0_r in X. pose proof (lnt_nonneg a WF).
  rewrite <- (sumZ_ext (fun j => ax_local_tile_size_of a (0 + j))) by (intros; f_equal; lia).
  rewrite X by lia. rewrite (lbnd_0 a WF). unfold lbnd. rewrite Z.eqb_refl. lia.
Qed.

(** local element <-> (local tile, element in tile), and its relation to the global side *)
Lemma T_local_elem_to_tile : forall l, 0 <= l < ax_local_size a ->
  let lt := ax_local_tile_from_local_element a l in
  let te := ax_tile_element_from_local_element a l in
  0 <= lt < ax_local_nr_tiles a /\ 0 <= te < ax_local_tile_size_of a lt /\
  ax_local_element_from_local_tile_and_tile_element a lt te = l.
Proof.
  intros l Hl lt te.
  pose proof Hl as Hl'. rewrite T_local_size, <- m_count, ms, <- mr in Hl'.
  destruct (local_to_global_on_rank a WF (ax_rank a) l (w_rank _ W) Hl') as (A & B & C & D & E & F).
  set (e := global_element_from_local_element_on_rank a (ax_rank a) l) in *.
  assert (Elt : local_tile_from_local_element_on_rank a (ax_rank a) l = lt) by reflexivity.
  assert (Ete : tile_element_from_local_element_on_rank a (ax_rank a) l = te) by reflexivity.
  rewrite Elt in D, F. rewrite Ete in E.
  set (t := tile_of (layout_of a) e) in *.
  assert (Ht : 0 <= t < ax_nr_tiles a).
  { apply (wf_is_tile a WF). exists e. split; [exact A|reflexivity]. }
  assert (Hlt : 0 <= lt < ax_local_nr_tiles a).
  { rewrite F, (wf_lnt a WF). split; [apply count_bounds; lia|]. apply count_lt; [lia|].
    unfold tile_owned. unfold t. rewrite <- (owner_tile_of a W), B. apply Z.eqb_refl. }
  assert (D' : t = ax_global_tile_from_local_tile a lt) by exact D.
  pose proof (proj1 (tile_of_iff a W e t ltac:(lia) ltac:(lia)) eq_refl) as R.
  pose proof (wf_tile_end a WF t Ht) as [E2 Sz].
  split; [exact Hlt|]. rewrite T_local_tile_size, <- D' by exact Hlt. split; [lia|].
  rewrite (local_elem_lt_te a WF lt te Hlt) by (rewrite <- D'; lia). rewrite <- D'.
  replace (first_of_tile (layout_of a) t + te) with e by lia. exact C.
Qed.

Lemma T_local_tile_to_elem : forall lt te, 0 <= lt < ax_local_nr_tiles a -> 0 <= te < ax_local_tile_size_of a lt ->
  let l := ax_local_element_from_local_tile_and_tile_element a lt te in
  0 <= l < ax_local_size a /\ ax_local_tile_from_local_element a l = lt /\
  ax_tile_element_from_local_element a l = te /\
  ax_global_element_from_local_element a l =
    ax_global_element_from_local_tile_and_tile_element a lt te /\
  ax_global_element_from_local_tile_and_tile_element a lt te =
    ax_global_element_from_global_tile_and_tile_element a (ax_global_tile_from_local_tile a lt) te.
Proof.
  intros lt te Hlt Hte l. rewrite T_local_tile_size in Hte by exact Hlt.
  destruct (T_global_tile lt Hlt) as (A & B & C).
  set (t := ax_global_tile_from_local_tile a lt) in *.
  destruct (T_tile_to_elem t te A Hte) as (D & E & F).
  set (e := ax_global_element_from_global_tile_and_tile_element a t te) in *.
  assert (El : l = count (owned (layout_of a) (ax_rank a)) (first_of_tile (layout_of a) t + te)).
  { apply (local_elem_lt_te a WF lt te Hlt). fold t. lia. }
  assert (Ee : e = first_of_tile (layout_of a) t + te) by (apply (global_element_spec a W); lia).
  rewrite <- Ee, m_count, mr in El.
  assert (Et : tile_of L e = t) by (rewrite <- m_tile_of, <- (tile_of_elem a W) by lia; exact E).
  assert (Oe : owner L e = r) by (rewrite T_tile_owner_elems, Et; exact B).
  assert (Hl : 0 <= l < ax_local_size a).
  { rewrite El, T_local_size. split; [apply count_bounds; lia|]. apply count_lt; [lia|]. apply Z.eqb_eq. exact Oe. }
  assert (G : ax_global_element_from_local_element a l = e).
  { pose proof (T_global_to_local e D Oe) as X. rewrite T_local_element, Oe, Z.eqb_refl, <- El in X by lia. exact X. }
  (* local tile and tile element of l *)
  pose proof Hl as Hl'. rewrite T_local_size, <- m_count, ms, <- mr in Hl'.
  destruct (local_to_global_on_rank a WF (ax_rank a) l (w_rank _ W) Hl') as (_ & _ & _ & P & Q & R).
  change (global_element_from_local_element_on_rank a (ax_rank a) l) with (ax_global_element_from_local_element a l) in P, Q, R.
  rewrite G in P, Q, R.
  change (local_tile_from_local_element_on_rank a (ax_rank a) l) with (ax_local_tile_from_local_element a l) in R.
  change (tile_element_from_local_element_on_rank a (ax_rank a) l) with (ax_tile_element_from_local_element a l) in Q.
  rewrite m_tile_of, Et in Q, R. rewrite m_count_t, mr, C in R.
  split; [exact Hl|]. split; [exact R|]. split; [lia|]. split; [exact G|]. reflexivity.
Qed.

(** next local tile: the first owned tile at or after t *)
Lemma T_next_local_first : forall t, 0 <= t <= ax_nr_tiles a ->
  let n := ax_next_local_tile_from_global_tile a t in
  0 <= n <= ax_local_nr_tiles a /\
  (n < ax_local_nr_tiles a ->
     t <= ax_global_tile_from_local_tile a n /\
     forall s, t <= s < ax_global_tile_from_local_tile a n -> tile_owner L s <> r) /\
  (n = ax_local_nr_tiles a -> forall s, t <= s < ax_nr_tiles a -> tile_owner L s <> r).
Proof.
  intros t Ht n. unfold n. rewrite T_next_local by lia.
  pose proof (count_bounds (tile_owned L r) t ltac:(lia)).
  pose proof (count_mono (tile_owned L r) t (ax_nr_tiles a) ltac:(lia)). rewrite <- T_local_nr_tiles in *.
  split; [lia|]. split.
  - intros Hn. destruct (T_global_tile (count (tile_owned L r) t) ltac:(lia)) as (A & B & C).
    set (g := ax_global_tile_from_local_tile a (count (tile_owned L r) t)) in *.
    split.
    + destruct (Z_lt_ge_dec g t); [|lia].
      pose proof (count_lt (tile_owned L r) g t ltac:(lia) ltac:(apply Z.eqb_eq; exact B)). lia.
    + intros s Hs Ho. pose proof (count_lt (tile_owned L r) s g ltac:(lia) ltac:(apply Z.eqb_eq; exact Ho)).
      pose proof (count_mono (tile_owned L r) t s ltac:(lia)). lia.
  - intros Hn s Hs Ho.
    pose proof (count_lt (tile_owned L r) s (ax_nr_tiles a) ltac:(lia) ltac:(apply Z.eqb_eq; exact Ho)).
    pose proof (count_mono (tile_owned L r) t s ltac:(lia)). rewrite <- T_local_nr_tiles in *. lia.
Qed.

(** composite conversions *)
Lemma T_composites : forall e, 0 <= e < l_size L ->
  ax_local_tile_from_global_element a e =
     (if owner L e =? r then count (tile_owned L r) (tile_of L e) else -1) /\
  ax_next_local_tile_from_global_element a e = count (tile_owned L r) (tile_of L e).
Proof.
  intros e He. destruct (T_elem_to_tile e He) as (A & B & _). cbv zeta in *.
  unfold ax_local_tile_from_global_element, ax_next_local_tile_from_global_element.
  rewrite T_local_tile, T_next_local, A by lia. rewrite <- T_tile_owner_elems. auto.
Qed.

(** C09 *)
Lemma T_global_distance : forall b e, 0 <= b < ax_nr_tiles a -> b <= e <= ax_nr_tiles a ->
  global_tile_element_distance a b e = sumZ (fun j => ax_global_tile_size_of a (b + j)) (e - b).
Proof. apply (global_distance_spec a WF). Qed.
Lemma T_local_distance : forall b e, 0 <= b <= e -> e <= ax_local_nr_tiles a ->
  local_element_distance_from_local_tile a b e = sumZ (fun j => ax_local_tile_size_of a (b + j)) (e - b).
Proof. apply (local_distance_spec a WF). Qed.
Lemma T_local_distance_global : forall b e, 0 <= b <= e -> e <= ax_nr_tiles a ->
  local_element_distance_from_global_tile a b e =
  sumZ (fun j => if tile_owned L r (b + j) then ax_global_tile_size_of a (b + j) else 0) (e - b).
Proof.
  intros b e Hb He. rewrite (local_distance_global_spec a WF) by lia.
  apply sumZ_ext. intros j Hj. unfold tile_owned. rewrite m_tile_owner, mr. reflexivity.
Qed.
Lemma T_distance_adjacent : forall e, 0 <= e < l_size L ->
  let d := distance_to_adjacent_tile a e in
  0 < d /\ forall x, e <= x < l_size L -> (tile_of L x = tile_of L e <-> x < e + d).
Proof.
  intros e He. rewrite ms in *. destruct (distance_adjacent_spec a WF e He) as [A B]. cbv zeta in *.
  split; [exact A|]. intros x Hx. rewrite <- !m_tile_of. apply B. exact Hx.
Qed.

(** C05: reported offset and source rank *)
Lemma T_reported :
  ax_size a = l_size L /\ ax_block a = l_block L /\ ax_tile a = l_tile L /\ ax_grid a = l_grid L /\
  ax_rank a = r /\
  ax_offset a = l_off L mod l_block L /\ 0 <= ax_offset a < l_block L /\
  ax_src a = owner L 0 /\ 0 <= ax_src a < l_grid L.
Proof.
  rewrite ms, mb, mt, mg. pose proof (w_off _ W). pose proof (w_src _ W).
  repeat split; try lia; try exact mr.
  - pose proof (sl_off _ _ S) as X. cbn in X. rewrite mb in X. rewrite <- X. symmetry. apply Z.mod_small. lia.
  - rewrite <- m_owner. unfold owner. cbn. rewrite Z.add_0_r, (Z.div_small (ax_offset a) (ax_block a)) by lia.
    rewrite Z.add_0_r. symmetry. apply Z.mod_small. lia.
Qed.

(** C08 *)
Definition block_of (e : Z) : Z := (l_off L + e) / l_block L - l_off L / l_block L.
Definition blocks_as_tiles : layout :=
  Layout (l_size L) (l_block L) (l_block L) (l_grid L) (l_src L) (l_off L).

Lemma m_block_off : forall x, (l_off L + x) / l_block L = (ax_offset a + x) / ax_block a + l_off L / l_block L.
Proof.
  intros x. destruct T_reported as (_ & B & _ & _ & _ & O & _).
  assert (0 < l_block L) by (pose proof (w_off _ W); rewrite mb; lia).
  rewrite B, O. destruct (div_mod_dec (l_off L) (l_block L) H) as [E R].
  rewrite E at 1. replace (l_off L / l_block L * l_block L + l_off L mod l_block L + x)
    with (l_off L mod l_block L + x + (l_off L / l_block L) * l_block L) by lia.
  rewrite Z.div_add by lia. reflexivity.
Qed.

Lemma T_nr_blocks : 0 < l_size L ->
  (forall b, (exists e, 0 <= e < l_size L /\ block_of e = b) <-> 0 <= b < ax_nr_blocks a).
Proof.
  intros Hs b. rewrite ms in *. rewrite (nr_blocks_pos a WF) by lia.
  assert (BO : forall e, block_of e = (ax_offset a + e) / ax_block a).
  { intros e. unfold block_of. rewrite m_block_off. lia. }
  pose proof (w_off _ W) as O. assert (Hb : 0 < ax_block a) by lia.
  split.
  - intros (e & He & Eb). rewrite BO in Eb. subst b.
    assert (0 <= (ax_offset a + e) / ax_block a) by (apply div_nonneg; lia).
    pose proof (div_le_mono (ax_offset a + e) (ax_offset a + (ax_size a - 1)) (ax_block a)). lia.
  - intros Hbr. destruct (Z.eq_dec b 0) as [->|Hne].
    + exists 0. split; [lia|]. rewrite BO. apply Z.div_small. lia.
    + exists (b * ax_block a - ax_offset a).
      destruct (div_mod_dec (ax_offset a + (ax_size a - 1)) (ax_block a) Hb) as [E R].
      split; [nia|]. rewrite BO. apply (div_eq _ _ _ 0); lia.
Qed.

Lemma T_local_nr_blocks : 0 < l_size L ->
  ax_local_nr_blocks a = count (tile_owned blocks_as_tiles r) (ax_nr_blocks a).
Proof.
  intros Hs. rewrite ms in Hs. rewrite (local_nr_blocks_pos a WF) by lia. rewrite mr.
  apply count_ext. intros t Ht. unfold tile_owned, tile_owner, block_layout, blocks_as_tiles. cbn.
  pose proof (w_off _ W) as O. assert (Hb : 0 < ax_block a) by lia.
  rewrite !Z.div_mul by (rewrite ?mb; lia).
  rewrite (Z.div_small (ax_offset a) (ax_block a)) by lia.
  rewrite mg. destruct T_reported as (_ & _ & _ & _ & _ & _ & _ & SR & _).
  rewrite SR. unfold owner. rewrite Z.add_0_r, mg, Zplus_mod_idemp_l.
  f_equal. f_equal. lia.
Qed.

End models.
