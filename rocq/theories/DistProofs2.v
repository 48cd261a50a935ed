(** Proofs about the distribution model, part 2: derived members, local side,
    distances, blocks, constructors. *)
From Coq Require Import ZArith Lia Bool List Znumtheory.
From Verif Require Import CInt DistModel DistSpec DivLemmas DistProofs.
Open Scope Z_scope.

Section axis2.
Context (a : axis).
Hypothesis W : wfp a.

Local Notation nb := (ax_tile a).
Local Notation k := (tiles_per_block a).
Local Notation G := (ax_grid a).
Local Notation o := (ax_offset a).
Local Notation L := (layout_of a).

Let Wnb : 0 < nb := w_tile a W.
Let Wk : 0 < k := w_k a W.
Let WG : 0 < G := w_grid a W.
Let Wr := w_rank a W.
Let Ws := w_src a W.
Let Wo := w_off a W.
Let Wb := w_block a W.
Let Wsz := w_size a W.

Lemma last_tile : 0 < ax_size a ->
  first_of_tile L (nt_spec a - 1) <= ax_size a <= first_of_tile L (nt_spec a) /\
  first_of_tile L (nt_spec a - 1) < ax_size a.
Proof.
  intros Hs. destruct (nt_spec_pos a W Hs) as [P E].
  assert (T : tile_of L (ax_size a - 1) = nt_spec a - 1) by lia.
  apply (tile_of_iff a W) in T; try lia. replace (nt_spec a - 1 + 1) with (nt_spec a) in T by lia. lia.
Qed.

(** local number of elements for any rank, through the tile counts *)
Lemma count_size_tiles : forall r, 0 <= r < G -> 0 < ax_size a ->
  count (owned L r) (ax_size a) =
  count (tile_owned L r) (nt_spec a - 1) * nb
  - (if (r =? ax_src a) && (0 <? nt_spec a - 1) then o mod nb else 0)
  + (if tile_owned L r (nt_spec a - 1) then ax_size a - first_of_tile L (nt_spec a - 1) else 0).
Proof.
  intros r Hr Hs. destruct (nt_spec_pos a W Hs) as [P E]. pose proof (last_tile Hs).
  apply (count_elem_tile a W); try lia. replace (nt_spec a - 1 + 1) with (nt_spec a) by lia. lia.
Qed.

Hypothesis Ent : ax_nr_tiles a = nt_spec a.
Hypothesis Elnt : ax_local_nr_tiles a = ax_next_local_tile_from_global_tile a (ax_nr_tiles a).

Lemma lnt_count : ax_local_nr_tiles a = count (tile_owned L (ax_rank a)) (nt_spec a).
Proof. rewrite Elnt, Ent. apply (next_local_spec a W). apply (nt_spec_nonneg a W). Qed.

Lemma compute_local_size_spec : ax_compute_local_size a = count (owned L (ax_rank a)) (ax_size a).
Proof.
  unfold ax_compute_local_size. rewrite lnt_count, Ent.
  destruct (Z_lt_ge_dec 0 (ax_size a)) as [Hs|Hs].
  2:{ rewrite (count_0 (owned L (ax_rank a))) by lia.
      assert (nt_spec a = 0) as ->. { unfold nt_spec. rewrite Z.gtb_ltb. destruct (Z.ltb_spec 0 (ax_size a)); lia. }
      rewrite count_0 by lia. reflexivity. }
  destruct (nt_spec_pos a W Hs) as [P E].
  rewrite count_size_tiles by lia.
  rewrite (ax_rank_global_tile_spec a W), lteo_eq, (gteo_eq a W) by (assumption || lia).
  assert (CS : count (tile_owned L (ax_rank a)) (nt_spec a) =
     count (tile_owned L (ax_rank a)) (nt_spec a - 1) + (if tile_owned L (ax_rank a) (nt_spec a - 1) then 1 else 0)).
  { replace (nt_spec a) with (nt_spec a - 1 + 1) at 1 by lia. apply count_succ. lia. }
  rewrite CS. clear CS.
  set (t := nt_spec a - 1) in *.
  rewrite (first_of_tile_eq a W) by lia.
  pose proof (count_bounds (tile_owned L (ax_rank a)) t ltac:(lia)) as CB.
  rewrite (Z.eqb_sym (ax_rank a) (tile_owner L t)).
  fold (tile_owned L (ax_rank a) t).
  replace (nt_spec a) with (t + 1) by (unfold t; lia).
  pose proof (o_dec a W) as (Eo & Ro & Qo).
  assert (T0 : tile_owned L (ax_rank a) 0 = (ax_rank a =? ax_src a)).
  { unfold tile_owned. rewrite (owner0 a W). apply Z.eqb_sym. }
  assert (CP : 0 < t -> ax_rank a = ax_src a -> 0 < count (tile_owned L (ax_rank a)) t).
  { intros H1 H2. rewrite <- (count_0 (tile_owned L (ax_rank a)) 0) by lia. apply count_lt; [lia|].
    rewrite T0, H2. apply Z.eqb_refl. }
  destruct (Z.eqb_spec t 0) as [t0|t0].
  - rewrite t0 in *. rewrite T0. rewrite (count_0 _ 0) in * by lia.
    rewrite Z.ltb_irrefl, andb_false_r.
    destruct (Z.eqb_spec (ax_rank a) (ax_src a));
      [destruct (Z.eqb_spec (0 + 1) 0)|destruct (Z.eqb_spec (0 + 0) 0)]; lia.
  - destruct (Z.ltb_spec 0 t); [|lia]. rewrite andb_true_r.
    destruct (Z.eqb_spec (ax_rank a) (ax_src a)); destruct (tile_owned L (ax_rank a) t);
      destruct (Z.eqb_spec (count (tile_owned L (ax_rank a)) t + 1) 0);
      destruct (Z.eqb_spec (count (tile_owned L (ax_rank a)) t + 0) 0); lia.
Qed.
End axis2.

Section axis3.
Context (a : axis).
Hypothesis WF : wf a.
Let W := w_p a WF.

Local Notation nb := (ax_tile a).
Local Notation k := (tiles_per_block a).
Local Notation G := (ax_grid a).
Local Notation o := (ax_offset a).
Local Notation L := (layout_of a).

Let Wnb : 0 < nb := w_tile a W.
Let Wk : 0 < k := w_k a W.
Let WG : 0 < G := w_grid a W.
Let Wr := w_rank a W.
Let Ws := w_src a W.
Let Wo := w_off a W.
Let Wb := w_block a W.
Let Wsz := w_size a W.

Lemma wf_nt : ax_nr_tiles a = nt_spec a.
Proof. exact (w_nt a WF). Qed.

Lemma wf_lnt : ax_local_nr_tiles a = count (tile_owned L (ax_rank a)) (ax_nr_tiles a).
Proof. rewrite (lnt_count a W wf_nt (w_lnt a WF)), wf_nt. reflexivity. Qed.

Lemma wf_ls : ax_local_size a = count (owned L (ax_rank a)) (ax_size a).
Proof. rewrite (w_ls a WF). apply (compute_local_size_spec a W wf_nt (w_lnt a WF)). Qed.

Lemma wf_is_tile : forall t, is_tile L t <-> 0 <= t < ax_nr_tiles a.
Proof. intros. rewrite wf_nt. apply (is_tile_iff a W). Qed.

Lemma wf_nt_nonneg : 0 <= ax_nr_tiles a.
Proof. rewrite wf_nt. apply (nt_spec_nonneg a W). Qed.

(** *** local to global, for any rank *)
Lemma local_to_global_on_rank : forall r l, 0 <= r < G -> 0 <= l < count (owned L r) (ax_size a) ->
  let e := global_element_from_local_element_on_rank a r l in
  0 <= e < ax_size a /\ owner L e = r /\ count (owned L r) e = l /\
  tile_of L e = global_tile_from_local_tile_on_rank a r (local_tile_from_local_element_on_rank a r l) /\
  e - first_of_tile L (tile_of L e) = tile_element_from_local_element_on_rank a r l /\
  local_tile_from_local_element_on_rank a r l = count (tile_owned L r) (tile_of L e).
Proof.
  intros r l Hr Hl e.
  pose proof (o_dec a W) as (Eo & Ro & Qo).
  set (lo := if r =? ax_src a then o mod nb else 0).
  assert (Hlo : 0 <= lo < nb) by (unfold lo; destruct (r =? ax_src a); lia).
  assert (HloS : r = ax_src a -> lo = o mod nb).
  { intros E. unfold lo. rewrite E, Z.eqb_refl. reflexivity. }
  assert (HloN : r <> ax_src a -> lo = 0).
  { intros E. unfold lo. destruct (Z.eqb_spec r (ax_src a)); congruence. }
  assert (Elo : local_tile_element_offset_on_rank a r = lo).
  { unfold local_tile_element_offset_on_rank, lo. rewrite (gteo_eq a W). reflexivity. }
  set (lt := (l + lo) / nb).
  assert (Hlt : 0 <= lt) by (apply div_nonneg; lia).
  assert (Elt : local_tile_from_local_element_on_rank a r l = lt).
  { unfold local_tile_from_local_element_on_rank, tile_from_element. rewrite Elo.
    apply quot_nonneg_div; lia. }
  set (te := tile_element_from_local_element_on_rank a r l).
  assert (Ete : te = l + lo - lt * nb - (if lt =? 0 then lo else 0) /\ 0 <= te /\
                te < nb - (if lt =? 0 then lo else 0)).
  { unfold te, tile_element_from_local_element_on_rank, tile_element_from_element. rewrite Elo.
    rewrite rem_nonneg_mod by lia. destruct (div_mod_dec (l + lo) nb Wnb) as [E R]. fold lt in E.
    destruct (Z.ltb_spec (l + lo) nb) as [Hs|Hs].
    - assert (lt = 0) as Z0 by (unfold lt; apply Z.div_small; lia). rewrite Z0 in *. cbn. lia.
    - assert (0 < lt) by (apply Z.div_str_pos; lia). destruct (Z.eqb_spec lt 0); lia. }
  destruct (global_tile_eq a W lt r Hlt Hr) as (Hgt & Hown & Hcnt).
  set (gt := global_tile_from_local_tile lt k G r (ax_src a) (global_tile_offset a)) in *.
  assert (Egt : global_tile_from_local_tile_on_rank a r (local_tile_from_local_element_on_rank a r l) = gt).
  { rewrite Elt. unfold global_tile_from_local_tile_on_rank. reflexivity. }
  assert (Ee : e = first_of_tile L gt + te).
  { unfold e, global_element_from_local_element_on_rank. rewrite Egt.
    apply (global_element_spec a W). exact Hgt. }
  assert (TO : tile_owned L r gt = true) by (apply Z.eqb_eq; exact Hown).
  destruct (count_tile_pos_src a W r gt Hr Hgt TO) as [S1 S2]. rewrite Hcnt in S1.
  (* gt = 0 iff lt = 0 and r is the source *)
  assert (Hrange : first_of_tile L gt <= e < first_of_tile L (gt + 1)).
  { rewrite Ee. rewrite !(first_of_tile_eq a W) by lia.
    destruct (Z.eqb_spec (gt + 1) 0); [lia|].
    destruct (Z.eqb_spec gt 0) as [g0|g0].
    - assert (r = ax_src a) as Hs.
      { destruct (Z.eq_dec r (ax_src a)); [assumption|]. specialize (S2 n0). lia. }
      specialize (S1 Hs). assert (lt = 0) by lia.
      destruct (Z.eqb_spec lt 0); [|lia]. unfold lo in Ete. rewrite Hs, Z.eqb_refl in Ete. nia.
    - destruct (Z.eqb_spec lt 0); nia. }
  pose proof (first_of_tile_nonneg a gt).
  assert (Et : tile_of L e = gt) by (apply (tile_of_iff a W); lia).
  assert (Ec : count (owned L r) e = l).
  { rewrite (count_elem_tile a W r gt e Hr Hgt) by lia. rewrite TO, Hcnt.
    destruct (Z.eqb_spec r (ax_src a)) as [Hs|Hs]; cbn [andb].
    - specialize (S1 Hs). destruct Ete as (Ete & _).
      specialize (HloS Hs).
      destruct (Z.ltb_spec 0 gt); destruct (Z.eqb_spec lt 0); lia.
    - destruct Ete as (Ete & _). specialize (HloN Hs).
      destruct (Z.eqb_spec lt 0); lia. }
  assert (Hlt_size : e < ax_size a).
  { destruct (Z_lt_ge_dec e (ax_size a)); [assumption|].
    pose proof (count_mono (owned L r) (ax_size a) e). lia. }
  repeat split; try lia.
  - rewrite (owner_tile_of a W), Et. exact Hown.
  - rewrite Et. lia.
  - rewrite Et, Elt, Hcnt. reflexivity.
Qed.

Lemma ax_on_rank_elem : forall l,
  ax_global_element_from_local_element a l = global_element_from_local_element_on_rank a (ax_rank a) l.
Proof. reflexivity. Qed.

(** *** tile sizes *)
Lemma wf_tile_end : forall t, 0 <= t < ax_nr_tiles a ->
  first_of_tile L t + ax_global_tile_size_of a t = Z.min (first_of_tile L (t + 1)) (ax_size a)
  /\ 0 < ax_global_tile_size_of a t <= nb.
Proof. intros t Ht. rewrite wf_nt in Ht. apply (tile_end_eq a W). exact Ht. Qed.

Lemma first_le_size : forall t, 0 <= t < ax_nr_tiles a -> first_of_tile L t < ax_size a.
Proof. intros t Ht. pose proof (wf_tile_end t Ht). lia. Qed.

Lemma first_end : forall t, 0 <= t < ax_nr_tiles a ->
  (t + 1 < ax_nr_tiles a -> Z.min (first_of_tile L (t + 1)) (ax_size a) = first_of_tile L (t + 1)) /\
  (t + 1 = ax_nr_tiles a -> Z.min (first_of_tile L (t + 1)) (ax_size a) = ax_size a).
Proof.
  intros t Ht. split; intros H.
  - pose proof (first_le_size (t + 1) ltac:(lia)). lia.
  - pose proof (first_le_size t Ht). pose proof (first_of_tile_nonneg a t).
    pose proof (last_tile a W ltac:(lia)) as [X _]. rewrite <- wf_nt in X. rewrite H. lia.
Qed.

(** start of tile t, or the size for the one past the end tile *)
Definition bnd (t : Z) : Z := if t =? ax_nr_tiles a then ax_size a else first_of_tile L t.

Lemma bnd_step : forall t, 0 <= t < ax_nr_tiles a -> bnd (t + 1) = bnd t + ax_global_tile_size_of a t.
Proof.
  intros t Ht. unfold bnd. destruct (first_end t Ht) as [F1 F2]. destruct (wf_tile_end t Ht) as [E _].
  destruct (Z.eqb_spec t (ax_nr_tiles a)); [lia|].
  destruct (Z.eqb_spec (t + 1) (ax_nr_tiles a)).
  - rewrite F2 in E by lia. lia.
  - rewrite F1 in E by lia. lia.
Qed.

Lemma bnd_first : forall t, 0 <= t < ax_nr_tiles a -> bnd t = first_of_tile L t.
Proof. intros. unfold bnd. destruct (Z.eqb_spec t (ax_nr_tiles a)); lia. Qed.

Lemma bnd_0 : bnd 0 = 0.
Proof.
  unfold bnd. destruct (Z.eqb_spec 0 (ax_nr_tiles a)).
  - rewrite wf_nt in e. destruct (Z_lt_ge_dec 0 (ax_size a)).
    + pose proof (nt_spec_pos a W l). lia.
    + lia.
  - rewrite (first_of_tile_eq a W) by lia. reflexivity.
Qed.

Lemma sum_tiles_range : forall b e, 0 <= b <= e -> e <= ax_nr_tiles a ->
  sumZ (fun j => ax_global_tile_size_of a (b + j)) (e - b) = bnd e - bnd b.
Proof.
  intros b e Hb He.
  rewrite (sumZ_of_step _ (fun j => bnd (b + j))) by
    (try lia; intros j Hj; replace (b + (j + 1)) with (b + j + 1) by lia; apply bnd_step; lia).
  replace (b + (e - b)) with e by lia. rewrite Z.add_0_r. reflexivity.
Qed.

Lemma global_distance_spec : forall b e, 0 <= b < ax_nr_tiles a -> b <= e <= ax_nr_tiles a ->
  global_tile_element_distance a b e =
  sumZ (fun j => ax_global_tile_size_of a (b + j)) (e - b).
Proof.
  intros b e Hb He. rewrite sum_tiles_range by lia. unfold global_tile_element_distance.
  rewrite !(global_element_spec a W) by lia. rewrite (bnd_first b) by lia. unfold bnd.
  destruct (e =? ax_nr_tiles a); lia.
Qed.

(** count of owned elements below a tile boundary *)
Lemma count_bnd_step : forall r t, 0 <= r < G -> 0 <= t < ax_nr_tiles a ->
  count (owned L r) (bnd (t + 1)) =
  count (owned L r) (bnd t) + (if tile_owned L r t then ax_global_tile_size_of a t else 0).
Proof.
  intros r t Hr Ht. rewrite bnd_step by lia.
  destruct (wf_tile_end t Ht) as [E S].
  rewrite (bnd_first t) by lia.
  pose proof (first_of_tile_nonneg a t).
  rewrite (count_elem_tile a W r t (first_of_tile L t + ax_global_tile_size_of a t)) by lia.
  rewrite (count_elem_tile a W r t (first_of_tile L t)) by lia.
  destruct (tile_owned L r t); lia.
Qed.

Lemma count_bnd : forall r b e, 0 <= r < G -> 0 <= b <= e -> e <= ax_nr_tiles a ->
  count (owned L r) (bnd e) - count (owned L r) (bnd b) =
  sumZ (fun j => if tile_owned L r (b + j) then ax_global_tile_size_of a (b + j) else 0) (e - b).
Proof.
  intros r b e Hr Hb He.
  rewrite (sumZ_of_step _ (fun j => count (owned L r) (bnd (b + j)))) by
    (try lia; intros j Hj; replace (b + (j + 1)) with (b + j + 1) by lia; apply count_bnd_step; lia).
  replace (b + (e - b)) with e by lia. rewrite Z.add_0_r. reflexivity.
Qed.

(** *** local tiles *)
Lemma local_tile_range : forall l, 0 <= l < ax_local_nr_tiles a ->
  let t := ax_global_tile_from_local_tile a l in
  0 <= t < ax_nr_tiles a /\ tile_owner L t = ax_rank a /\ count (tile_owned L (ax_rank a)) t = l.
Proof.
  intros l Hl t. destruct (global_tile_eq a W l (ax_rank a) ltac:(lia) Wr) as (A & B & C).
  fold (ax_global_tile_from_local_tile a l) in A, B, C. fold t in A, B, C. repeat split; try assumption.
  destruct (Z_lt_ge_dec t (ax_nr_tiles a)); [assumption|].
  pose proof (count_mono (tile_owned L (ax_rank a)) (ax_nr_tiles a) t).
  rewrite <- wf_lnt in H. lia.
Qed.

Lemma local_elem_lt_te : forall l te, 0 <= l < ax_local_nr_tiles a ->
  let t := ax_global_tile_from_local_tile a l in
  0 <= te <= ax_global_tile_size_of a t ->
  ax_local_element_from_local_tile_and_tile_element a l te
  = count (owned L (ax_rank a)) (first_of_tile L t + te).
Proof.
  intros l te Hl t Hte. destruct (local_tile_range l Hl) as (A & B & C). fold t in A, B, C.
  destruct (wf_tile_end t A) as [E S]. pose proof (first_of_tile_nonneg a t).
  assert (TO : tile_owned L (ax_rank a) t = true) by (apply Z.eqb_eq; exact B).
  rewrite (count_elem_tile a W (ax_rank a) t) by lia. rewrite TO, C.
  unfold ax_local_element_from_local_tile_and_tile_element, element_from_tile_and_tile_element.
  rewrite (lteo_eq a W), Z.gtb_ltb.
  destruct (count_tile_pos_src a W (ax_rank a) t Wr ltac:(lia) TO) as [S1 S2]. rewrite C in S1.
  destruct (Z.eqb_spec (ax_rank a) (ax_src a)) as [Hs|Hs]; cbn [andb].
  - specialize (S1 Hs). destruct (Z.ltb_spec 0 l); destruct (Z.ltb_spec 0 t); lia.
  - destruct (Z.ltb_spec 0 l); lia.
Qed.

(** the next owned tile *)
Lemma next_owned : forall l, 0 <= l -> l + 1 < ax_local_nr_tiles a ->
  ax_global_tile_from_local_tile a l < ax_global_tile_from_local_tile a (l + 1).
Proof.
  intros l Hl Hl1. destruct (local_tile_range l ltac:(lia)) as (A & B & C).
  destruct (local_tile_range (l + 1) ltac:(lia)) as (A1 & B1 & C1).
  destruct (Z_lt_ge_dec (ax_global_tile_from_local_tile a l) (ax_global_tile_from_local_tile a (l + 1))); [assumption|].
  pose proof (count_mono (tile_owned L (ax_rank a)) (ax_global_tile_from_local_tile a (l + 1)) (ax_global_tile_from_local_tile a l)). lia.
Qed.

(** no owned tile between consecutive local tiles: the elements before both starts differ by tile size *)
Lemma sum_owned_gap : forall r b e, 0 <= b <= e -> 
  count (tile_owned L r) e = count (tile_owned L r) b ->
  sumZ (fun j => if tile_owned L r (b + j) then ax_global_tile_size_of a (b + j) else 0) (e - b) = 0.
Proof.
  intros r b e Hb Hc.
  rewrite (sumZ_of_step _ (fun j => 0)); [lia|lia|].
  intros j Hj. destruct (tile_owned L r (b + j)) eqn:Ho; [|lia]. exfalso.
  pose proof (count_lt (tile_owned L r) (b + j) e ltac:(lia) Ho).
  pose proof (count_mono (tile_owned L r) b (b + j) ltac:(lia)). lia.
Qed.

(** end (in local elements) of local tile l *)
Lemma local_tile_next : forall l, 0 <= l < ax_local_nr_tiles a ->
  let t := ax_global_tile_from_local_tile a l in
  count (owned L (ax_rank a)) (first_of_tile L t) + ax_global_tile_size_of a t =
  if l + 1 =? ax_local_nr_tiles a then ax_local_size a
  else count (owned L (ax_rank a)) (first_of_tile L (ax_global_tile_from_local_tile a (l + 1))).
Proof.
  intros l Hl t. destruct (local_tile_range l Hl) as (A & B & C). fold t in A, B, C.
  assert (TO : tile_owned L (ax_rank a) t = true) by (apply Z.eqb_eq; exact B).
  pose proof (count_bnd_step (ax_rank a) t Wr A) as S. rewrite TO in S.
  rewrite (bnd_first t A) in S. rewrite <- S. clear S.
  assert (Ct : count (tile_owned L (ax_rank a)) (t + 1) = l + 1) by (rewrite count_succ, TO by lia; lia).
  destruct (Z.eqb_spec (l + 1) (ax_local_nr_tiles a)) as [Hlast|Hlast].
  - rewrite wf_ls.
    assert (Bn : bnd (ax_nr_tiles a) = ax_size a) by (unfold bnd; rewrite Z.eqb_refl; reflexivity).
    rewrite <- Bn.
    pose proof (count_bnd (ax_rank a) (t + 1) (ax_nr_tiles a) Wr ltac:(lia) ltac:(lia)) as D.
    rewrite sum_owned_gap in D; [lia|lia|].
    rewrite <- wf_lnt. lia.
  - destruct (local_tile_range (l + 1) ltac:(lia)) as (A1 & B1 & C1).
    pose proof (next_owned l ltac:(lia) ltac:(lia)). fold t in H.
    set (t1 := ax_global_tile_from_local_tile a (l + 1)) in *.
    rewrite <- (bnd_first t1 A1).
    pose proof (count_bnd (ax_rank a) (t + 1) t1 Wr ltac:(lia) ltac:(lia)) as D.
    rewrite sum_owned_gap in D; [lia|lia|lia].
Qed.

Lemma local_tile_size_spec : forall l, 0 <= l < ax_local_nr_tiles a ->
  ax_local_tile_size_of a l = ax_global_tile_size_of a (ax_global_tile_from_local_tile a l).
Proof.
  intros l Hl. pose proof (local_tile_next l Hl) as N. cbv zeta in N.
  pose proof (local_elem_lt_te l 0 Hl) as E0. cbv zeta in E0.
  destruct (local_tile_range l Hl) as (A & B & C).
  set (t := ax_global_tile_from_local_tile a l) in *.
  destruct (wf_tile_end t A) as [Ee S]. specialize (E0 ltac:(lia)).
  rewrite Z.add_0_r in E0. rewrite <- E0 in N. 
  unfold ax_local_element_from_local_tile_and_tile_element, element_from_tile_and_tile_element in N.
  rewrite (lteo_eq a W), Z.gtb_ltb in N.
  assert (Hge : forall l', l' + 1 < ax_local_nr_tiles a -> 0 <= l' -> 
     ax_local_element_from_local_tile_and_tile_element a (l' + 1) 0 <= ax_local_size a).
  { intros l' Hl' Hl0. rewrite local_elem_lt_te by
      (try lia; split; try lia; destruct (local_tile_range (l' + 1) ltac:(lia)) as (A' & _);
       pose proof (wf_tile_end _ A'); lia).
    rewrite wf_ls. apply count_mono.
    destruct (local_tile_range (l' + 1) ltac:(lia)) as (A' & _).
    pose proof (first_le_size _ A'). lia. }
  unfold ax_local_tile_size_of. rewrite (lteo_eq a W).
  pose proof (o_dec a W) as (Eo & Ro & Qo).
  set (lo := if ax_rank a =? ax_src a then o mod nb else 0) in *.
  assert (Hlo : 0 <= lo < nb) by (unfold lo; destruct (ax_rank a =? ax_src a); lia).
  destruct (Z.eqb_spec (l + 1) (ax_local_nr_tiles a)) as [Hlast|Hlast].
  - (* last local tile: size given by n; need it not to exceed nb (resp. nb - lo) *)
    assert (Htsz : l = 0 -> ax_global_tile_size_of a t <= nb - lo).
    { intros l0. unfold lo. destruct (Z.eqb_spec (ax_rank a) (ax_src a)) as [Hs|Hs]; [|lia].
      assert (TO : tile_owned L (ax_rank a) t = true) by (apply Z.eqb_eq; exact B).
      destruct (count_tile_pos_src a W (ax_rank a) t Wr ltac:(lia) TO) as [S1 _].
      rewrite C in S1. specialize (S1 Hs). assert (t = 0) as T0 by lia.
      unfold ax_global_tile_size_of. rewrite T0. cbn [Z.eqb]. rewrite (gteo_eq a W). lia. }
    destruct (Z.eqb_spec l 0) as [l0|l0].
    + specialize (Htsz l0). destruct (Z.ltb_spec 0 l); [lia|]. rewrite l0 in N at 1. lia.
    + destruct (Z.ltb_spec 0 l); lia.
  - specialize (Hge l ltac:(lia) ltac:(lia)).
    rewrite <- (Z.add_0_r (first_of_tile L _)) in N.
    rewrite <- local_elem_lt_te in N by
      (try lia; split; try lia; destruct (local_tile_range (l + 1) ltac:(lia)) as (A' & _);
       pose proof (wf_tile_end _ A'); lia).
    unfold ax_local_element_from_local_tile_and_tile_element, element_from_tile_and_tile_element in N, Hge.
    rewrite (lteo_eq a W), Z.gtb_ltb in N, Hge. fold lo in N, Hge.
    destruct (Z.ltb_spec 0 (l + 1)); [|lia].
    destruct (Z.eqb_spec l 0); destruct (Z.ltb_spec 0 l); nia.
Qed.

(** start in local elements of local tile l (or the local size at the end) *)
Definition lbnd (l : Z) : Z :=
  if l =? ax_local_nr_tiles a then ax_local_size a
  else count (owned L (ax_rank a)) (first_of_tile L (ax_global_tile_from_local_tile a l)).

Lemma lbnd_step : forall l, 0 <= l < ax_local_nr_tiles a -> lbnd (l + 1) = lbnd l + ax_local_tile_size_of a l.
Proof.
  intros l Hl. rewrite local_tile_size_spec by lia. unfold lbnd.
  destruct (Z.eqb_spec l (ax_local_nr_tiles a)); [lia|].
  symmetry. apply local_tile_next. exact Hl.
Qed.

Lemma lnt_nonneg : 0 <= ax_local_nr_tiles a.
Proof. rewrite wf_lnt. apply count_bounds. apply wf_nt_nonneg. Qed.

Lemma lbnd_0 : lbnd 0 = 0.
Proof.
  unfold lbnd. destruct (Z.eqb_spec 0 (ax_local_nr_tiles a)) as [E|E].
  - (* no local tile: no local element *)
    rewrite wf_ls.
    pose proof (count_bnd (ax_rank a) 0 (ax_nr_tiles a) Wr ltac:(pose proof wf_nt_nonneg; lia) ltac:(lia)) as D.
    rewrite sum_owned_gap in D.
    + rewrite bnd_0 in D. unfold bnd in D at 1. rewrite Z.eqb_refl in D.
      rewrite (count_0 _ 0) in D by lia. lia.
    + pose proof wf_nt_nonneg. lia.
    + rewrite <- wf_lnt, (count_0 _ 0) by lia. lia.
  - pose proof lnt_nonneg.
    pose proof (local_elem_lt_te 0 0 ltac:(lia)) as X. cbv zeta in X.
    destruct (local_tile_range 0 ltac:(lia)) as (A & B & C).
    pose proof (wf_tile_end _ A) as [_ S].
    rewrite Z.add_0_r in X. rewrite <- X by lia. reflexivity.
Qed.

Lemma sum_local_tiles_range : forall b e, 0 <= b <= e -> e <= ax_local_nr_tiles a ->
  sumZ (fun j => ax_local_tile_size_of a (b + j)) (e - b) = lbnd e - lbnd b.
Proof.
  intros b e Hb He.
  rewrite (sumZ_of_step _ (fun j => lbnd (b + j))) by
    (try lia; intros j Hj; replace (b + (j + 1)) with (b + j + 1) by lia; apply lbnd_step; lia).
  replace (b + (e - b)) with e by lia. rewrite Z.add_0_r. reflexivity.
Qed.

Lemma local_distance_spec : forall b e, 0 <= b <= e -> e <= ax_local_nr_tiles a ->
  local_element_distance_from_local_tile a b e =
  sumZ (fun j => ax_local_tile_size_of a (b + j)) (e - b).
Proof.
  intros b e Hb He. unfold local_element_distance_from_local_tile. rewrite Z.gtb_ltb.
  destruct (Z.ltb_spec (e - 1) b) as [H|H].
  - rewrite sumZ_0 by lia. reflexivity.
  - rewrite sum_local_tiles_range by lia.
    destruct (local_tile_range (e - 1) ltac:(lia)) as (A & B & C).
    destruct (wf_tile_end _ A) as [E S].
    destruct (local_tile_range b ltac:(lia)) as (A2 & B2 & C2).
    destruct (wf_tile_end _ A2) as [E2 S2].
    set (t := ax_global_tile_from_local_tile a (e - 1)) in *.
    rewrite (local_elem_lt_te b 0) by lia.
    replace (ax_local_element_from_local_tile_and_tile_element a (e - 1) (ax_global_tile_size_of a t - 1) + 1)
      with (ax_local_element_from_local_tile_and_tile_element a (e - 1) 0 + ax_global_tile_size_of a t)
      by (unfold ax_local_element_from_local_tile_and_tile_element, element_from_tile_and_tile_element; lia).
    rewrite (local_elem_lt_te (e - 1) 0) by (fold t; lia). fold t.
    rewrite !Z.add_0_r.
    replace (lbnd e) with (lbnd (e - 1 + 1)) by (f_equal; lia).
    rewrite lbnd_step, local_tile_size_spec by lia. unfold lbnd.
    destruct (Z.eqb_spec (e - 1) (ax_local_nr_tiles a)); [lia|].
    destruct (Z.eqb_spec b (ax_local_nr_tiles a)); [lia|]. fold t. lia.
Qed.

Lemma next_local_range : forall t, 0 <= t <= ax_nr_tiles a ->
  0 <= ax_next_local_tile_from_global_tile a t <= ax_local_nr_tiles a.
Proof.
  intros t Ht. rewrite (next_local_spec a W), wf_lnt by lia.
  pose proof (count_bounds (tile_owned L (ax_rank a)) t ltac:(lia)).
  pose proof (count_mono (tile_owned L (ax_rank a)) t (ax_nr_tiles a) ltac:(lia)). lia.
Qed.

(** local tile boundaries and global tile boundaries agree *)
Lemma lbnd_next : forall t, 0 <= t <= ax_nr_tiles a ->
  lbnd (ax_next_local_tile_from_global_tile a t) = count (owned L (ax_rank a)) (bnd t).
Proof.
  intros t Ht. pose proof (next_local_range t Ht) as NR.
  rewrite (next_local_spec a W) in * by lia.
  set (l := count (tile_owned L (ax_rank a)) t) in *.
  unfold lbnd. destruct (Z.eqb_spec l (ax_local_nr_tiles a)) as [E|E].
  - rewrite wf_ls.
    pose proof (count_bnd (ax_rank a) t (ax_nr_tiles a) Wr ltac:(lia) ltac:(lia)) as D.
    rewrite sum_owned_gap in D; [|lia|rewrite <- wf_lnt; fold l; lia].
    unfold bnd in D at 1. rewrite Z.eqb_refl in D. lia.
  - destruct (local_tile_range l ltac:(lia)) as (A & B & C).
    set (t1 := ax_global_tile_from_local_tile a l) in *.
    rewrite <- (bnd_first t1 A).
    assert (Hle : t <= t1).
    { destruct (Z_lt_ge_dec t1 t); [|lia].
      pose proof (count_lt (tile_owned L (ax_rank a)) t1 t ltac:(lia)) as X.
      specialize (X ltac:(apply Z.eqb_eq; exact B)). fold l in X. lia. }
    pose proof (count_bnd (ax_rank a) t t1 Wr ltac:(lia) ltac:(lia)) as D.
    rewrite sum_owned_gap in D; [lia|lia|fold l; lia].
Qed.

Lemma local_distance_global_spec : forall b e, 0 <= b <= e -> e <= ax_nr_tiles a ->
  local_element_distance_from_global_tile a b e =
  sumZ (fun j => if tile_owned L (ax_rank a) (b + j) then ax_global_tile_size_of a (b + j) else 0) (e - b).
Proof.
  intros b e Hb He. unfold local_element_distance_from_global_tile.
  pose proof (next_local_range b ltac:(lia)). pose proof (next_local_range e ltac:(lia)).
  assert (ax_next_local_tile_from_global_tile a b <= ax_next_local_tile_from_global_tile a e).
  { rewrite !(next_local_spec a W) by lia. apply count_mono. lia. }
  rewrite local_distance_spec, sum_local_tiles_range by lia.
  rewrite !lbnd_next by lia. apply count_bnd; lia.
Qed.

Lemma distance_adjacent_spec : forall e, 0 <= e < ax_size a ->
  let d := distance_to_adjacent_tile a e in
  0 < d /\ forall x, e <= x < ax_size a -> (tile_of L x = tile_of L e <-> x < e + d).
Proof.
  intros e He d. unfold d, distance_to_adjacent_tile.
  rewrite (tile_of_elem a W), (tile_element_spec a W) by lia.
  pose proof (tile_of_nonneg a W e ltac:(lia)) as Ht.
  assert (Hr : 0 <= tile_of L e < ax_nr_tiles a).
  { apply wf_is_tile. exists e. split; [cbn; lia|reflexivity]. }
  destruct (wf_tile_end (tile_of L e) Hr) as [E S].
  pose proof (proj1 (tile_of_iff a W e (tile_of L e) ltac:(lia) Ht) eq_refl) as R.
  split; [lia|]. intros x Hx. rewrite (tile_of_iff a W x (tile_of L e)) by lia. lia.
Qed.

(** *** blocks *)
Definition block_layout : layout :=
  Layout (ax_size a) (ax_block a) (ax_block a) (ax_grid a) (ax_src a) (ax_offset a).

Lemma nr_blocks_pos : 0 < ax_size a ->
  ax_nr_blocks a = (o + (ax_size a - 1)) / ax_block a + 1.
Proof.
  intros Hs. unfold ax_nr_blocks, ceilDiv. pose proof (o_dec a W) as (Eo & Ro & Qo).
  destruct (nt_spec_pos a W Hs) as [P E]. rewrite wf_nt, (gto_eq a W).
  unfold tile_of in E. cbn in E. rewrite quot_nonneg_div by lia.
  replace (nt_spec a + o / nb + k - 1) with ((o + (ax_size a - 1)) / nb + 1 * k) by lia.
  rewrite Z.div_add by lia. rewrite (div_block a W). lia.
Qed.

Lemma cc_ceil : forall kk GG r T, 0 < kk -> 0 < GG -> 0 <= r < GG -> 0 <= T ->
  Z.quot (cc kk GG r T + kk - 1) kk = cc 1 GG r ((T + kk - 1) / kk).
Proof.
  intros kk GG r T Hk HG Hr HT.
  destruct (div_mod_dec T kk Hk) as [ET RT].
  set (b := T / kk) in *. set (t := T mod kk) in *.
  assert (Hb : 0 <= b) by (apply div_nonneg; lia).
  destruct (div_mod_dec b GG HG) as [EB RB]. assert (Hbg : 0 <= b / GG) by (apply div_nonneg; lia).
  assert (C1 : cc 1 GG r b = b / GG + (if r <? b mod GG then 1 else 0)).
  { unfold cc. rewrite Z.div_1_r, Z.mod_1_r. destruct (r <? b mod GG); destruct (r =? b mod GG); lia. }
  assert (CT : cc kk GG r T = b / GG * kk + (if r <? b mod GG then kk else if r =? b mod GG then t else 0)).
  { reflexivity. }
  destruct (Z.eq_dec t 0) as [t0|t0].
  - replace ((T + kk - 1) / kk) with b by (symmetry; apply (div_eq _ _ _ (kk - 1)); lia).
    rewrite CT, C1, t0. rewrite quot_nonneg_div by (destruct (r <? b mod GG); destruct (r =? b mod GG); nia).
    destruct (r <? b mod GG); destruct (r =? b mod GG);
    apply (div_eq _ _ _ (kk - 1)); lia.
  - replace ((T + kk - 1) / kk) with (b + 1) by (symmetry; apply (div_eq _ _ _ (t - 1)); lia).
    rewrite cc_step, C1, Z.div_1_r, CT by lia.
    rewrite quot_nonneg_div by (destruct (r <? b mod GG); destruct (r =? b mod GG); nia).
    rewrite (Z.eqb_sym (b mod GG) r).
    destruct (Z.ltb_spec r (b mod GG)); destruct (Z.eqb_spec r (b mod GG)); try lia.
    + apply (div_eq _ _ _ (kk - 1)); lia.
    + apply (div_eq _ _ _ (t - 1)); lia.
    + apply (div_eq _ _ _ (kk - 1)); lia.
Qed.

Lemma local_nr_blocks_pos : 0 < ax_size a ->
  ax_local_nr_blocks a = count (tile_owned block_layout (ax_rank a)) (ax_nr_blocks a).
Proof.
  intros Hs. unfold ax_local_nr_blocks, ceilDiv. pose proof (o_dec a W) as (Eo & Ro & Qo).
  assert (Hbp : 0 < ax_block a) by (rewrite Wb; nia).
  rewrite nr_blocks_pos by lia.
  (* right-hand side as cc 1 *)
  assert (RHS : forall n, 0 <= n ->
     count (tile_owned block_layout (ax_rank a)) n = cc 1 G (rr a (ax_rank a)) n).
  { intros n Hn. rewrite (count_of_step _ (fun x => cc 1 G (rr a (ax_rank a)) x) n Hn).
    - rewrite cc_0 by (try apply (rr_range a W); lia). lia.
    - intros j Hj. rewrite cc_step by (try apply (rr_range a W); lia). rewrite Z.div_1_r.
      unfold tile_owned, tile_owner, block_layout. cbn.
      rewrite (Z.div_small o (ax_block a)), Z.add_0_l, Z.div_mul by lia.
      pose proof (mod_sub_eq j (ax_src a) (ax_rank a) G WG Ws Wr) as M. fold (rr a (ax_rank a)) in M.
      destruct (Z.eqb_spec (j mod G) (rr a (ax_rank a)));
      destruct (Z.eqb_spec ((ax_src a + j) mod G) (ax_rank a)); tauto. }
  assert (0 <= (o + (ax_size a - 1)) / ax_block a) by (apply div_nonneg; lia).
  rewrite RHS by lia.
  (* left-hand side *)
  rewrite (lnt_count a W wf_nt (w_lnt a WF)).
  rewrite (count_tiles a W), (cT_first a W) by (try lia; apply (nt_spec_nonneg a W)).
  unfold local_tile_offset, is_source_rank. rewrite (gto_eq a W).
  set (T := o / nb + nt_spec a).
  replace (cT a (ax_rank a) T - (if ax_rank a =? ax_src a then o / nb else 0) + (if ax_rank a =? ax_src a then o / nb else 0))
    with (cT a (ax_rank a) T) by lia.
  unfold cT. rewrite cc_ceil by (try apply (rr_range a W); try lia; unfold T; pose proof (nt_spec_nonneg a W); lia).
  f_equal. destruct (nt_spec_pos a W Hs) as [P E]. unfold tile_of in E. cbn in E.
  replace (T + k - 1) with ((o + (ax_size a - 1)) / nb + 1 * k) by (unfold T; lia).
  rewrite Z.div_add by lia. rewrite (div_block a W). reflexivity.
Qed.

End axis3.
