(** * Addresses of the elements of a freshly set up matrix. *)
From Coq Require Import ZArith Lia Bool List.
From Verif Require Import CInt Loop DistModel DistSpec DivLemmas DistProofs DistProofs2 DistBuilt DistThms DistCtor
  IndexModel MemModel MemAxis MemProofs.
Import ListNotations.
Open Scope Z_scope.

(** The address of local element (i, j), looked up the way a user of the API does: which
    tile, which element of the tile, the tile's pointer. *)
Definition local_element_address (h : heap) (m : matrix) (ij : pair_Z) : res (nat * Z) :=
  let r := d_row (mx_dist m) in let c := d_col (mx_dist m) in
  t <- mx_tile m (ax_local_tile_from_local_element r (fst ij), ax_local_tile_from_local_element c (snd ij)) ;;
  tile_ptr h t (ax_tile_element_from_local_element r (fst ij), ax_tile_element_from_local_element c (snd ij)).

Lemma loc : forall r L a (M : models r L a) l, 0 <= l < ax_local_size a ->
  let i := ax_local_tile_from_local_element a l in
  0 <= i < ax_local_nr_tiles a /\ 0 <= ax_tile_element_from_local_element a l < ax_local_tile_size_of a i /\
  lb a i + ax_tile_element_from_local_element a l = l.
Proof.
  intros r L a M l Hl i. destruct (T_local_elem_to_tile _ _ _ M l Hl) as (A & B & C). cbv zeta in *. fold i in A, B, C.
  rewrite lb_elem with (1 := M) in C by lia. lia.
Qed.

Lemma nth_grid_app : forall A (h : list A) C nr nc i j, 0 <= i < nr -> 0 <= j < nc ->
  nth_error (h ++ grid_list C nr nc) (length h + Z.to_nat (i + nr * j)) = Some (C i j).
Proof.
  intros. rewrite nth_error_app2 by lia.
  replace (length h + Z.to_nat (i + nr * j) - length h)%nat with (Z.to_nat (i + nr * j)) by lia.
  apply grid_nth; assumption.
Qed.
Lemma grid_index_inj : forall n i j i' j', 0 <= i < n -> 0 <= i' < n -> 0 <= j -> 0 <= j' ->
  Z.to_nat (i + n * j) = Z.to_nat (i' + n * j') -> i = i' /\ j = j'.
Proof.
  intros n i j i' j' Hi Hi' Hj Hj' E. apply Z2Nat.inj in E; [|nia|nia].
  assert (j = j') by nia. subst. lia.
Qed.
Lemma col_inj : forall l x y x' y', 0 <= x < l -> 0 <= x' < l -> x + l * y = x' + l * y' -> x = x' /\ y = y'.
Proof. intros. assert (y = y') by nia. subst. lia. Qed.
Lemma mview_at_ok : forall h c k off n p, nth_error h c = Some k -> 0 <= off + p < ck_size k ->
  mview_at h (MView (Some c) off n) p = Ok (c, off + p).
Proof.
  intros h c k off n p E H. unfold mview_at. cbn [mv_chunk mv_off]. rewrite E.
  rewrite (proj2 (Z.leb_le 0 (off + p))), (proj2 (Z.ltb_lt (off + p) (ck_size k))) by lia. reflexivity.
Qed.

Lemma block_of : forall r L a (M : models r L a) (NE : 0 < ax_local_size a) l, 0 <= l < ax_local_size a ->
  let h := ax_single_tile_per_block a in
  let b := blk a (ax_local_tile_from_local_element a l) in
  0 <= b < ax_local_nr_blocks a /\ lb h b <= l < lb h b + ax_local_tile_size_of h b.
Proof.
  intros r L a M NE l Hl h. pose proof (Mh _ _ _ M NE) as MH.
  destruct (lb_find _ _ _ MH l Hl) as (b & Hb & Hlb). cbv zeta.
  change (0 <= b < ax_local_nr_blocks a) in Hb.
  destruct (loc _ _ _ M l Hl) as (A1 & A2 & A3). set (i := ax_local_tile_from_local_element a l) in *.
  assert (E : blk a i = b).
  { apply (blk_spec _ _ _ M NE); [assumption|].
    pose proof (btile_range _ _ _ M NE b ltac:(lia)). pose proof (btile_range _ _ _ M NE (b + 1) ltac:(lia)).
    pose proof (lb_step _ _ _ M i A1).
    rewrite <- !(btile_lb _ _ _ M NE) in Hlb by lia.
    split.
    - pose proof (lb_inv _ _ _ M (btile a b) (i + 1)). lia.
    - pose proof (lb_inv _ _ _ M i (btile a (b + 1))). lia. }
  rewrite E. split; [exact Hb|]. fold h in Hlb, MH. pose proof (lb_step _ _ _ MH b Hb). lia.
Qed.

Section addr.
Context (rank : pair_Z) (Ls : coord -> layout) (d : distribution).
Hypothesis B : built rank Ls d.
Hypothesis NER : 0 < ax_local_size (d_row d).
Hypothesis NEC : 0 < ax_local_size (d_col d).
Context (D : device) (sz : Z) (Hsz : 0 < sz) (ld : ld_spec).
Let ar := d_row d.
Let ac := d_col d.
Let MR : models (fst rank) (Ls Row) ar := built_models _ _ _ B Row.
Let MC : models (snd rank) (Ls Col) ac := built_models _ _ _ B Col.
Let nr := ax_local_nr_tiles ar.
Let nc := ax_local_nr_tiles ac.
Let hr := ax_single_tile_per_block ar.
Let hc := ax_single_tile_per_block ac.
Let nbr := ax_local_nr_blocks ar.
Let nbc := ax_local_nr_blocks ac.

Lemma addr_grid : forall h T lay li lj, 0 <= li < ax_local_size ar -> 0 <= lj < ax_local_size ac ->
  local_element_address h (Matrix d (grid_list T nr nc) lay) (li, lj) =
  tile_ptr h (T (ax_local_tile_from_local_element ar li) (ax_local_tile_from_local_element ac lj))
             (ax_tile_element_from_local_element ar li, ax_tile_element_from_local_element ac lj).
Proof.
  intros h T lay li lj Hi Hj. unfold local_element_address, mx_tile, tile_linear_index. cbn [mx_dist mx_tiles fst snd].
  fold ar ac nr. destruct (loc _ _ _ MR li Hi) as (A & _). destruct (loc _ _ _ MC lj Hj) as (A' & _).
  rewrite grid_nth by assumption. reflexivity.
Qed.

(** ** column-major *)
Lemma addr_col : forall h c k l lay li lj,
  nth_error h c = Some k -> ck_size k = ax_local_size ar + l * (ax_local_size ac - 1) -> ax_local_size ar <= l ->
  0 <= li < ax_local_size ar -> 0 <= lj < ax_local_size ac ->
  local_element_address h (Matrix d (grid_list (T_col d c l) nr nc) lay) (li, lj) = Ok (c, li + l * lj).
Proof.
  intros h c k l lay li lj Hc Hk Hl Hi Hj. rewrite addr_grid by assumption.
  destruct (loc _ _ _ MR li Hi) as (A1 & A2 & A3). destruct (loc _ _ _ MC lj Hj) as (C1 & C2 & C3).
  unfold tile_ptr, T_col, linearIndex. cbn [td_view td_ld fst snd]. fold ar ac.
  match goal with |- mview_at _ (MView _ ?o _) ?p = _ => replace (li + l * lj) with (o + p) by nia end.
  apply (mview_at_ok _ _ k); [assumption|]. rewrite Hk. nia.
Qed.

(** ** tiles *)
Definition tile_addr (base : nat) (li lj : Z) : nat * Z :=
  let i := ax_local_tile_from_local_element ar li in let j := ax_local_tile_from_local_element ac lj in
  ((base + Z.to_nat (i + nr * j))%nat,
   ax_tile_element_from_local_element ar li
   + ldv D sz (ax_local_tile_size_of ar i) ld * ax_tile_element_from_local_element ac lj).
Lemma addr_tile : forall h lay li lj,
  (forall i, 0 <= i < nr -> ld_fits (ax_local_tile_size_of ar i) ld) ->
  0 <= li < ax_local_size ar -> 0 <= lj < ax_local_size ac ->
  local_element_address (h ++ grid_list (C_tile d D sz ld) nr nc)
     (Matrix d (grid_list (T_tile d D sz ld (length h)) nr nc) lay) (li, lj) = Ok (tile_addr (length h) li lj) /\
  nth_error (h ++ grid_list (C_tile d D sz ld) nr nc) (fst (tile_addr (length h) li lj)) =
    Some (C_tile d D sz ld (ax_local_tile_from_local_element ar li) (ax_local_tile_from_local_element ac lj)).
Proof.
  intros h lay li lj Hf Hi Hj. rewrite addr_grid by assumption.
  destruct (loc _ _ _ MR li Hi) as (A1 & A2 & A3). destruct (loc _ _ _ MC lj Hj) as (C1 & C2 & C3).
  set (i := ax_local_tile_from_local_element ar li) in *. set (j := ax_local_tile_from_local_element ac lj) in *.
  assert (N : nth_error (h ++ grid_list (C_tile d D sz ld) nr nc) (length h + Z.to_nat (i + nr * j)) = Some (C_tile d D sz ld i j)).
  { apply nth_grid_app; assumption. }
  destruct (compute_ld_ok D sz _ ld Hsz (Hf i A1)) as [_ Hl].
  unfold tile_ptr, T_tile, linearIndex, tile_addr. cbn [td_view td_ld fst snd]. fold ar ac nr i j. split; [|exact N].
  rewrite (mview_at_ok _ _ _ _ _ _ N); [reflexivity|]. unfold C_tile. cbn [ck_size]. fold ar ac. nia.
Qed.
Lemma tile_addr_inj : forall base li lj li' lj',
  (forall i, 0 <= i < nr -> ld_fits (ax_local_tile_size_of ar i) ld) ->
  0 <= li < ax_local_size ar -> 0 <= lj < ax_local_size ac ->
  0 <= li' < ax_local_size ar -> 0 <= lj' < ax_local_size ac ->
  tile_addr base li lj = tile_addr base li' lj' -> li = li' /\ lj = lj'.
Proof.
  intros base li lj li' lj' Hf Hi Hj Hi' Hj' E. unfold tile_addr in E. injection E as E1 E2.
  destruct (loc _ _ _ MR li Hi) as (A1 & A2 & A3). destruct (loc _ _ _ MC lj Hj) as (C1 & C2 & C3).
  destruct (loc _ _ _ MR li' Hi') as (A1' & A2' & A3'). destruct (loc _ _ _ MC lj' Hj') as (C1' & C2' & C3').
  destruct (grid_index_inj nr (ax_local_tile_from_local_element ar li) (ax_local_tile_from_local_element ac lj)
     (ax_local_tile_from_local_element ar li') (ax_local_tile_from_local_element ac lj')) as [Ei Ej]; try (assumption || lia).
  rewrite <- Ei, <- Ej in *.
  destruct (compute_ld_ok D sz _ ld Hsz (Hf _ A1)) as [_ Hl].
  apply col_inj in E2; lia.
Qed.

(** ** blocks *)
Definition block_addr (base : nat) (li lj : Z) : nat * Z :=
  let bi := blk ar (ax_local_tile_from_local_element ar li) in
  let bj := blk ac (ax_local_tile_from_local_element ac lj) in
  ((base + Z.to_nat (bi + nbr * bj))%nat, (li - lb hr bi) + bld d D sz ld bi * (lj - lb hc bj)).

Hypothesis Hf : forall b, 0 <= b < nbr -> ld_fits (ax_local_tile_size_of hr b) ld.

Lemma addr_block : forall h lay li lj,
  0 <= li < ax_local_size ar -> 0 <= lj < ax_local_size ac ->
  local_element_address (h ++ grid_list (C_block d D sz ld) nbr nbc)
     (Matrix d (grid_list (T_block d D sz ld (length h)) nr nc) lay) (li, lj) = Ok (block_addr (length h) li lj) /\
  nth_error (h ++ grid_list (C_block d D sz ld) nbr nbc) (fst (block_addr (length h) li lj)) =
    Some (C_block d D sz ld (blk ar (ax_local_tile_from_local_element ar li)) (blk ac (ax_local_tile_from_local_element ac lj))).
Proof.
  intros h lay li lj Hi Hj. rewrite addr_grid by assumption.
  destruct (loc _ _ _ MR li Hi) as (A1 & A2 & A3). destruct (loc _ _ _ MC lj Hj) as (C1 & C2 & C3).
  destruct (block_of _ _ _ MR NER li Hi) as (P1 & P2). destruct (block_of _ _ _ MC NEC lj Hj) as (Q1 & Q2).
  set (i := ax_local_tile_from_local_element ar li) in *. set (j := ax_local_tile_from_local_element ac lj) in *.
  set (bi := blk ar i) in *. set (bj := blk ac j) in *. fold hr in P2. fold hc in Q2. fold nbr in P1. fold nbc in Q1.
  assert (N : nth_error (h ++ grid_list (C_block d D sz ld) nbr nbc) (length h + Z.to_nat (bi + nbr * bj)) = Some (C_block d D sz ld bi bj)).
  { apply nth_grid_app; assumption. }
  destruct (compute_ld_ok D sz _ ld Hsz (Hf bi P1)) as [_ Hl].
  unfold tile_ptr, T_block, linearIndex, block_addr. cbn [td_view td_ld fst snd]. fold ar ac nr i j. fold bi bj. fold nbr hr hc. split; [|exact N].
  change (ldv D sz (ax_local_tile_size_of hr bi) ld) with (bld d D sz ld bi) in Hl.
  rewrite (mview_at_ok _ _ _ _ _ _ N).
  - do 2 f_equal. nia.
  - unfold C_block. cbn [ck_size]. fold ac hc. nia.
Qed.
Lemma block_addr_inj : forall base li lj li' lj',
  0 <= li < ax_local_size ar -> 0 <= lj < ax_local_size ac ->
  0 <= li' < ax_local_size ar -> 0 <= lj' < ax_local_size ac ->
  block_addr base li lj = block_addr base li' lj' -> li = li' /\ lj = lj'.
Proof.
  intros base li lj li' lj' Hi Hj Hi' Hj' E. unfold block_addr in E. injection E as E1 E2.
  destruct (block_of _ _ _ MR NER li Hi) as (P1 & P2). destruct (block_of _ _ _ MC NEC lj Hj) as (Q1 & Q2).
  destruct (block_of _ _ _ MR NER li' Hi') as (P1' & P2'). destruct (block_of _ _ _ MC NEC lj' Hj') as (Q1' & Q2').
  fold hr in P2, P2'. fold hc in Q2, Q2'. 
  set (bi := blk ar (ax_local_tile_from_local_element ar li)) in *.
  set (bj := blk ac (ax_local_tile_from_local_element ac lj)) in *.
  set (bi' := blk ar (ax_local_tile_from_local_element ar li')) in *.
  set (bj' := blk ac (ax_local_tile_from_local_element ac lj')) in *.
  destruct (grid_index_inj nbr bi bj bi' bj') as [Ei Ej]; try (assumption || lia).
  rewrite <- Ei, <- Ej in *.
  destruct (compute_ld_ok D sz _ ld Hsz (Hf _ P1)) as [_ Hl].
  change (ldv D sz (ax_local_tile_size_of hr bi) ld) with (bld d D sz ld bi) in Hl.
  apply col_inj in E2; lia.
Qed.
End addr.
