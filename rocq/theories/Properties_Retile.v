(** * Property C22: retiled matrices; more of C23 (local indices). *)
From Coq Require Import ZArith Lia Bool List Znumtheory.
From Verif Require Import CInt Loop DistModel DistSpec DivLemmas DistProofs DistProofs2 DistBuilt DistThms DistCtor
  DistSub IndexModel MemModel MemAxis MemProofs MemThms Properties_Dist Properties_Index Properties_Mem ViewModel Properties_View.
Import ListNotations.
Open Scope Z_scope.

(** ** One axis: blocks of k tiles against blocks as tiles *)
Section axis_retile.
Context (r : Z) (L : layout) (a : axis) (k : Z) (src : Z) (a' : axis).
Let t' := l_block L / k.
Let L' := Layout (l_size L) (l_block L) t' (l_grid L) src 0.
Hypothesis M : models r L a.
Hypothesis M' : models r L' a'.
Hypothesis ST : l_tile L = l_block L.
Hypothesis NO : l_off L mod l_block L = 0.
Hypothesis SRC : src = ax_src a.
Hypothesis Hk : 0 < k.
Hypothesis Hd : (k | l_block L).

Lemma rt_block : l_block L = k * t' /\ 0 < t'.
Proof.
  pose proof (m_ok _ _ _ M) as []. destruct Hd as [q Q]. unfold t'. rewrite Q, Z.div_mul by lia. nia.
Qed.

Lemma rt_owner : forall e, owner L' e = owner L e.
Proof.
  intros e. destruct (T_reported _ _ _ M) as (_ & _ & _ & G & _ & _ & _ & S & _).
  unfold owner, L'. cbn [l_src l_off l_block l_grid]. rewrite SRC, S. unfold owner.
  pose proof (m_ok _ _ _ M) as []. destruct (div_mod_dec (l_off L) (l_block L) lo_block) as [E _]. rewrite NO in E.
  rewrite Zplus_mod_idemp_l. f_equal. rewrite Z.add_0_r, Z.add_0_l, <- Z.add_assoc. f_equal.
  rewrite E at 2. replace (l_off L / l_block L * l_block L + 0 + e) with (e + (l_off L / l_block L) * l_block L) by lia.
  rewrite Z.div_add by lia. lia.
Qed.

Lemma rt_aligned : l_off L mod l_tile L = 0 /\ l_off L' mod l_tile L' = 0.
Proof. rewrite ST. split; [exact NO|]. reflexivity. Qed.

(** local index of an owned element, from its tile *)
Lemma rt_local : forall (L : layout) (a : axis), models r L a -> l_off L mod l_tile L = 0 ->
  l_off L mod l_block L = 0 ->
  forall e, 0 <= e < l_size L -> owner L e = r ->
  ax_local_tile_from_global_tile a (ax_global_tile_from_global_element a e) * l_tile L + e mod l_tile L
  = count (owned L r) e.
Proof.
  clear. intros L a M A1 A2 e He Ho.
  pose proof (T_local_element _ _ _ M e ltac:(lia)) as X. rewrite Ho, Z.eqb_refl in X. rewrite <- X. clear X.
  destruct (axis_tile_here _ _ _ M e He Ho) as (B1 & B2 & B3 & B4). cbv zeta in *.
  unfold ax_local_element_from_global_element, ax_local_tile_from_global_element.
  rewrite (proj2 (Z.ltb_ge _ _)) by lia.
  unfold ax_local_element_from_local_tile_and_tile_element, element_from_tile_and_tile_element.
  destruct (aligned_elem _ _ _ M A1 e He) as [_ ->].
  destruct (T_reported _ _ _ M) as (_ & _ & T & _ & _ & O & _).
  assert (Z0 : local_tile_element_offset a = 0).
  { unfold local_tile_element_offset, global_tile_element_offset. rewrite O, A2, T.
    pose proof (m_ok _ _ _ M) as []. rewrite Z.rem_0_l by lia. destruct (is_source_rank a); reflexivity. }
  rewrite Z0, T. destruct (_ >? 0); lia.
Qed.

Lemma rt_mod : forall e, 0 <= e -> e mod l_block L = (e mod l_block L) / t' * t' + e mod t' /\
  0 <= (e mod l_block L) / t' < k /\ 0 <= e mod t' < t'.
Proof.
  intros e He. destruct rt_block as [B P]. pose proof (Z.mod_pos_bound e (l_block L) ltac:(nia)).
  destruct (div_mod_dec (e mod l_block L) t' P) as [E R].
  assert (X : (e mod l_block L) mod t' = e mod t').
  { rewrite B. rewrite (Z.mul_comm k t'), Z.rem_mul_r by lia.
    rewrite (Z.mul_comm t'), Z.mod_add by lia. apply Z.mod_mod. lia. }
  rewrite X in *. split; [exact E|]. split; [|exact R].
  split; [apply Z.div_pos; lia|]. apply Z.div_lt_upper_bound; nia.
Qed.

(** the tile of an element in the two tilings *)
Lemma rt_tile : forall e, 0 <= e < l_size L -> owner L e = r ->
  ax_local_tile_from_global_tile a' (ax_global_tile_from_global_element a' e) =
  ax_local_tile_from_global_tile a (ax_global_tile_from_global_element a e) * k + (e mod l_block L) / t'.
Proof.
  intros e He Ho. destruct rt_aligned as [A A']. destruct rt_block as [B P].
  pose proof (rt_local _ _ M A NO e He Ho) as X.
  pose proof (rt_local _ _ M' A' eq_refl e He ltac:(rewrite rt_owner; exact Ho)) as X'.
  rewrite ST in X. cbn [L' l_tile] in X'.
  assert (CE : count (owned L' r) e = count (owned L r) e).
  { apply count_ext. intros q _. unfold owned. rewrite rt_owner. reflexivity. }
  fold L' in X'. rewrite CE in X'. destruct (rt_mod e ltac:(lia)) as (D & _ & _).
  set (x := ax_local_tile_from_global_tile a _) in *. set (y := ax_local_tile_from_global_tile a' _) in *.
  assert (y * t' = (x * k + e mod l_block L / t') * t'); [|nia]. lia.
Qed.

(** first element of a local tile *)
Lemma first_elem_here : forall (L : layout) (a : axis), models r L a -> forall lt te, 0 <= lt < ax_local_nr_tiles a ->
  0 <= te < ax_local_tile_size_of a lt ->
  let e := ax_global_element_from_global_tile_and_tile_element a (ax_global_tile_from_local_tile a lt) te in
  0 <= e < l_size L /\ owner L e = r /\ ax_global_tile_from_global_element a e = ax_global_tile_from_local_tile a lt /\
  ax_local_tile_from_global_tile a (ax_global_tile_from_global_element a e) = lt /\
  ax_tile_element_from_global_element a e = te.
Proof.
  clear. intros L a M lt te Hlt Hte e.
  destruct (T_global_tile _ _ _ M lt Hlt) as (G1 & G2 & G3). cbv zeta in *.
  rewrite (T_local_tile_size _ _ _ M lt Hlt) in Hte.
  destruct (T_tile_to_elem _ _ _ M _ _ G1 Hte) as (E1 & E2 & E3). cbv zeta in *. fold e in E1, E2, E3.
  split; [exact E1|]. split; [|split; [exact E2|split; [|exact E3]]].
  - rewrite (T_tile_owner_elems _ _ _ M). destruct (T_elem_to_tile _ _ _ M e E1) as (X & _). cbv zeta in X.
    rewrite <- X, E2. exact G2.
  - rewrite E2, (T_local_tile _ _ _ M), G2, Z.eqb_refl by lia. exact G3.
Qed.

(** a step of the loop over one original tile gives a tile of the new matrix, inside it *)
Lemma rt_forward : forall lt q, 0 <= lt < ax_local_nr_tiles a -> 0 <= q -> q * t' < ax_local_tile_size_of a lt ->
  let x := lt * k + q in
  0 <= x < ax_local_nr_tiles a' /\ q < k /\
  q * t' + ax_local_tile_size_of a' x <= ax_local_tile_size_of a lt.
Proof.
  intros lt q Hlt Hq Hsz x. destruct rt_aligned as [A A']. destruct rt_block as [B P].
  destruct (first_elem_here L a M lt (q * t') Hlt ltac:(nia)) as (E1 & E2 & E3 & E4 & E5). cbv zeta in *.
  set (e := ax_global_element_from_global_tile_and_tile_element a (ax_global_tile_from_local_tile a lt) (q * t')) in *.
  destruct (aligned_elem _ _ _ M A e E1) as [AE1 AE2]. rewrite ST in AE1, AE2. rewrite E5 in AE2.
  pose proof (rt_tile e E1 E2) as RT. rewrite E4, <- AE2, Z.div_mul in RT by lia. fold x in RT.
  destruct (axis_tile_here _ _ _ M' e E1 ltac:(fold L'; rewrite rt_owner; exact E2)) as (B1 & B2 & B3 & B4). cbv zeta in *.
  rewrite RT in *. split; [exact B2|]. 
  destruct (rt_mod e ltac:(lia)) as (D1 & D2 & D3). rewrite <- AE2, Z.div_mul in D2 by lia. split; [lia|].
  rewrite (T_local_tile_size _ _ _ M' x B2), B3.
  set (g' := ax_global_tile_from_global_element a' e) in *. set (s' := ax_global_tile_size_of a' g') in *.
  (* the last element of the new tile *)
  destruct (T_tile_sizes _ _ _ M' g' B1) as [[S1 S2] _]. fold s' in S1, S2. change (l_tile L') with t' in S2.
  destruct (T_tile_to_elem _ _ _ M' g' (s' - 1) B1 ltac:(lia)) as (F1 & F2 & F3). cbv zeta in *.
  set (e2 := ax_global_element_from_global_tile_and_tile_element a' g' (s' - 1)) in *. change (l_size L') with (l_size L) in F1.
  destruct (aligned_elem _ _ _ M' A' e E1) as [AF1 _]. destruct (aligned_elem _ _ _ M' A' e2 F1) as [AF2 AF3].
  change (l_tile L') with t' in AF1, AF2, AF3. fold g' in AF1. rewrite F2 in AF2. rewrite F3 in AF3.
  destruct (div_mod_dec e t' P) as [X1 X2]. destruct (div_mod_dec e2 t' P) as [Y1 Y2].
  destruct (div_mod_dec e (l_block L) ltac:(nia)) as [Z1 Z2].
  assert (Me : e mod t' = 0). { rewrite <- AE2 in D1. rewrite Z.div_mul in D1 by lia. lia. }
  rewrite <- AF1 in X1. rewrite <- AF2 in Y1. rewrite <- AF3 in Y1. rewrite Me in X1. rewrite <- AE2 in Z1.
  assert (E2e : e2 = e + (s' - 1)) by lia.
  assert (W : q * t' + (s' - 1) < l_block L) by nia.
  assert (Q2 : e2 / l_block L = e / l_block L /\ e2 mod l_block L = q * t' + (s' - 1)).
  { split; [symmetry; apply (Z.div_unique_pos e2 (l_block L) (e / l_block L) (q * t' + (s' - 1))); nia|].
    symmetry. apply (Z.mod_unique_pos e2 (l_block L) (e / l_block L)); nia. }
  destruct (T_elem_to_tile _ _ _ M e2 F1) as (_ & _ & C3 & _). cbv zeta in C3.
  destruct (aligned_elem _ _ _ M A e2 F1) as [AG1 AG2]. rewrite ST in AG1, AG2. rewrite AG2 in C3.
  rewrite AG1 in C3. rewrite (proj1 Q2), (proj2 Q2), <- AE1, E3 in C3.
  rewrite (T_local_tile_size _ _ _ M lt Hlt). lia.
Qed.

(** ... and every tile of the new matrix is reached *)
Lemma rt_backward : forall x, 0 <= x < ax_local_nr_tiles a' ->
  exists lt q, x = lt * k + q /\ 0 <= lt < ax_local_nr_tiles a /\ 0 <= q < k /\ q * t' < ax_local_tile_size_of a lt.
Proof.
  intros x Hx. destruct rt_aligned as [A A']. destruct rt_block as [B P].
  destruct (T_global_tile _ _ _ M' x Hx) as (G1 & _). cbv zeta in G1.
  destruct (T_tile_sizes _ _ _ M' _ G1) as [[S1 _] _]. rewrite <- (T_local_tile_size _ _ _ M' x Hx) in S1.
  destruct (first_elem_here L' a' M' x 0 Hx ltac:(lia)) as (E1 & E2 & E3 & E4 & E5). cbv zeta in *.
  set (e := ax_global_element_from_global_tile_and_tile_element a' _ 0) in *. change (l_size L') with (l_size L) in E1. rewrite rt_owner in E2.
  pose proof (rt_tile e E1 E2) as RT. rewrite E4 in RT.
  destruct (axis_tile_here _ _ _ M e E1 E2) as (B1 & B2 & B3 & B4). cbv zeta in *.
  destruct (aligned_elem _ _ _ M A e E1) as [AE1 AE2]. rewrite ST in AE1, AE2.
  destruct (rt_mod e ltac:(lia)) as (D1 & D2 & D3).
  eexists _, _. split; [exact RT|]. split; [exact B2|]. split; [exact D2|].
  rewrite (T_local_tile_size _ _ _ M _ B2), B3. rewrite AE2 in B4. lia.
Qed.
End axis_retile.

(** ** The loops *)
Lemma nth_error_firstn_lt : forall A n (l : list A) i, (i < n)%nat -> nth_error (firstn n l) i = nth_error l i.
Proof. induction n; intros [|x l] [|i] H; cbn; try reflexivity; try lia. apply IHn. lia. Qed.
Lemma nth_error_skipn_plus : forall A n (l : list A) i, nth_error (skipn n l) i = nth_error l (n + i).
Proof. induction n; intros [|x l] i; cbn; try reflexivity; [destruct i; reflexivity|apply IHn]. Qed.
Lemma while_steps : forall A (n t : Z) (Q : Z -> A -> Prop) body,
  0 < t ->
  (forall x l, 0 <= x < n -> exists L, body (x, l) = Ok (x + t, l ++ L) /\ forall p, In p L <-> Q x p) ->
  forall fuel k l, 0 <= k -> (Z.to_nat (n - k * t) <= fuel)%nat ->
  exists x' L, while_ fuel (fun s => fst s <? n) body (k * t, l) = Ok (x', l ++ L) /\
    forall p, In p L <-> exists q, k <= q /\ q * t < n /\ Q (q * t) p.
Proof.
  intros A n t Q body Ht HB. induction fuel as [|fuel IH]; intros k l Hk Hf.
  - cbn [while_ fst]. rewrite (proj2 (Z.ltb_ge _ _)) by nia. exists (k * t), []. rewrite app_nil_r. split; [reflexivity|].
    intros p. split; [contradiction|]. intros (q & Hq & Hlt & _). nia.
  - cbn [while_ fst]. destruct (Z.ltb_spec (k * t) n) as [Hlt|Hge].
    + destruct (HB (k * t) l ltac:(nia)) as (L & E & HL). rewrite E. cbn [bind].
      destruct (IH (k + 1) (l ++ L) ltac:(lia) ltac:(nia)) as (x' & L' & E' & HL').
      replace (k * t + t) with ((k + 1) * t) by lia. exists x', (L ++ L'). rewrite E', app_assoc. split; [reflexivity|].
      intros p. rewrite in_app_iff, HL, HL'. split.
      * intros [H|(q & H1 & H2 & H3)]; [exists k; auto with zarith|exists q; auto with zarith].
      * intros (q & H1 & H2 & H3). destruct (Z.eq_dec q k) as [->|]; [left; exact H3|right; exists q; repeat split; auto; lia].
    + exists (k * t), []. rewrite app_nil_r. split; [reflexivity|].
      intros p. split; [contradiction|]. intros (q & Hq & Hlt & _). nia.
Qed.

Lemma retile_specs_ok : forall fuel d' tpb orig osz,
  0 < ax_tile (d_row d') -> 0 < ax_tile (d_col d') ->
  (Z.to_nat (fst osz) <= fuel)%nat -> (Z.to_nat (snd osz) <= fuel)%nat ->
  exists specs, retile_specs fuel d' tpb orig osz = Ok specs /\
    forall p, In p specs <-> exists qi qj, 0 <= qi /\ qi * ax_tile (d_row d') < fst osz /\
       0 <= qj /\ qj * ax_tile (d_col d') < snd osz /\
       let index := (fst orig * fst tpb + qi, snd orig * snd tpb + qj) in
       p = (index, SubTileSpec (qi * ax_tile (d_row d'), qj * ax_tile (d_col d'))
                     (tile_size_of_global d' (global_tile_index_of_local d' index))).
Proof.
  intros fuel d' tpb orig [osr osc] Hr Hc Fr Fc. cbn [fst snd] in *. unfold retile_specs. cbn [fst snd].
  set (tr := ax_tile (d_row d')) in *. set (tc := ax_tile (d_col d')) in *.
  set (mk := fun qi qj => let index := (fst orig * fst tpb + qi, snd orig * snd tpb + qj) in
     (index, SubTileSpec (qi * tr, qj * tc) (tile_size_of_global d' (global_tile_index_of_local d' index)))).
  set (Q := fun j (p : pair_Z * sub_tile_spec) =>
       exists i, 0 <= i < osr /\ (exists qi, i = qi * tr) /\
       p = let index := (fst orig * fst tpb + Z.quot i tr, snd orig * snd tpb + Z.quot j tc) in
           (index, SubTileSpec (i, j) (tile_size_of_global d' (global_tile_index_of_local d' index)))).
  match goal with |- exists _, bind (while_ _ _ ?bd _) _ = _ /\ _ => set (body := bd) end.
  destruct (while_steps _ osc tc Q body Hc) with (fuel := fuel) (k := 0) (l := @nil (pair_Z * sub_tile_spec))
    as (x' & L & E & HL); [|lia|lia|].
  - intros j l Hj. unfold body.
    destruct (while_steps _ osr tr (fun i p => p = let index := (fst orig * fst tpb + Z.quot i tr, snd orig * snd tpb + Z.quot j tc) in
           (index, SubTileSpec (i, j) (tile_size_of_global d' (global_tile_index_of_local d' index))))
      (fun s => let i := fst s in
                 let index := (fst orig * fst tpb + Z.quot i tr, snd orig * snd tpb + Z.quot j tc) in
                 let spec := SubTileSpec (i, j) (tile_size_of_global d' (global_tile_index_of_local d' index)) in
                 Ok (i + tr, snd s ++ [(index, spec)])) Hr) with (fuel := fuel) (k := 0) (l := l)
      as (xi & Li & Ei & HLi); [|lia|lia|].
    + intros i li Hi. cbn [fst snd]. eexists. split; [reflexivity|]. intros p. cbn [In]. intuition.
    + change (0 * tr) with 0 in Ei. cbn [fst snd] in Ei |- *. rewrite Ei. cbn [bind snd]. exists Li. split; [reflexivity|].
      intros p. rewrite HLi. unfold Q. split.
      * intros (q & H1 & H2 & H3). exists (q * tr). split; [nia|]. split; [exists q; reflexivity|exact H3].
      * intros (i & H1 & [q ->] & H3). exists q. split; [nia|]. split; [lia|exact H3].
  - change (0 * tc) with 0 in E.
    match goal with |- context [bind ?w _] => assert (E0 : w = Ok (x', L)) by exact E; rewrite E0 end. cbn [bind snd app]. exists L. split; [reflexivity|].
    intros p. rewrite HL. unfold Q. split.
    + intros (qj & J1 & J2 & i & I1 & [qi ->] & I3). exists qi, qj. rewrite !Z.quot_mul in I3 by lia.
      split; [nia|]. split; [lia|]. split; [lia|]. split; [lia|]. exact I3.
    + intros (qi & qj & I1 & I2 & J1 & J2 & E'). exists qj. split; [lia|]. split; [lia|].
      exists (qi * tr). split; [nia|]. split; [exists qi; reflexivity|]. rewrite !Z.quot_mul by lia. exact E'.
Qed.

Section install.
Context (d' : distribution) (F : pair_Z -> res tile_data).
Let nr := ax_local_nr_tiles (d_row d').
Let nc := ax_local_nr_tiles (d_col d').
Definition in_grid (x : pair_Z) : Prop := 0 <= fst x < nr /\ 0 <= snd x < nc.
(** tile x is in place *)
Definition installed (l : list tile_data) (x : pair_Z) : Prop :=
  exists u, F x = Ok u /\ nth_error l (Z.to_nat (tile_linear_index d' x)) = Some u.

Lemma lin_range : forall x, in_grid x -> 0 <= tile_linear_index d' x < nr * nc.
Proof. intros x [H1 H2]. unfold tile_linear_index. fold nr. nia. Qed.
Lemma lin_inj : forall x y, in_grid x -> in_grid y -> tile_linear_index d' x = tile_linear_index d' y -> x = y.
Proof.
  intros [x1 x2] [y1 y2] [H1 H2] [H3 H4] E. unfold tile_linear_index in E. cbn [fst snd] in *. fold nr in E.
  destruct (col_inj nr x1 x2 y1 y2 H1 H3 E). congruence.
Qed.

Lemma set_manager_ok : forall l x u, Z.of_nat (length l) = nr * nc -> in_grid x -> F x = Ok u ->
  exists l', set_manager l (tile_linear_index d' x) u = Ok l' /\ Z.of_nat (length l') = nr * nc /\
    installed l' x /\ (forall y, in_grid y -> installed l y -> installed l' y).
Proof.
  intros l x u Hl Hx Fx. pose proof (lin_range x Hx) as R. unfold set_manager.
  rewrite (proj2 (Z.leb_le _ _)) by lia. rewrite (proj2 (Z.ltb_lt _ _)) by lia. cbn [andb].
  set (p := Z.to_nat (tile_linear_index d' x)) in *.
  assert (Hp : (p < length l)%nat) by lia.
  assert (Lf : length (firstn p l) = p) by (rewrite firstn_length; lia).
  eexists. split; [reflexivity|]. split; [|split].
  - rewrite app_length. cbn [length]. rewrite Lf, skipn_length. lia.
  - exists u. split; [exact Fx|]. fold p. rewrite nth_error_app2 by lia. rewrite Lf, Nat.sub_diag. reflexivity.
  - intros y Hy (v & Fv & Nv). pose proof (lin_range y Hy) as Ry. exists v. split; [exact Fv|].
    set (q := Z.to_nat (tile_linear_index d' y)) in *.
    destruct (Nat.lt_trichotomy q p) as [H|[H|H]].
    + rewrite nth_error_app1 by lia. rewrite nth_error_firstn_lt; [exact Nv|exact H].
    + assert (x = y) as -> by (apply lin_inj; [assumption|assumption|lia]).
      rewrite H, nth_error_app2, Lf, Nat.sub_diag by lia. cbn. congruence.
    + rewrite nth_error_app2, Lf by lia. replace (q - p)%nat with (S (q - S p)) by lia. cbn [nth_error].
      rewrite nth_error_skipn_plus. replace (S p + (q - S p))%nat with q by lia. exact Nv.
Qed.

Lemma install_ok : forall t specs l, Z.of_nat (length l) = nr * nc ->
  (forall x s, In (x, s) specs -> in_grid x /\ sub_tile t s = F x /\ exists u, F x = Ok u) ->
  exists l', install_sub_tiles d' t specs l = Ok l' /\ Z.of_nat (length l') = nr * nc /\
    (forall x s, In (x, s) specs -> installed l' x) /\ (forall y, in_grid y -> installed l y -> installed l' y).
Proof.
  intros t. induction specs as [|[x s] specs IH]; intros l Hl H.
  - exists l. split; [reflexivity|]. split; [exact Hl|]. split; [contradiction|auto].
  - destruct (H x s (or_introl eq_refl)) as (H1 & H2 & u & H3). cbn [install_sub_tiles]. rewrite H2, H3. cbn [bind].
    destruct (set_manager_ok l x u Hl H1 H3) as (l1 & E1 & L1 & I1 & P1). rewrite E1. cbn [bind].
    destruct (IH l1 L1) as (l2 & E2 & L2 & I2 & P2). { intros y sy Hy. apply (H y sy). right. exact Hy. }
    exists l2. split; [exact E2|]. split; [exact L2|]. split; [|intros y Hy Iy; apply P2; auto].
    intros y sy [Hy|Hy]; [injection Hy as <- <-; apply P2; assumption|exact (I2 y sy Hy)].
Qed.
End install.

(** readwrite(LocalTileIndex) of a matrix-like object delivers, for each local tile, a tile of
    the right size inside the heap *)
Definition delivers (h : heap) (d : distribution) (rw : pair_Z -> res tile_data) : Prop :=
  forall i j, 0 <= i < ax_local_nr_tiles (d_row d) -> 0 <= j < ax_local_nr_tiles (d_col d) ->
  exists t, rw (i, j) = Ok t /\ td_size t = tile_size_of_local d (i, j) /\ wf_tile h t.

Definition retiled_layouts (Ls : coord -> layout) (d : distribution) (tpb : pair_Z) (rc : coord) : layout :=
  Layout (l_size (Ls rc)) (l_block (Ls rc)) (l_block (Ls rc) / sel rc tpb) (l_grid (Ls rc)) (ax_src (get rc d)) 0.

Lemma retiled_distribution_ok : forall rank Ls d tpb, built rank Ls d ->
  single_tile_per_block d = true ->
  (forall rc, 0 < sel rc tpb /\ (sel rc tpb | l_block (Ls rc)) /\ l_grid (Ls rc) <= i32_max) ->
  exists d', retiled_distribution d tpb = Ok d' /\
    forall rc, models (sel rc rank) (retiled_layouts Ls d tpb rc) (get rc d').
Proof.
  intros rank Ls d tpb B ST H.
  pose proof (built_models _ _ _ B Row) as MR. pose proof (built_models _ _ _ B Col) as MC. cbn [get sel] in MR, MC.
  destruct (T_reported _ _ _ MR) as (R1 & R2 & R3 & R4 & R5 & _ & _ & R6 & R7).
  destruct (T_reported _ _ _ MC) as (C1 & C2 & C3 & C4 & C5 & _ & _ & C6 & C7).
  destruct (H Row) as (HR1 & [qr HR2] & HR3). destruct (H Col) as (HC1 & [qc HC2] & HC3). cbn [sel] in *.
  unfold retiled_distribution. rewrite (proj2 (Z.eqb_neq _ _)) by lia. rewrite (proj2 (Z.eqb_neq _ _)) by lia. cbn [orb].
  pose proof (m_ok _ _ _ MR) as OR. pose proof (m_ok _ _ _ MC) as OC.
  pose proof (m_rrange _ _ _ MR) as RR. pose proof (m_rrange _ _ _ MC) as RC.
  assert (Qr : Z.quot (l_block (Ls Row)) (fst tpb) = l_block (Ls Row) / fst tpb)
    by (apply Z.quot_div_nonneg; [apply Z.lt_le_incl, OR|lia]).
  assert (Qc : Z.quot (l_block (Ls Col)) (snd tpb) = l_block (Ls Col) / snd tpb)
    by (apply Z.quot_div_nonneg; [apply Z.lt_le_incl, OC|lia]).
  unfold size2. rewrite R1, R2, R4, R5, C1, C2, C4, C5, Qr, Qc. clear Qr Qc.
  destruct OR, OC.
  assert (PR : 0 < l_block (Ls Row) / fst tpb /\ l_block (Ls Row) = fst tpb * (l_block (Ls Row) / fst tpb)).
  { rewrite HR2, Z.div_mul by lia. nia. }
  assert (PC : 0 < l_block (Ls Col) / snd tpb /\ l_block (Ls Col) = snd tpb * (l_block (Ls Col) / snd tpb)).
  { rewrite HC2, Z.div_mul by lia. nia. }
  destruct (ctor_accepts (l_size (Ls Row), l_size (Ls Col)) (l_block (Ls Row), l_block (Ls Col))
     (l_block (Ls Row) / fst tpb, l_block (Ls Col) / snd tpb) (l_grid (Ls Row), l_grid (Ls Col)) (fst rank, snd rank)
     (ax_src (d_row d), ax_src (d_col d)) (0, 0)) as (d' & E & B').
  - intros []; cbn [sel fst snd]; unfold documented_pre; repeat apply conj; try lia; [exists (fst tpb)|exists (snd tpb)]; lia.
  - intros []; cbn [sel fst snd]; unfold i64_max; lia.
  - intros []; cbn [sel fst snd]; rewrite Z.div_0_l by lia; lia.
  - change (sel Row rank) with (fst rank). change (sel Col rank) with (snd rank). rewrite E. cbn [bind]. rewrite ST. cbn [dlaf_assert bind].
    pose proof (built_models _ _ _ B' Row) as MR'. pose proof (built_models _ _ _ B' Col) as MC'. cbn [get sel fst snd] in MR', MC'.
    destruct (T_reported _ _ _ MR') as (_ & R2' & _). destruct (T_reported _ _ _ MC') as (_ & C2' & _).
    cbn [arg_layout l_block sel fst snd] in R2', C2'. unfold eqb2. cbn [fst snd]. rewrite R2', C2', !Z.eqb_refl. cbn [andb dlaf_assert bind].
    exists d'. split; [reflexivity|]. intros []; cbn [sel get]; assumption.
Qed.

Section retile.
Context (rank : pair_Z) (Ls : coord -> layout) (h : heap) (d : distribution) (rw : pair_Z -> res tile_data)
        (tpb : pair_Z) (d' : distribution) (fuel : nat).
Hypothesis B : built rank Ls d.
Hypothesis DL : delivers h d rw.
Hypothesis ST : forall rc, l_tile (Ls rc) = l_block (Ls rc).
Hypothesis NO : forall rc, l_off (Ls rc) mod l_block (Ls rc) = 0.
Hypothesis TP : forall rc, 0 < sel rc tpb /\ (sel rc tpb | l_block (Ls rc)).
Hypothesis FU : forall rc, (Z.to_nat (l_block (Ls rc)) <= fuel)%nat.
Hypothesis M' : forall rc, models (sel rc rank) (retiled_layouts Ls d tpb rc) (get rc d').
Let kr := fst tpb.
Let kc := snd tpb.
Let tr := l_block (Ls Row) / kr.
Let tc := l_block (Ls Col) / kc.
Let MR : models (fst rank) (Ls Row) (d_row d) := built_models _ _ _ B Row.
Let MC : models (snd rank) (Ls Col) (d_col d) := built_models _ _ _ B Col.

(** the tile that belongs at local index x of the new matrix *)
Definition F (x : pair_Z) : res tile_data :=
  t <- rw (fst x / kr, snd x / kc) ;;
  sub_tile t (SubTileSpec (fst x mod kr * tr, snd x mod kc * tc)
                (tile_size_of_global d' (global_tile_index_of_local d' x))).

Lemma new_size : forall x, in_grid d' x ->
  tile_size_of_global d' (global_tile_index_of_local d' x) = tile_size_of_local d' x.
Proof.
  intros x [H1 H2]. pose proof (M' Row) as A. pose proof (M' Col) as C. cbn [get sel] in A, C.
  unfold tile_size_of_global, global_tile_index_of_local, tile_size_of_local, both. cbn [fst snd].
  rewrite (T_local_tile_size _ _ _ A), (T_local_tile_size _ _ _ C) by assumption. reflexivity.
Qed.

Lemma step_row : forall lt q, 0 <= lt < ax_local_nr_tiles (d_row d) -> 0 <= q -> q * tr < ax_local_tile_size_of (d_row d) lt ->
  0 <= lt * kr + q < ax_local_nr_tiles (d_row d') /\ (lt * kr + q) / kr = lt /\ (lt * kr + q) mod kr = q /\
  q * tr + ax_local_tile_size_of (d_row d') (lt * kr + q) <= ax_local_tile_size_of (d_row d) lt.
Proof.
  intros lt q H1 H2 H3. destruct (TP Row) as [P1 P2].
  destruct (rt_forward _ _ _ kr (ax_src (d_row d)) (d_row d') MR (M' Row) (ST Row) (NO Row) eq_refl P1 P2 lt q H1 H2 H3) as (A1 & A2 & A3).
  split; [exact A1|]. split; [symmetry; apply (Z.div_unique_pos _ kr lt q); lia|].
  split; [symmetry; apply (Z.mod_unique_pos _ kr lt q); lia|]. exact A3.
Qed.
Lemma step_col : forall lt q, 0 <= lt < ax_local_nr_tiles (d_col d) -> 0 <= q -> q * tc < ax_local_tile_size_of (d_col d) lt ->
  0 <= lt * kc + q < ax_local_nr_tiles (d_col d') /\ (lt * kc + q) / kc = lt /\ (lt * kc + q) mod kc = q /\
  q * tc + ax_local_tile_size_of (d_col d') (lt * kc + q) <= ax_local_tile_size_of (d_col d) lt.
Proof.
  intros lt q H1 H2 H3. destruct (TP Col) as [P1 P2].
  destruct (rt_forward _ _ _ kc (ax_src (d_col d)) (d_col d') MC (M' Col) (ST Col) (NO Col) eq_refl P1 P2 lt q H1 H2 H3) as (A1 & A2 & A3).
  split; [exact A1|]. split; [symmetry; apply (Z.div_unique_pos _ kc lt q); lia|].
  split; [symmetry; apply (Z.mod_unique_pos _ kc lt q); lia|]. exact A3.
Qed.
Lemma back_row : forall x, 0 <= x < ax_local_nr_tiles (d_row d') ->
  0 <= x / kr < ax_local_nr_tiles (d_row d) /\ 0 <= x mod kr /\ (x mod kr) * tr < ax_local_tile_size_of (d_row d) (x / kr) /\
  x = x / kr * kr + x mod kr.
Proof.
  intros x Hx. destruct (TP Row) as [P1 P2].
  destruct (rt_backward _ _ _ kr (ax_src (d_row d)) (d_row d') MR (M' Row) (ST Row) (NO Row) eq_refl P1 P2 x Hx) as (lt & q & E & A1 & A2 & A3).
  assert (E1 : x / kr = lt) by (symmetry; apply (Z.div_unique_pos _ kr lt q); lia).
  assert (E2 : x mod kr = q) by (symmetry; apply (Z.mod_unique_pos _ kr lt q); lia).
  rewrite E1, E2. fold tr in A3. repeat apply conj; lia.
Qed.
Lemma back_col : forall x, 0 <= x < ax_local_nr_tiles (d_col d') ->
  0 <= x / kc < ax_local_nr_tiles (d_col d) /\ 0 <= x mod kc /\ (x mod kc) * tc < ax_local_tile_size_of (d_col d) (x / kc) /\
  x = x / kc * kc + x mod kc.
Proof.
  intros x Hx. destruct (TP Col) as [P1 P2].
  destruct (rt_backward _ _ _ kc (ax_src (d_col d)) (d_col d') MC (M' Col) (ST Col) (NO Col) eq_refl P1 P2 x Hx) as (lt & q & E & A1 & A2 & A3).
  assert (E1 : x / kc = lt) by (symmetry; apply (Z.div_unique_pos _ kc lt q); lia).
  assert (E2 : x mod kc = q) by (symmetry; apply (Z.mod_unique_pos _ kc lt q); lia).
  rewrite E1, E2. fold tc in A3. repeat apply conj; lia.
Qed.

Lemma F_ok : forall x, in_grid d' x ->
  exists t u, rw (fst x / kr, snd x / kc) = Ok t /\ F x = Ok u /\ wf_tile h t /\ wf_tile h u /\
    td_size t = tile_size_of_local d (fst x / kr, snd x / kc) /\ td_size u = tile_size_of_local d' x /\
    forall p q, 0 <= p < fst (td_size u) -> 0 <= q < snd (td_size u) ->
      tile_ptr h u (p, q) = tile_ptr h t (fst x mod kr * tr + p, snd x mod kc * tc + q).
Proof.
  intros x [H1 H2].
  destruct (back_row _ H1) as (A1 & A2 & A3 & A4). destruct (back_col _ H2) as (C1 & C2 & C3 & C4).
  destruct (step_row _ _ A1 A2 A3) as (_ & _ & _ & A5). destruct (step_col _ _ C1 C2 C3) as (_ & _ & _ & C5).
  rewrite <- A4 in A5. rewrite <- C4 in C5.
  destruct (DL _ _ A1 C1) as (t & E1 & E2 & E3).
  assert (IN : inside t (SubTileSpec (fst x mod kr * tr, snd x mod kc * tc) (tile_size_of_local d' x))).
  { unfold inside. rewrite E2. unfold tile_size_of_local, both. cbn [st_origin st_size fst snd].
    pose proof (M' Row) as B1. pose proof (M' Col) as B2. cbn [get sel] in B1, B2.
    destruct (T_global_tile _ _ _ B1 _ H1) as (G1 & _). destruct (T_global_tile _ _ _ B2 _ H2) as (G2 & _). cbv zeta in *.
    destruct (T_tile_sizes _ _ _ B1 _ G1) as [[S1 _] _]. destruct (T_tile_sizes _ _ _ B2 _ G2) as [[S2 _] _].
    rewrite <- (T_local_tile_size _ _ _ B1 _ H1) in S1. rewrite <- (T_local_tile_size _ _ _ B2 _ H2) in S2.
    assert (0 <= tr) by (apply Z.div_pos; [pose proof (m_ok _ _ _ MR) as []; lia|apply (TP Row)]).
    assert (0 <= tc) by (apply Z.div_pos; [pose proof (m_ok _ _ _ MC) as []; lia|apply (TP Col)]).
    repeat apply conj; try lia; apply Z.mul_nonneg_nonneg; lia. }
  destruct (proj1 (C17_sub_tile h t _ E3) IN) as (u & Eu & Wu & Su & _ & Au). cbn [st_origin st_size] in *.
  exists t, u. unfold F. rewrite E1, new_size by (split; assumption). cbn [bind].
  split; [reflexivity|]. split; [exact Eu|]. split; [exact E3|]. split; [exact Wu|]. split; [exact E2|]. split; [exact Su|].
  intros p q Hp Hq. rewrite Su in Hp, Hq. apply Au; assumption.
Qed.

Lemma set_up_ok : exists l, set_up_retiled fuel d d' rw tpb = Ok l /\
  forall x, in_grid d' x -> installed d' F l x.
Proof.
  unfold set_up_retiled.
  set (nr' := ax_local_nr_tiles (d_row d')). set (nc' := ax_local_nr_tiles (d_col d')).
  pose proof (M' Row) as B1. pose proof (M' Col) as B2. cbn [get sel] in B1, B2.
  assert (N1 : 0 <= nr') by (apply lnt_nonneg; apply B1). assert (N2 : 0 <= nc') by (apply lnt_nonneg; apply B2).
  assert (T1 : ax_tile (d_row d') = tr) by (apply (T_reported _ _ _ B1)).
  assert (T2 : ax_tile (d_col d') = tc) by (apply (T_reported _ _ _ B2)).
  assert (TR : 0 < tr) by (pose proof (m_ok _ _ _ B1) as []; assumption).
  assert (TC : 0 < tc) by (pose proof (m_ok _ _ _ B2) as []; assumption).
  destruct (for_inv _ (fun jt l => Z.of_nat (length l) = nr' * nc' /\
      forall x, in_grid d' x -> snd x / kc < jt -> installed d' F l x) 0 (ax_local_nr_tiles (d_col d))
     (fun jt => for_ 0 (ax_local_nr_tiles (d_row d)) (fun it managers =>
      let orig := (it, jt) in
      let original_tile_size := tile_size_of_global d (global_tile_index_of_local d orig) in
      specs <- retile_specs fuel d' tpb orig original_tile_size ;;
      t <- rw orig ;;
      install_sub_tiles d' t specs managers)) (repeat tile_data_empty (Z.to_nat (nr' * nc')))) as (l & El & Ll & Il).
  - apply lnt_nonneg; apply MC.
  - split; [rewrite repeat_length; nia|]. intros x [H1 H2] H3.
    destruct (back_col _ H2) as (C1 & _). lia.
  - intros jt l Hjt [Hl Il].
    destruct (for_inv _ (fun it l => Z.of_nat (length l) = nr' * nc' /\
      forall x, in_grid d' x -> snd x / kc < jt \/ (snd x / kc = jt /\ fst x / kr < it) -> installed d' F l x)
      0 (ax_local_nr_tiles (d_row d)) (fun it managers =>
      let orig := (it, jt) in
      let original_tile_size := tile_size_of_global d (global_tile_index_of_local d orig) in
      specs <- retile_specs fuel d' tpb orig original_tile_size ;;
      t <- rw orig ;;
      install_sub_tiles d' t specs managers) l) as (l' & El' & Ll' & Il').
    + apply lnt_nonneg; apply MR.
    + split; [exact Hl|]. intros x G [Hx|[Hx Hx']]; [apply Il; assumption|].
      destruct G as [G1 G2]. destruct (back_row _ G1) as (C1 & _). lia.
    + intros it li Hit [Hli Ili]. cbv zeta.
      destruct (DL it jt Hit Hjt) as (t & E1 & E2 & E3).
      assert (OS : tile_size_of_global d (global_tile_index_of_local d (it, jt)) =
                   (ax_local_tile_size_of (d_row d) it, ax_local_tile_size_of (d_col d) jt)).
      { unfold tile_size_of_global, global_tile_index_of_local, both. cbn [fst snd].
        rewrite (T_local_tile_size _ _ _ MR), (T_local_tile_size _ _ _ MC) by assumption. reflexivity. }
      assert (SR : ax_local_tile_size_of (d_row d) it <= l_block (Ls Row)).
      { rewrite (T_local_tile_size _ _ _ MR) by assumption. rewrite <- (ST Row).
        apply (T_tile_sizes _ _ _ MR). apply (T_global_tile _ _ _ MR it Hit). }
      assert (SC : ax_local_tile_size_of (d_col d) jt <= l_block (Ls Col)).
      { rewrite (T_local_tile_size _ _ _ MC) by assumption. rewrite <- (ST Col).
        apply (T_tile_sizes _ _ _ MC). apply (T_global_tile _ _ _ MC jt Hjt). }
      destruct (retile_specs_ok fuel d' tpb (it, jt) (ax_local_tile_size_of (d_row d) it, ax_local_tile_size_of (d_col d) jt))
        as (specs & Es & Hs); [lia|lia|pose proof (FU Row); cbn [fst]; lia|pose proof (FU Col); cbn [snd]; lia|].
      rewrite OS, Es, E1. cbn [bind]. rewrite T1, T2 in Hs. cbn [fst snd] in Hs. fold kr kc in Hs.
      destruct (install_ok d' F t specs li Hli) as (l2 & E4 & L2 & I2 & P2).
      { intros x s Hx. apply Hs in Hx as (qi & qj & Q1 & Q2 & Q3 & Q4 & Ex). cbv zeta in Ex. injection Ex as -> ->.
        destruct (step_row it qi Hit Q1 Q2) as (X1 & X2 & X3 & _). destruct (step_col jt qj Hjt Q3 Q4) as (Y1 & Y2 & Y3 & _).
        split; [split; assumption|].
        assert (G : in_grid d' (it * kr + qi, jt * kc + qj)) by (split; assumption).
        destruct (F_ok _ G) as (t0 & u & F1 & F2 & _). split; [|exists u; exact F2].
        unfold F. cbn [fst snd]. rewrite X2, X3, Y2, Y3, E1. reflexivity. }
      exists l2. split; [exact E4|]. split; [exact L2|].
      intros x G Hx.
      destruct (Z_lt_le_dec (snd x / kc) jt) as [|Hge]; [apply P2; [exact G|apply Ili; auto]|].
      destruct Hx as [Hx|[Hx Hx']]; [lia|].
      destruct (Z_lt_le_dec (fst x / kr) it) as [|Hge']; [apply P2; [exact G|apply Ili; auto]|].
      assert (Ei : fst x / kr = it) by lia. destruct G as [G1 G2].
      destruct (back_row _ G1) as (A1 & A2 & A3 & A4). destruct (back_col _ G2) as (C1 & C2 & C3 & C4).
      eapply I2. apply Hs. exists (fst x mod kr), (snd x mod kc). rewrite Ei in *. rewrite Hx in *.
      split; [exact A2|]. split; [exact A3|]. split; [exact C2|]. split; [exact C3|].
      cbv zeta. rewrite <- A4, <- C4. destruct x. reflexivity.
    + exists l'. split; [exact El'|]. split; [exact Ll'|]. intros x G Hx. apply Il'; [exact G|].
      destruct (Z_lt_le_dec (snd x / kc) jt); [left; lia|right]. split; [lia|].
      destruct G as [G1 G2]. apply (back_row _ G1).
  - exists l. split; [exact El|]. intros x G. apply Il; [exact G|]. destruct G as [G1 G2]. apply (back_col _ G2).
Qed.
End retile.

(** ** C22 *)

(** address of element e in a matrix-like object read by local tile index *)
Definition local_read_address (h : heap) (d : distribution) (rw : pair_Z -> res tile_data) (e : pair_Z) : res (nat * Z) :=
  element_address h d (fun g => rw (local_tile_index d g)) e.

(** what a retiled matrix must be: tiles of block / tiles_per_block elements over the same
    distribution of elements to ranks, each element at its old address *)
Record is_retiling (rank : pair_Z) (Ls : coord -> layout) (h : heap) (d : distribution) (rw : pair_Z -> res tile_data)
       (tpb : pair_Z) (m' : matrix) : Prop := {
  ir_tile : forall rc, ax_tile (get rc (mx_dist m')) * sel rc tpb = l_block (Ls rc);
  ir_size : forall rc, ax_size (get rc (mx_dist m')) = l_size (Ls rc);
  ir_owner : forall rc e, 0 <= e -> ax_rank_global_element (get rc (mx_dist m')) e = ax_rank_global_element (get rc d) e;
  ir_stored : stored h m';
  ir_address : forall e, element_here rank Ls e ->
    matrix_address h m' e = local_read_address h d rw e /\ exists x, matrix_address h m' e = Ok x
}.

Lemma retile_correct : forall rank Ls h d rw layout lay tpb fuel,
  built rank Ls d -> delivers h d rw -> layout = Ok lay ->
  single_tile_per_block d = true ->
  (forall rc, l_off (Ls rc) mod l_block (Ls rc) = 0) ->
  (forall rc, 0 < sel rc tpb /\ (sel rc tpb | l_block (Ls rc)) /\ l_grid (Ls rc) <= i32_max) ->
  (forall rc, (Z.to_nat (l_block (Ls rc)) <= fuel)%nat) ->
  exists m', retile fuel d rw layout tpb = Ok m' /\ is_retiling rank Ls h d rw tpb m' /\
    mx_layout m' = Some (match lay with Tiles => if (fst tpb =? 1) && (snd tpb =? 1) then Tiles else Blocks | _ => lay end).
Proof.
  intros rank Ls h d rw layout lay tpb fuel B DL -> ST NO TP FU.
  destruct (retiled_distribution_ok rank Ls d tpb B ST TP) as (d' & Ed & M').
  unfold retile. rewrite Ed. cbn [bind].
  assert (ST' : forall rc, l_tile (Ls rc) = l_block (Ls rc)).
  { intros rc. unfold single_tile_per_block in ST. apply andb_prop in ST as [S1 S2]. apply Z.eqb_eq in S1, S2.
    destruct (T_reported _ _ _ (built_models _ _ _ B rc)) as (_ & E1 & E2 & _). destruct rc; cbn in E1, E2; congruence. }
  assert (TP' : forall rc, 0 < sel rc tpb /\ (sel rc tpb | l_block (Ls rc))) by (intros rc; destruct (TP rc) as (? & ? & _); auto).
  destruct (set_up_ok rank Ls h d rw tpb d' fuel B DL ST' NO TP' FU M') as (l & El & Il).
  rewrite El. cbn [bind]. eexists. split; [reflexivity|].
  assert (NT : forall rc, sel rc tpb * (l_block (Ls rc) / sel rc tpb) = l_block (Ls rc)).
  { intros rc. destruct (TP' rc) as (P & [q Q]). rewrite Q, Z.div_mul by lia. lia. }
  assert (TL : forall rc, ax_tile (get rc d') = l_block (Ls rc) / sel rc tpb).
  { intros rc. apply (T_reported _ _ _ (M' rc)). }
  split; [constructor; cbn [mx_dist]|].
  - intros rc. rewrite TL, Z.mul_comm. apply NT.
  - intros rc. apply (T_reported _ _ _ (M' rc)).
  - intros rc e He. destruct (T_owner _ _ _ (M' rc) e He) as [-> _].
    destruct (T_owner _ _ _ (built_models _ _ _ B rc) e He) as [-> _].
    apply (rt_owner (sel rc rank) (Ls rc) (get rc d) (sel rc tpb) (ax_src (get rc d)) (built_models _ _ _ B rc) (NO rc) eq_refl).
  - intros i j Hi Hj. cbn [mx_dist] in *.
    destruct (F_ok rank Ls h d rw tpb d' B DL ST' NO TP' M' (i, j) (conj Hi Hj)) as (t & u & _ & Fu & _ & Wu & _ & Su & _).
    destruct (Il (i, j) (conj Hi Hj)) as (u' & Fu' & Nu). rewrite Fu in Fu'. injection Fu' as <-.
    exists u. split; [|auto]. unfold mx_tile. cbn [mx_dist mx_tiles]. rewrite Nu. reflexivity.
  - intros e He.
    destruct (He Row) as [HR1 HR2]. destruct (He Col) as [HC1 HC2].
    pose proof (built_models _ _ _ B Row) as MR. pose proof (built_models _ _ _ B Col) as MC.
    pose proof (M' Row) as MR'. pose proof (M' Col) as MC'.
    destruct (TP' Row) as [PR DR]. destruct (TP' Col) as [PC DC].
    pose proof (rt_tile _ _ _ _ _ _ MR MR' (ST' Row) (NO Row) eq_refl PR DR _ HR1 HR2) as XR.
    pose proof (rt_tile _ _ _ _ _ _ MC MC' (ST' Col) (NO Col) eq_refl PC DC _ HC1 HC2) as XC.
    destruct (rt_mod _ _ _ _ MR PR DR (sel Row e) ltac:(lia)) as (R1 & R2 & R3).
    destruct (rt_mod _ _ _ _ MC PC DC (sel Col e) ltac:(lia)) as (C1 & C2 & C3).
    assert (OR' : owner (retiled_layouts Ls d tpb Row) (sel Row e) = sel Row rank).
    { rewrite <- HR2. apply (rt_owner (sel Row rank) (Ls Row) (get Row d) (sel Row tpb) (ax_src (get Row d)) MR (NO Row) eq_refl). }
    assert (OC' : owner (retiled_layouts Ls d tpb Col) (sel Col e) = sel Col rank).
    { rewrite <- HC2. apply (rt_owner (sel Col rank) (Ls Col) (get Col d) (sel Col tpb) (ax_src (get Col d)) MC (NO Col) eq_refl). }
    destruct (axis_tile_here _ _ _ MR' _ HR1 OR') as (_ & A2 & A3 & A4).
    destruct (axis_tile_here _ _ _ MC' _ HC1 OC') as (_ & B2 & B3 & B4).
    destruct (axis_tile_here _ _ _ MR _ HR1 HR2) as (_ & A2' & A3' & A4').
    destruct (axis_tile_here _ _ _ MC _ HC1 HC2) as (_ & B2' & B3' & B4'). cbv zeta in *.
    destruct (rt_aligned (Ls Row) (sel Row tpb) (ax_src (get Row d)) (ST' Row) (NO Row)) as [ALR ALR'].
    destruct (rt_aligned (Ls Col) (sel Col tpb) (ax_src (get Col d)) (ST' Col) (NO Col)) as [ALC ALC'].
    destruct (aligned_elem _ _ _ MR ALR _ HR1) as [_ ER]. destruct (aligned_elem _ _ _ MC ALC _ HC1) as [_ EC].
    destruct (aligned_elem _ _ _ MR' ALR' _ HR1) as [_ ER']. destruct (aligned_elem _ _ _ MC' ALC' _ HC1) as [_ EC'].
    rewrite ST' in ER, EC. cbn [l_tile] in ER', EC'. cbn [retiled_layouts l_tile] in ER', EC'.
    cbn [sel get] in *.
    set (kr := fst tpb) in *. set (kc := snd tpb) in *.
    set (br := l_block (Ls Row)) in *. set (bc := l_block (Ls Col)) in *.
    set (ltr := ax_local_tile_from_global_tile (d_row d) (ax_global_tile_from_global_element (d_row d) (fst e))) in *.
    set (ltc := ax_local_tile_from_global_tile (d_col d) (ax_global_tile_from_global_element (d_col d) (snd e))) in *.
    assert (G : in_grid d' (ltr * kr + fst e mod br / (br / kr), ltc * kc + snd e mod bc / (bc / kc))).
    { split; cbn [fst snd]; [rewrite <- XR; exact A2|rewrite <- XC; exact B2]. }
    destruct (F_ok rank Ls h d rw tpb d' B DL ST' NO TP' M' _ G) as (t & u & Et & Fu & Wt & Wu & Stt & Su & Au).
    destruct (Il _ G) as (u' & Fu' & Nu). rewrite Fu in Fu'. injection Fu' as <-.
    cbn [fst snd] in Et, Au. fold kr kc br bc in Et, Au.
    assert (D1 : (ltr * kr + fst e mod br / (br / kr)) / kr = ltr) by (symmetry; apply (Z.div_unique_pos _ kr ltr (fst e mod br / (br / kr))); [exact R2|ring]).
    assert (D2 : (ltr * kr + fst e mod br / (br / kr)) mod kr = fst e mod br / (br / kr)) by (symmetry; apply (Z.mod_unique_pos _ kr ltr (fst e mod br / (br / kr))); [exact R2|ring]).
    assert (D3 : (ltc * kc + snd e mod bc / (bc / kc)) / kc = ltc) by (symmetry; apply (Z.div_unique_pos _ kc ltc (snd e mod bc / (bc / kc))); [exact C2|ring]).
    assert (D4 : (ltc * kc + snd e mod bc / (bc / kc)) mod kc = snd e mod bc / (bc / kc)) by (symmetry; apply (Z.mod_unique_pos _ kc ltc (snd e mod bc / (bc / kc))); [exact C2|ring]).
    rewrite D1, D3 in Et. rewrite D2, D4 in Au.
    assert (AD : matrix_address h (Matrix d' l (Some (match lay with
         | Tiles => if single_tile_per_block d && negb (single_tile_per_block d') then Blocks else Tiles
         | _ => lay end))) e = tile_ptr h u (fst e mod (br / kr), snd e mod (bc / kc))).
    { unfold matrix_address, element_address, mx_tile_global. cbn [mx_dist].
      unfold local_tile_index, global_tile_index_of_element, tile_element_index, both. cbn [fst snd].
      rewrite XR, XC, ER', EC'.
      rewrite (proj2 (Z.ltb_ge _ _)) by (destruct G as [[G1 _] _]; exact G1).
      rewrite (proj2 (Z.ltb_ge _ _)) by (destruct G as [_ [G1 _]]; exact G1). cbn [orb].
      unfold mx_tile. cbn [mx_dist mx_tiles]. rewrite Nu. reflexivity. }
    assert (BD : 0 <= fst e mod (br / kr) < fst (td_size u) /\ 0 <= snd e mod (bc / kc) < snd (td_size u)).
    { rewrite Su. unfold tile_size_of_local, both. cbn [fst snd]. rewrite <- XR, <- XC.
      rewrite (T_local_tile_size _ _ _ MR' _ A2), (T_local_tile_size _ _ _ MC' _ B2), A3, B3, <- ER', <- EC'. auto. }
    rewrite AD. split.
    + rewrite Au by apply BD. unfold local_read_address, element_address.
      unfold local_tile_index, global_tile_index_of_element, tile_element_index, both. cbn [fst snd].
      fold ltr ltc. rewrite Et. cbn [bind]. rewrite ER, EC, <- R1, <- C1. reflexivity.
    + destruct (wf_tile_ptr h u Wu ltac:(lia) ltac:(lia)) as (c & _ & Ac). rewrite Ac by apply BD. eauto.
  - f_equal. destruct lay; try reflexivity. rewrite ST. cbn [andb mx_layout]. f_equal. unfold single_tile_per_block.
    pose proof (TL Row) as TLR. pose proof (TL Col) as TLC. cbn [get sel] in TLR, TLC. rewrite TLR, TLC.
    destruct (T_reported _ _ _ (M' Row)) as (_ & BR' & _). destruct (T_reported _ _ _ (M' Col)) as (_ & BC' & _).
    cbn [get] in BR', BC'. rewrite BR', BC'.
    cbn [retiled_layouts l_block sel].
    pose proof (NT Row) as NR. pose proof (NT Col) as NC. cbn [sel] in NR, NC.
    destruct (TP' Row) as [P1 _]. destruct (TP' Col) as [P2 _]. cbn [sel] in P1, P2.
    pose proof (m_ok _ _ _ (built_models _ _ _ B Row)) as []. pose proof (m_ok _ _ _ (built_models _ _ _ B Col)) as [].
    destruct (Z.eqb_spec (fst tpb) 1) as [Q1|Q1].
    + rewrite Q1, Z.div_1_r, Z.eqb_refl. destruct (Z.eqb_spec (snd tpb) 1) as [Q2|Q2].
      * rewrite Q2, Z.div_1_r, Z.eqb_refl. reflexivity.
      * rewrite (proj2 (Z.eqb_neq _ _)) by nia. reflexivity.
    + rewrite (proj2 (Z.eqb_neq _ _)) by nia. reflexivity.
Qed.

Lemma local_read_matrix : forall rank Ls h m e, built rank Ls (mx_dist m) -> element_here rank Ls e ->
  local_read_address h (mx_dist m) (mx_tile m) e = matrix_address h m e.
Proof.
  intros rank Ls h m e B He. destruct (He Row) as [H1 H2]. destruct (He Col) as [H3 H4].
  destruct (axis_tile_here _ _ _ (built_models _ _ _ B Row) _ H1 H2) as (_ & A & _).
  destruct (axis_tile_here _ _ _ (built_models _ _ _ B Col) _ H3 H4) as (_ & C & _). cbv zeta in *. cbn [get sel] in *.
  unfold local_read_address, matrix_address, element_address, mx_tile_global.
  unfold local_tile_index, global_tile_index_of_element, both. cbn [fst snd].
  rewrite (proj2 (Z.ltb_ge _ _)) by apply A. rewrite (proj2 (Z.ltb_ge _ _)) by apply C. reflexivity.
Qed.

(** a tile of a window starts in the parent on the same rank: the tiles of a reference exist *)
Lemma mref_delivers : forall rank Ls h m origin size r,
  built rank Ls (mx_dist m) -> stored h m ->
  (forall rc, blocks_fit_int (ax_offset (get rc (mx_dist m)) + sel rc origin) (ax_block (get rc (mx_dist m)))) ->
  mref_make m origin size = Ok r ->
  delivers h (mr_dist r) (mref_tile r) /\ mr_mat r = m /\
  built rank (fun rc => window (Ls rc) (sel rc origin) (sel rc size)) (mr_dist r).
Proof.
  intros rank Ls h m origin size r B S F R.
  destruct (C23_reference_is_window _ _ _ _ _ _ _ B S F R) as (_ & _ & W).
  unfold mref_make in R.
  destruct (sub_distribution (mx_dist m) origin size) as [d'| |] eqn:SD; try discriminate. injection R as <-.
  pose proof (built_sub _ _ _ _ _ _ B F SD) as B'.
  split; [|split; [reflexivity|exact B']]. cbn [mr_dist] in *.
  pose proof (built_models _ _ _ B' Row) as MR. pose proof (built_models _ _ _ B' Col) as MC. cbn [get sel] in MR, MC.
  intros i j Hi Hj.
  assert (SR : 0 < ax_local_tile_size_of (d_row d') i).
  { rewrite (T_local_tile_size _ _ _ MR _ Hi). apply (T_tile_sizes _ _ _ MR). apply (T_global_tile _ _ _ MR _ Hi). }
  assert (SC : 0 < ax_local_tile_size_of (d_col d') j).
  { rewrite (T_local_tile_size _ _ _ MC _ Hj). apply (T_tile_sizes _ _ _ MC). apply (T_global_tile _ _ _ MC _ Hj). }
  destruct (first_elem_here _ _ _ MR i 0 Hi ltac:(lia)) as (R1 & R2 & R3 & _).
  destruct (first_elem_here _ _ _ MC j 0 Hj ltac:(lia)) as (C1 & C2 & C3 & _). cbv zeta in *.
  set (er := ax_global_element_from_global_tile_and_tile_element (d_row d') _ 0) in *.
  set (ec := ax_global_element_from_global_tile_and_tile_element (d_col d') _ 0) in *.
  cbn [window l_size] in R1, C1.
  destruct (W (er, ec)) as (_ & _ & t & T1 & T2 & T3).
  - intros []; cbn; assumption.
  - destruct (sub_models _ _ _ _ _ _ B F SD Row) as (_ & _ & O1 & O2 & O3).
    destruct (sub_models _ _ _ _ _ _ B F SD Col) as (_ & _ & O4 & O5 & O6).
    cbn [sel] in *.
    intros []; cbn [sel fst snd]; (split; [lia|]).
    + rewrite <- R2. unfold owner, window. cbn [l_src l_off l_block l_grid]. rewrite Z.add_assoc. reflexivity.
    + rewrite <- C2. unfold owner, window. cbn [l_src l_off l_block l_grid]. rewrite Z.add_assoc. reflexivity.
  - exists t. unfold global_tile_index_of_element, both in T1, T3. cbn [fst snd] in T1, T3. rewrite R3, C3 in T1, T3.
    split; [exact T1|]. split; [|exact T2]. rewrite T3. unfold tile_size_of_local, tile_size_of_global, both. cbn [fst snd].
    rewrite (T_local_tile_size _ _ _ MR _ Hi), (T_local_tile_size _ _ _ MC _ Hj). reflexivity.
Qed.

(** C23, tiles by local index: the same elements *)
Theorem C23_reference_by_local_index : forall rank Ls h m origin size r,
  built rank Ls (mx_dist m) -> stored h m ->
  (forall rc, blocks_fit_int (ax_offset (get rc (mx_dist m)) + sel rc origin) (ax_block (get rc (mx_dist m)))) ->
  mref_make m origin size = Ok r ->
  (* every local tile of the reference exists and has the size the reference reports *)
  (forall i j, 0 <= i < ax_local_nr_tiles (d_row (mr_dist r)) -> 0 <= j < ax_local_nr_tiles (d_col (mr_dist r)) ->
     exists t, mref_tile r (i, j) = Ok t /\ td_size t = tile_size_of_local (mr_dist r) (i, j) /\ wf_tile h t) /\
  (* and is the tile with the corresponding global index, so its elements are those of the window *)
  (forall e, (forall rc, 0 <= sel rc e < sel rc size) ->
     element_here rank Ls (fst origin + fst e, snd origin + snd e) ->
     local_read_address h (mr_dist r) (mref_tile r) e = matrix_address h m (fst origin + fst e, snd origin + snd e)).
Proof.
  intros rank Ls h m origin size r B S F R.
  destruct (C23_reference_is_window _ _ _ _ _ _ _ B S F R) as (_ & _ & W).
  destruct (mref_delivers _ _ _ _ _ _ _ B S F R) as (D & _ & B').
  split; [exact D|]. intros e He HE. destruct (W e He HE) as (_ & <- & _).
  unfold local_read_address, ref_address, element_address, mref_tile.
  assert (X : global_tile_index_of_local (mr_dist r) (local_tile_index (mr_dist r) (global_tile_index_of_element (mr_dist r) e))
              = global_tile_index_of_element (mr_dist r) e); [|rewrite X; reflexivity].
  unfold global_tile_index_of_local, local_tile_index, global_tile_index_of_element, both. cbn [fst snd].
  pose proof (He Row). pose proof (He Col). destruct (HE Row) as [_ O1]. destruct (HE Col) as [_ O2]. cbn [sel fst snd] in *.
  f_equal.
  - apply (axis_tile_here _ _ _ (built_models _ _ _ B' Row)); [cbn; assumption|].
    cbn [sel]. rewrite <- O1. unfold owner, window. cbn [l_src l_off l_block l_grid sel]. rewrite Z.add_assoc. reflexivity.
  - apply (axis_tile_here _ _ _ (built_models _ _ _ B' Col)); [cbn; assumption|].
    cbn [sel]. rewrite <- O2. unfold owner, window. cbn [l_src l_off l_block l_grid sel]. rewrite Z.add_assoc. reflexivity.
Qed.

(** C23: windows and indices that are not in range are rejected *)
Theorem C23_out_of_range_rejected : forall m origin size r,
  ((~ forall rc, 0 <= sel rc origin /\ 0 <= sel rc size /\ sel rc origin + sel rc size <= ax_size (get rc (mx_dist m))) ->
   mref_make m origin size = Abort) /\
  (forall index, ~ (forall rc, 0 <= sel rc index < ax_nr_tiles (get rc (mr_dist r))) -> mref_tile_global r index = Abort).
Proof.
  intros m origin size r. split.
  - intros H. unfold mref_make. rewrite sub_rejects by exact H. reflexivity.
  - intros index H. unfold mref_tile_global.
    destruct (isIn2 index (nr_tiles2 (mr_dist r))) eqn:E; [|reflexivity]. exfalso. apply H.
    apply isIn2_spec in E. cbn in E. intros []; cbn; lia.
Qed.

(** C23: the reference to a whole matrix is the matrix *)
Theorem C23_whole_matrix : forall rank Ls h m, built rank Ls (mx_dist m) -> stored h m ->
  (forall rc, l_grid (Ls rc) <= i32_max /\ l_block (Ls rc) <= i64_max /\
     blocks_fit_int (ax_offset (get rc (mx_dist m))) (ax_block (get rc (mx_dist m)))) ->
  exists r, mref_whole m = Ok r /\ mr_dist r = mx_dist m /\
    forall e, element_here rank Ls e -> ref_address h r e = matrix_address h m e.
Proof.
  intros rank Ls h m B S F. unfold mref_whole, mref_make.
  destruct (T_reported _ _ _ (built_models _ _ _ B Row)) as (SR & _).
  destruct (T_reported _ _ _ (built_models _ _ _ B Col)) as (SC & _). cbn [get sel] in SR, SC.
  pose proof (C07_whole_window_is_identity _ _ _ B ltac:(intros rc; destruct (F rc) as (? & ? & _); auto)) as W.
  unfold size2. rewrite SR, SC, W. cbn [bind]. eexists. split; [reflexivity|]. split; [reflexivity|].
  intros e He.
  assert (M : mref_make m (0, 0) (l_size (Ls Row), l_size (Ls Col)) = Ok (MRef m (mx_dist m) (0, 0)))
    by (unfold mref_make; rewrite W; reflexivity).
  destruct (C23_reference_is_window _ _ _ _ _ _ _ B S
    ltac:(intros rc; replace (sel rc (0, 0)) with 0 by (destruct rc; reflexivity); rewrite Z.add_0_r; apply F) M) as (_ & _ & X). destruct (X e) as (_ & E & _).
  - intros rc. destruct (He rc). destruct rc; cbn in *; assumption.
  - cbn [fst snd]. rewrite !Z.add_0_l. destruct e. exact He.
  - rewrite E. cbn [fst snd]. rewrite !Z.add_0_l. destruct e; reflexivity.
Qed.

(** C22.  [retiled_from rank Ls h m tpb m']: m' is matrix m (layouts Ls) cut into tiles of
    block / tpb elements.  It stores the same elements on the same ranks, each at the address it
    has in m. *)
Record retiled_from (rank : pair_Z) (Ls : coord -> layout) (h : heap) (m : matrix) (tpb : pair_Z) (m' : matrix) : Prop := {
  rf_tile : forall rc, ax_tile (get rc (mx_dist m')) * sel rc tpb = l_block (Ls rc);
  rf_size : forall rc, ax_size (get rc (mx_dist m')) = l_size (Ls rc);
  rf_owner : forall rc e, 0 <= e < l_size (Ls rc) -> ax_rank_global_element (get rc (mx_dist m')) e = ax_rank_global_element (get rc (mx_dist m)) e;
  rf_stored : stored h m';
  rf_address : forall e, element_here rank Ls e ->
    matrix_address h m' e = matrix_address h m e /\ exists x, matrix_address h m' e = Ok x
}.

Theorem C22_retiled_matrix : forall rank Ls h m lay tpb fuel,
  built rank Ls (mx_dist m) -> stored h m -> mx_layout m = Some lay ->
  single_tile_per_block (mx_dist m) = true ->
  (forall rc, l_off (Ls rc) mod l_block (Ls rc) = 0) ->
  (forall rc, 0 < sel rc tpb /\ (sel rc tpb | l_block (Ls rc)) /\ l_grid (Ls rc) <= i32_max) ->
  (forall rc, (Z.to_nat (l_block (Ls rc)) <= fuel)%nat) ->
  exists m', matrix_retile fuel m tpb = Ok m' /\ retiled_from rank Ls h m tpb m' /\
    mx_layout m' = Some (match lay with Tiles => if (fst tpb =? 1) && (snd tpb =? 1) then Tiles else Blocks | _ => lay end).
Proof.
  intros rank Ls h m lay tpb fuel B S LA ST NO TP FU. unfold matrix_retile.
  destruct (retile_correct rank Ls h (mx_dist m) (mx_tile m) (mx_allocation_layout m) lay tpb fuel B S
              ltac:(unfold mx_allocation_layout; rewrite LA; reflexivity) ST NO TP FU) as (m' & E & [] & L).
  exists m'. split; [exact E|]. split; [|exact L]. constructor; try assumption.
  - intros rc e He. apply ir_owner0. lia.
  - intros e He. destruct (ir_address0 e He) as [X Y]. split; [|exact Y].
    rewrite X. apply (local_read_matrix _ _ h m e B He).
Qed.

(** the same for a reference to the top left part of a matrix *)
Theorem C22_retiled_reference : forall rank Ls h m size r lay tpb fuel,
  built rank Ls (mx_dist m) -> stored h m -> mx_layout m = Some lay ->
  (forall rc, blocks_fit_int (ax_offset (get rc (mx_dist m))) (ax_block (get rc (mx_dist m)))) ->
  mref_make m (0, 0) size = Ok r ->
  single_tile_per_block (mx_dist m) = true ->
  (forall rc, l_off (Ls rc) mod l_block (Ls rc) = 0) ->
  (forall rc, 0 < sel rc tpb /\ (sel rc tpb | l_block (Ls rc)) /\ l_grid (Ls rc) <= i32_max) ->
  (forall rc, (Z.to_nat (l_block (Ls rc)) <= fuel)%nat) ->
  exists m', mref_retile fuel r tpb = Ok m' /\
    retiled_from rank (fun rc => window (Ls rc) 0 (sel rc size)) h m tpb m'.
Proof.
  intros rank Ls h m size r lay tpb fuel B S LA F R ST NO TP FU.
  assert (F' : forall rc, blocks_fit_int (ax_offset (get rc (mx_dist m)) + sel rc (0, 0)) (ax_block (get rc (mx_dist m)))).
  { intros rc. replace (sel rc (0, 0)) with 0 by (destruct rc; reflexivity). rewrite Z.add_0_r. apply F. }
  destruct (mref_delivers _ _ _ _ _ _ _ B S F' R) as (D & MM & B').
  destruct (C23_reference_by_local_index _ _ _ _ _ _ _ B S F' R) as (_ & LR).
  assert (OR : mr_origin r = (0, 0)).
  { unfold mref_make in R. destruct (sub_distribution _ _ _); try discriminate. injection R as <-. reflexivity. }
  assert (Z0 : forall rc, sel rc (0, 0) = 0) by (intros []; reflexivity).
  destruct (retile_correct rank _ h (mr_dist r) (mref_tile r) (mx_allocation_layout m) lay tpb fuel B' D
              ltac:(unfold mx_allocation_layout; rewrite LA; reflexivity)) as (m' & E & [] & L).
  - unfold mref_make in R. destruct (sub_distribution (mx_dist m) (0, 0) size) as [d'| |] eqn:SD; try discriminate.
    injection R as <-. cbn [mr_dist] in *.
    unfold single_tile_per_block in *. apply andb_prop in ST as [S1 S2]. apply Z.eqb_eq in S1, S2.
    destruct (sub_models _ _ _ _ _ _ B F' SD Row) as (X1 & X2 & _). destruct (sub_models _ _ _ _ _ _ B F' SD Col) as (X3 & X4 & _).
    destruct (T_reported _ _ _ X1) as (_ & A1 & A2 & _). destruct (T_reported _ _ _ X2) as (_ & A3 & A4 & _).
    destruct (T_reported _ _ _ X3) as (_ & A5 & A6 & _). destruct (T_reported _ _ _ X4) as (_ & A7 & A8 & _).
    cbn [get sel window l_block l_tile] in *.
    rewrite A3, A4, A7, A8. rewrite <- A1, <- A2, <- A5, <- A6, S1, S2, !Z.eqb_refl. reflexivity.
  - intros rc. cbn [window l_off l_block]. rewrite Z0, Z.add_0_r. apply NO.
  - intros rc. cbn [window l_block l_grid]. apply TP.
  - intros rc. cbn [window l_block]. apply FU.
  - exists m'. split.
    + unfold mref_retile. rewrite OR, MM. cbn [fst snd Z.eqb andb dlaf_assert bind]. exact E.
    + destruct (C23_reference_is_window _ _ _ _ _ _ _ B S F' R) as (_ & OW & _).
      assert (EH : forall e, element_here rank (fun rc => window (Ls rc) 0 (sel rc size)) e ->
                   (forall rc, 0 <= sel rc e < sel rc size) /\ element_here rank Ls e).
      { intros e He. split.
        - intros rc. apply (He rc).
        - assert (SD : exists d', sub_distribution (mx_dist m) (0, 0) size = Ok d').
          { unfold mref_make in R. destruct (sub_distribution (mx_dist m) (0, 0) size) as [d'| |]; try discriminate. eauto. }
          destruct SD as [d' SD].
          intros rc. destruct (He rc) as [X1 X2]. destruct (sub_models _ _ _ _ _ _ B F' SD rc) as (_ & _ & Y1 & Y2 & Y3).
          rewrite Z0 in *. cbn [window l_size] in X1. split; [lia|].
          rewrite <- X2. unfold owner, window. cbn [l_src l_off l_block l_grid]. rewrite Z.add_0_r. reflexivity. }
      constructor.
      * intros rc. rewrite ir_tile0. reflexivity.
      * intros rc. rewrite ir_size0. reflexivity.
      * intros rc e He. cbn [window l_size] in He. rewrite ir_owner0 by lia.
        specialize (OW (e, e) rc). destruct rc; cbn [sel fst snd] in OW, He |- *; rewrite OW by exact He; rewrite Z.add_0_l; reflexivity.
      * assumption.
      * intros e He. destruct (EH e He) as [E1 E2].
        assert (He' : element_here rank (fun rc => window (Ls rc) (sel rc (0, 0)) (sel rc size)) e).
        { intros rc. rewrite Z0. apply He. }
        destruct (ir_address0 e He') as [X Y]. split; [|exact Y]. rewrite X, LR; cbn [fst snd]; rewrite ?Z.add_0_l; destruct e; auto.
Qed.

(** C22: what is rejected *)
Theorem C22_rejected : forall m fuel tpb r,
  (single_tile_per_block (mx_dist m) = false -> forall m', matrix_retile fuel m tpb <> Ok m') /\
  (mr_origin r <> (0, 0) -> mref_retile fuel r tpb = Abort) /\
  (fst tpb = 0 \/ snd tpb = 0 -> matrix_retile fuel m tpb = UB).
Proof.
  intros m fuel tpb r. split; [|split].
  - intros ST m' E. unfold matrix_retile, retile, retiled_distribution in E.
    destruct ((fst tpb =? 0) || (snd tpb =? 0)); [discriminate|].
    destruct (dist_ctor _ _ _ _ _ _ _); try discriminate. cbn [bind] in E. rewrite ST in E. discriminate.
  - intros H. unfold mref_retile.
    destruct (Z.eqb_spec (fst (mr_origin r)) 0) as [Q1|]; [|reflexivity].
    destruct (Z.eqb_spec (snd (mr_origin r)) 0) as [Q2|]; [|reflexivity].
    exfalso. apply H. destruct (mr_origin r). cbn in *. congruence.
  - intros H. unfold matrix_retile, retile, retiled_distribution.
    replace ((fst tpb =? 0) || (snd tpb =? 0)) with true; [reflexivity|].
    symmetry. apply orb_true_iff. destruct H as [-> | ->]; auto.
Qed.

(** C22 does not extend to tiles_per_block that do not divide the block, although nothing rejects
    them: with blocks of 6 and 4 tiles per block the tiles have 1 row, sub-tile indices collide,
    and element 4 is no longer where it was. *)
Theorem C22_not_a_divisor_refuted :
  exists d m h m', built (0, 0) (arg_layout (12, 1) (6, 6) (6, 6) (1, 1) (0, 0) (0, 0)) d /\
    matrix_from_distribution 20 CPU 8 ColMajor d (AllocSpec None None) [] = Ok (m, h) /\
    matrix_retile 20 m (4, 6) = Ok m' /\
    matrix_address h m (4, 0) = Ok (0%nat, 4) /\ matrix_address h m' (4, 0) = Ok (0%nat, 6) /\
    (* the tile of element 11 was never set *)
    matrix_address h m (11, 0) = Ok (0%nat, 11) /\ matrix_address h m' (11, 0) = UB.
Proof.
  destruct (ctor_accepts (12, 1) (6, 6) (6, 6) (1, 1) (0, 0) (0, 0) (0, 0)) as (d & E & B).
  - intros []; cbn; repeat split; try lia; exists 1; reflexivity.
  - intros []; cbn; unfold i32_max, i64_max; lia.
  - intros []; cbn; unfold i32_max; lia.
  - vm_compute in E. injection E as <-. do 4 eexists. split; [exact B|].
    split; [vm_compute; reflexivity|]. split; [vm_compute; reflexivity|]. vm_compute. repeat split; reflexivity.
Qed.
(** nor to matrices with an offset, because the new distribution drops it: the new tiles are not
    the tiles of the block *)
Theorem C22_offset_refuted :
  exists d m h, built (0, 0) (arg_layout (6, 1) (4, 4) (4, 4) (1, 1) (0, 0) (2, 0)) d /\
    matrix_from_distribution 20 CPU 8 Tiles d (AllocSpec None None) [] = Ok (m, h) /\
    single_tile_per_block d = true /\ matrix_retile 20 m (2, 1) = UB.
Proof.
  destruct (ctor_accepts (6, 1) (4, 4) (4, 4) (1, 1) (0, 0) (0, 0) (2, 0)) as (d & E & B).
  - intros []; cbn; repeat split; try lia; exists 1; reflexivity.
  - intros []; cbn; unfold i32_max, i64_max; lia.
  - intros []; cbn; unfold i32_max; lia.
  - vm_compute in E. injection E as <-. do 3 eexists. split; [exact B|].
    split; [vm_compute; reflexivity|]. split; vm_compute; reflexivity.
Qed.

(** concrete instances; [rt_ex_m] meets the hypotheses of C22 and C23 by C15 *)
Example rt_ex_d := dist_of (dist_ctor (25, 19) (6, 4) (6, 4) (2, 2) (1, 0) (0, 1) (0, 0)).
Example C22_hypotheses_met :
  exists Ls m h, built (1, 0) Ls rt_ex_d /\ mx_dist m = rt_ex_d /\ stored h m /\
    mx_layout m = Some Tiles /\ single_tile_per_block rt_ex_d = true /\
    (forall rc, l_off (Ls rc) mod l_block (Ls rc) = 0) /\
    (forall rc, 0 < sel rc (3, 2) /\ (sel rc (3, 2) | l_block (Ls rc)) /\ l_grid (Ls rc) <= i32_max) /\
    matrix_from_distribution 20 CPU 8 ColMajor rt_ex_d (AllocSpec (Some Tiles) None) [] = Ok (m, h) /\
    exists m' r, matrix_retile 20 m (3, 2) = Ok m' /\ local_nr_tiles2 (mx_dist m') = (6, 4) /\
      matrix_address h m (22, 14) = Ok (3%nat, 4 + 6 * 2) /\ matrix_address h m' (22, 14) = Ok (3%nat, 4 + 6 * 2) /\
      mref_make m (3, 3) (21, 14) = Ok r /\ local_nr_tiles2 (mr_dist r) = (2, 2) /\
      ref_address h r (19, 11) = Ok (3%nat, 4 + 6 * 2).
Proof.
  assert (B : built (1, 0) (arg_layout (25, 19) (6, 4) (6, 4) (2, 2) (0, 1) (0, 0)) rt_ex_d).
  { apply (built_ctor (1, 0) (25, 19) (6, 4) (6, 4) (2, 2) (0, 1) (0, 0)).
    + intros []; constructor; cbn; try lia; exists 1; reflexivity.
    + intros []; vm_compute; discriminate.
    + reflexivity. }
  destruct (C15_storage_well_formed (1, 0) _ rt_ex_d 20 CPU 8 ColMajor (AllocSpec (Some Tiles) None) [] B) as (m & h' & E & L & W).
  - lia.
  - vm_compute. repeat constructor.
  - vm_compute. repeat constructor.
  - intros q _. exact I.
  - discriminate.
  - pose proof (well_stored_stored _ _ _ _ W) as S. pose proof (ws_dist _ _ _ _ W) as D.
    vm_compute in E. injection E as <- <-.
    eexists _, _, _. split; [exact B|]. split; [exact D|]. split; [exact S|].
    split; [exact L|]. split; [reflexivity|]. split; [intros []; reflexivity|]. split; [|split].
    + intros []; cbn; (split; [lia|]); (split; [exists 2; reflexivity|]); unfold i32_max; lia.
    + vm_compute. reflexivity.
    + eexists _, _. split; [vm_compute; reflexivity|]. split; [vm_compute; reflexivity|]. split; [vm_compute; reflexivity|].
      split; [vm_compute; reflexivity|]. split; [vm_compute; reflexivity|]. split; vm_compute; reflexivity.
Qed.

(** ** Assumptions *)
Print Assumptions C23_reference_by_local_index.
Print Assumptions C23_out_of_range_rejected.
Print Assumptions C23_whole_matrix.
Print Assumptions C22_retiled_matrix.
Print Assumptions C22_retiled_reference.
Print Assumptions C22_rejected.
Print Assumptions C22_not_a_divisor_refuted.
Print Assumptions C22_offset_refuted.
