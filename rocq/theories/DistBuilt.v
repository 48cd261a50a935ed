(** Distributions a program can build, together with the layout it asked for. *)
From Coq Require Import ZArith Lia Bool List Znumtheory.
From Verif Require Import CInt DistModel DistSpec DivLemmas DistProofs DistProofs2.
Open Scope Z_scope.

Definition sel (rc : coord) (p : pair_Z) : Z := match rc with Row => fst p | Col => snd p end.

Definition arg_layout (size block tile grid src off : pair_Z) (rc : coord) : layout :=
  Layout (sel rc size) (sel rc block) (sel rc tile) (sel rc grid) (sel rc src) (sel rc off).

(** The window (origin, size) of a layout: same infinite axis, later start. *)
Definition window (L : layout) (origin size : Z) : layout :=
  Layout size (l_block L) (l_tile L) (l_grid L) (l_src L) (l_off L + origin).

(** The number of whole blocks skipped by an offset fits the [int] it is cast to
    (distribution.cpp:156-157). *)
Definition blocks_fit_int (off block : Z) : Prop := off / block <= i32_max.

(** [built rank Ls d]: d is the result, on the process with grid coordinates
    [rank], of a successful sequence of constructor calls (any nesting of
    sub-distributions) that asked for the layouts [Ls Row], [Ls Col]. *)
Inductive built (rank : pair_Z) : (coord -> layout) -> distribution -> Prop :=
| built_ctor : forall size block tile grid src off d,
    (forall rc, layout_ok (arg_layout size block tile grid src off rc)) ->
    (forall rc, blocks_fit_int (sel rc off) (sel rc block)) ->
    dist_ctor size block tile grid rank src off = Ok d ->
    built rank (arg_layout size block tile grid src off) d
| built_local : forall size tile off d,
    rank = (0, 0) ->
    (forall rc, layout_ok (arg_layout size tile tile (1, 1) (0, 0) off rc)) ->
    (forall rc, blocks_fit_int (sel rc off) (sel rc tile)) ->
    dist_ctor_local size tile off = Ok d ->
    built rank (arg_layout size tile tile (1, 1) (0, 0) off) d
| built_sub : forall Ls d origin size d',
    built rank Ls d ->
    (forall rc, blocks_fit_int (ax_offset (get rc d) + sel rc origin) (ax_block (get rc d))) ->
    sub_distribution d origin size = Ok d' ->
    built rank (fun rc => window (Ls rc) (sel rc origin) (sel rc size)) d'.

(** ** Proof machinery *)

Record same_layout (L L' : layout) : Prop := {
  sl_size : l_size L = l_size L';
  sl_block : l_block L = l_block L';
  sl_tile : l_tile L = l_tile L';
  sl_grid : l_grid L = l_grid L';
  sl_owner : forall e, owner L e = owner L' e;
  sl_tile_of : forall e, tile_of L e = tile_of L' e;
  sl_first : forall t, first_of_tile L t = first_of_tile L' t;
  sl_tile_owner : forall t, tile_owner L t = tile_owner L' t;
  (* how much of the first block/tile is cut off, and who owns the first block *)
  sl_off : l_off L mod l_block L = l_off L' mod l_block L';
  sl_src : (l_src L + l_off L / l_block L) mod l_grid L = (l_src L' + l_off L' / l_block L') mod l_grid L'
}.

Record models (r : Z) (L : layout) (a : axis) : Prop := {
  m_wf : wf a;
  m_rank : ax_rank a = r;
  m_same : same_layout (layout_of a) L;
  m_ok : layout_ok L
}.

Lemma wrap32_id : forall z, i32_min <= z <= i32_max -> wrap32 z = z.
Proof.
  intros z H. unfold wrap32, i32_min, i32_max in *. rewrite Z.mod_small by lia. lia.
Qed.

Lemma normal_same : forall size block tile grid src off,
  0 < block -> 0 < tile -> (tile | block) -> 0 < grid -> 0 <= off ->
  same_layout (Layout size block tile grid ((src + off / block) mod grid) (off mod block))
              (Layout size block tile grid src off).
Proof.
  intros size block tile grid src off Hb Ht [k Hk] Hg Ho.
  destruct (div_mod_dec off block Hb) as [E R].
  set (q := off / block) in *. set (m := off mod block) in *.
  assert (D : forall x, (off + x) / block = (m + x) / block + q).
  { intros x. replace (off + x) with (m + x + q * block) by lia. apply Z.div_add. lia. }
  assert (Dt : forall x, (off + x) / tile = (m + x) / tile + q * k).
  { intros x. replace (off + x) with (m + x + (q * k) * tile) by (rewrite E, Hk; ring).
    apply Z.div_add. lia. }
  assert (Dt0 : off / tile = m / tile + q * k).
  { specialize (Dt 0). rewrite !Z.add_0_r in Dt. exact Dt. }
  split; cbn; try reflexivity.
  - intros e. unfold owner. cbn. rewrite Zplus_mod_idemp_l. f_equal. rewrite D. lia.
  - intros e. unfold tile_of. cbn. rewrite Dt, Dt0. lia.
  - intros t. unfold first_of_tile. cbn. rewrite Dt0. f_equal. rewrite E at 1. rewrite Hk. ring.
  - intros t. unfold tile_owner. cbn. rewrite Dt0. rewrite Zplus_mod_idemp_l. f_equal.
    replace ((m / tile + q * k + t) * tile) with ((m / tile + t) * tile + q * block) by (rewrite Hk; ring).
    rewrite Z.div_add by lia. lia.
  - apply Z.mod_mod. lia.
  - fold q m. rewrite Zplus_mod_idemp_l. rewrite (Z.div_small m block) by lia. rewrite Z.add_0_r. reflexivity.
Qed.

Lemma same_trans : forall A B C, same_layout A B -> same_layout B C -> same_layout A C.
Proof.
  intros A B C [] []. split; intros; try congruence; intuition congruence.
Qed.

Lemma same_sym : forall A B, same_layout A B -> same_layout B A.
Proof. intros A B []. split; intros; symmetry; auto. Qed.

(** computed members after normalisation *)
Definition finish (a : axis) : axis :=
  ax_compute_local_nr_tiles_and_local_size (ax_compute_global_nr_tiles a).

Lemma finish_wf : forall a, wfp a -> wf (finish a).
Proof.
  intros a W. destruct W.
  assert (E1 : forall f, f = ax_size \/ f = ax_block \/ f = ax_tile \/ f = ax_rank \/ f = ax_grid \/ f = ax_src \/ f = ax_offset
               -> f (finish a) = f a) by (intros f H; intuition (subst; reflexivity)).
  split; try reflexivity.
  split; cbn; assumption.
Qed.

Lemma finish_fields : forall a,
  layout_of (finish a) = layout_of a /\ ax_rank (finish a) = ax_rank a.
Proof. intros. split; reflexivity. Qed.

Lemma bind_ok : forall A B (m : res A) (f : A -> res B) b, bind m f = Ok b -> exists x, m = Ok x /\ f x = Ok b.
Proof. intros A B [x| |] f b H; cbn in H; try discriminate. exists x. auto. Qed.

Lemma assert_ok : forall b u, dlaf_assert b = Ok u -> b = true.
Proof. intros [] u H; [reflexivity|discriminate]. Qed.

Lemma normalize_ok : forall d d', normalize_source_rank_and_offset d = Ok d' -> d' = on_both ax_normalize d.
Proof.
  intros d d' H. unfold normalize_source_rank_and_offset in H.
  apply bind_ok in H as (x1 & H1 & H). apply bind_ok in H as (x2 & H2 & H).
  apply bind_ok in H as (x3 & H3 & H). injection H as <-. reflexivity.
Qed.

Lemma get_on_both : forall f d rc, get rc (on_both f d) = f (get rc d).
Proof. intros f d []; reflexivity. Qed.

(** normalising an axis *)
Lemma normalize_models : forall a,
  0 <= ax_size a -> 0 < ax_tile a -> 0 < ax_block a -> (ax_tile a | ax_block a) ->
  0 < ax_grid a -> 0 <= ax_rank a < ax_grid a -> 0 <= ax_src a ->
  0 <= ax_offset a -> blocks_fit_int (ax_offset a) (ax_block a) ->
  wfp (ax_normalize a) /\
  layout_of (ax_normalize a) =
    Layout (ax_size a) (ax_block a) (ax_tile a) (ax_grid a)
           ((ax_src a + ax_offset a / ax_block a) mod ax_grid a) (ax_offset a mod ax_block a) /\
  same_layout (layout_of (ax_normalize a)) (layout_of a).
Proof.
  intros a Hs Ht Hb Hd Hg Hr Hsrc Ho Hf.
  assert (Hq : 0 <= ax_offset a / ax_block a) by (apply div_nonneg; lia).
  assert (E : layout_of (ax_normalize a) = Layout (ax_size a) (ax_block a) (ax_tile a) (ax_grid a)
           ((ax_src a + ax_offset a / ax_block a) mod ax_grid a) (ax_offset a mod ax_block a)).
  { unfold layout_of, ax_normalize. cbn.
    rewrite quot_nonneg_div, (rem_nonneg_mod (ax_offset a)) by lia.
    rewrite wrap32_id by (unfold blocks_fit_int, i32_min, i32_max in *; lia).
    rewrite rem_nonneg_mod by lia. reflexivity. }
  split; [|split; [exact E|]].
  - assert (Eo : ax_offset (ax_normalize a) = ax_offset a mod ax_block a).
    { change (l_off (layout_of (ax_normalize a)) = ax_offset a mod ax_block a). rewrite E. reflexivity. }
    assert (Es : ax_src (ax_normalize a) = (ax_src a + ax_offset a / ax_block a) mod ax_grid a).
    { change (l_src (layout_of (ax_normalize a)) = (ax_src a + ax_offset a / ax_block a) mod ax_grid a).
      rewrite E. reflexivity. }
    pose proof (Z.mod_pos_bound (ax_offset a) (ax_block a) Hb).
    pose proof (Z.mod_pos_bound (ax_src a + ax_offset a / ax_block a) (ax_grid a) Hg).
    destruct Hd as [k Hk].
    assert (0 < k) by nia.
    assert (Ek : tiles_per_block (ax_normalize a) = k).
    { unfold tiles_per_block. cbn. rewrite quot_nonneg_div by lia. rewrite Hk. apply Z.div_mul. lia. }
    split; try rewrite Ek; try rewrite Eo; try rewrite Es; cbn; try assumption; lia.
  - rewrite E. apply normal_same; assumption.
Qed.

Lemma built_models : forall rank Ls d, built rank Ls d -> forall rc, models (sel rc rank) (Ls rc) (get rc d).
Proof.
  intros rank Ls d B. induction B.
  - (* main constructor *)
    intros rc. unfold dist_ctor in H1.
    repeat (apply bind_ok in H1 as (? & ?A & H1)).
    apply assert_ok in A4. apply normalize_ok in A6. subst x6. injection H1 as <-.
    specialize (H rc). specialize (H0 rc). destruct H. cbn in *.
    unfold isIn2, isValid2 in A4. repeat (apply andb_prop in A4 as [A4 ?B]).
    repeat match goal with H : (_ <? _) = true |- _ => apply Z.ltb_lt in H
                         | H : (_ <=? _) = true |- _ => apply Z.leb_le in H
                         | H : _ && _ = true |- _ => apply andb_prop in H as [? ?] end.
    assert (N : get rc (on_both ax_compute_local_nr_tiles_and_local_size
                 (on_both ax_compute_global_nr_tiles
                    (on_both ax_normalize (mk2 size block tile grid rank src off)))) =
               finish (ax_normalize (get rc (mk2 size block tile grid rank src off)))).
    { destruct rc; reflexivity. }
    rewrite N. set (a0 := get rc (mk2 size block tile grid rank src off)).
    assert (F : layout_of a0 = arg_layout size block tile grid src off rc /\ ax_rank a0 = sel rc rank).
    { destruct rc; split; reflexivity. }
    destruct F as [F1 F2].
    destruct (normalize_models a0) as (M1 & M2 & M3); try (unfold a0; destruct rc; cbn in *; assumption || lia).
    split.
    + apply finish_wf. exact M1.
    + cbn. exact F2.
    + rewrite (proj1 (finish_fields _)). rewrite <- F1. exact M3.
    + split; assumption.
  - (* local constructor *)
    intros rc. unfold dist_ctor_local in H2.
    repeat (apply bind_ok in H2 as (? & ?A & H2)).
    apply normalize_ok in A1. injection H2 as <-. subst x1.
    specialize (H0 rc). specialize (H1 rc). destruct H0. cbn in lo_size, lo_tile, lo_block, lo_div, lo_grid, lo_src, lo_off.
    set (a1 := Axis (sel rc off) (sel rc size) 0 0 0 (sel rc tile) (sel rc tile) 0 1 0).
    destruct (normalize_models a1) as (M1 & M2 & M3); try (unfold a1; destruct rc; cbn in *; assumption || lia).
    set (a2 := finish (ax_normalize a1)).
    assert (W2 : wf a2) by (apply finish_wf; exact M1).
    (* everything is owned by rank 0 *)
    assert (G1 : ax_grid a2 = 1) by reflexivity.
    assert (Own : forall t, tile_owned (layout_of a2) 0 t = true).
    { intros t. unfold tile_owned, tile_owner. cbn [layout_of l_grid]. rewrite G1, Z.mod_1_r. reflexivity. }
    assert (OwnE : forall t, owned (layout_of a2) 0 t = true).
    { intros t. unfold owned, owner. cbn [layout_of l_grid]. rewrite G1, Z.mod_1_r. reflexivity. }
    assert (Call : forall P n, (forall j, P j = true) -> 0 <= n -> count P n = n).
    { intros P n HP Hn. rewrite (count_of_step P (fun x => x)); [lia|assumption|].
      intros j _. rewrite HP. reflexivity. }
    assert (R2 : ax_rank a2 = 0) by reflexivity.
    assert (LNT : ax_local_nr_tiles a2 = ax_nr_tiles a2).
    { rewrite (wf_lnt a2 W2), R2. apply Call; [apply Own|apply (wf_nt_nonneg a2 W2)]. }
    assert (LS : ax_local_size a2 = ax_size a2).
    { rewrite (wf_ls a2 W2), R2. apply Call; [apply OwnE|]. unfold a2. cbn. destruct rc; exact lo_size. }
    assert (EQ : get rc (on_both (fun a : axis => set_local_nr_tiles a (ax_nr_tiles a))
       (on_both ax_compute_global_nr_tiles
          (on_both (fun a : axis => set_size a (ax_local_size a))
             (on_both ax_normalize
                {| d_row := Axis (fst off) 0 (fst size) 0 0 (fst tile) (fst tile) 0 1 0;
                   d_col := Axis (snd off) 0 (snd size) 0 0 (snd tile) (snd tile) 0 1 0 |})))) = a2).
    { transitivity (Axis (ax_offset a2) (ax_size a2) (ax_size a2) (ax_nr_tiles a2) (ax_nr_tiles a2)
          (ax_block a2) (ax_tile a2) (ax_rank a2) (ax_grid a2) (ax_src a2)).
      - destruct rc; reflexivity.
      - rewrite <- LNT at 2. rewrite <- LS at 2. destruct a2; reflexivity. }
    rewrite EQ. split.
    + exact W2.
    + rewrite R2, H. destruct rc; reflexivity.
    + unfold a2. rewrite (proj1 (finish_fields _)).
      assert (layout_of a1 = arg_layout size tile tile (1, 1) (0, 0) off rc) as <-.
      { destruct rc; reflexivity. }
      exact M3.
    + split; destruct rc; assumption.
  - (* sub-distribution *)
    intros rc. specialize (IHB rc). destruct IHB as [WF MR MS MO].
    unfold sub_distribution in H0.
    apply bind_ok in H0 as (? & A1 & H0). apply bind_ok in H0 as (? & A2 & H0).
    apply bind_ok in H0 as (? & A3 & H0). apply bind_ok in H0 as (? & A4 & H0).
    apply bind_ok in H0 as (? & A5 & H0). injection H0 as <-.
    apply assert_ok in A1, A2, A3, A4. apply normalize_ok in A5. subst x3.
    unfold isValid2 in A1, A2.
    repeat match goal with H : (_ <? _) = true |- _ => apply Z.ltb_lt in H
                         | H : (_ <=? _) = true |- _ => apply Z.leb_le in H
                         | H : _ && _ = true |- _ => apply andb_prop in H as [? ?] end.
    specialize (H rc).
    pose proof (w_p _ WF) as WP. destruct WP.
    set (a0 := set_size (set_offset (get rc d) (ax_offset (get rc d) + sel rc origin)) (sel rc size)).
    assert (Hblk : 0 < ax_block (get rc d)) by nia.
    destruct (normalize_models a0) as (M1 & M2 & M3).
    { unfold a0. cbn. destruct rc; cbn; lia. }
    { exact w_tile. }
    { exact Hblk. }
    { exists (tiles_per_block (get rc d)). exact w_block. }
    { exact w_grid. }
    { exact w_rank. }
    { unfold a0. cbn. lia. }
    { unfold a0. cbn. assert (0 <= sel rc origin) by (destruct rc; cbn; assumption). lia. }
    { exact H. }
    match goal with |- models _ _ (get rc ?X) => assert (N : get rc X = finish (ax_normalize a0)) end.
    { destruct rc; reflexivity. }
    rewrite N. split.
    + apply finish_wf. exact M1.
    + exact MR.
    + rewrite (proj1 (finish_fields _)).
      eapply same_trans; [exact M3|].
      (* window of the parent's normal form = window of the requested layout *)
      assert (Horg : 0 <= sel rc origin) by (destruct rc; cbn; assumption).
      destruct MS. destruct MO. cbn in sl_size0, sl_block0, sl_tile0, sl_grid0.
      set (La := layout_of (get rc d)) in *.
      set (LR := Ls rc) in *.
      change (same_layout (window La (sel rc origin) (sel rc size)) (window LR (sel rc origin) (sel rc size))).
      destruct lo_div as [k Hk].
      (* both offsets decompose as q*block + m with the same m; the sources agree *)
      destruct (div_mod_dec (l_off LR) (l_block LR) lo_block) as [EL RL].
      assert (Hoa : l_off La mod l_block La = l_off La) by (apply Z.mod_small; exact w_off).
      assert (Eoff : l_off La = l_off LR mod l_block LR) by (rewrite <- sl_off0, Hoa; reflexivity).
      assert (Hsa : (l_src La + l_off La / l_block La) mod l_grid La = l_src La).
      { rewrite (Z.div_small (l_off La) (l_block La)) by exact w_off. rewrite Z.add_0_r. apply Z.mod_small. exact w_src. }
      assert (Esrc : l_src La = (l_src LR + l_off LR / l_block LR) mod l_grid LR) by (rewrite <- sl_src0, Hsa; reflexivity).
      set (q := l_off LR / l_block LR) in *.
      assert (SB : l_block La = l_block LR) by exact sl_block0.
      assert (ST : l_tile La = l_tile LR) by exact sl_tile0.
      assert (SG : l_grid La = l_grid LR) by exact sl_grid0.
      assert (EO : l_off LR = l_off La + q * l_block LR) by lia.
      assert (Db : forall x, (l_off LR + x) / l_block LR = (l_off La + x) / l_block LR + q).
      { clear x. intros x. rewrite EO. replace (l_off La + q * l_block LR + x) with (l_off La + x + q * l_block LR) by lia.
        apply Z.div_add. lia. }
      assert (Dt : forall x, (l_off LR + x) / l_tile LR = (l_off La + x) / l_tile LR + q * k).
      { clear x. intros x. rewrite EO. replace (l_off La + q * l_block LR + x) with (l_off La + x + (q * k) * l_tile LR)
          by (rewrite Hk; ring). apply Z.div_add. lia. }
      set (og := sel rc origin) in *.
      clearbody La LR og q.
      split; unfold window; cbn; try assumption; try reflexivity.
      * intros e. unfold owner. cbn. rewrite SB, SG, Esrc.
        rewrite <- !Z.add_assoc. rewrite Db. rewrite Zplus_mod_idemp_l. f_equal. lia.
      * intros e. unfold tile_of. cbn. rewrite ST. rewrite <- !Z.add_assoc. rewrite !Dt. lia.
      * intros t. unfold first_of_tile. cbn. rewrite ST. rewrite Dt. f_equal. rewrite EO, Hk. ring.
      * intros t. unfold tile_owner. cbn. rewrite ST, SB, SG, Esrc, Dt.
        rewrite Zplus_mod_idemp_l. f_equal.
        replace (((l_off La + og) / l_tile LR + q * k + t) * l_tile LR)
          with (((l_off La + og) / l_tile LR + t) * l_tile LR + q * l_block LR) by (rewrite Hk; ring).
        rewrite Z.div_add by lia. lia.
      * rewrite SB. rewrite EO. replace (l_off La + q * l_block LR + og) with (l_off La + og + q * l_block LR) by lia.
        rewrite Z.mod_add by lia. reflexivity.
      * rewrite SB, SG, Esrc, Db. rewrite Zplus_mod_idemp_l. f_equal. lia.
    + destruct MO. assert (Horg : 0 <= sel rc origin) by (destruct rc; cbn; assumption).
      split; cbn; try assumption; try lia. destruct rc; cbn; assumption.
Qed.
