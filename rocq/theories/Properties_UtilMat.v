(** * C51: setting the elements of a matrix (constant, random, Hermitian, positive definite). *)
From Coq Require Import ZArith Lia List Bool Reals Lra.
From Verif Require Import CInt Loop DistModel DistSpec DistBuilt DistCtor DistThms NormModel Properties_Norm UtilMatModel UtilMatProofs StarField CplxField.
Import ListNotations.
Local Open Scope Z_scope.

(** ** Specification *)
(** the value that the rank with distribution d stores for the element (x, y) of the matrix *)
Definition local_value {K} (d : distribution) (M : pair_Z -> pair_Z -> K) (x y : Z) : K :=
  M (ax_local_tile_from_global_element (d_row d) x, ax_local_tile_from_global_element (d_col d) y)
    (ax_tile_element_from_global_element (d_row d) x, ax_tile_element_from_global_element (d_col d) y).
(** (x, y) is an element of the matrix and it is stored by the rank *)
Definition stored (rank : pair_Z) (Ls : coord -> layout) (x y : Z) : Prop :=
  0 <= x < l_size (Ls Row) /\ 0 <= y < l_size (Ls Col) /\ owner (Ls Row) x = fst rank /\ owner (Ls Col) y = snd rank.
(** two axes with the same size and cut into tiles at the same elements; blocks, grid and source rank may differ *)
Definition same_tiles (L L' : layout) : Prop := l_size L = l_size L' /\ l_tile L = l_tile L' /\ l_off L mod l_tile L = l_off L' mod l_tile L'.
Record scalar_ok {K} (kconj : K -> K) (k0 : K) (real_plus : K -> Z -> K) : Prop := {
  so_inv : forall v, kconj (kconj v) = v;
  so_zero : kconj k0 = k0;
  so_real : forall v z, kconj (real_plus v z) = real_plus v z }.

Section thms.
Context {K : Type} (kconj : K -> K) (k0 k1 : K) (real_plus : K -> Z -> K) (rng : Z -> nat -> K) (away : K -> K).

Lemma built_row : forall rank Ls d, built rank Ls d -> models (fst rank) (Ls Row) (d_row d).
Proof. intros rank Ls d B. exact (built_models _ _ _ B Row). Qed.
Lemma built_col : forall rank Ls d, built rank Ls d -> models (snd rank) (Ls Col) (d_col d).
Proof. intros rank Ls d B. exact (built_models _ _ _ B Col). Qed.

(** a loop over the tiles, in terms of the elements *)
Lemma elements : forall rank Ls d, built rank Ls d -> forall (g : pair_Z -> tile_t -> res tile_t) (w : pair_Z -> list (pair_Z * K)) M,
  (forall lc, inside (local_nr_tiles d) lc = true -> tile_is (tile_size d lc) (w lc) (g lc)) ->
  exists A, for_tiles d g M = Ok A /\ forall x y, stored rank Ls x y -> forall v,
    let tx := g_tile (l_tile (Ls Row)) (l_o (Ls Row)) x in let ty := g_tile (l_tile (Ls Col)) (l_o (Ls Col)) y in
    forall lc, inside (local_nr_tiles d) lc = true -> global_tile_index_of_local d lc = (tx, ty) ->
    lc = (ax_local_tile_from_global_element (d_row d) x, ax_local_tile_from_global_element (d_col d) y) ->
    In ((x - g_first (l_tile (Ls Row)) (l_o (Ls Row)) tx, y - g_first (l_tile (Ls Col)) (l_o (Ls Col)) ty), v) (w lc) -> local_value d A x y = v.
Proof.
  intros rank Ls d B g w M H. destruct (for_tiles_ok d g w M H) as (A & E & V). exists A. split; [exact E|].
  intros x y (Hx & Hy & Ox & Oy) v tx ty lc I G -> IN.
  destruct (elem_geo _ _ _ (built_row _ _ _ B) x Hx Ox) as (_ & _ & X3 & _). destruct (elem_geo _ _ _ (built_col _ _ _ B) y Hy Oy) as (_ & _ & Y3 & _).
  unfold local_value. rewrite X3, Y3. apply V; assumption.
Qed.
Lemma the_tile : forall rank Ls d, built rank Ls d -> forall x y, stored rank Ls x y ->
  let lc := (ax_local_tile_from_global_element (d_row d) x, ax_local_tile_from_global_element (d_col d) y) in
  inside (local_nr_tiles d) lc = true /\
  global_tile_index_of_local d lc = (g_tile (l_tile (Ls Row)) (l_o (Ls Row)) x, g_tile (l_tile (Ls Col)) (l_o (Ls Col)) y).
Proof.
  intros rank Ls d B x y (Hx & Hy & Ox & Oy).
  destruct (elem_geo _ _ _ (built_row _ _ _ B) x Hx Ox) as (X1 & X2 & _). destruct (elem_geo _ _ _ (built_col _ _ _ B) y Hy Oy) as (Y1 & Y2 & _).
  cbv zeta. split; [apply inside_iff; cbn [fst snd local_nr_tiles]; auto|]. unfold global_tile_index_of_local, both. cbn [fst snd]. rewrite X2, Y2. reflexivity.
Qed.
Lemma tile_facts : forall rank Ls d, built rank Ls d -> forall lc, inside (local_nr_tiles d) lc = true ->
  let t := global_tile_index_of_local d lc in let R := Ls Row in let C := Ls Col in
  0 <= fst t /\ 0 <= snd t /\
  tile_origin d lc = (g_first (l_tile R) (l_o R) (fst t), g_first (l_tile C) (l_o C) (snd t)) /\
  tile_size d lc = (g_len (l_size R) (l_tile R) (l_o R) (fst t), g_len (l_size C) (l_tile C) (l_o C) (snd t)) /\
  fst (tile_size d lc) <= l_tile R /\ snd (tile_size d lc) <= l_tile C /\
  forall e, global_element_index d t e = (fst (tile_origin d lc) + fst e, snd (tile_origin d lc) + snd e).
Proof.
  intros rank Ls d B lc I. apply inside_iff in I as [I1 I2]. cbn [fst snd local_nr_tiles] in I1, I2.
  destruct (local_geo _ _ _ (built_row _ _ _ B) _ I1) as (X1 & X2 & X3 & X4). destruct (local_geo _ _ _ (built_col _ _ _ B) _ I2) as (Y1 & Y2 & Y3 & Y4).
  cbv zeta in *. unfold tile_origin, tile_size, global_element_index, global_tile_index_of_local, both. cbn [fst snd].
  rewrite !X4, !Y4, !Z.add_0_r. rewrite X2, Y2. repeat split; auto. intros e. rewrite X4, Y4. reflexivity.
Qed.

(** C51 (set).  set(matrix, f) gives every element the value of f at its indices, on every rank of every grid, for all tile and block sizes and offsets. *)
Theorem C51_set : forall rank Ls d (f : pair_Z -> K) M, built rank Ls d ->
  exists A, set d f M = Ok A /\ forall x y, stored rank Ls x y -> local_value d A x y = f (x, y).
Proof.
  intros rank Ls d f M B. destruct (elements _ _ _ B (fun lc => set_tile f (tile_origin d lc) (tile_size d lc)) (fun lc => set_w f (tile_origin d lc) (tile_size d lc)) M) as (A & E & V).
  { intros lc I. apply set_tile_is. }
  exists A. split; [exact E|]. intros x y S. destruct (the_tile _ _ _ B x y S) as [I G]. eapply V; [exact S|exact I|exact G|reflexivity|].
  destruct (tile_facts _ _ _ B _ I) as (_ & _ & O & SZ & _). rewrite G in O, SZ. cbn [fst snd] in O, SZ. unfold set_w. rewrite O, SZ. apply in_map_iff.
  exists (x - g_first (l_tile (Ls Row)) (l_o (Ls Row)) (g_tile (l_tile (Ls Row)) (l_o (Ls Row)) x), y - g_first (l_tile (Ls Col)) (l_o (Ls Col)) (g_tile (l_tile (Ls Col)) (l_o (Ls Col)) y)).
  split; [|apply in_range, inside_iff].
  - cbn [fst snd]. f_equal. f_equal. f_equal; lia.
  - cbn [fst snd]. destruct S as (Hx & Hy & Ox & Oy).
    destruct (elem_geo _ _ _ (built_row _ _ _ B) x Hx Ox) as (_ & _ & _ & X4). destruct (elem_geo _ _ _ (built_col _ _ _ B) y Hy Oy) as (_ & _ & _ & Y4). auto.
Qed.
Theorem C51_set_op : forall rank Ls d (f : pair_Z -> K) op M, built rank Ls d ->
  exists A, set_op kconj d f op M = Ok A /\ forall x y, stored rank Ls x y ->
    local_value d A x y = match op with NoTrans => f (x, y) | Trans => f (y, x) | ConjTrans => kconj (f (y, x)) end.
Proof.
  intros rank Ls d f op M B. destruct (C51_set rank Ls d (el_op_f kconj op f) M B) as (A & E & V). exists A. split; [exact E|].
  intros x y S. rewrite (V x y S). destruct op; reflexivity.
Qed.
Theorem C51_identity : forall rank Ls d M, built rank Ls d ->
  exists A, set_identity k0 k1 d M = Ok A /\ forall x y, stored rank Ls x y -> local_value d A x y = if x =? y then k1 else k0.
Proof. intros rank Ls d M B. exact (C51_set rank Ls d (fun ij => if fst ij =? snd ij then k1 else k0) M B). Qed.

(** ** Random values *)
(** the value that a loop "for all elements of the tile: element = h (random value)" gives; s is the seed *)
Definition rval (s : pair_Z -> pair_Z -> Z) (h : pair_Z -> pair_Z -> K -> K) (n nbr or nbc oc m x y : Z) (v : K) : Prop :=
  let t := (g_tile nbr or x, g_tile nbc oc y) in let o := (g_first nbr or (fst t), g_first nbc oc (snd t)) in
  In ((x - fst o, y - snd o), v) (writes rng (s t o) (fun e v => [(e, h t e v)]) (range2d_list (g_len m nbr or (fst t)) (g_len n nbc oc (snd t))) O).
Definition rvalL s h (Ls : coord -> layout) x y v :=
  rval s h (l_size (Ls Col)) (l_tile (Ls Row)) (l_o (Ls Row)) (l_tile (Ls Col)) (l_o (Ls Col)) (l_size (Ls Row)) x y v.
Lemma getter_ok : forall sz w (f : tile_t -> res tile_t) seed, 0 <= seed -> tile_is (K := K) sz w f -> tile_is sz w (getter seed f).
Proof.
  intros sz w f seed Hs [H1 H2]. split; [|exact H2]. intros t. unfold getter. rewrite (proj2 (Z.leb_le 0 seed) Hs). cbn [dlaf_assert bind]. apply H1.
Qed.
Lemma size_eq : forall r L a, models r L a -> ax_size a = l_size L. Proof. intros r L a M. symmetry. exact (ms _ _ _ M). Qed.
Lemma tile_eq : forall r L a, models r L a -> ax_tile a = l_tile L. Proof. intros r L a M. symmetry. exact (mt _ _ _ M). Qed.
Lemma first_nonneg : forall nb o t, 0 <= g_first nb o t. Proof. intros. unfold g_first. lia. Qed.
Definition rw (s : pair_Z -> pair_Z -> Z) (h : pair_Z -> pair_Z -> K -> K) (d : distribution) (lc : pair_Z) : list (pair_Z * K) :=
  let t := global_tile_index_of_local d lc in
  writes rng (s t (tile_origin d lc)) (fun e v => [(e, h t e v)]) (range2d_list (fst (tile_size d lc)) (snd (tile_size d lc))) O.
Lemma random_values : forall rank Ls d M s h g, built rank Ls d ->
  (forall lc, inside (local_nr_tiles d) lc = true -> tile_is (tile_size d lc) (rw s h d lc) (g lc)) ->
  exists A, for_tiles d g M = Ok A /\ forall x y, stored rank Ls x y ->
    (forall v, rvalL s h Ls x y v -> local_value d A x y = v) /\ exists v, rvalL s h Ls x y v.
Proof.
  intros rank Ls d M s h g B TI.
  destruct (elements _ _ _ B g (rw s h d) M TI) as (A & E & V).
  exists A. split; [exact E|]. intros x y S. destruct (the_tile _ _ _ B x y S) as [I G]. destruct (tile_facts _ _ _ B _ I) as (_ & _ & O & SZ & _). rewrite G in O, SZ. cbn [fst snd] in O, SZ.
  assert (Q : forall v, rvalL s h Ls x y v <->
     In ((x - g_first (l_tile (Ls Row)) (l_o (Ls Row)) (g_tile (l_tile (Ls Row)) (l_o (Ls Row)) x), y - g_first (l_tile (Ls Col)) (l_o (Ls Col)) (g_tile (l_tile (Ls Col)) (l_o (Ls Col)) y)), v)
        (rw s h d (ax_local_tile_from_global_element (d_row d) x, ax_local_tile_from_global_element (d_col d) y))).
  { intros v. unfold rw. rewrite O, SZ, G. reflexivity. }
  split.
  - intros v H. eapply V; [exact S|exact I|exact G|reflexivity|]. apply Q, H.
  - destruct (TI _ I) as [_ C]. destruct (C (x - g_first (l_tile (Ls Row)) (l_o (Ls Row)) (g_tile (l_tile (Ls Row)) (l_o (Ls Row)) x), y - g_first (l_tile (Ls Col)) (l_o (Ls Col)) (g_tile (l_tile (Ls Col)) (l_o (Ls Col)) y))) as (v & H); [|exists v; apply Q, H].
    rewrite SZ. apply inside_iff. cbn [fst snd]. destruct S as (Hx & Hy & Ox & Oy).
    destruct (elem_geo _ _ _ (built_row _ _ _ B) x Hx Ox) as (_ & _ & _ & X4). destruct (elem_geo _ _ _ (built_col _ _ _ B) y Hy Oy) as (_ & _ & _ & Y4). auto.
Qed.
Definition seed_el (n : Z) (t o : pair_Z) : Z := snd o + fst o * n.
Definition seed_tile (n : Z) (t o : pair_Z) : Z := snd t + fst t * n.
Definition keep (t e : pair_Z) (v : K) : K := v.
Definition off_zero (t e : pair_Z) (v : K) : K := if (fst t =? snd t) && (fst e =? snd e) then away v else v.
Lemma set_random_values : forall rank Ls d M, built rank Ls d ->
  exists A, set_random rng d M = Ok A /\ forall x y, stored rank Ls x y ->
    (forall v, rvalL (seed_el (l_size (Ls Col))) keep Ls x y v -> local_value d A x y = v) /\ exists v, rvalL (seed_el (l_size (Ls Col))) keep Ls x y v.
Proof.
  intros rank Ls d M B. pose proof (size_eq _ _ _ (built_col _ _ _ B)) as SC. unfold set_random. rewrite SC. apply random_values; [exact B|].
  intros lc I. apply getter_ok.
  - destruct (tile_facts _ _ _ B _ I) as (_ & _ & O & _). rewrite O. cbn [fst snd]. pose proof (geo _ _ _ (built_col _ _ _ B)) as (_ & _ & G).
    pose proof (first_nonneg (l_tile (Ls Row)) (l_o (Ls Row)) (fst (global_tile_index_of_local d lc))). pose proof (first_nonneg (l_tile (Ls Col)) (l_o (Ls Col)) (snd (global_tile_index_of_local d lc))). nia.
  - apply (plain_draws rng _ _ (fun _ v => v)).
Qed.
Lemma non_zero_values : forall rank Ls d M, built rank Ls d -> l_size (Ls Row) = l_size (Ls Col) -> l_tile (Ls Row) = l_tile (Ls Col) ->
  exists A, set_random_non_zero_diagonal rng away d M = Ok A /\ forall x y, stored rank Ls x y ->
    (forall v, rvalL (seed_tile (l_size (Ls Col))) off_zero Ls x y v -> local_value d A x y = v) /\ exists v, rvalL (seed_tile (l_size (Ls Col))) off_zero Ls x y v.
Proof.
  intros rank Ls d M B E1 E2. pose proof (size_eq _ _ _ (built_col _ _ _ B)) as SC. unfold set_random_non_zero_diagonal.
  rewrite (size_eq _ _ _ (built_row _ _ _ B)), SC, (tile_eq _ _ _ (built_row _ _ _ B)), (tile_eq _ _ _ (built_col _ _ _ B)), E1, E2, !Z.eqb_refl. cbn [dlaf_assert bind].
  apply random_values; [exact B|]. intros lc I. apply getter_ok.
  - destruct (tile_facts _ _ _ B _ I) as (O1 & O2 & _). pose proof (geo _ _ _ (built_col _ _ _ B)) as (_ & _ & G). nia.
  - unfold rw. cbv zeta. destruct (fst (global_tile_index_of_local d lc) =? snd (global_tile_index_of_local d lc)) eqn:Q.
    + pose proof (plain_draws rng (seed_tile (l_size (Ls Col)) (global_tile_index_of_local d lc) (tile_origin d lc)) (tile_size d lc) (fun e v => if fst e =? snd e then away v else v)) as P.
      unfold off_zero. rewrite Q. exact P.
    + pose proof (plain_draws rng (seed_tile (l_size (Ls Col)) (global_tile_index_of_local d lc) (tile_origin d lc)) (tile_size d lc) (fun e v => v)) as P.
      unfold off_zero. rewrite Q. exact P.
Qed.

(** ** Hermitian *)
Definition hval (n nb o z : Z) (band : option Z) (x y : Z) (v : K) : Prop :=
  let I := g_tile nb o x in let J := g_tile nb o y in let fx := g_first nb o I in let fy := g_first nb o J in
  if I =? J then In ((x - fx, y - fy), v) (diag_w rng kconj real_plus (fy + fx * n) (g_len n nb o I) z)
  else In ((x - fx, y - fy), v) (off_w rng kconj k0 (if J <=? I then fy + fx * n else fx + fy * n) (J <? I) (fx, fy) (g_len n nb o I, g_len n nb o J) nb band).
Lemma hval_sym : scalar_ok kconj k0 real_plus -> forall n nb o z band x y v, hval n nb o z band x y v -> hval n nb o z band y x (kconj v).
Proof.
  intros SO n nb o z band x y v. unfold hval. cbv zeta. set (I := g_tile nb o x). set (J := g_tile nb o y). rewrite (Z.eqb_sym J I).
  destruct (Z.eqb_spec I J) as [->|Ne].
  - set (f := g_first nb o J). unfold diag_w. rewrite !in_writes. intros (k & [i j] & E & H). exists k, (i, j). split; [exact E|]. unfold diag_ws in *. cbn [fst snd] in *.
    destruct (Z.eqb_spec i j) as [->|N].
    + destruct H as [Q|[]]. left. injection Q as A C D. subst v. rewrite (so_real _ _ _ SO). f_equal. f_equal; congruence.
    + destruct H as [Q|[Q|[]]]; injection Q as A C D; subst; [right; left; reflexivity|left]. rewrite (so_inv _ _ _ SO). reflexivity.
  - set (fx := g_first nb o I). set (fy := g_first nb o J). unfold off_w. rewrite !in_writes. intros (k & e & E & H). exists k.
    replace (if I <=? J then fx + fy * n else fy + fx * n) with (if J <=? I then fy + fx * n else fx + fy * n) by (destruct (Z.leb_spec J I), (Z.leb_spec I J); lia || reflexivity).
    assert (LU : (I <? J) = negb (J <? I)) by (destruct (Z.ltb_spec I J), (Z.ltb_spec J I); lia || reflexivity). rewrite LU.
    set (u := rng _ _) in *. clearbody u. exists e. split; [exact E|]. unfold off_ws in *. cbv zeta in *. cbn [fst snd].
    assert (OB : forall p q, is_off_band (p, q) band = is_off_band (q, p) band).
    { intros p q. unfold is_off_band. destruct band as [b|]; [|reflexivity]. cbn [fst snd]. rewrite !Z.gtb_ltb.
      destruct (Z.ltb_spec q (p - b)), (Z.ltb_spec (p + b) q), (Z.ltb_spec p (q - b)), (Z.ltb_spec (q + b) p); lia || reflexivity. }
    assert (SW : forall a b p q, inside (a, b) (p, q) = inside (b, a) (q, p)) by (intros; unfold inside; cbn [fst snd]; destruct (0 <=? p), (p <? a), (0 <=? q), (q <? b); reflexivity).
    destruct e as [p q]. cbn [fst snd] in *. destruct (J <? I); cbn [negb].
    + rewrite SW in H. cbn [fst snd]. destruct (inside _ _); [|destruct H]. destruct H as [Q|[]]. left. injection Q as A C D. subst p q v. cbn [fst snd]. rewrite OB.
      destruct (is_off_band _ band); [rewrite (so_zero _ _ _ SO); reflexivity|reflexivity].
    + rewrite SW in H. cbn [fst snd] in H. destruct (inside _ _); [|destruct H]. destruct H as [Q|[]]. left. injection Q as A C D. subst p q v. cbn [fst snd]. rewrite OB.
      destruct (is_off_band _ band); [rewrite (so_zero _ _ _ SO); reflexivity|rewrite (so_inv _ _ _ SO); reflexivity].
Qed.
(** the precondition of set_random_hermitian*: a square matrix, cut into tiles at the same rows and columns *)
Definition square (Ls : coord -> layout) : Prop := same_tiles (Ls Row) (Ls Col).
Lemma hermitian_values : forall rank Ls d z band M, built rank Ls d -> square Ls ->
  exists A, set_random_hermitian_with_offset kconj k0 real_plus rng d z band M = Ok A /\ forall x y, stored rank Ls x y ->
    (forall v, hval (l_size (Ls Row)) (l_tile (Ls Row)) (l_o (Ls Row)) z band x y v -> local_value d A x y = v) /\
    exists v, hval (l_size (Ls Row)) (l_tile (Ls Row)) (l_o (Ls Row)) z band x y v.
Proof.
  intros rank Ls d z band M B (E1 & E2 & E3). unfold set_random_hermitian_with_offset.
  rewrite (size_eq _ _ _ (built_row _ _ _ B)), (size_eq _ _ _ (built_col _ _ _ B)), (tile_eq _ _ _ (built_row _ _ _ B)), (tile_eq _ _ _ (built_col _ _ _ B)), <- E1, <- E2, !Z.eqb_refl. cbn [dlaf_assert bind].
  change (l_o (Ls Row) = l_o (Ls Col)) in E3.
  set (n := l_size (Ls Row)) in *. set (nb := l_tile (Ls Row)) in *. set (o := l_o (Ls Row)) in *.
  set (seed := fun t oo : pair_Z => if snd t <=? fst t then snd oo + fst oo * n else fst oo + snd oo * n).
  set (w := fun lc => let t := global_tile_index_of_local d lc in
     if fst t =? snd t then diag_w rng kconj real_plus (seed t (tile_origin d lc)) (fst (tile_size d lc)) z
     else off_w rng kconj k0 (seed t (tile_origin d lc)) (snd t <? fst t) (tile_origin d lc) (tile_size d lc) nb band).
  match goal with |- exists A, for_tiles d ?g M = _ /\ _ => assert (TI : forall lc, inside (local_nr_tiles d) lc = true -> tile_is (tile_size d lc) (w lc) (g lc)) end.
  { intros lc I. cbv beta zeta. apply getter_ok.
    - destruct (tile_facts _ _ _ B _ I) as (_ & _ & O & _). rewrite O. cbn [fst snd]. pose proof (geo _ _ _ (built_row _ _ _ B)) as (_ & _ & G). fold n in G.
      pose proof (first_nonneg (l_tile (Ls Row)) (l_o (Ls Row)) (fst (global_tile_index_of_local d lc))). pose proof (first_nonneg (l_tile (Ls Col)) (l_o (Ls Col)) (snd (global_tile_index_of_local d lc))).
      destruct (_ <=? _); nia.
    - destruct (tile_facts _ _ _ B _ I) as (_ & _ & O & SZ & L1 & L2 & GE). cbv zeta in *. rewrite <- E1, <- E2, <- E3 in *. fold n nb o in SZ, L1, L2. unfold w. cbv zeta.
      change (if snd (global_tile_index_of_local d lc) <=? fst (global_tile_index_of_local d lc) then snd (tile_origin d lc) + fst (tile_origin d lc) * n else fst (tile_origin d lc) + snd (tile_origin d lc) * n)
        with (seed (global_tile_index_of_local d lc) (tile_origin d lc)).
      destruct (Z.eqb_spec (fst (global_tile_index_of_local d lc)) (snd (global_tile_index_of_local d lc))) as [Q|Q].
      + rewrite <- Q in SZ. rewrite SZ. cbn [fst]. apply diag_tile_is; exact k0.
      + apply off_tile_is; [exact real_plus|exact Q|exact L1|exact L2|]. intros e _. apply GE. }
  destruct (elements rank Ls d B _ w M TI) as (A & E & V). exists A; split; [exact E|].
  intros x y S. destruct (the_tile _ _ _ B x y S) as [I G]. destruct (tile_facts _ _ _ B _ I) as (_ & _ & O & SZ & _). rewrite G in O, SZ. cbn [fst snd] in O, SZ.
  rewrite <- E2, <- E3 in O. rewrite <- E1, <- E2, <- E3 in SZ. fold n nb o in O, SZ.
  assert (Q : forall v, hval n nb o z band x y v <-> In ((x - g_first nb o (g_tile nb o x), y - g_first nb o (g_tile nb o y)), v)
        (w (ax_local_tile_from_global_element (d_row d) x, ax_local_tile_from_global_element (d_col d) y))).
  { intros v. unfold w, hval, seed. cbv zeta. rewrite O, SZ, G, <- E2, <- E3. fold nb o. cbn [fst snd].
    destruct (Z.eqb_spec (g_tile nb o x) (g_tile nb o y)) as [Q|Q]; [|reflexivity]. rewrite Q, Z.leb_refl. reflexivity. }
  split.
  - intros v H. eapply V; [exact S|exact I|exact G|reflexivity|]. rewrite <- E2, <- E3. apply Q, H.
  - destruct (TI _ I) as [_ C]. destruct (C (x - g_first nb o (g_tile nb o x), y - g_first nb o (g_tile nb o y))) as (v & H); [|exists v; apply Q, H].
    rewrite SZ. apply inside_iff. cbn [fst snd]. destruct S as (Hx & Hy & Ox & Oy).
    destruct (elem_geo _ _ _ (built_row _ _ _ B) x Hx Ox) as (_ & _ & _ & X4). destruct (elem_geo _ _ _ (built_col _ _ _ B) y Hy Oy) as (_ & _ & _ & Y4).
    rewrite <- E1, <- E2, <- E3 in Y4. auto.
Qed.

(** C51 (same matrix on every grid).  What the random setters store for an element does not depend on the grid, the rank, the block size or the source rank: two
    matrices with the same size cut into tiles at the same places get the same elements. *)
Definition same_tiling (Ls Ls' : coord -> layout) : Prop := forall rc, same_tiles (Ls rc) (Ls' rc).
Lemma same_o : forall L L', same_tiles L L' -> l_size L = l_size L' /\ l_tile L = l_tile L' /\ l_o L = l_o L'. Proof. intros L L' H. exact H. Qed.
Lemma rvalL_same : forall s h Ls Ls' x y v, same_tiling Ls Ls' -> rvalL s h Ls x y v -> rvalL s h Ls' x y v.
Proof.
  intros s h Ls Ls' x y v S. destruct (same_o _ _ (S Row)) as (A1 & A2 & A3). destruct (same_o _ _ (S Col)) as (B1 & B2 & B3). unfold rvalL. rewrite A1, A2, A3, B1, B2, B3. auto.
Qed.
Theorem C51_random_same_on_every_grid : forall rank Ls d M rank' Ls' d' M', built rank Ls d -> built rank' Ls' d' -> same_tiling Ls Ls' ->
  exists A A', set_random rng d M = Ok A /\ set_random rng d' M' = Ok A' /\
  forall x y, stored rank Ls x y -> stored rank' Ls' x y -> local_value d A x y = local_value d' A' x y.
Proof.
  intros rank Ls d M rank' Ls' d' M' B B' S. destruct (set_random_values _ _ _ M B) as (A & E & V). destruct (set_random_values _ _ _ M' B') as (A' & E' & V').
  exists A, A'. split; [exact E|]. split; [exact E'|]. intros x y S1 S2. destruct (V x y S1) as [V1 (v & Hv)]. destruct (V' x y S2) as [V2 _].
  rewrite (V1 v Hv). symmetry. apply V2. destruct (same_o _ _ (S Col)) as (B1 & _). rewrite <- B1. eapply rvalL_same; [exact S|exact Hv].
Qed.
Theorem C51_non_zero_diagonal_same_on_every_grid : forall rank Ls d M rank' Ls' d' M', built rank Ls d -> built rank' Ls' d' -> same_tiling Ls Ls' ->
  l_size (Ls Row) = l_size (Ls Col) -> l_tile (Ls Row) = l_tile (Ls Col) ->
  exists A A', set_random_non_zero_diagonal rng away d M = Ok A /\ set_random_non_zero_diagonal rng away d' M' = Ok A' /\
  forall x y, stored rank Ls x y -> stored rank' Ls' x y -> local_value d A x y = local_value d' A' x y.
Proof.
  intros rank Ls d M rank' Ls' d' M' B B' S E1 E2. destruct (same_o _ _ (S Row)) as (R1 & R2 & _). destruct (same_o _ _ (S Col)) as (C1 & C2 & _).
  destruct (non_zero_values _ _ _ M B E1 E2) as (A & E & V). destruct (non_zero_values _ _ _ M' B' ltac:(congruence) ltac:(congruence)) as (A' & E' & V').
  exists A, A'. split; [exact E|]. split; [exact E'|]. intros x y S1 S2. destruct (V x y S1) as [V1 (v & Hv)]. destruct (V' x y S2) as [V2 _].
  rewrite (V1 v Hv). symmetry. apply V2. rewrite <- C1. eapply rvalL_same; [exact S|exact Hv].
Qed.
(** C51 (Hermitian).  The element (y, x), on whatever rank, is the conjugate of the element (x, y), and the matrix is the same on every grid. *)
Theorem C51_hermitian : scalar_ok kconj k0 real_plus -> forall z band rank Ls d M rank' Ls' d' M', built rank Ls d -> built rank' Ls' d' -> same_tiling Ls Ls' -> square Ls ->
  exists A A', set_random_hermitian_with_offset kconj k0 real_plus rng d z band M = Ok A /\ set_random_hermitian_with_offset kconj k0 real_plus rng d' z band M' = Ok A' /\
  forall x y, stored rank Ls x y ->
    (stored rank' Ls' x y -> local_value d' A' x y = local_value d A x y) /\
    (stored rank' Ls' y x -> local_value d' A' y x = kconj (local_value d A x y)).
Proof.
  intros SO z band rank Ls d M rank' Ls' d' M' B B' S Sq. destruct (same_o _ _ (S Row)) as (R1 & R2 & R3). destruct (same_o _ _ (S Col)) as (C1 & C2 & C3).
  assert (Sq' : square Ls'). { destruct (same_o _ _ Sq) as (Q1 & Q2 & Q3). repeat split; [congruence|congruence|]. change (l_o (Ls' Row) = l_o (Ls' Col)). congruence. }
  destruct (hermitian_values _ _ _ z band M B Sq) as (A & E & V). destruct (hermitian_values _ _ _ z band M' B' Sq') as (A' & E' & V').
  exists A, A'. split; [exact E|]. split; [exact E'|]. intros x y S1. destruct (V x y S1) as [V1 (v & Hv)]. rewrite (V1 v Hv). rewrite R1, R2, R3 in Hv. split; intros S2.
  - apply (V' x y S2). exact Hv.
  - apply (V' y x S2). apply hval_sym; [exact SO|exact Hv].
Qed.
(** the elements: random values (or their conjugates) off the diagonal, the real part of a random value plus the offset on the diagonal, zero outside the band (tiles off the diagonal) *)
Theorem C51_hermitian_elements : forall z band rank Ls d M A, built rank Ls d -> square Ls ->
  set_random_hermitian_with_offset kconj k0 real_plus rng d z band M = Ok A -> forall x y, stored rank Ls x y ->
  (x = y -> exists s k, local_value d A x y = real_plus (rng s k) z) /\
  (x <> y -> exists s k, local_value d A x y = rng s k \/ local_value d A x y = kconj (rng s k) \/ (band <> None /\ local_value d A x y = k0)) /\
  (forall b, band = Some b -> tile_of (Ls Row) x <> tile_of (Ls Col) y -> b < Z.abs (x - y) -> local_value d A x y = k0).
Proof.
  intros z band rank Ls d M A B Sq E0 x y S. destruct (hermitian_values _ _ _ z band M B Sq) as (A' & E & V). rewrite E0 in E. injection E as <-.
  destruct (V x y S) as [V1 (v & Hv)]. pose proof (V1 v Hv) as EV. rewrite EV. clear V V1.
  rewrite (g_tile_of _ _ _ (built_row _ _ _ B)), (g_tile_of _ _ _ (built_col _ _ _ B)). destruct (same_o _ _ Sq) as (Q1 & Q2 & Q3). rewrite <- Q2, <- Q3.
  set (n := l_size (Ls Row)) in *. set (nb := l_tile (Ls Row)) in *. set (o := l_o (Ls Row)) in *.
  unfold hval in Hv. cbv zeta in Hv. destruct (Z.eqb_spec (g_tile nb o x) (g_tile nb o y)) as [T|T].
  - unfold diag_w in Hv. apply in_writes in Hv as (k & [i j] & Ek & H). apply nth_error_In, in_diag_items in Ek. unfold diag_ws in H. cbn [fst snd] in H. rewrite T in *.
    split; [|split; [|intros b _ N; contradiction]].
    + intros ->. destruct (Z.eqb_spec i j) as [->|N]; [destruct H as [Q|[]]|destruct H as [Q|[Q|[]]]]; injection Q as A1 A2 A3; [subst v; eauto|exfalso; lia|exfalso; lia].
    + intros Ne. destruct (Z.eqb_spec i j) as [->|N]; [destruct H as [Q|[]]; injection Q as A1 A2 A3; exfalso; lia|destruct H as [Q|[Q|[]]]]; injection Q as A1 A2 A3; subst v; eauto.
  - assert (Ne : x <> y) by (intros ->; congruence). split; [congruence|]. unfold off_w in Hv. apply in_writes in Hv as (k & e & Ek & H). unfold off_ws in H. cbv zeta in H.
    set (lower := g_tile nb o y <? g_tile nb o x) in *. destruct (inside _ _); [|destruct H]. destruct H as [Q|[]]. injection Q as A1 A2.
    assert (IX : exists p q, (if lower then e else (snd e, fst e)) = (p, q)) by (destruct (if lower then e else (snd e, fst e)); eauto). destruct IX as (p & q & IX). rewrite IX in *. cbn [fst snd] in *.
    injection A1 as -> ->. split.
    + intros _. destruct (is_off_band _ band) eqn:OB; [|destruct lower; subst v; eauto]. exists 0, O. right. right. split; [|congruence]. intros ->. discriminate OB.
    + intros b -> _ Lb. assert (OB : is_off_band (g_first nb o (g_tile nb o x) + (x - g_first nb o (g_tile nb o x)), g_first nb o (g_tile nb o y) + (y - g_first nb o (g_tile nb o y))) (Some b) = true).
      { cbn [is_off_band fst snd]. rewrite Z.gtb_ltb, orb_true_iff, !Z.ltb_lt. lia. }
      rewrite OB in A2. congruence.
Qed.
(** C51 (no zero on the diagonal) *)
Theorem C51_non_zero_diagonal : forall (P : K -> Prop), (forall v, P (away v)) -> forall rank Ls d M A, built rank Ls d -> square Ls ->
  set_random_non_zero_diagonal rng away d M = Ok A -> forall x y, stored rank Ls x y ->
  (x = y -> P (local_value d A x y)) /\ exists s k, local_value d A x y = rng s k \/ (x = y /\ local_value d A x y = away (rng s k)).
Proof.
  intros P HP rank Ls d M A B Sq E0 x y S. destruct (same_o _ _ Sq) as (Q1 & Q2 & Q3). destruct (non_zero_values _ _ _ M B Q1 Q2) as (A' & E & V).
  rewrite E0 in E. injection E as <-. destruct (V x y S) as [V1 (v & Hv)]. rewrite (V1 v Hv). clear V V1. unfold rvalL, rval in Hv. cbv zeta in Hv. rewrite <- Q2, <- Q3 in Hv.
  cbn [fst snd] in Hv. apply in_writes in Hv as (k & e & Ek & [Q|[]]). unfold off_zero in Q. cbn [fst snd] in Q. injection Q as -> Qv. cbn [fst snd] in Qv.
  set (nb := l_tile (Ls Row)) in *. set (o := l_o (Ls Row)) in *. split.
  - intros ->. rewrite !Z.eqb_refl in Qv. cbn [andb] in Qv. subst v. apply HP.
  - destruct (Z.eqb_spec (g_tile nb o x) (g_tile nb o y)) as [T|T]; cbn [andb] in Qv; [|subst v; eauto]. rewrite T in Qv.
    destruct (Z.eqb_spec (x - g_first nb o (g_tile nb o y)) (y - g_first nb o (g_tile nb o y))) as [D|D]; subst v; eexists _, _; [right; split; [lia|reflexivity]|left; reflexivity].
Qed.
End thms.

(** ** Positive definite *)
(** the whole matrix: the element (x, y) is read on the rank that stores it *)
Definition whole {K} (Ls : coord -> layout) (ds : pair_Z -> distribution) (A : pair_Z -> pair_Z -> pair_Z -> K) (x y : Z) : K :=
  let r := (owner (Ls Row) x, owner (Ls Col) y) in local_value (ds r) (A r) x y.
Definition on_grid (Ls : coord -> layout) (r : pair_Z) : Prop := 0 <= fst r < l_grid (Ls Row) /\ 0 <= snd r < l_grid (Ls Col).
Local Open Scope R_scope.
Definition sumR (n : Z) (f : Z -> R) : R := fold_right (fun i s => f i + s) 0 (zrange 0 n).

Lemma sumR_add : forall n f g, sumR n (fun i => f i + g i) = sumR n f + sumR n g.
Proof. intros n f g. unfold sumR. induction (zrange 0 n) as [|i l IH]; cbn; [lra|rewrite IH; lra]. Qed.
Lemma sumR_scal : forall n c f, sumR n (fun i => c * f i) = c * sumR n f.
Proof. intros n c f. unfold sumR. induction (zrange 0 n) as [|i l IH]; cbn; [lra|rewrite IH; lra]. Qed.
Lemma sumR_const : forall n c, (0 <= n)%Z -> sumR n (fun _ => c) = IZR n * c.
Proof.
  intros n c Hn. unfold sumR. assert (X : forall l, fold_right (fun (_ : Z) s => c + s) 0 l = INR (length l) * c).
  { induction l as [|i l IH]; [cbn; lra|]. cbn [fold_right length]. rewrite S_INR, IH. lra. }
  rewrite X. unfold zrange. rewrite map_length, seq_length, INR_IZR_INZ, Z2Nat.id by lia. rewrite Z.sub_0_r. reflexivity.
Qed.
Lemma sumR_ext : forall n f g, (forall i, (0 <= i < n)%Z -> f i = g i) -> sumR n f = sumR n g.
Proof.
  intros n f g H. unfold sumR. assert (X : forall l, (forall i, In i l -> f i = g i) -> fold_right (fun i s => f i + s) 0 l = fold_right (fun i s => g i + s) 0 l).
  { induction l as [|i l IH]; intros Hl; [reflexivity|]. cbn. rewrite Hl, IH; [reflexivity| |left; reflexivity]. intros; apply Hl; right; assumption. }
  apply X. intros i Hi. apply H, in_zrange, Hi.
Qed.
Lemma sumR_le : forall n f g, (forall i, (0 <= i < n)%Z -> f i <= g i) -> sumR n f <= sumR n g.
Proof.
  intros n f g H. unfold sumR. assert (X : forall l, (forall i, In i l -> f i <= g i) -> fold_right (fun i s => f i + s) 0 l <= fold_right (fun i s => g i + s) 0 l).
  { induction l as [|i l IH]; intros Hl; [cbn; lra|]. cbn. apply Rplus_le_compat; [apply Hl; left; reflexivity|apply IH; intros; apply Hl; right; assumption]. }
  apply X. intros i Hi. apply H, in_zrange, Hi.
Qed.
Lemma sumR_delta : forall n x (c : R), (0 <= x < n)%Z -> sumR n (fun y => if (x =? y)%Z then c else 0) = c.
Proof.
  intros n x c Hx. unfold sumR. assert (X : forall l, NoDup l -> fold_right (fun y s => (if (x =? y)%Z then c else 0) + s) 0 l = if in_dec Z.eq_dec x l then c else 0).
  { induction l as [|y l IH]; intros N; [reflexivity|]. inversion N; subst. cbn [fold_right]. rewrite IH by assumption. destruct (Z.eqb_spec x y) as [->|Q].
    - destruct (in_dec Z.eq_dec y l); [contradiction|]. destruct (in_dec Z.eq_dec y (y :: l)) as [_|F]; [lra|destruct F; left; reflexivity].
    - destruct (in_dec Z.eq_dec x l) as [I|I], (in_dec Z.eq_dec x (y :: l)) as [J|J]; [lra|destruct J; right; exact I|destruct J; [congruence|contradiction]|lra]. }
  rewrite X by apply zrange_nodup. destruct (in_dec Z.eq_dec x (zrange 0 n)) as [_|F]; [reflexivity|]. destruct F. apply in_zrange. exact Hx.
Qed.
Lemma sumR_pos : forall n f i, (0 <= i < n)%Z -> (forall j, 0 <= f j) -> 0 < f i -> 0 < sumR n f.
Proof. intros n f i Hi H Hp. unfold sumR. pose proof (sumsq_ge f (zrange 0 n) i H (proj2 (in_zrange 0 n i) Hi)) as X. cbv beta in X. lra. Qed.
(** diagonal dominance: q x y are the terms of a quadratic form, s x the squares *)
Lemma dominant : forall n (q : Z -> Z -> R) (s : Z -> R), (0 <= n)%Z -> (forall x, 0 <= s x) ->
  (forall x y, (0 <= x < n)%Z -> (0 <= y < n)%Z -> - (s x + s y) / 2 + (if (x =? y)%Z then 2 * IZR n * s x else 0) <= q x y) ->
  IZR n * sumR n s <= sumR n (fun x => sumR n (q x)).
Proof.
  intros n q s Hn Hs H. apply Rle_trans with (sumR n (fun x => sumR n (fun y => - (s x + s y) / 2 + (if (x =? y)%Z then 2 * IZR n * s x else 0)))).
  - apply Req_le. transitivity (sumR n (fun x => ((2 * IZR n - IZR n / 2) * s x + - (1/2) * sumR n s))).
    + rewrite sumR_add, sumR_scal, sumR_const by exact Hn. field.
    + symmetry. apply sumR_ext. intros x Hx. rewrite sumR_add, sumR_delta by exact Hx.
      transitivity (sumR n (fun y => - (1/2) * s x + - (1/2) * s y) + 2 * IZR n * s x); [f_equal; apply sumR_ext; intros; lra|].
      rewrite sumR_add, sumR_const, sumR_scal by exact Hn. field.
  - apply sumR_le. intros x Hx. apply sumR_le. intros y Hy. apply H; assumption.
Qed.

Lemma owner_range : forall L e, layout_ok L -> (0 <= owner L e < l_grid L)%Z.
Proof. intros L e O. unfold owner. apply Z.mod_pos_bound. destruct O. assumption. Qed.

(** C51 (positive definite, real): x^T A x >= n * |x|^2. *)
Definition r_plus (v : R) (z : Z) : R := v + IZR z.
Theorem C51_positive_definite_real : forall (rng : Z -> nat -> R), (forall s k, Rabs (rng s k) <= 1) ->
  forall Ls ds M A, (forall rc, layout_ok (Ls rc)) -> square Ls -> (forall r, on_grid Ls r -> built r Ls (ds r)) ->
  (forall r, on_grid Ls r -> set_random_hermitian_positive_definite (fun x => x) 0 r_plus rng (ds r) (M r) = Ok (A r)) ->
  let n := l_size (Ls Row) in let F := whole Ls ds A in
  (forall x y, (0 <= x < n)%Z -> (0 <= y < n)%Z -> F y x = F x y) /\
  forall u : Z -> R, (exists i, (0 <= i < n)%Z /\ u i <> 0) -> 0 < sumR n (fun x => sumR n (fun y => u x * F x y * u y)).
Proof.
  intros rng RB Ls ds M A LO Sq B E n F.
  assert (SO : scalar_ok (fun x : R => x) 0 r_plus) by (constructor; reflexivity).
  assert (N0 : (0 <= n)%Z) by (destruct (LO Row); assumption).
  assert (SC : l_size (Ls Col) = n) by (symmetry; apply Sq).
  assert (G : forall x y, on_grid Ls (owner (Ls Row) x, owner (Ls Col) y)) by (intros x y; split; apply owner_range, LO).
  assert (ST : forall x y, (0 <= x < n)%Z -> (0 <= y < n)%Z -> stored (owner (Ls Row) x, owner (Ls Col) y) Ls x y) by (intros x y Hx Hy; repeat split; cbn; try lia; reflexivity).
  assert (Z2 : forall r, on_grid Ls r -> ax_size (d_row (ds r)) = n) by (intros r Hr; apply (size_eq _ _ _ (built_row _ _ _ (B r Hr)))).
  split.
  - intros x y Hx Hy. unfold F, whole. cbv zeta.
    destruct (C51_hermitian (fun x : R => x) 0 r_plus rng SO (2 * n) None _ _ _ (M (owner (Ls Row) x, owner (Ls Col) y)) _ _ _ (M (owner (Ls Row) y, owner (Ls Col) x))
       (B _ (G x y)) (B _ (G y x)) ltac:(intros rc; repeat split) Sq) as (A1 & A2 & E1 & E2 & V).
    pose proof (E _ (G x y)) as Q1. pose proof (E _ (G y x)) as Q2. unfold set_random_hermitian_positive_definite in Q1, Q2. rewrite (Z2 _ (G x y)) in Q1. rewrite (Z2 _ (G y x)) in Q2.
    rewrite E1 in Q1. rewrite E2 in Q2. injection Q1 as <-. injection Q2 as <-. apply (V x y (ST x y Hx Hy)). apply ST; assumption.
  - intros u (i & Hi & Ui). apply Rlt_le_trans with (IZR n * sumR n (fun x => u x * u x)).
    + apply Rmult_lt_0_compat; [apply IZR_lt; lia|]. apply (sumR_pos n _ i Hi); [intros j; nra|nra].
    + apply dominant; [exact N0|intros x; nra|]. intros x y Hx Hy. unfold F, whole. cbv zeta. pose proof (E _ (G x y)) as Q. unfold set_random_hermitian_positive_definite in Q. rewrite (Z2 _ (G x y)) in Q.
      destruct (C51_hermitian_elements (fun x : R => x) 0 r_plus rng (2 * n) None _ _ _ _ _ (B _ (G x y)) Sq Q x y (ST x y Hx Hy)) as (D & O & _).
      set (v := local_value _ _ x y) in *. clearbody v. destruct (Z.eqb_spec x y) as [->|Ne].
      * destruct (D eq_refl) as (s & k & ->). specialize (RB s k). apply Rabs_le_inv in RB || apply Rabs_def2_le in RB || (unfold Rabs in RB; destruct (Rcase_abs (rng s k))).
        all: unfold r_plus; rewrite mult_IZR; assert (0 <= u y * u y) by nra; nra.
      * assert (VB : -1 <= v <= 1).
        { destruct (O Ne) as (s & k & [-> |[-> |[F1 _]]]); [| |congruence]; pose proof (RB s k) as RBs; unfold Rabs in RBs; destruct (Rcase_abs (rng s k)); lra. }
        clear - VB. pose proof (Rle_0_sqr (u x + u y)) as S1. pose proof (Rle_0_sqr (u x - u y)) as S2. unfold Rsqr in S1, S2.
        replace (u x * v * u y) with (v * (u x * u y)) by ring. set (p := u x * u y) in *.
        assert (P1 : u x * u x + 2 * p + u y * u y >= 0) by (unfold p; lra). assert (P2 : u x * u x - 2 * p + u y * u y >= 0) by (unfold p; lra). clearbody p.
        destruct (Rle_dec 0 p) as [P|P].
        { assert (0 <= (v + 1) * p) by (apply Rmult_le_pos; lra). lra. }
        { assert (0 <= (1 - v) * - p) by (apply Rmult_le_pos; lra). lra. }
Qed.

(** C51 (positive definite, complex): u^H A u is real and positive. *)
Definition c_plus (v : cplx) (z : Z) : cplx := (fst v + IZR z, 0).
Definition sumC (n : Z) (f : Z -> cplx) : cplx := (sumR n (fun i => fst (f i)), sumR n (fun i => snd (f i))).
Lemma sumR_swap : forall n f, sumR n (fun x => sumR n (fun y => f x y)) = sumR n (fun y => sumR n (fun x => f x y)).
Proof.
  intros n f. unfold sumR at 1 4. set (l := zrange 0 n). clearbody l. unfold sumR.
  induction l as [|i l IH]; cbn [fold_right]; [|rewrite IH].
  - induction (zrange 0 n) as [|j m IH]; cbn [fold_right]; [reflexivity|lra].
  - change (sumR n (fun y => f i y) + sumR n (fun y => fold_right (fun x s => f x y + s) 0 l) = sumR n (fun y => f i y + fold_right (fun x s => f x y + s) 0 l)).
    rewrite sumR_add. reflexivity.
Qed.
Lemma c_bound : forall a v b : cplx, c_norm v <= 1 -> - (c_norm a + c_norm b) / 2 <= fst (c_mul (c_mul (c_conj a) v) b).
Proof.
  intros [a1 a2] [v1 v2] [b1 b2]. unfold c_norm, c_mul, c_conj. cbn [fst snd]. intros H.
  (* w = v b has |w| <= |b|; 0 <= |a + w|^2 *)
  set (w1 := v1 * b1 - v2 * b2). set (w2 := v1 * b2 + v2 * b1).
  assert (W : w1 * w1 + w2 * w2 = (v1 * v1 + v2 * v2) * (b1 * b1 + b2 * b2)) by (unfold w1, w2; ring).
  assert (W2 : w1 * w1 + w2 * w2 <= b1 * b1 + b2 * b2).
  { rewrite W. pose proof (Rle_0_sqr b1) as S1. pose proof (Rle_0_sqr b2) as S2. unfold Rsqr in *. rewrite <- (Rmult_1_l (b1 * b1 + b2 * b2)) at 2. apply Rmult_le_compat_r; lra. }
  replace ((a1 * v1 - - a2 * v2) * b1 - (a1 * v2 + - a2 * v1) * b2) with (a1 * w1 + a2 * w2) by (unfold w1, w2; ring). clearbody w1 w2.
  pose proof (Rle_0_sqr (a1 + w1)) as S1. pose proof (Rle_0_sqr (a2 + w2)) as S2. unfold Rsqr in S1, S2. lra.
Qed.
Lemma c_scalar_ok : scalar_ok c_conj (0, 0) c_plus.
Proof.
  constructor.
  - intros [a b]. unfold c_conj. cbn. f_equal. lra.
  - unfold c_conj. cbn. f_equal. lra.
  - intros v z. unfold c_conj, c_plus. cbn. f_equal. lra.
Qed.
Theorem C51_positive_definite_complex : forall (rng : Z -> nat -> cplx), (forall s k, c_norm (rng s k) <= 1) ->
  forall Ls ds M A, (forall rc, layout_ok (Ls rc)) -> square Ls -> (forall r, on_grid Ls r -> built r Ls (ds r)) ->
  (forall r, on_grid Ls r -> set_random_hermitian_positive_definite c_conj (0, 0) c_plus rng (ds r) (M r) = Ok (A r)) ->
  let n := l_size (Ls Row) in let F := whole Ls ds A in
  (forall x y, (0 <= x < n)%Z -> (0 <= y < n)%Z -> F y x = c_conj (F x y)) /\
  forall u : Z -> cplx, (exists i, (0 <= i < n)%Z /\ u i <> (0, 0)) -> c_pos (sumC n (fun x => sumC n (fun y => c_mul (c_mul (c_conj (u x)) (F x y)) (u y)))).
Proof.
  intros rng RB Ls ds M A LO Sq B E n F.
  assert (N0 : (0 <= n)%Z) by (destruct (LO Row); assumption).
  assert (SC : l_size (Ls Col) = n) by (symmetry; apply Sq).
  assert (G : forall x y, on_grid Ls (owner (Ls Row) x, owner (Ls Col) y)) by (intros x y; split; apply owner_range, LO).
  assert (ST : forall x y, (0 <= x < n)%Z -> (0 <= y < n)%Z -> stored (owner (Ls Row) x, owner (Ls Col) y) Ls x y) by (intros x y Hx Hy; repeat split; cbn; try lia; reflexivity).
  assert (Z2 : forall r, on_grid Ls r -> ax_size (d_row (ds r)) = n) by (intros r Hr; apply (size_eq _ _ _ (built_row _ _ _ (B r Hr)))).
  assert (HS : forall x y, (0 <= x < n)%Z -> (0 <= y < n)%Z -> F y x = c_conj (F x y)).
  { intros x y Hx Hy. unfold F, whole. cbv zeta.
    destruct (C51_hermitian c_conj (0, 0) c_plus rng c_scalar_ok (2 * n) None _ _ _ (M (owner (Ls Row) x, owner (Ls Col) y)) _ _ _ (M (owner (Ls Row) y, owner (Ls Col) x))
       (B _ (G x y)) (B _ (G y x)) ltac:(intros rc; repeat split) Sq) as (A1 & A2 & E1 & E2 & V).
    pose proof (E _ (G x y)) as Q1. pose proof (E _ (G y x)) as Q2. unfold set_random_hermitian_positive_definite in Q1, Q2. rewrite (Z2 _ (G x y)) in Q1. rewrite (Z2 _ (G y x)) in Q2.
    rewrite E1 in Q1. rewrite E2 in Q2. injection Q1 as <-. injection Q2 as <-. apply (V x y (ST x y Hx Hy)). apply ST; assumption. }
  split; [exact HS|].
  intros u (i & Hi & Ui). split.
  - unfold sumC. cbn [snd]. set (q := fun x y => snd (c_mul (c_mul (c_conj (u x)) (F x y)) (u y))).
    change (sumR n (fun x => sumR n (fun y => q x y)) = 0).
    assert (AS : sumR n (fun x => sumR n (fun y => q x y)) = sumR n (fun x => sumR n (fun y => -1 * q y x))).
    { apply sumR_ext. intros x Hx. apply sumR_ext. intros y Hy. unfold q. rewrite (HS x y Hx Hy). unfold c_mul, c_conj. cbn [fst snd]. ring. }
    rewrite sumR_swap in AS. 
    assert (AS2 : sumR n (fun x => sumR n (fun y => -1 * q y x)) = -1 * sumR n (fun y => sumR n (fun x => q x y))).
    { rewrite <- sumR_scal. apply sumR_ext. intros x Hx. apply sumR_scal. }
    rewrite AS2 in AS. rewrite sumR_swap. lra.
  - unfold sumC. cbn [fst]. apply Rlt_le_trans with (IZR n * sumR n (fun x => c_norm (u x))).
    + assert (CN : forall j, 0 <= c_norm (u j)).
      { intros j. unfold c_norm. pose proof (Rle_0_sqr (fst (u j))). pose proof (Rle_0_sqr (snd (u j))). unfold Rsqr in *. lra. }
      apply Rmult_lt_0_compat; [apply IZR_lt; lia|]. apply (sumR_pos n _ i Hi); [exact CN|].
      pose proof (CN i). pose proof (c_norm_neq (u i) Ui). lra.
    + apply dominant; [exact N0| |].
      { intros j. unfold c_norm. pose proof (Rle_0_sqr (fst (u j))). pose proof (Rle_0_sqr (snd (u j))). unfold Rsqr in *. lra. }
      intros x y Hx Hy. unfold F, whole. cbv zeta. pose proof (E _ (G x y)) as Q. unfold set_random_hermitian_positive_definite in Q. rewrite (Z2 _ (G x y)) in Q.
      destruct (C51_hermitian_elements c_conj (0, 0) c_plus rng (2 * n) None _ _ _ _ _ (B _ (G x y)) Sq Q x y (ST x y Hx Hy)) as (D & O & _).
      set (v := local_value _ _ x y) in *. clearbody v. destruct (Z.eqb_spec x y) as [->|Ne].
      * destruct (D eq_refl) as (s & k & ->). specialize (RB s k). unfold c_plus. rewrite mult_IZR. set (r := rng s k) in *.
        replace (fst (c_mul (c_mul (c_conj (u y)) (fst r + 2 * IZR n, 0)) (u y))) with (fst r * c_norm (u y) + 2 * IZR n * c_norm (u y)) by (unfold c_mul, c_conj, c_norm; cbn [fst snd]; ring).
        assert (CN : 0 <= c_norm (u y)).
        { unfold c_norm. pose proof (Rle_0_sqr (fst (u y))). pose proof (Rle_0_sqr (snd (u y))). unfold Rsqr in *. lra. }
        assert (FR : -1 <= fst r).
        { unfold c_norm in RB. pose proof (Rle_0_sqr (snd r)) as S2. unfold Rsqr in S2. destruct (Rle_dec (-1) (fst r)) as [|N]; [assumption|exfalso]. assert (1 < fst r * fst r) by nra. lra. }
        assert (0 <= (fst r + 1) * c_norm (u y)) by (apply Rmult_le_pos; lra). lra.
      * rewrite Rplus_0_r. apply c_bound. destruct (O Ne) as (s & k & [-> |[-> |[F1 _]]]); [apply RB| |congruence].
        unfold c_conj, c_norm. cbn [fst snd]. specialize (RB s k). unfold c_norm in RB. lra.
Qed.

(** ** The diagonal of set_random_non_zero_diagonal *)
(** util_matrix.h:579-585 for real and for complex numbers *)
Definition away_real (v : R) : R := if Rlt_dec (Rabs v) (1/10) then if Req_EM_T v 0 then 1/10 else 1/10 * v / Rabs v else v.
Definition c_abs (v : cplx) : R := sqrt (c_norm v).
Definition away_complex (v : cplx) : cplx :=
  if Rlt_dec (c_abs v) (1/10) then if c_eq_dec v (0, 0) then (1/10, 0) else (1/10 * fst v / c_abs v, 1/10 * snd v / c_abs v) else v.
Lemma away_real_ok : forall v, 1/10 <= Rabs (away_real v) /\ (Rabs v <= 1 -> Rabs (away_real v) <= 1).
Proof.
  intros v. unfold away_real. destruct (Rlt_dec (Rabs v) (1/10)) as [L|L]; [|lra].
  assert (X : forall w, Rabs w = 1/10 -> 1/10 <= Rabs w /\ (Rabs v <= 1 -> Rabs w <= 1)) by (intros w ->; lra). apply X.
  destruct (Req_EM_T v 0) as [->|N]; [rewrite Rabs_right; lra|]. pose proof (Rabs_no_R0 v N) as NN. replace (1 / 10 * v / Rabs v) with (1 / 10 * (v * / Rabs v)) by (field; exact NN).
  rewrite !Rabs_mult, Rabs_inv, Rabs_Rabsolu, (Rabs_right (1/10)) by lra. field. exact NN.
Qed.
Lemma away_complex_ok : forall v, 1/10 <= c_abs (away_complex v) /\ (c_abs v <= 1 -> c_abs (away_complex v) <= 1).
Proof.
  intros v. unfold away_complex. destruct (Rlt_dec (c_abs v) (1/10)) as [L|L]; [|lra].
  assert (X : forall w, c_abs w = 1/10 -> 1/10 <= c_abs w /\ (c_abs v <= 1 -> c_abs w <= 1)) by (intros w ->; lra). apply X.
  destruct (c_eq_dec v (0, 0)) as [->|N].
  - unfold c_abs, c_norm. cbn [fst snd]. replace (1 / 10 * (1 / 10) + 0 * 0) with (1 / 10 * (1 / 10)) by ring. apply sqrt_square. lra.
  - pose proof (c_norm_neq v N) as NN. assert (P : 0 < c_norm v).
    { assert (0 <= c_norm v) by (unfold c_norm; pose proof (Rle_0_sqr (fst v)); pose proof (Rle_0_sqr (snd v)); unfold Rsqr in *; lra). lra. }
    pose proof (sqrt_lt_R0 _ P) as SP. pose proof (sqrt_sqrt (c_norm v) ltac:(lra)) as SS. unfold c_abs. set (q := sqrt (c_norm v)) in *.
    unfold c_norm at 1. cbn [fst snd]. replace (1 / 10 * fst v / q * (1 / 10 * fst v / q) + 1 / 10 * snd v / q * (1 / 10 * snd v / q)) with (1 / 10 * (1 / 10) * (c_norm v / (q * q))) by (unfold c_norm; field; lra).
    rewrite SS. replace (c_norm v / c_norm v) with 1 by (field; lra). rewrite Rmult_1_r. apply sqrt_square. lra.
Qed.
(** C51 (no zero on the diagonal, real and complex): the absolute value of a diagonal element is in [1/10, 1], of every other element in [0, 1]. *)
Theorem C51_non_zero_diagonal_real : forall (rng : Z -> nat -> R), (forall s k, Rabs (rng s k) <= 1) -> forall rank Ls d M A, built rank Ls d -> square Ls ->
  set_random_non_zero_diagonal rng away_real d M = Ok A -> forall x y, stored rank Ls x y -> Rabs (local_value d A x y) <= 1 /\ (x = y -> 1/10 <= Rabs (local_value d A x y)).
Proof.
  intros rng RB rank Ls d M A B Sq E x y S. destruct (C51_non_zero_diagonal rng away_real (fun v => 1/10 <= Rabs v) (fun v => proj1 (away_real_ok v)) rank Ls d M A B Sq E x y S) as [D (s & k & H)].
  split; [|exact D]. destruct H as [-> |[_ ->]]; [apply RB|apply away_real_ok, RB].
Qed.
Theorem C51_non_zero_diagonal_complex : forall (rng : Z -> nat -> cplx), (forall s k, c_abs (rng s k) <= 1) -> forall rank Ls d M A, built rank Ls d -> square Ls ->
  set_random_non_zero_diagonal rng away_complex d M = Ok A -> forall x y, stored rank Ls x y -> c_abs (local_value d A x y) <= 1 /\ (x = y -> 1/10 <= c_abs (local_value d A x y)).
Proof.
  intros rng RB rank Ls d M A B Sq E x y S. destruct (C51_non_zero_diagonal rng away_complex (fun v => 1/10 <= c_abs v) (fun v => proj1 (away_complex_ok v)) rank Ls d M A B Sq E x y S) as [D (s & k & H)].
  split; [|exact D]. destruct H as [-> |[_ ->]]; [apply RB|apply away_complex_ok, RB].
Qed.

(** ** Where the documentation promises more than the code does *)
Local Open Scope Z_scope.
(** set_random_hermitian_banded: inside a diagonal tile the band is ignored; here the matrix is one 3 x 3 tile, the band size is 1 and the element (2, 0) is a random value *)
Theorem C51_banded_diagonal_tile_refuted : exists d, dist_ctor_local (3, 3) (3, 3) (0, 0) = Ok d /\
  forall (K : Type) kconj (k0 : K) real_plus rng M, exists A, set_random_hermitian_banded kconj k0 real_plus rng d 1 M = Ok A /\
    A (0, 0) (2, 0) = kconj (rng 0 3%nat).
Proof.
  eexists. split; [vm_compute; reflexivity|]. intros K kconj k0 real_plus rng M. eexists. split; [vm_compute; reflexivity|]. vm_compute. reflexivity.
Qed.
(** a square matrix with square tiles whose first tile is cut differently in rows and columns passes the two assertions and writes outside of a tile *)
Theorem C51_offset_mismatch_refuted : exists d, dist_ctor_local (2, 2) (2, 2) (1, 0) = Ok d /\ ax_size (d_row d) = ax_size (d_col d) /\ ax_tile (d_row d) = ax_tile (d_col d) /\
  forall (K : Type) kconj (k0 : K) real_plus rng M, set_random_hermitian kconj k0 real_plus rng d M = UB.
Proof.
  eexists. split; [vm_compute; reflexivity|]. split; [vm_compute; reflexivity|]. split; [vm_compute; reflexivity|]. intros K kconj k0 real_plus rng M. vm_compute. reflexivity.
Qed.

(** ** The hypotheses are met: a 5 x 5 matrix with 2 x 2 tiles on a 2 x 2 grid *)
Example setters_example : let Ls := arg_layout (5, 5) (2, 2) (2, 2) (2, 2) (0, 0) (1, 1) in
  (forall rc, layout_ok (Ls rc)) /\ square Ls /\ exists ds, (forall r, on_grid Ls r -> built r Ls (ds r)) /\
  forall (rng : Z -> nat -> R) M, exists A, forall r, on_grid Ls r -> set_random_hermitian_positive_definite (fun x => x) 0%R r_plus rng (ds r) (M r) = Ok (A r).
Proof.
  cbv zeta. set (Ls := arg_layout (5, 5) (2, 2) (2, 2) (2, 2) (0, 0) (1, 1)).
  assert (LO : forall rc, layout_ok (Ls rc)) by (intros []; constructor; cbn; try lia; exists 1; reflexivity).
  assert (Sq : square Ls) by (repeat split). split; [exact LO|]. split; [exact Sq|].
  set (dd := fun r => dist_ctor (5, 5) (2, 2) (2, 2) (2, 2) r (0, 0) (1, 1)).
  assert (B : forall r, on_grid Ls r -> exists d, dd r = Ok d /\ built r Ls d).
  { intros r [H1 H2]. cbn in H1, H2. apply ctor_accepts.
    - intros []; cbn; repeat split; try lia; exists 1; reflexivity.
    - intros []; cbn; unfold i32_max, i64_max; lia.
    - intros []; cbn; unfold i32_max; lia. }
  exists (fun r => match dd r with Ok d => d | _ => default_distribution end).
  assert (B' : forall r, on_grid Ls r -> built r Ls (match dd r with Ok d => d | _ => default_distribution end)) by (intros r Hr; destruct (B r Hr) as (d & -> & X); exact X).
  split; [exact B'|]. intros rng M.
  exists (fun r => match set_random_hermitian_positive_definite (fun x => x) 0%R r_plus rng (match dd r with Ok d => d | _ => default_distribution end) (M r) with Ok a => a | _ => M r end).
  intros r Hr. unfold set_random_hermitian_positive_definite. destruct (hermitian_values (fun x => x) 0%R r_plus rng _ _ _ (2 * ax_size (d_row (match dd r with Ok d => d | _ => default_distribution end))) None (M r) (B' r Hr) Sq) as (a & Ea & _).
  rewrite Ea. reflexivity.
Qed.

(** ** Assumptions *)
Print Assumptions C51_set.
Print Assumptions C51_set_op.
Print Assumptions C51_identity.
Print Assumptions C51_random_same_on_every_grid.
Print Assumptions C51_non_zero_diagonal_same_on_every_grid.
Print Assumptions C51_hermitian.
Print Assumptions C51_hermitian_elements.
Print Assumptions C51_non_zero_diagonal.
Print Assumptions C51_positive_definite_real.
Print Assumptions C51_positive_definite_complex.
Print Assumptions C51_non_zero_diagonal_real.
Print Assumptions C51_non_zero_diagonal_complex.
Print Assumptions C51_banded_diagonal_tile_refuted.
Print Assumptions C51_offset_mismatch_refuted.
