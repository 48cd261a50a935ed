(** * C25: copy with redistribution. *)
From Coq Require Import ZArith Lia List Bool Permutation Znumtheory.
From Verif Require Import CInt Loop DistModel DistSpec DistProofs DistBuilt DistCtor DistThms DistGrid PanelProofs Properties_Panel PermAxis NormModel Properties_Norm Properties_Retile CopyModel CopyProofs.
Import ListNotations.
Local Open Scope Z_scope.

(** ** One axis: original and retiled layout *)
Lemma retile_axis : forall p N B t g src a a', models p (Layout N B B g src 0) a -> models p (Layout N B t g src 0) a' -> 0 < t -> (t | B) ->
  forall x, 0 <= x < N -> owner (Layout N B B g src 0) x = p ->
  owner (Layout N B t g src 0) x = p /\
  count (tile_owned (Layout N B t g src 0) p) (tile_of (Layout N B t g src 0) x) = count (tile_owned (Layout N B B g src 0) p) (tile_of (Layout N B B g src 0) x) * (B / t) + x mod B / t.
Proof.
  intros p N B t g src a a' M M' Lt Dt x Lx O. set (L := Layout N B B g src 0) in *. set (L' := Layout N B t g src 0) in *.
  assert (O' : owner L' x = p) by exact O. split; [exact O'|].
  pose proof (m_ok _ _ _ M) as LO. assert (LB : 0 < B) by apply (lo_block _ LO). destruct Dt as [k K].
  assert (Kp : 0 < k) by nia. assert (BT : B / t = k) by (rewrite K; apply Z.div_mul; lia). assert (BK : B / k = t) by (rewrite K, Z.mul_comm; apply Z.div_mul; lia).
  assert (OT : forall T b, models p T b -> l_size T = N -> owner T x = p -> ax_local_tile_from_global_tile b (ax_global_tile_from_global_element b x) = count (tile_owned T p) (tile_of T x)).
  { intros T b MT SZ OX. pose proof (T_elem_to_tile _ _ _ MT x ltac:(rewrite SZ; exact Lx)) as (E1 & E2 & _). cbv zeta in *.
    rewrite (T_local_tile _ _ _ MT) by lia. rewrite E1. rewrite <- (T_tile_owner_elems _ _ _ MT), OX, Z.eqb_refl. reflexivity. }
  rewrite <- (OT L a M eq_refl O), <- (OT L' a' M' eq_refl O').
  assert (SR : src = ax_src a). { destruct (T_reported _ _ _ M) as (_ & _ & _ & _ & _ & _ & _ & S & _). rewrite S. unfold owner. change (l_off L) with 0. change (l_block L) with B. change (l_src L) with src. change (l_grid L) with g.
    change (0 + 0) with 0. rewrite Z.div_0_l by lia. rewrite Z.add_0_r. symmetry. apply Z.mod_small. exact (lo_src _ LO). }
  rewrite BT. unfold L'. rewrite <- BK. apply (rt_tile p L a k src a'); try assumption; try reflexivity.
  - cbn [L l_size l_block l_grid]. rewrite BK. exact M'.
  - exists t. unfold L. cbn [l_block]. lia.
Qed.

(** the retiled matrices have the same tiles *)
Lemma same_tiles : forall P Q size bS bD t srcS srcD DS DD,
  distributed P Q size bS t srcS (0, 0) DS -> distributed P Q size bD t srcD (0, 0) DD ->
  grid_axes P Q (arg_layout size bS t (P, Q) srcS (0, 0)) DS (fun rc => ax_nr_tiles (DS rc 0)) /\
  grid_axes P Q (arg_layout size bD t (P, Q) srcD (0, 0)) DD (fun rc => ax_nr_tiles (DS rc 0)).
Proof.
  intros P Q size bS bD t srcS srcD DS DD HS HD. pose proof (distributed_axes _ _ _ _ _ _ _ _ HS) as GS. pose proof (distributed_axes _ _ _ _ _ _ _ _ HD) as GD.
  split; [exact GS|]. destruct GD as [HP HQ GM GG GN]. constructor; try assumption. intros rc p Lp. rewrite (GN rc p Lp).
  assert (L0 : 0 <= 0 < gs P Q rc) by (pose proof (gs_pos P Q HP HQ rc); lia).
  pose proof (ga_models _ _ _ _ _ GS rc 0 L0) as M1. pose proof (GM rc 0 L0) as M2.
  assert (Z1 : forall s b, l_off (arg_layout size b t (P, Q) s (0, 0) rc) = 0) by (intros; destruct rc; reflexivity).
  pose proof (nt_iff _ _ _ M1 (Z1 _ _)) as X1. pose proof (nt_iff _ _ _ M2 (Z1 _ _)) as X2. cbn in X1, X2.
  pose proof (T_nt_nonneg _ _ _ M1). pose proof (T_nt_nonneg _ _ _ M2).
  destruct (Z.lt_total (ax_nr_tiles (DD rc 0)) (ax_nr_tiles (DS rc 0))) as [Q0|[Q0|Q0]]; [exfalso|exact Q0|exfalso].
  - assert (ax_nr_tiles (DD rc 0) < ax_nr_tiles (DD rc 0)); [|lia]. apply X2. apply X1. lia.
  - assert (ax_nr_tiles (DS rc 0) < ax_nr_tiles (DS rc 0)); [|lia]. apply X1. apply X2. lia.
Qed.

(** ** Specification *)
(** The matrices: m x n elements, blocks of bS (bD) elements with one tile each, source ranks srcS (srcD), on the same P x Q grid;
    OS (OD) are their Distribution objects and DS (DD) the ones of the retiled matrices, with tiles of the size t. *)
Record matrices (P Q m n : Z) (bS bD t srcS srcD : pair_Z) (OS OD DS DD : coord -> Z -> axis) : Prop := {
  mx_OS : distributed P Q (m, n) bS bS srcS (0, 0) OS; mx_DS : distributed P Q (m, n) bS t srcS (0, 0) DS;
  mx_OD : distributed P Q (m, n) bD bD srcD (0, 0) OD; mx_DD : distributed P Q (m, n) bD t srcD (0, 0) DD }.
Definition layout_of_args (P Q m n : Z) (b src : pair_Z) : coord -> layout := arg_layout (m, n) b b (P, Q) src (0, 0).
Definition tiles_per_block2 (b t : pair_Z) : pair_Z := (fst b / fst t, snd b / snd t).
(** every element of the destination is the element of the source with the same indices *)
Definition redistributed {V} (P Q m n : Z) (bS bD srcS srcD : pair_Z) (src dst' : Z -> pair_Z -> pair_Z -> V) : Prop :=
  forall x y, 0 <= x < m -> 0 <= y < n ->
  matrix_element Q (fst bD) (snd bD) (layout_of_args P Q m n bD srcD) dst' x y = matrix_element Q (fst bS) (snd bS) (layout_of_args P Q m n bS srcS) src x y.
(** the messages of all the ranks may be posted in this order *)
Definition posting_order (P Q : Z) (msgs order : Z -> list (Z * Z * pair_Z)) : Prop := forall r, In r (ranks P Q) -> Permutation (msgs r) (order r).

Lemma redistribute_element : forall V P Q m n bS bD t srcS srcD OS OD DS DD, matrices P Q m n bS bD t srcS srcD OS OD DS DD ->
  forall os or (src dst : Z -> nmat (V := V)), posting_order P Q (sends P Q DS DD) os -> posting_order P Q (recvs P Q DS DD) or ->
  (forall s d t, In s (ranks P Q) -> In d (ranks P Q) -> s <> d -> map (global_tile Q DS s) (on_channel d t (os s)) = map (global_tile Q DD d) (on_channel s t (or d))) ->
  redistributed P Q m n bS bD srcS srcD src (redistribute P Q DS DD (tiles_per_block2 bS t) (tiles_per_block2 bD t) t os or src dst).
Proof.
  intros V P Q m n [bSr bSc] [bDr bDc] [tr tc] [sSr sSc] [sDr sDc] OS OD DS DD [HOS HDS HOD HDD] os or src dst PS PR CO x y Lx Ly.
  destruct (same_tiles _ _ _ _ _ _ _ _ _ _ HDS HDD) as [GS GD]. set (nt := fun rc => ax_nr_tiles (DS rc 0)) in *.
  pose proof (distributed_axes _ _ _ _ _ _ _ _ HOS) as AS. pose proof (distributed_axes _ _ _ _ _ _ _ _ HOD) as AD.
  pose proof (ga_P _ _ _ _ _ GS) as HP. pose proof (ga_Q _ _ _ _ _ GS) as HQ.
  destruct HDS as (_ & _ & KS & _). destruct HDD as (_ & _ & KD & _).
  destruct (KS Row) as (_ & Tr & BSr & DSr & _), (KS Col) as (_ & Tc & BSc & DSc & _), (KD Row) as (_ & _ & BDr & DDr & _), (KD Col) as (_ & _ & BDc & DDc & _). cbn in Tr, Tc, DSr, DSc, DDr, DDc, BSr, BSc, BDr, BDc. clear KS KD.
  set (ij := (x / tr, y / tc)).
  assert (Vij : valid nt ij).
  { pose proof (ga_models _ _ _ _ _ GS Row 0 ltac:(cbn; lia)) as M1. pose proof (ga_models _ _ _ _ _ GS Col 0 ltac:(cbn; lia)) as M2.
    unfold valid, ij, nt. cbn [fst snd]. split; [apply (nt_iff _ _ _ M1 eq_refl)|apply (nt_iff _ _ _ M2 eq_refl)]; (split; [apply Z.div_pos; lia|]).
    - change (x / tr * tr < m). pose proof (Z.div_mod x tr). pose proof (Z.mod_pos_bound x tr). lia.
    - change (y / tc * tc < n). pose proof (Z.div_mod y tc). pose proof (Z.mod_pos_bound y tc). lia. }
  pose proof (copied_tile P Q _ _ _ _ _ GS GD os or (fun r => retiled (tiles_per_block2 (bSr, bSc) (tr, tc)) (tr, tc) (src r)) (fun r => retiled (tiles_per_block2 (bDr, bDc) (tr, tc)) (tr, tc) (dst r)) PS PR CO ij Vij) as CT.
  (* owners and local tiles, one axis *)
  assert (AX : forall N B T g s z (a a' : Z -> axis), (forall p, 0 <= p < g -> models p (Layout N B B g s 0) (a p)) -> (forall p, 0 <= p < g -> models p (Layout N B T g s 0) (a' p)) -> 0 < g -> 0 < T -> (T | B) -> 0 <= z < N ->
      let p := owner (Layout N B B g s 0) z in
      0 <= p < g /\ tile_owner (Layout N B T g s 0) (z / T) = p /\
      count (tile_owned (Layout N B T g s 0) p) (z / T) = count (tile_owned (Layout N B B g s 0) p) (tile_of (Layout N B B g s 0) z) * (B / T) + z mod B / T).
  { intros N B T g s z a a' MA MA' Lg LT DT Lz p. assert (Lp : 0 <= p < g) by (apply Z.mod_pos_bound; exact Lg).
    destruct (retile_axis p N B T g s (a p) (a' p) (MA p Lp) (MA' p Lp) LT DT z Lz eq_refl) as [O1 O2]. rewrite (tile_of_div _ _ _ (MA' p Lp) eq_refl) in O2.
    rewrite (own_tile _ _ _ (MA' p Lp) eq_refl) in O1. cbn [l_tile] in O1, O2. auto. }
  pose proof (AX m bSr tr P sSr x (OS Row) (DS Row) (ga_models _ _ _ _ _ AS Row) (ga_models _ _ _ _ _ GS Row) HP Tr DSr Lx) as (S1 & S2 & S3).
  pose proof (AX n bSc tc Q sSc y (OS Col) (DS Col) (ga_models _ _ _ _ _ AS Col) (ga_models _ _ _ _ _ GS Col) HQ Tc DSc Ly) as (S4 & S5 & S6).
  pose proof (AX m bDr tr P sDr x (OD Row) (DD Row) (ga_models _ _ _ _ _ AD Row) (ga_models _ _ _ _ _ GD Row) HP Tr DDr Lx) as (D1 & D2 & D3).
  pose proof (AX n bDc tc Q sDc y (OD Col) (DD Col) (ga_models _ _ _ _ _ AD Col) (ga_models _ _ _ _ _ GD Col) HQ Tc DDc Ly) as (D4 & D5 & D6). clear AX. cbv zeta in *.
  destruct (local_tile_in _ _ _ _ _ GS ij Vij) as (_ & _ & ES). destruct (local_tile_in _ _ _ _ _ GD ij Vij) as (_ & _ & ED). rewrite ES, ED in CT. clear ES ED.
  unfold own, ij in CT. cbn [fst snd] in CT. unfold arg_layout in CT. cbn [sel fst snd] in CT. rewrite S2, S5, D2, D5, S3, S6, D3, D6 in CT.
  unfold matrix_element, layout_of_args, arg_layout. cbn [sel fst snd]. cbv zeta.
  set (pS := owner (Layout m bSr bSr P sSr 0) x) in *. set (qS := owner (Layout n bSc bSc Q sSc 0) y) in *.
  set (pD := owner (Layout m bDr bDr P sDr 0) x) in *. set (qD := owner (Layout n bDc bDc Q sDc 0) y) in *.
  unfold redistribute, unretiled, tiles_per_block2 in *. cbn [fst snd] in *. rewrite CT. clear CT. unfold retiled. cbn [fst snd].
  assert (MM : forall z B T, 0 < T -> (T | B) -> 0 < B -> (z mod B) mod T = z mod T).
  { intros z B T LT [k ->] LB. rewrite (Z.mul_comm k T), Z.rem_mul_r by nia. rewrite (Z.mul_comm T), Z.mod_add by lia. apply Z.mod_mod. lia. }
  assert (QQ : forall c z B T, 0 < T -> (T | B) -> 0 < B -> (c * (B / T) + z mod B / T) / (B / T) = c /\ (c * (B / T) + z mod B / T) mod (B / T) * T + z mod T = z mod B).
  { intros c z B T LT DT LB. pose proof (MM z B T LT DT LB) as E. destruct DT as [k ->]. rewrite Z.div_mul by lia. assert (0 < k) by nia. pose proof (Z.mod_pos_bound z (k * T) LB) as B1.
    assert (B2 : 0 <= z mod (k * T) / T < k) by (split; [apply Z.div_pos; lia|apply Z.div_lt_upper_bound; lia]).
    split; [rewrite (Z.add_comm (c * k)), Z.div_add by lia; rewrite Z.div_small by exact B2; lia|]. rewrite (Z.add_comm (c * k)), Z.mod_add, (Z.mod_small (z mod (k * T) / T) k B2) by lia. rewrite <- E.
    pose proof (Z.div_mod (z mod (k * T)) T ltac:(lia)). lia. }
  rewrite !MM by assumption. destruct (QQ (count (tile_owned (Layout m bSr bSr P sSr 0) pS) (tile_of (Layout m bSr bSr P sSr 0) x)) x bSr tr Tr DSr BSr) as [-> ->].
  destruct (QQ (count (tile_owned (Layout n bSc bSc Q sSc 0) qS) (tile_of (Layout n bSc bSc Q sSc 0) y)) y bSc tc Tc DSc BSc) as [-> ->]. reflexivity.
Qed.

(** ** C25 *)
(** C25, messages.  For every pair of distributions, in whatever order the messages are posted: rank s sends to another rank d as
    many messages with a given tag as d expects from s. *)
Theorem C25_every_send_has_a_receive : forall P Q m n bS bD t srcS srcD OS OD DS DD, matrices P Q m n bS bD t srcS srcD OS OD DS DD ->
  forall os or, posting_order P Q (sends P Q DS DD) os -> posting_order P Q (recvs P Q DS DD) or ->
  forall s d tg, In s (ranks P Q) -> In d (ranks P Q) -> s <> d -> length (on_channel d tg (os s)) = length (on_channel s tg (or d)).
Proof.
  intros P Q m n bS bD t srcS srcD OS OD DS DD MX os or PS PR s d tg Is Id N. destruct (same_tiles _ _ _ _ _ _ _ _ _ _ (mx_DS _ _ _ _ _ _ _ _ _ _ _ _ _ MX) (mx_DD _ _ _ _ _ _ _ _ _ _ _ _ _ MX)) as [GS GD].
  rewrite <- (Permutation_length (on_channel_perm d tg _ _ (PS s Is))), <- (Permutation_length (on_channel_perm s tg _ _ (PR d Id))). apply (send_recv_counts _ _ _ _ _ _ _ GS GD); assumption.
Qed.
(** no rank sends to itself or to a rank that does not exist *)
Theorem C25_peers : forall P Q m n bS bD t srcS srcD OS OD DS DD, matrices P Q m n bS bD t srcS srcD OS OD DS DD ->
  forall s p tg lc, In s (ranks P Q) -> In (p, tg, lc) (sends P Q DS DD s) \/ In (p, tg, lc) (recvs P Q DS DD s) -> In p (ranks P Q) /\ p <> s.
Proof.
  intros P Q m n bS bD t srcS srcD OS OD DS DD MX s p tg lc Is I. destruct (same_tiles _ _ _ _ _ _ _ _ _ _ (mx_DS _ _ _ _ _ _ _ _ _ _ _ _ _ MX) (mx_DD _ _ _ _ _ _ _ _ _ _ _ _ _ MX)) as [GS GD].
  destruct I as [I|I]; [unfold sends in I|unfold recvs in I]; apply in_flat_map in I as (x & Ix & I); cbv zeta in I.
  - destruct (in_local_tiles _ _ _ _ _ GS s x Is Ix) as ([V1 V2] & O & _). set (ij := global_tile Q DS s x) in *.
    rewrite (rank_of_own _ _ _ _ _ GS s ij Is), (rank_of_own _ _ _ _ _ GD s ij Is) in I by lia. rewrite O, Z.eqb_refl in I. destruct (own_rank _ _ _ _ _ GD ij) as (R & _).
    destruct (Z.eqb_spec s (own Q (arg_layout (m, n) bD t (P, Q) srcD (0, 0)) ij)) as [E|E]; [destruct I|]. destruct I as [I|[]]. injection I as <- _ _. split; [exact R|congruence].
  - destruct (in_local_tiles _ _ _ _ _ GD s x Is Ix) as ([V1 V2] & O & _). set (ij := global_tile Q DD s x) in *.
    rewrite (rank_of_own _ _ _ _ _ GS s ij Is), (rank_of_own _ _ _ _ _ GD s ij Is) in I by lia. rewrite O, Z.eqb_refl in I. destruct (own_rank _ _ _ _ _ GS ij) as (R & _).
    destruct (Z.eqb_spec s (own Q (arg_layout (m, n) bS t (P, Q) srcS (0, 0)) ij)) as [E|E]; [destruct I|]. destruct I as [I|[]]. injection I as <- _ _. split; [exact R|congruence].
Qed.

(** C25, all distributions, if every rank posts its messages in the order of its loops: every element arrives. *)
Theorem C25_in_order_partial : forall V P Q m n bS bD t srcS srcD OS OD DS DD, matrices P Q m n bS bD t srcS srcD OS OD DS DD ->
  forall (src dst : Z -> nmat (V := V)),
  redistributed P Q m n bS bD srcS srcD src (redistribute P Q DS DD (tiles_per_block2 bS t) (tiles_per_block2 bD t) t (sends P Q DS DD) (recvs P Q DS DD) src dst).
Proof.
  intros V P Q m n bS bD t srcS srcD OS OD DS DD MX src dst. destruct (same_tiles _ _ _ _ _ _ _ _ _ _ (mx_DS _ _ _ _ _ _ _ _ _ _ _ _ _ MX) (mx_DD _ _ _ _ _ _ _ _ _ _ _ _ _ MX)) as [GS GD].
  apply (redistribute_element V P Q m n bS bD t srcS srcD OS OD DS DD MX); try (intros r _; apply Permutation_refl). intros s d tg Is Id N. apply (in_order _ _ _ _ _ _ _ GS GD); assumption.
Qed.

(** the rank that owns element (x, y) of a matrix *)
Definition owner_rank (P Q m n : Z) (b src : pair_Z) (x y : Z) : Z := rk Q (owner (layout_of_args P Q m n b src Row) x) (owner (layout_of_args P Q m n b src Col) y).
(** tiles (i, j) of t elements that travel between the same two ranks have different tags i + j ld, ld = ceil(rows of tiles / P) *)
Definition tags_distinct (P Q m n : Z) (bS bD t srcS srcD : pair_Z) : Prop :=
  let ld := ((m + fst t - 1) / fst t + P - 1) / P in
  forall i j i' j', 0 <= i -> 0 <= i' -> 0 <= j -> 0 <= j' -> i * fst t < m -> i' * fst t < m -> j * snd t < n -> j' * snd t < n ->
  owner_rank P Q m n bS srcS (i * fst t) (j * snd t) <> owner_rank P Q m n bD srcD (i * fst t) (j * snd t) ->
  owner_rank P Q m n bS srcS (i * fst t) (j * snd t) = owner_rank P Q m n bS srcS (i' * fst t) (j' * snd t) ->
  owner_rank P Q m n bD srcD (i * fst t) (j * snd t) = owner_rank P Q m n bD srcD (i' * fst t) (j' * snd t) ->
  i + j * ld = i' + j' * ld -> (i, j) = (i', j').

(** C25, any posting order, if the tags are distinct: every element arrives. *)
Theorem C25_redistribution_partial : forall V P Q m n bS bD t srcS srcD OS OD DS DD, matrices P Q m n bS bD t srcS srcD OS OD DS DD ->
  tags_distinct P Q m n bS bD t srcS srcD ->
  forall os or (src dst : Z -> nmat (V := V)), posting_order P Q (sends P Q DS DD) os -> posting_order P Q (recvs P Q DS DD) or ->
  redistributed P Q m n bS bD srcS srcD src (redistribute P Q DS DD (tiles_per_block2 bS t) (tiles_per_block2 bD t) t os or src dst).
Proof.
  intros V P Q m n bS bD t srcS srcD OS OD DS DD MX TD os or src dst PS PR. destruct (same_tiles _ _ _ _ _ _ _ _ _ _ (mx_DS _ _ _ _ _ _ _ _ _ _ _ _ _ MX) (mx_DD _ _ _ _ _ _ _ _ _ _ _ _ _ MX)) as [GS GD].
  apply (redistribute_element V P Q m n bS bD t srcS srcD OS OD DS DD MX); try assumption. apply (distinct_tags _ _ _ _ _ _ _ GS GD); try assumption.
  pose proof (ga_P _ _ _ _ _ GS) as HP. pose proof (ga_Q _ _ _ _ _ GS) as HQ. destruct (mx_DS _ _ _ _ _ _ _ _ _ _ _ _ _ MX) as (_ & _ & K & _).
  destruct (K Row) as (Lm & Tr & _), (K Col) as (_ & Tc & _). cbn in Lm, Tr, Tc. clear K.
  pose proof (ga_models _ _ _ _ _ GS Row 0 ltac:(cbn; lia)) as M1. pose proof (ga_models _ _ _ _ _ GS Col 0 ltac:(cbn; lia)) as M2.
  pose proof (ga_models _ _ _ _ _ GD Row 0 ltac:(cbn; lia)) as M3. pose proof (ga_models _ _ _ _ _ GD Col 0 ltac:(cbn; lia)) as M4.
  pose proof (nt_iff _ _ _ M1 eq_refl) as N1. pose proof (nt_iff _ _ _ M2 eq_refl) as N2. cbn in N1, N2.
  assert (OW : forall b src ij, own Q (arg_layout (m, n) b t (P, Q) src (0, 0)) ij = rk Q (tile_owner (arg_layout (m, n) b t (P, Q) src (0, 0) Row) (fst ij)) (tile_owner (arg_layout (m, n) b t (P, Q) src (0, 0) Col) (snd ij))) by reflexivity.
  assert (OS' : forall i j, own Q (arg_layout (m, n) bS t (P, Q) srcS (0, 0)) (i, j) = owner_rank P Q m n bS srcS (i * fst t) (j * snd t)) by (intros i j; rewrite OW; reflexivity).
  assert (OD' : forall i j, own Q (arg_layout (m, n) bD t (P, Q) srcD (0, 0)) (i, j) = owner_rank P Q m n bD srcD (i * fst t) (j * snd t)) by (intros i j; rewrite OW; reflexivity).
  assert (LD : ceilDiv (ax_nr_tiles (DS Row 0)) P = ((m + fst t - 1) / fst t + P - 1) / P).
  { pose proof (T_nt_nonneg _ _ _ M1). unfold ceilDiv. rewrite Z.quot_div_nonneg by lia. f_equal. f_equal. f_equal. symmetry.
    pose proof (Z.div_mod (m + fst t - 1) (fst t) ltac:(lia)) as E. pose proof (Z.mod_pos_bound (m + fst t - 1) (fst t) Tr). set (q := (m + fst t - 1) / fst t) in *.
    assert (Lq : 0 <= q) by (unfold q; apply Z.div_pos; lia).
    destruct (Z.lt_total q (ax_nr_tiles (DS Row 0))) as [X|[X|X]]; [|exact X|].
    - pose proof (proj1 (N1 q) ltac:(lia)). nia.
    - assert (ax_nr_tiles (DS Row 0) < ax_nr_tiles (DS Row 0)); [|lia]. apply N1. split; [lia|nia]. }
  intros [i j] [i' j'] [V1 V2] [V3 V4] E1 E2 E3 E4. cbn [fst snd] in *. apply N1 in V1, V3. apply N2 in V2, V4. rewrite !OS', !OD' in *. unfold tg in E4. cbn [fst snd] in E4. rewrite LD in E4.
  unfold tags_distinct in TD. cbv zeta in TD. apply TD; try tauto; try congruence.
Qed.

(** the tags are distinct if the grid has one row of processes, *)
Theorem C25_one_process_row : forall Q m n bS bD t srcS srcD, 0 <= m -> 0 < fst t -> tags_distinct 1 Q m n bS bD t srcS srcD.
Proof.
  intros Q m n bS bD t srcS srcD Lm Lt. unfold tags_distinct. cbv zeta. rewrite Z.add_simpl_r, Z.div_1_r. set (q := (m + fst t - 1) / fst t).
  pose proof (Z.div_mod (m + fst t - 1) (fst t) ltac:(lia)) as E. pose proof (Z.mod_pos_bound (m + fst t - 1) (fst t) Lt). fold q in E.
  intros i j i' j' L1 L2 L3 L4 L5 L6 _ _ _ _ _ EQ. assert (i < q) by nia. assert (i' < q) by nia. assert (j = j') as <- by nia. f_equal. nia.
Qed.
(** if the matrix has one column of tiles, *)
Theorem C25_one_tile_column : forall P Q m n bS bD t srcS srcD, 0 < snd t -> n <= snd t -> tags_distinct P Q m n bS bD t srcS srcD.
Proof.
  intros P Q m n bS bD t srcS srcD Lt Ln. unfold tags_distinct. cbv zeta. intros i j i' j' L1 L2 L3 L4 L5 L6 L7 L8 _ _ _ EQ.
  assert (j = 0) by nia. assert (j' = 0) by nia. subst. f_equal. lia.
Qed.
(** or if the two matrices are distributed in the same way *)
Theorem C25_same_distribution : forall P Q m n b t src, tags_distinct P Q m n b b t src src.
Proof. intros P Q m n b t src i j i' j'. intros. contradiction. Qed.

(** Distribution objects for the examples *)
Definition objects (P Q : Z) (size block tile src : pair_Z) (rc : coord) (p : Z) : axis :=
  match dist_ctor size block tile (P, Q) (match rc with Row => (p, 0) | Col => (0, p) end) src (0, 0) with Ok d => get rc d | _ => default_axis end.
Lemma objects_ok : forall src, src = (0, 0) \/ src = (1, 0) -> distributed 2 1 (4, 2) (1, 1) (1, 1) src (0, 0) (objects 2 1 (4, 2) (1, 1) (1, 1) src).
Proof.
  intros src H. split; [lia|]. split; [lia|]. split.
  - intros rc. assert ((1 | 1)) by (exists 1; reflexivity). destruct H as [-> | ->], rc; cbn; repeat split; try lia; try assumption; unfold i32_max; try lia; vm_compute; discriminate.
  - intros pr pc Lr Lc. assert (pc = 0) as -> by lia. assert (pr = 0 \/ pr = 1) as [-> | ->] by lia; destruct H as [-> | ->];
      (eexists; split; [vm_compute; reflexivity|intros [|]; vm_compute; reflexivity]).
Qed.
Definition example_matrices : matrices 2 1 4 2 (1, 1) (1, 1) (1, 1) (0, 0) (1, 0)
  (objects 2 1 (4, 2) (1, 1) (1, 1) (0, 0)) (objects 2 1 (4, 2) (1, 1) (1, 1) (1, 0)) (objects 2 1 (4, 2) (1, 1) (1, 1) (0, 0)) (objects 2 1 (4, 2) (1, 1) (1, 1) (1, 0)) :=
  Build_matrices _ _ _ _ _ _ _ _ _ _ _ _ _ (objects_ok _ (or_introl eq_refl)) (objects_ok _ (or_introl eq_refl)) (objects_ok _ (or_intror eq_refl)) (objects_ok _ (or_intror eq_refl)).

(** C25 does not hold in general: a 4 x 2 matrix of 1 x 1 tiles on a 2 x 1 grid, moved by one process row.  Tiles (2, 0) and (0, 1) go
    from rank 0 to rank 1, both with tag 2; if rank 1 posts its receives in another order than rank 0 its sends, they are exchanged. *)
Theorem C25_tag_collision_refuted : exists P Q m n bS bD t srcS srcD OS OD DS DD os or (src dst : Z -> nmat (V := Z)),
  matrices P Q m n bS bD t srcS srcD OS OD DS DD /\ posting_order P Q (sends P Q DS DD) os /\ posting_order P Q (recvs P Q DS DD) or /\
  ~ redistributed P Q m n bS bD srcS srcD src (redistribute P Q DS DD (tiles_per_block2 bS t) (tiles_per_block2 bD t) t os or src dst).
Proof.
  set (DS := objects 2 1 (4, 2) (1, 1) (1, 1) (0, 0)). set (DD := objects 2 1 (4, 2) (1, 1) (1, 1) (1, 0)).
  exists 2, 1, 4, 2, (1, 1), (1, 1), (1, 1), (0, 0), (1, 0), DS, DD, DS, DD, (sends 2 1 DS DD), (fun r => rev (recvs 2 1 DS DD r)),
    (fun r lc _ => 100 * r + 10 * fst lc + snd lc), (fun _ _ _ => 0).
  split; [exact example_matrices|]. split; [intros r _; apply Permutation_refl|]. split; [intros r _; apply Permutation_rev|].
  intros H. specialize (H 0 1 ltac:(lia) ltac:(lia)). vm_compute in H. discriminate H.
Qed.

(** the hypotheses of the theorems are met by a case with messages: the same matrices have 4 messages from rank 0 to rank 1 *)
Example C25_example : length (sends 2 1 (objects 2 1 (4, 2) (1, 1) (1, 1) (0, 0)) (objects 2 1 (4, 2) (1, 1) (1, 1) (1, 0)) 0) = 4%nat /\
  (forall src dst : Z -> nmat (V := Z), redistributed 2 1 4 2 (1, 1) (1, 1) (0, 0) (1, 0) src (redistribute 2 1 (objects 2 1 (4, 2) (1, 1) (1, 1) (0, 0)) (objects 2 1 (4, 2) (1, 1) (1, 1) (1, 0)) (1, 1) (1, 1) (1, 1)
    (sends 2 1 (objects 2 1 (4, 2) (1, 1) (1, 1) (0, 0)) (objects 2 1 (4, 2) (1, 1) (1, 1) (1, 0))) (recvs 2 1 (objects 2 1 (4, 2) (1, 1) (1, 1) (0, 0)) (objects 2 1 (4, 2) (1, 1) (1, 1) (1, 0))) src dst)).
Proof.
  split; [vm_compute; reflexivity|]. intros src dst. apply (C25_in_order_partial Z 2 1 4 2 (1, 1) (1, 1) (1, 1) (0, 0) (1, 0) _ _ _ _ example_matrices src dst).
Qed.

(** ** Assumptions *)
Print Assumptions C25_every_send_has_a_receive.
Print Assumptions C25_peers.
Print Assumptions C25_in_order_partial.
Print Assumptions C25_redistribution_partial.
Print Assumptions C25_one_process_row.
Print Assumptions C25_one_tile_column.
Print Assumptions C25_same_distribution.
Print Assumptions C25_tag_collision_refuted.
