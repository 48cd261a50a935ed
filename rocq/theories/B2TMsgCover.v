(** * The messages of the distributed band_to_tridiagonal carry the whole band and all the reflectors, once *)
From Coq Require Import ZArith Lia List Bool Psatz.
From Verif Require Import Loop HouseModel HouseProofs B2TSched DistGrid DistMat B2TMsgModel B2TMsgSpec B2TMsgProofs B2TMsgMatch B2TMsgTags.
Import ListNotations.
Local Open Scope Z_scope.

Notation cnt := (count_occ data_eq_dec).
Lemma fm_fm : forall (A B C : Type) (h : B -> list C) (f : A -> list B) l, flat_map h (flat_map f l) = flat_map (fun a => flat_map h (f a)) l.
Proof. intros A B C h f l. induction l as [|a l IH]; [reflexivity|]. cbn. rewrite flat_map_app, IH. reflexivity. Qed.
Lemma count_zero : forall (A : Type) (f : A -> list data) l x, (forall a, In a l -> cnt (f a) x = 0%nat) -> cnt (flat_map f l) x = 0%nat.
Proof. intros A f l x H. induction l as [|a l IH]; [reflexivity|]. cbn. rewrite count_occ_app, H, IH; [reflexivity| |left; reflexivity]. intros a' I. apply H. right. exact I. Qed.
Lemma count_at : forall (A : Type) (f : A -> list data) l x a, NoDup l -> In a l -> (forall a', In a' l -> a' <> a -> cnt (f a') x = 0%nat) -> cnt (flat_map f l) x = cnt (f a) x.
Proof.
  intros A f l x a N I H. induction l as [|a' l IH]; [contradiction|]. inversion N as [|? ? Na Nl]; subst. cbn. rewrite count_occ_app. destruct I as [->|I].
  - rewrite (count_zero _ f l); [lia|]. intros y Y. apply H; [right; exact Y|]. intros ->. contradiction.
  - rewrite (H a'); [|left; reflexivity|intros ->; contradiction]. rewrite IH; auto. intros y Y. apply H. right. exact Y.
Qed.

Section msgs.
Variable g : msg_cfg.
Hypothesis G : cfg_ok g.
Notation size := (m_size g).
Notation nb := (m_nb g).
Notation b := (m_b g).
Notation NR := (nranks g).
Notation nbb := (nb_band g).
Notation spb := (steps_per_block g).
Notation tpb := (tiles_per_block g).
Notation SF := (stands_for nb nbb).

(** ** The band *)
Lemma copy1_obt : forall r rb k, flat_map obtains (copy_ops1 g r rb k) = if r =? rb then DTile k k :: (if k <? ntl g - 1 then [DTile (k + 1) k] else []) else [].
Proof.
  intros r rb k. unfold copy_ops1. cbv zeta. set (q := if k =? ntl g - 1 then -1 else owner g (k + 1) k). clearbody q.
  destruct (r =? rb), (r =? owner g k k), (k <? ntl g - 1); try destruct (r =? q); reflexivity.
Qed.
Lemma rest_tile : forall r s i j, 0 <= r < NR -> 0 <= s -> cnt (flat_map obtains (sweep_ops g r s ++ v_ops g r s)) (DTile i j) = 0%nat.
Proof.
  intros r s i j R S. rewrite flat_map_app, count_occ_app. unfold sweep_ops. rewrite fm_fm. rewrite count_zero.
  2:{ intros st I. apply (in_init g G) in I. destruct I as (k & -> & K & L). rewrite (step_split g G) by assumption. rewrite !flat_map_app, !count_occ_app. unfold col_s, col_r, wrk_r, wrk_s.
      repeat match goal with |- context [if ?c then _ else _] => destruct c end; reflexivity. }
  unfold v_ops. destruct (flushes g s); [|reflexivity]. cbv zeta. rewrite fm_fm. cbn [plus]. apply count_zero. intros st _. rewrite fm_fm. apply count_zero. intros q _. unfold v_ops1.
  destruct (_ =? _); destruct (_ =? _); reflexivity.
Qed.
Theorem band_copied : forall r i j, 0 <= r < NR -> 0 <= j < ntl g -> (i = j \/ (i = j + 1 /\ j < ntl g - 1)) ->
  obtained (prog g r) (DTile i j) = if r =? block_rank g (j * nb / nbb) then 1%nat else 0%nat.
Proof.
  intros r i j R J H. pose proof (g_nb g G) as Hn. destruct (g_bb g G) as [Eb Lb]. pose proof (nbb_pos g G).
  assert (Ej : j * nb / nbb = j / tpb) by (rewrite Eb, (Z.mul_comm nb), Z.div_mul_cancel_r by lia; reflexivity). rewrite Ej.
  unfold obtained, prog. destruct (Z.eqb_spec size 0) as [E0|E0]; [exfalso; unfold ntl in J; rewrite E0 in J; assert (X : j < ceil_div 0 nb) by lia; apply (ceil_div_lt 0 nb j) in X; nia|].
  rewrite flat_map_app, count_occ_app. rewrite (fm_fm Z op data). rewrite (count_zero Z _ (zrange 0 (sweeps g))) by (intros s I; apply in_zrange in I; apply rest_tile; lia).
  unfold copy_ops. rewrite fm_fm. cbv zeta.
  assert (C1 : forall rb k, cnt (flat_map obtains (copy_ops1 g r rb k)) (DTile i j) = if (r =? rb) && (k =? j) then 1%nat else 0%nat).
  { intros rb k. rewrite copy1_obt. destruct (r =? rb); [|reflexivity]. cbn [andb]. destruct (Z.eqb_spec k j) as [->|E].
    - destruct H as [->|[-> H]]; [|destruct (Z.ltb_spec j (ntl g - 1)); [|lia]].
      + destruct (j <? ntl g - 1); cbn [count_occ]; (destruct (data_eq_dec _ _); [|congruence]); try (destruct (data_eq_dec _ _) as [X|]; [injection X as X; lia|]); reflexivity.
      + cbn [count_occ]. destruct (data_eq_dec _ _) as [X|]; [injection X as X; lia|]. destruct (data_eq_dec _ _); [reflexivity|congruence].
    - destruct (k <? ntl g - 1); cbn [count_occ]; repeat (destruct (data_eq_dec _ _) as [X|]; [injection X as X; lia|]); reflexivity. }
  assert (Bj : j / tpb * tpb <= j < j / tpb * tpb + tpb) by (pose proof (Z.div_mod j tpb ltac:(lia)); pose proof (Z.mod_pos_bound j tpb ltac:(lia)); lia).
  assert (Bk : 0 <= j / tpb) by (apply Z.div_pos; lia).
  rewrite (count_at Z _ _ _ (j / tpb)).
  - rewrite fm_fm. rewrite (count_at Z _ _ _ j); [rewrite C1, Z.eqb_refl; destruct (r =? _); reflexivity|apply zrange_NoDup|apply in_zrange; lia|].
    intros k _ Nk. rewrite C1. destruct (Z.eqb_spec k j); [contradiction|]. rewrite andb_false_r. reflexivity.
  - apply zrange_NoDup.
  - apply in_zrange. split; [lia|]. unfold nblocks. apply ceil_div_lt; [lia|]. rewrite Eb. unfold ntl in J. assert (X : j < ceil_div size nb) by lia. apply (ceil_div_lt size nb j) in X; nia.
  - intros kb I Nk. apply in_zrange in I. rewrite fm_fm. apply count_zero. intros k Ik. apply in_zrange in Ik. rewrite C1. destruct (Z.eqb_spec k j) as [->|]; [|rewrite andb_false_r; reflexivity].
    exfalso. apply Nk. destruct (kb_range g G kb j (proj1 I) Ik) as [<- _]. reflexivity.
Qed.

(** ** The reflectors *)
Definition is_vop (o : op) : Prop := match o with Send _ _ (DPanel _ _ _ _ _) | Local (DPanel _ _ _ _ _) _ | Recv _ _ (DV _ _ _ _ _ _) => True | _ => False end.
Lemma vop_in : forall r o, 0 <= r < NR -> In o (prog g r) -> is_vop o -> exists s0 k i, vkey g s0 k i /\ In o (v_ops1 g s0 (k * spb) r i).
Proof.
  intros r o R H V. unfold prog in H. destruct (size =? 0); [contradiction|]. apply in_app_iff in H. destruct H as [H|H].
  - exfalso. unfold copy_ops in H. apply in_flat_map in H. destruct H as (kb & _ & H). cbv zeta in H. apply in_flat_map in H. destruct H as (k & _ & H). revert H. unfold copy_ops1. cbv zeta. set (q := if k =? ntl g - 1 then -1 else owner g (k + 1) k). clearbody q.
    destruct (r =? block_rank g kb), (r =? owner g k k), (k <? ntl g - 1); try destruct (r =? q); cbn [app In]; intuition; subst o; exact V.
  - apply in_flat_map in H. destruct H as (s & I & H). apply in_zrange in I. apply in_app_iff in H. destruct H as [H|H].
    + exfalso. unfold sweep_ops in H. apply in_flat_map in H. destruct H as (st & Is & H). apply (in_init g G) in Is. destruct Is as (k & -> & K & L). rewrite (step_split g G) in H by assumption. rewrite !in_app_iff in H. unfold col_s, col_r, wrk_r, wrk_s in H.
      destruct H as [Y|[Y|[Y|Y]]]; (destruct (_ =? _); [|contradiction]); (destruct (_ <? _) || destruct (_ =? _)); try contradiction; destruct Y as [Y|[]]; subst o; exact V.
    + unfold v_ops in H. destruct (flushes g s); [|contradiction]. cbv zeta in H. apply in_flat_map in H. destruct H as (st & Is & H). apply (in_init g G) in Is. destruct Is as (k & -> & K & L). apply in_flat_map in H. destruct H as (i & Ii & H). apply in_zrange in Ii.
      exists (s / b * b), k, i. split; [|exact H]. destruct (base_range g G s I). repeat split; auto; try lia. apply (base_mult g G).
Qed.
Lemma in_vop : forall r s0 k i o, vkey g s0 k i -> In o (v_ops1 g s0 (k * spb) r i) -> In o (prog g r).
Proof.
  intros r s0 k i o (S & M & K & L & I) H. pose proof (g_b g G) as Hb. set (s := Z.min (s0 + b - 1) (sweeps g - 1)).
  assert (Es : s / b * b = s0) by (assert (X : s / b = s0 / b) by (symmetry; apply Z.div_unique_pos with (r := s - s0); unfold s; lia); rewrite X; exact M).
  assert (F : flushes g s = true).
  { unfold flushes. destruct (Z_le_gt_dec (s0 + b - 1) (sweeps g - 1)) as [A|A].
    - replace ((s + 1) mod b) with 0; [reflexivity|]. unfold s. rewrite Z.min_l by lia. replace (s0 + b - 1 + 1) with ((s0 / b + 1) * b) by lia. symmetry. apply Z.mod_mul. lia.
    - unfold s. rewrite Z.min_r by lia. replace (sweeps g - 1 + 1) with (sweeps g) by lia. rewrite Z.eqb_refl. apply orb_true_r. }
  unfold prog. destruct (Z.eqb_spec size 0) as [E0|E0]; [unfold sweeps in S; destruct (m_cplx g); lia|]. apply in_app_iff. right. apply in_flat_map. exists s. split; [apply in_zrange; unfold s; lia|]. apply in_app_iff. right.
  unfold v_ops. rewrite F, Es. cbv zeta. apply in_flat_map. exists (k * spb). split; [apply (in_init g G); exists k; auto|]. apply in_flat_map. exists i. split; [apply in_zrange; exact I|exact H].
Qed.
Lemma gives_in : forall r s0' p x m c, 0 <= r < NR -> In (DPanel s0' p x m c) (flat_map gives (prog g r)) ->
  exists s0 k i, vkey g s0 k i /\ DPanel s0' p x m c = va_panel_data g s0 (k * spb) i /\ r = k mod NR.
Proof.
  intros r s0' p x m c R H. apply in_flat_map in H. destruct H as (o & Io & Jo). assert (V : is_vop o).
  { destruct o as [d t y|d t y|y y']; cbn in Jo; try contradiction; destruct Jo as [->|[]]; exact Logic.I. }
  destruct (vop_in r o R Io V) as (s0 & k & i & Vk & H). exists s0, k, i. split; [exact Vk|]. destruct Vk as (S & M & K & L & I). unfold v_ops1 in H.
  destruct (Z.eqb_spec r (va_rank_panel g (k * spb))) as [E|E].
  - assert (Ek : r = k mod NR) by (rewrite E; unfold va_rank_panel; rewrite (pc_panel g G k K); reflexivity). split; [|exact Ek].
    destruct (_ =? _); destruct H as [H|[]]; subst o; cbn in Jo; destruct Jo as [Jo|[]]; congruence.
  - exfalso. destruct (_ =? _); [|contradiction]. destruct H as [H|[]]. subst o. exact Jo.
Qed.
Theorem reflectors_sent : forall s t x, 0 <= s < sweeps g -> 0 <= t < steps g s -> 0 <= x < Z.min b (size - 1 - s - t * b) ->
  exists d, In d (flat_map gives (prog g ((t * b + x) / nbb mod NR))) /\ in_piece nbb (s / b * b) (t * b + x) (s mod b) d /\
    forall r' d', 0 <= r' < NR -> In d' (flat_map gives (prog g r')) -> in_piece nbb (s / b * b) (t * b + x) (s mod b) d' -> r' = (t * b + x) / nbb mod NR /\ d' = d.
Proof.
  intros s t x S T X. pose proof (g_b g G) as Hb. pose proof (nbb_pos g G) as Hn. pose proof (g_nb g G) as Hnb. destruct (g_spb g G) as [Es Ls].
  destruct (base_range g G s S) as [B1 B2]. pose proof (base_mult g G s) as Bm. pose proof (Z.div_mod s b ltac:(lia)) as Dm. 
  set (s0 := s / b * b) in *. set (rho := t * b + x). set (k := rho / nbb).
  assert (Rk : k * nbb <= rho < (k + 1) * nbb) by (pose proof (Z.div_mod rho nbb ltac:(lia)); pose proof (Z.mod_pos_bound rho nbb ltac:(lia)); unfold k; lia).
  assert (R0 : 0 <= rho) by (unfold rho; nia). assert (K : 0 <= k) by (apply Z.div_pos; lia).
  assert (Lt : k * spb <= t) by (unfold rho in Rk; rewrite Es in Rk; nia).
  assert (Mono : steps g s <= steps g s0).
  { unfold steps. destruct (Z.eqb_spec s (size - 2)), (Z.eqb_spec s0 (size - 2)); try lia.
    - assert (0 < ceil_div (size - s0 - 2) b); [|lia]. apply ceil_div_lt; lia.
    - unfold ceil_div. apply Z.div_le_mono; lia. }
  assert (L : k * spb < steps g s0) by lia.
  destruct (pc_R g G s0 k B1 Bm K L) as [R1 R2]. destruct (pc_top g G s0 k B1 Bm K L) as [T1 [T2 T3]]. destruct (pc_C g G s0 k B1 Bm K L) as [C1 C2].
  set (st := k * spb) in *. set (y := rho - k * nbb). assert (Y : 0 <= y < va_rows_panel g s0 st) by (unfold y; unfold rho in *; lia).
  set (i := if y <? va_top g s0 st then 0 else 1 + (y - va_top g s0 st) / nb).
  assert (Iy : 0 <= i < va_nr_tiles g s0 st /\ va_panel_origin g s0 st i <= y < va_panel_origin g s0 st i + va_rows g s0 st i).
  { unfold i. destruct (Z.ltb_spec y (va_top g s0 st)) as [A|A].
    - split; [lia|]. unfold va_panel_origin, va_rows. cbn. lia.
    - pose proof (Z.div_mod (y - va_top g s0 st) nb ltac:(lia)) as D. pose proof (Z.mod_pos_bound (y - va_top g s0 st) nb ltac:(lia)) as D2.
      set (q := (y - va_top g s0 st) / nb) in *. assert (0 <= q) by (apply Z.div_pos; lia). assert (Q1 : q < va_nr_tiles g s0 st - 1) by nia. split; [lia|].
      unfold va_panel_origin, va_rows, va_bottom. destruct (Z.eqb_spec (1 + q) 0); [lia|]. destruct (Z.eqb_spec (1 + q) (va_nr_tiles g s0 st - 1)) as [F|F]; [|lia].
      replace (va_nr_tiles g s0 st - 2) with q by lia. lia. }
  destruct Iy as [Ii Iy]. assert (V : vkey g s0 k i) by exact (conj B1 (conj Bm (conj K (conj L Ii)))).
  assert (Pk : va_index_panel g st = k) by (apply (pc_panel g G); exact K).
  assert (Cc : 0 <= s mod b < va_cols g s0 st).
  { pose proof (Z.mod_pos_bound s b ltac:(lia)). assert (s mod b = s - s0) by (unfold s0; lia). unfold va_cols. unfold rho in *. pose proof (g_bbpos g G). pose proof (g_c g G). pose proof (g_c1 g G). assert (b <= nb) by nia. lia. }
  exists (va_panel_data g s0 st i). fold rho. split; [|split].
  - apply in_flat_map. assert (Rp : k mod NR = va_rank_panel g st) by (unfold va_rank_panel; rewrite Pk; reflexivity). fold k. 
    assert (W : exists o, In o (v_ops1 g s0 st (k mod NR) i) /\ In (va_panel_data g s0 st i) (gives o)).
    { unfold v_ops1. rewrite Rp, Z.eqb_refl. destruct (_ =? _); (eexists; split; [left; reflexivity|left; reflexivity]). }
    destruct W as (o & Io & Jo). exists o. split; [|exact Jo]. exact (in_vop _ s0 k i o V Io).
  - unfold va_panel_data, in_piece. rewrite Pk. unfold y in Iy. split; [reflexivity|]. split; [lia|]. exact Cc.
  - intros r' d' R' H Ip. destruct d' as [| | |s0' p x' m' c'|]; try contradiction. destruct (gives_in _ _ _ _ _ _ R' H) as (s1 & k' & i' & V' & E & Er).
    rewrite E in Ip |- *. destruct V' as (S1 & M1 & K1 & L1 & I1). unfold va_panel_data, in_piece in Ip. rewrite (pc_panel g G k' K1) in Ip. destruct Ip as (E0 & Ip & _). subst s1.
    destruct (pc_rows g G s0 k' S1 M1 K1 L1 i' I1) as (P1 & P2 & P3 & P4 & P5). destruct (pc_R g G s0 k' S1 M1 K1 L1) as [R1' R2'].
    assert (Ek : k' = k). { unfold k. apply Z.div_unique_pos with (r := rho - k' * nbb); lia. }
    subst k'. change (k * spb) with st in I1, P1, P2, P3, P4, P5, Ip |- *. split; [exact Er|]. f_equal.
    unfold i. unfold va_panel_origin in Ip. destruct (Z.eqb_spec i' 0) as [E'|E'].
    + subst i'. assert (va_rows g s0 st 0 = va_top g s0 st) by reflexivity. destruct (Z.ltb_spec y (va_top g s0 st)); [reflexivity|]. unfold y in *. lia.
    + destruct (Z.ltb_spec y (va_top g s0 st)) as [A|A]; [exfalso; unfold y in A; assert (0 <= (i' - 1) * nb) by (apply Z.mul_nonneg_nonneg; lia); lia|]. 
      assert (i' - 1 = (y - va_top g s0 st) / nb); [|lia]. apply Z.div_unique_pos with (r := y - va_top g s0 st - (i' - 1) * nb); unfold y; lia.
Qed.
(** where the pieces go *)
Theorem reflectors_placed : forall r i j x y m c, 0 <= r < NR -> In (DV i j x y m c) (flat_map obtains (prog g r)) ->
  owner g i j = r /\ 0 <= i /\ 0 <= j /\ 1 <= m /\ 1 <= c /\ 0 <= x /\ x + m <= nb /\ 0 <= y /\ y + c <= nb /\ i * nb + x + m <= size /\ j * nb + y + c <= size.
Proof.
  intros r i j x y m c R H. apply in_flat_map in H. destruct H as (o & Io & Jo).
  assert (W : exists s0 k q, vkey g s0 k q /\ DV i j x y m c = va_v_data g s0 (k * spb) q /\ va_rank_v g s0 (k * spb) q = r).
  { destruct o as [d t z|d t z|z z']; cbn in Jo; try contradiction; destruct Jo as [Jo|[]].
    - assert (V : is_vop (Recv d t z)) by (rewrite Jo; exact Logic.I). destruct (vop_in r _ R Io V) as (s0 & k & q & Vk & Hv). exists s0, k, q. split; [exact Vk|]. unfold v_ops1 in Hv.
      destruct (_ =? _); destruct (Z.eqb_spec r (va_rank_v g s0 (k * spb) q)); try contradiction; destruct Hv as [Hv|[]]; try discriminate. injection Hv; intros; subst. split; congruence.
    - assert (V : is_vop (Local z z') \/ exists a e, z' = DTile a e).
      { unfold prog in Io. destruct (size =? 0); [contradiction|]. apply in_app_iff in Io. destruct Io as [Hc|Hc].
        - right. unfold copy_ops in Hc. apply in_flat_map in Hc. destruct Hc as (kb & _ & Hc). cbv zeta in Hc. apply in_flat_map in Hc. destruct Hc as (k & _ & Hc). revert Hc. unfold copy_ops1. cbv zeta. set (q := if k =? ntl g - 1 then -1 else owner g (k + 1) k). clearbody q.
          destruct (r =? block_rank g kb), (r =? owner g k k), (k <? ntl g - 1); try destruct (r =? q); cbn [app In]; intuition (try discriminate); match goal with E : Local _ _ = Local _ _ |- _ => injection E; intros; subst; eauto end.
        - left. apply in_flat_map in Hc. destruct Hc as (s & I & Hc). apply in_zrange in I. apply in_app_iff in Hc. destruct Hc as [Hc|Hc].
          + exfalso. unfold sweep_ops in Hc. apply in_flat_map in Hc. destruct Hc as (st & Is & Hc). apply (in_init g G) in Is. destruct Is as (k & -> & K & L). rewrite (step_split g G) in Hc by assumption. rewrite !in_app_iff in Hc. unfold col_s, col_r, wrk_r, wrk_s in Hc.
            destruct Hc as [Y|[Y|[Y|Y]]]; (destruct (_ =? _); [|contradiction]); (destruct (_ <? _) || destruct (_ =? _)); try contradiction; destruct Y as [Y|[]]; discriminate.
          + unfold v_ops in Hc. destruct (flushes g s); [|contradiction]. cbv zeta in Hc. apply in_flat_map in Hc. destruct Hc as (st & _ & Hc). apply in_flat_map in Hc. destruct Hc as (q & _ & Hc). unfold v_ops1 in Hc.
            destruct (_ =? _); destruct (_ =? _); try contradiction; destruct Hc as [Hc|[]]; try discriminate. injection Hc; intros; subst. exact Logic.I. }
      destruct V as [V|(a & e & ->)]; [|discriminate]. destruct (vop_in r _ R Io V) as (s0 & k & q & Vk & Hv). exists s0, k, q. split; [exact Vk|]. unfold v_ops1 in Hv.
      destruct (_ =? _); destruct (Z.eqb_spec r (va_rank_v g s0 (k * spb) q)); try contradiction; destruct Hv as [Hv|[]]; try discriminate. injection Hv; intros; subst. split; congruence. }
  destruct W as (s0 & k & q & (S & M & K & L & I) & E & Er). destruct (pc_v g G s0 k M q) as (m' & x' & E' & Em & Ex). rewrite E' in E. injection E as -> -> -> -> -> ->.
  unfold va_rank_v, va_index_v in Er. cbn [fst snd] in Er. rewrite (top_row_eq g G s0 k M) in Er. split; [exact Er|].
  destruct (pc_rows g G s0 k S M K L q I) as (P1 & P2 & P3 & P4 & P5). destruct (pc_R g G s0 k S M K L) as [R1 R2]. pose proof (pc_elt g G s0 k S M K q I) as El. destruct (pc_tjo g G s0 M) as [J1 J2].
  pose proof (pc_row_tile g G s0 k S M K L q I). pose proof (pc_col_tile g G s0 k S M K L). pose proof (g_nb g G). pose proof (g_b g G). pose proof (g_c g G). pose proof (Z.mod_pos_bound s0 nb ltac:(lia)). pose proof (Z.div_mod s0 nb ltac:(lia)).
  rewrite <- Em in *. rewrite <- Ex in *. assert (Cb : 1 <= va_cols g s0 (k * spb) <= b /\ s0 + va_cols g s0 (k * spb) <= sweeps g) by (unfold va_cols; lia).
  assert (sweeps g <= size) by (unfold sweeps; destruct (m_cplx g); lia).
  assert (s0 mod nb + b <= nb) by nia. repeat split; lia.
Qed.
Theorem local_ok : forall r x y, 0 <= r < NR -> In (Local x y) (prog g r) -> SF x y.
Proof.
  intros r x y R H. unfold prog in H. destruct (size =? 0); [contradiction|]. apply in_app_iff in H. destruct H as [Hc|Hc].
  - unfold copy_ops in Hc. apply in_flat_map in Hc. destruct Hc as (kb & _ & Hc). cbv zeta in Hc. apply in_flat_map in Hc. destruct Hc as (k & _ & Hc). revert Hc. unfold copy_ops1. cbv zeta. set (q := if k =? ntl g - 1 then -1 else owner g (k + 1) k). clearbody q.
    destruct (r =? block_rank g kb), (r =? owner g k k), (k <? ntl g - 1); try destruct (r =? q); cbn [app In]; intuition (try discriminate); match goal with E : Local _ _ = Local _ _ |- _ => injection E; intros; subst; cbn; auto end.
  - apply in_flat_map in Hc. destruct Hc as (s & I & Hc). apply in_zrange in I. apply in_app_iff in Hc. destruct Hc as [Hc|Hc].
    + exfalso. unfold sweep_ops in Hc. apply in_flat_map in Hc. destruct Hc as (st & Is & Hc). apply (in_init g G) in Is. destruct Is as (k & -> & K & L). rewrite (step_split g G) in Hc by assumption. rewrite !in_app_iff in Hc. unfold col_s, col_r, wrk_r, wrk_s in Hc.
      destruct Hc as [Y|[Y|[Y|Y]]]; (destruct (_ =? _); [|contradiction]); (destruct (_ <? _) || destruct (_ =? _)); try contradiction; destruct Y as [Y|[]]; discriminate.
    + unfold v_ops in Hc. destruct (flushes g s); [|contradiction]. cbv zeta in Hc. apply in_flat_map in Hc. destruct Hc as (st & Is & Hc). apply (in_init g G) in Is. destruct Is as (k & -> & K & L). apply in_flat_map in Hc. destruct Hc as (q & Iq & Hc). apply in_zrange in Iq. unfold v_ops1 in Hc.
      destruct (_ =? _); destruct (_ =? _); try contradiction; destruct Hc as [Hc|[]]; try discriminate. injection Hc; intros; subst. apply (v_data g G); auto; [|apply (base_mult g G)]. destruct (base_range g G s I). lia.
Qed.
End msgs.
