(** * Every message of the distributed band_to_tridiagonal is received, in order, by its addressee *)
From Coq Require Import ZArith Lia List Bool Psatz.
From Verif Require Import Loop HouseModel HouseProofs B2TSched DistGrid DistMat B2TMsgModel B2TMsgSpec B2TMsgProofs.
Import ListNotations.
Local Open Scope Z_scope.

Lemma shift_match : forall (B C : Type) (R : B -> C -> Prop) (f : Z -> list B) (h : Z -> list C) m,
  (forall k, 0 <= k -> k + 1 < m -> Forall2 R (f k) (h (k + 1))) -> f (m - 1) = [] -> h 0 = [] ->
  Forall2 R (flat_map f (zrange 0 m)) (flat_map h (zrange 0 m)).
Proof.
  intros B C R f h m H F0 H0. destruct (Z_le_gt_dec m 0) as [L|L]; [rewrite zrange_empty by lia; constructor|].
  rewrite (zrange_cons 0 m) at 2 by lia. replace (zrange 0 m) with (zrange 0 (m - 1) ++ [m - 1]) by (rewrite <- zrange_snoc by lia; f_equal; lia).
  replace (zrange (0 + 1) m) with (map (fun k => k + 1) (zrange 0 (m - 1))) by (rewrite <- zrange_shift; f_equal; lia).
  rewrite flat_map_app. cbn [flat_map]. rewrite F0, H0, !app_nil_r, flat_map_map. cbn [app].
  apply Forall2_flat. intros k Hk. apply in_zrange in Hk. apply H; lia.
Qed.

Section msgs.
Variable g : msg_cfg.
Hypothesis G : cfg_ok g.
Notation size := (m_size g).
Notation nb := (m_nb g).
Notation b := (m_b g).
Notation P := (m_P g).
Notation Q := (m_Q g).
Notation NR := (nranks g).
Notation nbb := (nb_band g).
Notation spb := (steps_per_block g).
Notation wpt := (workers_per_tile g).
Notation SF := (stands_for nb nbb).

Ltac eqbs := repeat (match goal with
  | |- context [?x =? ?y] => destruct (Z.eqb_spec x y); cbn [andb app]
  | |- context [?x <? ?y] => destruct (Z.ltb_spec x y); cbn [andb app] end; try (exfalso; lia)).

(** ** The copies *)
Lemma copy1_match : forall s r rb k t, 0 <= s -> Forall2 SF (sends (copy_ops1 g s rb k) r t) (recvs (copy_ops1 g r rb k) s t).
Proof.
  intros s r rb k t S. unfold copy_ops1. set (o := owner g (k + 1) k). set (d := owner g k k). cbv zeta.
  destruct (Z.eqb_spec k (ntl g - 1)) as [E|E].
  - replace (k <? ntl g - 1) with false by (symmetry; apply Z.ltb_ge; lia). unfold sends, recvs.
    destruct (Z.eqb_spec s rb), (Z.eqb_spec r rb), (Z.eqb_spec s d), (Z.eqb_spec r d); cbn [flat_map app]; eqbs; repeat constructor; lia.
  - unfold sends, recvs. destruct (Z.eqb_spec s rb), (Z.eqb_spec r rb), (Z.ltb_spec k (ntl g - 1)); destruct (Z.eqb_spec s d), (Z.eqb_spec r d), (Z.eqb_spec s o), (Z.eqb_spec r o);
    try (exfalso; lia); cbn [flat_map app]; eqbs; repeat constructor; lia.
Qed.
Lemma copy_match : forall s r t, 0 <= s -> Forall2 SF (sends (copy_ops g s) r t) (recvs (copy_ops g r) s t).
Proof.
  intros s r t S. unfold copy_ops. rewrite sends_flat, recvs_flat. apply Forall2_flat. intros kb _. rewrite sends_flat, recvs_flat.
  apply Forall2_flat. intros k _. apply copy1_match. exact S.
Qed.

(** ** The columns and the workers *)
Lemma off_v_pos : 0 <= offset_v_tag g.
Proof. unfold offset_v_tag, copy_tag, ntl, ceil_div. pose proof (g_size g G). pose proof (g_nb g G). assert (0 <= (size + nb - 1) / nb) by (apply Z.div_pos; lia). lia. Qed.
Lemma n_pos : 0 <= ntl g.
Proof. unfold ntl, ceil_div. pose proof (g_size g G). pose proof (g_nb g G). apply Z.div_pos; lia. Qed.
Lemma cdiv_pos : forall x y, 0 <= x -> 0 < y -> 0 <= ceil_div x y.
Proof. intros x y A B. unfold ceil_div. apply Z.div_pos; lia. Qed.
Lemma off_col_ge : offset_v_tag g <= offset_col_tag g.
Proof.
  unfold offset_col_tag. pose proof (cdiv_pos (ntl g) P n_pos (g_P g G)). pose proof (cdiv_pos (ntl g) Q n_pos (g_Q g G)). pose proof (g_c1 g G).
  assert (0 <= ceil_div (ntl g) P * (ceil_div (ntl g) Q * (nb / b))); nia.
Qed.
Lemma steps_block : forall s k, 0 <= s < sweeps g -> 0 <= k -> k * spb < steps g s -> 0 <= k < nblocks g.
Proof.
  intros s k S K L. split; [exact K|]. destruct (g_spb g G) as [E L1]. pose proof (g_b g G). pose proof (nbb_pos g G).
  unfold nblocks. apply ceil_div_lt; [lia|]. unfold steps, sweeps in *. destruct (Z.eqb_spec s (size - 2)).
  - assert (k = 0) by nia. subst k. destruct (m_cplx g); lia.
  - apply (ceil_div_lt (size - s - 2) b (k * spb)) in L; [|lia]. rewrite E. destruct (m_cplx g); nia.
Qed.
Lemma col_tag_lo : forall id l, 0 <= id -> offset_col_tag g <= col_tag g id l.
Proof. intros id l H. unfold col_tag. pose proof (g_NR g G). assert (0 <= id / NR) by (apply Z.div_pos; lia). destruct l; lia. Qed.
Lemma col_tag_hi : forall id l, 0 <= id < nblocks g -> NR = 2 -> col_tag g id l < offset_worker_tag g.
Proof.
  intros id l H E. unfold offset_worker_tag. rewrite E. change (2 =? 2) with true. cbn iota. unfold col_tag. rewrite E.
  assert (id / 2 <= (nblocks g - 1) / 2) by (apply Z.div_le_mono; lia). pose proof off_v_pos. pose proof off_col_ge. destruct l; lia.
Qed.
Lemma off_worker_ge : offset_col_tag g <= offset_worker_tag g.
Proof.
  unfold offset_worker_tag. destruct (Z.eqb_spec NR 2); [|lia]. unfold col_tag. pose proof off_v_pos. pose proof off_col_ge.
  rewrite e. assert (-1 <= (nblocks g - 1) / 2); [|lia]. apply Z.div_le_lower_bound; [lia|].
  assert (0 <= nblocks g) by (apply cdiv_pos; [apply (g_size g G)|apply (nbb_pos g G)]). lia.
Qed.
Lemma worker_tag_lo : forall s id, 0 <= id -> offset_worker_tag g <= worker_tag g s id.
Proof.
  intros s id H. unfold worker_tag. pose proof (g_NR g G). pose proof (g_wpt g G). assert (0 <= id / NR) by (apply Z.div_pos; lia).
  pose proof (Z.mod_pos_bound s wpt ltac:(lia)). nia.
Qed.
(** a message with this key cannot be a worker (true) or a column (false) *)
Definition colkey (src dst t : Z) : bool := if NR =? 2 then t <? offset_worker_tag g else dst =? prev_rank g src.
Lemma next_neq_prev : forall r, 0 <= r < NR -> NR <> 2 -> next_rank g r <> prev_rank g r.
Proof. intros r R N. unfold next_rank, prev_rank. pose proof (g_NR g G). destruct (Z.eqb_spec (r + 1) NR), (Z.eqb_spec r 0); lia. Qed.
Lemma colkey_col : forall src id l, 0 <= id < nblocks g -> colkey src (prev_rank g src) (col_tag g id l) = true.
Proof.
  intros src id l H. unfold colkey. destruct (Z.eqb_spec NR 2) as [E|E]; [|apply Z.eqb_refl]. apply Z.ltb_lt. apply col_tag_hi; assumption.
Qed.
Lemma colkey_worker : forall src s id, 0 <= src < NR -> 0 <= id -> colkey src (next_rank g src) (worker_tag g s id) = false.
Proof.
  intros src s id R H. unfold colkey. destruct (Z.eqb_spec NR 2) as [E|E]; [apply Z.ltb_ge; apply worker_tag_lo; exact H|].
  apply Z.eqb_neq. apply next_neq_prev; assumption.
Qed.

(** one iteration of the loop, as messages with the block number k *)
Definition next_j (s k : Z) : Z := s + (k + 1) * nbb.
Definition col_s (r s k : Z) : list op := if prev_rank g r =? block_rank g k then
  if next_j s k <? size then [Send (prev_rank g r) (col_tag g k (next_j s k =? size - 1)) (DCol (k + 1) (next_j s k))] else [] else [].
Definition col_r (r s k : Z) : list op := if r =? block_rank g k then
  if next_j s k <? size then [Recv (next_rank g r) (col_tag g k (next_j s k =? size - 1)) (DCol k (next_j s k))] else [] else [].
Definition wrk_r (r s k : Z) : list op := if r =? block_rank g k then
  if k =? 0 then [] else [Recv (prev_rank g r) (worker_tag g s k) (DWorker k (s mod wpt) s (k * spb))] else [].
Definition wrk_s (r s k : Z) : list op := if r =? block_rank g k then
  if (k + 1) * spb <? steps g s then [Send (next_rank g r) (worker_tag g s (k + 1)) (DWorker k (s mod wpt) s ((k + 1) * spb))] else [] else [].
Lemma step_split : forall r s k, 0 <= r < NR -> 0 <= k ->
  step_ops g r s (k * spb) = col_s r s k ++ col_r r s k ++ wrk_r r s k ++ wrk_s r s k.
Proof.
  intros r s k R K. unfold step_ops, col_s, col_r, wrk_r, wrk_s. destruct (g_spb g G) as [E L]. rewrite (id_of g G k K).
  replace (s + (k * spb + spb) * b) with (next_j s k) by (unfold next_j; rewrite E; ring).
  destruct (Z.eqb_spec (prev_rank g r) (block_rank g k)) as [A|A].
  - pose proof (prev_range g G r R). destruct (Z.eqb_spec r (block_rank g k)); [lia|]. cbn [app]. rewrite app_nil_r.
    assert (B : r = block_rank g (k + 1)).
    { rewrite <- (next_block g G k K). symmetry. apply (next_prev g G); [apply (block_rank_range g G)|exact R|exact A]. }
    rewrite B at 2. rewrite (block_at_local g G) by lia. reflexivity.
  - cbn [app]. destruct (Z.eqb_spec r (block_rank g k)) as [B|B]; [|reflexivity]. 
    replace (block_at g r (block_local g k)) with k by (rewrite B; symmetry; apply (block_at_local g G); exact K).
    f_equal. f_equal; [destruct (Z.eqb_spec (k * spb) 0), (Z.eqb_spec k 0); try reflexivity; nia|].
    destruct (Z_lt_le_dec ((k + 1) * spb) (steps g s)) as [C|C].
    + replace (Z.min spb (steps g s - k * spb)) with spb by lia. replace (k * spb + spb) with ((k + 1) * spb) by ring. reflexivity.
    + destruct (Z.ltb_spec (k * spb + Z.min spb (steps g s - k * spb)) (steps g s)); [lia|]. destruct (Z.ltb_spec ((k + 1) * spb) (steps g s)); [lia|reflexivity].
Qed.
Ltac s1 := unfold sends, recvs; cbn [flat_map app].
Lemma sends_step : forall r s k d t, 0 <= r < NR -> 0 <= s < sweeps g -> 0 <= k -> k * spb < steps g s ->
  sends (step_ops g r s (k * spb)) d t = if colkey r d t then sends (col_s r s k) d t else sends (wrk_s r s k) d t.
Proof.
  intros r s k d t R S K L. rewrite step_split by assumption. rewrite !sends_app.
  replace (sends (col_r r s k) d t) with (@nil data) by (unfold col_r; destruct (_ =? _); [destruct (_ <? _)|]; reflexivity).
  replace (sends (wrk_r r s k) d t) with (@nil data) by (unfold wrk_r; destruct (_ =? _); [destruct (_ =? _)|]; reflexivity). cbn [app].
  destruct (colkey r d t) eqn:C.
  - replace (sends (wrk_s r s k) d t) with (@nil data); [apply app_nil_r|]. unfold wrk_s. destruct (_ =? _); [|reflexivity]. destruct (_ <? _); [|reflexivity].
    s1. destruct (Z.eqb_spec (next_rank g r) d); [|reflexivity]. destruct (Z.eqb_spec (worker_tag g s (k + 1)) t); [|reflexivity]. subst d t. rewrite colkey_worker in C by lia. discriminate.
  - replace (sends (col_s r s k) d t) with (@nil data); [reflexivity|]. unfold col_s. destruct (_ =? _); [|reflexivity]. destruct (_ <? _); [|reflexivity].
    s1. destruct (Z.eqb_spec (prev_rank g r) d); [|reflexivity]. destruct (Z.eqb_spec (col_tag g k (next_j s k =? size - 1)) t); [|reflexivity]. subst d t. rewrite colkey_col in C; [discriminate|].
    exact (steps_block s k S K L).
Qed.
Lemma recvs_step : forall r s k d t, 0 <= r < NR -> 0 <= d < NR -> 0 <= s < sweeps g -> 0 <= k -> k * spb < steps g s ->
  recvs (step_ops g r s (k * spb)) d t = if colkey d r t then recvs (col_r r s k) d t else recvs (wrk_r r s k) d t.
Proof.
  intros r s k d t R D S K L. rewrite step_split by assumption. rewrite !recvs_app.
  replace (recvs (col_s r s k) d t) with (@nil data) by (unfold col_s; destruct (_ =? _); [destruct (_ <? _)|]; reflexivity).
  replace (recvs (wrk_s r s k) d t) with (@nil data) by (unfold wrk_s; destruct (_ =? _); [destruct (_ <? _)|]; reflexivity). rewrite app_nil_r. cbn [app].
  destruct (colkey d r t) eqn:C.
  - replace (recvs (wrk_r r s k) d t) with (@nil data); [apply app_nil_r|]. unfold wrk_r. destruct (_ =? _); [|reflexivity]. destruct (_ =? _); [reflexivity|].
    s1. destruct (Z.eqb_spec (prev_rank g r) d) as [E|]; [|reflexivity]. destruct (Z.eqb_spec (worker_tag g s k) t); [|reflexivity]. subst t.
    apply (next_prev g G d r D R) in E. rewrite <- E in C. rewrite colkey_worker in C by lia. discriminate.
  - replace (recvs (col_r r s k) d t) with (@nil data); [reflexivity|]. unfold col_r. destruct (_ =? _); [|reflexivity]. destruct (_ <? _); [|reflexivity].
    s1. destruct (Z.eqb_spec (next_rank g r) d) as [E|]; [|reflexivity]. destruct (Z.eqb_spec (col_tag g k (next_j s k =? size - 1)) t); [|reflexivity]. subst t.
    apply (next_prev g G r d R D) in E. rewrite <- E in C. rewrite colkey_col in C; [discriminate|]. exact (steps_block s k S K L).
Qed.
Lemma sweep_match : forall s r sw t, 0 <= s < NR -> 0 <= r < NR -> 0 <= sw < sweeps g ->
  Forall2 SF (sends (sweep_ops g s sw) r t) (recvs (sweep_ops g r sw) s t).
Proof.
  intros s r sw t S R W. unfold sweep_ops. rewrite sends_flat, recvs_flat. unfold init_steps. rewrite !flat_map_map.
  set (m := ceil_div (steps g sw) spb). destruct (g_spb g G) as [_ Lp].
  assert (Hk : forall k, In k (zrange 0 m) -> 0 <= k /\ k * spb < steps g sw).
  { intros k I. apply in_zrange in I. split; [lia|]. apply (ceil_div_lt (steps g sw) spb k); unfold m in I; lia. }
  rewrite (flat_ext Z data _ (fun k => if colkey s r t then sends (col_s s sw k) r t else sends (wrk_s s sw k) r t)) by (intros k I; destruct (Hk k I); apply sends_step; assumption).
  rewrite (flat_ext Z data (fun k => recvs (step_ops g r sw (k * spb)) s t) (fun k => if colkey s r t then recvs (col_r r sw k) s t else recvs (wrk_r r sw k) s t)) by (intros k I; destruct (Hk k I); apply recvs_step; assumption).
  destruct (colkey s r t).
  - apply Forall2_flat. intros k I. unfold col_s, col_r. pose proof (block_rank_range g G k) as Br.
    pose proof (next_prev g G r s R S) as NP. destruct (Z.eqb_spec (prev_rank g s) (block_rank g k)) as [A|A], (Z.eqb_spec r (block_rank g k)) as [B|B].
    + assert (N : next_rank g r = s) by (apply NP; lia). assert (E : prev_rank g s = r) by lia. destruct (_ <? _); [|constructor]. s1. rewrite E, N, !Z.eqb_refl. cbn [andb]. destruct (_ =? t); repeat constructor.
    + destruct (_ <? _); [|constructor]. s1. destruct (Z.eqb_spec (prev_rank g s) r); [lia|constructor].
    + destruct (_ <? _); [|constructor]. s1. destruct (Z.eqb_spec (next_rank g r) s) as [N|N]; [|constructor]. apply NP in N. lia.
    + constructor.
  - apply shift_match.
    + intros k K Lk. assert (I : In (k + 1) (zrange 0 m)) by (apply in_zrange; lia). destruct (Hk _ I) as [_ L]. unfold wrk_s, wrk_r.
      destruct (Z.ltb_spec ((k + 1) * spb) (steps g sw)); [|lia]. destruct (Z.eqb_spec (k + 1) 0); [lia|].
      pose proof (block_rank_range g G k) as Br. pose proof (next_block g G k K) as NB. pose proof (next_prev g G s r S R) as NP.
      destruct (Z.eqb_spec s (block_rank g k)) as [A|A], (Z.eqb_spec r (block_rank g (k + 1))) as [B|B].
      * assert (N : next_rank g s = r) by (rewrite A, B; exact NB). assert (E : prev_rank g r = s) by (apply NP; exact N). s1. rewrite E, N, !Z.eqb_refl. cbn [andb]. destruct (_ =? t); repeat constructor.
      * s1. destruct (Z.eqb_spec (next_rank g s) r); [|constructor]. exfalso. apply B. rewrite <- NB, <- A. symmetry. assumption.
      * s1. destruct (Z.eqb_spec (prev_rank g r) s) as [E|E]; [|constructor]. exfalso. apply NP in E. apply A.
        assert (F : next_rank g s = next_rank g (block_rank g k)) by (rewrite NB; congruence).
        pose proof (next_prev g G (block_rank g k) (next_rank g s) Br (proj1 (next_range g G s S))) as X.
        pose proof (next_prev g G s (next_rank g s) S (proj1 (next_range g G s S))) as Y. rewrite <- F in X. destruct X as [_ X]. destruct Y as [_ Y]. rewrite <- (X eq_refl). symmetry. apply Y. reflexivity.
      * constructor.
    + unfold wrk_s. destruct (_ =? _); [|reflexivity]. destruct (Z.ltb_spec ((m - 1 + 1) * spb) (steps g sw)); [|reflexivity]. exfalso.
      assert (m < m); [|lia]. unfold m at 2. apply ceil_div_lt; [lia|]. replace (m - 1 + 1) with m in * by lia. assumption.
    + unfold wrk_r. destruct (_ =? _); reflexivity.
Qed.

(** ** The reflectors *)
Lemma base_mult : forall s, s / b * b / b * b = s / b * b.
Proof. intros s. pose proof (g_b g G). rewrite Z.div_mul by lia. reflexivity. Qed.
Lemma top_row_eq : forall s0 k, s0 / b * b = s0 -> va_top_row g s0 (k * spb) = s0 + k * nbb.
Proof. intros s0 k H. unfold va_top_row. destruct (g_spb g G) as [E _]. rewrite E. rewrite Z.mul_add_distr_r, H. ring. Qed.
Lemma top_full : forall s0 st, 1 < va_nr_tiles g s0 st -> va_top g s0 st = nb - va_offset_row g s0 st /\ va_top g s0 st < va_rows_panel g s0 st.
Proof.
  intros s0 st H. unfold va_nr_tiles in H. pose proof (g_nb g G). assert (0 < ceil_div (va_rows_panel g s0 st - va_top g s0 st) nb) by lia.
  apply (proj1 (ceil_div_lt (va_rows_panel g s0 st - va_top g s0 st) nb 0 ltac:(lia))) in H1. unfold va_top in *. lia.
Qed.
Lemma v_data : forall s0 k i, 0 <= s0 -> s0 / b * b = s0 -> 0 <= k -> 0 <= i < va_nr_tiles g s0 (k * spb) ->
  SF (va_panel_data g s0 (k * spb) i) (va_v_data g s0 (k * spb) i).
Proof.
  intros s0 k i S0 M K I. unfold va_panel_data, va_v_data, stands_for. pose proof (g_nb g G). 
  assert (X : va_index_panel g (k * spb) = k) by (unfold va_index_panel; apply (id_of g G); exact K). rewrite X.
  split; [reflexivity|]. split; [reflexivity|]. cbn [va_index_v fst snd]. unfold va_panel_origin, va_v_origin.
  pose proof (top_row_eq s0 k M) as T. destruct (Z.eqb_spec i 0) as [E|E]; cbn [fst snd].
  - split; [|unfold va_offset_col; pose proof (Z.div_mod s0 nb); lia]. unfold va_offset_row. rewrite T.
    pose proof (Z.div_mod (s0 + k * nbb) nb). subst i. lia.
  - split; [|unfold va_offset_col; pose proof (Z.div_mod s0 nb); lia]. destruct (top_full s0 (k * spb)) as [A _]; [lia|]. rewrite A.
    unfold va_offset_row. rewrite T. pose proof (Z.div_mod (s0 + k * nbb) nb). nia.
Qed.
Lemma v1_match : forall s r s0 k i t, 0 <= s0 -> s0 / b * b = s0 -> 0 <= k -> 0 <= i < va_nr_tiles g s0 (k * spb) ->
  Forall2 SF (sends (v_ops1 g s0 (k * spb) s i) r t) (recvs (v_ops1 g s0 (k * spb) r i) s t).
Proof.
  intros s r s0 k i t S0 M K I. pose proof (v_data s0 k i S0 M K I) as D. unfold v_ops1.
  set (rp := va_rank_panel g (k * spb)). set (rv := va_rank_v g s0 (k * spb) i). set (tg := va_tag g s0 (k * spb) i).
  destruct (Z.eqb_spec s rp), (Z.eqb_spec r rp), (Z.eqb_spec s rv), (Z.eqb_spec r rv); s1; eqbs; first [apply Forall2_nil | exfalso; lia | apply Forall2_cons; [exact D|apply Forall2_nil]].
Qed.
Lemma v_match : forall s r sw t, 0 <= sw -> Forall2 SF (sends (v_ops g s sw) r t) (recvs (v_ops g r sw) s t).
Proof.
  intros s r sw t W. unfold v_ops. destruct (flushes g sw); [|constructor]. cbv zeta. rewrite sends_flat, recvs_flat. apply Forall2_flat.
  intros st I. apply (in_init g G) in I. destruct I as (k & -> & K & L). rewrite sends_flat, recvs_flat. apply Forall2_flat. intros i Hi. apply in_zrange in Hi.
  apply v1_match; [|apply base_mult|exact K|exact Hi]. pose proof (g_b g G). assert (0 <= sw / b) by (apply Z.div_pos; lia). nia.
Qed.

Theorem prog_match : forall s r t, 0 <= s < NR -> 0 <= r < NR -> Forall2 SF (sends (prog g s) r t) (recvs (prog g r) s t).
Proof.
  intros s r t S R. unfold prog. destruct (size =? 0); [constructor|]. rewrite sends_app, recvs_app. apply Forall2_app; [apply copy_match; lia|].
  rewrite sends_flat, recvs_flat. apply Forall2_flat. intros sw I. apply in_zrange in I. rewrite sends_app, recvs_app. apply Forall2_app.
  - apply sweep_match; assumption.
  - apply v_match. lia.
Qed.
End msgs.
