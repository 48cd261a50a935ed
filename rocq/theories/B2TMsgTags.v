(** * The tags of the distributed band_to_tridiagonal keep its messages apart, and its messages carry everything *)
From Coq Require Import ZArith Lia List Bool Psatz.
From Verif Require Import Loop HouseModel HouseProofs B2TSched DistGrid DistMat B2TMsgModel B2TMsgSpec B2TMsgProofs B2TMsgMatch.
Import ListNotations.
Local Open Scope Z_scope.

Lemma in_sends : forall p d t x, In x (sends p d t) <-> In (Send d t x) p.
Proof.
  intros p d t x. unfold sends. rewrite in_flat_map. split.
  - intros ([d' t' y|d' t' y|y y'] & I & J); try contradiction. destruct (Z.eqb_spec d' d), (Z.eqb_spec t' t); try contradiction. subst. cbn in J. destruct J as [<-|[]]. exact I.
  - intros I. exists (Send d t x). split; [exact I|]. rewrite !Z.eqb_refl. left. reflexivity.
Qed.
Lemma nil_by : forall (A : Type) (l : list A), (forall x, ~ In x l) -> l = [].
Proof. intros A l H. destruct l as [|a l]; [reflexivity|]. exfalso. exact (H a (or_introl eq_refl)). Qed.
Lemma nonnil_in : forall (A : Type) (l : list A), l <> [] -> exists x, In x l.
Proof. intros A [|a l] H; [congruence|]. exists a. left. reflexivity. Qed.

Lemma mix : forall c q o q' o', 0 <= o < c -> 0 <= o' < c -> q * c + o = q' * c + o' -> q = q' /\ o = o'.
Proof. intros c q o q' o' A B E. assert (q = q') by nia. subst. lia. Qed.

Section msgs.
Variable g : msg_cfg.
Hypothesis G : cfg_ok g.
Notation size := (m_size g).
Notation nb := (m_nb g).
Notation b := (m_b g).
Notation P := (m_P g).
Notation Q := (m_Q g).
Notation NR := (nranks g).
Notation nbb := (nb_band g).
Notation spb := (steps_per_block g).
Notation tpb := (tiles_per_block g).
Notation wpt := (workers_per_tile g).
Notation SF := (stands_for nb nbb).
Notation nj := (next_j g).

(** ** The pieces of a panel tile *)
Definition vkey (s0 k i : Z) : Prop := 0 <= s0 < sweeps g /\ s0 / b * b = s0 /\ 0 <= k /\ k * spb < steps g s0 /\ 0 <= i < va_nr_tiles g s0 (k * spb).
Section piece.
Variables s0 k : Z.
Hypotheses (S0 : 0 <= s0 < sweeps g) (M : s0 / b * b = s0) (K : 0 <= k) (L : k * spb < steps g s0).
Notation st := (k * spb).
Lemma pc_size : s0 + k * nbb <= size - 2.
Proof.
  destruct (g_spb g G) as [E L1]. pose proof (g_b g G). unfold steps in L. destruct (Z.eqb_spec s0 (size - 2)).
  - assert (k = 0) by nia. subst k. lia.
  - apply (ceil_div_lt (size - s0 - 2) b (k * spb)) in L; [|lia]. rewrite E. nia.
Qed.
Lemma pc_panel : va_index_panel g st = k.
Proof. unfold va_index_panel. apply (id_of g G). exact K. Qed.
Lemma pc_R : va_rows_panel g s0 st = Z.min nbb (size - 1 - (s0 + k * nbb)) /\ 1 <= va_rows_panel g s0 st.
Proof.
  unfold va_rows_panel. rewrite pc_panel, (top_row_eq g G s0 k M). pose proof pc_size. pose proof (nbb_pos g G). lia.
Qed.
Lemma pc_off : 0 <= va_offset_row g s0 st < nb.
Proof. apply Z.mod_pos_bound. apply (g_nb g G). Qed.
Lemma pc_top : 1 <= va_top g s0 st <= nb /\ va_top g s0 st <= va_rows_panel g s0 st /\ va_offset_row g s0 st + va_top g s0 st <= nb.
Proof. pose proof pc_off. destruct pc_R. unfold va_top. lia. Qed.
(** C = va_nr_tiles - 1 further tiles *)
Lemma pc_C : 0 <= va_nr_tiles g s0 st - 1 <= tpb /\
  (va_nr_tiles g s0 st - 2) * nb < va_rows_panel g s0 st - va_top g s0 st <= (va_nr_tiles g s0 st - 1) * nb.
Proof.
  destruct pc_top as [T1 [T2 T3]]. destruct pc_R as [R1 R2]. pose proof (g_nb g G). destruct (g_bb g G) as [Eb Lb].
  unfold va_nr_tiles. set (D := va_rows_panel g s0 st - va_top g s0 st) in *. assert (D0 : 0 <= D <= nb * tpb - 1) by lia.
  assert (A : 0 <= ceil_div D nb) by (apply cdiv_pos; lia).
  assert (A2 : D <= nb * ceil_div D nb) by (apply ceil_div_cover; lia).
  assert (A3 : ceil_div D nb - 1 < ceil_div D nb) by lia. apply (ceil_div_lt D nb (ceil_div D nb - 1)) in A3; [|lia].
  split; [|split; nia]. split; [lia|]. replace (1 + ceil_div D nb - 1) with (ceil_div D nb) by lia. nia.
Qed.
Section i.
Variable i : Z.
Hypothesis I : 0 <= i < va_nr_tiles g s0 st.
Lemma pc_rows : 1 <= va_rows g s0 st i /\ fst (va_v_origin g s0 st i) + va_rows g s0 st i <= nb /\ 0 <= fst (va_v_origin g s0 st i) /\
  0 <= va_panel_origin g s0 st i /\ va_panel_origin g s0 st i + va_rows g s0 st i <= va_rows_panel g s0 st.
Proof.
  destruct pc_top as [T1 [T2 T3]]. destruct pc_C as [C1 C2]. pose proof pc_off. pose proof (g_nb g G).
  unfold va_rows, va_v_origin, va_panel_origin, va_bottom. destruct (Z.eqb_spec i 0) as [E|E]; [cbn [fst snd]; lia|].
  destruct (Z.eqb_spec i (va_nr_tiles g s0 st - 1)) as [F|F]; cbn [fst snd].
  - rewrite F. nia.
  - assert (0 <= (i - 1) * nb) by nia. assert (i * nb <= (va_nr_tiles g s0 st - 2) * nb) by nia. lia.
Qed.
Lemma pc_v : exists m x, va_v_data g s0 st i = DV ((s0 + k * nbb) / nb + i) (s0 / nb) x (s0 mod nb) m (va_cols g s0 st) /\ m = va_rows g s0 st i /\
  x = fst (va_v_origin g s0 st i).
Proof.
  unfold va_v_data, va_index_v. rewrite (top_row_eq g G s0 k M). cbn [fst snd]. eexists _, _. split; [|split; reflexivity].
  f_equal. unfold va_v_origin, va_offset_col. destruct (i =? 0); reflexivity.
Qed.
Lemma pc_elt : s0 + (k * nbb + va_panel_origin g s0 st i) = ((s0 + k * nbb) / nb + i) * nb + fst (va_v_origin g s0 st i).
Proof.
  pose proof (v_data g G s0 k i (proj1 S0) M K I) as D. destruct pc_v as (m & x & E & _ & F). rewrite E in D. unfold va_panel_data in D. rewrite pc_panel in D.
  unfold stands_for in D. destruct D as (_ & _ & D & _). rewrite <- F. exact D.
Qed.
Lemma pc_row_tile : 0 <= (s0 + k * nbb) / nb + i < ntl g.
Proof.
  pose proof (g_nb g G). pose proof (nbb_pos g G). pose proof pc_elt as E. pose proof pc_rows as (A & B & C & D & F). destruct pc_R as [R1 _]. split; [assert (0 <= (s0 + k * nbb) / nb) by (apply Z.div_pos; nia); lia|].
  unfold ntl. apply ceil_div_lt; lia.
Qed.
Lemma pc_col_tile : 0 <= s0 / nb < ntl g.
Proof.
  pose proof (g_nb g G). split; [apply Z.div_pos; lia|]. unfold ntl. apply ceil_div_lt; [lia|]. pose proof (Z.mul_div_le s0 nb ltac:(lia)). pose proof pc_size. pose proof (nbb_pos g G). nia.
Qed.
Lemma pc_tag : va_tag g s0 st i = offset_v_tag g + 2 * (((s0 + k * nbb) / nb + i) / P + ceil_div (ntl g) P * (s0 / nb / Q * (nb / b) + s0 mod nb / b)) + (if i =? 0 then 0 else 1).
Proof.
  unfold va_tag, v_tag. cbn [va_index_v fst snd]. rewrite (top_row_eq g G s0 k M). cbv zeta.
  replace (snd (va_v_origin g s0 st i)) with (s0 mod nb) by (unfold va_v_origin, va_offset_col; destruct (i =? 0); reflexivity).
  destruct (i =? 0); reflexivity.
Qed.
Lemma pc_ti : 0 <= ((s0 + k * nbb) / nb + i) / P < ceil_div (ntl g) P.
Proof.
  pose proof (g_P g G). pose proof pc_row_tile. split; [apply Z.div_pos; lia|]. apply ceil_div_lt; [lia|].
  pose proof (Z.mul_div_le ((s0 + k * nbb) / nb + i) P ltac:(lia)). lia.
Qed.
Lemma pc_tjo : 0 <= s0 mod nb / b < nb / b /\ s0 mod nb = b * (s0 mod nb / b).
Proof.
  pose proof (g_b g G). pose proof (g_c g G) as C. pose proof (g_nb g G). pose proof (Z.mod_pos_bound s0 nb ltac:(lia)) as [A B].
  assert (E : s0 mod nb = b * (s0 mod nb / b)).
  { rewrite C. rewrite <- M. rewrite (Z.mul_comm (s0 / b)). rewrite Z.mul_mod_distr_l by nia. rewrite (Z.mul_comm b (_ mod _)), Z.div_mul by lia. ring. }
  split; [|exact E]. split; [apply Z.div_pos; lia|]. nia.
Qed.
Lemma pc_tj : 0 <= s0 / nb / Q * (nb / b) + s0 mod nb / b < ceil_div (ntl g) Q * (nb / b).
Proof.
  pose proof (g_Q g G). pose proof pc_col_tile. destruct pc_tjo as [A _]. pose proof (g_c1 g G).
  assert (B : 0 <= s0 / nb / Q < ceil_div (ntl g) Q).
  { split; [apply Z.div_pos; lia|]. apply ceil_div_lt; [lia|]. pose proof (Z.mul_div_le (s0 / nb) Q ltac:(lia)). lia. }
  nia.
Qed.
Lemma pc_tag_range : offset_v_tag g <= va_tag g s0 st i < offset_col_tag g.
Proof.
  rewrite pc_tag. unfold offset_col_tag. pose proof pc_ti. pose proof pc_tj. set (ti := _ / P) in *. set (tj := _ + s0 mod nb / b) in *. set (ld := ceil_div (ntl g) P) in *. set (w := ceil_div (ntl g) Q * (nb / b)) in *.
  assert (0 <= ld * tj) by nia. assert (ti + ld * tj <= ld * w - 1) by nia. destruct (i =? 0); lia.
Qed.
End i.
End piece.

Lemma vkey_inj : forall s0 k i s0' k' i', vkey s0 k i -> vkey s0' k' i' ->
  va_tag g s0 (k * spb) i = va_tag g s0' (k' * spb) i' -> va_rank_v g s0 (k * spb) i = va_rank_v g s0' (k' * spb) i' -> s0 = s0' /\ k = k' /\ i = i'.
Proof.
  intros s0 k i s0' k' i' (S & M & K & L & I) (S' & M' & K' & L' & I') T W.
  rewrite (pc_tag s0 k M i) in T. rewrite (pc_tag s0' k' M' i') in T.
  unfold va_rank_v, va_index_v in W. cbn [fst snd] in W. rewrite (top_row_eq g G s0 k M), (top_row_eq g G s0' k' M') in W.
  pose proof (pc_ti s0 k S M K L i I) as A. pose proof (pc_ti s0' k' S' M' K' L' i' I') as A'.
  pose proof (pc_tj s0 k S M K L) as B. pose proof (pc_tj s0' k' S' M' K' L') as B'.
  pose proof (pc_tjo s0 M) as [J1 J2]. pose proof (pc_tjo s0' M') as [J1' J2'].
  pose proof (pc_row_tile s0 k S M K L i I) as X. pose proof (pc_row_tile s0' k' S' M' K' L' i' I') as X'.
  pose proof (pc_col_tile s0 k S M K L) as Y. pose proof (pc_col_tile s0' k' S' M' K' L') as Y'.
  set (row := (s0 + k * nbb) / nb + i) in *. set (row' := (s0' + k' * nbb) / nb + i') in *.
  set (ld := ceil_div (ntl g) P) in *. set (tj := s0 / nb / Q * (nb / b) + s0 mod nb / b) in *. set (tj' := s0' / nb / Q * (nb / b) + s0' mod nb / b) in *.
  assert (Bt : (if i =? 0 then 0 else 1) = (if i' =? 0 then 0 else 1) /\ row / P + ld * tj = row' / P + ld * tj') by (destruct (i =? 0), (i' =? 0); lia).
  destruct Bt as [Bt T2].
  assert (Tj : tj = tj') by nia. assert (Ti : row / P = row' / P) by nia.
  assert (Jc : s0 / nb / Q = s0' / nb / Q /\ s0 mod nb / b = s0' mod nb / b) by (apply (mix (nb / b)); assumption).
  destruct Jc as [Jq Jo]. destruct (owner_inj g G row (s0 / nb) row' (s0' / nb) W Ti Jq) as [Er Ec]; try lia.
  assert (E0 : s0 = s0').
  { pose proof (g_nb g G). rewrite (Z.div_mod s0 nb), (Z.div_mod s0' nb) by lia. rewrite Ec, J2, J2', Jo. reflexivity. }
  split; [exact E0|]. subst s0'. unfold row, row' in Er.
  destruct (g_bb g G) as [Eb Lb]. pose proof (g_nb g G).
  assert (D : forall q, (s0 + q * nbb) / nb = s0 / nb + q * tpb) by (intros q; rewrite Eb; replace (s0 + q * (nb * tpb)) with (s0 + q * tpb * nb) by ring; apply Z.div_add; lia).
  rewrite !D in Er. pose proof (pc_C s0 k S M K L) as [C _]. pose proof (pc_C s0 k' S M' K' L') as [C' _].
  destruct (Z.eqb_spec i 0), (Z.eqb_spec i' 0); try discriminate.
  - assert (k = k') by nia. lia.
  - assert (k = k'); [|nia]. assert (k * tpb - k' * tpb = i' - i) by lia. assert (- tpb < (k - k') * tpb < tpb) by lia. nia.
Qed.

(** ** What is sent *)
Inductive sent (r d t : Z) (x : data) : Prop :=
| SCopy (k : Z) (off : bool) : 0 <= k < ntl g -> t = copy_tag k off -> (off = true -> k < ntl g - 1) -> x = DTile (k + if off then 1 else 0) k -> sent r d t x
| SCol (s k : Z) : 0 <= s < sweeps g -> 0 <= k -> k * spb < steps g s -> prev_rank g r = block_rank g k -> nj s k < size -> d = prev_rank g r ->
    t = col_tag g k (nj s k =? size - 1) -> x = DCol (k + 1) (nj s k) -> sent r d t x
| SWrk (s k : Z) : 0 <= s < sweeps g -> 0 <= k -> (k + 1) * spb < steps g s -> r = block_rank g k -> d = next_rank g r ->
    t = worker_tag g s (k + 1) -> x = DWorker k (s mod wpt) s ((k + 1) * spb) -> sent r d t x
| SV (s0 k i : Z) : vkey s0 k i -> d = va_rank_v g s0 (k * spb) i -> t = va_tag g s0 (k * spb) i -> x = va_panel_data g s0 (k * spb) i -> r = va_rank_panel g (k * spb) -> sent r d t x.

Lemma copy1_in : forall r rb k d t x, In (Send d t x) (copy_ops1 g r rb k) -> exists off : bool, t = copy_tag k off /\ (off = true -> k < ntl g - 1) /\ x = DTile (k + if off then 1 else 0) k.
Proof.
  intros r rb k d t x. unfold copy_ops1. set (q := if k =? ntl g - 1 then -1 else owner g (k + 1) k). clearbody q. cbv zeta. destruct (r =? rb).
  - destruct (r =? owner g k k), (k <? ntl g - 1); [destruct (r =? q)| |destruct (r =? q)|]; cbn [app In]; intuition discriminate.
  - rewrite in_app_iff. intros [H|H].
    + destruct (r =? owner g k k); [|contradiction]. destruct H as [H|[]]. injection H as <- <- <-. exists false. split; [reflexivity|]. split; [discriminate|]. f_equal. lia.
    + destruct (Z.ltb_spec k (ntl g - 1)) as [L|L]; [|contradiction]. destruct (r =? q); [|contradiction]. destruct H as [H|[]]. injection H as <- <- <-. exists true. auto.
Qed.
Lemma kb_range : forall kb k, 0 <= kb -> kb * tpb <= k < Z.min (kb * tpb + tpb) (ntl g) -> k / tpb = kb /\ 0 <= k < ntl g.
Proof.
  intros kb k B H. destruct (g_bb g G) as [_ L]. split; [|nia]. symmetry. apply Z.div_unique_pos with (r := k - kb * tpb); lia.
Qed.
Lemma copy_in : forall r d t x, In (Send d t x) (copy_ops g r) -> sent r d t x.
Proof.
  intros r d t x H. unfold copy_ops in H. apply in_flat_map in H. destruct H as (kb & Ib & H). cbv zeta in H. apply in_flat_map in H. destruct H as (k & Ik & H).
  apply in_zrange in Ib, Ik. destruct (kb_range kb k (proj1 Ib) Ik) as [_ R]. destruct (copy1_in _ _ _ _ _ _ H) as (off & A & B & C). exact (SCopy r d t x k off R A B C).
Qed.
Lemma base_range : forall s, 0 <= s < sweeps g -> 0 <= s / b * b < sweeps g /\ s / b * b <= s < s / b * b + b.
Proof. intros s S. pose proof (g_b g G). pose proof (Z.div_mod s b ltac:(lia)). pose proof (Z.mod_pos_bound s b ltac:(lia)). assert (0 <= s / b) by (apply Z.div_pos; lia). nia. Qed.
Lemma v1_in : forall r s0 k i d t x, In (Send d t x) (v_ops1 g s0 (k * spb) r i) -> d = va_rank_v g s0 (k * spb) i /\ t = va_tag g s0 (k * spb) i /\ x = va_panel_data g s0 (k * spb) i /\ r = va_rank_panel g (k * spb).
Proof.
  intros r s0 k i d t x H. unfold v_ops1 in H. destruct (Z.eqb_spec r (va_rank_panel g (k * spb))) as [A|A].
  - destruct (_ =? _); destruct H as [H|[]]; [discriminate|]. injection H as <- <- <-. auto.
  - destruct (_ =? _); [|contradiction]. destruct H as [H|[]]. discriminate.
Qed.
Lemma v_in : forall r s d t x, 0 <= s < sweeps g -> In (Send d t x) (v_ops g r s) ->
  flushes g s = true /\ exists k i, vkey (s / b * b) k i /\ In (Send d t x) (v_ops1 g (s / b * b) (k * spb) r i).
Proof.
  intros r s d t x S H. unfold v_ops in H. destruct (flushes g s); [|contradiction]. split; [reflexivity|]. cbv zeta in H. apply in_flat_map in H. destruct H as (st & I & H). apply (in_init g G) in I.
  destruct I as (k & -> & K & L). apply in_flat_map in H. destruct H as (i & I & H). apply in_zrange in I. exists k, i. split; [|exact H].
  destruct (base_range s S). split; [assumption|]. split; [apply (base_mult g G)|]. auto.
Qed.
Lemma sweep_in : forall r s d t x, 0 <= r < NR -> 0 <= s < sweeps g -> In (Send d t x) (sweep_ops g r s) -> sent r d t x.
Proof.
  intros r s d t x R S H. unfold sweep_ops in H. apply in_flat_map in H. destruct H as (st & I & H). apply (in_init g G) in I. destruct I as (k & -> & K & L).
  rewrite (step_split g G) in H by assumption. rewrite !in_app_iff in H. destruct H as [H|[H|[H|H]]].
  - unfold col_s in H. destruct (Z.eqb_spec (prev_rank g r) (block_rank g k)); [|contradiction]. destruct (Z.ltb_spec (nj s k) size); [|contradiction]. destruct H as [H|[]]. injection H as <- <- <-.
    eapply (SCol r _ _ _ s k); try eassumption; reflexivity.
  - exfalso. unfold col_r in H. destruct (_ =? _); [|contradiction]. destruct (_ <? _); [|contradiction]. destruct H as [H|[]]. discriminate.
  - exfalso. unfold wrk_r in H. destruct (_ =? _); [|contradiction]. destruct (_ =? _); [contradiction|]. destruct H as [H|[]]. discriminate.
  - unfold wrk_s in H. destruct (Z.eqb_spec r (block_rank g k)); [|contradiction]. destruct (Z.ltb_spec ((k + 1) * spb) (steps g s)); [|contradiction]. destruct H as [H|[]]. injection H as <- <- <-.
    eapply (SWrk r _ _ _ s k); try eassumption; reflexivity.
Qed.
Lemma prog_in : forall r d t x, 0 <= r < NR -> In (Send d t x) (prog g r) -> sent r d t x.
Proof.
  intros r d t x R H. unfold prog in H. destruct (size =? 0); [contradiction|]. apply in_app_iff in H. destruct H as [H|H]; [exact (copy_in r d t x H)|].
  apply in_flat_map in H. destruct H as (s & I & H). apply in_zrange in I. apply in_app_iff in H. destruct H as [H|H]; [exact (sweep_in r s d t x R I H)|].
  destruct (v_in r s d t x I H) as (_ & k & i & V & J). destruct (v1_in _ _ _ _ _ _ _ J) as (A & B & C & D). exact (SV r d t x (s / b * b) k i V A B C D).
Qed.

(** which tags belong to which kind *)
Lemma sent_kind : forall r d t x, 0 <= r < NR -> sent r d t x ->
  0 <= t /\ kind x = if t <? offset_v_tag g then 0 else if t <? offset_col_tag g then 3 else if colkey g r d t then 1 else 2.
Proof.
  intros r d t x R H. pose proof (off_v_pos g G) as O1. pose proof (off_col_ge g G) as O2. pose proof (off_worker_ge g G) as O3. destruct H as [k off K T L X|s k S K L B J D T X|s k S K L B D T X|s0 k i V D T X _]; subst x.
  - cbn [kind]. unfold offset_v_tag. subst t. unfold copy_tag in *. destruct off; [specialize (L eq_refl)|]; (split; [lia|]); destruct (Z.ltb_spec (2 * k + 1) (2 * ntl g + 0)); try destruct (Z.ltb_spec (2 * k + 0) (2 * ntl g + 0)); try reflexivity; lia.
  - cbn [kind]. pose proof (col_tag_lo g G k (nj s k =? size - 1) K) as Lo. rewrite <- T in Lo. split; [lia|]. destruct (Z.ltb_spec t (offset_v_tag g)); [lia|]. destruct (Z.ltb_spec t (offset_col_tag g)); [lia|].
    rewrite T, D, (colkey_col g G); [reflexivity|]. exact (steps_block g G s k S K L).
  - cbn [kind]. pose proof (worker_tag_lo g G s (k + 1) ltac:(lia)) as Lo. rewrite <- T in Lo. split; [lia|]. destruct (Z.ltb_spec t (offset_v_tag g)); [lia|]. destruct (Z.ltb_spec t (offset_col_tag g)); [lia|].
    rewrite T, D, (colkey_worker g G); [reflexivity|exact R|lia].
  - destruct V as (S & M & K & L & I). pose proof (pc_tag_range s0 k S M K L i I) as Rg. rewrite <- T in Rg. cbn [va_panel_data kind]. split; [lia|].
    destruct (Z.ltb_spec t (offset_v_tag g)); [lia|]. destruct (Z.ltb_spec t (offset_col_tag g)); [reflexivity|lia].
Qed.
Theorem same_kind : forall r d t x y, 0 <= r < NR -> In x (sends (prog g r) d t) -> In y (sends (prog g r) d t) -> kind x = kind y.
Proof.
  intros r d t x y R X Y. apply in_sends in X, Y. apply (prog_in r d t _ R) in X, Y. destruct (sent_kind r d t x R X) as [_ ->]. destruct (sent_kind r d t y R Y) as [_ ->]. reflexivity.
Qed.

(** ** Copies and reflectors: one message per key *)
Lemma copy_small : forall r d t, small (sends (copy_ops g r) d t).
Proof.
  intros r d t. unfold copy_ops. rewrite sends_flat. cbv zeta.
  assert (T2 : forall rb k, sends (copy_ops1 g r rb k) d t <> [] -> k = t / 2).
  { intros rb k H. apply nonnil_in in H. destruct H as [x H]. apply in_sends in H. destruct (copy1_in _ _ _ _ _ _ H) as (off & E & _). unfold copy_tag in E.
    apply Z.div_unique_pos with (r := if off then 1 else 0); destruct off; lia. }
  apply flat_small; [apply zrange_NoDup| |].
  - intros kb Ib. rewrite sends_flat. apply flat_small; [apply zrange_NoDup| |].
    + intros k _. unfold small, copy_ops1, sends, copy_tag. cbv zeta. destruct (r =? block_rank g kb); destruct (r =? owner g k k), (k <? ntl g - 1); try destruct (r =? _);
      cbn [app flat_map]; destruct (block_rank g kb =? d); cbn [andb]; try destruct (Z.eqb_spec (2 * k + 0) t); try destruct (Z.eqb_spec (2 * k + 1) t); cbn [app length]; lia.
    + intros k k' _ _ H H'. rewrite (T2 _ _ H), (T2 _ _ H'). reflexivity.
  - intros kb kb' Ib Ib' H H'. apply in_zrange in Ib, Ib'. rewrite sends_flat in H, H'. apply flat_nonnil in H, H'. destruct H as (k & I & H), H' as (k' & I' & H'). apply in_zrange in I, I'.
    pose proof (T2 _ _ H). pose proof (T2 _ _ H'). destruct (kb_range kb k (proj1 Ib) I) as [<- _]. destruct (kb_range kb' k' (proj1 Ib') I') as [<- _]. congruence.
Qed.
Lemma v_small : forall r d t, small (flat_map (fun s => sends (v_ops g r s) d t) (zrange 0 (sweeps g))).
Proof.
  intros r d t. pose proof (g_b g G) as Hb.
  assert (U : forall s0 k i x s0' k' i' x', vkey s0 k i -> vkey s0' k' i' -> In (Send d t x) (v_ops1 g s0 (k * spb) r i) -> In (Send d t x') (v_ops1 g s0' (k' * spb) r i') -> s0 = s0' /\ k = k' /\ i = i').
  { intros s0 k i x s0' k' i' x' V V' H H'. destruct (v1_in _ _ _ _ _ _ _ H) as (A & B & _). destruct (v1_in _ _ _ _ _ _ _ H') as (A' & B' & _). apply vkey_inj; try assumption; congruence. }
  apply flat_small; [apply zrange_NoDup| |].
  - intros s I. apply in_zrange in I. unfold v_ops. destruct (flushes g s); [|cbn; unfold small; cbn; lia]. cbv zeta. rewrite sends_flat.
    destruct (base_range s I) as [Br _]. pose proof (base_mult g G s) as Bm.
    apply flat_small; [apply (init_NoDup g G)| |].
    + intros st Is. apply (in_init g G) in Is. destruct Is as (k & -> & K & L). rewrite sends_flat. apply flat_small; [apply zrange_NoDup| |].
      * intros i _. unfold small, v_ops1, sends. destruct (_ =? _); destruct (_ =? _); cbn [flat_map]; try (cbn; lia). destruct (_ && _); cbn; lia.
      * intros i i' Ii Ii' H H'. apply in_zrange in Ii, Ii'. apply nonnil_in in H, H'. destruct H as [x H], H' as [x' H']. apply in_sends in H, H'.
        assert (E : vkey (s / b * b) k i) by (repeat split; auto; lia). assert (E' : vkey (s / b * b) k i') by (repeat split; auto; lia).
        destruct (U _ _ _ _ _ _ _ _ E E' H H') as (_ & _ & F). exact F.
    + intros st st' Is Is' H H'. apply (in_init g G) in Is, Is'. destruct Is as (k & -> & K & L), Is' as (k' & -> & K' & L'). rewrite sends_flat in H, H'. apply flat_nonnil in H, H'.
      destruct H as (i & Ii & H), H' as (i' & Ii' & H'). apply in_zrange in Ii, Ii'. apply nonnil_in in H, H'. destruct H as [x H], H' as [x' H']. apply in_sends in H, H'.
      assert (E : vkey (s / b * b) k i) by (repeat split; auto; lia). assert (E' : vkey (s / b * b) k' i') by (repeat split; auto; lia).
      destruct (U _ _ _ _ _ _ _ _ E E' H H') as (_ & -> & _). reflexivity.
  - intros s s' I I' H H'. apply in_zrange in I, I'. apply nonnil_in in H, H'. destruct H as [x H], H' as [x' H']. apply in_sends in H, H'.
    destruct (v_in _ _ _ _ _ I H) as (F & k & i & V & J). destruct (v_in _ _ _ _ _ I' H') as (F' & k' & i' & V' & J').
    destruct (U _ _ _ _ _ _ _ _ V V' J J') as (E & _). destruct (base_range s I) as [_ X]. destruct (base_range s' I') as [_ X'].
    unfold flushes in F, F'. apply orb_prop in F, F'.
    assert (FF : forall q, q / b * b <= q < q / b * b + b -> ((q + 1) mod b =? 0 = true \/ (q + 1 =? sweeps g) = true) -> q = q / b * b + b - 1 \/ q + 1 = sweeps g).
    { intros q Xq [Y|Y]; apply Z.eqb_eq in Y; [left|right; exact Y]. apply Z.mod_divide in Y; [|lia]. destruct Y as [z Z0]. pose proof (Z.div_mod q b ltac:(lia)). assert (z = q / b + 1); nia. }
    pose proof (FF s X F). pose proof (FF s' X' F'). lia.
Qed.
Theorem copy_v_unique : forall r d t x, 0 <= r < NR -> In x (sends (prog g r) d t) -> kind x = 0 \/ kind x = 3 -> sends (prog g r) d t = [x].
Proof.
  intros r d t x R X Kd. assert (Sm : small (sends (prog g r) d t)).
  2:{ unfold small in Sm. destruct (sends (prog g r) d t) as [|y [|z l]]; [contradiction| |cbn in Sm; lia]. destruct X as [->|[]]. reflexivity. }
  assert (KK : forall y, In (Send d t y) (prog g r) -> kind y = kind x) by (intros y Y; apply (same_kind r d t y x R); [apply in_sends; exact Y|exact X]).
  revert KK. unfold prog. destruct (size =? 0); [intros; unfold small; cbn; lia|]. intros KK. rewrite sends_app, sends_flat.
  assert (KS : forall s, In s (zrange 0 (sweeps g)) -> sends (sweep_ops g r s ++ v_ops g r s) d t = sends (v_ops g r s) d t).
  { intros s I. rewrite sends_app. replace (sends (sweep_ops g r s) d t) with (@nil data); [reflexivity|]. symmetry. apply nil_by. intros y Y. apply in_sends in Y.
    assert (Ky : kind y = kind x). { apply KK. apply in_app_iff. right. apply in_flat_map. exists s. split; [exact I|]. apply in_app_iff. left. exact Y. }
    apply in_zrange in I. unfold sweep_ops in Y. apply in_flat_map in Y. destruct Y as (st & Is & Y). apply (in_init g G) in Is. destruct Is as (k & -> & Kk & L).
    rewrite (step_split g G) in Y by assumption. rewrite !in_app_iff in Y. unfold col_s, col_r, wrk_r, wrk_s in Y.
    destruct Y as [Y|[Y|[Y|Y]]]; (destruct (_ =? _); [|contradiction]); (destruct (_ <? _) || destruct (_ =? _)); try contradiction; destruct Y as [Y|[]]; try discriminate; injection Y as _ _ <-; cbn [kind] in Ky; lia. }
  rewrite (flat_ext _ _ _ _ _ KS).
  destruct Kd as [Kd|Kd].
  - replace (flat_map (fun s => sends (v_ops g r s) d t) (zrange 0 (sweeps g))) with (@nil data); [rewrite app_nil_r; apply copy_small|]. symmetry. apply flat_nil. intros s I. apply nil_by. intros y Y. apply in_sends in Y.
    assert (Ky : kind y = kind x). { apply KK. apply in_app_iff. right. apply in_flat_map. exists s. split; [exact I|]. apply in_app_iff. right. exact Y. }
    apply in_zrange in I. destruct (v_in _ _ _ _ _ I Y) as (_ & k & i & _ & J). destruct (v1_in _ _ _ _ _ _ _ J) as (_ & _ & -> & _). cbn [va_panel_data kind] in Ky. lia.
  - replace (sends (copy_ops g r) d t) with (@nil data); [cbn [app]; apply v_small|]. symmetry. apply nil_by. intros y Y. apply in_sends in Y.
    assert (Ky : kind y = kind x). { apply KK. apply in_app_iff. left. exact Y. }
    unfold copy_ops in Y. apply in_flat_map in Y. destruct Y as (kb & _ & Y). cbv zeta in Y. apply in_flat_map in Y. destruct Y as (k & _ & Y). destruct (copy1_in _ _ _ _ _ _ Y) as (off & _ & _ & ->). cbn [kind] in Ky. lia.
Qed.

(** ** Workers and columns: what shares a key *)
Lemma blk_inj : forall a c, 0 <= a -> 0 <= c -> block_rank g a = block_rank g c -> a / NR = c / NR -> a = c.
Proof. intros a c A C E F. pose proof (g_NR g G). apply (mod_div_inj NR 0); [lia|exact E|exact F]. Qed.
Theorem worker_key : forall r d t blk slot s st blk' slot' s' st', 0 <= r < NR -> In (DWorker blk slot s st) (sends (prog g r) d t) -> In (DWorker blk' slot' s' st') (sends (prog g r) d t) ->
  blk = blk' /\ slot = slot' /\ st = st'.
Proof.
  intros r d t blk slot s st blk' slot' s' st' R X Y. apply in_sends in X, Y. apply (prog_in r d t _ R) in X, Y.
  destruct X as [? ? ? ? ? X|? ? ? ? ? ? ? ? ? X|w k S K L B D T X|? ? ? ? ? ? X ?]; try discriminate X. destruct Y as [? ? ? ? ? Y|? ? ? ? ? ? ? ? ? Y|w' k' S' K' L' B' D' T' Y|? ? ? ? ? ? Y ?]; try discriminate Y.
  injection X as -> -> -> ->. injection Y as -> -> -> ->. rewrite T in T'. unfold worker_tag in T'. pose proof (g_wpt g G). pose proof (Z.mod_pos_bound w wpt ltac:(lia)). pose proof (Z.mod_pos_bound w' wpt ltac:(lia)).
  assert (E : w mod wpt = w' mod wpt /\ (k + 1) / NR = (k' + 1) / NR) by (apply and_comm; apply (mix wpt); lia). destruct E as [E F].
  assert (KK : k + 1 = k' + 1). { apply blk_inj; try lia. rewrite <- (next_block g G k K), <- (next_block g G k' K'). congruence. }
  assert (k = k') by lia. subst k'. auto.
Qed.
Theorem col_key : forall r d t blk j blk' j', 0 <= r < NR -> In (DCol blk j) (sends (prog g r) d t) -> In (DCol blk' j') (sends (prog g r) d t) ->
  (blk = blk' /\ (j = size - 1 <-> j' = size - 1)) \/
  (blk' = blk + NR /\ j = size - 1 /\ j' - blk' * nbb + NR * nbb < j - blk * nbb) \/
  (blk = blk' + NR /\ j' = size - 1 /\ j - blk * nbb + NR * nbb < j' - blk' * nbb).
Proof.
  intros r d t blk j blk' j' R X Y. apply in_sends in X, Y. apply (prog_in r d t _ R) in X, Y.
  destruct X as [? ? ? ? ? X|s k S K L B J D T X|? ? ? ? ? ? ? ? X|? ? ? ? ? ? X ?]; try discriminate X. destruct Y as [? ? ? ? ? Y|s' k' S' K' L' B' J' D' T' Y|? ? ? ? ? ? ? ? Y|? ? ? ? ? ? Y ?]; try discriminate Y.
  injection X as -> ->. injection Y as -> ->. rewrite T in T'. unfold col_tag in T'. pose proof (g_NR g G). pose proof (nbb_pos g G).
  assert (Q1 : forall a c, 0 <= a -> 0 <= c -> block_rank g a = block_rank g c -> a / NR = c / NR + 1 -> a = c + NR).
  { intros a c A C E F. apply blk_inj; try lia. - unfold block_rank in *. rewrite E. replace (c + NR) with (c + 1 * NR) by ring. rewrite Z.mod_add by lia. reflexivity. - replace (c + NR) with (c + 1 * NR) by ring. rewrite Z.div_add by lia. lia. }
  destruct (Z.eqb_spec (nj s k) (size - 1)) as [E|E], (Z.eqb_spec (nj s' k') (size - 1)) as [E'|E'].
  - left. assert (k = k') by (apply blk_inj; (assumption || congruence || lia)). split; [lia|tauto].
  - right. left. assert (F : k' = k + NR) by (apply Q1; (assumption || congruence || lia)). unfold next_j in *. rewrite F in *. split; [lia|]. split; [exact E|]. nia.
  - right. right. assert (F : k = k' + NR) by (apply Q1; (assumption || congruence || lia)). unfold next_j in *. rewrite F in *. split; [lia|]. split; [exact E'|]. nia.
  - left. assert (k = k') by (apply blk_inj; (assumption || congruence || lia)). split; [lia|tauto].
Qed.
(** peers *)
Theorem peers : forall r d t x, 0 <= r < NR -> In (Send d t x) (prog g r) -> 0 <= d < NR /\ d <> r /\ 0 <= t.
Proof.
  intros r d t x R H. pose proof (prog_in r d t x R H) as Hs. split; [|split; [|exact (proj1 (sent_kind r d t x R Hs))]].
  - destruct Hs as [k off K T L X|s k S K L B J D T X|s k S K L B D T X|s0 k i V D T X _]; try subst d; [|apply (prev_range g G); exact R|apply (next_range g G); exact R|apply (owner_range g G)].
    unfold prog in H. destruct (size =? 0); [contradiction|]. rewrite in_app_iff in H. destruct H as [H|H].
    + unfold copy_ops in H. apply in_flat_map in H. destruct H as (kb & _ & H). cbv zeta in H. apply in_flat_map in H. destruct H as (k' & _ & H). revert H. unfold copy_ops1. set (q := if k' =? ntl g - 1 then -1 else owner g (k' + 1) k'). clearbody q. cbv zeta.
      pose proof (block_rank_range g G kb). destruct (r =? block_rank g kb), (r =? owner g k' k'), (k' <? ntl g - 1); try destruct (r =? q); cbn [app In]; intuition (try discriminate); match goal with E : Send _ _ _ = Send _ _ _ |- _ => injection E; intros; subst; lia end.
    + exfalso. apply in_flat_map in H. destruct H as (s & I & H). apply in_zrange in I. apply in_app_iff in H. destruct H as [H|H].
      * unfold sweep_ops in H. apply in_flat_map in H. destruct H as (st & Is & H). apply (in_init g G) in Is. destruct Is as (k' & -> & Kk & Lk). rewrite (step_split g G) in H by assumption. rewrite !in_app_iff in H. unfold col_s, col_r, wrk_r, wrk_s in H. subst x.
        destruct H as [Y|[Y|[Y|Y]]]; (destruct (_ =? _); [|contradiction]); (destruct (_ <? _) || destruct (_ =? _)); try contradiction; destruct Y as [Y|[]]; discriminate.
      * destruct (v_in _ _ _ _ _ I H) as (_ & k' & i & _ & Jv). destruct (v1_in _ _ _ _ _ _ _ Jv) as (_ & _ & E & _). subst x. discriminate.
  - intros E. subst d. pose proof (prog_match g G r r t R R) as Mt. 
    assert (Rn : forall y, ~ In (Recv r t y) (prog g r)).
    { intros y Y. unfold prog in Y. destruct (size =? 0); [contradiction|]. apply in_app_iff in Y. destruct Y as [Y|Y].
      - unfold copy_ops in Y. apply in_flat_map in Y. destruct Y as (kb & _ & Y). cbv zeta in Y. apply in_flat_map in Y. destruct Y as (k' & _ & Y). revert Y. unfold copy_ops1. set (q := if k' =? ntl g - 1 then -1 else owner g (k' + 1) k'). clearbody q. cbv zeta.
        destruct (Z.eqb_spec r (block_rank g kb)), (Z.eqb_spec r (owner g k' k')), (k' <? ntl g - 1); try destruct (Z.eqb_spec r q); cbn [app In]; intuition (try discriminate); match goal with E : Recv _ _ _ = Recv _ _ _ |- _ => injection E; intros; subst; lia end.
      - apply in_flat_map in Y. destruct Y as (s & I & Y). apply in_zrange in I. apply in_app_iff in Y. destruct Y as [Y|Y].
        + unfold sweep_ops in Y. apply in_flat_map in Y. destruct Y as (st & Is & Y). apply (in_init g G) in Is. destruct Is as (k' & -> & Kk & Lk). rewrite (step_split g G) in Y by assumption. rewrite !in_app_iff in Y. unfold col_s, col_r, wrk_r, wrk_s in Y.
          pose proof (prev_range g G r R). pose proof (next_range g G r R).
          destruct Y as [Y|[Y|[Y|Y]]]; (destruct (_ =? _); [|contradiction]); (destruct (_ <? _) || destruct (_ =? _)); try contradiction; destruct Y as [Y|[]]; try discriminate; injection Y; intros; lia.
        + unfold v_ops in Y. destruct (flushes g s); [|contradiction]. cbv zeta in Y. apply in_flat_map in Y. destruct Y as (st & _ & Y). apply in_flat_map in Y. destruct Y as (i & _ & Y). unfold v_ops1 in Y.
          destruct (Z.eqb_spec r (va_rank_panel g st)); destruct (_ =? _); try contradiction; destruct Y as [Y|[]]; try discriminate. injection Y; intros; lia. }
    apply in_sends in H. destruct (recvs (prog g r) r t) as [|y l] eqn:Er; [inversion Mt as [E0|]; rewrite <- E0 in H; contradiction|].
    apply (Rn y). assert (In y (recvs (prog g r) r t)) as Iy by (rewrite Er; left; reflexivity). unfold recvs in Iy. apply in_flat_map in Iy. destruct Iy as ([d' t' z|d' t' z|z z'] & Io & Jo); try contradiction.
    destruct (Z.eqb_spec d' r), (Z.eqb_spec t' t); cbn in Jo; try contradiction. destruct Jo as [<-|[]]. subst. exact Io.
Qed.
End msgs.
