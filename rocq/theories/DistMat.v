(** * Elements of a block-cyclic matrix: where they are, and the tiles they belong to.
    (misc/matrix_distribution.md, for one tile per block and no offset, the matrices the dense algorithms accept) *)
From Coq Require Import ZArith Lia List Bool.
From Verif Require Import CInt Loop StarField DenseSpec Tiling DistModel DistSpec DistProofs DistBuilt DistThms DistCtor DenseJobs TileJobs DistMachine DistGrid PanelModel PanelProofs PermAxis Properties_Panel.
Import ListNotations.
Local Open Scope Z_scope.

(** n elements in tiles of nb *)
Definition dtil (n nb : Z) : tiling := Tiling ((n + nb - 1) / nb) (fun k => Z.min nb (n - k * nb)).
(** Element (x, y) of the matrix mid, distributed over a P x Q grid in blocks of mb x nb elements from the rank src:
    it is in tile (x / mb, y / nb), which belongs to the rank with coordinates (src + tile) mod grid. *)
Definition drank (P Q : Z) (src : pair_Z) (i j : Z) : Z := rk Q ((fst src + i) mod P) ((snd src + j) mod Q).
Definition dmat {K : starfield} (P Q : Z) (block src : pair_Z) (mid : Z) (st : tstore (mat K)) : mat K := fun x y =>
  st (Tid (drank P Q src (x / fst block) (y / snd block)) mid (x / fst block) (y / snd block)) (x mod fst block) (y mod snd block).

Section tiles.
Variables n nb : Z.
Hypotheses (Hn : 0 <= n) (Hb : 0 < nb).
Notation t := (dtil n nb).
Lemma dt_iff : forall k, 0 <= k < tl_n t <-> 0 <= k /\ k * nb < n.
Proof.
  intros k. cbn [dtil tl_n]. split; intros [A B]; (split; [exact A|]).
  - assert ((k + 1) * nb <= n + nb - 1); [|lia]. pose proof (Z.mul_div_le (n + nb - 1) nb Hb). nia.
  - assert (k + 1 <= (n + nb - 1) / nb); [|lia]. apply Z.div_le_lower_bound; lia.
Qed.
Lemma dt_n : 0 <= tl_n t. Proof. cbn. apply Z.div_pos; lia. Qed.
Lemma dt_ok : tiling_ok t.
Proof. split; [apply dt_n|]. intros k Lk. apply dt_iff in Lk. cbn. lia. Qed.
Lemma dt_off : forall k, 0 <= k <= tl_n t -> tl_off t k = Z.min (k * nb) n.
Proof.
  intros k. remember (Z.to_nat k) as m eqn:E. revert k E. induction m as [|m IH]; intros k E L.
  - assert (k = 0) as -> by lia. rewrite off_0. lia.
  - replace k with (k - 1 + 1) at 1 by lia. rewrite off_succ by lia. rewrite IH by lia. assert (K1 : 0 <= k - 1 < tl_n t) by lia. apply dt_iff in K1. cbn. lia.
Qed.
Lemma dt_size : tl_size t = n.
Proof.
  unfold tl_size. pose proof dt_n. rewrite dt_off by lia. cbn [tl_n dtil]. pose proof (Z.mod_pos_bound (n + nb - 1) nb Hb). pose proof (Z.div_mod (n + nb - 1) nb ltac:(lia)). lia.
Qed.
Lemma dt_elem : forall x, 0 <= x < n -> 0 <= x / nb < tl_n t /\ 0 <= x mod nb < tl_sz t (x / nb) /\ tl_off t (x / nb) + x mod nb = x.
Proof.
  intros x L. pose proof (Z.mod_pos_bound x nb Hb). pose proof (Z.div_mod x nb ltac:(lia)).
  assert (A : 0 <= x / nb < tl_n t). { apply dt_iff. split; [apply Z.div_pos; lia|lia]. }
  split; [exact A|]. split; [cbn [tl_sz dtil]; lia|]. rewrite dt_off by lia. lia.
Qed.
Lemma dt_off_eq : forall k, 0 <= k < tl_n t -> tl_off t k = k * nb.
Proof. intros k L. rewrite dt_off by lia. apply dt_iff in L. lia. Qed.
End tiles.

Lemma gather_div : forall {K : starfield} m mb n nb (T : Z -> Z -> mat K) x y, 0 < mb -> 0 < nb -> 0 <= x < m -> 0 <= y < n ->
  gather (dtil m mb) (dtil n nb) T x y = T (x / mb) (y / nb) (x mod mb) (y mod nb).
Proof.
  intros K m mb n nb T x y Bm Bn Lx Ly. destruct (dt_elem m mb ltac:(lia) Bm x Lx) as (A1 & A2 & A3). destruct (dt_elem n nb ltac:(lia) Bn y Ly) as (B1 & B2 & B3).
  rewrite <- A3 at 1. rewrite <- B3 at 1. apply gather_at; try assumption; apply dt_ok; lia.
Qed.

(** the axes of such a matrix *)
Section axes.
Variables (P Q : Z) (size block src : pair_Z) (D : coord -> Z -> axis).
Hypothesis DD : distributed P Q size block block src (0, 0) D.
Notation L rc := (arg_layout size block block (P, Q) src (0, 0) rc).
Notation t rc := (dtil (sel rc size) (sel rc block)).
Lemma da_pos : 0 < P /\ 0 < Q. Proof using DD. destruct DD as (A & B & _). auto. Qed.
Lemma da_arg : forall rc, 0 <= sel rc size /\ 0 < sel rc block /\ 0 <= sel rc src < sel rc (P, Q).
Proof using DD. intros rc. destruct DD as (_ & _ & A & _). specialize (A rc). tauto. Qed.
Lemma da_models : forall rc p, 0 <= p < gs P Q rc -> models p (L rc) (D rc p).
Proof using DD. apply (ga_models _ _ _ _ _ (distributed_axes _ _ _ _ _ _ _ _ DD)). Qed.
Lemma da_nt : forall rc, ax_nr_tiles (D rc 0) = tl_n (t rc).
Proof using DD.
  intros rc. destruct da_pos as [HP HQ]. destruct (da_arg rc) as (A1 & A2 & _).
  assert (M : models 0 (L rc) (D rc 0)) by (apply da_models; pose proof (gs_pos P Q HP HQ rc); lia).
  assert (O : l_off (L rc) = 0) by (destruct rc; reflexivity).
  assert (I : forall k, 0 <= k < ax_nr_tiles (D rc 0) <-> 0 <= k < tl_n (t rc)).
  { intros k. rewrite (nt_iff 0 (L rc) (D rc 0) M O). rewrite dt_iff by assumption. destruct rc; reflexivity. }
  pose proof (T_nt_nonneg _ _ _ M). pose proof (dt_n _ _ A1 A2) as B.
  destruct (Z.lt_total (ax_nr_tiles (D rc 0)) (tl_n (t rc))) as [X|[X|X]]; [exfalso|exact X|exfalso].
  - pose proof (proj2 (I (ax_nr_tiles (D rc 0))) ltac:(lia)). lia.
  - pose proof (proj1 (I (tl_n (t rc))) ltac:(lia)). lia.
Qed.
Lemma da_sz : forall r rc k, In r (ranks P Q) -> ax_global_tile_size_of (ax Q D r rc) k = tl_sz (t rc) k.
Proof using DD.
  intros r rc k R. destruct da_pos as [HP HQ]. assert (M : models (co Q rc r) (L rc) (ax Q D r rc)).
  { apply da_models. apply (in_ranks_rc P Q HP HQ rc) in R. apply R. }
  rewrite (g_size (co Q rc r) (L rc) _ M); destruct rc; reflexivity.
Qed.
Lemma da_own : forall rc k, tile_owner (L rc) k = (sel rc src + k) mod sel rc (P, Q).
Proof using DD.
  intros rc k. destruct (da_arg rc) as (_ & A2 & _). unfold tile_owner. destruct rc; cbn [arg_layout l_src l_off l_tile l_block l_grid sel fst snd] in *; rewrite Z.div_0_l by lia; rewrite Z.add_0_l, Z.div_mul by lia; reflexivity.
Qed.
Lemma da_rank : forall i j, rk Q (tile_owner (L Row) i) (tile_owner (L Col) j) = drank P Q src i j.
Proof using DD. intros i j. rewrite !da_own. reflexivity. Qed.
Lemma drank_in : forall i j, In (drank P Q src i j) (ranks P Q).
Proof using DD.
  intros i j. destruct da_pos as [HP HQ]. apply (mk_in P Q HP HQ Row); cbn [gs other]; apply Z.mod_pos_bound; assumption.
Qed.
End axes.
