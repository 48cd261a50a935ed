(** * Distributed band_to_tridiagonal: the tasks, where their actions are, arithmetic of steps and blocks. *)
From Coq Require Import ZArith Lia List Bool.
From Verif Require Import Loop HouseModel DistGrid DistMat B2TMsgModel B2TMsgSpec B2TMsgProofs B2TSched SemModel SemProofs B2TDistModel.
Import ListNotations.
Local Open Scope Z_scope.

Lemma nodup_flat : forall {X Y} (f : X -> list Y) l, NoDup l -> (forall x, In x l -> NoDup (f x)) -> (forall x x' y, In x l -> In x' l -> In y (f x) -> In y (f x') -> x = x') -> NoDup (flat_map f l).
Proof.
  intros X Y f l ND N D. induction ND as [|x l N1 N2 IH]; [constructor|]. cbn [flat_map]. apply nodup_app.
  - apply N. left. reflexivity.
  - apply IH; [intros y Iy; apply N; right; exact Iy|]. intros y y' z Iy Iy'. apply D; right; assumption.
  - intros y Y1 Y2. apply in_flat_map in Y2 as (x' & Ix' & Y2). assert (x = x') by (apply (D x x' y); [left; reflexivity|right; exact Ix'|exact Y1|exact Y2]). subst. contradiction.
Qed.
Lemma zsum_upper : forall {X} (f g : X -> Z) l L, NoDup l -> (forall x, In x l -> f x <> 0 -> In x L) -> (forall x, In x L -> f x <= g x) -> (forall x, In x L -> 0 <= g x) -> zsum f l <= zsum g L.
Proof.
  intros X f g l L ND. revert L. induction ND as [|x l N1 N2 IH]; intros L IN LE NN; [apply (zsum_nonneg g L NN)|].
  rewrite zsum_cons. destruct (Z.eq_dec (f x) 0) as [E|E].
  - rewrite E. assert (zsum f l <= zsum g L) by (apply IH; [intros y Iy; apply IN; right; exact Iy|exact LE|exact NN]). lia.
  - destruct (in_split x L (IN x (or_introl eq_refl) E)) as (l1 & l2 & ->).
    assert (zsum f l <= zsum g (l1 ++ l2)).
    { apply IH.
      - intros y Iy NY. specialize (IN y (or_intror Iy) NY). apply in_app_or in IN as [I1|[I1|I1]]; [apply in_or_app; auto|subst; contradiction|apply in_or_app; auto].
      - intros y Iy. apply LE. apply in_app_or in Iy as [I1|I1]; apply in_or_app; [auto|right; right; exact I1].
      - intros y Iy. apply NN. apply in_app_or in Iy as [I1|I1]; apply in_or_app; [auto|right; right; exact I1]. }
    assert (f x <= g x) by (apply LE; apply in_or_app; right; left; reflexivity). rewrite zsum_app in *. rewrite zsum_cons. lia.
Qed.
Lemma zsum_lower : forall {X} (f g : X -> Z) l L, NoDup L -> incl L l -> (forall x, In x l -> 0 <= f x) -> (forall x, In x L -> g x <= f x) -> zsum g L <= zsum f l.
Proof.
  intros X f g l L ND. revert l. induction ND as [|x L N1 N2 IH]; intros l IN NN LE; [apply zsum_nonneg; exact NN|].
  destruct (in_split x l (IN x (or_introl eq_refl))) as (l1 & l2 & ->).
  assert (zsum g L <= zsum f (l1 ++ l2)).
  { apply IH.
    - intros y Iy. specialize (IN y (or_intror Iy)). apply in_app_or in IN as [I1|[I1|I1]]; [apply in_or_app; auto|subst; contradiction|apply in_or_app; auto].
    - intros y Iy. apply NN. apply in_app_or in Iy as [I1|I1]; apply in_or_app; [auto|right; right; exact I1].
    - intros y Iy. apply LE. right. exact Iy. }
  assert (g x <= f x) by (apply LE; left; reflexivity). rewrite zsum_app in *. rewrite !zsum_cons. lia.
Qed.

Section struct.
Variable g : msg_cfg.
Hypothesis G : cfg_ok g.
Notation size := (m_size g).
Notation nb := (m_nb g).
Notation b := (m_b g).
Notation nbb := (nb_band g).
Notation spb := (steps_per_block g).
Notation tpb := (tiles_per_block g).
Notation wpt := (workers_per_tile g).
Notation steps := (steps g).
Notation sweeps := (sweeps g).
Notation next_j := (next_j g).

(** ** Steps and blocks *)
Lemma spb1 : 1 <= spb. Proof using G. apply (g_spb g G). Qed.
Lemma nbb_e : forall k, k * nbb = k * spb * b. Proof using G. intros k. destruct (g_spb g G) as [E _]. rewrite E. ring. Qed.
Lemma nbb2 : 2 <= nbb. Proof using G. destruct (g_spb g G) as [E L]. pose proof (g_b g G). nia. Qed.
Lemma kb : forall t, 0 <= t -> 0 <= t / spb /\ t / spb * spb <= t < (t / spb + 1) * spb.
Proof using G. intros t L. pose proof spb1. pose proof (Z.div_mod t spb ltac:(lia)). pose proof (Z.mod_pos_bound t spb ltac:(lia)). split; [apply Z.div_pos; lia|]. nia. Qed.
Lemma kb_eq : forall t k, k * spb <= t < (k + 1) * spb -> t / spb = k.
Proof using G. intros t k L. pose proof spb1. symmetry. apply (Z.div_unique t spb k (t - k * spb)); lia. Qed.
Lemma kb0 : forall t, 0 <= t -> t mod spb = 0 -> t = t / spb * spb.
Proof using G. intros t L M. pose proof spb1. pose proof (Z.div_mod t spb ltac:(lia)). lia. Qed.
Lemma kbn : forall t, 0 <= t -> t mod spb <> 0 -> t / spb * spb <= t - 1 < (t / spb + 1) * spb /\ (t - 1) / spb = t / spb.
Proof using G. intros t L M. pose proof (kb t L) as (K0 & K1). assert (t <> t / spb * spb) by (intros E; apply M; rewrite E; apply Z.mod_mul; pose proof spb1; lia). split; [lia|]. apply kb_eq. lia. Qed.
Lemma sweeps_le : sweeps <= size - 1 /\ size - 2 <= sweeps.
Proof using. clear G. unfold B2TMsgModel.sweeps. destruct (m_cplx g); lia. Qed.
Lemma steps_lt : forall s t, (t < steps s <-> if s =? size - 2 then t < 1 else t * b < size - s - 2).
Proof using G. intros s t. unfold B2TMsgModel.steps. destruct (s =? size - 2); [reflexivity|]. apply (ceil_div_lt (size - s - 2) b t). pose proof (g_b g G). lia. Qed.
Lemma steps_pos : forall s, 0 <= s < sweeps -> 1 <= steps s.
Proof using G. intros s L. pose proof sweeps_le. pose proof (steps_lt s 0) as H0. destruct (Z.eqb_spec s (size - 2)); [assert (0 < steps s) by (apply H0; lia); lia|]. assert (0 < steps s) by (apply H0; lia). lia. Qed.
Lemma steps_next : forall s, 0 <= s -> s + 1 < sweeps -> steps (s + 1) <= steps s <= steps (s + 1) + 1.
Proof using G.
  intros s L1 L2. pose proof sweeps_le. pose proof (g_b g G) as HB.
  assert (steps (s + 1) - 1 < steps s).
  { apply steps_lt. pose proof (proj1 (steps_lt (s + 1) (steps (s + 1) - 1)) ltac:(lia)) as H1. pose proof (steps_pos (s + 1) ltac:(lia)).
    destruct (Z.eqb_spec s (size - 2)); [lia|]. destruct (Z.eqb_spec (s + 1) (size - 2)); nia. }
  assert (~ (steps (s + 1) + 1 < steps s)).
  { intros C. apply steps_lt in C. assert (H1 : ~ (steps (s + 1) < steps (s + 1))) by lia. rewrite steps_lt in H1.
    destruct (Z.eqb_spec s (size - 2)); [lia|]. destruct (Z.eqb_spec (s + 1) (size - 2)); [|nia]. assert (1 <= steps (s + 1)) by (apply steps_pos; lia). nia. }
  lia.
Qed.
Lemma steps_anti : forall s s', 0 <= s' <= s -> s < sweeps -> steps s <= steps s'.
Proof using G.
  intros s s' L1 L2. replace s with (s' + (s - s')) in * by lia. assert (D : 0 <= s - s') by lia. revert L2. generalize (s - s') D. clear D. intros d D. revert D. apply (natlike_ind (fun d => s' + d < sweeps -> steps (s' + d) <= steps s')).
  - intros _. rewrite Z.add_0_r. lia.
  - intros x Lx IH H. specialize (IH ltac:(lia)). pose proof (steps_next (s' + x) ltac:(lia) ltac:(lia)). replace (s' + Z.succ x) with (s' + x + 1) by lia. lia.
Qed.
(** block k is active in sweep s *)
Lemma act_iff : forall s k, 0 <= s < sweeps -> 1 <= k -> (k * spb < steps s <-> s + k * nbb < size - 2).
Proof using G.
  intros s k Ls Lk. pose proof spb1. pose proof nbb2. pose proof (nbb_e k) as NE. pose proof (steps_lt s (k * spb)) as SL. pose proof sweeps_le. destruct (Z.eqb_spec s (size - 2)) as [E|N]; [rewrite SL; nia|]. rewrite SL. lia.
Qed.
(** a column is sent to block k in sweep s *)
Definition cv (s k : Z) : Prop := 0 <= s /\ 0 <= k /\ next_j s k < size.
Lemma cv_sweep : forall s k, cv s k -> 0 <= s < sweeps.
Proof using G. intros s k (A & B & C). unfold B2TDistModel.next_j in C. pose proof sweeps_le. pose proof nbb2. nia. Qed.
Lemma cv_full : forall s k, cv s k -> (k + 1) * spb <= steps s.
Proof using G.
  intros s k C. pose proof (cv_sweep s k C) as Ls. destruct C as (A & B & C). unfold B2TDistModel.next_j in C. rewrite nbb_e in C. pose proof (g_b g G). pose proof spb1. pose proof sweeps_le.
  assert ((k + 1) * spb - 1 < steps s); [|lia]. apply steps_lt. assert (2 <= (k + 1) * spb * b) by nia. destruct (Z.eqb_spec s (size - 2)); [lia|]. nia.
Qed.
Lemma cv_active : forall s k, cv s k -> k * spb < steps s.
Proof using G. intros s k C. pose proof (cv_full s k C). pose proof spb1. lia. Qed.
Lemma cv_prev : forall s k, cv (s + 1) k -> 0 <= s -> cv s k.
Proof using. clear G. intros s k (A & B & C) L. unfold cv, B2TDistModel.next_j in *. lia. Qed.
(** an active block has received columns for the block before it *)
Lemma act_cv : forall s k, 0 <= s < sweeps -> 1 <= k -> k * spb < steps s -> cv s (k - 1).
Proof using G. intros s k Ls Lk A. apply act_iff in A; [|exact Ls|exact Lk]. unfold cv, B2TDistModel.next_j. replace (k - 1 + 1) with k by lia. lia. Qed.
Lemma last_range : forall s k, 0 <= k -> k * spb < steps s -> k * spb <= last_step g s k < (k + 1) * spb /\ 0 <= last_step g s k < steps s.
Proof using G. intros s k L A. pose proof spb1. unfold last_step. nia. Qed.
Lemma last_cv : forall s k, cv s k -> last_step g s k = (k + 1) * spb - 1.
Proof using G. intros s k C. pose proof (cv_full s k C). unfold last_step. lia. Qed.
Lemma ntl_lt : forall k, k < ntl g <-> k * nb < size.
Proof using G. intros k. unfold ntl. apply (ceil_div_lt size nb k). apply (g_nb g G). Qed.
Lemma nblocks_lt : forall k, k < nblocks g <-> k * nbb < size.
Proof using G. intros k. unfold nblocks. apply (ceil_div_lt size nbb k). pose proof nbb2. lia. Qed.
Lemma tpb1 : 1 <= tpb. Proof using G. apply (g_bb g G). Qed.
Lemma nbb_t : forall k, k * nbb = k * tpb * nb. Proof using G. intros k. destruct (g_bb g G) as [E _]. rewrite E. ring. Qed.
Lemma tb : forall j, 0 <= j -> 0 <= j / tpb /\ j / tpb * tpb <= j < (j / tpb + 1) * tpb.
Proof using G. intros t L. pose proof tpb1. pose proof (Z.div_mod t tpb ltac:(lia)). pose proof (Z.mod_pos_bound t tpb ltac:(lia)). split; [apply Z.div_pos; lia|]. nia. Qed.
Lemma tb_eq : forall j k, k * tpb <= j < (k + 1) * tpb -> j / tpb = k.
Proof using G. intros t k L. pose proof tpb1. symmetry. apply (Z.div_unique t tpb k (t - k * tpb)); lia. Qed.
Lemma sid_inj : forall s k s' k', 0 <= k <= nblocks g -> 0 <= k' <= nblocks g -> sid g s k = sid g s' k' -> s = s' /\ k = k'.
Proof using. clear G. intros s k s' k' L L' E. unfold sid in E. set (N := nblocks g + 1) in *. assert (s = s') by nia. subst. lia. Qed.
Lemma act_block : forall s k, 0 <= s < sweeps -> 0 <= k -> k * spb < steps s -> 0 <= k < nblocks g.
Proof using G. intros s k Ls Lk A. split; [exact Lk|]. apply nblocks_lt. pose proof sweeps_le. destruct (Z.eq_dec k 0) as [->|N]; [lia|]. apply act_iff in A; lia. Qed.
Lemma cv_block : forall s k, cv s k -> 0 <= k + 1 < nblocks g.
Proof using G. intros s k (A & B & C). unfold B2TDistModel.next_j in C. split; [lia|]. apply nblocks_lt. lia. Qed.

(** ** Tasks *)
Definition tok (t : dthread) : Prop :=
  match t with
  | TCopy j | TRel j => 0 <= j < ntl g
  | TAcq s k | TSendC s k => cv s (k - 1)
  | TPostC s k | TRecvC s k => cv s k
  | TInit s => 0 <= s < sweeps
  | TPostW s k | TRecvW s k => 0 <= s < sweeps /\ 1 <= k /\ k * spb < steps s
  | TStep s t => 0 <= s < sweeps /\ 0 <= t < steps s
  | TSendW s k => 0 <= s < sweeps /\ 0 <= k /\ (k + 1) * spb < steps s
  | TFin => True
  | TTri i => i = size \/ (i = size - 1 /\ m_cplx g = false)
  | TNil => False
  end.
Lemma in_block : forall s k t, 0 <= s < sweeps -> 0 <= k -> k * spb < steps s ->
  (In t (block_threads g s k) <->
   match t with
   | TAcq s' k' | TSendC s' k' => s' = s /\ k' = k + 1 /\ cv s k
   | TPostC s' k' | TRecvC s' k' => s' = s /\ k' = k /\ cv s k
   | TInit s' => s' = s /\ k = 0
   | TPostW s' k' | TRecvW s' k' => s' = s /\ k' = k /\ 1 <= k
   | TStep s' t' => s' = s /\ k * spb <= t' < (k + 1) * spb /\ t' < steps s
   | TSendW s' k' => s' = s /\ k' = k /\ (k + 1) * spb < steps s
   | _ => False
   end).
Proof using G.
  intros s k t Ls Lk A. unfold block_threads. rewrite !in_app_iff, in_map_iff. split.
  - intros [H|[H|[H|H]]].
    + destruct (Z.ltb_spec (next_j s k) size) as [C|C]; [|destruct H]. assert (CV : cv s k) by (unfold cv; lia). destruct H as [<-|[<-|[<-|[<-|[]]]]]; auto.
    + destruct (Z.eqb_spec k 0) as [E|N]; [destruct H as [<-|[]]; auto|]. destruct H as [<-|[<-|[]]]; (split; [reflexivity|split; [reflexivity|lia]]).
    + destruct H as (u & <- & I). apply in_zrange in I. unfold last_step in I. split; [reflexivity|]. lia.
    + destruct (Z.ltb_spec ((k + 1) * spb) (steps s)) as [C|C]; [|destruct H]. destruct H as [<-|[]]. auto.
  - intros H. destruct t as [j|j|s' k'|s' k'|s' k'|s' k'|s'|s' k'|s' k'|s' t'|s' k'| |i|]; try contradiction; destruct H as (-> & H).
    1,2,3,4: left; destruct H as (-> & (_ & _ & C)); apply Z.ltb_lt in C; rewrite C; cbn; auto.
    + right. left. subst k. left. reflexivity.
    + right. left. destruct H as (-> & H). destruct (Z.eqb_spec k 0); [lia|]. left. reflexivity.
    + right. left. destruct H as (-> & H). destruct (Z.eqb_spec k 0); [lia|]. right. left. reflexivity.
    + right. right. left. exists t'. split; [reflexivity|]. apply in_zrange. unfold last_step. lia.
    + right. right. right. destruct H as (-> & H). apply Z.ltb_lt in H. rewrite H. left. reflexivity.
Qed.
Lemma block_range : forall s k, In k (zrange 0 (ceil_div (steps s) spb)) <-> 0 <= k /\ k * spb < steps s.
Proof using G. intros s k. rewrite in_zrange. pose proof spb1. pose proof (ceil_div_lt (steps s) spb k ltac:(lia)). tauto. Qed.
Lemma in_threads : forall t, In t (dthreads g) <-> 0 < size /\ tok t.
Proof using G.
  intros t. pose proof (g_size g G) as SZ. unfold dthreads. destruct (Z.eqb_spec size 0) as [E|N]; [split; [intros []|lia]|].
  rewrite !in_app_iff, !in_map_iff, in_flat_map. pose proof spb1. split.
  - intros H0. split; [lia|]. destruct H0 as [(j & <- & I)|[(j & <- & I)|[(s & Is & H0)|[[<-|[]]|[H0|[<-|[]]]]]]].
    + apply in_zrange in I. exact I.
    + apply in_zrange in I. exact I.
    + apply in_zrange in Is. apply in_flat_map in H0 as (k & Ik & H0). apply block_range in Ik. apply in_block in H0; [|lia|lia|lia].
      destruct t as [j|j|s' k'|s' k'|s' k'|s' k'|s'|s' k'|s' k'|s' t'|s' k'| |i|]; try contradiction; destruct H0 as (-> & H0); cbn [tok].
      1,2: destruct H0 as (-> & C); replace (k + 1 - 1) with k by lia; exact C.
      1,2: destruct H0 as (-> & C); exact C.
      * lia.
      * destruct H0 as (-> & C). lia.
      * destruct H0 as (-> & C). lia.
      * split; [lia|]. nia.
      * destruct H0 as (-> & C). lia.
    + exact I.
    + destruct (m_cplx g) eqn:CX; [destruct H0|]. destruct H0 as [<-|[]]. right. auto.
    + left. reflexivity.
  - intros (_ & OK).
    assert (BL : forall s k, 0 <= s < sweeps -> 0 <= k -> k * spb < steps s -> In t (block_threads g s k) -> (exists s, In s (zrange 0 sweeps) /\ In t (flat_map (block_threads g s) (zrange 0 (ceil_div (steps s) spb))))).
    { intros s k Ls Lk A I. exists s. split; [apply in_zrange; exact Ls|]. apply in_flat_map. exists k. split; [apply block_range; auto|exact I]. }
    destruct t as [j|j|s k|s k|s k|s k|s|s k|s k|s u|s k| |i|]; cbn [tok] in OK.
    + left. exists j. split; [reflexivity|apply in_zrange; exact OK].
    + right. left. exists j. split; [reflexivity|apply in_zrange; exact OK].
    + right. right. left. assert (C := cv_sweep _ _ OK). assert (A := cv_active _ _ OK). assert (K := proj1 (proj2 OK)). apply (BL s (k - 1) C K A). apply in_block; auto. split; [reflexivity|]. split; [lia|exact OK].
    + right. right. left. assert (C := cv_sweep _ _ OK). assert (A := cv_active _ _ OK). assert (K := proj1 (proj2 OK)). apply (BL s (k - 1) C K A). apply in_block; auto. split; [reflexivity|]. split; [lia|exact OK].
    + right. right. left. assert (C := cv_sweep _ _ OK). assert (A := cv_active _ _ OK). assert (K := proj1 (proj2 OK)). apply (BL s k C K A). apply in_block; auto.
    + right. right. left. assert (C := cv_sweep _ _ OK). assert (A := cv_active _ _ OK). assert (K := proj1 (proj2 OK)). apply (BL s k C K A). apply in_block; auto.
    + right. right. left. pose proof (steps_pos s OK). apply (BL s 0 OK ltac:(lia) ltac:(lia)). apply in_block; [lia|lia|lia|auto].
    + right. right. left. destruct OK as (Ls & Lk & A). apply (BL s k Ls ltac:(lia) A). apply in_block; [lia|lia|lia|auto].
    + right. right. left. destruct OK as (Ls & Lk & A). apply (BL s k Ls ltac:(lia) A). apply in_block; [lia|lia|lia|auto].
    + right. right. left. destruct OK as (Ls & Lu & A). destruct (kb u Lu) as (K0 & K1). apply (BL s (u / spb) Ls K0 ltac:(lia)). apply in_block; [lia|lia|lia|]. split; [reflexivity|lia].
    + right. right. left. destruct OK as (Ls & Lk & A). apply (BL s k Ls ltac:(lia) ltac:(lia)). apply in_block; [lia|lia|lia|auto].
    + right. right. right. left. left. reflexivity.
    + right. right. right. right. destruct OK as [->|[-> CX]]; [right; left; reflexivity|]. left. rewrite CX. left. reflexivity.
    + destruct OK.
Qed.
Lemma threads_nodup : NoDup (dthreads g).
Proof using G.
  unfold dthreads. destruct (size =? 0); [constructor|].
  assert (BN : forall (z : Z) t, In t (flat_map (fun s => flat_map (block_threads g s) (zrange 0 (ceil_div (steps s) spb))) (zrange 0 sweeps)) -> t <> TFin /\ (forall j, t <> TCopy j) /\ (forall j, t <> TRel j) /\ (forall i, t <> TTri i)).
  { intros _ t I. apply in_flat_map in I as (s & Is & I). apply in_flat_map in I as (k & Ik & I). apply in_zrange in Is. apply block_range in Ik. apply in_block in I; [|lia|lia|lia]. destruct t; try contradiction; repeat split; discriminate. }
  apply nodup_app; [|apply nodup_app; [|apply nodup_app; [|cbn [app]; constructor|]|]|].
  - apply FinFun.Injective_map_NoDup; [intros x y E; congruence|apply zrange_NoDup].
  - apply FinFun.Injective_map_NoDup; [intros x y E; congruence|apply zrange_NoDup].
  - apply nodup_flat; [apply zrange_NoDup| |].
    + intros s Is. apply in_zrange in Is. apply nodup_flat; [apply zrange_NoDup| |].
      * intros k Ik. unfold block_threads. repeat apply nodup_app.
        -- destruct (_ <? _); [|constructor]. repeat constructor; cbn; intuition congruence.
        -- destruct (_ =? _); repeat constructor; cbn; intuition congruence.
        -- apply FinFun.Injective_map_NoDup; [intros x y E; congruence|apply zrange_NoDup].
        -- destruct (_ <? _); repeat constructor; cbn; intuition congruence.
        -- intros x I1 I2. apply in_map_iff in I1 as (t & <- & _). destruct (_ <? _); cbn in I2; intuition congruence.
        -- intros x I1 I2. apply in_app_or in I2 as [I2|I2]; [apply in_map_iff in I2 as (t & <- & _)|]; destruct (_ =? _); try destruct (_ <? _); cbn in *; intuition congruence.
        -- intros x I1 I2. destruct (_ <? _); [|destruct I1]. apply in_app_or in I2 as [I2|I2]; [|apply in_app_or in I2 as [I2|I2]; [apply in_map_iff in I2 as (t & <- & _)|destruct (_ <? _)]]; try destruct (_ =? _); cbn in *; intuition congruence.
      * intros k k' t Ik Ik' I I'. apply block_range in Ik, Ik'. apply in_block in I; [|lia|lia|lia]. apply in_block in I'; [|lia|lia|lia]. pose proof spb1. destruct t; try contradiction; try lia; [destruct I as (? & ? & ?); destruct I' as (? & ? & ?); lia..|]. nia.
    + intros s s' t Is Is' I I'. apply in_flat_map in I as (k & Ik & I). apply in_flat_map in I' as (k' & Ik' & I'). apply in_zrange in Is, Is'. apply block_range in Ik, Ik'. apply in_block in I; [|lia|lia|lia]. apply in_block in I'; [|lia|lia|lia]. destruct t; try contradiction; destruct I as (-> & _); destruct I' as (-> & _); reflexivity.
  - destruct (m_cplx g); cbn; intuition congruence.
  - destruct (m_cplx g); repeat constructor; cbn; try tauto. intros [E|[]]. inversion E. lia.
  - intros t I1 I2. apply (BN 0) in I1 as (N1 & _ & _ & N2). cbn [app] in I2. destruct I2 as [<-|I2]; [congruence|]. apply in_app_or in I2 as [I2|[<-|[]]]; [|eapply N2; reflexivity]. destruct (m_cplx g); [destruct I2|]. destruct I2 as [<-|[]]. eapply N2; reflexivity.
  - intros t I1 I2. apply in_map_iff in I1 as (j & <- & _). apply in_app_or in I2 as [I2|I2]; [apply (BN 0) in I2 as (_ & _ & N & _); eapply N; reflexivity|]. cbn [app] in I2. destruct I2 as [I2|I2]; [discriminate|]. apply in_app_or in I2 as [I2|[I2|[]]]; [|discriminate]. destruct (m_cplx g); [destruct I2|]. destruct I2 as [I2|[]]. discriminate.
  - intros t I1 I2. apply in_map_iff in I1 as (j & <- & _). apply in_app_or in I2 as [I2|I2]; [apply in_map_iff in I2 as (? & ? & _); discriminate|]. apply in_app_or in I2 as [I2|I2]; [apply (BN 0) in I2 as (_ & N & _ & _); eapply N; reflexivity|]. cbn [app] in I2. destruct I2 as [I2|I2]; [discriminate|]. apply in_app_or in I2 as [I2|[I2|[]]]; [|discriminate]. destruct (m_cplx g); [destruct I2|]. destruct I2 as [I2|[]]. discriminate.
Qed.
End struct.
