(** * Proofs about the messages of the distributed band_to_tridiagonal *)
From Coq Require Import ZArith Lia List Bool Psatz.
From Verif Require Import Loop HouseModel HouseProofs B2TSched DistGrid DistMat B2TMsgModel B2TMsgSpec.
Import ListNotations.
Local Open Scope Z_scope.

Lemma sends_app : forall p q d t, sends (p ++ q) d t = sends p d t ++ sends q d t.
Proof. intros. apply flat_map_app. Qed.
Lemma recvs_app : forall p q d t, recvs (p ++ q) d t = recvs p d t ++ recvs q d t.
Proof. intros. apply flat_map_app. Qed.
Lemma sends_flat : forall (A : Type) (f : A -> list op) l d t, sends (flat_map f l) d t = flat_map (fun a => sends (f a) d t) l.
Proof. intros A f l d t. induction l as [|a l IH]; [reflexivity|]. cbn [flat_map]. rewrite sends_app, IH. reflexivity. Qed.
Lemma recvs_flat : forall (A : Type) (f : A -> list op) l d t, recvs (flat_map f l) d t = flat_map (fun a => recvs (f a) d t) l.
Proof. intros A f l d t. induction l as [|a l IH]; [reflexivity|]. cbn [flat_map]. rewrite recvs_app, IH. reflexivity. Qed.
Lemma Forall2_flat : forall (A B C : Type) (R : B -> C -> Prop) (f : A -> list B) (h : A -> list C) l,
  (forall a, In a l -> Forall2 R (f a) (h a)) -> Forall2 R (flat_map f l) (flat_map h l).
Proof.
  intros A B C R f h l H. induction l as [|a l IH]; cbn; [constructor|]. apply Forall2_app; [apply H; left; reflexivity|].
  apply IH. intros x Hx. apply H. right. exact Hx.
Qed.
Lemma flat_nil : forall (A B : Type) (f : A -> list B) l, (forall a, In a l -> f a = []) -> flat_map f l = [].
Proof. intros A B f l H. induction l as [|a l IH]; [reflexivity|]. cbn. rewrite H, IH; [reflexivity| |left; reflexivity]. intros x Hx. apply H. right. exact Hx. Qed.
Lemma flat_map_map : forall (A B C : Type) (f : A -> B) (h : B -> list C) l, flat_map h (map f l) = flat_map (fun a => h (f a)) l.
Proof. intros A B C f h l. induction l as [|a l IH]; cbn; [reflexivity|]. rewrite IH. reflexivity. Qed.
Lemma flat_ext : forall (A B : Type) (f h : A -> list B) l, (forall a, In a l -> f a = h a) -> flat_map f l = flat_map h l.
Proof. intros A B f h l H. induction l as [|a l IH]; [reflexivity|]. cbn. rewrite H, IH; [reflexivity| |left; reflexivity]. intros x Hx. apply H. right. exact Hx. Qed.
(** at most one element *)
Definition small {A : Type} (l : list A) : Prop := (length l <= 1)%nat.
Lemma flat_small : forall (A B : Type) (f : A -> list B) l, NoDup l -> (forall a, In a l -> small (f a)) ->
  (forall a a', In a l -> In a' l -> f a <> [] -> f a' <> [] -> a = a') -> small (flat_map f l).
Proof.
  unfold small. intros A B f l N S U. induction l as [|a l IH]; cbn; [lia|]. rewrite app_length. inversion N as [|? ? Na Nl]; subst.
  assert (L : (length (flat_map f l) <= 1)%nat).
  { apply IH; [exact Nl| |]; intros; [apply S; right; assumption|apply U; try (right; assumption); assumption]. }
  pose proof (S a (or_introl eq_refl)) as Sa. destruct (f a) as [|y ys] eqn:E; [cbn; lia|].
  assert (Z0 : flat_map f l = []).
  { apply flat_nil. intros x Hx. destruct (f x) eqn:Ex; [reflexivity|]. exfalso. apply Na.
    rewrite (U a x); [exact Hx|left; reflexivity|right; exact Hx|congruence|congruence]. }
  rewrite Z0. cbn [length] in *. lia.
Qed.
Lemma flat_nonnil : forall (A B : Type) (f : A -> list B) l, flat_map f l <> [] -> exists a, In a l /\ f a <> [].
Proof.
  intros A B f l. induction l as [|a l IH]; cbn; [congruence|]. intros H. destruct (f a) eqn:E.
  - destruct (IH H) as [x [Hx Ex]]. exists x. auto.
  - exists a. split; [left; reflexivity|congruence].
Qed.
Lemma zrange_cons : forall lo hi, lo < hi -> zrange lo hi = lo :: zrange (lo + 1) hi.
Proof.
  intros lo hi H. unfold zrange. replace (Z.to_nat (hi - lo)) with (S (Z.to_nat (hi - (lo + 1)))) by lia. cbn [seq map].
  f_equal; [lia|]. rewrite <- seq_shift, map_map. apply map_ext. intros k. lia.
Qed.
Lemma zrange_snoc : forall lo hi, lo <= hi -> zrange lo (hi + 1) = zrange lo hi ++ [hi].
Proof.
  intros lo hi H. unfold zrange. replace (Z.to_nat (hi + 1 - lo)) with (Z.to_nat (hi - lo) + 1)%nat by lia.
  rewrite seq_app, map_app. cbn [seq map plus]. do 2 f_equal. lia.
Qed.
Lemma zrange_empty : forall lo hi, hi <= lo -> zrange lo hi = [].
Proof. intros lo hi H. unfold zrange. replace (Z.to_nat (hi - lo)) with 0%nat by lia. reflexivity. Qed.
Lemma zrange_shift : forall lo hi, zrange (lo + 1) (hi + 1) = map (fun k => k + 1) (zrange lo hi).
Proof.
  intros lo hi. unfold zrange. replace (hi + 1 - (lo + 1)) with (hi - lo) by lia. rewrite map_map. apply map_ext. intros k. lia.
Qed.

Lemma mod_div_inj : forall p s x y, 0 < p -> (s + x) mod p = (s + y) mod p -> x / p = y / p -> x = y.
Proof.
  intros p s x y Hp E F. pose proof (Z.div_mod (s + x) p ltac:(lia)) as A. pose proof (Z.div_mod (s + y) p ltac:(lia)) as B.
  pose proof (Z.div_mod x p ltac:(lia)) as C. pose proof (Z.div_mod y p ltac:(lia)) as D.
  pose proof (Z.mod_pos_bound x p ltac:(lia)). pose proof (Z.mod_pos_bound y p ltac:(lia)).
  rewrite F in C. rewrite E in A. assert (x - y = p * ((s + x) / p - (s + y) / p)) as W by (rewrite Z.mul_sub_distr_l; lia).
  set (q := (s + x) / p - (s + y) / p) in *. clearbody q. clear A B. assert (q = 0) by nia. nia.
Qed.

Section msgs.
Variable g : msg_cfg.
Hypothesis G : cfg_ok g.
Notation size := (m_size g).
Notation nb := (m_nb g).
Notation b := (m_b g).
Notation P := (m_P g).
Notation Q := (m_Q g).
Notation NR := (nranks g).
Notation nbb := (nb_band g).
Notation spb := (steps_per_block g).
Notation wpt := (workers_per_tile g).

Lemma g_size : 0 <= size. Proof. apply G. Qed.
Lemma g_b : 2 <= b. Proof. apply G. Qed.
Lemma g_nb : 0 < nb. Proof. apply G. Qed.
Lemma g_c : nb = b * (nb / b).
Proof. pose proof g_b. pose proof (Z.div_mod nb b ltac:(lia)) as E. destruct G as (_ & _ & _ & M & _). lia. Qed.
Lemma g_c1 : 1 <= nb / b. Proof. pose proof g_c. pose proof g_nb. pose proof g_b. nia. Qed.
Lemma g_P : 0 < P. Proof. apply G. Qed.
Lemma g_Q : 0 < Q. Proof. apply G. Qed.
Lemma g_NR : 2 <= NR. Proof. apply G. Qed.
Lemma g_bb : nbb = nb * tiles_per_block g /\ 1 <= tiles_per_block g.
Proof.
  pose proof g_nb as Hn. assert (B : nb <= m_base g) by apply G. unfold tiles_per_block, nb_band, get_1d_block_size.
  assert (1 <= m_base g / nb) by (apply Z.div_le_lower_bound; lia).
  replace (Z.max 1 (m_base g / nb * nb)) with (m_base g / nb * nb) by nia. rewrite Z.div_mul by lia. nia.
Qed.
Lemma g_bbpos : nb <= nbb. Proof. pose proof g_bb. pose proof g_nb. nia. Qed.
Lemma g_spb : nbb = b * spb /\ 1 <= spb.
Proof.
  destruct g_bb as [E L]. pose proof g_c as C. pose proof g_c1. pose proof g_b. unfold steps_per_block.
  assert (F : nbb = b * ((nb / b) * tiles_per_block g)) by nia. rewrite F at 1 2. rewrite F at 1. 
  rewrite (Z.mul_comm b), Z.div_mul by lia. split; nia.
Qed.
Lemma g_wpt : 1 <= wpt.
Proof. unfold workers_per_tile. pose proof g_bbpos. pose proof g_nb. pose proof g_b. pose proof (ceil_div_pos nbb (2 * b - 1)). lia. Qed.

(** ** Neighbours *)
Lemma prev_range : forall r, 0 <= r < NR -> 0 <= prev_rank g r < NR /\ prev_rank g r <> r.
Proof. intros r R. pose proof g_NR. unfold prev_rank. destruct (Z.eqb_spec r 0); lia. Qed.
Lemma next_range : forall r, 0 <= r < NR -> 0 <= next_rank g r < NR /\ next_rank g r <> r.
Proof. intros r R. pose proof g_NR. unfold next_rank. destruct (Z.eqb_spec (r + 1) NR); lia. Qed.
Lemma next_prev : forall r s, 0 <= r < NR -> 0 <= s < NR -> (prev_rank g s = r <-> next_rank g r = s).
Proof.
  intros r s R S. pose proof g_NR. unfold prev_rank, next_rank. destruct (Z.eqb_spec s 0), (Z.eqb_spec (r + 1) NR); lia.
Qed.
Lemma next_block : forall id, 0 <= id -> next_rank g (block_rank g id) = block_rank g (id + 1).
Proof.
  intros id H. pose proof g_NR. unfold next_rank, block_rank. pose proof (Z.mod_pos_bound id NR ltac:(lia)).
  pose proof (Z.div_mod id NR ltac:(lia)) as E. destruct (Z.eqb_spec (id mod NR + 1) NR) as [F|F].
  - apply Z.mod_unique_pos with (q := id / NR + 1); nia.
  - apply Z.mod_unique_pos with (q := id / NR); lia.
Qed.
Lemma block_rank_range : forall id, 0 <= block_rank g id < NR.
Proof. intros id. apply Z.mod_pos_bound. pose proof g_NR. lia. Qed.
Lemma block_at_local : forall id, 0 <= id -> block_at g (block_rank g id) (block_local g id) = id.
Proof. intros id H. unfold block_at, block_rank, block_local. pose proof (Z.div_mod id NR). pose proof g_NR. lia. Qed.
Lemma owner_range : forall i j, 0 <= owner g i j < NR.
Proof.
  intros i j. unfold owner, drank, rk, nranks. pose proof g_P. pose proof g_Q.
  pose proof (Z.mod_pos_bound (fst (m_src g) + i) P ltac:(lia)). pose proof (Z.mod_pos_bound (snd (m_src g) + j) Q ltac:(lia)). nia.
Qed.
Lemma owner_inj : forall i j i' j', owner g i j = owner g i' j' -> i / P = i' / P -> j / Q = j' / Q -> 0 <= i -> 0 <= j -> 0 <= i' -> 0 <= j' ->
  i = i' /\ j = j'.
Proof.
  intros i j i' j' E Ei Ej A B C D. unfold owner, drank, rk in E. pose proof g_P as HP. pose proof g_Q as HQ.
  set (sr := fst (m_src g)) in *. set (sc := snd (m_src g)) in *.
  pose proof (Z.mod_pos_bound (sr + i) P ltac:(lia)). pose proof (Z.mod_pos_bound (sc + j) Q ltac:(lia)).
  pose proof (Z.mod_pos_bound (sr + i') P ltac:(lia)). pose proof (Z.mod_pos_bound (sc + j') Q ltac:(lia)).
  assert (X : (sr + i) mod P = (sr + i') mod P) by nia. assert (Y : (sc + j) mod Q = (sc + j') mod Q) by nia.
  split; [exact (mod_div_inj P sr i i' HP X Ei)|exact (mod_div_inj Q sc j j' HQ Y Ej)].
Qed.

(** ** Counting tiles and blocks *)
Lemma in_init : forall st x, In x (init_steps g st) <-> exists k, x = k * spb /\ 0 <= k /\ k * spb < st.
Proof.
  intros st x. unfold init_steps. rewrite in_map_iff. destruct g_spb as [_ L]. split.
  - intros (k & E & I). apply in_zrange in I. exists k. split; [lia|]. split; [lia|]. apply (ceil_div_lt st spb k); lia.
  - intros (k & E & A & B). exists k. split; [lia|]. apply in_zrange. split; [lia|]. apply ceil_div_lt; lia.
Qed.
Lemma init_NoDup : forall st, NoDup (init_steps g st).
Proof.
  intros st. unfold init_steps. destruct g_spb as [_ L]. apply FinFun.Injective_map_NoDup; [|apply zrange_NoDup].
  intros x y E. nia.
Qed.
Lemma id_of : forall k, 0 <= k -> k * spb * b / nbb = k.
Proof. intros k H. destruct g_spb as [E L]. pose proof g_b. rewrite E. replace (k * spb * b) with (k * (b * spb)) by ring. apply Z.div_mul. nia. Qed.
Lemma nbb_pos : 0 < nbb. Proof. pose proof g_bbpos. pose proof g_nb. lia. Qed.
End msgs.
