(** * Householder panels: proofs *)
From Coq Require Import ZArith Lia List Bool Ring Permutation.
From Verif Require Import Loop StarField DenseSpec Tiling RefKernels HouseSpec HouseModel.
Import ListNotations.
Local Open Scope Z_scope.

Section partition.
(** the batches of the workers *)
Lemma ceil_div_pos : forall n w, 0 < n -> 0 < w -> 0 < ceil_div n w.
Proof. intros n w N W. unfold ceil_div. apply Z.div_str_pos. lia. Qed.
Lemma ceil_div_cover : forall n w, 0 < w -> n <= w * ceil_div n w.
Proof. intros n w W. unfold ceil_div. pose proof (Z.mul_succ_div_gt (n + w - 1) w W). lia. Qed.
Lemma in_batch : forall t batch k i, 0 < batch -> 0 <= i -> (w_begin batch k <= i < w_end t batch k <-> i < tl_n t /\ i / batch = k).
Proof.
  intros t batch k i B L. unfold w_begin, w_end. split.
  - intros H. split; [lia|]. symmetry. apply (Z.div_unique_pos i batch k (i - k * batch)); lia.
  - intros [H <-]. pose proof (Z.mul_div_le i batch B). pose proof (Z.mul_succ_div_gt i batch B). lia.
Qed.
End partition.

Section proofs.
Context {K : starfield}.
Local Open Scope sf_scope.
Add Ring KringH : (fring K).
Implicit Types P : @panel K.

(** ** Sums computed by loops *)
Lemma fold_sum : forall (f : Z -> F K) l (a : F K), fold_left (fun s i => s + f i) l a = a + fold_right (fun i s => f i + s) 0 l.
Proof. intros f. induction l as [|x l IH]; intros a; cbn; [ring|]. rewrite IH. ring. Qed.
Lemma fold_sum_range : forall (f : Z -> F K) b e (a : F K), fold_left (fun s i => s + f i) (zrange b e) a = a + fsum b e f.
Proof. intros. apply fold_sum. Qed.
Lemma fold_sum_fun : forall {X} (f : Z -> X -> F K) l (a : X -> F K) q,
  fold_left (fun s i => fun q => s q + f i q) l a q = a q + fold_right (fun i s => f i q + s) 0 l.
Proof. intros X f. induction l as [|x l IH]; intros a q; cbn; [ring|]. rewrite IH. ring. Qed.
Lemma sum_batches : forall n batch nw (g : Z -> F K), (0 <= n)%Z -> (0 < batch)%Z -> (0 <= nw)%Z -> (n <= nw * batch)%Z ->
  fsum 0 nw (fun k => fsum (k * batch) (Z.min (k * batch + batch) n) g) = fsum 0 n g.
Proof.
  intros n batch nw g N B W C.
  assert (H : forall d, (0 <= d)%Z -> fsum 0 d (fun k => fsum (k * batch) (Z.min (k * batch + batch) n) g) = fsum 0 (Z.min (d * batch) n) g).
  { intros d D. pattern d. apply natlike_ind; [| |exact D].
    - rewrite fsum_nil by lia. rewrite fsum_nil by lia. reflexivity.
    - intros x X IH. unfold Z.succ. rewrite fsum_snoc by lia. rewrite IH.
      destruct (Z.le_gt_cases (x * batch) n) as [Q|Q].
      + rewrite (Z.min_l (x * batch) n) by lia. replace ((x + 1) * batch)%Z with (x * batch + batch)%Z by ring.
        rewrite <- fsum_app by nia. reflexivity.
      + rewrite (fsum_nil (x * batch)) by lia. replace (Z.min ((x + 1) * batch) n) with (Z.min (x * batch) n) by nia. ring. }
  rewrite (H nw W). rewrite Z.min_r by lia. reflexivity.
Qed.

(** ** Updating tiles *)
Lemma each_tile_at : forall (f : Z -> mat K -> mat K) b e P k, each_tile f b e P k = if ((b <=? k) && (k <? e))%Z then f k (P k) else P k.
Proof.
  intros f b e P k. unfold each_tile.
  assert (H : forall l (Q : panel), NoDup l -> fold_left (fun P i => pset P i (f i (P i))) l Q k = if in_dec Z.eq_dec k l then f k (Q k) else Q k).
  { induction l as [|x l IH]; intros Q ND; [reflexivity|]. apply NoDup_cons_iff in ND as [N ND]. cbn [fold_left]. rewrite IH by exact ND.
    unfold pset. destruct (Z.eqb_spec k x) as [->|E].
    - destruct (in_dec Z.eq_dec x l) as [C|_]; [contradiction|]. destruct (in_dec Z.eq_dec x (x :: l)) as [|C]; [reflexivity|]. exfalso. apply C. left. reflexivity.
    - destruct (in_dec Z.eq_dec k l) as [C|C], (in_dec Z.eq_dec k (x :: l)) as [D|D]; try reflexivity; exfalso.
      + apply D. right. exact C.
      + destruct D as [D|D]; [congruence|contradiction]. }
  rewrite H by apply zrange_NoDup. destruct (in_dec Z.eq_dec k (zrange b e)) as [I0|I0].
  - apply in_zrange in I0. destruct (Z.leb_spec b k), (Z.ltb_spec k e); try lia. reflexivity.
  - destruct (Z.leb_spec b k), (Z.ltb_spec k e); try reflexivity. exfalso. apply I0. apply in_zrange. lia.
Qed.

(** ** The panel as a matrix *)
Variable t : tiling.
Hypothesis TOK : tiling_ok t.
Hypothesis NT : (0 < tl_n t)%Z.
Let m := tl_size t.
Definition stack P : mat K := fun a q => P (tl_tile t a) (a - tl_off t (tl_tile t a))%Z q.
Lemma stack_at : forall P i p q, (0 <= i < tl_n t)%Z -> (0 <= p < tl_sz t i)%Z -> stack P (tl_off t i + p)%Z q = P i p q.
Proof using TOK. intros P i p q Li Lp. unfold stack. rewrite tile_of_elem by assumption. f_equal. lia. Qed.
Lemma stack_head : forall P p q, (0 <= p < tl_sz t 0)%Z -> stack P p q = P 0%Z p q.
Proof using TOK NT. intros P p q Lp. rewrite <- (stack_at P 0 p q) by lia. rewrite off_0. f_equal. Qed.
Definition seq_pan P (M : mat K) : Prop := forall a q, (0 <= a < m)%Z -> stack P a q = M a q.
Lemma seq_pan_tiles : forall P M, seq_pan P M <-> forall i p q, (0 <= i < tl_n t)%Z -> (0 <= p < tl_sz t i)%Z -> P i p q = M (tl_off t i + p)%Z q.
Proof using TOK.
  intros P M. split; intros H.
  - intros i p q Li Lp. rewrite <- stack_at by assumption. apply H. apply elem_bound; assumption.
  - intros a q La. destruct (elem_split t TOK a La) as (i & p & Li & Lp & ->). rewrite stack_at by assumption. apply H; assumption.
Qed.
Lemma off_1 : tl_off t 1 = tl_sz t 0.
Proof using. change 1%Z with (0 + 1)%Z at 1. rewrite off_succ, off_0 by lia. lia. Qed.
(** sums over the rows from row j of the panel, j in the first tile *)
Lemma fsum_from : forall (f : Z -> F K) j, (0 <= j <= tl_sz t 0)%Z ->
  fsum j m f = fsum 0 (tl_n t) (fun i => fsum (if (i =? 0)%Z then j else 0%Z) (tl_sz t i) (fun p => f (tl_off t i + p)%Z)).
Proof using TOK NT.
  intros f j Lj. assert (L0 : (tl_sz t 0 <= m)%Z). { pose proof (off_le t TOK 1 (tl_n t)) as Q. unfold m, tl_size. assert (E1 : tl_off t 1 = tl_sz t 0) by (apply off_1). lia. }
  assert (A : fsum 0 m f = fsum 0 j f + fsum j m f) by (apply fsum_app; lia).
  assert (B := fsum_tiles t f TOK). fold m in B. rewrite B in A. clear B.
  rewrite (fsum_cons 0 (tl_n t)) in A by lia. rewrite (fsum_cons 0 (tl_n t)) by lia. rewrite off_0 in *. cbn [Z.eqb].
  rewrite (fsum_ext (0 + 1) (tl_n t) _ (fun k => fsum 0 (tl_sz t k) (fun r => f (tl_off t k + r)%Z))).
  2:{ intros i Li. destruct (Z.eqb_spec i 0); [lia|]. reflexivity. }
  rewrite (fsum_app 0 j (tl_sz t 0)) in A by lia.
  assert (E : fsum 0 j (fun r => f (0 + r)%Z) = fsum 0 j f) by (apply fsum_ext; intros; f_equal; lia). rewrite E in A.
  transitivity (fsum 0 j f + fsum j m f - fsum 0 j f); [ring|]. rewrite <- A. ring.
Qed.

(** ** One step of the panel factorization, on the matrix *)
Variable rs : roots K.
Definition m_sq (M : mat K) (j : Z) : F K := fsum j m (fun a => fconj (M a j) * M a j).
Definition m_y (M : mat K) (j : Z) : F K := if neg rs (M j j) then rt rs (m_sq M j) else - rt rs (m_sq M j).
Definition m_tau (M : mat K) (j : Z) : F K := if feq_dec K (m_sq M j) 0 then 0 else (m_y M j - M j j) * finv (m_y M j).
Definition m_refl (M : mat K) (j : Z) : mat K := if feq_dec K (m_sq M j) 0 then M else fun a q =>
  if (q =? j)%Z then (if (a <? j)%Z then M a q else if (a =? j)%Z then m_y M j else finv (M j j - m_y M j) * M a q) else M a q.
Definition m_v (M : mat K) (j : Z) : Z -> F K := fun a => if (a <? j)%Z then 0 else if (a =? j)%Z then 1 else m_refl M j a j.
Definition m_step (cols : Z) (M : mat K) (j : Z) : mat K := fun a q =>
  if ((j <? q) && (q <? cols) && (j <=? a))%Z
  then M a q + - fconj (m_tau M j) * m_v M j a * fconj (fsum j m (fun b => fconj (M b q) * m_v M j b))
  else m_refl M j a q.

Lemma x0_sq_ok : forall P M j, seq_pan P M -> (0 <= j < tl_sz t 0)%Z -> x0_and_squares t true P j = (M j j, m_sq M j).
Proof using TOK NT.
  intros P M j E Lj. unfold x0_and_squares. cbn [fst snd]. rewrite fold_sum_range. f_equal.
  - rewrite <- (stack_head P j j) by lia. apply E. pose proof (elem_bound t TOK 0 j). rewrite off_0 in *. unfold m. lia.
  - unfold m_sq. rewrite fsum_from by lia. rewrite (fsum_cons 0 (tl_n t)) by lia. cbn [Z.eqb]. rewrite off_0.
    pose proof (proj1 (seq_pan_tiles P M) E) as E1. clear E. rename E1 into E. f_equal.
    + apply fsum_ext. intros p Lp. rewrite !E by lia. rewrite off_0. reflexivity.
    + apply fsum_ext. intros i Li. destruct (Z.eqb_spec i 0); [lia|]. apply fsum_ext. intros p Lp. rewrite !E by lia. reflexivity.
Qed.
Lemma reflector_ok : forall P M j, seq_pan P M -> (0 <= j < tl_sz t 0)%Z ->
  snd (reflector_and_tau rs t true P j (x0_and_squares t true P j)) = m_tau M j /\
  seq_pan (fst (reflector_and_tau rs t true P j (x0_and_squares t true P j))) (m_refl M j).
Proof using TOK NT.
  intros P M j E Lj. rewrite (x0_sq_ok P M j E Lj). unfold reflector_and_tau, m_tau, m_refl. fold (m_y M j).
  destruct (feq_dec K (m_sq M j) 0); cbn [fst snd]; [split; [reflexivity|exact E]|]. split; [reflexivity|].
  apply seq_pan_tiles. intros i p q Li Lp. unfold scale_reflector. rewrite each_tile_at.
  destruct (Z.leb_spec 0 i), (Z.ltb_spec i (tl_n t)); try lia. cbn [andb].
  assert (E' := proj1 (seq_pan_tiles P M) E i p q Li Lp). fold (m_y M j).
  unfold pset, mset. destruct (Z.eqb_spec i 0) as [->|Ni]; cbn [andb].
  - rewrite off_0 in *. cbn [Z.add]. destruct (Z.eqb_spec q j) as [->|Nq]; cbn [andb].
    + destruct (Z.leb_spec (j + 1) p), (Z.ltb_spec p (tl_sz t 0)); try lia; cbn [andb]; destruct (Z.eqb_spec p j), (Z.ltb_spec p j); try lia; cbn [andb]; try reflexivity.
      * rewrite E'. f_equal.
      * exact E'.
    + rewrite andb_false_r. exact E'.
  - destruct (Z.eqb_spec q j) as [->|Nq]; cbn [andb].
    + destruct (Z.leb_spec 0 p), (Z.ltb_spec p (tl_sz t i)); try lia; cbn [andb].
      assert (G : (j < tl_off t i + p)%Z). { pose proof (off_le t TOK 1 i). pose proof off_1. lia. }
      destruct (Z.eqb_spec (tl_off t i + p) j), (Z.ltb_spec (tl_off t i + p) j); try lia. rewrite E'. reflexivity.
    + exact E'.
Qed.

(** the worker of a tile *)
Definition batch_of (nw : Z) := ceil_div (tl_n t) nw.
Lemma workers_update : forall nw cols j w tau P ks, (0 < nw)%Z -> Permutation ks (zrange 0 nw) ->
  forall i, (0 <= i < tl_n t)%Z ->
  fold_left (fun P k => update_trailing t (k =? 0)%Z cols j w tau (w_begin (batch_of nw) k) (w_end t (batch_of nw) k) P) ks P i =
  fun p q => if ((j <? q) && (q <? cols) && ((if (i =? 0)%Z then j else 0%Z) <=? p) && (p <? tl_sz t i))%Z
             then P i p q + - fconj tau * P i p j * fconj (w (q - (j + 1))%Z) else P i p q.
Proof using NT.
  intros nw cols j w tau P ks W PE i Li. set (B := batch_of nw).
  assert (BP : (0 < B)%Z) by (apply ceil_div_pos; lia).
  set (g := fun i (A : mat K) p q => if ((j <? q) && (q <? cols) && ((if (i =? 0)%Z then j else 0%Z) <=? p) && (p <? tl_sz t i))%Z
             then A p q + - fconj tau * A p j * fconj (w (q - (j + 1))%Z) else A p q).
  assert (H : forall l (Q : @panel K), NoDup l ->
    fold_left (fun P k => update_trailing t (k =? 0)%Z cols j w tau (w_begin B k) (w_end t B k) P) l Q i
    = if in_dec Z.eq_dec (i / B)%Z l then g i (Q i) else Q i).
  { induction l as [|x l IH]; intros Q ND; [reflexivity|]. apply NoDup_cons_iff in ND as [N ND]. cbn [fold_left]. rewrite IH by exact ND.
    assert (U : update_trailing t (x =? 0)%Z cols j w tau (w_begin B x) (w_end t B x) Q i = if Z.eq_dec (i / B) x then g i (Q i) else Q i).
    { unfold update_trailing. rewrite each_tile_at. pose proof (in_batch t B x i BP ltac:(lia)) as IB.
      destruct (Z.eq_dec (i / B) x) as [Ex|Nx].
      - destruct (proj2 IB ltac:(lia)) as [I1 I2]. destruct (Z.leb_spec (w_begin B x) i), (Z.ltb_spec i (w_end t B x)); try lia. cbn [andb].
        unfold g. destruct (Z.eqb_spec i 0) as [Ei|Ei]; [|reflexivity]. cbn [andb].
        assert (x = 0)%Z as -> by (rewrite <- Ex, Ei; apply Z.div_0_l; lia). reflexivity.
      - destruct (Z.leb_spec (w_begin B x) i), (Z.ltb_spec i (w_end t B x)); try reflexivity. exfalso. apply Nx. apply IB. lia. }
    rewrite U. destruct (Z.eq_dec (i / B) x) as [->|Nx].
    - destruct (in_dec Z.eq_dec x l) as [C|_]; [contradiction|]. destruct (in_dec Z.eq_dec x (x :: l)) as [|C]; [reflexivity|]. exfalso. apply C. left. reflexivity.
    - destruct (in_dec Z.eq_dec (i / B)%Z l) as [C|C], (in_dec Z.eq_dec (i / B)%Z (x :: l)) as [D|D]; try reflexivity; exfalso.
      + apply D. right. exact C.
      + destruct D as [D|D]; [congruence|contradiction]. }
  rewrite H.
  - destruct (in_dec Z.eq_dec (i / B)%Z ks) as [_|C]; [reflexivity|]. exfalso. apply C.
    apply (Permutation_in _ (Permutation_sym PE)). apply in_zrange. split; [apply Z.div_pos; lia|].
    apply Z.div_lt_upper_bound; [lia|]. pose proof (ceil_div_cover (tl_n t) nw W). unfold B, batch_of. lia.
  - apply (Permutation_NoDup (Permutation_sym PE)). apply zrange_NoDup.
Qed.
Lemma workers_w : forall nw j P q, (0 < nw)%Z -> (0 <= j <= tl_sz t 0)%Z ->
  reduce_vectors nw (fun k => w_trailing t (k =? 0)%Z P j (w_begin (batch_of nw) k) (w_end t (batch_of nw) k) (fun _ => 0)) q =
  fsum j m (fun a => fconj (stack P a (j + 1 + q)%Z) * stack P a j).
Proof using TOK NT.
  intros nw j P q W Lj. set (B := batch_of nw). assert (BP : (0 < B)%Z) by (apply ceil_div_pos; lia).
  set (g := fun i => fsum (if (i =? 0)%Z then j else 0%Z) (tl_sz t i) (fun p => fconj (P i p (j + 1 + q)%Z) * P i p j)).
  assert (WT : forall k, (0 <= k)%Z -> w_trailing t (k =? 0)%Z P j (w_begin B k) (w_end t B k) (fun _ => 0) q = fsum (w_begin B k) (w_end t B k) g).
  { intros k Lk. unfold w_trailing. rewrite fold_sum_fun. fold (fsum (w_begin B k) (w_end t B k) (fun i => fsum (if ((i =? 0)%Z && (k =? 0)%Z)%bool then j else 0%Z) (tl_sz t i) (fun p => fconj (P i p (j + 1 + q)%Z) * P i p j))).
    transitivity (fsum (w_begin B k) (w_end t B k) (fun i => fsum (if ((i =? 0)%Z && (k =? 0)%Z)%bool then j else 0%Z) (tl_sz t i) (fun p => fconj (P i p (j + 1 + q)%Z) * P i p j))); [ring|].
    apply fsum_ext. intros i Li. unfold g. destruct (Z.eqb_spec i 0) as [->|]; [|reflexivity]. cbn [andb].
    destruct (Z.eqb_spec k 0) as [|Nk]; [reflexivity|]. exfalso. unfold w_begin in Li. nia. }
  unfold reduce_vectors. rewrite fold_sum_fun.
  transitivity (fsum 0 nw (fun k => w_trailing t (k =? 0)%Z P j (w_begin B k) (w_end t B k) (fun _ => 0) q)).
  { rewrite (fsum_cons 0 nw) by lia. reflexivity. }
  rewrite (fsum_ext 0 nw _ (fun k => fsum (k * B) (Z.min (k * B + B) (tl_n t)) g)) by (intros k Lk; rewrite WT by lia; reflexivity).
  rewrite sum_batches; try lia.
  - rewrite fsum_from by lia. apply fsum_ext. intros i Li. unfold g. apply fsum_ext. intros p Lp. rewrite !stack_at by (destruct (i =? 0)%Z; lia). reflexivity.
  - pose proof (ceil_div_cover (tl_n t) nw W). unfold B, batch_of. lia.
Qed.

Lemma m_tau_0 : forall M j, (0 <= j < m)%Z -> m_tau M j = 0 -> m_sq M j = 0.
Proof using.
  intros M j Lj. unfold m_tau. destruct (feq_dec K (m_sq M j) 0) as [E|N]; [auto|]. intros T. exfalso.
  set (x := fun i => M (j + i)%Z j). assert (SQ : m_sq M j = norm2 (m - j) x).
  { unfold m_sq, norm2. replace (fsum j m (fun a => fconj (M a j) * M a j)) with (fsum (0 + j) (m - j + j) (fun a => fconj (M a j) * M a j)) by (f_equal; lia).
    rewrite fsum_shift. apply fsum_ext. intros i _. unfold x. replace (i + j)%Z with (j + i)%Z by lia. reflexivity. }
  assert (YN : m_y M j <> 0).
  { intros Y. apply N. rewrite SQ in *. unfold m_y in Y. rewrite SQ in Y. rewrite <- (rt_sq K rs _ x N).
    destruct (neg rs (M j j)); [rewrite Y; ring|].
    replace (rt rs (norm2 (m - j) x)) with (- - rt rs (norm2 (m - j) x)) by ring. rewrite Y. ring. }
  assert (H : m_y M j - M j j = 0).
  { apply (fmul_integral _ (finv (m_y M j)) T). intros Z0. pose proof (finv_l K _ YN) as Q. rewrite Z0 in Q.
    apply (f1_neq K). rewrite <- Q. ring. }
  rewrite SQ in N. apply (rt_head K rs (m - j) x ltac:(lia) N).
  assert (X0 : x 0%Z = M j j) by (unfold x; f_equal; lia). rewrite X0. rewrite <- SQ. fold (m_y M j). replace (M j j) with (m_y M j - (m_y M j - M j j)) by ring. rewrite H. ring.
Qed.

Lemma panel_step_ok : forall nw cols ord P M taus j, (0 < nw)%Z -> Permutation (ord j) (zrange 0 nw) ->
  seq_pan P M -> (0 <= j < tl_sz t 0)%Z ->
  let st := panel_step rs t nw cols ord (P, taus, false) j in
  seq_pan (fst (fst st)) (m_step cols M j) /\
  (forall i, snd (fst st) i = if (i =? j)%Z then m_tau M j else taus i) /\
  (snd st = true -> (cols <= j + 1)%Z).
Proof using TOK NT.
  intros nw cols ord P M taus j W PE E Lj st.
  assert (L0 : (j < m)%Z). { pose proof (elem_bound t TOK 0 j). rewrite off_0 in *. unfold m. lia. }
  destruct (reflector_ok P M j E Lj) as [TA RE]. unfold st, panel_step.
  destruct (reflector_and_tau rs t true P j (x0_and_squares t true P j)) as [P1 tau] eqn:RT. cbn [fst snd] in TA, RE. rewrite TA. clear TA RT tau st.
  destruct (feq_dec K (m_tau M j) 0) as [T0|TN].
  { cbn [fst snd]. split; [|split; [reflexivity|discriminate]]. intros a q La. rewrite (RE a q La).
    unfold m_step. destruct ((j <? q) && (q <? cols) && (j <=? a))%Z; [|reflexivity].
    rewrite T0, fconj_0. unfold m_refl. rewrite (m_tau_0 M j ltac:(lia) T0). destruct (feq_dec K 0 0) as [_|C]; [ring|congruence]. }
  destruct (Z.leb_spec (cols - (j + 1)) 0) as [C|C]; cbn [fst snd].
  { split; [|split; [reflexivity|intros _; lia]]. intros a q La. rewrite (RE a q La). unfold m_step.
    destruct (Z.ltb_spec j q), (Z.ltb_spec q cols); try lia; reflexivity. }
  split; [|split; [reflexivity|discriminate]].
  set (P2 := pset P1 0 (mset (P1 0%Z) j j 1)).
  assert (SQN : m_sq M j <> 0). { intros Q. apply TN. unfold m_tau. destruct (feq_dec K (m_sq M j) 0); [reflexivity|contradiction]. }
  assert (E2 : seq_pan P2 (fun a q => if ((a =? j) && (q =? j))%Z then 1 else m_refl M j a q)).
  { apply seq_pan_tiles. intros i p q Li Lp. unfold P2, pset. pose proof (proj1 (seq_pan_tiles P1 (m_refl M j)) RE i p q Li Lp) as Q.
    destruct (Z.eqb_spec i 0) as [->|Ni].
    - unfold mset. rewrite off_0 in *. cbn [Z.add]. destruct ((p =? j) && (q =? j))%Z; [reflexivity|exact Q].
    - assert (G : (j < tl_off t i + p)%Z). { pose proof (off_le t TOK 1 i). pose proof off_1. lia. }
      destruct (Z.eqb_spec (tl_off t i + p) j); [lia|]. cbn [andb]. exact Q. }
  set (w := reduce_vectors nw _).
  assert (WE : forall q, (j < q)%Z -> w (q - (j + 1))%Z = fsum j m (fun b => fconj (M b q) * m_v M j b)).
  { intros q Lq. unfold w. fold (batch_of nw). rewrite workers_w by lia. replace (j + 1 + (q - (j + 1)))%Z with q by lia. apply fsum_ext. intros a La.
    rewrite !E2 by lia. destruct (Z.eqb_spec q j); [lia|]. rewrite andb_false_r, andb_true_r || rewrite andb_false_r. rewrite Z.eqb_refl, andb_true_r.
    unfold m_v. destruct (Z.ltb_spec a j); [lia|].
    replace (m_refl M j a q) with (M a q); [destruct (a =? j)%Z; reflexivity|].
    unfold m_refl. destruct (feq_dec K (m_sq M j) 0); [reflexivity|]. destruct (Z.eqb_spec q j); [lia|reflexivity]. }
  apply seq_pan_tiles. intros i p q Li Lp.
  set (P3 := fold_left _ (ord j) P2).
  assert (F3 : P3 i p q = if ((j <? q) && (q <? cols) && ((if (i =? 0)%Z then j else 0%Z) <=? p) && (p <? tl_sz t i))%Z
             then P2 i p q + - fconj (m_tau M j) * P2 i p j * fconj (w (q - (j + 1))%Z) else P2 i p q).
  { unfold P3. fold (batch_of nw). rewrite workers_update by assumption. reflexivity. }
  pose proof (proj1 (seq_pan_tiles P2 _) E2 i p) as Q2. cbn beta in Q2.
  assert (GE : (j <=? tl_off t i + p)%Z = ((if (i =? 0)%Z then j else 0) <=? p)%Z).
  { destruct (Z.eqb_spec i 0) as [->|Ni]; [rewrite off_0; f_equal|].
    pose proof (off_le t TOK 1 i). pose proof off_1. destruct (Z.leb_spec j (tl_off t i + p)), (Z.leb_spec 0 p); lia. }
  unfold m_step. rewrite GE.
  assert (R3 : (if ((j <? q) && (q <? cols) && ((if (i =? 0)%Z then j else 0) <=? p))%Z then P3 i p q = M (tl_off t i + p)%Z q + - fconj (m_tau M j) * m_v M j (tl_off t i + p)%Z * fconj (fsum j m (fun b => fconj (M b q) * m_v M j b)) else P3 i p q = P2 i p q)).
  { rewrite F3. destruct (Z.ltb_spec p (tl_sz t i)); [|lia]. rewrite andb_true_r.
    destruct (Z.ltb_spec j q); cbn [andb]; [|reflexivity]. destruct (q <? cols)%Z; cbn [andb]; [|reflexivity].
    destruct ((if (i =? 0)%Z then j else 0) <=? p)%Z eqn:H1; [|reflexivity].
    rewrite WE by lia. rewrite !Q2 by lia. destruct (Z.eqb_spec q j); [lia|]. rewrite andb_false_r, Z.eqb_refl, andb_true_r.
    replace (m_refl M j (tl_off t i + p)%Z q) with (M (tl_off t i + p)%Z q).
    2:{ unfold m_refl. destruct (feq_dec K (m_sq M j) 0); [reflexivity|]. destruct (Z.eqb_spec q j); [lia|reflexivity]. }
    unfold m_v. destruct (Z.ltb_spec (tl_off t i + p) j) as [Q|_]; [apply Z.leb_le in GE; lia|]. reflexivity. }
  unfold pset at 1. destruct (Z.eqb_spec i 0) as [->|Ni].
  - unfold mset. rewrite off_0 in *. cbn [Z.add] in *. destruct (Z.eqb_spec p j) as [->|Np]; cbn [andb].
    + destruct (Z.eqb_spec q j) as [->|Nq].
      * rewrite Z.ltb_irrefl. cbn [andb]. rewrite <- (stack_head P1) by lia. apply RE. lia.
      * destruct ((j <? q) && (q <? cols) && (j <=? j))%Z; [exact R3|]. rewrite R3, Q2 by lia. destruct (Z.eqb_spec q j); [lia|]. rewrite andb_false_r. reflexivity.
    + destruct ((j <? q) && (q <? cols) && (j <=? p))%Z; [exact R3|]. rewrite R3, Q2 by lia. destruct (Z.eqb_spec p j); [lia|]. reflexivity.
  - assert (G : (j < tl_off t i + p)%Z). { pose proof (off_le t TOK 1 i). pose proof off_1. lia. }
    destruct ((j <? q) && (q <? cols) && (0 <=? p))%Z; [exact R3|]. rewrite R3, Q2 by lia. destruct (Z.eqb_spec (tl_off t i + p) j); [lia|]. reflexivity.
Qed.
End proofs.
