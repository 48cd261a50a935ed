(** * Back transformation band to tridiagonal: the whole program *)
From Coq Require Import ZArith Lia List Bool Ring Permutation Sorting.Sorted.
From Verif Require Import Loop StarField DenseSpec Tiling RefKernels DenseJobs Reorder HouseSpec HouseModel HouseQR MultiJobs Red2BandModel Red2BandSpec B2TModel B2TSched B2TResult B2TAlg BtB2TModel BtB2TTile TFactorProofs HouseProofs BtB2TApply BtB2TProofs.
Import ListNotations.
Local Open Scope Z_scope.

Lemma rev_flat_map : forall {A B} (f : A -> list B) l, rev (flat_map f l) = flat_map (fun x => rev (f x)) (rev l).
Proof. intros A B f l. induction l as [|x l IH]; [reflexivity|]. cbn [flat_map rev]. rewrite rev_app_distr, flat_map_app, IH. cbn. rewrite app_nil_r. reflexivity. Qed.
Lemma sorted_flat_gen : forall {X I} (lt : X -> X -> Prop) (R : I -> I -> Prop) (f : I -> list X) l, StronglySorted R l -> (forall i, In i l -> StronglySorted lt (f i)) ->
  (forall i j a b, In i l -> In j l -> R i j -> In a (f i) -> In b (f j) -> lt a b) -> StronglySorted lt (flat_map f l).
Proof.
  intros X I lt R f l S F C. induction S as [|x l S IH FA]; [constructor|]. cbn. apply sorted_app.
  - apply F. left. reflexivity.
  - apply IH; [intros; apply F; right; assumption|]. intros i j a b Ii Ij. apply C; right; assumption.
  - intros a b Ia Ib. apply in_flat_map in Ib as (y & Iy & Ib). rewrite Forall_forall in FA. apply (C x y); [left; reflexivity|right; exact Iy|apply FA; exact Iy|exact Ia|exact Ib].
Qed.
Lemma sorted_rev : forall {X} (lt : X -> X -> Prop) l, StronglySorted lt l -> StronglySorted (fun a b => lt b a) (rev l).
Proof.
  intros X lt l S. induction S as [|x l S IH F]; [constructor|]. cbn. apply sorted_app; [exact IH|apply sorted_one|]. intros a b Ia [<-|[]]. rewrite Forall_forall in F. apply F. apply in_rev. exact Ia.
Qed.
Lemma sorted_map : forall {X I} (lt : X -> X -> Prop) (R : I -> I -> Prop) (f : I -> X) l, StronglySorted R l -> (forall i j, In i l -> In j l -> R i j -> lt (f i) (f j)) -> StronglySorted lt (map f l).
Proof.
  intros X I lt R f l S C. induction S as [|x l S IH F]; [constructor|]. cbn. constructor; [apply IH; intros; apply C; try (right; assumption); assumption|].
  apply Forall_forall. intros y Iy. apply in_map_iff in Iy as (z & <- & Iz). rewrite Forall_forall in F. apply C; [left; reflexivity|right; exact Iz|apply F; exact Iz].
Qed.
Lemma flat_map_map : forall {A B C} (f : A -> B) (h : B -> list C) l, flat_map h (map f l) = flat_map (fun x => h (f x)) l.
Proof. intros A B C f h l. induction l as [|x l IH]; [reflexivity|]. cbn. rewrite IH. reflexivity. Qed.
Lemma flat_map_flat_map : forall {A B C} (f : A -> list B) (h : B -> list C) l, flat_map h (flat_map f l) = flat_map (fun x => flat_map h (f x)) l.
Proof. intros A B C f h l. induction l as [|x l IH]; [reflexivity|]. cbn. rewrite flat_map_app, IH. reflexivity. Qed.

Section order.
Variable cplx : bool.
Variables m b : Z.
Hypothesis Hb : 2 <= b.
Hypothesis Hm : (if cplx then 1 else 2) < m.
Notation jl := (j_last cplx m b).
(** the blocks in the order in which the program applies them, and the reflectors from left to right *)
Definition blocks : list (Z * Z) := flat_map (fun j => map (pair j) (zrange 0 (t_steps m b (j * b)))) (rev (zrange 0 (jl + 1))).
Definition blk_of (p : Z * Z) : list (Z * Z) := blk cplx m b (fst p) (snd p).
Definition all_refl : list (Z * Z) := flat_map blk_of (rev blocks).
Lemma in_blocks : forall j step, In (j, step) blocks <-> 0 <= j <= jl /\ 0 <= step < t_steps m b (j * b).
Proof using.
  intros j step. unfold blocks. rewrite in_flat_map. split.
  - intros (x & Ix & I0). apply in_rev in Ix. apply in_zrange in Ix. apply in_map_iff in I0 as (y & E & Iy). apply in_zrange in Iy. injection E as <- <-. lia.
  - intros [A B]. exists j. split; [apply -> in_rev; apply in_zrange; lia|]. apply in_map_iff. exists step. split; [reflexivity|]. apply in_zrange. exact B.
Qed.
Lemma in_blk : forall sw st j step, 0 <= j <= jl -> 0 <= step < t_steps m b (j * b) -> (In (sw, st) (blk_of (j, step)) <-> st = step /\ j * b <= sw < j * b + t_nrefls cplx m b j step).
Proof using.
  intros sw st j step Lj Ls. unfold blk_of, blk. cbn [fst snd]. rewrite in_map_iff. split.
  - intros (r & E & I0). apply in_zrange in I0. injection E as <- <-. lia.
  - intros [-> L]. exists (sw - j * b). split; [f_equal; lia|apply in_zrange; lia].
Qed.
Lemma in_all_refl : forall sw st, In (sw, st) all_refl <-> In (sw, st) (hht_list cplx m b).
Proof using Hb Hm.
  intros sw st. unfold all_refl, hht_list. rewrite !in_flat_map. assert (JS := jl_spec cplx m b Hb Hm). change (t_sweeps cplx m) with (hht_sweeps cplx m) in JS. split.
  - intros ([j step] & Ib & I0). apply in_rev, in_blocks in Ib. destruct Ib as [Lj Ls]. apply in_blk in I0; [|exact Lj|exact Ls]. destruct I0 as [-> L].
    assert (KV := k_val cplx m b Hb Hm j step Lj Ls). assert (KP := k_pos cplx m b Hb Hm j step Lj Ls). assert (SB := step_bound cplx m b Hb Hm j step Lj Ls).
    assert (S1 := size1_iff cplx m b Hb Hm j step Lj Ls). unfold t_i in *. exists sw.
    assert (SW : 0 <= sw < hht_sweeps cplx m).
    { split; [nia|]. destruct (t_size1 cplx m b j step) eqn:E1.
      - destruct (proj1 S1 eq_refl) as [EC EJ]. unfold hht_sweeps in *. rewrite EC in *. nia.
      - unfold hht_sweeps. destruct cplx; nia. }
    split; [apply in_zrange; exact SW|]. apply in_map_iff. exists step. split; [reflexivity|]. apply in_zrange. split; [lia|].
    unfold hht_count. destruct (Z.eqb_spec sw (m - 2)) as [E|E].
    + destruct (t_size1 cplx m b j step) eqn:E1; [|nia]. nia.
    + apply ceil_div_lt; [lia|]. destruct (t_size1 cplx m b j step) eqn:E1; [|nia].
      destruct (proj1 S1 eq_refl) as [EC EJ]. unfold hht_sweeps in *. rewrite EC in *. assert (step = 0) by nia. subst step. nia.
  - intros (sw' & Is & I0). apply in_zrange in Is. apply in_map_iff in I0 as (st' & E & I0). injection E as -> ->. apply in_zrange in I0.
    set (j := sw / b). assert (DS := Z.div_mod sw b ltac:(lia)). fold j in DS. assert (MS := Z.mod_pos_bound sw b ltac:(lia)).
    assert (Lj : 0 <= j <= jl) by (split; [apply Z.div_pos; lia|]; nia).
    assert (SS : sw + st * b < m - 2 \/ (sw = m - 2 /\ st = 0 /\ cplx = true)).
    { unfold hht_count in I0. destruct (Z.eqb_spec sw (m - 2)) as [E|E].
      - right. unfold hht_sweeps in Is. destruct cplx; [|lia]. split; [exact E|]. split; [lia|reflexivity].
      - left. destruct I0 as [_ I1]. apply ceil_div_lt in I1; lia. }
    assert (Ls : 0 <= st < t_steps m b (j * b)).
    { split; [lia|]. unfold t_steps. destruct (Z.eqb_spec (j * b) (m - 2)) as [E|E].
      - destruct SS as [SS|SS]; nia.
      - apply ceil_div_lt; [lia|]. destruct SS as [SS|SS]; nia. }
    exists (j, st). split; [apply -> in_rev; apply in_blocks; split; assumption|]. apply in_blk; [exact Lj|exact Ls|]. split; [reflexivity|].
    assert (KV := k_val cplx m b Hb Hm j st Lj Ls). assert (S1 := size1_iff cplx m b Hb Hm j st Lj Ls). unfold t_i in *.
    destruct (t_size1 cplx m b j st) eqn:E1; [destruct SS as [SS|SS]; nia|]. destruct SS as [SS|(A & B & C)]; [nia|]. exfalso.
    assert (J : j = jl). { assert (HS : hht_sweeps cplx m = m - 1) by (unfold hht_sweeps; rewrite C; reflexivity). rewrite HS in JS. set (x := jl) in *. clearbody x j. apply Z.le_antisymm; [lia|]. assert (x * b < (j + 1) * b) by lia. nia. } destruct S1 as [_ S1]. specialize (S1 (conj C J)). discriminate.
Qed.
(** the two orders *)
Definition lt_blk (p q : Z * Z) : Prop := fst p / b < fst q / b \/ (fst p / b = fst q / b /\ (snd q < snd p \/ (snd q = snd p /\ fst p < fst q))).
Definition lt_lex (p q : Z * Z) : Prop := fst p < fst q \/ (fst p = fst q /\ snd p < snd q).
Lemma all_refl_sorted : StronglySorted lt_blk all_refl.
Proof using Hb Hm.
  unfold all_refl, blocks. rewrite rev_flat_map, rev_involutive.
  rewrite flat_map_flat_map. apply (sorted_flat_gen lt_blk Z.lt).
  - apply zrange_sorted.
  - intros j Ij. apply in_zrange in Ij. rewrite <- map_rev. rewrite flat_map_map. apply (sorted_flat_gen lt_blk (fun a c => c < a)).
    + apply (sorted_rev Z.lt). apply zrange_sorted.
    + intros step Is. apply in_rev, in_zrange in Is. unfold blk_of, blk. cbn [fst snd]. apply (sorted_map lt_blk Z.lt); [apply zrange_sorted|].
      intros x y Ix Iy L. apply in_zrange in Ix, Iy. assert (KP := k_pos cplx m b Hb Hm j step ltac:(lia) Is). unfold lt_blk. cbn [fst snd].
      rewrite !div_b by (first [exact Hb | lia]). lia.
    + intros s1 s2 a c I1 I2 L Ia Ic. apply in_rev, in_zrange in I1, I2. destruct a as [sa ta], c as [sc tc]. apply in_blk in Ia, Ic; [|lia|lia|lia|lia].
      destruct Ia as [-> La], Ic as [-> Lc]. assert (K1 := k_pos cplx m b Hb Hm j s1 ltac:(lia) I1). assert (K2 := k_pos cplx m b Hb Hm j s2 ltac:(lia) I2).
      right. cbn [fst snd]. replace sa with (j * b + (sa - j * b)) by lia. replace sc with (j * b + (sc - j * b)) by lia. rewrite !div_b by (first [exact Hb | lia]). lia.
  - intros j1 j2 a c I1 I2 L Ia Ic. apply in_zrange in I1, I2. apply in_flat_map in Ia as ([ja sa] & Ia' & Ia). apply in_flat_map in Ic as ([jc sc] & Ic' & Ic).
    apply in_rev, in_map_iff in Ia' as (x & E & Ix). injection E as <- <-. apply in_rev, in_map_iff in Ic' as (y & E & Iy). injection E as <- <-. apply in_zrange in Ix, Iy.
    destruct a as [swa sta], c as [swc stc]. apply in_blk in Ia, Ic; [|lia|lia|lia|lia].
    destruct Ia as [-> La], Ic as [-> Lc]. assert (K1 := k_pos cplx m b Hb Hm j1 x ltac:(lia) Ix). assert (K2 := k_pos cplx m b Hb Hm j2 y ltac:(lia) Iy).
    left. cbn [fst snd]. replace swa with (j1 * b + (swa - j1 * b)) by lia. replace swc with (j2 * b + (swc - j2 * b)) by lia. rewrite !div_b by (first [exact Hb | lia]). lia.
Qed.
Lemma hht_list_sorted : StronglySorted lt_lex (hht_list cplx m b).
Proof using.
  unfold hht_list. apply (sorted_flat_gen lt_lex Z.lt); [apply zrange_sorted| |].
  - intros sw _. apply (sorted_map lt_lex Z.lt); [apply zrange_sorted|]. intros x y _ _ L. right. cbn. lia.
  - intros s1 s2 a c _ _ L Ia Ic. apply in_map_iff in Ia as (x & <- & _). apply in_map_iff in Ic as (y & <- & _). left. exact L.
Qed.
End order.

Section final.
Context {K : starfield} (kn : kernels K) (KO : kernels_ok kn).
Variable larft : @larft_fn K.
Hypothesis LO : larft_ok larft.
Variable cplx : bool.
Variables m b g : Z.
Variable tc : tiling.
Hypothesis Hb : 2 <= b.
Hypothesis Hg : 0 < g.
Hypothesis TC : tiling_ok tc.

Lemma order_ok : (if cplx then 1 else 2) < m -> forall (V E : mat K), eqrows m (happly m b V (all_refl cplx m b) E) (happly m b V (hht_list cplx m b) E).
Proof using Hb.
  intros Hm V E. apply (happly_reorder m b V ltac:(lia) (lt_blk b) lt_lex).
  - apply all_refl_sorted; assumption.
  - apply hht_list_sorted.
  - intros x. unfold lt_blk. lia.
  - intros x y. unfold lt_lex. lia.
  - intros [sw st]. apply in_all_refl; assumption.
  - intros [s1 t1] [s2 t2] _ _ L O. unfold lt_blk, overlap, hht_start in *. unfold lt_lex. cbn [fst snd] in *.
    assert (D1 := Z.div_mod s1 b ltac:(lia)). assert (D2 := Z.div_mod s2 b ltac:(lia)). assert (M1 := Z.mod_pos_bound s1 b ltac:(lia)). assert (M2 := Z.mod_pos_bound s2 b ltac:(lia)).
    destruct L as [L|[L [L2|[L2 L3]]]]; [left; nia| |left; lia].
    left. assert (t2 + 1 <= t1) by lia. nia.
Qed.
Lemma bt_hh_ext : forall st st' : tstore (mat K), (forall x y, st' (tHH x y) = st (tHH x y)) -> forall a c, bt_hh b st' a c = bt_hh b st a c.
Proof using. intros st st' E a c. unfold bt_hh. rewrite E. reflexivity. Qed.
Lemma happly_V : forall ps (V V' E : mat K) c, (forall a c, V a c = V' a c) -> forall a, happly m b V ps E a c = happly m b V' ps E a c.
Proof using.
  induction ps as [|p ps IH]; intros V V' E c EV a; [reflexivity|]. cbn [happly fold_right]. unfold mmul. apply fsum_ext. intros r Lr. f_equal; [|apply IH; exact EV].
  unfold hht, reflector. rewrite EV. unfold hht_vec. cbv zeta. rewrite !EV. reflexivity.
Qed.
Lemma blocks_run : (if cplx then 1 else 2) < m -> forall bs, (forall p, In p bs -> In p (blocks cplx m b)) -> forall st : tstore (mat K),
  let s := mrun (flat_map (fun p => t_step kn larft cplx m b g tc (fst p) (snd p)) bs) st in
  (forall a c, 0 <= a < m -> 0 <= c < tl_size tc -> bt_e b tc s a c = happly m b (bt_hh b st) (flat_map (blk_of cplx m b) (rev bs)) (bt_e b tc st) a c) /\
  (forall x y, s (tHH x y) = st (tHH x y)).
Proof using Hb Hg TC KO LO.
  intros Hm. induction bs as [|[j step] bs IH]; intros SUB st; [split; reflexivity|]. cbn [flat_map]. cbv zeta. rewrite mrun_app. cbn [fst snd].
  assert (IB := SUB (j, step) (or_introl eq_refl)). apply in_blocks in IB. destruct IB as [Lj Ls].
  destruct (block_ok kn KO larft LO cplx m b g tc Hb Hg TC Hm j step Lj Ls st) as [B1 B2].
  set (s1 := mrun (t_step kn larft cplx m b g tc j step) st) in *. destruct (IH (fun p I0 => SUB p (or_intror I0)) s1) as [I1 I2]. clear IH. split.
  - intros a c La Lc. rewrite I1 by assumption. cbn [rev]. rewrite flat_map_app, happly_app. cbn [flat_map]. rewrite app_nil_r.
    rewrite (happly_V _ (bt_hh b s1) (bt_hh b st)) by (apply bt_hh_ext; exact B2).
    apply happly_col; [|exact La]. intros a' La'. apply B1; assumption.
  - intros x y. rewrite I2. apply B2.
Qed.
Theorem bt_b2t_run : forall st : tstore (mat K), let s := mrun (bt_band_to_tridiag kn larft cplx m b g tc) st in
  meq m (tl_size tc) (bt_e b tc s) (mmul m (hht_product m b (bt_hh b st) (hht_list cplx m b)) (bt_e b tc st)) /\
  (forall x y, s (tHH x y) = st (tHH x y)).
Proof using Hb Hg TC KO LO.
  intros st. cbv zeta. unfold bt_band_to_tridiag. destruct ((m <=? 0) || (tl_size tc <=? 0)) eqn:E0.
  - split; [|reflexivity]. intros a c La Lc. lia.
  - destruct (Z.leb_spec m (if cplx then 1 else 2)) as [L|L].
    + split; [|reflexivity]. intros a c La Lc. cbn [mrun fold_left]. unfold hht_list. rewrite zrange_nil by (unfold hht_sweeps; destruct cplx; lia). cbn. symmetry. apply mmul_ident_l. exact La.
    + replace (flat_map (fun j => flat_map (t_step kn larft cplx m b g tc j) (zrange 0 (t_steps m b (j * b)))) (rev (zrange 0 (j_last cplx m b + 1))))
        with (flat_map (fun p => t_step kn larft cplx m b g tc (fst p) (snd p)) (blocks cplx m b)).
      * destruct (blocks_run L (blocks cplx m b) (fun p I0 => I0) st) as [B1 B2]. split; [|exact B2]. intros a c La Lc. rewrite B1 by assumption.
        rewrite <- happly_product by exact La. apply order_ok; [exact L|exact La].
      * unfold blocks. rewrite flat_map_flat_map. apply flat_map_ext. intros j. rewrite flat_map_map. reflexivity.
Qed.
Lemma bt_b2t_jobs_ok : Forall mjob_ok (bt_band_to_tridiag kn larft cplx m b g tc).
Proof using.
  unfold bt_band_to_tridiag. destruct ((m <=? 0) || (tl_size tc <=? 0)); [constructor|]. destruct (m <=? (if cplx then 1 else 2)); [constructor|].
  apply Forall_forall. intros x Ix. apply in_flat_map in Ix as (j & _ & Ix). apply in_flat_map in Ix as (step & _ & Ix). assert (P : 0 <= t_par cplx m b j < 2) by (apply Z.mod_pos_bound; lia).
  destruct Ix as [<-|Ix].
  - split; [apply compute_nodup|]. unfold t_compute. cbn [mj_out mj_in In]. intros y Iy [Q|[]]. subst y. unfold tHH, tV, tT, tW in Iy. repeat (destruct Iy as [Iy|Iy]); try contradiction; assert (IM := f_equal t_mat Iy); cbn [t_mat] in IM; lia.
  - apply in_map_iff in Ix as (je & <- & _). split; [apply apply_nodup|]. unfold t_apply. destruct (t_across m b j step); cbn [mj_out mj_in In]; intros y Iy Q; unfold tW2, tE, tV, tW in Iy, Q;
    repeat (destruct Iy as [Iy|Iy]); try contradiction; subst y; repeat (destruct Q as [Q|Q]); try contradiction; assert (IM := f_equal t_mat Q); cbn [t_mat] in IM; lia.
Qed.
End final.

(** ** A reference larft *)
Section larft.
Context {K : starfield}.
Local Open Scope sf_scope.
Add Ring KringLF : (fring K).
Definition ref_larft : @larft_fn K := fun n k V tau T => tfactor (Tiling 1 (fun _ => n)) 1 k (fun _ => unit_lower V) tau T.
Theorem ref_larft_ok : larft_ok ref_larft.
Proof.
  intros n k V tau T Lk a c La Lc. set (t := Tiling 1 (fun _ => n)).
  assert (TO : tiling_ok t) by (split; cbn; intros; lia).
  destruct (Z.eq_dec k 0) as [->|Nk].
  - unfold msub. unfold mmul at 1. rewrite fsum_nil by lia. cbn. ring.
  - assert (SZ : tl_size t = n) by (unfold tl_size; replace (tl_n t) with (0 + 1)%Z by reflexivity; rewrite off_succ by lia; rewrite off_0; cbn; lia).
    assert (TR := tfactor_rec t TO ltac:(cbn; lia) 1 k (fun _ => unit_lower V) tau T ltac:(lia) ltac:(lia)). fold (ref_larft n k V tau T) in TR. set (T' := ref_larft n k V tau T) in *.
    assert (ST : forall a c, (0 <= a < n)%Z -> stack t (fun _ => unit_lower V) a c = unit_lower V a c).
    { intros a' c' La'. unfold stack. replace (tl_tile t a') with 0%Z; [rewrite off_0; f_equal; lia|]. symmetry. replace a' with (tl_off t 0 + a')%Z at 1 by (rewrite off_0; lia). apply tile_of_elem; [exact TO|cbn; lia|cbn; lia]. }
    rewrite SZ in TR. replace k with (Z.of_nat (Z.to_nat k)) in TR by lia.
    transitivity (refl_prod n (stack t (fun _ => unit_lower V)) tau (Z.to_nat k) a c).
    { apply refl_prod_ext; [|reflexivity|exact La|exact Lc]. intros i q Li Lq. symmetry. apply ST. exact Li. }
    rewrite (t_rec_prod n (Z.to_nat k) _ _ tau TR a c La Lc). unfold msub. f_equal. unfold block. rewrite Z2Nat.id in * by lia. apply mmul_ext; intros r Lr.
    + apply mmul_ext; intros u Lu; [apply ST; exact La|]. unfold trim. destruct (Z.eqb_spec u r) as [->|N]; [reflexivity|]. cbn [in_tri]. destruct (Z.leb_spec u r); [reflexivity|]. apply TR; lia.
    + unfold adj, opm. f_equal. apply ST. exact Lc.
Qed.
End larft.
