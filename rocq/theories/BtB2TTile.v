(** * The tile kernels of the back transformation band to tridiagonal *)
From Coq Require Import ZArith Lia List Bool Ring.
From Verif Require Import Loop StarField DenseSpec Tiling RefKernels DenseJobs HouseSpec HouseModel HouseQR MultiJobs Red2BandModel B2TSched BtB2TModel.
Import ListNotations.
Local Open Scope Z_scope.

Section tile.
Context {K : starfield} (kn : kernels K) (KO : kernels_ok kn).
Local Open Scope sf_scope.
Add Ring KringBT : (fring K).
Variable larft : @larft_fn K.
Hypothesis LO : larft_ok larft.

Lemma paste_at : forall r c m n (A S : mat K) p q, paste r c m n A S p q =
  if ((r <=? p) && (p <? r + m) && (c <=? q) && (q <? c + n))%Z then S (p - r)%Z (q - c)%Z else A p q.
Proof using. reflexivity. Qed.
Lemma paste_in : forall r c m n (A S : mat K) p q, (r <= p < r + m)%Z -> (c <= q < c + n)%Z -> paste r c m n A S p q = S (p - r)%Z (q - c)%Z.
Proof using. intros r c m n A S p q Lp Lq. rewrite paste_at. replace ((r <=? p) && (p <? r + m) && (c <=? q) && (q <? c + n))%Z with true by lia. reflexivity. Qed.
Lemma paste_out : forall r c m n (A S : mat K) p q, ~ ((r <= p < r + m)%Z /\ (c <= q < c + n)%Z) -> paste r c m n A S p q = A p q.
Proof using. intros r c m n A S p q N. rewrite paste_at. replace ((r <=? p) && (p <? r + m) && (c <=? q) && (q <? c + n))%Z with false by lia. reflexivity. Qed.

(** the reflectors as they are applied *)
Definition well_formed (b : Z) (hh : mat K) : mat K := fun p q =>
  if (p =? q)%Z then 1 else if (p <? q)%Z then 0 else if (p <? q + b)%Z then hh (p - q)%Z q else 0.
Lemma copy_columns : forall rows hh_rows (hh v : mat K) k p q, (0 <= k)%Z ->
  (forall q, (0 <= q < k)%Z -> (0 <= Z.min (rows - (1 + q)) (hh_rows - 1))%Z) ->
  fold_left (fun v j => let compact := Z.min (rows - (1 + j)) (hh_rows - 1) in
    if (compact =? 0)%Z then v else paste (1 + j) j compact 1 v (sub 1 j hh)) (zrange 0 k) v p q =
  if ((0 <=? q) && (q <? k) && (q <? p) && (p <? 1 + q + Z.min (rows - (1 + q)) (hh_rows - 1)))%Z then hh (p - q)%Z q else v p q.
Proof using.
  intros rows hh_rows hh v k p q Lk NN. revert NN p q. pattern k. apply natlike_ind; [| |exact Lk].
  - intros _ p q. rewrite zrange_nil by lia. cbn [fold_left]. replace (q <? 0)%Z with (negb (0 <=? q)%Z) by lia. destruct (0 <=? q)%Z; reflexivity.
  - intros j Lj IH NN p q. unfold Z.succ. rewrite zrange_snoc by lia. rewrite fold_left_app. cbn [fold_left]. cbv zeta.
    assert (IH' := IH (fun q Lq => NN q ltac:(lia))). clear IH. set (c := Z.min (rows - (1 + j)) (hh_rows - 1)) in *. assert (C0 := NN j ltac:(lia)). fold c in C0.
    destruct (Z.eqb_spec c 0) as [E|E].
    + rewrite IH'. destruct (Z.eq_dec q j) as [->|N].
      * fold c. replace ((0 <=? j) && (j <? j) && (j <? p) && (p <? 1 + j + c))%Z with false by lia. replace ((0 <=? j) && (j <? Z.succ j) && (j <? p) && (p <? 1 + j + c))%Z with false by lia. replace (j <? j + 1)%Z with true by lia.
        replace ((0 <=? j) && true && (j <? p) && (p <? 1 + j + c))%Z with false by lia. reflexivity.
      * replace (q <? j + 1)%Z with (q <? j)%Z by lia. reflexivity.
    + destruct (Z.eq_dec q j) as [->|N].
      * fold c. rewrite paste_at. replace ((j <=? j) && (j <? j + 1))%Z with true by lia.
        destruct (Z.ltb_spec j p) as [L1|L1].
        -- destruct (Z.ltb_spec p (1 + j + c)) as [L2|L2].
           ++ replace ((1 + j <=? p) && (true) && (j <=? j) && (j <? j + 1))%Z with true by lia. replace ((0 <=? j) && (j <? j + 1) && true && true)%Z with true by lia.
              unfold sub. f_equal; lia.
           ++ rewrite IH'. fold c. replace ((1 + j <=? p) && false && (j <=? j) && (j <? j + 1))%Z with false by lia.
              replace ((0 <=? j) && (j <? j + 1) && true && false)%Z with false by lia. replace (j <? j)%Z with false by lia. rewrite andb_false_r. reflexivity.
        -- rewrite IH'. replace (1 + j <=? p)%Z with false by lia. cbn [andb]. rewrite !andb_false_r. replace (j <? p)%Z with false by lia. rewrite !andb_false_r. reflexivity.
      * rewrite paste_out by lia. rewrite IH'. replace (q <? j + 1)%Z with (q <? j)%Z by lia. reflexivity.
Qed.
Lemma setup_v_at : forall b rows k hh_rows (hh v : mat K) p q, (0 < b)%Z -> (0 < k <= rows)%Z -> (rows <= k - 1 + b)%Z ->
  (hh_rows = b \/ rows < hh_rows <= b)%Z -> (0 <= p < rows)%Z -> (0 <= q < k)%Z -> setup_v b rows k hh_rows hh v p q = well_formed b hh p q.
Proof using.
  intros b rows k hh_rows hh v p q Hb Lk Lr Hh Lp Lq. unfold setup_v, well_formed. cbv zeta.
  set (v1 := fold_left _ _ _).
  assert (E1 : v1 p q = if ((q <? p) && (p <? 1 + q + Z.min (rows - (1 + q)) (hh_rows - 1)))%Z then hh (p - q)%Z q else v p q).
  { unfold v1. rewrite copy_columns by lia. replace ((0 <=? q) && (q <? k))%Z with true by lia. reflexivity. }
  assert (E2 : laset_upper rows k 0 1 v1 p q = if (p =? q)%Z then 1 else if (p <? q)%Z then 0 else v1 p q).
  { unfold laset_upper. replace ((0 <=? p) && (p <? rows) && (0 <=? q) && (q <? k))%Z with true by lia. reflexivity. }
  assert (G : (p < q + b)%Z -> laset_upper rows k 0 1 v1 p q = if (p =? q)%Z then 1 else if (p <? q)%Z then 0 else if (p <? q + b)%Z then hh (p - q)%Z q else 0).
  { intros L. rewrite E2. destruct (Z.eqb_spec p q); [reflexivity|]. destruct (Z.ltb_spec p q); [reflexivity|]. rewrite E1. replace (p <? q + b)%Z with true by lia.
    replace ((q <? p) && (p <? 1 + q + Z.min (rows - (1 + q)) (hh_rows - 1)))%Z with true by lia. reflexivity. }
  destruct (Z.ltb_spec b rows) as [B|B].
  - rewrite paste_at. destruct ((b <=? p) && (p <? b + (rows - b)) && (0 <=? q) && (q <? 0 + (k - 1)))%Z eqn:C.
    + unfold laset_lower. replace ((0 <=? p - b) && (p - b <? rows - b) && (0 <=? q - 0) && (q - 0 <? k - 1))%Z with true by lia.
      destruct (Z.lt_ge_cases p (q + b)) as [L|L].
      * replace (p - b =? q - 0)%Z with false by lia. replace (q - 0 <? p - b)%Z with false by lia. unfold sub. replace (b + (p - b))%Z with p by lia. replace (0 + (q - 0))%Z with q by lia. apply G. exact L.
      * replace (p =? q)%Z with false by lia. replace (p <? q)%Z with false by lia. replace (p <? q + b)%Z with false by lia.
        destruct (Z.eqb_spec (p - b) (q - 0)); [reflexivity|]. destruct (Z.ltb_spec (q - 0) (p - b)); [reflexivity|]. lia.
    + destruct (Z.lt_ge_cases p (q + b)) as [L|L]; [apply G; exact L|]. exfalso. clear E1 E2 G. destruct (Z.leb_spec b p), (Z.ltb_spec p (b + (rows - b))), (Z.leb_spec 0 q), (Z.ltb_spec q (0 + (k - 1))); cbn in C; try discriminate; lia.
  - apply G. lia.
Qed.

(** ** Groups *)
Variables b rows k g : Z.
Hypothesis Hb : (0 < b)%Z.
Hypothesis Hk : (0 < k <= rows)%Z.
Hypothesis Hg : (0 < g)%Z.
Notation ng := (ceil_div k g).
Notation jb := (group_jb k g).
Notation ib := (group_ib b rows k g).
Lemma group_bounds : forall x, (0 <= x < ng)%Z -> (0 < jb (x * g) <= g)%Z /\ (x * g + jb (x * g) <= k)%Z /\ (jb (x * g) <= ib (x * g))%Z /\ (x * g + ib (x * g) <= rows)%Z.
Proof using Hb Hk Hg. intros x Lx. assert (x * g < k)%Z by (apply ceil_div_lt; lia). unfold group_ib, group_jb. nia. Qed.
Lemma group_next : forall x, (0 <= x < ng)%Z -> (x * g + jb (x * g) = Z.min ((x + 1) * g) k)%Z.
Proof using Hb Hk Hg. intros x Lx. unfold group_jb. nia. Qed.
Lemma ng_pos : (0 < ng)%Z.
Proof using Hb Hk Hg. apply ceil_div_lt; lia. Qed.

(** the columns of a group are written by its own iteration only *)
Lemma group_fold : forall (f : mat K -> Z -> mat K) (rw : Z -> Z) (t0 : mat K) n, (0 <= n <= ng)%Z ->
  forall x p q, (0 <= x < n)%Z -> (0 <= p < rw (x * g)%Z)%Z -> (0 <= q < jb (x * g))%Z ->
  exists t1, fold_left (fun t j => paste j j (rw j) (jb j) t (f t j)) (map (fun x => (x * g)%Z) (zrange 0 n)) t0 (x * g + p)%Z (x * g + q)%Z = f t1 (x * g)%Z p q.
Proof using Hb Hk Hg.
  intros f rw t0 n Ln. assert (N0 : (0 <= n)%Z) by lia. revert Ln. pattern n. apply natlike_ind; [intros; lia| |exact N0].
  intros j Lj IH Ln x p q Lx Lp Lq. unfold Z.succ in *. rewrite zrange_snoc, map_app, fold_left_app by lia. cbn [map fold_left].
  destruct (Z.eq_dec x j) as [->|N].
  - rewrite paste_in by lia. eexists. f_equal; lia.
  - rewrite paste_out.
    + apply IH; lia.
    + assert (B := group_bounds x ltac:(lia)). nia.
Qed.
Lemma group_fold1 : forall (f : mat K -> Z -> mat K) (rw : Z -> Z) (t0 : mat K) n, (0 <= n <= ng)%Z ->
  forall x, (0 <= x < n)%Z -> exists t1, forall p q, (0 <= p < rw (x * g)%Z)%Z -> (0 <= q < jb (x * g))%Z ->
  fold_left (fun t j => paste j j (rw j) (jb j) t (f t j)) (map (fun x => (x * g)%Z) (zrange 0 n)) t0 (x * g + p)%Z (x * g + q)%Z = f t1 (x * g)%Z p q.
Proof using Hb Hk Hg.
  intros f rw t0 n Ln. assert (N0 : (0 <= n)%Z) by lia. revert Ln. pattern n. apply natlike_ind; [intros; lia| |exact N0].
  intros j Lj IH Ln x Lx. unfold Z.succ in *. rewrite zrange_snoc, map_app, fold_left_app by lia. cbn [map fold_left].
  destruct (Z.eq_dec x j) as [->|N].
  - eexists. intros p q Lp Lq. rewrite paste_in by lia. f_equal; lia.
  - destruct (IH ltac:(lia) x ltac:(lia)) as [t1 E]. exists t1. intros p q Lp Lq. rewrite paste_out; [apply E; assumption|].
    assert (B := group_bounds x ltac:(lia)). nia.
Qed.

Variables hh V : mat K.
Hypothesis HV : forall p q, (0 <= p < rows)%Z -> (0 <= q < k)%Z -> V p q = well_formed b hh p q.
(** the reflectors of group j, and their taus *)
Definition gv (j : Z) : mat K := sub j j V.
Definition gtau (j : Z) : Z -> F K := fun x => hh 0%Z (j + x)%Z.
Lemma gv_unit : forall x p q, (0 <= x < ng)%Z -> (0 <= p < ib (x * g))%Z -> (0 <= q < jb (x * g))%Z -> unit_lower (gv (x * g)) p q = gv (x * g) p q.
Proof using Hb Hk Hg HV.
  intros x p q Lx Lp Lq. assert (B := group_bounds x Lx). unfold unit_lower, gv, sub. rewrite HV by lia. unfold well_formed.
  destruct (Z.eqb_spec p q) as [->|N]; [rewrite Z.eqb_refl; reflexivity|]. replace (x * g + p =? x * g + q)%Z with false by lia.
  destruct (Z.ltb_spec q p); [reflexivity|]. replace (x * g + p <? x * g + q)%Z with true by lia. reflexivity.
Qed.
Lemma group_factor : forall t w x, (0 <= x < ng)%Z -> let j := (x * g)%Z in
  let W := compute_w kn b rows k g V (compute_t larft b rows k g hh V t) w in
  meq (ib j) (ib j) (refl_prod (ib j) (gv j) (gtau j) (Z.to_nat (jb j))) (msub ident (mmul (jb j) (sub j j W) (adj (gv j)))).
Proof using Hb Hk Hg HV KO LO.
  intros t w x Lx j W a c La Lc. assert (B := group_bounds x Lx). fold j in B.
  set (T := compute_t larft b rows k g hh V t) in *.
  destruct (group_fold1 (fun t j => larft (ib j) (jb j) (sub j j V) (fun x => hh 0%Z (j + x)%Z) (sub j j t)) jb t ng ltac:(lia) x Lx) as [t1 ET]. fold j in ET.
  destruct (group_fold1 (fun _ j => trmm kn Right Upper NoTrans NonUnit (ib j) (jb j) 1 (sub j j T) (sub j j V)) ib w ng ltac:(lia) x Lx) as [w1 EW]. fold j in EW.
  transitivity (refl_prod (ib j) (unit_lower (gv j)) (gtau j) (Z.to_nat (jb j)) a c).
  { apply refl_prod_ext; [|reflexivity|exact La|exact Lc]. intros i q Li Lq. symmetry. apply gv_unit; [exact Lx|exact Li|rewrite Z2Nat.id in Lq by lia; exact Lq]. }
  rewrite (LO (ib j) (jb j) (gv j) (gtau j) (sub j j t1) ltac:(lia) a c La Lc). unfold msub. f_equal. apply mmul_ext; intros r Lr.
  - unfold sub at 2. unfold W, compute_w, group_cols. fold T. rewrite EW by lia.
    rewrite (trmm_ok kn KO Right Upper NoTrans NonUnit (ib j) (jb j) 1 (sub j j T) (sub j j V) a r La ltac:(lia)).
    rewrite (Ring_theory.Rmul_1_l (fring K)). apply mmul_ext; intros s Ls; [apply gv_unit; assumption|].
    unfold opm, trim. replace (sub j j T s r) with (larft (ib j) (jb j) (gv j) (gtau j) (sub j j t1) s r); [reflexivity|].
    symmetry. unfold sub at 1. unfold T, compute_t, group_cols. rewrite ET by lia. reflexivity.
  - unfold adj, opm. f_equal. apply gv_unit; assumption.
Qed.

(** ** Application *)
(** R applied to the rows [s, s + n) *)
Definition win (s n : Z) (R e : mat K) : mat K := fun p q => if ((s <=? p) && (p <? s + n))%Z then mmul n R (fun r q => e (s + r)%Z q) (p - s)%Z q else e p q.
Lemma win_ext : forall s n R e e' p q, (0 <= n)%Z -> (forall r, (s <= r < s + n)%Z -> e r q = e' r q) -> (~ (s <= p < s + n)%Z -> e p q = e' p q) -> win s n R e p q = win s n R e' p q.
Proof using.
  intros s n R e e' p q Ln E1 E2. unfold win. destruct ((s <=? p) && (p <? s + n))%Z eqn:C; [|apply E2; lia]. apply mmul_ext; [reflexivity|]. intros r Lr. apply E1. lia.
Qed.
(** I - W V^H applied to rows [s, s + n) *)
Lemma win_update : forall s n kk (R Vg Wg e : mat K) p q, meq n n R (msub ident (mmul kk Wg (adj Vg))) -> (s <= p < s + n)%Z ->
  win s n R e p q = e p q - fsum 0 kk (fun r => Wg (p - s)%Z r * fsum 0 n (fun a => fconj (Vg a r) * e (s + a)%Z q)).
Proof using.
  intros s n kk R Vg Wg e p q ER Lp. unfold win. replace ((s <=? p) && (p <? s + n))%Z with true by lia.
  rewrite (mmul_ext n R (msub ident (mmul kk Wg (adj Vg))) _ (fun r q => e (s + r)%Z q)) by (intros r Lr; first [reflexivity | apply ER; lia]).
  unfold mmul at 1, msub. rewrite (fsum_ext 0 n _ (fun r => ident (p - s)%Z r * e (s + r)%Z q - mmul kk Wg (adj Vg) (p - s)%Z r * e (s + r)%Z q)) by (intros; ring).
  rewrite fsum_sub. f_equal.
  - transitivity (mmul n ident (fun r q => e (s + r)%Z q) (p - s)%Z q); [reflexivity|]. rewrite mmul_ident_l by lia. f_equal. lia.
  - transitivity (mmul n (mmul kk Wg (adj Vg)) (fun r q => e (s + r)%Z q) (p - s)%Z q); [reflexivity|]. rewrite mmul_assoc. reflexivity.
Qed.

Variables W : mat K.
Definition gr (j : Z) : mat K := refl_prod (ib j) (gv j) (gtau j) (Z.to_nat (jb j)).
Hypothesis HW : forall x, (0 <= x < ng)%Z -> meq (ib (x * g)) (ib (x * g)) (gr (x * g)) (msub ident (mmul (jb (x * g)) (sub (x * g) (x * g) W) (adj (gv (x * g))))).
(** what the application of all groups is to do *)
Definition apply_spec (l : list Z) (e : mat K) : mat K := fold_left (fun e j => win (j + 1) (ib j) (gr j) e) l e.

Lemma group_in : forall j, In j (rev (group_cols k g)) -> exists x, (0 <= x < ng)%Z /\ j = (x * g)%Z.
Proof using. intros j I0. apply in_rev in I0. unfold group_cols in I0. apply in_map_iff in I0 as (x & <- & I0). apply in_zrange in I0. eauto. Qed.

Lemma single_spec : forall cols w2 e, (rows < b)%Z -> forall p q, (0 <= q < cols)%Z ->
  snd (apply_single kn rows k g cols V W w2 e) p q = apply_spec (rev (group_cols k g)) e p q.
Proof using Hb Hk Hg HV KO LO HW.
  intros cols w2 e SB. unfold apply_single, apply_spec. assert (IN := group_in). revert IN w2 e. generalize (rev (group_cols k g)). induction l as [|j l IH]; intros IN w2 e p q Lq; [reflexivity|].
  cbn [fold_left]. cbv zeta. destruct (IN j (or_introl eq_refl)) as (x & Lx & ->). set (j := (x * g)%Z) in *. assert (B := group_bounds x Lx). fold j in B.
  assert (IB : ib j = (rows - j)%Z) by (unfold group_ib; nia).
  rewrite IH by (first [intros; apply IN; right; assumption | exact Lq]). clear IH.
  set (e1 := paste (j + 1) 0 (rows - j) cols e _). set (e2 := win (j + 1) (ib j) (gr j) e).
  assert (EE : forall p, e1 p q = e2 p q).
  { clear p. intros p. unfold e1, e2. destruct (Z.le_gt_cases (j + 1) p) as [P1|P1]; [destruct (Z.lt_ge_cases p (j + 1 + ib j)) as [P2|P2]|].
    - rewrite paste_in by lia. rewrite (gemm_ok kn KO) by lia. rewrite (win_update _ _ (jb j) _ (gv j) (sub j j W)) by (first [lia | apply HW; exact Lx]).
      unfold mmul at 1. unfold opm at 1 2. replace (sub (j + 1) 0 e (p - (j + 1))%Z (q - 0)%Z) with (e p q) by (unfold sub; f_equal; lia).
      rewrite (Ring_theory.Rmul_1_l (fring K)).
      rewrite (fsum_ext 0 (jb j) _ (fun r => sub j j W (p - (j + 1))%Z r * fsum 0 (ib j) (fun a => fconj (gv j a r) * e (j + 1 + a)%Z q))); [ring|].
      intros r Lr. f_equal. rewrite paste_in by lia. rewrite (gemm_ok kn KO) by lia. unfold mmul, opm. rewrite IB. replace (r - 0)%Z with r by lia. rewrite (Ring_theory.Rmul_1_l (fring K)).
      rewrite (fsum_ext 0 (rows - j) _ (fun a => fconj (gv j a r) * e (j + 1 + a)%Z q)); [ring|]. intros a _. unfold gv. f_equal. unfold sub. f_equal; lia.
    - rewrite paste_out by lia. unfold win. replace ((j + 1 <=? p) && (p <? j + 1 + ib j))%Z with false by lia. reflexivity.
    - rewrite paste_out by lia. unfold win. replace ((j + 1 <=? p) && (p <? j + 1 + ib j))%Z with false by lia. reflexivity. }
  assert (FE : forall l e1 e2, (forall j, In j l -> exists x, (0 <= x < ng)%Z /\ j = (x * g)%Z) -> (forall p, e1 p q = e2 p q) -> forall p,
    fold_left (fun e j => win (j + 1) (ib j) (gr j) e) l e1 p q = fold_left (fun e j => win (j + 1) (ib j) (gr j) e) l e2 p q).
  { clear. induction l as [|j l IH]; intros e1 e2 IN E p; [apply E|]. cbn [fold_left]. apply IH; [intros; apply IN; right; assumption|].
    intros p'. destruct (Z.le_gt_cases 0 (ib j)) as [L|L].
    - apply win_ext; [exact L|intros; apply E|intros; apply E].
    - unfold win. destruct ((j + 1 <=? p') && (p' <? j + 1 + ib j))%Z eqn:C; [lia|apply E]. }
  apply FE; [intros; apply IN; right; assumption|exact EE].
Qed.

(** two tiles, one above the other *)
Definition stack2 (top : Z) (et eb : mat K) : mat K := fun p q => if (p <? top)%Z then et p q else eb (p - top)%Z q.
Lemma double_spec : forall bot cols w2 et eb, (0 < bot <= b)%Z -> (rows = b + bot - 1)%Z -> (k <= b)%Z -> forall p q, (0 <= p < b + bot)%Z -> (0 <= q < cols)%Z ->
  let r := apply_double kn b bot k g cols V W w2 et eb in
  stack2 b (snd (fst r)) (snd r) p q = apply_spec (rev (group_cols k g)) (stack2 b et eb) p q.
Proof using Hb Hk Hg HV KO LO HW.
  intros bot cols w2 et eb Lbot ER Kb. unfold apply_double, apply_spec. assert (IN := group_in). revert IN w2 et eb. generalize (rev (group_cols k g)).
  induction l as [|j l IH]; intros IN w2 et eb p q Lp Lq; [reflexivity|].
  cbn [fold_left]. cbv zeta. destruct (IN j (or_introl eq_refl)) as (x & Lx & ->). set (j := (x * g)%Z) in *. assert (B := group_bounds x Lx). fold j in B.
  assert (IB : ib j = (b - (j + 1) + Z.min bot (j + jb j))%Z) by (unfold group_ib; lia).
  cbv zeta in IH. rewrite IH by (first [intros; apply IN; right; assumption | exact Lq | exact Lp]). clear IH.
  set (e0 := stack2 b et eb).
  match goal with |- fold_left ?F l (stack2 b ?X ?Y) p q = _ => set (et' := X); set (eb' := Y) end. set (e2 := win (j + 1) (ib j) (gr j) e0).
  set (wa := paste 0 0 (jb j) cols w2 (gemm kn ConjTrans NoTrans (jb j) cols (b - (j + 1)) 1 (sub j j V) (sub (j + 1) 0 et) 0 w2)) in *.
  set (wb := paste 0 0 (jb j) cols wa (gemm kn ConjTrans NoTrans (jb j) cols (Z.min bot (j + jb j)) 1 (sub (b - 1) j V) eb 1 wa)) in *.
  assert (EW : forall r, (0 <= r < jb j)%Z -> wb r q = fsum 0 (ib j) (fun a => fconj (gv j a r) * e0 (j + 1 + a)%Z q)).
  { intros r Lr. unfold wb. rewrite paste_in by lia. rewrite (gemm_ok kn KO) by lia. unfold wa. rewrite paste_in by lia. rewrite (gemm_ok kn KO) by lia. unfold mmul, opm.
    replace (r - 0 - 0)%Z with r by lia. replace (r - 0)%Z with r by lia. replace (q - 0 - 0)%Z with q by lia. replace (q - 0)%Z with q by lia.
    rewrite IB. rewrite (fsum_app 0 (b - (j + 1)) (b - (j + 1) + Z.min bot (j + jb j))) by lia.
    rewrite (fsum_ext 0 (b - (j + 1)) (fun a => fconj (gv j a r) * e0 (j + 1 + a)%Z q) (fun a => fconj (sub j j V a r) * sub (j + 1) 0 et a q)).
    2:{ intros a La. unfold gv. f_equal. unfold e0, stack2, sub. replace (j + 1 + a <? b)%Z with true by lia. f_equal; lia. }
    replace (fsum (b - (j + 1)) (b - (j + 1) + Z.min bot (j + jb j)) (fun a => fconj (gv j a r) * e0 (j + 1 + a)%Z q)) with
      (fsum 0 (Z.min bot (j + jb j)) (fun a => fconj (sub (b - 1) j V a r) * eb a q)); [ring|].
    replace (fsum (b - (j + 1)) (b - (j + 1) + Z.min bot (j + jb j)) (fun a => fconj (gv j a r) * e0 (j + 1 + a)%Z q)) with
      (fsum (0 + (b - (j + 1))) (Z.min bot (j + jb j) + (b - (j + 1))) (fun a => fconj (gv j a r) * e0 (j + 1 + a)%Z q)) by (f_equal; lia).
    rewrite fsum_shift. apply fsum_ext. intros a La. unfold e0, stack2. replace (j + 1 + (a + (b - (j + 1))) <? b)%Z with false by lia. unfold gv, sub. f_equal; [f_equal|]; f_equal; lia. }
  assert (EE : forall p, (0 <= p < b + bot)%Z -> stack2 b et' eb' p q = e2 p q).
  { clear p Lp. intros p Lp. unfold e2. destruct (Z.le_gt_cases (j + 1) p) as [P1|P1]; [destruct (Z.lt_ge_cases p (j + 1 + ib j)) as [P2|P2]|].
    - rewrite (win_update _ _ (jb j) _ (gv j) (sub j j W)) by (first [lia | apply HW; exact Lx]).
      unfold stack2. destruct (Z.ltb_spec p b) as [TB|TB].
      + unfold et'. rewrite paste_in by lia. rewrite (gemm_ok kn KO) by lia. unfold mmul at 1. unfold opm at 1 2. replace (sub (j + 1) 0 et (p - (j + 1))%Z (q - 0)%Z) with (et p q) by (unfold sub; f_equal; lia). replace (q - 0)%Z with q by lia.
        replace (e0 p q) with (et p q) by (unfold e0, stack2; replace (p <? b)%Z with true by lia; reflexivity).
        rewrite (fsum_ext 0 (jb j) _ (fun r => sub j j W (p - (j + 1))%Z r * fsum 0 (ib j) (fun a => fconj (gv j a r) * e0 (j + 1 + a)%Z q))); [ring|].
        intros r Lr. f_equal. apply EW. exact Lr.
      + unfold eb'. rewrite paste_in by lia. rewrite (gemm_ok kn KO) by lia. unfold mmul at 1. unfold opm at 1 2.
        replace (p - b - 0)%Z with (p - b)%Z by lia. replace (q - 0)%Z with q by lia.
        replace (e0 p q) with (eb (p - b)%Z q) by (unfold e0, stack2; replace (p <? b)%Z with false by lia; reflexivity).
        rewrite (fsum_ext 0 (jb j) _ (fun r => sub j j W (p - (j + 1))%Z r * fsum 0 (ib j) (fun a => fconj (gv j a r) * e0 (j + 1 + a)%Z q))); [ring|].
        intros r Lr. f_equal; [unfold sub; f_equal; lia|]. apply EW. exact Lr.
    - unfold win. replace ((j + 1 <=? p) && (p <? j + 1 + ib j))%Z with false by lia. unfold e0, stack2. destruct (Z.ltb_spec p b); [unfold et'|unfold eb']; rewrite paste_out by lia; reflexivity.
    - unfold win. replace ((j + 1 <=? p) && (p <? j + 1 + ib j))%Z with false by lia. unfold e0, stack2. destruct (Z.ltb_spec p b); [unfold et'|unfold eb']; rewrite paste_out by lia; reflexivity. }
  assert (FE : forall l e1 e2, (forall j, In j l -> exists x, (0 <= x < ng)%Z /\ j = (x * g)%Z) -> (forall p, (0 <= p < b + bot)%Z -> e1 p q = e2 p q) -> forall p, (0 <= p < b + bot)%Z ->
    fold_left (fun e j => win (j + 1) (ib j) (gr j) e) l e1 p q = fold_left (fun e j => win (j + 1) (ib j) (gr j) e) l e2 p q).
  { clear - Hb Hk Hg ER. induction l as [|j l IH]; intros e1 e2 IN E p Lp; [apply E; exact Lp|]. cbn [fold_left]. apply IH; [intros; apply IN; right; assumption| |exact Lp].
    intros p' Lp'. destruct (IN j (or_introl eq_refl)) as (x & Lx & ->). assert (B := group_bounds x Lx). apply win_ext; [lia|intros; apply E; lia|intros; apply E; lia]. }
  apply FE; [intros; apply IN; right; assumption|exact EE|exact Lp].
Qed.
End tile.
