(** * The distributed triangular solver and multiplication: tools, and what one iteration does. *)
From Coq Require Import ZArith Lia List Bool Permutation.
From Verif Require Import CInt Loop StarField DenseSpec Tiling DenseJobs TileJobs DistModel DistSpec DistBuilt DistThms DistMachine DistGrid PanelModel PanelProofs DistSim DistLocal TriangularModel TriangularProofs DistTriModel.
Import ListNotations.
Local Open Scope Z_scope.

Lemma dloop_in : forall up lo hi k, In k (dloop up lo hi) <-> lo <= k < hi.
Proof. intros [] lo hi k; unfold dloop; [|rewrite <- in_rev]; apply in_zrange. Qed.
Lemma dloop_nodup : forall up lo hi, NoDup (dloop up lo hi).
Proof. intros [] lo hi; unfold dloop; [|apply NoDup_rev]; apply zrange_NoDup. Qed.
Lemma filter_rev : forall {A} (f : A -> bool) l, filter f (rev l) = rev (filter f l).
Proof.
  intros A f l. induction l as [|x l IH]; [reflexivity|]. cbn [rev filter]. rewrite filter_app, IH. cbn [filter]. destruct (f x); cbn [rev]; [reflexivity|apply app_nil_r].
Qed.
Lemma filter_nodup : forall {A} (f : A -> bool) l, NoDup l -> NoDup (filter f l).
Proof. intros A f l H. apply NoDup_filter. exact H. Qed.
Lemma prod_flat : forall {A B C} (f : A -> B -> C) (is : list A) (js : list B), flat_map (fun i => flat_map (fun j => [f i j]) js) is = flat_map (fun x => [f (fst x) (snd x)]) (list_prod is js).
Proof.
  intros A B C f is js. induction is as [|i is IH]; [reflexivity|]. cbn [flat_map list_prod]. rewrite flat_map_app, <- IH. f_equal. rewrite flat_map_map. reflexivity.
Qed.
Lemma prod_nodup : forall {A B} (is : list A) (js : list B), NoDup is -> NoDup js -> NoDup (list_prod is js).
Proof.
  intros A B is js H1 H2. induction H1 as [|i is N H1 IH]; [constructor|]. cbn. apply nodup_app; [|exact IH|].
  - apply FinFun.Injective_map_NoDup; [|exact H2]. intros a b E. injection E; auto.
  - intros [a b] I1 I2. apply in_map_iff in I1 as (c & E & _). injection E as <- <-. apply in_prod_iff in I2 as [I2 _]. contradiction.
Qed.
Lemma fold_set : forall (g : Z -> Z) (h : Z -> tid) ls p,
  let res := fold_left (fun p l => set_tile p (g l) (h (g l))) ls p in
  p_id res = p_id p /\ p_lo res = p_lo p /\ p_hi res = p_hi p /\
  forall i, p_ext res i = if existsb (Z.eqb i) (map g ls) then Some (h i) else p_ext p i.
Proof.
  intros g h ls. induction ls as [|x ls IH]; intros p; cbn [fold_left map existsb]; [auto|]. destruct (IH (set_tile p (g x) (h (g x)))) as (A & B & C & E). cbv zeta in *.
  rewrite A, B, C. repeat split; try reflexivity. intros i. rewrite E. cbn [set_tile p_ext]. destruct (Z.eqb_spec i (g x)) as [->|N]; cbn [orb]; [destruct (existsb _ _); reflexivity|reflexivity].
Qed.
Lemma existsb_in : forall i l, existsb (Z.eqb i) l = true <-> In i l.
Proof. intros i l. rewrite existsb_exists. split; [intros (y & Iy & E); apply Z.eqb_eq in E; subst; exact Iy|]. intros H. exists i. split; [exact H|apply Z.eqb_refl]. Qed.

(** ** The phases *)
Section each.
Context {V : Type}.
Variables P Q : Z.
Hypothesis HP : 0 < P.
Hypothesis HQ : 0 < Q.
Notation ranks := (ranks P Q).
Notation mem := (members P Q).
Lemma phase_each : forall {X} (xs : Z -> list X) (job : Z -> X -> tjob V) st,
  (forall r, In r ranks -> NoDup (xs r)) ->
  (forall r x t, In r ranks -> In x (xs r) -> In t (tj_in (job r x)) \/ t = tj_out (job r x) -> t_rank t = r) ->
  (forall r a b, In r ranks -> In a (xs r) -> In b (xs r) -> tj_out (job r a) = tj_out (job r b) -> a = b) ->
  (forall r a b, In r ranks -> In a (xs r) -> In b (xs r) -> ~ In (tj_out (job r b)) (tj_in (job r a))) ->
  let jobs r := flat_map (fun x => [job r x]) (xs r) in
  (forall r, In r ranks -> own_tiles r (jobs r)) /\
  (forall r x, In r ranks -> In x (xs r) -> erun mem (elocal P Q jobs) st (tj_out (job r x)) = tval (job r x) st) /\
  (forall y, (forall r x, In r ranks -> In x (xs r) -> tj_out (job r x) <> y) -> erun mem (elocal P Q jobs) st y = st y).
Proof.
  intros X xs job st ND OW INJ IND. cbv zeta.
  assert (O : forall r, In r ranks -> own_tiles r (flat_map (fun x => [job r x]) (xs r))).
  { intros r R. apply own_flat. intros x Ix. apply own_one. intros t. apply OW; assumption. }
  split; [exact O|]. split.
  - intros r x R Ix. rewrite (elocal_at P Q HP HQ _ st _ r O R) by (apply (OW r x); auto). destruct (run_each_in (xs r) (job r) st (ND r R)) as [A _]; [intros; eapply INJ; eauto|intros; eapply IND; eauto|]. apply A. exact Ix.
  - intros y N. apply (elocal_frame P Q HP HQ _ st y O). intros r j R Ij. apply in_flat_map in Ij as (x & Ix & [<-|[]]). apply N; assumption.
Qed.
End each.

(** ** Sums *)
Section sums.
Context {K : starfield}.
Local Open Scope sf_scope.
Add Ring KringDT0 : (fring K).
Definition gsum {X} (l : list X) (f : X -> F K) : F K := fold_right (fun x a => f x + a) 0 l.
Lemma gsum_app : forall {X} (a b : list X) f, gsum (a ++ b) f = gsum a f + gsum b f.
Proof. intros X a b f. unfold gsum. induction a as [|x a IH]; cbn [app fold_right]; [|rewrite IH]; ring. Qed.
Lemma gsum_map : forall {X Y} (g : X -> Y) (l : list X) f, gsum (map g l) f = gsum l (fun x => f (g x)).
Proof. intros X Y g l f. unfold gsum. induction l as [|x l IH]; cbn [map fold_right]; [|rewrite IH]; reflexivity. Qed.
Lemma gsum_0 : forall {X} (l : list X) f, (forall x, In x l -> f x = 0) -> gsum l f = 0.
Proof. intros X l f H. unfold gsum. induction l as [|x l IH]; cbn [fold_right]; [reflexivity|]. rewrite IH, H by (try (left; reflexivity); intros; apply H; right; assumption). ring. Qed.
Lemma gsum_ext : forall {X} (l : list X) f g, (forall x, In x l -> f x = g x) -> gsum l f = gsum l g.
Proof. intros X l f g H. unfold gsum. induction l as [|x l IH]; cbn [fold_right]; [reflexivity|]. rewrite IH, H by (try (left; reflexivity); intros; apply H; right; assumption). reflexivity. Qed.
(** one index of a list without repetitions *)
Lemma gsum_single : forall (l : list Z) j v, NoDup l -> In j l -> gsum l (fun x => if (x =? j)%Z then v else 0) = v.
Proof.
  intros l j v ND I0. induction l as [|x l IH]; [destruct I0|]. inversion ND as [|? ? N1 N2]; subst. unfold gsum. cbn [fold_right]. fold (gsum l (fun x => if (x =? j)%Z then v else 0)).
  destruct (Z.eqb_spec x j) as [->|N].
  - rewrite gsum_0; [ring|]. intros y Iy. destruct (Z.eqb_spec y j) as [->|]; [contradiction|reflexivity].
  - destruct I0 as [->|I0]; [contradiction|]. rewrite IH by assumption. ring.
Qed.
Lemma gsum_left : forall (is js : list Z) j (dl : Z -> F K), NoDup js -> In j js ->
  gsum (flat_map (fun j' => map (fun i => (i, j')) is) js) (fun x => if (snd x =? j)%Z then dl (fst x) else 0) = lsum is dl.
Proof.
  intros is js j dl ND I0. induction js as [|j' js IH]; [destruct I0|]. inversion ND as [|? ? N1 N2]; subst. cbn [flat_map]. rewrite gsum_app, gsum_map. cbn [fst snd].
  destruct (Z.eqb_spec j' j) as [->|N].
  - rewrite (gsum_0 (flat_map _ _)).
    + change (gsum is (fun x => dl x)) with (lsum is dl). ring.
    + intros [a b] Ix. cbn [fst snd]. apply in_flat_map in Ix as (j2 & Ij2 & Ix). apply in_map_iff in Ix as (i2 & E & _). injection E as <- <-. destruct (Z.eqb_spec j2 j) as [->|]; [contradiction|reflexivity].
  - destruct I0 as [->|I0]; [contradiction|]. rewrite IH by assumption. rewrite (gsum_0 is) by reflexivity. ring.
Qed.
Lemma gsum_right : forall (is js : list Z) j (dl : Z -> F K), NoDup js -> In j js ->
  gsum (flat_map (fun i => map (fun j' => (i, j')) js) is) (fun x => if (snd x =? j)%Z then dl (fst x) else 0) = lsum is dl.
Proof.
  intros is js j dl ND I0. induction is as [|i is IH]; [reflexivity|]. cbn [flat_map]. rewrite gsum_app, gsum_map. cbn [fst snd]. rewrite gsum_single by assumption. rewrite IH. reflexivity.
Qed.
(** indices, by owner *)
Lemma lsum_owner : forall (f : Z -> Z) n l (dl : Z -> F K), (forall i, In i l -> (0 <= f i < n)%Z) ->
  lsum (zrange 0 n) (fun x => lsum (filter (fun i => (f i =? x)%Z) l) dl) = lsum l dl.
Proof.
  intros f n l dl H. induction l as [|i l IH].
  - cbn [filter]. apply lsum_0. reflexivity.
  - cbn [filter]. rewrite (lsum_ext (zrange 0 n) _ (fun x => (if (x =? f i)%Z then dl i else 0) + lsum (filter (fun i => (f i =? x)%Z) l) dl)).
    + assert (S : forall L (g h : Z -> F K), lsum L (fun x => g x + h x) = lsum L g + lsum L h).
      { clear. intros L g h. unfold lsum. induction L as [|x L IH]; cbn [fold_right]; [|rewrite IH]; ring. }
      rewrite S, IH by (intros; apply H; right; assumption). change (lsum (zrange 0 n) (fun x => if (x =? f i)%Z then dl i else 0)) with (gsum (zrange 0 n) (fun x => if (x =? f i)%Z then dl i else 0)).
      rewrite gsum_single; [reflexivity|apply zrange_NoDup|apply in_zrange; apply H; left; reflexivity].
    + intros x _. rewrite (Z.eqb_sym x). destruct (f i =? x)%Z; [reflexivity|]. ring.
Qed.
Lemma lsum_scale : forall c l (f : Z -> F K), lsum l (fun x => c * f x) = c * lsum l f.
Proof. intros c l f. unfold lsum. induction l as [|x l IH]; cbn [fold_right]; [|rewrite IH]; ring. Qed.
(** tasks that add to tiles *)
Lemma acc_run : forall {X} (job : X -> tjob (mat K)) (L : list X) (st0 : tstore (mat K)) (y : tid) (val : mat K -> F K) (dl : X -> F K),
  (forall x, In x L -> tj_out (job x) = y -> forall st : tstore (mat K), (forall t, (forall x', In x' L -> tj_out (job x') <> t) -> st t = st0 t) -> val (tval (job x) st) = val (st y) + dl x) ->
  val (trun (map job L) st0 y) = val (st0 y) + gsum L (fun x => if tid_eqb (tj_out (job x)) y then dl x else 0).
Proof.
  intros X job L st0 y val dl H.
  assert (G : forall l, incl l L -> forall st : tstore (mat K), (forall t, (forall x', In x' L -> tj_out (job x') <> t) -> st t = st0 t) ->
    val (trun (map job l) st y) = val (st y) + gsum l (fun x => if tid_eqb (tj_out (job x)) y then dl x else 0)).
  { induction l as [|x l IH]; intros IL st S; cbn [map].
    - unfold gsum. cbn [fold_right]. change (trun [] st y) with (st y). ring.
    - assert (Ix : In x L) by (apply IL; left; reflexivity). rewrite trun_cons. unfold gsum. cbn [fold_right]. fold (gsum l (fun x => if tid_eqb (tj_out (job x)) y then dl x else 0)).
      rewrite IH; [|intros z Iz; apply IL; right; exact Iz|].
      + destruct (tid_eqb_spec (tj_out (job x)) y) as [E|E].
        * unfold texec. rewrite E, tset_eq. rewrite (H x Ix E st S). ring.
        * unfold texec. rewrite tset_neq by congruence. ring.
      + intros t N. unfold texec. rewrite tset_neq; [apply S; exact N|]. intros ->. apply (N x Ix). reflexivity. }
  apply G; [intros x I0; exact I0|]. reflexivity.
Qed.
End sums.

Section proofs.
Context {K : starfield} (kn : kernels K) (KO : kernels_ok kn).
Variables P Q : Z.
Variables LsA LsB : coord -> layout.
Variables DA DB : coord -> Z -> axis.
Variables ntA ntB : coord -> Z.
Hypothesis GAA : grid_axes P Q LsA DA ntA.
Hypothesis GAB : grid_axes P Q LsB DB ntB.
Variable s : side.
Lemma AT_rank : forall r i k, t_rank (AT s r i k) = r /\ t_mat (AT s r i k) = 0. Proof. intros. unfold AT. destruct s; auto. Qed.
Lemma BT_rank : forall r i k, t_rank (BT s r i k) = r /\ t_mat (BT s r i k) = 1. Proof. intros. unfold BT. destruct s; auto. Qed.
Lemma AT_inj : forall r i k r' i' k', AT s r i k = AT s r' i' k' -> r = r' /\ i = i' /\ k = k'.
Proof. intros r i k r' i' k'. unfold AT. destruct s; intros E; injection E; auto. Qed.
Lemma BT_inj : forall r i k r' i' k', BT s r i k = BT s r' i' k' -> r = r' /\ i = i' /\ k = k'.
Proof. intros r i k r' i' k'. unfold BT. destruct s; intros E; injection E; auto. Qed.
Variables ta tb : tiling.
Hypothesis OKa : tiling_ok ta.
Notation rc := (rcs s).
Notation oc := (other (rcs s)).
Hypothesis SH : forall p, 0 <= p < gs P Q rc -> DB rc p = DA rc p.
Hypothesis NTA : forall c, ntA c = tl_n ta.
Hypothesis NTB : ntB oc = tl_n tb.
Notation rks := (ranks P Q).
Notation mem := (members P Q).
Hypothesis SZA : forall r c k, In r rks -> 0 <= k < tl_n ta -> szt Q DA r c k = tl_sz ta k.
Hypothesis SZB : forall r k, In r rks -> 0 <= k < tl_n tb -> szt Q DB r oc k = tl_sz tb k.
Variable al : F K.
Add Ring KringDT1 : (fring K).
Let HP := ga_P _ _ _ _ _ GAA.
Let HQ := ga_Q _ _ _ _ _ GAA.
Notation N := (tl_n ta).
Notation M := (tl_n tb).
Notation co := (co Q).
(** owners along rc (the same for both matrices), along the other coordinate *)
Notation ow k := (tile_owner (LsA rc) k).
Notation oA k := (tile_owner (LsA oc) k).
Notation oB k := (tile_owner (LsB oc) k).
Definition wA (i k : Z) : Z := mk Q rc (ow i) (oA k).
Definition wB (i j : Z) : Z := mk Q rc (ow i) (oB j).

Lemma axB : forall r, In r rks -> ax Q DB r rc = ax Q DA r rc.
Proof. intros r R. unfold ax. apply SH. apply (rank_co _ _ _ _ _ GAA). exact R. Qed.
Lemma glB : forall r l, In r rks -> t_gl Q DB r rc l = t_gl Q DA r rc l.
Proof. intros r l R. unfold t_gl. rewrite axB by exact R. reflexivity. Qed.
Lemma locB : forall r l, In r rks -> t_loc Q DB r rc l = t_loc Q DA r rc l.
Proof. intros r l R. unfold t_loc. rewrite axB by exact R. reflexivity. Qed.
Lemma nxB : forall r l, In r rks -> t_nx Q DB r rc l = t_nx Q DA r rc l.
Proof. intros r l R. unfold t_nx. rewrite axB by exact R. reflexivity. Qed.
Lemma lntB : forall r, In r rks -> lnt Q DB r rc = lnt Q DA r rc.
Proof. intros r R. unfold lnt. rewrite axB by exact R. reflexivity. Qed.
Lemma sztB : forall r k, In r rks -> 0 <= k < N -> szt Q DB r rc k = tl_sz ta k.
Proof. intros r k R L. unfold szt. rewrite axB by exact R. apply SZA; assumption. Qed.
Lemma nta_N : forall r, In r rks -> nta Q DA r = N.
Proof. intros r R. unfold nta. rewrite (rank_nt _ _ _ _ _ GAA) by exact R. apply NTA. Qed.
Lemma ntB_M : forall r, In r rks -> ax_nr_tiles (ax Q DB r oc) = M.
Proof. intros r R. rewrite (rank_nt _ _ _ _ _ GAB) by exact R. exact NTB. Qed.
Lemma ownA : forall r c k, In r rks -> 0 <= k -> t_own Q DA r c k = tile_owner (LsA c) k.
Proof. intros. apply (t_own_eq _ _ _ _ _ GAA); assumption. Qed.
Lemma ow_range : forall k, 0 <= ow k < gs P Q rc. Proof using GAA. intros. apply (own_range _ _ _ _ _ GAA). Qed.
Lemma oA_range : forall k, 0 <= oA k < gs P Q oc. Proof using GAA. intros. apply (own_range _ _ _ _ _ GAA). Qed.
Lemma oB_range : forall k, 0 <= oB k < gs P Q oc. Proof using GAB. intros. apply (own_range _ _ _ _ _ GAB). Qed.
Lemma wA_in : forall i k, In (wA i k) rks. Proof using GAA. intros. apply (mk_rank _ _ _ _ _ GAA); [apply ow_range|apply oA_range]. Qed.
Lemma wB_in : forall i k, In (wB i k) rks. Proof using GAA GAB. intros. apply (mk_rank _ _ _ _ _ GAA); [apply ow_range|apply oB_range]. Qed.
Lemma wA_co : forall i k, co rc (wA i k) = ow i /\ co oc (wA i k) = oA k. Proof using GAA. intros. apply (co_mk P Q HP HQ); [apply ow_range|apply oA_range]. Qed.
Lemma wB_co : forall i k, co rc (wB i k) = ow i /\ co oc (wB i k) = oB k. Proof using GAA GAB. intros. apply (co_mk P Q HP HQ); [apply ow_range|apply oB_range]. Qed.
Lemma wB_r : forall r i j, In r rks -> ow i = co rc r -> oB j = co oc r -> wB i j = r.
Proof. intros r i j R A B. unfold wB. rewrite A, B. apply (mk_co P Q HP HQ). Qed.
Lemma wA_r : forall r i j, In r rks -> ow i = co rc r -> oA j = co oc r -> wA i j = r.
Proof. intros r i j R A B. unfold wA. rewrite A, B. apply (mk_co P Q HP HQ). Qed.
(** the owner of a tile of row k *)
Lemma gl_locA : forall r k, In r rks -> 0 <= k < N -> ow k = co rc r -> t_gl Q DA r rc (t_loc Q DA r rc k) = k.
Proof. intros r k R L O. apply (t_gl_loc _ _ _ _ _ GAA); [exact R|rewrite NTA; exact L|exact O]. Qed.
Lemma gl_nxA : forall r c k, In r rks -> 0 <= k < N -> tile_owner (LsA c) k = co c r -> t_gl Q DA r c (t_nx Q DA r c k) = k.
Proof.
  intros r c k R L O. apply (next_glob (LsA c) (co c r) (ax Q DA r c) (rank_models _ _ _ _ _ GAA r c R)); [rewrite (rank_nt _ _ _ _ _ GAA) by exact R; rewrite NTA; exact L|exact O].
Qed.

(** ** Loops over local tiles *)
Lemma nx_0 : forall D Ls nt r c, grid_axes P Q Ls D nt -> In r rks -> t_nx Q D r c 0 = 0.
Proof. intros D Ls nt r c G R. unfold t_nx. rewrite (T_next_local _ _ _ (rank_models _ _ _ _ _ G r c R)) by lia. reflexivity. Qed.
Lemma gl_loop : forall D Ls nt, grid_axes P Q Ls D nt -> forall up r c lo hi, In r rks -> 0 <= lo <= hi -> hi <= nt c ->
  map (t_gl Q D r c) (dloop up (t_nx Q D r c lo) (t_nx Q D r c hi)) = filter (fun i => tile_owner (Ls c) i =? co c r) (dloop up lo hi).
Proof.
  intros D Ls nt G up r c lo hi R L1 L2. destruct up; cbn [dloop].
  - apply (tiles_here P Q Ls D nt G); assumption.
  - rewrite map_rev, (tiles_here P Q Ls D nt G) by assumption. symmetry. apply filter_rev.
Qed.
Lemma end_A : forall r c, In r rks -> lnt Q DA r c = t_nx Q DA r c N.
Proof. intros r c R. unfold lnt. rewrite (loop_end _ _ _ _ _ GAA) by exact R. rewrite NTA. reflexivity. Qed.
Lemma end_B : forall r, In r rks -> lnt Q DB r oc = t_nx Q DB r oc M.
Proof. intros r R. unfold lnt. rewrite (loop_end _ _ _ _ _ GAB) by exact R. rewrite NTB. reflexivity. Qed.
Lemma N_pos : 0 <= N. Proof using OKa. apply OKa. Qed.
Lemma M_pos : 0 <= M.
Proof. rewrite <- NTB. assert (R : In (wB 0 0) rks) by (apply (mk_rank _ _ _ _ _ GAB); apply (own_range _ _ _ _ _ GAB) || apply (own_range _ _ _ _ _ GAA)). rewrite <- (rank_nt _ _ _ _ _ GAB (wB 0 0) oc R). apply (T_nt_nonneg _ _ _ (rank_models _ _ _ _ _ GAB _ oc R)). Qed.
(** the columns of mat_b on rank r *)
Definition jsB (up : bool) (r : Z) : list Z := filter (fun j => oB j =? co oc r) (dloop up 0 M).
Lemma loop_B : forall up r, In r rks -> map (t_gl Q DB r oc) (dloop up 0 (lnt Q DB r oc)) = jsB up r.
Proof.
  intros up r R. rewrite end_B by exact R. unfold jsB. rewrite <- (gl_loop DB LsB ntB GAB); [|exact R|pose proof M_pos; lia|rewrite NTB; lia]. rewrite (nx_0 DB LsB ntB r oc GAB R). reflexivity.
Qed.
Lemma jsB_in : forall up r j, In j (jsB up r) <-> 0 <= j < M /\ oB j = co oc r.
Proof. intros up r j. unfold jsB. rewrite filter_In, dloop_in, Z.eqb_eq. reflexivity. Qed.
Lemma jsB_nodup : forall up r, NoDup (jsB up r).
Proof. intros. apply filter_nodup, dloop_nodup. Qed.
(** rows of mat_a and mat_b on rank r *)
Definition isA (up : bool) (lo hi r : Z) : list Z := filter (fun i => ow i =? co rc r) (dloop up lo hi).
Lemma loop_A : forall up r lo hi, In r rks -> 0 <= lo <= hi -> hi <= N -> map (t_gl Q DA r rc) (dloop up (t_nx Q DA r rc lo) (t_nx Q DA r rc hi)) = isA up lo hi r.
Proof. intros up r lo hi R L1 L2. apply (gl_loop DA LsA ntA GAA); [exact R|exact L1|rewrite NTA; exact L2]. Qed.
Lemma isA_in : forall up lo hi r i, In i (isA up lo hi r) <-> lo <= i < hi /\ ow i = co rc r.
Proof. intros. unfold isA. rewrite filter_In, dloop_in, Z.eqb_eq. reflexivity. Qed.
Lemma isA_nodup : forall up lo hi r, NoDup (isA up lo hi r).
Proof. intros. apply filter_nodup, dloop_nodup. Qed.

(** ** The panels *)
(** tiles of mat_a linked in iteration k *)
Definition plo (up : bool) (k : Z) : Z := if up then k else 0.
Definition phi (up : bool) (k : Z) : Z := if up then N else k + 1.
Lemma idAB : forall k, (idA k = 2 \/ idA k = 3) /\ (idB k = 4 \/ idB k = 5).
Proof. intros k. unfold idA, idB. pose proof (Z.mod_pos_bound k 2). lia. Qed.
Lemma ap_props : forall up e r k, In r rks -> 0 <= k < N -> e = lnt Q DA r rc ->
  let ap := a_links Q DA s up e r k in
  p_id ap = idA k /\ p_lo ap = plo up k /\ p_hi ap = N /\
  forall i, p_ext ap i = if (oA k =? co oc r) && ((plo up k <=? i) && (i <? phi up k) && (ow i =? co rc r)) then Some (AT s r i k) else None.
Proof.
  intros up e r k R L ->. unfold a_links. cbv zeta. rewrite ownA by (try exact R; lia). rewrite nta_N by exact R.
  destruct (Z.eqb_spec (oA k) (co oc r)) as [O|O]; cbn [andb]; [|cbn; auto].
  set (ls := if up then dloop true (t_nx Q DA r rc k) (lnt Q DA r rc) else dloop false 0 (t_nx Q DA r rc (k + 1))).
  assert (E : map (t_gl Q DA r rc) ls = isA up (plo up k) (phi up k) r).
  { unfold ls, plo, phi. destruct up.
    - rewrite end_A by exact R. apply loop_A; [exact R|lia|lia].
    - rewrite <- loop_A by (try exact R; lia). rewrite (nx_0 DA LsA ntA r rc GAA R). reflexivity. }
  rewrite gl_nxA by (try assumption).
  destruct (fold_set (t_gl Q DA r rc) (fun i => AT s r i k) ls (fresh_panel (idA k) (if up then k else 0) N)) as (F1 & F2 & F3 & F4). cbv zeta in *.
  rewrite F1, F2, F3. cbn [fresh_panel p_id p_lo p_hi]. repeat split; try reflexivity. intros i. rewrite F4, E. cbn [fresh_panel p_ext].
  match goal with |- (if ?a then _ else _) = (if ?b then _ else _) => assert (X : a = b); [|rewrite X; reflexivity] end.
  apply eq_true_iff_eq. rewrite existsb_in, isA_in, !andb_true_iff, Z.leb_le, Z.ltb_lt, Z.eqb_eq. lia.
Qed.
Lemma bp_props : forall jup r k, In r rks -> 0 <= k < N ->
  let bp := b_links Q DA DB s jup r k in
  p_id bp = idB k /\ p_lo bp = 0 /\ p_hi bp = M /\
  forall j, p_ext bp j = if (ow k =? co rc r) && ((0 <=? j) && (j <? M) && (oB j =? co oc r)) then Some (BT s r k j) else None.
Proof.
  intros jup r k R L. unfold b_links. cbv zeta. rewrite ownA by (try exact R; lia). rewrite ntB_M by exact R.
  destruct (Z.eqb_spec (ow k) (co rc r)) as [O|O]; cbn [andb]; [|cbn; auto].
  rewrite locB, glB by exact R. rewrite gl_locA by assumption.
  destruct (fold_set (t_gl Q DB r oc) (fun j => BT s r k j) (dloop jup 0 (lnt Q DB r oc)) (fresh_panel (idB k) 0 M)) as (F1 & F2 & F3 & F4). cbv zeta in *.
  rewrite F1, F2, F3. cbn [fresh_panel p_id p_lo p_hi]. repeat split; try reflexivity. intros j. rewrite F4, loop_B by exact R. cbn [fresh_panel p_ext].
  match goal with |- (if ?a then _ else _) = (if ?b then _ else _) => assert (X : a = b); [|rewrite X; reflexivity] end.
  apply eq_true_iff_eq. rewrite existsb_in, jsB_in, !andb_true_iff, Z.leb_le, Z.ltb_lt, Z.eqb_eq. lia.
Qed.

(** ** The broadcasts *)
Section bcast_a.
Variables (up : bool) (e : Z -> Z) (k : Z).
Hypothesis Lk : 0 <= k < N.
Hypothesis He : forall r, In r rks -> e r = lnt Q DA r rc.
Definition apf (r : Z) : panel := a_links Q DA s up (e r) r k.
Definition eA : list (event (mat K)) := ebc1 P Q LsA rc (oA k) apf (idA k) (plo up k) N.
Lemma apf_id : forall r, In r rks -> p_id (apf r) = idA k /\ p_lo (apf r) = plo up k /\ p_hi (apf r) = N.
Proof. intros r R. destruct (ap_props up (e r) r k R Lk (He r R)) as (A & B & C & _). auto. Qed.
Lemma plo_rng : 0 <= plo up k <= N /\ N <= ntA rc. Proof using Lk NTA. rewrite NTA. unfold plo. destruct up; lia. Qed.
Lemma apf_tile : forall r i, In r rks -> plo up k <= i < phi up k -> ow i = co rc r -> p_tile r (apf r) i = if oA k =? co oc r then AT s r i k else Tid r (idA k) i 0.
Proof.
  intros r i R Li O. destruct (ap_props up (e r) r k R Lk (He r R)) as (A & _ & _ & E). cbv zeta in *. fold (apf r) in *. unfold p_tile, p_int. rewrite E, A.
  rewrite (proj2 (Z.leb_le (plo up k) i)), (proj2 (Z.ltb_lt i (phi up k))), O, Z.eqb_refl by lia. cbn [andb]. rewrite andb_true_r. destruct (_ =? _); reflexivity.
Qed.
Lemma apf_rank : forall r i, In r rks -> t_rank (p_tile r (apf r) i) = r /\ (t_mat (p_tile r (apf r) i) = 0 \/ t_mat (p_tile r (apf r) i) = idA k).
Proof.
  intros r i R. destruct (ap_props up (e r) r k R Lk (He r R)) as (A & _ & _ & E). cbv zeta in *. fold (apf r) in *. unfold p_tile, p_int. rewrite E, A.
  destruct (_ && _); [destruct (AT_rank r i k) as [-> ->]|cbn [t_rank t_mat]]; auto.
Qed.
Lemma apf_leaf : forall r i, In r rks -> co oc r <> oA k -> plo up k <= i < N -> ow i = co rc r -> p_ext (apf r) i = None.
Proof.
  intros r i R C Li O. destruct (ap_props up (e r) r k R Lk (He r R)) as (_ & _ & _ & E). cbv zeta in *. fold (apf r) in *. rewrite E. rewrite (proj2 (Z.eqb_neq (oA k) (co oc r))) by congruence. reflexivity.
Qed.
Lemma eA_proj : forall r, In r rks -> panel_broadcast P Q DA rc r (oA k) (apf r) = proj mem r eA.
Proof. apply (ebc1_proj P Q LsA DA ntA GAA rc (oA k)); [apply oA_range|apply apf_id|apply plo_rng]. Qed.
Lemma eA_ok : Forall (event_ok mem rks) eA.
Proof.
  apply (ebc1_ok P Q LsA DA ntA GAA rc (oA k)); [apply oA_range|]. intros r i R _ _ _. apply apf_rank. exact R.
Qed.
Lemma eA_run : forall st,
  (forall r i, In r rks -> plo up k <= i < phi up k -> ow i = co rc r -> erun mem eA st (p_tile r (apf r) i) = st (AT s (wA i k) i k)) /\
  (forall x, t_mat x <> idA k -> erun mem eA st x = st x).
Proof.
  intros st. destruct (ebc1_run P Q LsA DA ntA GAA rc (oA k) (oA_range k) apf (idA k) (plo up k) N apf_id plo_rng (fun r i R _ _ _ => proj1 (apf_rank r i R)) apf_leaf st) as [A B].
  { split.
    + intros r i R Li O. unfold eA. rewrite A; [|exact R|unfold phi in Li; destruct up; lia|exact O]. unfold psrc. change (mk Q rc (ow i) (oA k)) with (wA i k).
      rewrite apf_tile; [|apply wA_in|exact Li|symmetry; apply wA_co]. rewrite (proj2 (wA_co i k)), Z.eqb_refl. reflexivity.
    + intros x X. unfold eA. apply B. intros r i _ _ _ _ ->. apply X. reflexivity. }
Qed.
End bcast_a.

Section bcast_b.
Variables (jup : bool) (k : Z).
Hypothesis Lk : 0 <= k < N.
Definition bpf (r : Z) : panel := b_links Q DA DB s jup r k.
Definition eB : list (event (mat K)) := ebc1 P Q LsB oc (ow k) bpf (idB k) 0 M.
Lemma oth : other oc = rc. Proof. apply other_other. Qed.
Lemma ow_oth : 0 <= ow k < gs P Q (other oc). Proof. rewrite oth. apply ow_range. Qed.
Lemma bpf_id : forall r, In r rks -> p_id (bpf r) = idB k /\ p_lo (bpf r) = 0 /\ p_hi (bpf r) = M.
Proof. intros r R. destruct (bp_props jup r k R Lk) as (A & B & C & _). auto. Qed.
Lemma blo_rng : 0 <= 0 <= M /\ M <= ntB oc. Proof. pose proof M_pos. rewrite NTB. lia. Qed.
Lemma bpf_tile : forall r j, In r rks -> 0 <= j < M -> oB j = co oc r -> p_tile r (bpf r) j = if ow k =? co rc r then BT s r k j else Tid r (idB k) j 0.
Proof.
  intros r i R Li O. destruct (bp_props jup r k R Lk) as (A & _ & _ & E). cbv zeta in *. fold (bpf r) in *. unfold p_tile, p_int. rewrite E, A.
  rewrite (proj2 (Z.leb_le 0 i)), (proj2 (Z.ltb_lt i M)), O, Z.eqb_refl by lia. cbn [andb]. rewrite andb_true_r. destruct (_ =? _); reflexivity.
Qed.
Lemma bpf_rank : forall r j, In r rks -> t_rank (p_tile r (bpf r) j) = r.
Proof.
  intros r i R. destruct (bp_props jup r k R Lk) as (A & _ & _ & E). cbv zeta in *. fold (bpf r) in *. unfold p_tile, p_int. rewrite E, A.
  destruct (_ && _); [apply BT_rank|reflexivity].
Qed.
Lemma bpf_leaf : forall r j, In r rks -> co (other oc) r <> ow k -> 0 <= j < M -> oB j = co oc r -> p_ext (bpf r) j = None.
Proof.
  intros r i R C Li O. rewrite oth in C. destruct (bp_props jup r k R Lk) as (_ & _ & _ & E). cbv zeta in *. fold (bpf r) in *. rewrite E. rewrite (proj2 (Z.eqb_neq (ow k) (co rc r))) by congruence. reflexivity.
Qed.
Lemma eB_proj : forall r, In r rks -> panel_broadcast P Q DB oc r (ow k) (bpf r) = proj mem r eB.
Proof. apply (ebc1_proj P Q LsB DB ntB GAB oc (ow k)); [apply ow_oth|apply bpf_id|apply blo_rng]. Qed.
Lemma eB_ok : Forall (event_ok mem rks) eB.
Proof.
  apply (ebc1_ok P Q LsB DB ntB GAB oc (ow k)); [apply ow_oth|]. intros r i R _ _ _. apply bpf_rank. exact R.
Qed.
Lemma mk_oc : forall a b, mk Q oc a b = mk Q rc b a. Proof. intros. clear. unfold rcs. destruct s; reflexivity. Qed.
Lemma eB_run : forall st,
  (forall r j, In r rks -> 0 <= j < M -> oB j = co oc r -> erun mem eB st (p_tile r (bpf r) j) = st (BT s (wB k j) k j)) /\
  (forall x, t_mat x <> idB k -> erun mem eB st x = st x).
Proof.
  intros st. destruct (ebc1_run P Q LsB DB ntB GAB oc (ow k) ow_oth bpf (idB k) 0 M bpf_id blo_rng (fun r i R _ _ _ => bpf_rank r i R) bpf_leaf st) as [A B].
  split.
    + intros r i R Li O. unfold eB. rewrite A by assumption. unfold psrc. rewrite mk_oc. change (mk Q rc (ow k) (oB i)) with (wB k i).
      rewrite bpf_tile; [|apply wB_in|exact Li|symmetry; apply wB_co]. rewrite (proj1 (wB_co k i)), Z.eqb_refl. reflexivity.
    + intros x X. unfold eB. apply B. intros r i _ _ _ _ ->. apply X. reflexivity.
Qed.
End bcast_b.

(** ** Tasks *)
Lemma flat_map_local : forall {B} (f : Z -> B) (g : Z -> Z) l, flat_map (fun x => [f (g x)]) l = flat_map (fun y => [f y]) (map g l).
Proof. intros. symmetry. apply flat_map_map. Qed.
(** row k, one task per tile *)
Section row.
Variables (jup : bool) (job : Z -> Z -> tid -> tid -> tjob (mat K)) (ap : Z -> panel) (k : Z).
Hypothesis Lk : 0 <= k < N.
Hypothesis JIN : forall m n a b, tj_in (job m n a b) = [a].
Hypothesis JOUT : forall m n a b, tj_out (job m n a b) = b.
Hypothesis AR : forall r i, In r rks -> t_rank (p_tile r (ap r) i) = r /\ t_mat (p_tile r (ap r) i) <> 1.
Definition rjob (r j : Z) : tjob (mat K) := job (tl_sz ta k) (tl_sz tb j) (p_tile r (ap r) k) (BT s r k j).
Definition rjs (r : Z) : list Z := if ow k =? co rc r then jsB jup r else [].
Definition eR : list (event (mat K)) := elocal P Q (fun r => row_jobs Q DA DB s jup job (ap r) r k).
Lemma row_glob : forall r, In r rks -> row_jobs Q DA DB s jup job (ap r) r k = flat_map (fun j => [rjob r j]) (rjs r).
Proof.
  intros r R. unfold row_jobs, rjs. cbv zeta. rewrite ownA by (try exact R; lia). destruct (Z.eqb_spec (ow k) (co rc r)) as [O|O]; [|reflexivity].
  rewrite !glB, !locB by exact R. rewrite gl_locA by assumption. rewrite sztB by assumption.
  rewrite (flat_map_local (fun j => job (tl_sz ta k) (szt Q DB r oc j) (p_tile r (ap r) k) (BT s r k j))), loop_B by exact R.
  apply flat_map_ext_in. intros j Ij. apply jsB_in in Ij as [Lj _]. unfold rjob. rewrite SZB by assumption. reflexivity.
Qed.
Lemma rjs_in : forall r j, In j (rjs r) <-> 0 <= j < M /\ oB j = co oc r /\ ow k = co rc r.
Proof. intros r j. unfold rjs. destruct (Z.eqb_spec (ow k) (co rc r)) as [O|O]; [rewrite jsB_in; tauto|split; [intros []|tauto]]. Qed.
Lemma elocal_ext : forall f g : Z -> list (tjob (mat K)), (forall r, In r rks -> f r = g r) -> elocal P Q f = elocal P Q g.
Proof. intros f g E. unfold elocal. apply flat_map_ext_in. intros r R. rewrite E by exact R. reflexivity. Qed.
Lemma eR_props : forall st, Forall (event_ok mem rks) eR /\
  (forall j, 0 <= j < M -> erun mem eR st (BT s (wB k j) k j) = tval (rjob (wB k j) j) st) /\
  (forall x, (forall j, 0 <= j < M -> x <> BT s (wB k j) k j) -> erun mem eR st x = st x).
Proof.
  intros st. unfold eR. rewrite (elocal_ext _ (fun r => flat_map (fun j => [rjob r j]) (rjs r)) row_glob).
  destruct (phase_each P Q HP HQ rjs rjob st) as (A & B & C).
  - intros r R. unfold rjs. destruct (_ =? _); [apply jsB_nodup|constructor].
  - intros r j t R Ij. unfold rjob. rewrite JIN, JOUT. intros [[<-|[]]| ->]; [apply AR; exact R|apply BT_rank].
  - intros r a b R _ _. unfold rjob. rewrite !JOUT. intros E. apply BT_inj in E. tauto.
  - intros r a b R _ _. unfold rjob. rewrite JIN, JOUT. intros [E|[]]. apply (proj2 (AR r k R)). rewrite E. apply BT_rank.
  - split; [apply elocal_ok; exact A|]. split.
    + intros j Lj. specialize (B (wB k j) j (wB_in k j)). unfold rjob in B at 2. rewrite JOUT in B. apply B. apply rjs_in. destruct (wB_co k j) as [-> ->]. auto.
    + intros x X. apply C. intros r j R Ij. unfold rjob. rewrite JOUT. intros <-. apply rjs_in in Ij as (Lj & O1 & O2). apply (X j Lj). rewrite (wB_r r k j R O2 O1). reflexivity.
Qed.
Lemma eR_proj : forall r, In r rks -> map ALoc (row_jobs Q DA DB s jup job (ap r) r k) = proj mem r eR.
Proof. intros r R. unfold eR. rewrite (elocal_proj P Q HP HQ) by exact R. reflexivity. Qed.
End row.

(** updates *)
Section upd.
Variables (jup up : bool) (c : F K) (ls : Z -> list Z) (ap bp : Z -> panel) (k lo hi : Z).
Hypothesis Lk : 0 <= k < N.
Hypothesis LH : 0 <= lo /\ hi <= N.
Hypothesis NK : ~ lo <= k < hi.
Hypothesis LS : forall r, In r rks -> map (t_gl Q DA r rc) (ls r) = isA up lo hi r.
Hypothesis AR : forall r i, In r rks -> t_rank (p_tile r (ap r) i) = r /\ t_mat (p_tile r (ap r) i) <> 1.
Hypothesis BR : forall r j, In r rks -> In j (jsB jup r) -> t_rank (p_tile r (bp r) j) = r /\ (t_mat (p_tile r (bp r) j) <> 1 \/ p_tile r (bp r) j = BT s r k j).
Definition ujob (r : Z) (ij : Z * Z) : tjob (mat K) :=
  j_gemm kn s NoTrans c (tl_sz ta (fst ij)) (tl_sz tb (snd ij)) (tl_sz ta k) (p_tile r (ap r) (fst ij)) (p_tile r (bp r) (snd ij)) (BT s r (fst ij) (snd ij)).
Definition ujs (r : Z) : list (Z * Z) := list_prod (isA up lo hi r) (jsB jup r).
Definition eU : list (event (mat K)) := elocal P Q (fun r => upd_jobs kn Q DA DB s jup c (ls r) (ap r) (bp r) r k).
Lemma jg_out : forall o c m n k a b x, tj_out (j_gemm kn s o c m n k a b x) = x. Proof. intros. unfold j_gemm. clear. destruct s; reflexivity. Qed.
Lemma jg_in : forall o c m n k a b x y, In y (tj_in (j_gemm kn s o c m n k a b x)) -> y = a \/ y = b.
Proof. intros o c0 m n k0 a b x y. unfold j_gemm. clear. destruct s; cbn; intuition. Qed.
Lemma upd_glob : forall r, In r rks -> upd_jobs kn Q DA DB s jup c (ls r) (ap r) (bp r) r k = flat_map (fun ij => [ujob r ij]) (ujs r).
Proof.
  intros r R. unfold upd_jobs, ujs. rewrite <- (prod_flat (fun i j => ujob r (i, j))) || rewrite <- prod_flat. cbv zeta. rewrite <- LS by exact R. rewrite flat_map_map.
  apply flat_map_ext_in. intros li Ili. rewrite <- (loop_B jup r R). rewrite flat_map_map.
  assert (Ii : In (t_gl Q DA r rc li) (isA up lo hi r)) by (rewrite <- LS by exact R; apply in_map; exact Ili). apply isA_in in Ii as [Li _].
  apply flat_map_ext_in. intros lj Ilj. assert (Ij : In (t_gl Q DB r oc lj) (jsB jup r)) by (rewrite <- loop_B by exact R; apply in_map; exact Ilj). apply jsB_in in Ij as [Lj _].
  unfold ujob. cbn [fst snd]. rewrite glB by exact R. rewrite sztB, SZB, SZA by (try exact R; lia). reflexivity.
Qed.
Lemma eU_props : forall st, Forall (event_ok mem rks) eU /\
  (forall i j, lo <= i < hi -> 0 <= j < M -> erun mem eU st (BT s (wB i j) i j) = tval (ujob (wB i j) (i, j)) st) /\
  (forall x, (forall i j, lo <= i < hi -> 0 <= j < M -> x <> BT s (wB i j) i j) -> erun mem eU st x = st x).
Proof.
  intros st. unfold eU. rewrite (elocal_ext _ (fun r => flat_map (fun ij => [ujob r ij]) (ujs r)) upd_glob).
  destruct (phase_each P Q HP HQ ujs ujob st) as (A & B & C).
  - intros r R. apply prod_nodup; [apply isA_nodup|apply jsB_nodup].
  - intros r [i j] t R Ij. apply in_prod_iff in Ij as [Ii Ij]. unfold ujob. rewrite jg_out. intros [H| ->]; [|apply BT_rank]. apply jg_in in H as [->| ->]; [apply AR; exact R|apply BR; assumption].
  - intros r [i j] [i' j'] R _ _. unfold ujob. rewrite !jg_out. cbn [fst snd]. intros E. apply BT_inj in E as (_ & -> & ->). reflexivity.
  - intros r [i j] [i' j'] R Ij Ij'. apply in_prod_iff in Ij as [Ii Ij]. apply in_prod_iff in Ij' as [Ii' Ij']. unfold ujob. rewrite jg_out. cbn [fst snd]. intros E. apply jg_in in E as [E|E].
    + apply (proj2 (AR r i R)). rewrite <- E. apply BT_rank.
    + destruct (BR r j R Ij) as [_ [X|X]]; [apply X; rewrite <- E; apply BT_rank|]. rewrite X in E. apply BT_inj in E as (_ & -> & _). apply isA_in in Ii' as [Li' _]. contradiction.
  - split; [apply elocal_ok; exact A|]. split.
    + intros i j Li Lj. specialize (B (wB i j) (i, j) (wB_in i j)). unfold ujob in B at 2. rewrite jg_out in B. apply B. apply in_prod_iff. rewrite isA_in, jsB_in. destruct (wB_co i j) as [-> ->]. auto.
    + intros x X. apply C. intros r [i j] R Ij. unfold ujob. rewrite jg_out. cbn [fst snd]. intros <-. apply in_prod_iff in Ij as [Ii Ij]. apply isA_in in Ii as [Li O1]. apply jsB_in in Ij as [Lj O2].
      apply (X i j Li Lj). rewrite (wB_r r i j R O1 O2). reflexivity.
Qed.
Lemma eU_proj : forall r, In r rks -> map ALoc (upd_jobs kn Q DA DB s jup c (ls r) (ap r) (bp r) r k) = proj mem r eU.
Proof. intros r R. unfold eU. rewrite (elocal_proj P Q HP HQ) by exact R. reflexivity. Qed.
End upd.

(** ** The matrices, as if they were local *)
Definition abs (st : tstore (mat K)) : tstore (mat K) := fun x =>
  if negb (t_rank x =? 0) then (fun _ _ => f0) else
  let a := match s with Left => t_row x | Right => t_col x end in let b := match s with Left => t_col x | Right => t_row x end in
  if t_mat x =? 0 then st (AT s (wA a b) a b) else if t_mat x =? 1 then st (BT s (wB a b) a b) else (fun _ _ => f0).
(** tile of the local algorithm with index i along rc *)
Definition ax_ (i k : Z) : tid := match s with Left => A_ i k | Right => A_ k i end.
Lemma abs_A : forall st i k, abs st (ax_ i k) = st (AT s (wA i k) i k).
Proof. intros. unfold abs, ax_, A_. clear. destruct s; reflexivity. Qed.
Lemma abs_B : forall st i j, abs st (bx s i j) = st (BT s (wB i j) i j).
Proof. intros. unfold abs, bx, B_. clear. destruct s; reflexivity. Qed.
Lemma abs_frame : forall st st' x, (forall i k, st' (AT s (wA i k) i k) = st (AT s (wA i k) i k)) ->
  (forall i j, x = bx s i j -> st' (BT s (wB i j) i j) = st (BT s (wB i j) i j)) -> abs st' x = abs st x.
Proof.
  intros st st' x EA EB. unfold abs. destruct (Z.eqb_spec (t_rank x) 0) as [R|R]; cbn [negb]; [|reflexivity]. cbv zeta. rewrite EA.
  destruct (t_mat x =? 0); [reflexivity|]. destruct (Z.eqb_spec (t_mat x) 1) as [M1|M1]; [|reflexivity]. apply EB.
  destruct x as [xr xm xi xj]. cbn [t_rank t_mat t_row t_col] in *. subst xr xm. unfold bx, B_. clear. destruct s; reflexivity.
Qed.
Lemma abs_AA : forall st st', (forall i k, st' (AT s (wA i k) i k) = st (AT s (wA i k) i k)) -> forall a b, abs st' (A_ a b) = abs st (A_ a b).
Proof. intros st st' E a b. apply abs_frame; [exact E|]. intros i j X. symmetry in X. apply bx_a in X. destruct X. Qed.

(** ** One iteration, op = NoTrans *)
Section stepN.
Variables (u : uplo) (d : diag) (up : bool) (k : Z).
Hypothesis Lk : 0 <= k < N.
Let eN (r : Z) := lnt Q DA r rc.
Let He : forall r, In r rks -> eN r = lnt Q DA r rc. Proof. reflexivity. Qed.
Notation ap := (apf up eN k).
Definition ulo : Z := if up then k + 1 else 0.
Definition uhi : Z := if up then N else k.
Definition e_solveN : list (event (mat K)) :=
  eA up eN k ++ eR up (j_trsm kn al s u NoTrans d) ap k ++
  if k =? (if up then N - 1 else 0) then [] else
  eB up k ++ eU up (dbeta al) (fun r => if up then dloop true (t_nx Q DB r rc (k + 1)) (lnt Q DA r rc) else dloop false 0 (t_nx Q DB r rc k)) ap (bpf up k) k.
Lemma ap_ok : forall r i, In r rks -> t_rank (p_tile r (ap r) i) = r /\ t_mat (p_tile r (ap r) i) <> 1.
Proof. intros r i R. destruct (apf_rank up eN k Lk He r i R) as [A B]. split; [exact A|]. pose proof (idAB k). lia. Qed.
Lemma bp_ok : forall jup r j, In r rks -> In j (jsB jup r) -> t_rank (p_tile r (bpf jup k r) j) = r /\ (t_mat (p_tile r (bpf jup k r) j) <> 1 \/ p_tile r (bpf jup k r) j = BT s r k j).
Proof.
  intros jup r j R Ij. apply jsB_in in Ij as [Lj O]. split; [apply bpf_rank; assumption|]. rewrite bpf_tile by assumption. destruct (_ =? _); [right; reflexivity|left; cbn [t_mat]; pose proof (idAB k); lia].
Qed.
Lemma uls : forall r, In r rks -> map (t_gl Q DA r rc) (if up then dloop true (t_nx Q DA r rc (k + 1)) (lnt Q DA r rc) else dloop false 0 (t_nx Q DA r rc k)) = isA up ulo uhi r.
Proof.
  intros r R. unfold ulo, uhi. destruct up.
  - rewrite end_A by exact R. apply loop_A; [exact R|lia|lia].
  - rewrite <- loop_A by (try exact R; lia). rewrite (nx_0 DA LsA ntA r rc GAA R). reflexivity.
Qed.
Lemma uls' : forall r, In r rks -> map (t_gl Q DA r rc) (if up then dloop true (t_nx Q DB r rc (k + 1)) (lnt Q DA r rc) else dloop false 0 (t_nx Q DB r rc k)) = isA up ulo uhi r.
Proof. intros r R. rewrite !nxB by exact R. apply uls. exact R. Qed.
Lemma ulh : 0 <= ulo /\ uhi <= N. Proof. unfold ulo, uhi. destruct up; lia. Qed.
Lemma unk : ~ ulo <= k < uhi. Proof. unfold ulo, uhi. destruct up; lia. Qed.
Lemma jts_in : forall u o d m n a b, tj_in (j_trsm kn al s u o d m n a b) = [a]. Proof. intros. unfold j_trsm. clear. destruct s; reflexivity. Qed.
Lemma jts_out : forall u o d m n a b, tj_out (j_trsm kn al s u o d m n a b) = b. Proof. intros. unfold j_trsm. clear. destruct s; reflexivity. Qed.
Lemma jts_val : forall u o d m n (st st' : tstore (mat K)) a b a' b', st a = st' a' -> st b = st' b' ->
  tval (j_trsm kn al s u o d m n a b) st = tval (match s with Left => jtrsm kn Left u o d m n al a' b' | Right => jtrsm kn Right u o d n m al a' b' end) st'.
Proof. clear. intros u o d m n st st' a b a' b' EA EB. unfold j_trsm. destruct s; unfold tval; cbn [tj_fun tj_in tj_out jtrsm map in1]; rewrite EA, EB; reflexivity. Qed.
Lemma jtm_in : forall u o d m n a b, tj_in (j_trmm kn al s u o d m n a b) = [a]. Proof. intros. unfold j_trmm. clear. destruct s; reflexivity. Qed.
Lemma jtm_out : forall u o d m n a b, tj_out (j_trmm kn al s u o d m n a b) = b. Proof. intros. unfold j_trmm. clear. destruct s; reflexivity. Qed.
Lemma solveN_proj : forall r, In r rks -> solve_step_N kn P Q DA DB al s u d up r k = proj mem r e_solveN.
Proof.
  intros r R. unfold solve_step_N, e_solveN. cbv zeta. rewrite !(proj_app' P Q). rewrite !ownA by (try exact R; lia). rewrite nta_N by exact R.
  rewrite <- (eA_proj up eN k Lk He r R), <- eR_proj by exact R. unfold apf, eN. f_equal. f_equal.
  destruct (k =? _); [reflexivity|]. rewrite (proj_app' P Q). rewrite <- (eB_proj up k Lk r R), <- eU_proj by exact R. reflexivity.
Qed.
Lemma solveN_ok : Forall (event_ok mem rks) e_solveN.
Proof.
  unfold e_solveN. apply Forall_app. split; [apply eA_ok; assumption|]. apply Forall_app. split.
  - apply (eR_props up _ ap k Lk (jts_in u NoTrans d) (jts_out u NoTrans d) ap_ok (fun _ _ _ => f0)).
  - destruct (k =? _); [constructor|]. apply Forall_app. split; [apply eB_ok; assumption|].
    apply (eU_props up up _ _ ap (bpf up k) k ulo uhi Lk ulh unk uls' ap_ok (bp_ok up) (fun _ _ _ => f0)).
Qed.
(** the tasks do what the tasks of the local algorithm do *)
Lemma rjob_val : forall (st st' : tstore (mat K)) (o : op) j, 0 <= j < M ->
  (forall r, In r rks -> ow k = co rc r -> st (p_tile r (ap r) k) = st' (AT s (wA k k) k k)) -> (st (BT s (wB k j) k j) = abs st' (bx s k j)) ->
  tval (rjob (j_trsm kn al s u o d) ap k (wB k j) j) st = tval (g_ts kn s u o d al ta tb k j) (abs st') /\
  tval (rjob (j_trmm kn al s u o d) ap k (wB k j) j) st = tval (g_tm kn s u o d al ta tb k j) (abs st').
Proof.
  intros st st' o j Lj HA HB. assert (EA : st (p_tile (wB k j) (ap (wB k j)) k) = abs st' (A_ k k)).
  { rewrite (HA (wB k j)); [|apply wB_in|symmetry; apply wB_co]. rewrite <- abs_A. unfold ax_. clear. destruct s; reflexivity. }
  unfold rjob, g_ts, g_tm, j_trsm, j_trmm. revert EA HB. generalize (p_tile (wB k j) (ap (wB k j)) k) (BT s (wB k j) k j) (abs st') (bx s k j) (A_ k k). clear.
  intros a b st' b' a' EA HB. destruct s; split; unfold tval; cbn [tj_fun tj_in tj_out jtrsm jtrmm map in1]; rewrite EA, HB; reflexivity.
Qed.
Lemma ujob_val : forall (st st' : tstore (mat K)) (c : F K) (bp : Z -> panel) i j, 
  st (p_tile (wB i j) (ap (wB i j)) i) = st' (ax_ i k) -> st (p_tile (wB i j) (bp (wB i j)) j) = st' (bx s k j) -> st (BT s (wB i j) i j) = st' (bx s i j) ->
  tval (ujob c ap bp k (wB i j) (i, j)) st = tval (g_gm kn s NoTrans ta tb c i k j) st'.
Proof.
  intros st st' c bp i j. unfold ujob, g_gm, j_gemm, ax_, aix. cbn [fst snd]. generalize (p_tile (wB i j) (ap (wB i j)) i) (p_tile (wB i j) (bp (wB i j)) j) (BT s (wB i j) i j) (bx s k j) (bx s i j). clear.
  intros a b x b' x'. destruct s; intros EA EB EX; unfold tval; cbn [tj_fun tj_in tj_out jgemm map in2]; rewrite EA, EB, EX; reflexivity.
Qed.
Lemma rngA : forall i, i = k \/ ulo <= i < uhi -> plo up k <= i < phi up k.
Proof. intros i. unfold ulo, uhi, plo, phi. destruct up; lia. Qed.
Lemma solveN_run : forall aft st, (forall i, In i aft <-> ulo <= i < uhi) ->
  solve_step kn s u NoTrans d al ta tb (zrange 0 M) (dbeta al) k aft (abs st) (abs (erun mem e_solveN st)).
Proof.
  intros aft st AFT. pose proof (idAB k) as [IA IB]. unfold e_solveN. rewrite !erun_app.
  destruct (eA_run up eN k Lk He st) as [A1 A2]. set (s1 := erun mem (eA up eN k) st) in *.
  destruct (eR_props up (j_trsm kn al s u NoTrans d) ap k Lk (jts_in u NoTrans d) (jts_out u NoTrans d) ap_ok s1) as (_ & R1 & R2). set (s2 := erun mem (eR _ _ _ _) s1) in *.
  assert (BT1 : forall r i j, s1 (BT s r i j) = st (BT s r i j)) by (intros; apply A2; rewrite (proj2 (BT_rank _ _ _)); lia).
  assert (AT1 : forall r i j, s1 (AT s r i j) = st (AT s r i j)) by (intros; apply A2; rewrite (proj2 (AT_rank _ _ _)); lia).
  assert (AT2 : forall r i j, s2 (AT s r i j) = st (AT s r i j)).
  { intros. rewrite R2; [apply AT1|]. intros j' _ E. pose proof (proj2 (AT_rank r i j)) as X. rewrite E, (proj2 (BT_rank _ _ _)) in X. lia. }
  assert (RV : forall j, 0 <= j < M -> s2 (BT s (wB k j) k j) = tval (g_ts kn s u NoTrans d al ta tb k j) (abs st)).
  { intros j Lj. rewrite R1 by exact Lj. apply (rjob_val s1 st NoTrans j Lj).
    - intros r R O. apply A1; [exact R|apply rngA; auto|exact O].
    - rewrite BT1, abs_B. reflexivity. }
  assert (R2B : forall i j, i <> k \/ ~ 0 <= j < M -> s2 (BT s (wB i j) i j) = st (BT s (wB i j) i j)).
  { intros i j H. rewrite R2; [apply BT1|]. intros j' Lj' E. apply BT_inj in E as (_ & -> & ->). tauto. }
  match goal with |- solve_step _ _ _ _ _ _ _ _ _ _ _ _ _ (abs ?x) => set (s4 := x) end.
  assert (F : (forall i k', s4 (AT s (wA i k') i k') = st (AT s (wA i k') i k')) /\
    (forall j, 0 <= j < M -> s4 (BT s (wB k j) k j) = s2 (BT s (wB k j) k j)) /\
    (forall i j, ulo <= i < uhi -> 0 <= j < M -> s4 (BT s (wB i j) i j) = tval (g_gm kn s NoTrans ta tb (dbeta al) i k j) (tset (abs st) (bx s k j) (s2 (BT s (wB k j) k j)))) /\
    (forall i j, i <> k -> ~ (ulo <= i < uhi /\ 0 <= j < M) -> s4 (BT s (wB i j) i j) = st (BT s (wB i j) i j)) /\
    (forall j, ~ 0 <= j < M -> s4 (BT s (wB k j) k j) = st (BT s (wB k j) k j))).
  { unfold s4. destruct (Z.eqb_spec k (if up then N - 1 else 0)) as [E|E].
    - cbn [erun fold_left]. split; [intros; apply AT2|]. split; [reflexivity|]. split; [intros i j Li; unfold ulo, uhi in Li; destruct up; lia|].
      split; [intros i j Ni _; apply R2B; auto|intros j Nj; apply R2B; auto].
    - rewrite erun_app. destruct (eB_run up k Lk s2) as [B1 B2]. set (s3 := erun mem (eB up k) s2) in *.
      match goal with |- context [eU up ?c ?ls ap (bpf up k) k] => destruct (eU_props up up c ls ap (bpf up k) k ulo uhi Lk ulh unk uls' ap_ok (bp_ok up) s3) as (_ & U1 & U2) end.
      match goal with |- context [erun mem (eU ?a ?b ?c0 ?d0 ?e0 ?f0) s3] => set (s5 := erun mem (eU a b c0 d0 e0 f0) s3) in * end.
      assert (BT3 : forall r i j, s3 (BT s r i j) = s2 (BT s r i j)) by (intros; apply B2; rewrite (proj2 (BT_rank _ _ _)); lia).
      assert (U2' : forall x, t_mat x <> 1 -> s5 x = s3 x) by (intros x X; apply U2; intros i j _ _ ->; apply X; apply BT_rank).
      split; [|split; [|split; [|split]]].
      + intros i k'. rewrite U2' by (rewrite (proj2 (AT_rank _ _ _)); lia). rewrite B2 by (rewrite (proj2 (AT_rank _ _ _)); lia). apply AT2.
      + intros j Lj. rewrite U2; [apply BT3|]. intros i' j' Li' _ X. apply BT_inj in X as (_ & <- & _). apply unk. exact Li'.
      + intros i j Li Lj. rewrite U1 by assumption.
        assert (NIK : i <> k) by (intros ->; apply unk; exact Li).
        assert (TS : forall y v, y <> bx s k j -> tset (abs st) (bx s k j) v y = abs st y) by (intros; apply tset_neq; assumption).
        apply ujob_val.
        * rewrite TS by (unfold ax_; intros X; symmetry in X; revert X; clear; destruct s; apply bx_a). rewrite abs_A.
          destruct (apf_rank up eN k Lk He (wB i j) i (wB_in i j)) as [_ PM].
          rewrite B2 by lia. rewrite R2 by (intros j' _ X; rewrite X, (proj2 (BT_rank _ _ _)) in PM; lia).
          apply A1; [apply wB_in|apply rngA; auto|symmetry; apply wB_co].
        * rewrite tset_eq. apply B1; [apply wB_in|exact Lj|symmetry; apply wB_co].
        * rewrite TS by (intros X; apply bx_inj in X; tauto). rewrite abs_B, BT3. apply R2B. auto.
      + intros i j Ni Nij. rewrite U2; [rewrite BT3; apply R2B; auto|]. intros i' j' Li' Lj' X. apply BT_inj in X as (_ & -> & ->). tauto.
      + intros j Nj. rewrite U2; [rewrite BT3; apply R2B; auto|]. intros i' j' Li' Lj' X. apply BT_inj in X as (_ & -> & ->). tauto. }
  destruct F as (F1 & F2 & F3 & F4 & F5). split; [|split; [|split; [|split]]].
  - apply abs_AA. exact F1.
  - intros j Ij. apply in_zrange in Ij. rewrite abs_B, F2 by exact Ij. apply RV. exact Ij.
  - intros i j Ij Ii. apply in_zrange in Ij. apply AFT in Ii. rewrite !abs_B, F2 by exact Ij. apply F3; assumption.
  - intros i j Ni Nia. rewrite !abs_B. apply F4; [exact Ni|]. rewrite <- AFT. tauto.
  - intros x X. apply abs_frame; [exact F1|]. intros i j ->. destruct (Z.eq_dec i k) as [->|Ni].
    + destruct (Z_le_dec 0 j), (Z_lt_dec j M); try (apply F5; lia). exfalso. apply (X k j); [left; reflexivity|apply in_zrange; lia|reflexivity].
    + apply F4; [exact Ni|]. intros [Q1 Q2]. apply (X i j); [right; apply AFT; exact Q1|apply in_zrange; exact Q2|reflexivity].
Qed.

(** ** Multiplication *)
Variable jup : bool.
Definition e_multN : list (event (mat K)) :=
  eA up eN k ++ eB jup k ++
  eU jup al (fun r => if up then dloop true (t_nx Q DA r rc (k + 1)) (lnt Q DA r rc) else dloop false 0 (t_nx Q DA r rc k)) ap (bpf jup k) k ++
  eR jup (j_trmm kn al s u NoTrans d) ap k.
Lemma multN_proj : forall r, In r rks -> mult_step_N kn P Q DA DB al s u d up jup r k = proj mem r e_multN.
Proof.
  intros r R. unfold mult_step_N, e_multN. cbv zeta. rewrite !(proj_app' P Q). rewrite !ownA by (try exact R; lia).
  rewrite <- (eA_proj up eN k Lk He r R), <- (eB_proj jup k Lk r R), <- eU_proj, <- eR_proj by exact R. reflexivity.
Qed.
Lemma multN_ok : Forall (event_ok mem rks) e_multN.
Proof.
  unfold e_multN. apply Forall_app. split; [apply eA_ok; assumption|]. apply Forall_app. split; [apply eB_ok; assumption|]. apply Forall_app. split.
  - apply (eU_props jup up _ _ ap (bpf jup k) k ulo uhi Lk ulh unk uls ap_ok (bp_ok jup) (fun _ _ _ => f0)).
  - apply (eR_props jup _ ap k Lk (jtm_in u NoTrans d) (jtm_out u NoTrans d) ap_ok (fun _ _ _ => f0)).
Qed.
Lemma multN_run : forall aft st, (forall i, In i aft <-> ulo <= i < uhi) ->
  mult_step kn s u NoTrans d al ta tb (zrange 0 M) al k aft (abs st) (abs (erun mem e_multN st)).
Proof.
  intros aft st AFT. pose proof (idAB k) as [IA IB]. unfold e_multN. rewrite !erun_app.
  destruct (eA_run up eN k Lk He st) as [A1 A2]. set (s1 := erun mem (eA up eN k) st) in *.
  destruct (eB_run jup k Lk s1) as [B1 B2]. set (s2 := erun mem (eB jup k) s1) in *.
  match goal with |- context [eU jup ?c ?ls ap (bpf jup k) k] => destruct (eU_props jup up c ls ap (bpf jup k) k ulo uhi Lk ulh unk uls ap_ok (bp_ok jup) s2) as (_ & U1 & U2) end.
  match goal with |- context [erun mem (eU ?a ?b ?c0 ?d0 ?e0 ?f0) s2] => set (s3 := erun mem (eU a b c0 d0 e0 f0) s2) in * end.
  destruct (eR_props jup (j_trmm kn al s u NoTrans d) ap k Lk (jtm_in u NoTrans d) (jtm_out u NoTrans d) ap_ok s3) as (_ & R1 & R2). set (s4 := erun mem (eR _ _ _ _) s3) in *.
  assert (BT1 : forall r i j, s1 (BT s r i j) = st (BT s r i j)) by (intros; apply A2; rewrite (proj2 (BT_rank _ _ _)); lia).
  assert (BT2 : forall r i j, s2 (BT s r i j) = st (BT s r i j)) by (intros; rewrite B2; [apply BT1|rewrite (proj2 (BT_rank _ _ _)); lia]).
  assert (U2' : forall x, t_mat x <> 1 -> s3 x = s2 x) by (intros x X; apply U2; intros i j _ _ ->; apply X; apply BT_rank).
  assert (R2' : forall x, t_mat x <> 1 -> s4 x = s3 x) by (intros x X; apply R2; intros j _ ->; apply X; apply BT_rank).
  assert (F1 : forall i k', s4 (AT s (wA i k') i k') = st (AT s (wA i k') i k')).
  { intros i k'. rewrite R2', U2', B2, A2; try reflexivity; rewrite (proj2 (AT_rank _ _ _)); lia. }
  assert (AP2 : forall r i, In r rks -> plo up k <= i < phi up k -> ow i = co rc r -> s2 (p_tile r (ap r) i) = st (AT s (wA i k) i k)).
  { intros r i R Li O. destruct (apf_rank up eN k Lk He r i R) as [_ PM]. rewrite B2 by lia. apply A1; assumption. }
  assert (KU : forall j, s3 (BT s (wB k j) k j) = st (BT s (wB k j) k j)).
  { intros j. rewrite U2; [apply BT2|]. intros i' j' Li' _ X. apply BT_inj in X as (_ & <- & _). apply unk. exact Li'. }
  assert (F2 : forall j, 0 <= j < M -> s4 (BT s (wB k j) k j) = tval (g_tm kn s u NoTrans d al ta tb k j) (abs st)).
  { intros j Lj. rewrite R1 by exact Lj. apply (rjob_val s3 st NoTrans j Lj).
    - intros r R O. destruct (apf_rank up eN k Lk He r k R) as [_ PM]. rewrite U2' by lia. apply AP2; [exact R|apply rngA; auto|exact O].
    - rewrite KU, abs_B. reflexivity. }
  assert (F3 : forall i j, ulo <= i < uhi -> 0 <= j < M -> s4 (BT s (wB i j) i j) = tval (g_gm kn s NoTrans ta tb al i k j) (abs st)).
  { intros i j Li Lj. assert (NIK : i <> k) by (intros ->; apply unk; exact Li). rewrite R2; [|intros j' _ X; apply BT_inj in X as (_ & -> & _); congruence]. rewrite U1 by assumption. apply ujob_val.
    - rewrite abs_A. apply AP2; [apply wB_in|apply rngA; auto|symmetry; apply wB_co].
    - rewrite abs_B, <- BT1. apply B1; [apply wB_in|exact Lj|symmetry; apply wB_co].
    - rewrite abs_B. apply BT2. }
  assert (F4 : forall i j, i <> k -> ~ (ulo <= i < uhi /\ 0 <= j < M) -> s4 (BT s (wB i j) i j) = st (BT s (wB i j) i j)).
  { intros i j Ni Nij. rewrite R2; [|intros j' _ X; apply BT_inj in X as (_ & -> & _); congruence]. rewrite U2; [apply BT2|]. intros i' j' Li' Lj' X. apply BT_inj in X as (_ & -> & ->). tauto. }
  assert (F5 : forall j, ~ 0 <= j < M -> s4 (BT s (wB k j) k j) = st (BT s (wB k j) k j)).
  { intros j Nj. rewrite R2; [apply KU|]. intros j' Lj' X. apply BT_inj in X as (_ & _ & ->). tauto. }
  split; [|split; [|split; [|split]]].
  - apply abs_AA. exact F1.
  - intros j Ij. apply in_zrange in Ij. rewrite abs_B. apply F2. exact Ij.
  - intros i j Ij Ii. apply in_zrange in Ij. apply AFT in Ii. rewrite abs_B. apply F3; assumption.
  - intros i j Ni Nia. rewrite !abs_B. apply F4; [exact Ni|]. rewrite <- AFT. tauto.
  - intros x X. apply abs_frame; [exact F1|]. intros i j ->. destruct (Z.eq_dec i k) as [->|Ni].
    + destruct (Z_le_dec 0 j), (Z_lt_dec j M); try (apply F5; lia). exfalso. apply (X k j); [left; reflexivity|apply in_zrange; lia|reflexivity].
    + apply F4; [exact Ni|]. intros [Q1 Q2]. apply (X i j); [right; apply AFT; exact Q1|apply in_zrange; exact Q2|reflexivity].
Qed.

(** ** Solver, op = Trans or ConjTrans *)
Variable o : op.
Hypothesis TRo : o <> NoTrans.
Hypothesis LO : low s u o = negb up.
Lemma ord_u : forall i, 0 <= i < N -> (ord s u o i k <-> ulo <= i < uhi).
Proof. intros i Li. unfold ord, ulo, uhi. rewrite LO. destruct up; cbn [negb]; lia. Qed.
Definition bpt (r j : Z) : tid := Tid r (idB k) j 0.
Definition cT : F K := fmul (match s with Left => f1 | Right => fopp f1 end) (finv al).
Definition cF : F K := match s with Left => fopp f1 | Right => f1 end.
Definition ajob (r : Z) (ij : Z * Z) : tjob (mat K) :=
  j_gemm kn s o cT (tl_sz ta k) (tl_sz tb (snd ij)) (tl_sz ta (fst ij)) (p_tile r (ap r) (fst ij)) (BT s r (fst ij) (snd ij)) (bpt r (snd ij)).
Definition ajs (r : Z) : list (Z * Z) := match s with
  | Left => flat_map (fun j => map (fun i => (i, j)) (isA true ulo uhi r)) (jsB true r)
  | Right => flat_map (fun i => map (fun j => (i, j)) (jsB true r)) (isA true ulo uhi r) end.
Definition zpan (r : Z) : panel := fresh_panel (idB k) 0 (ax_nr_tiles (ax Q DB r oc)).
Lemma bpt_int : forall r j, p_int r (zpan r) j = bpt r j. Proof. reflexivity. Qed.
Lemma ajs_in : forall r i j, In (i, j) (ajs r) <-> In i (isA true ulo uhi r) /\ In j (jsB true r).
Proof.
  intros r i j. unfold ajs. generalize (isA true ulo uhi r) (jsB true r). clear. intros is js. destruct s; rewrite in_flat_map; split.
  - intros (j' & Ij & I0). apply in_map_iff in I0 as (i' & E & Ii). injection E as <- <-. auto.
  - intros [Ii Ij]. exists j. split; [exact Ij|]. apply in_map_iff. eauto.
  - intros (j' & Ij & I0). apply in_map_iff in I0 as (i' & E & Ii). injection E as <- <-. auto.
  - intros [Ii Ij]. exists i. split; [exact Ii|]. apply in_map_iff. eauto.
Qed.
Lemma als : forall r, In r rks -> map (t_gl Q DA r rc) (if up then dloop true (t_nx Q DB r rc (k + 1)) (lnt Q DB r rc) else dloop true 0 (t_nx Q DB r rc k)) = isA true ulo uhi r.
Proof.
  intros r R. rewrite !nxB, lntB by exact R. unfold ulo, uhi. destruct up.
  - rewrite end_A by exact R. apply loop_A; [exact R|lia|lia].
  - rewrite <- loop_A by (try exact R; lia). rewrite (nx_0 DA LsA ntA r rc GAA R). reflexivity.
Qed.
Lemma acc_order : forall (f : Z -> Z -> tjob (mat K)) (is js : list Z) gi gj,
  match s with
  | Left => flat_map (fun lj => map (fun li => f (gi li) (gj lj)) is) js
  | Right => flat_map (fun li => map (fun lj => f (gi li) (gj lj)) js) is end =
  map (fun x => f (fst x) (snd x)) (match s with
  | Left => flat_map (fun j => map (fun i => (i, j)) (map gi is)) (map gj js)
  | Right => flat_map (fun i => map (fun j => (i, j)) (map gj js)) (map gi is) end).
Proof.
  intros f is js gi gj. clear. destruct s; rewrite flat_map_map.
  - induction js as [|j js IH]; [reflexivity|]. cbn [flat_map]. rewrite map_app, <- IH, !map_map. reflexivity.
  - induction is as [|j is IH]; [reflexivity|]. cbn [flat_map]. rewrite map_app, <- IH, !map_map. reflexivity.
Qed.
Lemma acc_glob : forall r, In r rks -> acc_jobs kn Q DA DB al s o up (ap r) (zpan r) r k = map (fun j => jset0 (bpt r j)) (jsB true r) ++ map (ajob r) (ajs r).
Proof.
  intros r R. unfold acc_jobs. cbv zeta. f_equal.
  - rewrite <- loop_B by exact R. rewrite map_map. reflexivity.
  - rewrite sztB by assumption.
    transitivity (map (fun x => j_gemm kn s o cT (tl_sz ta k) (szt Q DB r oc (snd x)) (szt Q DA r rc (fst x)) (p_tile r (ap r) (fst x)) (BT s r (fst x) (snd x)) (bpt r (snd x))) (ajs r)).
    + unfold ajs. rewrite <- als, <- loop_B by exact R. rewrite <- (acc_order (fun i j => j_gemm kn s o cT (tl_sz ta k) (szt Q DB r oc j) (szt Q DA r rc i) (p_tile r (ap r) i) (BT s r i j) (bpt r j))).
      set (is := if up then _ else _). set (js := dloop true 0 _). 
      assert (E : forall li lj, j_gemm kn s o cT (tl_sz ta k) (szt Q DB r oc (t_gl Q DB r oc lj)) (szt Q DA r rc (t_gl Q DB r rc li)) (p_tile r (ap r) (t_gl Q DA r rc li)) (BT s r (t_gl Q DB r rc li) (t_gl Q DB r oc lj)) (p_int r (zpan r) (t_gl Q DB r oc lj)) =
        j_gemm kn s o cT (tl_sz ta k) (szt Q DB r oc (t_gl Q DB r oc lj)) (szt Q DA r rc (t_gl Q DA r rc li)) (p_tile r (ap r) (t_gl Q DA r rc li)) (BT s r (t_gl Q DA r rc li) (t_gl Q DB r oc lj)) (bpt r (t_gl Q DB r oc lj))).
      { intros li lj. rewrite glB by exact R. reflexivity. }
      fold cT. revert E. generalize cT. clear. intros c E. destruct s; apply flat_map_ext; intros x; apply map_ext; intros y; apply E.
    + apply map_ext_in. intros [i j] Ij. apply ajs_in in Ij as [Ii Ij]. apply isA_in in Ii as [Li _]. apply jsB_in in Ij as [Lj _]. unfold ajob. cbn [fst snd]. pose proof ulh. rewrite SZB, SZA by (try exact R; lia). reflexivity.
Qed.
Definition eC : list (event (mat K)) := elocal P Q (fun r => acc_jobs kn Q DA DB al s o up (ap r) (zpan r) r k).
Notation term := (fun (st : tstore (mat K)) (i k j p q : Z) => fsum 0 (tl_sz ta k) (fun r => fmul (tm s u o d ta st i k p r) (xv s st k j r q))).
Lemma eC_own : forall r, In r rks -> own_tiles r (acc_jobs kn Q DA DB al s o up (ap r) (zpan r) r k).
Proof.
  intros r R. rewrite acc_glob by exact R. apply own_app.
  - intros jb t I0. apply in_map_iff in I0 as (j & <- & _). intros [[]| ->]. reflexivity.
  - intros jb t I0. apply in_map_iff in I0 as ([i j] & <- & _). unfold ajob. rewrite jg_out. cbn [fst snd]. intros [H| ->]; [|reflexivity]. apply jg_in in H as [->| ->]; [apply ap_ok; exact R|apply BT_rank].
Qed.
Lemma eC_ok : Forall (event_ok mem rks) eC. Proof. apply elocal_ok. exact eC_own. Qed.
Lemma ajob_val : forall (st st' : tstore (mat K)) r i j, 
  st (p_tile r (ap r) i) = st' (ax_ i k) -> st (BT s r i j) = st' (bx s i j) -> st (bpt r j) = st' (bx s k j) ->
  tval (ajob r (i, j)) st = tval (g_gm kn s o ta tb cT k i j) st'.
Proof.
  intros st st' r i j. unfold ajob, g_gm, j_gemm, ax_, aix. cbn [fst snd]. generalize cT (p_tile r (ap r) i) (BT s r i j) (bpt r j) (bx s k j) (bx s i j). clear - TRo.
  intros c a b x b' x'. destruct s, o; try (exfalso; apply TRo; reflexivity); intros EA EB EX; unfold tval; cbn [tj_fun tj_in tj_out jgemm map in2]; rewrite EA, EB, EX; reflexivity.
Qed.

Lemma bpt_inj : forall r j r' j', bpt r j = bpt r' j' -> r = r' /\ j = j'.
Proof. intros r j r' j' E. unfold bpt in E. injection E as E1 E2. auto. Qed.
Lemma bpt_mat : forall r j, t_rank (bpt r j) = r /\ t_mat (bpt r j) = idB k. Proof. split; reflexivity. Qed.
Lemma bpt_ap : forall r j r' i, In r' rks -> p_tile r' (ap r') i <> bpt r j.
Proof. intros r j r' i R E. destruct (apf_rank up eN k Lk He r' i R) as [_ PM]. rewrite E, (proj2 (bpt_mat r j)) in PM. pose proof (idAB k). lia. Qed.
Lemma bpt_BT : forall r j r' i j', BT s r' i j' <> bpt r j.
Proof. intros r j r' i j' E. pose proof (proj2 (BT_rank r' i j')) as X. rewrite E, (proj2 (bpt_mat r j)) in X. pose proof (idAB k). lia. Qed.
Lemma ajob_out : forall r ij, tj_out (ajob r ij) = bpt r (snd ij). Proof. intros. unfold ajob. apply jg_out. Qed.
Lemma eC_run : forall st0 st : tstore (mat K),
  (forall r i, In r rks -> ulo <= i < uhi -> ow i = co rc r -> st (p_tile r (ap r) i) = st0 (AT s (wA i k) i k)) ->
  (forall r i j, st (BT s r i j) = st0 (BT s r i j)) ->
  (forall r j p q, In r rks -> 0 <= j < M -> oB j = co oc r -> 0 <= p < tl_sz ta k -> 0 <= q < tl_sz tb j ->
    xo s (erun mem eC st (bpt r j)) p q = fmul cT (lsum (isA true ulo uhi r) (fun i => term (abs st0) k i j p q))) /\
  (forall x, t_mat x <> idB k -> erun mem eC st x = st x).
Proof.
  intros st0 st HA HB. split.
  - intros r j p q R Lj Oj Lp Lq. unfold eC. rewrite (elocal_at P Q HP HQ _ st (bpt r j) r eC_own R (proj1 (bpt_mat r j))). rewrite acc_glob by exact R. rewrite trun_app.
    set (s1 := trun (map (fun j0 => jset0 (bpt r j0)) (jsB true r)) st).
    assert (S0 : forall y, (forall j', y <> bpt r j') -> s1 y = st y).
    { intros y Y. apply trun_frame. intros jb I0. apply in_map_iff in I0 as (j' & <- & _). intros E. apply (Y j'). symmetry. exact E. }
    assert (S1 : s1 (bpt r j) = (fun _ _ => f0)).
    { unfold s1. assert (Ij : In j (jsB true r)) by (apply jsB_in; auto). revert Ij. generalize (jsB true r). intros l. induction l as [|x l IH] using rev_ind; [intros []|]. intros Ij. rewrite map_app, trun_app. cbn [map]. rewrite trun_cons.
      change (trun [] ?z) with z. unfold texec. cbn [jset0 tj_out]. destruct (Z.eq_dec x j) as [->|NE].
      - rewrite tset_eq. reflexivity.
      - rewrite tset_neq by (intros E; apply bpt_inj in E; intuition). apply in_app_or in Ij as [Ij|[->|[]]]; [apply IH; exact Ij|contradiction]. }
    set (dl := fun i => fmul cT (term (abs st0) k i j p q)).
    rewrite (acc_run (ajob r) (ajs r) s1 (bpt r j) (fun X => xo s X p q) (fun ij => dl (fst ij))).
    + rewrite S1. rewrite (gsum_ext _ _ (fun ij => if snd ij =? j then dl (fst ij) else f0)).
      * transitivity (fadd f0 (lsum (isA true ulo uhi r) dl)).
        { f_equal; [unfold xo; clear; destruct s; reflexivity|]. assert (Ij : In j (jsB true r)) by (apply jsB_in; auto). pose proof (jsB_nodup true r) as NDj. unfold ajs. revert Ij NDj.
          clearbody dl. revert dl. generalize (isA true ulo uhi r) (jsB true r). clear. intros is js g Ij NDj. destruct s; [apply (gsum_left is js j g NDj Ij)|apply (gsum_right is js j g NDj Ij)]. }
        unfold dl. rewrite lsum_scale. ring.
      * intros [i j'] _. rewrite ajob_out. cbn [fst snd]. destruct (tid_eqb_spec (bpt r j') (bpt r j)) as [E|E]; destruct (Z.eqb_spec j' j) as [E'|E']; try reflexivity; exfalso; [apply bpt_inj in E; intuition|subst; apply E; reflexivity].
    + intros [i j'] Iij. rewrite ajob_out. cbn [fst snd]. intros E st2 S2. apply bpt_inj in E as [_ ->]. apply ajs_in in Iij as [Ii _]. apply isA_in in Ii as [Li Oi].
      assert (Li' : 0 <= i < N) by (pose proof ulh; lia).
      assert (S2' : forall y, (forall j', y <> bpt r j') -> st2 y = st y).
      { intros y Y. rewrite S2; [apply S0; exact Y|]. intros [i' j''] _. rewrite ajob_out. intros E. apply (Y j''). symmetry. exact E. }
      set (S := tset (abs st0) (bx s k j) (st2 (bpt r j))).
      assert (SA : forall a b, S (A_ a b) = abs st0 (A_ a b)) by (intros a b; apply tset_neq; intros X; symmetry in X; apply bx_a in X; exact X).
      assert (NIK : i <> k) by (intros ->; apply unk; exact Li).
      assert (SB : S (bx s i j) = abs st0 (bx s i j)) by (apply tset_neq; intros X; apply bx_inj in X; tauto).
      rewrite (ajob_val st2 S r i j).
      * rewrite (gm_val kn KO s u o d ta tb OKa cT S k i j p q Lk Li'); [|apply ord_u; assumption|exact Lp|exact Lq].
        unfold xv at 1, S at 1. rewrite tset_eq. f_equal. unfold dl. f_equal. apply fsum_ext. intros x _. rewrite (tm_same s u o d ta (abs st0) S k i p x SA). unfold xv. rewrite SB. reflexivity.
      * rewrite S2' by (intros j'; apply bpt_ap; exact R). rewrite HA by assumption. rewrite <- abs_A. unfold ax_. clear - SA. destruct s; symmetry; apply SA.
      * rewrite S2' by (intros j'; apply bpt_BT). rewrite HB, SB, abs_B. rewrite (wB_r r i j R Oi Oj). reflexivity.
      * unfold S. rewrite tset_eq. reflexivity.
  - intros x X. unfold eC. apply (elocal_frame P Q HP HQ _ st x eC_own). intros r jb R I0. rewrite acc_glob in I0 by exact R. apply in_app_or in I0 as [I0|I0].
    + apply in_map_iff in I0 as (j & <- & _). intros <-. apply X. reflexivity.
    + apply in_map_iff in I0 as (ij & <- & _). rewrite ajob_out. intros <-. apply X. reflexivity.
Qed.
(** the reduction *)
Definition dev (j : Z) : event (mat K) := ereduce P Q (cm oc (oB j)) (wB k j) (fun r => bpt r j).
Definition eD : list (event (mat K)) := if gs P Q rc =? 1 then [] else flat_map (fun j => [dev j]) (zrange 0 M).
Lemma eD_proj : forall r, In r rks -> reduce_acts P Q DA DB s (zpan r) r k = proj mem r eD.
Proof.
  intros r R. unfold reduce_acts, eD. cbv zeta. destruct (gs P Q rc =? 1); [reflexivity|]. rewrite (proj_flat P Q). rewrite ownA by (try exact R; lia).
  rewrite (flat_map_ext_in _ (fun j => if oB j =? co oc r then [ACom (if r =? wB k j then rrecv P Q (cm oc (oB j)) (wB k j) (bpt r j) else rsend (cm oc (oB j)) (wB k j) (bpt r j))] else []) (zrange 0 M)).
  2:{ intros j _. unfold dev. rewrite ereduce_proj. rewrite (member_cm _ _ _ _ _ GAA) by exact R. reflexivity. }
  assert (FF : forall (h : Z -> list (act (mat K))) (b : Z -> bool) l, flat_map (fun j : Z => if b j then h j else []) l = flat_map h (filter b l)).
  { clear. intros h b l. induction l as [|x l IH]; [reflexivity|]. cbn. destruct (b x); cbn; rewrite IH; reflexivity. }
  rewrite FF. change (filter (fun j => oB j =? co oc r) (zrange 0 M)) with (jsB true r). rewrite <- loop_B by exact R. rewrite flat_map_map.
  rewrite end_B by exact R. cbn [zpan fresh_panel p_hi dloop]. rewrite ntB_M by exact R. rewrite (nx_0 DB LsB ntB r oc GAB R).
  apply flat_map_ext_in. intros l Il. assert (Ij : In (t_gl Q DB r oc l) (jsB true r)).
  { rewrite <- loop_B by exact R. rewrite end_B by exact R. apply in_map. exact Il. }
  apply jsB_in in Ij as [_ Oj]. rewrite Oj. assert (WE : wB k (t_gl Q DB r oc l) = mk Q oc (co oc r) (ow k)) by (rewrite mk_oc; unfold wB; rewrite Oj; reflexivity).
  rewrite <- WE. f_equal. f_equal. assert (EB : (r =? wB k (t_gl Q DB r oc l)) = (co rc r =? ow k)).
  { destruct (Z.eqb_spec (co rc r) (ow k)) as [E|E].
    - rewrite (wB_r r k _ R); [apply Z.eqb_refl|congruence|exact Oj].
    - apply Z.eqb_neq. intros X. apply E. rewrite X. apply wB_co. }
  rewrite EB. destruct (_ =? _); reflexivity.
Qed.
Lemma eD_ok : Forall (event_ok mem rks) eD.
Proof.
  unfold eD. destruct (_ =? _); [constructor|]. apply forall_flat. intros j _. constructor; [|constructor]. apply ereduce_ok; [exact HP|exact HQ|]. intros r _. reflexivity.
Qed.
Lemma mem_oc : forall a, 0 <= a < gs P Q oc -> mem (cm oc a) = map (fun x => mk Q rc x a) (zrange 0 (gs P Q rc)).
Proof.
  intros a. clear. unfold rcs. destruct s; cbn; intros L; rewrite (proj2 (Z.leb_le 0 a)), (proj2 (Z.ltb_lt _ _)) by lia; reflexivity.
Qed.
Lemma eD_run : forall st : tstore (mat K),
  (forall j p q, 0 <= j < M -> erun mem eD st (bpt (wB k j) j) p q = lsum (zrange 0 (gs P Q rc)) (fun x => st (bpt (mk Q rc x (oB j)) j) p q)) /\
  (forall x, t_mat x <> idB k -> erun mem eD st x = st x).
Proof.
  intros st. unfold eD. destruct (Z.eqb_spec (gs P Q rc) 1) as [E1|E1].
  - split; [|reflexivity]. intros j p q Lj. cbn [erun fold_left]. rewrite E1. change (zrange 0 1) with [0]. cbn [lsum fold_right]. assert (E : wB k j = mk Q rc 0 (oB j)).
    { unfold wB. f_equal. pose proof (ow_range k). lia. }
    rewrite E. ring.
  - assert (G : forall l, NoDup l -> (forall j, In j l -> erun mem (flat_map (fun j => [dev j]) l) st (bpt (wB k j) j) = msum (map (fun q => st (bpt q j)) (mem (cm oc (oB j))))) /\
      (forall x, (forall j, In j l -> x <> bpt (wB k j) j) -> erun mem (flat_map (fun j => [dev j]) l) st x = st x)).
    { induction l as [|j l IH] using rev_ind; intros ND; [split; [intros j []|reflexivity]|]. apply NoDup_remove in ND as [ND NI]. rewrite app_nil_r in ND, NI. destruct (IH ND) as [I1 I2].
      rewrite flat_map_app. cbn [flat_map app]. rewrite erun_app. set (s1 := erun mem (flat_map (fun j => [dev j]) l) st) in *. cbn [erun fold_left].
      assert (FR : forall x, x <> bpt (wB k j) j -> eexec mem s1 (dev j) x = s1 x) by (intros x X; apply reduce_frame; left; exact X). split.
      - intros j' Ij'. apply in_app_or in Ij' as [Ij'|[<-|[]]].
        + rewrite FR; [apply I1; exact Ij'|]. intros E. apply bpt_inj in E as [_ ->]. contradiction.
        + unfold dev. rewrite (reduce_root P Q (cm oc (oB j)) (wB k j) (fun r => bpt r j) s1).
          * f_equal. apply map_ext. intros q. apply I2. intros j' Ij' E. apply bpt_inj in E as [_ ->]. contradiction.
          * apply (in_cm P Q HP HQ). split; [apply wB_in|apply wB_co].
          * reflexivity.
      - intros x X. rewrite FR; [apply I2; intros j' Ij'; apply X; apply in_or_app; left; exact Ij'|]. apply X. apply in_or_app. right. left. reflexivity. }
    destruct (G (zrange 0 M) (zrange_NoDup 0 M)) as [G1 G2]. split.
    + intros j p q Lj. rewrite G1 by (apply in_zrange; exact Lj). rewrite msum_lsum. rewrite mem_oc by apply oB_range. generalize (zrange 0 (gs P Q rc)). intros l. unfold lsum. induction l as [|x l IH]; cbn [map fold_right]; [reflexivity|]. rewrite IH. reflexivity.
    + intros x X. apply G2. intros j _ ->. apply X. reflexivity.
Qed.

(** the solution of row k *)
Definition fjobs (r j : Z) : list (tjob (mat K)) :=
  [jadd cF (bpt r j) (BT s r k j); j_trsm kn al s u o d (tl_sz ta k) (tl_sz tb j) (p_tile r (ap r) k) (BT s r k j)].
Definition fval (st : tstore (mat K)) (r j : Z) : mat K :=
  tval (j_trsm kn al s u o d (tl_sz ta k) (tl_sz tb j) (p_tile r (ap r) k) (BT s r k j)) (tset st (BT s r k j) (fun a b => fadd (st (BT s r k j) a b) (fmul cF (st (bpt r j) a b)))).
Lemma fin_glob : forall r, In r rks -> fin_jobs kn Q DA DB al s u o d up (ap r) (zpan r) r k = if co rc r =? ow k then flat_map (fjobs r) (jsB up r) else [].
Proof.
  intros r R. unfold fin_jobs. cbv zeta. rewrite ownA by (try exact R; lia). destruct (Z.eqb_spec (co rc r) (ow k)) as [O|O]; [|reflexivity].
  assert (EK : (if up then t_nx Q DA r rc k else t_nx Q DB r rc k) = t_nx Q DA r rc k) by (rewrite nxB by exact R; destruct up; reflexivity). rewrite EK.
  rewrite !glB by exact R. rewrite gl_nxA by (try assumption; congruence). rewrite sztB by assumption.
  rewrite <- loop_B by exact R. rewrite flat_map_map. apply flat_map_ext_in. intros l Il. assert (Ij : In (t_gl Q DB r oc l) (jsB up r)) by (rewrite <- loop_B by exact R; apply in_map; exact Il).
  apply jsB_in in Ij as [Lj _]. unfold fjobs. rewrite SZB by assumption. rewrite bpt_int. reflexivity.
Qed.
Definition eF : list (event (mat K)) := elocal P Q (fun r => fin_jobs kn Q DA DB al s u o d up (ap r) (zpan r) r k).
Lemma eF_own : forall r, In r rks -> own_tiles r (fin_jobs kn Q DA DB al s u o d up (ap r) (zpan r) r k).
Proof.
  intros r R. rewrite fin_glob by exact R. destruct (_ =? _); [|apply own_nil]. apply own_flat. intros j _ jb t [<-|[<-|[]]].
  - cbn [jadd tj_in tj_out]. intros [[<-|[]]| ->]; [reflexivity|apply BT_rank].
  - rewrite jts_in, jts_out. intros [[<-|[]]| ->]; [apply ap_ok; exact R|apply BT_rank].
Qed.
Lemma eF_ok : Forall (event_ok mem rks) eF. Proof. apply elocal_ok. exact eF_own. Qed.
Lemma eF_run : forall st : tstore (mat K),
  (forall j, 0 <= j < M -> erun mem eF st (BT s (wB k j) k j) = fval st (wB k j) j) /\
  (forall x, (forall j, 0 <= j < M -> x <> BT s (wB k j) k j) -> erun mem eF st x = st x).
Proof.
  intros st. assert (RUN : forall r, In r rks -> (fun l s' => (forall j, In j l -> s' (BT s r k j) = fval st r j) /\ (forall x, (forall j, In j l -> x <> BT s r k j) -> s' x = st x)) (jsB up r) (trun (flat_map (fjobs r) (jsB up r)) st)).
  { intros r R. apply (run_list_inv (fjobs r) (jsB up r) (fun l s' => (forall j, In j l -> s' (BT s r k j) = fval st r j) /\ (forall x, (forall j, In j l -> x <> BT s r k j) -> s' x = st x))).
    - split; [intros j []|reflexivity].
    - intros l1 j l2 s1 E [I1 I2]. pose proof (jsB_nodup up r) as ND. rewrite E in ND. apply NoDup_remove in ND as [_ NI].
      assert (NJ : ~ In j l1) by (intros X; apply NI; apply in_or_app; left; exact X).
      assert (FX : forall y, (forall i j', y <> BT s r i j') -> s1 y = st y) by (intros y Y; apply I2; intros; apply Y).
      unfold fjobs. rewrite !trun_cons. change (trun [] ?z) with z. unfold texec at 1 3. rewrite jts_out.
      assert (FJ : tval (j_trsm kn al s u o d (tl_sz ta k) (tl_sz tb j) (p_tile r (ap r) k) (BT s r k j)) (texec s1 (jadd cF (bpt r j) (BT s r k j))) = fval st r j).
      { unfold fval. apply tval_ext. intros x. rewrite jts_in, jts_out. intros [[<-|[]]| ->].
        - destruct (ap_ok r k R) as [_ NB]. assert (NE : forall i j', p_tile r (ap r) k <> BT s r i j') by (intros i j' X; apply NB; rewrite X; apply BT_rank).
          unfold texec. cbn [jadd tj_out]. rewrite !tset_neq by apply NE. apply FX. exact NE.
        - unfold texec. cbn [jadd tj_out]. rewrite !tset_eq. unfold tval. cbn [jadd tj_out tj_in tj_fun map in1]. rewrite (I2 (BT s r k j)) by (intros j' Ij' X; apply BT_inj in X as (_ & _ & ->); contradiction).
          rewrite (FX (bpt r j)) by (intros i j' X; symmetry in X; apply bpt_BT in X; exact X). reflexivity. }
      split.
      + intros j' Ij'. apply in_app_or in Ij' as [Ij'|[<-|[]]].
        * rewrite tset_neq by (intros X; apply BT_inj in X as (_ & _ & ->); contradiction). unfold texec. cbn [jadd tj_out]. rewrite tset_neq by (intros X; apply BT_inj in X as (_ & _ & ->); contradiction). apply I1. exact Ij'.
        * rewrite tset_eq. exact FJ.
      + intros x X. assert (XJ : x <> BT s r k j) by (apply X; apply in_or_app; right; left; reflexivity). rewrite tset_neq by exact XJ. unfold texec. cbn [jadd tj_out]. rewrite tset_neq by exact XJ. apply I2. intros j' Ij'. apply X. apply in_or_app. left. exact Ij'. }
  split.
  - intros j Lj. unfold eF. rewrite (elocal_at P Q HP HQ _ st _ (wB k j) eF_own (wB_in k j) (proj1 (BT_rank _ _ _))). rewrite fin_glob by apply wB_in.
    destruct (wB_co k j) as [C1 C2]. rewrite C1, Z.eqb_refl. apply (RUN (wB k j) (wB_in k j)). apply jsB_in. split; [exact Lj|symmetry; exact C2].
  - intros x X. unfold eF. apply (elocal_frame P Q HP HQ _ st x eF_own). intros r jb R I0. rewrite fin_glob in I0 by exact R. destruct (Z.eqb_spec (co rc r) (ow k)) as [O|O]; [|destruct I0].
    apply in_flat_map in I0 as (j & Ij & I0). apply jsB_in in Ij as [Lj Oj]. specialize (X j Lj). rewrite (wB_r r k j R (eq_sym O) Oj) in X. destruct I0 as [<-|[<-|[]]]; [|rewrite jts_out]; intros E; apply X; symmetry; exact E.
Qed.
Definition e_solveT : list (event (mat K)) := eA up eN k ++ eC ++ eD ++ eF.
Lemma solveT_proj : forall e r, In r rks -> e = lnt Q DA r rc -> solve_step_T kn P Q DA DB al s u o d up e r k = proj mem r e_solveT.
Proof.
  intros e r R ->. unfold solve_step_T, e_solveT. cbv zeta. rewrite !(proj_app' P Q). rewrite !ownA by (try exact R; lia).
  rewrite <- (eA_proj up eN k Lk He r R), <- (eD_proj r R). unfold eC, eF. rewrite !(elocal_proj P Q HP HQ) by exact R. reflexivity.
Qed.
Lemma solveT_ok : Forall (event_ok mem rks) e_solveT.
Proof. unfold e_solveT. apply Forall_app. split; [apply eA_ok; assumption|]. apply Forall_app. split; [apply eC_ok|]. apply Forall_app. split; [apply eD_ok|apply eF_ok]. Qed.
Lemma solveT_run : forall bef st, NoDup bef -> (forall i, In i bef <-> ulo <= i < uhi) -> nonsing d ta (abs st) ->
  dot_step s u o d al ta tb (zrange 0 M) (dbeta al) k bef (abs st) (abs (erun mem e_solveT st)).
Proof.
  intros bef st NDB BEF NS. pose proof (idAB k) as [IA IB]. unfold e_solveT. rewrite !erun_app.
  destruct (eA_run up eN k Lk He st) as [A1 A2]. set (s1 := erun mem (eA up eN k) st) in *.
  destruct (eC_run st s1) as [C1 C2].
  { intros r i R Li O. apply A1; [exact R|apply rngA; auto|exact O]. }
  { intros. apply A2. rewrite (proj2 (BT_rank _ _ _)). lia. }
  set (s2 := erun mem eC s1) in *. destruct (eD_run s2) as [D1 D2]. set (s3 := erun mem eD s2) in *. destruct (eF_run s3) as [F1 F2]. set (s4 := erun mem eF s3) in *.
  assert (M3 : forall x, t_mat x <> idA k -> t_mat x <> idB k -> s3 x = st x) by (intros x X1 X2; rewrite D2, C2, A2 by assumption; reflexivity).
  assert (BT3 : forall r i j, s3 (BT s r i j) = st (BT s r i j)) by (intros; apply M3; rewrite (proj2 (BT_rank _ _ _)); lia).
  assert (AT4 : forall i k', s4 (AT s (wA i k') i k') = st (AT s (wA i k') i k')).
  { intros i k'. rewrite F2; [apply M3; rewrite (proj2 (AT_rank _ _ _)); lia|]. intros j _ X. pose proof (proj2 (AT_rank (wA i k') i k')) as Y. rewrite X, (proj2 (BT_rank _ _ _)) in Y. lia. }
  split; [|split].
  - apply abs_AA. exact AT4.
  - intros j p q Ij Lp Lq. apply in_zrange in Ij.
    set (W := fun a b => fadd (s3 (BT s (wB k j) k j) a b) (fmul cF (s3 (bpt (wB k j) j) a b))).
    set (S := tset (abs st) (bx s k j) W).
    assert (SA : forall a b, S (A_ a b) = abs st (A_ a b)) by (intros a b; apply tset_neq; intros X; symmetry in X; apply bx_a in X; exact X).
    assert (V : s4 (BT s (wB k j) k j) = tval (g_ts kn s u o d al ta tb k j) S).
    { rewrite F1 by exact Ij. unfold fval. fold W.
      assert (EA : s3 (p_tile (wB k j) (ap (wB k j)) k) = abs st (A_ k k)).
      { destruct (apf_rank up eN k Lk He (wB k j) k (wB_in k j)) as [_ PM]. rewrite D2, C2 by lia. rewrite A1; [|apply wB_in|apply rngA; auto|symmetry; apply wB_co]. rewrite <- abs_A. unfold ax_. clear. destruct s; reflexivity. }
      assert (PN : p_tile (wB k j) (ap (wB k j)) k <> BT s (wB k j) k j) by (intros X; apply (proj2 (ap_ok (wB k j) k (wB_in k j))); rewrite X; apply BT_rank).
      assert (EA' : tset s3 (BT s (wB k j) k j) W (p_tile (wB k j) (ap (wB k j)) k) = S (A_ k k)) by (rewrite tset_neq by exact PN; rewrite SA; exact EA).
      assert (EB' : tset s3 (BT s (wB k j) k j) W (BT s (wB k j) k j) = S (bx s k j)) by (unfold S; rewrite !tset_eq; reflexivity).
      exact (jts_val u o d _ _ _ S _ _ _ _ EA' EB'). }
    transitivity (fsum 0 (tl_sz ta k) (fun r => fmul (tm s u o d ta S k k p r) (xo s (tval (g_ts kn s u o d al ta tb k j) S) r q))).
    { apply fsum_ext. intros r _. rewrite (tm_same s u o d ta (abs st) S k k p r SA). unfold xv. rewrite abs_B, V. reflexivity. }
    rewrite (ts_val kn KO s u o d al ta tb OKa S k j p q); [|apply (nonsing_same d ta (abs st) S SA NS)|exact Lk|exact Lp|exact Lq].
    f_equal. unfold xv at 1, S at 1. rewrite tset_eq.
    assert (ACC : xo s (s3 (bpt (wB k j) j)) p q = fmul cT (lsum bef (fun i => term (abs st) k i j p q))).
    { transitivity (lsum (zrange 0 (gs P Q rc)) (fun x => xo s (s2 (bpt (mk Q rc x (oB j)) j)) p q)).
      { assert (XO : forall X : mat K, xo s X p q = X (match s with Left => p | Right => q end) (match s with Left => q | Right => p end)) by (clear; intros X; unfold xo; destruct s; reflexivity).
        rewrite XO, D1 by exact Ij. apply lsum_ext. intros x _. rewrite XO. reflexivity. }
      rewrite (lsum_ext _ _ (fun x => fmul cT (lsum (filter (fun i => ow i =? x) (zrange ulo uhi)) (fun i => term (abs st) k i j p q)))).
      - rewrite lsum_scale. f_equal. rewrite (lsum_owner (fun i => ow i)) by (intros i _; apply ow_range).
        apply lsum_perm. apply NoDup_Permutation; [apply zrange_NoDup|exact NDB|]. intros i. rewrite BEF, in_zrange. reflexivity.
      - intros x Ix. apply in_zrange in Ix. destruct (co_mk P Q HP HQ rc x (oB j) Ix (oB_range j)) as [X1 X2].
        assert (RX : In (mk Q rc x (oB j)) rks) by (apply (mk_rank _ _ _ _ _ GAA); [exact Ix|apply oB_range]).
        rewrite C1; [|exact RX|exact Ij|symmetry; exact X2|exact Lp|exact Lq]. unfold isA. rewrite X1. reflexivity. }
    transitivity (fadd (xv s (abs st) k j p q) (fmul cF (xo s (s3 (bpt (wB k j) j)) p q))).
    { unfold xv. rewrite abs_B, <- BT3. unfold W, xo. generalize (s3 (BT s (wB k j) k j)) (s3 (bpt (wB k j) j)) cF. clear. intros X Y c0. destruct s; reflexivity. }
    rewrite ACC. f_equal. assert (CC : fmul cF cT = dbeta al) by (unfold cF, cT, dbeta; clear - al; destruct s; ring). rewrite <- CC. ring.
  - intros x X. apply abs_frame; [exact AT4|]. intros i j ->. destruct (Z.eq_dec i k) as [->|Ni].
    + destruct (Z_le_dec 0 j), (Z_lt_dec j M).
      * exfalso. apply (X j); [apply in_zrange; lia|reflexivity].
      * rewrite F2; [apply BT3|]. intros j' Lj' E. apply BT_inj in E as (_ & _ & ->). lia.
      * rewrite F2; [apply BT3|]. intros j' Lj' E. apply BT_inj in E as (_ & _ & ->). lia.
      * rewrite F2; [apply BT3|]. intros j' Lj' E. apply BT_inj in E as (_ & _ & ->). lia.
    + rewrite F2; [apply BT3|]. intros j' Lj' E. apply BT_inj in E as (_ & -> & _). contradiction.
Qed.
End stepN.
End proofs.
