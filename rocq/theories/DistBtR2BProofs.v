(** * Distributed bt_reduction_to_band: proofs *)
From Coq Require Import ZArith Lia List Bool Permutation Ring.
From Verif Require Import CInt Loop StarField DenseSpec Tiling DenseJobs TileJobs RefKernels BlockJobs TriangularProofs HouseSpec HouseModel HouseProofs HouseQR TFactorProofs MultiJobs
  Red2BandModel Red2BandSpec Red2BandProofs Red2BandTheory BtRed2BandModel BtRed2BandProofs
  DistModel DistSpec DistBuilt DistThms DistMachine DistGrid PanelModel PanelProofs DistSim DistProg DistPhase DistLocal DistInverseModel DistTriModel DistTriProofs DistMultModel DistMultProofs DistBtR2BModel.
Import ListNotations.
Local Open Scope Z_scope.

(** ** All-reductions *)
Section allred.
Context {K : starfield}.
Variables P Q : Z.
Hypothesis HP : 0 < P.
Hypothesis HQ : 0 < Q.
Notation rks := (ranks P Q).
Notation mem := (members P Q).
Definition eallred (c : comm) (tl : Z -> tid) : event (mat K) := EColl c (fun r => all_reduce P Q c (tl r)).
Lemma eallred_ok : forall c tl, (forall r, In r (mem c) -> t_rank (tl r) = r) -> event_ok mem rks (eallred c tl).
Proof using HP HQ.
  intros c tl T. constructor.
  - intros r a E. cbn in E. destruct (member_spec mem c r); [|discriminate]. apply (members_ranks P Q HP HQ c). assumption.
  - intros r a t E I0. cbn in E. destruct (member_spec mem c r) as [M|]; [|discriminate]. injection E as <-.
    cbn in I0. destruct I0 as [[<-|[]]|[<-|[]]]; auto.
  - intros c' part E r M. injection E as <- <-. reflexivity.
  - intros c' part E r q M1 M2. injection E as <- <-. reflexivity.
  - intros c' part E r q M1 M2. injection E as <- <-. cbn in M2. split; [exact M2|]. discriminate.
Qed.
Lemma eallred_proj : forall c tl r, proj mem r [eallred c tl] = if member mem c r then [ACom (all_reduce P Q c (tl r))] else [].
Proof using. intros. cbn. destruct (member mem c r); reflexivity. Qed.
Lemma eallred_frame : forall c tl (st : tstore (mat K)) x, (forall r, In r (mem c) -> x <> tl r) -> eexec mem st (eallred c tl) x = st x.
Proof using.
  intros c tl st x N. cbn [eallred eexec all_reduce ca_out]. destruct (member_spec mem c (t_rank x)) as [M|M]; [|reflexivity].
  destruct (tid_eqb_spec x (tl (t_rank x))) as [X|X]; [|reflexivity]. exfalso. apply (N _ M X).
Qed.
Lemma eallred_at : forall c tl (st : tstore (mat K)) r, In r (mem c) -> t_rank (tl r) = r ->
  eexec mem st (eallred c tl) (tl r) = msum (map (fun q => st (tl q)) (mem c)).
Proof using.
  intros c tl st r M T. cbn [eallred eexec]. rewrite T. cbn [all_reduce ca_out ca_fun ca_needs ca_in]. destruct (member_spec mem c r); [|contradiction].
  destruct (tid_eqb_spec (tl r) (tl r)); [|congruence]. cbn [andb]. reflexivity.
Qed.
End allred.

(** ** The T factor from sums that were computed in parts *)
Section tfac.
Context {K : starfield}.
Local Open Scope sf_scope.
Add Ring KringTF2 : (fring K).
Lemma trmv_rec : forall m k (V S : mat K) (taus tau : Z -> F K), (0 < k)%Z ->
  (forall q, (0 <= q < k)%Z -> taus q = tau q) ->
  (forall p q, (0 <= p < k)%Z -> (0 <= q < k)%Z -> p <> q -> S p q = if (p <? q)%Z then - tau q * fsum 0 m (fun a => fconj (V a p) * V a q) else 0) ->
  t_rec m k V (copy_diag_and_trmv k taus S) tau.
Proof.
  intros m k V S taus tau Lk ET ES. unfold copy_diag_and_trmv.
  set (S0 := taus_diag k taus S).
  destruct (loop_trmv_at k S0 ltac:(lia)) as [H1 H2]. set (T' := loop_trmv k S0) in *.
  assert (SD : forall p q, (0 <= p < k)%Z -> S0 p q = if (p =? q)%Z then tau p else S p q).
  { intros p q Lp. unfold S0, taus_diag. destruct (Z.leb_spec 0 p), (Z.ltb_spec p k); try lia. rewrite !andb_true_r. rewrite ET by lia. reflexivity. }
  assert (LO : forall p q, (0 <= p < k)%Z -> (0 <= q < k)%Z -> (q < p)%Z -> T' p q = 0).
  { intros p q Lp Lq L. rewrite H1 by (destruct (Z.ltb_spec p q); [lia|]; rewrite andb_false_r; reflexivity).
    rewrite SD by lia. destruct (Z.eqb_spec p q); [lia|]. rewrite ES by lia. destruct (Z.ltb_spec p q); [lia|reflexivity]. }
  split; [exact LO|split].
  - intros q Lq. rewrite H1 by (rewrite Z.ltb_irrefl, andb_false_r; reflexivity). rewrite SD by lia. rewrite Z.eqb_refl. reflexivity.
  - intros p q Lp Lq. rewrite H2 by lia. apply fsum_ext. intros r Lr. f_equal.
    + unfold trim. cbn [in_tri]. destruct (Z.eqb_spec p r) as [->|]; [reflexivity|].
      destruct (Z.leb_spec p r); [reflexivity|]. symmetry. apply LO; lia.
    + rewrite SD by lia. destruct (Z.eqb_spec r q); [lia|]. rewrite ES by lia. destruct (Z.ltb_spec r q); [reflexivity|lia].
Qed.
Lemma t_rec_unique : forall m k (V T T' : mat K) tau, t_rec m k V T tau -> t_rec m k V T' tau ->
  forall p q, (0 <= p < k)%Z -> (0 <= q < k)%Z -> T p q = T' p q.
Proof.
  intros m k V T T' tau (A1 & A2 & A3) (B1 & B2 & B3) p q Lp Lq. apply (Z_lt_induction (fun q => (0 <= q < k)%Z -> T p q = T' p q)); [|lia|exact Lq].
  intros z IH Lz. destruct (Z.lt_trichotomy z p) as [L|[E|L]].
  - rewrite A1, B1 by lia. reflexivity.
  - subst z. rewrite A2, B2 by lia. reflexivity.
  - rewrite A3, B3 by lia. apply fsum_ext. intros r Lr. rewrite IH by lia. reflexivity.
Qed.
Lemma fsum_nth : forall (l : list Z) (g : Z -> F K), fsum 0 (Z.of_nat (length l)) (fun x => g (nth (Z.to_nat x) l 0%Z)) = lsum l g.
Proof.
  induction l as [|y l IH]; intros g; [reflexivity|]. cbn [length]. rewrite Nat2Z.inj_succ. rewrite fsum_cons by lia. unfold lsum. cbn [fold_right]. fold (lsum l g). f_equal.
  rewrite <- IH. replace (Z.succ (Z.of_nat (length l))) with (Z.of_nat (length l) + 1)%Z by lia. rewrite (fsum_shift 1 0). apply fsum_ext. intros i Li.
  replace (Z.to_nat (i + 1)) with (S (Z.to_nat i)) by lia. reflexivity.
Qed.
End tfac.

(** ** Lists *)
Lemma nodup_map_eq : forall {A B} (f : A -> B) l x y, NoDup (map f l) -> In x l -> In y l -> f x = f y -> x = y.
Proof.
  intros A B f l. induction l as [|a l IH]; intros x y ND Ix Iy E; [destruct Ix|]. cbn in ND. apply NoDup_cons_iff in ND as [N1 N2]. destruct Ix as [<-|Ix], Iy as [<-|Iy].
  - reflexivity.
  - exfalso. apply N1. rewrite E. apply in_map. exact Iy.
  - exfalso. apply N1. rewrite <- E. apply in_map. exact Ix.
  - apply IH; assumption.
Qed.
Lemma flat_filter : forall {A B} (c : A -> bool) (f : A -> B) l, flat_map (fun x => if c x then [f x] else []) l = flat_map (fun x => [f x]) (filter c l).
Proof. intros A B c f l. induction l as [|x l IH]; [reflexivity|]. cbn. destruct (c x); cbn; rewrite IH; reflexivity. Qed.
Lemma flat_filter' : forall {A B} (c : A -> bool) (f : A -> list B) l, flat_map (fun x => if c x then f x else []) l = flat_map f (filter c l).
Proof. intros A B c f l. induction l as [|x l IH]; [reflexivity|]. cbn. destruct (c x); cbn; rewrite IH; reflexivity. Qed.
Lemma flat1 : forall {A B} (f : A -> B) l, flat_map (fun x => [f x]) l = map f l.
Proof. intros A B f l. induction l as [|x l IH]; cbn; [|rewrite IH]; reflexivity. Qed.
Lemma fold_cond : forall (c : Z -> bool) (g : Z -> Z) (t : Z -> tid) L p,
  let res := fold_left (fun p l => if c (g l) then p else set_tile p (g l) (t (g l))) L p in
  p_id res = p_id p /\ p_lo res = p_lo p /\ p_hi res = p_hi p /\
  forall i, p_ext res i = if existsb (Z.eqb i) (filter (fun i => negb (c i)) (map g L)) then Some (t i) else p_ext p i.
Proof.
  intros c g t L. induction L as [|l L IH]; intros p; cbn [fold_left map filter]; [cbn; auto|].
  destruct (IH (if c (g l) then p else set_tile p (g l) (t (g l)))) as (A & B & C & E). cbv zeta in *. rewrite A, B, C. destruct (c (g l)) eqn:CC; cbn [negb].
  - repeat split; auto.
  - repeat split; auto. intros i. rewrite E. cbn [existsb set_tile p_ext]. destruct (Z.eqb_spec i (g l)) as [->|N]; cbn [orb]; [destruct (existsb _ _); reflexivity|reflexivity].
Qed.

Section dstep.
Context {K : starfield} (kn : kernels K) (KO : kernels_ok kn).
Add Ring KringDBT : (fring K).
Variables P Q : Z.
Variables LsV LsC : coord -> layout.
Variables DV DC : coord -> Z -> axis.
Variables ntV ntC : coord -> Z.
Hypothesis GAV : grid_axes P Q LsV DV ntV.
Hypothesis GAC : grid_axes P Q LsC DC ntC.
Variables n mb b : Z.
Variable tc : tiling.
Variable avail_t : Z -> Z.
Hypothesis (Hb : 0 <= b) (Hmb : 0 < mb) (TC : tiling_ok tc).
Notation rks := (ranks P Q).
Notation mem := (members P Q).
Notation co := (co Q).
Notation nrt := (r2b_nrt n mb).
Notation NC := (tl_n tc).
Hypothesis AT : forall r, In r rks -> 0 < avail_t r.
(** mat_c has the rows of mat_v, distributed in the same way *)
Hypothesis ECR : forall p, 0 <= p < P -> DC Row p = DV Row p.
Hypothesis NTV : ntV Row = nrt /\ ntV Col = nrt.
Hypothesis NTC : ntC Col = NC.
Hypothesis SZV : forall r i, In r rks -> 0 <= i < nrt -> szt Q DV r Row i = r2b_sz n mb i.
Hypothesis SZC : forall r j, In r rks -> 0 <= j < NC -> szt Q DC r Col j = tl_sz tc j.
Let HP := ga_P _ _ _ _ _ GAV.
Let HQ := ga_Q _ _ _ _ _ GAV.
Notation oR i := (tile_owner (LsV Row) i).
Notation oK i := (tile_owner (LsV Col) i).
Notation oC j := (tile_owner (LsC Col) j).
Notation tr := (Tiling nrt (r2b_sz n mb)).
Notation wC := (wC Q LsV LsC).
Definition wV (i j : Z) : Z := mk Q Row (oR i) (oK j).
Lemma NTR : ntV Row = tl_n tr. Proof using NTV. apply NTV. Qed.
Lemma axCR : forall r, In r rks -> ax Q DC r Row = ax Q DV r Row.
Proof using GAV ECR. intros r R. unfold ax. apply ECR. apply (rank_co _ _ _ _ _ GAV r Row R). Qed.

Variable k : Z.
Hypothesis (K0 : 0 <= k) (K1 : k * mb < bt_nrefls n b).
Notation i0 := (bi0 mb b k). Notation ri := (bri mb b k). Notation e := (b_row mb b k). Notation rows := (brows n mb b k). Notation t := (btl n mb b k).
Notation nr := (bt_refl n mb b k). Notation jd := (j_diag mb b k).
Notation m := (n - e).
Lemma I0B : 0 <= i0 < nrt. Proof using Hb Hmb K0 K1. apply b_i0_bound; assumption. Qed.
Lemma NRP : 0 < nr <= mb. Proof using Hb Hmb K0 K1. apply b_nr_pos; assumption. Qed.
Lemma KB : 0 <= k < nrt.
Proof using Hb Hmb K0 K1. pose proof (nrt_spec n mb Hmb). unfold bt_nrefls in K1. nia. Qed.
(** tile rows of the panel on rank r; tile columns of mat_c on rank r *)
Notation rows_of r := (rowsof Q LsV i0 nrt r).
Notation cols_of r := (colsof Q LsC tc r).
Notation pairs_of r := (gpairs Q LsV LsC tc i0 nrt r).
Definition ownk (r : Z) : bool := oK k =? co Col r.
Lemma on_col_eq : forall r, In r rks -> on_col Q DV r k = ownk r.
Proof using GAV K0. intros r R. unfold on_col, ownk. rewrite (t_own_eq _ _ _ _ _ GAV) by assumption. apply Z.eqb_sym. Qed.
Lemma lntV : forall r, In r rks -> lnt Q DV r Row = t_nx Q DV r Row nrt.
Proof using GAV NTV. intros r R. unfold lnt. rewrite (loop_end _ _ _ _ _ GAV) by exact R. rewrite (proj1 NTV). reflexivity. Qed.
Lemma v_rows_map : forall r, In r rks -> map (t_gl Q DV r Row) (v_rows Q mb b DV r k) = rows_of r.
Proof using GAV NTV Hb Hmb K0 K1.
  intros r R. unfold v_rows. rewrite lntV by exact R. pose proof I0B. apply (rows_loop P Q LsV DV ntV GAV tr NTR r i0 nrt R); cbn [tl_n]; lia.
Qed.
Lemma gl_in : forall r l, In r rks -> In l (v_rows Q mb b DV r k) -> In (t_gl Q DV r Row l) (rows_of r).
Proof using GAV NTV Hb Hmb K0 K1. intros r l R I0. rewrite <- v_rows_map by exact R. apply in_map. exact I0. Qed.
Lemma rows_bound : forall r i, In i (rows_of r) -> i0 <= i < nrt /\ oR i = co Row r.
Proof using. intros r i I0. apply rows_in in I0. exact I0. Qed.
(** the tile of a rank in which the view starts *)
Lemma gl_i0 : forall r l, In r rks -> In l (v_rows Q mb b DV r k) -> (oR i0 = co Row r /\ l = t_nx Q DV r Row i0) <-> t_gl Q DV r Row l = i0.
Proof using GAV NTV Hb Hmb K0 K1.
  intros r l R I0. pose proof I0B as IB. split.
  - intros [O ->]. apply (glx P Q LsV DV ntV r Row i0 GAV R); [rewrite (proj1 NTV); exact IB|exact O].
  - intros E. pose proof (gl_in r l R I0) as I1. rewrite E in I1. apply rows_bound in I1 as [_ O]. split; [exact O|].
    apply (nodup_map_eq (t_gl Q DV r Row) (v_rows Q mb b DV r k)).
    + rewrite v_rows_map by exact R. apply rows_nd.
    + exact I0.
    + unfold v_rows in *. apply in_zrange in I0. apply in_zrange. lia.
    + rewrite E. symmetry. apply (glx P Q LsV DV ntV r Row i0 GAV R); [rewrite (proj1 NTV); exact IB|exact O].
Qed.
Lemma vsub_eq : forall r l, In r rks -> In l (v_rows Q mb b DV r k) -> vsub Q mb b DV r k l = ri (t_gl Q DV r Row l).
Proof using GAV NTV Hb Hmb K0 K1.
  intros r l R I0. unfold vsub, bri. pose proof I0B. rewrite (t_own_eq _ _ _ _ _ GAV) by (try exact R; lia). pose proof (gl_i0 r l R I0) as G.
  destruct (Z.eqb_spec (t_gl Q DV r Row l) i0), (Z.eqb_spec (oR i0) (co Row r)), (Z.eqb_spec l (t_nx Q DV r Row i0)); cbn [andb]; try reflexivity; tauto.
Qed.
Lemma sz_eq : forall r i, In r rks -> In i (rows_of r) -> szt Q DV r Row i = r2b_sz n mb i.
Proof using SZV Hb Hmb K0 K1. intros r i R I0. apply rows_bound in I0 as [L _]. pose proof I0B. apply SZV; [exact R|lia]. Qed.
Lemma rows_eq : forall r l, In r rks -> In l (v_rows Q mb b DV r k) -> szt Q DV r Row (t_gl Q DV r Row l) - vsub Q mb b DV r k l = rows (t_gl Q DV r Row l).
Proof using GAV NTV SZV Hb Hmb K0 K1. intros r l R I0. rewrite vsub_eq, sz_eq by (try assumption; apply gl_in; assumption). reflexivity. Qed.
Lemma rows_map : forall {X} (f g : Z -> X) r, In r rks -> (forall l, In l (v_rows Q mb b DV r k) -> f l = g (t_gl Q DV r Row l)) -> map f (v_rows Q mb b DV r k) = map g (rows_of r).
Proof using GAV NTV Hb Hmb K0 K1. intros X f g r R E. rewrite <- v_rows_map by exact R. rewrite map_map. apply map_ext_in. exact E. Qed.
Lemma rows_flat : forall {X} (f g : Z -> list X) r, In r rks -> (forall l, In l (v_rows Q mb b DV r k) -> f l = g (t_gl Q DV r Row l)) -> flat_map f (v_rows Q mb b DV r k) = flat_map g (rows_of r).
Proof using GAV NTV Hb Hmb K0 K1. intros X f g r R E. rewrite <- v_rows_map by exact R. rewrite flat_map_map. apply flat_map_ext_in. exact E. Qed.

(** *** panelV with its links *)
Definition pV (r : Z) : panel := Panel (mPV n mb b k) i0 nrt (fun i => if ownk r && existsb (Z.eqb i) (filter (fun i => negb (jd i <? nr)) (rows_of r)) then Some (rV r i k) else None).
Definition pW (r : Z) : panel := fresh_panel (mPW n mb b k) i0 nrt.
Lemma kcol_eq : forall r, In r rks -> ownk r = true -> kcol Q DV r k = k.
Proof using GAV NTV Hb Hmb K0 K1. intros r R O. apply Z.eqb_eq in O. unfold kcol. apply (t_gl_loc _ _ _ _ _ GAV); [exact R|rewrite (proj2 NTV); apply KB|exact O]. Qed.
Lemma pV_eq : forall r, In r rks -> panel_eq (pV_linked Q n mb b DV r k) (pV r).
Proof using GAV NTV Hb Hmb K0 K1.
  intros r R. unfold pV_linked. rewrite on_col_eq by exact R. unfold pV_empty. rewrite (rank_nt _ _ _ _ _ GAV) by exact R. rewrite (proj1 NTV).
  destruct (ownk r) eqn:O.
  - destruct (fold_cond (fun i => jd i <? nr) (t_gl Q DV r Row) (fun i => rV r i (kcol Q DV r k)) (v_rows Q mb b DV r k) (fresh_panel (mPV n mb b k) i0 nrt)) as (A & B & C & E).
    cbv zeta in *. repeat split; try assumption. intros i. rewrite E. rewrite v_rows_map by exact R. cbn [pV p_ext fresh_panel]. rewrite O, kcol_eq by assumption. reflexivity.
  - repeat split; try reflexivity. intros i. cbn [pV p_ext fresh_panel]. rewrite O. reflexivity.
Qed.
Notation vid r i := (p_tile r (pV r) i).
Lemma vid_eq : forall r i, In i (rows_of r) -> vid r i = if ownk r && negb (jd i <? nr) then rV r i k else Tid r (mPV n mb b k) i 0.
Proof using.
  intros r i I0. unfold p_tile, p_int. cbn [pV p_ext p_id]. destruct (ownk r); cbn [andb]; [|reflexivity].
  destruct (existsb (Z.eqb i) (filter (fun i => negb (jd i <? nr)) (rows_of r))) eqn:X.
  - apply existsb_exists in X as (y & Iy & E). apply Z.eqb_eq in E. subst y. apply filter_In in Iy as [_ ->]. reflexivity.
  - destruct (jd i <? nr) eqn:J; [reflexivity|]. exfalso. apply not_true_iff_false in X. apply X. apply existsb_exists. exists i. split; [|apply Z.eqb_refl]. apply filter_In. rewrite J. auto.
Qed.
Lemma vid_rank : forall r i, t_rank (vid r i) = r.
Proof using. intros r i. unfold p_tile, p_int. cbn [pV p_ext p_id]. destruct (_ && _); reflexivity. Qed.
Lemma vid_mat : forall r i, t_mat (vid r i) = 0 \/ t_mat (vid r i) = mPV n mb b k.
Proof using. intros r i. unfold p_tile, p_int. cbn [pV p_ext p_id]. destruct (_ && _); auto. Qed.
Lemma ids : mPV n mb b k = 4 \/ mPV n mb b k = 5. Proof using. unfold mPV, par. pose proof (Z.mod_pos_bound (bt_nblocks n mb b - 1 - k) 2 eq_refl). lia. Qed.
Lemma idsW : mPW n mb b k = 6 \/ mPW n mb b k = 7. Proof using. unfold mPW, par. pose proof (Z.mod_pos_bound (bt_nblocks n mb b - 1 - k) 2 eq_refl). lia. Qed.
Lemma idsW2 : mW2 n mb b k = 8 \/ mW2 n mb b k = 9. Proof using. unfold mW2, par. pose proof (Z.mod_pos_bound (bt_nblocks n mb b - 1 - k) 2 eq_refl). lia. Qed.

(** *** The tasks, with global indices *)
Definition xV (r : Z) : list Z := if ownk r then filter (fun i => jd i <? nr) (rows_of r) else [].
Definition jobV (r i : Z) : tjob (mat K) := TJob [rV r i k] (Tid r (mPV n mb b k) i 0) (in1 (fun a v => hh_upper (jd i) (rows i) nr (sub (ri i) 0 a) v)).
Definition xT (r : Z) : list unit := if ownk r then [tt] else [].
Definition job0 (r : Z) (_ : unit) : tjob (mat K) := jset0 (rT r k).
Definition jobG (r : Z) (_ : unit) : tjob (mat K) :=
  TJob (map (fun i => vid r i) (rows_of r) ++ [rTau r k]) (rT r k) (fun vs T =>
    step_gemv (local_tl Q mb b DV r k) (avail_t r) nr (nth_tile vs) (col_vec (nth_tile vs (Z.of_nat (length (v_rows Q mb b DV r k))))) T).
Definition jobM (r : Z) (_ : unit) : tjob (mat K) := TJob [rTau r k] (rT r k) (in1 (fun ta T => copy_diag_and_trmv nr (col_vec ta) T)).
Definition xW (r : Z) : list Z := if ownk r then rows_of r else [].
Definition jobW (r i : Z) : tjob (mat K) := TJob [rT r k; vid r i] (Tid r (mPW n mb b k) i 0) (in2 (fun T v _ => trmm kn Right Upper ConjTrans NonUnit (rows i) nr f1 T v)).
Definition w2 (r j : Z) : tid := Tid r (mW2 n mb b k) j 0.
Definition jobZ (r j : Z) : tjob (mat K) := jset0 (w2 r j).
Definition jobU (r : Z) (ij : Z * Z) : tjob (mat K) :=
  TJob [p_tile r (pW r) (fst ij); rC r (fst ij) (snd ij)] (w2 r (snd ij))
    (in2 (fun w c v => gemm kn ConjTrans NoTrans nr (tl_sz tc (snd ij)) (rows (fst ij)) f1 w (sub (ri (fst ij)) 0 c) f1 v)).
Definition jobC (r : Z) (ij : Z * Z) : tjob (mat K) :=
  TJob [vid r (fst ij); w2 r (snd ij)] (rC r (fst ij) (snd ij))
    (in2 (fun v w c => paste (ri (fst ij)) 0 (rows (fst ij)) (tl_sz tc (snd ij)) c
      (gemm kn NoTrans NoTrans (rows (fst ij)) (tl_sz tc (snd ij)) nr (fopp f1) v w f1 (sub (ri (fst ij)) 0 c)))).
Definition each {X} (xs : Z -> list X) (job : Z -> X -> tjob (mat K)) : list (event (mat K)) := elocal P Q (fun r => flat_map (fun x => [job r x]) (xs r)).
Definition eST : list (event (mat K)) := if 1 <? P then [eallred P Q (cm Col (oK k)) (fun r => rT r k)] else [].
Definition eSW : list (event (mat K)) := if 1 <? P then flat_map (fun j => [eallred P Q (cm Col (oC j)) (fun r => w2 r j)]) (zrange 0 NC) else [].
Definition eBW : list (event (mat K)) := ebc1 P Q LsV Row (oK k) pW (mPW n mb b k) i0 nrt.
Definition eBV : list (event (mat K)) := ebc1 P Q LsV Row (oK k) pV (mPV n mb b k) i0 nrt.
Definition e_dbt : list (event (mat K)) :=
  each xV jobV ++ each xT job0 ++ each xT jobG ++ eST ++ each xT jobM ++ each xW jobW ++
  each (fun r => cols_of r) jobZ ++ eBW ++ each (fun r => pairs_of r) jobU ++ eSW ++ eBV ++ each (fun r => pairs_of r) jobC.

Lemma setup_glob : forall r, In r rks -> ownk r = true -> d_setup_V Q n mb b DV r k = flat_map (fun i => [jobV r i]) (xV r).
Proof using GAV NTV SZV Hb Hmb K0 K1.
  intros r R O. unfold d_setup_V, xV. rewrite O, <- flat_filter. apply rows_flat; [exact R|]. intros l Il. cbv zeta. rewrite rows_eq, vsub_eq, kcol_eq by assumption.
  destruct (pV_eq r R) as (E & _). unfold jobV, p_int. rewrite E. reflexivity.
Qed.
Lemma gemv_glob : forall r, In r rks -> d_gemv Q n mb b DV avail_t r k = jobG r tt.
Proof using GAV NTV Hb Hmb K0 K1.
  intros r R. unfold d_gemv, jobG. f_equal. f_equal. apply rows_map; [exact R|]. intros l Il. apply tile_ext. apply pV_eq. exact R.
Qed.
Lemma W_glob : forall r, In r rks -> ownk r = true -> d_W kn Q n mb b DV r k = flat_map (fun i => [jobW r i]) (xW r).
Proof using GAV NTV SZV Hb Hmb K0 K1.
  intros r R O. unfold d_W, xW. rewrite O, flat1. apply rows_map; [exact R|]. intros l Il. cbv zeta. rewrite rows_eq by assumption. rewrite (tile_ext r _ _ _ (pV_eq r R)). reflexivity.
Qed.
Lemma cols_glob : forall r, In r rks -> map (t_gl Q DC r Col) (zrange (t_nx Q DC r Col 0) (t_nx Q DC r Col (ax_nr_tiles (ax Q DC r Col)))) = cols_of r.
Proof using GAV GAC TC NTC. intros r R. apply (nx_colsC P Q LsV LsC DV DC DC ntV ntC GAV GAC tc TC (fun _ _ => eq_refl) NTC r R). Qed.
Lemma Z_glob : forall r, In r rks -> d_set0_W2 Q n mb b DC r k = flat_map (fun j => [jobZ r j]) (cols_of r).
Proof using GAV GAC TC NTC. intros r R. unfold d_set0_W2. cbn [pW2_empty fresh_panel p_lo p_hi]. rewrite flat1. rewrite <- (cols_glob r R), map_map. reflexivity. Qed.
Lemma csub_eq : forall r l, In r rks -> In (t_gl Q DC r Row l) (rows_of r) -> csub Q mb b DC r k l = ri (t_gl Q DC r Row l).
Proof using GAV ECR Hb Hmb K0 K1.
  intros r l R I0. unfold csub, bri. destruct (Z.eqb_spec (t_gl Q DC r Row l) i0) as [E|E]; [|rewrite andb_false_r; reflexivity]. rewrite andb_true_r.
  assert (X : t_own Q DC r Row i0 = co Row r).
  { unfold t_own. rewrite axCR by exact R. pose proof I0B. change (ax_rank_global_tile (ax Q DV r Row) i0) with (t_own Q DV r Row i0). rewrite (t_own_eq _ _ _ _ _ GAV) by (try exact R; lia).
    rewrite E in I0. apply rows_bound in I0. apply I0. }
  rewrite X, Z.eqb_refl. reflexivity.
Qed.
Lemma pairs_map : forall {X} (f g : Z * Z -> X) r, In r rks ->
  (forall l, In (t_gl Q DC r Row (fst l)) (rows_of r) -> In (t_gl Q DC r Col (snd l)) (cols_of r) -> f l = g (t_gl Q DC r Row (fst l), t_gl Q DC r Col (snd l))) ->
  map f (range2d (t_nx Q DC r Row i0) (lnt Q DC r Row) 0 (lnt Q DC r Col)) = map g (pairs_of r).
Proof using GAV GAC TC ECR NTV NTC Hb Hmb K0 K1.
  intros X f g r R E. pose proof I0B. rewrite (nxR P Q LsV DV DC ntV GAV ECR r i0 R). rewrite (lntR P Q LsV DV DC ntV GAV tr ECR NTR r R). cbn [tl_n].
  rewrite <- (range_glob P Q LsV LsC DV DC DC ntV ntC GAV GAC tr tc TC (fun _ _ => eq_refl) NTR NTC r i0 nrt R) by (cbn [tl_n]; lia). rewrite map_map. apply map_ext_in. intros l Il.
  assert (I2 : In (t_gl Q DV r Row (fst l), t_gl Q DC r Col (snd l)) (pairs_of r)).
  { rewrite <- (range_glob P Q LsV LsC DV DC DC ntV ntC GAV GAC tr tc TC (fun _ _ => eq_refl) NTR NTC r i0 nrt R) by (cbn [tl_n]; lia).
    apply (in_map (fun l => (t_gl Q DV r Row (fst l), t_gl Q DC r Col (snd l)))). exact Il. }
  apply gpairs_in in I2 as [I2 I3]. rewrite <- (glR P Q LsV DV DC ntV GAV ECR r (fst l) R) in *. apply E; assumption.
Qed.
Lemma sz_eqC : forall r i, In r rks -> In i (rows_of r) -> szt Q DC r Row i = r2b_sz n mb i.
Proof using GAV ECR SZV Hb Hmb K0 K1. intros r i R I0. unfold szt. rewrite axCR by exact R. apply sz_eq; assumption. Qed.
Lemma U_glob : forall r, In r rks -> d_W2 kn Q n mb b DV DC r k = flat_map (fun ij => [jobU r ij]) (pairs_of r).
Proof using GAV GAC TC ECR NTV NTC SZV SZC Hb Hmb K0 K1.
  intros r R. unfold d_W2. rewrite flat1. apply pairs_map; [exact R|]. intros l I1 I2. cbv zeta. rewrite csub_eq, sz_eqC by assumption. apply cols_in in I2 as [L2 _]. rewrite SZC by assumption.
  rewrite <- (glR P Q LsV DV DC ntV GAV ECR r (fst l) R). unfold jobU. cbn [fst snd]. reflexivity.
Qed.
Lemma C_glob : forall r, In r rks -> d_update kn Q n mb b DV DC r k = flat_map (fun ij => [jobC r ij]) (pairs_of r).
Proof using GAV GAC TC ECR NTV NTC SZV SZC Hb Hmb K0 K1.
  intros r R. unfold d_update. rewrite flat1. apply pairs_map; [exact R|]. intros l I1 I2. cbv zeta. rewrite csub_eq, sz_eqC by assumption. apply cols_in in I2 as [L2 _]. rewrite SZC by assumption.
  rewrite <- (glR P Q LsV DV DC ntV GAV ECR r (fst l) R). rewrite (tile_ext r _ _ _ (pV_eq r R)). unfold jobC. cbn [fst snd]. reflexivity.
Qed.
Lemma rK : 0 <= oK k < gs P Q Col. Proof using GAV. apply (own_range _ _ _ _ _ GAV). Qed.
Lemma rCc : forall j, 0 <= oC j < gs P Q Col. Proof using GAC. intros. apply (own_range _ _ _ _ _ GAC). Qed.
Lemma RNGV : (0 <= i0 <= nrt) /\ nrt <= ntV Row. Proof using NTV Hb Hmb K0 K1. pose proof I0B. rewrite (proj1 NTV). lia. Qed.
Lemma each_proj : forall {X} (xs : Z -> list X) (job : Z -> X -> tjob (mat K)) r, In r rks -> proj mem r (each xs job) = map ALoc (flat_map (fun x => [job r x]) (xs r)).
Proof using GAV. intros X xs job r R. exact (elocal_proj P Q HP HQ (fun r => flat_map (fun x => [job r x]) (xs r)) r R). Qed.
Lemma sumT_proj : forall r, In r rks -> proj mem r eST = if ownk r then d_sum_T P Q r k else [].
Proof using GAV.
  intros r R. unfold eST, d_sum_T. destruct (1 <? P); [|destruct (ownk r); reflexivity]. rewrite eallred_proj. rewrite (member_cm _ _ _ _ _ GAV) by exact R.
  unfold ownk. destruct (Z.eqb_spec (oK k) (co Col r)) as [->|]; reflexivity.
Qed.
Lemma sumW_proj : forall r, In r rks -> proj mem r eSW = d_sum_W2 P Q n mb b DC r k.
Proof using GAV GAC TC NTC.
  intros r R. unfold eSW, d_sum_W2. destruct (1 <? P); [|reflexivity]. rewrite (proj_flat P Q).
  rewrite (flat_map_ext_in (fun j => proj mem r [eallred P Q (cm Col (oC j)) (fun r => w2 r j)]) (fun j => if oC j =? co Col r then [ACom (all_reduce P Q (cm Col (co Col r)) (w2 r j))] else [])).
  - rewrite flat_filter'. change (filter (fun j => oC j =? co Col r) (zrange 0 NC)) with (cols_of r). rewrite <- (cols_glob r R), flat_map_map. reflexivity.
  - intros j _. rewrite eallred_proj. rewrite (member_cm _ _ _ _ _ GAV) by exact R. destruct (Z.eqb_spec (oC j) (co Col r)) as [->|]; reflexivity.
Qed.
Lemma dbt_proj : forall r, In r rks -> dbt_step kn P Q n mb b DV DC avail_t r k = proj mem r e_dbt.
Proof using GAV GAC TC ECR NTV NTC SZV SZC Hb Hmb K0 K1.
  intros r R. unfold dbt_step, e_dbt. rewrite !(proj_app' P Q). rewrite !each_proj, sumT_proj, sumW_proj by exact R.
  rewrite on_col_eq by exact R. rewrite (t_own_eq _ _ _ _ _ GAV) by assumption.
  unfold eBW, eBV. rewrite <- (ebc1_proj P Q LsV DV ntV GAV Row (oK k) rK pW) by (try exact RNGV; try exact R; intros; repeat split).
  rewrite <- (ebc1_proj P Q LsV DV ntV GAV Row (oK k) rK pV) by (try exact RNGV; try exact R; intros; repeat split).
  rewrite (bc_ext P Q DV Row r _ _ _ (pV_eq r R)). rewrite U_glob, C_glob, Z_glob by exact R.
  assert (EW : pW_empty Q n mb b DV r k = pW r) by (unfold pW_empty, pW; rewrite (rank_nt _ _ _ _ _ GAV) by exact R; rewrite (proj1 NTV); reflexivity). rewrite EW.
  destruct (ownk r) eqn:O.
  - rewrite setup_glob, W_glob, gemv_glob by assumption. unfold xT. rewrite O. cbn [flat_map app]. rewrite !map_app. cbn [map]. rewrite <- !app_assoc. reflexivity.
  - unfold xV, xT, xW. rewrite O. reflexivity.
Qed.

(** *** One phase: every rank runs its tasks, that write different tiles of a matrix none of them reads *)
Lemma each_run : forall {X} (xs : Z -> list X) (job : Z -> X -> tjob (mat K)) mat st,
  (forall r, In r rks -> NoDup (xs r)) ->
  (forall r x, In r rks -> In x (xs r) -> t_rank (tj_out (job r x)) = r /\ t_mat (tj_out (job r x)) = mat) ->
  (forall r x u, In r rks -> In x (xs r) -> In u (tj_in (job r x)) -> t_rank u = r /\ t_mat u <> mat) ->
  (forall r a c, In r rks -> In a (xs r) -> In c (xs r) -> tj_out (job r a) = tj_out (job r c) -> a = c) ->
  Forall (event_ok mem rks) (each xs job) /\
  (forall r x, In r rks -> In x (xs r) -> erun mem (each xs job) st (tj_out (job r x)) = tval (job r x) st) /\
  (forall y, (forall r x, In r rks -> In x (xs r) -> tj_out (job r x) <> y) -> erun mem (each xs job) st y = st y) /\
  (forall y, t_mat y <> mat -> erun mem (each xs job) st y = st y).
Proof using GAV.
  intros X xs job mat st ND OUT IN INJ. destruct (phase_each P Q HP HQ xs job st) as (A & B & C).
  - exact ND.
  - intros r x u R Ix [I0| ->]; [apply (IN r x u R Ix I0)|apply OUT; assumption].
  - exact INJ.
  - intros r a c R Ia Ic I0. apply (IN r a _ R Ia I0). apply OUT; assumption.
  - split; [apply elocal_ok; exact A|]. split; [exact B|]. split; [exact C|]. intros y Y. apply C. intros r x R Ix E. apply Y. rewrite <- E. apply OUT; assumption.
Qed.
Lemma xV_in : forall r i, In i (xV r) <-> ownk r = true /\ In i (rows_of r) /\ jd i < nr.
Proof using. intros r i. unfold xV. destruct (ownk r); [|split; [intros []|intros [E _]; discriminate E]]. rewrite filter_In, Z.ltb_lt. split; [intros [A B]; auto|intros (_ & A & B); auto]. Qed.
Lemma xW_in : forall r i, In i (xW r) <-> ownk r = true /\ In i (rows_of r).
Proof using. intros r i. unfold xW. destruct (ownk r); [|split; [intros []|intros [E _]; discriminate E]]. split; [intros A; auto|intros [_ A]; exact A]. Qed.
Lemma xT_in : forall r x, In x (xT r) <-> ownk r = true.
Proof using. intros r []. unfold xT. destruct (ownk r); split; [reflexivity|intros _; left; reflexivity|intros []|intros E; discriminate E]. Qed.
Ltac ids := pose proof ids; pose proof idsW; pose proof idsW2.
Lemma V_phase : forall st, let s := erun mem (each xV jobV) st in
  Forall (event_ok mem rks) (each xV jobV) /\
  (forall r i, In r rks -> In i (xV r) -> s (Tid r (mPV n mb b k) i 0) = tval (jobV r i) st) /\
  (forall y, t_mat y <> mPV n mb b k -> s y = st y).
Proof using GAV.
  intros st s. ids. destruct (each_run xV jobV (mPV n mb b k) st) as (A & B & _ & D).
  - intros r R. unfold xV. destruct (ownk r); [|constructor]. apply filter_nodup. apply rows_nd.
  - intros r i R I0. split; reflexivity.
  - intros r i u R I0 [<-|[]]. cbn [rV t_rank t_mat]. split; [reflexivity|lia].
  - intros r a c R _ _ E. cbn in E. congruence.
  - split; [exact A|]. split; [exact B|exact D].
Qed.
Lemma T_phase : forall (job : Z -> unit -> tjob (mat K)) st, (forall r x, tj_out (job r x) = rT r k) ->
  (forall r x u, In r rks -> In u (tj_in (job r x)) -> t_rank u = r /\ t_mat u <> 3) ->
  let s := erun mem (each xT job) st in
  Forall (event_ok mem rks) (each xT job) /\
  (forall r, In r rks -> ownk r = true -> s (rT r k) = tval (job r tt) st) /\
  (forall y, t_mat y <> 3 -> s y = st y).
Proof using GAV.
  intros job st OUT IN s. destruct (each_run xT job 3 st) as (A & B & _ & D).
  - intros r R. unfold xT. destruct (ownk r); [|constructor]. constructor; [intros []|constructor].
  - intros r x R I0. rewrite OUT. split; reflexivity.
  - intros r i u R I0. apply IN. exact R.
  - intros r [] [] _ _ _ _. reflexivity.
  - split; [exact A|]. split; [|exact D]. intros r R O. specialize (B r tt R). rewrite OUT in B. apply B. apply xT_in. exact O.
Qed.
Lemma W_phase : forall st, let s := erun mem (each xW jobW) st in
  Forall (event_ok mem rks) (each xW jobW) /\
  (forall r i, In r rks -> In i (xW r) -> s (Tid r (mPW n mb b k) i 0) = tval (jobW r i) st) /\
  (forall y, t_mat y <> mPW n mb b k -> s y = st y).
Proof using GAV.
  intros st s. ids. destruct (each_run xW jobW (mPW n mb b k) st) as (A & B & _ & D).
  - intros r R. unfold xW. destruct (ownk r); [|constructor]. apply rows_nd.
  - intros r i R I0. split; reflexivity.
  - intros r i u R I0 [<-|[<-|[]]]; [cbn [rT t_rank t_mat]; split; [reflexivity|lia]|]. split; [apply vid_rank|]. destruct (vid_mat r i) as [-> | ->]; lia.
  - intros r a c R _ _ E. cbn in E. congruence.
  - split; [exact A|]. split; [exact B|exact D].
Qed.
Lemma Z_phase : forall st, let s := erun mem (each (fun r => cols_of r) jobZ) st in
  Forall (event_ok mem rks) (each (fun r => cols_of r) jobZ) /\
  (forall r j, In r rks -> In j (cols_of r) -> s (w2 r j) = fun _ _ => f0) /\
  (forall y, t_mat y <> mW2 n mb b k -> s y = st y).
Proof using GAV.
  intros st s. ids. destruct (each_run (fun r => cols_of r) jobZ (mW2 n mb b k) st) as (A & B & _ & D).
  - intros r R. apply cols_nd.
  - intros r i R I0. split; reflexivity.
  - intros r i u R I0 [].
  - intros r a c R _ _ E. cbn in E. unfold w2 in E. congruence.
  - split; [exact A|]. split; [|exact D]. intros r j R Ij. apply (B r j R Ij).
Qed.
Lemma C_phase : forall st, let s := erun mem (each (fun r => pairs_of r) jobC) st in
  Forall (event_ok mem rks) (each (fun r => pairs_of r) jobC) /\
  (forall r ij, In r rks -> In ij (pairs_of r) -> s (rC r (fst ij) (snd ij)) = tval (jobC r ij) st) /\
  (forall y, (forall r ij, In r rks -> In ij (pairs_of r) -> rC r (fst ij) (snd ij) <> y) -> s y = st y) /\
  (forall y, t_mat y <> 2 -> s y = st y).
Proof using GAV.
  intros st s. ids. destruct (each_run (fun r => pairs_of r) jobC 2 st) as (A & B & C & D).
  - intros r R. apply gpairs_nd.
  - intros r i R I0. split; reflexivity.
  - intros r [i j] u R I0 [<-|[<-|[]]]; [|cbn [w2 t_rank t_mat]; split; [reflexivity|lia]]. split; [apply vid_rank|]. destruct (vid_mat r (fst (i, j))) as [-> | ->]; lia.
  - intros r [i j] [i' j'] R _ _ E. cbn in E. unfold rC in E. injection E as -> ->. reflexivity.
  - split; [exact A|]. split; [exact B|]. split; [exact C|exact D].
Qed.
(** accumulation of W2 *)
Lemma U_own : forall r, In r rks -> own_tiles r (flat_map (fun ij => [jobU r ij]) (pairs_of r)).
Proof using. intros r R. apply own_flat. intros [i j] _. apply own_one. cbn [jobU tj_in tj_out fst snd]. intros u [[<-|[<-|[]]]| ->]; reflexivity. Qed.
Lemma U_phase : forall st, let s := erun mem (each (fun r => pairs_of r) jobU) st in
  Forall (event_ok mem rks) (each (fun r => pairs_of r) jobU) /\
  (forall r j p q, In r rks -> In j (cols_of r) -> 0 <= p < nr -> 0 <= q < tl_sz tc j ->
     s (w2 r j) p q = fadd (st (w2 r j) p q) (lsum (rows_of r) (fun i => mmul (rows i) (opm ConjTrans (st (p_tile r (pW r) i))) (sub (ri i) 0 (st (rC r i j))) p q))) /\
  (forall y, t_mat y <> mW2 n mb b k -> s y = st y).
Proof using GAV KO.
  intros st s. ids. split; [apply elocal_ok; exact U_own|]. split.
  - intros r j p q R Ij Lp Lq. unfold s, each. rewrite (elocal_at P Q HP HQ _ st (w2 r j) r U_own R eq_refl). rewrite flat1.
    rewrite (DistTriProofs.acc_run (jobU r) (pairs_of r) st (w2 r j) (fun X => X p q)
      (fun ij => mmul (rows (fst ij)) (opm ConjTrans (st (p_tile r (pW r) (fst ij)))) (sub (ri (fst ij)) 0 (st (rC r (fst ij) (snd ij)))) p q)).
    + f_equal. rewrite (gsum_ext (pairs_of r) _ (fun x => if snd x =? j then mmul (rows (fst x)) (opm ConjTrans (st (p_tile r (pW r) (fst x)))) (sub (ri (fst x)) 0 (st (rC r (fst x) j))) p q else f0)).
      * unfold gpairs. apply (gsum_left (rows_of r) (cols_of r) j (fun i => mmul (rows i) (opm ConjTrans (st (p_tile r (pW r) i))) (sub (ri i) 0 (st (rC r i j))) p q) (cols_nd Q LsC tc r) Ij).
      * intros [i j'] _. cbn [jobU tj_out fst snd]. unfold w2. destruct (Z.eqb_spec j' j) as [->|N].
        -- destruct (tid_eqb_spec (Tid r (mW2 n mb b k) j 0) (Tid r (mW2 n mb b k) j 0)); [reflexivity|congruence].
        -- destruct (tid_eqb_spec (Tid r (mW2 n mb b k) j' 0) (Tid r (mW2 n mb b k) j 0)) as [E|]; [injection E as E; congruence|reflexivity].
    + intros [i j'] I0 E s1 F1. cbn [jobU tj_out fst snd] in E. unfold w2 in E. injection E as ->. unfold tval. cbn [jobU tj_in tj_out tj_fun map in2 fst snd].
      rewrite (gemm_ok kn KO _ _ _ _ _ _ _ _ _ _ p q Lp Lq). rewrite (F1 (p_tile r (pW r) i)), (F1 (rC r i j)).
      * change (opm NoTrans (sub (ri i) 0 (st (rC r i j)))) with (sub (ri i) 0 (st (rC r i j))). ring.
      * intros [i' j''] _ E. cbn [jobU tj_out fst snd] in E. apply (f_equal t_mat) in E. cbn [w2 rC p_tile pW fresh_panel p_ext p_int p_id t_mat] in E. lia.
      * intros [i' j''] _ E. cbn [jobU tj_out fst snd] in E. apply (f_equal t_mat) in E. cbn [w2 rC p_tile pW fresh_panel p_ext p_int p_id t_mat] in E. lia.
  - intros y Y. unfold s, each. apply (elocal_frame P Q HP HQ _ st y U_own). intros r jb R I0 E. apply in_flat_map in I0 as ([i j] & _ & [<-|[]]). apply Y. rewrite <- E. reflexivity.
Qed.
(** sums over the process columns *)
Lemma sumT_run : forall st, let s := erun mem eST st in
  Forall (event_ok mem rks) eST /\
  (forall r p q, In r rks -> ownk r = true -> s (rT r k) p q = lsum (zrange 0 P) (fun x => st (rT (mk Q Row x (oK k)) k) p q)) /\
  (forall y, t_mat y <> 3 -> s y = st y).
Proof using GAV.
  intros st s. unfold s, eST. destruct (Z.ltb_spec 1 P) as [L|L].
  - split; [constructor; [|constructor]; apply (eallred_ok P Q HP HQ); reflexivity|]. cbn [erun fold_left]. split.
    + intros r p q R O. apply Z.eqb_eq in O. rewrite (eallred_at P Q (cm Col (oK k)) (fun r => rT r k) st r).
      * rewrite msum_lsum. rewrite memC by apply rK. generalize (zrange 0 P). intros l. unfold lsum. induction l as [|x l IH]; cbn [map fold_right]; [reflexivity|]. rewrite IH. reflexivity.
      * apply (in_cm P Q HP HQ). auto.
      * reflexivity.
    + intros y Y. apply eallred_frame. intros r _ ->. apply Y. reflexivity.
  - split; [constructor|]. split; [|reflexivity]. intros r p q R O. apply Z.eqb_eq in O. cbn [erun fold_left]. assert (E1 : P = 1) by lia. rewrite E1. change (zrange 0 1) with [0]. cbn [lsum fold_right].
    assert (E : r = mk Q Row 0 (oK k)).
    { rewrite O. pose proof (rank_co _ _ _ _ _ GAV r Row R) as X. cbn [gs] in X. replace 0 with (co Row r) by lia. symmetry. apply (mk_co P Q HP HQ Row r). }
    rewrite <- E. ring.
Qed.
Lemma w2_inj : forall r j r' j', w2 r j = w2 r' j' -> r = r' /\ j = j'.
Proof using. intros r j r' j' E. unfold w2 in E. injection E as -> ->. auto. Qed.
Lemma sumW_run : forall st, let s := erun mem eSW st in
  Forall (event_ok mem rks) eSW /\
  (forall r j p q, In r rks -> In j (cols_of r) -> s (w2 r j) p q = lsum (zrange 0 P) (fun x => st (w2 (mk Q Row x (oC j)) j) p q)) /\
  (forall y, t_mat y <> mW2 n mb b k -> s y = st y).
Proof using GAV GAC.
  intros st s. unfold s, eSW. destruct (Z.ltb_spec 1 P) as [L|L].
  - split; [apply forall_flat; intros j _; constructor; [|constructor]; apply (eallred_ok P Q HP HQ); reflexivity|].
    set (ev := fun j => eallred (K := K) P Q (cm Col (oC j)) (fun r => w2 r j)).
    assert (G : forall l, NoDup l -> (forall r j, In r rks -> In j l -> oC j = co Col r -> erun mem (flat_map (fun j => [ev j]) l) st (w2 r j) = msum (map (fun q => st (w2 q j)) (mem (cm Col (oC j))))) /\
      (forall x, (forall r j, In j l -> x <> w2 r j) -> erun mem (flat_map (fun j => [ev j]) l) st x = st x)).
    { induction l as [|j l IH] using rev_ind; intros ND; [split; [intros r j _ []|reflexivity]|]. apply NoDup_remove in ND as [ND NI]. rewrite app_nil_r in ND, NI. destruct (IH ND) as [I1 I2].
      rewrite flat_map_app. cbn [flat_map app]. rewrite erun_app. set (s1 := erun mem (flat_map (fun j => [ev j]) l) st) in *. cbn [erun fold_left].
      assert (FR : forall x, (forall r, x <> w2 r j) -> eexec mem s1 (ev j) x = s1 x) by (intros x X; apply eallred_frame; intros r _; apply X). split.
      - intros r j' R Ij' O. apply in_app_or in Ij' as [Ij'|[<-|[]]].
        + rewrite FR; [apply I1; assumption|]. intros r' E. apply w2_inj in E as [_ ->]. contradiction.
        + unfold ev. rewrite (eallred_at P Q (cm Col (oC j)) (fun r => w2 r j) s1 r).
          * f_equal. apply map_ext. intros q. apply I2. intros r' j' Ij' E. apply w2_inj in E as [_ ->]. contradiction.
          * apply (in_cm P Q HP HQ). auto.
          * reflexivity.
      - intros x X. rewrite FR; [apply I2; intros r' j' Ij'; apply X; apply in_or_app; left; exact Ij'|]. intros r. apply X. apply in_or_app. right. left. reflexivity. }
    destruct (G (zrange 0 NC) (zrange_NoDup 0 NC)) as [G1 G2]. split.
    + intros r j p q R Ij. apply cols_in in Ij as [Lj O]. rewrite G1 by (try exact R; try exact O; apply in_zrange; exact Lj). rewrite msum_lsum. rewrite memC by apply rCc. generalize (zrange 0 P). intros l. unfold lsum. induction l as [|x l IH]; cbn [map fold_right]; [reflexivity|]. rewrite IH. reflexivity.
    + intros x X. apply G2. intros r j _ ->. apply X. reflexivity.
  - split; [constructor|]. split; [|reflexivity]. intros r j p q R Ij. apply cols_in in Ij as [Lj O]. cbn [erun fold_left]. assert (E1 : P = 1) by lia. rewrite E1. change (zrange 0 1) with [0]. cbn [lsum fold_right].
    assert (E : r = mk Q Row 0 (oC j)).
    { rewrite O. pose proof (rank_co _ _ _ _ _ GAV r Row R) as X. cbn [gs] in X. replace 0 with (co Row r) by lia. symmetry. apply (mk_co P Q HP HQ Row r). }
    rewrite <- E. ring.
Qed.
(** broadcasts *)
Lemma bW_run : forall st, let s := erun mem eBW st in
  Forall (event_ok mem rks) eBW /\
  (forall r i, In r rks -> In i (rows_of r) -> s (p_tile r (pW r) i) = st (Tid (wV i k) (mPW n mb b k) i 0)) /\
  (forall y, t_mat y <> mPW n mb b k -> s y = st y).
Proof using GAV NTV Hb Hmb K0 K1.
  intros st s. split; [apply (ebc1_ok P Q LsV DV ntV GAV Row (oK k) rK pW); reflexivity|].
  destruct (ebc1_run (V := mat K) P Q LsV DV ntV GAV Row (oK k) rK pW (mPW n mb b k) i0 nrt) with (st := st) as [A B].
  - intros; repeat split.
  - exact RNGV.
  - reflexivity.
  - reflexivity.
  - split.
    + intros r i R I0. apply rows_bound in I0 as [L O]. unfold s, eBW. rewrite A by assumption. reflexivity.
    + intros y Y. apply B. intros r i _ _ _ _ ->. apply Y. reflexivity.
Qed.
Lemma bV_run : forall st, let s := erun mem eBV st in
  Forall (event_ok mem rks) eBV /\
  (forall r i, In r rks -> In i (rows_of r) -> s (vid r i) = st (vid (wV i k) i)) /\
  (forall y, t_mat y <> mPV n mb b k -> s y = st y).
Proof using GAV NTV Hb Hmb K0 K1.
  intros st s. split; [apply (ebc1_ok P Q LsV DV ntV GAV Row (oK k) rK pV); intros; apply vid_rank|].
  destruct (ebc1_run (V := mat K) P Q LsV DV ntV GAV Row (oK k) rK pV (mPV n mb b k) i0 nrt) with (st := st) as [A B].
  - intros; repeat split.
  - exact RNGV.
  - intros; apply vid_rank.
  - intros r i R C _ _. cbn [pV p_ext]. unfold ownk. destruct (Z.eqb_spec (oK k) (co Col r)) as [E|E]; [exfalso; apply C; symmetry; exact E|reflexivity].
  - split.
    + intros r i R I0. apply rows_bound in I0 as [L O]. unfold s, eBV. rewrite A by assumption. reflexivity.
    + intros y Y. apply B. intros r i _ _ _ _ ->. apply Y. reflexivity.
Qed.
Lemma G_in : forall r x u, In u (tj_in (jobG r x)) -> t_rank u = r /\ t_mat u <> 3.
Proof using.
  intros r x u I0. ids. cbn [jobG tj_in] in I0. apply in_app_or in I0 as [I0|[<-|[]]]; [|split; [reflexivity|discriminate]]. apply in_map_iff in I0 as (i & <- & _). split; [apply vid_rank|].
  destruct (vid_mat r i) as [-> | ->]; lia.
Qed.
Lemma dbt_ok : Forall (event_ok mem rks) e_dbt.
Proof using GAV GAC KO NTV Hb Hmb K0 K1.
  pose (st := fun (_ : tid) (_ _ : Z) => @f0 K). unfold e_dbt. repeat (apply Forall_app; split).
  - apply (V_phase st).
  - apply (T_phase job0 st); [reflexivity|intros r x u _ []].
  - apply (T_phase jobG st); [reflexivity|intros r x u _; apply G_in].
  - apply (sumT_run st).
  - apply (T_phase jobM st); [reflexivity|]. intros r x u _ [<-|[]]. split; [reflexivity|discriminate].
  - apply (W_phase st).
  - apply (Z_phase st).
  - apply (bW_run st).
  - apply (U_phase st).
  - apply (sumW_run st).
  - apply (bV_run st).
  - apply (C_phase st).
Qed.
(** *** Values *)
Local Open Scope sf_scope.
Definition mV (st : tstore (mat K)) : mat K := fun a c => st (rV (wV (a / mb) (c / mb)) (a / mb) (c / mb)) (a mod mb)%Z (c mod mb)%Z.
Definition mC (st : tstore (mat K)) : mat K := fun a c => st (rC (wC (a / mb) (tl_tile tc c)) (a / mb) (tl_tile tc c)) (a mod mb)%Z (c - tl_off tc (tl_tile tc c))%Z.
Definition voff (i : Z) : Z := tl_off t (i - i0).
Definition vhas (V : mat K) (r : Z) (s : tstore (mat K)) : Prop := forall i p q, In i (rows_of r) -> (0 <= p < rows i)%Z -> (0 <= q < nr)%Z -> s (vid r i) p q = V (voff i + p)%Z q.
Lemma wV_co : forall i j, co Row (wV i j) = oR i /\ co Col (wV i j) = oK j.
Proof using GAV. intros. apply (co_mk P Q HP HQ Row); apply (own_range _ _ _ _ _ GAV). Qed.
Lemma wV_in : forall i j, In (wV i j) rks.
Proof using GAV. intros. apply (mk_rank _ _ _ _ _ GAV Row); apply (own_range _ _ _ _ _ GAV). Qed.
Lemma wV_r : forall r i, In r rks -> ownk r = true -> In i (rows_of r) -> wV i k = r.
Proof using GAV. intros r i R O I0. apply Z.eqb_eq in O. apply rows_bound in I0 as [_ OR]. unfold wV. rewrite OR, O. apply (mk_co P Q HP HQ Row). Qed.
Lemma wV_own : forall i, ownk (wV i k) = true.
Proof using GAV. intros i. unfold ownk. rewrite (proj2 (wV_co i k)). apply Z.eqb_refl. Qed.
Lemma row_x : forall r i, In i (rows_of r) -> (0 <= i - i0 < tl_n t)%Z /\ tl_sz t (i - i0) = rows i /\ (i0 + (i - i0))%Z = i.
Proof using. intros r i I0. apply rows_bound in I0 as [L _]. rewrite btl_n. split; [lia|]. split; [|lia]. cbn [tl_sz btl]. f_equal. lia. Qed.
Lemma bok : tiling_ok t. Proof using Hb Hmb K0 K1. apply btl_ok; assumption. Qed.
Lemma V_val : forall st r, In r rks -> ownk r = true -> vhas (unit_lower (fun a q => mV st (e + a)%Z (k * mb + q)%Z)) r (erun mem (each xV jobV) st).
Proof using GAV Hb Hmb K0 K1.
  intros st r R O i p q Ii Lp Lq. destruct (V_phase st) as (_ & R1 & R2). destruct (row_x r i Ii) as (Lx & SX & EX).
  pose proof (j_diag_off n mb b Hb Hmb k K0 K1 (i - i0) Lx) as JD. pose proof (off_nonneg t bok (i - i0) ltac:(lia)) as OF. rewrite EX in JD.
  assert (GV : mV st (e + (voff i + p))%Z (k * mb + q)%Z = sub (ri i) 0 (st (rV r i k)) p q).
  { unfold mV, sub, voff. destruct (b_loc_row n mb b Hb Hmb k K0 K1 (i - i0) p Lx ltac:(rewrite SX; exact Lp)) as [-> ->], (b_loc_col n mb b Hb Hmb k K0 K1 q Lq) as [-> ->]. rewrite EX, Z.add_0_l.
    rewrite (wV_r r i R O Ii). reflexivity. }
  unfold unit_lower. rewrite GV. rewrite vid_eq by exact Ii. rewrite O. cbn [andb]. unfold voff. destruct (Z.ltb_spec (jd i) nr) as [J|J]; cbn [negb].
  - rewrite R1 by (try exact R; apply xV_in; auto). unfold tval. cbn [jobV tj_fun tj_in tj_out map in1]. unfold hh_upper. rewrite JD.
    match goal with |- context [paste 0 0 (rows i) nr ?X ?Y p q] => assert (PS : paste 0 0 (rows i) nr X Y p q = Y p q) end.
    { unfold paste. destruct (Z.leb_spec 0 p), (Z.ltb_spec p (0 + rows i)), (Z.leb_spec 0 q), (Z.ltb_spec q (0 + nr)); try lia. cbn [andb]. rewrite !Z.sub_0_r. reflexivity. }
    rewrite PS. destruct (Z.leb_spec 0 p), (Z.ltb_spec p (rows i)), (Z.ltb_spec q nr); try lia. cbn [andb]. rewrite andb_true_r.
    destruct (Z.leb_spec (tl_off t (i - i0)) q), (Z.eqb_spec p (q - tl_off t (i - i0))), (Z.ltb_spec p (q - tl_off t (i - i0))), (Z.eqb_spec (tl_off t (i - i0) + p) q), (Z.ltb_spec q (tl_off t (i - i0) + p)); try lia; reflexivity.
  - rewrite R2 by (pose proof ids; cbn [rV t_mat]; lia). destruct (Z.eqb_spec (tl_off t (i - i0) + p) q), (Z.ltb_spec q (tl_off t (i - i0) + p)); try lia.
    unfold sub, bri. destruct (Z.eqb_spec i i0) as [E0|E0]; [|rewrite !Z.add_0_l; reflexivity].
    subst i. rewrite Z.sub_diag, off_0 in JD. pose proof NRP. lia.
Qed.
(** local part of V^H V *)
Lemma nth_rows : forall r x, In r rks -> (0 <= x < Z.of_nat (length (v_rows Q mb b DV r k)))%Z -> nth (Z.to_nat x) (rows_of r) 0%Z = t_gl Q DV r Row (t_nx Q DV r Row i0 + x)%Z.
Proof using GAV NTV Hb Hmb K0 K1.
  intros r x R L. rewrite <- v_rows_map by exact R. apply nth_error_nth. rewrite nth_error_map. unfold v_rows in *. pose proof (zrange_length (t_nx Q DV r Row i0) (lnt Q DV r Row)).
  rewrite zrange_nth by lia. reflexivity.
Qed.
Lemma len_rows : forall r, In r rks -> length (rows_of r) = length (v_rows Q mb b DV r k).
Proof using GAV NTV Hb Hmb K0 K1. intros r R. rewrite <- v_rows_map by exact R. apply map_length. Qed.
Lemma ltl_sz : forall r x, In r rks -> (0 <= x < tl_n (local_tl Q mb b DV r k))%Z -> tl_sz (local_tl Q mb b DV r k) x = rows (nth (Z.to_nat x) (rows_of r) 0%Z) /\ In (nth (Z.to_nat x) (rows_of r) 0%Z) (rows_of r).
Proof using GAV NTV SZV Hb Hmb K0 K1.
  intros r x R L. cbn [local_tl tl_n tl_sz] in *. rewrite nth_rows by assumption.
  assert (I0 : In (t_nx Q DV r Row i0 + x)%Z (v_rows Q mb b DV r k)) by (unfold v_rows in *; pose proof (zrange_length (t_nx Q DV r Row i0) (lnt Q DV r Row)); apply in_zrange; lia).
  split; [apply rows_eq; assumption|apply gl_in; assumption].
Qed.
Lemma ltl_ok : forall r, In r rks -> tiling_ok (local_tl Q mb b DV r k).
Proof using GAV NTV SZV Hb Hmb K0 K1.
  intros r R. split; [cbn [local_tl tl_n]; lia|]. intros x L. destruct (ltl_sz r x R L) as [-> I0]. apply rows_bound in I0 as [L0 _]. apply (b_rows_pos n mb b Hb Hmb k K0 K1). exact L0.
Qed.
Definition gpart (V : mat K) (r p q : Z) : F K := lsum (rows_of r) (fun i => fsum 0 (rows i) (fun u => fconj (V (voff i + u)%Z p) * V (voff i + u)%Z q)).
Lemma gemv_val : forall st V r p q, In r rks -> ownk r = true -> vhas V r st -> (forall p q, st (rT r k) p q = 0) -> (0 <= p < nr)%Z -> (0 <= q < nr)%Z -> p <> q ->
  tval (jobG r tt) st p q = if (p <? q)%Z then - (st (rTau r k) q 0%Z) * gpart V r p q else 0.
Proof using GAV NTV SZV AT Hb Hmb K0 K1.
  intros st V r p q R O HV T0 Lp Lq N. unfold tval. cbn [jobG tj_in tj_out tj_fun]. rewrite map_app. cbn [map]. set (vs := map st (map (fun i => vid r i) (rows_of r)) ++ [st (rTau r k)]).
  assert (LR := len_rows r R). set (len := Z.of_nat (length (v_rows Q mb b DV r k))) in *.
  assert (NT : nth_tile vs len = st (rTau r k)).
  { unfold nth_tile, vs. rewrite app_nth2 by (rewrite !map_length; lia). rewrite !map_length. replace (Z.to_nat len - length (rows_of r))%nat with 0%nat by lia. reflexivity. }
  assert (NV : forall x, (0 <= x < len)%Z -> nth_tile vs x = st (vid r (nth (Z.to_nat x) (rows_of r) 0%Z))).
  { intros x Lx. unfold nth_tile, vs. rewrite app_nth1 by (rewrite !map_length; lia). rewrite map_map. rewrite (nth_indep _ _ ((fun i => st (vid r i)) 0%Z)) by (rewrite map_length; lia).
    apply (map_nth (fun i => st (vid r i))). }
  rewrite NT. destruct (Z.eq_dec (tl_n (local_tl Q mb b DV r k)) 0) as [E0|E0].
  - unfold step_gemv. rewrite E0. cbn [Z.eqb]. rewrite T0. assert (EN : rows_of r = []) by (apply length_zero_iff_nil; rewrite LR; cbn [local_tl tl_n] in E0; lia).
    unfold gpart. rewrite EN. cbn [lsum fold_right]. destruct (p <? q)%Z; ring.
  - pose proof (ltl_ok r R) as LOK. assert (LN : (0 < tl_n (local_tl Q mb b DV r k))%Z) by (cbn [local_tl tl_n] in *; lia).
    rewrite (step_gemv_at (local_tl Q mb b DV r k) LOK LN) by (try assumption; apply AT; exact R). destruct (p <? q)%Z; [|reflexivity]. f_equal.
    change (tl_off (local_tl Q mb b DV r k) (tl_n (local_tl Q mb b DV r k))) with (tl_size (local_tl Q mb b DV r k)). rewrite fsum_tiles by exact LOK. unfold gpart.
    rewrite <- fsum_nth. rewrite LR. change (Z.of_nat (length (v_rows Q mb b DV r k))) with (tl_n (local_tl Q mb b DV r k)). apply fsum_ext. intros x Lx.
    destruct (ltl_sz r x R Lx) as [EZ I0]. rewrite EZ. apply fsum_ext. intros u Lu. rewrite !stack_at by (try assumption; rewrite EZ; exact Lu). rewrite NV by exact Lx.
    rewrite !HV by assumption. reflexivity.
Qed.
Lemma gpart_sum : forall V p q, lsum (zrange 0 P) (fun x => gpart V (mk Q Row x (oK k)) p q) = fsum 0 m (fun a => fconj (V a p) * V a q).
Proof using GAV Hb Hmb K0 K1.
  intros V p q. set (g := fun i => fsum 0 (rows i) (fun u => fconj (V (voff i + u)%Z p) * V (voff i + u)%Z q)).
  transitivity (lsum (zrange 0 P) (fun x => lsum (filter (fun i => (oR i =? x)%Z) (zrange i0 nrt)) g)).
  - apply lsum_ext. intros x Ix. apply in_zrange in Ix. unfold gpart. unfold rowsof. rewrite (proj1 (co_mk P Q HP HQ Row x (oK k) Ix rK)). reflexivity.
  - rewrite lsum_owner by (intros i _; apply (own_range _ _ _ _ _ GAV)). rewrite <- (btl_size n mb b Hb Hmb k K0 K1). rewrite fsum_tiles by exact bok. rewrite btl_n.
    rewrite lsum_fsum. match goal with |- fsum i0 nrt ?f = _ => replace (fsum i0 nrt f) with (fsum (0 + i0) (nrt - i0 + i0) f) by (f_equal; lia) end. rewrite fsum_shift.
    apply fsum_ext. intros x Lx. unfold g, voff. cbn [tl_sz btl]. replace (x + i0 - i0)%Z with x by lia. replace (x + i0)%Z with (i0 + x)%Z by lia. reflexivity.
Qed.
Lemma vhas_frame : forall V r s s', vhas V r s -> (forall y, (t_mat y = 0 \/ t_mat y = mPV n mb b k)%Z -> s' y = s y) -> vhas V r s'.
Proof using. intros V r s s' H F i p q Ii Lp Lq. rewrite F by apply vid_mat. apply H; assumption. Qed.
Definition eT : list (event (mat K)) := each xT job0 ++ each xT jobG ++ eST ++ each xT jobM.
Lemma T_val : forall st V tau, (forall r, In r rks -> ownk r = true -> vhas V r st) -> (forall r q, In r rks -> ownk r = true -> (0 <= q < nr)%Z -> st (rTau r k) q 0%Z = tau q) ->
  let s := erun mem eT st in
  (forall r, In r rks -> ownk r = true -> t_rec m nr V (s (rT r k)) tau) /\ (forall y, (t_mat y <> 3)%Z -> s y = st y).
Proof using GAV NTV SZV AT Hb Hmb K0 K1.
  intros st V tau HV HT s. unfold s, eT. rewrite !erun_app. set (s1 := erun mem (each xT job0) st). set (s2 := erun mem (each xT jobG) s1). set (s3 := erun mem eST s2).
  destruct (T_phase job0 st) as (_ & A1 & F1); [reflexivity|intros r x u _ []|]. fold s1 in A1, F1.
  destruct (T_phase jobG s1) as (_ & A2 & F2); [reflexivity|intros r x u _; apply G_in|]. fold s2 in A2, F2.
  destruct (sumT_run s2) as (_ & A3 & F3). fold s3 in A3, F3.
  destruct (T_phase jobM s3) as (_ & A4 & F4); [reflexivity|intros r x u _ [<-|[]]; split; [reflexivity|discriminate]|]. pose proof ids as ID.
  split; [|intros y Y; rewrite F4, F3, F2, F1 by exact Y; reflexivity].
  intros r R O. rewrite A4 by assumption. unfold tval. cbn [jobM tj_in tj_out tj_fun map in1].
  apply trmv_rec; [apply NRP| |].
  - intros q Lq. unfold col_vec. rewrite F3, F2, F1 by discriminate. apply HT; assumption.
  - intros p q Lp Lq N. rewrite A3 by assumption.
    assert (X : forall x, (0 <= x < P)%Z -> s2 (rT (mk Q Row x (oK k)) k) p q = if (p <? q)%Z then - tau q * gpart V (mk Q Row x (oK k)) p q else 0).
    { intros x Lx. assert (Rx : In (mk Q Row x (oK k)) rks) by (apply (mk_rank _ _ _ _ _ GAV Row); [exact Lx|apply rK]).
      assert (Ox : ownk (mk Q Row x (oK k)) = true) by (pose proof (proj2 (co_mk P Q HP HQ Row x (oK k) Lx rK)) as CC; cbn [other] in CC; unfold ownk; rewrite CC; apply Z.eqb_refl).
      rewrite A2 by assumption. assert (VH : vhas V (mk Q Row x (oK k)) s1) by (apply (vhas_frame V _ st); [apply HV; assumption|intros y Y; apply F1; lia]).
      assert (T0 : forall p' q', s1 (rT (mk Q Row x (oK k)) k) p' q' = 0) by (intros p' q'; rewrite A1 by assumption; reflexivity).
      rewrite (gemv_val s1 V) by assumption.
      rewrite F1 by discriminate. rewrite HT by assumption. reflexivity. }
    rewrite (lsum_ext _ _ (fun x => if (p <? q)%Z then - tau q * gpart V (mk Q Row x (oK k)) p q else 0)) by (intros x Ix; apply in_zrange in Ix; apply X; exact Ix).
    destruct (p <? q)%Z; [|apply lsum_0; reflexivity]. rewrite lsum_scale. rewrite gpart_sum. reflexivity.
Qed.
(** W = V T^H, on every rank after the broadcast *)
Definition whas (W : mat K) (r : Z) (s : tstore (mat K)) : Prop := forall i p q, In i (rows_of r) -> (0 <= p < rows i)%Z -> (0 <= q < nr)%Z -> s (p_tile r (pW r) i) p q = W (voff i + p)%Z q.
Lemma W_val : forall st V T, (forall r, In r rks -> ownk r = true -> vhas V r st) ->
  (forall r p q, In r rks -> ownk r = true -> (0 <= p < nr)%Z -> (0 <= q < nr)%Z -> st (rT r k) p q = T p q) -> (forall p q, (0 <= p < nr)%Z -> (0 <= q < nr)%Z -> (q < p)%Z -> T p q = 0) ->
  let s := erun mem (each xW jobW) st in
  (forall r, In r rks -> ownk r = true -> whas (mmul nr V (adj T)) r s) /\ (forall y, (t_mat y <> mPW n mb b k)%Z -> s y = st y).
Proof using GAV KO Hb Hmb K0 K1.
  intros st V T HV HT TL s. destruct (W_phase st) as (_ & A & F). split; [|exact F]. intros r R O i p q Ii Lp Lq.
  change (p_tile r (pW r) i) with (Tid r (mPW n mb b k) i 0). unfold s. rewrite A by (try exact R; apply xW_in; auto).
  unfold tval. cbn [jobW tj_fun tj_in tj_out map in2]. rewrite (trmm_ok kn KO Right Upper ConjTrans NonUnit (rows i) nr f1 (st (rT r k)) (st (vid r i)) p q) by assumption.
  unfold mmul. transitivity (fsum 0 nr (fun x => st (vid r i) p x * opm ConjTrans (trim Upper NonUnit (st (rT r k))) x q)); [ring|].
  apply fsum_ext. intros x Lx. rewrite (HV r R O) by assumption. f_equal. unfold adj, opm, trim, in_tri. rewrite HT by assumption.
  destruct (Z.eqb_spec q x); [reflexivity|]. destruct (Z.leb_spec q x); [reflexivity|]. f_equal. symmetry. apply TL; lia.
Qed.
Definition chas (A : mat K) (s : tstore (mat K)) : Prop :=
  forall r i j p q, In r rks -> In i (rows_of r) -> In j (cols_of r) -> (0 <= p < rows i)%Z -> (0 <= q < tl_sz tc j)%Z -> sub (ri i) 0 (s (rC r i j)) p q = A (voff i + p)%Z (tl_off tc j + q)%Z.
Lemma C_at : forall s, chas (fun a c => mC s (e + a)%Z c) s.
Proof using GAV Hb Hmb TC K0 K1.
  intros s r i j p q R Ii Ij Lp Lq. destruct (row_x r i Ii) as (Lx & SX & EX). apply cols_in in Ij as [Lj Oj]. pose proof (rows_bound r i Ii) as [_ Oi].
  unfold mC, sub, voff. rewrite tile_of_elem by assumption. destruct (b_loc_row n mb b Hb Hmb k K0 K1 (i - i0) p Lx ltac:(rewrite SX; exact Lp)) as [-> ->]. rewrite EX.
  assert (EW : wC i j = r) by (unfold DistMultProofs.wC; rewrite Oi, Oj; apply (mk_co P Q HP HQ Row)). rewrite EW. f_equal. lia.
Qed.
(** W2 = W^H C, on every rank after the sum *)
Lemma W2_val : forall st W A, (forall r, In r rks -> whas W r st) -> chas A st -> (forall r j p q, In r rks -> In j (cols_of r) -> st (w2 r j) p q = 0) ->
  let s := erun mem (each (fun r => pairs_of r) jobU ++ eSW) st in
  (forall r j p q, In r rks -> In j (cols_of r) -> (0 <= p < nr)%Z -> (0 <= q < tl_sz tc j)%Z -> s (w2 r j) p q = mmul m (adj W) A p (tl_off tc j + q)%Z) /\
  (forall y, (t_mat y <> mW2 n mb b k)%Z -> s y = st y).
Proof using GAV GAC KO Hb Hmb K0 K1.
  intros st W A HW HA Z0 s. unfold s. rewrite erun_app. destruct (U_phase st) as (_ & A1 & F1). set (s1 := erun mem (each (fun r => pairs_of r) jobU) st) in *.
  destruct (sumW_run s1) as (_ & A2 & F2). split; [|intros y Y; rewrite F2, F1 by exact Y; reflexivity].
  intros r j p q R Ij Lp Lq. rewrite A2 by assumption. pose proof Ij as Ij'. apply cols_in in Ij' as [Lj Oj].
  set (g := fun i => fsum 0 (rows i) (fun u => fconj (W (voff i + u)%Z p) * A (voff i + u)%Z (tl_off tc j + q)%Z)).
  transitivity (lsum (zrange 0 P) (fun x => lsum (filter (fun i => (oR i =? x)%Z) (zrange i0 nrt)) g)).
  - apply lsum_ext. intros x Ix. apply in_zrange in Ix. set (r' := mk Q Row x (oC j)).
    assert (Rx : In r' rks) by (apply (mk_rank _ _ _ _ _ GAV Row); [exact Ix|apply rCc]). destruct (co_mk P Q HP HQ Row x (oC j) Ix (rCc j)) as [C1 C2]. fold r' in C1, C2.
    assert (Ij' : In j (cols_of r')) by (apply cols_in; split; [exact Lj|]; symmetry; exact C2).
    rewrite A1 by assumption. rewrite Z0 by assumption. replace (filter (fun i => (oR i =? x)%Z) (zrange i0 nrt)) with (rows_of r') by (unfold rowsof; rewrite C1; reflexivity).
    match goal with |- 0 + ?x = _ => transitivity x; [ring|] end. apply lsum_ext. intros i Ii. unfold g, mmul. apply fsum_ext. intros u Lu. unfold opm. rewrite (HW r' Rx) by assumption. rewrite HA by assumption. reflexivity.
  - rewrite lsum_owner by (intros i _; apply (own_range _ _ _ _ _ GAV)). unfold mmul. rewrite <- (btl_size n mb b Hb Hmb k K0 K1). rewrite fsum_tiles by exact bok. rewrite btl_n.
    rewrite lsum_fsum. match goal with |- fsum i0 nrt ?f = _ => replace (fsum i0 nrt f) with (fsum (0 + i0) (nrt - i0 + i0) f) by (f_equal; lia) end. rewrite fsum_shift.
    apply fsum_ext. intros x Lx. unfold g, voff, adj. cbn [tl_sz btl]. replace (x + i0 - i0)%Z with x by lia. replace (x + i0)%Z with (i0 + x)%Z by lia. reflexivity.
Qed.
Lemma e_dbt_eq : e_dbt = each xV jobV ++ eT ++ each xW jobW ++ each (fun r => cols_of r) jobZ ++ eBW ++ (each (fun r => pairs_of r) jobU ++ eSW) ++ eBV ++ each (fun r => pairs_of r) jobC.
Proof using. unfold e_dbt, eT. rewrite <- !app_assoc. reflexivity. Qed.
Theorem dbt_step_ok : forall st tau, (forall r q, In r rks -> ownk r = true -> (0 <= q < nr)%Z -> st (rTau r k) q 0%Z = tau q) ->
  let s := erun mem e_dbt st in
  let V := unit_lower (fun a q => mV st (e + a)%Z (k * mb + q)%Z) in
  (forall a c, (0 <= a < m)%Z -> (0 <= c < tl_size tc)%Z -> mC s (e + a)%Z c = mmul m (refl_prod m V tau (Z.to_nat nr)) (fun r c => mC st (e + r)%Z c) a c) /\
  (forall a c, (0 <= a < e)%Z -> (0 <= c < tl_size tc)%Z -> mC s a c = mC st a c) /\
  (forall y, (t_mat y = 0 \/ t_mat y = 1)%Z -> s y = st y).
Proof using GAV GAC KO NTV NTC SZV AT TC Hb Hmb K0 K1.
  intros st tau HT s V. unfold s. rewrite e_dbt_eq. rewrite (erun_app _ _ (each xV jobV)), (erun_app _ _ eT), (erun_app _ _ (each xW jobW)), (erun_app _ _ (each (fun r => cols_of r) jobZ)), (erun_app _ _ eBW).
  rewrite (erun_app _ _ (each (fun r => pairs_of r) jobU ++ eSW)), (erun_app _ _ eBV).
  set (s1 := erun mem (each xV jobV) st). set (s2 := erun mem eT s1). set (s3 := erun mem (each xW jobW) s2). set (s4 := erun mem (each (fun r => cols_of r) jobZ) s3).
  set (s5 := erun mem eBW s4). set (s6 := erun mem (each (fun r => pairs_of r) jobU ++ eSW) s5). set (s7 := erun mem eBV s6). set (s8 := erun mem (each (fun r => pairs_of r) jobC) s7).
  pose proof ids as ID. pose proof idsW as IW. pose proof idsW2 as IW2. pose proof NRP as NP.
  destruct (V_phase st) as (_ & _ & F1). fold s1 in F1.
  assert (V1 : forall r, In r rks -> ownk r = true -> vhas V r s1) by (intros r R O; apply V_val; assumption).
  destruct (T_val s1 V tau V1) as [T2 F2]. { intros r q R O Lq. rewrite F1 by (cbn [rTau t_mat]; lia). apply HT; assumption. } fold s2 in T2, F2.
  set (r0 := wV 0 k). assert (R0 : In r0 rks) by apply wV_in. assert (O0 : ownk r0 = true) by apply wV_own. set (T := s2 (rT r0 k)).
  assert (TR : t_rec m nr V T tau) by (apply T2; assumption). assert (TR' := TR). destruct TR' as (TL & _ & _).
  assert (V2 : forall r, In r rks -> ownk r = true -> vhas V r s2) by (intros r R O; apply (vhas_frame V r s1); [apply V1; assumption|intros y Y; apply F2; lia]).
  destruct (W_val s2 V T V2) as [W3 F3]. { intros r p q R O Lp Lq. apply (t_rec_unique m nr V _ _ tau); auto. } { exact TL. } fold s3 in W3, F3.
  set (W := mmul nr V (adj T)) in *.
  destruct (Z_phase s3) as (_ & A4 & F4). fold s4 in A4, F4. destruct (bW_run s4) as (_ & A5 & F5). fold s5 in A5, F5.
  assert (W5 : forall r, In r rks -> whas W r s5).
  { intros r R i p q Ii Lp Lq. rewrite A5 by assumption. rewrite F4 by (cbn [t_mat]; lia).
    apply (W3 (wV i k) (wV_in i k) (wV_own i) i p q); try assumption. apply rows_in. destruct (rows_bound r i Ii) as [L _]. split; [exact L|]. symmetry. apply wV_co. }
  assert (CF5 : forall y, (t_mat y = 0 \/ t_mat y = 1 \/ t_mat y = 2)%Z -> s5 y = st y) by (intros y Y; rewrite F5, F4, F3, F2, F1 by lia; reflexivity).
  set (A := fun a c => mC st (e + a)%Z c). assert (C5 : chas A s5).
  { intros r i j p q R Ii Ij Lp Lq. rewrite CF5 by (cbn [rC t_mat]; lia). apply (C_at st); assumption. }
  destruct (W2_val s5 W A W5 C5) as [X6 F6]. { intros r j p q R Ij. rewrite F5 by (cbn [w2 t_mat]; lia). rewrite A4 by assumption. reflexivity. } fold s6 in X6, F6.
  destruct (bV_run s6) as (_ & A7 & F7). fold s7 in A7, F7.
  assert (V7 : forall r, In r rks -> vhas V r s7).
  { intros r R i p q Ii Lp Lq. rewrite A7 by assumption. assert (M := vid_mat (wV i k) i). rewrite F6, F5, F4, F3 by lia.
    apply (V2 (wV i k) (wV_in i k) (wV_own i) i p q); try assumption. apply rows_in. destruct (rows_bound r i Ii) as [L _]. split; [exact L|]. symmetry. apply wV_co. }
  assert (CF7 : forall y, (t_mat y = 0 \/ t_mat y = 1 \/ t_mat y = 2)%Z -> s7 y = st y) by (intros y Y; rewrite F7, F6 by lia; apply CF5; exact Y).
  assert (X7 : forall r j p q, In r rks -> In j (cols_of r) -> (0 <= p < nr)%Z -> (0 <= q < tl_sz tc j)%Z -> s7 (w2 r j) p q = mmul m (adj W) A p (tl_off tc j + q)%Z).
  { intros r j p q R Ij Lp Lq. rewrite F7 by (cbn [w2 t_mat]; lia). apply X6; assumption. }
  destruct (C_phase s7) as (_ & A8 & N8 & F8). fold s8 in A8, N8, F8.
  (** a tile of C on its rank *)
  assert (IN : forall i j, (i0 <= i < nrt)%Z -> (0 <= j < tl_n tc)%Z -> In (wC i j) rks /\ In i (rows_of (wC i j)) /\ In j (cols_of (wC i j))).
  { intros i j Li Lj. destruct (wC_co P Q LsV LsC DV DC ntV ntC GAV GAC i j) as [C1 C2]. split; [apply (wC_in P Q LsV LsC DV DC ntV ntC GAV GAC)|]. split; [apply rows_in|apply cols_in]; split; try assumption; symmetry; assumption. }
  assert (P8 : forall i j, (i0 <= i < nrt)%Z -> (0 <= j < tl_n tc)%Z -> exists S, s8 (rC (wC i j) i j) = paste (ri i) 0 (rows i) (tl_sz tc j) (st (rC (wC i j) i j)) S /\
    forall p q, (0 <= p < rows i)%Z -> (0 <= q < tl_sz tc j)%Z -> S p q = A (voff i + p)%Z (tl_off tc j + q)%Z - mmul nr V (mmul m (adj W) A) (voff i + p)%Z (tl_off tc j + q)%Z).
  { intros i j Li Lj. destruct (IN i j Li Lj) as (Rw & Iw & Jw). set (w := wC i j) in *. pose proof (A8 w (i, j) Rw) as A8'. cbn [fst snd] in A8'. rewrite A8' by (apply gpairs_in; auto).
    unfold tval. cbn [jobC tj_fun tj_in tj_out map in2 fst snd]. rewrite (CF7 (rC w i j)) by (cbn [rC t_mat]; lia). eexists. split; [reflexivity|].
    intros p q Lp Lq. rewrite (gemm_ok kn KO) by assumption. change (opm NoTrans (s7 (vid w i))) with (s7 (vid w i)). change (opm NoTrans (s7 (w2 w j))) with (s7 (w2 w j)).
    rewrite (C_at st w i j p q Rw Iw Jw Lp Lq). cbn beta. fold (A (voff i + p)%Z (tl_off tc j + q)%Z).
    rewrite (mmul_ext nr (s7 (vid w i)) (fun _ x => V (voff i + p)%Z x) (s7 (w2 w j)) (fun x _ => mmul m (adj W) A x (tl_off tc j + q)%Z) p q).
    - change (mmul nr (fun _ x => V (voff i + p)%Z x) (fun x _ => mmul m (adj W) A x (tl_off tc j + q)%Z) p q) with (mmul nr V (mmul m (adj W) A) (voff i + p)%Z (tl_off tc j + q)%Z). ring.
    - intros x Lx. apply (V7 w Rw); assumption.
    - intros x Lx. apply X7; assumption. }
  split; [|split].
  - intros a c La Lc. destruct (elem_split t bok a) as (x & p & Lx & Lp & ->); [rewrite (btl_size n mb b Hb Hmb k K0 K1); lia|]. destruct (elem_split tc TC c Lc) as (j & q & Lj & Lq & ->).
    assert (Lx' := Lx). rewrite btl_n in Lx'. destruct (P8 (i0 + x)%Z j ltac:(lia) Lj) as (S & ES & VS). destruct (IN (i0 + x)%Z j ltac:(lia) Lj) as (Rw & Iw & Jw).
    pose proof (C_at s8 _ (i0 + x)%Z j p q Rw Iw Jw Lp Lq) as CA. unfold voff in CA, VS. replace (i0 + x - i0)%Z with x in CA, VS by lia. cbn beta in CA. rewrite <- CA, ES.
    unfold sub, paste. assert (Lp' := Lp). cbn [tl_sz btl] in Lp'.
    destruct (Z.leb_spec (ri (i0 + x)) (ri (i0 + x) + p)), (Z.ltb_spec (ri (i0 + x) + p) (ri (i0 + x) + rows (i0 + x))), (Z.leb_spec 0 (0 + q)), (Z.ltb_spec (0 + q) (0 + tl_sz tc j)); try lia. cbn [andb].
    replace (ri (i0 + x) + p - ri (i0 + x))%Z with p by lia. replace (0 + q - 0)%Z with q by lia. rewrite VS by assumption.
    set (a := (tl_off t x + p)%Z) in *. set (c := (tl_off tc j + q)%Z) in *.
    transitivity (mmul m (fun i j => ident i j - block nr V T i j) A a c).
    + rewrite mmul_sub_l. rewrite mmul_ident_l by exact La. f_equal. unfold block. rewrite !mmul_assoc.
      apply mmul_ext; [reflexivity|]. intros r Lr. transitivity (mmul nr T (mmul m (adj V) A) r c); [|reflexivity].
      rewrite <- mmul_assoc. apply mmul_ext; [|reflexivity]. intros u Lu. unfold W. rewrite adj_mmul. apply mmul_ext; [|reflexivity]. intros v Lv. apply adj_adj.
    + apply mmul_ext; [|reflexivity]. intros r Lr. symmetry.
      pose proof (t_rec_prod m (Z.to_nat nr) V T tau) as TP. rewrite Z2Nat.id in TP by lia. apply TP; assumption.
  - intros a c La Lc. destruct (elem_split tc TC c Lc) as (j & q & Lj & Lq & ->). unfold mC. rewrite tile_of_elem by assumption.
    pose proof (b_row_split n mb b Hb Hmb k K0 K1) as ES. pose proof (Z.div_mod a mb) as DA. pose proof (Z.mod_pos_bound a mb Hmb).
    destruct (Z.lt_ge_cases (a / mb) i0) as [L|L].
    + rewrite N8; [rewrite CF7 by (cbn [rC t_mat]; lia); reflexivity|]. intros r [i j'] R I0 E. apply gpairs_in in I0 as [I1 _]. apply rows_bound in I1 as [I1 _]. unfold rC in E. cbn [fst snd] in E. injection E. lia.
    + assert (EI : (a / mb = i0)%Z) by (pose proof (b_mod n mb b Hb Hmb k K0 K1); nia).
      pose proof I0B. destruct (P8 (a / mb)%Z j ltac:(lia) Lj) as (S & -> & _).
      unfold paste. rewrite EI. unfold bri. rewrite Z.eqb_refl. destruct (Z.leb_spec (e mod mb) (a mod mb)); [nia|]. reflexivity.
  - intros y Y. rewrite F8 by lia. apply CF7. lia.
Qed.
End dstep.

Section drun.
Context {K : starfield} (kn : kernels K) (KO : kernels_ok kn).
Local Open Scope sf_scope.
Variables P Q : Z.
Variables LsV LsC : coord -> layout.
Variables DV DC : coord -> Z -> axis.
Variables ntV ntC : coord -> Z.
Hypothesis GAV : grid_axes P Q LsV DV ntV.
Hypothesis GAC : grid_axes P Q LsC DC ntC.
Variables n mb b : Z.
Variable tc : tiling.
Variable avail_t : Z -> Z.
Hypothesis (Hb : (0 <= b)%Z) (Hmb : (0 < mb)%Z) (TC : tiling_ok tc).
Notation rks := (ranks P Q).
Notation mem := (members P Q).
Notation nrt := (r2b_nrt n mb).
Notation NC := (tl_n tc).
Hypothesis AT : forall r, In r rks -> (0 < avail_t r)%Z.
Hypothesis ECR : forall p, (0 <= p < P)%Z -> DC Row p = DV Row p.
Hypothesis NTV : ntV Row = nrt /\ ntV Col = nrt.
Hypothesis NTC : ntC Row = nrt /\ ntC Col = NC.
Hypothesis SZV : forall r i, In r rks -> (0 <= i < nrt)%Z -> szt Q DV r Row i = r2b_sz n mb i.
Hypothesis SZC : forall r j, In r rks -> (0 <= j < NC)%Z -> szt Q DC r Col j = tl_sz tc j.
Notation nb := (bt_nblocks n mb b). Notation total := (bt_nrefls n b).
Notation mV := (@mV K Q LsV mb). Notation mC := (@mC K Q LsV LsC mb tc).
Notation ev k := (e_dbt kn P Q LsV LsC DV n mb b tc avail_t k).
(** the taus: every process row has a copy *)
Variable tau : Z -> F K.
Definition taus_in (st : tstore (mat K)) : Prop := forall r k q, In r rks -> ownk Q LsV k r = true -> (0 <= k)%Z -> (0 <= q < bt_refl n mb b k)%Z -> st (rTau r k) q 0%Z = tau (k * mb + q)%Z.
Definition bview (st : tstore (mat K)) : tstore (mat K) := fun x =>
  if (t_mat x =? 0)%Z then st (rV (wV Q LsV (t_row x) (t_col x)) (t_row x) (t_col x)) else fun p _ => tau (t_row x * mb + p)%Z.
Lemma bview_V : forall st a c, r2b_mat mb (bview st) a c = mV st a c.
Proof using. reflexivity. Qed.
Lemma dbt_blocks_run : forall d k st, (0 < total)%Z -> (k = nb - Z.of_nat d)%Z -> (0 <= k)%Z -> taus_in st ->
  let s := erun mem (flat_map (fun k => ev k) (rev (zrange k nb))) st in
  (forall a c, (0 <= a < n)%Z -> (0 <= c < tl_size tc)%Z -> mC s a c = mmul n (q_from n mb b (bview st) k) (mC st) a c) /\
  (forall x, (t_mat x = 0 \/ t_mat x = 1)%Z -> s x = st x).
Proof using GAV GAC KO NTV NTC SZV AT TC Hb Hmb.
  induction d as [|d IH]; intros k st TP Ek Lk TI s; pose proof (nb_spec n mb b Hmb TP) as NS.
  - unfold s. rewrite zrange_nil by lia. cbn [rev flat_map erun fold_left]. split; [|reflexivity]. intros a c La Lc. unfold q_from.
    replace (Z.to_nat (total - k * mb)) with 0%nat by nia. cbn [refl_prod]. symmetry. apply mmul_ident_l. exact La.
  - specialize (IH (k + 1)%Z st TP ltac:(lia) ltac:(lia) TI). cbv zeta in IH. destruct IH as [I1 I2].
    unfold s in *. clear s. rewrite zrange_cons by lia. cbn [rev]. rewrite flat_map_app, erun_app. cbn [flat_map]. rewrite app_nil_r.
    set (s1 := erun mem (flat_map (fun k => ev k) (rev (zrange (k + 1) nb))) st) in *.
    assert (K1 : (k * mb < total)%Z) by nia.
    destruct (dbt_step_ok kn KO P Q LsV LsC DV DC ntV ntC GAV GAC n mb b tc avail_t Hb Hmb TC AT NTV (proj2 NTC) SZV k Lk K1 s1 (fun q => tau (k * mb + q)%Z)) as (S1 & S2 & S3).
    { intros r q R O Lq. rewrite I2 by (right; reflexivity). apply TI; assumption. }
    set (s := erun mem (ev k) s1) in *.
    set (e := b_row mb b k) in *. pose proof (b_nr_n n mb b Hb Hmb k Lk K1) as NN. pose proof (b_row_pos n mb b Hb Hmb k Lk K1) as BP. pose proof (b_nr_pos n mb b Hb Hmb k Lk K1) as NP. fold e in NN, BP.
    assert (GE : forall a q, mV s1 a q = mV st a q) by (intros a q; unfold DistBtR2BProofs.mV; rewrite I2 by (left; reflexivity); reflexivity).
    split; [|intros x Lx; rewrite S3, I2 by exact Lx; reflexivity].
    intros a c La Lc. rewrite (mmul_ext n _ _ (mC st) (mC st) a c (fun r Lr => q_block n mb b Hb Hmb (bview st) k Lk K1 a r La Lr) (fun _ _ => eq_refl)). rewrite mmul_assoc. fold e.
    rewrite emb_l by (try assumption; lia). destruct (Z.ltb_spec a e) as [A|A].
    + rewrite S2 by lia. apply I1; assumption.
    + replace a with (e + (a - e))%Z at 1 by lia. rewrite S1 by lia. apply mmul_ext; intros r Lr.
      * apply (refl_prod_ext (n - e)); try lia; [|reflexivity]. intros i x _ _. unfold unit_lower. rewrite GE. reflexivity.
      * apply I1; lia.
Qed.
Definition e_dbt_all : list (event (mat K)) :=
  if ((nrt =? 0) || (NC =? 0))%Z then [] else if (total <=? 0)%Z then [] else flat_map (fun k => ev k) (rev (zrange 0 nb)).
Theorem dbt_run : forall st, taus_in st -> let s := erun mem e_dbt_all st in
  (forall a c, (0 <= a < n)%Z -> (0 <= c < tl_size tc)%Z -> mC s a c = mmul n (q_of n b (mV st) tau) (mC st) a c) /\
  (forall x, (t_mat x = 0 \/ t_mat x = 1)%Z -> s x = st x).
Proof using GAV GAC KO NTV NTC SZV AT TC Hb Hmb.
  intros st TI s. unfold s, e_dbt_all. clear s.
  destruct ((nrt =? 0) || (NC =? 0))%Z eqn:E.
  - split; [|reflexivity]. intros a c La Lc. exfalso. apply orb_true_iff in E as [E|E]; apply Z.eqb_eq in E.
    + pose proof (nrt_spec n mb Hmb). lia.
    + unfold tl_size in Lc. rewrite E, off_0 in Lc. lia.
  - destruct (Z.leb_spec total 0) as [L|L].
    + split; [|reflexivity]. intros a c La Lc. unfold q_of. unfold bt_nrefls in L. replace (Z.to_nat (n - b - 1)) with 0%nat by lia. cbn [refl_prod]. symmetry. apply mmul_ident_l. exact La.
    + pose proof (nb_spec n mb b Hmb L) as NS. destruct (dbt_blocks_run (Z.to_nat nb) 0 st L ltac:(nia) ltac:(lia) TI) as [B1 B2]. split; [|exact B2].
      intros a c La Lc. rewrite B1 by assumption. apply mmul_ext; [|reflexivity]. intros r Lr. unfold q_from, q_of. rewrite Z.mul_0_l, Z.sub_0_r. unfold bt_nrefls. apply (refl_prod_ext n); try assumption; [reflexivity|].
      intros x Lx. unfold bt_taus, bview. cbn [bTau t_mat t_row Z.eqb]. f_equal. rewrite Z.add_0_l. pose proof (Z.div_mod x mb). lia.
Qed.
Lemma block_bound : forall k, In k (rev (zrange 0 nb)) -> (0 < total)%Z -> (0 <= k)%Z /\ (k * mb < total)%Z.
Proof using Hmb. intros k I0 L. apply in_rev in I0. apply in_zrange in I0. pose proof (nb_spec n mb b Hmb L). nia. Qed.
Theorem dbt_all_proj : forall r, In r rks -> dist_bt_red2band kn P Q n mb b DV DC avail_t r = proj mem r e_dbt_all.
Proof using GAV GAC TC ECR NTV NTC SZV SZC Hb Hmb.
  intros r R. unfold dist_bt_red2band, e_dbt_all. rewrite !(rank_nt _ _ _ _ _ GAC) by exact R. rewrite (proj1 NTC), (proj2 NTC).
  destruct (_ || _)%bool; [reflexivity|]. destruct (Z.leb_spec total 0) as [L|L]; [reflexivity|]. rewrite (proj_flat P Q). apply flat_map_ext_in. intros k Ik.
  destruct (block_bound k Ik L) as [K0 K1]. apply (dbt_proj kn P Q LsV LsC DV DC ntV ntC GAV GAC n mb b tc avail_t Hb Hmb TC ECR NTV (proj2 NTC) SZV SZC k K0 K1 r R).
Qed.
Theorem dbt_all_ok : Forall (event_ok mem rks) e_dbt_all.
Proof using GAV GAC KO NTV Hb Hmb.
  unfold e_dbt_all. destruct (_ || _)%bool; [constructor|]. destruct (Z.leb_spec total 0) as [L|L]; [constructor|]. apply forall_flat. intros k Ik.
  destruct (block_bound k Ik L) as [K0 K1]. eapply dbt_ok; eassumption.
Qed.
End drun.
