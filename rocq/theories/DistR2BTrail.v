(** * Distributed reduction_to_band: the trailing matrix *)
From Coq Require Import ZArith Lia List Bool Permutation Ring.
From Verif Require Import CInt Loop StarField DenseSpec Tiling DenseJobs TileJobs RefKernels BlockJobs TriangularProofs HouseSpec HouseModel HouseProofs HouseQR TFactorProofs MultiJobs
  Red2BandModel Red2BandSpec Red2BandProofs Red2BandTheory
  DistModel DistSpec DistBuilt DistThms DistMachine DistGrid PanelModel PanelProofs DistSim DistProg DistPhase DistLocal DistInverseModel DistTriModel DistTriProofs DistMultModel DistMultProofs DistBtR2BModel DistBtR2BProofs DistR2BModel DistR2BIdx DistR2BPanel DistR2BStep.
Import ListNotations.
Local Open Scope Z_scope.

Section trail.
Context {P Q : Z} {Ls : coord -> layout} {D : coord -> Z -> axis} {nt : coord -> Z} {n mb b j : Z} (C : r2b_ctx P Q Ls D nt n mb b j).
Context {K : starfield} (kn : kernels K) (KO : kernels_ok kn) (rs : roots K).
Variables avail minwork avail_t : Z -> Z.
Hypothesis AT : forall r, In r (ranks P Q) -> 0 < avail_t r.
Local Open Scope sf_scope.
Add Ring KringTrl : (fring K).
Notation rks := (ranks P Q).
Notation mem := (members P Q).
Notation co := (co Q).
Notation nrt := (r2b_nrt n mb).
Notation i0 := (i0 mb b j). Notation j0 := (j0 mb b j). Notation cj := (cj mb b j). Notation ri := (ri mb b j).
Notation e_row := (e_row b j). Notation e_col := (e_col b j). Notation rows := (rows n mb b j). Notation t := (ptl n mb b j).
Notation nr := (n_refl n b j).
Notation rows_of r := (rowsof Q Ls i0 nrt r).
Notation onp := (onp (Q := Q) (Ls := Ls) (mb := mb) (b := b) (j := j)).
Notation gx := (gx (Q := Q) (D := D) (mb := mb) (b := b) (j := j)).
Notation voff := (voff (n := n) (mb := mb) (b := b) (j := j)).
Notation wP := (wP (Q := Q) (Ls := Ls) (mb := mb) (b := b) (j := j)).
Notation len r := (Z.of_nat (length (q_rows Q mb b D r j))).
Notation l0 r := (l0 Q mb b D r j).
Notation onl := (onl (K := K) (P := P) (Q := Q) (Ls := Ls) (mb := mb) (b := b) (j := j)).
Notation phas := (phas (K := K) (P := P) (Q := Q) (Ls := Ls) (D := D) (n := n) (mb := mb) (b := b) (j := j)).
Notation oR i := (tile_owner (Ls Row) i).
Notation oC i := (tile_owner (Ls Col) i).
Notation m := (n - e_row)%Z.
Notation gl r c l := (t_gl Q D r c l).
Let GA := c_ga _ _ _ _ _ _ _ _ _ C.
Let Hb := c_b _ _ _ _ _ _ _ _ _ C.
Let Hmb := c_mb _ _ _ _ _ _ _ _ _ C.
Let Hdiv := c_div _ _ _ _ _ _ _ _ _ C.
Let J0 := c_j0 _ _ _ _ _ _ _ _ _ C.
Let J1 := c_j1 _ _ _ _ _ _ _ _ _ C.
Let HP := c_P C.
Let HQ := c_Q C.
Ltac ids := unfold mV, mW, mX, mVt, mWt, mXt in *; pose proof (Z.mod_pos_bound j 2 eq_refl); lia.


Notation vid r i := (p_tile r (pV_linked Q mb b D r j) i).
(** rank r has the tile rows of M in the tiles f; the tile rows that belong to its columns *)
Definition rhas (f : Z -> tid) (M : mat K) (r : Z) (s : tstore (mat K)) : Prop := forall i p q, In i (rows_of r) -> (0 <= p < rows i)%Z -> (0 <= q < nr)%Z -> s (f i) p q = M (voff i + p)%Z q.
Definition thas (f : Z -> tid) (hi : Z) (M : mat K) (r : Z) (s : tstore (mat K)) : Prop :=
  forall k p q, (i0 <= k < hi)%Z -> oC k = co Col r -> (0 <= p < rows k)%Z -> (0 <= q < nr)%Z -> s (f k) p q = M (voff k + p)%Z q.
Lemma own_row : forall i, (i0 <= i < nrt)%Z -> In (wP (oR i)) rks /\ onp (wP (oR i)) = true /\ In i (rows_of (wP (oR i))).
Proof using C.
  intros i Li. pose proof (c_own C Row i) as O. cbn [gs] in O. split; [apply (wP_in C); exact O|]. split; [apply (wP_onp C); exact O|]. apply rows_bound. split; [exact Li|]. symmetry. apply (wP_co C). exact O.
Qed.
Lemma bc_has : forall pf id idT hiT, (forall r, In r rks -> p_id (pf r) = id /\ p_lo (pf r) = i0 /\ p_hi (pf r) = nrt) ->
  (forall r i, In r rks -> In i (rows_of r) -> t_mat (p_tile r (pf r) i) <> idT /\ t_rank (p_tile r (pf r) i) = r) ->
  (forall r i, In r rks -> onp r = false -> In i (rows_of r) -> p_ext (pf r) i = None) -> (i0 <= hiT <= nrt)%Z ->
  forall (M : mat K) st, (forall r, In r rks -> onp r = true -> rhas (fun i => p_tile r (pf r) i) M r st) ->
  let s := erun mem (eB (P := P) (Q := Q) (Ls := Ls) (n := n) (mb := mb) (b := b) (j := j) pf id idT hiT) st in
  (forall r, In r rks -> rhas (fun i => p_tile r (pf r) i) M r s) /\
  (forall r, In r rks -> thas (tT (P := P) (Q := Q) (D := D) (mb := mb) (b := b) (j := j) (K := K) pf idT hiT r) hiT M r s) /\
  (forall y, t_mat y <> id -> t_mat y <> idT -> s y = st y).
Proof using C.
  intros pf id idT hiT PID IDS LEAF HT M st H s. destruct (bc_run C pf id idT hiT PID IDS LEAF HT st) as (A1 & A2 & A3). fold s in A1, A2, A3. split; [|split; [|exact A3]].
  - intros r R i p q Ii Lp Lq. rewrite A1 by assumption. apply rows_bound in Ii as [Li _]. destruct (own_row i Li) as (O1 & O2 & O3). apply (H _ O1 O2); assumption.
  - intros r R k p q Lk O Lp Lq. rewrite A2 by assumption. destruct (own_row k ltac:(lia)) as (O1 & O2 & O3). apply (H _ O1 O2); assumption.
Qed.
Lemma pT_eq : forall r id, In r rks -> pT_fresh Q mb b D r j id = fresh_panel id i0 (nrt - 1).
Proof using C. intros r id R. unfold pT_fresh. rewrite (nt_eq C) by exact R. destruct (Z.eqb_spec i0 (nrt - 1)) as [<-|_]; reflexivity. Qed.
Lemma hiT1 : (i0 <= nrt - 1 <= nrt)%Z. Proof using C. pose proof (c_i0 C). lia. Qed.
Definition hiX : Z := if (i0 =? nrt - 1)%Z then nrt else (nrt - 1)%Z.
Lemma hiTX : (i0 <= hiX <= nrt)%Z /\ (nrt - 1 <= hiX)%Z. Proof using C. pose proof (c_i0 C). unfold hiX. destruct (Z.eqb_spec i0 (nrt - 1)); lia. Qed.
Lemma pX_eq : forall r, In r rks -> pXt_fresh Q mb b D r j = fresh_panel (mXt j) i0 hiX.
Proof using C. intros r R. unfold pXt_fresh. rewrite pT_eq, (nt_eq C) by exact R. unfold hiX. destruct (i0 =? nrt - 1)%Z; reflexivity. Qed.
(** a workspace panel *)
Definition wpan (id : Z) : Z -> panel := fun _ => fresh_panel id i0 nrt.
Lemma wpan_pid : forall id r, In r rks -> p_id (wpan id r) = id /\ p_lo (wpan id r) = i0 /\ p_hi (wpan id r) = nrt. Proof using. intros. cbn. auto. Qed.
Lemma wpan_ids : forall id idT r i, id <> idT -> In r rks -> In i (rows_of r) -> t_mat (p_tile r (wpan id r) i) <> idT /\ t_rank (p_tile r (wpan id r) i) = r.
Proof using. intros id idT r i N _ _. split; [exact N|reflexivity]. Qed.
Lemma pW_eq : forall r, In r rks -> pW_empty Q mb b D r j = fresh_panel (mW j) i0 nrt. Proof using C. intros r R. unfold pW_empty. rewrite (nt_eq C) by exact R. reflexivity. Qed.
Lemma pXe_eq : forall r, In r rks -> pX_empty Q mb b D r j = fresh_panel (mX j) i0 nrt. Proof using C. intros r R. unfold pX_empty. rewrite (nt_eq C) by exact R. reflexivity. Qed.
Notation eBV := (eB (P := P) (Q := Q) (Ls := Ls) (n := n) (mb := mb) (b := b) (j := j) (K := K) (fun r => pV_linked Q mb b D r j) (mV j) (mVt j) (nrt - 1)).
Notation eBW := (eB (P := P) (Q := Q) (Ls := Ls) (n := n) (mb := mb) (b := b) (j := j) (K := K) (wpan (mW j)) (mW j) (mWt j) (nrt - 1)).
Notation eBX := (eB (P := P) (Q := Q) (Ls := Ls) (n := n) (mb := mb) (b := b) (j := j) (K := K) (wpan (mX j)) (mX j) (mXt j) hiX).
Lemma pv_pid : forall r, In r rks -> p_id (pV_linked Q mb b D r j) = mV j /\ p_lo (pV_linked Q mb b D r j) = i0 /\ p_hi (pV_linked Q mb b D r j) = nrt.
Proof using C. intros r R. destruct (pv_eq C r R) as (A & B & C' & _). auto. Qed.
Lemma pv_ids : forall r i, In r rks -> In i (rows_of r) -> t_mat (vid r i) <> mVt j /\ t_rank (vid r i) = r.
Proof using C. intros r i R Ii. split; [|apply (vid_rank C); assumption]. destruct (vid_mat C r i R Ii) as [E|E]; rewrite E; ids. Qed.
Lemma pv_leaf : forall r i, In r rks -> onp r = false -> In i (rows_of r) -> p_ext (pV_linked Q mb b D r j) i = None.
Proof using C. intros r i R O Ii. destruct (pv_eq C r R) as (_ & _ & _ & E). rewrite (E i Ii), O. reflexivity. Qed.
(** the tiles of the transposed panels *)
Notation vtT r := (tT (P := P) (Q := Q) (D := D) (mb := mb) (b := b) (j := j) (K := K) (fun r => pV_linked Q mb b D r j) (mVt j) (nrt - 1) r).
Notation wtT r := (tT (P := P) (Q := Q) (D := D) (mb := mb) (b := b) (j := j) (K := K) (wpan (mW j)) (mWt j) (nrt - 1) r).
Notation xtT r := (tT (P := P) (Q := Q) (D := D) (mb := mb) (b := b) (j := j) (K := K) (wpan (mX j)) (mXt j) hiX r).
Lemma bcV_eq : forall r, In r rks -> fst (bcV (K := K) P Q mb b D r j) = proj mem r eBV /\ forall k, p_tile r (pVt (K := K) P Q mb b D r j) k = vtT r k.
Proof using C.
  intros r R. unfold pVt, bcV. rewrite pT_eq by exact R. split; [|reflexivity]. apply (bc_sem C _ _ _ _ pv_pid pv_ids pv_leaf hiT1 r R).
Qed.
Lemma bcW_eq : forall r, In r rks -> fst (bcW (K := K) P Q mb b D r j) = proj mem r eBW /\ forall k, p_tile r (pWt (K := K) P Q mb b D r j) k = wtT r k.
Proof using C.
  intros r R. unfold pWt, bcW. rewrite pT_eq, pW_eq by exact R. split; [|reflexivity].
  apply (bc_sem C (wpan (mW j)) (mW j) (mWt j) (nrt - 1)%Z (wpan_pid _) (fun r i => wpan_ids (mW j) (mWt j) r i ltac:(ids)) (fun _ _ _ _ _ => eq_refl) hiT1 r R).
Qed.
Lemma bcX_eq : forall r, In r rks -> fst (bcX (K := K) P Q mb b D r j) = proj mem r eBX /\ forall k, p_tile r (pXt (K := K) P Q mb b D r j) k = xtT r k.
Proof using C.
  intros r R. unfold pXt, bcX. rewrite pX_eq, pXe_eq by exact R. split; [|reflexivity].
  apply (bc_sem C (wpan (mX j)) (mX j) (mXt j) hiX (wpan_pid _) (fun r i => wpan_ids (mX j) (mXt j) r i ltac:(ids)) (fun _ _ _ _ _ => eq_refl) (proj1 hiTX) r R).
Qed.
(** ** W = V T *)
Lemma W_own : forall r, In r rks -> own_tiles r (q_W kn Q n mb b D r j).
Proof using C.
  intros r R jb u I0. unfold q_W in I0. apply in_map_iff in I0 as (l & <- & Il). cbn [tj_in tj_out]. intros [[<-|[<-|[]]]| ->]; try reflexivity. apply (vid_rank C); [exact R|apply (gl_in C); assumption].
Qed.
Lemma W_val : forall st V T tau, (forall r, In r rks -> onp r = true -> rhas (fun i => vid r i) V r st) -> (forall r, In r rks -> onp r = true -> t_rec m nr V (st (qT r j)) tau) -> t_rec m nr V T tau ->
  let s := erun mem (onl (fun r => q_W kn Q n mb b D r j)) st in
  (forall r, In r rks -> onp r = true -> rhas (fun i => Tid r (mW j) i 0) (mmul nr V T) r s) /\ (forall y, t_mat y <> mW j -> s y = st y).
Proof using C KO.
  intros st V T tau HV HT T0 s. split.
  2:{ intros y Y. apply (onl_mat C _ st (fun z => z =? mW j)%Z W_own); [|apply Z.eqb_neq; exact Y]. intros r jb R I0. unfold q_W in I0. apply in_map_iff in I0 as (l & <- & Il). cbn [tj_out]. rewrite (pW_eq r R). cbn. apply Z.eqb_refl. }
  intros r R O i p q Ii Lp Lq. unfold s. rewrite (onl_at' C _ st W_own r R O) by reflexivity.
  assert (Ii' := Ii). rewrite <- (q_rows_map C r R) in Ii'. apply in_map_iff in Ii' as (l & El & Il). unfold q_W.
  match goal with |- trun (map ?f ?L) _ _ _ _ = _ => destruct (ljobs r (mW j) (fun l => gl r Row l) f L st) as [R1 _]; [apply (nd_rows C); exact R| | |] end.
  - intros l' _. cbn [tj_out]. rewrite (pW_eq r R). reflexivity.
  - intros l' u Il' [<-|[<-|[]]]; [cbn [qT t_mat]; ids|]. destruct (vid_mat C r (gl r Row l') R (gl_in C r l' R Il')) as [E|E]; rewrite E; ids.
  - rewrite <- El at 1. rewrite R1 by exact Il. unfold tval. cbn [tj_fun tj_in tj_out map in2]. rewrite (prows_eq C) by assumption. rewrite El.
    rewrite (trmm_ok kn KO Right Upper NoTrans NonUnit (rows i) nr f1 (st (qT r j)) (st (vid r i)) p q) by assumption.
    unfold mmul. transitivity (fsum 0 nr (fun a => st (vid r i) p a * opm NoTrans (trim Upper NonUnit (st (qT r j))) a q)); [ring|].
    apply fsum_ext. intros a La. rewrite (HV r R O) by assumption. f_equal. pose proof (t_rec_unique m nr V _ _ tau (HT r R O) T0 a q La Lq) as TU. rewrite <- TU. unfold opm, trim, in_tri.
    destruct (Z.eqb_spec a q); [reflexivity|]. destruct (Z.leb_spec a q); [reflexivity|]. symmetry. destruct (HT r R O) as (TL & _ & _). apply TL; lia.
Qed.
(** ** X = At W *)
Definition tgt (r k : Z) : tid := if (oR k =? co Row r)%Z then Tid r (mX j) k 0 else Tid r (mXt j) k 0.
Lemma tgt_mat : forall r k, t_mat (tgt r k) = mX j \/ t_mat (tgt r k) = mXt j. Proof using. intros r k. unfold tgt. destruct (_ =? _)%Z; auto. Qed.
Lemma tgt_rank : forall r k, t_rank (tgt r k) = r. Proof using. intros r k. unfold tgt. destruct (_ =? _)%Z; reflexivity. Qed.
Lemma tgt_row : forall r k, t_row (tgt r k) = k. Proof using. intros r k. unfold tgt. destruct (_ =? _)%Z; reflexivity. Qed.
Notation cols_of r i := (filter (fun k => oC k =? co Col r)%Z (zrange i0 (i + 1))).
Definition xb (r i k : Z) : list (tjob (mat K)) :=
  if (i =? k)%Z then [TJob [qA r i k; Tid r (mW j) i 0] (Tid r (mX j) i 0) (in2 (fun a w x => hemm kn Left Lower (rows i) nr f1 (sub (ri i) (ri k) a) w f1 x))]
  else [TJob [qA r i k; wtT r k] (Tid r (mX j) i 0) (in2 (fun a w x => gemm kn NoTrans NoTrans (rows i) nr (rows k) f1 (sub (ri i) (ri k) a) w f1 x));
        TJob [qA r i k; Tid r (mW j) i 0] (tgt r k) (in2 (fun a w x => gemm kn ConjTrans NoTrans (rows k) nr (rows i) f1 (sub (ri i) (ri k) a) w f1 x))].
Lemma msub_eq : forall r rc l, In r rks -> tile_owner (Ls rc) (gl r rc l) = co rc r -> msub Q mb b D r j rc l = ri (gl r rc l).
Proof using C.
  intros r rc l R O. unfold msub, has_sub, Red2BandModel.ri. pose proof (c_i0 C). rewrite !(own_eq C) by (try assumption; lia). destruct (Z.eqb_spec (gl r rc l) i0) as [E|E]; [|rewrite andb_false_r; reflexivity].
  rewrite andb_true_r. rewrite E in O. destruct rc; rewrite O, Z.eqb_refl; cbn [orb]; [reflexivity|]. rewrite orb_true_r. reflexivity.
Qed.
Lemma msz_eq : forall r rc l, In r rks -> tile_owner (Ls rc) (gl r rc l) = co rc r -> (i0 <= gl r rc l < nrt)%Z -> msz Q mb b D r j rc l = rows (gl r rc l).
Proof using C. intros r rc l R O L. unfold msz. rewrite msub_eq by assumption. rewrite (c_sz _ _ _ _ _ _ _ _ _ C); [reflexivity|exact R|]. pose proof (c_i0 C). lia. Qed.
Lemma cols_map : forall r i, In r rks -> (i0 <= i < nrt)%Z -> map (t_gl Q D r Col) (zrange (t_nx Q D r Col i0) (t_nx Q D r Col (i + 1))) = cols_of r i.
Proof using C. intros r i R Li. pose proof (c_i0 C). apply (loop_eq C); [exact R|lia|lia]. Qed.
Lemma cols_in' : forall r i k, In k (cols_of r i) <-> (i0 <= k <= i)%Z /\ oC k = co Col r.
Proof using. intros r i k. rewrite filter_In, in_zrange, Z.eqb_eq. split; intros [L O]; (split; [lia|exact O]). Qed.
Lemma col_l : forall r i l, In r rks -> (i0 <= i < nrt)%Z -> In l (zrange (t_nx Q D r Col i0) (t_nx Q D r Col (i + 1))) -> (i0 <= gl r Col l <= i)%Z /\ oC (gl r Col l) = co Col r.
Proof using C. intros r i l R Li Il. apply cols_in'. rewrite <- cols_map by assumption. apply in_map. exact Il. Qed.
Lemma q_X_eq : forall r, In r rks -> q_X kn P Q n mb b D r j = flat_map (fun i => flat_map (xb r i) (rev (cols_of r i))) (rows_of r).
Proof using C.
  intros r R. rewrite <- (q_rows_map C r R). rewrite flat_map_map. unfold q_X. apply flat_map_ext_in. intros li Il. pose proof (gl_in C r li R Il) as Ig. apply rows_bound in Ig as [Lg Og].
  rewrite <- cols_map, <- map_rev by assumption. rewrite flat_map_map. unfold for_down, limit. replace (t_nx Q D r Col (gl r Row li + 1) - 1 + 1)%Z with (t_nx Q D r Col (gl r Row li + 1)) by lia.
  apply flat_map_ext_in. intros lk Ik. apply in_rev in Ik. destruct (col_l r _ lk R Lg Ik) as [Lk Ok]. cbv zeta. rewrite !msub_eq, !msz_eq by (try assumption; lia).
  rewrite (pW_eq r R), (pXe_eq r R), (proj2 (bcW_eq r R)). unfold pXt_work. rewrite (pT_eq r _ R). unfold xb. destruct (_ =? _)%Z; [reflexivity|]. do 3 f_equal.
  pose proof (c_i0 C). rewrite (own_eq C) by (try assumption; lia). unfold tgt. rewrite Z.eqb_sym. destruct (Z.eqb_spec (oR (gl r Col lk)) (co Row r)) as [E|E]; [|reflexivity].
  rewrite (gl_loc C) by (try assumption; lia). reflexivity.
Qed.
Definition xz (r : Z) : list tid := map (fun i => Tid r (mX j) i 0) (rows_of r) ++ map (fun k => Tid r (mXt j) k 0) (filter (fun k => oC k =? co Col r)%Z (zrange i0 (nrt - 1))).
Lemma xt_map : forall r, In r rks -> map (t_gl Q D r Col) (xt_cols Q mb b D r j) = filter (fun k => oC k =? co Col r)%Z (zrange i0 (nrt - 1)).
Proof using C. intros r R. unfold xt_cols, pXt_work. rewrite (pT_eq r _ R). cbn [fresh_panel p_lo p_hi]. pose proof (c_i0 C). apply (loop_eq C); [exact R|lia|lia]. Qed.
Lemma set0_eq : forall r, In r rks -> q_set0_X (K := K) Q mb b D r j ++ q_set0_Xt Q mb b D r j = map jset0 (xz r).
Proof using C.
  intros r R. unfold xz. rewrite map_app, !map_map. rewrite <- (q_rows_map C r R), <- (xt_map r R), !map_map. unfold q_set0_X, q_set0_Xt. rewrite (pXe_eq r R). unfold pXt_work. rewrite (pT_eq r _ R). reflexivity.
Qed.
Lemma set0_run : forall L (s : tstore (mat K)) y, In y L -> forall p q, trun (map jset0 L) s y p q = 0.
Proof using.
  intros L. induction L as [|x L IH] using rev_ind; intros s y I0 p q; [destruct I0|]. rewrite map_app, trun_app. cbn [map]. rewrite trun_cons. cbn [trun fold_left]. unfold texec. cbn [jset0 tj_out].
  destruct (tid_eqb_spec y x) as [->|N]; [rewrite tset_eq; reflexivity|]. rewrite tset_neq by congruence. apply in_app_or in I0 as [I0|[<-|[]]]; [apply IH; exact I0|contradiction].
Qed.
Definition xl (r : Z) : list (tjob (mat K)) := q_set0_X Q mb b D r j ++ q_set0_Xt Q mb b D r j ++ q_X kn P Q n mb b D r j.
Lemma xl_eq : forall r, In r rks -> xl r = map jset0 (xz r) ++ flat_map (fun i => flat_map (xb r i) (rev (cols_of r i))) (rows_of r).
Proof using C. intros r R. unfold xl. rewrite app_assoc, set0_eq, q_X_eq by exact R. reflexivity. Qed.
Lemma wtT_eq : forall r k, In r rks -> (i0 <= k < nrt - 1)%Z -> oC k = co Col r -> t_rank (wtT r k) = r /\ (t_mat (wtT r k) = mW j \/ t_mat (wtT r k) = mWt j).
Proof using C.
  intros r k R Lk O. rewrite (tT_eq C (wpan (mW j)) (mW j) (mWt j) (nrt - 1)%Z (wpan_pid _) (fun r i => wpan_ids (mW j) (mWt j) r i ltac:(ids)) (fun _ _ _ _ _ => eq_refl) hiT1) by assumption.
  destruct (_ =? _)%Z; cbn; auto.
Qed.
Lemma xb_ok : forall r i k jb, In r rks -> In i (rows_of r) -> In k (cols_of r i) -> In jb (xb r i k) ->
  (t_mat (tj_out jb) = mX j \/ t_mat (tj_out jb) = mXt j) /\ (forall u, In u (tj_in jb) \/ u = tj_out jb -> t_rank u = r).
Proof using C.
  intros r i k jb R Ii Ik I0. apply rows_bound in Ii as [Li Oi]. apply cols_in' in Ik as [Lk Ok]. unfold xb in I0. destruct (Z.eqb_spec i k) as [<-|N].
  - destruct I0 as [<-|[]]. cbn [tj_out tj_in]. split; [left; reflexivity|]. intros u [[<-|[<-|[]]]| ->]; reflexivity.
  - destruct I0 as [<-|[<-|[]]]; cbn [tj_out tj_in]; (split; [first [left; reflexivity | apply tgt_mat]|]); intros u [[<-|[<-|[]]]| ->]; try reflexivity; [apply wtT_eq; (exact R || exact Ok || lia)|apply tgt_rank].
Qed.
Lemma xl_own : forall r, In r rks -> own_tiles r (xl r).
Proof using C.
  intros r R jb u I0. rewrite xl_eq in I0 by exact R. apply in_app_or in I0 as [I0|I0].
  - apply in_map_iff in I0 as (x & <- & Ix). cbn [jset0 tj_in tj_out]. intros [[]| ->]. unfold xz in Ix. apply in_app_or in Ix as [Ix|Ix]; apply in_map_iff in Ix as (k & <- & _); reflexivity.
  - apply in_flat_map in I0 as (i & Ii & I0). apply in_flat_map in I0 as (k & Ik & I0). apply in_rev in Ik. apply (xb_ok r i k jb R Ii Ik I0).
Qed.
Lemma xl_out : forall r jb, In r rks -> In jb (xl r) -> t_mat (tj_out jb) = mX j \/ t_mat (tj_out jb) = mXt j.
Proof using C.
  intros r jb R I0. rewrite xl_eq in I0 by exact R. apply in_app_or in I0 as [I0|I0].
  - apply in_map_iff in I0 as (x & <- & Ix). cbn [jset0 tj_out]. unfold xz in Ix. apply in_app_or in Ix as [Ix|Ix]; apply in_map_iff in Ix as (k & <- & _); auto.
  - apply in_flat_map in I0 as (i & Ii & I0). apply in_flat_map in I0 as (k & Ik & I0). apply in_rev in Ik. apply (xb_ok r i k jb R Ii Ik I0).
Qed.
(** the trailing matrix *)
Definition trl (At : mat K) (s : tstore (mat K)) : Prop := forall r i k u v, In r rks -> (i0 <= k <= i)%Z -> (i < nrt)%Z -> oR i = co Row r -> oC k = co Col r ->
  (0 <= u < rows i)%Z -> (0 <= v < rows k)%Z -> sub (ri i) (ri k) (s (qA r i k)) u v = At (voff i + u)%Z (voff k + v)%Z.
Definition xc (At W : mat K) (R p q k : Z) : F K := fsum 0 (rows k) (fun u => herm Lower At (voff R + p)%Z (voff k + u)%Z * W (voff k + u)%Z q).
Definition xd (At W : mat K) (R p q i k : Z) : F K := if (i =? R)%Z then xc At W R p q k else if (k =? R)%Z then xc At W R p q i else 0.
Lemma order : forall i u k v, (i0 <= k < i)%Z -> (i < nrt)%Z -> (0 <= u < rows i)%Z -> (0 <= v < rows k)%Z -> (voff k + v < voff i + u)%Z.
Proof using C.
  intros i u k v Lk Li Lu Lv. unfold DistR2BIdx.voff. apply (tile_order t (c_tok C)); rewrite ?ptl_n; try lia; cbn [tl_sz ptl].
  - replace (i0 + (k - i0))%Z with k by lia. exact Lv.
  - replace (i0 + (i - i0))%Z with i by lia. exact Lu.
Qed.
Lemma xb_val : forall r i k R p q (At W : mat K) st, In r rks -> In i (rows_of r) -> In k (cols_of r i) -> (i0 <= R < nrt)%Z -> (0 <= p < rows R)%Z -> (0 <= q < nr)%Z ->
  trl At st -> real_diag m At -> rhas (fun i => Tid r (mW j) i 0) W r st -> thas (fun k => wtT r k) (nrt - 1) W r st ->
  trun (xb r i k) st (tgt r R) p q = st (tgt r R) p q + xd At W R p q i k.
Proof using C KO.
  intros r i k R p q At W st Rr Ii Ik LR Lp Lq HA RD HW HT. assert (Ii' := Ii). apply rows_bound in Ii' as [Li Oi]. apply cols_in' in Ik as [Lk Ok].
  assert (HA' : forall u v, (0 <= u < rows i)%Z -> (0 <= v < rows k)%Z -> sub (ri i) (ri k) (st (qA r i k)) u v = At (voff i + u)%Z (voff k + v)%Z) by (intros u v Lu Lv; apply HA; (assumption || lia)).
  assert (TX : tgt r i = Tid r (mX j) i 0) by (unfold tgt; rewrite Oi, Z.eqb_refl; reflexivity).
  assert (NX : forall k', k' <> R -> tgt r k' <> tgt r R) by (intros k' N E; apply N; rewrite <- (tgt_row r k'), <- (tgt_row r R), E; reflexivity).
  unfold xb, xd. rewrite <- TX. destruct (Z.eqb_spec i k) as [<-|N].
  - rewrite trun_cons. cbn [trun fold_left]. unfold texec. cbn [tj_out]. destruct (Z.eqb_spec i R) as [<-|NR].
    + rewrite tset_eq. unfold tval. cbn [tj_fun tj_in tj_out map in2].
      rewrite (hemm_ok kn KO Left Lower (rows i) nr f1 (sub (ri i) (ri i) (st (qA r i i))) (st (Tid r (mW j) i 0)) f1 (st (tgt r i))); [|intros u Lu; rewrite HA' by assumption; apply RD| |]; try assumption.
      2:{ apply (voff_bound C); assumption. }
      unfold mmul, xc. transitivity (st (tgt r i) p q + fsum 0 (rows i) (fun r0 => herm Lower (sub (ri i) (ri i) (st (qA r i i))) p r0 * st (Tid r (mW j) i 0) r0 q)); [ring|]. f_equal.
      apply fsum_ext. intros u Lu. rewrite HW by assumption. f_equal. unfold herm, in_tri. rewrite !HA' by assumption.
      destruct (Z.leb_spec u p), (Z.leb_spec (voff i + u) (voff i + p)); try lia; reflexivity.
    + rewrite tset_neq by (apply not_eq_sym, NX; exact NR). ring.
  - rewrite !trun_cons. cbn [trun fold_left]. unfold texec. cbn [tj_out]. destruct (Z.eqb_spec i R) as [<-|NR].
    + rewrite tset_neq by (apply not_eq_sym, NX; lia). rewrite tset_eq. unfold tval. cbn [tj_fun tj_in tj_out map in2].
      rewrite (gemm_ok kn KO NoTrans NoTrans (rows i) nr (rows k) f1 (sub (ri i) (ri k) (st (qA r i k))) (st (wtT r k)) f1 (st (tgt r i))) by assumption.
      unfold mmul, xc. transitivity (st (tgt r i) p q + fsum 0 (rows k) (fun r0 => opm NoTrans (sub (ri i) (ri k) (st (qA r i k))) p r0 * opm NoTrans (st (wtT r k)) r0 q)); [ring|]. f_equal.
      apply fsum_ext. intros u Lu. unfold opm. rewrite HA' by assumption. rewrite HT by (assumption || lia). f_equal. unfold herm, in_tri. pose proof (order i p k u ltac:(lia) ltac:(lia) Lp Lu).
      destruct (Z.leb_spec (voff k + u) (voff i + p)); [reflexivity|lia].
    + destruct (Z.eqb_spec k R) as [<-|NK].
      * rewrite tset_eq. unfold tval. cbn [tj_fun tj_in tj_out map in2]. rewrite !tset_neq; [|apply not_eq_sym, NX; exact NR| |].
        2:{ intros E. apply (f_equal t_mat) in E. rewrite TX in E. cbn [t_mat] in E. ids. }
        2:{ intros E. apply (f_equal t_mat) in E. rewrite TX in E. cbn [qA t_mat] in E. ids. }
        rewrite (gemm_ok kn KO ConjTrans NoTrans (rows k) nr (rows i) f1 (sub (ri i) (ri k) (st (qA r i k))) (st (Tid r (mW j) i 0)) f1 (st (tgt r k))) by assumption.
        unfold mmul, xc. transitivity (st (tgt r k) p q + fsum 0 (rows i) (fun r0 => opm ConjTrans (sub (ri i) (ri k) (st (qA r i k))) p r0 * opm NoTrans (st (Tid r (mW j) i 0)) r0 q)); [ring|]. f_equal.
        apply fsum_ext. intros u Lu. unfold opm. rewrite HW, HA' by assumption. f_equal. unfold herm, in_tri. pose proof (order i u k p ltac:(lia) ltac:(lia) Lu Lp).
        destruct (Z.leb_spec (voff i + u) (voff k + p)); [lia|reflexivity].
      * rewrite !tset_neq by (apply not_eq_sym, NX; assumption). ring.
Qed.
Lemma xl_val : forall r R p q (At W : mat K) st, In r rks -> (i0 <= R < nrt)%Z -> (oR R = co Row r \/ oC R = co Col r /\ (R < nrt - 1)%Z) -> (0 <= p < rows R)%Z -> (0 <= q < nr)%Z ->
  trl At st -> real_diag m At -> rhas (fun i => Tid r (mW j) i 0) W r st -> thas (fun k => wtT r k) (nrt - 1) W r st ->
  trun (xl r) st (tgt r R) p q = lsum (rows_of r) (fun i => lsum (cols_of r i) (fun k => xd At W R p q i k)).
Proof using C KO.
  intros r R p q At W st Rr LR OR Lp Lq HA RD HW HT. rewrite xl_eq by exact Rr. rewrite trun_app. set (z := trun (map jset0 (xz r)) st).
  set (S := fun w => t_mat w <> mX j /\ t_mat w <> mXt j).
  assert (ZS : forall w, S w -> z w = st w).
  { intros w [S1 S2]. apply trun_frame. intros jb I0. apply in_map_iff in I0 as (x & <- & Ix). cbn [jset0 tj_out]. unfold xz in Ix. intros <-. apply in_app_or in Ix as [Ix|Ix]; apply in_map_iff in Ix as (k & <- & _); [apply S1|apply S2]; reflexivity. }
  assert (Z0 : z (tgt r R) p q = 0).
  { unfold z. apply set0_run. unfold xz, tgt. apply in_or_app. destruct (Z.eqb_spec (oR R) (co Row r)) as [E|E].
    - left. apply in_map_iff. exists R. split; [reflexivity|]. apply rows_bound. auto.
    - right. destruct OR as [OR|[O2 L2]]; [contradiction|]. apply in_map_iff. exists R. split; [reflexivity|]. apply filter_In. split; [apply in_zrange; lia|apply Z.eqb_eq; exact O2]. }
  assert (PR : forall i k s w, In i (rows_of r) -> In k (cols_of r i) -> S w -> trun (xb r i k) s w = s w).
  { intros i k s w Ii Ik [S1 S2]. apply trun_frame. intros jb I0 <-. destruct (proj1 (xb_ok r i k jb Rr Ii Ik I0)); contradiction. }
  rewrite (acc_flat (fun i => flat_map (xb r i) (rev (cols_of r i))) S (tgt r R) (fun X => X p q) (fun i => lsum (cols_of r i) (fun k => xd At W R p q i k))).
  - rewrite Z0. change (DistTriProofs.gsum (rows_of r)) with (lsum (K := K) (rows_of r)). ring.
  - intros i s w Ii Sw. apply trun_frame. intros jb I0 <-. apply in_flat_map in I0 as (k & Ik & I0). apply in_rev in Ik. destruct Sw as [S1 S2]. destruct (proj1 (xb_ok r i k jb Rr Ii Ik I0)); contradiction.
  - intros i s Ii AG. rewrite (acc_flat (xb r i) S (tgt r R) (fun X => X p q) (fun k => xd At W R p q i k)).
    + rewrite gsum_rev. reflexivity.
    + intros k s' w Ik Sw. apply in_rev in Ik. apply PR; assumption.
    + intros k s' Ik AG'. apply in_rev in Ik. assert (AS : forall w, S w -> s' w = st w) by (intros w Sw; rewrite AG', AG, ZS by exact Sw; reflexivity).
      apply xb_val; try assumption.
      * intros r' i' k' u v R' L1 L2 O1 O2 L3 L4. rewrite AS by (split; cbn [qA t_mat]; ids). apply HA; assumption.
      * intros i' p' q' I' L1 L2. rewrite AS by (split; cbn [t_mat]; ids). apply HW; assumption.
      * intros k' p' q' L1 O1 L2 L3. destruct (wtT_eq r k' Rr L1 O1) as [_ [E|E]]; rewrite AS by (split; rewrite E; ids); apply HT; assumption.
Qed.
(** reductions of different tiles *)
Lemma reds_run : forall (cc : Z -> comm) (root : Z -> Z) (tl : Z -> Z -> tid) L (st : tstore (mat K)), NoDup L -> (forall k, In k L -> In (root k) (mem (cc k))) ->
  (forall r k, t_rank (tl r k) = r) -> (forall r k, t_row (tl r k) = k) ->
  let s := erun mem (flat_map (fun k => [ereduce P Q (cc k) (root k) (fun r => tl r k)]) L) st in
  (forall k, In k L -> s (tl (root k) k) = msum (map (fun q => st (tl q k)) (mem (cc k)))) /\ (forall y, (forall k, In k L -> y <> tl (root k) k) -> s y = st y).
Proof using.
  intros cc root tl L st ND RT TR TK. cbv zeta. revert ND RT. induction L as [|k L IH] using rev_ind; intros ND RT; [split; [intros k []|reflexivity]|].
  apply NoDup_remove in ND as [ND NI]. rewrite app_nil_r in ND, NI. destruct (IH ND) as [I1 I2]. { intros k' Ik'. apply RT. apply in_or_app. left. exact Ik'. }
  rewrite flat_map_app. cbn [flat_map app]. rewrite (erun_app P Q). set (s1 := erun mem _ st) in *. cbn [erun fold_left].
  assert (FR : forall x, x <> tl (root k) k -> eexec mem s1 (ereduce P Q (cc k) (root k) (fun r => tl r k)) x = s1 x) by (intros x X; apply reduce_frame; left; exact X).
  assert (NE : forall r r' k', In k' L -> tl r k <> tl r' k') by (intros r r' k' Ik' E; apply NI; rewrite <- (TK r k), E, TK; exact Ik'). split.
  - intros k' Ik'. apply in_app_or in Ik' as [Ik'|[<-|[]]].
    + rewrite FR by (apply not_eq_sym, NE; exact Ik'). apply I1. exact Ik'.
    + rewrite (reduce_root P Q (cc k) (root k) (fun r => tl r k) s1); [|apply RT; apply in_or_app; right; left; reflexivity|apply TR].
      f_equal. apply map_ext. intros q. apply I2. intros k' Ik'. apply NE. exact Ik'.
  - intros x X. rewrite FR; [apply I2; intros k' Ik'; apply X; apply in_or_app; left; exact Ik'|]. apply X. apply in_or_app. right. left. reflexivity.
Qed.
Lemma reds_ok : forall (cc : Z -> comm) (root : Z -> Z) (tl : Z -> Z -> tid) L, (forall r k, t_rank (tl r k) = r) -> Forall (event_ok mem rks) (flat_map (fun k => [ereduce (K := K) P Q (cc k) (root k) (fun r => tl r k)]) L).
Proof using C. intros cc root tl L TR. apply forall_flat. intros k _. constructor; [|constructor]. apply ereduce_ok; [exact HP|exact HQ|]. intros r _. apply TR. Qed.
Definition xid (r i : Z) : tid := Tid r (mX j) i 0.
Definition eRC : list (event (mat K)) := if (1 <? P)%Z then flat_map (fun k => [ereduce P Q (cm Col (oC k)) (mk Q Col (oC k) (oR k)) (fun r => tgt r k)]) (zrange i0 (nrt - 1)) else [].
Definition eRR : list (event (mat K)) := if (1 <? Q)%Z then flat_map (fun i => [ereduce P Q (cm Row (oR i)) (mk Q Row (oR i) (oC j0)) (fun r => xid r i)]) (zrange i0 nrt) else [].
Lemma mkx : forall rc a c r, In r rks -> (0 <= a < gs P Q rc)%Z -> (0 <= c < gs P Q (other rc))%Z -> co rc r = a -> (r =? mk Q rc a c)%Z = (c =? co (other rc) r)%Z.
Proof using C. intros rc a c r R La Lc E. rewrite (mk_eqb _ _ _ _ _ GA) by assumption. rewrite E, Z.eqb_refl. cbn [andb]. apply Z.eqb_sym. Qed.
Lemma RC_proj : forall r, In r rks -> q_red_col P Q mb b D r j = proj mem r eRC.
Proof using C.
  intros r R. unfold q_red_col, eRC. destruct (1 <? P)%Z; [|reflexivity]. rewrite (proj_flat P Q).
  rewrite (flat_map_ext_in _ (fun k => if (oC k =? co Col r)%Z then [ACom (if (r =? mk Q Col (oC k) (oR k))%Z then rrecv P Q (cm Col (oC k)) (mk Q Col (oC k) (oR k)) (tgt r k) else rsend (cm Col (oC k)) (mk Q Col (oC k) (oR k)) (tgt r k))] else []) (zrange i0 (nrt - 1))).
  2:{ intros k _. rewrite ereduce_proj. rewrite (member_cm _ _ _ _ _ GA) by exact R. reflexivity. }
  rewrite flat_filter'. rewrite <- (xt_map r R), flat_map_map. apply flat_map_ext_in. intros l Il. cbv zeta.
  assert (Ik : In (gl r Col l) (filter (fun k => oC k =? co Col r)%Z (zrange i0 (nrt - 1)))) by (rewrite <- (xt_map r R); apply in_map; exact Il).
  apply filter_In in Ik as [Lk Ok]. apply in_zrange in Lk. apply Z.eqb_eq in Ok. pose proof (c_i0 C). rewrite (own_eq C) by (try assumption; lia).
  rewrite mkx by (first [exact R | exact (c_own C Col _) | exact (c_own C Row _) | symmetry; exact Ok]). cbn [other]. rewrite Ok. unfold pXt_work. rewrite (pT_eq r _ R), (pXe_eq r R). unfold tgt.
  destruct (Z.eqb_spec (oR (gl r Col l)) (co Row r)) as [E|E]; [|reflexivity]. rewrite (gl_loc C) by (try assumption; lia). reflexivity.
Qed.
Lemma RR_proj : forall r, In r rks -> q_red_row P Q mb b D r j = proj mem r eRR.
Proof using C.
  intros r R. unfold q_red_row, eRR. destruct (1 <? Q)%Z; [|reflexivity]. rewrite (proj_flat P Q).
  rewrite (flat_map_ext_in _ (fun k => if (oR k =? co Row r)%Z then [ACom (if (r =? mk Q Row (oR k) (oC j0))%Z then rrecv P Q (cm Row (oR k)) (mk Q Row (oR k) (oC j0)) (xid r k) else rsend (cm Row (oR k)) (mk Q Row (oR k) (oC j0)) (xid r k))] else []) (zrange i0 nrt)).
  2:{ intros k _. rewrite ereduce_proj. rewrite (member_cm _ _ _ _ _ GA) by exact R. reflexivity. }
  rewrite flat_filter'. change (filter (fun k => oR k =? co Row r)%Z (zrange i0 nrt)) with (rows_of r). rewrite <- (q_rows_map C r R), flat_map_map. apply flat_map_ext_in. intros l Il. cbv zeta.
  pose proof (gl_in C r l R Il) as Ig. apply rows_bound in Ig as [Lg Og]. unfold v0_col. pose proof (c_jc C). rewrite (own_eq C) by (try assumption; lia).
  rewrite mkx by (first [exact R | exact (c_own C Col _) | exact (c_own C Row _) | symmetry; exact Og]). cbn [other]. rewrite Og, (pXe_eq r R). destruct (_ =? _)%Z; reflexivity.
Qed.
Lemma lsum_msum : forall (f : Z -> mat K) (g : Z -> Z) l p q, msum (map f (map g l)) p q = lsum l (fun x => f (g x) p q).
Proof using. intros f g l p q. rewrite msum_lsum. unfold lsum. induction l as [|x l IH]; cbn [map fold_right]; [reflexivity|]. rewrite IH. reflexivity. Qed.
Lemma memCol : forall a, (0 <= a < Q)%Z -> mem (cm Col a) = map (fun x => mk Q Row x a) (zrange 0 P).
Proof using. intros a L. cbn. rewrite (proj2 (Z.leb_le 0 a)), (proj2 (Z.ltb_lt _ _)) by lia. reflexivity. Qed.
Lemma memRow : forall a, (0 <= a < P)%Z -> mem (cm Row a) = map (fun x => mk Q Row a x) (zrange 0 Q).
Proof using. intros a L. cbn. rewrite (proj2 (Z.leb_le 0 a)), (proj2 (Z.ltb_lt _ _)) by lia. reflexivity. Qed.
Lemma xl_mat : forall st y, t_mat y <> mX j -> t_mat y <> mXt j -> erun mem (elocal P Q xl) st y = st y.
Proof using C. intros st y Y1 Y2. apply (elocal_frame P Q HP HQ _ st y xl_own). intros r jb R I0 <-. destruct (xl_out r jb R I0); contradiction. Qed.
Lemma RC_run : forall st, let s := erun mem eRC st in
  (forall k p q, (i0 <= k < nrt - 1)%Z -> s (xid (mk Q Row (oR k) (oC k)) k) p q = lsum (zrange 0 P) (fun x => st (tgt (mk Q Row x (oC k)) k) p q)) /\
  (forall y, (forall k, (i0 <= k < nrt - 1)%Z -> y <> xid (mk Q Row (oR k) (oC k)) k) -> s y = st y).
Proof using C.
  intros st s. assert (TG : forall k, tgt (mk Q Row (oR k) (oC k)) k = xid (mk Q Row (oR k) (oC k)) k).
  { intros k. destruct (co_mk P Q HP HQ Row (oR k) (oC k) (c_own C Row k) (c_own C Col k)) as [E _]. unfold tgt. rewrite E, Z.eqb_refl. reflexivity. }
  unfold s, eRC. destruct (Z.ltb_spec 1 P) as [L|L].
  - destruct (reds_run (fun k => cm Col (oC k)) (fun k => mk Q Col (oC k) (oR k)) tgt (zrange i0 (nrt - 1)) st (zrange_NoDup _ _)) as [R1 R2].
    + intros k _. apply (in_cm P Q HP HQ). split; [apply (mk_rank _ _ _ _ _ GA Col); [apply (c_own C Col)|apply (c_own C Row)]|]. apply (co_mk P Q HP HQ Col); [apply (c_own C Col)|apply (c_own C Row)].
    + apply tgt_rank. + apply tgt_row.
    + split.
      * intros k p q Lk. rewrite <- TG. change (tgt (mk Q Row (oR k) (oC k)) k) with (tgt (mk Q Col (oC k) (oR k)) k). rewrite (R1 k) by (apply in_zrange; exact Lk). rewrite memCol by apply (c_own C Col k). apply lsum_msum.
      * intros y Y. apply R2. intros k Ik. apply in_zrange in Ik. change (mk Q Col (oC k) (oR k)) with (mk Q Row (oR k) (oC k)). rewrite TG. apply Y. exact Ik.
  - pose proof HP as P0. split; [|reflexivity]. intros k p q Lk. cbn [erun fold_left]. assert (E1 : P = 1%Z) by lia. pose proof (c_own C Row k) as O. cbn [gs] in O. assert (E0 : oR k = 0%Z) by lia.
    rewrite E1. change (zrange 0 1) with [0%Z]. cbn [lsum fold_right]. rewrite <- TG, E0. ring.
Qed.
Lemma RR_run : forall st, let s := erun mem eRR st in
  (forall k p q, (i0 <= k < nrt)%Z -> s (xid (wP (oR k)) k) p q = lsum (zrange 0 Q) (fun x => st (xid (mk Q Row (oR k) x) k) p q)) /\
  (forall y, t_mat y <> mX j -> s y = st y).
Proof using C.
  intros st s. unfold s, eRR. destruct (Z.ltb_spec 1 Q) as [L|L].
  - destruct (reds_run (fun k => cm Row (oR k)) (fun k => wP (oR k)) xid (zrange i0 nrt) st (zrange_NoDup _ _)) as [R1 R2].
    + intros k _. apply (in_cm P Q HP HQ). split; [apply (wP_in C); apply (c_own C Row)|]. apply (wP_co C). apply (c_own C Row).
    + reflexivity. + reflexivity.
    + split.
      * intros k p q Lk. unfold DistR2BIdx.wP in R1 |- *. rewrite (R1 k) by (apply in_zrange; exact Lk). rewrite memRow by apply (c_own C Row k). apply lsum_msum.
      * intros y Y. apply R2. intros k _ ->. apply Y. reflexivity.
  - pose proof HQ as Q0. split; [|reflexivity]. intros k p q Lk. cbn [erun fold_left]. assert (E1 : Q = 1%Z) by lia. pose proof (c_own C Col j0) as O. cbn [gs] in O. unfold DistR2BIdx.wP. replace (oC j0) with 0%Z by lia.
    replace (zrange 0 Q) with [0%Z] by (rewrite E1; reflexivity). cbn [lsum fold_right]. ring.
Qed.
Definition eX : list (event (mat K)) := elocal P Q xl ++ eRC ++ eRR.
Lemma lsum_add : forall L (g h : Z -> F K), lsum L (fun x => g x + h x) = lsum L g + lsum L h.
Proof using. intros L g h. unfold lsum. induction L as [|x L IH]; cbn [fold_right]; [|rewrite IH]; ring. Qed.
Lemma lsum_swap : forall A B (f : Z -> Z -> F K), lsum A (fun x => lsum B (f x)) = lsum B (fun y => lsum A (fun x => f x y)).
Proof using.
  intros A B f. induction A as [|x A IH]; [symmetry; apply lsum_0; reflexivity|]. transitivity (lsum B (f x) + lsum A (fun x => lsum B (f x))); [reflexivity|]. rewrite IH, <- lsum_add. reflexivity.
Qed.
Lemma X_val : forall (At W : mat K) st, trl At st -> real_diag m At -> (forall r, In r rks -> rhas (fun i => Tid r (mW j) i 0) W r st) -> (forall r, In r rks -> thas (fun k => wtT r k) (nrt - 1) W r st) ->
  let s := erun mem eX st in
  (forall r, In r rks -> onp r = true -> rhas (xid r) (mmul m (herm Lower At) W) r s) /\ (forall y, t_mat y <> mX j -> t_mat y <> mXt j -> s y = st y).
Proof using C KO.
  intros At W st HA RD HW HT s. unfold s, eX. rewrite !(erun_app P Q). set (s1 := erun mem (elocal P Q xl) st). destruct (RC_run s1) as [C1 C2]. set (s2 := erun mem eRC s1) in *. destruct (RR_run s2) as [R1 R2]. set (s3 := erun mem eRR s2) in *.
  split.
  2:{ intros y Y1 Y2. rewrite R2 by exact Y1. rewrite C2 by (intros k _ ->; apply Y1; reflexivity). apply xl_mat; assumption. }
  intros r R O i p q Ii Lp Lq. assert (Ii' := Ii). apply rows_bound in Ii' as [Li Oi]. assert (Er : r = wP (oR i)) by (rewrite Oi; symmetry; apply (wP_r C); assumption). rewrite Er. rewrite R1 by exact Li.
  assert (V1 : forall r', In r' rks -> (oR i = co Row r' \/ oC i = co Col r' /\ (i < nrt - 1)%Z) -> s1 (tgt r' i) p q = lsum (rows_of r') (fun i' => lsum (cols_of r' i') (fun k => xd At W i p q i' k))).
  { intros r' R' O'. unfold s1. rewrite (elocal_at P Q HP HQ xl st (tgt r' i) r' xl_own R' (tgt_rank r' i)). apply xl_val; try assumption; [apply HW; exact R'|apply HT; exact R']. }
  assert (ALL : forall y, (0 <= y < Q)%Z -> s2 (xid (mk Q Row (oR i) y) i) p q = lsum (zrange i0 nrt) (fun i' => lsum (filter (fun k => oC k =? y)%Z (zrange i0 (i' + 1))) (fun k => xd At W i p q i' k))).
  { intros y Ly. assert (Ry : In (mk Q Row (oR i) y) rks) by (apply (mk_rank _ _ _ _ _ GA Row); [apply (c_own C Row)|exact Ly]).
    destruct (co_mk P Q HP HQ Row (oR i) y (c_own C Row i) Ly) as [E1 E2]. cbn [other] in E2.
    assert (TY : tgt (mk Q Row (oR i) y) i = xid (mk Q Row (oR i) y) i) by (unfold tgt; rewrite E1, Z.eqb_refl; reflexivity).
    destruct (Z.eq_dec (oC i) y) as [Ey|Ny]; [destruct (Z.lt_ge_cases i (nrt - 1)) as [LI|LI]|].
    - subst y. rewrite C1 by lia. rewrite (lsum_ext (zrange 0 P) _ (fun x => lsum (filter (fun i' => oR i' =? x)%Z (zrange i0 nrt)) (fun i' => lsum (filter (fun k => oC k =? oC i)%Z (zrange i0 (i' + 1))) (fun k => xd At W i p q i' k)))).
      + apply lsum_owner. intros i' _. apply (c_own C Row).
      + intros x Ix. apply in_zrange in Ix. destruct (co_mk P Q HP HQ Row x (oC i) Ix (c_own C Col i)) as [F1 F2]. cbn [other] in F2.
        rewrite V1; [unfold rowsof; rewrite F1, F2; reflexivity|apply (mk_rank _ _ _ _ _ GA Row); [exact Ix|apply (c_own C Col)]|right; rewrite F2; auto].
    - rewrite C2.
      2:{ intros k Lk E. apply (f_equal t_row) in E. cbn [xid t_row] in E. lia. }
      rewrite <- TY. rewrite V1 by (try assumption; left; symmetry; exact E1). unfold rowsof. rewrite E1, E2.
      transitivity (lsum (filter (fun i' => oR i' =? oR i)%Z (zrange i0 nrt)) (fun i' => if (i' =? i)%Z then lsum (filter (fun k => oC k =? y)%Z (zrange i0 (i + 1))) (fun k => xd At W i p q i k) else 0)).
      + apply lsum_ext. intros i' I'. apply filter_In in I' as [L' _]. apply in_zrange in L'. destruct (Z.eqb_spec i' i) as [->|N']; [reflexivity|]. apply lsum_0. intros k Ik. apply filter_In in Ik as [Lk _]. apply in_zrange in Lk.
        unfold xd. destruct (Z.eqb_spec i' i), (Z.eqb_spec k i); try lia. reflexivity.
      + symmetry. etransitivity; [|symmetry; apply gsum_single; [apply filter_nodup, zrange_NoDup|apply filter_In; split; [apply in_zrange; lia|apply Z.eqb_refl]]].
        rewrite (lsum_ext (zrange i0 nrt) _ (fun i' => if (i' =? i)%Z then lsum (filter (fun k => oC k =? y)%Z (zrange i0 (i + 1))) (fun k => xd At W i p q i k) else 0)).
        * apply gsum_single; [apply zrange_NoDup|apply in_zrange; lia].
        * intros i' I'. apply in_zrange in I'. destruct (Z.eqb_spec i' i) as [->|N']; [reflexivity|]. apply lsum_0. intros k Ik. apply filter_In in Ik as [Lk _]. apply in_zrange in Lk. unfold xd. destruct (Z.eqb_spec i' i), (Z.eqb_spec k i); try lia. reflexivity.
    - rewrite C2.
      2:{ intros k Lk E. pose proof (f_equal t_row E) as E3. cbn [xid t_row] in E3. subst k. apply (f_equal t_rank) in E. cbn [xid t_rank] in E. apply (f_equal (co Col)) in E. rewrite E2 in E.
          destruct (co_mk P Q HP HQ Row (oR i) (oC i) (c_own C Row i) (c_own C Col i)) as [_ E4]. cbn [other] in E4. congruence. }
      rewrite <- TY. rewrite V1 by (try assumption; left; symmetry; exact E1). unfold rowsof. rewrite E1, E2.
      assert (XZ : forall i', i' <> i -> lsum (filter (fun k => oC k =? y)%Z (zrange i0 (i' + 1))) (fun k => xd At W i p q i' k) = 0).
      { intros i' N'. apply lsum_0. intros k Ik. apply filter_In in Ik as [Lk Ok]. apply Z.eqb_eq in Ok. unfold xd. destruct (Z.eqb_spec i' i); [contradiction|]. destruct (Z.eqb_spec k i) as [->|]; [contradiction|reflexivity]. }
      set (v := lsum (filter (fun k => oC k =? y)%Z (zrange i0 (i + 1))) (fun k => xd At W i p q i k)).
      transitivity v; [|symmetry].
      + rewrite (lsum_ext _ _ (fun i' => if (i' =? i)%Z then v else 0)) by (intros i' _; destruct (Z.eqb_spec i' i) as [->|N']; [reflexivity|apply XZ; exact N']). apply gsum_single; [apply filter_nodup, zrange_NoDup|apply filter_In; split; [apply in_zrange; lia|apply Z.eqb_refl]].
      + rewrite (lsum_ext _ _ (fun i' => if (i' =? i)%Z then v else 0)) by (intros i' _; destruct (Z.eqb_spec i' i) as [->|N']; [reflexivity|apply XZ; exact N']). apply gsum_single; [apply zrange_NoDup|apply in_zrange; lia]. }
  rewrite (lsum_ext (zrange 0 Q) _ _ (fun x Ix => ALL x (proj1 (in_zrange _ _ _) Ix))). rewrite lsum_swap.
  rewrite (lsum_ext (zrange i0 nrt) _ (fun i' => lsum (zrange i0 (i' + 1)) (fun k => xd At W i p q i' k))) by (intros i' _; apply lsum_owner; intros k _; apply (c_own C Col)).
  rewrite lsum_fsum. rewrite (fsum_ext i0 nrt _ (fun i' => fsum i0 (i' + 1) (fun k => xd At W i p q i' k))) by (intros i' _; apply lsum_fsum). unfold xd. rewrite tri_sum by exact Li.
  unfold mmul. rewrite (panel_sum C 0) by (pose proof (nr_b C); lia). rewrite ptl_n. replace (fsum i0 nrt (xc At W i p q)) with (fsum (0 + i0) (nrt - i0 + i0) (xc At W i p q)) by (f_equal; lia). rewrite fsum_shift.
  apply fsum_ext. intros x Lx. replace (x + i0)%Z with (i0 + x)%Z by lia. unfold xc. destruct (i0 + x =? i0)%Z; reflexivity.
Qed.
(** ** W2 = W^H X, X = X - 1/2 V W2 *)
Lemma W2_own : forall r, In r rks -> own_tiles r (q_W2 kn Q n mb b D r j).
Proof using C.
  intros r R jb u I0. unfold q_W2 in I0. destruct I0 as [<-|I0]; [intros [[]| ->]; reflexivity|]. apply in_map_iff in I0 as (l & <- & Il). cbn [jgemm tj_in tj_out]. rewrite (pW_eq r R), (pXe_eq r R). intros [[<-|[<-|[]]]| ->]; reflexivity.
Qed.
Lemma updX_own : forall r, In r rks -> own_tiles r (q_updX kn Q n mb b D r j).
Proof using C.
  intros r R jb u I0. unfold q_updX in I0. apply in_map_iff in I0 as (l & <- & Il). cbn [jgemm tj_in tj_out]. intros [[<-|[<-|[]]]| ->]; try reflexivity. apply (vid_rank C); [exact R|apply (gl_in C); assumption].
Qed.
Definition w2p (W X : mat K) (r p q : Z) : F K := lsum (rows_of r) (fun i => fsum 0 (rows i) (fun u => fconj (W (voff i + u)%Z p) * X (voff i + u)%Z q)).
Lemma W2_loc : forall (W X : mat K) st r p q, In r rks -> rhas (fun i => Tid r (mW j) i 0) W r st -> rhas (xid r) X r st -> (0 <= p < nr)%Z -> (0 <= q < nr)%Z ->
  trun (q_W2 kn Q n mb b D r j) st (qT r j) p q = w2p W X r p q.
Proof using C KO.
  intros W X st r p q R HW HX Lp Lq. unfold q_W2. rewrite trun_cons. set (z := texec st _).
  assert (Z0 : z (qT r j) p q = 0) by (unfold z, texec; cbn [jset0 tj_out]; rewrite tset_eq; reflexivity).
  assert (ZS : forall y, t_mat y <> 14%Z -> z y = st y) by (intros y Y; unfold z, texec; cbn [jset0 tj_out]; apply tset_neq; intros ->; apply Y; reflexivity).
  rewrite <- flat1. rewrite (acc_flat _ (fun y => t_mat y <> 14%Z) (qT r j) (fun X => X p q) (fun l => fsum 0 (rows (gl r Row l)) (fun u => fconj (W (voff (gl r Row l) + u)%Z p) * X (voff (gl r Row l) + u)%Z q))).
  - rewrite Z0. unfold w2p. rewrite <- (q_rows_map C r R). change (lsum (map (t_gl Q D r Row) (q_rows Q mb b D r j))) with (gsum (K := K) (map (t_gl Q D r Row) (q_rows Q mb b D r j))). rewrite gsum_map. ring.
  - intros l s w Il N. apply trun_frame. intros jb [<-|[]] <-. apply N. reflexivity.
  - intros l s Il AG. rewrite trun_cons. cbn [trun fold_left]. unfold texec. cbn [jgemm tj_out]. rewrite tset_eq. unfold tval. cbn [jgemm tj_fun tj_in tj_out map in2]. rewrite (prows_eq C), (pW_eq r R), (pXe_eq r R) by assumption.
    rewrite (gemm_ok kn KO ConjTrans NoTrans nr nr (rows (gl r Row l)) f1) by assumption. unfold mmul. pose proof (gl_in C r l R Il) as Ig.
    match goal with |- f1 * ?x + f1 * ?y = _ => transitivity (y + x); [ring|] end. f_equal. apply fsum_ext. intros u Lu. unfold opm.
    change (p_tile r (fresh_panel (mW j) i0 nrt) (gl r Row l)) with (Tid r (mW j) (gl r Row l) 0). change (p_tile r (fresh_panel (mX j) i0 nrt) (gl r Row l)) with (xid r (gl r Row l)).
    rewrite !AG, !ZS by (cbn [xid t_mat]; ids). rewrite HW, HX by assumption. reflexivity.
Qed.
Definition eW2 : list (event (mat K)) := onl (fun r => q_W2 kn Q n mb b D r j) ++ eST (P := P) (Q := Q) (Ls := Ls) (mb := mb) (b := b) (j := j) ++ onl (fun r => q_updX kn Q n mb b D r j).
Lemma W2_val : forall (V W X : mat K) st, (forall r, In r rks -> onp r = true -> rhas (fun i => vid r i) V r st) -> (forall r, In r rks -> onp r = true -> rhas (fun i => Tid r (mW j) i 0) W r st) ->
  (forall r, In r rks -> onp r = true -> rhas (xid r) X r st) ->
  let s := erun mem eW2 st in
  (forall r, In r rks -> onp r = true -> rhas (xid r) (fun a q => X a q - fhalf * mmul nr V (mmul m (adj W) X) a q) r s) /\ (forall y, t_mat y <> mX j -> t_mat y <> 14%Z -> s y = st y).
Proof using C KO.
  intros V W X st HV HW HX s. unfold s, eW2. rewrite !(erun_app P Q). set (s1 := erun mem (onl (fun r => q_W2 kn Q n mb b D r j)) st). set (s2 := erun mem _ s1).
  destruct (sumT_run C s1) as (_ & _ & A3 & F3). fold s2 in A3, F3.
  assert (F1 : forall y, t_mat y <> 14%Z -> s1 y = st y).
  { intros y Y. apply (onl_mat C _ st (fun z => z =? 14)%Z W2_own); [|apply Z.eqb_neq; exact Y]. intros r jb _ [<-|I0]; [reflexivity|]. apply in_map_iff in I0 as (l & <- & _). reflexivity. }
  split.
  2:{ intros y Y1 Y2. rewrite (onl_mat C _ s2 (fun z => z =? mX j)%Z updX_own); [rewrite F3, F1 by exact Y2; reflexivity| |apply Z.eqb_neq; exact Y1].
      intros r jb R I0. unfold q_updX in I0. apply in_map_iff in I0 as (l & <- & _). cbn [jgemm tj_out]. rewrite (pXe_eq r R). apply Z.eqb_refl. }
  intros r R O i p q Ii Lp Lq. rewrite (onl_at' C _ s2 updX_own r R O) by reflexivity.
  assert (Ii' := Ii). rewrite <- (q_rows_map C r R) in Ii'. apply in_map_iff in Ii' as (l & El & Il). unfold q_updX.
  match goal with |- trun (map ?f ?L) _ _ _ _ = _ => destruct (ljobs r (mX j) (fun l => gl r Row l) f L s2) as [R1 _]; [apply (nd_rows C); exact R| | |] end.
  - intros l' _. cbn [jgemm tj_out]. rewrite (pXe_eq r R). reflexivity.
  - intros l' u Il' [<-|[<-|[]]]; [|cbn [qT t_mat]; ids]. destruct (vid_mat C r (gl r Row l') R (gl_in C r l' R Il')) as [E|E]; rewrite E; ids.
  - unfold xid. rewrite <- El at 1. rewrite R1 by exact Il. unfold tval. cbn [jgemm tj_fun tj_in tj_out map in2]. rewrite (prows_eq C), (pXe_eq r R) by assumption. rewrite El.
    rewrite (gemm_ok kn KO NoTrans NoTrans (rows i) nr nr (- fhalf)) by assumption. change (p_int r (fresh_panel (mX j) i0 nrt) i) with (xid r i).
    rewrite (F3 (xid r i)), (F1 (xid r i)) by (cbn [xid t_mat]; ids). rewrite (HX r R O) by assumption. unfold mmul at 1 2. unfold opm. rewrite (fsum_ext 0 nr _ (fun a => V (voff i + p)%Z a * mmul m (adj W) X a q)); [ring|].
    intros a La. f_equal.
    + destruct (vid_mat C r i R Ii) as [E|E]; rewrite F3, F1 by (rewrite E; ids); apply (HV r R O); assumption.
    + rewrite A3 by assumption. transitivity (lsum (zrange 0 P) (fun x => rpart (Q := Q) (Ls := Ls) (n := n) (mb := mb) (b := b) (j := j) (wP x) 0 (fun c => fconj (W c a) * X c q))).
      * apply lsum_ext. intros x Ix. apply in_zrange in Ix. pose proof (wP_in C x Ix) as Rx. pose proof (wP_onp C x Ix) as Ox. unfold s1. rewrite (onl_at' C _ st W2_own _ Rx Ox) by reflexivity. rewrite (W2_loc W X) by (try assumption; auto).
        unfold w2p, rpart. apply lsum_ext. intros i' _. destruct (i' =? i0)%Z; reflexivity.
      * rewrite (sq_sum C) by (pose proof (nr_b C); lia). reflexivity.
Qed.
(** ** The update of the trailing matrix *)
Definition ub (r i k : Z) : list (tjob (mat K)) :=
  if (i =? k)%Z then [TJob [vid r i; xid r i] (qA r i k) (in2 (fun v x a => paste (ri i) (ri k) (rows i) (rows k) a (her2k kn Lower NoTrans (rows i) nr (fopp f1) v x f1 (sub (ri i) (ri k) a))))]
  else [TJob [xid r i; vtT r k] (qA r i k) (in2 (fun x v a => paste (ri i) (ri k) (rows i) (rows k) a (gemm kn NoTrans ConjTrans (rows i) (rows k) nr (fopp f1) x v f1 (sub (ri i) (ri k) a))));
        TJob [vid r i; xtT r k] (qA r i k) (in2 (fun v x a => paste (ri i) (ri k) (rows i) (rows k) a (gemm kn NoTrans ConjTrans (rows i) (rows k) nr (fopp f1) v x f1 (sub (ri i) (ri k) a))))].
Definition uprs (r : Z) : list (Z * Z) := flat_map (fun i => map (fun k => (i, k)) (cols_of r i)) (rows_of r).
Lemma uprs_in : forall r i k, In (i, k) (uprs r) <-> In i (rows_of r) /\ In k (cols_of r i).
Proof using.
  intros r i k. unfold uprs. rewrite in_flat_map. split.
  - intros (x & I1 & I2). apply in_map_iff in I2 as (y & E & I2). injection E as -> ->. auto.
  - intros [I1 I2]. exists i. split; [exact I1|]. apply in_map_iff. exists k. auto.
Qed.
Lemma uprs_nd : forall r, NoDup (uprs r).
Proof using.
  intros r. unfold uprs. assert (H : forall l, NoDup l -> NoDup (flat_map (fun i => map (fun k => (i, k)) (cols_of r i)) l)).
  { induction l as [|x l IH]; intros ND; [constructor|]. apply NoDup_cons_iff in ND as [N ND]. cbn [flat_map]. apply nodup_app.
    - apply FinFun.Injective_map_NoDup; [intros u v E; injection E; auto|apply filter_nodup, zrange_NoDup].
    - apply IH. exact ND.
    - intros [u v] I1 I2. apply in_map_iff in I1 as (k & E & _). injection E as <- <-. apply in_flat_map in I2 as (y & Iy & I2). apply in_map_iff in I2 as (k' & E & _). injection E as -> _. contradiction. }
  apply H. apply rows_nd.
Qed.
Lemma upd_eq : forall r, In r rks -> q_update kn P Q n mb b D r j = flat_map (fun ik => ub r (fst ik) (snd ik)) (uprs r).
Proof using C.
  intros r R. transitivity (flat_map (fun i => flat_map (ub r i) (cols_of r i)) (rows_of r)).
  - rewrite <- (q_rows_map C r R). rewrite flat_map_map. unfold q_update. apply flat_map_ext_in. intros li Il. pose proof (gl_in C r li R Il) as Ig. apply rows_bound in Ig as [Lg Og].
    rewrite <- cols_map by assumption. rewrite flat_map_map. unfold limit. apply flat_map_ext_in. intros lk Ik. destruct (col_l r _ lk R Lg Ik) as [Lk Ok]. cbv zeta. rewrite !msub_eq, !msz_eq by (try assumption; lia).
    rewrite (pXe_eq r R), (proj2 (bcV_eq r R)), (proj2 (bcX_eq r R)). reflexivity.
  - unfold uprs. induction (rows_of r) as [|x l IH]; [reflexivity|]. cbn [flat_map]. rewrite flat_map_app, <- IH. f_equal. rewrite flat_map_map. reflexivity.
Qed.
Lemma vtT_eq : forall r k, In r rks -> (i0 <= k < nrt - 1)%Z -> oC k = co Col r -> vtT r k = if (oR k =? co Row r)%Z then vid r k else Tid r (mVt j) k 0.
Proof using C. intros r k R Lk O. apply (tT_eq C (fun r => pV_linked Q mb b D r j) (mV j) (mVt j) (nrt - 1)%Z pv_pid pv_ids pv_leaf hiT1); assumption. Qed.
Lemma xtT_eq : forall r k, In r rks -> (i0 <= k < nrt - 1)%Z -> oC k = co Col r -> xtT r k = if (oR k =? co Row r)%Z then xid r k else Tid r (mXt j) k 0.
Proof using C.
  intros r k R Lk O. pose proof hiTX. apply (tT_eq C (wpan (mX j)) (mX j) (mXt j) hiX (wpan_pid _) (fun r i => wpan_ids (mX j) (mXt j) r i ltac:(ids)) (fun _ _ _ _ _ => eq_refl) (proj1 hiTX)); [assumption|lia|assumption].
Qed.
Lemma vid_out' : forall r i x y, In r rks -> In i (rows_of r) -> (i0 <= y)%Z -> vid r i <> qA r x y.
Proof using C.
  intros r i x y R Ii Ly. rewrite (vid_eq C) by assumption. destruct (onp r && full_band mb b && negb (i =? i0)%Z)%bool eqn:E.
  - apply andb_true_iff in E as [E _]. apply andb_true_iff in E as [_ E]. destruct (full_i0 mb b Hmb j E) as [F _]. intros X. apply (f_equal t_col) in X. cbn [qA t_col] in X. lia.
  - intros X. apply (f_equal t_mat) in X. cbn [qA t_mat] in X. ids.
Qed.
Lemma ub_ok : forall r i k jb, In r rks -> In (i, k) (uprs r) -> In jb (ub r i k) -> tj_out jb = qA r i k /\ forall u, In u (tj_in jb) -> t_rank u = r /\ forall x y, (i0 <= y)%Z -> u <> qA r x y.
Proof using C.
  intros r i k jb R I0 Ij. apply uprs_in in I0 as [Ii Ik]. apply cols_in' in Ik as [Lk Ok]. assert (Ii' := Ii). apply rows_bound in Ii' as [Li Oi].
  assert (XV : t_rank (vid r i) = r /\ forall x y, (i0 <= y)%Z -> vid r i <> qA r x y) by (split; [apply (vid_rank C); assumption|intros x y Ly; apply vid_out'; assumption]).
  assert (XX : forall k, t_rank (xid r k) = r /\ forall x y, (i0 <= y)%Z -> xid r k <> qA r x y) by (intros k'; split; [reflexivity|intros x y Ly E; apply (f_equal t_mat) in E; cbn [qA xid t_mat] in E; ids]).
  unfold ub in Ij. destruct (Z.eqb_spec i k) as [<-|N].
  - destruct Ij as [<-|[]]. cbn [tj_out tj_in]. split; [reflexivity|]. intros u [<-|[<-|[]]]; [exact XV|apply XX].
  - assert (XVt : t_rank (vtT r k) = r /\ forall x y, (i0 <= y)%Z -> vtT r k <> qA r x y).
    { rewrite vtT_eq by (assumption || lia). destruct (Z.eqb_spec (oR k) (co Row r)) as [E|E].
      - assert (Ik : In k (rows_of r)) by (apply rows_bound; split; [lia|exact E]). split; [apply (vid_rank C); assumption|intros x y Ly; apply vid_out'; assumption].
      - split; [reflexivity|]. intros x y Ly X. apply (f_equal t_mat) in X. cbn [qA t_mat] in X. ids. }
    assert (XXt : t_rank (xtT r k) = r /\ forall x y, (i0 <= y)%Z -> xtT r k <> qA r x y).
    { rewrite xtT_eq by (assumption || lia). destruct (oR k =? co Row r)%Z; [apply XX|]. split; [reflexivity|]. intros x y Ly X. apply (f_equal t_mat) in X. cbn [qA t_mat] in X. ids. }
    destruct Ij as [<-|[<-|[]]]; cbn [tj_out tj_in]; (split; [reflexivity|]); intros u [<-|[<-|[]]]; first [exact XV | apply XX | exact XVt | exact XXt].
Qed.
Definition ul (r : Z) : list (tjob (mat K)) := q_update kn P Q n mb b D r j.
Lemma ul_own : forall r, In r rks -> own_tiles r (ul r).
Proof using C.
  intros r R jb u I0. unfold ul in I0. rewrite upd_eq in I0 by exact R. apply in_flat_map in I0 as ([i k] & I0 & I1). cbn [fst snd] in I1. destruct (ub_ok r i k jb R I0 I1) as [E F]. intros [Iu| ->]; [apply F; exact Iu|rewrite E; reflexivity].
Qed.
Definition eU : list (event (mat K)) := elocal P Q ul.
Lemma update_val : forall (V X At : mat K) s, (forall r, In r rks -> rhas (fun i => vid r i) V r s) -> (forall r, In r rks -> thas (fun k => vtT r k) (nrt - 1) V r s) ->
  (forall r, In r rks -> rhas (xid r) X r s) -> (forall r, In r rks -> thas (fun k => xtT r k) hiX X r s) -> trl At s -> real_diag m At ->
  let s' := erun mem eU s in
  (forall r i k p q, In r rks -> In i (rows_of r) -> In k (cols_of r i) -> (0 <= p < rows i)%Z -> (0 <= q < rows k)%Z ->
     s' (qA r i k) (ri i + p)%Z (ri k + q)%Z = if ((i =? k) && (p <? q))%Z then s (qA r i k) (ri i + p)%Z (ri k + q)%Z else upd_val n b j V X At (voff i + p)%Z (voff k + q)%Z) /\
  (forall r i k p q, In r rks -> In i (rows_of r) -> In k (cols_of r i) -> ~ (ri i <= p < ri i + rows i /\ ri k <= q < ri k + rows k)%Z -> s' (qA r i k) p q = s (qA r i k) p q) /\
  (forall y, (forall r i k, In r rks -> In i (rows_of r) -> In k (cols_of r i) -> y <> qA r i k) -> s' y = s y).
Proof using C KO.
  intros V X At s HV HVt HX HXt HA RD s'. pose proof hiTX as HH. pose proof (nr_b C) as NB.
  assert (RB : forall r, In r rks -> (forall i k, In i (rows_of r) -> In k (cols_of r i) -> s' (qA r i k) = trun (ub r i k) s (qA r i k)) /\ (forall y, t_rank y = r -> (forall i k, In i (rows_of r) -> In k (cols_of r i) -> y <> qA r i k) -> s' y = s y)).
  { intros r R. destruct (run_blocks (fun ik => ub r (fst ik) (snd ik)) (fun ik => qA r (fst ik) (snd ik)) (uprs r) s (uprs_nd r)) as [B1 B2].
    - intros [x1 x2] [y1 y2] _ _ E. cbn [fst snd] in E. injection E. intros -> ->. reflexivity.
    - intros [i k] jb I0 I1. cbn [fst snd] in *. destruct (ub_ok r i k jb R I0 I1) as [E F]. split; [exact E|]. intros u Iu [x y] Ixy. cbn [fst snd]. apply (proj2 (F u Iu)). apply uprs_in in Ixy as [_ Ixy]. apply cols_in' in Ixy. lia.
    - split.
      + intros i k Ii Ik. unfold s', eU. rewrite (elocal_at P Q HP HQ ul s _ r ul_own R) by reflexivity. unfold ul. rewrite upd_eq by exact R. apply (B1 (i, k)). apply uprs_in. auto.
      + intros y Y1 Y2. unfold s', eU. rewrite (elocal_at P Q HP HQ ul s _ r ul_own R Y1). unfold ul. rewrite upd_eq by exact R. apply B2. intros [i k] I0. apply uprs_in in I0 as [Ii Ik]. apply Y2; assumption. }
  split; [|split].
  - intros r i k p q R Ii Ik Lp Lq. rewrite (proj1 (RB r R)) by assumption. assert (Ik' := Ik). apply cols_in' in Ik' as [Lk Ok]. assert (Ii' := Ii). apply rows_bound in Ii' as [Li Oi].
    assert (PT : forall A S : mat K, paste (ri i) (ri k) (rows i) (rows k) A S (ri i + p)%Z (ri k + q)%Z = S p q).
    { intros A S. unfold paste. destruct (Z.leb_spec (ri i) (ri i + p)), (Z.ltb_spec (ri i + p) (ri i + rows i)), (Z.leb_spec (ri k) (ri k + q)), (Z.ltb_spec (ri k + q) (ri k + rows k)); try lia. cbn [andb]. f_equal; lia. }
    assert (SAt : s (qA r i k) (ri i + p)%Z (ri k + q)%Z = At (voff i + p)%Z (voff k + q)%Z) by (apply (HA r i k p q); (assumption || lia)).
    unfold ub. destruct (Z.eqb_spec i k) as [<-|N]; cbn [andb].
    + rewrite trun_cons. cbn [trun fold_left]. unfold texec. cbn [tj_out]. rewrite tset_eq. unfold tval. cbn [tj_fun tj_in tj_out map in2]. rewrite PT.
      destruct (her2k_ok kn KO Lower NoTrans (rows i) nr (fopp f1) (s (vid r i)) (s (xid r i)) f1 (sub (ri i) (ri i) (s (qA r i i)))) as [H1 H2].
      { discriminate. } { apply fconj_1. }
      { intros u Lu. rewrite HA by (assumption || lia). apply RD. apply (voff_bound C); assumption. }
      destruct (Z.ltb_spec p q) as [PQ|PQ].
      * rewrite H2; [reflexivity|lia|lia|cbn; apply Z.leb_gt; lia].
      * rewrite H1; [|lia|lia|cbn; apply Z.leb_le; lia]. unfold gram, mmul, opm, upd_val. unfold sub at 1. rewrite SAt. rewrite fconj_opp, fconj_1.
        rewrite (fsum_ext 0 nr (fun a => s (vid r i) p a * _) (fun a => V (voff i + p)%Z a * fconj (X (voff i + q)%Z a))) by (intros a La; rewrite (HV r R), (HX r R) by assumption; reflexivity).
        rewrite (fsum_ext 0 nr (fun a => s (xid r i) p a * _) (fun a => X (voff i + p)%Z a * fconj (V (voff i + q)%Z a))) by (intros a La; rewrite (HV r R), (HX r R) by assumption; reflexivity).
        ring.
    + assert (NO : forall u, (u = vid r i \/ u = xtT r k) -> u <> qA r i k).
      { intros u Eu. destruct (ub_ok r i k (TJob [vid r i; xtT r k] (qA r i k) (in2 (fun v x a => paste (ri i) (ri k) (rows i) (rows k) a (gemm kn NoTrans ConjTrans (rows i) (rows k) nr (fopp f1) v x f1 (sub (ri i) (ri k) a))))) R) as [_ F].
        - apply uprs_in. auto. - unfold ub. destruct (Z.eqb_spec i k); [contradiction|]. right. left. reflexivity.
        - apply F; [|lia]. cbn [tj_in]. destruct Eu as [-> | ->]; [left|right; left]; reflexivity. }
      rewrite !trun_cons. cbn [trun fold_left]. unfold texec. cbn [tj_out]. rewrite tset_eq. unfold tval at 1. cbn [tj_fun tj_in tj_out map in2]. rewrite PT.
      rewrite (gemm_ok kn KO NoTrans ConjTrans (rows i) (rows k) nr (fopp f1)) by assumption.
      rewrite !tset_eq. rewrite (tset_neq _ _ _ (vid r i)), (tset_neq _ _ _ (xtT r k)) by (apply NO; auto).
      unfold sub at 1. unfold tval. cbn [tj_fun tj_in tj_out map in2]. rewrite PT. rewrite (gemm_ok kn KO NoTrans ConjTrans (rows i) (rows k) nr (fopp f1)) by assumption.
      unfold sub at 1. rewrite SAt. unfold mmul, opm, upd_val.
      rewrite (fsum_ext 0 nr (fun a => s (vid r i) p a * _) (fun a => V (voff i + p)%Z a * fconj (X (voff k + q)%Z a))) by (intros a La; rewrite (HV r R), (HXt r R) by (assumption || lia); reflexivity).
      rewrite (fsum_ext 0 nr (fun a => s (xid r i) p a * _) (fun a => X (voff i + p)%Z a * fconj (V (voff k + q)%Z a))) by (intros a La; rewrite (HVt r R), (HX r R) by (assumption || lia); reflexivity).
      ring.
  - intros r i k p q R Ii Ik N. rewrite (proj1 (RB r R)) by assumption.
    assert (PT : forall A S : mat K, paste (ri i) (ri k) (rows i) (rows k) A S p q = A p q).
    { intros A S. unfold paste. destruct (Z.leb_spec (ri i) p), (Z.ltb_spec p (ri i + rows i)), (Z.leb_spec (ri k) q), (Z.ltb_spec q (ri k + rows k)); try reflexivity. lia. }
    unfold ub. destruct (i =? k)%Z.
    + rewrite trun_cons. cbn [trun fold_left]. unfold texec. cbn [tj_out]. rewrite tset_eq. unfold tval. cbn [tj_fun tj_in tj_out map in2]. apply PT.
    + rewrite !trun_cons. cbn [trun fold_left]. unfold texec. cbn [tj_out]. rewrite tset_eq. unfold tval at 1. cbn [tj_fun tj_in tj_out map in2]. rewrite PT. rewrite tset_eq. unfold tval. cbn [tj_fun tj_in tj_out map in2]. apply PT.
  - intros y Y. destruct (in_dec Z.eq_dec (t_rank y) rks) as [R|R].
    + apply (proj2 (RB _ R)); [reflexivity|]. intros i k Ii Ik. apply Y; assumption.
    + unfold s', eU. apply (elocal_frame P Q HP HQ ul s y ul_own). intros r jb R' I0 <-. apply R. rewrite (ul_own r R' jb (tj_out jb) I0 (or_intror eq_refl)). exact R'.
Qed.
End trail.
