(** * Distributed reduction_to_band: one iteration *)
From Coq Require Import ZArith Lia List Bool Permutation Ring.
From Verif Require Import CInt Loop StarField DenseSpec Tiling DenseJobs TileJobs RefKernels BlockJobs TriangularProofs HouseSpec HouseModel HouseProofs HouseQR TFactorProofs MultiJobs
  Red2BandModel Red2BandSpec Red2BandProofs Red2BandTheory
  DistModel DistSpec DistBuilt DistThms DistMachine DistGrid PanelModel PanelProofs DistSim DistProg DistPhase DistLocal DistInverseModel DistTriModel DistTriProofs DistMultModel DistMultProofs DistBtR2BModel DistBtR2BProofs DistR2BModel DistR2BIdx DistR2BPanel.
Import ListNotations.
Local Open Scope Z_scope.

Section step.
Context {P Q : Z} {Ls : coord -> layout} {D : coord -> Z -> axis} {nt : coord -> Z} {n mb b j : Z} (C : r2b_ctx P Q Ls D nt n mb b j).
Context {K : starfield} (kn : kernels K) (KO : kernels_ok kn) (rs : roots K).
Variables avail minwork avail_t : Z -> Z.
Hypothesis AT : forall r, In r (ranks P Q) -> 0 < avail_t r.
Local Open Scope sf_scope.
Add Ring KringStp : (fring K).
Notation rks := (ranks P Q).
Notation mem := (members P Q).
Notation co := (co Q).
Notation nrt := (r2b_nrt n mb).
Notation i0 := (i0 mb b j). Notation j0 := (j0 mb b j). Notation cj := (cj mb b j). Notation ri := (ri mb b j).
Notation e_row := (e_row b j). Notation e_col := (e_col b j). Notation rows := (rows n mb b j). Notation t := (ptl n mb b j).
Notation nr := (n_refl n b j).
Notation rows_of r := (rowsof Q Ls i0 nrt r).
Notation onp := (onp (Q := Q) (Ls := Ls) (mb := mb) (b := b) (j := j)).
Notation gx := (gx (Q := Q) (D := D) (mb := mb) (b := b) (j := j)).
Notation voff := (voff (n := n) (mb := mb) (b := b) (j := j)).
Notation wP := (wP (Q := Q) (Ls := Ls) (mb := mb) (b := b) (j := j)).
Notation len r := (Z.of_nat (length (q_rows Q mb b D r j))).
Notation l0 r := (l0 Q mb b D r j).
Notation onl := (onl (K := K) (P := P) (Q := Q) (Ls := Ls) (mb := mb) (b := b) (j := j)).
Notation phas := (phas (K := K) (P := P) (Q := Q) (Ls := Ls) (D := D) (n := n) (mb := mb) (b := b) (j := j)).
Notation oR i := (tile_owner (Ls Row) i).
Notation oC i := (tile_owner (Ls Col) i).
Notation m := (n - e_row)%Z.
Notation gl r c l := (t_gl Q D r c l).
Let GA := c_ga _ _ _ _ _ _ _ _ _ C.
Let Hb := c_b _ _ _ _ _ _ _ _ _ C.
Let Hmb := c_mb _ _ _ _ _ _ _ _ _ C.
Let Hdiv := c_div _ _ _ _ _ _ _ _ _ C.
Let J0 := c_j0 _ _ _ _ _ _ _ _ _ C.
Let J1 := c_j1 _ _ _ _ _ _ _ _ _ C.
Let HP := c_P C.
Let HQ := c_Q C.
Lemma mods : (0 <= j mod 2 < 2)%Z. Proof using. apply Z.mod_pos_bound. reflexivity. Qed.
Ltac ids := unfold mV, mW, mX, mVt, mWt, mXt in *; pose proof mods; lia.

(** ** Panel V *)
Notation pv r := (pV_linked Q mb b D r j).
Notation vid r i := (p_tile r (pv r) i).
Definition rhead (r : Z) : list Z := if head Q mb b D r j then [l0 r] else [].
Lemma rows_split : forall r, In r rks -> q_rows Q mb b D r j = rhead r ++ tl_rows Q mb b D r j.
Proof using C.
  intros r R. unfold rhead, tl_rows. destruct (head Q mb b D r j) eqn:HD; [|reflexivity]. pose proof (head_len C r R HD) as HL. unfold q_rows, DistR2BModel.l0 in *.
  pose proof (zrange_length (t_nx Q D r Row i0) (lnt Q D r Row)). rewrite zrange_cons by lia. reflexivity.
Qed.
Lemma tl_in : forall r l, In r rks -> In l (tl_rows Q mb b D r j) -> In l (q_rows Q mb b D r j) /\ gl r Row l <> i0.
Proof using C.
  intros r l R I0. assert (I1 : In l (q_rows Q mb b D r j)) by (rewrite rows_split by exact R; apply in_or_app; right; exact I0). split; [exact I1|].
  intros E. apply (gl_i0 C r l R I1) in E as [O E].
  assert (ND : NoDup (q_rows Q mb b D r j)) by apply zrange_NoDup. rewrite rows_split in ND by exact R. unfold rhead in ND. rewrite (head_eq C) in ND by exact R. rewrite O, Z.eqb_refl in ND. cbn [app] in ND.
  apply NoDup_cons_iff in ND as [ND _]. apply ND. unfold DistR2BModel.l0. rewrite <- E. exact I0.
Qed.
Lemma tl_map : forall r, In r rks -> forall i, In i (map (fun l => gl r Row l) (tl_rows Q mb b D r j)) <-> In i (rows_of r) /\ i <> i0.
Proof using C.
  intros r R i. rewrite in_map_iff. split.
  - intros (l & <- & I0). destruct (tl_in r l R I0) as [I1 I2]. split; [apply (gl_in C); assumption|exact I2].
  - intros [I0 N]. rewrite <- (q_rows_map C) in I0 by exact R. apply in_map_iff in I0 as (l & E & Il). exists l. split; [exact E|]. rewrite rows_split in Il by exact R. apply in_app_or in Il as [Il|Il]; [|exact Il].
    exfalso. unfold rhead in Il. destruct (head Q mb b D r j) eqn:HD; [|destruct Il]. destruct Il as [<-|[]]. apply N. rewrite <- E. apply (gl_nx C); [exact R|apply (c_i0 C)|]. rewrite (head_eq C) in HD by exact R. apply Z.eqb_eq. exact HD.
Qed.
Lemma pv_eq : forall r, In r rks -> p_id (pv r) = mV j /\ p_lo (pv r) = i0 /\ p_hi (pv r) = nrt /\
  forall i, In i (rows_of r) -> p_ext (pv r) i = if onp r && full_band mb b && negb (i =? i0)%Z then Some (qA r i j0) else None.
Proof using C.
  intros r R. unfold pV_linked, fullb. rewrite (on_panel_eq C) by exact R. unfold pV_empty. rewrite (nt_eq C) by exact R. destruct (onp r && full_band mb b)%bool eqn:OF; [|cbn; auto].
  apply andb_true_iff in OF as [O OF].
  assert (G : forall L p, let res := fold_left (fun p l => set_tile p (gl r Row l) (atile Q mb b D r j l)) L p in
    p_id res = p_id p /\ p_lo res = p_lo p /\ p_hi res = p_hi p /\ forall i, p_ext res i = if existsb (Z.eqb i) (map (fun l => gl r Row l) L) then Some (qA r i j0) else p_ext p i).
  { induction L as [|l L IH]; intros p; cbn [fold_left map]; [cbn; auto|]. destruct (IH (set_tile p (gl r Row l) (atile Q mb b D r j l))) as (A & B & C' & E). cbv zeta in *. rewrite A, B, C'. repeat split; auto.
    intros i. rewrite E. cbn [existsb set_tile p_ext]. destruct (Z.eqb_spec i (gl r Row l)) as [->|N]; cbn [orb]; [|reflexivity]. rewrite (atile_eq C) by assumption. destruct (existsb _ _); reflexivity. }
  destruct (G (tl_rows Q mb b D r j) (fresh_panel (mV j) i0 nrt)) as (A & B & C' & E). cbv zeta in *. split; [exact A|]. split; [exact B|]. split; [exact C'|]. intros i Ii. rewrite E. cbn [andb fresh_panel p_ext].
  destruct (existsb _ _) eqn:X.
  - apply existsb_exists in X as (y & Iy & EY). apply Z.eqb_eq in EY. subst y. apply (tl_map r R) in Iy as [_ N]. destruct (Z.eqb_spec i i0); [contradiction|reflexivity].
  - destruct (Z.eqb_spec i i0); [reflexivity|]. exfalso. apply not_true_iff_false in X. apply X. apply existsb_exists. exists i. split; [apply (tl_map r R); auto|apply Z.eqb_refl].
Qed.
Lemma vid_eq : forall r i, In r rks -> In i (rows_of r) -> vid r i = if onp r && full_band mb b && negb (i =? i0)%Z then qA r i j0 else Tid r (mV j) i 0.
Proof using C. intros r i R Ii. destruct (pv_eq r R) as (A & _ & _ & E). unfold p_tile, p_int. rewrite (E i Ii), A. destruct (_ && _ && _)%bool; reflexivity. Qed.
Lemma vid_rank : forall r i, In r rks -> In i (rows_of r) -> t_rank (vid r i) = r.
Proof using C. intros r i R Ii. rewrite vid_eq by assumption. destruct (_ && _ && _)%bool; reflexivity. Qed.
Lemma vid_mat : forall r i, In r rks -> In i (rows_of r) -> t_mat (vid r i) = 0%Z \/ t_mat (vid r i) = mV j.
Proof using C. intros r i R Ii. rewrite vid_eq by assumption. destruct (_ && _ && _)%bool; auto. Qed.
(** rank r has the tile rows of V *)
Definition vhas (V : mat K) (r : Z) (s : tstore (mat K)) : Prop := forall i p q, In i (rows_of r) -> (0 <= p < rows i)%Z -> (0 <= q < nr)%Z -> s (vid r i) p q = V (voff i + p)%Z q.
Lemma nd_rows : forall r, In r rks -> NoDup (map (fun l => gl r Row l) (q_rows Q mb b D r j)).
Proof using C. intros r R. rewrite (q_rows_map C) by exact R. apply rows_nd. Qed.
Lemma nd_tl : forall r, In r rks -> NoDup (map (fun l => gl r Row l) (tl_rows Q mb b D r j)).
Proof using C. intros r R. pose proof (nd_rows r R) as ND. rewrite rows_split, map_app in ND by exact R. revert ND. generalize (map (fun l => gl r Row l) (rhead r)). intros L. induction L as [|x L IH]; [auto|]. cbn [app]. intros ND. apply NoDup_cons_iff in ND as [_ ND]. exact (IH ND). Qed.
(** tasks for the tiles of a panel, one each *)
Lemma ljobs : forall r id (g : Z -> Z) (job : Z -> tjob (mat K)) L s, NoDup (map g L) -> (forall l, In l L -> tj_out (job l) = Tid r id (g l) 0) ->
  (forall l u, In l L -> In u (tj_in (job l)) -> t_mat u <> id) ->
  (forall l, In l L -> trun (map job L) s (Tid r id (g l) 0) = tval (job l) s) /\ (forall y, (forall l, In l L -> y <> Tid r id (g l) 0) -> trun (map job L) s y = s y).
Proof using.
  intros r id g job L s ND OUT IN. destruct (indep_run (map job L) s) as [R1 R2].
  - rewrite map_map. rewrite (map_ext_in _ (fun l => Tid r id (g l) 0)) by exact OUT. apply (NoDup_map_inv t_row). rewrite map_map. exact ND.
  - intros a c Ia Ic I0. apply in_map_iff in Ia as (x & <- & Ix), Ic as (y & <- & Iy). apply (IN y _ Iy I0). rewrite (OUT x Ix). reflexivity.
  - split.
    + intros l Il. rewrite <- (OUT l Il). apply R1. apply in_map. exact Il.
    + intros y Y. apply R2. intros I0. rewrite map_map in I0. apply in_map_iff in I0 as (l & E & Il). apply (Y l Il). rewrite <- E. apply OUT. exact Il.
Qed.
Lemma onl_mat : forall f st (M : Z -> bool), (forall r, In r rks -> own_tiles r (f r)) -> (forall r jb, In r rks -> In jb (f r) -> M (t_mat (tj_out jb)) = true) -> forall y, M (t_mat y) = false -> erun mem (onl f) st y = st y.
Proof using C.
  intros f st M OW H y Y. unfold DistR2BPanel.onl. apply (elocal_frame P Q HP HQ).
  - intros r R. destruct (onp r); [apply OW; exact R|apply own_nil].
  - intros r jb R I0 E. destruct (onp r); [|destruct I0]. rewrite <- E in Y. rewrite (H r jb R I0) in Y. discriminate.
Qed.
Lemma setup_outs : forall r jb, In r rks -> In jb (q_setup_V (K := K) Q n mb b D r j) -> t_mat (tj_out jb) = mV j.
Proof using C.
  intros r jb R I0. unfold q_setup_V in I0. destruct (pv_eq r R) as (EI & _). apply in_app_or in I0 as [I0|I0].
  - destruct (head Q mb b D r j); [|destruct I0]. destruct I0 as [<-|[<-|[]]]; cbn [tj_out p_int t_mat]; exact EI.
  - apply in_flat_map in I0 as (l & _ & I0). destruct (fullb mb b); [destruct I0|]. destruct I0 as [<-|[]]. cbn [tj_out p_int t_mat]. exact EI.
Qed.
Lemma setup_own : forall r, own_tiles r (q_setup_V (K := K) Q n mb b D r j).
Proof using.
  intros r. unfold q_setup_V. apply own_app.
  - destruct (head Q mb b D r j); [|apply own_nil]. intros jb u [<-|[<-|[]]]; [intros [[<-|[]]| ->]|intros [[]| ->]]; reflexivity.
  - intros jb u I0. apply in_flat_map in I0 as (l & _ & I0). destruct (fullb mb b); [destruct I0|]. destruct I0 as [<-|[]]. intros [[<-|[]]| ->]; reflexivity.
Qed.
Lemma V_val : forall st M, phas M st ->
  let s := erun mem (onl (fun r => q_setup_V Q n mb b D r j)) st in
  (forall r, In r rks -> onp r = true -> vhas (unit_lower M) r s) /\ (forall y, t_mat y <> mV j -> s y = st y).
Proof using C.
  intros st M H s. pose proof (nr_b C) as NB. split.
  2:{ intros y Y. apply (onl_mat _ st (fun z => z =? mV j)%Z); [intros; apply setup_own|intros r jb R I0; rewrite (setup_outs r jb R I0); apply Z.eqb_refl|]. apply Z.eqb_neq. exact Y. }
  intros r R O i p q Ii Lp Lq.
  assert (SR : s (vid r i) = trun (q_setup_V Q n mb b D r j) st (vid r i)). { apply (onl_at C _ st setup_own r R O). apply vid_rank; assumption. }
  rewrite SR. clear SR s. destruct (pv_eq r R) as (EI & _).
  destruct (gx_ex C r i R Ii) as (x & Lx & EX). pose proof (H r R O x p) as HX. rewrite EX in HX. pose proof (off_case C r R x Lx) as OC. rewrite EX in OC. rewrite <- (gx_0 C r x R Lx), EX in OC.
  assert (AX : forall l, In l (q_rows Q mb b D r j) -> gl r Row l = i -> atile Q mb b D r j l = DistR2BModel.ptile Q mb b D r j x).
  { intros l Il El. rewrite (atile_eq C), (ptile_x C), El, EX by assumption. reflexivity. }
  unfold q_setup_V. rewrite trun_app. set (A := if head Q mb b D r j then _ else _). set (B := flat_map _ _).
  assert (FA : forall y, y <> Tid r (mV j) i0 0 -> trun A st y = st y).
  { intros y Y. apply trun_frame. intros jb I0. unfold A in I0. destruct (head Q mb b D r j) eqn:HD; [|destruct I0].
    assert (EG : gl r Row (l0 r) = i0) by (apply (gl_nx C); [exact R|apply (c_i0 C)|]; rewrite (head_eq C) in HD by exact R; apply Z.eqb_eq; exact HD).
    destruct I0 as [<-|[<-|[]]]; cbn [tj_out]; unfold p_int; rewrite EI, EG; intros E; apply Y; symmetry; exact E. }
  assert (FB : forall s y, (forall i', y = Tid r (mV j) i' 0 -> i' = i0) -> trun B s y = s y).
  { intros s y Y. apply trun_frame. intros jb I0. unfold B in I0. apply in_flat_map in I0 as (l & Il & I0). destruct (fullb mb b); [destruct I0|]. destruct I0 as [<-|[]]. cbn [tj_out]. unfold p_int. rewrite EI.
    intros E. apply (proj2 (tl_in r l R Il)). apply Y. symmetry. exact E. }
  rewrite vid_eq by assumption. rewrite O. cbn [andb]. destruct (Z.eqb_spec i i0) as [->|N].
  - rewrite andb_false_r. rewrite FB by (intros i' E; injection E; auto).
    assert (HD : head Q mb b D r j = true). { rewrite (head_eq C) by exact R. apply rows_bound in Ii. apply Z.eqb_eq. apply Ii. }
    assert (EG : gl r Row (l0 r) = i0) by (apply (gl_nx C); [exact R|apply (c_i0 C)|]; rewrite (head_eq C) in HD by exact R; apply Z.eqb_eq; exact HD).
    assert (IL : In (l0 r) (q_rows Q mb b D r j)). { rewrite rows_split by exact R. unfold rhead. rewrite HD. left. reflexivity. }
    unfold A. rewrite HD. rewrite trun_cons. set (s1 := texec _ _). rewrite trun_cons. cbn [trun fold_left]. unfold texec. cbn [tj_out]. unfold p_int at 1 2. rewrite EI, EG. rewrite tset_eq. unfold tval. cbn [tj_fun tj_in tj_out map].
    rewrite (prows_eq C), EG by assumption. unfold s1, texec. cbn [tj_out]. unfold p_int. rewrite EI, EG, tset_eq. unfold tval. cbn [tj_fun tj_in tj_out map in1].
    rewrite (prows_eq C), (psub_eq C), EG by assumption. rewrite (AX _ IL EG). rewrite OC. cbn [Z.add]. unfold unit_lower.
    destruct (Z.leb_spec 0 p), (Z.ltb_spec p (rows i0)), (Z.leb_spec 0 q), (Z.ltb_spec q nr); try lia. cbn [andb]. destruct (Z.eqb_spec p q); [reflexivity|]. destruct (Z.ltb_spec p q), (Z.ltb_spec q p); try lia; [reflexivity|].
    unfold paste. rewrite pcols_b by assumption. destruct (Z.leb_spec 0 p), (Z.ltb_spec p (0 + rows i0)), (Z.leb_spec 0 q), (Z.ltb_spec q (0 + Z.min nr b)); try lia. cbn [andb].
    rewrite !Z.sub_0_r. rewrite HX by (try assumption; lia). rewrite OC. reflexivity.
  - rewrite andb_true_r. assert (UL : unit_lower M (voff i + p)%Z q = M (voff i + p)%Z q). { unfold unit_lower. destruct (Z.eqb_spec (voff i + p) q); [lia|]. destruct (Z.ltb_spec q (voff i + p)); [reflexivity|lia]. }
    destruct (full_band mb b) eqn:FL.
    + rewrite FB by (intros i' E; apply (f_equal t_mat) in E; cbn [qA t_mat] in E; ids). rewrite FA by (intros E; apply (f_equal t_mat) in E; cbn [qA t_mat] in E; ids).
      assert (EB : mb = b) by (symmetry; apply Z.eqb_eq; exact FL).
      assert (R0 : ri i = 0%Z). { unfold Red2BandModel.ri. destruct (Z.eqb_spec i i0); [contradiction|reflexivity]. } assert (CJ : cj = 0%Z). { unfold Red2BandModel.cj, Red2BandModel.e_col. rewrite EB. apply Z.mod_mul. lia. }
      rewrite UL. rewrite <- HX by (try assumption; lia). rewrite (ptile_x C), EX by assumption. unfold sub. rewrite R0, CJ. f_equal; lia.
    + assert (IT : In i (map (fun l => gl r Row l) (tl_rows Q mb b D r j))) by (apply (tl_map r R); auto). apply in_map_iff in IT as (l & EL & Il). destruct (tl_in r l R Il) as [Il2 _].
      unfold B. unfold fullb. rewrite FL. rewrite flat1. match goal with |- trun (map ?f ?L) ?s _ _ _ = _ => destruct (ljobs r (mV j) (fun l => gl r Row l) f L s) as [R1 _]; [apply nd_tl; exact R| | |] end.
      * intros l' _. cbn [tj_out]. unfold p_int. rewrite EI. reflexivity.
      * intros l' u _ [<-|[]]. cbn [atile qA t_mat]. ids.
      * rewrite <- EL at 1. rewrite R1 by exact Il. unfold tval. cbn [tj_fun tj_in tj_out map in1]. rewrite (FA (atile Q mb b D r j l)) by (intros E; apply (f_equal t_mat) in E; cbn [atile qA t_mat] in E; ids). rewrite (AX l Il2 EL). rewrite (prows_eq C), (psub_eq C), EL by assumption.
        unfold paste. rewrite pcols_b by assumption. destruct (Z.leb_spec 0 p), (Z.ltb_spec p (0 + rows i)), (Z.leb_spec 0 q), (Z.ltb_spec q (0 + b)); try lia. cbn [andb]. rewrite !Z.sub_0_r. rewrite HX by (try assumption; lia). symmetry. exact UL.
Qed.
(** ** The T factor *)
Definition eST : list (event (mat K)) := if 1 <? P then [eallred P Q (cm Col (oC j0)) (fun r => qT r j)] else [].
Lemma sumT_run : forall st, let s := erun mem eST st in
  Forall (event_ok mem rks) eST /\ (forall r, In r rks -> proj mem r eST = if onp r then q_sum_T P Q r j else []) /\
  (forall r p q, In r rks -> onp r = true -> s (qT r j) p q = lsum (zrange 0 P) (fun x => st (qT (wP x) j) p q)) /\
  (forall y, t_mat y <> 14%Z -> s y = st y).
Proof using C.
  intros st s. unfold s, eST, q_sum_T. destruct (panel_allred C (cm Col (oC j0)) (fun r => qT r j) st (or_intror eq_refl) (fun r => eq_refl)) as (A1 & A2 & A3 & A4). destruct (Z.ltb_spec 1 P) as [L|L].
  - split; [constructor; [exact A1|constructor]|]. split; [|split; [exact A3|]].
    + intros r R. rewrite A2 by exact R. destruct (onp r) eqn:O; [|reflexivity]. apply Z.eqb_eq in O. rewrite O. reflexivity.
    + intros y Y. apply A4. intros r _ _ ->. apply Y. reflexivity.
  - split; [constructor|]. split; [intros r R; destruct (onp r); reflexivity|]. split; [|reflexivity]. intros r p q R O. cbn [erun fold_left]. pose proof HP. assert (E1 : P = 1%Z) by lia.
    pose proof (c_co C r Row R) as X. cbn [gs] in X. assert (E : wP 0 = r) by (rewrite <- (wP_r C r R O); f_equal; lia). rewrite E1. change (zrange 0 1) with [0%Z]. cbn [lsum fold_right]. rewrite E. ring.
Qed.
Definition jT1 (r : Z) : list (tjob (mat K)) := [q_set0_T r j] ++ [q_gemv Q n mb b D avail_t r j].
Definition jT2 (r : Z) : list (tjob (mat K)) := [q_trmv n b r j].
Lemma jT1_own : forall r, In r rks -> own_tiles r (jT1 r).
Proof using C.
  intros r R. unfold jT1. apply own_app; [intros jb u [<-|[]] [[]| ->]; reflexivity|]. intros jb u [<-|[]]. cbn [q_gemv tj_in tj_out]. intros [I0| ->]; [|reflexivity].
  apply in_app_or in I0 as [I0|[<-|[]]]; [|reflexivity]. apply in_map_iff in I0 as (l & <- & Il). apply vid_rank; [exact R|]. apply (gl_in C); assumption.
Qed.
Lemma jT2_own : forall r, own_tiles r (jT2 r).
Proof using. intros r jb u [<-|[]]. cbn [q_trmv tj_in tj_out]. intros [[<-|[]]| ->]; reflexivity. Qed.
Lemma onl_at' : forall f st, (forall r, In r rks -> own_tiles r (f r)) -> forall r, In r rks -> onp r = true -> forall y, t_rank y = r -> erun mem (onl f) st y = trun (f r) st y.
Proof using C. intros f st OW r R O y E. apply (proj1 (proj2 (proj2 (onl_run C f st (fun r R _ => OW r R)))) r y); assumption. Qed.
(** part of rank r of the products of the columns of V *)
Definition gpart (V : mat K) (r p q : Z) : F K := lsum (rows_of r) (fun i => fsum 0 (rows i) (fun u => fconj (V (voff i + u)%Z p) * V (voff i + u)%Z q)).
Lemma gpart_sum : forall V p q, lsum (zrange 0 P) (fun x => gpart V (wP x) p q) = fsum 0 m (fun a => fconj (V a p) * V a q).
Proof using C.
  intros V p q. rewrite <- (sq_sum C 0) by (pose proof (nr_b C); lia). apply lsum_ext. intros x _. unfold gpart, rpart. apply lsum_ext. intros i _. destruct (i =? i0)%Z; reflexivity.
Qed.
Lemma gemv_val : forall s V r p q, In r rks -> onp r = true -> vhas V r s -> (forall p q, s (qT r j) p q = 0) -> (0 <= p < nr)%Z -> (0 <= q < nr)%Z -> p <> q ->
  tval (q_gemv Q n mb b D avail_t r j) s p q = if (p <? q)%Z then - (s (qTau r j) q 0%Z) * gpart V r p q else 0.
Proof using C AT.
  intros s V r p q R O HV T0 Lp Lq N. unfold tval. cbn [q_gemv tj_in tj_out tj_fun]. rewrite map_app, map_map. cbn [map]. set (vs := map _ _ ++ [s (qTau r j)]).
  assert (NT : nth_tile vs (len r) = s (qTau r j)).
  { unfold nth_tile, vs. rewrite app_nth2 by (rewrite !map_length; lia). rewrite !map_length. replace (Z.to_nat (len r) - length (q_rows Q mb b D r j))%nat with 0%nat by lia. reflexivity. }
  assert (NV : forall x, (0 <= x < len r)%Z -> nth_tile vs x = s (vid r (gx r x))).
  { intros x Lx. unfold nth_tile, vs. rewrite app_nth1 by (rewrite !map_length; lia). apply nth_error_nth. rewrite nth_error_map. unfold q_rows in *. pose proof (zrange_length (t_nx Q D r Row i0) (lnt Q D r Row)).
    rewrite zrange_nth by lia. reflexivity. }
  rewrite NT. pose proof (ltl_ok C r R) as LOK. destruct (Z.eq_dec (tl_n (ltl Q mb b D r j)) 0) as [E0|E0].
  - unfold step_gemv. rewrite E0. cbn [Z.eqb]. rewrite T0. assert (EN : rows_of r = []) by (apply length_zero_iff_nil; rewrite (len_rows C) by exact R; cbn [ltl tl_n] in E0; lia).
    unfold gpart. rewrite EN. cbn [lsum fold_right]. destruct (p <? q)%Z; ring.
  - assert (LN : (0 < tl_n (ltl Q mb b D r j))%Z) by (cbn [ltl tl_n] in *; lia).
    rewrite (step_gemv_at (ltl Q mb b D r j) LOK LN) by (try assumption; apply AT; exact R). destruct (p <? q)%Z; [|reflexivity]. f_equal.
    change (tl_off (ltl Q mb b D r j) (tl_n (ltl Q mb b D r j))) with (tl_size (ltl Q mb b D r j)). rewrite fsum_tiles by exact LOK. unfold gpart.
    rewrite <- (loc_sum C) by exact R. change (tl_n (ltl Q mb b D r j)) with (len r). apply fsum_ext. intros x Lx.
    assert (EZ := ltl_sz C r x R Lx). rewrite EZ. apply fsum_ext. intros u Lu. rewrite !stack_at by (try assumption; rewrite EZ; exact Lu). rewrite NV by exact Lx.
    rewrite !HV by (try assumption; apply (gx_in C); assumption). reflexivity.
Qed.
Definition eT : list (event (mat K)) := onl jT1 ++ eST ++ onl jT2.
Lemma vhas_frame : forall V r s s', In r rks -> vhas V r s -> (forall y, (t_mat y = 0 \/ t_mat y = mV j)%Z -> s' y = s y) -> vhas V r s'.
Proof using C. intros V r s s' R H F i p q Ii Lp Lq. rewrite F by (apply vid_mat; assumption). apply H; assumption. Qed.
Lemma T_val : forall st V tau, (forall r, In r rks -> onp r = true -> vhas V r st) -> (forall r q, In r rks -> onp r = true -> (0 <= q < nr)%Z -> st (qTau r j) q 0%Z = tau q) ->
  let s := erun mem eT st in
  (forall r, In r rks -> onp r = true -> t_rec m nr V (s (qT r j)) tau) /\ (forall y, (t_mat y <> 14)%Z -> s y = st y).
Proof using C AT.
  intros st V tau HV HT s. unfold s, eT. rewrite !(erun_app P Q). set (s2 := erun mem (onl jT1) st). set (s3 := erun mem eST s2). pose proof (nr_b C) as NB.
  assert (F2 : forall y, t_mat y <> 14%Z -> s2 y = st y).
  { intros y Y. apply (onl_mat _ st (fun z => z =? 14)%Z jT1_own); [|apply Z.eqb_neq; exact Y]. intros r jb _ [<-|[<-|[]]]; reflexivity. }
  destruct (sumT_run s2) as (_ & _ & A3 & F3). fold s3 in A3, F3.
  split.
  2:{ intros y Y. rewrite (onl_mat _ s3 (fun z => z =? 14)%Z (fun r _ => jT2_own r)); [rewrite F3, F2 by exact Y; reflexivity|intros r jb _ [<-|[]]; reflexivity|apply Z.eqb_neq; exact Y]. }
  intros r R O. rewrite (onl_at C _ s3 jT2_own r R O) by reflexivity. unfold jT2. rewrite trun_cons. cbn [trun fold_left]. unfold texec. cbn [q_trmv tj_out]. rewrite tset_eq. unfold tval. cbn [q_trmv tj_in tj_out tj_fun map in1].
  apply trmv_rec; [lia| |].
  - intros q Lq. unfold col_vec. rewrite F3, F2 by discriminate. apply HT; assumption.
  - intros p q Lp Lq N. rewrite A3 by assumption.
    assert (X : forall x, (0 <= x < P)%Z -> s2 (qT (wP x) j) p q = if (p <? q)%Z then - tau q * gpart V (wP x) p q else 0).
    { intros x Lx. pose proof (wP_in C x Lx) as Rx. pose proof (wP_onp C x Lx) as Ox. unfold s2. rewrite (onl_at' _ st jT1_own _ Rx Ox) by reflexivity. unfold jT1. cbn [app]. rewrite trun_cons. set (s1 := texec st _). rewrite trun_cons. cbn [trun fold_left].
      unfold texec. change (tj_out (q_gemv Q n mb b D avail_t (wP x) j)) with (qT (wP x) j). rewrite tset_eq.
      assert (F1 : forall y, t_mat y <> 14%Z -> s1 y = st y). { intros y Y. unfold s1, texec. apply tset_neq. intros ->. apply Y. reflexivity. }
      assert (VH : vhas V (wP x) s1) by (apply (vhas_frame V _ st); [exact Rx|apply HV; assumption|intros y Y; apply F1; ids]).
      assert (T0 : forall p' q', s1 (qT (wP x) j) p' q' = 0) by (intros p' q'; unfold s1, texec; change (tj_out (q_set0_T (wP x) j)) with (qT (wP x) j); rewrite tset_eq; reflexivity).
      rewrite (gemv_val s1 V) by assumption. rewrite F1 by discriminate. rewrite HT by assumption. reflexivity. }
    rewrite (lsum_ext _ _ (fun x => if (p <? q)%Z then - tau q * gpart V (wP x) p q else 0)) by (intros x Ix; apply in_zrange in Ix; apply X; exact Ix).
    destruct (p <? q)%Z; [|apply lsum_0; reflexivity]. rewrite lsum_scale. rewrite gpart_sum. reflexivity.
Qed.
(** ** Broadcasts of a panel and its transposed panel *)
Section bc.
Variables (pf : Z -> panel) (id idT hiT : Z).
Hypothesis PID : forall r, In r rks -> p_id (pf r) = id /\ p_lo (pf r) = i0 /\ p_hi (pf r) = nrt.
Hypothesis IDS : forall r i, In r rks -> In i (rows_of r) -> t_mat (p_tile r (pf r) i) <> idT /\ t_rank (p_tile r (pf r) i) = r.
Hypothesis LEAF : forall r i, In r rks -> onp r = false -> In i (rows_of r) -> p_ext (pf r) i = None.
Hypothesis HT : (i0 <= hiT <= nrt)%Z.
Definition eB : list (event (mat K)) := ebc1 P Q Ls Row (oC j0) pf id i0 nrt ++ ebc2 P Q Ls Row pf idT i0 hiT.
Definition bc_of (r : Z) : list (act (mat K)) * panel := panel_broadcast2 P Q D Row r (v0_col Q mb b D r j) (pf r) (fresh_panel idT i0 hiT).
Definition tT (r k : Z) : tid := p_tile r (snd (bc_of r)) k.
Lemma in_rows_of : forall r i, In i (rows_of r) <-> (i0 <= i < nrt)%Z /\ oR i = co Row r. Proof using. intros. apply rows_bound. Qed.
Let HR : (0 <= oC j0 < gs P Q (other Row))%Z := c_own C Col j0.
Let NTR : forall rc, nt rc = nrt := c_nt _ _ _ _ _ _ _ _ _ C.
Let RNG : (0 <= i0 <= nrt)%Z /\ (nrt <= nt Row)%Z. Proof. pose proof (c_i0 C). rewrite NTR. lia. Qed.
Let RNGT : (i0 <= i0 <= hiT)%Z /\ (hiT <= nrt)%Z /\ (hiT <= nt (other Row))%Z. Proof. rewrite NTR. lia. Qed.
Let ROOT : forall r i, In r rks -> co (other Row) r = oC j0 -> (i0 <= i < nrt)%Z -> oR i = co Row r -> t_rank (p_tile r (pf r) i) = r.
Proof. intros r i R _ Li O. apply IDS; [exact R|]. apply in_rows_of. auto. Qed.
Let LEAF' : forall r i, In r rks -> co (other Row) r <> oC j0 -> (i0 <= i < nrt)%Z -> oR i = co Row r -> p_ext (pf r) i = None.
Proof. intros r i R N Li O. apply LEAF; [exact R| |apply in_rows_of; auto]. apply Z.eqb_neq. intros E. apply N. symmetry. exact E. Qed.
Let IDS' : forall r i, In r rks -> (i0 <= i < nrt)%Z -> oR i = co Row r -> t_mat (p_tile r (pf r) i) <> idT /\ t_rank (p_tile r (pf r) i) = r.
Proof. intros r i R Li O. apply IDS; [exact R|]. apply in_rows_of. auto. Qed.
Lemma bc_ok : Forall (event_ok mem rks) eB.
Proof using C PID IDS LEAF HT. unfold eB. apply Forall_app. split; [apply (ebc1_ok P Q Ls D nt GA Row (oC j0) HR pf id i0 nrt ROOT)|apply (ebc2_ok P Q Ls D nt GA Row pf i0 nrt idT i0 hiT RNGT IDS')]. Qed.
Lemma bc_sem : forall r, In r rks -> fst (bc_of r) = proj mem r eB /\ forall k, tT r k = p_tile r (pTafter Q Ls Row pf idT i0 hiT r) k.
Proof using C PID IDS LEAF HT.
  intros r R. unfold tT, bc_of, panel_broadcast2, eB. rewrite (proj_app' P Q). destruct (PID r R) as (_ & E2 & E3). pose proof (c_i0 C) as IB. rewrite E2, E3, (proj2 (Z.eqb_neq i0 nrt)) by lia. cbn [fresh_panel p_lo p_hi].
  destruct (ebc2_proj (V := mat K) P Q Ls D nt GA Row (oC j0) HR pf i0 nrt RNG ROOT LEAF' (fun _ => fresh_panel idT i0 hiT) idT i0 hiT (fun _ _ => conj eq_refl (conj eq_refl eq_refl)) (fun _ _ _ => eq_refl) RNGT IDS' r R) as (pT' & F & EQ).
  cbn [fresh_panel] in *. unfold fresh_panel in F. fold (fresh_panel idT i0 hiT) in F |- *. rewrite F. cbn [fst snd]. split.
  - f_equal. unfold v0_col. pose proof (c_jc C). rewrite (own_eq C) by (try assumption; lia). apply (ebc1_proj P Q Ls D nt GA Row (oC j0) HR pf id i0 nrt PID RNG r R).
  - intros k. apply tile_ext. exact EQ.
Qed.
Lemma tT_eq : forall r k, In r rks -> (i0 <= k < hiT)%Z -> oC k = co Col r -> tT r k = if (oR k =? co Row r)%Z then p_tile r (pf r) k else Tid r idT k 0.
Proof using C PID IDS LEAF HT.
  intros r k R Lk O. rewrite (proj2 (bc_sem r R)). unfold pTafter, p_tile at 1, p_int. cbn [p_ext p_id other]. rewrite O, Z.eqb_refl.
  destruct (Z.leb_spec i0 k), (Z.ltb_spec k hiT); try lia. cbn [andb]. destruct (oR k =? co Row r)%Z; reflexivity.
Qed.
Lemma bc_run : forall st, let s := erun mem eB st in
  (forall r i, In r rks -> In i (rows_of r) -> s (p_tile r (pf r) i) = st (p_tile (wP (oR i)) (pf (wP (oR i))) i)) /\
  (forall r k, In r rks -> (i0 <= k < hiT)%Z -> oC k = co Col r -> s (tT r k) = st (p_tile (wP (oR k)) (pf (wP (oR k))) k)) /\
  (forall y, t_mat y <> id -> t_mat y <> idT -> s y = st y).
Proof using C PID IDS LEAF HT.
  intros st s. unfold s, eB. rewrite (erun_app P Q). set (s1 := erun mem (ebc1 P Q Ls Row (oC j0) pf id i0 nrt) st).
  destruct (ebc1_run P Q Ls D nt GA Row (oC j0) HR pf id i0 nrt PID RNG ROOT LEAF' st) as [A1 A2]. fold s1 in A1, A2.
  destruct (ebc2_run P Q Ls D nt GA Row pf i0 nrt idT i0 hiT RNGT IDS' s1) as [B1 B2]. set (s2 := erun mem (ebc2 _ _ _ _ _ _ _ _) s1) in *.
  assert (KP : forall r i, In r rks -> In i (rows_of r) -> s2 (p_tile r (pf r) i) = s1 (p_tile r (pf r) i)).
  { intros r i R Ii. apply B2. intros r' k' _ _ _ _ E. apply (proj1 (IDS r i R Ii)). rewrite E. reflexivity. }
  split; [|split].
  - intros r i R Ii. rewrite KP by assumption. apply in_rows_of in Ii as [Li O]. rewrite A1 by assumption. reflexivity.
  - intros r k R Lk O. rewrite (proj2 (bc_sem r R)). rewrite B1 by assumption. destruct (dsrc_co P Q Ls D nt GA Row k) as [C1 _]. rewrite A1; [reflexivity|apply (dsrc_in P Q Ls D nt GA Row)|lia|symmetry; exact C1].
  - intros y Y1 Y2. rewrite B2 by (intros r k _ _ _ _ ->; apply Y2; reflexivity). apply A2. intros r i _ _ _ _ ->. apply Y1. reflexivity.
Qed.
End bc.
End step.
