(** * Distributed general and Hermitian multiplication: what one iteration computes. *)
From Coq Require Import ZArith Lia List Bool Permutation.
From Verif Require Import CInt Loop StarField DenseSpec Tiling DenseJobs TileJobs BlockJobs TriangularProofs MultModel Properties_Mult DistModel DistSpec DistBuilt DistThms DistMachine DistGrid PanelModel PanelProofs DistSim DistProg DistPhase DistLocal DistInverseModel DistTriModel DistTriProofs DistMultModel.
Import ListNotations.
Local Open Scope Z_scope.

(** ** A broadcast of a panel *)
Section bcv.
Context {V : Type}.
Variables P Q : Z.
Variable Ls : coord -> layout.
Variable D : coord -> Z -> axis.
Variable nt : coord -> Z.
Hypothesis GA : grid_axes P Q Ls D nt.
Notation own rc k := (tile_owner (Ls rc) k).
Variables (id lo hi : Z) (rc : coord) (root : Z) (src : Z -> tid).
Hypothesis HR : 0 <= root < gs P Q (other rc).
Hypothesis RNG : 0 <= lo <= hi /\ hi <= nt rc.
Lemma bcv : forall st : tstore V,
  (forall r i, In r (ranks P Q) -> lo <= i < hi -> own rc i = co Q rc r ->
     erun (members P Q) (e_bc P Q Ls id lo hi rc root src) st (p_tile r (npan Q Ls id lo hi rc root src r) i) = st (at_ (mk Q rc (own rc i) root) (src i))) /\
  (forall x, t_mat x <> id -> erun (members P Q) (e_bc P Q Ls id lo hi rc root src) st x = st x).
Proof using GA HR RNG.
  intros st.
  destruct (ebc1_run P Q Ls D nt GA rc root HR (npan Q Ls id lo hi rc root src) id lo hi (fun r _ => conj eq_refl (conj eq_refl eq_refl)) RNG (bc_root P Q Ls id lo hi rc root src) (bc_leaf P Q Ls id lo hi rc root src) st) as [A B].
  split.
  - intros r i R L O. unfold e_bc. rewrite A by assumption. destruct (psrc_co P Q Ls D nt GA rc root HR i) as [C1 C2].
    rewrite (npan_tile P Q Ls); [|apply (psrc_in P Q Ls D nt GA rc root HR)|exact L|symmetry; exact C1]. rewrite C2, Z.eqb_refl. reflexivity.
  - intros x X. apply B. intros r i _ _ _ _ ->. apply X. reflexivity.
Qed.
End bcv.

Section proofs.
Context {K : starfield} (kn : kernels K).
Variables P Q : Z.
Variables LsA LsB : coord -> layout.
Variables DA DB DC : coord -> Z -> axis.
Variables ntA ntB : coord -> Z.
Hypothesis GAA : grid_axes P Q LsA DA ntA.
Hypothesis GAB : grid_axes P Q LsB DB ntB.
Variables tr tc tk : tiling.
Hypothesis (OKr : tiling_ok tr) (OKc : tiling_ok tc) (OKk : tiling_ok tk).
(** mat_c has the rows of mat_a and the columns of mat_b *)
Hypothesis ECR : forall p, 0 <= p < P -> DC Row p = DA Row p.
Hypothesis ECC : forall p, 0 <= p < Q -> DC Col p = DB Col p.
Hypothesis NTR : ntA Row = tl_n tr.
Hypothesis NTC : ntB Col = tl_n tc.
Hypothesis NTK : ntA Col = tl_n tk /\ ntB Row = tl_n tk.
Notation rks := (ranks P Q).
Notation mem := (members P Q).
Notation co := (co Q).
Hypothesis SZR : forall r k, In r rks -> 0 <= k < tl_n tr -> szt Q DA r Row k = tl_sz tr k.
Hypothesis SZC : forall r k, In r rks -> 0 <= k < tl_n tc -> szt Q DB r Col k = tl_sz tc k.
Hypothesis SZK : forall r k, In r rks -> 0 <= k < tl_n tk -> szt Q DA r Col k = tl_sz tk k.
Variables al be : F K.
Add Ring KringDM : (fring K).
Let HP := ga_P _ _ _ _ _ GAA.
Let HQ := ga_Q _ _ _ _ _ GAA.
Notation oR i := (tile_owner (LsA Row) i).
Notation oC j := (tile_owner (LsB Col) j).
Notation oKA k := (tile_owner (LsA Col) k).
Notation oKB k := (tile_owner (LsB Row) k).
(** owners of the tiles *)
Definition wA (i k : Z) : Z := mk Q Row (oR i) (oKA k).
Definition wB (k j : Z) : Z := mk Q Row (oKB k) (oC j).
Definition wC (i j : Z) : Z := mk Q Row (oR i) (oC j).
(** the matrices, as if they were local *)
Definition dabs (st : tstore (mat K)) : tstore (mat K) := fun x =>
  if t_mat x =? 0 then st (DA_ (wA (t_row x) (t_col x)) (t_row x) (t_col x)) else
  if t_mat x =? 1 then st (DB_ (wB (t_row x) (t_col x)) (t_row x) (t_col x)) else
  st (DC_ (wC (t_row x) (t_col x)) (t_row x) (t_col x)).
Notation NR := (tl_n tr).
Notation NC := (tl_n tc).
Notation NK := (tl_n tk).

Lemma rR : forall i, 0 <= oR i < gs P Q Row. Proof using GAA. intros. apply (own_range _ _ _ _ _ GAA). Qed.
Lemma rC : forall i, 0 <= oC i < gs P Q Col. Proof using GAB. intros. apply (own_range _ _ _ _ _ GAB). Qed.
Lemma rKA : forall i, 0 <= oKA i < gs P Q Col. Proof using GAA. intros. apply (own_range _ _ _ _ _ GAA). Qed.
Lemma rKB : forall i, 0 <= oKB i < gs P Q Row. Proof using GAB. intros. apply (own_range _ _ _ _ _ GAB). Qed.
Lemma wC_in : forall i j, In (wC i j) rks. Proof using GAA GAB. intros. apply (mk_rank _ _ _ _ _ GAA Row); [apply rR|apply rC]. Qed.
Lemma wC_co : forall i j, co Row (wC i j) = oR i /\ co Col (wC i j) = oC j. Proof using GAA GAB. intros. apply (co_mk P Q HP HQ Row); [apply rR|apply rC]. Qed.
Lemma wC_r : forall r i j, In r rks -> oR i = co Row r -> oC j = co Col r -> wC i j = r.
Proof using GAA. intros r i j R A B. unfold wC. rewrite A, B. apply (mk_co P Q HP HQ Row). Qed.
Lemma coR : forall r c, In r rks -> 0 <= co c r < gs P Q c. Proof using GAA. intros r c R. apply (in_ranks_rc P Q HP HQ c) in R. apply R. Qed.
Lemma axR : forall r, In r rks -> ax Q DC r Row = ax Q DA r Row. Proof using GAA ECR. intros r R. unfold ax. apply ECR. apply (coR r Row R). Qed.
Lemma axC : forall r, In r rks -> ax Q DC r Col = ax Q DB r Col. Proof using GAA ECC. intros r R. unfold ax. apply ECC. apply (coR r Col R). Qed.
Lemma glR : forall r l, In r rks -> t_gl Q DC r Row l = t_gl Q DA r Row l. Proof using GAA ECR. intros r l R. unfold t_gl. rewrite axR by exact R. reflexivity. Qed.
Lemma glC : forall r l, In r rks -> t_gl Q DC r Col l = t_gl Q DB r Col l. Proof using GAA ECC. intros r l R. unfold t_gl. rewrite axC by exact R. reflexivity. Qed.
Lemma nxR : forall r l, In r rks -> t_nx Q DC r Row l = t_nx Q DA r Row l. Proof using GAA ECR. intros r l R. unfold t_nx. rewrite axR by exact R. reflexivity. Qed.
Lemma nxC : forall r l, In r rks -> t_nx Q DC r Col l = t_nx Q DB r Col l. Proof using GAA ECC. intros r l R. unfold t_nx. rewrite axC by exact R. reflexivity. Qed.
Lemma lntRA : forall r, In r rks -> lnt Q DA r Row = t_nx Q DA r Row NR. Proof using GAA NTR. intros r R. unfold lnt. rewrite (loop_end _ _ _ _ _ GAA) by exact R. rewrite NTR. reflexivity. Qed.
Lemma lntR : forall r, In r rks -> lnt Q DC r Row = t_nx Q DA r Row NR. Proof using GAA ECR NTR. intros r R. unfold lnt. rewrite axR by exact R. apply lntRA. exact R. Qed.
Lemma lntCB : forall r, In r rks -> lnt Q DB r Col = t_nx Q DB r Col NC. Proof using GAB NTC. intros r R. unfold lnt. rewrite (loop_end _ _ _ _ _ GAB) by exact R. rewrite NTC. reflexivity. Qed.
Lemma lntC : forall r, In r rks -> lnt Q DC r Col = t_nx Q DB r Col NC. Proof using GAA GAB ECC NTC. intros r R. unfold lnt. rewrite axC by exact R. apply lntCB. exact R. Qed.
Lemma szR : forall r k, In r rks -> 0 <= k < NR -> szt Q DC r Row k = tl_sz tr k. Proof using GAA ECR SZR. intros r k R L. unfold szt. rewrite axR by exact R. apply SZR; assumption. Qed.
Lemma szC : forall r k, In r rks -> 0 <= k < NC -> szt Q DC r Col k = tl_sz tc k. Proof using GAA ECC SZC. intros r k R L. unfold szt. rewrite axC by exact R. apply SZC; assumption. Qed.
Lemma nrtR : forall r, In r rks -> nrt Q DA r Row = NR. Proof using GAA NTR. intros r R. unfold nrt. rewrite (rank_nt _ _ _ _ _ GAA) by exact R. exact NTR. Qed.
Lemma nrtK : forall r, In r rks -> nrt Q DA r Col = NK. Proof using GAA NTK. intros r R. unfold nrt. rewrite (rank_nt _ _ _ _ _ GAA) by exact R. apply NTK. Qed.
Lemma nrtC : forall r, In r rks -> nrt Q DB r Col = NC. Proof using GAB NTC. intros r R. unfold nrt. rewrite (rank_nt _ _ _ _ _ GAB) by exact R. exact NTC. Qed.
Lemma NRp : 0 <= NR. Proof using OKr. apply OKr. Qed.
Lemma NCp : 0 <= NC. Proof using OKc. apply OKc. Qed.
Lemma ownKA : forall r k, In r rks -> 0 <= k -> t_own Q DA r Col k = oKA k. Proof using GAA. intros. apply (t_own_eq _ _ _ _ _ GAA); assumption. Qed.
Lemma ownKB : forall r k, In r rks -> 0 <= k -> t_own Q DB r Row k = oKB k. Proof using GAB. intros. apply (t_own_eq _ _ _ _ _ GAB); assumption. Qed.
Lemma ownR : forall r k, In r rks -> 0 <= k -> t_own Q DA r Row k = oR k. Proof using GAA. intros. apply (t_own_eq _ _ _ _ _ GAA); assumption. Qed.
Lemma nx0R : forall r, In r rks -> t_nx Q DA r Row 0 = 0. Proof using GAA. intros r R. unfold t_nx. rewrite (T_next_local _ _ _ (rank_models _ _ _ _ _ GAA r Row R)) by lia. reflexivity. Qed.
Lemma nx0C : forall r, In r rks -> t_nx Q DB r Col 0 = 0. Proof using GAB. intros r R. unfold t_nx. rewrite (T_next_local _ _ _ (rank_models _ _ _ _ _ GAB r Col R)) by lia. reflexivity. Qed.
(** rows and columns of mat_c on rank r *)
Definition rowsof (lo hi r : Z) : list Z := filter (fun i => oR i =? co Row r) (zrange lo hi).
Definition colsof (r : Z) : list Z := filter (fun j => oC j =? co Col r) (zrange 0 NC).
Lemma rows_loop : forall r lo hi, In r rks -> 0 <= lo <= hi -> hi <= NR -> map (t_gl Q DA r Row) (zrange (t_nx Q DA r Row lo) (t_nx Q DA r Row hi)) = rowsof lo hi r.
Proof using GAA NTR. intros r lo hi R L1 L2. apply (tiles_here P Q LsA DA ntA GAA); [exact R|exact L1|rewrite NTR; exact L2]. Qed.
Lemma cols_loop : forall r, In r rks -> map (t_gl Q DB r Col) (zrange 0 (lnt Q DC r Col)) = colsof r.
Proof using GAA GAB ECC NTC OKc.
  intros r R. rewrite lntC by exact R. pose proof NCp. pose proof (tiles_here P Q LsB DB ntB GAB r Col 0 NC R ltac:(lia) ltac:(rewrite NTC; lia)) as X. rewrite (nx0C r R) in X. exact X.
Qed.
Lemma rows_in : forall lo hi r i, In i (rowsof lo hi r) <-> lo <= i < hi /\ oR i = co Row r.
Proof using. intros. unfold rowsof. rewrite filter_In, in_zrange, Z.eqb_eq. reflexivity. Qed.
Lemma cols_in : forall r j, In j (colsof r) <-> 0 <= j < NC /\ oC j = co Col r.
Proof using. intros. unfold colsof. rewrite filter_In, in_zrange, Z.eqb_eq. reflexivity. Qed.
Lemma rows_nd : forall lo hi r, NoDup (rowsof lo hi r). Proof using. intros. apply filter_nodup, zrange_NoDup. Qed.
Lemma cols_nd : forall r, NoDup (colsof r). Proof using. intros. apply filter_nodup, zrange_NoDup. Qed.

(** ** General *)
Section gstep.
Variable k : Z.
Hypothesis Lk : 0 <= k < NK.
Notation pA := (npan Q LsA (mA k) 0 NR Row (oKA k) (fun i => Tid 0 0 i k)).
Notation pB := (npan Q LsB (mB k) 0 NC Col (oKB k) (fun j => Tid 0 1 k j)).
Definition eGA : list (event (mat K)) := e_bc P Q LsA (mA k) 0 NR Row (oKA k) (fun i => Tid 0 0 i k).
Definition eGB : list (event (mat K)) := e_bc P Q LsB (mB k) 0 NC Col (oKB k) (fun j => Tid 0 1 k j).
Lemma rngA : 0 <= 0 <= NR /\ NR <= ntA Row. Proof using NTR OKr. pose proof NRp. rewrite NTR. lia. Qed.
Lemma rngB : 0 <= 0 <= NC /\ NC <= ntB Col. Proof using NTC OKc. pose proof NCp. rewrite NTC. lia. Qed.
Lemma ga_eq : forall r, In r rks -> panel_eq (ga_panel Q DA DC r k) (pA r).
Proof using GAA ECR NTR NTK OKr Lk.
  intros r R. unfold ga_panel. cbv zeta. rewrite ownKA by (try exact R; lia). rewrite nrtR, lntR by exact R. pose proof NRp.
  pose proof (links_eq P Q LsA DA ntA GAA Row r (oKA k) (mA k) 0 NR (fun i => Tid 0 0 i k) (fun i => DA_ r i (t_gl Q DA r Col (t_loc Q DA r Col k))) R ltac:(lia) ltac:(rewrite NTR; lia)) as X.
  rewrite (nx0R r R) in X. apply X. intros i Li O CO. rewrite (t_gl_loc _ _ _ _ _ GAA); [reflexivity|exact R|rewrite (proj1 NTK); exact Lk|symmetry; exact CO].
Qed.
Lemma gb_eq : forall r, In r rks -> panel_eq (gb_panel Q DB DC r k) (pB r).
Proof using GAA GAB ECC NTC NTK OKc Lk.
  intros r R. unfold gb_panel. cbv zeta. rewrite ownKB by (try exact R; lia). rewrite nrtC, lntC by exact R. pose proof NCp.
  pose proof (links_eq P Q LsB DB ntB GAB Col r (oKB k) (mB k) 0 NC (fun j => Tid 0 1 k j) (fun j => DB_ r (t_gl Q DB r Row (t_loc Q DB r Row k)) j) R ltac:(lia) ltac:(rewrite NTC; lia)) as X.
  rewrite (nx0C r R) in X. apply X. intros i Li O CO. rewrite (t_gl_loc _ _ _ _ _ GAB); [reflexivity|exact R|rewrite (proj2 NTK); exact Lk|symmetry; exact CO].
Qed.
Definition gjob (r : Z) (ij : Z * Z) : tjob (mat K) :=
  jgemm kn NoTrans NoTrans (tl_sz tr (fst ij)) (tl_sz tc (snd ij)) (tl_sz tk k) al (p_tile r (pA r) (fst ij)) (p_tile r (pB r) (snd ij)) (if k =? 0 then be else f1) (DC_ r (fst ij) (snd ij)).
Definition gjs (r : Z) : list (Z * Z) := list_prod (rowsof 0 NR r) (colsof r).
Definition eGJ : list (event (mat K)) := elocal P Q (fun r => flat_map (fun ij => [gjob r ij]) (gjs r)).
Definition e_general : list (event (mat K)) := eGA ++ eGB ++ eGJ.
Lemma g_glob : forall r, In r rks -> g_jobs kn Q DA DB DC al be r k (ga_panel Q DA DC r k) (gb_panel Q DB DC r k) = flat_map (fun ij => [gjob r ij]) (gjs r).
Proof using GAA GAB ECR ECC NTR NTC NTK OKr OKc SZR SZC SZK Lk.
  intros r R. unfold g_jobs, gjs. rewrite <- (prod_flat (fun i j => gjob r (i, j))) || rewrite <- prod_flat. cbv zeta. pose proof NRp.
  rewrite <- (rows_loop r 0 NR R) by lia. rewrite nx0R by exact R. rewrite <- lntR by exact R. rewrite flat_map_map. apply flat_map_ext_in. intros li Ili.
  assert (Ii : In (t_gl Q DA r Row li) (rowsof 0 NR r)) by (rewrite <- (rows_loop r 0 NR R) by lia; rewrite nx0R by exact R; rewrite <- lntR by exact R; apply in_map; exact Ili). apply rows_in in Ii as [Li _].
  rewrite <- cols_loop by exact R. rewrite flat_map_map. apply flat_map_ext_in. intros lj Ilj.
  assert (Ij : In (t_gl Q DB r Col lj) (colsof r)) by (rewrite <- cols_loop by exact R; apply in_map; exact Ilj). apply cols_in in Ij as [Lj _].
  unfold gjob. cbn [fst snd]. rewrite glR, glC by exact R. rewrite szR, szC, SZK by assumption. rewrite (tile_ext r _ _ _ (ga_eq r R)), (tile_ext r _ _ _ (gb_eq r R)). reflexivity.
Qed.
Lemma general_proj : forall r, In r rks -> g_step kn P Q DA DB DC al be r k = proj mem r e_general.
Proof using GAA GAB ECR ECC NTR NTC NTK OKr OKc SZR SZC SZK Lk.
  intros r R. unfold g_step, e_general. rewrite !(proj_app' P Q). rewrite ownKA, ownKB by (try exact R; lia).
  rewrite (bc_ext P Q DA Row r _ _ _ (ga_eq r R)), (bc_ext P Q DB Col r _ _ _ (gb_eq r R)). unfold eGA, eGB, eGJ.
  rewrite (bc_proj P Q LsA DA ntA GAA); [|apply rKA|apply rngA|exact R]. rewrite (bc_proj P Q LsB DB ntB GAB); [|apply rKB|apply rngB|exact R].
  rewrite (elocal_proj P Q HP HQ) by exact R. rewrite g_glob by exact R. reflexivity.
Qed.
Lemma idsG : mA k <> 0 /\ mA k <> 1 /\ mA k <> 2 /\ mB k <> 0 /\ mB k <> 1 /\ mB k <> 2 /\ mA k <> mB k /\ mC k <> 0 /\ mC k <> 1 /\ mC k <> 2 /\ mC k <> mA k /\ mC k <> mB k.
Proof using. unfold mA, mB, mC. pose proof (Z.mod_pos_bound k 2 ltac:(lia)). lia. Qed.
Lemma pA_tile : forall r i, In r rks -> In i (rowsof 0 NR r) -> p_tile r (pA r) i = DA_ r i k \/ p_tile r (pA r) i = Tid r (mA k) i 0.
Proof using. intros r i R Ii. apply rows_in in Ii as [Li O]. rewrite (npan_tile P Q LsA) by assumption. destruct (_ =? _); auto. Qed.
Lemma pB_tile : forall r j, In r rks -> In j (colsof r) -> p_tile r (pB r) j = DB_ r k j \/ p_tile r (pB r) j = Tid r (mB k) j 0.
Proof using. intros r i R Ii. apply cols_in in Ii as [Li O]. rewrite (npan_tile P Q LsB) by assumption. destruct (_ =? _); auto. Qed.
Lemma gj_props : forall st, Forall (event_ok mem rks) eGJ /\
  (forall i j, 0 <= i < NR -> 0 <= j < NC -> erun mem eGJ st (DC_ (wC i j) i j) = tval (gjob (wC i j) (i, j)) st) /\
  (forall x, (forall i j, 0 <= i < NR -> 0 <= j < NC -> x <> DC_ (wC i j) i j) -> erun mem eGJ st x = st x).
Proof using GAA GAB.
  intros st. pose proof idsG as ID. destruct (phase_each P Q HP HQ gjs gjob st) as (A & B & C).
  - intros r R. apply prod_nodup; [apply rows_nd|apply cols_nd].
  - intros r [i j] t R Ij. apply in_prod_iff in Ij as [Ii Ij]. cbn [gjob tj_in tj_out jgemm fst snd]. intros [[<-|[<-|[]]]| ->]; [|  |reflexivity].
    + destruct (pA_tile r i R Ii) as [-> | ->]; reflexivity.
    + destruct (pB_tile r j R Ij) as [-> | ->]; reflexivity.
  - intros r [i j] [i' j'] R _ _ E. cbn in E. injection E as -> ->. reflexivity.
  - intros r [i j] [i' j'] R Ij _. apply in_prod_iff in Ij as [Ii Ij]. cbn [gjob tj_in tj_out jgemm fst snd]. intros [E|[E|[]]].
    + destruct (pA_tile r i R Ii) as [X|X]; rewrite X in E; apply (f_equal t_mat) in E; cbn [t_mat DA_ DC_] in E; lia.
    + destruct (pB_tile r j R Ij) as [X|X]; rewrite X in E; apply (f_equal t_mat) in E; cbn [t_mat DB_ DC_] in E; lia.
  - split; [apply elocal_ok; exact A|]. split.
    + intros i j Li Lj. apply (B (wC i j) (i, j) (wC_in i j)). apply in_prod_iff. rewrite rows_in, cols_in. destruct (wC_co i j) as [-> ->]. auto.
    + intros x X. apply C. intros r [i j] R Ij. cbn [gjob tj_out jgemm fst snd]. intros <-. apply in_prod_iff in Ij as [Ii Ij]. apply rows_in in Ii as [Li O1]. apply cols_in in Ij as [Lj O2].
      apply (X i j Li Lj). rewrite (wC_r r i j R O1 O2). reflexivity.
Qed.
Lemma general_ok : Forall (event_ok mem rks) e_general.
Proof using GAA GAB.
  unfold e_general. apply Forall_app. split; [apply (bc_ok P Q LsA DA ntA GAA); apply rKA|]. apply Forall_app. split; [apply (bc_ok P Q LsB DB ntB GAB); apply rKB|].
  apply (gj_props (fun _ _ _ => f0)).
Qed.
(** one iteration, seen on the matrices *)
Lemma general_run : forall st,
  (forall i j, 0 <= i < NR -> 0 <= j < NC -> dabs (erun mem e_general st) (MC i j) =
     gemm kn NoTrans NoTrans (tl_sz tr i) (tl_sz tc j) (tl_sz tk k) al (dabs st (MA i k)) (dabs st (MB k j)) (if k =? 0 then be else f1) (dabs st (MC i j))) /\
  (forall x, 0 <= t_mat x < 3 -> (forall i j, 0 <= i < NR -> 0 <= j < NC -> t_mat x = 2 -> t_row x = i -> t_col x <> j) -> dabs (erun mem e_general st) x = dabs st x).
Proof using GAA GAB NTR NTC OKr OKc.
  intros st. pose proof idsG as ID. unfold e_general. rewrite !erun_app.
  destruct (bcv P Q LsA DA ntA GAA (mA k) 0 NR Row (oKA k) (fun i => Tid 0 0 i k) (rKA k) rngA st) as [A1 A2]. fold eGA in A1, A2. set (s1 := erun mem eGA st) in *.
  destruct (bcv P Q LsB DB ntB GAB (mB k) 0 NC Col (oKB k) (fun j => Tid 0 1 k j) (rKB k) rngB s1) as [B1 B2]. fold eGB in B1, B2. set (s2 := erun mem eGB s1) in *.
  destruct (gj_props s2) as (_ & J1 & J2).
  assert (FR : forall x, 0 <= t_mat x < 3 -> s2 x = st x) by (intros x X; rewrite B2, A2 by lia; reflexivity). split.
  - intros i j Li Lj. change (dabs (erun mem eGJ s2) (MC i j)) with (erun mem eGJ s2 (DC_ (wC i j) i j)). rewrite J1 by assumption.
    unfold tval. cbn [gjob jgemm tj_in tj_out tj_fun map in2 fst snd]. destruct (wC_co i j) as [C1 C2].
    assert (EA : s2 (p_tile (wC i j) (pA (wC i j)) i) = dabs st (MA i k)).
    { assert (Ii : In i (rowsof 0 NR (wC i j))) by (apply rows_in; auto). destruct (pA_tile (wC i j) i (wC_in i j) Ii) as [X|X].
      - rewrite B2 by (rewrite X; cbn [t_mat DA_]; lia). rewrite A1 by (try assumption; try apply wC_in; congruence). reflexivity.
      - rewrite B2 by (rewrite X; cbn [t_mat]; lia). rewrite A1 by (try assumption; try apply wC_in; congruence). reflexivity. }
    assert (EB : s2 (p_tile (wC i j) (pB (wC i j)) j) = dabs st (MB k j)).
    { rewrite B1 by (try assumption; try apply wC_in; congruence). rewrite A2 by (cbn [t_mat at_]; lia). reflexivity. }
    rewrite EA, EB. rewrite FR by (cbn; lia). reflexivity.
  - intros x X N. unfold dabs. destruct (Z.eqb_spec (t_mat x) 0) as [E0|E0]; [|destruct (Z.eqb_spec (t_mat x) 1) as [E1|E1]].
    + rewrite J2 by (intros; unfold DA_, DC_; discriminate). apply FR. cbn. lia.
    + rewrite J2 by (intros; unfold DB_, DC_; discriminate). apply FR. cbn. lia.
    + rewrite J2; [apply FR; cbn; lia|]. intros i j Li Lj E. unfold DC_ in E. injection E as E2 E3 E4. apply (N i j Li Lj); [lia|assumption|assumption].
Qed.
End gstep.

(** ** Hermitian: mat_a is square, mat_b and mat_c are distributed in the same way *)
Section hstep.
Hypothesis (KO : kernels_ok kn).
Hypothesis TK : tk = tr.
Hypothesis EBR : forall p, 0 <= p < P -> DB Row p = DA Row p.
Variable k : Z.
Hypothesis Lk : 0 <= k < NR.
Notation b := (if k =? 0 then be else f1).
Lemma axB : forall r, In r rks -> ax Q DB r Row = ax Q DA r Row. Proof using GAA EBR. intros r R. unfold ax. apply EBR. apply (coR r Row R). Qed.
Lemma oKBR : forall i, 0 <= i -> oKB i = oR i.
Proof using GAA GAB EBR. intros i Li. pose proof (wC_in 0 0) as R0. rewrite <- (ownKB _ i R0 Li), <- (ownR _ i R0 Li). unfold t_own. rewrite axB by exact R0. reflexivity. Qed.
Lemma wB_wC : forall i j, 0 <= i -> wB i j = wC i j. Proof using GAA GAB EBR. intros i j Li. unfold wB, wC. rewrite oKBR by exact Li. reflexivity. Qed.
Lemma glBR : forall r l, In r rks -> t_gl Q DB r Row l = t_gl Q DA r Row l. Proof using GAA EBR. intros r l R. unfold t_gl. rewrite axB by exact R. reflexivity. Qed.
Lemma LkK : 0 <= k < NK. Proof using TK Lk. rewrite TK. exact Lk. Qed.
Lemma szKr : forall r, In r rks -> szt Q DA r Col k = tl_sz tr k. Proof using SZK TK Lk. intros r R. rewrite SZK by (try exact R; apply LkK). rewrite TK. reflexivity. Qed.
Lemma glx : forall (Ls : coord -> layout) D nt r c i, grid_axes P Q Ls D nt -> In r rks -> 0 <= i < nt c -> tile_owner (Ls c) i = co c r -> t_gl Q D r c (t_nx Q D r c i) = i.
Proof using.
  intros Ls D nt r c i G R Li O. apply (next_glob (Ls c) (co c r) (ax Q D r c) (rank_models _ _ _ _ _ G r c R)); [rewrite (rank_nt _ _ _ _ _ G) by exact R; exact Li|exact O].
Qed.
Notation pA := (npan Q LsA (mA k) k NR Row (oKA k) (fun i => Tid 0 0 i k)).
Notation pB := (npan Q LsB (mB k) 0 NC Col (oR k) (fun j => Tid 0 1 k j)).
Definition eHA : list (event (mat K)) := e_bc P Q LsA (mA k) k NR Row (oKA k) (fun i => Tid 0 0 i k).
Definition eHB : list (event (mat K)) := e_bc P Q LsB (mB k) 0 NC Col (oR k) (fun j => Tid 0 1 k j).
Lemma rngHA : 0 <= k <= NR /\ NR <= ntA Row. Proof using NTR Lk. rewrite NTR. lia. Qed.
Lemma ha_eq : forall r, In r rks -> panel_eq (ha_panel Q DA r k) (pA r).
Proof using GAA NTR NTK TK Lk.
  intros r R. unfold ha_panel. cbv zeta. rewrite Z.eqb_sym, ownKA by (try exact R; lia). rewrite nrtR, lntRA by exact R.
  apply (links_eq P Q LsA DA ntA GAA Row r (oKA k) (mA k) k NR (fun i => Tid 0 0 i k) (fun i => DA_ r i (t_gl Q DA r Col (t_nx Q DA r Col k))) R ltac:(lia) ltac:(rewrite NTR; lia)).
  intros i Li O CO. rewrite (glx LsA DA ntA r Col k GAA R); [reflexivity|rewrite (proj1 NTK); apply LkK|symmetry; exact CO].
Qed.
Lemma hb_eq : forall r, In r rks -> panel_eq (hb_panel Q DA DB DC r k) (pB r).
Proof using GAA GAB ECR EBR NTC NTK TK OKc Lk.
  intros r R. unfold hb_panel. cbv zeta. rewrite Z.eqb_sym, ownR by (try exact R; lia). rewrite nrtC, lntCB by exact R. pose proof NCp.
  pose proof (links_eq P Q LsB DB ntB GAB Col r (oR k) (mB k) 0 NC (fun j => Tid 0 1 k j) (fun j => DB_ r (t_gl Q DB r Row (t_nx Q DC r Row k)) j) R ltac:(lia) ltac:(rewrite NTC; lia)) as X.
  rewrite (nx0C r R) in X. apply X. intros i Li O CO. rewrite nxR by exact R. 
  assert (E : t_nx Q DA r Row k = t_nx Q DB r Row k) by (unfold t_nx; rewrite axB by exact R; reflexivity). rewrite E.
  rewrite (glx LsB DB ntB r Row k GAB R); [reflexivity|rewrite (proj2 NTK); apply LkK|]. rewrite oKBR by lia. symmetry. exact CO.
Qed.

(** tiles of mat_c on rank r, column by column *)
Definition gpairs (lo hi r : Z) : list (Z * Z) := flat_map (fun j => map (fun i => (i, j)) (rowsof lo hi r)) (colsof r).
Lemma gpairs_in : forall lo hi r i j, In (i, j) (gpairs lo hi r) <-> In i (rowsof lo hi r) /\ In j (colsof r).
Proof using.
  intros lo hi r i j. unfold gpairs. rewrite in_flat_map. split.
  - intros (j' & Ij & I0). apply in_map_iff in I0 as (i' & E & Ii). injection E as <- <-. auto.
  - intros [Ii Ij]. exists j. split; [exact Ij|]. apply in_map_iff. exists i. auto.
Qed.
Lemma gpairs_nd : forall lo hi r, NoDup (gpairs lo hi r).
Proof using.
  intros lo hi r. unfold gpairs. pose proof (cols_nd r) as NDC. induction (colsof r) as [|j l IH]; [constructor|]. apply NoDup_cons_iff in NDC as [N1 N2]. cbn [flat_map]. apply nodup_app.
  - apply FinFun.Injective_map_NoDup; [|apply rows_nd]. intros a c E. injection E; auto.
  - apply IH. exact N2.
  - intros [a c] I1 I2. apply in_map_iff in I1 as (i & E & _). injection E as <- <-. apply in_flat_map in I2 as (j' & Ij & I2). apply in_map_iff in I2 as (i' & E & _). injection E as _ ->. contradiction.
Qed.
Lemma range_glob : forall r lo hi, In r rks -> 0 <= lo <= hi -> hi <= NR ->
  map (fun l => (t_gl Q DA r Row (fst l), t_gl Q DB r Col (snd l))) (range2d (t_nx Q DA r Row lo) (t_nx Q DA r Row hi) 0 (lnt Q DC r Col)) = gpairs lo hi r.
Proof using GAA GAB ECC NTR NTC OKc.
  intros r lo hi R L1 L2. unfold gpairs, range2d. rewrite <- cols_loop by exact R. rewrite <- (rows_loop r lo hi R L1 L2). rewrite flat_map_map.
  generalize (zrange 0 (lnt Q DC r Col)). intros l. induction l as [|x l IH]; [reflexivity|]. cbn [flat_map]. rewrite map_app, IH, !map_map. reflexivity.
Qed.
Lemma map_glob : forall {X} (f : Z -> Z -> X) r lo hi, In r rks -> 0 <= lo <= hi -> hi <= NR ->
  map (fun l => f (t_gl Q DA r Row (fst l)) (t_gl Q DB r Col (snd l))) (range2d (t_nx Q DA r Row lo) (t_nx Q DA r Row hi) 0 (lnt Q DC r Col)) = map (fun x => f (fst x) (snd x)) (gpairs lo hi r).
Proof using GAA GAB ECC NTR NTC OKc. intros X f r lo hi R L1 L2. rewrite <- (range_glob r lo hi R L1 L2), map_map. reflexivity. Qed.
Lemma flat_glob : forall {X} (f : Z -> Z -> list X) r lo hi, In r rks -> 0 <= lo <= hi -> hi <= NR ->
  flat_map (fun l => f (t_gl Q DA r Row (fst l)) (t_gl Q DB r Col (snd l))) (range2d (t_nx Q DA r Row lo) (t_nx Q DA r Row hi) 0 (lnt Q DC r Col)) = flat_map (fun x => f (fst x) (snd x)) (gpairs lo hi r).
Proof using GAA GAB ECC NTR NTC OKc. intros X f r lo hi R L1 L2. rewrite <- (range_glob r lo hi R L1 L2), flat_map_map. reflexivity. Qed.
Lemma pair_bounds : forall lo hi r ij, 0 <= lo -> hi <= NR -> In ij (gpairs lo hi r) -> lo <= fst ij < hi /\ 0 <= fst ij < NR /\ 0 <= snd ij < NC /\ wC (fst ij) (snd ij) = r \/ ~ In r rks.
Proof using GAA.
  intros lo hi r [i j] L1 L2 I0. apply gpairs_in in I0 as [Ii Ij]. apply rows_in in Ii as [Li Oi]. apply cols_in in Ij as [Lj Oj]. cbn [fst snd].
  destruct (in_dec Z.eq_dec r rks) as [R|R]; [left|right; exact R]. rewrite (wC_r r i j R Oi Oj). repeat split; lia.
Qed.

(** the products with the diagonal tile *)
Definition djob (r : Z) (ij : Z * Z) : tjob (mat K) :=
  jhemm kn Left Lower (tl_sz tr (fst ij)) (tl_sz tc (snd ij)) al (p_tile r (pA r) (fst ij)) (p_tile r (pB r) (snd ij)) b (DC_ r (fst ij) (snd ij)).
Definition eHD : list (event (mat K)) := elocal P Q (fun r => flat_map (fun ij => [djob r ij]) (gpairs k (k + 1) r)).
Lemma flat_one : forall {X Y} (f : X -> Y) l, flat_map (fun x => [f x]) l = map f l.
Proof using. intros X Y f l. induction l as [|x l IH]; cbn; [|rewrite IH]; reflexivity. Qed.
Lemma d_glob : forall r, In r rks -> h_diag kn Q DA DB DC al b r k (ha_panel Q DA r k) (hb_panel Q DA DB DC r k) = flat_map (fun ij => [djob r ij]) (gpairs k (k + 1) r).
Proof using GAA GAB ECR ECC EBR NTR NTC NTK TK OKc SZR SZC Lk.
  intros r R. unfold h_diag. cbv zeta. rewrite !nxR by exact R. rewrite flat_one.
  transitivity (map (fun l => djob r (t_gl Q DA r Row (fst l), t_gl Q DB r Col (snd l))) (range2d (t_nx Q DA r Row k) (t_nx Q DA r Row (k + 1)) 0 (lnt Q DC r Col))).
  - apply map_ext_in. intros l Il. assert (I2 : In (t_gl Q DA r Row (fst l), t_gl Q DB r Col (snd l)) (gpairs k (k + 1) r)) by (rewrite <- (range_glob r k (k + 1) R) by lia; apply (in_map (fun l => (t_gl Q DA r Row (fst l), t_gl Q DB r Col (snd l)))); exact Il).
    apply gpairs_in in I2 as [Ii Ij]. apply rows_in in Ii as [Li _]. apply cols_in in Ij as [Lj _].
    unfold djob. cbn [fst snd]. rewrite glR, glC by exact R. rewrite szR, szC by (try assumption; lia). rewrite (tile_ext r _ _ _ (ha_eq r R)), (tile_ext r _ _ _ (hb_eq r R)). reflexivity.
  - rewrite (map_glob (fun i j => djob r (i, j))) by (try exact R; lia). apply map_ext. intros [i j]. reflexivity.
Qed.
Lemma hA_tile : forall r i, In r rks -> k <= i < NR -> oR i = co Row r -> p_tile r (pA r) i = DA_ r i k \/ p_tile r (pA r) i = Tid r (mA k) i 0.
Proof using. intros r i R Li O. rewrite (npan_tile P Q LsA) by assumption. destruct (_ =? _); auto. Qed.
Lemma hB_tile : forall r j, In r rks -> 0 <= j < NC -> oC j = co Col r -> p_tile r (pB r) j = DB_ r k j \/ p_tile r (pB r) j = Tid r (mB k) j 0.
Proof using. intros r j R Lj O. rewrite (npan_tile P Q LsB) by assumption. destruct (_ =? _); auto. Qed.
Lemma hA_facts : forall r i, In r rks -> k <= i < NR -> oR i = co Row r -> t_rank (p_tile r (pA r) i) = r /\ t_mat (p_tile r (pA r) i) <> 2 /\ t_mat (p_tile r (pA r) i) <> mC k.
Proof using. intros r i R Li O. pose proof (idsG k) as ID. destruct (hA_tile r i R Li O) as [-> | ->]; cbn [t_rank t_mat DA_]; repeat split; lia. Qed.
Lemma hB_facts : forall r i, In r rks -> 0 <= i < NC -> oC i = co Col r -> t_rank (p_tile r (pB r) i) = r /\ t_mat (p_tile r (pB r) i) <> 2 /\ t_mat (p_tile r (pB r) i) <> mC k.
Proof using. intros r i R Li O. pose proof (idsG k) as ID. destruct (hB_tile r i R Li O) as [-> | ->]; cbn [t_rank t_mat DB_]; repeat split; lia. Qed.
Lemma d_props : forall st, Forall (event_ok mem rks) eHD /\
  (forall j, 0 <= j < NC -> erun mem eHD st (DC_ (wC k j) k j) = tval (djob (wC k j) (k, j)) st) /\
  (forall x, (forall j, 0 <= j < NC -> x <> DC_ (wC k j) k j) -> erun mem eHD st x = st x).
Proof using GAA GAB Lk.
  intros st. destruct (phase_each P Q HP HQ (gpairs k (k + 1)) djob st) as (A & B & C).
  - intros r R. apply gpairs_nd.
  - intros r [i j] t R Ij. apply gpairs_in in Ij as [Ii Ij]. apply rows_in in Ii as [Li Oi]. apply cols_in in Ij as [Lj Oj]. cbn [djob tj_in tj_out jhemm fst snd].
    intros [[<-|[<-|[]]]| ->]; [apply hA_facts; try assumption; lia|apply hB_facts; assumption|reflexivity].
  - intros r [i j] [i' j'] R _ _ E. cbn in E. injection E as -> ->. reflexivity.
  - intros r [i j] [i' j'] R Ij _. apply gpairs_in in Ij as [Ii Ij]. apply rows_in in Ii as [Li Oi]. apply cols_in in Ij as [Lj Oj]. cbn [djob tj_in tj_out jhemm fst snd]. intros [E|[E|[]]].
    + apply (proj1 (proj2 (hA_facts r i R ltac:(lia) Oi))). rewrite E. reflexivity.
    + apply (proj1 (proj2 (hB_facts r j R Lj Oj))). rewrite E. reflexivity.
  - split; [apply elocal_ok; exact A|]. split.
    + intros j Lj. apply (B (wC k j) (k, j) (wC_in k j)). apply gpairs_in. rewrite rows_in, cols_in. destruct (wC_co k j) as [-> ->]. repeat split; auto; lia.
    + intros x X. apply C. intros r [i j] R Ij. cbn [djob tj_out jhemm fst snd]. intros <-. apply gpairs_in in Ij as [Ii Ij]. apply rows_in in Ii as [Li O1]. apply cols_in in Ij as [Lj O2].
      assert (i = k) by lia. subst i. apply (X j Lj). rewrite (wC_r r k j R O1 O2). reflexivity.
Qed.

(** the updates below the diagonal *)
Definition cpt (r j : Z) : tid := Tid r (mC k) j 0.
Definition ljobs (r : Z) (ij : Z * Z) : list (tjob (mat K)) :=
  [jgemm kn NoTrans NoTrans (tl_sz tr (fst ij)) (tl_sz tc (snd ij)) (tl_sz tr k) al (p_tile r (pA r) (fst ij)) (p_tile r (pB r) (snd ij)) b (DC_ r (fst ij) (snd ij));
   jgemm kn ConjTrans NoTrans (tl_sz tr k) (tl_sz tc (snd ij)) (tl_sz tr (fst ij)) al (p_tile r (pA r) (fst ij)) (DB_ r (fst ij) (snd ij)) f1 (cpt r (snd ij))].
Definition lall (r : Z) : list (tjob (mat K)) := map (fun j => jset0 (cpt r j)) (colsof r) ++ flat_map (ljobs r) (gpairs (k + 1) NR r).
Definition eHL : list (event (mat K)) := elocal P Q lall.
Lemma nx_colsC : forall r, In r rks -> map (t_gl Q DC r Col) (zrange (t_nx Q DC r Col 0) (t_nx Q DC r Col (nrt Q DC r Col))) = colsof r.
Proof using GAA GAB ECC NTC OKc.
  intros r R. rewrite (map_ext (t_gl Q DC r Col) (t_gl Q DB r Col)) by (intros l; apply glC; exact R). rewrite !nxC by exact R.
  assert (E : nrt Q DC r Col = NC) by (unfold nrt; rewrite axC by exact R; apply nrtC; exact R). rewrite E.
  pose proof NCp. apply (tiles_here P Q LsB DB ntB GAB r Col 0 NC R ltac:(lia) ltac:(rewrite NTC; lia)).
Qed.
Lemma l_glob : forall r, In r rks -> h_lower kn Q DA DB DC al b r k (ha_panel Q DA r k) (hb_panel Q DA DB DC r k) (hc_panel Q DC r k) = lall r.
Proof using GAA GAB ECR ECC EBR NTR NTC NTK TK OKc SZR SZC SZK Lk.
  intros r R. unfold h_lower, lall. cbv zeta. cbn [hc_panel fresh_panel p_lo p_hi]. f_equal.
  - rewrite <- (nx_colsC r R), map_map. reflexivity.
  - rewrite nxR by exact R. rewrite lntR by exact R.
    transitivity (flat_map (fun l => ljobs r (t_gl Q DA r Row (fst l), t_gl Q DB r Col (snd l))) (range2d (t_nx Q DA r Row (k + 1)) (t_nx Q DA r Row NR) 0 (lnt Q DC r Col))).
    + apply flat_map_ext_in. intros l Il. assert (I2 : In (t_gl Q DA r Row (fst l), t_gl Q DB r Col (snd l)) (gpairs (k + 1) NR r)) by (rewrite <- (range_glob r (k + 1) NR R) by lia; apply (in_map (fun l => (t_gl Q DA r Row (fst l), t_gl Q DB r Col (snd l)))); exact Il).
      apply gpairs_in in I2 as [Ii Ij]. apply rows_in in Ii as [Li _]. apply cols_in in Ij as [Lj _].
      unfold ljobs. cbn [fst snd]. rewrite !glR, !glC, !glBR by exact R. rewrite szR, szC, szKr, SZR by (try assumption; lia). rewrite (tile_ext r _ _ _ (ha_eq r R)), (tile_ext r _ _ _ (hb_eq r R)). reflexivity.
    + rewrite (flat_glob (fun i j => ljobs r (i, j))) by (try exact R; lia). apply flat_map_ext. intros [i j]. reflexivity.
Qed.
Lemma l_own : forall r, In r rks -> own_tiles r (lall r).
Proof using.
  intros r R. apply own_app.
  - intros jb t I0. apply in_map_iff in I0 as (j & <- & _). intros [[]| ->]. reflexivity.
  - apply own_flat. intros [i j] Ij jb t I0. apply gpairs_in in Ij as [Ii Ij]. apply rows_in in Ii as [Li Oi]. apply cols_in in Ij as [Lj Oj]. cbn [ljobs fst snd] in I0.
    destruct I0 as [<-|[<-|[]]]; cbn [jgemm tj_in tj_out]; (intros [[<-|[<-|[]]]| ->]; [apply (hA_facts r i R ltac:(lia) Oi)|try (apply hB_facts; assumption); reflexivity|reflexivity]).
Qed.
Definition gterm (st : tstore (mat K)) (r i j p q : Z) : F K := mmul (tl_sz tr i) (opm ConjTrans (st (p_tile r (pA r) i))) (st (DB_ r i j)) p q.
Lemma l_rank : forall r (st : tstore (mat K)), In r rks ->
  (forall i j, In (i, j) (gpairs (k + 1) NR r) -> trun (lall r) st (DC_ r i j) = gemm kn NoTrans NoTrans (tl_sz tr i) (tl_sz tc j) (tl_sz tr k) al (st (p_tile r (pA r) i)) (st (p_tile r (pB r) j)) b (st (DC_ r i j))) /\
  (forall j p q, In j (colsof r) -> 0 <= p < tl_sz tr k -> 0 <= q < tl_sz tc j -> trun (lall r) st (cpt r j) p q = fmul al (lsum (rowsof (k + 1) NR r) (fun i => gterm st r i j p q))).
Proof using KO Lk.
  intros r st R. unfold lall. rewrite trun_app.
  destruct (run_each_in (colsof r) (fun j => jset0 (cpt r j)) st (cols_nd r)) as [Z1 Z2].
  { intros a c _ _ E. unfold jset0, cpt in E. cbn [tj_out] in E. injection E as E. exact E. }
  { intros a c _ _ []. }
  rewrite flat_one in Z1, Z2. set (s0 := trun (map (fun j => jset0 (cpt r j)) (colsof r)) st) in *.
  assert (S0 : forall x, t_mat x <> mC k -> s0 x = st x) by (intros x X; apply Z2; intros j _ E; apply X; rewrite <- E; reflexivity).
  pose proof (idsG k) as ID.
  set (G := gpairs (k + 1) NR r).
  set (I := fun (l : list (Z * Z)) (s' : tstore (mat K)) =>
    (forall i j, In (i, j) l -> s' (DC_ r i j) = gemm kn NoTrans NoTrans (tl_sz tr i) (tl_sz tc j) (tl_sz tr k) al (st (p_tile r (pA r) i)) (st (p_tile r (pB r) j)) b (st (DC_ r i j))) /\
    (forall j p q, In j (colsof r) -> 0 <= p < tl_sz tr k -> 0 <= q < tl_sz tc j -> s' (cpt r j) p q = gsum l (fun x => if snd x =? j then fmul al (gterm st r (fst x) j p q) else f0)) /\
    (forall x, t_mat x <> mC k -> (forall i j, In (i, j) l -> x <> DC_ r i j) -> s' x = st x)).
  assert (H : I G (trun (flat_map (ljobs r) G) s0)).
  { apply (run_list_inv (ljobs r) G I); unfold I.
    - split; [intros i j []|]. split; [|intros x X _; apply S0; exact X]. intros j p q Ij Lp Lq. change (cpt r j) with (tj_out (jset0 (K:=K) (cpt r j))). rewrite (Z1 j Ij). reflexivity.
    - intros l1 [i j] l2 s1 E (I1 & I2 & I3). pose proof (gpairs_nd (k + 1) NR r) as ND. fold G in ND. rewrite E in ND. apply NoDup_remove in ND as [_ NI].
      assert (NJ : ~ In (i, j) l1) by (intros X; apply NI; apply in_or_app; left; exact X).
      assert (Ig : In (i, j) G) by (rewrite E; apply in_or_app; right; left; reflexivity). unfold G in Ig. apply gpairs_in in Ig as [Ii Ij]. pose proof Ij as Ij0. apply rows_in in Ii as [Li Oi]. apply cols_in in Ij as [Lj Oj].
      destruct (hA_facts r i R ltac:(lia) Oi) as (_ & HA1 & HA2). destruct (hB_facts r j R Lj Oj) as (_ & HB1 & HB2).
      assert (DCN : forall y i j, t_mat y <> 2 -> y <> DC_ r i j) by (intros y i' j' Y X; apply Y; rewrite X; reflexivity).
      assert (F3 : forall y, t_mat y <> 2 -> t_mat y <> mC k -> s1 y = st y) by (intros y Y1 Y2; apply I3; [exact Y2|intros; apply DCN; exact Y1]).
      unfold ljobs. cbn [fst snd]. rewrite !trun_cons. change (trun [] ?z) with z.
      set (jb1 := jgemm kn NoTrans NoTrans _ _ _ _ _ _ _ (DC_ r i j)). set (s2 := texec s1 jb1).
      assert (T1 : s2 (DC_ r i j) = gemm kn NoTrans NoTrans (tl_sz tr i) (tl_sz tc j) (tl_sz tr k) al (st (p_tile r (pA r) i)) (st (p_tile r (pB r) j)) b (st (DC_ r i j))).
      { unfold s2, texec, jb1. cbn [jgemm tj_out]. rewrite tset_eq. unfold tval. cbn [jgemm tj_in tj_fun tj_out map in2]. rewrite !F3 by assumption. rewrite (I3 (DC_ r i j)); [reflexivity|cbn [DC_ t_mat]; lia|].
        intros i' j' I' X. unfold DC_ in X. injection X as <- <-. contradiction. }
      assert (T2 : forall y, y <> DC_ r i j -> s2 y = s1 y) by (intros y Y; unfold s2, texec, jb1; cbn [jgemm tj_out]; apply tset_neq; congruence).
      set (jb2 := jgemm kn ConjTrans NoTrans _ _ _ _ _ _ _ (cpt r j)).
      assert (T3 : forall y, y <> cpt r j -> texec s2 jb2 y = s2 y) by (intros y Y; unfold texec, jb2; cbn [jgemm tj_out]; apply tset_neq; congruence).
      assert (DCP : forall a c c', DC_ r a c <> cpt r c') by (intros a c c' X; unfold DC_, cpt in X; apply (f_equal t_mat) in X; cbn [t_mat] in X; lia).
      split; [|split].
      + intros i' j' I0. rewrite T3 by apply DCP. apply in_app_or in I0 as [I0|[X|[]]].
        * rewrite T2; [apply I1; exact I0|]. intros X. unfold DC_ in X. injection X as -> ->. contradiction.
        * injection X as <- <-. exact T1.
      + intros j' p q Ij' Lp Lq. rewrite gsum_app. unfold gsum at 2. cbn [fold_right fst snd]. destruct (Z.eqb_spec j j') as [<-|N].
        * unfold texec, jb2. cbn [jgemm tj_out]. rewrite tset_eq. unfold tval. cbn [jgemm tj_in tj_fun tj_out map in2].
          rewrite (gemm_ok kn KO _ _ _ _ _ _ _ _ _ _ p q Lp Lq). rewrite (T2 (cpt r j)) by (intros X; symmetry in X; apply DCP in X; exact X). rewrite (I2 j p q Ij' Lp Lq).
          assert (EA : s2 (p_tile r (pA r) i) = st (p_tile r (pA r) i)) by (rewrite T2 by (apply DCN; exact HA1); apply F3; assumption).
          assert (EB : s2 (DB_ r i j) = st (DB_ r i j)) by (rewrite T2 by (unfold DB_, DC_; congruence); apply F3; cbn [DB_ t_mat]; lia).
          rewrite EA, EB. unfold gterm. change (opm NoTrans (st (DB_ r i j))) with (st (DB_ r i j)). ring.
        * rewrite T3 by (intros X; unfold cpt in X; injection X as X; congruence). rewrite T2 by (intros X; symmetry in X; apply DCP in X; exact X). rewrite (I2 j' p q Ij' Lp Lq). ring.
      + intros x X1 X2. rewrite T3 by (intros ->; apply X1; reflexivity). rewrite T2 by (apply X2; apply in_or_app; right; left; reflexivity). apply I3; [exact X1|]. intros i' j' I0. apply X2. apply in_or_app. left. exact I0. }
  destruct H as (H1 & H2 & _). split; [exact H1|]. intros j p q Ij Lp Lq. rewrite (H2 j p q Ij Lp Lq). unfold G, gpairs. rewrite (gsum_left (rowsof (k + 1) NR r) (colsof r) j (fun i => fmul al (gterm st r i j p q)) (cols_nd r) Ij). apply lsum_scale.
Qed.

Lemma l_props : forall st, Forall (event_ok mem rks) eHL /\
  (forall i j, k < i < NR -> 0 <= j < NC -> erun mem eHL st (DC_ (wC i j) i j) =
     gemm kn NoTrans NoTrans (tl_sz tr i) (tl_sz tc j) (tl_sz tr k) al (st (p_tile (wC i j) (pA (wC i j)) i)) (st (p_tile (wC i j) (pB (wC i j)) j)) b (st (DC_ (wC i j) i j))) /\
  (forall r j p q, In r rks -> 0 <= j < NC -> oC j = co Col r -> 0 <= p < tl_sz tr k -> 0 <= q < tl_sz tc j -> erun mem eHL st (cpt r j) p q = fmul al (lsum (rowsof (k + 1) NR r) (fun i => gterm st r i j p q))) /\
  (forall x, t_mat x <> mC k -> (forall i j, k < i < NR -> 0 <= j < NC -> x <> DC_ (wC i j) i j) -> erun mem eHL st x = st x).
Proof using GAA GAB KO Lk.
  intros st. split; [apply elocal_ok; exact l_own|]. split; [|split].
  - intros i j Li Lj. unfold eHL. rewrite (elocal_at P Q HP HQ lall st (DC_ (wC i j) i j) (wC i j) l_own (wC_in i j) eq_refl). apply l_rank; [apply wC_in|]. apply gpairs_in. rewrite rows_in, cols_in. destruct (wC_co i j) as [-> ->]. repeat split; lia.
  - intros r j p q R Lj Oj Lp Lq. unfold eHL. rewrite (elocal_at P Q HP HQ lall st (cpt r j) r l_own R eq_refl). apply l_rank; [exact R|apply cols_in; auto|exact Lp|exact Lq].
  - intros x X1 X2. unfold eHL. apply (elocal_frame P Q HP HQ lall st x l_own). intros r jb R I0. unfold lall in I0. apply in_app_or in I0 as [I0|I0].
    + apply in_map_iff in I0 as (j & <- & _). intros <-. apply X1. reflexivity.
    + apply in_flat_map in I0 as ([i j] & Ij & I0). apply gpairs_in in Ij as [Ii Ij]. apply rows_in in Ii as [Li Oi]. apply cols_in in Ij as [Lj Oj]. unfold ljobs in I0. cbn [fst snd] in I0. destruct I0 as [<-|[<-|[]]]; cbn [jgemm tj_out].
      * intros <-. apply (X2 i j); [lia|exact Lj|]. rewrite (wC_r r i j R Oi Oj). reflexivity.
      * intros <-. apply X1. reflexivity.
Qed.

(** the reductions *)
Definition hdev (j : Z) : event (mat K) := ereduce P Q (cm Col (oC j)) (wC k j) (fun r => cpt r j).
Definition eHR : list (event (mat K)) := if P =? 1 then [] else flat_map (fun j => [hdev j]) (zrange 0 NC).
Lemma cmk : forall a c, mk Q Col a c = mk Q Row c a. Proof using. reflexivity. Qed.
Lemma r_proj : forall r, In r rks -> h_reduce P Q DA DC r k (hc_panel Q DC r k) = proj mem r eHR.
Proof using GAA GAB ECC NTC OKc Lk.
  intros r R. unfold h_reduce, eHR. destruct (P =? 1); [reflexivity|]. rewrite (proj_flat P Q). rewrite ownR by (try exact R; lia).
  rewrite (flat_map_ext_in _ (fun j => if oC j =? co Col r then [ACom (if r =? wC k j then rrecv P Q (cm Col (oC j)) (wC k j) (cpt r j) else rsend (cm Col (oC j)) (wC k j) (cpt r j))] else []) (zrange 0 NC)).
  2:{ intros j _. unfold hdev. rewrite ereduce_proj. rewrite (member_cm _ _ _ _ _ GAA) by exact R. reflexivity. }
  assert (FF : forall (h : Z -> list (act (mat K))) (c : Z -> bool) l, flat_map (fun j : Z => if c j then h j else []) l = flat_map h (filter c l)).
  { clear. intros h c l. induction l as [|x l IH]; [reflexivity|]. cbn. destruct (c x); cbn; rewrite IH; reflexivity. }
  rewrite FF. change (filter (fun j => oC j =? co Col r) (zrange 0 NC)) with (colsof r). rewrite <- (nx_colsC r R), flat_map_map. cbn [hc_panel fresh_panel p_lo p_hi].
  apply flat_map_ext_in. intros l Il. assert (Ij : In (t_gl Q DC r Col l) (colsof r)) by (rewrite <- (nx_colsC r R); apply in_map; exact Il).
  apply cols_in in Ij as [_ Oj]. cbv zeta. rewrite cmk. rewrite Oj. assert (WE : wC k (t_gl Q DC r Col l) = mk Q Row (oR k) (co Col r)) by (unfold wC; rewrite Oj; reflexivity). rewrite <- WE.
  f_equal. f_equal. assert (EB : (r =? wC k (t_gl Q DC r Col l)) = (co Row r =? oR k)).
  { destruct (Z.eqb_spec (co Row r) (oR k)) as [E|E].
    - rewrite (wC_r r k _ R); [apply Z.eqb_refl|congruence|exact Oj].
    - apply Z.eqb_neq. intros X. apply E. rewrite X. apply wC_co. }
  rewrite EB. destruct (_ =? _); reflexivity.
Qed.
Lemma r_ok : Forall (event_ok mem rks) eHR.
Proof using GAA. unfold eHR. destruct (_ =? _); [constructor|]. apply forall_flat. intros j _. constructor; [|constructor]. apply ereduce_ok; [exact HP|exact HQ|]. intros r _. reflexivity. Qed.
Lemma cpt_inj : forall r j r' j', cpt r j = cpt r' j' -> r = r' /\ j = j'.
Proof using. intros r j r' j' E. unfold cpt in E. injection E as E1 E2. auto. Qed.
Lemma memC : forall a, 0 <= a < gs P Q Col -> mem (cm Col a) = map (fun x => mk Q Row x a) (zrange 0 P).
Proof using. intros a. cbn. intros L. rewrite (proj2 (Z.leb_le 0 a)), (proj2 (Z.ltb_lt _ _)) by lia. reflexivity. Qed.
Lemma r_run : forall st : tstore (mat K),
  (forall j p q, 0 <= j < NC -> erun mem eHR st (cpt (wC k j) j) p q = lsum (zrange 0 P) (fun x => st (cpt (mk Q Row x (oC j)) j) p q)) /\
  (forall x, t_mat x <> mC k -> erun mem eHR st x = st x).
Proof using GAA GAB.
  intros st. unfold eHR. destruct (Z.eqb_spec P 1) as [E1|E1].
  - split; [|reflexivity]. intros j p q Lj. cbn [erun fold_left]. rewrite E1. change (zrange 0 1) with [0]. cbn [lsum fold_right]. assert (E : wC k j = mk Q Row 0 (oC j)).
    { unfold wC. f_equal. pose proof (rR k) as X. cbn [gs] in X. lia. }
    rewrite E. ring.
  - assert (G : forall l, NoDup l -> (forall j, In j l -> erun mem (flat_map (fun j => [hdev j]) l) st (cpt (wC k j) j) = msum (map (fun q => st (cpt q j)) (mem (cm Col (oC j))))) /\
      (forall x, (forall j, In j l -> x <> cpt (wC k j) j) -> erun mem (flat_map (fun j => [hdev j]) l) st x = st x)).
    { induction l as [|j l IH] using rev_ind; intros ND; [split; [intros j []|reflexivity]|]. apply NoDup_remove in ND as [ND NI]. rewrite app_nil_r in ND, NI. destruct (IH ND) as [I1 I2].
      rewrite flat_map_app. cbn [flat_map app]. rewrite erun_app. set (s1 := erun mem (flat_map (fun j => [hdev j]) l) st) in *. cbn [erun fold_left].
      assert (FR : forall x, x <> cpt (wC k j) j -> eexec mem s1 (hdev j) x = s1 x) by (intros x X; apply reduce_frame; left; exact X). split.
      - intros j' Ij'. apply in_app_or in Ij' as [Ij'|[<-|[]]].
        + rewrite FR; [apply I1; exact Ij'|]. intros E. apply cpt_inj in E as [_ ->]. contradiction.
        + unfold hdev. rewrite (reduce_root P Q (cm Col (oC j)) (wC k j) (fun r => cpt r j) s1).
          * f_equal. apply map_ext. intros q. apply I2. intros j' Ij' E. apply cpt_inj in E as [_ ->]. contradiction.
          * apply (in_cm P Q HP HQ). split; [apply wC_in|apply wC_co].
          * reflexivity.
      - intros x X. rewrite FR; [apply I2; intros j' Ij'; apply X; apply in_or_app; left; exact Ij'|]. apply X. apply in_or_app. right. left. reflexivity. }
    destruct (G (zrange 0 NC) (zrange_NoDup 0 NC)) as [G1 G2]. split.
    + intros j p q Lj. rewrite G1 by (apply in_zrange; exact Lj). rewrite msum_lsum. rewrite memC by apply rC. generalize (zrange 0 P). intros l. unfold lsum. induction l as [|x l IH]; cbn [map fold_right]; [reflexivity|]. rewrite IH. reflexivity.
    + intros x X. apply G2. intros j _ ->. apply X. reflexivity.
Qed.

(** adding the sums *)
Definition xjob (r : Z) (ij : Z * Z) : tjob (mat K) := jadd f1 (cpt r (snd ij)) (DC_ r (fst ij) (snd ij)).
Definition eHX : list (event (mat K)) := elocal P Q (fun r => flat_map (fun ij => [xjob r ij]) (gpairs k (k + 1) r)).
Lemma x_glob : forall r, In r rks -> h_add Q DC r k (hc_panel Q DC r k) = flat_map (fun ij => [xjob r ij]) (gpairs k (k + 1) r).
Proof using GAA GAB ECR ECC NTR NTC OKc Lk.
  intros r R. unfold h_add. rewrite !nxR by exact R. rewrite flat_one.
  transitivity (map (fun l => xjob r (t_gl Q DA r Row (fst l), t_gl Q DB r Col (snd l))) (range2d (t_nx Q DA r Row k) (t_nx Q DA r Row (k + 1)) 0 (lnt Q DC r Col))).
  - apply map_ext. intros l. unfold xjob. cbn [fst snd]. rewrite glR, glC by exact R. reflexivity.
  - rewrite (map_glob (fun i j => xjob r (i, j))) by (try exact R; lia). apply map_ext. intros [i j]. reflexivity.
Qed.
Lemma x_props : forall st, Forall (event_ok mem rks) eHX /\
  (forall j, 0 <= j < NC -> erun mem eHX st (DC_ (wC k j) k j) = tval (xjob (wC k j) (k, j)) st) /\
  (forall x, (forall j, 0 <= j < NC -> x <> DC_ (wC k j) k j) -> erun mem eHX st x = st x).
Proof using GAA GAB Lk.
  intros st. pose proof (idsG k) as ID. destruct (phase_each P Q HP HQ (gpairs k (k + 1)) xjob st) as (A & B & C).
  - intros r R. apply gpairs_nd.
  - intros r [i j] t R Ij. cbn [xjob tj_in tj_out jadd fst snd]. intros [[<-|[]]| ->]; reflexivity.
  - intros r [i j] [i' j'] R _ _ E. cbn in E. injection E as -> ->. reflexivity.
  - intros r [i j] [i' j'] R Ij _. cbn [xjob tj_in tj_out jadd fst snd]. intros [E|[]]. apply (f_equal t_mat) in E. cbn [cpt DC_ t_mat] in E. lia.
  - split; [apply elocal_ok; exact A|]. split.
    + intros j Lj. apply (B (wC k j) (k, j) (wC_in k j)). apply gpairs_in. rewrite rows_in, cols_in. destruct (wC_co k j) as [-> ->]. repeat split; auto; lia.
    + intros x X. apply C. intros r [i j] R Ij. cbn [xjob tj_out jadd fst snd]. intros <-. apply gpairs_in in Ij as [Ii Ij]. apply rows_in in Ii as [Li O1]. apply cols_in in Ij as [Lj O2].
      assert (i = k) by lia. subst i. apply (X j Lj). rewrite (wC_r r k j R O1 O2). reflexivity.
Qed.

Definition e_hermitian : list (event (mat K)) := eHA ++ eHB ++ eHD ++ (if k <? NR - 1 then eHL ++ eHR ++ eHX else []).
Lemma hermitian_proj : forall r, In r rks -> h_step kn P Q DA DB DC al be r k = proj mem r e_hermitian.
Proof using GAA GAB ECR ECC EBR NTR NTC NTK TK OKc SZR SZC SZK Lk.
  intros r R. unfold h_step, e_hermitian. cbv zeta. rewrite !(proj_app' P Q). rewrite ownKA, ownR by (try exact R; lia). rewrite nrtK by exact R.
  rewrite (bc_ext P Q DA Row r _ _ _ (ha_eq r R)), (bc_ext P Q DB Col r _ _ _ (hb_eq r R)). unfold eHA, eHB.
  rewrite (bc_proj P Q LsA DA ntA GAA); [|apply rKA|apply rngHA|exact R]. rewrite (bc_proj P Q LsB DB ntB GAB); [|apply rR|apply rngB|exact R].
  unfold eHD. rewrite (elocal_proj P Q HP HQ) by exact R. rewrite d_glob by exact R. rewrite TK. destruct (k <? NR - 1); [|reflexivity].
  rewrite !(proj_app' P Q). unfold eHL, eHX. rewrite !(elocal_proj P Q HP HQ) by exact R. rewrite l_glob, x_glob, r_proj by exact R. reflexivity.
Qed.
Lemma hermitian_ok : Forall (event_ok mem rks) e_hermitian.
Proof using GAA GAB KO Lk.
  unfold e_hermitian. apply Forall_app. split; [apply (bc_ok P Q LsA DA ntA GAA); apply rKA|]. apply Forall_app. split; [apply (bc_ok P Q LsB DB ntB GAB); apply rR|].
  apply Forall_app. split; [apply (d_props (fun _ _ _ => f0))|]. destruct (k <? NR - 1); [|constructor]. apply Forall_app. split; [apply (l_props (fun _ _ _ => f0))|]. apply Forall_app. split; [apply r_ok|apply (x_props (fun _ _ _ => f0))].
Qed.
(** one iteration, seen on the matrices *)
Lemma hermitian_run : forall st,
  (forall j p q, 0 <= j < NC -> 0 <= p < tl_sz tr k -> 0 <= q < tl_sz tc j -> dabs (erun mem e_hermitian st) (MC k j) p q =
     fadd (hemm kn Left Lower (tl_sz tr k) (tl_sz tc j) al (dabs st (MA k k)) (dabs st (MB k j)) b (dabs st (MC k j)) p q)
          (fmul al (lsum (zrange (k + 1) NR) (fun i => mmul (tl_sz tr i) (opm ConjTrans (dabs st (MA i k))) (dabs st (MB i j)) p q)))) /\
  (forall i j, k < i < NR -> 0 <= j < NC -> dabs (erun mem e_hermitian st) (MC i j) =
     gemm kn NoTrans NoTrans (tl_sz tr i) (tl_sz tc j) (tl_sz tr k) al (dabs st (MA i k)) (dabs st (MB k j)) b (dabs st (MC i j))) /\
  (forall x, 0 <= t_mat x < 3 -> (t_mat x = 2 -> k <= t_row x < NR -> 0 <= t_col x < NC -> False) -> dabs (erun mem e_hermitian st) x = dabs st x).
Proof using GAA GAB KO EBR NTR NTC OKc TK Lk.
  intros st. pose proof (idsG k) as ID. unfold e_hermitian. rewrite !erun_app.
  destruct (bcv P Q LsA DA ntA GAA (mA k) k NR Row (oKA k) (fun i => Tid 0 0 i k) (rKA k) rngHA st) as [A1 A2]. fold eHA in A1, A2. set (s1 := erun mem eHA st) in *.
  destruct (bcv P Q LsB DB ntB GAB (mB k) 0 NC Col (oR k) (fun j => Tid 0 1 k j) (rR k) rngB s1) as [B1 B2]. fold eHB in B1, B2. set (s2 := erun mem eHB s1) in *.
  destruct (d_props s2) as (_ & D1 & D2). set (s3 := erun mem eHD s2) in *.
  assert (FR : forall x, 0 <= t_mat x < 3 -> s2 x = st x) by (intros x X; rewrite B2, A2 by lia; reflexivity).
  assert (EA : forall r i, In r rks -> k <= i < NR -> oR i = co Row r -> s2 (p_tile r (pA r) i) = dabs st (MA i k)).
  { intros r i R Li O. rewrite B2 by (destruct (hA_tile r i R Li O) as [-> | ->]; cbn [DA_ t_mat]; lia). rewrite A1 by assumption. reflexivity. }
  assert (EB : forall r j, In r rks -> 0 <= j < NC -> oC j = co Col r -> s2 (p_tile r (pB r) j) = dabs st (MB k j)).
  { intros r j R Lj O. rewrite B1 by assumption. rewrite A2 by (cbn [t_mat at_]; lia). unfold dabs. cbn [t_mat MB t_row t_col]. change (1 =? 0) with false. change (1 =? 1) with true. cbv iota. rewrite wB_wC by lia. reflexivity. }
  assert (N3 : forall x, t_mat x <> 2 -> s3 x = s2 x) by (intros x X; apply D2; intros j _ ->; apply X; reflexivity).
  assert (H3 : forall j, 0 <= j < NC -> s3 (DC_ (wC k j) k j) = hemm kn Left Lower (tl_sz tr k) (tl_sz tc j) al (dabs st (MA k k)) (dabs st (MB k j)) b (dabs st (MC k j))).
  { intros j Lj. rewrite D1 by exact Lj. destruct (wC_co k j) as [C1 C2]. unfold tval. cbn [djob jhemm tj_in tj_out tj_fun map in2 fst snd].
    rewrite EA by (try apply wC_in; try congruence; lia). rewrite EB by (try apply wC_in; try congruence; lia). rewrite FR by (cbn [DC_ t_mat]; lia). reflexivity. }
  assert (DCi : forall i j i' j', DC_ (wC i j) i j = DC_ (wC i' j') i' j' -> i = i' /\ j = j') by (intros i j i' j' E; unfold DC_ in E; injection E; auto).
  destruct (Z.ltb_spec k (NR - 1)) as [LT|GE].
  - rewrite !erun_app. destruct (l_props s3) as (_ & L1 & L2 & L3). set (s4 := erun mem eHL s3) in *. destruct (r_run s4) as [R1 R2]. set (s5 := erun mem eHR s4) in *. destruct (x_props s5) as (_ & X1 & X2). set (s6 := erun mem eHX s5) in *.
    assert (EA3 : forall r i, In r rks -> k <= i < NR -> oR i = co Row r -> s3 (p_tile r (pA r) i) = dabs st (MA i k)).
    { intros r i R Li O. rewrite N3 by (apply hA_facts; assumption). apply EA; assumption. }
    assert (NC2 : forall x, t_mat x <> 2 -> forall i j, x <> DC_ (wC i j) i j) by (intros x X i j ->; apply X; reflexivity).
    split; [|split].
    + intros j p q Lj Lp Lq. change (dabs s6 (MC k j)) with (s6 (DC_ (wC k j) k j)). rewrite X1 by exact Lj. unfold tval. cbn [xjob jadd tj_in tj_out tj_fun map in1 fst snd].
      rewrite (R2 (DC_ (wC k j) k j)) by (cbn [DC_ t_mat]; lia). rewrite (L3 (DC_ (wC k j) k j)) by (try (cbn [DC_ t_mat]; lia); intros i' j' Li' _ E; apply DCi in E; lia). rewrite H3 by exact Lj.
      f_equal. rewrite R1 by exact Lj.
      transitivity (lsum (zrange 0 P) (fun x => fmul al (lsum (filter (fun i => oR i =? x) (zrange (k + 1) NR)) (fun i => mmul (tl_sz tr i) (opm ConjTrans (dabs st (MA i k))) (dabs st (MB i j)) p q)))).
      2:{ rewrite lsum_scale. f_equal. apply (lsum_owner (fun i => oR i)). intros i _. apply rR. }
      transitivity (lsum (zrange 0 P) (fun x => s4 (cpt (mk Q Row x (oC j)) j) p q)); [ring|].
      apply lsum_ext. intros x Ix. apply in_zrange in Ix. destruct (co_mk P Q HP HQ Row x (oC j) Ix (rC j)) as [Y1 Y2].
      assert (RX : In (mk Q Row x (oC j)) rks) by (apply (mk_rank _ _ _ _ _ GAA); [exact Ix|apply rC]).
      rewrite L2; [|exact RX|exact Lj|symmetry; exact Y2|exact Lp|exact Lq]. f_equal. unfold rowsof. rewrite Y1. apply lsum_ext. intros i Ii. apply filter_In in Ii as [Ii Oi]. apply in_zrange in Ii. apply Z.eqb_eq in Oi.
      unfold gterm. rewrite EA3 by (try exact RX; try congruence; lia). rewrite N3 by (cbn [DB_ t_mat]; lia). rewrite FR by (cbn [DB_ t_mat]; lia).
      assert (E : mk Q Row x (oC j) = wB i j) by (rewrite wB_wC by lia; unfold wC; rewrite Oi; reflexivity). rewrite E. reflexivity.
    + intros i j Li Lj. change (dabs s6 (MC i j)) with (s6 (DC_ (wC i j) i j)). destruct (wC_co i j) as [C1 C2]. rewrite X2 by (intros j' _ E; apply DCi in E; lia). rewrite R2 by (cbn [DC_ t_mat]; lia). rewrite L1 by assumption.
      rewrite EA3 by (try apply wC_in; try congruence; lia). rewrite N3 by (apply hB_facts; [apply wC_in|exact Lj|congruence]). rewrite EB by (try apply wC_in; try congruence; lia).
      rewrite D2 by (intros j' _ E; apply DCi in E; lia). rewrite FR by (cbn [DC_ t_mat]; lia). reflexivity.
    + assert (F6 : forall y, 0 <= t_mat y < 3 -> (forall i j, k <= i < NR -> 0 <= j < NC -> y <> DC_ (wC i j) i j) -> s6 y = st y).
      { intros y Y N. rewrite X2 by (intros j' Lj'; apply N; lia). rewrite R2 by lia. rewrite L3 by (try lia; intros i' j' Li' Lj'; apply N; lia). rewrite D2 by (intros j' Lj'; apply N; lia). apply FR. exact Y. }
      intros x X N. unfold dabs. destruct (Z.eqb_spec (t_mat x) 0) as [E0|E0]; [|destruct (Z.eqb_spec (t_mat x) 1) as [E1|E1]].
      * apply F6; [cbn; lia|]. intros; unfold DA_, DC_; discriminate.
      * apply F6; [cbn; lia|]. intros; unfold DB_, DC_; discriminate.
      * apply F6; [cbn; lia|]. intros i j Li Lj E. apply DCi in E as [E2 E3]. apply N; lia.
  - cbn [erun fold_left]. fold s3. rewrite (zrange_nil (k + 1) NR) by lia. split; [|split].
    + intros j p q Lj Lp Lq. change (dabs s3 (MC k j)) with (s3 (DC_ (wC k j) k j)). rewrite H3 by exact Lj. cbn [lsum fold_right]. ring.
    + intros i j Li Lj. lia.
    + assert (F6 : forall y, 0 <= t_mat y < 3 -> (forall i j, k <= i < NR -> 0 <= j < NC -> y <> DC_ (wC i j) i j) -> s3 y = st y).
      { intros y Y N. rewrite D2 by (intros j' Lj'; apply N; lia). apply FR. exact Y. }
      intros x X N. unfold dabs. destruct (Z.eqb_spec (t_mat x) 0) as [E0|E0]; [|destruct (Z.eqb_spec (t_mat x) 1) as [E1|E1]].
      * apply F6; [cbn; lia|]. intros; unfold DA_, DC_; discriminate.
      * apply F6; [cbn; lia|]. intros; unfold DB_, DC_; discriminate.
      * apply F6; [cbn; lia|]. intros i j Li Lj E. apply DCi in E as [E2 E3]. apply N; lia.
Qed.
End hstep.
End proofs.
