(** * The distributed Cholesky factorization computes what the local one does. *)
From Coq Require Import ZArith Lia List Bool.
From Verif Require Import CInt Loop StarField DenseSpec Tiling DenseJobs TileJobs DistModel DistSpec DistBuilt DistThms DistMachine DistGrid PanelModel PanelProofs DistSim CholeskyModel DistCholeskyModel.
Import ListNotations.
Local Open Scope Z_scope.

Section proofs.
Context {K : starfield} (kn : kernels K).
Variables P Q : Z.
Variable Ls : coord -> layout.
Variable D : coord -> Z -> axis.
Variable nt : coord -> Z.
Hypothesis GA : grid_axes P Q Ls D nt.
Variable t : tiling.
Notation N := (tl_n t).
Hypothesis NT : forall rc, nt rc = N.
Hypothesis SZ : forall r rc k, In r (ranks P Q) -> 0 <= k < N -> szd Q D r rc k = tl_sz t k.
Variable u : uplo.
Let HP := ga_P _ _ _ _ _ GA.
Let HQ := ga_Q _ _ _ _ _ GA.
(** the coordinate along the panel, and the other one *)
Notation rc := (match u with Lower => Row | Upper => Col end).
Notation rT := (match u with Lower => Col | Upper => Row end).
Notation own c k := (tile_owner (Ls c) k).
Notation co := (co Q).
Notation rks := (ranks P Q).
Notation mem := (members P Q).
Notation sz := (tl_sz t).
(** tile (i, j), i along rc *)
Definition tD (r i j : Z) : tid := match u with Lower => M_ r i j | Upper => M_ r j i end.
Definition tL (i j : Z) : tid := match u with Lower => A_ i j | Upper => A_ j i end.
Definition jt m n a b : tjob (mat K) := match u with Lower => jtrsm kn Right Lower ConjTrans NonUnit m n f1 a b | Upper => jtrsm kn Left Upper ConjTrans NonUnit n m f1 a b end.
Definition jh n k a c : tjob (mat K) := match u with Lower => jherk kn Lower NoTrans n k (fopp f1) a f1 c | Upper => jherk kn Upper ConjTrans n k (fopp f1) a f1 c end.
Definition jg m n k a b c : tjob (mat K) := match u with Lower => jgemm kn NoTrans ConjTrans m n k (fopp f1) a b f1 c | Upper => jgemm kn ConjTrans NoTrans n m k (fopp f1) b a f1 c end.
Lemma othr : other rc = rT /\ other rT = rc. Proof. destruct u; split; reflexivity. Qed.

(** ** Both programs, in the orientation of the panel *)
Definition l_step (k : Z) : list (tjob (mat K)) :=
  [jpotrf kn u (sz k) (tL k k)] ++ for_up (k + 1) N (fun i => [jt (sz i) (sz k) (tL k k) (tL i k)]) ++
  for_up (k + 1) N (fun j => [jh (sz j) (sz k) (tL j k) (tL j j)] ++ for_up (j + 1) N (fun i => [jg (sz i) (sz j) (sz k) (tL i k) (tL j k) (tL i j)])).
Lemma local_generic : cholesky_factorization kn t u = for_up 0 N l_step.
Proof. unfold cholesky_factorization, l_step, tL, jt, jh, jg. destruct u; reflexivity. Qed.

Notation lgl := (lgl Q D).
Notation szd := (szd Q D).
Definition dpan (r k : Z) : panel :=
  let p := fresh_panel (idT k) k (k + 1) in if t_own Q D r rc k =? co rc r then set_tile p (lgl r rT k) (tD r (lgl r rc k) (lgl r rT k)) else p.
Definition upd (r k : Z) : list (act (mat K)) * panel :=
  fold_left (fun acc l => (fst acc ++ [ALoc (jt (szd r rc (t_gl Q D r rc l)) (szd r rT k) (p_tile r (dpan r k) (lgl r rT k)) (tD r (t_gl Q D r rc l) (lgl r rT k)))],
       set_tile (snd acc) (t_gl Q D r rc l) (tD r (t_gl Q D r rc l) (lgl r rT k))))
    (zrange (t_nx Q D r rc (k + 1)) (ax_local_nr_tiles (ax Q D r rc))) ([], fresh_panel (idP k) (k + 1) (nrt Q D r)).
Definition ppart (r k : Z) : list (act (mat K)) * panel :=
  if t_own Q D r rT k =? co rT r then (panel_broadcast P Q D rT r (t_own Q D r rc k) (dpan r k) ++ fst (upd r k), snd (upd r k)) else ([], fresh_panel (idP k) (k + 1) (nrt Q D r)).
Definition trail (r k : Z) (p pT : panel) : list (act (mat K)) :=
  flat_map (fun j => if t_own Q D r rT j =? co rT r then
      (if t_own Q D r rc j =? co rc r then [ALoc (jh (szd r rc j) (szd r rT k) (p_tile r p (lgl r rc j)) (tD r (lgl r rc j) (lgl r rT j)))] else []) ++
      flat_map (fun i => if t_own Q D r rc i =? co rc r then
         [ALoc (jg (szd r rc i) (szd r rT j) (szd r rT k) (p_tile r p (lgl r rc i)) (p_tile r pT (lgl r rT j)) (tD r (lgl r rc i) (lgl r rT j)))] else [])
       (zrange (j + 1) (nrt Q D r)) else []) (zrange (k + 1) (nrt Q D r)).
Definition d_step (r k : Z) : list (act (mat K)) :=
  (if (t_own Q D r Row k =? co Row r) && (t_own Q D r Col k =? co Col r) then [ALoc (jpotrf kn u (szd r Row k) (M_ r (lgl r Row k) (lgl r Col k)))] else []) ++
  if k + 1 =? nrt Q D r then [] else
  let pp := ppart r k in
  let b2 := panel_broadcast2 P Q D rc r (t_own Q D r rT k) (snd pp) (fresh_panel (idT k) (k + 1) (nrt Q D r - 1)) in
  fst pp ++ fst b2 ++ trail r k (snd pp) (snd b2).
Lemma dist_generic : forall r, dist_cholesky kn P Q D u r = flat_map (d_step r) (zrange 0 (nrt Q D r)).
Proof.
  intros r. unfold dist_cholesky, dist_call_L, dist_call_U, d_step, ppart, upd, dpan, trail, dist_step_L, dist_step_U, panel_part_L, panel_part_U, column_update_L, row_update_U, diag_panel_L, diag_panel_U, trailing_L, trailing_U, tD, jt, jh, jg.
  destruct u; reflexivity.
Qed.

(** ** Choreography *)
Definition ow (i j : Z) : Z := mk Q rc (own rc i) (own rT j).
Definition upan (k r : Z) : panel := snd (ppart r k).
Definition pT0 (k : Z) (r : Z) : panel := fresh_panel (idT k) (k + 1) (N - 1).
Definition pTa (k : Z) (r : Z) : panel := pTafter Q Ls rc (upan k) (idT k) (k + 1) (N - 1) r.
Definition e_diag (k : Z) : list (event (mat K)) := ebc1 P Q Ls rT (own rc k) (fun r => dpan r k) (idT k) k (k + 1).
Definition e_trsm (k i : Z) : list (event (mat K)) := [ELoc (ow i k) (jt (sz i) (sz k) (p_tile (ow i k) (dpan (ow i k) k) k) (tD (ow i k) i k))].
Definition e_herk (k j : Z) : list (event (mat K)) := [ELoc (ow j j) (jh (sz j) (sz k) (p_tile (ow j j) (upan k (ow j j)) j) (tD (ow j j) j j))].
Definition e_gemm (k j i : Z) : list (event (mat K)) := [ELoc (ow i j) (jg (sz i) (sz j) (sz k) (p_tile (ow i j) (upan k (ow i j)) i) (p_tile (ow i j) (pTa k (ow i j)) j) (tD (ow i j) i j))].
Definition e_step (k : Z) : list (event (mat K)) :=
  [ELoc (ow k k) (jpotrf kn u (sz k) (tD (ow k k) k k))] ++
  if k + 1 =? N then [] else
  e_diag k ++ flat_map (e_trsm k) (zrange (k + 1) N) ++
  ebc1 P Q Ls rc (own rT k) (upan k) (idP k) (k + 1) N ++ ebc2 P Q Ls rc (upan k) (idT k) (k + 1) (N - 1) ++
  flat_map (fun j => e_herk k j ++ flat_map (e_gemm k j) (zrange (j + 1) N)) (zrange (k + 1) N).

Lemma nrt_N : forall r, In r rks -> nrt Q D r = N.
Proof using GA NT. intros r R. unfold nrt. rewrite (rank_nt _ _ _ _ _ GA) by exact R. apply NT. Qed.
Lemma ow_in : forall i j, In (ow i j) rks.
Proof using GA. intros i j. unfold ow. apply (mk_rank _ _ _ _ _ GA); [apply (own_range _ _ _ _ _ GA)|rewrite (proj1 othr); apply (own_range _ _ _ _ _ GA)]. Qed.
Lemma ow_co : forall i j, co rc (ow i j) = own rc i /\ co rT (ow i j) = own rT j.
Proof using GA.
  intros i j. unfold ow. pose proof (co_mk P Q HP HQ rc (own rc i) (own rT j)) as X. rewrite (proj1 othr) in X. apply X; apply (own_range _ _ _ _ _ GA).
Qed.
Lemma ow_eqb : forall r i j, In r rks -> (ow i j =? r) = (own rc i =? co rc r) && (own rT j =? co rT r).
Proof using GA.
  intros r i j R. rewrite Z.eqb_sym. unfold ow. rewrite (mk_eqb _ _ _ _ _ GA) by (try exact R; rewrite ?(proj1 othr); apply (own_range _ _ _ _ _ GA)).
  rewrite (proj1 othr), (Z.eqb_sym (co rc r)), (Z.eqb_sym (co rT r)). reflexivity.
Qed.
Lemma ow_r : forall r i j, In r rks -> own rc i = co rc r -> own rT j = co rT r -> ow i j = r.
Proof using GA. intros r i j R A B. apply Z.eqb_eq. rewrite ow_eqb by exact R. rewrite A, B, !Z.eqb_refl. reflexivity. Qed.
Lemma town : forall r c k, In r rks -> 0 <= k -> t_own Q D r c k = own c k.
Proof using GA. intros. apply (t_own_eq _ _ _ _ _ GA); assumption. Qed.
Lemma lgl_here : forall r c k, In r rks -> 0 <= k < N -> own c k = co c r -> lgl r c k = k.
Proof using GA NT. intros r c k R L O. apply (t_gl_loc _ _ _ _ _ GA); [exact R|rewrite NT; exact L|exact O]. Qed.
Lemma ids : forall k, idP k <> 0 /\ idT k <> 0 /\ idP k <> idT k.
Proof. intros k. unfold idP, idT. pose proof (Z.mod_pos_bound k 2). lia. Qed.

(** the panels *)
Lemma dpan_range : forall r k, p_id (dpan r k) = idT k /\ p_lo (dpan r k) = k /\ p_hi (dpan r k) = k + 1.
Proof. intros r k. unfold dpan. cbv zeta. destruct (_ =? _); cbn; auto. Qed.
Lemma dpan_tile : forall r k, In r rks -> 0 <= k < N -> own rT k = co rT r -> p_tile r (dpan r k) k = if own rc k =? co rc r then tD r k k else Tid r (idT k) k 0.
Proof using GA NT.
  intros r k R L O. unfold dpan. cbv zeta. rewrite town by (try exact R; lia). destruct (Z.eqb_spec (own rc k) (co rc r)) as [E|E].
  - unfold p_tile, set_tile. cbn [p_ext]. rewrite !lgl_here by assumption. rewrite Z.eqb_refl. reflexivity.
  - reflexivity.
Qed.
Lemma dpan_none : forall r k i, In r rks -> 0 <= k -> own rc k <> co rc r -> p_ext (dpan r k) i = None.
Proof using GA. intros r k i R L E. unfold dpan. cbv zeta. rewrite town by assumption. rewrite (proj2 (Z.eqb_neq _ _) E). reflexivity. Qed.
Lemma upan_props : forall k r, In r rks -> 0 <= k -> k + 1 < N ->
  p_id (upan k r) = idP k /\ p_lo (upan k r) = k + 1 /\ p_hi (upan k r) = N /\
  forall i, p_ext (upan k r) i = if (own rT k =? co rT r) && ((k + 1 <=? i) && (i <? N) && (own rc i =? co rc r)) then Some (tD r i k) else None.
Proof using GA NT.
  intros k r R L1 L2. unfold upan, ppart. rewrite town by assumption. destruct (Z.eqb_spec (own rT k) (co rT r)) as [O|O]; cbn [andb snd].
  - unfold upd. destruct (link_loop P Q Ls D nt GA (fun i => [ALoc (jt (szd r rc i) (szd r rT k) (p_tile r (dpan r k) (lgl r rT k)) (tD r i (lgl r rT k)))]) (fun i => tD r i (lgl r rT k)) r rc (k + 1) (idP k) (nrt Q D r) R) as (_ & A & B & C & E).
    { rewrite NT. lia. }
    cbv zeta in *. split; [exact A|split; [exact B|split; [rewrite C; apply nrt_N; exact R|]]]. intros i. rewrite E, NT, lgl_here by (try assumption; lia). reflexivity.
  - cbn. rewrite nrt_N by exact R. auto.
Qed.
Lemma upan_tile : forall k r i, In r rks -> 0 <= k -> k + 1 <= i < N -> own rc i = co rc r ->
  p_tile r (upan k r) i = if own rT k =? co rT r then tD r i k else Tid r (idP k) i 0.
Proof using GA NT.
  intros k r i R L1 L2 O. destruct (upan_props k r R L1 ltac:(lia)) as (A & _ & _ & E). unfold p_tile, p_int. rewrite E, A.
  rewrite (proj2 (Z.leb_le (k + 1) i)), (proj2 (Z.ltb_lt i N)), O, Z.eqb_refl by lia. cbn [andb]. rewrite andb_true_r. destruct (_ =? _); reflexivity.
Qed.
Lemma tD_mat : forall r i j, t_mat (tD r i j) = 0 /\ t_rank (tD r i j) = r.
Proof. intros r i j. unfold tD, M_. destruct u; auto. Qed.
Lemma tD_inj : forall r i j r' i' j', tD r i j = tD r' i' j' -> i = i' /\ j = j'.
Proof. intros r i j r' i' j'. unfold tD, M_. destruct u; intros E; injection E; auto. Qed.
Lemma upan_mat : forall k r i, In r rks -> 0 <= k -> k + 1 <= i < N -> own rc i = co rc r ->
  t_mat (p_tile r (upan k r) i) <> idT k /\ t_rank (p_tile r (upan k r) i) = r.
Proof using GA NT.
  intros k r i R L1 L2 O. rewrite upan_tile by assumption. pose proof (ids k). destruct (_ =? _); [destruct (tD_mat r i k) as [-> ->]|cbn [t_mat t_rank]]; split; try reflexivity; lia.
Qed.

(** ** The program of a rank is its part of the choreography *)
Lemma diag_proj : forall r k, In r rks -> 0 <= k < N -> proj mem r (e_diag k) = if own rT k =? co rT r then panel_broadcast P Q D rT r (own rc k) (dpan r k) else [].
Proof using GA NT.
  intros r k R L. unfold e_diag. rewrite <- (ebc1_proj P Q Ls D nt GA rT (own rc k)) with (pf := fun r => dpan r k).
  - destruct (Z.eqb_spec (own rT k) (co rT r)) as [O|O]; [reflexivity|]. unfold panel_broadcast. destruct (_ <=? 1); [reflexivity|]. destruct (dpan_range r k) as (_ & -> & ->).
    rewrite (loop_tiles P Q Ls D nt GA (fun i => [ACom (if co (other rT) r =? own rc k then bsend (cm rT (co rT r)) (mk Q rT (co rT r) (own rc k)) (p_tile r (dpan r k) i) else brecv (cm rT (co rT r)) (mk Q rT (co rT r) (own rc k)) (p_int r (dpan r k) i))]) r rT k (k + 1) R) by (rewrite ?NT; lia).
    apply flat_map_nil. intros x Ix. apply in_zrange in Ix. assert (x = k) as -> by lia. rewrite (proj2 (Z.eqb_neq _ _) O). reflexivity.
  - rewrite (proj2 othr). apply (own_range _ _ _ _ _ GA).
  - intros q _. apply dpan_range.
  - rewrite NT. lia.
  - exact R.
Qed.
Lemma upan_root : forall k, 0 <= k -> k + 1 < N -> forall r i, In r rks -> co (other rc) r = own rT k -> k + 1 <= i < N -> own rc i = co rc r -> t_rank (p_tile r (upan k r) i) = r.
Proof using GA NT. intros k L1 L2 r i R C Li O. apply (upan_mat k r i); assumption. Qed.
Lemma upan_leaf : forall k, 0 <= k -> k + 1 < N -> forall r i, In r rks -> co (other rc) r <> own rT k -> k + 1 <= i < N -> own rc i = co rc r -> p_ext (upan k r) i = None.
Proof using GA NT.
  intros k L1 L2 r i R C Li O. destruct (upan_props k r R L1 L2) as (_ & _ & _ & E). rewrite E. rewrite (proj1 othr) in C. rewrite (proj2 (Z.eqb_neq (own rT k) (co rT r))) by congruence. reflexivity.
Qed.
Lemma step_proj : forall r k, In r rks -> 0 <= k < N -> d_step r k = proj mem r (e_step k).
Proof using GA NT SZ.
  intros r k R L. unfold d_step, e_step. rewrite (proj_app' P Q), (proj_eloc P Q), nrt_N by exact R. f_equal.
  { rewrite ow_eqb by exact R. rewrite !town by (try exact R; lia).
    assert (C : (own Row k =? co Row r) && (own Col k =? co Col r) = (own rc k =? co rc r) && (own rT k =? co rT r)) by (destruct u; [reflexivity|apply andb_comm]).
    rewrite C. destruct ((own rc k =? co rc r) && (own rT k =? co rT r)) eqn:E in |- *; [|reflexivity]. rewrite E in C. apply andb_true_iff in C as [E1 E2]. clear E. apply Z.eqb_eq in E1, E2.
    rewrite (lgl_here r Row k R L E1), (lgl_here r Col k R L E2), SZ by assumption.
    assert (X : own rc k = co rc r /\ own rT k = co rT r) by (destruct u; auto). rewrite (ow_r r k k R (proj1 X) (proj2 X)). unfold tD. destruct u; reflexivity. }
  destruct (Z.eqb_spec (k + 1) N) as [_|NE]; [reflexivity|]. cbv zeta. rewrite !(proj_app' P Q).
  assert (PP : fst (ppart r k) = proj mem r (e_diag k) ++ proj mem r (flat_map (e_trsm k) (zrange (k + 1) N))).
  { rewrite diag_proj by assumption. unfold ppart. rewrite !town by (try exact R; lia). rewrite (proj_flat P Q). destruct (Z.eqb_spec (own rT k) (co rT r)) as [O|O].
    - cbn [fst]. f_equal. unfold upd.
      destruct (link_loop P Q Ls D nt GA (fun i => [ALoc (jt (szd r rc i) (szd r rT k) (p_tile r (dpan r k) (lgl r rT k)) (tD r i (lgl r rT k)))]) (fun i => tD r i (lgl r rT k)) r rc (k + 1) (idP k) N R) as (F & _); [rewrite NT; lia|]. cbv zeta in F.
      rewrite nrt_N by exact R. rewrite F, NT. apply flat_map_ext_in. intros i Li. apply in_zrange in Li. unfold e_trsm. rewrite (proj_eloc P Q), ow_eqb by exact R. rewrite O, Z.eqb_refl, andb_true_r.
      destruct (Z.eqb_spec (own rc i) (co rc r)) as [Oi|Oi]; [|reflexivity]. rewrite lgl_here by assumption. rewrite !SZ by (try exact R; lia). rewrite (ow_r r i k R Oi O). reflexivity.
    - cbn [fst app]. symmetry. apply flat_map_nil. intros i _. unfold e_trsm. rewrite (proj_eloc P Q), ow_eqb by exact R. rewrite (proj2 (Z.eqb_neq _ _) O), andb_false_r. reflexivity. }
  rewrite PP, <- !app_assoc. f_equal. f_equal. clear PP.
  rewrite town by (try exact R; lia).
  assert (HR : 0 <= own rT k < gs P Q (other rc)) by (rewrite (proj1 othr); apply (own_range _ _ _ _ _ GA)).
  assert (PID : forall q, In q rks -> p_id (upan k q) = idP k /\ p_lo (upan k q) = k + 1 /\ p_hi (upan k q) = N) by (intros q Rq; destruct (upan_props k q Rq) as (A & B & C & _); try lia; auto).
  assert (RNG : (0 <= k + 1 <= N) /\ N <= nt rc) by (rewrite NT; lia).
  destruct (ebc2_proj (V := mat K) P Q Ls D nt GA rc (own rT k) HR (upan k) (k + 1) N RNG (upan_root k ltac:(lia) ltac:(lia)) (upan_leaf k ltac:(lia) ltac:(lia)) (pT0 k) (idT k) (k + 1) (N - 1)) with (r := r) as (pT' & F & EQ).
  { intros q _. cbn. auto. } { reflexivity. } { rewrite NT. lia. } { intros q i Rq Li Oq. apply upan_mat; try assumption. lia. } { exact R. }
  unfold panel_broadcast2. fold (upan k r). destruct (PID r R) as (_ & E2 & E3). rewrite E2, E3. rewrite (proj2 (Z.eqb_neq (k + 1) N)) by exact NE. cbn [p_lo p_hi fresh_panel].
  change (fresh_panel (idT k) (k + 1) (N - 1)) with (pT0 k r). rewrite F. cbn [fst snd].
  rewrite <- (ebc1_proj P Q Ls D nt GA rc (own rT k) HR (upan k) (idP k) (k + 1) N PID RNG r R). rewrite <- app_assoc. f_equal. f_equal.
  (* trailing matrix *)
  assert (PT : forall j, p_tile r pT' j = p_tile r (pTa k r) j). { intros j. destruct EQ as (I1 & _ & _ & I4). unfold p_tile, p_int, pTa. rewrite I4, I1. reflexivity. }
  unfold trail. rewrite nrt_N by exact R. rewrite (proj_flat P Q). apply flat_map_ext_in. intros j Lj. apply in_zrange in Lj. rewrite (proj_app' P Q), (proj_flat P Q). rewrite !town by (try exact R; lia).
  destruct (Z.eqb_spec (own rT j) (co rT r)) as [O|O].
  - f_equal.
    + unfold e_herk. rewrite (proj_eloc P Q), ow_eqb by exact R. rewrite O, Z.eqb_refl, andb_true_r. destruct (Z.eqb_spec (own rc j) (co rc r)) as [O2|O2]; [|reflexivity].
      rewrite !lgl_here by (try assumption; lia). rewrite !SZ by (try exact R; lia). rewrite (ow_r r j j R O2 O). reflexivity.
    + apply flat_map_ext_in. intros i Li. apply in_zrange in Li. unfold e_gemm. rewrite (proj_eloc P Q), ow_eqb by exact R. rewrite O, Z.eqb_refl, andb_true_r. rewrite town by (try exact R; lia).
      destruct (Z.eqb_spec (own rc i) (co rc r)) as [O2|O2]; [|reflexivity]. rewrite !lgl_here by (try assumption; lia). rewrite !SZ by (try exact R; lia). rewrite (ow_r r i j R O2 O), PT. reflexivity.
  - unfold e_herk. rewrite (proj_eloc P Q), ow_eqb by exact R. rewrite (proj2 (Z.eqb_neq _ _) O), andb_false_r. symmetry. apply flat_map_nil. intros i _.
    unfold e_gemm. rewrite (proj_eloc P Q), ow_eqb by exact R. rewrite (proj2 (Z.eqb_neq _ _) O), andb_false_r. reflexivity.
Qed.
Theorem program_proj : forall r, In r rks -> dist_cholesky kn P Q D u r = proj mem r (flat_map e_step (zrange 0 N)).
Proof using GA NT SZ.
  intros r R. rewrite dist_generic, nrt_N, (proj_flat P Q) by exact R. apply flat_map_ext_in. intros k Lk. apply in_zrange in Lk. apply step_proj; assumption.
Qed.

(** ** The events are well formed *)
Lemma dpan_in : forall k i, 0 <= k < N -> t_rank (p_tile (ow i k) (dpan (ow i k) k) k) = ow i k.
Proof using GA NT.
  intros k i L. rewrite dpan_tile; [|apply ow_in|exact L|symmetry; apply ow_co]. destruct (_ =? _); [apply tD_mat|reflexivity].
Qed.
Lemma pTa_tile : forall k r j, In r rks -> 0 <= k -> k + 1 <= j < N - 1 -> own rT j = co rT r ->
  p_tile r (pTa k r) j = if own rc j =? co rc r then p_tile r (upan k r) j else Tid r (idT k) j 0.
Proof using GA.
  intros k r j R L1 L2 O. unfold p_tile at 1, pTa, pTafter, p_int. cbn [p_ext p_id]. rewrite (proj2 (Z.leb_le (k + 1) j)), (proj2 (Z.ltb_lt j (N - 1))) by lia. rewrite (proj1 othr), O, Z.eqb_refl. cbn [andb].
  destruct (_ =? _); reflexivity.
Qed.
Lemma pTa_in : forall k r j, In r rks -> 0 <= k -> k + 1 <= j < N - 1 -> own rT j = co rT r -> t_rank (p_tile r (pTa k r) j) = r.
Proof using GA NT.
  intros k r j R L1 L2 O. rewrite pTa_tile by assumption. destruct (Z.eqb_spec (own rc j) (co rc r)) as [O2|O2]; [|reflexivity]. apply upan_mat; try assumption. lia.
Qed.
Lemma upan_ids : forall k, 0 <= k -> k + 1 < N -> forall r, In r rks -> p_id (upan k r) = idP k /\ p_lo (upan k r) = k + 1 /\ p_hi (upan k r) = N.
Proof using GA NT. intros k L1 L2 q Rq. destruct (upan_props k q Rq L1 L2) as (A & B & C & _). auto. Qed.
Lemma rng1 : forall k, 0 <= k -> k + 1 < N -> 0 <= k + 1 <= N /\ N <= nt rc.
Proof using NT. intros k L1 L2. rewrite NT. lia. Qed.
Lemma rng2 : forall k, 0 <= k -> k + 1 < N -> k + 1 <= k + 1 <= N - 1 /\ N - 1 <= N /\ N - 1 <= nt (other rc).
Proof using NT. intros k L1 L2. rewrite NT. lia. Qed.
Lemma root1 : forall k, 0 <= own rT k < gs P Q (other rc).
Proof using GA. intros k. rewrite (proj1 othr). apply (own_range _ _ _ _ _ GA). Qed.
Lemma root0 : forall k, 0 <= own rc k < gs P Q (other rT).
Proof using GA. intros k. rewrite (proj2 othr). apply (own_range _ _ _ _ _ GA). Qed.
Lemma diag_root : forall k, 0 <= k < N -> forall r i, In r rks -> co (other rT) r = own rc k -> k <= i < k + 1 -> own rT i = co rT r -> t_rank (p_tile r (dpan r k) i) = r.
Proof using GA NT.
  intros k L r i R C Li O. assert (i = k) as -> by lia. rewrite dpan_tile by assumption. destruct (_ =? _); [apply tD_mat|reflexivity].
Qed.
Lemma diag_leaf : forall k, 0 <= k < N -> forall r i, In r rks -> co (other rT) r <> own rc k -> k <= i < k + 1 -> own rT i = co rT r -> p_ext (dpan r k) i = None.
Proof using GA NT.
  intros k L r i R C Li O. apply dpan_none; [exact R|lia|]. rewrite (proj2 othr) in C. congruence.
Qed.
Lemma diag_rng : forall k, 0 <= k < N -> 0 <= k <= k + 1 /\ k + 1 <= nt rT.
Proof using NT. intros k L. rewrite NT. lia. Qed.
Lemma upan_IDS : forall k, 0 <= k -> k + 1 < N -> forall r i, In r rks -> k + 1 <= i < N -> own rc i = co rc r -> t_mat (p_tile r (upan k r) i) <> idT k /\ t_rank (p_tile r (upan k r) i) = r.
Proof using GA NT. intros k L1 L2 r i R Li O. apply upan_mat; assumption. Qed.
Lemma tD_rank : forall r i j, t_rank (tD r i j) = r. Proof. intros. apply tD_mat. Qed.

Lemma step_ok : forall k, 0 <= k < N -> Forall (event_ok mem rks) (e_step k).
Proof using GA NT.
  intros k L. unfold e_step. apply Forall_app. split.
  { constructor; [|constructor]. apply eloc_ok; [apply ow_in|]. cbn. intros x [[]| ->]. apply tD_rank. }
  destruct (Z.eqb_spec (k + 1) N) as [_|NE]; [constructor|]. assert (L2 : k + 1 < N) by lia. rewrite !Forall_app. split; [|split; [|split; [|split]]].
  - apply (ebc1_ok P Q Ls D nt GA rT (own rc k) (root0 k) (fun r => dpan r k) (idT k) k (k + 1)). apply diag_root. exact L.
  - apply forall_flat. intros i Li. apply in_zrange in Li. constructor; [|constructor]. apply eloc_ok; [apply ow_in|]. unfold jt. intros x.
    assert (G : In x [p_tile (ow i k) (dpan (ow i k) k) k] \/ x = tD (ow i k) i k -> t_rank x = ow i k) by (intros [[<-|[]]| ->]; [apply dpan_in; exact L|apply tD_rank]). destruct u; exact G.
  - apply (ebc1_ok P Q Ls D nt GA rc (own rT k) (root1 k) (upan k) (idP k) (k + 1) N). apply upan_root; lia.
  - apply (ebc2_ok P Q Ls D nt GA rc (upan k) (k + 1) N) ; [apply rng2; lia|apply upan_IDS; lia].
  - apply forall_flat. intros j Lj. apply in_zrange in Lj. apply Forall_app. split.
    + constructor; [|constructor]. apply eloc_ok; [apply ow_in|]. unfold jh. intros x.
      assert (G : In x [p_tile (ow j j) (upan k (ow j j)) j] \/ x = tD (ow j j) j j -> t_rank x = ow j j).
      { intros [[<-|[]]| ->]; [|apply tD_rank]. apply upan_mat; [apply ow_in|lia|lia|symmetry; apply ow_co]. }
      destruct u; exact G.
    + apply forall_flat. intros i Li. apply in_zrange in Li. constructor; [|constructor]. apply eloc_ok; [apply ow_in|]. unfold jg. intros x.
      assert (G : (x = p_tile (ow i j) (upan k (ow i j)) i \/ x = p_tile (ow i j) (pTa k (ow i j)) j) \/ x = tD (ow i j) i j -> t_rank x = ow i j).
      { intros [[-> | ->]| ->]; [apply upan_mat; [apply ow_in|lia|lia|symmetry; apply ow_co]|apply pTa_in; [apply ow_in|lia|lia|symmetry; apply ow_co]|apply tD_rank]. }
      destruct u; cbn; intros X; apply G; destruct X as [[X|[X|[]]]|X]; auto.
Qed.

(** ** Simulation *)
Definition CR (st lst : tstore (mat K)) : Prop := forall i j, 0 <= i < N -> 0 <= j < N -> st (tD (ow i j) i j) = lst (tL i j).
Definition DV (k : Z) (st lst : tstore (mat K)) : Prop := forall r, In r rks -> own rT k = co rT r -> st (p_tile r (dpan r k) k) = lst (tL k k).
Definition UV (k : Z) (st lst : tstore (mat K)) : Prop := forall r i, In r rks -> k + 1 <= i < N -> own rc i = co rc r -> st (p_tile r (upan k r) i) = lst (tL i k).
Definition TV (k : Z) (st lst : tstore (mat K)) : Prop := forall r j, In r rks -> k + 1 <= j < N - 1 -> own rT j = co rT r -> st (p_tile r (pTa k r) j) = lst (tL j k).
Lemma tL_inj : forall i j i' j', tL i j = tL i' j' -> i = i' /\ j = j'.
Proof. intros i j i' j'. unfold tL, A_. destruct u; intros E; injection E; auto. Qed.
Lemma CR_exec : forall st lst dj lj i j, CR st lst -> tj_out dj = tD (ow i j) i j -> tj_out lj = tL i j -> tval dj st = tval lj lst -> CR (texec st dj) (texec lst lj).
Proof.
  intros st lst dj lj i j R O1 O2 E i' j' Li Lj. unfold texec. rewrite O1, O2. destruct (tid_eqb_spec (tL i' j') (tL i j)) as [X|X].
  - apply tL_inj in X as [-> ->]. rewrite !tset_eq. exact E.
  - rewrite !tset_neq; [apply R; assumption|exact X|]. intros Y. apply tD_inj in Y as [-> ->]. apply X. reflexivity.
Qed.
Lemma CR_frame : forall st st' lst, CR st lst -> (forall x, t_mat x = 0 -> st' x = st x) -> CR st' lst.
Proof. intros st st' lst R E i j Li Lj. rewrite E by apply tD_mat. apply R; assumption. Qed.

Lemma diag_run : forall k st lst, 0 <= k < N -> CR st lst -> CR (erun mem (e_diag k) st) lst /\ DV k (erun mem (e_diag k) st) lst.
Proof using GA NT.
  intros k st lst L R. destruct (ebc1_run P Q Ls D nt GA rT (own rc k) (root0 k) (fun r => dpan r k) (idT k) k (k + 1) (fun r _ => dpan_range r k) (diag_rng k L) (diag_root k L) (diag_leaf k L) st) as [A B].
  fold (e_diag k) in A, B. split.
  - eapply CR_frame; [exact R|]. intros x M. apply B. intros r i _ _ _ _ E. rewrite E in M. cbn [t_mat] in M. pose proof (ids k); tauto.
  - intros r Rr O. rewrite A by (try assumption; lia).
    assert (psrc Q Ls rT (own rc k) k = ow k k) as -> by (unfold psrc, ow; destruct u; reflexivity).
    rewrite dpan_tile by (try apply ow_in; try exact L; symmetry; apply ow_co). rewrite (proj1 (ow_co k k)), Z.eqb_refl. apply R; exact L.
Qed.
Lemma trsm_run : forall k st lst, 0 <= k -> k + 1 < N -> CR st lst -> DV k st lst ->
  CR (erun mem (flat_map (e_trsm k) (zrange (k + 1) N)) st) (trun (flat_map (fun i => [jt (sz i) (sz k) (tL k k) (tL i k)]) (zrange (k + 1) N)) lst).
Proof using GA NT.
  intros k st lst L1 L2 R DR.
  enough (CR (erun mem (flat_map (e_trsm k) (zrange (k + 1) N)) st) (trun (flat_map (fun i => [jt (sz i) (sz k) (tL k k) (tL i k)]) (zrange (k + 1) N)) lst) /\
          DV k (erun mem (flat_map (e_trsm k) (zrange (k + 1) N)) st) (trun (flat_map (fun i => [jt (sz i) (sz k) (tL k k) (tL i k)]) (zrange (k + 1) N)) lst)) by tauto.
  apply (sim_loop P Q (e_trsm k) _ (fun a b => CR a b /\ DV k a b)); [|auto]. clear st lst R DR. intros i st lst Li [R DR]. apply in_zrange in Li. unfold e_trsm. cbn [erun fold_left eexec trun].
  assert (OD : forall m n a b, tj_out (jt m n a b) = b) by (intros; unfold jt; destruct u; reflexivity).
  split.
  - apply (CR_exec st lst _ _ i k R); [apply OD|apply OD|]. apply tval_sim; [unfold jt; destruct u; reflexivity| |].
    + assert (X : forall m n a b, tj_in (jt m n a b) = [a]) by (intros; unfold jt; destruct u; reflexivity). rewrite !X. cbn [map]. f_equal. apply DR; [apply ow_in|symmetry; apply ow_co].
    + rewrite !OD. apply R; lia.
  - intros r Rr O. unfold texec. rewrite !OD. rewrite !tset_neq; [apply DR; assumption| |].
    + intros E. apply tL_inj in E. lia.
    + intros E. rewrite dpan_tile in E by (try assumption; lia). destruct (_ =? _) in E.
      * apply tD_inj in E. lia.
      * pose proof (proj1 (tD_mat (ow i k) i k)) as M. rewrite <- E in M. cbn [t_mat] in M. pose proof (ids k); tauto.
Qed.
Lemma bc_run : forall k st lst, 0 <= k -> k + 1 < N -> CR st lst ->
  let st' := erun mem (ebc1 P Q Ls rc (own rT k) (upan k) (idP k) (k + 1) N ++ ebc2 P Q Ls rc (upan k) (idT k) (k + 1) (N - 1)) st in CR st' lst /\ UV k st' lst /\ TV k st' lst.
Proof using GA NT.
  intros k st lst L1 L2 R. cbv zeta. rewrite erun_app.
  destruct (ebc1_run P Q Ls D nt GA rc (own rT k) (root1 k) (upan k) (idP k) (k + 1) N (upan_ids k L1 L2) (rng1 k L1 L2) (upan_root k L1 L2) (upan_leaf k L1 L2) st) as [A B].
  set (st1 := erun mem (ebc1 P Q Ls rc (own rT k) (upan k) (idP k) (k + 1) N) st) in *.
  assert (R1 : CR st1 lst). { eapply CR_frame; [exact R|]. intros x M. apply B. intros r i _ _ _ _ E. rewrite E in M. cbn [t_mat] in M. pose proof (ids k); tauto. }
  assert (U1 : UV k st1 lst).
  { intros r i Rr Li O. rewrite A by assumption. assert (psrc Q Ls rc (own rT k) i = ow i k) as -> by (unfold psrc, ow; destruct u; reflexivity).
    rewrite upan_tile by (try apply ow_in; try lia; symmetry; apply ow_co). rewrite (proj2 (ow_co i k)), Z.eqb_refl. apply R; lia. }
  destruct (ebc2_run P Q Ls D nt GA rc (upan k) (k + 1) N (idT k) (k + 1) (N - 1) (rng2 k L1 L2) (upan_IDS k L1 L2) st1) as [A2 B2].
  set (st2 := erun mem (ebc2 P Q Ls rc (upan k) (idT k) (k + 1) (N - 1)) st1) in *.
  assert (FR : forall x, t_mat x <> idT k -> st2 x = st1 x). { intros x M. apply B2. intros r i _ _ _ _ E. apply M. rewrite E. reflexivity. }
  split; [|split].
  - eapply CR_frame; [exact R1|]. intros x M. apply FR. rewrite M. pose proof (ids k). lia.
  - intros r i Rr Li O. rewrite FR by (apply upan_mat; assumption). apply U1; assumption.
  - intros r j Rr Lj O. unfold pTa. rewrite A2 by (try assumption; rewrite (proj1 othr); assumption).
    assert (dsrc Q Ls rc j = ow j j) as -> by (unfold dsrc, ow; destruct u; reflexivity). apply U1; [apply ow_in|lia|symmetry; apply ow_co].
Qed.
Definition TI (k : Z) (st lst : tstore (mat K)) : Prop := CR st lst /\ UV k st lst /\ TV k st lst.
Lemma TI_exec : forall k st lst dj lj i j, 0 <= k -> k + 1 < N -> k < j -> TI k st lst -> tj_out dj = tD (ow i j) i j -> tj_out lj = tL i j -> tval dj st = tval lj lst -> TI k (texec st dj) (texec lst lj).
Proof using GA NT.
  intros k st lst dj lj i j L1 L2 Lj (R & U & T) O1 O2 E.
  assert (UN : forall r i', In r rks -> k + 1 <= i' < N -> own rc i' = co rc r -> p_tile r (upan k r) i' <> tD (ow i j) i j).
  { intros r i' Rr Li O X. rewrite upan_tile in X by assumption. destruct (_ =? _) in X; [apply tD_inj in X; lia|].
    pose proof (proj1 (tD_mat (ow i j) i j)) as M. rewrite <- X in M. cbn [t_mat] in M. pose proof (ids k); tauto. }
  assert (LN : forall i', tL i' k <> tL i j) by (intros i' X; apply tL_inj in X; lia).
  split; [|split].
  - apply (CR_exec st lst dj lj i j R O1 O2 E).
  - intros r i' Rr Li O. unfold texec. rewrite O1, O2, !tset_neq; [apply U; assumption|apply LN|apply UN; assumption].
  - intros r j' Rr Lj' O. unfold texec. rewrite O1, O2, !tset_neq; [apply T; assumption|apply LN|]. rewrite pTa_tile by assumption.
    destruct (Z.eqb_spec (own rc j') (co rc r)) as [O3|O3]; [apply UN; [assumption|lia|assumption]|]. intros X.
    pose proof (proj1 (tD_mat (ow i j) i j)) as M. rewrite <- X in M. cbn [t_mat] in M. pose proof (ids k); tauto.
Qed.
Lemma trail_run : forall k st lst, 0 <= k -> k + 1 < N -> TI k st lst ->
  TI k (erun mem (flat_map (fun j => e_herk k j ++ flat_map (e_gemm k j) (zrange (j + 1) N)) (zrange (k + 1) N)) st)
       (trun (flat_map (fun j => [jh (sz j) (sz k) (tL j k) (tL j j)] ++ flat_map (fun i => [jg (sz i) (sz j) (sz k) (tL i k) (tL j k) (tL i j)]) (zrange (j + 1) N)) (zrange (k + 1) N)) lst).
Proof using GA NT.
  intros k st lst L1 L2 I0. apply (sim_loop P Q _ _ (TI k)); [|exact I0]. clear st lst I0. intros j st lst Lj I0. apply in_zrange in Lj. rewrite erun_app, trun_app.
  apply (sim_loop P Q (e_gemm k j) _ (TI k)).
  - clear st lst I0. intros i st lst Li I0. apply in_zrange in Li. unfold e_gemm. cbn [erun fold_left eexec trun].
    assert (OD : forall m n q a b c, tj_out (jg m n q a b c) = c) by (intros; unfold jg; destruct u; reflexivity).
    apply (TI_exec k st lst _ _ i j L1 L2 ltac:(lia) I0); [apply OD|apply OD|]. destruct I0 as (R & U & T). apply tval_sim; [unfold jg; destruct u; reflexivity| |].
    + assert (X1 : st (p_tile (ow i j) (upan k (ow i j)) i) = lst (tL i k)) by (apply U; [apply ow_in|lia|symmetry; apply ow_co]).
      assert (X2 : st (p_tile (ow i j) (pTa k (ow i j)) j) = lst (tL j k)) by (apply T; [apply ow_in|lia|symmetry; apply ow_co]).
      unfold jg. destruct u; cbn [tj_in jgemm map]; rewrite X1, X2; reflexivity.
    + rewrite !OD. apply R; lia.
  - unfold e_herk. cbn [erun fold_left eexec trun]. assert (OD : forall m n a b, tj_out (jh m n a b) = b) by (intros; unfold jh; destruct u; reflexivity).
    apply (TI_exec k st lst _ _ j j L1 L2 ltac:(lia) I0); [apply OD|apply OD|]. destruct I0 as (R & U & T). apply tval_sim; [unfold jh; destruct u; reflexivity| |].
    + assert (X1 : st (p_tile (ow j j) (upan k (ow j j)) j) = lst (tL j k)) by (apply U; [apply ow_in|lia|symmetry; apply ow_co]).
      unfold jh. destruct u; cbn [tj_in jherk map]; rewrite X1; reflexivity.
    + rewrite !OD. apply R; lia.
Qed.
Lemma step_run : forall k st lst, 0 <= k < N -> CR st lst -> CR (erun mem (e_step k) st) (trun (l_step k) lst).
Proof using GA NT.
  intros k st lst L R. unfold e_step, l_step. rewrite erun_app, (trun_app [_]).
  assert (R1 : CR (erun mem [ELoc (ow k k) (jpotrf kn u (sz k) (tD (ow k k) k k))] st) (trun [jpotrf kn u (sz k) (tL k k)] lst)).
  { cbn [erun fold_left eexec trun]. apply (CR_exec st lst _ _ k k R); [reflexivity|reflexivity|]. apply tval_sim; [reflexivity|reflexivity|]. cbn. apply R; exact L. }
  clear R. revert R1. generalize (erun mem [ELoc (ow k k) (jpotrf kn u (sz k) (tD (ow k k) k k))] st) (trun [jpotrf kn u (sz k) (tL k k)] lst). clear st lst. intros st lst R.
  destruct (Z.eqb_spec (k + 1) N) as [E|NE].
  - unfold for_up. rewrite E, zrange_nil by lia. exact R.
  - assert (L2 : k + 1 < N) by lia. rewrite !erun_app. destruct (diag_run k st lst L R) as [R1 D1]. pose proof (trsm_run k _ _ ltac:(lia) L2 R1 D1) as R2.
    pose proof (bc_run k _ _ ltac:(lia) L2 R2) as R3. cbv zeta in R3. rewrite erun_app in R3. pose proof (trail_run k _ _ ltac:(lia) L2 R3) as (R4 & _). unfold for_up. rewrite trun_app. exact R4.
Qed.
Theorem dist_cholesky_sim : forall st0 lst (QP : tstore (mat K) -> Prop), CR st0 lst ->
  (forall st, CR st (trun (cholesky_factorization kn t u) lst) -> QP st) ->
  every_run mem rks (dist_cholesky kn P Q D u) st0 QP.
Proof using GA NT SZ.
  intros st0 lst QP R H. apply (every_run_intro mem rks (dist_cholesky kn P Q D u) (flat_map e_step (zrange 0 N))).
  - apply program_proj.
  - apply forall_flat. intros k Lk. apply in_zrange in Lk. apply step_ok. exact Lk.
  - intros st E. apply H. rewrite local_generic. assert (G : CR (erun mem (flat_map e_step (zrange 0 N)) st0) (trun (for_up 0 N l_step) lst)).
    { apply (sim_loop P Q e_step l_step CR); [|exact R]. intros k s ls Lk. apply in_zrange in Lk. apply step_run. exact Lk. }
    intros i j Li Lj. rewrite E. apply G; assumption.
Qed.
End proofs.
