(** * Phases of the distributed reduction to standard form, both variants at once, seen through the lower triangle. *)
From Coq Require Import ZArith Lia List Bool.
From Verif Require Import CInt Loop StarField DenseSpec Tiling DenseJobs TileJobs Reorder DistModel DistSpec DistBuilt DistThms DistMachine DistGrid PanelModel PanelProofs DistSim DistProg DistPhase CholeskyModel CholeskyProofs GenToStdModel GenToStdProofs DistCholeskyModel DistCholeskyProofs DistInverseModel DistInverseProofs DistGenToStdModel DistGenToStdProofs.
Import ListNotations.
Local Open Scope Z_scope.

Section proofs.
Context {K : starfield} (kn : kernels K).
Variables P Q : Z.
Variable Ls : coord -> layout.
Variable D : coord -> Z -> axis.
Variable nt : coord -> Z.
Hypothesis GA : grid_axes P Q Ls D nt.
Variable t : tiling.
Notation N := (tl_n t).
Hypothesis NT : forall rc, nt rc = N.
Hypothesis SZ : forall r rc k, In r (ranks P Q) -> 0 <= k < N -> DistCholeskyModel.szd Q D r rc k = tl_sz t k.
Variable u : uplo.
Notation rc := (match u with Lower => Row | Upper => Col end).
Notation rT := (match u with Lower => Col | Upper => Row end).
Notation own c k := (tile_owner (Ls c) k).
Notation co := (co Q).
Notation rks := (ranks P Q).
Notation sz := (tl_sz t).
Notation szd := (szd Q D).
Notation tD := (tD u).
Notation tA := (tu u).
Notation tL := (GenToStdProofs.tL u).
Notation ngl := (ngl Q D).
Notation lgl := (lgl Q D).
Notation nrt := (nrt Q D).
Notation nx := (t_nx Q D).
Notation gl := (t_gl Q D).
Notation lnr := (lnr Q D).
Notation mkref := (mkref Q Ls).
Notation phase := (phase (V:=mat K) P Q Ls 2).
Notation owT := (owT Q Ls).
Notation pj := (pj (V:=mat K) Q Ls).
Notation sj := (sj (V:=mat K)).
Notation town := (town' P Q Ls D nt GA).
Notation lglh := (lgl_here' P Q Ls D nt GA t NT).
Notation nglh := (ngl_here P Q Ls D nt GA t NT).
Notation lnre := (lnr_end P Q Ls D nt GA t NT).
Notation nrtN := (nrt_N' P Q Ls D nt GA t NT).

(** ** Tiles *)
Definition tDL (r i j : Z) : tid := match u with Lower => ML_ r i j | Upper => ML_ r j i end.
Lemma at_tL : forall r i j, at_ r (tL i j) = tDL r i j.
Proof using. intros r i j. unfold GenToStdProofs.tL, sw, L_, tDL, ML_, at_. destruct u; reflexivity. Qed.
Lemma tc_tL : forall i j, tc rc (tL i j) = i /\ tc rT (tL i j) = j.
Proof using. intros i j. unfold GenToStdProofs.tL, sw, L_. destruct u; auto. Qed.
Lemma lt_tL : forall i j, ltile 2 (tL i j).
Proof using. intros i j. unfold ltile, GenToStdProofs.tL, sw, L_. destruct u; cbn; lia. Qed.
Lemma lt_tA : forall i j, ltile 2 (tA i j).
Proof using. intros i j. unfold ltile, tu, sw, A_. destruct u; cbn; lia. Qed.
Lemma ow_tL : forall i j, owT (tL i j) = owT (tA i j).
Proof using. intros i j. unfold DistProg.owT, GenToStdProofs.tL, tu, sw, L_, A_. destruct u; reflexivity. Qed.
Lemma tA_ne : forall i j i' j', i <> i' \/ j <> j' -> tA i j <> tA i' j'.
Proof using. intros i j i' j' H E. apply tu_inj in E. lia. Qed.
(** the jobs that write a tile *)
Lemma pj_on : forall r (l : list sj) i j, In r rks -> (forall s, In s l -> s_out s = tA i j) -> own rc i = co rc r -> own rT j = co rT r -> pj r l = map (fun s => ALoc (djob r s)) l.
Proof using GA.
  intros r l i j R H A B. induction l as [|s l IH]; [reflexivity|]. change (s :: l) with ([s] ++ l). rewrite (pj_app Q Ls), IH by (intros x Ix; apply H; right; exact Ix). rewrite (pj_tu P Q Ls D nt GA u r s i j) by (try assumption; apply H; left; reflexivity). reflexivity.
Qed.
Lemma pj_off : forall r (l : list sj) i j, In r rks -> (forall s, In s l -> s_out s = tA i j) -> own rc i <> co rc r \/ own rT j <> co rT r -> pj r l = [].
Proof using GA.
  intros r l i j R H [A|A]; [apply (pj_other P Q Ls D nt GA r rc)|apply (pj_other P Q Ls D nt GA r rT)]; try exact R; intros s Is; rewrite (H s Is); destruct (tc_tu u i j) as [X Y]; [rewrite X|rewrite Y]; exact A.
Qed.

(** ** The program *)
Definition jfs m n a b : tjob (mat K) := match u with Lower => jtrsm kn Left Lower NoTrans NonUnit m n f1 a b | Upper => jtrsm kn Right Upper NoTrans NonUnit n m f1 a b end.
Definition jg2 m n k a b c : tjob (mat K) := match u with Lower => jgemm kn NoTrans NoTrans m n k (fopp f1) a b f1 c | Upper => jgemm kn NoTrans NoTrans n m k (fopp f1) b a f1 c end.
Definition jts m n a b : tjob (mat K) := match u with Lower => jtrsm kn Right Lower ConjTrans NonUnit m n f1 a b | Upper => jtrsm kn Left Upper ConjTrans NonUnit n m f1 a b end.
Definition jhm m n a b c : tjob (mat K) := match u with Lower => jhemm kn Right Lower m n (fopp fhalf) a b f1 c | Upper => jhemm kn Left Upper n m (fopp fhalf) a b f1 c end.
Definition jh2 n k a b c : tjob (mat K) := match u with Lower => jher2k kn Lower NoTrans n k (fopp f1) a b f1 c | Upper => jher2k kn Upper ConjTrans n k (fopp f1) a b f1 c end.
Definition jgp m n k a b c : tjob (mat K) := match u with Lower => jgemm kn NoTrans ConjTrans m n k (fopp f1) a b f1 c | Upper => jgemm kn ConjTrans NoTrans n m k (fopp f1) b a f1 c end.
Definition lpan (r k : Z) : panel := let p := fresh_panel (idL k) k (nrt r) in
  if t_own Q D r rT k =? co rT r then set_tiles Q D rc r (nx r rc k) (lnr r rc) (fun i => tDL r i (ngl r rT k)) p else p.
Definition arow (r k : Z) : panel := let p := fresh_panel (idAT k) 0 k in
  if t_own Q D r rc k =? co rc r then set_tiles Q D rT r 0 (nx r rT k) (fun j => tD r (ngl r rc k) j) p else p.
Definition adg (r k : Z) : panel := let p := fresh_panel (idAT k) k (k + 1) in
  if t_own Q D r rc k =? co rc r then set_tile p (ngl r rT k) (M_ r (lgl r Row k) (lgl r Col k)) else p.
Definition apn (r k : Z) : panel := let p := fresh_panel (idA k) (k + 1) (nrt r) in
  if t_own Q D r rT k =? co rT r then set_tiles Q D rc r (nx r rc (k + 1)) (lnr r rc) (fun i => tD r i (lgl r rT k)) p else p.
Definition b_L (r k : Z) := panel_broadcast2 (V:=mat K) P Q D rc r (t_own Q D r rT k) (lpan r k) (fresh_panel (idLT k) k (nrt r - 1)).
Definition b_A (r k : Z) := panel_broadcast2 (V:=mat K) P Q D rc r (t_own Q D r rT k) (apn r k) (fresh_panel (idAT k) (k + 1) (nrt r - 1)).
Definition a_fs (r k : Z) : list (act (mat K)) :=
  if t_own Q D r rc k =? co rc r then
    flat_map (fun l => let j := gl r rT l in [ALoc (jfs (szd r rc (ngl r rc k)) (szd r rT j) (p_tile r (lpan r k) (ngl r rc k)) (tD r (ngl r rc k) j))]) (zrange 0 (nx r rT k)) else [].
Definition a_g2 (r k : Z) : list (act (mat K)) :=
  flat_map (fun lj => let j := gl r rT lj in flat_map (fun li => let i := gl r rc li in
      [ALoc (jg2 (szd r rc i) (szd r rT j) (szd r rc k) (p_tile r (lpan r k) i) (p_tile r (arow r k) j) (tD r i j))]) (zrange (nx r rc (k + 1)) (lnr r rc))) (zrange 0 (nx r rT k)).
Definition a_hg (r k : Z) : list (act (mat K)) :=
  if (t_own Q D r Row k =? co Row r) && (t_own Q D r Col k =? co Col r) then [ALoc (jhegst kn u (szd r Row k) (M_ r (lgl r Row k) (lgl r Col k)) (ML_ r (lgl r Row k) (lgl r Col k)))] else [].
Definition a_pan (r k : Z) : list (act (mat K)) :=
  flat_map (fun l => let i := gl r rc l in
    [ALoc (jts (szd r rc i) (szd r rT (lgl r rT k)) (p_tile r (snd (b_L r k)) (ngl r rT k)) (tD r i (lgl r rT k)));
     ALoc (jhm (szd r rc i) (szd r rT (lgl r rT k)) (p_tile r (adg r k) (ngl r rT k)) (tDL r i (lgl r rT k)) (tD r i (lgl r rT k)))]) (zrange (nx r rc (k + 1)) (lnr r rc)).
Definition a_pair (r k i j : Z) : list (act (mat K)) :=
  let x := ALoc (jgp (szd r rc i) (szd r rT j) (szd r rT k) (p_tile r (apn r k) (lgl r rc i)) (p_tile r (snd (b_L r k)) (lgl r rT j)) (tD r (lgl r rc i) (lgl r rT j))) in
  let y := ALoc (jgp (szd r rc i) (szd r rT j) (szd r rT k) (p_tile r (lpan r k) (lgl r rc i)) (p_tile r (snd (b_A r k)) (lgl r rT j)) (tD r (lgl r rc i) (lgl r rT j))) in
  match u with Lower => [x; y] | Upper => [y; x] end.
Definition a_trl (r k : Z) : list (act (mat K)) :=
  flat_map (fun j => if t_own Q D r rT j =? co rT r then
      (if t_own Q D r rc j =? co rc r then [ALoc (jh2 (szd r Row j) (szd r rT k) (p_tile r (apn r k) (lgl r rc j)) (p_tile r (lpan r k) (lgl r rc j)) (tD r (lgl r rc j) (lgl r rT j)))] else []) ++
      flat_map (fun i => if t_own Q D r rc i =? co rc r then a_pair r k i j else []) (zrange (j + 1) (nrt r))
      else []) (zrange (k + 1) (nrt r)).
Definition a_lst (r k : Z) : list (act (mat K)) :=
  flat_map (fun l => let i := gl r rc l in
    [ALoc (jhm (szd r rc i) (szd r rT (lgl r rT k)) (p_tile r (adg r k) (ngl r rT k)) (tDL r i (lgl r rT k)) (tD r i (lgl r rT k)))]) (zrange (nx r rc (k + 1)) (lnr r rc)).
Definition d_gstep (r k : Z) : list (act (mat K)) :=
  fst (b_L r k) ++ a_fs r k ++
  (if k <? nrt r - 1 then panel_broadcast P Q D rT r (t_own Q D r rc k) (arow r k) ++ a_g2 r k else []) ++ a_hg r k ++
  (if k =? nrt r - 1 then [] else
    (if t_own Q D r rT k =? co rT r then panel_broadcast P Q D rT r (t_own Q D r rc k) (adg r k) ++ a_pan r k else []) ++
    (fst (b_A r k) ++ a_trl r k ++ (if t_own Q D r rT k =? co rT r then a_lst r k else []))).
Lemma dist_g2s_generic : forall r, dist_gen_to_std kn P Q D u r = flat_map (d_gstep r) (zrange 0 (nrt r)).
Proof using.
  intros r. unfold dist_gen_to_std, g2s_call_L, g2s_call_U, d_gstep, g2s_step_L, g2s_step_U, a_fs, a_g2, a_hg, a_pan, a_trl, a_pair, a_lst, b_L, b_A, lpan, arow, adg, apn,
    g2s_trsm_L, g2s_trsm_U, g2s_gemm_L, g2s_gemm_U, g2s_panel_L, g2s_panel_U, g2s_trail_L, g2s_trail_U, g2s_last_L, g2s_last_U, l_panel_L, u_panel_U, a_row_L, a_col_U, a_diag_L, a_diag_U, a_panel_L, a_panel_U,
    jfs, jg2, jts, jhm, jh2, jgp, tDL, DistCholeskyProofs.tD.
  destruct u; reflexivity.
Qed.

(** ** Panels *)
Definition RL (k : Z) : pref := mkref (idL k) k N rc (own rT k) (fun i => tL i k).
Definition RLT (k : Z) : pref := refT Q Ls (idL k) k N rc (own rT k) (fun i => tL i k) (idLT k) k (N - 1).
Definition RT (k : Z) : pref := mkref (idAT k) 0 k rT (own rc k) (fun j => tA k j).
Definition RD (k : Z) : pref := mkref (idAT k) k (k + 1) rT (own rc k) (fun j => tA k j).
Definition RA (k : Z) : pref := mkref (idA k) (k + 1) N rc (own rT k) (fun i => tA i k).
Definition RAT (k : Z) : pref := refT Q Ls (idA k) (k + 1) N rc (own rT k) (fun i => tA i k) (idAT k) (k + 1) (N - 1).
Lemma ids : forall k, (2 <= idL k /\ 2 <= idLT k /\ 2 <= idA k /\ 2 <= idAT k) /\ (idL k <> idLT k /\ idL k <> idA k /\ idL k <> idAT k /\ idLT k <> idA k /\ idLT k <> idAT k /\ idA k <> idAT k).
Proof using. intros k. unfold idL, idLT, idA, idAT. pose proof (Z.mod_pos_bound k 2). lia. Qed.
Ltac idn k := let X := fresh "X" in pose proof (ids k) as X; destruct X as ((?I1 & ?I2 & ?I3 & ?I4) & (?I5 & ?I6 & ?I7 & ?I8 & ?I9 & ?I10)).
Lemma soL : forall k lo, src_ok P Q Ls 2 rc (own rT k) lo N (fun i => tL i k).
Proof using GA. intros k lo. unfold src_ok. rewrite (proj1 (othr u)). split; [apply (own_range P Q Ls D nt GA)|]. intros i _. split; [apply lt_tL|]. destruct (tc_tL i k) as [-> ->]. auto. Qed.
Lemma soA : forall k lo, src_ok P Q Ls 2 rc (own rT k) lo N (fun i => tA i k).
Proof using GA. intros k lo. unfold src_ok. rewrite (proj1 (othr u)). split; [apply (own_range P Q Ls D nt GA)|]. intros i _. split; [apply lt_tA|]. destruct (tc_tu u i k) as [-> ->]. auto. Qed.
Lemma soT : forall k lo hi, src_ok P Q Ls 2 rT (own rc k) lo hi (fun j => tA k j).
Proof using GA. intros k lo hi. unfold src_ok. rewrite (proj2 (othr u)). split; [apply (own_range P Q Ls D nt GA)|]. intros i _. split; [apply lt_tA|]. destruct (tc_tu u k i) as [-> ->]. auto. Qed.
Lemma gL : forall k, pgood P Q Ls 2 (RL k). Proof using GA. intros k. idn k. apply mkref_good; [apply soL|assumption]. Qed.
Lemma gT : forall k, pgood P Q Ls 2 (RT k). Proof using GA. intros k. idn k. apply mkref_good; [apply soT|assumption]. Qed.
Lemma gD : forall k, pgood P Q Ls 2 (RD k). Proof using GA. intros k. idn k. apply mkref_good; [apply soT|assumption]. Qed.
Lemma gA : forall k, pgood P Q Ls 2 (RA k). Proof using GA. intros k. idn k. apply mkref_good; [apply soA|assumption]. Qed.
Lemma gLT : forall k, 0 <= k < N -> pgood P Q Ls 2 (RLT k).
Proof using GA NT. intros k L. idn k. apply (refT_good P Q Ls nt 2); try assumption; try lia; [apply soL|rewrite NT; lia]. Qed.
Lemma gAT : forall k, 0 <= k < N - 1 -> pgood P Q Ls 2 (RAT k).
Proof using GA NT. intros k L. idn k. apply (refT_good P Q Ls nt 2); try assumption; try lia; [apply soA|rewrite NT; lia]. Qed.
Lemma lpan_eq : forall r k, In r rks -> 0 <= k < N -> panel_eq (lpan r k) (pr_pf (RL k) r).
Proof using GA NT.
  intros r k R L. unfold lpan. cbv zeta. rewrite town, nrtN, lnre by (try assumption; lia).
  pose proof (links_eq P Q Ls D nt GA rc r (own rT k) (idL k) k N (fun i => tL i k) (fun i => tDL r i (ngl r rT k)) R ltac:(lia) ltac:(rewrite NT; lia)) as X. rewrite (proj1 (othr u)) in X.
  apply X. intros i Li Oi E. rewrite at_tL, nglh by (try assumption; try lia; symmetry; exact E). reflexivity.
Qed.
Lemma apn_eq : forall r k, In r rks -> 0 <= k < N - 1 -> panel_eq (apn r k) (pr_pf (RA k) r).
Proof using GA NT.
  intros r k R L. unfold apn. cbv zeta. rewrite town, nrtN, lnre by (try assumption; lia).
  pose proof (links_eq P Q Ls D nt GA rc r (own rT k) (idA k) (k + 1) N (fun i => tA i k) (fun i => tD r i (lgl r rT k)) R ltac:(lia) ltac:(rewrite NT; lia)) as X. rewrite (proj1 (othr u)) in X.
  apply X. intros i Li Oi E. rewrite at_tu, lglh by (try assumption; try lia; symmetry; exact E). reflexivity.
Qed.
Lemma arow_eq : forall r k, In r rks -> 0 <= k < N -> panel_eq (arow r k) (pr_pf (RT k) r).
Proof using GA NT.
  intros r k R L. unfold arow. cbv zeta. rewrite town by (try exact R; lia).
  pose proof (links_eq P Q Ls D nt GA rT r (own rc k) (idAT k) 0 k (fun j => tA k j) (fun j => tD r (ngl r rc k) j) R ltac:(lia) ltac:(rewrite NT; lia)) as X. rewrite (proj2 (othr u)) in X.
  rewrite (nx0 P Q Ls D nt GA) in X by exact R. apply X. intros i Li Oi E. rewrite at_tu, nglh by (try assumption; try lia; symmetry; exact E). reflexivity.
Qed.
Lemma adg_eq : forall r k, In r rks -> 0 <= k < N -> own rT k = co rT r -> panel_eq (adg r k) (pr_pf (RD k) r).
Proof using GA NT.
  intros r k R L O. unfold adg. cbv zeta. rewrite town by (try exact R; lia). unfold panel_eq, RD. cbn [DistProg.mkref pr_pf npan p_id p_lo p_hi p_ext]. rewrite (proj2 (othr u)), (Z.eqb_sym (own rc k)).
  destruct (Z.eqb_spec (co rc r) (own rc k)) as [E|E]; cbn [andb]; [|cbn; auto]. cbn [set_tile p_id p_lo p_hi p_ext fresh_panel]. repeat split. intros i. rewrite nglh by assumption.
  destruct (Z.eqb_spec i k) as [->|NE].
  - rewrite (proj2 (Z.leb_le k k)), (proj2 (Z.ltb_lt k (k + 1))), O, Z.eqb_refl by lia. cbn [andb]. f_equal. rewrite at_tu.
    assert (X : own Row k = co Row r /\ own Col k = co Col r) by (destruct u; auto). rewrite !lglh by (try assumption; apply X). unfold DistCholeskyProofs.tD. destruct u; reflexivity.
  - destruct (Z.leb_spec k i), (Z.ltb_spec i (k + 1)); cbn [andb]; try reflexivity. lia.
Qed.
Lemma bL_T : forall r k, In r rks -> 0 <= k < N -> panel_eq (snd (b_L r k)) (pr_pf (RLT k) r).
Proof using GA NT.
  intros r k R L. idn k. unfold b_L. rewrite town, nrtN by (try exact R; lia). apply (bc2_panel P Q Ls D nt GA 2); try assumption; try lia; [apply soL|rewrite NT; lia|rewrite NT; lia|apply lpan_eq; assumption].
Qed.
Lemma bA_T : forall r k, In r rks -> 0 <= k < N - 1 -> panel_eq (snd (b_A r k)) (pr_pf (RAT k) r).
Proof using GA NT.
  intros r k R L. idn k. unfold b_A. rewrite town, nrtN by (try exact R; lia). apply (bc2_panel P Q Ls D nt GA 2); try assumption; try lia; [apply soA|rewrite NT; lia|rewrite NT; lia|apply apn_eq; assumption].
Qed.
Lemma domc : forall R lo hi i j, pr_rc R = rc -> pr_lo R = lo -> pr_hi R = hi -> lo <= i < hi -> pdom P Q Ls R (owT (tA i j)) i.
Proof using GA. intros R lo hi i j E1 E2 E3 L. split; [apply (owT_in P Q Ls D nt GA)|]. rewrite E1, E2, E3. split; [exact L|]. symmetry. apply (ow_co' P Q Ls D nt GA u). Qed.
Lemma domT : forall R lo hi i j, pr_rc R = rT -> pr_lo R = lo -> pr_hi R = hi -> lo <= j < hi -> pdom P Q Ls R (owT (tA i j)) j.
Proof using GA. intros R lo hi i j E1 E2 E3 L. split; [apply (owT_in P Q Ls D nt GA)|]. rewrite E1, E2, E3. split; [exact L|]. symmetry. apply (ow_co' P Q Ls D nt GA u). Qed.
(** ** Jobs *)
Definition s_fs (k c : Z) : sj := SJ [SPan (RL k) k] (tA k c) (in1 (fun A B => o_fs kn u (sz k) (sz c) A B)).
Definition s_g2 (k c i : Z) : sj := match u with
  | Lower => SJ [SPan (RL k) i; SPan (RT k) c] (tA i c) (in2 (fun A B C => o_g2 kn u (sz i) (sz c) (sz k) A B C))
  | Upper => SJ [SPan (RT k) c; SPan (RL k) i] (tA i c) (in2 (fun B A C => o_g2 kn u (sz i) (sz c) (sz k) A B C)) end.
Definition s_hg (k : Z) : sj := SJ [SOwn (tL k k)] (tA k k) (in1 (fun L A => hegst kn u (sz k) A L)).
Definition s_ts (k i : Z) : sj := SJ [SPan (RLT k) k] (tA i k) (in1 (fun A B => o_trsm kn u (sz i) (sz k) A B)).
Definition s_hm (k i : Z) : sj := SJ [SPan (RD k) k; SOwn (tL i k)] (tA i k) (in2 (fun A B C => o_hemm kn u (sz i) (sz k) A B C)).
Definition s_h2 (k j : Z) : sj := SJ [SPan (RA k) j; SPan (RL k) j] (tA j j) (in2 (fun A B C => o_her2k kn u (sz j) (sz k) A B C)).
Definition s_gp (k i j : Z) : list sj := match u with
  | Lower => [SJ [SPan (RA k) i; SPan (RLT k) j] (tA i j) (in2 (fun A B C => o_gemm kn u (sz i) (sz j) (sz k) A B C));
              SJ [SPan (RL k) i; SPan (RAT k) j] (tA i j) (in2 (fun A B C => o_gemm kn u (sz i) (sz j) (sz k) A B C))]
  | Upper => [SJ [SPan (RAT k) j; SPan (RL k) i] (tA i j) (in2 (fun B A C => o_gemm kn u (sz i) (sz j) (sz k) A B C));
              SJ [SPan (RLT k) j; SPan (RA k) i] (tA i j) (in2 (fun B A C => o_gemm kn u (sz i) (sz j) (sz k) A B C))] end.
Lemma sg2_out : forall k c i, s_out (s_g2 k c i) = tA i c. Proof using. intros. unfold s_g2. destruct u; reflexivity. Qed.
Lemma sg2_in : forall k c i x, In x (s_in (s_g2 k c i)) -> x = SPan (RL k) i \/ x = SPan (RT k) c.
Proof using. intros k c i x. unfold s_g2. destruct u; cbn; intuition. Qed.
Lemma sgp_out : forall k i j s, In s (s_gp k i j) -> s_out s = tA i j. Proof using. intros k i j s. unfold s_gp. destruct u; cbn; intros [<-|[<-|[]]]; reflexivity. Qed.
Lemma sgp_in : forall k i j s x, In s (s_gp k i j) -> In x (s_in s) -> x = SPan (RL k) i \/ x = SPan (RA k) i \/ x = SPan (RLT k) j \/ x = SPan (RAT k) j.
Proof using. intros k i j s x. unfold s_gp. destruct u; cbn; intros [<-|[<-|[]]]; cbn; intuition. Qed.
(** the tiles behind live panels are not written *)
Definition kept (live : list pref) (x : tid) : Prop := forall R i, In R live -> pr_lo R <= i < pr_hi R -> pr_src R i <> x.
Lemma kept_nil : forall x, kept [] x. Proof using. intros x R i []. Qed.
Lemma kept_cons : forall R l x, (forall i, pr_lo R <= i < pr_hi R -> pr_src R i <> x) -> kept l x -> kept (R :: l) x.
Proof using. intros R l x H1 H2 R' i [<-|I0] L; [apply H1; exact L|apply H2; assumption]. Qed.
Lemma kL : forall k l i j, kept l (tA i j) -> kept (RL k :: RLT k :: l) (tA i j).
Proof using. intros k l i j H. apply kept_cons; [|apply kept_cons; [|exact H]]; intros q _ E; cbn in E; symmetry in E; exact (tA_tL _ _ _ _ _ E). Qed.
Lemma kT : forall k l i j, i <> k -> kept l (tA i j) -> kept (RT k :: l) (tA i j).
Proof using. intros k l i j H H'. apply kept_cons; [|exact H']. intros q _. apply tA_ne. lia. Qed.
Lemma kD : forall k l i j, i <> k \/ j <> k -> kept l (tA i j) -> kept (RD k :: l) (tA i j).
Proof using. intros k l i j H H'. apply kept_cons; [|exact H']. intros q L. cbn in L. apply tA_ne. lia. Qed.
Lemma kA : forall k l i j, j <> k -> kept l (tA i j) -> kept (RA k :: RAT k :: l) (tA i j).
Proof using. intros k l i j H H'. apply kept_cons; [|apply kept_cons; [|exact H']]; intros q _; apply tA_ne; lia. Qed.

(** ** Phases *)
Definition LL (k : Z) : list pref := [RL k; RLT k].
Lemma gLL : forall k, 0 <= k < N -> Forall (pgood P Q Ls 2) (LL k).
Proof using GA NT. intros k L. constructor; [apply gL|]. constructor; [apply gLT; exact L|constructor]. Qed.
Lemma ph_js : forall live prog l lp, Forall (pgood P Q Ls 2) live -> map ljob l = lp -> (forall s, In s l -> sj_ok (V:=mat K) P Q Ls 2 live s) -> (forall r, In r rks -> prog r = pj r l) -> phase live live prog lp.
Proof using GA. intros live prog l lp G <- O H. apply (ph_jobs P Q Ls D nt GA 2); [exact G| |exact H]. apply Forall_forall. exact O. Qed.
Lemma p_bL : forall k, 0 <= k < N -> phase [] (LL k) (fun r => fst (b_L r k)) [].
Proof using GA NT.
  intros k L. idn k. apply (ph_bc2 P Q Ls D nt GA 2); try assumption; try lia; [apply soL|rewrite NT; lia|rewrite NT; lia|intros ? []|].
  intros r R. exists (lpan r k). split; [apply lpan_eq; assumption|]. unfold b_L. rewrite town, nrtN by (try exact R; lia). reflexivity.
Qed.
Lemma p_fs : forall k, 0 <= k < N -> phase (LL k) (LL k) (fun r => a_fs r k) (d_fs kn t u k).
Proof using GA NT SZ.
  intros k L. apply (ph_js _ _ (flat_map (fun c => [s_fs k c]) (zrange 0 k))).
  - apply gLL. exact L.
  - rewrite map_flat. reflexivity.
  - intros s I0. apply in_flat_map in I0 as (c & Ic & [<-|[]]). apply in_zrange in Ic. split; [apply lt_tA|]. split; [|apply kL; apply kept_nil].
    intros x [<-|[]]. cbn [s_fs s_out ref_ok]. split; [left; reflexivity|]. apply (domc _ k N); try reflexivity. lia.
  - intros r R. unfold a_fs. rewrite town by (try exact R; lia). destruct (Z.eqb_spec (own rc k) (co rc r)) as [O|O].
    + apply (loop_pj0 P Q Ls D nt GA r rT k (fun j => [ALoc (jfs (szd r rc (ngl r rc k)) (szd r rT j) (p_tile r (lpan r k) (ngl r rc k)) (tD r (ngl r rc k) j))])); [exact R|lia|rewrite NT; lia| |].
      * intros j Lj Oj. rewrite (pj_on r _ k j) by (try assumption; intros s [<-|[]]; reflexivity). cbn [map]. rewrite nglh by assumption. rewrite !SZ by (try exact R; lia).
        rewrite (rd_pan (RL k) r (lpan r k) k) by (apply lpan_eq; assumption). rewrite <- at_tu. unfold jfs, djob, s_fs, o_fs. destruct u; reflexivity.
      * intros j Lj Oj. apply (pj_off r _ k j); [exact R|intros s [<-|[]]; reflexivity|right; exact Oj].
    + symmetry. rewrite (pj_flat Q Ls). apply flat_map_nil. intros c _. apply (pj_off r _ k c); [exact R|intros s [<-|[]]; reflexivity|left; exact O].
Qed.
Lemma p_bT : forall k, 0 <= k < N - 1 -> phase (LL k) (RT k :: LL k) (fun r => panel_broadcast P Q D rT r (t_own Q D r rc k) (arow r k)) [].
Proof using GA NT.
  intros k L. idn k. apply (ph_bc P Q Ls D nt GA 2); try assumption; try lia; [apply soT|rewrite NT; lia| |].
  - intros R [<-|[<-|[]]]; (split; [first [apply gL|apply gLT; lia]|]); apply apart_id; intros r i DM; [eapply (mkref_mat P Q Ls 2)|eapply (refT_mat P Q Ls 2)]; try exact DM; try assumption; try lia; intros q _; apply lt_tL.
  - intros r R. exists (arow r k). split; [apply arow_eq; [exact R|lia]|]. rewrite town by (try exact R; lia). reflexivity.
Qed.
Lemma p_g2 : forall k, 0 <= k < N - 1 -> phase (RT k :: LL k) (RT k :: LL k) (fun r => a_g2 r k) (d_g2 kn t u k).
Proof using GA NT SZ.
  intros k L. apply (ph_js _ _ (flat_map (fun c => flat_map (fun i => [s_g2 k c i]) (zrange (k + 1) N)) (zrange 0 k))).
  - constructor; [apply gT|apply gLL; lia].
  - rewrite map_flat. unfold d_g2, for_up. apply flat_map_ext_in. intros c _. rewrite map_flat. apply flat_map_ext_in. intros i _. unfold s_g2, g_g2, RL, RT. destruct u; reflexivity.
  - intros s I0. apply in_flat_map in I0 as (c & Ic & I0). apply in_zrange in Ic. apply in_flat_map in I0 as (i & Ii & [<-|[]]). apply in_zrange in Ii. unfold sj_ok. rewrite sg2_out. split; [apply lt_tA|]. split; [|apply kT; [lia|apply kL; apply kept_nil]].
    intros x Ix. apply sg2_in in Ix as [-> | ->]; cbn [ref_ok]; [split; [right; left; reflexivity|apply (domc _ k N); try reflexivity; lia]|split; [left; reflexivity|apply (domT _ 0 k); try reflexivity; lia]].
  - intros r R. unfold a_g2.
    apply (loop_pj0 P Q Ls D nt GA r rT k (fun j => flat_map (fun li => let i := gl r rc li in [ALoc (jg2 (szd r rc i) (szd r rT j) (szd r rc k) (p_tile r (lpan r k) i) (p_tile r (arow r k) j) (tD r i j))]) (zrange (nx r rc (k + 1)) (lnr r rc)))); [exact R|lia|rewrite NT; lia| |].
    + intros j Lj Oj. rewrite lnre by exact R.
      apply (loop_pj P Q Ls D nt GA r rc (k + 1) N (fun i => [ALoc (jg2 (szd r rc i) (szd r rT j) (szd r rc k) (p_tile r (lpan r k) i) (p_tile r (arow r k) j) (tD r i j))])); [exact R|lia|rewrite NT; lia| |].
      * intros i Li Oi. rewrite (pj_on r _ i j) by (try assumption; intros s [<-|[]]; apply sg2_out). cbn [map]. rewrite !SZ by (try exact R; lia).
        rewrite (rd_pan (RL k) r (lpan r k) i) by (apply lpan_eq; [exact R|lia]). rewrite (rd_pan (RT k) r (arow r k) j) by (apply arow_eq; [exact R|lia]). rewrite <- at_tu. unfold jg2, djob, s_g2, o_g2. destruct u; reflexivity.
      * intros i Li Oi. apply (pj_off r _ i j); [exact R|intros s [<-|[]]; apply sg2_out|left; exact Oi].
    + intros j Lj Oj. rewrite (pj_flat Q Ls). apply flat_map_nil. intros i _. apply (pj_off r _ i j); [exact R|intros s [<-|[]]; apply sg2_out|right; exact Oj].
Qed.
Lemma p_hg : forall k, 0 <= k < N -> phase (LL k) (LL k) (fun r => a_hg r k) [g_hg kn t u k].
Proof using GA NT SZ.
  intros k L. apply (ph_js _ _ [s_hg k]).
  - apply gLL. exact L.
  - reflexivity.
  - intros s [<-|[]]. split; [apply lt_tA|]. split; [|apply kL; apply kept_nil]. intros x [<-|[]]. cbn [s_hg s_out ref_ok]. split; [apply lt_tL|apply ow_tL].
  - intros r R. unfold a_hg. rewrite !town by (try exact R; lia). destruct (Z.eqb_spec (own Row k) (co Row r)) as [A|A]; [destruct (Z.eqb_spec (own Col k) (co Col r)) as [B|B]|]; cbn [andb].
    + rewrite (pj_on r _ k k); [|exact R|intros s [<-|[]]; reflexivity|destruct u; assumption|destruct u; assumption]. cbn [map]. rewrite !lglh by assumption. rewrite SZ by assumption.
      unfold djob, s_hg. cbn [s_in s_out s_f map dref]. rewrite at_tu, at_tL. unfold jhegst, DistCholeskyProofs.tD, tDL. destruct u; reflexivity.
    + symmetry. apply (pj_off r _ k k); [exact R|intros s [<-|[]]; reflexivity|destruct u; [right|left]; exact B].
    + symmetry. apply (pj_off r _ k k); [exact R|intros s [<-|[]]; reflexivity|destruct u; [left|right]; exact A].
Qed.
Lemma p_bD : forall k, 0 <= k < N - 1 -> phase (LL k) (RD k :: LL k) (fun r => if own rT k =? co rT r then panel_broadcast P Q D rT r (t_own Q D r rc k) (adg r k) else []) [].
Proof using GA NT.
  intros k L. idn k. apply (ph_bc_one P Q Ls D nt GA 2); try assumption; try lia; [apply soT|rewrite NT; lia| | |].
  - intros R [<-|[<-|[]]]; (split; [first [apply gL|apply gLT; lia]|]); apply apart_id; intros r i DM; [eapply (mkref_mat P Q Ls 2)|eapply (refT_mat P Q Ls 2)]; try exact DM; try assumption; try lia; intros q _; apply lt_tL.
  - intros r R O. exists (adg r k). split; [apply adg_eq; try assumption; lia|]. rewrite O, Z.eqb_refl, town by (try exact R; lia). reflexivity.
  - intros r R O. rewrite (proj2 (Z.eqb_neq _ _) O). reflexivity.
Qed.
Lemma hm_ok : forall live k i, In (RD k) live -> 0 <= k -> kept live (tA i k) -> sj_ok P Q Ls 2 live (s_hm k i).
Proof using GA.
  intros live k i IR Lk KP. split; [apply lt_tA|]. split; [|exact KP]. intros x [<-|[<-|[]]]; cbn [s_hm s_out ref_ok]; [split; [exact IR|apply (domT _ k (k + 1)); try reflexivity; lia]|split; [apply lt_tL|apply ow_tL]].
Qed.
Lemma p_pan : forall k, 0 <= k < N - 1 -> phase (RD k :: LL k) (RD k :: LL k) (fun r => if own rT k =? co rT r then a_pan r k else []) (g_pan kn t u k).
Proof using GA NT SZ.
  intros k L. apply (ph_js _ _ (flat_map (fun i => [s_ts k i; s_hm k i]) (zrange (k + 1) N))).
  - constructor; [apply gD|apply gLL; lia].
  - rewrite map_flat. reflexivity.
  - intros s I0. apply in_flat_map in I0 as (i & Ii & I0). apply in_zrange in Ii. assert (KP : kept (RD k :: LL k) (tA i k)) by (apply kD; [lia|apply kL; apply kept_nil]). destruct I0 as [<-|[<-|[]]].
    + split; [apply lt_tA|]. split; [|exact KP]. intros x [<-|[]]. cbn [s_ts s_out ref_ok]. split; [right; right; left; reflexivity|]. apply (domT _ k (N - 1)); try reflexivity; [apply (othr u)|lia].
    + apply hm_ok; [left; reflexivity|lia|exact KP].
  - intros r R. destruct (Z.eqb_spec (own rT k) (co rT r)) as [O|O].
    + unfold a_pan. rewrite lnre by exact R.
      apply (loop_pj P Q Ls D nt GA r rc (k + 1) N (fun i => [ALoc (jts (szd r rc i) (szd r rT (lgl r rT k)) (p_tile r (snd (b_L r k)) (ngl r rT k)) (tD r i (lgl r rT k)));
         ALoc (jhm (szd r rc i) (szd r rT (lgl r rT k)) (p_tile r (adg r k) (ngl r rT k)) (tDL r i (lgl r rT k)) (tD r i (lgl r rT k)))])); [exact R|lia|rewrite NT; lia| |].
      * intros i Li Oi. rewrite (pj_on r _ i k) by (try assumption; intros s [<-|[<-|[]]]; reflexivity). cbn [map]. rewrite nglh, lglh by (try assumption; lia). rewrite !SZ by (try exact R; lia).
        rewrite (rd_pan (RLT k) r (snd (b_L r k)) k) by (apply bL_T; [exact R|lia]). rewrite (rd_pan (RD k) r (adg r k) k) by (apply adg_eq; try assumption; lia). rewrite <- at_tu, <- at_tL.
        unfold jts, jhm, djob, s_ts, s_hm, o_trsm, o_hemm. destruct u; reflexivity.
      * intros i Li Oi. apply (pj_off r _ i k); [exact R|intros s [<-|[<-|[]]]; reflexivity|left; exact Oi].
    + symmetry. rewrite (pj_flat Q Ls). apply flat_map_nil. intros i _. apply (pj_off r _ i k); [exact R|intros s [<-|[<-|[]]]; reflexivity|right; exact O].
Qed.
Lemma p_bA : forall k, 0 <= k < N - 1 -> phase (RD k :: LL k) (RA k :: RAT k :: RD k :: LL k) (fun r => fst (b_A r k)) [].
Proof using GA NT.
  intros k L. idn k. apply (ph_bc2 P Q Ls D nt GA 2); try assumption; try lia; [apply soA|rewrite NT; lia|rewrite NT; lia| |].
  - intros R [<-|[<-|[<-|[]]]].
    + split; [apply gD|]. split; [apply apart_id; intros r i DM; eapply (mkref_mat P Q Ls 2); try exact DM; try assumption; try lia; intros q _; apply lt_tA|].
      intros r i i' DM Li' E. destruct DM as (Rr & Li & O). unfold ptile in E. cbn [RD DistProg.mkref pr_pf pr_lo pr_hi pr_rc] in *. rewrite (npan_tile P Q Ls) in E by assumption. destruct (_ =? own rc k).
      * pose proof (f_equal t_mat E) as E'. cbn [at_ t_mat] in E'. pose proof (lt_tA k i) as [_ X]. lia.
      * pose proof (f_equal t_row E) as E'. cbn [t_row] in E'. lia.
    + split; [apply gL|]. split; apply apart_id; intros r i DM; eapply (mkref_mat P Q Ls 2); try exact DM; try assumption; try lia; intros q _; apply lt_tL.
    + split; [apply gLT; lia|]. split; apply apart_id; intros r i DM; eapply (refT_mat P Q Ls 2); try exact DM; try assumption; try lia; intros q _; apply lt_tL.
  - intros r R. exists (apn r k). split; [apply apn_eq; assumption|]. unfold b_A. rewrite town, nrtN by (try exact R; lia). reflexivity.
Qed.
Lemma p_trl : forall k, 0 <= k < N - 1 -> phase (RA k :: RAT k :: RD k :: LL k) (RA k :: RAT k :: RD k :: LL k) (fun r => a_trl r k) (g_trl kn t u k).
Proof using GA NT SZ.
  intros k L. apply (ph_js _ _ (flat_map (fun j => [s_h2 k j] ++ flat_map (fun i => s_gp k i j) (zrange (j + 1) N)) (zrange (k + 1) N))).
  - constructor; [apply gA|]. constructor; [apply gAT; exact L|]. constructor; [apply gD|apply gLL; lia].
  - rewrite map_flat. unfold g_trl, g_trc, for_up. apply flat_map_ext_in. intros j _. rewrite map_app, map_flat. f_equal. apply flat_map_ext_in. intros i _. unfold s_gp, g_gp, RL, RLT, RA, RAT. destruct u; reflexivity.
  - assert (KP : forall i j, k < j -> kept (RA k :: RAT k :: RD k :: LL k) (tA i j)) by (intros i j Lj; apply kA; [lia|]; apply kD; [lia|]; apply kL; apply kept_nil).
    intros s I0. apply in_flat_map in I0 as (j & Ij & I0). apply in_zrange in Ij. apply in_app_or in I0 as [[<-|[]]|I0].
    + split; [apply lt_tA|]. split; [|apply KP; lia]. intros x [<-|[<-|[]]]; cbn [s_h2 s_out ref_ok]; [split; [left; reflexivity|apply (domc _ (k + 1) N); try reflexivity; lia]|split; [right; right; right; left; reflexivity|apply (domc _ k N); try reflexivity; lia]].
    + apply in_flat_map in I0 as (i & Ii & I0). apply in_zrange in Ii. unfold sj_ok. rewrite (sgp_out k i j s I0). split; [apply lt_tA|]. split; [|apply KP; lia]. intros x Ix. destruct (sgp_in k i j s x I0 Ix) as [->|[->|[->| ->]]]; cbn [ref_ok].
      * split; [right; right; right; left; reflexivity|apply (domc _ k N); try reflexivity; lia].
      * split; [left; reflexivity|apply (domc _ (k + 1) N); try reflexivity; lia].
      * split; [right; right; right; right; left; reflexivity|apply (domT _ k (N - 1)); try reflexivity; [apply (othr u)|lia]].
      * split; [right; left; reflexivity|apply (domT _ (k + 1) (N - 1)); try reflexivity; [apply (othr u)|lia]].
  - intros r R. unfold a_trl. rewrite nrtN by exact R. rewrite (pj_flat Q Ls). apply flat_map_ext_in. intros j Ij. apply in_zrange in Ij. rewrite !town by (try exact R; lia). destruct (Z.eqb_spec (own rT j) (co rT r)) as [Oj|Oj].
    + rewrite (pj_app Q Ls), (pj_flat Q Ls). f_equal.
      * destruct (Z.eqb_spec (own rc j) (co rc r)) as [Oi|Oi].
        { rewrite (pj_on r _ j j) by (try assumption; intros s [<-|[]]; reflexivity). cbn [map]. rewrite !lglh by (try assumption; lia). rewrite !SZ by (try exact R; lia).
          rewrite (rd_pan (RA k) r (apn r k) j) by (apply apn_eq; assumption). rewrite (rd_pan (RL k) r (lpan r k) j) by (apply lpan_eq; [exact R|lia]). rewrite <- at_tu. unfold jh2, djob, s_h2, o_her2k. destruct u; reflexivity. }
        { symmetry. apply (pj_off r _ j j); [exact R|intros s [<-|[]]; reflexivity|left; exact Oi]. }
      * apply flat_map_ext_in. intros i Ii. apply in_zrange in Ii. rewrite town by (try exact R; lia). destruct (Z.eqb_spec (own rc i) (co rc r)) as [Oi|Oi].
        { rewrite (pj_on r _ i j) by (try assumption; apply sgp_out). unfold a_pair. cbv zeta. rewrite !lglh by (try assumption; lia). rewrite !SZ by (try exact R; lia).
          rewrite (rd_pan (RA k) r (apn r k) i) by (apply apn_eq; assumption). rewrite (rd_pan (RL k) r (lpan r k) i) by (apply lpan_eq; [exact R|lia]).
          rewrite (rd_pan (RLT k) r (snd (b_L r k)) j) by (apply bL_T; [exact R|lia]). rewrite (rd_pan (RAT k) r (snd (b_A r k)) j) by (apply bA_T; assumption).
          rewrite <- at_tu. unfold jgp, djob, s_gp, o_gemm. destruct u; reflexivity. }
        { symmetry. apply (pj_off r _ i j); [exact R|apply sgp_out|left; exact Oi]. }
    + symmetry. rewrite (pj_app Q Ls), (pj_flat Q Ls), (pj_off r [s_h2 k j] j j); [|exact R|intros s [<-|[]]; reflexivity|right; exact Oj]. apply flat_map_nil. intros i _. apply (pj_off r _ i j); [exact R|apply sgp_out|right; exact Oj].
Qed.
Lemma p_lst : forall k, 0 <= k < N - 1 -> phase [RD k] [RD k] (fun r => if own rT k =? co rT r then a_lst r k else []) (g_hms kn t u k).
Proof using GA NT SZ.
  intros k L. apply (ph_js _ _ (flat_map (fun i => [s_hm k i]) (zrange (k + 1) N))).
  - constructor; [apply gD|constructor].
  - rewrite map_flat. reflexivity.
  - intros s I0. apply in_flat_map in I0 as (i & Ii & [<-|[]]). apply in_zrange in Ii. apply hm_ok; [left; reflexivity|lia|]. apply kD; [lia|apply kept_nil].
  - intros r R. destruct (Z.eqb_spec (own rT k) (co rT r)) as [O|O].
    + unfold a_lst. rewrite lnre by exact R.
      apply (loop_pj P Q Ls D nt GA r rc (k + 1) N (fun i => [ALoc (jhm (szd r rc i) (szd r rT (lgl r rT k)) (p_tile r (adg r k) (ngl r rT k)) (tDL r i (lgl r rT k)) (tD r i (lgl r rT k)))])); [exact R|lia|rewrite NT; lia| |].
      * intros i Li Oi. rewrite (pj_on r _ i k) by (try assumption; intros s [<-|[]]; reflexivity). cbn [map]. rewrite nglh, lglh by (try assumption; lia). rewrite !SZ by (try exact R; lia).
        rewrite (rd_pan (RD k) r (adg r k) k) by (apply adg_eq; try assumption; lia). rewrite <- at_tu, <- at_tL. unfold jhm, djob, s_hm, o_hemm. destruct u; reflexivity.
      * intros i Li Oi. apply (pj_off r _ i k); [exact R|intros s [<-|[]]; reflexivity|left; exact Oi].
    + symmetry. rewrite (pj_flat Q Ls). apply flat_map_nil. intros i _. apply (pj_off r _ i k); [exact R|intros s [<-|[]]; reflexivity|right; exact O].
Qed.
Lemma p_step : forall k, 0 <= k < N -> phase [] [] (fun r => d_gstep r k) (g_dstep kn t u k).
Proof using GA NT SZ.
  intros k L. unfold d_gstep, g_dstep, d_head. destruct (Z.eqb_spec k (N - 1)) as [->|NE].
  - assert (Z0 : d_g2 kn t u (N - 1) = []) by (unfold d_g2, for_up; apply flat_map_nil; intros c _; rewrite zrange_nil by lia; reflexivity). rewrite Z0. cbn [app].
    pose proof (ph_app _ _ _ _ _ _ _ _ _ _ _ (p_bL _ L) (ph_app _ _ _ _ _ _ _ _ _ _ _ (p_fs _ L) (ph_weak _ _ _ _ _ _ _ [] _ _ (p_hg _ L) (incl_refl _) (incl_nil_l _)))) as X.
    eapply ph_ext; [exact X|]. intros r R. rewrite nrtN by exact R. rewrite Z.ltb_irrefl, Z.eqb_refl, app_nil_r. reflexivity.
  - assert (L' : 0 <= k < N - 1) by lia.
    pose proof (ph_app _ _ _ _ _ _ _ _ _ _ _ (p_bT _ L') (ph_weak _ _ _ _ _ _ _ (LL k) _ _ (p_g2 _ L') (incl_refl _) (incl_tl _ (incl_refl _)))) as A3.
    assert (IC : incl [RD k] (RA k :: RAT k :: RD k :: LL k)) by (intros x [<-|[]]; right; right; left; reflexivity).
    pose proof (ph_app _ _ _ _ _ _ _ _ _ _ _ (p_bL _ L) (ph_app _ _ _ _ _ _ _ _ _ _ _ (p_fs _ L) (ph_app _ _ _ _ _ _ _ _ _ _ _ A3 (ph_app _ _ _ _ _ _ _ _ _ _ _ (p_hg _ L)
      (ph_app _ _ _ _ _ _ _ _ _ _ _ (p_bD _ L') (ph_app _ _ _ _ _ _ _ _ _ _ _ (p_pan _ L') (ph_app _ _ _ _ _ _ _ _ _ _ _ (p_bA _ L')
      (ph_app _ _ _ _ _ _ _ _ _ _ _ (ph_weak _ _ _ _ _ _ _ [RD k] _ _ (p_trl _ L') (incl_refl _) IC) (ph_weak _ _ _ _ _ _ _ [] _ _ (p_lst _ L') (incl_refl _) (incl_nil_l _)))))))))) as X.
    cbv beta in X. clear A3. eapply ph_ext; [exact X|]. intros r R. rewrite nrtN by exact R. rewrite (proj2 (Z.ltb_lt k (N - 1))), (proj2 (Z.eqb_neq k (N - 1))) by lia. rewrite !(town r rT k) by (try exact R; lia).
    rewrite <- !app_assoc. do 5 f_equal. destruct (own rT k =? co rT r); rewrite <- ?app_assoc; reflexivity.
Qed.
Theorem ph_gen_to_std : phase [] [] (dist_gen_to_std kn P Q D u) (gen_to_std kn t u).
Proof using GA NT SZ.
  eapply ph_local; [|intros st x; apply g2s_order]. unfold for_up. eapply ph_ext; [|intros r R; rewrite dist_g2s_generic, nrtN by exact R; reflexivity].
  apply ph_flat. intros k Ik. apply in_zrange in Ik. apply p_step. exact Ik.
Qed.
End proofs.
