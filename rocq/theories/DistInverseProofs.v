(** * The distributed triangular inverse and assembly compute what the local ones do. *)
From Coq Require Import ZArith Lia List Bool Sorting.Sorted.
From Verif Require Import CInt Loop StarField DenseSpec Tiling DenseJobs TileJobs Reorder DistModel DistSpec DistBuilt DistThms DistMachine DistGrid PanelModel PanelProofs DistSim DistProg DistPhase CholeskyModel CholeskyProofs InverseModel InverseProofs AssembleProofs DistCholeskyModel DistCholeskyProofs DistInverseModel.
Import ListNotations.
Local Open Scope Z_scope.

Section proofs.
Context {K : starfield} (kn : kernels K).
Variables P Q : Z.
Variable Ls : coord -> layout.
Variable D : coord -> Z -> axis.
Variable nt : coord -> Z.
Hypothesis GA : grid_axes P Q Ls D nt.
Variable t : tiling.
Notation N := (tl_n t).
Hypothesis NT : forall rc, nt rc = N.
Hypothesis SZ : forall r rc k, In r (ranks P Q) -> 0 <= k < N -> DistCholeskyModel.szd Q D r rc k = tl_sz t k.
Variable u : uplo.
Notation rc := (match u with Lower => Row | Upper => Col end).
Notation rT := (match u with Lower => Col | Upper => Row end).
Notation own c k := (tile_owner (Ls c) k).
Notation co := (co Q).
Notation rks := (ranks P Q).
Notation mem := (members P Q).
Notation sz := (tl_sz t).
Notation szd := (szd Q D).
Notation tD := (tD u).
Notation tu := (tu u).
Notation ngl := (ngl Q D).
Notation lgl := (lgl Q D).
Notation nrt := (nrt Q D).
Notation nx := (t_nx Q D).
Notation gl := (t_gl Q D).
Notation lnr := (lnr Q D).
Notation mkref := (mkref Q Ls).
Notation phase := (phase (V:=mat K) P Q Ls 1).
Notation owT := (owT Q Ls).
Notation pj := (pj (V:=mat K) Q Ls).
Notation sj := (sj (V:=mat K)).

(** ** Tiles *)
Lemma tc_tu : forall i j, tc rc (tu i j) = i /\ tc rT (tu i j) = j.
Proof using. intros i j. unfold tu, sw, A_. destruct u; auto. Qed.
Lemma at_tu : forall r i j, at_ r (tu i j) = tD r i j.
Proof using. intros r i j. unfold tu, sw, A_, DistCholeskyProofs.tD, M_, at_. destruct u; reflexivity. Qed.
Lemma lt_tu : forall i j, ltile 1 (tu i j).
Proof using. intros i j. unfold ltile, tu, sw, A_. destruct u; cbn; lia. Qed.
Lemma ow_co' : forall i j, co rc (owT (tu i j)) = own rc i /\ co rT (owT (tu i j)) = own rT j.
Proof using GA. intros i j. destruct (tc_tu i j) as [A B]. split; rewrite (owT_co P Q Ls D nt GA); [rewrite A|rewrite B]; reflexivity. Qed.
Lemma ow_here : forall r i j, In r rks -> own rc i = co rc r -> own rT j = co rT r -> owT (tu i j) = r.
Proof using GA. intros r i j R A B. apply (owT_r P Q Ls D nt GA r rc); [exact R| |]; rewrite ?(proj1 (othr u)); destruct (tc_tu i j) as [X Y]; [rewrite X|rewrite Y]; assumption. Qed.
Lemma nrt_N' : forall r, In r rks -> nrt r = N.
Proof using GA NT. intros r R. apply (nrt_N P Q Ls D nt GA t NT r R). Qed.
Lemma town' : forall r c k, In r rks -> 0 <= k -> t_own Q D r c k = own c k.
Proof using GA. intros. apply (t_own_eq _ _ _ _ _ GA); assumption. Qed.
Lemma lgl_here' : forall r c k, In r rks -> 0 <= k < N -> own c k = co c r -> lgl r c k = k.
Proof using GA NT. intros r c k R L O. apply (t_gl_loc _ _ _ _ _ GA); [exact R|rewrite NT; exact L|exact O]. Qed.
Lemma ngl_here : forall r c k, In r rks -> 0 <= k < N -> own c k = co c r -> ngl r c k = k.
Proof using GA NT.
  intros r c k R L O. unfold DistInverseModel.ngl, t_gl, t_nx. apply (next_glob (Ls c) (co c r) (ax Q D r c) (rank_models P Q Ls D nt GA r c R)); [rewrite (rank_nt P Q Ls D nt GA) by exact R; rewrite NT; exact L|exact O].
Qed.
Lemma lnr_end : forall r c, In r rks -> lnr r c = nx r c N.
Proof using GA NT. intros r c R. unfold DistInverseModel.lnr. rewrite (loop_end P Q Ls D nt GA) by exact R. rewrite NT. reflexivity. Qed.

Lemma nx0 : forall r c, In r rks -> nx r c 0 = 0.
Proof using GA.
  intros r c R. unfold t_nx. rewrite (T_next_local _ _ _ (rank_models P Q Ls D nt GA r c R)) by lia. reflexivity.
Qed.

Lemma pj_tu : forall r (s : sj) i j, In r rks -> s_out s = tu i j -> own rc i = co rc r -> own rT j = co rT r -> pj r [s] = [ALoc (djob r s)].
Proof using GA.
  intros r s i j R E A B. destruct (tc_tu i j) as [X Y]. apply (pj_here P Q Ls D nt GA r rc); [exact R| |]; rewrite ?(proj1 (othr u)), E; [rewrite X|rewrite Y]; assumption.
Qed.

(** ** Triangular inverse *)
Section trinv.
Variable d : diag.
Definition i1 (k : Z) : Z := match u with Lower => idR k | Upper => idC k end.
Definition i2 (k : Z) : Z := match u with Lower => idC k | Upper => idR k end.
Lemma ids_i : forall k, 1 <= i1 k /\ 1 <= i2 k /\ i1 k <> i2 k.
Proof using. intros k. unfold i1, i2, idR, idC. pose proof (Z.mod_pos_bound k 2). destruct u; lia. Qed.
Definition jt1 m n a b : tjob (mat K) := match u with Lower => jtrsm kn Right Lower NoTrans d m n (fopp f1) a b | Upper => jtrsm kn Left Upper NoTrans d n m (fopp f1) a b end.
Definition jt2 m n a b : tjob (mat K) := match u with Lower => jtrsm kn Left Lower NoTrans d m n f1 a b | Upper => jtrsm kn Right Upper NoTrans d n m f1 a b end.
Definition jgm m n k a b c : tjob (mat K) := match u with Lower => jgemm kn NoTrans NoTrans m n k f1 a b f1 c | Upper => jgemm kn NoTrans NoTrans n m k f1 b a f1 c end.
Definition pan1 (r k : Z) : panel :=
  if k <? nrt r - 1 then let p := fresh_panel (i1 k) 0 (k + 1) in
    if t_own Q D r rc k =? co rc r then set_tiles Q D rT r 0 (nx r rT (k + 1)) (fun j => tD r (ngl r rc k) j) p else p
  else fresh_panel (i1 k) 0 (nrt r).
Definition pan2 (r k : Z) : panel :=
  if 0 <? k then let p := fresh_panel (i2 k) k (nrt r) in
    if t_own Q D r rT k =? co rT r then set_tiles Q D rc r (nx r rc k) (lnr r rc) (fun i => tD r i (ngl r rT k)) p else p
  else fresh_panel (i2 k) 0 (nrt r).
Definition a_ts1 (r k : Z) : list (act (mat K)) :=
  if t_own Q D r rT k =? co rT r then
    flat_map (fun l => let i := gl r rc l in [ALoc (jt1 (szd r rc i) (szd r rT (ngl r rT k)) (p_tile r (pan1 r k) (ngl r rT k)) (tD r i (ngl r rT k)))]) (zrange (nx r rc (k + 1)) (lnr r rc)) else [].
Definition a_gmm (r k : Z) : list (act (mat K)) :=
  flat_map (fun li => let i := gl r rc li in flat_map (fun lj => let j := gl r rT lj in
      [ALoc (jgm (szd r rc i) (szd r rT j) (szd r rT k) (p_tile r (pan2 r k) i) (p_tile r (pan1 r k) j) (tD r i j))]) (zrange 0 (nx r rT k))) (zrange (nx r rc (k + 1)) (lnr r rc)).
Definition a_ts2 (r k : Z) : list (act (mat K)) :=
  if t_own Q D r rc k =? co rc r then
    flat_map (fun l => let j := gl r rT l in [ALoc (jt2 (szd r rc (ngl r rc k)) (szd r rT j) (p_tile r (pan2 r k) (ngl r rc k)) (tD r (ngl r rc k) j))]) (zrange 0 (nx r rT k)) else [].
Definition a_tri (r k : Z) : list (act (mat K)) :=
  if (t_own Q D r Row k =? co Row r) && (t_own Q D r Col k =? co Col r) then [ALoc (jtrtri kn u d (szd r Row k) (M_ r (lgl r Row k) (lgl r Col k)))] else [].
Definition d_istep (r k : Z) : list (act (mat K)) :=
  (if k <? nrt r - 1 then panel_broadcast P Q D rT r (t_own Q D r rc k) (pan1 r k) else []) ++ a_ts1 r k ++
  (if 0 <? k then panel_broadcast P Q D rc r (t_own Q D r rT k) (pan2 r k) else []) ++ a_gmm r k ++ a_ts2 r k ++ a_tri r k.
Lemma dist_inv_generic : forall r, dist_triangular_inverse kn P Q D u d r = flat_map (d_istep r) (rev (zrange 0 (nrt r))).
Proof using.
  intros r. unfold dist_triangular_inverse, dtrinv_call_L, dtrinv_call_U, d_istep, dtrinv_step_L, dtrinv_step_U, a_ts1, a_gmm, a_ts2, a_tri, pan1, pan2, row_panel_L, col_panel_L, row_panel_U, col_panel_U, jt1, jt2, jgm, i1, i2, DistCholeskyProofs.tD.
  destruct u; reflexivity.
Qed.

(** the panels *)
Definition R1 (k : Z) : pref := mkref (i1 k) 0 (k + 1) rT (own rc k) (fun j => tu k j).
Definition R2 (k : Z) : pref := mkref (i2 k) k N rc (own rT k) (fun i => tu i k).
Lemma so1 : forall k, src_ok P Q Ls 1 rT (own rc k) 0 (k + 1) (fun j => tu k j).
Proof using GA.
  intros k. unfold src_ok. rewrite (proj2 (othr u)). split; [apply (own_range P Q Ls D nt GA)|]. intros i _. split; [apply lt_tu|]. destruct (tc_tu k i) as [-> ->]. auto.
Qed.
Lemma so2 : forall k, src_ok P Q Ls 1 rc (own rT k) k N (fun i => tu i k).
Proof using GA.
  intros k. unfold src_ok. rewrite (proj1 (othr u)). split; [apply (own_range P Q Ls D nt GA)|]. intros i _. split; [apply lt_tu|]. destruct (tc_tu i k) as [-> ->]. auto.
Qed.
Lemma good1 : forall k, pgood P Q Ls 1 (R1 k).
Proof using GA. intros k. apply mkref_good; [apply so1|apply ids_i]. Qed.
Lemma good2 : forall k, pgood P Q Ls 1 (R2 k).
Proof using GA. intros k. apply mkref_good; [apply so2|apply ids_i]. Qed.
Lemma pan1_eq : forall r k, In r rks -> 0 <= k -> k < N - 1 -> panel_eq (pan1 r k) (pr_pf (R1 k) r).
Proof using GA NT.
  intros r k R L1 L2. unfold pan1. rewrite nrt_N', (proj2 (Z.ltb_lt k (N - 1))) by (try exact R; lia). cbv zeta. rewrite town' by assumption.
  pose proof (links_eq P Q Ls D nt GA rT r (own rc k) (i1 k) 0 (k + 1) (fun j => tu k j) (fun j => tD r (ngl r rc k) j) R ltac:(lia) ltac:(rewrite NT; lia)) as X. rewrite (proj2 (othr u)) in X.
  rewrite nx0 in X by exact R. apply X. intros i Li Oi E. rewrite at_tu, ngl_here by (try assumption; try lia; symmetry; exact E). reflexivity.
Qed.
Lemma pan2_eq : forall r k, In r rks -> 0 < k < N -> panel_eq (pan2 r k) (pr_pf (R2 k) r).
Proof using GA NT.
  intros r k R L. unfold pan2. rewrite nrt_N', (proj2 (Z.ltb_lt 0 k)) by (try exact R; lia). cbv zeta. rewrite town', lnr_end by (try assumption; lia).
  pose proof (links_eq P Q Ls D nt GA rc r (own rT k) (i2 k) k N (fun i => tu i k) (fun i => tD r i (ngl r rT k)) R ltac:(lia) ltac:(rewrite NT; lia)) as X. rewrite (proj1 (othr u)) in X.
  apply X. intros i Li Oi E. rewrite at_tu, ngl_here by (try assumption; try lia; symmetry; exact E). reflexivity.
Qed.
Definition lv1 (k : Z) : list pref := if k <? N - 1 then [R1 k] else [].
Definition lv3 (k : Z) : list pref := if 0 <? k then [R2 k] else [].
Definition lv2 (k : Z) : list pref := lv3 k ++ lv1 k.
Definition s_ts1 (k i : Z) : sj := SJ [SPan (R1 k) k] (tu i k) (in1 (fun A B => o_ts1 kn u d (sz i) (sz k) A B)).
Definition s_ts2 (k j : Z) : sj := SJ [SPan (R2 k) k] (tu k j) (in1 (fun A B => o_ts2 kn u d (sz k) (sz j) A B)).
Definition s_gm (k i j : Z) : sj := match u with
  | Lower => SJ [SPan (R2 k) i; SPan (R1 k) j] (tu i j) (in2 (fun A B C => o_gm kn u (sz i) (sz j) (sz k) A B C))
  | Upper => SJ [SPan (R1 k) j; SPan (R2 k) i] (tu i j) (in2 (fun B A C => o_gm kn u (sz i) (sz j) (sz k) A B C)) end.
Definition s_tri (k : Z) : sj := SJ [] (tu k k) (fun _ A => trtri kn u d (sz k) A).
Lemma gm_out : forall k i j, s_out (s_gm k i j) = tu i j. Proof using. intros. unfold s_gm. destruct u; reflexivity. Qed.
Lemma gm_in : forall k i j x, In x (s_in (s_gm k i j)) -> x = SPan (R2 k) i \/ x = SPan (R1 k) j.
Proof using. intros k i j x. unfold s_gm. destruct u; cbn; intuition. Qed.
Lemma lv1_good : forall k, Forall (pgood P Q Ls 1) (lv1 k).
Proof using GA. intros k. unfold lv1. destruct (_ <? _); [constructor; [apply good1|]|]; constructor. Qed.
Lemma lv3_good : forall k, Forall (pgood P Q Ls 1) (lv3 k).
Proof using GA. intros k. unfold lv3. destruct (_ <? _); [constructor; [apply good2|]|]; constructor. Qed.
Lemma lv2_good : forall k, Forall (pgood P Q Ls 1) (lv2 k).
Proof using GA. intros k. apply Forall_app. split; [apply lv3_good|apply lv1_good]. Qed.
Lemma in_lv1 : forall k R, In R (lv1 k) -> R = R1 k. Proof using. intros k R. unfold lv1. destruct (_ <? _); cbn; intuition. Qed.
Lemma in_lv3 : forall k R, In R (lv3 k) -> R = R2 k. Proof using. intros k R. unfold lv3. destruct (_ <? _); cbn; intuition. Qed.
Lemma lv1_in : forall k, k < N - 1 -> In (R1 k) (lv1 k). Proof using. intros k L. unfold lv1. rewrite (proj2 (Z.ltb_lt k (N - 1))) by lia. left. reflexivity. Qed.
Lemma lv3_in : forall k, 0 < k -> In (R2 k) (lv3 k). Proof using. intros k L. unfold lv3. rewrite (proj2 (Z.ltb_lt 0 k)) by lia. left. reflexivity. Qed.
Lemma dom1 : forall k i j, 0 <= j <= k -> pdom P Q Ls (R1 k) (owT (tu i j)) j.
Proof using GA. intros k i j L. split; [apply (owT_in P Q Ls D nt GA)|]. cbn [R1 pr_lo pr_hi pr_rc DistProg.mkref]. split; [lia|]. symmetry. apply ow_co'. Qed.
Lemma dom2 : forall k i j, k <= i < N -> pdom P Q Ls (R2 k) (owT (tu i j)) i.
Proof using GA. intros k i j L. split; [apply (owT_in P Q Ls D nt GA)|]. cbn [R2 pr_lo pr_hi pr_rc DistProg.mkref]. split; [lia|]. symmetry. apply ow_co'. Qed.
Lemma ts1_ok : forall k i, 0 <= k -> k < i < N -> sj_ok P Q Ls 1 (lv1 k) (s_ts1 k i).
Proof using GA.
  intros k i L1 L2. split; [apply lt_tu|]. split.
  - intros x [<-|[]]. cbn [s_ts1 s_out ref_ok]. split; [apply lv1_in; lia|apply dom1; lia].
  - intros R j I0 _ E. apply in_lv1 in I0. subst R. cbn in E. apply tu_inj in E. lia.
Qed.
Lemma gm_ok : forall k i j, 0 <= j < k -> k < i < N -> sj_ok P Q Ls 1 (lv2 k) (s_gm k i j).
Proof using GA.
  intros k i j L1 L2. split; [rewrite gm_out; apply lt_tu|]. rewrite gm_out. split.
  - intros x Ix. apply gm_in in Ix as [-> | ->]; cbn [ref_ok]; (split; [apply in_or_app|]); [left; apply lv3_in; lia|apply dom2; lia|right; apply lv1_in; lia|apply dom1; lia].
  - intros R q I0 Lq E. apply in_app_or in I0 as [I0|I0]; [apply in_lv3 in I0|apply in_lv1 in I0]; subst R; cbn in E; apply tu_inj in E; lia.
Qed.
Lemma ts2_ok : forall k j, 0 <= j < k -> k < N -> sj_ok P Q Ls 1 (lv3 k) (s_ts2 k j).
Proof using GA.
  intros k j L1 L2. split; [apply lt_tu|]. split.
  - intros x [<-|[]]. cbn [s_ts2 s_out ref_ok]. split; [apply lv3_in; lia|apply dom2; lia].
  - intros R q I0 Lq E. apply in_lv3 in I0. subst R. cbn in E. apply tu_inj in E. lia.
Qed.
Lemma lgl_rc : forall r i j, own rc i = co rc r -> own rT j = co rT r -> (own Row (match u with Lower => i | Upper => j end) = co Row r) /\ (own Col (match u with Lower => j | Upper => i end) = co Col r).
Proof using. intros r i j. destruct u; auto. Qed.
(** the phases *)
Lemma ph_ts1 : forall k, 0 <= k < N -> phase (lv1 k) (lv1 k) (fun r => a_ts1 r k) (for_up (k + 1) N (fun i => [g_ts1 kn t u d i k])).
Proof using GA NT SZ.
  intros k L. pose proof (ph_jobs P Q Ls D nt GA 1 (lv1 k) (fun r => a_ts1 r k) (flat_map (fun i => [s_ts1 k i]) (zrange (k + 1) N))) as X. rewrite map_flat in X. apply X; clear X.
  - apply lv1_good.
  - apply Forall_forall. intros s I0. apply in_flat_map in I0 as (i & Li & [<-|[]]). apply in_zrange in Li. apply ts1_ok; lia.
  - intros r R. unfold a_ts1. rewrite town' by (try exact R; lia). destruct (Z.eqb_spec (own rT k) (co rT r)) as [O|O].
    + rewrite lnr_end by exact R. apply (loop_pj P Q Ls D nt GA r rc (k + 1) N (fun i => [ALoc (jt1 (szd r rc i) (szd r rT (ngl r rT k)) (p_tile r (pan1 r k) (ngl r rT k)) (tD r i (ngl r rT k)))])); [exact R|lia|rewrite NT; lia| |].
      * intros i Li Oi. rewrite (pj_tu r _ i k) by (try reflexivity; assumption).
        rewrite ngl_here by assumption. rewrite !SZ by (try exact R; lia). rewrite (rd_pan (R1 k) r (pan1 r k) k) by (apply pan1_eq; [exact R|lia|lia]). rewrite <- at_tu. unfold jt1, djob, s_ts1, o_ts1. destruct u; reflexivity.
      * intros i Li Oi. apply (pj_other P Q Ls D nt GA r rc); [exact R|]. intros s [<-|[]]. cbn [s_ts1 s_out]. rewrite (proj1 (tc_tu i k)). exact Oi.
    + symmetry. apply (pj_other P Q Ls D nt GA r rT); [exact R|]. intros s I0. apply in_flat_map in I0 as (i & _ & [<-|[]]). cbn [s_ts1 s_out]. rewrite (proj2 (tc_tu i k)). exact O.
Qed.
Lemma ph_gm : forall k, 0 <= k < N -> phase (lv2 k) (lv2 k) (fun r => a_gmm r k) (for_up (k + 1) N (fun i => for_up 0 k (fun j => [g_gmi kn t u i k j]))).
Proof using GA NT SZ.
  intros k L. pose proof (ph_jobs P Q Ls D nt GA 1 (lv2 k) (fun r => a_gmm r k) (flat_map (fun i => flat_map (fun j => [s_gm k i j]) (zrange 0 k)) (zrange (k + 1) N))) as X.
  assert (LJ : map ljob (flat_map (fun i => flat_map (fun j => [s_gm k i j]) (zrange 0 k)) (zrange (k + 1) N)) = for_up (k + 1) N (fun i => for_up 0 k (fun j => [g_gmi kn t u i k j]))).
  { rewrite map_flat. unfold for_up. apply flat_map_ext_in. intros i _. rewrite map_flat. apply flat_map_ext_in. intros j _. unfold s_gm, g_gmi, R1, R2. destruct u; reflexivity. }
  rewrite LJ in X. apply X; clear X LJ.
  - apply lv2_good.
  - apply Forall_forall. intros s I0. apply in_flat_map in I0 as (i & Li & I0). apply in_flat_map in I0 as (j & Lj & [<-|[]]). apply in_zrange in Li, Lj. apply gm_ok; lia.
  - intros r R. unfold a_gmm. rewrite lnr_end by exact R.
    apply (loop_pj P Q Ls D nt GA r rc (k + 1) N (fun i => flat_map (fun lj => [ALoc (jgm (szd r rc i) (szd r rT (gl r rT lj)) (szd r rT k) (p_tile r (pan2 r k) i) (p_tile r (pan1 r k) (gl r rT lj)) (tD r i (gl r rT lj)))]) (zrange 0 (nx r rT k)))); [exact R|lia|rewrite NT; lia| |].
    + intros i Li Oi. apply (loop_pj0 P Q Ls D nt GA r rT k (fun j => [ALoc (jgm (szd r rc i) (szd r rT j) (szd r rT k) (p_tile r (pan2 r k) i) (p_tile r (pan1 r k) j) (tD r i j))])); [exact R|lia|rewrite NT; lia| |].
      * intros j Lj Oj. rewrite (pj_tu r _ i j) by (try apply gm_out; assumption).
        rewrite !SZ by (try exact R; lia). rewrite (rd_pan (R1 k) r (pan1 r k) j) by (apply pan1_eq; [exact R|lia|lia]). rewrite (rd_pan (R2 k) r (pan2 r k) i) by (apply pan2_eq; [exact R|lia]).
        rewrite <- at_tu. unfold jgm, djob, s_gm, o_gm. destruct u; reflexivity.
      * intros j Lj Oj. apply (pj_other P Q Ls D nt GA r rT); [exact R|]. intros s [<-|[]]. rewrite gm_out, (proj2 (tc_tu i j)). exact Oj.
    + intros i Li Oi. apply (pj_other P Q Ls D nt GA r rc); [exact R|]. intros s I0. apply in_flat_map in I0 as (j & _ & [<-|[]]). rewrite gm_out, (proj1 (tc_tu i j)). exact Oi.
Qed.
Lemma ph_ts2 : forall k, 0 <= k < N -> phase (lv3 k) (lv3 k) (fun r => a_ts2 r k) (g_last kn t u d k).
Proof using GA NT SZ.
  intros k L. pose proof (ph_jobs P Q Ls D nt GA 1 (lv3 k) (fun r => a_ts2 r k) (flat_map (fun j => [s_ts2 k j]) (zrange 0 k))) as X. rewrite map_flat in X. apply X; clear X.
  - apply lv3_good.
  - apply Forall_forall. intros s I0. apply in_flat_map in I0 as (i & Li & [<-|[]]). apply in_zrange in Li. apply ts2_ok; lia.
  - intros r R. unfold a_ts2. rewrite town' by (try exact R; lia). destruct (Z.eqb_spec (own rc k) (co rc r)) as [O|O].
    + apply (loop_pj0 P Q Ls D nt GA r rT k (fun j => [ALoc (jt2 (szd r rc (ngl r rc k)) (szd r rT j) (p_tile r (pan2 r k) (ngl r rc k)) (tD r (ngl r rc k) j))])); [exact R|lia|rewrite NT; lia| |].
      * intros j Lj Oj. rewrite (pj_tu r _ k j) by (try reflexivity; assumption).
        rewrite ngl_here by assumption. rewrite !SZ by (try exact R; lia). rewrite (rd_pan (R2 k) r (pan2 r k) k) by (apply pan2_eq; [exact R|lia]). rewrite <- at_tu. unfold jt2, djob, s_ts2, o_ts2. destruct u; reflexivity.
      * intros j Lj Oj. apply (pj_other P Q Ls D nt GA r rT); [exact R|]. intros s [<-|[]]. cbn [s_ts2 s_out]. rewrite (proj2 (tc_tu k j)). exact Oj.
    + symmetry. apply (pj_other P Q Ls D nt GA r rc); [exact R|]. intros s I0. apply in_flat_map in I0 as (j & _ & [<-|[]]). cbn [s_ts2 s_out]. rewrite (proj1 (tc_tu k j)). exact O.
Qed.
(** the order of the tasks inside an iteration: all the column, then all the updates *)
Lemma rows_reorder : forall k (st : tstore (mat K)) x, 0 <= k ->
  trun (for_up (k + 1) N (fun i => [g_ts1 kn t u d i k]) ++ for_up (k + 1) N (fun i => for_up 0 k (fun j => [g_gmi kn t u i k j]))) st x = trun (g_rows kn t u d k) st x.
Proof using.
  intros k st x Lk.
  set (J := fun p : Z * Z => if snd p <? 0 then g_ts1 kn t u d (fst p) k else g_gmi kn t u (fst p) k (snd p)).
  set (ks := flat_map (fun i => [(i, -1)]) (zrange (k + 1) N) ++ flat_map (fun i => flat_map (fun j => [(i, j)]) (zrange 0 k)) (zrange (k + 1) N)).
  set (ks' := flat_map (fun i => [(i, -1)] ++ flat_map (fun j => [(i, j)]) (zrange 0 k)) (zrange (k + 1) N)).
  assert (GM : forall i, map J (flat_map (fun j => [(i, j)]) (zrange 0 k)) = for_up 0 k (fun j => [g_gmi kn t u i k j])).
  { intros i. rewrite map_flat. apply flat_map_ext_in. intros j Lj. apply in_zrange in Lj. unfold J. cbn [map fst snd]. rewrite (proj2 (Z.ltb_ge j 0)) by lia. reflexivity. }
  assert (E1 : map J ks = for_up (k + 1) N (fun i => [g_ts1 kn t u d i k]) ++ for_up (k + 1) N (fun i => for_up 0 k (fun j => [g_gmi kn t u i k j]))).
  { unfold ks. rewrite map_app, !map_flat. unfold for_up at 1 2. f_equal. apply flat_map_ext_in. intros i _. apply GM. }
  assert (E2 : map J ks' = g_rows kn t u d k).
  { unfold ks', g_rows, g_row. rewrite map_flat. unfold for_up at 1. apply flat_map_ext_in. intros i _. rewrite map_app, GM. reflexivity. }
  rewrite <- E1, <- E2.
  apply (trun_reorder_sorted J (fun a b => (snd a < 0 /\ 0 <= snd b) \/ (snd a < 0 /\ snd b < 0 /\ fst a < fst b) \/ (0 <= snd a /\ 0 <= snd b /\ (fst a < fst b \/ fst a = fst b /\ snd a < snd b)))
     (fun a b => fst a < fst b \/ fst a = fst b /\ snd a < snd b)).
  - apply sorted_app.
    + apply sorted_flat; [apply zrange_sorted|intros; apply sorted_one|]. intros i j a b _ _ L [<-|[]] [<-|[]]. cbn. lia.
    + apply sorted_flat; [apply zrange_sorted| |].
      * intros i _. apply sorted_flat; [apply zrange_sorted|intros; apply sorted_one|]. intros p q a b Ip Iq L [<-|[]] [<-|[]]. apply in_zrange in Ip, Iq. cbn. lia.
      * intros i i' a b _ _ L Ia Ib. apply in_flat_map in Ia as (p & Ip & [<-|[]]). apply in_flat_map in Ib as (q & Iq & [<-|[]]). apply in_zrange in Ip, Iq. cbn. lia.
    + intros a b Ia Ib. apply in_flat_map in Ia as (i & _ & [<-|[]]). apply in_flat_map in Ib as (i' & _ & Ib). apply in_flat_map in Ib as (q & Iq & [<-|[]]). apply in_zrange in Iq. cbn. lia.
  - apply sorted_flat; [apply zrange_sorted| |].
    + intros i _. apply sorted_app; [apply sorted_one| |].
      * apply sorted_flat; [apply zrange_sorted|intros; apply sorted_one|]. intros p q a b _ _ L [<-|[]] [<-|[]]. cbn. lia.
      * intros a b [<-|[]] Ib. apply in_flat_map in Ib as (q & Iq & [<-|[]]). apply in_zrange in Iq. cbn. lia.
    + intros i i' a b _ _ L Ia Ib. assert (F : forall (i : Z) (a : Z * Z), In a ([(i, -1)] ++ flat_map (fun j => [(i, j)]) (zrange 0 k)) -> fst a = i).
      { clear. intros i a [<-|I0]; [reflexivity|]. apply in_flat_map in I0 as (q & _ & [<-|[]]). reflexivity. }
      left. rewrite (F i a Ia), (F i' b Ib). exact L.
  - intros y. lia.
  - intros y z. lia.
  - intros y. unfold ks, ks'. rewrite in_app_iff, !in_flat_map. split.
    + intros [(i & Ii & [<-|[]])|(i & Ii & I0)]; exists i; (split; [exact Ii|]); [left; reflexivity|apply in_or_app; right; exact I0].
    + intros (i & Ii & I0). apply in_app_or in I0 as [[<-|[]]|I0]; [left|right]; exists i; (split; [exact Ii|]); [left; reflexivity|exact I0].
  - intros a b Ia Ib L C.
    assert (IN : forall y, In y ks -> k < fst y /\ snd y < k /\ (snd y < 0 \/ 0 <= snd y)).
    { intros y Iy. unfold ks in Iy. apply in_app_or in Iy as [Iy|Iy]; apply in_flat_map in Iy as (i & Ii & Iy); apply in_zrange in Ii; [destruct Iy as [<-|[]]; cbn; lia|]. apply in_flat_map in Iy as (j & Ij & [<-|[]]). apply in_zrange in Ij. cbn. lia. }
    apply IN in Ia, Ib. destruct a as [i j], b as [i' j']. cbn [fst snd] in *. destruct L as [[L1 L2]|[L|L]]; [|lia|lia]. unfold J in C. cbn [fst snd] in C. rewrite (proj2 (Z.ltb_lt j 0)), (proj2 (Z.ltb_ge j' 0)) in C by lia.
    destruct C as [C|[C|C]].
    + rewrite gmi_out in C. cbn in C. apply tu_inj in C. lia.
    + apply gmi_in in C as [C|C]; cbn in C; apply tu_inj in C; lia.
    + rewrite gmi_out in C. destruct C as [C|[]]. apply tu_inj in C. lia.
Qed.
End trinv.
(** a kernel on the diagonal tile *)
Lemma ph_diag : forall k (f : Z -> mat K -> mat K) (j : Z -> tid -> tjob (mat K)), 0 <= k < N -> (forall n a, j n a = TJob [] a (fun _ A => f n A)) ->
  phase [] [] (fun r => if (t_own Q D r Row k =? co Row r) && (t_own Q D r Col k =? co Col r) then [ALoc (j (szd r Row k) (M_ r (lgl r Row k) (lgl r Col k)))] else []) [j (sz k) (tu k k)].
Proof using GA NT SZ.
  intros k f j L J. rewrite J. apply (ph_jobs P Q Ls D nt GA 1 [] _ [SJ [] (tu k k) (fun _ A => f (sz k) A)]).
  - constructor.
  - constructor; [|constructor]. split; [apply lt_tu|]. split; [intros x []|intros R i []].
  - intros r R. rewrite !town' by (try exact R; lia). rewrite (pj_one P Q Ls D nt GA r Row) by exact R. cbn [s_out other].
    assert (TC : tc Row (tu k k) = k /\ tc Col (tu k k) = k) by (destruct (tc_tu k k) as [A B]; destruct u; auto). destruct TC as [-> ->].
    destruct (Z.eqb_spec (own Row k) (co Row r)) as [O1|O1]; [|reflexivity]. destruct (Z.eqb_spec (own Col k) (co Col r)) as [O2|O2]; [|reflexivity]. cbn [andb].
    rewrite !lgl_here' by assumption. rewrite SZ, J by assumption. unfold djob. cbn [s_in s_out s_f map]. rewrite at_tu. unfold DistCholeskyProofs.tD. destruct u; reflexivity.
Qed.
Lemma ph_istep : forall d k, 0 <= k < N -> phase [] [] (fun r => d_istep d r k) (g_istep kn t u d k).
Proof using GA NT SZ.
  intros d k L. destruct (ids_i k) as (I1 & I2 & I12).
  assert (A1 : phase [] (lv1 k) (fun r => if k <? nrt r - 1 then panel_broadcast P Q D rT r (t_own Q D r rc k) (pan1 r k) else []) []).
  { unfold lv1. destruct (Z.ltb_spec k (N - 1)) as [C|C].
    - apply (ph_bc P Q Ls D nt GA 1 [] (i1 k) 0 (k + 1) rT (own rc k) (fun j => tu k j)); [apply so1|lia|rewrite NT; lia|exact I1|intros ? []|].
      intros r R. exists (pan1 r k). split; [apply pan1_eq; [exact R|lia|exact C]|]. rewrite nrt_N', town', (proj2 (Z.ltb_lt k (N - 1))) by (try exact R; lia). reflexivity.
    - apply ph_nil; [|intros x; auto]. intros r R. rewrite nrt_N', (proj2 (Z.ltb_ge k (N - 1))) by (try exact R; lia). reflexivity. }
  assert (A2 : phase (lv1 k) (lv2 k) (fun r => if 0 <? k then panel_broadcast P Q D rc r (t_own Q D r rT k) (pan2 r k) else []) []).
  { unfold lv2, lv3. destruct (Z.ltb_spec 0 k) as [C|C].
    - apply (ph_bc P Q Ls D nt GA 1 (lv1 k) (i2 k) k N rc (own rT k) (fun i => tu i k)); [apply so2|lia|rewrite NT; lia|exact I2| |].
      + intros R I0. apply in_lv1 in I0. subst R. split; [apply good1|]. apply apart_id. intros r i DM. apply (mkref_mat P Q Ls 1) with (1 := DM); [|exact I2|exact I12]. intros j _. apply lt_tu.
      + intros r R. exists (pan2 r k). split; [apply pan2_eq; [exact R|lia]|]. rewrite town' by (try exact R; lia). reflexivity.
    - apply ph_nil; [reflexivity|intros x; auto]. }
  pose proof (ph_diag k (fun n A => trtri kn u d n A) (fun n a => jtrtri kn u d n a) L (fun _ _ => eq_refl)) as A6.
  pose proof (ph_app _ _ _ _ _ _ _ _ _ _ _ (ph_weak _ _ _ _ _ _ _ [] _ _ (ph_ts2 d k L) (incl_refl _) (incl_nil_l _)) A6) as B. cbv beta in B.
  apply (ph_weak P Q Ls 1 _ _ (lv2 k) []) in B; [|unfold lv2; apply incl_appl; apply incl_refl|apply incl_refl].
  pose proof (ph_app _ _ _ _ _ _ _ _ _ _ _ A1 (ph_app _ _ _ _ _ _ _ _ _ _ _ (ph_ts1 d k L) (ph_app _ _ _ _ _ _ _ _ _ _ _ A2 (ph_app _ _ _ _ _ _ _ _ _ _ _ (ph_gm k L) B)))) as X. cbv beta in X. clear A1 A2 A6 B.
  eapply ph_local; [eapply ph_ext; [exact X|]|].
  - intros r R. unfold d_istep. reflexivity.
  - intros st x. cbn [app]. unfold g_istep. rewrite app_assoc. rewrite !(trun_app (_ ++ _)), !(trun_app (g_rows _ _ _ _ _)). apply trun_ext. intros y. apply rows_reorder. lia.
Qed.
Theorem ph_inverse : forall d, phase [] [] (dist_triangular_inverse kn P Q D u d) (triangular_inverse kn t u d).
Proof using GA NT SZ.
  intros d. rewrite inverse_generic. unfold for_down. replace (N - 1 + 1) with N by lia.
  eapply ph_ext; [|intros r R; rewrite dist_inv_generic, nrt_N' by exact R; reflexivity].
  apply ph_flat. intros k Ik. rewrite <- in_rev in Ik. apply in_zrange in Ik. apply ph_istep. exact Ik.
Qed.

(** ** Assembly *)
Lemma ids_a : forall k, 1 <= idS k /\ 1 <= idST k /\ idST k <> idS k.
Proof using. intros k. unfold idS, idST. pose proof (Z.mod_pos_bound k 2). lia. Qed.
Definition jagm m n k a b c : tjob (mat K) := match u with Lower => jgemm kn ConjTrans NoTrans m n k f1 a b f1 c | Upper => jgemm kn NoTrans ConjTrans n m k f1 b a f1 c end.
Definition jahk n k a c : tjob (mat K) := match u with Lower => jherk kn Lower ConjTrans n k f1 a f1 c | Upper => jherk kn Upper NoTrans n k f1 a f1 c end.
Definition jatm m n a b : tjob (mat K) := match u with Lower => jtrmm kn Left Lower ConjTrans NonUnit m n f1 a b | Upper => jtrmm kn Right Upper ConjTrans NonUnit n m f1 a b end.
Definition apan (r k : Z) : panel := let p := fresh_panel (idS k) 0 k in
  if t_own Q D r rc k =? co rc r then set_tiles Q D rT r 0 (nx r rT k) (fun j => tD r (ngl r rc k) j) p else p.
Definition adia (r k : Z) : panel := let p := fresh_panel (idST k) k (k + 1) in
  if t_own Q D r rT k =? co rT r then set_tile p (ngl r rc k) (M_ r (lgl r Row k) (lgl r Col k)) else p.
Definition aupd (r k : Z) (p pT : panel) : list (act (mat K)) :=
  flat_map (fun i => if t_own Q D r rc i =? co rc r then
      flat_map (fun j => if t_own Q D r rT j =? co rT r then
        [ALoc (jagm (szd r rc i) (szd r rT j) (szd r rc k) (p_tile r pT (lgl r rc i)) (p_tile r p (lgl r rT j)) (tD r (lgl r rc i) (lgl r rT j)))] else []) (zrange 0 i) ++
      (if t_own Q D r rT i =? co rT r then [ALoc (jahk (szd r Row i) (szd r rc k) (p_tile r p (lgl r rT i)) (tD r (lgl r rc i) (lgl r rT i)))] else [])
      else []) (zrange 0 k).
Definition atmm (r k : Z) : list (act (mat K)) :=
  flat_map (fun l => let j := gl r rT l in [ALoc (jatm (szd r rc (ngl r rc k)) (szd r rT j) (p_tile r (adia r k) (ngl r rc k)) (tD r (ngl r rc k) j))]) (zrange 0 (nx r rT k)).
Definition d_astep (r k : Z) : list (act (mat K)) :=
  (if 0 <? k then
     let b2 := panel_broadcast2 P Q D rT r (t_own Q D r rc k) (apan r k) (fresh_panel (idST k) 1 k) in
     fst b2 ++ aupd r k (apan r k) (snd b2) ++
     (if t_own Q D r rc k =? co rc r then panel_broadcast P Q D rc r (t_own Q D r rT k) (adia r k) ++ atmm r k else [])
   else []) ++
  (if (t_own Q D r Row k =? co Row r) && (t_own Q D r Col k =? co Col r) then [ALoc (jlauum kn u (szd r Row k) (M_ r (lgl r Row k) (lgl r Col k)))] else []).
Definition dasm (r : Z) : list (act (mat K)) := match u with Lower => dasm_call_L kn P Q D r | Upper => dasm_call_U kn P Q D r end.
Lemma dist_asm_generic : forall r, dasm r = flat_map (d_astep r) (zrange 0 (nrt r)).
Proof using.
  intros r. unfold dasm, dasm_call_L, dasm_call_U, d_astep, dasm_step_L, dasm_step_U, aupd, atmm, asm_update_L, asm_update_U, apan, adia, asm_panel_L, asm_panel_U, asm_diag_L, asm_diag_U, jagm, jahk, jatm, DistCholeskyProofs.tD.
  destruct u; reflexivity.
Qed.
Definition RA (k : Z) : pref := mkref (idS k) 0 k rT (own rc k) (fun j => tu k j).
Definition RB (k : Z) : pref := refT Q Ls (idS k) 0 k rT (own rc k) (fun j => tu k j) (idST k) 1 k.
Definition RD (k : Z) : pref := mkref (idST k) k (k + 1) rc (own rT k) (fun i => tu i k).
Lemma soA : forall k, src_ok P Q Ls 1 rT (own rc k) 0 k (fun j => tu k j).
Proof using GA. intros k. destruct (so1 k) as [A B]. split; [exact A|]. intros i Li. apply B. lia. Qed.
Lemma soD : forall k, src_ok P Q Ls 1 rc (own rT k) k (k + 1) (fun i => tu i k).
Proof using GA.
  intros k. unfold src_ok. rewrite (proj1 (othr u)). split; [apply (own_range P Q Ls D nt GA)|]. intros i _. split; [apply lt_tu|]. destruct (tc_tu i k) as [-> ->]. auto.
Qed.
Lemma apan_eq : forall r k, In r rks -> 0 < k < N -> panel_eq (apan r k) (pr_pf (RA k) r).
Proof using GA NT.
  intros r k R L. unfold apan. cbv zeta. rewrite town' by (try exact R; lia).
  pose proof (links_eq P Q Ls D nt GA rT r (own rc k) (idS k) 0 k (fun j => tu k j) (fun j => tD r (ngl r rc k) j) R ltac:(lia) ltac:(rewrite NT; lia)) as X. rewrite (proj2 (othr u)) in X.
  rewrite nx0 in X by exact R. apply X. intros i Li Oi E. rewrite at_tu, ngl_here by (try assumption; try lia; symmetry; exact E). reflexivity.
Qed.
Lemma adia_eq : forall r k, In r rks -> 0 <= k < N -> own rc k = co rc r -> panel_eq (adia r k) (pr_pf (RD k) r).
Proof using GA NT.
  intros r k R L O. unfold adia. cbv zeta. rewrite town' by (try exact R; lia). unfold panel_eq, RD. cbn [DistProg.mkref pr_pf npan p_id p_lo p_hi p_ext]. rewrite (proj1 (othr u)), (Z.eqb_sym (own rT k)).
  destruct (Z.eqb_spec (co rT r) (own rT k)) as [E|E]; cbn [andb]; [|cbn; auto]. cbn [set_tile p_id p_lo p_hi p_ext fresh_panel]. repeat split. intros i. rewrite ngl_here by assumption.
  destruct (Z.eqb_spec i k) as [->|NE].
  - rewrite (proj2 (Z.leb_le k k)), (proj2 (Z.ltb_lt k (k + 1))), O, Z.eqb_refl by lia. cbn [andb]. f_equal. rewrite at_tu.
    assert (X : own Row k = co Row r /\ own Col k = co Col r) by (destruct u; auto). rewrite !lgl_here' by (try assumption; apply X). unfold DistCholeskyProofs.tD. destruct u; reflexivity.
  - destruct (Z.leb_spec k i), (Z.ltb_spec i (k + 1)); cbn [andb]; try reflexivity. lia.
Qed.
Definition s_agm (k i j : Z) : sj := match u with
  | Lower => SJ [SPan (RB k) i; SPan (RA k) j] (tu i j) (in2 (fun A B C => a_gm kn u (sz i) (sz j) (sz k) A B C))
  | Upper => SJ [SPan (RA k) j; SPan (RB k) i] (tu i j) (in2 (fun B A C => a_gm kn u (sz i) (sz j) (sz k) A B C)) end.
Definition s_ahk (k i : Z) : sj := SJ [SPan (RA k) i] (tu i i) (in1 (fun A C => a_hk kn u (sz i) (sz k) A C)).
Definition s_atm (k j : Z) : sj := SJ [SPan (RD k) k] (tu k j) (in1 (fun A B => a_tm kn u (sz k) (sz j) A B)).
Lemma agm_out' : forall k i j, s_out (s_agm k i j) = tu i j. Proof using. intros. unfold s_agm. destruct u; reflexivity. Qed.
Lemma agm_in' : forall k i j x, In x (s_in (s_agm k i j)) -> x = SPan (RB k) i \/ x = SPan (RA k) j.
Proof using. intros k i j x. unfold s_agm. destruct u; cbn; intuition. Qed.
Lemma goodAB : forall k, 0 < k < N -> Forall (pgood P Q Ls 1) [RA k; RB k].
Proof using GA NT.
  intros k L. destruct (ids_a k) as (A & B & C). constructor; [apply mkref_good; [apply soA|exact A]|]. constructor; [|constructor].
  apply (refT_good P Q Ls nt 1); try assumption; try lia; [apply soA|rewrite NT; lia].
Qed.
Lemma domA : forall k i j, 0 <= j < k -> pdom P Q Ls (RA k) (owT (tu i j)) j.
Proof using GA. intros k i j L. split; [apply (owT_in P Q Ls D nt GA)|]. cbn [RA pr_lo pr_hi pr_rc DistProg.mkref]. split; [lia|]. symmetry. apply ow_co'. Qed.
Lemma domB : forall k i j, 1 <= i < k -> pdom P Q Ls (RB k) (owT (tu i j)) i.
Proof using GA. intros k i j L. split; [apply (owT_in P Q Ls D nt GA)|]. cbn [RB pr_lo pr_hi pr_rc refT]. rewrite (proj2 (othr u)). split; [lia|]. symmetry. apply ow_co'. Qed.
Lemma keepAB : forall k i j R q, i < k -> In R [RA k; RB k] -> pr_lo R <= q < pr_hi R -> pr_src R q <> tu i j.
Proof using. intros k i j R q L [<-|[<-|[]]] _ E; cbn in E; apply tu_inj in E; lia. Qed.
Lemma ph_asm_upd : forall k, 0 < k < N -> phase [RA k; RB k] [RA k; RB k] (fun r => aupd r k (apan r k) (snd (panel_broadcast2 (V:=mat K) P Q D rT r (t_own Q D r rc k) (apan r k) (fresh_panel (idST k) 1 k)))) (g_arows kn t u k).
Proof using GA NT SZ.
  intros k L. destruct (ids_a k) as (I1 & I2 & I3).
  pose proof (ph_jobs P Q Ls D nt GA 1 [RA k; RB k] (fun r => aupd r k (apan r k) (snd (panel_broadcast2 (V:=mat K) P Q D rT r (t_own Q D r rc k) (apan r k) (fresh_panel (idST k) 1 k))))
    (flat_map (fun i => flat_map (fun j => [s_agm k i j]) (zrange 0 i) ++ [s_ahk k i]) (zrange 0 k))) as X.
  assert (LJ : map ljob (flat_map (fun i => flat_map (fun j => [s_agm k i j]) (zrange 0 i) ++ [s_ahk k i]) (zrange 0 k)) = g_arows kn t u k).
  { rewrite map_flat. unfold g_arows, g_arow, for_up. apply flat_map_ext_in. intros i _. rewrite map_app, map_flat. f_equal. apply flat_map_ext_in. intros j _. unfold s_agm, g_agm, RA, RB. destruct u; reflexivity. }
  rewrite LJ in X. apply X; clear X LJ.
  - apply goodAB. exact L.
  - apply Forall_forall. intros s I0. apply in_flat_map in I0 as (i & Li & I0). apply in_zrange in Li. apply in_app_or in I0 as [I0|[<-|[]]].
    + apply in_flat_map in I0 as (j & Lj & [<-|[]]). apply in_zrange in Lj. split; [rewrite agm_out'; apply lt_tu|]. rewrite agm_out'. split; [|intros R q; apply keepAB; lia].
      intros x Ix. apply agm_in' in Ix as [-> | ->]; cbn [ref_ok]; [split; [right; left; reflexivity|apply domB; lia]|split; [left; reflexivity|apply domA; lia]].
    + split; [apply lt_tu|]. split; [|intros R q; apply keepAB; lia]. intros x [<-|[]]. cbn [s_ahk s_out ref_ok]. split; [left; reflexivity|apply domA; lia].
  - intros r R. unfold aupd. rewrite (pj_flat Q Ls). apply flat_map_ext_in. intros i Li. apply in_zrange in Li. rewrite town' by (try exact R; lia).
    assert (PT : panel_eq (snd (panel_broadcast2 (V:=mat K) P Q D rT r (t_own Q D r rc k) (apan r k) (fresh_panel (idST k) 1 k))) (pr_pf (RB k) r)).
    { rewrite town' by (try exact R; lia). apply (bc2_panel P Q Ls D nt GA 1); try assumption; try lia; [apply soA|rewrite NT; lia|rewrite NT; lia|apply apan_eq; [exact R|lia]]. }
    destruct (Z.eqb_spec (own rc i) (co rc r)) as [Oi|Oi].
    + rewrite (pj_app Q Ls), (pj_flat Q Ls). f_equal.
      * apply flat_map_ext_in. intros j Lj. apply in_zrange in Lj. rewrite town' by (try exact R; lia). destruct (Z.eqb_spec (own rT j) (co rT r)) as [Oj|Oj].
        { rewrite (pj_tu r _ i j) by (try apply agm_out'; assumption). rewrite !lgl_here' by (try assumption; lia). rewrite !SZ by (try exact R; lia).
          rewrite (rd_pan (RA k) r (apan r k) j) by (apply apan_eq; [exact R|lia]). rewrite (rd_pan (RB k) r _ i PT). rewrite <- at_tu. unfold jagm, djob, s_agm, a_gm. destruct u; reflexivity. }
        { symmetry. apply (pj_other P Q Ls D nt GA r rT); [exact R|]. intros s [<-|[]]. rewrite agm_out', (proj2 (tc_tu i j)). exact Oj. }
      * rewrite town' by (try exact R; lia). destruct (Z.eqb_spec (own rT i) (co rT r)) as [Oj|Oj].
        { rewrite (pj_tu r _ i i) by (try reflexivity; assumption). rewrite !lgl_here' by (try assumption; lia). rewrite !SZ by (try exact R; lia).
          rewrite (rd_pan (RA k) r (apan r k) i) by (apply apan_eq; [exact R|lia]). rewrite <- at_tu. unfold jahk, djob, s_ahk, a_hk. destruct u; reflexivity. }
        { symmetry. apply (pj_other P Q Ls D nt GA r rT); [exact R|]. intros s [<-|[]]. cbn [s_ahk s_out]. rewrite (proj2 (tc_tu i i)). exact Oj. }
    + symmetry. apply (pj_other P Q Ls D nt GA r rc); [exact R|]. intros s I0. apply in_app_or in I0 as [I0|[<-|[]]].
      * apply in_flat_map in I0 as (j & _ & [<-|[]]). rewrite agm_out', (proj1 (tc_tu i j)). exact Oi.
      * cbn [s_ahk s_out]. rewrite (proj1 (tc_tu i i)). exact Oi.
Qed.
Lemma ph_asm_tm : forall k, 0 < k < N -> phase [RD k] [RD k] (fun r => if own rc k =? co rc r then atmm r k else []) (g_alast kn t u k).
Proof using GA NT SZ.
  intros k L. pose proof (ph_jobs P Q Ls D nt GA 1 [RD k] (fun r => if own rc k =? co rc r then atmm r k else []) (flat_map (fun j => [s_atm k j]) (zrange 0 k))) as X. rewrite map_flat in X. apply X; clear X.
  - constructor; [|constructor]. apply mkref_good; [apply soD|apply ids_a].
  - apply Forall_forall. intros s I0. apply in_flat_map in I0 as (j & Lj & [<-|[]]). apply in_zrange in Lj. split; [apply lt_tu|]. split.
    + intros x [<-|[]]. cbn [s_atm s_out ref_ok]. split; [left; reflexivity|]. split; [apply (owT_in P Q Ls D nt GA)|]. cbn [RD pr_lo pr_hi pr_rc DistProg.mkref]. split; [lia|]. symmetry. apply ow_co'.
    + intros R q [<-|[]] Lq E. cbn in E, Lq. apply tu_inj in E. lia.
  - intros r R. destruct (Z.eqb_spec (own rc k) (co rc r)) as [O|O].
    + unfold atmm. apply (loop_pj0 P Q Ls D nt GA r rT k (fun j => [ALoc (jatm (szd r rc (ngl r rc k)) (szd r rT j) (p_tile r (adia r k) (ngl r rc k)) (tD r (ngl r rc k) j))])); [exact R|lia|rewrite NT; lia| |].
      * intros j Lj Oj. rewrite (pj_tu r _ k j) by (try reflexivity; assumption). rewrite ngl_here by (try assumption; lia). rewrite !SZ by (try exact R; lia).
        rewrite (rd_pan (RD k) r (adia r k) k) by (apply adia_eq; try assumption; lia). rewrite <- at_tu. unfold jatm, djob, s_atm, a_tm. destruct u; reflexivity.
      * intros j Lj Oj. apply (pj_other P Q Ls D nt GA r rT); [exact R|]. intros s [<-|[]]. cbn [s_atm s_out]. rewrite (proj2 (tc_tu k j)). exact Oj.
    + symmetry. apply (pj_other P Q Ls D nt GA r rc); [exact R|]. intros s I0. apply in_flat_map in I0 as (j & _ & [<-|[]]). cbn [s_atm s_out]. rewrite (proj1 (tc_tu k j)). exact O.
Qed.
Lemma ph_astep : forall k, 0 <= k < N -> phase [] [] (fun r => d_astep r k) (g_astep kn t u k).
Proof using GA NT SZ.
  intros k L. destruct (ids_a k) as (I1 & I2 & I3). pose proof (ph_diag k (fun n A => lauum kn u n A) (fun n a => jlauum kn u n a) L (fun _ _ => eq_refl)) as A6.
  unfold d_astep, g_astep. destruct (Z.ltb_spec 0 k) as [C|C].
  - assert (A1 : phase [] [RA k; RB k] (fun r => fst (panel_broadcast2 P Q D rT r (t_own Q D r rc k) (apan r k) (fresh_panel (idST k) 1 k))) []).
    { apply (ph_bc2 P Q Ls D nt GA 1); try assumption; try lia; [apply soA|rewrite NT; lia|rewrite NT; lia|intros ? []|].
      intros r R. exists (apan r k). split; [apply apan_eq; [exact R|lia]|]. rewrite town' by (try exact R; lia). reflexivity. }
    assert (A3 : phase [] [RD k] (fun r => if own rc k =? co rc r then panel_broadcast P Q D rc r (t_own Q D r rT k) (adia r k) else []) []).
    { apply (ph_bc_one P Q Ls D nt GA 1); try assumption; try lia; [apply soD|rewrite NT; lia|intros ? []| |].
      - intros r R O. exists (adia r k). split; [apply adia_eq; assumption|]. rewrite O, Z.eqb_refl, town' by (try exact R; lia). reflexivity.
      - intros r R O. rewrite (proj2 (Z.eqb_neq _ _) O). reflexivity. }
    pose proof (ph_app _ _ _ _ _ _ _ _ _ _ _ A1 (ph_app _ _ _ _ _ _ _ _ _ _ _ (ph_weak _ _ _ _ _ _ _ [] _ _ (ph_asm_upd k ltac:(lia)) (incl_refl _) (incl_nil_l _))
       (ph_app _ _ _ _ _ _ _ _ _ _ _ A3 (ph_app _ _ _ _ _ _ _ _ _ _ _ (ph_weak _ _ _ _ _ _ _ [] _ _ (ph_asm_tm k ltac:(lia)) (incl_refl _) (incl_nil_l _)) A6)))) as X. cbv beta in X. clear A1 A3 A6.
    eapply ph_ext; [exact X|]. intros r R. rewrite <- !app_assoc. f_equal. f_equal. rewrite (town' r rc k) by (try exact R; lia). destruct (own rc k =? co rc r); rewrite <- ?app_assoc; reflexivity.
  - assert (k = 0) as -> by lia. exact A6.
Qed.
Theorem ph_assemble : phase [] [] dasm (assemble kn t u).
Proof using GA NT SZ.
  rewrite assemble_generic. unfold for_up. eapply ph_ext; [|intros r R; rewrite dist_asm_generic, nrt_N' by exact R; reflexivity].
  apply ph_flat. intros k Ik. apply in_zrange in Ik. apply ph_astep. exact Ik.
Qed.
Theorem ph_invchol : phase [] [] (dist_inverse_from_cholesky_factor kn P Q D u) (inverse_from_cholesky_factor kn t u).
Proof using GA NT SZ.
  pose proof (ph_app _ _ _ _ _ _ _ _ _ _ _ (ph_inverse NonUnit) ph_assemble) as X. eapply ph_ext; [eapply ph_local; [exact X|]|].
  - intros st x. f_equal. unfold triangular_inverse, assemble, inverse_from_cholesky_factor. destruct u; reflexivity.
  - intros r R. unfold dist_inverse_from_cholesky_factor, dist_triangular_inverse, dasm. destruct u; reflexivity.
Qed.
End proofs.
