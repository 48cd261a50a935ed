(** * Distributed back transformation band to tridiagonal: the events of a block of reflectors, in a global order *)
From Coq Require Import ZArith Lia List Bool Ring.
From Verif Require Import CInt Loop StarField DenseSpec Tiling DistModel DistSpec DistProofs DistBuilt DistThms DistCtor DenseJobs TileJobs HouseSpec HouseModel MultiJobs Red2BandModel B2TModel B2TSched BtB2TModel BtB2TProofs
  DistMachine DistGrid PanelModel PanelProofs Properties_Panel DistLocal DistTriModel DistMat DistBtB2TModel DistBtB2TFacts DistBtB2TIdx.
Import ListNotations.
Local Open Scope Z_scope.

(** ** Frames: a tile keeps its content if its rank does not write it *)
Section frame.
Context {V : Type}.
Variables P Q : Z.
Notation rks := (ranks P Q).
Notation mem := (members P Q).
Lemma erun_frame : forall (G : list (event V)) st x, Forall (event_ok mem rks) G -> (forall a, In a (proj mem (t_rank x) G) -> ~ In x (act_writes a)) -> erun mem G st x = st x.
Proof using.
  induction G as [|e G IH]; intros st x OK N; [reflexivity|]. inversion OK as [|? ? O1 O2]; subst. rewrite erun_cons. rewrite IH; [|exact O2|intros a I0; apply N; cbn; apply in_or_app; right; exact I0].
  assert (N1 : forall a, eact mem (t_rank x) e = Some a -> ~ In x (act_writes a)) by (intros a E; apply N; cbn; rewrite E; left; reflexivity).
  destruct e as [q j|c part]; cbn [eexec].
  - unfold texec. apply tset_neq. intros ->. assert (E : t_rank (tj_out j) = q) by (apply (eo_own _ _ _ O1 q (ALoc j)); [cbn; rewrite Z.eqb_refl; reflexivity|right; left; reflexivity]).
    apply (N1 (ALoc j)); [cbn; rewrite E, Z.eqb_refl; reflexivity|left; reflexivity].
  - destruct (member mem c (t_rank x)) eqn:M; [|reflexivity]. destruct (ca_out (part (t_rank x))) as [t|] eqn:O; [|reflexivity]. destruct (tid_eqb_spec x t) as [->|]; [|reflexivity].
    exfalso. apply (N1 (ACom (part (t_rank t)))); [cbn; rewrite M; reflexivity|]. cbn. rewrite O. left. reflexivity.
Qed.
Lemma erun_frame_nil : forall (G : list (event V)) st x, Forall (event_ok mem rks) G -> proj mem (t_rank x) G = [] -> erun mem G st x = st x.
Proof using. intros G st x OK E. apply erun_frame; [exact OK|]. rewrite E. intros a []. Qed.
Lemma flat_one : forall {B} (f : Z -> list B) n c, 0 <= c < n -> (forall x, 0 <= x < n -> x <> c -> f x = []) -> flat_map f (zrange 0 n) = f c.
Proof.
  intros B f n c Lc N. rewrite (zrange_app 0 c n) by lia. rewrite flat_map_app, (flat_map_nil f (zrange 0 c)) by (intros x I0; apply in_zrange in I0; apply N; lia).
  rewrite zrange_cons by lia. cbn. rewrite (flat_map_nil f (zrange (c + 1) n)) by (intros x I0; apply in_zrange in I0; apply N; lia). apply app_nil_r.
Qed.
End frame.

Section ev.
Context {K : starfield} (kn : kernels K).
Variable larft : @larft_fn K.
Variable cplx : bool.
Variables P Q m mb b g ne nb : Z.
Variables srcH srcE : pair_Z.
Variables DH DE : coord -> Z -> axis.
Hypothesis DDH : distributed P Q (m, m) (mb, mb) (mb, mb) srcH (0, 0) DH.
Hypothesis DDE : distributed P Q (m, ne) (mb, nb) (b, nb) srcE (0, 0) DE.
Hypothesis SR : fst srcE = fst srcH.
Hypothesis Hb : 2 <= b.
Hypothesis Hm : (if cplx then 1 else 2) < m.
Notation jl := (j_last cplx m b).
Notation co := (co Q).
Notation rks := (ranks P Q).
Notation mem := (members P Q).
Section block.
Variables kk j step : Z.
Hypothesis Hj : 0 <= j <= jl.
Hypothesis Hst : 0 <= step < t_steps m b (j * b).
Notation i := (j + step).
Notation hrow := ((fst srcH + i * b / mb) mod P).
Notation hcol := ((snd srcH + j * b / mb) mod Q).
Notation brow := ((hrow + 1) mod P).
Definition acr : bool := ((i + 1) * b <? m) && negb (hrow =? (fst srcH + (i + 1) * b / mb) mod P).
Lemma i_pos : 0 <= i. Proof using Hj Hst. lia. Qed.
Lemma i_lt : i * b < m. Proof using Hb Hm Hj Hst. pose proof (step_bound cplx m b Hb Hm j step Hj Hst) as S. unfold t_i in S. lia. Qed.
Let HP : 0 < P := proj1 DDH.
Let HQ : 0 < Q := proj1 (proj2 DDH).
Lemma hrow_in : 0 <= hrow < P. Proof using HP. apply Z.mod_pos_bound. exact HP. Qed.
Lemma brow_in : 0 <= brow < P. Proof using HP. apply Z.mod_pos_bound. exact HP. Qed.
Lemma hcol_in : 0 <= hcol < Q. Proof using HQ. apply Z.mod_pos_bound. exact HQ. Qed.
Lemma acr_rows : acr = true -> hrow <> brow /\ (i + 1) * b < m /\ (fst srcH + (i + 1) * b / mb) mod P = brow.
Proof using DDH DDE Hb Hj Hst.
  intros A. unfold acr in A. apply andb_prop in A as [A B]. apply Z.ltb_lt in A. apply negb_true_iff, Z.eqb_neq in B.
  pose proof (below P Q m mb b ne nb srcH srcE DH DE DDH DDE Hb i i_pos B) as C. rewrite C in B. auto.
Qed.
Notation ti r := (d_ti Q b DH r i).
(** what the model says on rank r *)
Notation Xc := (P) (only parsing).
Ltac ctx L := first [rewrite (L P Q m mb b ne nb srcH srcE DH DE DDH DDE SR Hb)].
Section one.
Variable r : Z.
Hypothesis R : In r rks.
Lemma e_hrow : hh_row Q b DH r i = hrow. Proof using DDH R Hj Hst Hb. eapply x_hrow; eauto using i_pos. Qed.
Lemma e_hcol : hh_col Q b DH r j = hcol. Proof using DDH R Hj Hb. eapply x_hcol; eauto; lia. Qed.
Lemma e_bot : d_bot P Q b DH r i = brow. Proof using DDH R Hj Hst Hb. eapply x_bot; eauto using i_pos. Qed.
Lemma e_ranks : d_ranks Q b DE r i = acr. Proof using DDE R Hj Hst Hb Hm SR. eapply x_ranks; eauto using i_pos, i_lt. Qed.
Lemma e_tiles : d_tiles Q b DE r i = ((i + 1) * b <? m). Proof using DDE R Hj Hst Hb Hm. eapply x_tiles; eauto using i_pos, i_lt. Qed.
Lemma e_top : rk_top Q b DH r i = rk Q hrow (co Col r). Proof using DDH R Hj Hst Hb. unfold rk_top. rewrite e_hrow. reflexivity. Qed.
Lemma e_botr : rk_bot P Q b DH r i = rk Q brow (co Col r). Proof using DDH R Hj Hst Hb. unfold rk_bot. rewrite e_bot. reflexivity. Qed.
Lemma e_root : hh_root Q b DH r i j = rk Q hrow hcol. Proof using DDH R Hj Hst Hb. unfold hh_root. rewrite e_hrow, e_hcol. reflexivity. Qed.
End one.
Lemma rk_in : forall a c, 0 <= a < P -> 0 <= c < Q -> In (rk Q a c) rks. Proof using HP HQ. intros a c. apply (mk_in P Q HP HQ Row). Qed.
Lemma co_row : forall a c, 0 <= a < P -> 0 <= c < Q -> co Row (rk Q a c) = a. Proof using HP HQ. intros a c La Lc. apply (co_mk P Q HP HQ Row a c La Lc). Qed.
Lemma co_col : forall a c, 0 <= a < P -> 0 <= c < Q -> co Col (rk Q a c) = c. Proof using HP HQ. intros a c La Lc. apply (co_mk P Q HP HQ Row a c La Lc). Qed.
Lemma rk_co : forall r, rk Q (co Row r) (co Col r) = r. Proof using HQ. intros r. apply (mk_co P Q HP HQ Row r). Qed.
Lemma in_r : forall r, In r rks -> 0 <= co Row r < P /\ 0 <= co Col r < Q. Proof using HP HQ. intros r. apply (in_ranks P Q HP HQ). Qed.
Lemma memb_row : forall a r, In r rks -> member mem (CRow a) r = (a =? co Row r). Proof using HP HQ. intros a r R. destruct (member_spec mem (CRow a) r) as [I0|N]; [apply (in_cm P Q HP HQ Row a r) in I0; destruct I0 as [_ E]; rewrite E, Z.eqb_refl; reflexivity|]. destruct (Z.eqb_spec a (co Row r)) as [E|]; [|reflexivity]. exfalso. apply N. apply (in_cm P Q HP HQ Row a r). auto. Qed.
Lemma memb_msg : forall s d r, In r rks -> member mem (CMsg s d) r = (r =? s) || (r =? d).
Proof using. intros s d r R. destruct (member_spec mem (CMsg s d) r) as [I0|N]; cbn in *; [apply filter_In in I0; symmetry; apply I0|]. destruct ((r =? s) || (r =? d)) eqn:E; [|reflexivity]. exfalso. apply N. apply filter_In. split; [exact R|exact E]. Qed.
Lemma memb_p2p : forall s d t r, In r rks -> member mem (CP2P s d t) r = (r =? s) || (r =? d).
Proof using. intros s d t r R. destruct (member_spec mem (CP2P s d t) r) as [I0|N]; cbn in *; [apply filter_In in I0; symmetry; apply I0|]. destruct ((r =? s) || (r =? d)) eqn:E; [|reflexivity]. exfalso. apply N. apply filter_In. split; [exact R|exact E]. Qed.

Notation cbc r := (c_bcast (K := K) cplx Q m mb b DH r kk i j).
Notation csd r := (c_send (K := K) cplx P Q m mb b DH r kk i j).
Notation cmp r := (d_compute kn larft cplx Q m mb b g DH DE r kk i j).
Notation sgl r := (a_single kn cplx Q m mb b g DH DE r kk i j).
Notation dbl r := (a_double kn cplx Q m mb b g DH DE r kk i j).
Notation aw2 r := (a_w2 kn cplx Q m mb b DH DE r kk i j).
Notation csm r := (c_sum (K := K) cplx P Q m b DH DE r kk i j).
Notation aad r := (a_add (K := K) cplx Q m b DE r kk i j).
Notation aae r := (a_e kn cplx Q m mb b DH DE r kk i j).
Definition g_bcast : list (event (mat K)) := if 1 <? Q then [EColl (CRow hrow) (fun r => cbc r)] else [].
Definition g_tag (c je : Z) : Z := d_tag Q DE (rk Q hrow c) i je.
Definition g_je (c je : Z) : list (event (mat K)) :=
  let rt := rk Q hrow c in let rb := rk Q brow c in
  if negb ((i + 1) * b <? m) then map (ELoc rt) (sgl rt je) else
  if negb acr then map (ELoc rt) (dbl rt je) else
  [ELoc rt (aw2 rt je); ELoc rb (aw2 rb je); EColl (CP2P rt rb (g_tag c je)) (fun r => csm r je); ELoc rt (aad rt je); ELoc rb (aad rb je); ELoc rt (aae rt je); ELoc rb (aae rb je)].
Definition g_send (c : Z) : list (event (mat K)) := if acr then [EColl (CMsg (rk Q hrow c) (rk Q brow c)) (fun r => csd r)] else [].
Definition g_comp (c : Z) : list (event (mat K)) := map (ELoc (rk Q hrow c)) (cmp (rk Q hrow c)) ++ (if acr then map (ELoc (rk Q brow c)) (cmp (rk Q brow c)) else []).
Definition g_col (c : Z) : list (event (mat K)) :=
  let n := lnt Q DE (rk Q hrow c) Col in
  if n =? 0 then [] else g_send c ++ g_comp c ++ flat_map (g_je c) (zrange 0 n).
Definition g_block : list (event (mat K)) := g_bcast ++ flat_map g_col (zrange 0 Q).

(** ** Projections *)
Lemma rk_eqb : forall r a c, In r rks -> 0 <= a < P -> 0 <= c < Q -> (r =? rk Q a c) = (co Row r =? a) && (co Col r =? c).
Proof using HP HQ.
  intros r a c R La Lc. destruct (Z.eqb_spec r (rk Q a c)) as [->|N].
  - rewrite co_row, co_col, !Z.eqb_refl by assumption. reflexivity.
  - destruct (Z.eqb_spec (co Row r) a) as [<-|]; [|reflexivity]. destruct (Z.eqb_spec (co Col r) c) as [<-|]; [|reflexivity]. exfalso. apply N. symmetry. apply rk_co.
Qed.
Section pj.
Variable r : Z.
Hypothesis R : In r rks.
Lemma pj_rk : forall a c (l : list (tjob (mat K))), 0 <= a < P -> 0 <= c < Q -> proj mem r (map (ELoc (rk Q a c)) l) = if (co Row r =? a) && (co Col r =? c) then map ALoc l else [].
Proof using R HP HQ. intros a c l La Lc. rewrite (proj_map_eloc P Q). rewrite Z.eqb_sym, rk_eqb by assumption. reflexivity. Qed.
Lemma pj_coll : forall c part, proj mem r [EColl c part] = if member mem c r then [ACom (part r)] else ([] : list (act (mat K))).
Proof using. intros c part. cbn. destruct (member mem c r); reflexivity. Qed.
Lemma pj_send : forall c, 0 <= c < Q -> proj mem r (g_send c) = if acr && (co Col r =? c) && ((co Row r =? hrow) || (co Row r =? brow)) then [ACom (csd r)] else [].
Proof using R HP HQ DDH.
  intros c Lc. unfold g_send. destruct acr; [|reflexivity]. rewrite pj_coll, memb_msg by exact R. rewrite !rk_eqb by (first [exact R | exact Lc | apply hrow_in | apply brow_in]).
  cbn [andb]. destruct (co Col r =? c); rewrite ?andb_true_r, ?andb_false_r; reflexivity.
Qed.
Lemma pj_comp : forall c, 0 <= c < Q -> proj mem r (g_comp c) = if (co Col r =? c) && ((co Row r =? hrow) || (acr && (co Row r =? brow))) then map ALoc (cmp r) else [].
Proof using R HP HQ DDH DDE Hb Hj Hst.
  intros c Lc. unfold g_comp. rewrite (proj_app' P Q). rewrite pj_rk by (first [apply hrow_in | exact Lc]).
  destruct (Z.eqb_spec (co Col r) c) as [EC|NC]; rewrite ?andb_true_r, ?andb_false_r.
  - destruct (Z.eqb_spec (co Row r) hrow) as [ER|NR].
    + assert (RR : rk Q hrow c = r) by (rewrite <- EC, <- ER; apply rk_co). rewrite RR. cbn [andb orb]. replace (proj mem r (if acr then map (ELoc (rk Q brow c)) (cmp (rk Q brow c)) else [])) with (@nil (act (mat K))); [apply app_nil_r|].
      destruct acr eqn:A; [|reflexivity]. rewrite pj_rk by (first [apply brow_in | exact Lc]). destruct (acr_rows A) as (N & _). rewrite <- ER in N. destruct (Z.eqb_spec (co Row r) brow); [|reflexivity]. exfalso. rewrite ER in *. congruence.
    + cbn [andb orb app]. destruct acr eqn:A; [|reflexivity]. cbn [andb]. rewrite pj_rk by (first [apply brow_in | exact Lc]). destruct (Z.eqb_spec (co Row r) brow) as [EB|NB]; [|reflexivity].
      assert (RR : rk Q brow c = r) by (rewrite <- EC, <- EB; apply rk_co). rewrite RR, EC, Z.eqb_refl. reflexivity.
  - cbn [app]. destruct acr; [|reflexivity]. rewrite pj_rk by (first [apply brow_in | exact Lc]). destruct (Z.eqb_spec (co Col r) c); [contradiction|]. rewrite andb_false_r. reflexivity.
Qed.
Lemma pj_je : forall c je, 0 <= c < Q -> proj mem r (g_je c je) =
  if (co Col r =? c) && ((co Row r =? hrow) || (acr && (co Row r =? brow))) then a_column kn cplx P Q m mb b g DH DE r kk i j je else [].
Proof using R DDH DDE Hb Hm Hj Hst SR HP HQ.
  intros c je Lc. unfold g_je, a_column. rewrite e_tiles, e_ranks by exact R. destruct ((i + 1) * b <? m) eqn:T; cbn [negb].
  2:{ assert (A : acr = false) by (unfold acr; rewrite T; reflexivity). rewrite A. cbn [andb]. rewrite orb_false_r. rewrite pj_rk by (first [apply hrow_in | exact Lc]).
      rewrite andb_comm. destruct (Z.eqb_spec (co Col r) c) as [EC|]; [|reflexivity]. destruct (Z.eqb_spec (co Row r) hrow) as [ER|]; [|reflexivity]. cbn [andb].
      assert (RR : rk Q hrow c = r) by (rewrite <- EC, <- ER; apply rk_co). rewrite RR. reflexivity. }
  destruct acr eqn:A; cbn [negb andb].
  2:{ rewrite orb_false_r. rewrite pj_rk by (first [apply hrow_in | exact Lc]).
      rewrite andb_comm. destruct (Z.eqb_spec (co Col r) c) as [EC|]; [|reflexivity]. destruct (Z.eqb_spec (co Row r) hrow) as [ER|]; [|reflexivity]. cbn [andb].
      assert (RR : rk Q hrow c = r) by (rewrite <- EC, <- ER; apply rk_co). rewrite RR. reflexivity. }
  destruct (acr_rows A) as (N & _).
  change [ELoc (rk Q hrow c) (aw2 (rk Q hrow c) je); ELoc (rk Q brow c) (aw2 (rk Q brow c) je); EColl (CP2P (rk Q hrow c) (rk Q brow c) (g_tag c je)) (fun r => csm r je);
    ELoc (rk Q hrow c) (aad (rk Q hrow c) je); ELoc (rk Q brow c) (aad (rk Q brow c) je); ELoc (rk Q hrow c) (aae (rk Q hrow c) je); ELoc (rk Q brow c) (aae (rk Q brow c) je)]
   with (map (ELoc (rk Q hrow c)) [aw2 (rk Q hrow c) je] ++ map (ELoc (rk Q brow c)) [aw2 (rk Q brow c) je] ++ [EColl (CP2P (rk Q hrow c) (rk Q brow c) (g_tag c je)) (fun r => csm r je)] ++
    map (ELoc (rk Q hrow c)) [aad (rk Q hrow c) je] ++ map (ELoc (rk Q brow c)) [aad (rk Q brow c) je] ++ map (ELoc (rk Q hrow c)) [aae (rk Q hrow c) je] ++ map (ELoc (rk Q brow c)) [aae (rk Q brow c) je]).
  rewrite !(proj_app' P Q), !pj_rk by (first [apply hrow_in | apply brow_in | exact Lc]). rewrite pj_coll, memb_p2p by exact R. rewrite !rk_eqb by (first [exact R | exact Lc | apply hrow_in | apply brow_in]).
  destruct (Z.eqb_spec (co Col r) c) as [EC|]; rewrite ?andb_true_r, ?andb_false_r; [|reflexivity]. cbn [andb].
  destruct (Z.eqb_spec (co Row r) hrow) as [ER|NR].
  - assert (RR : rk Q hrow c = r) by (rewrite <- EC, <- ER; apply rk_co). rewrite RR. destruct (Z.eqb_spec (co Row r) brow) as [EB|]; [exfalso; congruence|]. reflexivity.
  - destruct (Z.eqb_spec (co Row r) brow) as [EB|]; [|reflexivity]. assert (RR : rk Q brow c = r) by (rewrite <- EC, <- EB; apply rk_co). rewrite RR. reflexivity.
Qed.
Lemma lnt_col : forall a c, 0 <= a < P -> 0 <= c < Q -> co Col r = c -> lnt Q DE (rk Q a c) Col = lnt Q DE r Col.
Proof using HP HQ. intros a c La Lc E. unfold lnt, ax. rewrite co_col by assumption. rewrite E. reflexivity. Qed.
Lemma pj_col_nil : forall c, 0 <= c < Q -> co Col r <> c \/ (co Row r <> hrow /\ (acr = false \/ co Row r <> brow)) -> proj mem r (g_col c) = [].
Proof using R DDH DDE Hb Hm Hj Hst SR HP HQ.
  intros c Lc N. unfold g_col. destruct (_ =? 0); [reflexivity|]. rewrite !(proj_app' P Q), (proj_flat P Q). rewrite pj_send, pj_comp by exact Lc.
  assert (E1 : acr && (co Col r =? c) && ((co Row r =? hrow) || (co Row r =? brow)) = false) by (destruct N as [N|[N1 N2]]; destruct acr; lia).
  assert (E2 : (co Col r =? c) && ((co Row r =? hrow) || (acr && (co Row r =? brow))) = false) by (destruct N as [N|[N1 N2]]; destruct acr; lia).
  rewrite E1, E2. cbn [app]. apply flat_map_nil. intros je _. rewrite pj_je by exact Lc. rewrite E2. reflexivity.
Qed.
Theorem block_proj : proj mem r g_block = d_block kn larft cplx P Q m mb b g DH DE r kk i j.
Proof using R DDH DDE Hb Hm Hj Hst SR HP HQ.
  destruct (in_r r R) as [Lr Lc]. unfold g_block. rewrite (proj_app' P Q), (proj_flat P Q).
  rewrite (flat_one _ Q (co Col r)) by (first [exact Lc | intros x Lx Nx; apply pj_col_nil; [exact Lx|left; congruence]]).
  unfold d_block, involved. rewrite e_hrow, e_bot, e_ranks by exact R.
  assert (B : proj mem r g_bcast = d_bcast cplx Q m mb b DH r kk i j).
  { unfold g_bcast, d_bcast. rewrite e_hrow by exact R. destruct (1 <? Q); [|reflexivity]. rewrite pj_coll, memb_row by exact R. cbn [andb]. rewrite Z.eqb_sym. reflexivity. }
  rewrite B. destruct ((co Row r =? hrow) || ((co Row r =? brow) && acr)) eqn:I0.
  - f_equal. unfold g_col. rewrite lnt_col by (first [exact Lc | apply hrow_in | reflexivity]). destruct (lnt Q DE r Col =? 0); [reflexivity|].
    rewrite !(proj_app' P Q), (proj_flat P Q), pj_send, pj_comp by exact Lc. rewrite Z.eqb_refl.
    assert (E2 : ((co Row r =? hrow) || (acr && (co Row r =? brow))) = true) by (destruct acr; lia).
    f_equal; [|f_equal].
    + unfold d_send. rewrite e_hrow, e_bot, e_ranks by exact R. rewrite andb_true_r. reflexivity.
    + rewrite E2. reflexivity.
    + apply flat_map_ext. intros je. rewrite pj_je by exact Lc. rewrite Z.eqb_refl, E2. reflexivity.
  - rewrite pj_col_nil by (first [exact Lc | right; destruct acr; lia]). rewrite app_nil_r. unfold d_bcast. rewrite e_hrow by exact R.
    replace (co Row r =? hrow) with false by lia. rewrite andb_false_r. reflexivity.
Qed.
End pj.
(** ** The events are well formed *)
Lemma hh_tile_rank : forall r, t_rank (hh_tile cplx Q m mb b DH r kk i j) = r. Proof using. intros r. unfold hh_tile. destruct (hh_own _ _ _ _ _ _); reflexivity. Qed.
Lemma ok_map : forall r (l : list (tjob (mat K))), In r rks -> own_tiles r l -> Forall (event_ok mem rks) (map (ELoc r) l).
Proof using. intros r l R O. apply Forall_forall. intros e I0. apply in_map_iff in I0 as (x & <- & Ix). apply eloc_ok; [exact R|]. intros t. apply O. exact Ix. Qed.
Lemma cmp_own : forall r, own_tiles r (cmp r).
Proof using. intros r. unfold d_compute. intros x t Ix It. cbn [In] in Ix. destruct Ix as [<-|[<-|[<-|[]]]]; cbn [tj_in tj_out In] in It; destruct It as [It|It]; repeat (destruct It as [It|It]); try contradiction; subst t; first [reflexivity | apply hh_tile_rank]. Qed.
Lemma sgl_own : forall r je, own_tiles r (sgl r je).
Proof using. intros r je. unfold a_single. apply own_flat. intros x _ y t Ix It. cbn [In] in Ix. destruct Ix as [<-|[<-|[]]]; cbn [tj_in tj_out In] in It; destruct It as [It|It]; repeat (destruct It as [It|It]); try contradiction; subst t; reflexivity. Qed.
Lemma dbl_own : forall r je, own_tiles r (dbl r je).
Proof using. intros r je. unfold a_double. cbv zeta. apply own_flat. intros x _ y t Ix It. cbn [In] in Ix. destruct Ix as [<-|[<-|[<-|[<-|[]]]]]; cbn [tj_in tj_out In] in It; destruct It as [It|It]; repeat (destruct It as [It|It]); try contradiction; subst t; reflexivity. Qed.
Lemma de_rank : forall r je, t_rank (d_e Q b DH DE r i je) = r. Proof using. intros r je. unfold d_e. destruct (is_top _ _ _ _ _); reflexivity. Qed.
Lemma two_own : forall r je, own_tiles r [aw2 r je; aad r je; aae r je].
Proof using. intros r je x t Ix It. cbn [In] in Ix. destruct Ix as [<-|[<-|[<-|[]]]]; cbn [tj_in tj_out In a_w2 a_add a_e] in It; destruct It as [It|It]; repeat (destruct It as [It|It]); try contradiction; subst t; first [reflexivity | apply de_rank]. Qed.
Lemma bcast_ok : Forall (event_ok mem rks) g_bcast.
Proof using DDH DDE Hb Hm Hj Hst HP HQ.
  unfold g_bcast. destruct (1 <? Q); [|constructor]. constructor; [|constructor].
  assert (RM : forall r, In r (mem (CRow hrow)) -> In r rks /\ co Row r = hrow) by (intros r I0; apply (in_cm P Q HP HQ Row) in I0; exact I0).
  constructor.
  - intros r a E. cbn [eact] in E. destruct (member_spec mem (CRow hrow) r) as [I0|]; [|discriminate]. apply RM. exact I0.
  - intros r a t E I0. cbn [eact] in E. destruct (member mem (CRow hrow) r); [|discriminate]. injection E as <-. unfold c_bcast in I0. destruct (_ =? _); cbn in I0; destruct I0 as [[<-|[]]|[]] || destruct I0 as [[]|[<-|[]]]; reflexivity.
  - intros c part E r I0. injection E as <- <-. destruct (RM r I0) as [R _]. unfold c_bcast. destruct (_ =? _); cbn [bsend ca_comm]; rewrite e_hrow by exact R; reflexivity.
  - intros c part E r q I1 I2. injection E as <- <-. destruct (RM r I1) as [R1 _], (RM q I2) as [R2 _]. unfold c_bcast. rewrite !e_root by assumption. destruct (_ =? _), (_ =? _); reflexivity.
  - intros c part E r q I1 I2. injection E as <- <-. destruct (RM r I1) as [R1 _]. unfold c_bcast in I2. destruct (_ =? _); [destruct I2|]. cbn in I2. destruct I2 as [<-|[]].
    rewrite e_root by exact R1. pose proof hrow_in. pose proof hcol_in. split.
    + apply (in_cm P Q HP HQ Row). split; [apply rk_in; assumption|apply co_row; assumption].
    + unfold c_bcast. rewrite e_hcol by (apply rk_in; assumption). rewrite co_col by assumption. rewrite Z.eqb_refl. discriminate.
Qed.
Lemma pair_in : forall c r, 0 <= c < Q -> r = rk Q hrow c \/ r = rk Q brow c -> In r rks /\ co Col r = c /\ (co Row r = hrow \/ co Row r = brow).
Proof using HP HQ. intros c r Lc [-> | ->]; pose proof hrow_in; pose proof brow_in; rewrite co_col, co_row by assumption; (split; [apply rk_in; assumption|auto]). Qed.
Lemma send_ok : forall c, 0 <= c < Q -> Forall (event_ok mem rks) (g_send c).
Proof using DDH DDE Hb Hm Hj Hst HP HQ.
  intros c Lc. unfold g_send. destruct acr eqn:A; [|constructor]. constructor; [|constructor]. destruct (acr_rows A) as (NB & _).
  assert (RM : forall r, In r (mem (CMsg (rk Q hrow c) (rk Q brow c))) -> In r rks /\ co Col r = c /\ (co Row r = hrow \/ co Row r = brow)).
  { intros r I0. apply pair_in; [exact Lc|]. cbn in I0. apply filter_In in I0. destruct I0 as [_ I0]. lia. }
  constructor.
  - intros r a E. cbn [eact] in E. destruct (member_spec mem (CMsg (rk Q hrow c) (rk Q brow c)) r) as [I0|]; [|discriminate]. apply RM. exact I0.
  - intros r a t E I0. cbn [eact] in E. destruct (member mem _ r); [|discriminate]. injection E as <-. unfold c_send in I0. destruct (co Row r =? _); cbn in I0.
    + destruct I0 as [[<-|[]]|[]]. apply hh_tile_rank.
    + destruct I0 as [[]|[<-|[]]]. reflexivity.
  - intros x part E r I0. injection E as <- <-. destruct (RM r I0) as (R & EC & _). unfold c_send. rewrite e_top, e_botr, EC by exact R. destruct (co Row r =? _); reflexivity.
  - intros x part E r q I1 I2. injection E as <- <-. unfold c_send. destruct (co Row r =? _), (co Row q =? _); reflexivity.
  - intros x part E r q I1 I2. injection E as <- <-. destruct (RM r I1) as (R & EC & _). unfold c_send in I2. destruct (co Row r =? _); [destruct I2|]. cbn in I2. destruct I2 as [<-|[]].
    rewrite e_top, EC by exact R. pose proof hrow_in. split.
    + cbn. apply filter_In. split; [apply rk_in; assumption|]. rewrite Z.eqb_refl. reflexivity.
    + unfold c_send. rewrite e_hrow by (apply rk_in; assumption). rewrite co_row by assumption. rewrite Z.eqb_refl. discriminate.
Qed.
Lemma comp_ok : forall c, 0 <= c < Q -> Forall (event_ok mem rks) (g_comp c).
Proof using HP HQ.
  intros c Lc. unfold g_comp. pose proof hrow_in. pose proof brow_in. apply Forall_app. split; [apply ok_map; [apply rk_in; assumption|apply cmp_own]|].
  destruct acr; [|constructor]. apply ok_map; [apply rk_in; assumption|apply cmp_own].
Qed.
Lemma sum_ok : forall c je, 0 <= c < Q -> hrow <> brow -> event_ok mem rks (EColl (CP2P (rk Q hrow c) (rk Q brow c) (g_tag c je)) (fun r => csm r je)).
Proof using DDH DDE Hb Hm Hj Hst HP HQ.
  intros c je Lc NB.
  assert (RM : forall r, In r (mem (CP2P (rk Q hrow c) (rk Q brow c) (g_tag c je))) -> In r rks /\ co Col r = c /\ (co Row r = hrow \/ co Row r = brow)).
  { intros r I0. apply pair_in; [exact Lc|]. cbn in I0. apply filter_In in I0. destruct I0 as [_ I0]. lia. }
  constructor.
  - intros r a E. cbn [eact] in E. destruct (member_spec mem (CP2P (rk Q hrow c) (rk Q brow c) (g_tag c je)) r) as [I0|]; [|discriminate]. apply RM. exact I0.
  - intros r a t E I0. cbn [eact] in E. destruct (member mem _ r); [|discriminate]. injection E as <-. unfold c_sum in I0. cbn in I0. destruct I0 as [[<-|[]]|[<-|[]]]; reflexivity.
  - intros x part E r I0. injection E as <- <-. destruct (RM r I0) as (R & EC & _). unfold c_sum, d_chan. cbn [ca_comm]. rewrite e_top, e_botr, EC by exact R. f_equal.
    unfold g_tag, d_tag, lnt, ax. rewrite co_col, EC by (first [exact Lc | apply hrow_in]). reflexivity.
  - intros x part E r q I1 I2. injection E as <- <-. reflexivity.
  - intros x part E r q I1 I2. injection E as <- <-. destruct (RM r I1) as (R & EC & _). cbn in I2. destruct I2 as [<-|[]]. split; [|discriminate].
    unfold d_mate. rewrite e_top, e_botr, EC by exact R. pose proof hrow_in. pose proof brow_in. destruct (is_top _ _ _ _ _); cbn; apply filter_In; (split; [apply rk_in; assumption|]); rewrite Z.eqb_refl; rewrite ?orb_true_r; reflexivity.
Qed.
Lemma je_ok : forall c je, 0 <= c < Q -> Forall (event_ok mem rks) (g_je c je).
Proof using DDH DDE Hb Hm Hj Hst HP HQ.
  intros c je Lc. unfold g_je. pose proof hrow_in. pose proof brow_in. destruct (negb ((i + 1) * b <? m)); [apply ok_map; [apply rk_in; assumption|apply sgl_own]|].
  destruct acr eqn:A; cbn [negb]; [|apply ok_map; [apply rk_in; assumption|apply dbl_own]]. destruct (acr_rows A) as (NB & _).
  assert (L : forall r x, In r rks -> In x [aw2 r je; aad r je; aae r je] -> event_ok mem rks (ELoc r x)) by (intros r x R I0; apply eloc_ok; [exact R|]; intros t; apply (two_own r je x t I0)).
  repeat (apply Forall_cons; [first [apply sum_ok; assumption | apply L; [apply rk_in; assumption|cbn; auto]]|]). constructor.
Qed.
Lemma col_ok : forall c, 0 <= c < Q -> Forall (event_ok mem rks) (g_col c).
Proof using DDH DDE Hb Hm Hj Hst HP HQ.
  intros c Lc. unfold g_col. destruct (_ =? 0); [constructor|]. apply Forall_app. split; [apply send_ok; exact Lc|]. apply Forall_app. split; [apply comp_ok; exact Lc|].
  apply forall_flat. intros je _. apply je_ok. exact Lc.
Qed.
Theorem block_ok : Forall (event_ok mem rks) g_block.
Proof using DDH DDE Hb Hm Hj Hst HP HQ.
  apply Forall_app. split; [apply bcast_ok|]. apply forall_flat. intros c I0. apply in_zrange in I0. apply col_ok. exact I0.
Qed.
End block.
End ev.
