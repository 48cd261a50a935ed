(** * Panel broadcasts: who calls what, and what the panels contain afterwards. *)
From Coq Require Import ZArith Lia List Bool.
From Verif Require Import CInt Loop DistModel DistSpec DistProofs DistBuilt DistThms DenseJobs DistMachine DistGrid PanelModel.
Import ListNotations.
Local Open Scope Z_scope.

(** The ranks of a P x Q grid construct a Distribution with the same arguments (but their own rank). *)
Record grid_axes (P Q : Z) (Ls : coord -> layout) (D : coord -> Z -> axis) (nt : coord -> Z) : Prop := {
  ga_P : 0 < P; ga_Q : 0 < Q;
  ga_models : forall rc p, 0 <= p < gs P Q rc -> models p (Ls rc) (D rc p);
  ga_grid : forall rc, l_grid (Ls rc) = gs P Q rc;
  ga_nt : forall rc p, 0 <= p < gs P Q rc -> ax_nr_tiles (D rc p) = nt rc;
}.

Section proofs.
Context {V : Type}.
Variables P Q : Z.
Variable Ls : coord -> layout.
Variable D : coord -> Z -> axis.
Variable nt : coord -> Z.
Hypothesis GA : grid_axes P Q Ls D nt.
Let HP := ga_P _ _ _ _ _ GA.
Let HQ := ga_Q _ _ _ _ _ GA.
Notation own rc k := (tile_owner (Ls rc) k).
Notation co := (co Q).
Notation mk := (mk Q).
Notation gs := (gs P Q).
Notation ranks := (ranks P Q).
Notation mem := (members P Q).

Lemma other_other : forall rc, other (other rc) = rc. Proof. intros []; reflexivity. Qed.
Lemma own_range : forall rc k, 0 <= own rc k < gs rc.
Proof.
  intros rc k. unfold tile_owner. rewrite <- (ga_grid _ _ _ _ _ GA). apply Z.mod_pos_bound. rewrite (ga_grid _ _ _ _ _ GA). apply (gs_pos P Q HP HQ).
Qed.
Lemma rank_co : forall r rc, In r ranks -> 0 <= co rc r < gs rc.
Proof. intros r rc I0. apply (in_ranks_rc P Q HP HQ rc) in I0. tauto. Qed.
Lemma rank_models : forall r rc, In r ranks -> models (co rc r) (Ls rc) (ax Q D r rc).
Proof. intros r rc I0. apply (ga_models _ _ _ _ _ GA). apply rank_co. exact I0. Qed.
Lemma rank_nt : forall r rc, In r ranks -> ax_nr_tiles (ax Q D r rc) = nt rc.
Proof. intros r rc I0. apply (ga_nt _ _ _ _ _ GA). apply rank_co. exact I0. Qed.
Lemma t_own_eq : forall r rc k, In r ranks -> 0 <= k -> t_own Q D r rc k = own rc k.
Proof. intros r rc k R L. apply (T_tile_owner _ _ _ (rank_models r rc R)). exact L. Qed.
Lemma t_gl_loc : forall r rc k, In r ranks -> 0 <= k < nt rc -> own rc k = co rc r -> t_gl Q D r rc (t_loc Q D r rc k) = k.
Proof. intros r rc k R L O. apply (T_global_tile_inv _ _ _ (rank_models r rc R)); [rewrite rank_nt by exact R; exact L|exact O]. Qed.
Lemma loop_tiles : forall {B} (f : Z -> list B) r rc lo hi, In r ranks -> 0 <= lo <= hi -> hi <= nt rc ->
  flat_map (fun l => f (t_gl Q D r rc l)) (zrange (t_nx Q D r rc lo) (t_nx Q D r rc hi)) =
  flat_map (fun t => if own rc t =? co rc r then f t else []) (zrange lo hi).
Proof.
  intros B f r rc lo hi R L1 L2. apply (local_loop (Ls rc) (co rc r) (ax Q D r rc) (rank_models r rc R)); [exact L1|]. rewrite rank_nt by exact R. exact L2.
Qed.
Lemma loop_end : forall r rc, In r ranks -> ax_local_nr_tiles (ax Q D r rc) = t_nx Q D r rc (nt rc).
Proof. intros r rc R. rewrite (local_end _ _ _ (rank_models r rc R)), rank_nt by exact R. reflexivity. Qed.
Lemma mk_rank : forall rc a b, 0 <= a < gs rc -> 0 <= b < gs (other rc) -> In (mk rc a b) ranks.
Proof. intros. apply (mk_in P Q HP HQ); assumption. Qed.
Lemma mk_eqb : forall rc a b r, In r ranks -> 0 <= a < gs rc -> 0 <= b < gs (other rc) ->
  (r =? mk rc a b) = (co rc r =? a) && (co (other rc) r =? b).
Proof.
  intros rc a b r R A B. destruct (Z.eqb_spec r (mk rc a b)) as [E|E].
  - destruct (co_mk P Q HP HQ rc a b A B) as [X Y]. rewrite <- E in X, Y. rewrite X, Y, !Z.eqb_refl. reflexivity.
  - symmetry. apply Bool.not_true_is_false. intros Q0. apply andb_prop in Q0 as [X Y]. apply Z.eqb_eq in X, Y. apply E. rewrite <- X, <- Y. symmetry. apply (mk_co P Q HP HQ).
Qed.
Lemma member_cm : forall rc a r, In r ranks -> member mem (cm rc a) r = (a =? co rc r).
Proof.
  intros rc a r R. destruct (member_spec mem (cm rc a) r) as [M|M]; rewrite (in_cm P Q HP HQ) in M; symmetry.
  - apply Z.eqb_eq. symmetry. tauto.
  - apply Z.eqb_neq. intros E. apply M. auto.
Qed.

(** ** STEP 1: one panel *)
(** the panels of all the ranks *)
Variable rc : coord.
Variable root : Z.
Hypothesis HR : 0 <= root < gs (other rc).
Variable pf : Z -> panel.
Variables id lo hi : Z.
Hypothesis PID : forall r, In r ranks -> p_id (pf r) = id /\ p_lo (pf r) = lo /\ p_hi (pf r) = hi.
Hypothesis RNG : 0 <= lo <= hi /\ hi <= nt rc.
Definition psrc (i : Z) : Z := mk rc (own rc i) root.
Definition ebc1 : list (event V) :=
  if gs (other rc) <=? 1 then [] else
  flat_map (fun i => [ebcast (cm rc (own rc i)) (psrc i) (p_tile (psrc i) (pf (psrc i)) i) (fun r => Tid r id i 0)]) (zrange lo hi).

Lemma psrc_in : forall i, In (psrc i) ranks.
Proof. intros i. apply mk_rank; [apply own_range|exact HR]. Qed.
Lemma psrc_co : forall i, co rc (psrc i) = own rc i /\ co (other rc) (psrc i) = root.
Proof. intros i. apply (co_mk P Q HP HQ); [apply own_range|exact HR]. Qed.
Lemma ebc1_proj : forall r, In r ranks -> panel_broadcast P Q D rc r root (pf r) = proj mem r ebc1.
Proof.
  intros r R. unfold panel_broadcast, ebc1. destruct (gs (other rc) <=? 1); [reflexivity|]. destruct (PID r R) as (E1 & E2 & E3). rewrite E2, E3.
  rewrite (loop_tiles (fun i => [ACom (if co (other rc) r =? root then bsend (cm rc (co rc r)) (mk rc (co rc r) root) (p_tile r (pf r) i)
     else brecv (cm rc (co rc r)) (mk rc (co rc r) root) (p_int r (pf r) i))]) r rc lo hi R) by lia.
  rewrite (proj_flat P Q). apply flat_map_ext_in. intros i Li. apply in_zrange in Li. rewrite (ebcast_proj P Q), member_cm by exact R.
  destruct (Z.eqb_spec (own rc i) (co rc r)) as [O|O]; [|reflexivity]. unfold psrc. rewrite O, mk_eqb by (try exact R; try exact HR; apply rank_co; exact R).
  rewrite Z.eqb_refl. cbn [andb]. destruct (Z.eqb_spec (co (other rc) r) root) as [E|E].
  - rewrite <- E. rewrite (mk_co P Q HP HQ rc r). reflexivity.
  - unfold p_int. rewrite E1. reflexivity.
Qed.
Hypothesis ROOT : forall r i, In r ranks -> co (other rc) r = root -> lo <= i < hi -> own rc i = co rc r -> t_rank (p_tile r (pf r) i) = r.
Hypothesis LEAF : forall r i, In r ranks -> co (other rc) r <> root -> lo <= i < hi -> own rc i = co rc r -> p_ext (pf r) i = None.

Lemma ebc1_ok : Forall (event_ok mem ranks) ebc1.
Proof.
  unfold ebc1. destruct (gs (other rc) <=? 1); [constructor|]. apply forall_flat. intros i Li. apply in_zrange in Li.
  constructor; [|constructor]. destruct (psrc_co i) as [C1 C2]. apply ebcast_ok; [exact HP|exact HQ| | |].
  - apply (in_cm P Q HP HQ). split; [apply psrc_in|exact C1].
  - apply ROOT; [apply psrc_in|exact C2|exact Li|symmetry; exact C1].
  - intros r _ _. reflexivity.
Qed.
(** Every rank finds in its panel the tiles of the root's panel; nothing else changes. *)
Lemma ebc1_run : forall st : tstore V,
  (forall r i, In r ranks -> lo <= i < hi -> own rc i = co rc r -> erun mem ebc1 st (p_tile r (pf r) i) = st (p_tile (psrc i) (pf (psrc i)) i)) /\
  (forall x, (forall r i, In r ranks -> co (other rc) r <> root -> lo <= i < hi -> own rc i = co rc r -> x <> Tid r id i 0) -> erun mem ebc1 st x = st x).
Proof.
  intros st. unfold ebc1. destruct (Z.leb_spec (gs (other rc)) 1) as [S1|S1].
  { split; [|reflexivity]. intros r i R Li O. cbn. assert (psrc i = r) as ->; [|reflexivity].
    unfold psrc. rewrite O. pose proof (rank_co r (other rc) R). replace root with (co (other rc) r) by lia. apply (mk_co P Q HP HQ). }
  assert (FR : forall hi', lo <= hi' <= hi -> forall st0 x, (forall r i, In r ranks -> co (other rc) r <> root -> lo <= i < hi' -> own rc i = co rc r -> x <> Tid r id i 0) ->
    erun mem (flat_map (fun i => [ebcast (V:=V) (cm rc (own rc i)) (psrc i) (p_tile (psrc i) (pf (psrc i)) i) (fun r => Tid r id i 0)]) (zrange lo hi')) st0 x = st0 x).
  { intros hi' L' st0 x N. apply (erun_flat_inv P Q _ lo hi' (fun _ s => s x = st0 x) st0); [lia|reflexivity|].
    intros i s Li IH. rewrite erun_cons. cbn [erun fold_left]. rewrite (bcast_frame P Q); [exact IH|]. intros r MR NR. apply (in_cm P Q HP HQ) in MR as [R C].
    apply (N r i R); [|exact Li|symmetry; exact C]. intros E. apply NR. unfold psrc. rewrite <- C, <- E. symmetry. apply (mk_co P Q HP HQ). }
  split; [|intros x N; apply FR; [lia|exact N]].
  (* tiles received so far *)
  intros r i R Li O.
  assert (SRC : forall k s, lo <= k <= hi -> s = erun mem (flat_map (fun i => [ebcast (V:=V) (cm rc (own rc i)) (psrc i) (p_tile (psrc i) (pf (psrc i)) i) (fun r => Tid r id i 0)]) (zrange lo k)) st ->
     s (p_tile (psrc i) (pf (psrc i)) i) = st (p_tile (psrc i) (pf (psrc i)) i)).
  { intros k s Lk ->. apply FR; [lia|]. intros q i' Rq Cq Li' Oq E. apply Cq.
    assert (t_rank (p_tile (psrc i) (pf (psrc i)) i) = psrc i) as T by (apply ROOT; [apply psrc_in|apply psrc_co|exact Li|symmetry; apply psrc_co]).
    rewrite E in T. cbn in T. rewrite T. apply psrc_co. }
  destruct (Z.eq_dec (co (other rc) r) root) as [E|E].
  { assert (psrc i = r) as EP by (unfold psrc; rewrite O, <- E; apply (mk_co P Q HP HQ)). rewrite EP in *. apply (SRC hi); [lia|reflexivity]. }
  rewrite (zrange_app lo i hi) by lia. rewrite flat_map_app, erun_app. rewrite (zrange_cons i) by lia. cbn [flat_map app]. rewrite erun_cons.
  destruct (PID r R) as (E1 & _). assert (p_tile r (pf r) i = Tid r id i 0) as -> by (unfold p_tile, p_int; rewrite LEAF by assumption; rewrite E1; reflexivity).
  transitivity (eexec mem (erun mem (flat_map (fun i => [ebcast (V:=V) (cm rc (own rc i)) (psrc i) (p_tile (psrc i) (pf (psrc i)) i) (fun r => Tid r id i 0)]) (zrange lo i)) st)
     (ebcast (cm rc (own rc i)) (psrc i) (p_tile (psrc i) (pf (psrc i)) i) (fun r => Tid r id i 0)) (Tid r id i 0)).
  - apply (erun_flat_inv P Q _ (i + 1) hi (fun _ s => s (Tid r id i 0) = _) _); [lia|reflexivity|]. intros i' s Li' IH.
    rewrite erun_cons. cbn [erun fold_left]. rewrite (bcast_frame P Q); [exact IH|]. intros q _ _ X. injection X. lia.
  - rewrite (bcast_dst P Q (cm rc (own rc i)) (psrc i) _ (fun r => Tid r id i 0) _ r).
    + apply (SRC i); [lia|reflexivity].
    + apply (in_cm P Q HP HQ). auto.
    + intros X. apply E. rewrite X. apply psrc_co.
    + reflexivity.
Qed.

(** ** STEP 2: the transposed panel *)
Let rT := other rc.
Variable pTf : Z -> panel.
Variables idT loT hiT : Z.
Hypothesis PIDT : forall r, In r ranks -> p_id (pTf r) = idT /\ p_lo (pTf r) = loT /\ p_hi (pTf r) = hiT.
Hypothesis FRESH : forall r k, In r ranks -> p_ext (pTf r) k = None.
Hypothesis RNGT : lo <= loT <= hiT /\ hiT <= hi /\ hiT <= nt rT.
Hypothesis IDS : forall r i, In r ranks -> lo <= i < hi -> own rc i = co rc r -> t_mat (p_tile r (pf r) i) <> idT /\ t_rank (p_tile r (pf r) i) = r.
(** the rank that has tile k in its panel and passes it on *)
Definition dsrc (k : Z) : Z := mk rc (own rc k) (own rT k).
Lemma dsrc_in : forall k, In (dsrc k) ranks.
Proof. intros k. apply mk_rank; apply own_range. Qed.
Lemma dsrc_co : forall k, co rc (dsrc k) = own rc k /\ co rT (dsrc k) = own rT k.
Proof. intros k. apply (co_mk P Q HP HQ); apply own_range. Qed.
(** panelT after the call *)
Definition pTafter (r : Z) : panel :=
  Panel idT loT hiT (fun k => if (loT <=? k) && (k <? hiT) && (own rT k =? co rT r) && (own rc k =? co rc r) then Some (p_tile r (pf r) k) else None).
Definition ebc2 : list (event V) :=
  flat_map (fun k => if 1 <? gs rc then [ebcast (cm rT (own rT k)) (dsrc k) (p_tile (dsrc k) (pf (dsrc k)) k) (fun r => Tid r idT k 0)] else []) (zrange loT hiT).

Lemma dsrc_mk : forall k, mk rT (own rT k) (own rc k) = dsrc k.
Proof. intros k. unfold dsrc, rT. destruct rc; reflexivity. Qed.
Lemma mkT : forall a b, mk rT a b = mk rc b a.
Proof. intros. unfold rT. destruct rc; reflexivity. Qed.
(** Panels are compared by what they give access to. *)
Definition panel_eq (p q : panel) : Prop := p_id p = p_id q /\ p_lo p = p_lo q /\ p_hi p = p_hi q /\ forall k, p_ext p k = p_ext q k.

Lemma ebc2_proj : forall r, In r ranks ->
  exists pT', fold_left (fun acc k => bcastT_step (V:=V) P Q D rc r (pf r) k acc) (zrange loT hiT) ([], pTf r) = (proj mem r ebc2, pT') /\ panel_eq pT' (pTafter r).
Proof.
  intros r R. destruct (PIDT r R) as (E1 & E2 & E3).
  assert (G : forall n, loT <= n <= hiT -> exists pT',
    fold_left (fun acc k => bcastT_step (V:=V) P Q D rc r (pf r) k acc) (zrange loT n) ([], pTf r) =
      (proj mem r (flat_map (fun k => if 1 <? gs rc then [ebcast (cm rT (own rT k)) (dsrc k) (p_tile (dsrc k) (pf (dsrc k)) k) (fun r => Tid r idT k 0)] else []) (zrange loT n)), pT') /\
    p_id pT' = idT /\ p_lo pT' = loT /\ p_hi pT' = hiT /\
    forall k, p_ext pT' k = if (loT <=? k) && (k <? n) && (own rT k =? co rT r) && (own rc k =? co rc r) then Some (p_tile r (pf r) k) else None).
  { intros n Ln. remember (Z.to_nat (n - loT)) as m eqn:E. revert n Ln E. induction m as [|m IH]; intros n Ln E.
    - assert (n = loT) as -> by lia. rewrite zrange_nil by lia. exists (pTf r). repeat split; auto. intros k. rewrite FRESH by exact R.
      destruct (Z.leb_spec loT k), (Z.ltb_spec k loT); cbn; reflexivity || lia.
    - destruct (IH (n - 1) ltac:(lia) ltac:(lia)) as (pT' & F & I1 & I2 & I3 & I4). replace n with (n - 1 + 1) by lia. rewrite zrange_snoc by lia.
      rewrite fold_left_app, F. cbn [fold_left]. rewrite flat_map_app, (proj_app' P Q). cbn [flat_map]. rewrite app_nil_r. set (k := n - 1) in *.
      assert (PR : proj mem r (if 1 <? gs rc then [ebcast (V:=V) (cm rT (own rT k)) (dsrc k) (p_tile (dsrc k) (pf (dsrc k)) k) (fun r0 => Tid r0 idT k 0)] else []) =
        if 1 <? gs rc then (if own rT k =? co rT r then [ACom (if own rc k =? co rc r then bsend (cm rT (own rT k)) (dsrc k) (p_tile r (pf r) k) else brecv (cm rT (own rT k)) (dsrc k) (Tid r idT k 0))] else []) else []).
      { destruct (1 <? gs rc); [|reflexivity]. rewrite (ebcast_proj P Q), member_cm by exact R. destruct (Z.eqb_spec (own rT k) (co rT r)) as [O|O]; [|reflexivity].
        unfold dsrc at 1. rewrite mk_eqb by (try exact R; apply own_range). fold rT. rewrite O, Z.eqb_refl, Bool.andb_true_r, (Z.eqb_sym (co rc r)).
        destruct (Z.eqb_spec (own rc k) (co rc r)) as [O2|O2]; [|reflexivity]. replace (dsrc k) with r; [reflexivity|]. unfold dsrc. rewrite O, O2. symmetry. apply (mk_co P Q HP HQ). }
      rewrite PR. unfold bcastT_step. cbn [fst snd]. fold rT. rewrite !t_own_eq by (try exact R; lia).
      destruct (Z.eqb_spec (own rT k) (co rT r)) as [O|O].
      + rewrite (t_gl_loc r rT k) by (try exact R; try exact O; lia). destruct (Z.eqb_spec (own rc k) (co rc r)) as [O2|O2].
        * rewrite (t_gl_loc r rc k) by (try exact R; try exact O2; lia). eexists. split; [|split; [|split; [|split]]].
          -- apply f_equal2; [|reflexivity]. apply f_equal. destruct (1 <? gs rc); [|reflexivity]. rewrite <- O, <- O2, dsrc_mk. unfold p_tile at 1, set_tile. cbn [p_ext]. rewrite Z.eqb_refl. reflexivity.
          -- exact I1.
          -- exact I2.
          -- exact I3.
          -- intros k'. cbn [set_tile p_ext]. rewrite I4. destruct (Z.eqb_spec k' k) as [->|N].
             ++ rewrite O, O2, !Z.eqb_refl, !Bool.andb_true_r. destruct (Z.leb_spec loT k); [|lia]. destruct (Z.ltb_spec k (k + 1)); [reflexivity|lia].
             ++ replace (k' <? k + 1) with (k' <? k); [reflexivity|]. destruct (Z.ltb_spec k' k), (Z.ltb_spec k' (k + 1)); lia || reflexivity.
        * exists pT'. split; [|split; [exact I1|split; [exact I2|split; [exact I3|]]]].
          -- apply f_equal2; [|reflexivity]. apply f_equal. destruct (1 <? gs rc); [|reflexivity]. rewrite <- O, dsrc_mk. unfold p_int. rewrite I1. reflexivity.
          -- intros k'. rewrite I4. destruct (Z.eqb_spec k' k) as [->|N].
             ++ destruct (Z.eqb_spec (own rc k) (co rc r)); [contradiction|]. rewrite !Bool.andb_false_r. reflexivity.
             ++ replace (k' <? k + 1) with (k' <? k); [reflexivity|]. destruct (Z.ltb_spec k' k), (Z.ltb_spec k' (k + 1)); lia || reflexivity.
      + exists pT'. split; [|split; [exact I1|split; [exact I2|split; [exact I3|]]]].
        * apply f_equal2; [|reflexivity]. destruct (1 <? gs rc); rewrite app_nil_r; reflexivity.
        * intros k'. rewrite I4. destruct (Z.eqb_spec k' k) as [->|N].
          -- destruct (Z.eqb_spec (own rT k) (co rT r)); [contradiction|]. rewrite !Bool.andb_false_r. reflexivity.
          -- replace (k' <? k + 1) with (k' <? k); [reflexivity|]. destruct (Z.ltb_spec k' k), (Z.ltb_spec k' (k + 1)); lia || reflexivity. }
  destruct (G hiT ltac:(lia)) as (pT' & F & I1 & I2 & I3 & I4). exists pT'. split; [exact F|]. unfold panel_eq, pTafter. cbn. auto.
Qed.

Lemma ebc2_ok : Forall (event_ok mem ranks) ebc2.
Proof.
  unfold ebc2. apply forall_flat. intros k Lk. apply in_zrange in Lk. destruct (1 <? gs rc); [|constructor]. constructor; [|constructor].
  destruct (dsrc_co k) as [C1 C2]. apply ebcast_ok; [exact HP|exact HQ| | |].
  - apply (in_cm P Q HP HQ). split; [apply dsrc_in|exact C2].
  - apply IDS; [apply dsrc_in|lia|symmetry; exact C1].
  - intros r _ _. reflexivity.
Qed.
Lemma ebc2_run : forall st : tstore V,
  (forall r k, In r ranks -> loT <= k < hiT -> own rT k = co rT r -> erun mem ebc2 st (p_tile r (pTafter r) k) = st (p_tile (dsrc k) (pf (dsrc k)) k)) /\
  (forall x, (forall r k, In r ranks -> loT <= k < hiT -> own rT k = co rT r -> own rc k <> co rc r -> x <> Tid r idT k 0) -> erun mem ebc2 st x = st x).
Proof.
  intros st. set (B := fun k => if 1 <? gs rc then [ebcast (V:=V) (cm rT (own rT k)) (dsrc k) (p_tile (dsrc k) (pf (dsrc k)) k) (fun r => Tid r idT k 0)] else []).
  assert (FR : forall a b, loT <= a <= b -> b <= hiT -> forall st0 x, (forall r k, In r ranks -> a <= k < b -> own rT k = co rT r -> own rc k <> co rc r -> x <> Tid r idT k 0) ->
    erun mem (flat_map B (zrange a b)) st0 x = st0 x).
  { intros a b L1 L2 st0 x N. apply (erun_flat_inv P Q _ a b (fun _ s => s x = st0 x) st0); [lia|reflexivity|].
    intros i s Li IH. unfold B. destruct (1 <? gs rc); [|exact IH]. rewrite erun_cons. cbn [erun fold_left]. rewrite (bcast_frame P Q); [exact IH|]. intros r MR NR. apply (in_cm P Q HP HQ) in MR as [R C].
    apply (N r i R); [lia|symmetry; exact C|]. intros E. apply NR. unfold dsrc. rewrite <- C, E. symmetry. apply (mk_co P Q HP HQ). }
  split; [|intros x N; apply (FR loT hiT); [lia|lia|exact N]].
  intros r k R Lk O.
  assert (SRC : forall a b s, loT <= a <= b -> b <= hiT -> erun mem (flat_map B (zrange a b)) s (p_tile (dsrc k) (pf (dsrc k)) k) = s (p_tile (dsrc k) (pf (dsrc k)) k)).
  { intros a b s L1 L2. apply FR; [lia|lia|]. intros q k' Rq Lk' Oq Nq E. destruct (IDS (dsrc k) k) as [X _]; [apply dsrc_in|lia|symmetry; apply dsrc_co|]. apply X. rewrite E. reflexivity. }
  unfold p_tile at 1, pTafter. cbn [p_ext]. destruct (Z.leb_spec loT k); [|lia]. destruct (Z.ltb_spec k hiT); [|lia]. rewrite O, Z.eqb_refl. cbn [andb].
  destruct (Z.eqb_spec (own rc k) (co rc r)) as [O2|O2].
  { assert (dsrc k = r) as EP by (unfold dsrc; rewrite O, O2; apply (mk_co P Q HP HQ)). rewrite EP in *. apply (SRC loT hiT); lia. }
  unfold p_int. cbn [p_id]. unfold ebc2. fold B. rewrite (zrange_app loT k hiT) by lia. rewrite flat_map_app, erun_app. rewrite (zrange_cons k) by lia. cbn [flat_map]. rewrite erun_app.
  assert (G1 : 1 <? gs rc = true). { apply Z.ltb_lt. pose proof (own_range rc k). pose proof (rank_co r rc R). lia. }
  rewrite FR; [|lia|lia|intros q k' Rq Lk' Oq Nq X; injection X; lia].
  unfold B at 1. rewrite G1. rewrite erun_cons. cbn [erun fold_left].
  rewrite (bcast_dst P Q (cm rT (own rT k)) (dsrc k) _ (fun r => Tid r idT k 0) _ r).
  - apply SRC; lia.
  - apply (in_cm P Q HP HQ). auto.
  - intros X. apply O2. rewrite X. symmetry. apply dsrc_co.
  - reflexivity.
Qed.
End proofs.
