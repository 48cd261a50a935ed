(** * Distributed against local tile programs: tools. *)
From Coq Require Import ZArith Lia List Bool.
From Verif Require Import CInt Loop DistModel DistSpec DistBuilt DistThms DenseJobs DistMachine DistGrid PanelModel PanelProofs.
Import ListNotations.
Local Open Scope Z_scope.

Lemma fold_left_map : forall {A B C} (f : A -> C -> A) (g : B -> C) l a, fold_left (fun a x => f a (g x)) l a = fold_left f (map g l) a.
Proof. intros A B C f g l. induction l as [|x l IH]; intros a; [reflexivity|]. cbn. apply IH. Qed.

Section sim.
Context {V : Type}.
(** the rank that owns tile (i, j) of matrix m; which tiles exist *)
Variable ownm : Z -> Z -> Z -> Z.
Variable dom : Z -> Z -> Z -> Prop.
(** the distributed tiles have the content of the local ones *)
Definition Rel (st lst : tstore V) : Prop := forall m i j, dom m i j -> st (Tid (ownm m i j) m i j) = lst (Tid 0 m i j).
Lemma Rel_exec : forall st lst dj lj m i j, Rel st lst -> tj_out dj = Tid (ownm m i j) m i j -> tj_out lj = Tid 0 m i j -> tval dj st = tval lj lst -> Rel (texec st dj) (texec lst lj).
Proof.
  intros st lst dj lj m i j R O1 O2 E m' i' j' D. unfold texec. rewrite O1, O2.
  destruct (tid_eqb_spec (Tid 0 m' i' j') (Tid 0 m i j)) as [X|X].
  - injection X as -> -> ->. rewrite !tset_eq. exact E.
  - rewrite !tset_neq; [apply R; exact D|exact X|]. intros Y. apply X. injection Y as _ -> -> ->. reflexivity.
Qed.
Lemma Rel_frame : forall st st' lst, Rel st lst -> (forall m i j, dom m i j -> st' (Tid (ownm m i j) m i j) = st (Tid (ownm m i j) m i j)) -> Rel st' lst.
Proof. intros st st' lst R E m i j D. rewrite E by exact D. apply R. exact D. Qed.
End sim.

Section panels.
Context {V : Type}.
Variables P Q : Z.
Variable Ls : coord -> layout.
Variable D : coord -> Z -> axis.
Variable nt : coord -> Z.
Hypothesis GA : grid_axes P Q Ls D nt.
Let HP := ga_P _ _ _ _ _ GA.
Let HQ := ga_Q _ _ _ _ _ GA.
Notation own rc k := (tile_owner (Ls rc) k).
Notation co := (co Q).
Notation ranks := (ranks P Q).
Notation mem := (members P Q).
(** the panels of all the ranks give access to the tiles val i *)
Definition PV (pf : Z -> panel) (rc : coord) (lo hi : Z) (val : Z -> V) (st : tstore V) : Prop :=
  forall r i, In r ranks -> lo <= i < hi -> own rc i = co rc r -> st (p_tile r (pf r) i) = val i.
Lemma PV_exec : forall pf rc lo hi val st (j : tjob V), PV pf rc lo hi val st ->
  (forall r i, In r ranks -> lo <= i < hi -> own rc i = co rc r -> p_tile r (pf r) i <> tj_out j) -> PV pf rc lo hi val (texec st j).
Proof using. intros pf rc lo hi val st j H N r i R L O. unfold texec. rewrite tset_neq by (apply N; assumption). apply H; assumption. Qed.
Lemma PV_ext : forall pf rc lo hi val val' st, PV pf rc lo hi val st -> (forall i, lo <= i < hi -> val i = val' i) -> PV pf rc lo hi val' st.
Proof using. intros pf rc lo hi val val' st H E r i R L O. rewrite <- E by exact L. apply H; assumption. Qed.

(** a loop over the tiles of a rank that submits a task for each and links a panel to it *)
Lemma fold_links : forall (f : Z -> list (act V)) (g : Z -> tid) l acts p,
  let res := fold_left (fun acc x => (fst acc ++ f x, set_tile (snd acc) x (g x))) l (acts, p) in
  fst res = acts ++ flat_map f l /\ p_id (snd res) = p_id p /\ p_lo (snd res) = p_lo p /\ p_hi (snd res) = p_hi p /\
  forall i, p_ext (snd res) i = if existsb (Z.eqb i) l then Some (g i) else p_ext p i.
Proof using.
  intros f g l. induction l as [|x l IH]; intros acts p; cbn [fold_left].
  - cbn. rewrite app_nil_r. auto.
  - destruct (IH (acts ++ f x) (set_tile p x (g x))) as (A & B & C & E & F). cbv zeta in *. cbn [fst snd] in *. rewrite A, B, C, E. cbn. rewrite <- app_assoc. repeat split; auto.
    intros i. rewrite F. cbn [set_tile p_ext]. destruct (Z.eqb_spec i x) as [->|N]; cbn [orb]; [destruct (existsb _ l); reflexivity|reflexivity].
Qed.
Lemma tiles_here : forall r rc lo hi, In r ranks -> 0 <= lo <= hi -> hi <= nt rc ->
  map (t_gl Q D r rc) (zrange (t_nx Q D r rc lo) (t_nx Q D r rc hi)) = filter (fun i => own rc i =? co rc r) (zrange lo hi).
Proof using GA.
  intros r rc lo hi R L1 L2. apply (DistGrid.local_tiles (Ls rc) (co rc r) (ax Q D r rc) (rank_models _ _ _ _ _ GA r rc R)); [exact L1|]. rewrite (rank_nt _ _ _ _ _ GA) by exact R. exact L2.
Qed.
Lemma in_tiles_here : forall r rc lo hi i, existsb (Z.eqb i) (filter (fun i => own rc i =? co rc r) (zrange lo hi)) = (lo <=? i) && (i <? hi) && (own rc i =? co rc r).
Proof using.
  intros r rc lo hi i. destruct ((lo <=? i) && (i <? hi) && (own rc i =? co rc r)) eqn:E.
  - apply existsb_exists. exists i. split; [|apply Z.eqb_refl]. apply andb_true_iff in E as [E1 E2]. apply andb_true_iff in E1 as [E0 E1]. apply filter_In. split; [apply in_zrange; lia|exact E2].
  - apply not_true_is_false. intros X. apply existsb_exists in X as (y & Iy & Ey). apply Z.eqb_eq in Ey. subst y. apply filter_In in Iy as [I1 I2]. apply in_zrange in I1.
    rewrite I2 in E. destruct (Z.leb_spec lo i), (Z.ltb_spec i hi); cbn in E; lia || discriminate.
Qed.
(** the loop over local tiles with links, in terms of global tiles *)
Lemma link_loop : forall (f : Z -> list (act V)) (g : Z -> tid) r rc lo id hiP, In r ranks -> 0 <= lo <= nt rc ->
  let res := fold_left (fun acc l => (fst acc ++ f (t_gl Q D r rc l), set_tile (snd acc) (t_gl Q D r rc l) (g (t_gl Q D r rc l)))) (zrange (t_nx Q D r rc lo) (ax_local_nr_tiles (ax Q D r rc))) ([], fresh_panel id lo hiP) in
  fst res = flat_map (fun i => if own rc i =? co rc r then f i else []) (zrange lo (nt rc)) /\
  p_id (snd res) = id /\ p_lo (snd res) = lo /\ p_hi (snd res) = hiP /\
  forall i, p_ext (snd res) i = if (lo <=? i) && (i <? nt rc) && (own rc i =? co rc r) then Some (g i) else None.
Proof using GA.
  intros f g r rc lo id hiP R L. cbv zeta. rewrite (loop_end _ _ _ _ _ GA) by exact R.
  rewrite (fold_left_map (fun acc i => (fst acc ++ f i, set_tile (snd acc) i (g i))) (t_gl Q D r rc)). rewrite tiles_here by (try exact R; lia).
  destruct (fold_links f g (filter (fun i => own rc i =? co rc r) (zrange lo (nt rc))) [] (fresh_panel id lo hiP)) as (A & B & C & E & F). cbv zeta in *.
  rewrite A, B, C, E. cbn [app p_id p_lo p_hi fresh_panel]. rewrite flat_map_filter. repeat split; try reflexivity. intros i. rewrite F, in_tiles_here. reflexivity.
Qed.
End panels.
