(** * Distributed programs on square matrices with a common distribution, against local tile programs.
    A distributed program is a sequence of broadcasts of panels and of kernels on owned tiles that read owned
    tiles or panels. It computes what the local kernels compute, when they are run in the same order. *)
From Coq Require Import ZArith Lia List Bool.
From Verif Require Import CInt Loop DistModel DistSpec DistBuilt DistThms DenseJobs DistMachine DistGrid PanelModel PanelProofs DistSim.
Import ListNotations.
Local Open Scope Z_scope.

Section prog.
Context {V : Type}.
Variables P Q : Z.
Variable Ls : coord -> layout.
Variable D : coord -> Z -> axis.
Variable nt : coord -> Z.
Hypothesis GA : grid_axes P Q Ls D nt.
Let HP := ga_P _ _ _ _ _ GA.
Let HQ := ga_Q _ _ _ _ _ GA.
Notation own rc k := (tile_owner (Ls rc) k).
Notation co := (co Q).
Notation mk := (mk Q).
Notation rks := (ranks P Q).
Notation mem := (members P Q).
(** the matrices are numbered 0 .. nm - 1, the workspaces of the panels from nm *)
Variable nm : Z.

(** ** Tiles *)
(** coordinate rc of a tile *)
Definition tc (rc : coord) (x : tid) : Z := match rc with Row => t_row x | Col => t_col x end.
(** the rank that owns a tile; the tile on rank r; where it is *)
Definition owT (x : tid) : Z := rk Q (own Row (t_row x)) (own Col (t_col x)).
Definition at_ (r : Z) (x : tid) : tid := Tid r (t_mat x) (t_row x) (t_col x).
Definition place (x : tid) : tid := at_ (owT x) x.
(** a tile of the local program *)
Definition ltile (x : tid) : Prop := t_rank x = 0 /\ 0 <= t_mat x < nm.
Definition PRel (st lst : tstore V) : Prop := forall x, ltile x -> st (place x) = lst x.

Lemma owT_in : forall x, In (owT x) rks.
Proof using GA. intros x. apply (mk_rank P Q Ls D nt GA Row); apply (own_range P Q Ls D nt GA). Qed.
Lemma owT_co : forall rc x, co rc (owT x) = own rc (tc rc x).
Proof using GA.
  intros rc x. destruct (co_mk P Q HP HQ Row (own Row (t_row x)) (own Col (t_col x))) as [A B]; try apply (own_range P Q Ls D nt GA). destruct rc; assumption.
Qed.
Lemma owT_mk : forall rc x, owT x = mk rc (own rc (tc rc x)) (own (other rc) (tc (other rc) x)).
Proof using. intros [] x; reflexivity. Qed.
Lemma owT_eqb : forall r rc x, In r rks -> (owT x =? r) = (own rc (tc rc x) =? co rc r) && (own (other rc) (tc (other rc) x) =? co (other rc) r).
Proof using GA.
  intros r rc x R. rewrite (owT_mk rc), Z.eqb_sym, (mk_eqb P Q Ls D nt GA) by (try exact R; apply (own_range P Q Ls D nt GA)). rewrite (Z.eqb_sym (co rc r)), (Z.eqb_sym (co (other rc) r)). reflexivity.
Qed.
Lemma owT_r : forall r rc x, In r rks -> own rc (tc rc x) = co rc r -> own (other rc) (tc (other rc) x) = co (other rc) r -> owT x = r.
Proof using GA. intros r rc x R A B. apply Z.eqb_eq. rewrite (owT_eqb r rc) by exact R. rewrite A, B, !Z.eqb_refl. reflexivity. Qed.
Lemma at_inj : forall r r' x y, ltile x -> ltile y -> at_ r x = at_ r' y -> x = y.
Proof using. intros r r' [a b c d] [a' b' c' d'] [X _] [Y _] E. cbn in *. injection E. intros. subst. reflexivity. Qed.

(** ** Panels *)
(** the panels of all the ranks, that give access to the tiles pr_src i, lo <= i < hi, along rc *)
Record pref := Pref { pr_pf : Z -> panel; pr_rc : coord; pr_lo : Z; pr_hi : Z; pr_src : Z -> tid }.
Definition pdom (R : pref) (r i : Z) : Prop := In r rks /\ pr_lo R <= i < pr_hi R /\ own (pr_rc R) i = co (pr_rc R) r.
Definition ptile (R : pref) (r i : Z) : tid := p_tile r (pr_pf R r) i.
Definition pval (R : pref) (st lst : tstore V) : Prop := forall r i, pdom R r i -> st (ptile R r i) = lst (pr_src R i).
(** a tile of a panel is a tile of a workspace or the linked tile *)
Record pgood (R : pref) : Prop := {
  pg_rank : forall r i, pdom R r i -> t_rank (ptile R r i) = r;
  pg_tile : forall r i, pdom R r i -> nm <= t_mat (ptile R r i) \/ ptile R r i = at_ r (pr_src R i);
  pg_src : forall i, pr_lo R <= i < pr_hi R -> ltile (pr_src R i) }.

(** ** Kernels *)
Inductive sref := SOwn (x : tid) | SPan (R : pref) (i : Z).
Record sj := SJ { s_in : list sref; s_out : tid; s_f : list V -> V -> V }.
Definition dref (r : Z) (x : sref) : tid := match x with SOwn x => at_ r x | SPan R i => ptile R r i end.
Definition lref (x : sref) : tid := match x with SOwn x => x | SPan R i => pr_src R i end.
Definition djob (r : Z) (s : sj) : tjob V := TJob (map (dref r) (s_in s)) (at_ r (s_out s)) (s_f s).
Definition ljob (s : sj) : tjob V := TJob (map lref (s_in s)) (s_out s) (s_f s).
Definition sev (s : sj) : event V := ELoc (owT (s_out s)) (djob (owT (s_out s)) s).
Definition ref_ok (live : list pref) (r : Z) (x : sref) : Prop :=
  match x with SOwn x => ltile x /\ owT x = r | SPan R i => In R live /\ pdom R r i end.
Definition sj_ok (live : list pref) (s : sj) : Prop :=
  ltile (s_out s) /\ (forall x, In x (s_in s) -> ref_ok live (owT (s_out s)) x) /\
  (forall R i, In R live -> pr_lo R <= i < pr_hi R -> pr_src R i <> s_out s).
Definition PInv (live : list pref) (st lst : tstore V) : Prop := PRel st lst /\ forall R, In R live -> pval R st lst.

Lemma pinv_weaken : forall live live' st lst, (forall R, In R live' -> In R live) -> PInv live st lst -> PInv live' st lst.
Proof using. intros live live' st lst H [A B]. split; [exact A|]. intros R I0. apply B. apply H. exact I0. Qed.
Lemma sev_run : forall live s st lst, Forall pgood live -> sj_ok live s -> PInv live st lst -> PInv live (eexec mem st (sev s)) (texec lst (ljob s)).
Proof using.
  intros live s st lst G (LO & IN & KEEP) [R PV0]. cbn [sev eexec].
  assert (VAL : tval (djob (owT (s_out s)) s) st = tval (ljob s) lst).
  { apply tval_sim; [reflexivity| |apply R; exact LO]. cbn [djob ljob tj_in]. rewrite !map_map. apply map_ext_in. intros x Ix. specialize (IN x Ix).
    destruct x as [x|Rf i]; cbn [dref lref].
    - destruct IN as [LX <-]. apply R. exact LX.
    - destruct IN as [IL DM]. apply (PV0 Rf IL). exact DM. }
  split.
  - intros x LX. unfold texec. cbn [djob ljob tj_out]. destruct (tid_eqb_spec x (s_out s)) as [->|N].
    + rewrite !tset_eq. exact VAL.
    + rewrite !tset_neq; [apply R; exact LX|exact N|]. intros E. apply N. apply (at_inj _ _ _ _ LX LO E).
  - intros Rf IL r i DM. unfold texec. cbn [djob ljob tj_out]. pose proof (proj1 (Forall_forall _ _) G Rf IL) as GR.
    assert (N : pr_src Rf i <> s_out s) by (apply KEEP; [exact IL|apply DM]).
    rewrite !tset_neq; [apply (PV0 Rf IL); exact DM|exact N|]. intros E. destruct (pg_tile Rf GR r i DM) as [M|M].
    + rewrite E in M. cbn in M. destruct LO as [_ LO]. lia.
    + rewrite M in E. apply N. apply (at_inj _ _ _ _ (pg_src Rf GR i ltac:(apply DM)) LO E).
Qed.
Lemma sjs_run : forall live l st lst, Forall pgood live -> Forall (sj_ok live) l -> PInv live st lst -> PInv live (erun mem (map sev l) st) (trun (map ljob l) lst).
Proof using.
  intros live l. induction l as [|s l IH]; intros st lst G O I0; [exact I0|]. inversion O as [|? ? O1 O2]; subst. cbn [map]. rewrite erun_cons, trun_cons.
  apply IH; [exact G|exact O2|]. apply sev_run; assumption.
Qed.
Lemma sjs_ok : forall live l, Forall pgood live -> Forall (sj_ok live) l -> Forall (event_ok mem rks) (map sev l).
Proof using GA.
  intros live l G O. apply Forall_forall. intros e Ie. apply in_map_iff in Ie as (s & <- & Is). rewrite Forall_forall in O. destruct (O s Is) as (LO & IN & KEEP).
  apply eloc_ok; [apply owT_in|]. intros x [Ix|Ix].
  - cbn [djob tj_in] in Ix. apply in_map_iff in Ix as (y & <- & Iy). specialize (IN y Iy). destruct y as [y|R i]; [reflexivity|]. cbn [dref]. destruct IN as [IL DM].
    apply (pg_rank R); [|exact DM]. rewrite Forall_forall in G. apply G. exact IL.
  - subst x. reflexivity.
Qed.
(** what rank r does *)
Lemma sjs_proj : forall r l, proj mem r (map sev l) = flat_map (fun s => if owT (s_out s) =? r then [ALoc (djob r s)] else []) l.
Proof using.
  intros r l. induction l as [|s l IH]; [reflexivity|]. cbn [map flat_map]. change (sev s :: map sev l) with ([sev s] ++ map sev l). rewrite (proj_app' P Q), IH. f_equal.
  unfold sev. rewrite (proj_eloc P Q). destruct (Z.eqb_spec (owT (s_out s)) r) as [->|]; reflexivity.
Qed.

(** ** Broadcasts *)
(** the panels linked to the tiles src i by the ranks with coordinate root *)
Definition npan (id lo hi : Z) (rc : coord) (root : Z) (src : Z -> tid) (r : Z) : panel :=
  Panel id lo hi (fun i => if (co (other rc) r =? root) && ((lo <=? i) && (i <? hi) && (own rc i =? co rc r)) then Some (at_ r (src i)) else None).
Definition panel_eq (p q : panel) : Prop := p_id p = p_id q /\ p_lo p = p_lo q /\ p_hi p = p_hi q /\ forall k, p_ext p k = p_ext q k.
Lemma tile_ext : forall r p q i, panel_eq p q -> p_tile r p i = p_tile r q i.
Proof using. intros r p q i (A & _ & _ & B). unfold p_tile, p_int. rewrite A, B. reflexivity. Qed.
Lemma bc_ext : forall rc r root p q, panel_eq p q -> panel_broadcast (V:=V) P Q D rc r root p = panel_broadcast P Q D rc r root q.
Proof using.
  intros rc r root p q E. unfold panel_broadcast. destruct (_ <=? 1); [reflexivity|]. pose proof E as (A & B & C & F). rewrite B, C. apply flat_map_ext_in. intros l _. cbv zeta.
  rewrite (tile_ext r p q _ E). unfold p_int. rewrite A. reflexivity.
Qed.
Definition pinfo (R : pref) (id root : Z) : Prop := pr_pf R = npan id (pr_lo R) (pr_hi R) (pr_rc R) root (pr_src R).
Definition mkref (id lo hi : Z) (rc : coord) (root : Z) (src : Z -> tid) : pref := Pref (npan id lo hi rc root src) rc lo hi src.

Section bc.
Variables (id lo hi : Z) (rc : coord) (root : Z) (src : Z -> tid).
Notation R := (mkref id lo hi rc root src).
Hypothesis HR : 0 <= root < gs P Q (other rc).
Hypothesis RNG : 0 <= lo <= hi /\ hi <= nt rc.
Hypothesis ID : nm <= id.
(** the tiles are on the ranks with coordinate root *)
Hypothesis SRC : forall i, lo <= i < hi -> ltile (src i) /\ tc rc (src i) = i /\ own (other rc) (tc (other rc) (src i)) = root.
Definition e_bc : list (event V) := ebc1 P Q Ls rc root (npan id lo hi rc root src) id lo hi.
Lemma npan_tile : forall r i, In r rks -> lo <= i < hi -> own rc i = co rc r -> p_tile r (npan id lo hi rc root src r) i = if co (other rc) r =? root then at_ r (src i) else Tid r id i 0.
Proof using.
  intros r i _ L O. unfold p_tile, npan, p_int. cbn [p_ext p_id]. rewrite (proj2 (Z.leb_le lo i)), (proj2 (Z.ltb_lt i hi)), O, Z.eqb_refl by lia. cbn [andb]. rewrite andb_true_r. destruct (_ =? root); reflexivity.
Qed.
Lemma bc_good : pgood R.
Proof using SRC ID.
  constructor; cbn [pr_lo pr_hi pr_rc pr_src mkref]; unfold pdom, ptile; cbn [pr_pf pr_lo pr_hi pr_rc pr_src mkref].
  - intros r i (Rr & L & O). rewrite npan_tile by assumption. destruct (_ =? root); reflexivity.
  - intros r i (Rr & L & O). rewrite npan_tile by assumption. destruct (_ =? root); [right; reflexivity|left; exact ID].
  - intros i L. apply SRC. exact L.
Qed.
Lemma bc_root : forall r i, In r rks -> co (other rc) r = root -> lo <= i < hi -> own rc i = co rc r -> t_rank (p_tile r (npan id lo hi rc root src r) i) = r.
Proof using. intros r i Rr C L O. rewrite npan_tile by assumption. destruct (_ =? root); reflexivity. Qed.
Lemma bc_leaf : forall r i, In r rks -> co (other rc) r <> root -> lo <= i < hi -> own rc i = co rc r -> p_ext (npan id lo hi rc root src r) i = None.
Proof using. intros r i Rr C L O. cbn. rewrite (proj2 (Z.eqb_neq _ _) C). reflexivity. Qed.
Lemma bc_ok : Forall (event_ok mem rks) e_bc.
Proof using GA HR. apply (ebc1_ok P Q Ls D nt GA rc root HR). apply bc_root. Qed.
Lemma bc_proj : forall r, In r rks -> proj mem r e_bc = panel_broadcast P Q D rc r root (npan id lo hi rc root src r).
Proof using GA HR RNG. intros r Rr. symmetry. apply (ebc1_proj P Q Ls D nt GA rc root HR); [intros q _; cbn; auto|exact RNG|exact Rr]. Qed.
(** other panels do not use the tiles of the workspace *)
Definition apart (R' : pref) : Prop := forall r i i', pdom R' r i -> lo <= i' < hi -> ptile R' r i <> Tid r id i' 0.
Lemma bc_run : forall live st lst, (forall R', In R' live -> pgood R' /\ apart R') -> PInv live st lst -> PInv (R :: live) (erun mem e_bc st) lst.
Proof using GA HR RNG ID SRC.
  intros live st lst AP [PR PV0].
  destruct (ebc1_run P Q Ls D nt GA rc root HR (npan id lo hi rc root src) id lo hi (fun r _ => conj eq_refl (conj eq_refl eq_refl)) RNG bc_root bc_leaf st) as [A B]. fold e_bc in A, B.
  split; [|intros R' [<-|I0]].
  - intros x LX. rewrite B; [apply PR; exact LX|]. intros r i _ _ _ _ E. pose proof (f_equal t_mat E) as E'. cbn in E'. destruct LX. lia.
  - intros r i (Rr & L & O). unfold ptile. cbn [pr_pf pr_lo pr_hi pr_rc pr_src mkref] in *. rewrite A by assumption.
    destruct (SRC i L) as (LS & TC & TO). destruct (psrc_co P Q Ls D nt GA rc root HR i) as [C1 C2].
    rewrite npan_tile; [|apply (psrc_in P Q Ls D nt GA rc root HR)|exact L|symmetry; exact C1]. rewrite C2, Z.eqb_refl.
    assert (psrc Q Ls rc root i = owT (src i)) as -> by (rewrite (owT_mk rc), TC, TO; reflexivity). apply PR. exact LS.
  - destruct (AP R' I0) as [GR AR]. intros r i DM. rewrite B; [apply (PV0 R' I0); exact DM|]. intros r' i' Rr' _ L' _ E.
    pose proof (pg_rank R' GR r i DM) as RK. rewrite E in RK. cbn in RK. subst r'. apply (AR r i i' DM L'). exact E.
Qed.
End bc.

(** a broadcast of a panel and of its transposed *)
Section bc2.
Variables (id lo hi : Z) (rc : coord) (root : Z) (src : Z -> tid) (idT loT hiT : Z).
Notation R := (mkref id lo hi rc root src).
Hypothesis HR : 0 <= root < gs P Q (other rc).
Hypothesis RNG : 0 <= lo <= hi /\ hi <= nt rc.
Hypothesis ID : nm <= id.
Hypothesis SRC : forall i, lo <= i < hi -> ltile (src i) /\ tc rc (src i) = i /\ own (other rc) (tc (other rc) (src i)) = root.
Hypothesis RNGT : lo <= loT <= hiT /\ hiT <= hi /\ hiT <= nt (other rc).
Hypothesis IDT : nm <= idT /\ idT <> id.
Definition npanT (r : Z) : panel := pTafter Q Ls rc (npan id lo hi rc root src) idT loT hiT r.
Definition refT : pref := Pref npanT (other rc) loT hiT src.
Definition e_bc2 : list (event V) := if lo =? hi then [] else e_bc id lo hi rc root src ++ ebc2 P Q Ls rc (npan id lo hi rc root src) idT loT hiT.
Lemma npanT_tile : forall r k, In r rks -> loT <= k < hiT -> own (other rc) k = co (other rc) r ->
  p_tile r (npanT r) k = if own rc k =? co rc r then p_tile r (npan id lo hi rc root src r) k else Tid r idT k 0.
Proof using.
  intros r k _ L O. unfold npanT, pTafter. unfold p_tile at 1, p_int. cbn [p_ext p_id]. rewrite (proj2 (Z.leb_le loT k)), (proj2 (Z.ltb_lt k hiT)), O, Z.eqb_refl by lia. cbn [andb]. destruct (_ =? _); reflexivity.
Qed.
Lemma bc2_IDS : forall r i, In r rks -> lo <= i < hi -> own rc i = co rc r -> t_mat (p_tile r (npan id lo hi rc root src r) i) <> idT /\ t_rank (p_tile r (npan id lo hi rc root src r) i) = r.
Proof using ID SRC IDT.
  intros r i Rr L O. rewrite npan_tile by assumption. destruct (_ =? root); split; try reflexivity; cbn [t_mat at_]; [|lia]. destruct (SRC i L) as ((_ & M) & _). lia.
Qed.
Lemma bcT_good : pgood refT.
Proof using SRC ID IDT RNGT.
  constructor; unfold pdom, ptile; cbn [pr_pf pr_lo pr_hi pr_rc pr_src refT].
  - intros r i (Rr & L & O). rewrite npanT_tile by assumption. destruct (Z.eqb_spec (own rc i) (co rc r)) as [E|E]; [|reflexivity]. apply bc2_IDS; try assumption. lia.
  - intros r i (Rr & L & O). rewrite npanT_tile by assumption. destruct (Z.eqb_spec (own rc i) (co rc r)) as [E|E]; [|left; cbn; lia]. rewrite npan_tile by (try assumption; lia). destruct (_ =? root); [right; reflexivity|left; exact ID].
  - intros i L. apply SRC. lia.
Qed.
Lemma bc2_ok : Forall (event_ok mem rks) e_bc2.
Proof using GA HR ID SRC IDT RNGT.
  unfold e_bc2. destruct (lo =? hi); [constructor|]. apply Forall_app. split; [apply bc_ok; exact HR|]. apply (ebc2_ok P Q Ls D nt GA rc (npan id lo hi rc root src) lo hi); [exact RNGT|exact bc2_IDS].
Qed.
Lemma bc2_proj : forall r p, In r rks -> panel_eq p (npan id lo hi rc root src r) ->
  exists pT', panel_broadcast2 P Q D rc r root p (fresh_panel idT loT hiT) = (proj mem r e_bc2, pT') /\ (lo < hi -> panel_eq pT' (npanT r)).
Proof using GA HR RNG ID SRC IDT RNGT.
  intros r p Rr E. unfold panel_broadcast2, e_bc2. pose proof E as (E1 & E2 & E3 & E4). cbn [p_lo p_hi p_id npan] in E1, E2, E3. rewrite E2, E3.
  destruct (Z.eqb_spec lo hi) as [X|X]; [exists (fresh_panel idT loT hiT); split; [reflexivity|lia]|].
  destruct (ebc2_proj (V := V) P Q Ls D nt GA rc root HR (npan id lo hi rc root src) lo hi RNG (bc_root id lo hi rc root src) (bc_leaf id lo hi rc root src) (fun r => fresh_panel idT loT hiT) idT loT hiT (fun r _ => conj eq_refl (conj eq_refl eq_refl)) (fun r k _ => eq_refl) RNGT bc2_IDS r Rr) as (pT' & F & EQ).
  exists pT'. cbn [p_lo p_hi fresh_panel].
  assert (FE : fold_left (fun acc k => bcastT_step (V:=V) P Q D rc r p k acc) (zrange loT hiT) ([], fresh_panel idT loT hiT) = fold_left (fun acc k => bcastT_step P Q D rc r (npan id lo hi rc root src r) k acc) (zrange loT hiT) ([], fresh_panel idT loT hiT)).
  { clear F. generalize (@nil (act V), fresh_panel idT loT hiT). induction (zrange loT hiT) as [|k l IH]; intros acc; [reflexivity|]. cbn [fold_left]. rewrite IH.
    replace (bcastT_step P Q D rc r p k acc) with (bcastT_step (V:=V) P Q D rc r (npan id lo hi rc root src r) k acc); [reflexivity|].
    unfold bcastT_step. rewrite (tile_ext r p _ _ E). reflexivity. }
  rewrite FE, F. split; [|intros _; exact EQ]. rewrite (proj_app' P Q), bc_proj by assumption. rewrite (bc_ext rc r root p _ E). reflexivity.
Qed.
Lemma bc2_run : forall live st lst, lo < hi -> (forall R', In R' live -> pgood R' /\ apart id lo hi R' /\ apart idT loT hiT R') -> PInv live st lst ->
  PInv (R :: refT :: live) (erun mem e_bc2 st) lst.
Proof using GA HR RNG ID SRC IDT RNGT.
  intros live st lst LT AP I0. unfold e_bc2. rewrite (proj2 (Z.eqb_neq lo hi)) by lia. rewrite erun_app.
  pose proof (bc_run id lo hi rc root src HR RNG ID SRC live st lst (fun R' I1 => conj (proj1 (AP R' I1)) (proj1 (proj2 (AP R' I1)))) I0) as [PR PV0]. set (st1 := erun mem (e_bc id lo hi rc root src) st) in *.
  destruct (ebc2_run P Q Ls D nt GA rc (npan id lo hi rc root src) lo hi idT loT hiT RNGT bc2_IDS st1) as [A B].
  split; [|intros R' [<-|[<-|I1]]].
  - intros x LX. rewrite B; [apply PR; exact LX|]. intros r i _ _ _ _ E. pose proof (f_equal t_mat E) as E'. cbn in E'. destruct LX. lia.
  - intros r i DM. rewrite B; [apply (PV0 R (or_introl eq_refl)); exact DM|]. intros r' i' _ _ _ _ E. destruct DM as (Rr & L & O). destruct (bc2_IDS r i Rr L O) as [M _]. apply M.
    cbn [pr_pf mkref] in E. unfold ptile in E. cbn [pr_pf mkref] in E. rewrite E. reflexivity.
  - intros r k (Rr & L & O). unfold ptile. cbn [pr_pf pr_lo pr_hi pr_rc pr_src refT] in *. unfold npanT. rewrite A by assumption.
    destruct (dsrc_co P Q Ls D nt GA rc k) as [C1 C2].
    assert (L' : lo <= k < hi) by lia. exact (PV0 R (or_introl eq_refl) (dsrc Q Ls rc k) k (conj (dsrc_in P Q Ls D nt GA rc k) (conj L' (eq_sym C1)))).
  - destruct (AP R' I1) as (GR & _ & AR). intros r i DM. rewrite B; [apply (PV0 R' (or_intror I1)); exact DM|]. intros r' i' Rr' L' _ _ E.
    pose proof (pg_rank R' GR r i DM) as RK. rewrite E in RK. cbn in RK. subst r'. apply (AR r i i' DM L'). exact E.
Qed.
End bc2.

(** ** Phases *)
(** a phase: broadcasts or kernels *)
Lemma apart_id : forall id lo hi R', (forall r i, pdom R' r i -> t_mat (ptile R' r i) <> id) -> apart id lo hi R'.
Proof using. intros id lo hi R' H r i i' DM _ E. apply (H r i DM). rewrite E. reflexivity. Qed.
Lemma mkref_mat : forall id lo hi rc root src r i id', pdom (mkref id lo hi rc root src) r i -> (forall i, lo <= i < hi -> t_mat (src i) < nm) -> nm <= id' -> id <> id' -> t_mat (ptile (mkref id lo hi rc root src) r i) <> id'.
Proof using.
  intros id lo hi rc root src r i id' (Rr & L & O) M N1 N2. unfold ptile. cbn [pr_pf pr_rc pr_lo pr_hi mkref] in *. rewrite npan_tile by assumption. destruct (_ =? root); cbn [t_mat at_]; [|exact N2]. specialize (M i L). lia.
Qed.
Lemma refT_mat : forall id lo hi rc root src idT loT hiT r i id', pdom (refT id lo hi rc root src idT loT hiT) r i -> lo <= loT /\ hiT <= hi -> (forall i, lo <= i < hi -> t_mat (src i) < nm) -> nm <= id' -> id <> id' -> idT <> id' ->
  t_mat (ptile (refT id lo hi rc root src idT loT hiT) r i) <> id'.
Proof using.
  intros id lo hi rc root src idT loT hiT r i id' (Rr & L & O) LL M N1 N2 N3. unfold ptile. cbn [pr_pf pr_rc pr_lo pr_hi refT] in *. rewrite npanT_tile by assumption.
  destruct (Z.eqb_spec (own rc i) (co rc r)) as [E|E]; [|exact N3]. rewrite npan_tile by (try assumption; lia). destruct (_ =? root); cbn [t_mat at_]; [|exact N2]. specialize (M i ltac:(lia)). lia.
Qed.
End prog.
