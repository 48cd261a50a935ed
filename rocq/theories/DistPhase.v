(** * Phases: parts of a distributed program on square matrices, against parts of a local tile program. *)
From Coq Require Import ZArith Lia List Bool.
From Verif Require Import CInt Loop DistModel DistSpec DistBuilt DistThms DenseJobs DistMachine DistGrid PanelModel PanelProofs DistSim DistProg.
Import ListNotations.
Local Open Scope Z_scope.

Section phase.
Context {V : Type}.
Variables P Q : Z.
Variable Ls : coord -> layout.
Variable D : coord -> Z -> axis.
Variable nt : coord -> Z.
Hypothesis GA : grid_axes P Q Ls D nt.
Notation own rc k := (tile_owner (Ls rc) k).
Notation co := (co Q).
Notation rks := (ranks P Q).
Notation mem := (members P Q).
Variable nm : Z.
Notation PRel := (PRel (V:=V) Q Ls nm).
Notation PInv := (PInv (V:=V) P Q Ls nm).
Notation owT := (owT Q Ls).
Notation pgood := (pgood P Q Ls nm).
Notation sj := (sj (V:=V)).

(** started with the panels live, the program prog does what the local jobs lp do, and leaves the panels live' *)
Definition phase (live live' : list pref) (prog : Z -> list (act V)) (lp : list (tjob V)) : Prop :=
  exists E, (forall r, In r rks -> prog r = proj mem r E) /\ Forall (event_ok mem rks) E /\
    forall st lst, PInv live st lst -> PInv live' (erun mem E st) (trun lp lst).
Lemma ph_nil : forall live live' prog, (forall r, In r rks -> prog r = []) -> incl live' live -> phase live live' prog [].
Proof using. intros live live' prog H I0. exists []. split; [exact H|]. split; [constructor|]. intros st lst X. apply (pinv_weaken _ _ _ _ live live'); [exact I0|exact X]. Qed.
Lemma ph_app : forall a b c p p' l l', phase a b p l -> phase b c p' l' -> phase a c (fun r => p r ++ p' r) (l ++ l').
Proof using.
  intros a b c p p' l l' (E & A1 & A2 & A3) (E' & B1 & B2 & B3). exists (E ++ E'). split; [|split].
  - intros r R. rewrite (proj_app' P Q), A1, B1 by exact R. reflexivity.
  - apply Forall_app. auto.
  - intros st lst I0. rewrite erun_app, trun_app. apply B3. apply A3. exact I0.
Qed.
Lemma ph_ext : forall a b p p' l, phase a b p l -> (forall r, In r rks -> p' r = p r) -> phase a b p' l.
Proof using. intros a b p p' l (E & A1 & A2 & A3) H. exists E. split; [|split; assumption]. intros r R. rewrite H, A1 by exact R. reflexivity. Qed.
Lemma ph_weak : forall a b a' b' p l, phase a b p l -> incl a a' -> incl b' b -> phase a' b' p l.
Proof using.
  intros a b a' b' p l (E & A1 & A2 & A3) H1 H2. exists E. split; [exact A1|]. split; [exact A2|]. intros st lst X. apply (pinv_weaken _ _ _ _ b b'); [exact H2|]. apply A3. apply (pinv_weaken _ _ _ _ a' a); [exact H1|exact X].
Qed.
Lemma ph_local : forall a b p l l', phase a b p l -> (forall st x, trun l st x = trun l' st x) -> phase a b p l'.
Proof using.
  intros a b p l l' (E & A1 & A2 & A3) H. exists E. split; [exact A1|]. split; [exact A2|]. intros st lst X. destruct (A3 st lst X) as [B1 B2]. split.
  - intros x Lx. rewrite <- H. apply B1. exact Lx.
  - intros R I0 r i DM. rewrite <- H. apply (B2 R I0). exact DM.
Qed.
Lemma ph_flat : forall a {X} (f : Z -> X -> list (act V)) g (ks : list X), (forall k, In k ks -> phase a a (fun r => f r k) (g k)) -> phase a a (fun r => flat_map (f r) ks) (flat_map g ks).
Proof using.
  intros a X f g ks. induction ks as [|k ks IH]; intros H.
  - apply ph_nil; [reflexivity|intros x; auto].
  - cbn [flat_map]. apply (ph_app a a a); [apply H; left; reflexivity|]. apply IH. intros k' I0. apply H. right. exact I0.
Qed.
Lemma ph_if : forall a b (c : bool) p l, (c = true -> phase a b p l) -> (c = false -> incl b a) -> phase a b (fun r => if c then p r else []) (if c then l else []).
Proof using. intros a b [] p l H1 H2; [apply H1; reflexivity|]. apply ph_nil; [reflexivity|apply H2; reflexivity]. Qed.

(** ** Kernels *)
Definition pj (r : Z) (l : list sj) : list (act V) := flat_map (fun s => if owT (s_out s) =? r then [ALoc (djob r s)] else []) l.
Lemma pj_app : forall r l l', pj r (l ++ l') = pj r l ++ pj r l'. Proof using. intros. apply flat_map_app. Qed.
Lemma pj_flat : forall r {X} (F : X -> list sj) l, pj r (flat_map F l) = flat_map (fun i => pj r (F i)) l.
Proof using. intros r X F l. induction l as [|x l IH]; [reflexivity|]. cbn [flat_map]. rewrite pj_app, IH. reflexivity. Qed.
Lemma pj_one : forall r rc s, In r rks -> pj r [s] = if own rc (tc rc (s_out s)) =? co rc r then if own (other rc) (tc (other rc) (s_out s)) =? co (other rc) r then [ALoc (djob r s)] else [] else [].
Proof using GA.
  intros r rc s R. unfold pj. cbn [flat_map]. rewrite (owT_eqb P Q Ls D nt GA r rc) by exact R. destruct (_ =? co rc r), (_ =? co (other rc) r); reflexivity.
Qed.
Lemma ph_jobs : forall live prog l, Forall pgood live -> Forall (sj_ok (V:=V) P Q Ls nm live) l -> (forall r, In r rks -> prog r = pj r l) -> phase live live prog (map ljob l).
Proof using GA.
  intros live prog l G O H. exists (map (sev Q Ls) l). split; [|split].
  - intros r R. rewrite H by exact R. symmetry. apply (sjs_proj P Q Ls).
  - apply (sjs_ok P Q Ls D nt GA nm live); assumption.
  - intros st lst I0. apply sjs_run; assumption.
Qed.
Lemma map_flat : forall {A B C} (h : B -> C) (F : A -> list B) l, map h (flat_map F l) = flat_map (fun x => map h (F x)) l.
Proof using. intros A B C h F l. induction l as [|x l IH]; [reflexivity|]. cbn [flat_map]. rewrite map_app, IH. reflexivity. Qed.
(** a loop over the local tiles of a rank *)
Lemma loop_pj : forall r rc lo hi (f : Z -> list (act V)) (F : Z -> list sj), In r rks -> 0 <= lo <= hi -> hi <= nt rc ->
  (forall i, lo <= i < hi -> own rc i = co rc r -> f i = pj r (F i)) -> (forall i, lo <= i < hi -> own rc i <> co rc r -> pj r (F i) = []) ->
  flat_map (fun l => f (t_gl Q D r rc l)) (zrange (t_nx Q D r rc lo) (t_nx Q D r rc hi)) = pj r (flat_map F (zrange lo hi)).
Proof using GA.
  intros r rc lo hi f F R L1 L2 H1 H2. rewrite (loop_tiles P Q Ls D nt GA f r rc lo hi R L1 L2), pj_flat. apply flat_map_ext_in. intros i Li. apply in_zrange in Li.
  destruct (Z.eqb_spec (own rc i) (co rc r)) as [E|E]; [apply H1; assumption|symmetry; apply H2; assumption].
Qed.
Lemma loop_pj0 : forall r rc hi (f : Z -> list (act V)) (F : Z -> list sj), In r rks -> 0 <= hi -> hi <= nt rc ->
  (forall i, 0 <= i < hi -> own rc i = co rc r -> f i = pj r (F i)) -> (forall i, 0 <= i < hi -> own rc i <> co rc r -> pj r (F i) = []) ->
  flat_map (fun l => f (t_gl Q D r rc l)) (zrange 0 (t_nx Q D r rc hi)) = pj r (flat_map F (zrange 0 hi)).
Proof using GA.
  intros r rc hi f F R L1 L2 H1 H2. rewrite <- (loop_pj r rc 0 hi f F R) by (try assumption; lia). f_equal. f_equal.
  unfold t_nx. rewrite (T_next_local _ _ _ (rank_models P Q Ls D nt GA r rc R) 0) by lia. reflexivity.
Qed.
(** tests that decide nothing *)
Lemma pj_none : forall r l, (forall s, In s l -> owT (s_out s) <> r) -> pj r l = [].
Proof using. intros r l H. apply flat_map_nil. intros s I0. rewrite (proj2 (Z.eqb_neq _ _) (H s I0)). reflexivity. Qed.
Lemma owT_ne : forall r rc x, In r rks -> own rc (tc rc x) <> co rc r -> owT x <> r.
Proof using GA. intros r rc x R N E. apply N. rewrite <- E. symmetry. apply (owT_co P Q Ls D nt GA). Qed.
Lemma pj_other : forall r rc l, In r rks -> (forall s, In s l -> own rc (tc rc (s_out s)) <> co rc r) -> pj r l = [].
Proof using GA. intros r rc l R H. apply pj_none. intros s I0. apply (owT_ne r rc); [exact R|apply H; exact I0]. Qed.
Lemma pj_here : forall r rc s, In r rks -> own rc (tc rc (s_out s)) = co rc r -> own (other rc) (tc (other rc) (s_out s)) = co (other rc) r -> pj r [s] = [ALoc (djob r s)].
Proof using GA. intros r rc s R A B. rewrite (pj_one r rc) by exact R. rewrite A, B, !Z.eqb_refl. reflexivity. Qed.

(** ** Links *)
Definition links (rc : coord) (r lo hi : Z) (g : Z -> tid) (p : panel) : panel :=
  fold_left (fun p l => set_tile p (t_gl Q D r rc l) (g (t_gl Q D r rc l))) (zrange lo hi) p.
Lemma fold_set : forall (g : Z -> tid) l p, let q := fold_left (fun p i => set_tile p i (g i)) l p in
  p_id q = p_id p /\ p_lo q = p_lo p /\ p_hi q = p_hi p /\ forall i, p_ext q i = if existsb (Z.eqb i) l then Some (g i) else p_ext p i.
Proof using.
  intros g l. induction l as [|x l IH]; intros p; cbn [fold_left]; cbv zeta in *; [cbn; auto|]. destruct (IH (set_tile p x (g x))) as (A & B & C & F). rewrite A, B, C. cbn. repeat split; auto.
  intros i. rewrite F. cbn [set_tile p_ext]. destruct (Z.eqb_spec i x) as [->|N]; cbn [orb]; [destruct (existsb _ l); reflexivity|reflexivity].
Qed.
Lemma links_eq : forall rc r root id lo hi src (g : Z -> tid), In r rks -> 0 <= lo <= hi -> hi <= nt rc -> (forall i, lo <= i < hi -> own rc i = co rc r -> co (other rc) r = root -> g i = at_ r (src i)) ->
  panel_eq (if root =? co (other rc) r then links rc r (t_nx Q D r rc lo) (t_nx Q D r rc hi) g (fresh_panel id lo hi) else fresh_panel id lo hi) (npan Q Ls id lo hi rc root src r).
Proof using GA.
  intros rc r root id lo hi src g R L1 L2 G. unfold panel_eq, npan. cbn [p_id p_lo p_hi p_ext]. rewrite (Z.eqb_sym root). destruct (Z.eqb_spec (co (other rc) r) root) as [E|E]; cbn [andb]; [|cbn; auto].
  unfold links. rewrite (fold_left_map (fun p i => set_tile p i (g i)) (t_gl Q D r rc)). rewrite (tiles_here P Q Ls D nt GA) by assumption.
  destruct (fold_set g (filter (fun i => own rc i =? co rc r) (zrange lo hi)) (fresh_panel id lo hi)) as (A & B & C & F). cbv zeta in *. rewrite A, B, C. repeat split; try reflexivity.
  intros i. rewrite F, in_tiles_here. destruct ((lo <=? i) && (i <? hi) && (own rc i =? co rc r)) eqn:T; [|reflexivity]. f_equal. apply andb_true_iff in T as [T T2]. apply andb_true_iff in T as [T0 T1]. apply G; [lia|apply Z.eqb_eq; exact T2|exact E].
Qed.

(** ** Broadcasts *)
Notation mkref := (mkref Q Ls).
Notation npan := (npan Q Ls).
Notation apart := (apart P Q Ls).
Definition src_ok (rc : coord) (root lo hi : Z) (src : Z -> tid) : Prop :=
  0 <= root < gs P Q (other rc) /\ forall i, lo <= i < hi -> ltile nm (src i) /\ tc rc (src i) = i /\ own (other rc) (tc (other rc) (src i)) = root.
Lemma ph_bc : forall live id lo hi rc root src prog, src_ok rc root lo hi src -> 0 <= lo <= hi -> hi <= nt rc -> nm <= id ->
  (forall R', In R' live -> pgood R' /\ apart id lo hi R') -> (forall r, In r rks -> exists p, panel_eq p (npan id lo hi rc root src r) /\ prog r = panel_broadcast P Q D rc r root p) ->
  phase live (mkref id lo hi rc root src :: live) prog [].
Proof using GA.
  intros live id lo hi rc root src prog [HR SRC] L1 L2 ID AP PR. exists (e_bc P Q Ls id lo hi rc root src). split; [|split].
  - intros r R. destruct (PR r R) as (p & E & ->). rewrite (bc_ext P Q D rc r root p _ E). symmetry. apply (bc_proj P Q Ls D nt GA); [exact HR|lia|exact R].
  - apply (bc_ok P Q Ls D nt GA). exact HR.
  - intros st lst I0. apply (bc_run P Q Ls D nt GA nm); try assumption; lia.
Qed.
(** one tile, broadcast by the ranks that have its coordinate *)
Lemma ph_bc_one : forall live id k rc root src prog, src_ok rc root k (k + 1) src -> 0 <= k -> k + 1 <= nt rc -> nm <= id ->
  (forall R', In R' live -> pgood R' /\ apart id k (k + 1) R') ->
  (forall r, In r rks -> own rc k = co rc r -> exists p, panel_eq p (npan id k (k + 1) rc root src r) /\ prog r = panel_broadcast P Q D rc r root p) ->
  (forall r, In r rks -> own rc k <> co rc r -> prog r = []) ->
  phase live (mkref id k (k + 1) rc root src :: live) prog [].
Proof using GA.
  intros live id k rc root src prog SO L1 L2 ID AP PR PN. apply ph_bc; try assumption; [lia|]. intros r R.
  destruct (Z.eq_dec (own rc k) (co rc r)) as [O|O]; [apply PR; assumption|]. exists (npan id k (k + 1) rc root src r). split; [repeat split|]. rewrite PN by assumption.
  unfold panel_broadcast. destruct (_ <=? 1); [reflexivity|]. cbn [p_lo p_hi DistProg.npan].
  set (q := npan id k (k + 1) rc root src r).
  rewrite (loop_tiles P Q Ls D nt GA (fun i => [ACom (if co (other rc) r =? root then bsend (cm rc (co rc r)) (mk Q rc (co rc r) root) (p_tile r q i) else brecv (cm rc (co rc r)) (mk Q rc (co rc r) root) (p_int r q i))]) r rc k (k + 1) R) by lia.
  symmetry. apply flat_map_nil. intros x Ix. apply in_zrange in Ix. assert (x = k) as -> by lia. rewrite (proj2 (Z.eqb_neq _ _) O). reflexivity.
Qed.
Lemma ph_bc2 : forall live id lo hi rc root src idT loT hiT prog, src_ok rc root lo hi src -> 0 <= lo < hi -> hi <= nt rc -> nm <= id ->
  lo <= loT <= hiT -> hiT <= hi -> hiT <= nt (other rc) -> nm <= idT -> idT <> id ->
  (forall R', In R' live -> pgood R' /\ apart id lo hi R' /\ apart idT loT hiT R') ->
  (forall r, In r rks -> exists p, panel_eq p (npan id lo hi rc root src r) /\ prog r = fst (panel_broadcast2 P Q D rc r root p (fresh_panel idT loT hiT))) ->
  phase live (mkref id lo hi rc root src :: refT Q Ls id lo hi rc root src idT loT hiT :: live) prog [].
Proof using GA.
  intros live id lo hi rc root src idT loT hiT prog [HR SRC] L1 L2 ID L3 L4 L5 IDT NE AP PR. exists (e_bc2 P Q Ls id lo hi rc root src idT loT hiT). split; [|split].
  - intros r R. destruct (PR r R) as (p & E & ->). destruct (bc2_proj (V:=V) P Q Ls D nt GA nm id lo hi rc root src idT loT hiT HR ltac:(lia) ID SRC ltac:(lia) ltac:(lia) r p R E) as (pT' & -> & _). reflexivity.
  - apply (bc2_ok P Q Ls D nt GA nm); try assumption; lia.
  - intros st lst I0. apply (bc2_run P Q Ls D nt GA nm); try assumption; lia.
Qed.
(** what the second broadcast leaves in the other panel *)
Lemma bc2_panel : forall id lo hi rc root src idT loT hiT r p, src_ok rc root lo hi src -> 0 <= lo < hi -> hi <= nt rc -> nm <= id ->
  lo <= loT <= hiT -> hiT <= hi -> hiT <= nt (other rc) -> nm <= idT -> idT <> id -> In r rks -> panel_eq p (npan id lo hi rc root src r) ->
  panel_eq (snd (panel_broadcast2 (V:=V) P Q D rc r root p (fresh_panel idT loT hiT))) (npanT Q Ls id lo hi rc root src idT loT hiT r).
Proof using GA.
  intros id lo hi rc root src idT loT hiT r p [HR SRC] L1 L2 ID L3 L4 L5 IDT NE R E.
  destruct (bc2_proj (V:=V) P Q Ls D nt GA nm id lo hi rc root src idT loT hiT HR ltac:(lia) ID SRC ltac:(lia) ltac:(lia) r p R E) as (pT' & -> & X). apply X. lia.
Qed.
Lemma mkref_good : forall id lo hi rc root src, src_ok rc root lo hi src -> nm <= id -> pgood (mkref id lo hi rc root src).
Proof using. intros id lo hi rc root src [_ SRC] ID. apply bc_good; assumption. Qed.
Lemma refT_good : forall id lo hi rc root src idT loT hiT, src_ok rc root lo hi src -> nm <= id -> nm <= idT -> lo <= loT <= hiT -> hiT <= hi -> hiT <= nt (other rc) -> idT <> id -> pgood (refT Q Ls id lo hi rc root src idT loT hiT).
Proof using. intros id lo hi rc root src idT loT hiT [_ SRC] ID IDT L1 L2 L3 NE. eapply bcT_good; [exact ID|exact SRC|split; [exact L1|split; [exact L2|exact L3]]|split; assumption]. Qed.
(** reading a panel *)
Lemma rd_pan : forall R r p i, panel_eq p (pr_pf R r) -> p_tile r p i = dref r (SPan R i).
Proof using. intros R r p i E. cbn [dref]. unfold ptile. apply tile_ext. exact E. Qed.

Theorem ph_run : forall prog lp st0 lst (QP : tstore V -> Prop), phase [] [] prog lp -> PRel st0 lst -> (forall st, PRel st (trun lp lst) -> QP st) -> every_run mem rks prog st0 QP.
Proof using.
  intros prog lp st0 lst QP (E & A1 & A2 & A3) R H. apply (every_run_intro mem rks prog E).
  - exact A1.
  - exact A2.
  - intros st X. apply H. destruct (A3 st0 lst) as [B _]; [split; [exact R|intros ? []]|]. intros x Lx. rewrite X. apply B. exact Lx.
Qed.
End phase.
