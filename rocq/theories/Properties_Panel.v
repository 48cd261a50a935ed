(** * C27: panel broadcasts. *)
From Coq Require Import ZArith Lia List Bool.
From Verif Require Import CInt Loop DistModel DistSpec DistProofs DistBuilt DistThms DistCtor DenseJobs DistMachine DistGrid PanelModel PanelProofs.
Import ListNotations.
Local Open Scope Z_scope.

(** Every rank (pr, pc) of a P x Q grid has constructed a Distribution from the same arguments and its
    own rank; D rc p is the axis rc of the object of the ranks whose coordinate along rc is p. *)
Definition distributed (P Q : Z) (size block tile src off : pair_Z) (D : coord -> Z -> axis) : Prop :=
  0 < P /\ 0 < Q /\
  (forall rc, 0 <= sel rc size /\ 0 < sel rc tile /\ 0 < sel rc block /\ (sel rc tile | sel rc block) /\ 0 <= sel rc src < sel rc (P, Q) /\
     0 <= sel rc off /\ sel rc off / sel rc block <= i32_max) /\
  forall pr pc, 0 <= pr < P -> 0 <= pc < Q ->
    exists d, dist_ctor size block tile (P, Q) (pr, pc) src off = Ok d /\ forall rc, D rc (sel rc (pr, pc)) = get rc d.

Lemma distributed_axes : forall P Q size block tile src off D, distributed P Q size block tile src off D ->
  grid_axes P Q (arg_layout size block tile (P, Q) src off) D (fun rc => ax_nr_tiles (D rc 0)).
Proof.
  intros P Q size block tile src off D (HP & HQ & OK & C).
  assert (LO : forall rc, layout_ok (arg_layout size block tile (P, Q) src off rc)).
  { intros rc. destruct (OK rc) as (A1 & A2 & A3 & A4 & A5 & A6 & A7). split; cbn; try assumption. destruct rc; cbn; assumption. }
  assert (M : forall rc p, 0 <= p < gs P Q rc -> models p (arg_layout size block tile (P, Q) src off rc) (D rc p)).
  { intros rc p Lp. assert (X : exists d, built (match rc with Row => (p, 0) | Col => (0, p) end) (arg_layout size block tile (P, Q) src off) d /\ D rc p = get rc d).
    { destruct rc; cbn in Lp.
      - destruct (C p 0 Lp ltac:(lia)) as (d & E & F). exists d. split; [apply built_ctor; [exact LO|intros rc; apply (OK rc)|exact E]|apply (F Row)].
      - destruct (C 0 p ltac:(lia) Lp) as (d & E & F). exists d. split; [apply built_ctor; [exact LO|intros rc; apply (OK rc)|exact E]|apply (F Col)]. }
    destruct X as (d & B & ->). pose proof (built_models _ _ _ B rc) as M. destruct rc; exact M. }
  constructor; try assumption.
  - intros rc. destruct rc; reflexivity.
  - intros rc p Lp. pose proof (M rc p Lp) as M1. pose proof (M rc 0 ltac:(pose proof (gs_pos P Q HP HQ rc); lia)) as M2.
    pose proof (m_is_tile _ _ _ M1) as X1. pose proof (m_is_tile _ _ _ M2) as X2. pose proof (T_nt_nonneg _ _ _ M1). pose proof (T_nt_nonneg _ _ _ M2).
    destruct (Z.lt_total (ax_nr_tiles (D rc p)) (ax_nr_tiles (D rc 0))) as [Q0|[Q0|Q0]]; [exfalso|exact Q0|exfalso].
    + specialize (X1 (ax_nr_tiles (D rc p))). specialize (X2 (ax_nr_tiles (D rc p))). assert (ax_nr_tiles (D rc p) < ax_nr_tiles (D rc p)); [|lia]. apply X1. apply X2. lia.
    + specialize (X1 (ax_nr_tiles (D rc 0))). specialize (X2 (ax_nr_tiles (D rc 0))). assert (ax_nr_tiles (D rc 0) < ax_nr_tiles (D rc 0)); [|lia]. apply X2. apply X1. lia.
Qed.
(** and documented arguments give such objects (C06) *)
Lemma distributed_exists : forall P Q size block tile src off,
  (forall pr pc, 0 <= pr < P -> 0 <= pc < Q -> pre2 size block tile (P, Q) (pr, pc) src) ->
  0 < P <= i32_max -> 0 < Q <= i32_max -> (forall rc, 0 <= sel rc off <= i64_max /\ sel rc src + sel rc off / sel rc block <= i32_max) ->
  exists D, distributed P Q size block tile src off D.
Proof.
  intros P Q size block tile src off PRE LP LQ OFF.
  assert (X : forall pr pc, 0 <= pr < P -> 0 <= pc < Q -> exists d, dist_ctor size block tile (P, Q) (pr, pc) src off = Ok d /\ built (pr, pc) (arg_layout size block tile (P, Q) src off) d).
  { intros pr pc L1 L2. apply ctor_accepts; [apply PRE; assumption| |]; intros rc; specialize (OFF rc); (split; [destruct rc; cbn in *|]); lia. }
  exists (fun rc p => match dist_ctor size block tile (P, Q) (match rc with Row => (p, 0) | Col => (0, p) end) src off with Ok d => get rc d | _ => default_axis end).
  split; [lia|]. split; [lia|]. split.
  - intros rc. destruct (PRE 0 0 ltac:(lia) ltac:(lia) rc) as (A1 & A2 & A3 & A4 & A5 & A6 & A7). specialize (OFF rc). repeat split; try assumption; try lia.
  - intros pr pc L1 L2. destruct (X pr pc L1 L2) as (d & E & B). exists d. split; [exact E|]. intros rc. pose proof (built_models _ _ _ B rc) as M.
    destruct rc; cbn [sel fst snd] in *.
    + destruct (X pr 0 L1 ltac:(lia)) as (d' & E' & B'). rewrite E'. pose proof (built_models _ _ _ B' Row) as M'. eapply models_unique; [exact M'|exact M|apply same_refl].
    + destruct (X 0 pc ltac:(lia) L2) as (d' & E' & B'). rewrite E'. pose proof (built_models _ _ _ B' Col) as M'. eapply models_unique; [exact M'|exact M|apply same_refl].
Qed.

(** C27. The ranks of a P x Q grid call broadcast(root, panel, panelT, ...) for panels over the tiles
    lo .. hi-1 and loT .. hiT-1 of a square matrix distribution.  On the ranks of the root column (row, if rc is Col) the
    tiles of the panel may be linked to other tiles of that rank; elsewhere the panels are unlinked.
    Then, whatever the schedulers and MPI do: all members of each communicator make the same sequence of
    broadcasts with the same roots and no rank ever waits for ever; and at the end slot i of the panel of every rank whose
    coordinate along rc owns tile i, and slot k of its panelT if it owns k along the other coordinate, holds what the
    root's panel held in that slot at the beginning; nothing but the slots that received changes. *)
Theorem C27_panel_broadcast : forall (V : Type) P Q size block tile src D, distributed P Q size block tile src (0, 0) D ->
  fst size = snd size -> fst tile = snd tile ->
  forall rc root, 0 <= root < gs P Q (other rc) ->
  forall (p pT : Z -> panel) id lo hi idT loT hiT,
  id <> idT -> 0 <= lo <= loT -> loT <= hiT <= hi -> hi <= ax_nr_tiles (D Row 0) ->
  (forall r, In r (ranks P Q) -> p_id (p r) = id /\ p_lo (p r) = lo /\ p_hi (p r) = hi) ->
  (forall r, In r (ranks P Q) -> p_id (pT r) = idT /\ p_lo (pT r) = loT /\ p_hi (pT r) = hiT /\ forall k, p_ext (pT r) k = None) ->
  (forall r i, In r (ranks P Q) -> co Q (other rc) r = root -> t_rank (p_tile r (p r) i) = r /\ t_mat (p_tile r (p r) i) <> idT /\
     (forall r' i', co Q (other rc) r' <> root -> p_tile r (p r) i <> p_int r' (p r') i')) ->
  (forall r i, In r (ranks P Q) -> co Q (other rc) r <> root -> p_ext (p r) i = None) ->
  forall st0 : tstore V,
  every_run (members P Q) (ranks P Q) (fun r => fst (panel_broadcast2 P Q D rc r root (p r) (pT r))) st0 (fun st =>
    let source i := mk Q rc (ax_rank_global_tile (D rc 0) i) root in
    (forall r i, In r (ranks P Q) -> lo <= i < hi -> ax_rank_global_tile (D rc 0) i = co Q rc r ->
       st (p_tile r (p r) i) = st0 (p_tile (source i) (p (source i)) i)) /\
    (forall r k, In r (ranks P Q) -> loT <= k < hiT -> ax_rank_global_tile (D (other rc) 0) k = co Q (other rc) r ->
       st (p_tile r (snd (panel_broadcast2 (V:=V) P Q D rc r root (p r) (pT r))) k) = st0 (p_tile (source k) (p (source k)) k)) /\
    (forall x, (forall r i, co Q (other rc) r <> root -> lo <= i < hi -> x <> Tid r id i 0) ->
       (forall r k, co Q rc r <> ax_rank_global_tile (D rc 0) k -> loT <= k < hiT -> x <> Tid r idT k 0) -> st x = st0 x)).
Proof.
  intros V P Q size block tile src D DS SQ SQT rc root HR p pT id lo hi idT loT hiT NID L1 L2 L3 PID PIDT RT LF st0.
  pose proof (distributed_axes _ _ _ _ _ _ _ _ DS) as GA. set (nt := fun rc => ax_nr_tiles (D rc 0)) in GA. set (Ls := arg_layout size block tile (P, Q) src (0, 0)) in *.
  pose proof (ga_P _ _ _ _ _ GA) as HP. pose proof (ga_Q _ _ _ _ _ GA) as HQ.
  assert (Z0 : forall rc, 0 <= 0 < gs P Q rc) by (intros rc'; pose proof (gs_pos P Q HP HQ rc'); lia).
  assert (NT : forall rc, nt rc = ax_nr_tiles (D Row 0)).
  { intros rc'. unfold nt. destruct rc'; [reflexivity|]. pose proof (ga_models _ _ _ _ _ GA Row 0 (Z0 Row)) as M1. pose proof (ga_models _ _ _ _ _ GA Col 0 (Z0 Col)) as M2.
    assert (X : forall t, is_tile (Ls Row) t <-> is_tile (Ls Col) t). { intros t. unfold is_tile, tile_of, Ls, arg_layout. cbn. rewrite SQ, SQT. reflexivity. }
    pose proof (m_is_tile _ _ _ M1) as X1. pose proof (m_is_tile _ _ _ M2) as X2. pose proof (T_nt_nonneg _ _ _ M1). pose proof (T_nt_nonneg _ _ _ M2).
    set (n1 := ax_nr_tiles (D Row 0)) in *. set (n2 := ax_nr_tiles (D Col 0)) in *.
    destruct (Z.lt_total n1 n2) as [Q0|[Q0|Q0]]; [exfalso|lia|exfalso].
    - assert (n1 < n1); [|lia]. apply X1, X, X2. lia.
    - assert (n2 < n2); [|lia]. apply X2, X, X1. lia. }
  assert (OW : forall rc k, 0 <= k -> ax_rank_global_tile (D rc 0) k = tile_owner (Ls rc) k).
  { intros rc' k Lk. apply (T_tile_owner _ _ _ (ga_models _ _ _ _ _ GA rc' 0 (Z0 rc'))). exact Lk. }
  assert (RNG : 0 <= lo <= hi /\ hi <= nt rc) by (rewrite NT; lia).
  assert (RNGT : lo <= loT <= hiT /\ hiT <= hi /\ hiT <= nt (other rc)) by (rewrite NT; lia).
  assert (PIDT' : forall r, In r (ranks P Q) -> p_id (pT r) = idT /\ p_lo (pT r) = loT /\ p_hi (pT r) = hiT) by (intros r R; destruct (PIDT r R) as (A & B & C & _); auto).
  assert (FRESH : forall r k, In r (ranks P Q) -> p_ext (pT r) k = None) by (intros r k R; destruct (PIDT r R) as (_ & _ & _ & A); auto).
  assert (ROOT : forall r i, In r (ranks P Q) -> co Q (other rc) r = root -> lo <= i < hi -> tile_owner (Ls rc) i = co Q rc r -> t_rank (p_tile r (p r) i) = r) by (intros r i R E _ _; apply (RT r i R E)).
  assert (LEAF : forall r i, In r (ranks P Q) -> co Q (other rc) r <> root -> lo <= i < hi -> tile_owner (Ls rc) i = co Q rc r -> p_ext (p r) i = None) by (intros r i R E _ _; apply (LF r i R E)).
  assert (IDS : forall r i, In r (ranks P Q) -> lo <= i < hi -> tile_owner (Ls rc) i = co Q rc r -> t_mat (p_tile r (p r) i) <> idT /\ t_rank (p_tile r (p r) i) = r).
  { intros r i R Li O. destruct (Z.eq_dec (co Q (other rc) r) root) as [E|E]; [destruct (RT r i R E) as (A & B & _); auto|].
    unfold p_tile. rewrite (LF r i R E). cbn. destruct (PID r R) as (A & _). rewrite A. auto. }
  assert (PROG : forall r, In r (ranks P Q) -> exists pT', panel_broadcast2 (V:=V) P Q D rc r root (p r) (pT r) =
     (if lo =? hi then [] else proj (members P Q) r (ebc1 P Q Ls rc root p id lo hi ++ ebc2 P Q Ls rc p idT loT hiT), pT') /\ panel_eq pT' (pTafter Q Ls rc p idT loT hiT r)).
  { intros r R. unfold panel_broadcast2. destruct (PID r R) as (A1 & A2 & A3). rewrite A2, A3. destruct (Z.eqb_spec lo hi) as [E|E].
    - exists (pT r). split; [reflexivity|]. destruct (PIDT r R) as (B1 & B2 & B3 & B4). unfold panel_eq, pTafter. cbn. repeat split; auto. intros k. rewrite B4.
      destruct (Z.leb_spec loT k), (Z.ltb_spec k hiT); cbn; lia || reflexivity.
    - destruct (PIDT' r R) as (B1 & B2 & B3). rewrite B2, B3.
      destruct (ebc2_proj (V:=V) P Q Ls D nt GA rc root HR p lo hi RNG ROOT LEAF pT idT loT hiT PIDT' FRESH RNGT IDS r R) as (pT' & F & PE).
      rewrite F. exists pT'. split; [|exact PE]. f_equal. rewrite (proj_app' P Q). f_equal. apply (ebc1_proj P Q Ls D nt GA rc root HR p id lo hi PID RNG r R). }
  set (G := if lo =? hi then [] else ebc1 (V:=V) P Q Ls rc root p id lo hi ++ ebc2 P Q Ls rc p idT loT hiT).
  apply (every_run_intro (members P Q) (ranks P Q) _ G).
  - intros r R. destruct (PROG r R) as (pT' & -> & _). cbn [fst]. unfold G. destruct (lo =? hi); reflexivity.
  - unfold G. destruct (lo =? hi); [constructor|]. apply Forall_app. split.
    + apply (ebc1_ok P Q Ls D nt GA rc root HR p id lo hi ROOT).
    + apply (ebc2_ok P Q Ls D nt GA rc p lo hi idT loT hiT RNGT IDS).
  - intros st E source.
    assert (SRC : forall i, 0 <= i -> source i = psrc Q Ls rc root i) by (intros i Li; unfold source, psrc; rewrite OW by exact Li; reflexivity).
    destruct (ebc1_run (V:=V) P Q Ls D nt GA rc root HR p id lo hi PID RNG ROOT LEAF st0) as [R1 F1].
    set (st1 := erun (members P Q) (ebc1 P Q Ls rc root p id lo hi) st0) in *.
    destruct (ebc2_run (V:=V) P Q Ls D nt GA rc p lo hi idT loT hiT RNGT IDS st1) as [R2 F2].
    assert (EE : lo < hi -> forall x, st x = erun (members P Q) (ebc2 P Q Ls rc p idT loT hiT) st1 x).
    { intros LL x. rewrite E. unfold G. destruct (Z.eqb_spec lo hi); [lia|]. rewrite (erun_app P Q). reflexivity. }
    split; [|split].
    + intros r i R Li O. rewrite EE, SRC by lia. rewrite OW in O by lia. rewrite F2; [apply (R1 r i R Li O)|].
      intros q k Rq Lk Oq Nq X. apply (IDS r i R Li O). rewrite X. reflexivity.
    + intros r k R Lk O. rewrite EE, SRC by lia. rewrite OW in O by lia. destruct (PROG r R) as (pT' & -> & PE). cbn [snd].
      assert (p_tile r pT' k = p_tile r (pTafter Q Ls rc p idT loT hiT r) k) as ->. { destruct PE as (A & _ & _ & B). unfold p_tile, p_int. rewrite A, B. reflexivity. }
      rewrite R2 by assumption. destruct (dsrc_co P Q Ls D nt GA rc k) as [C1 C2]. rewrite <- (R1 (dsrc Q Ls rc k) k); [reflexivity|apply (dsrc_in P Q Ls D nt GA)|lia|symmetry; exact C1].
    + intros x N1 N2. destruct (Z.eq_dec lo hi) as [Q0|Q0]; [rewrite E; unfold G; destruct (Z.eqb_spec lo hi); [reflexivity|contradiction]|]. rewrite EE by lia. rewrite F2.
      * apply F1. intros r i R C Li _. apply N1; assumption.
      * intros r k R Lk Ok Nk. apply N2; [|exact Lk]. rewrite OW by lia. auto.
Qed.

(** A 2 x 2 grid, a 8 x 8 matrix with 2 x 2 tiles: the ranks of column 1 (1 and 3) link the slots 1 .. 3 of their panel
    to column 1 of the matrix and broadcast it; the panelT of rank 2 gets tile (2, 1), that rank 1 owns. *)
Definition ex_panel (r : Z) : panel := Panel 7 1 4 (fun i => if co 2 Col r =? 1 then Some (Tid r 0 i 1) else None).
Example C27_example : exists D, distributed 2 2 (8, 8) (2, 2) (2, 2) (0, 0) (0, 0) D /\
  exists s, dreach (members 2 2) (ranks 2 2) (fun r => fst (panel_broadcast2 2 2 D Row r 1 (ex_panel r) (fresh_panel 8 2 4)))
      (fun t => t_row t * 10 + t_col t) s /\
    d_store s (Tid 2 7 3 0) = 31 /\ 
    d_store s (p_tile 2 (snd (panel_broadcast2 (V:=Z) 2 2 D Row 2 1 (ex_panel 2) (fresh_panel 8 2 4))) 2) = 21.
Proof.
  destruct (distributed_exists 2 2 (8, 8) (2, 2) (2, 2) (0, 0) (0, 0)) as [D HD].
  - intros pr pc A B [|]; cbn; repeat split; try lia; exists 1; reflexivity.
  - unfold i32_max. lia.
  - unfold i32_max. lia.
  - intros [|]; cbn; unfold i32_max, i64_max; lia.
  - exists D. split; [exact HD|].
    pose proof (distributed_axes _ _ _ _ _ _ _ _ HD) as GA.
    assert (OW : forall rc k, 0 <= k -> ax_rank_global_tile (D rc 0) k = k mod 2).
    { intros rc k Lk. rewrite (T_tile_owner _ _ _ (ga_models _ _ _ _ _ GA rc 0 ltac:(destruct rc; cbn; lia))) by exact Lk.
      unfold tile_owner, arg_layout. destruct rc; cbn [l_src l_off l_tile l_block l_grid sel fst snd]; f_equal; rewrite Z.div_0_l by lia; rewrite Z.add_0_l, Z.div_mul by lia; reflexivity. }
    assert (NT : 4 <= ax_nr_tiles (D Row 0)).
    { pose proof (ga_models _ _ _ _ _ GA Row 0 ltac:(cbn; lia)) as M. assert (X : is_tile (arg_layout (8, 8) (2, 2) (2, 2) (2, 2) (0, 0) (0, 0) Row) 3) by (exists 6; split; [cbn; lia|reflexivity]).
      apply (m_is_tile _ _ _ M) in X. lia. }
    destruct (every_run_final _ _ _ _ _ (C27_panel_broadcast Z 2 2 (8, 8) (2, 2) (2, 2) (0, 0) D HD eq_refl eq_refl Row 1 ltac:(cbn; lia)
      ex_panel (fun _ => fresh_panel 8 2 4) 7 1 4 8 2 4 ltac:(lia) ltac:(lia) ltac:(lia) ltac:(lia)
      ltac:(intros; repeat split) ltac:(intros; repeat split)
      ltac:(intros r i R C; cbn [other] in C; unfold p_tile, ex_panel; cbn [p_ext]; rewrite C; cbn; repeat split; [discriminate|intros; discriminate])
      ltac:(intros r i R C; cbn [other] in C; unfold ex_panel; cbn [p_ext]; destruct (Z.eqb_spec (co 2 Col r) 1); [contradiction|reflexivity])
      (fun t => t_row t * 10 + t_col t))) as (s & R & F & H1 & H2 & _).
    exists s. split; [exact R|]. split.
    + change (Tid 2 7 3 0) with (p_tile 2 (ex_panel 2) 3). rewrite H1; [rewrite OW by lia; reflexivity|apply in_ranks; cbn; lia|lia|rewrite OW by lia; reflexivity].
    + specialize (H2 2 2 ltac:(apply in_ranks; cbn; lia) ltac:(lia)). cbn [other] in H2. rewrite !OW in H2 by lia. specialize (H2 eq_refl).
      exact H2.
Qed.

(** ** Assumptions *)
Print Assumptions C27_panel_broadcast.
