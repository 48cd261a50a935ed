(** * C33: permutations. *)
From Coq Require Import ZArith Lia List Bool Permutation.
From Verif Require Import CInt Loop DistModel DistSpec DistProofs DistBuilt DistThms DistCtor DistGrid PanelProofs Properties_Panel TridiagModel TridiagProofs PermModel PermProofs PermRoute PermAxis PermDist.
Import ListNotations.
Local Open Scope Z_scope.

(** ** Specification *)
(** Element (x, y) of a distributed matrix with nb x nb tiles whose rows are laid out by LR and columns by LC: the owner
    keeps its tiles in the order of their global indices.  M pr pc are the local tiles of rank (pr, pc). *)
Definition elem {T} (nb : Z) (LR LC : layout) (M : Z -> Z -> pair_Z -> pair_Z -> T) (x y : Z) : T :=
  let pr := owner LR x in let pc := owner LC y in
  M pr pc (count (tile_owned LR pr) (tile_of LR x), count (tile_owned LC pc) (tile_of LC y)) (x mod nb, y mod nb).
(** the ranks that take part in one call: those that share coordinate s along the other coordinate *)
Definition line {T} (C : coord) (M : Z -> Z -> T) (s r : Z) : T := match C with Row => M r s | Col => M s r end.
(** elements of the tiles ib .. ie-1 of an axis of N elements *)
Definition in_range (nb N ib ie x : Z) : Prop := ib * nb <= x < Z.min (ie * nb) N.
(** position p in the vector that permutation [perms] of the range takes to position x *)
Definition moved (nb ib : Z) (perms : Z -> Z) (x : Z) : Z := ib * nb + perms (x - ib * nb).

Lemma range_empty : forall {T} C G d i order1 order2 order3 perms junk jb (inn out : Z -> lmat (T := T)),
  permute_dist C G d i i order1 order2 order3 perms junk jb inn out = Some out.
Proof.
  intros T C G d i order1 order2 order3 perms junk jb inn out. unfold permute_dist, permute_prepare. rewrite Z.eqb_refl.
  rewrite (proj2 (forallb_forall (fun _ => true) (zrange 0 G)) ltac:(reflexivity)). cbn [sent expected matches].
  rewrite (proj2 (forallb_forall (fun _ => forallb (fun _ => true) (zrange 0 G)) (zrange 0 G)));
    [reflexivity|]. intros. apply forallb_forall. reflexivity.
Qed.

Lemma line_main : forall (T : Type) P Q N nb src D, distributed P Q (N, N) (nb, nb) (nb, nb) src (0, 0) D ->
  forall C ib ie, 0 <= ib < ie -> (forall rc p, 0 <= p < gs P Q rc -> ie <= ax_nr_tiles (D rc p)) ->
  forall perms, is_perm (Z.min (ie * nb) N - ib * nb) perms ->
  forall order1 order2 order3 : Z -> Z -> list Z,
  (forall s r, 0 <= r < gs P Q C -> let k := local_element_distance_from_global_tile (D C r) ib ie in
     Permutation (order1 s r) (zrange 0 k) /\ Permutation (order2 s r) (zrange 0 k) /\ Permutation (order3 s r) (zrange 0 k)) ->
  forall junk jb (A B : Z -> Z -> lmat (T := T)),
  let L := arg_layout (N, N) (nb, nb) (nb, nb) (P, Q) src (0, 0) in
  forall s, 0 <= s < gs P Q (other C) -> exists X,
     permute_dist C (gs P Q C) (line C (fun pr pc => Dist (D Row pr) (D Col pc)) s) ib ie (order1 s) (order2 s) (order3 s) perms junk jb (line C A s) (line C B s) = Some X /\
     (forall r l y, 0 <= r < gs P Q C -> 0 <= l < rnv (D C r) ib ie -> 0 <= y < rnv (D (other C) s) ib ie ->
        let x := rl2s (L C) (D C r) ib l in let q := rown (L C) ib (perms x) in exists m, 0 <= m < rnv (D C q) ib ie /\ rl2s (L C) (D C q) ib m = perms x /\
        X r (mk2d C (rb (D C r) ib + l / nb) (rb (D (other C) s) ib + y / nb)) (mk2d C (l mod nb) (y mod nb)) =
        line C A s q (mk2d C (rb (D C q) ib + m / nb) (rb (D (other C) s) ib + y / nb)) (mk2d C (m mod nb) (y mod nb))) /\
     (forall r x y, 0 <= r < gs P Q C -> ~ (rb (D C r) ib <= x < re (D C r) ie /\ rb (D (other C) s) ib <= y < re (D (other C) s) ie) -> X r (mk2d C x y) = line C B s r (mk2d C x y)).
Proof.
  intros T P Q N nb src D DI C ib ie Lb NT perms PERM order1 order2 order3 ORD junk jb A B L s Ls.
  pose proof (distributed_axes _ _ _ _ _ _ _ _ DI) as GA. fold L in GA. destruct GA as [HP HQ GM GG GN].
  assert (HGC : 0 < gs P Q C) by (destruct C; assumption).
    pose proof (permute_main (T := T) C (gs P Q C) s (L C) (L (other C)) (D C) (D (other C) s) nb) as PM.
    specialize (PM (fun r Lr => GM C r Lr) (GM (other C) s Ls) (GG C)).
    assert (ET : l_tile (L C) = nb) by (destruct C; reflexivity).
    destruct (PM ltac:(destruct C; reflexivity) ltac:(destruct C; reflexivity) ltac:(destruct C; reflexivity) ltac:(destruct C; reflexivity) ET ltac:(destruct C; reflexivity) HGC ib ie Lb (fun r Lr => NT C r Lr) (NT (other C) s Ls) perms) with (order1 := order1 s) (order2 := order2 s) (order3 := order3 s) (junk := junk) (jb := jb) (inn := line C A s) (out := line C B s) as (X & EX & V1 & V2).
    - unfold n. destruct C; exact PERM.
    - intros r Lr. exact (ORD s r Lr).
    - exists X. split; [|split; [|exact V2]].
      + rewrite <- EX. f_equal. unfold dof, line. destruct C; reflexivity.
      + intros r l y Lr Ll Ly. specialize (V1 r l y Lr Ll Ly). cbv zeta in V1 |- *.
        assert (EO : forall t, rown (L C) ib t = own (L C) nb ib t) by (intros t; unfold rown, own; rewrite ET; reflexivity).
        assert (EL : forall r l, rl2s (L C) (D C r) ib l = l2s (D C) nb ib r l) by (intros r' l'; unfold rl2s, l2s; rewrite ET; reflexivity).
        rewrite EL, EO. destruct V1 as (m & V11 & V12 & V13). exists m. rewrite EL. split; [exact V11|]. split; [exact V12|]. exact V13.
Qed.

(** C33 (distributed).  The ranks of a P x Q grid have an N x N matrix with nb x nb tiles, input A and output B with the
    same distribution.  The members of each row communicator (columns: each column communicator) call permute with the
    same range of tiles ib .. ie-1 and the same permutation of the elements of the range.  Whatever order the bulks run
    in and whatever uninitialised memory holds, every message finds its receive (so the call completes), and in the
    result R the range holds the permuted vectors of A, and everything else is as it was in B. *)
Theorem C33_permute_distributed : forall (T : Type) P Q N nb src D, distributed P Q (N, N) (nb, nb) (nb, nb) src (0, 0) D ->
  forall C ib ie, 0 <= ib <= ie -> ie <= ax_nr_tiles (D Row 0) ->
  forall perms, is_perm (Z.min (ie * nb) N - ib * nb) perms ->
  forall order1 order2 order3 : Z -> Z -> list Z,
  (forall s r, 0 <= r < gs P Q C -> let k := local_element_distance_from_global_tile (D C r) ib ie in
     Permutation (order1 s r) (zrange 0 k) /\ Permutation (order2 s r) (zrange 0 k) /\ Permutation (order3 s r) (zrange 0 k)) ->
  forall junk jb (A B : Z -> Z -> lmat (T := T)),
  let L := arg_layout (N, N) (nb, nb) (nb, nb) (P, Q) src (0, 0) in
  exists R : Z -> Z -> lmat (T := T),
    (forall s, 0 <= s < gs P Q (other C) ->
       permute_dist C (gs P Q C) (line C (fun pr pc => Dist (D Row pr) (D Col pc)) s) ib ie (order1 s) (order2 s) (order3 s) perms junk jb (line C A s) (line C B s)
       = Some (line C R s)) /\
    (forall x y, in_range nb N ib ie x -> in_range nb N ib ie y ->
       elem nb (L Row) (L Col) R x y =
       match C with Row => elem nb (L Row) (L Col) A (moved nb ib perms x) y | Col => elem nb (L Row) (L Col) A x (moved nb ib perms y) end) /\
    (forall x y, 0 <= x < N -> 0 <= y < N -> ~ (in_range nb N ib ie x /\ in_range nb N ib ie y) ->
       elem nb (L Row) (L Col) R x y = elem nb (L Row) (L Col) B x y).
Proof.
  intros T P Q N nb src D DI C ib ie Lb Le perms PERM order1 order2 order3 ORD junk jb A B L.
  pose proof (distributed_axes _ _ _ _ _ _ _ _ DI) as GA. fold L in GA. destruct GA as [HP HQ GM GG GN].
  assert (NB : 0 < nb). { destruct DI as (_ & _ & X & _). destruct (X Row) as (_ & X1 & _). exact X1. }
  destruct (Z.eq_dec ib ie) as [->|Nie].
  { exists B. split; [intros s Ls; apply range_empty|]. split; [|reflexivity]. unfold in_range. intros x y Lx. lia. }
  assert (NT : forall rc p, 0 <= p < gs P Q rc -> ie <= ax_nr_tiles (D rc p)).
  { assert (S0 : ax_nr_tiles (D Col 0) = ax_nr_tiles (D Row 0)).
    { pose proof (GM Row 0 ltac:(cbn; lia)) as M1. pose proof (GM Col 0 ltac:(cbn; lia)) as M2.
      pose proof (nt_iff 0 (L Row) _ M1 eq_refl) as E1. pose proof (nt_iff 0 (L Col) _ M2 eq_refl) as E2. cbn [l_tile l_size L arg_layout sel fst snd] in E1, E2.
      pose proof (T_nt_nonneg _ _ _ M1). pose proof (T_nt_nonneg _ _ _ M2).
      destruct (Z.lt_total (ax_nr_tiles (D Col 0)) (ax_nr_tiles (D Row 0))) as [Q0|[Q0|Q0]]; [exfalso|exact Q0|exfalso].
      - assert (ax_nr_tiles (D Col 0) < ax_nr_tiles (D Col 0)); [|lia]. apply E2. apply E1. lia.
      - assert (ax_nr_tiles (D Row 0) < ax_nr_tiles (D Row 0)); [|lia]. apply E1. apply E2. lia. }
    intros rc p Lp. rewrite (GN rc p Lp). destruct rc; lia. }
  assert (HGC : 0 < gs P Q C) by (destruct C; assumption).
  pose proof (fun e => tile_of_div _ _ _ (GM Row 0 ltac:(cbn; lia)) eq_refl e) as TOR. change (l_tile (L Row)) with nb in TOR.
  pose proof (fun e => tile_of_div _ _ _ (GM Col 0 ltac:(cbn; lia)) eq_refl e) as TOC. change (l_tile (L Col)) with nb in TOC.
  pose proof (fun e => own_tile _ _ _ (GM Row 0 ltac:(cbn; lia)) eq_refl e) as OTR. change (l_tile (L Row)) with nb in OTR.
  pose proof (fun e => own_tile _ _ _ (GM Col 0 ltac:(cbn; lia)) eq_refl e) as OTC. change (l_tile (L Col)) with nb in OTC.
  set (dd s := line C (fun pr pc => Dist (D Row pr) (D Col pc)) s).
  set (call s := permute_dist C (gs P Q C) (dd s) ib ie (order1 s) (order2 s) (order3 s) perms junk jb (line C A s) (line C B s)).
  pose proof (line_main T P Q N nb src D DI C ib ie ltac:(lia) NT perms PERM order1 order2 order3 ORD junk jb A B) as MAIN. cbv zeta in MAIN. fold L in MAIN.
  change (forall s, 0 <= s < gs P Q (other C) -> exists X, call s = Some X /\
     (forall r l y, 0 <= r < gs P Q C -> 0 <= l < rnv (D C r) ib ie -> 0 <= y < rnv (D (other C) s) ib ie ->
        exists m, 0 <= m < rnv (D C (rown (L C) ib (perms (rl2s (L C) (D C r) ib l)))) ib ie /\ rl2s (L C) (D C (rown (L C) ib (perms (rl2s (L C) (D C r) ib l)))) ib m = perms (rl2s (L C) (D C r) ib l) /\
        X r (mk2d C (rb (D C r) ib + l / nb) (rb (D (other C) s) ib + y / nb)) (mk2d C (l mod nb) (y mod nb)) =
        line C A s (rown (L C) ib (perms (rl2s (L C) (D C r) ib l))) (mk2d C (rb (D C (rown (L C) ib (perms (rl2s (L C) (D C r) ib l)))) ib + m / nb) (rb (D (other C) s) ib + y / nb)) (mk2d C (m mod nb) (y mod nb))) /\
     (forall r x y, 0 <= r < gs P Q C -> ~ (rb (D C r) ib <= x < re (D C r) ie /\ rb (D (other C) s) ib <= y < re (D (other C) s) ie) -> X r (mk2d C x y) = line C B s r (mk2d C x y))) in MAIN.
  assert (EXR : exists R : Z -> Z -> lmat (T := T), (forall s X, call s = Some X -> call s = Some (line C R s)) /\
      (forall s X, call s = Some X -> forall r, line C R s r = X r) ).
  { clear MAIN. clearbody call. exists (fun pr pc => let s := match C with Row => pc | Col => pr end in match call s with Some X => X (match C with Row => pr | Col => pc end) | None => B pr pc end).
    split; intros s X E; [rewrite E; f_equal; unfold line; destruct C; cbv zeta; rewrite E; reflexivity|].
    intros r. unfold line. destruct C; cbv zeta; rewrite E; reflexivity. }
  destruct EXR as (R & ER & RL). exists R. split; [|clearbody call; split].
  - intros s Ls. destruct (MAIN s Ls) as (X & E & _). exact (ER s X E).
  - intros x y Rx Ry.
    assert (Lx : 0 <= x) by (unfold in_range in Rx; nia). assert (Ly : 0 <= y) by (unfold in_range in Ry; nia).
    assert (OX : 0 <= owner (L Row) x < P) by (rewrite <- (GG Row : _ = P); apply (T_owner _ _ _ (GM Row 0 ltac:(cbn; lia)) x Lx)).
    assert (OY : 0 <= owner (L Col) y < Q) by (rewrite <- (GG Col : _ = Q); apply (T_owner _ _ _ (GM Col 0 ltac:(cbn; lia)) y Ly)).
    pose proof (rl_of _ _ _ (GM Row _ OX) eq_refl eq_refl ib ie ltac:(lia) (NT Row _ OX) x Rx eq_refl) as (lx & Llx & Elx & Tlx & Mlx).
    pose proof (rl_of _ _ _ (GM Col _ OY) eq_refl eq_refl ib ie ltac:(lia) (NT Col _ OY) y Ry eq_refl) as (ly & Lly & Ely & Tly & Mly).
    change (l_tile (L Row)) with nb in *. change (l_tile (L Col)) with nb in *.
    unfold elem. cbv zeta. rewrite TOR, TOC, <- Tlx, <- Tly, <- Mlx, <- Mly.
    destruct C; cbn [other gs mk2d] in *; unfold line in *.
    + destruct (MAIN (owner (L Col) y) OY) as (X & E & V1 & _). destruct (V1 (owner (L Row) x) lx ly OX Llx Lly) as (m & Lm & Em & V). cbv zeta in Lm, Em, V. rewrite (RL _ _ E (owner (L Row) x)). rewrite V. clear V.
      rewrite Elx in *. set (x' := moved nb ib perms x) in *. unfold moved in x'.
      assert (PR : 0 <= perms (x - ib * nb) < Z.min (ie * nb) N - ib * nb) by (apply (is_perm_in _ _ _ PERM); unfold in_range in Rx; lia).
      unfold rown in *. change (l_tile (L Row)) with nb in *. fold x' in Lm, Em |- *.
      assert (OX' : 0 <= owner (L Row) x' < P) by (rewrite <- (GG Row : _ = P); apply (T_owner _ _ _ (GM Row 0 ltac:(cbn; lia)) x'); unfold x'; nia).
      destruct (rl_to _ _ _ (GM Row _ OX') eq_refl eq_refl ib ie ltac:(lia) (NT Row _ OX') m x' Lm ltac:(change (l_tile (L Row)) with nb; rewrite Em; unfold x'; lia)) as [T1 T2]. change (l_tile (L Row)) with nb in *.
      rewrite (TOR x'), <- T1, <- T2. reflexivity.
    + destruct (MAIN (owner (L Row) x) OX) as (X & E & V1 & _). destruct (V1 (owner (L Col) y) ly lx OY Lly Llx) as (m & Lm & Em & V). cbv zeta in Lm, Em, V. rewrite (RL _ _ E (owner (L Col) y)). rewrite V. clear V.
      rewrite Ely in *. set (x' := moved nb ib perms y) in *. unfold moved in x'.
      assert (PR : 0 <= perms (y - ib * nb) < Z.min (ie * nb) N - ib * nb) by (apply (is_perm_in _ _ _ PERM); unfold in_range in Ry; lia).
      unfold rown in *. change (l_tile (L Col)) with nb in *. fold x' in Lm, Em |- *.
      assert (OX' : 0 <= owner (L Col) x' < Q) by (rewrite <- (GG Col : _ = Q); apply (T_owner _ _ _ (GM Col 0 ltac:(cbn; lia)) x'); unfold x'; nia).
      destruct (rl_to _ _ _ (GM Col _ OX') eq_refl eq_refl ib ie ltac:(lia) (NT Col _ OX') m x' Lm ltac:(change (l_tile (L Col)) with nb; rewrite Em; unfold x'; lia)) as [T1 T2]. change (l_tile (L Col)) with nb in *.
      rewrite (TOC x'), <- T1, <- T2. reflexivity.
  - intros x y Lx Ly NR.
    assert (OX : 0 <= owner (L Row) x < P) by (rewrite <- (GG Row : _ = P); apply (T_owner _ _ _ (GM Row 0 ltac:(cbn; lia)) x); lia).
    assert (OY : 0 <= owner (L Col) y < Q) by (rewrite <- (GG Col : _ = Q); apply (T_owner _ _ _ (GM Col 0 ltac:(cbn; lia)) y); lia).
    assert (IN : ~ (rb (D Row (owner (L Row) x)) ib <= count (tile_owned (L Row) (owner (L Row) x)) (tile_of (L Row) x) < re (D Row (owner (L Row) x)) ie /\
                    rb (D Col (owner (L Col) y)) ib <= count (tile_owned (L Col) (owner (L Col) y)) (tile_of (L Col) y) < re (D Col (owner (L Col) y)) ie)).
    { intros [H1 H2]. apply NR. rewrite TOR in H1. rewrite TOC in H2. pose proof (Z.div_pos x nb). pose proof (Z.div_pos y nb).
      assert (TX := r_in _ _ _ (GM Row _ OX) ib ie ltac:(lia) (x / nb) ltac:(lia) ltac:(symmetry; apply OTR) H1).
      assert (TY := r_in _ _ _ (GM Col _ OY) ib ie ltac:(lia) (y / nb) ltac:(lia) ltac:(symmetry; apply OTC) H2).
      pose proof (Z.div_mod x nb ltac:(lia)). pose proof (Z.mod_pos_bound x nb NB). pose proof (Z.div_mod y nb ltac:(lia)). pose proof (Z.mod_pos_bound y nb NB). unfold in_range. split; nia. }
    unfold elem. cbv zeta. destruct C; cbn [other gs mk2d] in *; unfold line in *.
    + destruct (MAIN (owner (L Col) y) OY) as (X & E & _ & V2). rewrite (RL _ _ E (owner (L Row) x)). rewrite V2; [reflexivity|exact OX|exact IN].
    + destruct (MAIN (owner (L Row) x) OX) as (X & E & _ & V2). rewrite (RL _ _ E (owner (L Col) y)). rewrite V2; [reflexivity|exact OY|tauto].
Qed.

(** element (x, y) of a matrix that is not distributed *)
Definition elem_local {T} (nb : Z) (M : pair_Z -> pair_Z -> T) (x y : Z) : T := M (x / nb, y / nb) (x mod nb, y mod nb).

(** C33 (local part of any matrix): the call permutes the local elements of the local tiles of the range. *)
Theorem C33_permute_local_part : forall (T : Type) P Q N nb src D, distributed P Q (N, N) (nb, nb) (nb, nb) src (0, 0) D ->
  forall C ib ie, 0 <= ib <= ie -> ie <= ax_nr_tiles (D Row 0) ->
  forall pr pc, 0 <= pr < P -> 0 <= pc < Q ->
  let L := arg_layout (N, N) (nb, nb) (nb, nb) (P, Q) src (0, 0) in
  let first rc := nb * count (tile_owned (L rc) (sel rc (pr, pc))) ib in
  let len rc := local_element_distance_from_global_tile (D rc (sel rc (pr, pc))) ib ie in
  forall perms, is_perm (len C) perms -> forall order, Permutation order (zrange 0 (len C)) ->
  forall A B : lmat (T := T), exists R, permute_local C (Dist (D Row pr) (D Col pc)) ib ie order perms A B = Ok R /\
    (forall x y, 0 <= x < len Row -> 0 <= y < len Col -> elem_local nb R (first Row + x) (first Col + y) =
       match C with Row => elem_local nb A (first Row + perms x) (first Col + y) | Col => elem_local nb A (first Row + x) (first Col + perms y) end) /\
    (forall i j, ~ (count (tile_owned (L Row) pr) ib <= i < count (tile_owned (L Row) pr) ie /\ count (tile_owned (L Col) pc) ib <= j < count (tile_owned (L Col) pc) ie) ->
       R (i, j) = B (i, j)).
Proof.
  intros T P Q N nb src D DI C ib ie Lb Le pr pc Lpr Lpc L first len perms PERM order PO A B.
  pose proof (distributed_axes _ _ _ _ _ _ _ _ DI) as GA. fold L in GA. destruct GA as [HP HQ GM GG GN].
  assert (NB : 0 < nb). { destruct DI as (_ & _ & X & _). destruct (X Row) as (_ & X1 & _). exact X1. }
  destruct (Z.eq_dec ib ie) as [->|Nie].
  { exists B. unfold permute_local. rewrite Z.eqb_refl. split; [reflexivity|]. split; [|reflexivity]. intros x y Lx. exfalso. unfold len in Lx.
    pose proof (T_local_distance_global _ _ _ (GM Row pr Lpr) ie ie ltac:(lia) ltac:(rewrite (GN Row pr Lpr); lia)) as X. rewrite Z.sub_diag in X. cbn [sel fst] in Lx. rewrite X in Lx. cbn in Lx. lia. }
  assert (NT : forall rc p, 0 <= p < gs P Q rc -> ie <= ax_nr_tiles (D rc p)).
  { assert (S0 : ax_nr_tiles (D Col 0) = ax_nr_tiles (D Row 0)).
    { pose proof (GM Row 0 ltac:(cbn; lia)) as M1. pose proof (GM Col 0 ltac:(cbn; lia)) as M2.
      pose proof (nt_iff 0 (L Row) _ M1 eq_refl) as E1. pose proof (nt_iff 0 (L Col) _ M2 eq_refl) as E2. cbn [l_tile l_size L arg_layout sel fst snd] in E1, E2.
      pose proof (T_nt_nonneg _ _ _ M1). pose proof (T_nt_nonneg _ _ _ M2).
      destruct (Z.lt_total (ax_nr_tiles (D Col 0)) (ax_nr_tiles (D Row 0))) as [Q0|[Q0|Q0]]; [exfalso|exact Q0|exfalso].
      - assert (ax_nr_tiles (D Col 0) < ax_nr_tiles (D Col 0)); [|lia]. apply E2. apply E1. lia.
      - assert (ax_nr_tiles (D Row 0) < ax_nr_tiles (D Row 0)); [|lia]. apply E1. apply E2. lia. }
    intros rc p Lp. rewrite (GN rc p Lp). destruct rc; lia. }
  assert (HGC : 0 < gs P Q C) by (destruct C; assumption).
  set (r := sel C (pr, pc)). set (s := sel (other C) (pr, pc)).
  assert (Lr : 0 <= r < gs P Q C) by (destruct C; assumption). assert (Ls : 0 <= s < gs P Q (other C)) by (destruct C; assumption).
  pose proof (permute_local_main (T := T) C (gs P Q C) s (L C) (L (other C)) (D C) (D (other C) s) nb) as PM.
  specialize (PM (fun r Lr => GM C r Lr) (GM (other C) s Ls) (GG C)).
  destruct (PM ltac:(destruct C; reflexivity) ltac:(destruct C; reflexivity) ltac:(destruct C; reflexivity) ltac:(destruct C; reflexivity) ltac:(destruct C; reflexivity) ltac:(destruct C; reflexivity) HGC ib ie ltac:(lia) (fun r Lr => NT C r Lr) (NT (other C) s Ls) (fun i => i) (is_perm_id _) r order perms A B Lr PO PERM) as (R & ER & V1 & V2).
  exists R. split; [rewrite <- ER; unfold dof, r, s; destruct C; reflexivity|].
  assert (RB : forall rc, rb (D rc (sel rc (pr, pc))) ib = count (tile_owned (L rc) (sel rc (pr, pc))) ib) by (intros rc; apply (T_next_local _ _ _ (GM rc (sel rc (pr, pc)) ltac:(destruct rc; assumption))); lia).
  assert (RE : forall rc, re (D rc (sel rc (pr, pc))) ie = count (tile_owned (L rc) (sel rc (pr, pc))) ie) by (intros rc; apply (T_next_local _ _ _ (GM rc (sel rc (pr, pc)) ltac:(destruct rc; assumption))); lia).
  assert (DV : forall rc z, (first rc + z) / nb = rb (D rc (sel rc (pr, pc))) ib + z / nb) by (intros rc z; unfold first; rewrite RB, Z.mul_comm, Z.add_comm, Z.div_add by lia; lia).
  assert (MV : forall rc z, (first rc + z) mod nb = z mod nb) by (intros rc z; unfold first; rewrite Z.mul_comm, Z.add_comm, Z.mod_add by lia; reflexivity).
  split.
  - intros x y Lx Ly. unfold elem_local. unfold len in *. destruct C; cbn [other sel fst snd] in r, s, Lr, Ls; rewrite !(DV Row), !(DV Col), !MV; cbn [sel fst snd mk2d other] in *.
    + apply (V1 x y); assumption.
    + apply (V1 y x); assumption.
  - intros i j NI. pose proof (RB Row) as RB1. pose proof (RB Col) as RB2. pose proof (RE Row) as RE1. pose proof (RE Col) as RE2. destruct C; cbn [other sel fst snd mk2d] in *; unfold r, s in *.
    + apply (V2 i j). rewrite RB1, RB2, RE1, RE2. exact NI.
    + apply (V2 j i). rewrite RB1, RB2, RE1, RE2. tauto.
Qed.

(** C33 (local matrix): the same statement about a matrix that is not distributed. *)
Theorem C33_permute_local : forall (T : Type) N nb D, distributed 1 1 (N, N) (nb, nb) (nb, nb) (0, 0) (0, 0) D ->
  forall C ib ie, 0 <= ib <= ie -> ie <= ax_nr_tiles (D Row 0) ->
  let n := Z.min (ie * nb) N - ib * nb in
  forall perms, is_perm n perms -> forall order, Permutation order (zrange 0 n) ->
  forall A B : lmat (T := T), exists R, permute_local C (Dist (D Row 0) (D Col 0)) ib ie order perms A B = Ok R /\
    (forall x y, in_range nb N ib ie x -> in_range nb N ib ie y ->
       elem_local nb R x y = match C with Row => elem_local nb A (moved nb ib perms x) y | Col => elem_local nb A x (moved nb ib perms y) end) /\
    (forall x y, 0 <= x < N -> 0 <= y < N -> ~ (in_range nb N ib ie x /\ in_range nb N ib ie y) -> elem_local nb R x y = elem_local nb B x y).
Proof.
  intros T N nb D DI C ib ie Lb Le n perms PERM order PO A B.
  assert (NB : 0 < nb). { destruct DI as (_ & _ & X & _). destruct (X Row) as (_ & X1 & _). exact X1. }
  destruct (Z.eq_dec ib ie) as [->|Nie].
  { exists B. unfold permute_local. rewrite Z.eqb_refl. split; [reflexivity|]. split; [|reflexivity]. intros x y Lx. unfold in_range in Lx. lia. }
  pose proof (distributed_axes _ _ _ _ _ _ _ _ DI) as GA. destruct GA as [HP HQ GM GG GN].
  pose proof (C33_permute_local_part T 1 1 N nb (0, 0) D DI C ib ie Lb Le 0 0 ltac:(lia) ltac:(lia)) as X. cbv zeta in X.
  set (L := arg_layout (N, N) (nb, nb) (nb, nb) (1, 1) (0, 0) (0, 0)) in *.
  assert (CT : forall rc t, 0 <= t -> count (tile_owned (L rc) 0) t = t).
  { intros rc t Lt. pattern t. apply natlike_ind; [reflexivity| |exact Lt]. intros k Lk IH. unfold Z.succ. rewrite count_succ by lia. rewrite IH.
    assert (E : tile_owned (L rc) 0 k = true). { unfold tile_owned, tile_owner. assert (G1 : l_grid (L rc) = 1) by (destruct rc; reflexivity). rewrite G1, Z.mod_1_r. reflexivity. } rewrite E. lia. }
  assert (NT : forall rc, ie <= ax_nr_tiles (D rc 0)).
  { intros [|]; [exact Le|].
      pose proof (GM Row 0 ltac:(cbn; lia)) as M1. pose proof (GM Col 0 ltac:(cbn; lia)) as M2.
      pose proof (nt_iff 0 (L Row) _ M1 eq_refl (ie - 1)) as E1. pose proof (nt_iff 0 (L Col) _ M2 eq_refl (ie - 1)) as E2. cbn [l_tile l_size L arg_layout sel fst snd] in E1, E2. lia. }
  assert (LEN : forall rc, local_element_distance_from_global_tile (D rc 0) ib ie = n).
  { intros rc. pose proof (GM rc 0 ltac:(destruct rc; cbn; lia)) as M. fold (rnv (D rc 0) ib ie). pose proof (NT rc) as NTr.
    assert (OF : l_off (L rc) = 0) by (destruct rc; reflexivity). assert (BT : l_block (L rc) = l_tile (L rc)) by (destruct rc; reflexivity). assert (TT : l_tile (L rc) = nb) by (destruct rc; reflexivity). assert (SS : l_size (L rc) = N) by (destruct rc; reflexivity).
    rewrite (rnv_eq 0 (L rc) _ M OF BT ib ie). rewrite (rb_ct 0 (L rc) _ M ib ie ltac:(lia)), (re_ct 0 (L rc) _ M ib ie ltac:(lia)). rewrite !CT by lia. destruct (Z.ltb_spec ib ie); [|lia]. rewrite TT, SS.
    assert (GT : ax_global_tile_from_local_tile (D rc 0) (ie - 1) = ie - 1).
    { pose proof (rgt_onto 0 (L rc) _ M ib ie ltac:(lia) ltac:(lia) (ie - 1) ltac:(lia)) as Y. destruct Y as [_ Y]; [unfold tile_owner; assert (G1 : l_grid (L rc) = 1) by (destruct rc; reflexivity); rewrite G1; apply Z.mod_1_r|]. rewrite CT in Y by lia. exact Y. }
    rewrite GT. pose proof (proj1 (nt_iff 0 (L rc) _ M OF (ie - 1)) ltac:(lia)) as Y. rewrite TT, SS in Y. unfold n. nia. }
  cbv beta in X. cbn [sel fst snd] in X. assert (LC : local_element_distance_from_global_tile (D C (sel C (0, 0))) ib ie = n) by (destruct C; apply LEN). rewrite LC in X.
  destruct (X perms PERM order PO A B) as (R & ER & V1 & V2). exists R. split; [exact ER|]. rewrite !LEN in V1. rewrite !CT in V1 by lia. rewrite !CT in V2 by lia. split.
  - intros x y Rx Ry. unfold in_range in Rx, Ry. specialize (V1 (x - ib * nb) (y - ib * nb) ltac:(unfold n; lia) ltac:(unfold n; lia)).
    replace (nb * ib + (x - ib * nb)) with x in V1 by lia. replace (nb * ib + (y - ib * nb)) with y in V1 by lia. rewrite V1. unfold moved. rewrite (Z.mul_comm nb ib). reflexivity.
  - intros x y Lx Ly NR. unfold elem_local. rewrite V2; [reflexivity|]. intros [H1 H2]. apply NR.
    pose proof (Z.div_mod x nb ltac:(lia)). pose proof (Z.mod_pos_bound x nb NB). pose proof (Z.div_mod y nb ltac:(lia)). pose proof (Z.mod_pos_bound y nb NB). unfold in_range. split; nia.
Qed.

(** ** A concrete case: 7 x 7 elements, tiles of 2, on a 2 x 3 grid whose first rank is (1, 2); tiles 1 .. 3 (elements 2 .. 6). *)
Definition ex_perm (i : Z) : Z := nth (Z.to_nat i) [3; 0; 4; 1; 2] 0.
Definition ex_A (pr pc : Z) : lmat (T := Z) := fun t e =>
  (* the global element that is stored there, as 100 * row + column *)
  let gi := (fst t * 2 + (pr + 1) mod 2) * 2 + fst e in let gj := (snd t * 3 + (pc + 1) mod 3) * 2 + snd e in 100 * gi + gj.
Definition ex_axis (rc : coord) (p : Z) : axis :=
  match dist_ctor (7, 7) (2, 2) (2, 2) (2, 3) (match rc with Row => (p, 0) | Col => (0, p) end) (1, 2) (0, 0) with Ok d => get rc d | _ => default_axis end.
Lemma C33_example_distributed : distributed 2 3 (7, 7) (2, 2) (2, 2) (1, 2) (0, 0) ex_axis.
Proof.
  split; [lia|]. split; [lia|]. split.
  - intros rc. destruct rc; cbn -[i32_max]; unfold i32_max; repeat split; try lia; apply Z.divide_refl.
  - intros pr pc L1 L2. assert (E1 : pr = 0 \/ pr = 1) by lia. assert (E2 : pc = 0 \/ pc = 1 \/ pc = 2) by lia.
    destruct E1 as [-> | ->]; destruct E2 as [-> | [-> | ->]]; eexists; (split; [vm_compute; reflexivity|intros []; vm_compute; reflexivity]).
Qed.
Lemma C33_example_perm : is_perm (Z.min (4 * 2) 7 - 1 * 2) ex_perm.
Proof. apply is_perm_intro; intros i; [|intros j]; intros; cbn in *; assert (i = 0 \/ i = 1 \/ i = 2 \/ i = 3 \/ i = 4) as [-> | [-> | [-> | [-> | ->]]]] by lia; try (cbv; split; [discriminate|reflexivity]); assert (j = 0 \/ j = 1 \/ j = 2 \/ j = 3 \/ j = 4) as [-> | [-> | [-> | [-> | ->]]]] by lia; cbv in *; congruence. Qed.
(** element (5, 3) of the row permutation is element (2 + perm(3), 3) = (3, 3) of A, element (1, 3) is not touched *)
Example C33_example_run :
  let L := arg_layout (7, 7) (2, 2) (2, 2) (2, 3) (1, 2) (0, 0) in
  let order (_ r : Z) := zrange 0 (local_element_distance_from_global_tile (ex_axis Row r) 1 4) in
  exists R, (forall s, 0 <= s < 3 -> permute_dist Row 2 (line Row (fun pr pc => Dist (ex_axis Row pr) (ex_axis Col pc)) s) 1 4
      (order s) (order s) (order s) ex_perm (fun _ => 0) (fun _ => -1) (line Row ex_A s) (line Row (fun _ _ _ _ => -7) s) = Some (line Row R s)) /\
    elem 2 (L Row) (L Col) R 5 3 = 303 /\ elem 2 (L Row) (L Col) R 1 3 = -7 /\ elem 2 (L Row) (L Col) R 6 6 = 406.
Proof.
  intros L order. destruct (C33_permute_distributed Z 2 3 7 2 (1, 2) ex_axis C33_example_distributed Row 1 4 ltac:(lia) ltac:(vm_compute; discriminate) ex_perm C33_example_perm order order order
    ltac:(intros s r _; repeat split; apply Permutation_refl) (fun _ => 0) (fun _ => -1) ex_A (fun _ _ _ _ => -7)) as (R & E & IN & OUT).
  exists R. split; [exact E|]. fold L in IN, OUT. rewrite (IN 5 3) by (unfold in_range; lia). rewrite (IN 6 6) by (unfold in_range; lia).
  rewrite (OUT 1 3) by (unfold in_range; lia). vm_compute. auto.
Qed.
Print Assumptions C33_permute_distributed.
Print Assumptions C33_permute_local_part.
Print Assumptions C33_permute_local.

(** ** Assumptions *)
Print Assumptions C33_permute_distributed.
Print Assumptions C33_permute_local_part.
Print Assumptions C33_permute_local.
