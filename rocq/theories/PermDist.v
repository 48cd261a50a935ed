(** * The distributed permutation. *)
From Coq Require Import ZArith Lia List Bool Permutation Sorted.
From Verif Require Import CInt Loop DistModel DistSpec DistProofs DistBuilt DistThms DistGrid TridiagModel TridiagProofs PermModel PermProofs PermRoute PermAxis.
Import ListNotations.
Local Open Scope Z_scope.

Lemma displ_split : forall c G x, 0 <= G -> (forall q, 0 <= c q) -> 0 <= x < displ c G -> exists q j, 0 <= q < G /\ 0 <= j < c q /\ x = displ c q + j.
Proof.
  intros c G x LG NN. pattern G. apply natlike_ind; [| |exact LG].
  - rewrite displ_0. lia.
  - intros k Lk IH Lx. unfold Z.succ in *. rewrite displ_succ in Lx by lia. destruct (Z.lt_ge_cases x (displ c k)) as [Q|Q].
    + destruct (IH ltac:(lia)) as (q & j & A & B & E). exists q, j. repeat split; lia.
    + exists k, (x - displ c k). repeat split; lia.
Qed.
Lemma displ_disjoint : forall c G q q' j j', 0 <= q < G -> 0 <= q' < G -> (forall i, 0 <= i < G -> 0 <= c i) -> 0 <= j < c q -> 0 <= j' < c q' -> displ c q + j = displ c q' + j' -> q = q' /\ j = j'.
Proof.
  intros c G q q' j j' L1 L2 NN J1 J2 E. destruct (Z.lt_total q q') as [Q|[Q|Q]].
  - pose proof (displ_mono c (q + 1) q' ltac:(lia) ltac:(intros; apply NN; lia)) as X. rewrite displ_succ in X by lia. lia.
  - subst. lia.
  - pose proof (displ_mono c (q' + 1) q ltac:(lia) ltac:(intros; apply NN; lia)) as X. rewrite displ_succ in X by lia. lia.
Qed.
Lemma filter_ext_in' : forall {A} (f g : A -> bool) l, (forall x, In x l -> f x = g x) -> filter f l = filter g l.
Proof. intros A f g l. induction l as [|x l IH]; intros H; [reflexivity|]. cbn. rewrite (H x (or_introl eq_refl)), IH; [reflexivity|]. intros y I. apply H. right. exact I. Qed.
Lemma sort_list_ext : forall k k' l, (forall x, In x l -> k x = k' x) -> sort_list k l = sort_list k' l.
Proof.
  intros k k' l H. unfold sort_list. assert (G : forall l0 acc0, (forall x, In x l0 -> k x = k' x) -> (forall x, In x acc0 -> k x = k' x) ->
    fold_left (fun acc x => insert_by k x acc) l0 acc0 = fold_left (fun acc x => insert_by k' x acc) l0 acc0).
  { induction l0 as [|x l0 IH]; intros acc0 H1 H2; [reflexivity|]. cbn. assert (E : insert_by k x acc0 = insert_by k' x acc0).
    { clear IH. induction acc0 as [|y acc0 IH]; [reflexivity|]. cbn. rewrite (H1 x (or_introl eq_refl)), (H2 y (or_introl eq_refl)). rewrite IH; [reflexivity|]. intros z I. apply H2. right. exact I. }
    rewrite E. apply IH; [intros y I; apply H1; right; exact I|]. intros y I. apply (Permutation_in _ (insert_perm k' x acc0)) in I. destruct I as [<-|I]; [apply H1; left; reflexivity|apply H2; exact I]. }
  apply G; [exact H|intros x []].
Qed.
Lemma isEmpty_mk : forall C x y, isEmpty2 (mk2d C x y) = (x =? 0) || (y =? 0).
Proof. intros [|] x y; cbn; [reflexivity|apply orb_comm]. Qed.

Section dist.
Context {T : Type}.
Variables (C : coord) (G s : Z) (LC LO : layout) (aC : Z -> axis) (o : axis) (nb : Z).
Hypothesis MC : forall r, 0 <= r < G -> models r LC (aC r).
Hypothesis MO : models s LO o.
Hypotheses (GC : l_grid LC = G) (OFC : l_off LC = 0) (OFO : l_off LO = 0) (BC : l_block LC = l_tile LC) (BO : l_block LO = l_tile LO) (TC : l_tile LC = nb) (TO : l_tile LO = nb).
Definition dof (r : Z) : distribution := match C with Row => Dist (aC r) o | Col => Dist o (aC r) end.
Lemma dof_C : forall r, get C (dof r) = aC r. Proof. intros r. unfold dof. destruct C; reflexivity. Qed.
Lemma dof_O : forall r, get (other C) (dof r) = o. Proof. intros r. unfold dof. destruct C; reflexivity. Qed.
Hypothesis HG : 0 < G.
Variables (ib ie : Z).
Hypotheses (Lb : 0 <= ib < ie) (LeC : forall r, 0 <= r < G -> ie <= ax_nr_tiles (aC r)) (LeO : ie <= ax_nr_tiles o).
Definition n : Z := Z.min (ie * nb) (l_size LC) - ib * nb.
Variable perms : Z -> Z.
Hypothesis PERM : is_perm n perms.

Local Notation nv r := (rnv (aC r) ib ie).
Local Notation nw := (rnv o ib ie).
Local Notation bC r := (rb (aC r) ib).
Local Notation bO := (rb o ib).
Lemma Hnb : 0 < nb. Proof using MO TO. rewrite <- TO. apply (nb_pos s LO o MO). Qed.
Lemma tC : forall r, 0 <= r < G -> ax_tile (aC r) = nb. Proof using MC TC. intros r Lr. rewrite (ax_nb r LC (aC r) (MC r Lr)). exact TC. Qed.
Lemma tO : ax_tile o = nb. Proof using MO TO. rewrite (ax_nb s LO o MO). exact TO. Qed.
Lemma nv_pos : forall r, 0 <= r < G -> 0 <= nv r. Proof using MC MO OFC BC Lb LeC TO TC. intros r Lr. exact (rnv_nonneg r LC (aC r) (MC r Lr) OFC BC ib ie Lb (LeC r Lr)). Qed.
Lemma nw_pos : 0 <= nw. Proof using MO OFO BO Lb LeO. exact (rnv_nonneg s LO o MO OFO BO ib ie Lb LeO). Qed.
Lemma szl : forall r, sz_loc (dof r) ib ie = mk2d C (nv r) nw. Proof. intros r. unfold sz_loc, dof, mk2d, rnv. destruct C; reflexivity. Qed.
Lemma nx2 : forall r i, next2 (dof r) i = mk2d C (ax_next_local_tile_from_global_tile (aC r) i) (ax_next_local_tile_from_global_tile o i). Proof. intros r i. unfold next2, dof, mk2d. destruct C; reflexivity. Qed.
Local Notation sub r := (lsub C (nv r) nw nb nb).
Lemma subm_ok : forall r, 0 <= r < G -> dist_ctor_local (sz_loc (dof r) ib ie) (ax_tile (d_row (dof r)), ax_tile (d_col (dof r))) (0, 0) = Ok (sub r).
Proof using All.
  intros r Lr. rewrite szl. pose proof Hnb. pose proof (nv_pos r Lr). pose proof nw_pos. unfold dof, mk2d, lsub. destruct C; cbn [d_row d_col]; rewrite tC, tO by exact Lr; apply ctor_local_ok; assumption.
Qed.

(** local tiles of the range and the vectors of tiles *)
Lemma nrC : forall r, 0 <= r < G -> ax_local_nr_tiles (loc_axis (nv r) nb) = re (aC r) ie - bC r.
Proof using All. intros r Lr. rewrite <- TC. exact (rnr_tiles r LC (aC r) (MC r Lr) OFC BC ib ie Lb (LeC r Lr)). Qed.
Lemma nrO : ax_local_nr_tiles (loc_axis nw nb) = re o ie - bO.
Proof using All. rewrite <- TO. exact (rnr_tiles s LO o MO OFO BO ib ie Lb LeO). Qed.
Lemma sel_lin : forall r (m : lmat (T := T)) x y, 0 <= r < G -> 0 <= x -> x * nb < nv r -> 0 <= y -> y * nb < nw ->
  select_tiles (next2 (dof r) ib) (next2 (dof r) ie) m (lin C (nv r) nw nb nb x y) = m (mk2d C (bC r + x) (bO + y)).
Proof using All.
  intros r m x y Lr X1 X2 Y1 Y2. unfold select_tiles. rewrite !nx2.
  pose proof (lin_div C (nv r) nw nb nb (nv_pos r Lr) nw_pos Hnb Hnb x y X1 X2 Y1 Y2) as E.
  assert (NR : fst (mk2d C (ax_next_local_tile_from_global_tile (aC r) ie) (ax_next_local_tile_from_global_tile o ie)) - fst (mk2d C (ax_next_local_tile_from_global_tile (aC r) ib) (ax_next_local_tile_from_global_tile o ib)) = ax_local_nr_tiles (d_row (sub r))).
  { pose proof (nrC r Lr). pose proof nrO. unfold re, rb in *. unfold lsub, mk2d. destruct C; cbn [fst d_row]; lia. }
  rewrite NR. assert (E1 := f_equal fst E). assert (E2 := f_equal snd E). cbn [fst snd] in E1, E2. rewrite E1, E2. f_equal. unfold rb, mk2d. destruct C; reflexivity.
Qed.
Lemma sel_acc : forall r (m : lmat (T := T)) x y, 0 <= r < G -> 0 <= x < nv r -> 0 <= y < nw ->
  acc C (nv r) nw nb nb (select_tiles (next2 (dof r) ib) (next2 (dof r) ie) m) x y = m (mk2d C (bC r + x / nb) (bO + y / nb)) (mk2d C (x mod nb) (y mod nb)).
Proof using All.
  intros r m x y Lr Lx Ly. pose proof (acc_range (nv r) nb x Hnb Lx) as (X1 & X2 & X3). pose proof (acc_range nw nb y Hnb Ly) as (Y1 & Y2 & Y3).
  unfold acc. rewrite sel_lin by assumption. reflexivity.
Qed.
Lemma store_in : forall r (m : lmat (T := T)) v x y, 0 <= r < G -> 0 <= x -> x * nb < nv r -> 0 <= y -> y * nb < nw ->
  store_tiles (next2 (dof r) ib) (next2 (dof r) ie) m v (mk2d C (bC r + x) (bO + y)) = v (lin C (nv r) nw nb nb x y).
Proof using All.
  intros r m v x y Lr X1 X2 Y1 Y2. unfold store_tiles. rewrite !nx2. pose proof (nrC r Lr) as NC. pose proof nrO as NO. unfold re, rb in *.
  pose proof (proj2 (loc_nt (nv r) nb (nv_pos r Lr) Hnb x) (conj X1 X2)) as R1. pose proof (proj2 (loc_nt nw nb nw_pos Hnb y) (conj Y1 Y2)) as R2. unfold rb in *.
  set (c1 := ax_next_local_tile_from_global_tile (aC r) ib) in *. set (c2 := ax_next_local_tile_from_global_tile (aC r) ie) in *. set (o1 := ax_next_local_tile_from_global_tile o ib) in *. set (o2 := ax_next_local_tile_from_global_tile o ie) in *.
  unfold lin, local_tile_linear_index, lsub, mk2d. destruct C; cbn [fst snd d_row].
  - rewrite NC. destruct (Z.leb_spec c1 (c1 + x)); [|lia]. destruct (Z.ltb_spec (c1 + x) c2); [|lia]. destruct (Z.leb_spec o1 (o1 + y)); [|lia]. destruct (Z.ltb_spec (o1 + y) o2); [|lia]. cbn [andb]. f_equal. ring.
  - rewrite NO. destruct (Z.leb_spec c1 (c1 + x)); [|lia]. destruct (Z.ltb_spec (c1 + x) c2); [|lia]. destruct (Z.leb_spec o1 (o1 + y)); [|lia]. destruct (Z.ltb_spec (o1 + y) o2); [|lia]. cbn [andb]. f_equal. ring.
Qed.
Lemma store_out : forall r (m : lmat (T := T)) v x y, ~ (bC r <= x < re (aC r) ie /\ bO <= y < re o ie) ->
  store_tiles (next2 (dof r) ib) (next2 (dof r) ie) m v (mk2d C x y) = m (mk2d C x y).
Proof.
  intros r m v x y H. unfold store_tiles. rewrite !nx2. unfold rb, re in H. unfold mk2d. destruct C; cbn [fst snd].
  - destruct (Z.leb_spec (ax_next_local_tile_from_global_tile (aC r) ib) x), (Z.ltb_spec x (ax_next_local_tile_from_global_tile (aC r) ie)), (Z.leb_spec (ax_next_local_tile_from_global_tile o ib) y), (Z.ltb_spec y (ax_next_local_tile_from_global_tile o ie)); cbn [andb]; try reflexivity. exfalso. apply H. lia.
  - destruct (Z.leb_spec (ax_next_local_tile_from_global_tile (aC r) ib) x), (Z.ltb_spec x (ax_next_local_tile_from_global_tile (aC r) ie)), (Z.leb_spec (ax_next_local_tile_from_global_tile o ib) y), (Z.ltb_spec y (ax_next_local_tile_from_global_tile o ie)); cbn [andb]; try reflexivity. exfalso. apply H. lia.
Qed.
(** sizes along the other coordinate *)
Lemma ocs : forall r x y, 0 <= r < G -> 0 <= x -> x * nb < nv r -> 0 <= y -> y * nb < nw ->
  oc_tile_size C (dof r) (next2 (dof r) ib) (next2 (dof r) ie) (lin C (nv r) nw nb nb x y) = Z.min nb (nw - y * nb).
Proof using All.
  intros r x y Lr X1 X2 Y1 Y2. unfold oc_tile_size. rewrite dof_O, !nx2.
  pose proof (lin_div C (nv r) nw nb nb (nv_pos r Lr) nw_pos Hnb Hnb x y X1 X2 Y1 Y2) as E.
  assert (NR : fst (mk2d C (ax_next_local_tile_from_global_tile (aC r) ie) (ax_next_local_tile_from_global_tile o ie)) - fst (mk2d C (ax_next_local_tile_from_global_tile (aC r) ib) (ax_next_local_tile_from_global_tile o ib)) = ax_local_nr_tiles (d_row (sub r))).
  { pose proof (nrC r Lr). pose proof nrO. unfold re, rb in *. unfold lsub, mk2d. destruct C; cbn [fst d_row]; lia. }
  rewrite NR. assert (E1 := f_equal fst E). assert (E2 := f_equal snd E). cbn [fst snd] in E1, E2. rewrite E1, E2.
  assert (AL : along (other C) (fst (mk2d C (ax_next_local_tile_from_global_tile (aC r) ib) (ax_next_local_tile_from_global_tile o ib)) + fst (mk2d C x y), snd (mk2d C (ax_next_local_tile_from_global_tile (aC r) ib) (ax_next_local_tile_from_global_tile o ib)) + snd (mk2d C x y)) = bO + y).
  { unfold rb, along, mk2d. destruct C; reflexivity. }
  rewrite AL. pose proof (rsize_local s LO o MO OFO BO ib ie Lb LeO y) as RS. rewrite TO in RS. apply RS. rewrite <- nrO. apply (loc_nt nw nb nw_pos Hnb). split; assumption.
Qed.
Lemma ocs_loc : forall r x y, 0 <= r < G -> 0 <= x -> x * nb < nv r -> 0 <= y -> y * nb < nw ->
  oc_tile_size_loc C (sub r) (lin C (nv r) nw nb nb x y) = Z.min nb (nw - y * nb).
Proof using All.
  intros r x y Lr X1 X2 Y1 Y2. unfold oc_tile_size_loc. rewrite get_O. rewrite (lin_div C (nv r) nw nb nb (nv_pos r Lr) nw_pos Hnb Hnb x y X1 X2 Y1 Y2).
  rewrite (proj2 (mk2d_along C x y)). apply loc_size. exact Hnb.
Qed.

(** owner of the vectors *)
Definition own (t : Z) : Z := owner LC (ib * nb + t).
Definition l2s (r l : Z) : Z := (ax_global_tile_from_local_tile (aC r) (bC r + l / nb) - ib) * nb + l mod nb.
Lemma own_range : forall t, 0 <= own t < G.
Proof using GC HG. intros t. unfold own, owner. rewrite GC. apply Z.mod_pos_bound. exact HG. Qed.
Definition pinv : Z -> Z := invert_index n perms (fun _ => 0).
Lemma n_eq : forall r, 0 <= r < G -> problem_size (aC r) ib ie = n.
Proof using All. intros r Lr. unfold n. rewrite <- TC. exact (rn_eq r LC (aC r) (MC r Lr) OFC BC ib ie). Qed.
Lemma enumC : forall r, 0 <= r < G -> enum n own r (nv r) (l2s r).
Proof using All.
  intros r Lr. pose proof (renum r LC (aC r) (MC r Lr) OFC BC ib ie Lb (LeC r Lr)) as E. unfold rn in E. rewrite (n_eq r Lr) in E. unfold rown, rl2s in E. rewrite TC in E. exact E.
Qed.
Lemma p_rng : forall t, 0 <= t < n -> 0 <= perms t < n. Proof using PERM. intros. apply (is_perm_in n perms); assumption. Qed.
Lemma i_props : forall junk t, 0 <= t < n -> 0 <= invert_index n perms junk t < n /\ perms (invert_index n perms junk t) = t /\ invert_index n perms junk (perms t) = t.
Proof using PERM.
  intros junk t Lt. destruct (invert_perm n perms junk PERM) as [A Bq]. destruct (invert_at n perms junk PERM) as [C1 _].
  split; [apply (is_perm_in n _ t A Lt)|]. split; [apply Bq; exact Lt|apply C1; exact Lt].
Qed.
Lemma inv_junk : forall junk t, 0 <= t < n -> invert_index n perms junk t = pinv t.
Proof using PERM.
  intros junk t Lt. unfold pinv. destruct (i_props junk t Lt) as (A & Bq & _). destruct (i_props (fun _ => 0) t Lt) as (A' & Bq' & _).
  apply (is_perm_inj n perms); try assumption. congruence.
Qed.
Local Notation BB := (B n own perms).

(** what a rank prepares *)
Record good (r : Z) (inn : lmat (T := T)) (x : prepared (T := T)) : Prop := {
  gd_subm : pr_subm x = sub r;
  gd_vec : pr_vec x = nw;
  gd_sc : forall q, 0 <= q < G -> pr_send_counts x q = Z.of_nat (length (BB r q));
  gd_rc : forall q, 0 <= q < G -> pr_recv_counts x q = Z.of_nat (length (BB q r));
  gd_unpack : forall l, 0 <= l < nv r -> exists j, let q := own (perms (l2s r l)) in 0 <= j < Z.of_nat (length (BB q r)) /\ nth (Z.to_nat j) (BB q r) 0 = l2s r l /\
     pr_unpack x l = displ (pr_recv_counts x) q + j;
  gd_send : forall q j, 0 <= q < G -> 0 <= j < Z.of_nat (length (BB r q)) -> exists m, 0 <= m < nv r /\ l2s r m = perms (nth (Z.to_nat j) (BB r q) 0) /\
     forall y, 0 <= y < nw -> pr_send x (mk2d C (displ (pr_send_counts x) q + j) y) = inn (mk2d C (bC r + m / nb) (bO + y / nb)) (mk2d C (m mod nb) (y mod nb));
  gd_sc_all : displ (pr_send_counts x) G = nv r;
  gd_rc_all : displ (pr_recv_counts x) G = nv r }.

Lemma order_in : forall r order x, Permutation order (zrange 0 (nv r)) -> 0 <= x < nv r -> existsb (Z.eqb x) order = true.
Proof. intros r order x P Lx. apply existsb_exists. exists x. split; [|apply Z.eqb_refl]. apply (Permutation_in _ (Permutation_sym P)). apply in_zrange. lia. Qed.

Lemma prepare_ok : forall r order junk jb inn, 0 <= r < G -> Permutation order (zrange 0 (nv r)) -> 0 < nv r -> 0 < nw ->
  exists x, permute_prepare C (dof r) ib ie order perms junk jb inn = Ok (Some x) /\ good r inn x.
Proof using All.
  intros r order junk jb inn Lr PO PV PW. pose proof Hnb as NB. pose proof (enumC r Lr) as EN. pose proof (MC r Lr) as M. pose proof (LeC r Lr) as Ler.
  unfold permute_prepare. destruct (Z.eqb_spec ib ie); [lia|]. rewrite dof_C. rewrite szl, isEmpty_mk.
  destruct (Z.eqb_spec (nv r) 0); [lia|]. destruct (Z.eqb_spec nw 0); [lia|]. cbn [orb].
  rewrite (n_eq r Lr). assert (SO := subm_ok r Lr). rewrite szl in SO. rewrite SO. cbn [bind]. rewrite (proj1 (mk2d_along C (nv r) nw)), (proj2 (mk2d_along C (nv r) nw)).
  assert (AB : along C (next2 (dof r) ib) = bC r) by (rewrite nx2; apply mk2d_along). rewrite AB.
  assert (GR : ax_grid (aC r) = G) by (rewrite <- (mg _ _ _ M); exact GC). rewrite GR.
  set (offs := ax_global_element_from_global_tile_and_tile_element (aC r) ib 0).
  set (l2g := copy_local_parts (aC r) ib (bC r) (nv r) perms junk). set (l2g' := copy_local_parts (aC r) ib (bC r) (nv r) (invert_index n perms junk) l2g).
  assert (A1 : forall l, 0 <= l < nv r -> l2g l = perms (l2s r l)).
  { intros l Ll. unfold l2g. rewrite (copy_at r LC (aC r) M ib ie perms junk l Ll). unfold rl2s, l2s. rewrite TC. reflexivity. }
  assert (A2 : forall l, 0 <= l < nv r -> l2g' l = pinv (l2s r l)).
  { intros l Ll. unfold l2g'. rewrite (copy_at r LC (aC r) M ib ie (invert_index n perms junk) l2g l Ll). unfold rl2s. rewrite TC. fold (l2s r l). apply inv_junk. apply (en_rng _ _ _ _ _ EN). exact Ll. }
  assert (RO : forall t, 0 <= t -> ax_rank_global_element (aC r) (offs + t) = own t).
  { intros t Lt. unfold offs. rewrite (rank_own r LC (aC r) M OFC BC ib ie Lb t Lt). unfold rown, own. rewrite TC. reflexivity. }
  assert (D1 : forall l, 0 <= l < nv r -> dest (aC r) offs l2g l = own (perms (l2s r l))).
  { intros l Ll. unfold dest. rewrite A1 by exact Ll. apply RO. apply p_rng. apply (en_rng _ _ _ _ _ EN). exact Ll. }
  assert (D2 : forall l, 0 <= l < nv r -> dest (aC r) offs l2g' l = own (pinv (l2s r l))).
  { intros l Ll. unfold dest. rewrite A2 by exact Ll. apply RO. apply (i_props (fun _ => 0)). apply (en_rng _ _ _ _ _ EN). exact Ll. }
  pose proof (init_fwd (aC r) offs (nv r) l2g (nv_pos r Lr) G junk ltac:(lia)) as [F1 F2].
  destruct (init_packing_index false G (aC r) offs (nv r) l2g junk) as [rc un] eqn:E1. cbn [fst snd] in F1, F2.
  pose proof (init_bwd (aC r) offs (nv r) l2g' (nv_pos r Lr) G junk ltac:(lia)) as [B1 B2].
  destruct (init_packing_index true G (aC r) offs (nv r) l2g' junk) as [sc pk] eqn:E2. cbn [fst snd] in B1, B2.
  eexists. split; [reflexivity|].
  (* counts *)
  assert (NR : forall q, nvecs (aC r) offs (nv r) l2g q = Z.of_nat (length (BB q r))).
  { intros q. unfold nvecs, vecs. rewrite <- (recv_list n own perms r (nv r) (l2s r) q EN), map_length. do 2 f_equal. apply filter_ext_in'. intros l I. apply in_zrange in I. rewrite D1 by lia. reflexivity. }
  assert (VS : forall q, vecs (aC r) offs (nv r) l2g' q = filter (fun m => own (pinv (l2s r m)) =? q) (zrange 0 (nv r))).
  { intros q. apply filter_ext_in'. intros l I. apply in_zrange in I. rewrite D2 by lia. reflexivity. }
  assert (SL : forall q, sort_list l2g' (vecs (aC r) offs (nv r) l2g' q) = sort_list (fun m => pinv (l2s r m)) (filter (fun m => own (pinv (l2s r m)) =? q) (zrange 0 (nv r)))).
  { intros q. rewrite VS. apply sort_list_ext. intros l I. apply filter_In in I as [I _]. apply in_zrange in I. apply A2. lia. }
  assert (IR : forall t, 0 <= t < n -> 0 <= pinv t < n) by (intros; apply (i_props (fun _ => 0)); assumption).
  assert (PI : forall t, 0 <= t < n -> perms (pinv t) = t) by (intros; apply (i_props (fun _ => 0)); assumption).
  assert (IP : forall t, 0 <= t < n -> pinv (perms t) = t) by (intros; apply (i_props (fun _ => 0)); assumption).
  assert (NS : forall q, nvecs (aC r) offs (nv r) l2g' q = Z.of_nat (length (BB r q))).
  { intros q. unfold nvecs. rewrite VS. destruct (send_list n own perms pinv p_rng IR PI IP r (nv r) (l2s r) q EN) as (_ & LN & _). rewrite LN. reflexivity. }
  assert (DR : forall q, q <= G -> displ rc q = displ (nvecs (aC r) offs (nv r) l2g) q) by (intros; apply displ_ext; intros; apply F1; lia).
  assert (DS : forall q, q <= G -> displ sc q = displ (nvecs (aC r) offs (nv r) l2g') q) by (intros; apply displ_ext; intros; apply B1; lia).
  assert (ALLR : displ rc G = nv r).
  { rewrite DR by lia. unfold nvecs, vecs. rewrite count_all; [rewrite zrange_length; lia|lia|]. intros x I. apply in_zrange in I. rewrite D1 by lia. apply own_range. }
  assert (ALLS : displ sc G = nv r).
  { rewrite DS by lia. unfold nvecs, vecs. rewrite count_all; [rewrite zrange_length; lia|lia|]. intros x I. apply in_zrange in I. rewrite D2 by lia. apply own_range. }
  assert (PK : forall q j, 0 <= q < G -> 0 <= j < Z.of_nat (length (BB r q)) -> 0 <= pk (displ sc q + j) < nv r /\ l2s r (pk (displ sc q + j)) = perms (nth (Z.to_nat j) (BB r q) 0)).
  { intros q j Lq Lj. rewrite DS by lia. rewrite B2 by (rewrite ?NS; lia). rewrite SL. apply (send_at n own perms pinv p_rng IR PI IP r (nv r) (l2s r) q (Z.to_nat j) EN). lia. }
  assert (PKR : forall x, 0 <= x < nv r -> 0 <= pk x < nv r).
  { intros x Lx. rewrite <- ALLS in Lx. rewrite DS in Lx by lia. destruct (displ_split (nvecs (aC r) offs (nv r) l2g') G x ltac:(lia)) as (q & j & Lq & Lj & ->); [intros; unfold nvecs; lia|exact Lx|].
    rewrite NS in Lj. rewrite <- DS by lia. apply PK; assumption. }
  split; cbn [pr_subm pr_vec pr_send_counts pr_recv_counts pr_unpack pr_send].
  - reflexivity.
  - reflexivity.
  - intros q Lq. rewrite B1, NS by exact Lq. reflexivity.
  - intros q Lq. rewrite F1, NR by exact Lq. reflexivity.
  - intros l Ll. destruct (recv_at n own perms r (nv r) (l2s r) l EN Ll) as [R1 R2]. set (q := own (perms (l2s r l))) in *.
    assert (Lq : 0 <= q < G) by apply own_range.
    exists (before (aC r) offs l2g q l). cbv zeta.
    assert (BE : before (aC r) offs l2g q l = Z.of_nat (length (filter (fun l0 => own (perms (l2s r l0)) =? q) (zrange 0 l)))).
    { unfold before. do 2 f_equal. apply filter_ext_in'. intros l0 I. apply in_zrange in I. rewrite D1 by lia. reflexivity. }
    rewrite BE. rewrite Nat2Z.id. split; [lia|]. split; [exact R1|]. rewrite (F2 l Ll) by (rewrite D1 by exact Ll; exact Lq). rewrite D1 by exact Ll. fold q. rewrite BE, DR by lia. reflexivity.
  - intros q j Lq Lj. destruct (PK q j Lq Lj) as [P1 P2]. exists (pk (displ sc q + j)). split; [exact P1|]. split; [exact P2|]. intros y Ly.
    assert (LX : 0 <= displ sc q + j < nv r).
    { rewrite <- ALLS. rewrite !DS by lia. pose proof (displ_nonneg (nvecs (aC r) offs (nv r) l2g') q ltac:(lia) ltac:(intros; unfold nvecs; lia)).
      pose proof (displ_mono (nvecs (aC r) offs (nv r) l2g') (q + 1) G ltac:(lia) ltac:(intros; unfold nvecs; lia)) as DM. rewrite displ_succ in DM by lia. rewrite NS in DM. lia. }
    rewrite buf_acc by (exact Hnb || lia). rewrite bulk_at; [|apply nv_pos; exact Lr|apply nw_pos|exact NB|exact NB| | | |exact LX|exact Ly].
    + rewrite (order_in r order _ PO LX). cbn [andb]. apply sel_acc; [exact Lr|exact P1|exact Ly].
    + intros i I. apply (Permutation_in _ PO) in I. apply in_zrange in I. exact I.
    + intros i I _. apply PKR. apply (Permutation_in _ PO) in I. apply in_zrange in I. exact I.
    + intros x y' H1 H2 H3 H4. apply ocs; assumption.
  - exact ALLS.
  - exact ALLR.
Qed.
Lemma prepare_none : forall r order junk jb inn, 0 <= r < G -> nv r = 0 \/ nw = 0 -> permute_prepare (T := T) C (dof r) ib ie order perms junk jb inn = Ok None.
Proof using All.
  intros r order junk jb inn Lr E. unfold permute_prepare. destruct (Z.eqb_spec ib ie); [lia|]. rewrite szl, isEmpty_mk.
  destruct (Z.eqb_spec (nv r) 0), (Z.eqb_spec nw 0); cbn [orb]; try reflexivity. lia.
Qed.

(** messages: what every rank prepares fits *)
Definition fits (inn : Z -> lmat (T := T)) (p : Z -> option (prepared (T := T))) : Prop :=
  forall r, 0 <= r < G -> match p r with None => nv r = 0 \/ nw = 0 | Some x => 0 < nv r /\ 0 < nw /\ good r (inn r) x end.
Lemma B_nil_l : forall q r, 0 <= q < G -> nv q = 0 -> BB q r = [].
Proof using All.
  intros q r Lq E. destruct (BB q r) as [|t l] eqn:Q; [reflexivity|]. exfalso. assert (I : In t (BB q r)) by (rewrite Q; left; reflexivity).
  apply B_in in I as (Lt & _ & O). destruct (en_onto _ _ _ _ _ (enumC q Lq) (perms t) (p_rng t Lt) O) as (m & Lm & _). lia.
Qed.
Lemma B_nil_r : forall q r, 0 <= r < G -> nv r = 0 -> BB q r = [].
Proof using All.
  intros q r Lr E. destruct (BB q r) as [|t l] eqn:Q; [reflexivity|]. exfalso. assert (I : In t (BB q r)) by (rewrite Q; left; reflexivity).
  apply B_in in I as (Lt & O & _). destruct (en_onto _ _ _ _ _ (enumC r Lr) t Lt O) as (m & Lm & _). lia.
Qed.
Lemma fits_match : forall inn p q r, fits inn p -> 0 <= q < G -> 0 <= r < G -> matches (sent C q r (p q)) (expected q r (p r)) = true.
Proof using All.
  intros inn p q r F Lq Lr. pose proof (F q Lq) as Fq. pose proof (F r Lr) as Fr. unfold sent, expected.
  destruct (p q) as [x|]; destruct (p r) as [z|]; [|  |  |reflexivity].
  - destruct (Z.eqb_spec q r); [reflexivity|]. destruct Fq as (_ & _ & GQ). destruct Fr as (_ & _ & GR).
    rewrite (gd_sc _ _ _ GQ r Lr), (gd_rc _ _ _ GR q Lq), (gd_vec _ _ _ GQ), (gd_vec _ _ _ GR). destruct (Z.of_nat (length (BB q r)) =? 0); [reflexivity|]. cbn [matches]. rewrite !Z.eqb_refl. reflexivity.
  - destruct (Z.eqb_spec q r); [reflexivity|]. destruct Fq as (_ & PW & GQ). destruct Fr as [E|E]; [|lia]. rewrite (gd_sc _ _ _ GQ r Lr), (B_nil_r q r Lr E). reflexivity.
  - destruct (Z.eqb_spec q r); [reflexivity|]. destruct Fr as (_ & PW & GR). destruct Fq as [E|E]; [|lia]. rewrite (gd_rc _ _ _ GR q Lq), (B_nil_l q r Lq E). reflexivity.
Qed.
(** mat_recv *)
Lemma received_at : forall inn p r x jb q j y, fits inn p -> 0 <= r < G -> p r = Some x -> 0 <= q < G -> q <> r -> 0 <= j < Z.of_nat (length (BB q r)) -> 0 <= y < nw ->
  exists z, p q = Some z /\ received C G r x (fun q => sent C q r (p q)) jb (mk2d C (displ (pr_recv_counts x) q + j) y) = pr_send z (mk2d C (displ (pr_send_counts z) r + j) y).
Proof using All.
  intros inn p r x jb q j y F Lr Ex Lq Nq Lj Ly. pose proof (F q Lq) as Fq. pose proof (F r Lr) as Fr. rewrite Ex in Fr. destruct Fr as (PV & PW & GR).
  destruct (p q) as [z|] eqn:Ez. 2: { exfalso. destruct Fq as [E|E]; [|lia]. rewrite (B_nil_l q r Lq E) in Lj. cbn in Lj. lia. }
  destruct Fq as (PVq & _ & GQ). exists z. split; [reflexivity|]. unfold received. set (f := fun b q => _).
  assert (MS : forall q', 0 <= q' < G -> match sent C q' r (p q') with Some (n', v, _) => n' = Z.of_nat (length (BB q' r)) /\ v = nw | None => True end).
  { intros q' Lq'. pose proof (F q' Lq') as Fq'. unfold sent. destruct (p q') as [w|]; [|exact I]. destruct (q' =? r); [exact I|]. destruct Fq' as (_ & _ & GW).
    destruct (pr_send_counts w r =? 0); [exact I|]. split; [apply (gd_sc _ _ _ GW r Lr)|apply (gd_vec _ _ _ GW)]. }
  assert (NN : forall i, 0 <= i < G -> 0 <= pr_recv_counts x i) by (intros i Li; rewrite (gd_rc _ _ _ GR i Li); lia).
  assert (X : forall m, 0 <= m -> m <= G -> fold_left f (zrange 0 m) jb (mk2d C (displ (pr_recv_counts x) q + j) y) =
     if q <? m then pr_send z (mk2d C (displ (pr_send_counts z) r + j) y) else jb (mk2d C (displ (pr_recv_counts x) q + j) y)).
  { intros m L0. pattern m. apply natlike_ind; [| |exact L0].
    - intros _. rewrite zrange_nil by lia. cbn [fold_left]. destruct (Z.ltb_spec q 0); [lia|reflexivity].
    - intros k Lk IH Lm. unfold Z.succ in *. rewrite zrange_snoc, fold_left_app by lia. cbn [fold_left]. specialize (IH ltac:(lia)). set (b := fold_left f (zrange 0 k) jb) in *. unfold f at 1.
      pose proof (MS k ltac:(lia)) as MK. destruct (Z.eq_dec k q) as [->|Nk].
      + assert (SQ : sent C q r (p q) = Some (Z.of_nat (length (BB q r)), nw, fun j y => pr_send z (mk2d C (displ (pr_send_counts z) r + j) y))).
        { unfold sent. rewrite Ez. destruct (Z.eqb_spec q r); [contradiction|]. rewrite (gd_sc _ _ _ GQ r Lr), (gd_vec _ _ _ GQ). destruct (Z.eqb_spec (Z.of_nat (length (BB q r))) 0); [lia|]. reflexivity. }
        rewrite SQ. rewrite (proj1 (mk2d_along C _ _)), (proj2 (mk2d_along C _ _)). replace (displ (pr_recv_counts x) q + j - displ (pr_recv_counts x) q) with j by lia.
        destruct (Z.leb_spec 0 j); [|lia]. destruct (Z.ltb_spec j (Z.of_nat (length (BB q r)))); [|lia]. destruct (Z.leb_spec 0 y); [|lia]. destruct (Z.ltb_spec y nw); [|lia]. destruct (Z.ltb_spec q (q + 1)); [|lia]. reflexivity.
      + destruct (sent C k r (p k)) as [[[n' v] g]|].
        * destruct MK as [-> ->]. rewrite (proj1 (mk2d_along C _ _)), (proj2 (mk2d_along C _ _)).
          destruct (Z.leb_spec 0 (displ (pr_recv_counts x) q + j - displ (pr_recv_counts x) k)) as [Q1|Q1], (Z.ltb_spec (displ (pr_recv_counts x) q + j - displ (pr_recv_counts x) k) (Z.of_nat (length (BB k r)))) as [Q2|Q2]; cbn [andb].
          1: { exfalso. apply Nk. symmetry. apply (displ_disjoint (pr_recv_counts x) G q k j (displ (pr_recv_counts x) q + j - displ (pr_recv_counts x) k)); try assumption; try lia; rewrite (gd_rc _ _ _ GR) by lia; lia. }
          all: rewrite IH; destruct (Z.ltb_spec q k), (Z.ltb_spec q (k + 1)); reflexivity || lia.
        * rewrite IH. destruct (Z.ltb_spec q k), (Z.ltb_spec q (k + 1)); reflexivity || lia. }
  rewrite X by lia. destruct (Z.ltb_spec q G); [reflexivity|lia].
Qed.

(** unpacking *)
Lemma unpack_at : forall inn p r x jb order2 order3 out l y, fits inn p -> 0 <= r < G -> p r = Some x ->
  Permutation order2 (zrange 0 (nv r)) -> Permutation order3 (zrange 0 (nv r)) -> 0 <= l < nv r -> 0 <= y < nw ->
  let q := own (perms (l2s r l)) in exists m, 0 <= m < nv q /\ l2s q m = perms (l2s r l) /\
  acc C (nv r) nw nb nb (unpack_others C r order3 x (received C G r x (fun q => sent C q r (p q)) jb) (unpack_local C r order2 x out)) l y =
  inn q (mk2d C (bC q + m / nb) (bO + y / nb)) (mk2d C (m mod nb) (y mod nb)).
Proof using All.
  intros inn p r x jb order2 order3 out l y F Lr Ex P2 P3 Ll Ly q. pose proof (F r Lr) as Fr. rewrite Ex in Fr. destruct Fr as (PV & PW & GR). pose proof Hnb as NB.
  assert (Lq : 0 <= q < G) by apply own_range.
  destruct (gd_unpack _ _ _ GR l Ll) as (j & Lj & NJ & EU). fold q in Lj, NJ, EU. cbv zeta in Lj, NJ, EU.
  assert (NN : forall i, 0 <= i < G -> 0 <= pr_recv_counts x i) by (intros i Li; rewrite (gd_rc _ _ _ GR i Li); lia).
  assert (UR : forall i, 0 <= i < nv r -> 0 <= pr_unpack x i < nv r).
  { intros i Li. destruct (gd_unpack _ _ _ GR i Li) as (ji & Lji & _ & EUi). cbv zeta in Lji, EUi. set (qi := own (perms (l2s r i))) in *. assert (Lqi : 0 <= qi < G) by apply own_range. rewrite EUi.
    pose proof (displ_nonneg (pr_recv_counts x) qi ltac:(lia) ltac:(intros; apply NN; lia)). pose proof (displ_mono (pr_recv_counts x) (qi + 1) G ltac:(lia) NN) as DM. rewrite displ_succ in DM by lia. rewrite (gd_rc _ _ _ GR qi Lqi) in DM. rewrite (gd_rc_all _ _ _ GR) in DM. lia. }
  assert (SR : pr_send_counts x r = pr_recv_counts x r) by (rewrite (gd_sc _ _ _ GR r Lr), (gd_rc _ _ _ GR r Lr); reflexivity).
  assert (INO : forall ord i, Permutation ord (zrange 0 (nv r)) -> In i ord -> 0 <= i < nv r) by (intros ord i P0 I0; apply (Permutation_in _ P0) in I0; apply in_zrange in I0; exact I0).
  assert (NNS : forall i, 0 <= i < G -> 0 <= pr_send_counts x i) by (intros i Li; rewrite (gd_sc _ _ _ GR i Li); lia).
  unfold unpack_others. rewrite (gd_subm _ _ _ GR). rewrite bulk_at; [|apply nv_pos; exact Lr|apply nw_pos|exact NB|exact NB|intros i I0; apply (INO order3); assumption| |intros x' y' H1 H2 H3 H4; apply ocs_loc; assumption|exact Ll|exact Ly].
  2: { intros i I0 _. apply UR. apply (INO order3); assumption. }
  rewrite (order_in r order3 l P3 Ll). cbn [andb]. rewrite EU.
  destruct (Z.eq_dec q r) as [Eq|Nq].
  - (* from this rank *)
    assert (GD : (displ (pr_recv_counts x) q + j <? displ (pr_recv_counts x) r) || (displ (pr_recv_counts x) r + pr_recv_counts x r <=? displ (pr_recv_counts x) q + j) = false).
    { rewrite Eq. rewrite Eq in Lj. rewrite (gd_rc _ _ _ GR r Lr). destruct (Z.ltb_spec (displ (pr_recv_counts x) r + j) (displ (pr_recv_counts x) r)), (Z.leb_spec (displ (pr_recv_counts x) r + Z.of_nat (length (BB r r))) (displ (pr_recv_counts x) r + j)); cbn; lia || reflexivity. }
    rewrite GD. unfold unpack_local. rewrite (gd_subm _ _ _ GR).
    destruct (gd_send _ _ _ GR r j Lr ltac:(rewrite Eq in Lj; exact Lj)) as (m & Lm & Em & VAL).
    exists m. rewrite Eq. split; [exact Lm|]. split; [rewrite Em; rewrite Eq in NJ; rewrite NJ; reflexivity|].
    rewrite bulk_at; [|apply nv_pos; exact Lr|apply nw_pos|exact NB|exact NB|intros i I0; apply (INO order2); assumption| |intros x' y' H1 H2 H3 H4; apply ocs_loc; assumption|exact Ll|exact Ly].
    2: { intros i I0 GI. apply andb_prop in GI as [G1 G2]. apply Z.leb_le in G1. apply Z.ltb_lt in G2. pose proof (displ_nonneg (pr_send_counts x) r ltac:(lia) ltac:(intros; apply NNS; lia)).
         pose proof (displ_mono (pr_send_counts x) (r + 1) G ltac:(lia) NNS) as DM. rewrite displ_succ in DM by lia. rewrite (gd_sc_all _ _ _ GR) in DM. lia. }
    rewrite (order_in r order2 l P2 Ll). cbn [andb]. rewrite EU, Eq.
    replace (displ (pr_recv_counts x) r + j + (displ (pr_send_counts x) r - displ (pr_recv_counts x) r)) with (displ (pr_send_counts x) r + j) by lia.
    rewrite Eq in Lj. rewrite (gd_sc _ _ _ GR r Lr). destruct (Z.leb_spec (displ (pr_send_counts x) r) (displ (pr_send_counts x) r + j)); [|lia]. destruct (Z.ltb_spec (displ (pr_send_counts x) r + j) (displ (pr_send_counts x) r + Z.of_nat (length (BB r r)))); [|lia]. cbn [andb].
    rewrite acc_tiles; [apply VAL; exact Ly|apply nv_pos; exact Lr|apply nw_pos|exact NB|exact NB| |exact Ly].
    pose proof (displ_nonneg (pr_send_counts x) r ltac:(lia) ltac:(intros; apply NNS; lia)). pose proof (displ_mono (pr_send_counts x) (r + 1) G ltac:(lia) NNS) as DM. rewrite displ_succ in DM by lia. rewrite (gd_sc_all _ _ _ GR), (gd_sc _ _ _ GR r Lr) in DM. lia.
  - (* from another rank *)
    assert (GD : (displ (pr_recv_counts x) q + j <? displ (pr_recv_counts x) r) || (displ (pr_recv_counts x) r + pr_recv_counts x r <=? displ (pr_recv_counts x) q + j) = true).
    { destruct (Z.ltb_spec (displ (pr_recv_counts x) q + j) (displ (pr_recv_counts x) r)) as [Q1|Q1]; [reflexivity|]. destruct (Z.leb_spec (displ (pr_recv_counts x) r + pr_recv_counts x r) (displ (pr_recv_counts x) q + j)) as [Q2|Q2]; [reflexivity|]. exfalso. apply Nq.
      apply (displ_disjoint (pr_recv_counts x) G q r j (displ (pr_recv_counts x) q + j - displ (pr_recv_counts x) r)); try assumption; try lia. rewrite (gd_rc _ _ _ GR q Lq). exact Lj. }
    rewrite GD.
    assert (LX : 0 <= displ (pr_recv_counts x) q + j < nv r) by (rewrite <- EU; apply UR; exact Ll).
    rewrite acc_tiles; [|apply nv_pos; exact Lr|apply nw_pos|exact NB|exact NB|exact LX|exact Ly].
    destruct (received_at inn p r x jb q j y F Lr Ex Lq Nq Lj Ly) as (z & Ez & RV). rewrite RV.
    pose proof (F q Lq) as Fq. rewrite Ez in Fq. destruct Fq as (_ & _ & GQ). destruct (gd_send _ _ _ GQ r j Lr Lj) as (m & Lm & Em & VAL).
    exists m. split; [exact Lm|]. split; [rewrite Em, NJ; reflexivity|]. apply VAL. exact Ly.
Qed.

Theorem permute_main : forall order1 order2 order3 junk jb (inn out : Z -> lmat (T := T)),
  (forall r, 0 <= r < G -> Permutation (order1 r) (zrange 0 (nv r)) /\ Permutation (order2 r) (zrange 0 (nv r)) /\ Permutation (order3 r) (zrange 0 (nv r))) ->
  exists res, permute_dist C G dof ib ie order1 order2 order3 perms junk jb inn out = Some res /\
    (forall r l y, 0 <= r < G -> 0 <= l < nv r -> 0 <= y < nw -> let q := own (perms (l2s r l)) in exists m, 0 <= m < nv q /\ l2s q m = perms (l2s r l) /\
       res r (mk2d C (bC r + l / nb) (bO + y / nb)) (mk2d C (l mod nb) (y mod nb)) = inn q (mk2d C (bC q + m / nb) (bO + y / nb)) (mk2d C (m mod nb) (y mod nb))) /\
    (forall r x y, 0 <= r < G -> ~ (bC r <= x < re (aC r) ie /\ bO <= y < re o ie) -> res r (mk2d C x y) = out r (mk2d C x y)).
Proof using All.
  intros order1 order2 order3 junk jb inn out ORD. unfold permute_dist.
  set (prep := fun r => match permute_prepare C (dof r) ib ie (order1 r) perms junk jb (inn r) with Ok p => Some p | _ => None end).
  set (pp := fun r => match prep r with Some x => x | None => None end).
  assert (CASES : forall r, 0 <= r < G -> exists p, prep r = Some p /\ match p with None => nv r = 0 \/ nw = 0 | Some x => 0 < nv r /\ 0 < nw /\ good r (inn r) x end).
  { intros r Lr. pose proof (nv_pos r Lr). pose proof nw_pos. unfold prep. destruct (Z.eq_dec (nv r) 0) as [E|E].
    - rewrite prepare_none by (try exact Lr; left; exact E). eexists. split; [reflexivity|]. left. exact E.
    - destruct (Z.eq_dec nw 0) as [E'|E'].
      + rewrite prepare_none by (try exact Lr; right; exact E'). eexists. split; [reflexivity|]. right. exact E'.
      + destruct (prepare_ok r (order1 r) junk jb (inn r) Lr (proj1 (ORD r Lr)) ltac:(lia) ltac:(lia)) as (x & -> & GX). eexists. split; [reflexivity|]. cbv beta iota. split; [lia|]. split; [lia|exact GX]. }
  assert (FT : fits inn pp).
  { intros r Lr. destruct (CASES r Lr) as (p & E & H). unfold pp. rewrite E. exact H. }
  assert (F1 : forallb (fun r => match prep r with Some _ => true | None => false end) (zrange 0 G) = true).
  { apply forallb_forall. intros r I0. apply in_zrange in I0. destruct (CASES r I0) as (p & E & _). rewrite E. reflexivity. }
  assert (F2 : forallb (fun q => forallb (fun r => matches (sent C q r (pp q)) (expected q r (pp r))) (zrange 0 G)) (zrange 0 G) = true).
  { apply forallb_forall. intros q Iq. apply in_zrange in Iq. apply forallb_forall. intros r Ir. apply in_zrange in Ir. apply (fits_match inn); assumption. }
  exists (fun r => match pp r with
        | None => out r
        | Some x =>
          let b := next2 (dof r) ib in let e := next2 (dof r) ie in
          let recv := received C G r x (fun q => sent C q r (pp q)) jb in
          store_tiles b e (out r) (unpack_others C r (order3 r) x recv (unpack_local C r (order2 r) x (select_tiles b e (out r))))
        end).
  split.
  { transitivity (if forallb (fun r => match prep r with Some _ => true | None => false end) (zrange 0 G) then
      if forallb (fun q => forallb (fun r => matches (sent C q r (pp q)) (expected q r (pp r))) (zrange 0 G)) (zrange 0 G) then
        Some (fun r => match pp r with
        | None => out r
        | Some x =>
          let b := next2 (dof r) ib in let e := next2 (dof r) ie in
          let recv := received C G r x (fun q => sent C q r (pp q)) jb in
          store_tiles b e (out r) (unpack_others C r (order3 r) x recv (unpack_local C r (order2 r) x (select_tiles b e (out r))))
        end) else None else None); [reflexivity|]. rewrite F1, F2. reflexivity. }
  split.
  - intros r l y Lr Ll Ly. destruct (pp r) as [x|] eqn:Ex.
    2: { pose proof (FT r Lr) as X. rewrite Ex in X. lia. }
    destruct (ORD r Lr) as (_ & P2 & P3). destruct (unpack_at inn pp r x jb (order2 r) (order3 r) (select_tiles (next2 (dof r) ib) (next2 (dof r) ie) (out r)) l y FT Lr Ex P2 P3 Ll Ly) as (m & Lm & Em & V).
    cbv zeta. exists m. split; [exact Lm|]. split; [exact Em|]. rewrite <- V.
    pose proof (acc_range (nv r) nb l Hnb Ll) as (X1 & X2 & X3). pose proof (acc_range nw nb y Hnb Ly) as (Y1 & Y2 & Y3).
    rewrite store_in by assumption. reflexivity.
  - intros r x y Lr H. destruct (pp r) as [z|]; [|reflexivity]. apply store_out. exact H.
Qed.
(** the local call *)
Theorem permute_local_main : forall r order pl (inn out : lmat (T := T)), 0 <= r < G -> Permutation order (zrange 0 (nv r)) -> is_perm (nv r) pl ->
  exists res, permute_local C (dof r) ib ie order pl inn out = Ok res /\
    (forall l y, 0 <= l < nv r -> 0 <= y < nw -> res (mk2d C (bC r + l / nb) (bO + y / nb)) (mk2d C (l mod nb) (y mod nb)) =
       inn (mk2d C (bC r + pl l / nb) (bO + y / nb)) (mk2d C (pl l mod nb) (y mod nb))) /\
    (forall x y, ~ (bC r <= x < re (aC r) ie /\ bO <= y < re o ie) -> res (mk2d C x y) = out (mk2d C x y)).
Proof using All.
  intros r order pl inn out Lr PO PL. pose proof Hnb as NB. pose proof (nv_pos r Lr) as NV. pose proof nw_pos as NW. unfold permute_local. destruct (Z.eqb_spec ib ie); [lia|].
  rewrite (subm_ok r Lr). cbn [bind]. rewrite szl, isEmpty_mk. destruct (Z.eqb_spec (nv r) 0) as [E1|E1]; [|destruct (Z.eqb_spec nw 0) as [E2|E2]]; cbn [orb].
  - eexists. split; [reflexivity|]. split; [intros; lia|reflexivity].
  - eexists. split; [reflexivity|]. split; [intros; lia|reflexivity].
  - eexists. split; [reflexivity|]. split.
    + intros l y Ll Ly. pose proof (acc_range (nv r) nb l NB Ll) as (X1 & X2 & X3). pose proof (acc_range nw nb y NB Ly) as (Y1 & Y2 & Y3).
      rewrite store_in by assumption. pose proof (is_perm_in _ _ l PL Ll) as Lp.
      assert (E : acc C (nv r) nw nb nb (bulk order (fun _ => true) C (sub r) pl (oc_tile_size C (dof r) (next2 (dof r) ib) (next2 (dof r) ie)) (select_tiles (next2 (dof r) ib) (next2 (dof r) ie) inn) (select_tiles (next2 (dof r) ib) (next2 (dof r) ie) out)) l y =
        inn (mk2d C (bC r + pl l / nb) (bO + y / nb)) (mk2d C (pl l mod nb) (y mod nb))); [|exact E].
      rewrite bulk_at; [|exact NV|exact NW|exact NB|exact NB| | |intros x' y' H1 H2 H3 H4; apply ocs; assumption|exact Ll|exact Ly].
      * rewrite (order_in r order l PO Ll). cbn [andb]. apply sel_acc; assumption.
      * intros i I0. apply (Permutation_in _ PO) in I0. apply in_zrange in I0. exact I0.
      * intros i I0 _. apply (Permutation_in _ PO) in I0. apply in_zrange in I0. apply (is_perm_in _ _ i PL I0).
    + intros x y H. apply store_out. exact H.
Qed.
End dist.
