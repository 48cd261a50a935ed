From Coq Require Import ZArith Lia List Bool Reals.
From Verif Require Import CInt Loop DistModel DenseJobs DistMachine DistGrid DcModel DcRotModel DcRotProofs DcCommModel.
Import ListNotations.
Local Open Scope Z_scope.

Section proof.
Variables P Q : Z.
Variable src : coord -> Z.
Hypothesis HP : 0 < P.
Hypothesis HQ : 0 < Q.
Hypothesis HS : forall rc, 0 <= src rc < gs P Q rc.
Notation rks := (ranks P Q).
Notation mem := (members P Q).
Notation trk := (tile_rank P Q src).
Notation own2 := (own2 P Q src).

Lemma own2_in : forall i j, 0 <= i -> 0 <= j -> In (own2 i j) rks.
Proof using HP HQ HS. intros i j Li Lj. apply (mk_in P Q HP HQ Row); [apply (trk_range P Q src HP HQ HS Row); exact Li|apply (trk_range P Q src HP HQ HS Col); exact Lj]. Qed.
Lemma full_member : forall r, member mem CFull r = true <-> In r rks.
Proof. intros r. destruct (member_spec mem CFull r) as [I|N]; split; intros; auto; try discriminate; contradiction. Qed.
Lemma many_false : many P Q = false -> forall r, In r rks -> r = 0.
Proof using HP HQ. clear HS. unfold many. intros M r R. apply Z.ltb_ge in M. assert (P = 1) by nia. assert (Q = 1) by nia. apply (in_ranks P Q HP HQ) in R. subst. cbn in R. rewrite Z.div_1_r in R. lia. Qed.

(** ** The owner computes, then broadcasts *)
Section bcasts.
(** items: root, jobs of the root, tile that everybody gets *)
Variable lo hi : Z.
Variable root : Z -> Z.
Variable jobs : Z -> Z -> list (tjob tile).
Variable t : Z -> Z -> tid.
Hypothesis ROOT : forall i, lo <= i < hi -> In (root i) rks.
Hypothesis TR : forall r i, t r i = Tid r (t_mat (t r i)) (t_row (t r i)) (t_col (t r i)).
Hypothesis JOBS : forall i r j x, In j (jobs r i) -> In x (tj_in j) \/ x = tj_out j -> t_rank x = r.
Definition bc_events (i : Z) : list (event tile) :=
  map (ELoc (root i)) (jobs (root i) i) ++ (if many P Q then [ebcast CFull (root i) (t (root i) i) (fun q => t q i)] else []).
Lemma t_rk : forall r i, t_rank (t r i) = r. Proof using TR. intros r i. rewrite TR. reflexivity. Qed.
Lemma bc_proj : forall r, In r rks ->
  flat_map (fun i => owner_bcast P Q r (root i) (jobs r i) (fun q => t q i)) (zrange lo hi) = proj mem r (flat_map bc_events (zrange lo hi)).
Proof using HP HQ ROOT.
  intros r R. rewrite DistGrid.proj_flat. apply flat_map_ext_in. intros i I. apply in_zrange in I. unfold owner_bcast, bc_events. rewrite proj_app'.
  assert (L : proj mem r (map (ELoc (root i)) (jobs (root i) i)) = if root i =? r then map ALoc (jobs r i) else []).
  { destruct (Z.eqb_spec (root i) r) as [->|N].
    - induction (jobs r i) as [|j l IH]; [reflexivity|]. cbn [map]. change (proj mem r (ELoc r j :: map (ELoc r) l)) with (olist (eact mem r (ELoc r j)) ++ proj mem r (map (ELoc r) l)). rewrite IH. cbn [eact]. rewrite Z.eqb_refl. reflexivity.
    - induction (jobs (root i) i) as [|j l IH]; [reflexivity|]. cbn [map]. change (proj mem r (ELoc (root i) j :: map (ELoc (root i)) l)) with (olist (eact mem r (ELoc (root i) j)) ++ proj mem r (map (ELoc (root i)) l)). rewrite IH. cbn [eact]. destruct (Z.eqb_spec (root i) r); [contradiction|reflexivity]. }
  rewrite L. destruct (many P Q) eqn:M.
  - rewrite ebcast_proj. rewrite (proj2 (full_member r) R). rewrite (Z.eqb_sym r). destruct (Z.eqb_spec (root i) r) as [->|N]; reflexivity.
  - destruct (Z.eqb_spec (root i) r) as [->|N]; [reflexivity|]. exfalso. apply N. rewrite (many_false M r R). apply (many_false M). apply ROOT. exact I.
Qed.
Lemma bc_ok : Forall (event_ok mem rks) (flat_map bc_events (zrange lo hi)).
Proof using HP HQ ROOT TR JOBS.
  apply forall_flat. intros i I. apply in_zrange in I. unfold bc_events. apply Forall_app. split.
  - apply Forall_forall. intros e Ie. apply in_map_iff in Ie as (j & <- & Ij). apply (eloc_ok P Q); [apply ROOT; exact I|]. intros x X. apply (JOBS i (root i) j x Ij X).
  - destruct (many P Q); [|constructor]. constructor; [|constructor]. apply ebcast_ok; [exact HP|exact HQ|cbn; apply ROOT; exact I|apply t_rk|intros; apply t_rk].
Qed.
(** after item i everybody has what the owner computed, other tiles but those of the jobs are unchanged *)
Lemma bc_all : forall i st r, lo <= i < hi -> In r rks -> erun mem (bc_events i) st (t r i) = trun (jobs (root i) i) st (t (root i) i).
Proof using HP HQ ROOT TR.
  intros i st r I R. unfold bc_events. rewrite DistGrid.erun_app. assert (E : erun mem (map (ELoc (root i)) (jobs (root i) i)) st = trun (jobs (root i) i) st).
  { clear R. generalize (jobs (root i) i). intros l. revert st. induction l as [|j l IH]; intros st; [reflexivity|]. cbn [map]. unfold erun, trun. cbn [fold_left]. apply IH. }
  rewrite E. destruct (many P Q) eqn:M.
  - unfold erun. cbn [fold_left]. destruct (Z.eq_dec r (root i)) as [->|N].
    + apply bcast_frame. intros q Iq Nq X. apply Nq. rewrite <- (t_rk q i), <- X. apply t_rk.
    + apply (bcast_dst P Q CFull (root i) (t (root i) i) (fun q => t q i)); [exact R|exact N|apply t_rk].
  - cbn. rewrite (many_false M r R), (many_false M (root i) (ROOT i I)). reflexivity.
Qed.
Lemma trun_out : forall (l : list (tjob tile)) st x, (forall j, In j l -> tj_out j <> x) -> trun l st x = st x.
Proof using.
  induction l as [|j l IH]; intros st x N; [reflexivity|]. unfold trun. cbn [fold_left]. change (trun l (texec st j) x = st x). rewrite IH by (intros; apply N; right; assumption).
  unfold texec, tset. destruct (tid_eqb_spec x (tj_out j)) as [->|]; [|reflexivity]. exfalso. apply (N j); [left; reflexivity|reflexivity].
Qed.
Lemma bc_frame : forall i st x, (forall r, x <> t r i) -> (forall j, In j (jobs (root i) i) -> tj_out j <> x) -> erun mem (bc_events i) st x = st x.
Proof using.
  intros i st x N1 N2. unfold bc_events. rewrite DistGrid.erun_app. assert (E : erun mem (map (ELoc (root i)) (jobs (root i) i)) st = trun (jobs (root i) i) st).
  { clear N2. generalize (jobs (root i) i). intros l. revert st. induction l as [|j l IH]; intros st; [reflexivity|]. cbn [map]. unfold erun, trun. cbn [fold_left]. apply IH. }
  rewrite E. destruct (many P Q); [|apply trun_out; exact N2]. unfold erun. cbn [fold_left]. rewrite bcast_frame by (intros; apply N1). apply trun_out. exact N2.
Qed.
End bcasts.

(** ** Leaves *)
Section leaf.
Variable stedc_vecs stedc_vals : Z -> tile -> tile.
Variable nt : Z.
Notation ljobs := (leaf_jobs stedc_vecs stedc_vals).
Theorem leaf_run : forall st, 0 <= nt -> (forall r i, In r rks -> 0 <= i < nt -> st (tTri r i) = st (tTri 0 i)) ->
  every_run mem rks (leaf_prog P Q src stedc_vecs stedc_vals nt) st (fun st' => forall i, 0 <= i < nt ->
    st' (tEv (own2 i i) i i) = stedc_vecs i (st (tTri 0 i)) /\ forall r, In r rks -> st' (tTri r i) = stedc_vals i (st (tTri 0 i))).
Proof using HP HQ HS.
  intros st LN REP. set (root := fun i => own2 i i). set (t := fun q i => tTri q i).
  assert (ROOT : forall i, 0 <= i < nt -> In (root i) rks) by (intros; apply own2_in; lia).
  assert (TR : forall r i, t r i = Tid r (t_mat (t r i)) (t_row (t r i)) (t_col (t r i))) by reflexivity.
  assert (JB : forall i r j x, In j (ljobs r i) -> In x (tj_in j) \/ x = tj_out j -> t_rank x = r).
  { intros i r j x [<-|[<-|[]]]; cbn [tj_in tj_out In]; intros H; decompose [or] H; subst; try reflexivity; contradiction. }
  apply every_run_intro with (flat_map (bc_events root ljobs t) (zrange 0 nt)).
  - intros r R. apply (bc_proj 0 nt root ljobs t ROOT). exact R.
  - apply bc_ok; assumption.
  - set (Inv := fun (m : Z) (s : tstore tile) =>
      (forall i, 0 <= i < m -> s (tEv (own2 i i) i i) = stedc_vecs i (st (tTri 0 i)) /\ forall r, In r rks -> s (tTri r i) = stedc_vals i (st (tTri 0 i))) /\
      (forall r i, In r rks -> m <= i < nt -> s (tTri r i) = st (tTri 0 i))).
    assert (F : Inv nt (erun mem (flat_map (bc_events root ljobs t) (zrange 0 nt)) st)).
    { apply (erun_flat_inv P Q); [lia|split; [intros; lia|intros; apply REP; [assumption|lia]]|]. intros m s Lm [I1 I2].
      assert (V : forall r, In r rks -> erun mem (bc_events root ljobs t m) s (tTri r m) = stedc_vals m (st (tTri 0 m))).
      { intros r R. pose proof (bc_all 0 nt root ljobs t ROOT TR m s r Lm R) as E. change (t r m) with (tTri r m) in E. rewrite E. unfold t, leaf_jobs, trun. cbn [fold_left]. unfold texec at 1, tset at 1. cbn [tj_out]. rewrite teq_t. unfold tval. cbn [tj_fun tj_in tj_out map].
        unfold texec, tset. cbn [tj_out]. rewrite teq_f by discriminate. rewrite I2; [reflexivity|apply ROOT; exact Lm|lia]. }
      assert (W : erun mem (bc_events root ljobs t m) s (tEv (root m) m m) = stedc_vecs m (st (tTri 0 m))).
      { unfold bc_events. rewrite DistGrid.erun_app. assert (E : erun mem (map (ELoc (root m)) (ljobs (root m) m)) s = trun (ljobs (root m) m) s) by reflexivity. rewrite E. clear E.
        assert (X : trun (ljobs (root m) m) s (tEv (root m) m m) = stedc_vecs m (st (tTri 0 m))).
        { unfold leaf_jobs, trun. cbn [fold_left]. unfold texec at 1, tset at 1. cbn [tj_out]. rewrite teq_f by discriminate. unfold texec, tset. cbn [tj_out]. rewrite teq_t. unfold tval. cbn [tj_fun tj_in map]. unfold in1. cbn [hd].
          rewrite I2; [reflexivity|apply ROOT; exact Lm|lia]. }
        destruct (many P Q); [|exact X]. unfold erun. cbn [fold_left]. rewrite bcast_frame by (intros; discriminate). exact X. }
      assert (FR : forall x, (forall r, x <> tTri r m) -> x <> tEv (root m) m m -> erun mem (bc_events root ljobs t m) s x = s x).
      { intros x N1 N2. apply bc_frame; [exact N1|]. intros j [<-|[<-|[]]]; cbn; intros X; subst x; [apply N2; reflexivity|apply (N1 (root m)); reflexivity]. }
      split.
      - intros i Li. destruct (Z.eq_dec i m) as [->|N]; [split; [exact W|exact V]|]. destruct (I1 i ltac:(lia)) as [A B]. split.
        + rewrite FR; [exact A|discriminate|]. intros X. injection X as _ X _. lia.
        + intros r R. rewrite FR; [apply B; exact R| |discriminate]. intros q X. injection X as _ X. lia.
      - intros r i R Li. rewrite FR; [apply I2; [exact R|lia]| |discriminate]. intros q X. injection X as _ X. lia. }
    intros st' E i Li. destruct F as [F _]. destruct (F i Li) as [A B]. rewrite E. split; [exact A|]. intros r R. rewrite E. apply B. exact R.
Qed.
End leaf.

(** ** z *)
Section zvec.
Variable row : bool -> Z -> tile -> tile.
Variables i_begin i_split i_end : Z.
Notation zj := (z_jobs row i_split).
Notation zr := (z_row i_split).
Theorem z_run : forall st, 0 <= i_begin < i_split -> i_split < i_end ->
  every_run mem rks (z_prog P Q src row i_begin i_split i_end) st (fun st' =>
    (forall i r, i_begin <= i < i_end -> In r rks -> st' (tZ r i) = row (i <? i_split) (zr i) (st (tEv (own2 (zr i) i) (zr i) i))) /\
    forall r i j, st' (tEv r i j) = st (tEv r i j)).
Proof using HP HQ HS.
  intros st LB LS. set (root := fun i => own2 (zr i) i). set (t := fun q i => tZ q i).
  assert (ROOT : forall i, i_begin <= i < i_end -> In (root i) rks) by (intros i Li; apply own2_in; unfold z_row; destruct (i <? i_split); lia).
  assert (TR : forall r i, t r i = Tid r (t_mat (t r i)) (t_row (t r i)) (t_col (t r i))) by reflexivity.
  assert (JB : forall i r j x, In j (zj r i) -> In x (tj_in j) \/ x = tj_out j -> t_rank x = r).
  { intros i r j x [<-|[]]; cbn [tj_in tj_out In]; intros H; decompose [or] H; subst; try reflexivity; contradiction. }
  apply every_run_intro with (flat_map (bc_events root zj t) (zrange i_begin i_end)).
  - intros r R. apply (bc_proj i_begin i_end root zj t ROOT). exact R.
  - apply bc_ok; assumption.
  - set (Inv := fun (m : Z) (s : tstore tile) =>
      (forall i r, i_begin <= i < m -> In r rks -> s (tZ r i) = row (i <? i_split) (zr i) (st (tEv (own2 (zr i) i) (zr i) i))) /\
      (forall r i j, s (tEv r i j) = st (tEv r i j))).
    assert (F : Inv i_end (erun mem (flat_map (bc_events root zj t) (zrange i_begin i_end)) st)).
    { apply (erun_flat_inv P Q); [lia|split; [intros; lia|reflexivity]|]. intros m s Lm [I1 I2].
      assert (FR : forall x, (forall r, x <> tZ r m) -> erun mem (bc_events root zj t m) s x = s x).
      { intros x N1. apply bc_frame; [exact N1|]. intros j [<-|[]]; cbn; intros X; subst x. apply (N1 (root m)). reflexivity. }
      split.
      - intros i r Li R. destruct (Z.eq_dec i m) as [->|N].
        + pose proof (bc_all i_begin i_end root zj t ROOT TR m s r ltac:(lia) R) as E. change (t r m) with (tZ r m) in E. rewrite E. unfold t, z_jobs, trun. cbn [fold_left]. unfold texec, tset. cbn [tj_out]. rewrite teq_t. unfold tval. cbn [tj_fun tj_in map]. unfold in1. cbn [hd]. rewrite I2. reflexivity.
        + rewrite FR; [apply I1; [lia|exact R]|]. intros q X. injection X as _ X. lia.
      - intros r i j. rewrite FR by discriminate. apply I2. }
    intros st' E. destruct F as [F1 F2]. split.
    + intros i r Li R. rewrite E. apply F1; assumption.
    + intros r i j. rewrite E. apply F2.
Qed.
End zvec.
End proof.
