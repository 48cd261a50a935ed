(** * Phases of a distributed program in which every rank works on its own tiles; reductions. *)
From Coq Require Import ZArith Lia List Bool.
From Verif Require Import CInt Loop StarField DenseSpec DistModel DistSpec DistBuilt DenseJobs TileJobs DistMachine DistGrid PanelModel PanelProofs TriangularProofs.
Import ListNotations.
Local Open Scope Z_scope.

Section phase.
Context {V : Type}.
Variables P Q : Z.
Hypothesis HP : 0 < P.
Hypothesis HQ : 0 < Q.
Notation ranks := (ranks P Q).
Notation mem := (members P Q).

Lemma flat_map_NoDup : forall {A B} (f : A -> list B) l, NoDup l -> (forall x, In x l -> NoDup (f x)) ->
  (forall x y b, In x l -> In y l -> In b (f x) -> In b (f y) -> x = y) -> NoDup (flat_map f l).
Proof.
  intros A B f l. induction l as [|x l IH]; intros ND F D; cbn; [constructor|]. inversion ND as [|? ? N1 N2]; subst.
  assert (R : NoDup (flat_map f l)). { apply IH; [exact N2|intros; apply F; right; assumption|]. intros a b c Ia Ib. apply D; right; assumption. }
  assert (X : forall b, In b (f x) -> ~ In b (flat_map f l)).
  { intros b Ib Q0. apply in_flat_map in Q0 as (y & Iy & Iby). apply N1. rewrite (D x y b); auto; [left; reflexivity|right; exact Iy]. }
  specialize (F x (or_introl eq_refl)). revert F X R. generalize (f x) (flat_map f l). clear. intros a b. induction a as [|y a IHa]; intros F X R; [exact R|].
  cbn. inversion F as [|? ? N1 N2]; subst. constructor.
  - intros Q0. apply in_app_or in Q0 as [Q0|Q0]; [contradiction|]. apply (X y); [left; reflexivity|exact Q0].
  - apply IHa; [exact N2| |exact R]. intros c Ic. apply X. right. exact Ic.
Qed.
Lemma ranks_nodup : NoDup ranks.
Proof using HP HQ.
  unfold DistGrid.ranks. apply flat_map_NoDup; [apply zrange_NoDup| |].
  - intros a _. apply FinFun.Injective_map_NoDup; [|apply zrange_NoDup]. intros b c E. unfold rk in E. lia.
  - intros a b r Ia Ib H1 H2. apply in_map_iff in H1 as (c1 & <- & I1). apply in_map_iff in H2 as (c2 & E & I2). apply in_zrange in Ia, Ib, I1, I2. unfold rk in E. nia.
Qed.

(** every rank runs its list of kernels *)
Definition elocal (jobs : Z -> list (tjob V)) : list (event V) := flat_map (fun r => map (ELoc r) (jobs r)) ranks.
Definition own_tiles (r : Z) (l : list (tjob V)) : Prop := forall j t, In j l -> In t (tj_in j) \/ t = tj_out j -> t_rank t = r.

Lemma proj_map_eloc : forall r q (l : list (tjob V)), proj mem r (map (ELoc q) l) = if q =? r then map ALoc l else [].
Proof using.
  intros r q l. induction l as [|j l IH]; cbn; [destruct (q =? r); reflexivity|]. fold (proj mem r (map (ELoc q) l)). rewrite IH. destruct (q =? r); reflexivity.
Qed.
Lemma elocal_proj : forall jobs r, In r ranks -> proj mem r (elocal jobs) = map ALoc (jobs r).
Proof using HP HQ.
  intros jobs r R. unfold elocal. rewrite (proj_flat P Q). pose proof ranks_nodup as ND. revert R ND. generalize ranks. intros l. induction l as [|q l IH]; intros R ND; [destruct R|].
  cbn [flat_map]. rewrite proj_map_eloc. inversion ND as [|? ? N1 N2]; subst. destruct R as [->|R].
  - rewrite Z.eqb_refl. rewrite flat_map_nil; [apply app_nil_r|]. intros q Iq. rewrite proj_map_eloc. destruct (Z.eqb_spec q r) as [->|]; [contradiction|reflexivity].
  - destruct (Z.eqb_spec q r) as [->|]; [contradiction|]. cbn. apply IH; assumption.
Qed.
Lemma elocal_ok : forall jobs, (forall r, In r ranks -> own_tiles r (jobs r)) -> Forall (event_ok mem ranks) (elocal jobs).
Proof using.
  intros jobs O. apply forall_flat. intros r R. apply Forall_forall. intros e I0. apply in_map_iff in I0 as (j & <- & Ij). apply eloc_ok; [exact R|]. intros t. apply O; assumption.
Qed.
Lemma trun_other : forall r l (st : tstore V) x, own_tiles r l -> t_rank x <> r -> trun l st x = st x.
Proof using. intros r l st x O N. apply trun_frame. intros j Ij E. apply N. rewrite <- E. apply (O j); auto. Qed.
Lemma trun_same : forall r l (st st' : tstore V), own_tiles r l -> (forall x, t_rank x = r -> st x = st' x) -> forall x, t_rank x = r -> trun l st x = trun l st' x.
Proof using.
  intros r l. induction l as [|j l IH]; intros st st' O E x X; [apply E; exact X|]. rewrite !trun_cons. apply IH; [intros k t Ik; apply O; right; exact Ik| |exact X].
  intros y Y. unfold texec, tset. destruct (tid_eqb y (tj_out j)); [|apply E; exact Y]. apply tval_ext. intros z Z. apply E. apply (O j); [left; reflexivity|exact Z].
Qed.
Lemma erun_map_eloc : forall r l (st : tstore V), erun mem (map (ELoc r) l) st = trun l st.
Proof using. intros r l. induction l as [|j l IH]; intros st; [reflexivity|]. cbn [map]. rewrite erun_cons. rewrite IH. reflexivity. Qed.
Lemma elocal_run : forall jobs (st : tstore V) x, (forall r, In r ranks -> own_tiles r (jobs r)) ->
  erun mem (elocal jobs) st x = if existsb (Z.eqb (t_rank x)) ranks then trun (jobs (t_rank x)) st x else st x.
Proof using HP HQ.
  intros jobs st x O. unfold elocal. pose proof ranks_nodup as ND. revert st O ND. generalize ranks. intros l. induction l as [|r l IH]; intros st O ND; [reflexivity|].
  cbn [flat_map existsb]. rewrite erun_app, erun_map_eloc. inversion ND as [|? ? N1 N2]; subst. rewrite IH; [|intros; apply O; right; assumption|exact N2].
  destruct (Z.eqb_spec (t_rank x) r) as [E|E]; cbn [orb].
  - destruct (existsb (Z.eqb (t_rank x)) l) eqn:X.
    + exfalso. apply existsb_exists in X as (y & Iy & Ey). apply Z.eqb_eq in Ey. apply N1. rewrite <- E, Ey. exact Iy.
    + rewrite E. reflexivity.
  - destruct (existsb (Z.eqb (t_rank x)) l) eqn:X.
    + apply existsb_exists in X as (y & Iy & Ey). apply Z.eqb_eq in Ey. subst y. apply (trun_same (t_rank x)); [apply O; right; exact Iy| |reflexivity].
      intros y Y. apply (trun_other r); [apply O; left; reflexivity|]. rewrite Y. exact E.
    + apply (trun_other r); [apply O; left; reflexivity|exact E].
Qed.
Lemma elocal_at : forall jobs (st : tstore V) x r, (forall r, In r ranks -> own_tiles r (jobs r)) -> In r ranks -> t_rank x = r -> erun mem (elocal jobs) st x = trun (jobs r) st x.
Proof using HP HQ.
  intros jobs st x r O R <-. rewrite elocal_run by exact O. destruct (existsb _ ranks) eqn:E; [reflexivity|]. exfalso. apply not_true_iff_false in E. apply E.
  apply existsb_exists. exists (t_rank x). split; [exact R|apply Z.eqb_refl].
Qed.
Lemma elocal_frame : forall jobs (st : tstore V) x, (forall r, In r ranks -> own_tiles r (jobs r)) -> (forall r j, In r ranks -> In j (jobs r) -> tj_out j <> x) -> erun mem (elocal jobs) st x = st x.
Proof using HP HQ.
  intros jobs st x O N. rewrite elocal_run by exact O. destruct (existsb _ ranks) eqn:E; [|reflexivity]. apply existsb_exists in E as (y & Iy & Ey). apply Z.eqb_eq in Ey. subst y.
  apply trun_frame. intros j Ij. apply (N (t_rank x)); assumption.
Qed.
Lemma own_app : forall r a b, own_tiles r a -> own_tiles r b -> own_tiles r (a ++ b).
Proof using. intros r a b A B j t I0. apply in_app_or in I0 as [I0|I0]; [apply A|apply B]; exact I0. Qed.
Lemma own_nil : forall r, own_tiles r []. Proof using. intros r j t []. Qed.
Lemma own_flat : forall {A} r (f : A -> list (tjob V)) l, (forall x, In x l -> own_tiles r (f x)) -> own_tiles r (flat_map f l).
Proof using. intros A r f l H j t I0. apply in_flat_map in I0 as (x & Ix & I0). apply (H x Ix j t I0). Qed.
Lemma own_one : forall r (j : tjob V), (forall t, In t (tj_in j) \/ t = tj_out j -> t_rank t = r) -> own_tiles r [j].
Proof using. intros r j H k t [<-|[]]. apply H. Qed.
End phase.

(** ** Reductions (communication/kernels/internal/reduce.h:65-130: schedule_reduce_recv_in_place, schedule_reduce_send with MPI_SUM) *)
Section reduce.
Context {K : starfield}.
Variables P Q : Z.
Hypothesis HP : 0 < P.
Hypothesis HQ : 0 < Q.
Notation ranks := (ranks P Q).
Notation mem := (members P Q).
(** MPI_SUM of the contributions. In exact arithmetic the order in which MPI adds them does not matter. *)
Definition msum (vs : list (mat K)) : mat K := fun i j => fold_right (fun (A : mat K) s => fadd (A i j) s) f0 vs.
Definition rrecv (c : comm) (root : Z) (t : tid) : cact (mat K) := CAct c (SReduce root) (Some t) (Some t) (mem c) (fun vs _ => msum vs).
Definition rsend (c : comm) (root : Z) (t : tid) : cact (mat K) := CAct c (SReduce root) (Some t) None [] (fun _ v => v).
(** tile of rank r: tl r *)
Definition ereduce (c : comm) (root : Z) (tl : Z -> tid) : event (mat K) :=
  EColl c (fun r => if r =? root then rrecv c root (tl r) else rsend c root (tl r)).
Lemma ereduce_ok : forall c root tl, (forall r, In r (mem c) -> t_rank (tl r) = r) -> event_ok mem ranks (ereduce c root tl).
Proof using HP HQ.
  intros c root tl T. constructor.
  - intros r a E. cbn in E. destruct (member_spec mem c r); [|discriminate]. apply (members_ranks P Q HP HQ c). assumption.
  - intros r a t E I0. cbn in E. destruct (member_spec mem c r) as [M|]; [|discriminate]. injection E as <-.
    destruct (r =? root); cbn in I0; destruct I0 as [I0|I0]; try destruct I0 as [<-|[]]; try destruct I0; auto.
  - intros c' part E r M. injection E as <- <-. destruct (r =? root); reflexivity.
  - intros c' part E r q M1 M2. injection E as <- <-. destruct (r =? root), (q =? root); reflexivity.
  - intros c' part E r q M1 M2. injection E as <- <-. destruct (r =? root); cbn in M2; [|destruct M2]. split; [exact M2|]. destruct (q =? root); discriminate.
Qed.
Lemma ereduce_proj : forall c root tl r, proj mem r [ereduce c root tl] = if member mem c r then [ACom (if r =? root then rrecv c root (tl r) else rsend c root (tl r))] else [].
Proof using. intros. cbn. destruct (member mem c r); reflexivity. Qed.
Lemma reduce_frame : forall c root tl (st : tstore (mat K)) x, x <> tl root \/ t_rank x <> root -> eexec mem st (ereduce c root tl) x = st x.
Proof using.
  intros c root tl st x N. cbn [ereduce eexec]. destruct (Z.eqb_spec (t_rank x) root) as [E|E]; cbn [rrecv rsend ca_out].
  - destruct (tid_eqb_spec x (tl (t_rank x))) as [X|X]; [|rewrite andb_false_r; reflexivity]. rewrite E in X. tauto.
  - rewrite andb_false_r. reflexivity.
Qed.
Lemma reduce_root : forall c root tl (st : tstore (mat K)), In root (mem c) -> t_rank (tl root) = root ->
  eexec mem st (ereduce c root tl) (tl root) = msum (map (fun q => st (tl q)) (mem c)).
Proof using.
  intros c root tl st M T. cbn [ereduce eexec]. rewrite T, Z.eqb_refl. cbn [rrecv ca_out ca_fun ca_needs]. destruct (member_spec mem c root); [|contradiction].
  destruct (tid_eqb_spec (tl root) (tl root)); [|congruence]. cbn [andb]. f_equal. apply map_ext. intros q. destruct (q =? root); reflexivity.
Qed.
Lemma msum_lsum : forall {A} (f : A -> mat K) l i j, msum (map f l) i j = fold_right (fun x s => fadd (f x i j) s) f0 l.
Proof using. intros A f l i j. unfold msum. induction l as [|x l IH]; cbn; [reflexivity|]. rewrite IH. reflexivity. Qed.
End reduce.
