(** * Grids of ranks, their communicators, and loops over the tiles a rank owns. *)
From Coq Require Import ZArith Lia List Bool.
From Verif Require Import CInt Loop DistModel DistSpec DistProofs DistBuilt DistThms DenseJobs DistMachine.
Import ListNotations.
Local Open Scope Z_scope.

(** ** Lists *)
Lemma flat_map_ext_in : forall {A B} (f g : A -> list B) l, (forall x, In x l -> f x = g x) -> flat_map f l = flat_map g l.
Proof. induction l as [|x l IH]; intros H; cbn; [reflexivity|]. rewrite H by (left; reflexivity). rewrite IH; [reflexivity|]. intros y I0. apply H. right. exact I0. Qed.
Lemma flat_map_map : forall {A B C} (f : B -> list C) (g : A -> B) l, flat_map f (map g l) = flat_map (fun x => f (g x)) l.
Proof. induction l as [|x l IH]; cbn; [reflexivity|]. rewrite IH. reflexivity. Qed.
Lemma flat_map_filter : forall {A B} (f : A -> list B) p l, flat_map f (filter p l) = flat_map (fun x => if p x then f x else []) l.
Proof. induction l as [|x l IH]; cbn; [reflexivity|]. destruct (p x); cbn; rewrite IH; reflexivity. Qed.
Lemma flat_map_nil : forall {A B} (f : A -> list B) l, (forall x, In x l -> f x = []) -> flat_map f l = [].
Proof. induction l as [|x l IH]; intros H; cbn; [reflexivity|]. rewrite H by (left; reflexivity). apply IH. intros y I0. apply H. right. exact I0. Qed.
Lemma flat_map_flat_map : forall {A B C} (f : B -> list C) (g : A -> list B) l, flat_map f (flat_map g l) = flat_map (fun x => flat_map f (g x)) l.
Proof. induction l as [|x l IH]; cbn; [reflexivity|]. rewrite flat_map_app, IH. reflexivity. Qed.

Definition other (rc : coord) : coord := match rc with Row => Col | Col => Row end.

Section grid.
Variables P Q : Z.
Hypothesis HP : 0 < P.
Hypothesis HQ : 0 < Q.
(** extent of the grid along a coordinate; number of a rank; its coordinates *)
Definition gs (rc : coord) : Z := match rc with Row => P | Col => Q end.
Definition rk (pr pc : Z) : Z := pr * Q + pc.
Definition co (rc : coord) (r : Z) : Z := match rc with Row => r / Q | Col => r mod Q end.
(** the rank with coordinate a along rc and b along the other *)
Definition mk (rc : coord) (a b : Z) : Z := match rc with Row => rk a b | Col => rk b a end.
Definition ranks : list Z := flat_map (fun a => map (rk a) (zrange 0 Q)) (zrange 0 P).
(** the communicator of the ranks that share coordinate a along rc *)
Definition cm (rc : coord) (a : Z) : comm := match rc with Row => CRow a | Col => CCol a end.
(** C26: who belongs to each communicator. Channels between two ranks have these two as members. *)
Definition members (c : comm) : list Z :=
  match c with
  | CRow a => if (0 <=? a) && (a <? P) then map (fun b => rk a b) (zrange 0 Q) else []
  | CCol b => if (0 <=? b) && (b <? Q) then map (fun a => rk a b) (zrange 0 P) else []
  | CCol2 b => if (0 <=? b) && (b <? Q) then map (fun a => rk a b) (zrange 0 P) else []
  | CFull => ranks
  | CP2P s d _ => filter (fun r => (r =? s) || (r =? d)) ranks
  | CMsg s d => filter (fun r => (r =? s) || (r =? d)) ranks
  end.

Lemma gs_pos : forall rc, 0 < gs rc. Proof. intros []; assumption. Qed.
Lemma co_mk : forall rc a b, 0 <= a < gs rc -> 0 <= b < gs (other rc) -> co rc (mk rc a b) = a /\ co (other rc) (mk rc a b) = b.
Proof using HP HQ.
  intros [] a b; cbn; intros La Lb; unfold rk.
  - split; [rewrite Z.div_add_l by lia; rewrite Z.div_small by lia; lia|rewrite Z.add_comm, Z.mod_add by lia; apply Z.mod_small; lia].
  - split; [rewrite Z.add_comm, Z.mod_add by lia; apply Z.mod_small; lia|rewrite Z.div_add_l by lia; rewrite Z.div_small by lia; lia].
Qed.
Lemma mk_co : forall rc r, mk rc (co rc r) (co (other rc) r) = r.
Proof using HP HQ. intros [] r; cbn; unfold rk; pose proof (Z.div_mod r Q ltac:(lia)); lia. Qed.
Lemma in_ranks : forall r, In r ranks <-> 0 <= co Row r < P /\ 0 <= co Col r < Q.
Proof using HP HQ.
  intros r. unfold ranks. rewrite in_flat_map. split.
  - intros (a & La & Ir). apply in_map_iff in Ir as (b & <- & Lb). apply in_zrange in La, Lb.
    destruct (co_mk Row a b La Lb) as [A B]. cbn [mk other] in A, B. rewrite A, B. lia.
  - intros [La Lb]. exists (co Row r). split; [apply in_zrange; exact La|]. apply in_map_iff. exists (co Col r). split; [apply (mk_co Row r)|apply in_zrange; exact Lb].
Qed.
Lemma in_ranks_rc : forall rc r, In r ranks <-> 0 <= co rc r < gs rc /\ 0 <= co (other rc) r < gs (other rc).
Proof using HP HQ. intros [] r; rewrite in_ranks; cbn; tauto. Qed.
Lemma mk_in : forall rc a b, 0 <= a < gs rc -> 0 <= b < gs (other rc) -> In (mk rc a b) ranks.
Proof using HP HQ. intros rc a b La Lb. apply (in_ranks_rc rc). destruct (co_mk rc a b La Lb) as [-> ->]. auto. Qed.
Lemma mk_inj : forall rc a b a' b', 0 <= a < gs rc -> 0 <= b < gs (other rc) -> 0 <= a' < gs rc -> 0 <= b' < gs (other rc) ->
  mk rc a b = mk rc a' b' -> a = a' /\ b = b'.
Proof using HP HQ. intros rc a b a' b' A B A' B' E. destruct (co_mk rc a b A B) as [X1 X2], (co_mk rc a' b' A' B') as [Y1 Y2]. rewrite E in *. split; congruence. Qed.
Lemma in_cm : forall rc a r, In r (members (cm rc a)) <-> In r ranks /\ co rc r = a.
Proof using HP HQ.
  intros rc a r. rewrite (in_ranks_rc rc). destruct rc; cbn [cm members co gs other mk];
  (match goal with |- context [if ?c then _ else _] => destruct c eqn:B end;
   [apply andb_prop in B as [B1 B2]; apply Z.leb_le in B1; apply Z.ltb_lt in B2
   |split; [intros []|]; intros [[X Y] E]; apply Bool.andb_false_iff in B as [B|B]; [apply Z.leb_gt in B|apply Z.ltb_ge in B]; lia]);
  rewrite in_map_iff; split.
  - intros (b & <- & Lb). apply in_zrange in Lb. destruct (co_mk Row a b ltac:(cbn; lia) ltac:(cbn; lia)) as [X Y]. cbn [mk co other] in X, Y. rewrite X, Y. lia.
  - intros [[X Y] <-]. exists (r mod Q). split; [apply (mk_co Row r)|apply in_zrange; exact Y].
  - intros (b & <- & Lb). apply in_zrange in Lb. destruct (co_mk Row b a ltac:(cbn; lia) ltac:(cbn; lia)) as [X Y]. cbn [mk co other] in X, Y. rewrite X, Y. lia.
  - intros [[X Y] <-]. exists (r / Q). split; [apply (mk_co Row r)|apply in_zrange; exact Y].
Qed.
Lemma members_ranks : forall c r, In r (members c) -> In r ranks.
Proof using HP HQ.
  intros [a|b| |s d t|b|s d] r I0.
  - apply (in_cm Row a r) in I0. tauto.
  - apply (in_cm Col b r) in I0. tauto.
  - exact I0.
  - cbn in I0. apply filter_In in I0. tauto.
  - apply (in_cm Col b r) in I0. tauto.
  - cbn in I0. apply filter_In in I0. tauto.
Qed.

(** ** Broadcasts (communication/kernels/broadcast.h:27-58: schedule_bcast_send, schedule_bcast_recv) *)
Section bcast.
Context {V : Type}.
Definition bsend (c : comm) (root : Z) (t : tid) : cact V := CAct c (SBcast root) (Some t) None [] (fun _ v => v).
Definition brecv (c : comm) (root : Z) (t : tid) : cact V := CAct c (SBcast root) None (Some t) [root] (fun vs v => hd v vs).
(** the root sends tile src, rank r receives in dst r *)
Definition ebcast (c : comm) (root : Z) (src : tid) (dst : Z -> tid) : event V :=
  EColl c (fun r => if r =? root then bsend c root src else brecv c root (dst r)).

Lemma ebcast_ok : forall c root src dst, In root (members c) -> t_rank src = root ->
  (forall r, In r (members c) -> r <> root -> t_rank (dst r) = r) -> event_ok members ranks (ebcast c root src dst).
Proof using HP HQ.
  intros c root src dst MR RS RD. constructor.
  - intros r a E. cbn in E. destruct (member_spec members c r); [|discriminate]. apply (members_ranks c). assumption.
  - intros r a t E T. cbn in E. destruct (member_spec members c r) as [M|]; [|discriminate]. injection E as <-.
    destruct (Z.eqb_spec r root) as [->|N]; cbn in T; destruct T as [T|T]; try destruct T as [<-|[]]; try destruct T; auto.
  - intros c' part E r M. injection E as <- <-. destruct (r =? root); reflexivity.
  - intros c' part E r q M1 M2. injection E as <- <-. destruct (r =? root), (q =? root); reflexivity.
  - intros c' part E r q M1 M2. injection E as <- <-. destruct (Z.eqb_spec r root) as [->|N]; cbn in M2; [destruct M2|].
    destruct M2 as [<-|[]]. split; [exact MR|]. rewrite Z.eqb_refl. cbn. discriminate.
Qed.
Lemma ebcast_proj : forall c root src dst r, proj members r [ebcast c root src dst] =
  if member members c r then [ACom (if r =? root then bsend c root src else brecv c root (dst r))] else [].
Proof. intros. cbn. destruct (member members c r); reflexivity. Qed.
Lemma eexec_bcast : forall c root src dst (st : tstore V) x,
  eexec members st (ebcast c root src dst) x =
  if member members c (t_rank x) && negb (t_rank x =? root) && tid_eqb x (dst (t_rank x)) then st src else st x.
Proof.
  intros c root src dst st x. cbn [ebcast eexec]. destruct (member members c (t_rank x)); [|reflexivity]. cbn [andb].
  destruct (Z.eqb_spec (t_rank x) root) as [E|E]; cbn [bsend brecv ca_out ca_fun ca_needs negb andb].
  - reflexivity.
  - cbn [map]. rewrite Z.eqb_refl. cbn. destruct (tid_eqb x (dst (t_rank x))); reflexivity.
Qed.
(** Simplification: the effect at a receiver and elsewhere. *)
Lemma bcast_dst : forall c root src dst (st : tstore V) r, In r (members c) -> r <> root -> t_rank (dst r) = r ->
  eexec members st (ebcast c root src dst) (dst r) = st src.
Proof.
  intros c root src dst st r M N RK. rewrite eexec_bcast, RK. destruct (member_spec members c r); [|contradiction].
  destruct (Z.eqb_spec r root); [contradiction|]. destruct (tid_eqb_spec (dst r) (dst r)); [reflexivity|congruence].
Qed.
Lemma bcast_frame : forall c root src dst (st : tstore V) x, (forall r, In r (members c) -> r <> root -> x <> dst r) ->
  eexec members st (ebcast c root src dst) x = st x.
Proof.
  intros c root src dst st x N. rewrite eexec_bcast. destruct (member_spec members c (t_rank x)) as [M|]; [|reflexivity].
  destruct (Z.eqb_spec (t_rank x) root); [reflexivity|]. destruct (tid_eqb_spec x (dst (t_rank x))); [|reflexivity]. exfalso. apply (N (t_rank x)); assumption.
Qed.

(** ** Kernels *)
Lemma eloc_ok : forall r (j : tjob V), In r ranks -> (forall t, In t (tj_in j) \/ t = tj_out j -> t_rank t = r) -> event_ok members ranks (ELoc r j).
Proof.
  intros r j R T. constructor; try discriminate.
  - intros q a E. cbn in E. destruct (Z.eqb_spec r q) as [<-|]; [exact R|discriminate].
  - intros q a t E I0. cbn in E. destruct (Z.eqb_spec r q) as [<-|]; [|discriminate]. injection E as <-. apply T. cbn in I0.
    destruct I0 as [I0|[I0|[]]]; [left; exact I0|right; congruence].
Qed.
Lemma erun_app : forall (a b : list (event V)) st, erun members (a ++ b) st = erun members b (erun members a st).
Proof. intros. unfold erun. apply fold_left_app. Qed.
Lemma erun_cons : forall (e : event V) l st, erun members (e :: l) st = erun members l (eexec members st e).
Proof. reflexivity. Qed.
Lemma erun_flat_inv : forall (body : Z -> list (event V)) lo hi (I : Z -> tstore V -> Prop) st, lo <= hi -> I lo st ->
  (forall k st, lo <= k < hi -> I k st -> I (k + 1) (erun members (body k) st)) -> I hi (erun members (flat_map body (zrange lo hi)) st).
Proof.
  intros body lo hi I st L I0 STEP.
  remember (Z.to_nat (hi - lo)) as n eqn:E. revert lo st L I0 STEP E. induction n as [|n IH]; intros lo st L I0 STEP E.
  - assert (lo = hi) as <- by lia. rewrite zrange_nil by lia. exact I0.
  - rewrite zrange_cons by lia. cbn [flat_map]. rewrite erun_app. apply IH; [lia|apply STEP; [lia|exact I0]| |lia].
    intros k st' Lk. apply STEP. lia.
Qed.
(** simulation: the events of a loop against the jobs of a loop *)
Lemma sim_loop : forall (eb : Z -> list (event V)) (lb : Z -> list (tjob V)) (Rl : tstore V -> tstore V -> Prop) l st lst,
  (forall k st lst, In k l -> Rl st lst -> Rl (erun members (eb k) st) (trun (lb k) lst)) -> Rl st lst ->
  Rl (erun members (flat_map eb l) st) (trun (flat_map lb l) lst).
Proof.
  intros eb lb Rl. induction l as [|k l IH]; intros st lst STEP R0; [exact R0|]. cbn [flat_map]. rewrite erun_app, trun_app.
  apply IH; [intros k' st' lst' I0; apply STEP; right; exact I0|]. apply STEP; [left; reflexivity|exact R0].
Qed.
Lemma proj_flat : forall {A} r (body : A -> list (event V)) l, proj members r (flat_map body l) = flat_map (fun k => proj members r (body k)) l.
Proof. intros. unfold proj. apply flat_map_flat_map. Qed.
Lemma proj_app' : forall r (a b : list (event V)), proj members r (a ++ b) = proj members r a ++ proj members r b.
Proof. intros. apply flat_map_app. Qed.
Lemma proj_eloc : forall r q (j : tjob V), proj members r [ELoc q j] = if q =? r then [ALoc j] else [].
Proof. intros. cbn. destruct (q =? r); reflexivity. Qed.
Lemma forall_flat : forall {A} (p : event V -> Prop) (body : A -> list (event V)) l, (forall k, In k l -> Forall p (body k)) -> Forall p (flat_map body l).
Proof. induction l as [|k l IH]; intros H; [constructor|]. cbn. apply Forall_app. split; [apply H; left; reflexivity|apply IH; intros; apply H; right; assumption]. Qed.
(** the value computed by a job depends only on the values of its tiles *)
Lemma tval_sim : forall (j j' : tjob V) st st', tj_fun j = tj_fun j' -> map st (tj_in j) = map st' (tj_in j') -> st (tj_out j) = st' (tj_out j') -> tval j st = tval j' st'.
Proof. intros j j' st st' A B C. unfold tval. rewrite A, B, C. reflexivity. Qed.
End bcast.

(** ** The tiles of a rank along one axis *)
(** D rc p: the axis rc of the Distribution object of the ranks with coordinate p *)
Section local.
Variable L : layout.
Variable p : Z.
Variable a : axis.
Hypothesis M : models p L a.
Notation nt := (ax_nr_tiles a).
Lemma next_step : forall t, 0 <= t -> ax_next_local_tile_from_global_tile a (t + 1) = ax_next_local_tile_from_global_tile a t + (if tile_owner L t =? p then 1 else 0).
Proof.
  intros t Lt. rewrite !(T_next_local p L a M) by lia. unfold count. replace (Z.to_nat (t + 1)) with (S (Z.to_nat t)) by lia. cbn [count_nat].
  rewrite Z2Nat.id by lia. reflexivity.
Qed.
Lemma next_glob : forall t, 0 <= t < nt -> tile_owner L t = p -> ax_global_tile_from_local_tile a (ax_next_local_tile_from_global_tile a t) = t.
Proof.
  intros t Lt O. rewrite (T_next_local p L a M) by lia. rewrite <- (T_global_tile_inv p L a M t Lt O) at 2.
  rewrite (T_local_tile p L a M) by lia. rewrite O, Z.eqb_refl. reflexivity.
Qed.
Lemma local_tiles : forall lo hi, 0 <= lo <= hi -> hi <= nt ->
  map (ax_global_tile_from_local_tile a) (zrange (ax_next_local_tile_from_global_tile a lo) (ax_next_local_tile_from_global_tile a hi)) =
  filter (fun t => tile_owner L t =? p) (zrange lo hi).
Proof.
  intros lo hi H. remember (Z.to_nat (hi - lo)) as n eqn:E. revert hi H E. induction n as [|n IH]; intros hi H E LE.
  - assert (hi = lo) as -> by lia. rewrite !zrange_nil by lia. reflexivity.
  - replace hi with (hi - 1 + 1) by lia. rewrite (zrange_snoc lo) by lia. rewrite filter_app, <- IH by lia. rewrite next_step by lia. cbn [filter].
    assert (LL : ax_next_local_tile_from_global_tile a lo <= ax_next_local_tile_from_global_tile a (hi - 1)).
    { rewrite !(T_next_local p L a M) by lia. apply count_mono. lia. }
    destruct (Z.eqb_spec (tile_owner L (hi - 1)) p) as [O|O].
    + rewrite zrange_snoc by lia. rewrite map_app. cbn [map]. rewrite next_glob by (try lia; exact O). reflexivity.
    + rewrite Z.add_0_r, app_nil_r. reflexivity.
Qed.
(** a loop over local tiles is a loop over the global tiles that keeps those owned *)
Lemma local_loop : forall {B} (f : Z -> list B) lo hi, 0 <= lo <= hi -> hi <= nt ->
  flat_map (fun l => f (ax_global_tile_from_local_tile a l)) (zrange (ax_next_local_tile_from_global_tile a lo) (ax_next_local_tile_from_global_tile a hi)) =
  flat_map (fun t => if tile_owner L t =? p then f t else []) (zrange lo hi).
Proof.
  intros B f lo hi H LE. rewrite <- (flat_map_map f). rewrite local_tiles by assumption. apply flat_map_filter.
Qed.
Lemma local_end : ax_local_nr_tiles a = ax_next_local_tile_from_global_tile a nt.
Proof. apply (w_lnt a (m_wf _ _ _ M)). Qed.
End local.
End grid.
