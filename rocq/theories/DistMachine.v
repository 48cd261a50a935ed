(** * Distributed execution: ranks that run asynchronous tasks and MPI operations.
    Every rank runs the same program text with its own rank number and submits a list of actions: kernels
    on its own tiles, and communications. A kernel may run as soon as no action submitted earlier by the
    same rank that touches the same tile in a conflicting way is still unfinished (tile pipelines:
    common/pipeline.h, matrix/internal/tile_pipeline.h; C19, C20). A communication needs in addition exclusive
    access to its communicator, that is kept until the MPI call has been made and not until it completes
    (communication/communicator_pipeline.h, sender/transform_mpi.h:63-101: non-blocking call, then the
    communicator is released and the request is polled): calls on a communicator are made in the order of
    submission, and MPI matches the n-th call of every member. *)
From Coq Require Import ZArith Lia List Bool Wf_nat.
From Verif Require Import Loop DenseJobs.
Import ListNotations.
Local Open Scope nat_scope.

(** Communicators: row and column communicators of the grid, a second column communicator (the grid hands its column communicators
    out in turn, communication/communicator_grid.h:120-122: with at least two of them, two calls give different ones), the full one,
    and the point-to-point channels: messages between a pair of ranks with a given tag, that do not overtake each other; CMsg for those
    sent with exclusive access to a column communicator (all of them with the same tag). *)
Inductive comm := CRow (r : Z) | CCol (c : Z) | CFull | CP2P (src dst tag : Z) | CCol2 (c : Z) | CMsg (src dst : Z).
Definition comm_eqb (a b : comm) : bool :=
  match a, b with
  | CRow x, CRow y => (x =? y)%Z
  | CCol x, CCol y => (x =? y)%Z
  | CCol2 x, CCol2 y => (x =? y)%Z
  | CFull, CFull => true
  | CP2P a1 a2 a3, CP2P b1 b2 b3 => ((a1 =? b1) && (a2 =? b2) && (a3 =? b3))%Z
  | CMsg a1 a2, CMsg b1 b2 => ((a1 =? b1) && (a2 =? b2))%Z
  | _, _ => false
  end.
Lemma comm_eqb_spec : forall a b, reflect (a = b) (comm_eqb a b).
Proof.
  intros [x|x| |a1 a2 a3|x|a1 a2] [y|y| |b1 b2 b3|y|b1 b2]; cbn; try (constructor; congruence).
  - destruct (Z.eqb_spec x y); constructor; congruence.
  - destruct (Z.eqb_spec x y); constructor; congruence.
  - destruct (Z.eqb_spec a1 b1), (Z.eqb_spec a2 b2), (Z.eqb_spec a3 b3); cbn; constructor; congruence.
  - destruct (Z.eqb_spec x y); constructor; congruence.
  - destruct (Z.eqb_spec a1 b1), (Z.eqb_spec a2 b2); cbn; constructor; congruence.
Qed.
(** Calls that go through the same pipeline of a rank, which takes them in the order of submission: those on the same communicator or
    channel; and all the messages that a rank sends or receives with exclusive access to its column communicator. *)
Definition same_pipe (a b : comm) : bool :=
  match a, b with CMsg _ _, CMsg _ _ => true | _, _ => comm_eqb a b end.

(** What the members of a communicator must agree on when they make a call. *)
Inductive signature := SBcast (root : Z) | SReduce (root : Z) | SAllReduce | SMessage.

Section machine.
Context {V : Type}.
(** One member's part in a communication: the tile whose content it contributes, the tile it receives in,
    the members whose contribution it needs, and what it stores, given these and the old content. *)
Record cact := CAct {
  ca_comm : comm; ca_sig : signature; ca_in : option tid; ca_out : option tid; ca_needs : list Z;
  ca_fun : list V -> V -> V }.
Inductive act := ALoc (j : tjob V) | ACom (a : cact).

Definition act_reads (a : act) : list tid :=
  match a with ALoc j => tj_in j | ACom a => match ca_in a with Some t => [t] | None => [] end end.
Definition act_writes (a : act) : list tid :=
  match a with ALoc j => [tj_out j] | ACom a => match ca_out a with Some t => [t] | None => [] end end.
(** both touch a tile, and one of them writes it *)
Definition conflict (a b : act) : Prop :=
  exists t, (In t (act_writes a) /\ (In t (act_reads b) \/ In t (act_writes b))) \/
            (In t (act_writes b) /\ (In t (act_reads a) \/ In t (act_writes a))).
Definition on_comm (c : comm) (a : act) : bool :=
  match a with ALoc _ => false | ACom a => comm_eqb (ca_comm a) c end.
(** how many calls on a communicator a list of actions makes *)
Definition calls (c : comm) (l : list act) : nat := length (filter (on_comm c) l).

Variable members : comm -> list Z.
Variable ranks : list Z.
Variable prog : Z -> list act.

Inductive status := Pending | Issued | Done.
(** content of all the tiles of all the ranks; status of the i-th action of each rank; contributions made
    by each member to the n-th call on each communicator *)
Record dstate := DState { d_store : tstore V; d_stat : Z -> nat -> status; d_msg : comm -> nat -> Z -> option V }.

Definition set_stat (f : Z -> nat -> status) (r : Z) (i : nat) (v : status) : Z -> nat -> status :=
  fun r' i' => if (r' =? r)%Z && Nat.eqb i' i then v else f r' i'.
Definition set_msg (f : comm -> nat -> Z -> option V) c n r v : comm -> nat -> Z -> option V :=
  fun c' n' r' => if comm_eqb c' c && Nat.eqb n' n && (r' =? r)%Z then v else f c' n' r'.

(** the tiles are free for action i of rank r *)
Definition tiles_free (s : dstate) (r : Z) (i : nat) (a : act) : Prop :=
  forall i' b, i' < i -> nth_error (prog r) i' = Some b -> conflict b a -> d_stat s r i' = Done.
(** the communicator is free *)
Definition comm_free (s : dstate) (r : Z) (i : nat) (c : comm) : Prop :=
  forall i' b, i' < i -> nth_error (prog r) i' = Some (ACom b) -> same_pipe (ca_comm b) c = true -> d_stat s r i' <> Pending.
(** the number, on its communicator, of the call made by action i of rank r *)
Definition call_nr (r : Z) (i : nat) (c : comm) : nat := calls c (firstn i (prog r)).
(** rank r has made its n-th call on c *)
Definition has_called (s : dstate) (r : Z) (c : comm) (n : nat) : Prop :=
  exists i b, nth_error (prog r) i = Some b /\ on_comm c b = true /\ call_nr r i c = n /\ d_stat s r i <> Pending.

(** The state after a member completes its part. *)
Definition completed (s : dstate) (r : Z) (i : nat) (a : cact) (vs : list V) : dstate :=
  DState (match ca_out a with Some t => tset (d_store s) t (ca_fun a vs (d_store s t)) | None => d_store s end)
    (set_stat (d_stat s) r i Done) (d_msg s).

(** One step. [eager]: MPI may complete a member's part as soon as the contributions it needs are there
    (for instance a buffered broadcast at its root); when [eager] is false it completes a call only once
    all the members have made it. *)
Inductive dstep (eager : bool) (s : dstate) : dstate -> Prop :=
| ds_run : forall r i j, In r ranks -> nth_error (prog r) i = Some (ALoc j) -> d_stat s r i = Pending ->
    tiles_free s r i (ALoc j) ->
    dstep eager s (DState (texec (d_store s) j) (set_stat (d_stat s) r i Done) (d_msg s))
| ds_call : forall r i a, In r ranks -> nth_error (prog r) i = Some (ACom a) -> d_stat s r i = Pending ->
    tiles_free s r i (ACom a) -> comm_free s r i (ca_comm a) ->
    dstep eager s (DState (d_store s) (set_stat (d_stat s) r i Issued)
      (set_msg (d_msg s) (ca_comm a) (call_nr r i (ca_comm a)) r
         (match ca_in a with Some t => Some (d_store s t) | None => None end)))
| ds_complete : forall r i a vs, In r ranks -> nth_error (prog r) i = Some (ACom a) -> d_stat s r i = Issued ->
    (eager = false -> forall q, In q (members (ca_comm a)) -> has_called s q (ca_comm a) (call_nr r i (ca_comm a))) ->
    map (d_msg s (ca_comm a) (call_nr r i (ca_comm a))) (ca_needs a) = map Some vs ->
    dstep eager s (completed s r i a vs).

Definition dinit (st0 : tstore V) : dstate := DState st0 (fun _ _ => Pending) (fun _ _ _ => None).
Inductive dreach (st0 : tstore V) : dstate -> Prop :=
| dr_init : dreach st0 (dinit st0)
| dr_step : forall s s', dreach st0 s -> dstep true s s' -> dreach st0 s'.
(** every action of every rank has completed *)
Definition dfinal (s : dstate) : Prop := forall r i, In r ranks -> i < length (prog r) -> d_stat s r i = Done.
(** two members make the n-th call on a communicator with different operations or roots *)
Definition mismatch (s : dstate) : Prop :=
  exists c n q1 q2 i1 i2 a1 a2, In q1 ranks /\ In q2 ranks /\
    nth_error (prog q1) i1 = Some (ACom a1) /\ nth_error (prog q2) i2 = Some (ACom a2) /\
    ca_comm a1 = c /\ ca_comm a2 = c /\ call_nr q1 i1 c = n /\ call_nr q2 i2 c = n /\
    d_stat s q1 i1 <> Pending /\ d_stat s q2 i2 <> Pending /\ ca_sig a1 <> ca_sig a2.
(** a member calls an operation on a communicator it does not belong to *)
Definition all_members : Prop := forall r a, In r ranks -> In (ACom a) (prog r) -> In r (members (ca_comm a)).

(** [every_run st0 Q]: in every state reachable from the content st0, whatever the schedulers of the ranks and MPI
    do: if the run is complete Q holds; otherwise a step is possible even if MPI waits for all the members;
    all the members of a communicator make the same calls; and no run is infinite. *)
Definition every_run (st0 : tstore V) (Q : tstore V -> Prop) : Prop :=
  forall s, dreach st0 s ->
    (dfinal s -> Q (d_store s)) /\
    (dfinal s \/ exists s', dstep false s s') /\
    ~ mismatch s /\
    Acc (fun next now => dstep true now next) s.

(** ** Choreographies *)
(** A global event: a kernel at one rank, or a communication with the part of each member. *)
Inductive event := ELoc (r : Z) (j : tjob V) | EColl (c : comm) (part : Z -> cact).
Definition member (c : comm) (r : Z) : bool := existsb (Z.eqb r) (members c).
Lemma member_spec : forall c r, reflect (In r (members c)) (member c r).
Proof.
  intros c r. destruct (member c r) eqn:E; constructor.
  - apply existsb_exists in E as (x & A & B). apply Z.eqb_eq in B. subst. exact A.
  - intros I0. apply Bool.not_true_iff_false in E. apply E. apply existsb_exists. exists r. split; [exact I0|apply Z.eqb_refl].
Qed.
(** the action of rank r in an event *)
Definition eact (r : Z) (e : event) : option act :=
  match e with
  | ELoc q j => if (q =? r)%Z then Some (ALoc j) else None
  | EColl c part => if member c r then Some (ACom (part r)) else None
  end.
Definition olist {A} (o : option A) : list A := match o with Some a => [a] | None => [] end.
Definition proj (r : Z) (G : list event) : list act := flat_map (fun e => olist (eact r e)) G.
(** the effect of an event: a communication acts at once for all its members *)
Definition eexec (st : tstore V) (e : event) : tstore V :=
  match e with
  | ELoc _ j => texec st j
  | EColl c part => fun x =>
      let a := part (t_rank x) in
      if member c (t_rank x) && match ca_out a with Some t => tid_eqb x t | None => false end
      then ca_fun a (map (fun q => match ca_in (part q) with Some t => st t | None => st x end) (ca_needs a)) (st x)
      else st x
  end.
Definition erun (G : list event) (st : tstore V) : tstore V := fold_left eexec G st.

Record event_ok (e : event) : Prop := {
  eo_rank : forall r a, eact r e = Some a -> In r ranks;
  eo_own : forall r a t, eact r e = Some a -> In t (act_reads a) \/ In t (act_writes a) -> t_rank t = r;
  eo_comm : forall c part, e = EColl c part -> forall r, In r (members c) -> ca_comm (part r) = c;
  eo_sig : forall c part, e = EColl c part -> forall r q, In r (members c) -> In q (members c) -> ca_sig (part r) = ca_sig (part q);
  eo_needs : forall c part, e = EColl c part -> forall r q, In r (members c) -> In q (ca_needs (part r)) ->
     In q (members c) /\ ca_in (part q) <> None;
}.

Section proof.
Variable G : list event.
Variable st0 : tstore V.
Hypothesis PROJ : forall r, In r ranks -> prog r = proj r G.
Hypothesis OK : Forall event_ok G.

(** number of actions of r in the first g events, content of the tiles after them *)
Definition idx (r : Z) (g : nat) : nat := length (proj r (firstn g G)).
Definition val (g : nat) : tstore V := erun (firstn g G) st0.
Definition ev (r : Z) (g : nat) : option act := match nth_error G g with Some e => eact r e | None => None end.
Definition gcalls (c : comm) (g : nat) : nat :=
  length (filter (fun e => match e with EColl c' _ => comm_eqb c' c | _ => false end) (firstn g G)).

Lemma firstn_S : forall {A} (l : list A) g e, nth_error l g = Some e -> firstn (S g) l = firstn g l ++ [e].
Proof.
  induction l as [|a l IH]; intros [|g] e E; cbn in *; try discriminate; [congruence|]. f_equal. apply IH. exact E.
Qed.
Lemma proj_app : forall r A B, proj r (A ++ B) = proj r A ++ proj r B.
Proof. intros. apply flat_map_app. Qed.
Lemma val_S : forall g e, nth_error G g = Some e -> val (S g) = eexec (val g) e.
Proof. intros g e E. unfold val, erun. rewrite (firstn_S _ _ _ E), fold_left_app. reflexivity. Qed.
Lemma idx_S : forall r g e, nth_error G g = Some e -> idx r (S g) = idx r g + length (olist (eact r e)).
Proof.
  intros r g e E. unfold idx. rewrite (firstn_S _ _ _ E), proj_app, app_length. cbn. rewrite app_nil_r. reflexivity.
Qed.
Lemma ev_in : forall r g a, ev r g = Some a -> exists e, nth_error G g = Some e /\ eact r e = Some a.
Proof. intros r g a E. unfold ev in E. destruct (nth_error G g) as [e|]; [|discriminate]. eauto. Qed.
Lemma ev_rank : forall r g a, ev r g = Some a -> In r ranks.
Proof.
  intros r g a E. apply ev_in in E as (e & E1 & E2). pose proof (proj1 (Forall_forall _ _) OK) as OKF.
  apply (eo_rank e (OKF e (nth_error_In _ _ E1)) r a E2).
Qed.
(** the action of r in event g is action number idx r g of its program *)
Lemma nth_idx : forall r g a, ev r g = Some a -> nth_error (prog r) (idx r g) = Some a.
Proof.
  intros r g a E. rewrite (PROJ r (ev_rank _ _ _ E)). apply ev_in in E as (e & E1 & E2).
  rewrite <- (firstn_skipn g G). rewrite proj_app.
  rewrite nth_error_app2 by (unfold idx; lia). unfold idx. rewrite Nat.sub_diag.
  assert (skipn g G = e :: skipn (S g) G) as ->.
  { clear E2. revert g E1. generalize G as l. induction l as [|b l IH]; intros [|g] E1; cbn in *; try discriminate; [congruence|]. apply IH. exact E1. }
  unfold proj at 1. cbn [flat_map]. rewrite E2. reflexivity.
Qed.
Lemma idx_lt : forall r g g' a, ev r g = Some a -> g < g' -> g' <= length G -> idx r g < idx r g'.
Proof.
  intros r g g' a E L. induction g' as [|h IH]; [lia|]. intros LG.
  assert (exists e, nth_error G h = Some e) as [e Eh].
  { destruct (nth_error G h) eqn:Q; [eauto|]. apply nth_error_None in Q. lia. }
  rewrite (idx_S r h e Eh). destruct (Nat.eq_dec h g) as [->|N].
  - apply ev_in in E as (e' & E1 & E2). assert (e' = e) as -> by congruence. rewrite E2. cbn. lia.
  - assert (idx r g < idx r h) by (apply IH; lia). lia.
Qed.
Lemma ev_len : forall r g a, ev r g = Some a -> g < length G.
Proof. intros r g a E. apply ev_in in E as (e & E1 & _). apply nth_error_Some. congruence. Qed.
(** and conversely *)
Lemma idx_onto : forall r i a, In r ranks -> nth_error (prog r) i = Some a -> exists g, ev r g = Some a /\ idx r g = i.
Proof.
  intros r i a R E. rewrite (PROJ r R) in E.
  assert (X : forall n, n <= length G -> i < length (proj r (firstn n G)) -> exists g, g < n /\ idx r g = i /\ ev r g <> None).
  { induction n as [|n IH]; intros Ln Li; [cbn in Li; lia|].
    assert (exists e, nth_error G n = Some e) as [e En].
    { destruct (nth_error G n) eqn:Q; [eauto|]. apply nth_error_None in Q. lia. }
    destruct (Nat.lt_ge_cases i (length (proj r (firstn n G)))) as [L|L].
    - destruct (IH ltac:(lia) L) as (g & A & B). exists g. split; [lia|exact B].
    - rewrite (firstn_S _ _ _ En), proj_app, app_length in Li. cbn in Li. rewrite app_nil_r in Li.
      exists n. split; [lia|]. unfold ev. rewrite En. destruct (eact r e); cbn in Li; [|lia]. split; [unfold idx; lia|discriminate]. }
  destruct (X (length G) (le_n _)) as (g & A & B & C).
  - rewrite firstn_all. apply nth_error_Some. congruence.
  - destruct (ev r g) as [b|] eqn:Q; [|congruence]. exists g. split; [|exact B].
    pose proof (nth_idx r g b Q) as N. rewrite B, (PROJ r R) in N. congruence.
Qed.
Lemma idx_inj : forall r g g' a a', ev r g = Some a -> ev r g' = Some a' -> idx r g = idx r g' -> g = g'.
Proof.
  intros r g g' a a' E E' I. destruct (Nat.lt_trichotomy g g') as [L|[L|L]]; [|exact L|].
  - pose proof (idx_lt r g g' a E L). pose proof (ev_len _ _ _ E'). lia.
  - pose proof (idx_lt r g' g a' E' L). pose proof (ev_len _ _ _ E). lia.
Qed.
Lemma idx_lt_inv : forall r g g' a a', ev r g = Some a -> ev r g' = Some a' -> idx r g < idx r g' -> g < g'.
Proof.
  intros r g g' a a' E E' I. destruct (Nat.lt_trichotomy g g') as [L|[->|L]]; [exact L|lia|].
  pose proof (idx_lt r g' g a' E' L). pose proof (ev_len _ _ _ E). lia.
Qed.
Lemma ev_coll : forall r g a, ev r g = Some (ACom a) ->
  exists part, nth_error G g = Some (EColl (ca_comm a) part) /\ In r (members (ca_comm a)) /\ a = part r.
Proof.
  intros r g a E. apply ev_in in E as (e & E1 & E2). destruct e as [q j|c part]; cbn in E2.
  - destruct (q =? r)%Z; discriminate.
  - destruct (member_spec c r) as [M|M]; [|discriminate]. injection E2 as <-.
    pose proof (proj1 (Forall_forall _ _) OK) as OKF. pose proof (eo_comm _ (OKF _ (nth_error_In _ _ E1)) c part eq_refl r M) as C.
    exists part. rewrite C. auto.
Qed.
Lemma coll_ev : forall c part g r, nth_error G g = Some (EColl c part) -> In r (members c) -> ev r g = Some (ACom (part r)) /\ ca_comm (part r) = c.
Proof.
  intros c part g r E M. unfold ev. rewrite E. cbn. destruct (member_spec c r); [|contradiction]. split; [reflexivity|].
  pose proof (proj1 (Forall_forall _ _) OK) as OKF. apply (eo_comm _ (OKF _ (nth_error_In _ _ E)) c part eq_refl r M).
Qed.
(** the members agree on the number of a call *)
Lemma call_nr_global : forall r g a, ev r g = Some (ACom a) -> call_nr r (idx r g) (ca_comm a) = gcalls (ca_comm a) g.
Proof.
  intros r g a E. pose proof (ev_rank _ _ _ E) as R. destruct (ev_coll r g a E) as (part & E1 & M & _).
  unfold call_nr. rewrite (PROJ r R).
  assert (firstn (idx r g) (proj r G) = proj r (firstn g G)) as ->.
  { assert (proj r G = proj r (firstn g G) ++ proj r (skipn g G)) as -> by (rewrite <- proj_app, firstn_skipn; reflexivity). unfold idx.
    rewrite firstn_app, Nat.sub_diag, firstn_O, app_nil_r. apply firstn_all. }
  unfold calls, gcalls. clear E E1. set (c := ca_comm a) in *.
  assert (X : forall l, incl l G -> length (filter (on_comm c) (proj r l)) =
     length (filter (fun e => match e with EColl c' _ => comm_eqb c' c | _ => false end) l)).
  { induction l as [|e l IH]; intros IN; [reflexivity|]. unfold proj. cbn [flat_map filter]. fold (proj r l).
    rewrite filter_app, app_length, IH by (intros x Ix; apply IN; right; exact Ix).
    assert (Ie : In e G) by (apply IN; left; reflexivity).
    destruct e as [q j|c' part']; cbn [eact].
    - destruct (q =? r)%Z; reflexivity.
    - destruct (comm_eqb_spec c' c) as [->|N].
      + destruct (member_spec c r); [|contradiction]. cbn. pose proof (proj1 (Forall_forall _ _) OK) as OKF.
        rewrite (eo_comm _ (OKF _ Ie) c part' eq_refl r M). destruct (comm_eqb_spec c c); [reflexivity|congruence].
      + destruct (member_spec c' r) as [M'|_]; [|reflexivity]. cbn. pose proof (proj1 (Forall_forall _ _) OK) as OKF.
        rewrite (eo_comm _ (OKF _ Ie) c' part' eq_refl r M'). destruct (comm_eqb_spec c' c); [congruence|reflexivity]. }
  apply X. intros x Ix. rewrite <- (firstn_skipn g G). apply in_or_app. left. exact Ix.
Qed.
Lemma gcalls_lt : forall c part g g', nth_error G g = Some (EColl c part) -> g < g' -> g' <= length G -> gcalls c g < gcalls c g'.
Proof.
  intros c part g g' E L. induction g' as [|h IH]; [lia|]. intros LG.
  assert (exists e, nth_error G h = Some e) as [e Eh].
  { destruct (nth_error G h) eqn:Q; [eauto|]. apply nth_error_None in Q. lia. }
  unfold gcalls at 2. rewrite (firstn_S _ _ _ Eh), filter_app, app_length. fold (gcalls c h).
  destruct (Nat.eq_dec h g) as [->|N].
  - assert (e = EColl c part) as -> by congruence. cbn. destruct (comm_eqb_spec c c); [cbn; lia|congruence].
  - assert (gcalls c g < gcalls c h) by (apply IH; lia). lia.
Qed.
Lemma gcalls_inj : forall c part part' g g', nth_error G g = Some (EColl c part) -> nth_error G g' = Some (EColl c part') ->
  gcalls c g = gcalls c g' -> g = g'.
Proof.
  intros c part part' g g' E E' I.
  assert (g < length G) by (apply nth_error_Some; congruence). assert (g' < length G) by (apply nth_error_Some; congruence).
  destruct (Nat.lt_trichotomy g g') as [L|[L|L]]; [|exact L|].
  - pose proof (gcalls_lt c part g g' E L). lia.
  - pose proof (gcalls_lt c part' g' g E' L). lia.
Qed.

(** who writes a tile: only its own rank *)
Definition writes (g : nat) (x : tid) : Prop := exists a, ev (t_rank x) g = Some a /\ In x (act_writes a).
Lemma own : forall r g a t, ev r g = Some a -> In t (act_reads a) \/ In t (act_writes a) -> t_rank t = r.
Proof.
  intros r g a t E I0. apply ev_in in E as (e & E1 & E2). pose proof (proj1 (Forall_forall _ _) OK) as OKF.
  apply (eo_own e (OKF e (nth_error_In _ _ E1)) r a t E2 I0).
Qed.
Lemma val_frame1 : forall g x, ~ writes g x -> val (S g) x = val g x.
Proof.
  intros g x N. destruct (nth_error G g) as [e|] eqn:E.
  - rewrite (val_S _ _ E). destruct e as [q j|c part]; cbn [eexec].
    + unfold texec. apply tset_neq. intros ->. apply N.
      assert (ev q g = Some (ALoc j)) as Ev by (unfold ev; rewrite E; cbn; rewrite Z.eqb_refl; reflexivity).
      assert (t_rank (tj_out j) = q) as R by (apply (own q g _ _ Ev); right; left; reflexivity).
      exists (ALoc j). rewrite R. split; [exact Ev|left; reflexivity].
    + destruct (member_spec c (t_rank x)) as [M|M]; [|reflexivity]. cbn [andb].
      destruct (ca_out (part (t_rank x))) as [t|] eqn:Q; [|reflexivity]. destruct (tid_eqb_spec x t) as [->|_]; [|reflexivity].
      exfalso. apply N. exists (ACom (part (t_rank t))). split; [apply (coll_ev c part g _ E M)|]. cbn. rewrite Q. left. reflexivity.
  - assert (length G <= g) by (apply nth_error_None; exact E). unfold val. rewrite !firstn_all2 by lia. reflexivity.
Qed.
Lemma val_frame : forall g g' x, g <= g' -> (forall h, g <= h < g' -> ~ writes h x) -> val g' x = val g x.
Proof.
  intros g g' x L. induction g' as [|h IH]; intros N; [replace g with 0 by lia; reflexivity|].
  destruct (Nat.eq_dec g (S h)) as [->|N1]; [reflexivity|]. rewrite val_frame1 by (apply N; lia). apply IH; [lia|].
  intros k Lk. apply N. lia.
Qed.

Definition st (s : dstate) (r : Z) (g : nat) : status := d_stat s r (idx r g).
Record dinv (s : dstate) : Prop := {
  di_order : forall r g g' a b, ev r g = Some a -> ev r g' = Some b -> g' < g -> conflict b a -> st s r g <> Pending -> st s r g' = Done;
  di_local : forall r g j, ev r g = Some (ALoc j) -> st s r g <> Issued;
  di_msg : forall r g a, ev r g = Some (ACom a) ->
    d_msg s (ca_comm a) (gcalls (ca_comm a) g) r =
      (match st s r g with Pending => None | _ => match ca_in a with Some t => Some (val g t) | None => None end end);
  di_store : forall x g, (forall h, h < g -> writes h x -> st s (t_rank x) h = Done) ->
    (forall h, g <= h -> writes h x -> st s (t_rank x) h <> Done) -> d_store s x = val g x;
}.

Lemma conflict_sym : forall a b, conflict a b -> conflict b a.
Proof. intros a b (t & [[A B]|[A B]]); exists t; [right|left]; auto. Qed.

(** the content of a tile when the action of event g on it takes place *)
Lemma store_at : forall s r g a t, dinv s -> ev r g = Some a -> In t (act_reads a) \/ In t (act_writes a) ->
  st s r g <> Done -> (forall h b, h < g -> ev r h = Some b -> conflict b a -> st s r h = Done) -> d_store s t = val g t.
Proof.
  intros s r g a t I E T ND FREE. pose proof (own r g a t E T) as R. apply (di_store s I).
  - intros h Lh (b & Eb & Wb). rewrite R in *. apply (FREE h b Lh Eb). exists t. left. tauto.
  - intros h Lh (b & Eb & Wb). rewrite R in *. destruct (Nat.eq_dec h g) as [->|N]; [exact ND|].
    intros D. apply ND. apply (di_order s I r h g b a Eb E); [lia| |rewrite D; discriminate].
    exists t. right. tauto.
Qed.

Lemma set_stat_g : forall f r g q h v a b, ev r g = Some a -> ev q h = Some b ->
  set_stat f r (idx r g) v q (idx q h) = if (q =? r)%Z && Nat.eqb h g then v else f q (idx q h).
Proof.
  intros f r g q h v a b Ea Eb. unfold set_stat. destruct (Z.eqb_spec q r) as [->|N]; [|reflexivity]. cbn [andb].
  destruct (Nat.eqb_spec h g) as [->|N].
  - rewrite Nat.eqb_refl. reflexivity.
  - destruct (Nat.eqb_spec (idx r h) (idx r g)) as [E|_]; [|reflexivity]. exfalso. apply N. apply (idx_inj r h g b a Eb Ea E).
Qed.

(** writing one tile at event g *)
Lemma store_write : forall s r g a stat' v t, dinv s -> ev r g = Some a -> act_writes a = [t] -> st s r g <> Done ->
  (forall h b, h < g -> ev r h = Some b -> conflict b a -> st s r h = Done) ->
  stat' = set_stat (d_stat s) r (idx r g) Done -> v = val (S g) t ->
  forall x g0, (forall h, h < g0 -> writes h x -> stat' (t_rank x) (idx (t_rank x) h) = Done) ->
    (forall h, g0 <= h -> writes h x -> stat' (t_rank x) (idx (t_rank x) h) <> Done) -> tset (d_store s) t v x = val g0 x.
Proof.
  intros s r g a stat' v t I E W ND FREE -> -> x g0 B A.
  assert (TW : In t (act_writes a)) by (rewrite W; left; reflexivity).
  pose proof (own r g a t E (or_intror TW)) as R.
  destruct (tid_eqb_spec x t) as [->|N].
  - rewrite tset_eq. assert (WG : writes g t) by (exists a; rewrite R; auto).
    assert (g < g0) as L.
    { destruct (Nat.lt_ge_cases g g0) as [L|L]; [exact L|]. exfalso. apply (A g L WG). rewrite R, (set_stat_g _ _ _ _ _ _ a a E E), Z.eqb_refl, Nat.eqb_refl. reflexivity. }
    symmetry. apply val_frame; [lia|]. intros h Lh Wh. pose proof (B h ltac:(lia) Wh) as B1. clear B. rename B1 into B. destruct Wh as (b & Eb & Wb). rewrite R in Eb.
    assert (D : st s r h = Done).
    { rewrite R, (set_stat_g _ _ _ _ _ _ a b E Eb) in B.
      replace (Nat.eqb h g) with false in B by (symmetry; apply Nat.eqb_neq; lia). rewrite Bool.andb_false_r in B. exact B. }
    apply ND. apply (di_order s I r h g b a Eb E); [lia| |rewrite D; discriminate]. exists t. right. tauto.
  - rewrite tset_neq by exact N. apply (di_store s I).
    + intros h Lh Wh. pose proof (B h Lh Wh) as Q. destruct Wh as (b & Eb & Wb). rewrite (set_stat_g _ _ _ _ _ _ a b E Eb) in Q.
      destruct (Z.eqb_spec (t_rank x) r) as [Rx|_]; [|exact Q]. destruct (Nat.eqb_spec h g) as [->|_]; [|exact Q].
      exfalso. rewrite Rx in Eb. assert (b = a) as -> by congruence. rewrite W in Wb. destruct Wb as [->|[]]; congruence.
    + intros h Lh Wh. pose proof (A h Lh Wh) as Q. destruct Wh as (b & Eb & Wb). rewrite (set_stat_g _ _ _ _ _ _ a b E Eb) in Q.
      destruct (Z.eqb_spec (t_rank x) r) as [Rx|_]; [|exact Q]. destruct (Nat.eqb_spec h g) as [->|_]; [|exact Q]. exfalso. apply Q. reflexivity.
Qed.
(** an action that does not write *)
Lemma store_nowrite : forall s r g a stat' w, dinv s -> ev r g = Some a -> act_writes a = [] \/ w <> Done -> st s r g <> Done ->
  stat' = set_stat (d_stat s) r (idx r g) w ->
  forall x g0, (forall h, h < g0 -> writes h x -> stat' (t_rank x) (idx (t_rank x) h) = Done) ->
    (forall h, g0 <= h -> writes h x -> stat' (t_rank x) (idx (t_rank x) h) <> Done) -> d_store s x = val g0 x.
Proof.
  intros s r g a stat' w I E W ND -> x g0 B A. apply (di_store s I).
  - intros h Lh Wh. pose proof (B h Lh Wh) as Q. destruct Wh as (b & Eb & Wb). rewrite (set_stat_g _ _ _ _ _ _ a b E Eb) in Q.
    destruct (Z.eqb_spec (t_rank x) r) as [Rx|_]; [|exact Q]. destruct (Nat.eqb_spec h g) as [->|_]; [|exact Q].
    exfalso. rewrite Rx in Eb. assert (b = a) as -> by congruence. destruct W as [W|W]; [rewrite W in Wb; destruct Wb|]. cbn in Q. contradiction.
  - intros h Lh Wh. pose proof (A h Lh Wh) as Q. destruct Wh as (b & Eb & Wb). rewrite (set_stat_g _ _ _ _ _ _ a b E Eb) in Q.
    destruct (Z.eqb_spec (t_rank x) r) as [Rx|_]; [|exact Q]. destruct (Nat.eqb_spec h g) as [->|_]; [|exact Q]. rewrite Rx. exact ND.
Qed.
(** order and kind of the actions, after a change of status *)
Lemma order_step : forall s r g a w, dinv s -> ev r g = Some a -> w <> Pending -> st s r g <> Done ->
  (forall h b, h < g -> ev r h = Some b -> conflict b a -> st s r h = Done) ->
  forall q h h' b b', ev q h = Some b -> ev q h' = Some b' -> h' < h -> conflict b' b ->
    set_stat (d_stat s) r (idx r g) w q (idx q h) <> Pending -> set_stat (d_stat s) r (idx r g) w q (idx q h') = Done.
Proof.
  intros s r g a w I E NP ND FREE q h h' b b' Eb Eb' L C. rewrite (set_stat_g _ _ _ _ _ _ a b E Eb), (set_stat_g _ _ _ _ _ _ a b' E Eb').
  destruct (Z.eqb_spec q r) as [->|N]; cbn [andb].
  - destruct (Nat.eqb_spec h g) as [->|N1].
    + intros _. replace (Nat.eqb h' g) with false by (symmetry; apply Nat.eqb_neq; lia). apply (FREE h' b' L Eb'). assert (b = a) as <- by congruence. exact C.
    + intros P. assert (D : st s r h' = Done) by (apply (di_order s I r h h' b b' Eb Eb' L C); exact P).
      destruct (Nat.eqb_spec h' g) as [->|_]; [contradiction|exact D].
  - intros P. apply (di_order s I q h h' b b' Eb Eb' L C P).
Qed.

Lemma free_g : forall s r g a, ev r g = Some a -> tiles_free s r (idx r g) a ->
  forall h b, h < g -> ev r h = Some b -> conflict b a -> st s r h = Done.
Proof.
  intros s r g a E F h b L Eb C. apply (F (idx r h) b); [|apply nth_idx; exact Eb|exact C].
  apply (idx_lt r h g b Eb L). pose proof (ev_len _ _ _ E). lia.
Qed.
Lemma map_some_inj : forall (a b : list V), map (@Some V) a = map (@Some V) b -> a = b.
Proof. induction a as [|x a IH]; intros [|y b] E; cbn in E; try discriminate; [reflexivity|]. injection E as -> E. f_equal. apply IH. exact E. Qed.

Lemma dstep_inv : forall s s', dinv s -> dstep true s s' -> dinv s'.
Proof.
  intros s s' I ST. destruct ST as [r i j R N P F|r i a R N P F CF|r i a vs R N P _ M].
  - (* kernel *)
    destruct (idx_onto r i _ R N) as (g & E & <-). assert (ND : st s r g <> Done) by (unfold st; rewrite P; discriminate).
    pose proof (free_g s r g _ E F) as FREE. constructor; cbn [d_store d_stat d_msg].
    + intros q h h' b b'. apply (order_step s r g (ALoc j) Done I E); [discriminate|exact ND|exact FREE].
    + intros q h k Ek. unfold st. cbn [d_stat]. rewrite (set_stat_g _ _ _ _ _ _ _ _ E Ek). destruct ((q =? r)%Z && Nat.eqb h g); [discriminate|apply (di_local s I q h k Ek)].
    + intros q h a Ea. rewrite (di_msg s I q h a Ea). unfold st. cbn [d_stat]. rewrite (set_stat_g _ _ _ _ _ _ _ _ E Ea).
      destruct (Z.eqb_spec q r) as [->|_]; [|reflexivity]. destruct (Nat.eqb_spec h g) as [->|_]; [congruence|reflexivity].
    + unfold texec. apply (store_write s r g (ALoc j)); [exact I|exact E|reflexivity|exact ND|exact FREE|reflexivity|].
      assert (X : forall t, In t (tj_in j) \/ t = tj_out j -> d_store s t = val g t).
      { intros t T. apply (store_at s r g (ALoc j) t I E); [|exact ND|exact FREE]. cbn. destruct T as [T|T]; [left; exact T|right; left; congruence]. }
      apply ev_in in E as (e & E1 & E2). destruct e as [q j'|c part]; cbn in E2; [|destruct (member c r); discriminate].
      destruct (q =? r)%Z; [|discriminate]. injection E2 as ->. rewrite (val_S _ _ E1). cbn [eexec]. unfold texec. rewrite tset_eq. apply tval_ext. exact X.
  - (* call *)
    destruct (idx_onto r i _ R N) as (g & E & <-). assert (ND : st s r g <> Done) by (unfold st; rewrite P; discriminate).
    pose proof (free_g s r g _ E F) as FREE. constructor; cbn [d_store d_stat d_msg].
    + intros q h h' b b'. apply (order_step s r g (ACom a) Issued I E); [discriminate|exact ND|exact FREE].
    + intros q h k Ek. unfold st. cbn [d_stat]. rewrite (set_stat_g _ _ _ _ _ _ _ _ E Ek). destruct (Z.eqb_spec q r) as [->|_]; [|apply (di_local s I q h k Ek)].
      destruct (Nat.eqb_spec h g) as [->|_]; [congruence|apply (di_local s I r h k Ek)].
    + intros q h b Eb. unfold set_msg, st. cbn [d_stat]. rewrite (set_stat_g _ _ _ _ _ _ _ _ E Eb). rewrite (call_nr_global r g a E).
      destruct (Z.eqb_spec q r) as [->|N1]; cbn [andb].
      * destruct (Nat.eqb_spec h g) as [->|N2].
        -- assert (b = a) as -> by congruence. destruct (comm_eqb_spec (ca_comm a) (ca_comm a)); [|congruence]. rewrite Nat.eqb_refl. cbn [andb].
           destruct (ca_in a) as [t|] eqn:Q; [|reflexivity]. f_equal. apply (store_at s r g (ACom a) t I E); [|exact ND|exact FREE]. left. cbn. rewrite Q. left. reflexivity.
        -- replace (comm_eqb (ca_comm b) (ca_comm a) && Nat.eqb (gcalls (ca_comm b) h) (gcalls (ca_comm a) g) && true) with false; [apply (di_msg s I r h b Eb)|].
           symmetry. destruct (comm_eqb_spec (ca_comm b) (ca_comm a)) as [C|_]; [|reflexivity]. cbn. rewrite Bool.andb_true_r. apply Nat.eqb_neq. intros Q.
           destruct (ev_coll r h b Eb) as (p1 & A1 & _). destruct (ev_coll r g a E) as (p2 & A2 & _). rewrite C in *. apply N2. apply (gcalls_inj _ _ _ _ _ A1 A2 Q).
      * rewrite Bool.andb_false_r. apply (di_msg s I q h b Eb).
    + apply (store_nowrite s r g (ACom a) _ Issued I E); [right; discriminate|exact ND|reflexivity].
  - (* completion *)
    destruct (idx_onto r i _ R N) as (g & E & <-). assert (ND : st s r g <> Done) by (unfold st; rewrite P; discriminate).
    assert (NPE : st s r g <> Pending) by (unfold st; rewrite P; discriminate).
    assert (FREE : forall h b, h < g -> ev r h = Some b -> conflict b (ACom a) -> st s r h = Done).
    { intros h b L Eb C. apply (di_order s I r g h _ b E Eb L C NPE). }
    constructor; unfold completed; cbn [d_store d_stat d_msg].
    + intros q h h' b b'. apply (order_step s r g (ACom a) Done I E); [discriminate|exact ND|exact FREE].
    + intros q h k Ek. unfold st. cbn [d_stat]. rewrite (set_stat_g _ _ _ _ _ _ _ _ E Ek). destruct ((q =? r)%Z && Nat.eqb h g); [discriminate|apply (di_local s I q h k Ek)].
    + intros q h b Eb. rewrite (di_msg s I q h b Eb). unfold st. cbn [d_stat]. rewrite (set_stat_g _ _ _ _ _ _ _ _ E Eb).
      destruct (Z.eqb_spec q r) as [->|_]; [|reflexivity]. destruct (Nat.eqb_spec h g) as [->|_]; [|reflexivity].
      unfold st in P. rewrite P. reflexivity.
    + destruct (ca_out a) as [t|] eqn:Q.
      * apply (store_write s r g (ACom a)); [exact I|exact E|cbn; rewrite Q; reflexivity|exact ND|exact FREE|reflexivity|].
        destruct (ev_coll r g a E) as (part & E1 & MB & EA).
        assert (RT : t_rank t = r) by (apply (own r g _ t E); right; cbn; rewrite Q; left; reflexivity).
        rewrite (val_S _ _ E1). cbn [eexec]. rewrite RT, <- EA, Q. destruct (member_spec (ca_comm a) r); [|contradiction]. destruct (tid_eqb_spec t t); [|congruence]. cbn [andb].
        rewrite (store_at s r g (ACom a) t I E); [|right; cbn; rewrite Q; left; reflexivity|exact ND|exact FREE]. f_equal.
        rewrite (call_nr_global r g a E) in M. apply map_some_inj. rewrite <- M, map_map. apply map_ext_in. intros q Iq.
        pose proof (proj1 (Forall_forall _ _) OK) as OKF. rewrite EA in Iq. pose proof (OKF _ (nth_error_In _ _ E1)) as OKe.
        destruct (eo_needs _ OKe _ part eq_refl r q MB Iq) as [MQ NQ].
        destruct (coll_ev _ part g q E1 MQ) as [Eq CQ].
        pose proof (di_msg s I q g (part q) Eq) as DM. rewrite CQ in DM. rewrite DM.
        assert (st s q g <> Pending) as NPQ.
        { intros PQ. assert (exists v, d_msg s (ca_comm a) (gcalls (ca_comm a) g) q = Some v) as [v EV].
          { clear -M Iq EA. rewrite EA in M at 3. revert vs M. induction (ca_needs (part r)) as [|y l IH]; intros vs M; [destruct Iq|].
            destruct vs as [|v vs]; [discriminate|]. cbn in M. injection M as M1 M2. destruct Iq as [<-|Iq]; [eauto|exact (IH Iq vs M2)]. }
          rewrite DM, PQ in EV. discriminate. }
        destruct (ca_in (part q)) as [u|]; [|congruence]. destruct (st s q g); [congruence|reflexivity|reflexivity].
      * apply (store_nowrite s r g (ACom a) _ Done I E); [left; cbn; rewrite Q; reflexivity|exact ND|reflexivity].
Qed.

Lemma dinv_init : dinv (dinit st0).
Proof.
  constructor; cbn.
  - intros r g g' a b _ _ _ _ N. unfold st in *. cbn in *. congruence.
  - intros r g j _. unfold st. cbn. discriminate.
  - intros r g a _. unfold st. cbn. reflexivity.
  - intros x g B A. symmetry. change (st0 x) with (val 0 x). apply val_frame; [lia|]. intros h Lh Wh. specialize (B h ltac:(lia) Wh). discriminate B.
Qed.
Lemma dreach_inv : forall s, dreach st0 s -> dinv s.
Proof. induction 1 as [|s s' _ IH ST]; [apply dinv_init|]. apply (dstep_inv _ _ IH ST). Qed.

(** ** Progress *)
Lemma dfinal_or_event : forall s, dinv s -> dfinal s \/
  exists g r a, ev r g = Some a /\ st s r g <> Done /\ (forall h q b, h < g -> ev q h = Some b -> st s q h = Done).
Proof.
  intros s I.
  assert (X : forall n, n <= length G -> (forall h q b, h < n -> ev q h = Some b -> st s q h = Done) \/
     exists g r a, g < n /\ ev r g = Some a /\ st s r g <> Done /\ (forall h q b, h < g -> ev q h = Some b -> st s q h = Done)).
  { induction n as [|n IH]; intros L; [left; intros; lia|]. destruct (IH ltac:(lia)) as [A|(g & r & a & Lg & B)].
    - (* is some member of event n unfinished? *)
      assert (D : forall l, (forall q b, In q l -> ev q n = Some b -> st s q n = Done) \/ exists q b, ev q n = Some b /\ st s q n <> Done).
      { induction l as [|q l IHl]; [left; intros q b []|]. destruct IHl as [A1|A1]; [|right; exact A1].
        destruct (ev q n) as [b|] eqn:Eq.
        - destruct (st s q n) eqn:S; try (right; exists q, b; split; [exact Eq|congruence]). left. intros q' b' [<-|Iq] E'; [exact S|apply (A1 q' b' Iq E')].
        - left. intros q' b' [<-|Iq] E'; [congruence|apply (A1 q' b' Iq E')]. }
      destruct (D ranks) as [D1|(q & b & Eq & D1)]; clear D; rename D1 into D.
      + left. intros h q b Lh Eb. destruct (Nat.eq_dec h n) as [->|N]; [apply (D q b (ev_rank _ _ _ Eb) Eb)|apply (A h q b); [lia|exact Eb]].
      + right. exists n, q, b. split; [lia|]. split; [exact Eq|]. split; [exact D|]. exact A.
    - right. exists g, r, a. split; [lia|exact B]. }
  destruct (X (length G) (le_n _)) as [A|(g & r & a & _ & B)].
  - left. intros r i R L. destruct (nth_error (prog r) i) as [a|] eqn:E; [|apply nth_error_None in E; lia].
    destruct (idx_onto r i a R E) as (g & Eg & <-). apply (A g r a (ev_len _ _ _ Eg) Eg).
  - right. exists g, r, a. exact B.
Qed.

Lemma progress : forall s, dinv s -> dfinal s \/ exists s', dstep false s s'.
Proof.
  intros s I. destruct (dfinal_or_event s I) as [F|(g & r & a & E & ND & EARLY)]; [left; exact F|right].
  assert (FREE : forall q b, ev q g = Some b -> forall i' b', i' < idx q g -> nth_error (prog q) i' = Some b' -> d_stat s q i' = Done).
  { intros q b Eb i' b' L N. destruct (idx_onto q i' b' (ev_rank _ _ _ Eb) N) as (h & Eh & <-).
    apply (EARLY h q b'); [|exact Eh]. apply (idx_lt_inv q h g b' b Eh Eb L). }
  (* a member that has not made its call *)
  assert (PEND : forall q b, ev q g = Some b -> st s q g = Pending -> exists s', dstep false s s').
  { intros q [j|b] Eb P.
    - eexists. apply (ds_run false s q (idx q g) j (ev_rank _ _ _ Eb) (nth_idx _ _ _ Eb) P). intros i' b' L N _. apply (FREE q _ Eb i' b' L N).
    - eexists. apply (ds_call false s q (idx q g) b (ev_rank _ _ _ Eb) (nth_idx _ _ _ Eb) P).
      + intros i' b' L N _. apply (FREE q _ Eb i' b' L N).
      + intros i' b' L N _. rewrite (FREE q _ Eb i' _ L N). discriminate. }
  destruct (st s r g) eqn:S; [apply (PEND r a E S)| |congruence].
  destruct a as [j|a]; [exfalso; apply (di_local s I r g j E S)|].
  destruct (ev_coll r g a E) as (part & E1 & MR & EA).
  assert (D : (forall q, In q (members (ca_comm a)) -> st s q g <> Pending) \/ exists q, In q (members (ca_comm a)) /\ st s q g = Pending).
  { clear. induction (members (ca_comm a)) as [|q l [A|(q' & A & B)]].
    - left. intros q [].
    - destruct (st s q g) eqn:S.
      + right. exists q. split; [left; reflexivity|exact S].
      + left. intros q' [<-|I0]; [congruence|apply A; exact I0].
      + left. intros q' [<-|I0]; [congruence|apply A; exact I0].
    - right. exists q'. split; [right; exact A|exact B]. }
  destruct D as [ALL|(q & MQ & PQ)]; [|destruct (coll_ev _ part g q E1 MQ) as [Eq _]; apply (PEND q _ Eq PQ)].
  assert (exists vs, map (d_msg s (ca_comm a) (call_nr r (idx r g) (ca_comm a))) (ca_needs a) = map Some vs) as [vs EVS].
  { rewrite (call_nr_global r g a E). pose proof (proj1 (Forall_forall _ _) OK) as OKF. pose proof (OKF _ (nth_error_In _ _ E1)) as OKe.
    assert (X : forall q, In q (ca_needs a) -> exists v, d_msg s (ca_comm a) (gcalls (ca_comm a) g) q = Some v).
    { intros q Iq. rewrite EA in Iq. destruct (eo_needs _ OKe _ part eq_refl r q MR Iq) as [MQ NQ]. destruct (coll_ev _ part g q E1 MQ) as [Eq CQ].
      pose proof (di_msg s I q g (part q) Eq) as DM. rewrite CQ in DM. rewrite DM. pose proof (ALL q MQ).
      destruct (ca_in (part q)) as [t|]; [|congruence]. exists (val g t). destruct (st s q g); [congruence|reflexivity|reflexivity]. }
    clear -X. induction (ca_needs a) as [|q l IH]; [exists []; reflexivity|]. destruct IH as [vs EV]; [intros q' I0; apply X; right; exact I0|].
    destruct (X q (or_introl eq_refl)) as [v V0]. exists (v :: vs). cbn. rewrite V0, EV. reflexivity. }
  eexists. apply (ds_complete false s r (idx r g) a vs (ev_rank _ _ _ E) (nth_idx _ _ _ E) S); [|exact EVS].
  intros _ q MQ. destruct (coll_ev _ part g q E1 MQ) as [Eq CQ]. exists (idx q g), (ACom (part q)). split; [apply nth_idx; exact Eq|]. split; [|split].
  - cbn. rewrite CQ. destruct (comm_eqb_spec (ca_comm a) (ca_comm a)); congruence.
  - rewrite <- CQ, (call_nr_global q g _ Eq), CQ, (call_nr_global r g _ E). reflexivity.
  - apply (ALL q MQ).
Qed.

Lemma no_mismatch : forall s, ~ mismatch s.
Proof.
  intros s (c & n & q1 & q2 & i1 & i2 & a1 & a2 & R1 & R2 & N1 & N2 & C1 & C2 & M1 & M2 & _ & _ & D).
  destruct (idx_onto q1 i1 _ R1 N1) as (g1 & E1 & <-). destruct (idx_onto q2 i2 _ R2 N2) as (g2 & E2 & <-).
  rewrite <- C1 in M1. rewrite <- C2 in M2. rewrite (call_nr_global _ _ _ E1) in M1. rewrite (call_nr_global _ _ _ E2) in M2.
  destruct (ev_coll _ _ _ E1) as (p1 & A1 & B1 & D1). destruct (ev_coll _ _ _ E2) as (p2 & A2 & B2 & D2).
  rewrite C1 in *. rewrite C2 in *. assert (g1 = g2) as <- by (apply (gcalls_inj _ _ _ _ _ A1 A2); congruence).
  assert (p2 = p1) as -> by congruence. apply D. rewrite D1, D2. pose proof (proj1 (Forall_forall _ _) OK) as OKF.
  apply (eo_sig _ (OKF _ (nth_error_In _ _ A1)) c p1 eq_refl); assumption.
Qed.

(** ** Termination *)
Definition weight (w : status) : nat := match w with Pending => 2 | Issued => 1 | Done => 0 end.
Definition measure (s : dstate) : nat :=
  list_sum (flat_map (fun r => map (fun i => weight (d_stat s r i)) (seq 0 (length (prog r)))) ranks).
Lemma sum_cons : forall a l, list_sum (a :: l) = a + list_sum l.
Proof. reflexivity. Qed.
Lemma sum_le : forall {A} (f f' : A -> nat) l, (forall x, In x l -> f' x <= f x) -> list_sum (map f' l) <= list_sum (map f l).
Proof. induction l as [|x l IH]; intros H; cbn [map]; [cbn; lia|]. rewrite !sum_cons. pose proof (H x (or_introl eq_refl)). specialize (IH ltac:(intros; apply H; right; assumption)). lia. Qed.
Lemma sum_lt : forall {A} (f f' : A -> nat) l y, (forall x, In x l -> f' x <= f x) -> In y l -> f' y < f y -> list_sum (map f' l) < list_sum (map f l).
Proof.
  induction l as [|x l IH]; intros y H I0 L; [destruct I0|]. cbn [map]. rewrite !sum_cons. destruct I0 as [->|I0].
  - pose proof (sum_le f f' l ltac:(intros; apply H; right; assumption)). lia.
  - specialize (IH y ltac:(intros; apply H; right; assumption) I0 L). pose proof (H x (or_introl eq_refl)). lia.
Qed.
Lemma sum_flat : forall {A} (f : A -> list nat) l, list_sum (flat_map f l) = list_sum (map (fun x => list_sum (f x)) l).
Proof. induction l as [|x l IH]; cbn [flat_map map]; [reflexivity|]. rewrite list_sum_app, sum_cons, IH. reflexivity. Qed.
Lemma measure_dec : forall s s', dstep true s s' -> measure s' < measure s.
Proof.
  assert (X : forall s s' r i w a, In r ranks -> nth_error (prog r) i = Some a -> weight w < weight (d_stat s r i) ->
    d_stat s' = set_stat (d_stat s) r i w -> measure s' < measure s).
  { intros s s' r i w a R N L E. unfold measure. rewrite !sum_flat.
    assert (LE : forall q k, weight (d_stat s' q k) <= weight (d_stat s q k)).
    { intros q k. rewrite E. unfold set_stat. destruct (Z.eqb_spec q r) as [->|_]; [|reflexivity]. destruct (Nat.eqb_spec k i) as [->|_]; cbn; lia. }
    apply sum_lt with r; [|exact R|].
    - intros q _. apply sum_le. intros k _. apply LE.
    - apply sum_lt with i; [intros k _; apply LE| |].
      + apply in_seq. assert (i < length (prog r)) by (apply nth_error_Some; congruence). lia.
      + rewrite E. unfold set_stat. rewrite Z.eqb_refl, Nat.eqb_refl. exact L. }
  intros s s' ST. destruct ST as [r i j R N P F|r i a R N P F CF|r i a vs R N P _ M].
  - apply (X s _ r i Done _ R N); [rewrite P; cbn; lia|reflexivity].
  - apply (X s _ r i Issued _ R N); [rewrite P; cbn; lia|reflexivity].
  - apply (X s _ r i Done _ R N); [rewrite P; cbn; lia|reflexivity].
Qed.
Lemma terminates : forall s, Acc (fun next now => dstep true now next) s.
Proof.
  intros s. remember (measure s) as n eqn:E. revert s E. induction n as [n IH] using (well_founded_induction lt_wf). intros s ->.
  constructor. intros s' ST. apply (IH (measure s')); [apply measure_dec; exact ST|reflexivity].
Qed.

(** A distributed program whose ranks run their parts of a choreography computes what the choreography
    computes when its events are executed one after the other. *)
Theorem every_run_intro : forall Q : tstore V -> Prop,
  (forall st', (forall x, st' x = erun G st0 x) -> Q st') -> every_run st0 Q.
Proof.
  intros Q QS s RS. pose proof (dreach_inv s RS) as I. split; [|split; [|split]].
  - intros F. apply QS. intros x. rewrite <- (firstn_all G) at 1. apply (di_store s I).
    + intros h _ (a & E & _). apply (F _ _ (ev_rank _ _ _ E)). apply nth_error_Some. rewrite (nth_idx _ _ _ E). discriminate.
    + intros h L (a & E & _). pose proof (ev_len _ _ _ E). lia.
  - apply progress. exact I.
  - apply no_mismatch.
  - apply terminates.
Qed.
(** every run can be completed: the statement above is about at least one complete run *)
Theorem some_run : exists s, dreach st0 s /\ dfinal s.
Proof.
  assert (X : forall s, dreach st0 s -> exists s', dreach st0 s' /\ dfinal s').
  { intros s. induction (terminates s) as [s _ IH]. intros R. destruct (progress s (dreach_inv s R)) as [F|[s' ST]]; [eauto|].
    assert (ST' : dstep true s s').
    { destruct ST; [eapply ds_run; eassumption|eapply ds_call; eassumption|eapply ds_complete; try eassumption; discriminate]. }
    apply (IH s' ST'). apply (dr_step _ s s' R ST'). }
  apply (X _ (dr_init st0)).
Qed.
End proof.

(** what holds of every run is about at least one complete run *)
Theorem every_run_final : forall st0 Q, every_run st0 Q -> exists s, dreach st0 s /\ dfinal s /\ Q (d_store s).
Proof.
  intros st0 Q ER.
  assert (X : forall s, dreach st0 s -> exists s', dreach st0 s' /\ dfinal s').
  { intros s R0. destruct (ER s R0) as (_ & _ & _ & AC). revert R0. induction AC as [s _ IH]. intros R. destruct (ER s R) as (_ & [F|[s' ST]] & _); [eauto|].
    assert (ST' : dstep true s s').
    { destruct ST; [eapply ds_run; eassumption|eapply ds_call; eassumption|eapply ds_complete; try eassumption; discriminate]. }
    apply (IH s' ST'). apply (dr_step _ s s' R ST'). }
  destruct (X _ (dr_init st0)) as (s & R & F). exists s. split; [exact R|]. split; [exact F|]. apply (ER s R). exact F.
Qed.
End machine.
Arguments act : clear implicits.
Arguments cact : clear implicits.
Arguments event : clear implicits.
Arguments dstate : clear implicits.
