(** * C20: asynchronous execution is equivalent to sequential execution. *)
From Coq Require Import List Arith Bool Lia.
From Verif Require Import PipeModel AsyncModel Properties_Pipe AsyncProofs.
Import ListNotations.

Section c20.
Context {V : Type}.

(** ** User programs
    The calling thread executes a list of jobs.  A job requests accesses to tiles (read /
    readwrite, in this order; the i-th access of the job is called i inside the job) and is handed a
    kernel.  Tile number c is both the pipeline and the data cell. *)
Record job := Job { j_access : list (nat * mode); j_kernel : body V }.

(** A kernel loads only from tiles it still holds, stores only to tiles it holds with readwrite
    access, and destroys each of its tiles exactly once, whenever it likes. *)
Fixpoint kernel_ok (acc : list (nat * mode)) (held : list nat) (b : body V) : Prop :=
  match b with
  | Ret => held = []
  | Load c k => (exists i m, In i held /\ nth_error acc i = Some (c, m)) /\ forall v, kernel_ok acc held (k v)
  | Put c v k => (exists i, In i held /\ nth_error acc i = Some (c, W)) /\ kernel_ok acc held k
  | Free i k => In i held /\ kernel_ok acc (remove Nat.eq_dec i held) k
  end.
(** Two accesses of one job to the same tile are both reads. *)
Definition job_ok (j : job) : Prop :=
  kernel_ok (j_access j) (seq 0 (length (j_access j))) (j_kernel j) /\
  forall i k c mi mk, i <> k -> nth_error (j_access j) i = Some (c, mi) -> nth_error (j_access j) k = Some (c, mk) -> mi = R /\ mk = R.

(** ** What is executed: accesses are requested in program order; each job is one task. *)
Fixpoint shift (base : nat) (b : body V) : body V :=
  match b with
  | Ret => Ret
  | Load c k => Load c (fun v => shift base (k v))
  | Put c v k => Put c v (shift base k)
  | Free i k => Free (base + i) (shift base k)
  end.
Fixpoint tasks_from (base : nat) (js : list job) : list (task V) :=
  match js with
  | [] => []
  | j :: js => Task (seq base (length (j_access j))) [] (shift base (j_kernel j)) ::
               tasks_from (base + length (j_access j)) js
  end.
Definition program_of (js : list job) : program V :=
  Program (flat_map j_access js) (fun m c => m =? c) (tasks_from 0 js).

(** ** The specification: run the kernels one after the other. *)
Definition run_jobs (js : list job) (s : store V) : store V := fold_left (fun s j => run (j_kernel j) s) js s.

(** ** Proof *)
Lemma run_shift : forall b base (s : store V), run (shift base b) s = run b s.
Proof. induction b as [|c k IH|c v k IH|h k IH]; intros base s; cbn; auto. Qed.
Lemma run_tasks_from : forall js base (s : store V), run_tasks (tasks_from base js) s = run_jobs js s.
Proof.
  unfold run_tasks, run_jobs. induction js as [|j js IH]; intros base s; cbn; [reflexivity|]. rewrite run_shift. apply IH.
Qed.

Fixpoint base_of (js : list job) (t : nat) : nat :=
  match t, js with
  | S t, j :: js => length (j_access j) + base_of js t
  | _, _ => 0
  end.
Lemma tasks_nth : forall js base t tk, nth_error (tasks_from base js) t = Some tk ->
  exists j, nth_error js t = Some j /\
    tk = Task (seq (base + base_of js t) (length (j_access j))) [] (shift (base + base_of js t) (j_kernel j)).
Proof.
  induction js as [|j js IH]; intros base t tk E; [destruct t; discriminate|].
  destruct t; cbn in E.
  - injection E as <-. exists j. split; [reflexivity|]. cbn. rewrite Nat.add_0_r. reflexivity.
  - destruct (IH _ _ _ E) as (x & A & B). exists x. split; [exact A|]. rewrite B. cbn. rewrite Nat.add_assoc. reflexivity.
Qed.
Lemma tasks_nth_ex : forall js base t j, nth_error js t = Some j -> exists tk, nth_error (tasks_from base js) t = Some tk.
Proof.
  induction js as [|j js IH]; intros base t x E; [destruct t; discriminate|].
  destruct t; cbn in *; [eauto|eapply IH; eassumption].
Qed.
Lemma handles_nth : forall js t j i, nth_error js t = Some j -> i < length (j_access j) ->
  nth_error (flat_map j_access js) (base_of js t + i) = nth_error (j_access j) i.
Proof.
  induction js as [|j js IH]; intros t x i E L; [destruct t; discriminate|].
  destruct t; cbn in *.
  - injection E as <-. apply nth_error_app1. exact L.
  - rewrite nth_error_app2 by lia. rewrite <- (IH t x i E L). f_equal. lia.
Qed.
Lemma base_mono : forall js t1 t2 j, t1 < t2 -> nth_error js t1 = Some j -> base_of js t1 + length (j_access j) <= base_of js t2.
Proof.
  induction js as [|j js IH]; intros t1 t2 x L E; [destruct t1; discriminate|].
  destruct t2; [lia|]. destruct t1; cbn in *.
  - injection E as <-. lia.
  - assert (L' : t1 < t2) by lia. pose proof (IH t1 t2 x L' E). lia.
Qed.
Lemma handle_owner : forall js h, h < length (flat_map j_access js) ->
  exists t j i, nth_error js t = Some j /\ i < length (j_access j) /\ h = base_of js t + i.
Proof.
  induction js as [|j js IH]; intros h L; cbn in L; [lia|]. rewrite app_length in L.
  destruct (Nat.lt_ge_cases h (length (j_access j))) as [Q|Q].
  - exists 0, j, h. cbn. auto.
  - destruct (IH (h - length (j_access j))) as (t & x & i & A & B & C); [lia|].
    exists (S t), x, i. cbn. repeat split; auto. lia.
Qed.

Section one.
Context (js : list job).
Let P := program_of js.
Lemma need_iff : forall t h, need P t h <-> exists j i, nth_error js t = Some j /\ i < length (j_access j) /\ h = base_of js t + i.
Proof.
  intros t h. split.
  - intros (tk & E & I). destruct (tasks_nth js 0 t tk E) as (j & A & ->). cbn in I. apply in_seq in I.
    exists j, (h - base_of js t). split; [exact A|]. lia.
  - intros (j & i & A & B & ->). destruct (tasks_nth_ex js 0 t j A) as (tk & E).
    exists tk. split; [exact E|]. destruct (tasks_nth js 0 t tk E) as (x & A' & ->). rewrite A in A'. injection A' as <-.
    apply in_seq. cbn. lia.
Qed.
Lemma need_handle : forall t j i c m, nth_error js t = Some j -> nth_error (j_access j) i = Some (c, m) ->
  mutex_of P (base_of js t + i) = c /\ mode_of P (base_of js t + i) = m.
Proof.
  intros t j i c m A B. assert (L : i < length (j_access j)) by (apply nth_error_Some; congruence).
  pose proof (handles_nth js t j i A L) as E. rewrite B in E.
  unfold mutex_of, mode_of. cbn [P program_of p_handles]. rewrite (nth_error_nth _ _ (0, R) E). auto.
Qed.
Lemma need_mono : forall t1 t2 h1 h2, need P t1 h1 -> need P t2 h2 -> t1 < t2 -> h1 < h2.
Proof.
  intros t1 t2 h1 h2 N1 N2 L. apply need_iff in N1 as (j1 & i1 & A1 & B1 & ->). apply need_iff in N2 as (j2 & i2 & A2 & B2 & ->).
  pose proof (base_mono js t1 t2 j1 L A1). lia.
Qed.
Lemma need_fun : forall t1 t2 h, need P t1 h -> need P t2 h -> t1 = t2.
Proof.
  intros t1 t2 h N1 N2. destruct (Nat.lt_total t1 t2) as [L|[L|L]]; [|exact L|].
  - pose proof (need_mono _ _ _ _ N1 N2 L). lia.
  - pose proof (need_mono _ _ _ _ N2 N1 L). lia.
Qed.
Lemma not_kept : forall t h, need P t h -> ~ kept P t h.
Proof. intros t h N (t' & L & N'). pose proof (need_fun _ _ _ N N'). lia. Qed.

Lemma remove_shift : forall base i l, remove Nat.eq_dec (base + i) (map (Nat.add base) l) = map (Nat.add base) (remove Nat.eq_dec i l).
Proof.
  intros base i. induction l as [|x l IH]; [reflexivity|]. cbn [map remove].
  destruct (Nat.eq_dec i x) as [->|N]; [destruct (Nat.eq_dec (base + x) (base + x)); [exact IH|congruence]|].
  destruct (Nat.eq_dec (base + i) (base + x)); [lia|]. cbn [map]. f_equal. exact IH.
Qed.
Lemma shift_ok : forall t j, nth_error js t = Some j -> forall b held, (forall i, In i held -> i < length (j_access j)) ->
  kernel_ok (j_access j) held b -> body_ok P t (map (Nat.add (base_of js t)) held) (shift (base_of js t) b).
Proof.
  intros t j A. induction b as [|c k IH|c v k IH|h k IH]; intros held HB K; cbn [shift body_ok].
  - cbn in K. subst held. intros h [].
  - destruct K as [(i & m & I1 & I2) K]. split.
    + exists (base_of js t + i). split; [apply in_map; exact I1|]. unfold reaches. cbn.
      rewrite (proj1 (need_handle t j i c m A I2)). apply Nat.eqb_refl.
    + intros v. apply IH; auto.
  - destruct K as [(i & I1 & I2) K]. split.
    + exists (base_of js t + i). split; [apply in_map; exact I1|]. destruct (need_handle t j i c W A I2) as [Q1 Q2]. split; [exact Q2|].
      unfold reaches. cbn. rewrite Q1. apply Nat.eqb_refl.
    + apply IH; auto.
  - destruct K as [I1 K]. split; [apply in_map; exact I1|]. split.
    + apply not_kept. apply need_iff. exists j, h. auto.
    + rewrite remove_shift. apply IH; [|exact K]. intros i Hi. apply in_remove in Hi as [Hi _]. auto.
Qed.

Lemma jobs_synchronised : Forall job_ok js -> well_synchronised P.
Proof.
  intros OK. rewrite Forall_forall in OK.
  assert (JO : forall t j, nth_error js t = Some j -> job_ok j) by (intros t j E; apply OK; eapply nth_error_In; exact E).
  assert (ORD : forall h1 h2 t1 t2, h1 < h2 -> need P t1 h1 -> need P t2 h2 -> t1 = t2 \/ t1 < t2).
  { intros h1 h2 t1 t2 L N1 N2. destruct (Nat.lt_total t1 t2) as [Q|[Q|Q]]; auto. pose proof (need_mono _ _ _ _ N2 N1 Q). lia. }
  (* within a job, requests to one tile are reads *)
  assert (SAME : forall t h1 h2, h1 <> h2 -> need P t h1 -> need P t h2 -> mutex_of P h1 = mutex_of P h2 -> mode_of P h1 = R /\ mode_of P h2 = R).
  { intros t h1 h2 N N1 N2 E. apply need_iff in N1 as (j & i1 & A1 & B1 & ->). apply need_iff in N2 as (j2 & i2 & A2 & B2 & ->).
    rewrite A1 in A2. injection A2 as <-.
    destruct (nth_error (j_access j) i1) as [[c1 m1]|] eqn:E1; [|apply nth_error_None in E1; lia].
    destruct (nth_error (j_access j) i2) as [[c2 m2]|] eqn:E2; [|apply nth_error_None in E2; lia].
    destruct (need_handle t j i1 c1 m1 A1 E1) as [Q1 Q2]. destruct (need_handle t j i2 c2 m2 A1 E2) as [Q3 Q4].
    rewrite Q1, Q3 in E. subst c2. rewrite Q2, Q4. apply (proj2 (JO t j A1) i1 i2 c1 m1 m2); auto. }
  constructor.
  - intros t tk E. destruct (tasks_nth js 0 t tk E) as (j & A & ->). cbn [t_need t_body Nat.add].
    rewrite <- (Nat.add_0_r (base_of js t)) at 1. 
    replace (seq (base_of js t + 0) (length (j_access j))) with (map (Nat.add (base_of js t)) (seq 0 (length (j_access j)))).
    + apply (shift_ok t j A); [|apply (JO t j A)]. intros i Hi. apply in_seq in Hi. lia.
    + clear. generalize 0 as a. induction (length (j_access j)) as [|n IH]; intros a; [reflexivity|]. cbn. f_equal.
      rewrite IH. f_equal. lia.
  - intros t h N. apply need_iff in N as (j & i & A & B & ->).
    assert (X : nth_error (flat_map j_access js) (base_of js t + i) <> None).
    { rewrite (handles_nth js t j i A B). apply nth_error_Some, B. }
    apply nth_error_Some in X. exact X.
  - intros t a (tk & E & I). destruct (tasks_nth js 0 t tk E) as (j & A & ->). destruct I.
  - intros h L. destruct (handle_owner js h L) as (t & j & i & Q). exists t. apply need_iff. exists j, i. exact Q.
  - intros h1 h2 t1 t2 (L & L2 & EM & x & Lx & EX & WX) N1 N2. destruct (ORD h1 h2 t1 t2 L N1 N2) as [<-|Q]; [|exact Q]. exfalso.
    destruct (SAME t1 h1 h2 ltac:(lia) N1 N2 EM) as [M1 M2].
    assert (Nx : need P t1 x).
    { apply need_iff in N1 as (j & i1 & A1 & B1 & ->). apply need_iff in N2 as (j2 & i2 & A2 & B2 & ->).
      rewrite A1 in A2. injection A2 as <-. apply need_iff. exists j, (x - base_of js t1). split; [exact A1|]. lia. }
    destruct (Nat.eq_dec x h1) as [->|Ne]; [congruence|].
    destruct (SAME t1 x h1 Ne Nx N1 ltac:(congruence)) as [M3 _]. congruence.
  - intros h t1 t2 N1 N2 L. pose proof (need_fun _ _ _ N1 N2). lia.
  - intros t1 t2 h1 h2 c L N1 N2 R1 R2 M. left. apply (wr_block P t2 h1 h2 N2).
    unfold reaches in R1, R2. cbn [P program_of p_guards] in R1, R2. apply Nat.eqb_eq in R1, R2.
    pose proof (need_mono _ _ _ _ N1 N2 L) as LT.
    split; [exact LT|]. split.
    { apply need_iff in N2 as (j & i & A & B & ->).
      assert (X : nth_error (flat_map j_access js) (base_of js t2 + i) <> None).
      { rewrite (handles_nth js t2 j i A B). apply nth_error_Some, B. }
      apply nth_error_Some in X. exact X. }
    split; [unfold P in *; congruence|].
    destruct M as [M|M]; [exists h1|exists h2]; (split; [lia|split; [unfold P in *; congruence|exact M]]).
Qed.
End one.

(** C20.  Every complete execution, whatever the scheduler did, leaves in every tile the value that
    running the jobs one by one in program order gives. *)
Theorem C20_async_is_sequential : forall js s0 s, Forall job_ok js ->
  reachable (program_of js) s0 s -> final (program_of js) s -> forall c, st_store s c = run_jobs js s0 c.
Proof.
  intros js s0 s OK Rs F c. rewrite (async_is_sequential _ (jobs_synchronised js OK) s0 s Rs F c).
  cbn [program_of p_tasks]. rewrite run_tasks_from. reflexivity.
Qed.
(** No schedule gets stuck ... *)
Theorem C20_no_deadlock : forall js s0 s, Forall job_ok js ->
  reachable (program_of js) s0 s -> final (program_of js) s \/ exists s', step (program_of js) s s'.
Proof. intros js s0 s OK. apply async_progress. apply jobs_synchronised, OK. Qed.
(** ... or goes on for ever. *)
Theorem C20_terminates : forall js s0 s, Forall job_ok js ->
  reachable (program_of js) s0 s -> Acc (fun next now => step (program_of js) now next) s.
Proof. intros js s0 s OK. apply async_terminates. apply jobs_synchronised, OK. Qed.
(** So from every state that can be reached a complete execution can be reached. *)
Theorem C20_completes : forall js s0 s, Forall job_ok js -> reachable (program_of js) s0 s ->
  exists s', reachable (program_of js) s0 s' /\ final (program_of js) s'.
Proof.
  intros js s0 s OK Rs. pose proof (C20_terminates js s0 s OK Rs) as A. induction A as [s _ IH].
  destruct (C20_no_deadlock js s0 s OK Rs) as [F|[s' St]]; [exists s; auto|].
  apply (IH s' St). eapply r_step; eassumption.
Qed.
(** Two jobs that hold the same tile at the same time both read. *)
Theorem C20_no_race : forall js s0 s, Forall job_ok js -> reachable (program_of js) s0 s ->
  forall t1 t2 H1 b1 H2 b2 h1 h2, t1 <> t2 ->
  st_status s t1 = Running H1 b1 -> st_status s t2 = Running H2 b2 -> In h1 H1 -> In h2 H2 ->
  mutex_of (program_of js) h1 = mutex_of (program_of js) h2 ->
  mode_of (program_of js) h1 = R /\ mode_of (program_of js) h2 = R.
Proof.
  intros js s0 s OK Rs t1 t2 H1 b1 H2 b2 h1 h2 N E1 E2 I1 I2 EM.
  apply (async_no_race _ (jobs_synchronised js OK) s0 s Rs t1 t2 H1 b1 H2 b2 h1 h2 (mutex_of (program_of js) h1) N E1 E2 I1 I2).
  - unfold reaches. cbn. apply Nat.eqb_refl.
  - unfold reaches. cbn. apply Nat.eqb_eq. congruence.
Qed.
End c20.
Arguments job : clear implicits.

(** The restriction on jobs is needed: a job that requests read and then readwrite access to the
    same tile never starts, and neither does anything that needs the tile later. *)
Theorem C20_read_and_write_same_tile_refuted :
  let js := [Job [(0, R); (0, W)] (Free 0 (Free 1 Ret))] : list (job nat) in
  exists s, reachable (program_of js) (fun _ => 0) s /\ ~ final (program_of js) s /\ ~ exists s', step (program_of js) s s'.
Proof.
  cbv zeta. set (js := [Job [(0, R); (0, W)] (Free 0 (Free 1 Ret))] : list (job nat)).
  exists (State (fun _ => 0) 2 [Req 0 R; Req 1 W] (fun _ => Waiting)). split; [|split].
  - apply (r_step _ _ (State (fun _ => 0) 1 [Req 0 R] (fun _ => Waiting))).
    + apply (r_step _ _ (initial (fun _ => 0))); [constructor|]. apply (s_issue (program_of js) (initial (fun _ => 0))). cbn. lia.
    + apply (s_issue (program_of js) (State (fun _ => 0) 1 [Req 0 R] (fun _ => Waiting))). cbn. lia.
  - intros [_ F]. specialize (F 0 (Nat.lt_0_succ _)). discriminate.
  - intros [s' St]. inversion St as [L|t tk E1 E2 E3 E4| | | |]; try discriminate.
    + cbn in L. lia.
    + destruct t as [|[|t]]; cbn in E1; try discriminate. injection E1 as <-.
      specialize (E4 1 (or_intror (or_introl eq_refl))). discriminate.
Qed.

(** Non-vacuity: three jobs on two tiles; the second reads tile 0 and updates tile 1 and frees early. *)
Definition example_jobs : list (job nat) :=
  [ Job [(0, W)] (Load 0 (fun x => Put 0 (x + 5) (Free 0 Ret)));
    Job [(0, R); (1, W)] (Load 0 (fun x => Free 0 (Load 1 (fun y => Put 1 (x * y) (Free 1 Ret)))));
    Job [(0, W); (1, R)] (Load 1 (fun y => Put 0 y (Free 1 (Free 0 Ret)))) ].
Theorem C20_example : Forall job_ok example_jobs /\
  run_jobs example_jobs (fun c => S c) 0 = 12 /\
  exists s, reachable (program_of example_jobs) (fun c => S c) s /\ final (program_of example_jobs) s /\ st_store s 0 = 12.
Proof.
  assert (X : forall l : list (nat * mode), NoDup (map fst l) -> forall i k c mi mk, i <> k ->
        nth_error l i = Some (c, mi) -> nth_error l k = Some (c, mk) -> mi = R /\ mk = R).
  { intros l ND i k c mi mk N E1 E2. exfalso. apply N.
    apply (map_nth_error fst) in E1. apply (map_nth_error fst) in E2. cbn in E1, E2.
    apply (proj1 (NoDup_nth_error (map fst l)) ND i k); [apply nth_error_Some; congruence|congruence]. }
  assert (OK : Forall job_ok example_jobs).
  { repeat apply Forall_cons; [| | |apply Forall_nil]; (split; [|apply X; repeat constructor; cbn; intuition discriminate]).
    all: cbn [j_access j_kernel length seq kernel_ok].
    - split; [exists 0, W; cbn; auto|]. intros v. split; [exists 0; cbn; auto|]. cbn. auto.
    - split; [exists 0, R; cbn; auto|]. intros v. split; [cbn; auto|]. split; [exists 1, W; cbn; auto|]. intros w.
      split; [exists 1; cbn; auto|]. cbn. auto.
    - split; [exists 1, R; cbn; auto|]. intros v. split; [exists 0; cbn; auto|]. cbn. auto. }
  split; [exact OK|]. split; [reflexivity|].
  destruct (C20_completes example_jobs (fun c => S c) _ OK (r_init _ _)) as (s & A & B).
  exists s. split; [exact A|]. split; [exact B|]. apply (C20_async_is_sequential example_jobs (fun c => S c) s OK A B 0).
Qed.

(** ** Assumptions *)
Print Assumptions C20_async_is_sequential.
Print Assumptions C20_no_deadlock.
Print Assumptions C20_terminates.
Print Assumptions C20_completes.
Print Assumptions C20_no_race.
Print Assumptions C20_read_and_write_same_tile_refuted.
Print Assumptions C20_example.
