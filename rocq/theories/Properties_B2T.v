(** * C40: the schedule of band_to_tridiagonal (local): no data race, no deadlock, termination, and a result that does not depend on the schedule *)
From Coq Require Import ZArith Lia List Bool Reals.
From Verif Require Import Loop StarField DenseSpec HouseSpec HouseModel SemModel SemProofs B2TModel B2TSched B2TFrame B2TSpec CplxField.
Import ListNotations.
Local Open Scope Z_scope.

(** For all matrix sizes, block sizes nb, band sizes b that divide nb, numbers of threads of the pool and initial contents of the memory:
    in every execution of the tasks, whatever the interleaving of their reads, writes, acquires and releases,
    - two tasks that are executing never touch the same location of the band, of the data of a sweep worker or of the results
      unless both only read it,
    - as long as some task has not finished, some task can make a step (no deadlock), and no execution is infinite,
    - when all the tasks have finished, the memory is the one left by the sequential order of [b2t_seq]:
      copy of the band; then sweep after sweep, its initialisation and its steps; then the last part of the tridiagonal matrix. *)
Theorem C40_sweeps_schedule : forall (K : starfield) (lf : larfg_fn K) (cplx : bool) (size nb b nthreads : Z) (A : mat K),
  0 <= size -> 2 <= b -> 0 < nb -> nb mod b = 0 -> 0 < nthreads -> larfg_local lf ->
  forall m0, every_execution thread_eq (b2t lf cplx size nb b nthreads A) m0
    (fun m => forall l, m l = srun (b2t lf cplx size nb b nthreads A) (b2t_seq cplx size nb b) m0 l).
Proof. intros. apply b2t_all; assumption. Qed.

(** The locations by which races are defined are the real ones: an action changes nothing outside the locations that it is said to write, and what it
    writes depends only on the locations that it is said to read. *)
Theorem C40_footprints : forall (K : starfield) (lf : larfg_fn K) (cplx : bool) (size nb b nthreads : Z) (A : mat K),
  0 <= size -> 2 <= b -> 0 < nb -> nb mod b = 0 -> 0 < nthreads -> larfg_local lf ->
  let P := b2t lf cplx size nb b nthreads A in
  forall th a, In th (threads P) -> In (IAct a) (prog P th) ->
    (forall m l, wr P a l = false -> eff P a m l = m l) /\
    (forall m m' l, (forall x, rd P a x = true -> m x = m' x) -> wr P a l = true -> eff P a m l = eff P a m' l).
Proof.
  intros K lf cplx size nb b nthreads A Hs Hb Hnb Hd Ht LF P th a It Ia. apply In_nth_error in Ia as (i & Ei).
  destruct (act_pos cplx size nb b nthreads Hs Hb Hnb Hd Ht th i a It Ei) as (_ & _ & OK). split.
  - intros m l W. apply (eff_outside lf cplx size nb b nthreads A); assumption.
  - intros m m' l R W. apply (eff_inside lf cplx size nb b nthreads A); assumption.
Qed.

(** The actions of the sequential order are those of the tasks, each once. *)
Theorem C40_sequential_order : forall cplx size nb b nthreads, 0 <= size -> 2 <= b -> 0 < nb -> nb mod b = 0 -> 0 < nthreads ->
  NoDup (b2t_seq cplx size nb b) /\
  forall a, In a (b2t_seq cplx size nb b) <-> exists th, In th (b2t_threads cplx size nb) /\ In (IAct a) (b2t_prog cplx size nb b nthreads th).
Proof.
  intros cplx size nb b nthreads Hs Hb Hnb Hd Ht. split.
  - eapply Reorder.sorted_nodup; [|apply (seq_sorted cplx size nb b nthreads Hs Hb Hnb Hd Ht)]. intros x H. unfold klt in H. destruct (key x) as [[? ?] ?]. lia.
  - intros a. rewrite (in_seq cplx size nb b nthreads Hs Hb Hnb Hd Ht). split.
    + intros [SZ OK]. destruct (act_at cplx size nb b nthreads Hs Hb Hnb Hd Ht a SZ OK) as [It E]. exists (owner a). split; [exact It|]. eapply nth_error_In. exact E.
    + intros (t & It & Ia). apply In_nth_error in Ia as (i & Ei). destruct (act_pos cplx size nb b nthreads Hs Hb Hnb Hd Ht t i a It Ei) as (_ & _ & OK).
      split; [|exact OK]. apply (in_threads cplx size nb b nthreads Hs Hb Hnb Hd Ht) in It. tauto.
Qed.

(** ** A concrete case: a complex matrix of size 11, blocks of size 4, band size 2, two threads; four workers run ten sweeps. *)
Lemma execution_exists : forall {T Act L V} teq (P : sys T Act L V) m0 Q, every_execution teq P m0 Q -> exists st, sreach teq P m0 st /\ sfinal P st /\ Q (memo st).
Proof.
  intros T Act L V teq P m0 Q [H1 H2].
  assert (G : forall st, Acc (fun y x => sstep teq P x y) st -> sreach teq P m0 st -> exists st', sreach teq P m0 st' /\ sfinal P st').
  { intros st AC. induction AC as [st _ IH]. intros R. destruct (H1 st R) as (_ & [FN|(st' & S)] & _); [exists st; auto|]. apply (IH st' S). eapply SRS; eassumption. }
  destruct (G (sinit m0)) as (st & R & FN); [apply H1; constructor|constructor|]. exists st. split; [exact R|]. split; [exact FN|]. apply H2; assumption.
Qed.
Definition ex_b2t (A : mat complex_field) : sys thread act loc (F complex_field) := b2t (ref_larfg complex_roots) true 11 4 2 2 A.
Example C40_hypotheses_hold : forall A m0, exists st, sreach thread_eq (ex_b2t A) m0 st /\ sfinal (ex_b2t A) st.
Proof.
  intros A m0. destruct (execution_exists thread_eq (ex_b2t A) m0 (fun m => forall l, m l = srun (ex_b2t A) (b2t_seq true 11 4 2) m0 l)) as (st & R & FN & _); [|exists st; auto].
  apply C40_sweeps_schedule; try reflexivity; try discriminate. apply ref_larfg_ok.
Qed.
Example C40_not_trivial : nr_sweeps true 11 = 10 /\ nr_steps 11 2 0 = 5 /\ max_workers 11 2 2 = 4 /\ length (b2t_seq true 11 4 2) = 70%nat /\ length (b2t_threads true 11 4) = 28%nat.
Proof. repeat split; vm_compute; reflexivity. Qed.
(** some steps of consecutive sweeps work on the same columns *)
Example C40_conflicts : forall A, sconflict (ex_b2t A) (Step 0 1) (Step 1 0).
Proof. intros A. exists (LB (3 * 4)). left. split; [reflexivity|]. right. reflexivity. Qed.

(** ** Assumptions *)
Print Assumptions C40_sweeps_schedule.
Print Assumptions C40_footprints.
Print Assumptions C40_sequential_order.
