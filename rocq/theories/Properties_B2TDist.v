(** * C55: the schedule of the distributed band_to_tridiagonal: no deadlock, no data race, one result, messages in order *)
From Coq Require Import ZArith Lia List Bool.
From Verif Require Import Loop HouseModel DistGrid DistMat B2TMsgModel B2TMsgSpec B2TMsgProofs SemModel SemProofs Reorder B2TDistModel B2TDistStruct B2TDistOrder B2TDistProgress B2TDistSeq B2TDistKey B2TDistFinal B2TDistFifo Properties_B2T.
Import ListNotations.
Local Open Scope Z_scope.

(** For all matrix sizes, block sizes, band sizes, grids and tuning parameters that the call accepts, for every choice of the sends that wait for their
    receive, whatever the tasks compute: in every reachable state some task of some rank can go on or all have finished, and
    no execution is infinite. *)
Theorem C55_no_deadlock : forall (g : msg_cfg) (rdv : dthread -> bool) (V : Type) (deff : dact -> (dloc -> V) -> dloc -> V) (m0 : dloc -> V) st,
  cfg_ok g -> sreach dthread_eq (b2td g rdv deff) m0 st ->
  (sfinal (b2td g rdv deff) st \/ exists st', sstep dthread_eq (b2td g rdv deff) st st') /\ Acc (fun y x => sstep dthread_eq (b2td g rdv deff) x y) st.
Proof. intros g rdv V deff m0 st G R. split; [apply (b2td_progress g G rdv deff m0 st R)|]. eapply terminates; [|exact R]. apply (threads_nodup g G). Qed.

(** If what a task writes depends only on the memory that it is said to read, then moreover two tasks that are executing never touch the
    same memory (column of a ring buffer, worker, message, reflector, tile of the result) unless both only read it, and the final memory is
    that of the sequential order [dseq]. *)
Definition respects (g : msg_cfg) {V} (deff : dact -> (dloc -> V) -> dloc -> V) : Prop :=
  forall a m m' l, (forall x, drd g a x = true -> m x = m' x) -> dwr g a l = true -> deff a m l = deff a m' l.
Theorem C55_schedule : forall (g : msg_cfg) (rdv : dthread -> bool) (V : Type) (deff : dact -> (dloc -> V) -> dloc -> V) (m0 : dloc -> V),
  cfg_ok g -> respects g deff ->
  every_execution dthread_eq (b2td g rdv deff) m0 (fun m => forall l, m l = srun (b2td g rdv deff) (dseq g) m0 l).
Proof. intros g rdv V deff m0 G F. apply (b2td_all g G). intros a _ m m' RD l W. apply F; assumption. Qed.

(** The actions of the sequential order are those of the tasks, each once. *)
Theorem C55_sequential_order : forall g rdv, cfg_ok g ->
  NoDup (dseq g) /\ forall a, In a (dseq g) <-> exists th, In th (dthreads g) /\ In (IAct a) (dprog g rdv th).
Proof.
  intros g rdv G. split; [eapply sorted_nodup; [apply (klt_irr g)|apply (seq_sorted g G)]|]. intros a. rewrite (in_seq g G). split.
  - intros [SZ OK]. destruct (act_at g G rdv a SZ OK) as [It E]. exists (owner a). split; [exact It|]. eapply nth_error_In. exact E.
  - intros (t & It & Ia). apply In_nth_error in Ia as (i & Ei). destruct (act_pos g G rdv t i a It Ei) as (_ & _ & OK). split; [|exact OK]. apply (in_threads g G) in It. tauto.
Qed.

(** Column messages with the same sender, addressee and tag (C54: these exist) belong to different sweeps; when the later one can be sent (its acquire is
    done) the earlier one has been sent, and when the buffer of the later receive is ready the earlier one has been received. So MPI, which keeps the order of such messages, matches
    each receive with its own send. The message of column j by block blk is the action SendC (j - blk * nb_band) blk. *)
Theorem C55_column_messages_in_order : forall g rdv V (deff : dact -> (dloc -> V) -> dloc -> V) m0 st src dst tag blk j blk' j', cfg_ok g -> 0 <= src < nranks g -> 0 <= dst < nranks g ->
  sreach dthread_eq (b2td g rdv deff) m0 st ->
  (In (DCol blk j) (sends (B2TMsgModel.prog g src) dst tag) -> In (DCol blk' j') (sends (B2TMsgModel.prog g src) dst tag) ->
    let s := j - blk * nb_band g in let s' := j' - blk' * nb_band g in
    (s = s' -> blk = blk' /\ j = j') /\
    (s < s' -> finished (b2td g rdv deff) st (TAcq s' blk') -> finished_act (b2td g rdv deff) st (SendC s blk))) /\
  (In (DCol blk j) (recvs (B2TMsgModel.prog g dst) src tag) -> In (DCol blk' j') (recvs (B2TMsgModel.prog g dst) src tag) ->
    let s := j - (blk + 1) * nb_band g in let s' := j' - (blk' + 1) * nb_band g in
    s < s' -> finished (b2td g rdv deff) st (TPostC s' blk') -> finished_act (b2td g rdv deff) st (RecvC s blk)).
Proof.
  intros g rdv V deff m0 st src dst tag blk j blk' j' G S D R. split.
  - intros X Y. cbv zeta. pose proof (sent_col g G _ _ _ _ _ S X) as C. split.
    + intros E. pose proof (B2TMsgTags.col_key g G src dst tag blk j blk' j' S X Y) as K. pose proof (g_NR g G). pose proof (nbb2 g G). destruct K as [[-> _]|[(K1 & K2 & K3)|(K1 & K2 & K3)]]; [split; [reflexivity|lia]|nia|nia].
    + intros L F. assert (SZ : 0 < m_size g) by (pose proof (sweeps_le g); pose proof (cv_sweep g G _ _ C); lia). apply (actf_fin g G rdv deff st _ SZ); [split; [exact C|exact I]|]. apply (fin_actf g G rdv deff st _ SZ); [split; [exact C|exact I]|].
      apply (col_sends g G rdv deff m0 st R src dst tag blk j blk' j' S X Y L F).
  - intros X Y. cbv zeta. apply (col_recvs g G rdv deff m0 st R src dst tag); assumption.
Qed.

(** The same for the workers *)
Theorem C55_worker_messages_in_order : forall g rdv V (deff : dact -> (dloc -> V) -> dloc -> V) m0 st src dst tag blk slot s t blk' slot' s' t', cfg_ok g -> 0 <= src < nranks g -> 0 <= dst < nranks g ->
  sreach dthread_eq (b2td g rdv deff) m0 st -> s < s' ->
  (In (DWorker blk slot s t) (sends (B2TMsgModel.prog g src) dst tag) -> In (DWorker blk' slot' s' t') (sends (B2TMsgModel.prog g src) dst tag) ->
    finished (b2td g rdv deff) st (TStep s' (last_step g s' blk')) -> finished_act (b2td g rdv deff) st (SendW s blk)) /\
  (In (DWorker blk slot s t) (recvs (B2TMsgModel.prog g dst) src tag) -> In (DWorker blk' slot' s' t') (recvs (B2TMsgModel.prog g dst) src tag) ->
    finished (b2td g rdv deff) st (TPostW s' blk') -> finished_act (b2td g rdv deff) st (RecvW s blk)).
Proof.
  intros g rdv V deff m0 st src dst tag blk slot s t blk' slot' s' t' G S D R L. split.
  - intros X Y F. destruct (sent_wrk g G _ _ _ _ _ _ _ S X) as (Ls & Lb & A & _). assert (SZ : 0 < m_size g) by (pose proof (sweeps_le g); lia). assert (OK : act_ok g (SendW s blk)) by (split; [cbn; auto|exact I]).
    apply (actf_fin g G rdv deff st _ SZ OK). apply (fin_actf g G rdv deff st _ SZ OK). apply (wrk_sends g G rdv deff m0 st R _ _ _ _ _ _ _ _ _ _ _ S X Y L F).
  - intros X Y F. destruct (received g G _ _ _ _ S D X) as (x & X1 & X2). destruct x as [| |b1 sl1 s1 t1| |]; try contradiction. cbn in X2. destruct X2 as (EB1 & -> & -> & ->). destruct (sent_wrk g G _ _ _ _ _ _ _ S X1) as (Ls & Lb & A & _). rewrite EB1 in A.
    assert (SZ : 0 < m_size g) by (pose proof (sweeps_le g); lia). assert (OK : act_ok g (RecvW s blk)) by (split; [cbn; lia|exact I]).
    apply (actf_fin g G rdv deff st _ SZ OK). apply (fin_actf g G rdv deff st _ SZ OK). apply (wrk_recvs g G rdv deff m0 st R _ _ _ _ _ _ _ _ _ _ _ S D X Y L F).
Qed.

(** ** A concrete case: size 21, nb 4, band 2, blocks of the band of 8 columns, a grid of 2 x 2 ranks; every send waits for its receive.
    The tasks count how often the memory is written. *)
Definition g_ex55 : msg_cfg := Cfg 21 4 2 8 2 2 (1, 0) true.
Definition count_eff (a : dact) (m : dloc -> Z) (l : dloc) : Z := 1 + (if drd g_ex55 a l then m l else 0).
Definition ex55 : sys dthread dact dloc Z := b2td g_ex55 (fun _ => true) count_eff.
Example C55_hypotheses_hold : cfg_ok g_ex55 /\ respects g_ex55 count_eff.
Proof.
  split; [unfold cfg_ok; cbn; repeat split; try lia; reflexivity|]. intros a m m' l H W. unfold count_eff. destruct (drd g_ex55 a l) eqn:E; [rewrite (H l E)|]; reflexivity.
Qed.
Example C55_execution_exists : exists st, sreach dthread_eq ex55 (fun _ => 0) st /\ sfinal ex55 st /\ memo st (LCol 1 5) = 6 /\ memo st (LTri 1) = 1.
Proof.
  destruct (execution_exists dthread_eq ex55 (fun _ => 0) _ (C55_schedule g_ex55 (fun _ => true) Z count_eff (fun _ => 0) (proj1 C55_hypotheses_hold) (proj2 C55_hypotheses_hold))) as (st & R & FN & Q).
  exists st. split; [exact R|]. split; [exact FN|]. split; rewrite Q; vm_compute; reflexivity.
Qed.
Example C55_not_trivial : length (dthreads g_ex55) = 249%nat /\ length (dseq g_ex55) = 298%nat /\ ncols g_ex55 0 = 18 /\ ncols g_ex55 1 = 10.
Proof. repeat split; vm_compute; reflexivity. Qed.
(** the ring buffers are reused: column 18 arrives in block 1 at the place of column 8 *)
Example C55_ring_reuse : sconflict ex55 (Copy 2) (RecvC 2 1) /\ ring g_ex55 1 18 = ring g_ex55 1 8.
Proof. split; [|reflexivity]. exists (LCol 1 0). left. split; [reflexivity|]. left. reflexivity. Qed.

(** ** Assumptions *)
Print Assumptions C55_no_deadlock.
Print Assumptions C55_schedule.
Print Assumptions C55_sequential_order.
Print Assumptions C55_column_messages_in_order.
Print Assumptions C55_worker_messages_in_order.
