(** * C61: number of workers, their parts and workspaces. *)
From Coq Require Import ZArith Lia Bool.
From Verif Require Import CInt WorkersModel.
Local Open Scope Z_scope.

Lemma u64_id : forall z, 0 <= z < 2 ^ 64 -> u64 z = z.
Proof. intros. apply Z.mod_small. assumption. Qed.
Lemma clamp_ok : forall v lo hi, lo <= hi -> clamp v lo hi = Ok (Z.max lo (Z.min v hi)).
Proof. intros v lo hi L. unfold clamp. destruct (Z.ltb_spec hi lo); [lia|]. f_equal. destruct (Z.ltb_spec v lo), (Z.ltb_spec hi v); lia. Qed.
Lemma ceil_ok : forall num den, 0 <= num -> 1 <= den -> num + den < 2 ^ 64 -> u_ceil_div num den = Ok ((num + den - 1) / den).
Proof.
  intros num den L1 L2 L3. unfold u_ceil_div, u_div. destruct (Z.eqb_spec den 0); [lia|]. rewrite (u64_id (num + den)) by lia. rewrite u64_id by lia. reflexivity.
Qed.
(** (num + den - 1) / den is the number of batches of den needed for num *)
Lemma ceil_spec : forall num den, 0 <= num -> 1 <= den -> let q := (num + den - 1) / den in (q - 1) * den < num <= q * den \/ (num = 0 /\ q = 0).
Proof.
  intros num den L1 L2 q. destruct (Z.eq_dec num 0) as [->|NZ]; [right; split; [reflexivity|]; unfold q; apply Z.div_small; lia|left].
  pose proof (Z.div_mod (num + den - 1) den ltac:(lia)). pose proof (Z.mod_pos_bound (num + den - 1) den ltac:(lia)). fold q in H. nia.
Qed.

(** C61. Whatever the tune parameter, with at least one thread: no undefined behaviour, at least one worker; the panel and the T factor leave one thread free if there are
    two or more, the rank-one problem may take all of them. *)
Theorem C61_worker_counts : forall threads tune, 1 <= threads < 2 ^ 64 -> 0 <= tune < 2 ^ 64 ->
  (exists a, leave_one_workers threads tune = Ok a /\ 1 <= a <= Z.max 1 (threads - 1) /\ (1 <= tune <= threads - 1 -> a = tune)) /\
  (exists a, rank1_workers threads tune = Ok a /\ 1 <= a <= threads /\ (1 <= tune <= threads -> a = tune)) /\
  (forall nrtiles, 0 <= nrtiles < 2 ^ 63 -> exists a, panel_workers threads tune nrtiles = Ok a /\ 1 <= a <= Z.max 1 (Z.min nrtiles (threads - 1))) /\
  (forall work unit, 0 <= work < 2 ^ 63 -> 1 <= unit <= 2 ^ 63 -> exists a, rank1_threads threads tune work unit = Ok a /\ 1 <= a <= threads /\ (a - 1) * unit < Z.max 1 work).
Proof.
  intros threads tune LT LU.
  assert (A : leave_one_workers threads tune = Ok (Z.max 1 (Z.min tune (Z.max 1 (threads - 1))))) by (unfold leave_one_workers; rewrite u64_id by lia; apply clamp_ok; lia).
  assert (B : rank1_workers threads tune = Ok (Z.max 1 (Z.min tune (Z.max 1 threads)))) by (apply clamp_ok; lia).
  split; [eexists; split; [exact A|lia]|]. split; [eexists; split; [exact B|lia]|]. split.
  - intros nrt LN. unfold panel_workers. rewrite A. cbn [bind]. rewrite ceil_ok by lia. cbn [bind]. rewrite clamp_ok by lia. eexists. split; [reflexivity|]. rewrite Z.div_1_r. lia.
  - intros work unit LW LN. unfold rank1_threads. rewrite B. cbn [bind]. rewrite ceil_ok by lia. cbn [bind]. rewrite clamp_ok by lia. eexists. split; [reflexivity|].
    pose proof (ceil_spec work unit ltac:(lia) ltac:(lia)) as C. cbv zeta in C. revert C. generalize ((work + unit - 1) / unit). intros q C. split; [lia|].
    assert (Z.max 1 (Z.min q (Z.max 1 (Z.min tune (Z.max 1 threads)))) <= Z.max 1 q) by lia. nia.
Qed.
(** C61. The T factor of a panel with n >= 1 tiles, with a workers available: no undefined behaviour; at most a workers, so the workspaces that the callers allocate suffice; the parts of the workers
    are not empty and every tile is in the part of exactly one worker. *)
Theorem C61_tfactor_split : forall a n, 1 <= a < 2 ^ 62 -> 1 <= n < 2 ^ 62 ->
  exists nworkers batch, split_tfactor_work a n = Ok (nworkers, batch) /\ 1 <= nworkers <= a /\ nworkers - 1 <= nworkspaces a /\
    (forall w, 0 <= w < nworkers -> 0 <= part_begin batch w < part_end batch w n /\ part_end batch w n <= n) /\
    (forall t, 0 <= t < n -> exists w, 0 <= w < nworkers /\ part_begin batch w <= t < part_end batch w n /\ forall w', 0 <= w' < nworkers -> part_begin batch w' <= t < part_end batch w' n -> w' = w).
Proof.
  intros a n LA LN. unfold split_tfactor_work. rewrite ceil_ok by lia. cbn [bind]. rewrite Z.div_1_r, clamp_ok by lia. cbn [bind]. replace (n + 1 - 1) with n by lia. set (c := Z.max 1 (Z.min n a)).
  assert (LC : 1 <= c <= n /\ c <= a) by (unfold c; lia). clearbody c. rewrite ceil_ok by lia. cbn [bind]. set (b := (n + c - 1) / c).
  pose proof (ceil_spec n c ltac:(lia) ltac:(lia)) as CB. cbv zeta in CB. fold b in CB. destruct CB as [CB|CB]; [|lia]. assert (LB : 1 <= b <= n) by nia.
  rewrite ceil_ok by lia. cbn [bind]. set (w := (n + b - 1) / b). pose proof (ceil_spec n b ltac:(lia) ltac:(lia)) as CW. cbv zeta in CW. fold w in CW. destruct CW as [CW|CW]; [|lia].
  assert (LW : 1 <= w <= c) by nia. exists (Z.max 1 w), b. replace (Z.max 1 w) with w by lia. clearbody w b.
  assert (PB : forall x, 0 <= x < w -> part_begin b x = x * b) by (intros x Lx; apply u64_id; nia).
  assert (PE : forall x, 0 <= x < w -> part_end b x n = Z.min (x * b + b) n) by (intros x Lx; unfold part_end; rewrite (u64_id (x * b)) by nia; rewrite u64_id by nia; reflexivity).
  split; [reflexivity|]. split; [lia|]. split; [unfold nworkspaces; rewrite u64_id by lia; lia|]. split.
  - intros x Lx. rewrite PB, PE by exact Lx. nia.
  - intros t Lt. pose proof (Z.div_mod t b ltac:(lia)) as DM. pose proof (Z.mod_pos_bound t b ltac:(lia)) as MB. set (q := t / b) in *. exists q. assert (LQ : 0 <= q < w) by nia.
    split; [exact LQ|]. split; [rewrite PB, PE by exact LQ; replace (q * b) with (b * q) by lia; lia|]. intros x Lx H. rewrite PB, PE in H by exact Lx. apply (Z.div_unique t b x (t - x * b)); lia.
Qed.
(** Outside of the preconditions: without threads the subtraction wraps, all of the requested workers are returned; a panel without tiles divides by zero (callers return before: t_factor_impl.h:103-104). *)
Example C61_no_threads : leave_one_workers 0 1000 = Ok 1000 /\ rank1_workers 0 1000 = Ok 1.
Proof. split; reflexivity. Qed.
Example C61_no_tiles_refuted : split_tfactor_work 4 0 = UB.
Proof. reflexivity. Qed.
(** 7 tiles, 5 workers: 4 workers with batches of 2 *)
Example C61_case : split_tfactor_work 5 7 = Ok (4, 2) /\ leave_one_workers 8 100 = Ok 7 /\ rank1_workers 8 100 = Ok 8 /\ panel_workers 8 100 3 = Ok 3 /\ rank1_threads 8 100 9 2 = Ok 5.
Proof. repeat split. Qed.

(** ** Assumptions *)
Print Assumptions C61_worker_counts.
Print Assumptions C61_tfactor_split.
