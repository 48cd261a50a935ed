(** * C60: matrix mirrors. *)
From Coq Require Import List Arith Bool Lia.
From Verif Require Import PipeModel AsyncModel AsyncProofs Properties_Async MirrorModel.
Import ListNotations.

Section c60.
Context {V : Type}.
Variable N : nat.

(** ** Specification *)
(** the job uses (writes) a tile of the mirrored matrix *)
Definition touches (j : job V) : bool := existsb (fun a => fst a <? N) (j_access j).
Definition writes (j : job V) : bool := existsb (fun a => (fst a <? N) && match snd a with W => true | R => false end) (j_access j).
(** The discipline of a program that works on any device: do not use the source (mirror) while the other one has newer data; copy before.
    A mirror with const elements only gives read access and has no copy functions. *)
Inductive newer := Same | Source | Mirror.
Fixpoint disciplined (const : bool) (w : newer) (l : list (op V)) : Prop :=
  match l with
  | [] => const = false -> w <> Source
  | Work m j :: l => job_ok j /\ (touches j = true -> w <> if m then Source else Mirror) /\ (const = true -> m = true -> writes j = false) /\
      disciplined const (if writes j then (if m then Mirror else Source) else w) l
  | SourceToTarget :: l => const = false /\ w <> Mirror /\ disciplined const Same l
  | TargetToSource :: l => const = false /\ w <> Source /\ disciplined const Same l
  end.
(** the content of the source matrix (c < N) and of all other matrices *)
Definition content (s : store V) (c : nat) : V := s (2 * c).

(** ** Proofs *)
Lemma place_inj : forall same m c c', place N same m c = place N same m c' -> c = c'.
Proof. intros same m c c'. unfold place. destruct (negb same && m); cbn [andb]; [|lia]. destruct (c <? N), (c' <? N); lia. Qed.
Lemma ren_ok : forall (g : nat -> nat) acc (b : body V) held, kernel_ok acc held b -> kernel_ok (map (fun a => (g (fst a), snd a)) acc) held (ren g b).
Proof.
  intros g acc. induction b as [|c k IH|c v k IH|h k IH]; intros held OK; cbn [ren kernel_ok] in *.
  - exact OK.
  - destruct OK as [(i & m & I & E) OK]. split; [|intros v; apply IH, OK]. exists i, m. split; [exact I|]. apply (map_nth_error (fun a => (g (fst a), snd a))) in E. exact E.
  - destruct OK as [(i & I & E) OK]. split; [|apply IH, OK]. exists i. split; [exact I|]. apply (map_nth_error (fun a => (g (fst a), snd a))) in E. exact E.
  - destruct OK as [I OK]. split; [exact I|apply IH, OK].
Qed.
Lemma nth_ren : forall (g : nat -> nat) (acc : list (nat * mode)) i c m, nth_error (map (fun a => (g (fst a), snd a)) acc) i = Some (c, m) -> exists c', nth_error acc i = Some (c', m) /\ c = g c'.
Proof.
  intros g. induction acc as [|[c' m'] acc IH]; intros [|i] c m E; cbn in *; try discriminate; [injection E as <- <-; eauto|apply IH, E].
Qed.
Lemma ren_job_ok : forall same m j, job_ok j -> job_ok (ren_job (V := V) (place N same m) j).
Proof.
  intros same m j [K D]. split; cbn [ren_job j_access j_kernel].
  - rewrite map_length. apply ren_ok, K.
  - intros i k c mi mk NE E1 E2. apply nth_ren in E1, E2. destruct E1 as (c1 & E1 & ->), E2 as (c2 & E2 & EQ). apply place_inj in EQ. subst c2. apply (D i k c1); assumption.
Qed.
Lemma copy_job_ok : forall a b, a <> b -> job_ok (copy_job (V := V) a b).
Proof.
  intros a b NE. split.
  - cbn. split; [exists 0, R; auto|]. intros v. split; [exists 1; auto|]. auto.
  - intros i k c mi mk NI E1 E2. cbn [copy_job j_access] in *. exfalso.
    destruct i as [|[|[|i]]], k as [|[|[|k]]]; cbn in *; try discriminate; try congruence.
Qed.
Lemma copy_all_ok : forall d, Forall job_ok (copy_all (V := V) N d).
Proof. intros d. apply Forall_forall. intros j I. apply in_map_iff in I. destruct I as (c & <- & _). apply copy_job_ok. destruct d; lia. Qed.

Lemma run_frame : forall (g : nat -> nat) acc (b : body V) held s x, kernel_ok acc held b -> (forall c, In (c, W) acc -> x <> g c) -> run (ren (V := V) g b) s x = s x.
Proof.
  intros g acc. induction b as [|c k IH|c v k IH|h k IH]; intros held s x OK H; cbn [ren run kernel_ok] in *.
  - reflexivity.
  - apply (IH (s (g c)) held); [apply OK|exact H].
  - destruct OK as [(i & I & E) OK]. rewrite (IH held) by assumption. apply upd_other. apply H. apply nth_error_In in E. exact E.
  - apply (IH (remove Nat.eq_dec h held)); [apply OK|exact H].
Qed.
Lemma run_ren : forall (g1 g2 : nat -> nat) acc, (forall c c', g1 c = g1 c' -> c = c') -> (forall c c', g2 c = g2 c' -> c = c') -> forall b held s1 s2, kernel_ok acc held b ->
  (forall c m, In (c, m) acc -> s1 (g1 c) = s2 (g2 c)) -> forall c m, In (c, m) acc -> run (ren (V := V) g1 b) s1 (g1 c) = run (ren g2 b) s2 (g2 c).
Proof.
  intros g1 g2 acc J1 J2. induction b as [|c k IH|c v k IH|h k IH]; intros held s1 s2 OK H; cbn [ren run kernel_ok] in *.
  - exact H.
  - destruct OK as [(i & m & I & E) OK]. apply nth_error_In in E. rewrite (H c m E). apply (IH _ held); [apply OK|exact H].
  - destruct OK as [_ OK]. apply (IH held); [exact OK|]. intros c' m' I'. destruct (Nat.eq_dec c' c) as [->|NE]; [rewrite !upd_same; reflexivity|].
    rewrite !upd_other by (intros EQ; apply NE; (apply J1, EQ || apply J2, EQ)). apply (H c' m' I').
  - apply (IH (remove Nat.eq_dec h held)); [apply OK|exact H].
Qed.

Lemma run_app : forall a b (s : store V), run_jobs (a ++ b) s = run_jobs b (run_jobs a s).
Proof. intros. apply fold_left_app. Qed.
Lemma copies : forall (f g : nat -> nat) l (s : store V), (forall c c', g c = g c' -> c = c') -> (forall c c', f c <> g c') -> NoDup l ->
  (forall c, In c l -> run_jobs (map (fun c => copy_job (f c) (g c)) l) s (g c) = s (f c)) /\
  (forall x, (forall c, In c l -> x <> g c) -> run_jobs (map (fun c => copy_job (f c) (g c)) l) s x = s x).
Proof.
  intros f g l s J D ND. revert s. induction ND as [|a l NI ND IH]; intros s; [split; [intros c []|reflexivity]|].
  cbn [map]. change (run_jobs (copy_job (f a) (g a) :: ?l) s) with (run_jobs l (upd s (g a) (s (f a)))). destruct (IH (upd s (g a) (s (f a)))) as [A B]. split.
  - intros c [->|I].
    + rewrite B; [apply upd_same|]. intros c' I' EQ. apply J in EQ. congruence.
    + rewrite A by exact I. apply upd_other, D.
  - intros x H. rewrite B by (intros c I; apply H; right; exact I). apply upd_other. apply H. left. reflexivity.
Qed.
Lemma to_target : forall (s : store V), (forall c, c < N -> run_jobs (copy_all N true) s (2 * c + 1) = s (2 * c)) /\ (forall c, run_jobs (copy_all N true) s (2 * c) = s (2 * c)).
Proof.
  intros s. destruct (copies (fun c => 2 * c) (fun c => 2 * c + 1) (seq 0 N) s ltac:(cbv beta; intros; lia) ltac:(cbv beta; intros; lia) (seq_NoDup N 0)) as [A B]. split.
  - intros c L. apply (A c). apply in_seq. lia.
  - intros c. apply (B (2 * c)). intros; lia.
Qed.
Lemma to_source : forall (s : store V), (forall c, c < N -> run_jobs (copy_all N false) s (2 * c) = s (2 * c + 1)) /\
  (forall c, N <= c -> run_jobs (copy_all N false) s (2 * c) = s (2 * c)) /\ (forall c, run_jobs (copy_all N false) s (2 * c + 1) = s (2 * c + 1)).
Proof.
  intros s. destruct (copies (fun c => 2 * c + 1) (fun c => 2 * c) (seq 0 N) s ltac:(cbv beta; intros; lia) ltac:(cbv beta; intros; lia) (seq_NoDup N 0)) as [A B]. split; [|split].
  - intros c L. apply (A c). apply in_seq. lia.
  - intros c L. apply (B (2 * c)). intros c' I. apply in_seq in I. lia.
  - intros c. apply (B (2 * c + 1)). intros; lia.
Qed.

(** s1: different devices; s2: same device *)
Definition rel (w : newer) (s1 s2 : store V) : Prop :=
  (forall c, N <= c -> s1 (2 * c) = s2 (2 * c)) /\
  (w <> Mirror -> forall c, c < N -> s1 (2 * c) = s2 (2 * c)) /\
  (w <> Source -> forall c, c < N -> s1 (2 * c + 1) = s2 (2 * c)).
Lemma touches_in : forall j c m, In (c, m) (j_access j) -> c < N -> touches j = true.
Proof. intros j c m I L. apply existsb_exists. exists (c, m). split; [exact I|]. apply Nat.ltb_lt, L. Qed.
Lemma writes_in : forall j c, In (c, W) (j_access j) -> c < N -> writes j = true.
Proof. intros j c I L. apply existsb_exists. exists (c, W). split; [exact I|]. cbn [fst snd]. apply Nat.ltb_lt in L. rewrite L. reflexivity. Qed.
Lemma place_cases : forall m c, (place N false m c = 2 * c + 1 /\ m = true /\ c < N) \/ (place N false m c = 2 * c /\ (m = false \/ N <= c)).
Proof. intros m c. unfold place. cbn [negb andb]. destruct m; cbn [andb]; [|right; auto]. destruct (Nat.ltb_spec c N); [left|right]; auto. Qed.
Lemma place_same : forall m c, place N true m c = 2 * c.
Proof. reflexivity. Qed.
Lemma acc_dec : forall (c : nat) (l : list (nat * mode)), {exists m, In (c, m) l} + {forall m, ~ In (c, m) l}.
Proof.
  intros c l. destruct (in_dec Nat.eq_dec c (map fst l)) as [I|I].
  - left. apply in_map_iff in I. destruct I as ([c' m] & E & I). cbn in E. subst c'. eauto.
  - right. intros m X. apply I. apply in_map_iff. exists (c, m). auto.
Qed.
Lemma work_step : forall (m : bool) j w s1 s2, job_ok j -> (touches j = true -> w <> if m then Source else Mirror) -> rel w s1 s2 ->
  rel (if writes j then (if m then Mirror else Source) else w) (run (ren (place N false m) (j_kernel j)) s1) (run (ren (place N true m) (j_kernel j)) s2).
Proof.
  intros m j w s1 s2 [K _] T (RO & RS & RM). set (s1' := run (ren (place N false m) (j_kernel j)) s1). set (s2' := run (ren (place N true m) (j_kernel j)) s2).
  assert (PR : forall c md, In (c, md) (j_access j) -> s1 (place N false m c) = s2 (place N true m c)).
  { intros c md I. rewrite place_same. destruct (place_cases m c) as [(-> & -> & L)|(-> & H)].
    - apply RM; [|exact L]. apply T. eapply touches_in; eassumption.
    - destruct (Nat.lt_ge_cases c N) as [L|L]; [|apply RO, L]. destruct H as [->|H]; [|lia]. apply RS; [|exact L]. apply T. eapply touches_in; eassumption. }
  assert (ACC : forall c md, In (c, md) (j_access j) -> s1' (place N false m c) = s2' (2 * c)).
  { intros c md I. rewrite <- (place_same m c). apply (run_ren (place N false m) (place N true m) (j_access j) (place_inj false m) (place_inj true m)) with (held := seq 0 (length (j_access j))) (m := md); assumption. }
  assert (F1 : forall x, (forall c, In (c, W) (j_access j) -> x <> place N false m c) -> s1' x = s1 x) by (intros x H; eapply run_frame; eassumption).
  assert (F2 : forall c, ~ In (c, W) (j_access j) -> s2' (2 * c) = s2 (2 * c)).
  { intros c H. eapply run_frame; [eassumption|]. intros c' I EQ. rewrite place_same in EQ. replace c' with c in I by lia. contradiction. }
  (* one cell *)
  assert (CELL : forall c, s1 (place N false m c) = s2 (2 * c) -> s1' (place N false m c) = s2' (2 * c)).
  { intros c E. destruct (acc_dec c (j_access j)) as [[md I]|NI]; [apply (ACC c md I)|]. rewrite F1, F2 by (apply NI || (intros c' I EQ; apply place_inj in EQ; subst c'; exact (NI _ I))). exact E. }
  assert (OTHER : forall c, N <= c -> s1' (2 * c) = s2' (2 * c)).
  { intros c L. specialize (CELL c). destruct (place_cases m c) as [(_ & _ & L')|(E & _)]; [lia|]. rewrite E in CELL. apply CELL, RO, L. }
  assert (NW : writes j = false -> forall c, c < N -> ~ In (c, W) (j_access j)) by (intros E c L I; rewrite (writes_in j c I L) in E; discriminate).
  destruct m.
  - assert (MIR : (forall c, c < N -> s1 (2 * c + 1) = s2 (2 * c)) -> forall c, c < N -> s1' (2 * c + 1) = s2' (2 * c)).
    { intros H c L. specialize (CELL c). destruct (place_cases true c) as [(E & _)|(_ & [X|X])]; [|discriminate|lia]. rewrite E in CELL. apply CELL, H, L. }
    destruct (writes j) eqn:EW.
    + split; [exact OTHER|]. split; [intros X; congruence|]. intros _. apply MIR, RM. apply T. unfold writes in EW. apply existsb_exists in EW. destruct EW as ([c md] & I & E). apply andb_true_iff in E. destruct E as [E _]. apply (touches_in j c md I). apply Nat.ltb_lt, E.
    + split; [exact OTHER|]. split; [|intros X; apply MIR, RM, X]. intros X c L. rewrite F1, F2; [apply RS; assumption|apply (NW eq_refl c L)|].
      intros c' I EQ. destruct (place_cases true c') as [(E & _)|(E & [Y|Y])]; [lia|discriminate|lia].
  - assert (SRC : (forall c, c < N -> s1 (2 * c) = s2 (2 * c)) -> forall c, c < N -> s1' (2 * c) = s2' (2 * c)).
    { intros H c L. specialize (CELL c). destruct (place_cases false c) as [(_ & X & _)|(E & _)]; [discriminate|]. rewrite E in CELL. apply CELL, H, L. }
    destruct (writes j) eqn:EW.
    + split; [exact OTHER|]. split; [|intros X; congruence]. intros _. apply SRC, RS. apply T. unfold writes in EW. apply existsb_exists in EW. destruct EW as ([c md] & I & E). apply andb_true_iff in E. destruct E as [E _]. apply (touches_in j c md I). apply Nat.ltb_lt, E.
    + split; [exact OTHER|]. split; [intros X; apply SRC, RS, X|]. intros X c L. rewrite F1, F2; [apply RM; assumption|apply (NW eq_refl c L)|].
      intros c' I EQ. destruct (place_cases false c') as [(_ & Y & _)|(E & _)]; [discriminate|lia].
Qed.

Lemma ops_rel : forall const l w s1 s2, disciplined const w l -> (const = true -> w <> Mirror) -> rel w s1 s2 ->
  forall c, run_jobs (flat_map (op_jobs N false) l ++ destroy N false const) s1 (2 * c) = run_jobs (flat_map (op_jobs N true) l ++ destroy N true const) s2 (2 * c).
Proof.
  intros const. induction l as [|o l IH]; intros w s1 s2 D C RL c.
  - cbn [flat_map app]. change (destroy N true const) with (@nil (job V)). cbn [run_jobs fold_left]. destruct RL as (RO & RS & RM). cbn [disciplined] in D. destruct const; cbn [destroy orb].
    + change (s1 (2 * c) = s2 (2 * c)). destruct (Nat.lt_ge_cases c N) as [L|L]; [apply RS; auto|apply RO, L].
    + destruct (to_source s1) as (A & B & _). change (run_jobs (copy_all N false) s1 (2 * c) = s2 (2 * c)). destruct (Nat.lt_ge_cases c N) as [L|L]; [rewrite A by exact L; apply RM; auto|rewrite B by exact L; apply RO, L].
  - cbn [flat_map]. rewrite <- !app_assoc, (run_app (op_jobs N false o)), (run_app (op_jobs N true o)). destruct o as [m j| |]; cbn [op_jobs disciplined] in *.
    + destruct D as (OK & T & W0 & D). cbn [ren_job] in *. change (run_jobs [Job ?a ?k] ?s) with (run k s). apply (IH (if writes j then (if m then Mirror else Source) else w)); [exact D| |apply work_step; assumption].
      intros E. destruct (writes j) eqn:EW; [|apply C, E]. destruct m; [|discriminate]. specialize (W0 E eq_refl). congruence.
    + destruct D as (CF & NM & D). apply (IH Same); [exact D|congruence|]. destruct (to_target s1) as [A B], RL as (RO & RS & RM). cbn [run_jobs fold_left].
      split; [|split]; intros; rewrite ?A, ?B by assumption; auto.
    + destruct D as (CF & NM & D). apply (IH Same); [exact D|congruence|]. destruct (to_source s1) as (A & B & E), RL as (RO & RS & RM). cbn [run_jobs fold_left].
      split; [|split]; intros; rewrite ?A, ?B, ?E by assumption; auto.
Qed.
Lemma lifetime_ok : forall same const l w, disciplined const w l -> Forall job_ok (lifetime N same const l).
Proof.
  intros same const l w D. unfold lifetime, alive. apply Forall_app. split; [apply Forall_app; split|].
  - unfold construct. destruct same; [constructor|apply copy_all_ok].
  - revert w D. induction l as [|o l IH]; intros w D; [constructor|]. cbn [flat_map]. apply Forall_app. destruct o as [m j| |]; cbn [op_jobs disciplined] in *.
    + destruct D as (OK & _ & _ & D). split; [constructor; [apply ren_job_ok, OK|constructor]|eapply IH, D].
    + destruct D as (_ & _ & D). split; [destruct same; [constructor|apply copy_all_ok]|eapply IH, D].
    + destruct D as (_ & _ & D). split; [destruct same; [constructor|apply copy_all_ok]|eapply IH, D].
  - unfold destroy. destruct (same || const); [constructor|apply copy_all_ok].
Qed.

(** ** Theorems *)
(** C60. A disciplined program gives the same result (source and all other matrices) whether the mirror is the source itself or a copy on another device, for every pair of schedules. *)
Theorem C60_device_independent : forall const l s1_0 s2_0 s1 s2, disciplined const Same l -> (forall c, content s1_0 c = content s2_0 c) ->
  reachable (program_of (lifetime N false const l)) s1_0 s1 -> final (program_of (lifetime N false const l)) s1 ->
  reachable (program_of (lifetime N true const l)) s2_0 s2 -> final (program_of (lifetime N true const l)) s2 ->
  forall c, content (st_store s1) c = content (st_store s2) c.
Proof.
  intros const l a b s1 s2 D E R1 F1 R2 F2 c. unfold content. rewrite (C20_async_is_sequential _ _ _ (lifetime_ok false const l Same D) R1 F1), (C20_async_is_sequential _ _ _ (lifetime_ok true const l Same D) R2 F2).
  unfold lifetime, alive. rewrite <- !app_assoc, !(run_app (construct N _)). cbn [construct].
  apply (ops_rel const l Same); [exact D|congruence|]. destruct (to_target a) as [A B]. unfold content in E. cbn [run_jobs fold_left].
  split; [|split]; intros; rewrite ?A, ?B by assumption; auto.
Qed.
(** No schedule hangs: from every reachable state the program with the mirror can be completed, and it cannot run for ever. *)
Theorem C60_ends : forall same const l s0 s, disciplined const Same l -> reachable (program_of (lifetime N same const l)) s0 s ->
  (exists s', reachable (program_of (lifetime N same const l)) s0 s' /\ final (program_of (lifetime N same const l)) s') /\
  Acc (fun next now => step (program_of (lifetime N same const l)) now next) s.
Proof.
  intros same const l s0 s D Rs. pose proof (lifetime_ok same const l Same D) as OK. split; [apply (C20_completes _ _ _ OK Rs)|apply (C20_terminates _ _ _ OK Rs)].
Qed.
(** Different devices, work on the mirror only: while the mirror lives the source does not change, the destruction of a mirror with const elements does not change it either. *)
Theorem C60_source_unchanged : forall js s0 s, Forall job_ok js -> let l := map (Work true) js in
  (reachable (program_of (alive N false l)) s0 s /\ final (program_of (alive N false l)) s \/ reachable (program_of (lifetime N false true l)) s0 s /\ final (program_of (lifetime N false true l)) s) ->
  forall c, c < N -> content (st_store s) c = content s0 c.
Proof.
  intros js s0 s OK l H c L.
  assert (OKL : Forall job_ok (alive N false l)).
  { apply Forall_app. split; [apply copy_all_ok|]. unfold l. clear - OK. induction OK as [|j js OJ OK IH]; [constructor|]. cbn [map flat_map op_jobs app]. constructor; [apply ren_job_ok, OJ|exact IH]. }
  assert (X : run_jobs (alive N false l) s0 (2 * c) = s0 (2 * c)).
  { unfold alive. rewrite run_app. cbn [construct]. destruct (to_target s0) as [_ B]. rewrite <- (B c). generalize (run_jobs (copy_all N true) s0). clear B H OKL. unfold l. clear l. induction OK as [|j js OJ OK IH]; intros s1; [reflexivity|].
    cbn [map flat_map op_jobs]. rewrite run_app, IH. cbn [ren_job]. change (run_jobs [Job ?a ?k] ?s) with (run k s). destruct OJ as [K _]. eapply run_frame; [exact K|].
    intros c' _ EQ. destruct (place_cases true c') as [(E & _)|(E & [Y|Y])]; [lia|discriminate|lia]. }
  unfold content. destruct H as [[Rs F]|[Rs F]].
  - rewrite (C20_async_is_sequential _ _ _ OKL Rs F). exact X.
  - replace (lifetime N false true l) with (alive N false l) in Rs, F by (unfold lifetime; cbn [destroy orb]; rewrite app_nil_r; reflexivity).
    rewrite (C20_async_is_sequential _ _ _ OKL Rs F). exact X.
Qed.
End c60.

(** ** Cases: matrix of two tiles *)
Definition inc (c : nat) : job nat := Job [(c, W)] (Load c (fun x => Put c (x + 1) (Free 0 Ret))).
Definition read_to (c d : nat) : job nat := Job [(c, R); (d, W)] (Load c (fun x => Put d x (Free 0 (Free 1 Ret)))).
Lemma inc_ok : forall c, job_ok (inc c).
Proof.
  intros c. split.
  - cbn. split; [exists 0, W; auto|]. intros v. split; [exists 0; auto|]. auto.
  - intros i k c' mi mk NI E1 E2. exfalso. destruct i as [|[|i]], k as [|[|k]]; cbn in *; try discriminate; congruence.
Qed.
(** work on the mirror, copy to the source, use the source, copy to the mirror, work on the mirror *)
Definition history : list (op nat) := [Work true (inc 1); TargetToSource; Work false (read_to 1 5); Work false (inc 0); SourceToTarget; Work true (inc 0)].
Example C60_case : disciplined 2 false Same history /\
  (forall same, map (run_jobs (lifetime 2 same false history) (fun c => c)) [0; 2; 10] = [2; 3; 3]) /\
  (forall same, exists s, reachable (program_of (lifetime 2 same false history)) (fun c => c) s /\ final (program_of (lifetime 2 same false history)) s).
Proof.
  assert (D : disciplined 2 false Same history).
  { unfold history. cbn. repeat match goal with |- _ /\ _ => split end; solve [apply inc_ok | apply (copy_job_ok 1 5); lia | reflexivity | intros; discriminate | discriminate]. }
  split; [exact D|]. split; [intros []; reflexivity|]. intros same. destruct (C60_ends 2 same false history (fun c => c) _ D (r_init _ _)) as [H _]. exact H.
Qed.
(** The documentation (matrix_mirror.h:28-33) promises that the source is unchanged while the mirror is alive. With the same device it changes; a program that relies on the
    promise and reads the source before copying back gets another result. *)
Example C60_same_device_refuted :
  content (run_jobs (alive 2 true [Work true (inc 1)]) (fun c => c)) 1 <> 2 /\
  run_jobs (lifetime 2 true false [Work true (inc 1); Work false (read_to 1 5)]) (fun c => c) 10 = 3 /\
  run_jobs (lifetime 2 false false [Work true (inc 1); Work false (read_to 1 5)]) (fun c => c) 10 = 2.
Proof. split; [cbn; discriminate|]. split; reflexivity. Qed.

(** ** Assumptions *)
Print Assumptions C60_device_independent.
Print Assumptions C60_ends.
Print Assumptions C60_source_unchanged.
