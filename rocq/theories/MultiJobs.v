(** * Tile jobs that update several tiles, e.g. the panel factorization of reduction_to_band
    (eigensolver/reduction_to_band/impl.h:281-286: when_all(taus readwrite, when_all_vector(panel tiles
    readwrite))), and their asynchronous execution. Extends DenseJobs.v. *)
From Coq Require Import ZArith Lia List Bool.
From Verif Require Import Loop PipeModel AsyncModel AsyncProofs Properties_Async DenseJobs.
Import ListNotations.
Local Open Scope Z_scope.

Section jobs.
Context {V : Type}.
(** tiles read, tiles updated, and the new values of the tiles updated (in that order), from the values of
    the tiles read and the old values of the tiles updated *)
Record mjob := MJob { mj_in : list tid; mj_out : list tid; mj_fun : list V -> list V -> list V }.
Fixpoint index_of (x : tid) (l : list tid) : option nat :=
  match l with [] => None | y :: l => if tid_eqb x y then Some O else option_map S (index_of x l) end.
Definition mvals (j : mjob) (st : tstore V) : list V := mj_fun j (map st (mj_in j)) (map st (mj_out j)).
(** the effect of a job, and of a list of jobs in order *)
Definition mexec (st : tstore V) (j : mjob) : tstore V := fun x =>
  match index_of x (mj_out j) with
  | Some i => match nth_error (mvals j st) i with Some v => v | None => st x end
  | None => st x end.
Definition mrun (js : list mjob) (st : tstore V) : tstore V := fold_left mexec js st.
(** tiles updated are updated once, and are not among the tiles read *)
Definition mjob_ok (j : mjob) : Prop := NoDup (mj_out j) /\ forall x, In x (mj_out j) -> ~ In x (mj_in j).
(** an ordinary tile job *)
Definition mj (j : tjob V) : mjob := MJob (tj_in j) [tj_out j] (fun vs os => match os with o :: _ => [tj_fun j vs o] | [] => [] end).

Lemma mrun_app : forall a b st, mrun (a ++ b) st = mrun b (mrun a st).
Proof. intros. unfold mrun. apply fold_left_app. Qed.
Lemma mrun_cons : forall j js st, mrun (j :: js) st = mrun js (mexec st j).
Proof. reflexivity. Qed.
Lemma index_of_None : forall x l, index_of x l = None <-> ~ In x l.
Proof.
  intros x. induction l as [|y l IH]; cbn [index_of In]; [tauto|]. destruct (tid_eqb_spec x y) as [->|N].
  - split; [discriminate|]. intros Q. exfalso. apply Q. left. reflexivity.
  - destruct (index_of x l) as [i|]; cbn [option_map]; split; try discriminate.
    + intros Q. exfalso. apply Q. right. destruct (in_dec (fun a b => match tid_eqb_spec a b with ReflectT _ e => left e | ReflectF _ e => right e end) x l) as [I0|I0]; [exact I0|]. apply IH in I0. discriminate.
    + intros _ [Q|Q]; [congruence|]. destruct IH as [IH _]. exact (IH eq_refl Q).
    + reflexivity.
Qed.
Lemma index_of_Some : forall x l i, index_of x l = Some i -> nth_error l i = Some x.
Proof.
  intros x. induction l as [|y l IH]; intros i E; cbn [index_of] in E; [discriminate|]. destruct (tid_eqb_spec x y) as [->|N].
  - injection E as <-. reflexivity.
  - destruct (index_of x l) as [k|] eqn:Q; [|discriminate]. injection E as <-. cbn [nth_error]. apply IH. reflexivity.
Qed.
Lemma index_of_nth : forall l i x, NoDup l -> nth_error l i = Some x -> index_of x l = Some i.
Proof.
  induction l as [|y l IH]; intros i x ND E; [destruct i; discriminate|]. apply NoDup_cons_iff in ND as [N ND]. cbn [index_of].
  destruct i as [|i]; cbn [nth_error] in E.
  - injection E as ->. destruct (tid_eqb_spec x x); [reflexivity|congruence].
  - destruct (tid_eqb_spec x y) as [->|_]; [exfalso; apply N; eapply nth_error_In; exact E|]. rewrite (IH i x ND E). reflexivity.
Qed.
Lemma mexec_frame : forall st j x, ~ In x (mj_out j) -> mexec st j x = st x.
Proof. intros st j x N. unfold mexec. apply index_of_None in N. rewrite N. reflexivity. Qed.
Lemma mexec_at : forall st j i x v, NoDup (mj_out j) -> nth_error (mj_out j) i = Some x -> nth_error (mvals j st) i = Some v -> mexec st j x = v.
Proof. intros st j i x v ND E Q. unfold mexec. rewrite (index_of_nth _ _ _ ND E), Q. reflexivity. Qed.
Lemma mexec_mj : forall st j x, mexec st (mj j) x = texec st j x.
Proof.
  intros st j x. unfold mexec, mj, mvals, texec, tset, tval. cbn [mj_in mj_out mj_fun map index_of]. destruct (tid_eqb x (tj_out j)); cbn [option_map nth_error]; reflexivity.
Qed.
Lemma mexec_ext : forall st st' j, (forall x, st x = st' x) -> forall x, mexec st j x = mexec st' j x.
Proof.
  intros st st' j E x. unfold mexec. assert (M : mvals j st = mvals j st').
  { unfold mvals. rewrite (map_ext st st' E), (map_ext st st' E). reflexivity. }
  rewrite M, E. reflexivity.
Qed.
Lemma mrun_ext : forall js st st', (forall x, st x = st' x) -> forall x, mrun js st x = mrun js st' x.
Proof. induction js as [|j js IH]; intros st st' E x; [apply E|]. rewrite !mrun_cons. apply IH. apply mexec_ext. exact E. Qed.
Lemma mrun_mj : forall js st x, mrun (map mj js) st x = trun js st x.
Proof.
  induction js as [|j js IH]; intros st x; [reflexivity|]. cbn [map]. rewrite mrun_cons, trun_cons, <- IH. apply mrun_ext. apply mexec_mj.
Qed.
Lemma mj_ok : forall j, tjob_ok j -> mjob_ok (mj j).
Proof.
  intros j OK. split; cbn; [constructor; [intros []|constructor]|]. intros x [<-|[]]. exact OK.
Qed.

(** ** Translation to the asynchronous machine of C20 *)
Fixpoint puts (l : list tid) (vs : list V) (k : body V) : body V :=
  match l, vs with x :: l, v :: vs => Put (enc x) v (puts l vs k) | _, _ => k end.
Definition mkernel_of (j : mjob) : body V :=
  loads (mj_in j) [] (fun vs => loads (mj_out j) [] (fun os => puts (mj_out j) (mj_fun j vs os) (frees (length (mj_in j) + length (mj_out j))))).
Definition mjob_of (j : mjob) : job V :=
  Job (map (fun x => (enc x, R)) (mj_in j) ++ map (fun x => (enc x, W)) (mj_out j)) (mkernel_of j).
Lemma run_puts : forall l vs k (s : store V), NoDup l -> (forall s', run k s' = s') -> forall x, run (puts l vs k) s (enc x) =
  match index_of x l with Some i => match nth_error vs i with Some v => v | None => s (enc x) end | None => s (enc x) end.
Proof.
  induction l as [|y l IH]; intros vs k s ND KE x; cbn [puts index_of]; [rewrite KE; reflexivity|].
  apply NoDup_cons_iff in ND as [N ND].
  destruct vs as [|v vs]; [rewrite KE; destruct (tid_eqb x y); [reflexivity|]; destruct (index_of x l) as [i|]; [destruct i|]; reflexivity|].
  cbn [run]. rewrite IH by assumption. unfold upd. destruct (tid_eqb_spec x y) as [->|Q].
  - apply index_of_None in N. rewrite N. rewrite Nat.eqb_refl. reflexivity.
  - assert (E : (enc x =? enc y)%nat = false) by (apply Nat.eqb_neq; intros C; apply Q; apply enc_inj; exact C). rewrite E.
    destruct (index_of x l) as [i|]; cbn [option_map nth_error]; reflexivity.
Qed.
Lemma run_mkernel : forall j (s : store V) x, NoDup (mj_out j) -> run (mkernel_of j) s (enc x) = mexec (fun y => s (enc y)) j x.
Proof.
  intros j s x ND. unfold mkernel_of. rewrite !run_loads. cbn [rev app]. rewrite run_puts; [|exact ND|apply run_frees]. reflexivity.
Qed.
Lemma run_mjobs_of : forall js (s : store V), Forall mjob_ok js -> forall x, run_jobs (map mjob_of js) s (enc x) = mrun js (fun y => s (enc y)) x.
Proof.
  unfold run_jobs. induction js as [|j js IH]; intros s OK x; cbn [map fold_left]; [reflexivity|]. inversion OK as [|? ? [ND _] OK']; subst.
  rewrite IH, mrun_cons by exact OK'. apply mrun_ext. intros y. apply run_mkernel. exact ND.
Qed.
Lemma loads_ok' : forall acc n l vs k,
  (forall x, In x l -> exists i m, (i < n)%nat /\ nth_error acc i = Some (enc x, m)) ->
  (forall v, kernel_ok acc (seq 0 n) (k v)) -> kernel_ok acc (seq 0 n) (loads l vs k : body V).
Proof.
  intros acc n. induction l as [|x l IH]; intros vs k E KO; cbn [loads kernel_ok]; [apply KO|]. split.
  - destruct (E x (or_introl eq_refl)) as (i & m & A & B). exists i, m. split; [apply in_seq; lia|exact B].
  - intros v. apply IH; [|exact KO]. intros y I0. apply E. right. exact I0.
Qed.
Lemma puts_ok : forall acc n l vs k, (forall x, In x l -> exists i, (i < n)%nat /\ nth_error acc i = Some (enc x, W)) ->
  kernel_ok acc (seq 0 n) k -> kernel_ok acc (seq 0 n) (puts l vs k : body V).
Proof.
  intros acc n. induction l as [|x l IH]; intros vs k E KO; cbn [puts]; [exact KO|]. destruct vs as [|v vs]; [exact KO|]. cbn [kernel_ok]. split.
  - destruct (E x (or_introl eq_refl)) as (i & A & B). exists i. split; [apply in_seq; lia|exact B].
  - apply IH; [|exact KO]. intros y I0. apply E. right. exact I0.
Qed.
Lemma mjob_of_ok : forall j, mjob_ok j -> job_ok (mjob_of j).
Proof.
  intros j [ND DJ]. unfold job_ok, mjob_of. cbn [j_access j_kernel]. rewrite app_length, !map_length.
  set (ni := length (mj_in j)). set (no := length (mj_out j)).
  assert (AI : forall x, In x (mj_in j) -> exists i, (i < ni)%nat /\ nth_error (map (fun x => (enc x, R)) (mj_in j) ++ map (fun x => (enc x, W)) (mj_out j)) i = Some (enc x, R)).
  { intros x I0. apply In_nth_error in I0 as [i E]. assert (L : (i < ni)%nat) by (apply nth_error_Some; congruence).
    exists i. split; [exact L|]. rewrite nth_error_app1 by (rewrite map_length; exact L). apply (map_nth_error (fun x => (enc x, R)) i _ E). }
  assert (AO : forall x, In x (mj_out j) -> exists i, (i < ni + no)%nat /\ nth_error (map (fun x => (enc x, R)) (mj_in j) ++ map (fun x => (enc x, W)) (mj_out j)) i = Some (enc x, W)).
  { intros x I0. apply In_nth_error in I0 as [i E]. assert (L : (i < no)%nat) by (apply nth_error_Some; congruence).
    exists (ni + i)%nat. split; [lia|]. rewrite nth_error_app2 by (rewrite map_length; fold ni; lia). rewrite map_length. fold ni.
    replace (ni + i - ni)%nat with i by lia. apply (map_nth_error (fun x => (enc x, W)) i _ E). }
  assert (OTHER : forall i c m, nth_error (map (fun x => (enc x, R)) (mj_in j) ++ map (fun x => (enc x, W)) (mj_out j)) i = Some (c, m) ->
    ((i < ni)%nat /\ exists x, nth_error (mj_in j) i = Some x /\ c = enc x /\ m = R) \/
    ((ni <= i)%nat /\ exists x, nth_error (mj_out j) (i - ni) = Some x /\ c = enc x /\ m = W)).
  { intros i c m E. destruct (Nat.lt_ge_cases i ni) as [L|L].
    - left. rewrite nth_error_app1 in E by (rewrite map_length; exact L). rewrite nth_error_map in E.
      destruct (nth_error (mj_in j) i) as [x|]; [|discriminate]. injection E as <- <-. split; [exact L|]. exists x. auto.
    - right. rewrite nth_error_app2 in E by (rewrite map_length; exact L). rewrite map_length in E. fold ni in E. rewrite nth_error_map in E.
      destruct (nth_error (mj_out j) (i - ni)) as [x|]; [|discriminate]. injection E as <- <-. split; [exact L|]. exists x. auto. }
  split.
  - unfold mkernel_of. apply loads_ok'.
    + intros x I0. destruct (AI x I0) as (i & A & B). exists i, R. split; [lia|exact B].
    + intros vs. apply loads_ok'.
      * intros x I0. destruct (AO x I0) as (i & A & B). exists i, W. split; [lia|exact B].
      * intros os. apply puts_ok; [exact AO|]. apply frees_ok.
  - intros i k c mi mk N E1 E2. destruct (OTHER _ _ _ E1) as [(L1 & x & X1 & X2 & ->)|(L1 & x & X1 & X2 & ->)], (OTHER _ _ _ E2) as [(L2 & y & Y1 & Y2 & ->)|(L2 & y & Y1 & Y2 & ->)]; auto.
    + exfalso. rewrite X2 in Y2. apply enc_inj in Y2. subst y. apply (DJ x); eapply nth_error_In; eassumption.
    + exfalso. rewrite X2 in Y2. apply enc_inj in Y2. subst y. apply (DJ x); eapply nth_error_In; eassumption.
    + exfalso. rewrite X2 in Y2. apply enc_inj in Y2. subst y. rewrite <- Y1 in X1. apply (proj1 (NoDup_nth_error (mj_out j)) ND) in X1; [lia|].
      apply nth_error_Some. congruence.
Qed.

(** What the calling thread submits for a list of jobs; see DenseJobs.every_schedule *)
Definition msubmitted (js : list mjob) : program V := program_of (map mjob_of js).
Definition every_schedule_m (js : list mjob) (st0 : tstore V) (Q : tstore V -> Prop) : Prop :=
  forall s0 : store V, (forall x, s0 (enc x) = st0 x) ->
  forall s, reachable (msubmitted js) s0 s ->
    (final (msubmitted js) s -> Q (fun x => st_store s (enc x))) /\
    (final (msubmitted js) s \/ exists s', step (msubmitted js) s s') /\
    Acc (fun next now => step (msubmitted js) now next) s.
Theorem every_schedule_m_intro : forall js st0 (Q : tstore V -> Prop), Forall mjob_ok js ->
  (forall st, (forall x, st x = mrun js st0 x) -> Q st) -> every_schedule_m js st0 Q.
Proof.
  intros js st0 Q OK QS s0 E s RS.
  assert (OK' : Forall job_ok (map mjob_of js)).
  { rewrite Forall_forall in *. intros j I0. apply in_map_iff in I0 as (k & <- & I1). apply mjob_of_ok. auto. }
  split; [|split].
  - intros FN. apply QS. intros x. unfold msubmitted in *.
    rewrite (C20_async_is_sequential _ s0 s OK' RS FN (enc x)), run_mjobs_of by exact OK. apply mrun_ext. exact E.
  - apply (C20_no_deadlock _ s0 s OK' RS).
  - apply (C20_terminates _ s0 s OK' RS).
Qed.
(** [every_schedule_m] speaks about at least one complete execution. *)
Theorem every_schedule_m_run : forall js st0 Q, Forall mjob_ok js -> every_schedule_m js st0 Q ->
  exists s0 s, (forall x, s0 (enc x) = st0 x) /\ reachable (msubmitted js) s0 s /\ final (msubmitted js) s /\
    Q (fun x => st_store s (enc x)).
Proof.
  intros js st0 Q OK ES.
  assert (OK' : Forall job_ok (map mjob_of js)).
  { rewrite Forall_forall in *. intros j I0. apply in_map_iff in I0 as (k & <- & I1). apply mjob_of_ok. auto. }
  set (s0 := fun n => st0 (dec n)). assert (E : forall x, s0 (enc x) = st0 x) by (intros x; unfold s0; rewrite dec_enc; reflexivity).
  destruct (C20_completes (map mjob_of js) s0 _ OK' (r_init _ _)) as (s & A & B).
  exists s0, s. split; [exact E|]. split; [exact A|]. split; [exact B|]. apply (ES s0 E s A). exact B.
Qed.
End jobs.
Arguments mjob : clear implicits.
