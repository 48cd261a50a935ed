(** * Tile algorithms as lists of tile jobs, and their asynchronous execution.
    The dense algorithms are loop nests that do nothing but submit kernels: every submission is
    [start_detached(whenAllLift(..., m.read(i)..., m.readwrite(o)) | tile::kernel(policy))]
    (e.g. factorization/cholesky/impl.h:44-93), i.e. a task that needs read access to some tiles and
    readwrite access to one tile, and overwrites the latter with a function of all of them. *)
From Coq Require Import ZArith Lia List Bool Cantor.
From Verif Require Import Loop PipeModel AsyncModel AsyncProofs Properties_Async.
Import ListNotations.
Local Open Scope Z_scope.

(** Names of tiles: owning rank (0 in local algorithms), which matrix or workspace, tile row, tile column. *)
Record tid := Tid { t_rank : Z; t_mat : Z; t_row : Z; t_col : Z }.
Definition tid_eqb (a b : tid) : bool :=
  (t_rank a =? t_rank b) && (t_mat a =? t_mat b) && (t_row a =? t_row b) && (t_col a =? t_col b).
Lemma tid_eqb_spec : forall a b, reflect (a = b) (tid_eqb a b).
Proof.
  intros [a1 a2 a3 a4] [b1 b2 b3 b4]. unfold tid_eqb. cbn [t_rank t_mat t_row t_col].
  destruct (Z.eqb_spec a1 b1), (Z.eqb_spec a2 b2), (Z.eqb_spec a3 b3), (Z.eqb_spec a4 b4); cbn; constructor; congruence.
Qed.

Section jobs.
Context {V : Type}.
(** A tile job: the tiles it reads, the tile it updates, and the function it applies to the values
    read (in that order) and to the old value of the tile it updates. *)
Record tjob := TJob { tj_in : list tid; tj_out : tid; tj_fun : list V -> V -> V }.
Definition tstore := tid -> V.
Definition tset (st : tstore) (x : tid) (v : V) : tstore := fun y => if tid_eqb y x then v else st y.
(** the value a job computes in a state, its effect, and the effect of a list of jobs in order *)
Definition tval (j : tjob) (st : tstore) : V := tj_fun j (map st (tj_in j)) (st (tj_out j)).
Definition texec (st : tstore) (j : tjob) : tstore := tset st (tj_out j) (tval j st).
Definition trun (js : list tjob) (st : tstore) : tstore := fold_left texec js st.

(** The C++ type of a kernel: the tile written is not among the tiles read. *)
Definition tjob_ok (j : tjob) : Prop := ~ In (tj_out j) (tj_in j).

Lemma tset_eq : forall st x v, tset st x v x = v.
Proof. intros. unfold tset. destruct (tid_eqb_spec x x); congruence. Qed.
Lemma tset_neq : forall st x v y, y <> x -> tset st x v y = st y.
Proof. intros. unfold tset. destruct (tid_eqb_spec y x); congruence. Qed.
Lemma trun_app : forall a b st, trun (a ++ b) st = trun b (trun a st).
Proof. intros. unfold trun. apply fold_left_app. Qed.
Lemma trun_cons : forall j js st, trun (j :: js) st = trun js (texec st j).
Proof. reflexivity. Qed.
Lemma trun_frame : forall js st x, (forall j, In j js -> tj_out j <> x) -> trun js st x = st x.
Proof.
  induction js as [|j js IH]; intros st x N; [reflexivity|]. rewrite trun_cons, IH.
  - unfold texec. apply tset_neq. intros E. apply (N j); [left; reflexivity|auto].
  - intros k I0. apply N. right. exact I0.
Qed.
Lemma tval_ext : forall j st st', (forall x, In x (tj_in j) \/ x = tj_out j -> st x = st' x) -> tval j st = tval j st'.
Proof.
  intros j st st' E. unfold tval. rewrite (E (tj_out j)) by auto. f_equal. apply map_ext_in. intros a I0. apply E. auto.
Qed.
(** Jobs that update different tiles and do not read what the others update act independently. *)
Lemma trun_par : forall js st, NoDup (map tj_out js) ->
  (forall j k, In j js -> In k js -> ~ In (tj_out k) (tj_in j)) ->
  (forall j, In j js -> trun js st (tj_out j) = tval j st) /\
  (forall x, ~ In x (map tj_out js) -> trun js st x = st x).
Proof.
  intros js st ND RD. split; [|intros x N; apply trun_frame; intros j I0 E; apply N; rewrite <- E; apply in_map; exact I0].
  revert st ND RD. induction js as [|k js IH]; intros st ND RD j I0; [destruct I0|].
  inversion ND as [|? ? N1 ND']; subst. rewrite trun_cons. destruct I0 as [->|I0].
  - rewrite trun_frame.
    + unfold texec. apply tset_eq.
    + intros h Ih E. apply N1. rewrite <- E. apply in_map. exact Ih.
  - rewrite IH; [|exact ND'| |exact I0].
    + apply tval_ext. intros x [Ix| ->]; unfold texec; apply tset_neq.
      * intros E. apply (RD j k); [right; exact I0|left; reflexivity|]. rewrite <- E. exact Ix.
      * intros E. apply N1. rewrite <- E. apply in_map. exact I0.
    + intros a b Ia Ib. apply RD; right; assumption.
Qed.

(** ** Translation to the asynchronous machine of C20 *)
Definition zn (z : Z) : nat := if z <? 0 then (2 * Z.to_nat (- z) + 1)%nat else (2 * Z.to_nat z)%nat.
Lemma zn_inj : forall a b, zn a = zn b -> a = b.
Proof. intros a b. unfold zn. destruct (Z.ltb_spec a 0), (Z.ltb_spec b 0); lia. Qed.
(** the number of a tile *)
Definition enc (x : tid) : nat :=
  Cantor.to_nat (zn (t_rank x), Cantor.to_nat (zn (t_mat x), Cantor.to_nat (zn (t_row x), zn (t_col x)))).
Lemma enc_inj : forall a b, enc a = enc b -> a = b.
Proof.
  intros [a1 a2 a3 a4] [b1 b2 b3 b4] E. unfold enc in E. cbn [t_rank t_mat t_row t_col] in E.
  apply Cantor.to_nat_inj in E. apply pair_equal_spec in E as [E1 E].
  apply Cantor.to_nat_inj in E. apply pair_equal_spec in E as [E2 E].
  apply Cantor.to_nat_inj in E. apply pair_equal_spec in E as [E3 E4].
  apply zn_inj in E1, E2, E3, E4. congruence.
Qed.
(** load the tiles read, load the tile to update, store the result, destroy all the tiles *)
Fixpoint frees (n : nat) : body V := match n with O => Ret | S n => Free n (frees n) end.
Fixpoint loads (l : list tid) (acc : list V) (k : list V -> body V) : body V :=
  match l with [] => k (rev acc) | x :: l => Load (enc x) (fun v => loads l (v :: acc) k) end.
Definition kernel_of (j : tjob) : body V :=
  loads (tj_in j) [] (fun vs => Load (enc (tj_out j)) (fun o => Put (enc (tj_out j)) (tj_fun j vs o) (frees (S (length (tj_in j)))))).
Definition job_of (j : tjob) : job V :=
  Job (map (fun x => (enc x, R)) (tj_in j) ++ [(enc (tj_out j), W)]) (kernel_of j).

Lemma run_frees : forall n (s : store V), run (frees n) s = s.
Proof. induction n as [|n IH]; intros s; cbn; auto. Qed.
Lemma run_loads : forall l acc k (s : store V), run (loads l acc k) s = run (k (rev acc ++ map (fun x => s (enc x)) l)) s.
Proof.
  induction l as [|x l IH]; intros acc k s; cbn [loads run map]; [rewrite app_nil_r; reflexivity|].
  rewrite IH. cbn [rev]. rewrite <- app_assoc. reflexivity.
Qed.
Lemma run_kernel : forall j (s : store V) x, run (kernel_of j) s (enc x) = texec (fun y => s (enc y)) j x.
Proof.
  intros j s x. unfold kernel_of. rewrite run_loads. cbn [rev app run]. rewrite run_frees. unfold upd, texec, tset, tval.
  destruct (tid_eqb_spec x (tj_out j)) as [->|N]; [rewrite Nat.eqb_refl; reflexivity|].
  destruct (Nat.eqb_spec (enc x) (enc (tj_out j))) as [E|_]; [apply enc_inj in E; contradiction|reflexivity].
Qed.
Lemma texec_ext : forall j st st', (forall x, st x = st' x) -> forall x, texec st j x = texec st' j x.
Proof.
  intros j st st' E x. unfold texec, tset. destruct (tid_eqb x (tj_out j)); [|apply E]. apply tval_ext. intros; apply E.
Qed.
Lemma trun_ext : forall js st st', (forall x, st x = st' x) -> forall x, trun js st x = trun js st' x.
Proof.
  induction js as [|j js IH]; intros st st' E x; [apply E|]. rewrite !trun_cons. apply IH. apply texec_ext. exact E.
Qed.
Lemma run_jobs_of : forall js (s : store V) x, run_jobs (map job_of js) s (enc x) = trun js (fun y => s (enc y)) x.
Proof.
  unfold run_jobs. induction js as [|j js IH]; intros s x; cbn [map fold_left]; [reflexivity|].
  rewrite IH, trun_cons. apply trun_ext. intros y. apply run_kernel.
Qed.

Lemma frees_ok : forall acc n, kernel_ok acc (seq 0 n) (frees n : body V).
Proof.
  intros acc. induction n as [|n IH]; cbn [frees kernel_ok]; [reflexivity|]. split; [apply in_seq; lia|].
  replace (remove Nat.eq_dec n (seq 0 (S n))) with (seq 0 n); [exact IH|].
  rewrite seq_S. cbn [Nat.add]. rewrite remove_app. cbn [remove]. destruct (Nat.eq_dec n n); [|congruence].
  rewrite app_nil_r. symmetry. apply notin_remove. rewrite in_seq. lia.
Qed.
Lemma loads_ok : forall acc n l vs k,
  (forall x, In x l -> exists i, (i < n)%nat /\ nth_error acc i = Some (enc x, R)) ->
  (forall v, kernel_ok acc (seq 0 n) (k v)) -> kernel_ok acc (seq 0 n) (loads l vs k : body V).
Proof.
  intros acc n. induction l as [|x l IH]; intros vs k E KO; cbn [loads kernel_ok]; [apply KO|]. split.
  - destruct (E x (or_introl eq_refl)) as (i & A & B). exists i, R. split; [apply in_seq; lia|exact B].
  - intros v. apply IH; [|exact KO]. intros y I0. apply E. right. exact I0.
Qed.
Lemma job_of_ok : forall j, tjob_ok j -> job_ok (job_of j).
Proof.
  intros j OK. unfold job_ok, job_of. cbn [j_access j_kernel]. rewrite app_length, map_length. cbn [length].
  replace (length (tj_in j) + 1)%nat with (S (length (tj_in j))) by lia.
  assert (LAST : nth_error (map (fun x => (enc x, R)) (tj_in j) ++ [(enc (tj_out j), W)]) (length (tj_in j)) = Some (enc (tj_out j), W)).
  { rewrite nth_error_app2 by (rewrite map_length; lia). rewrite map_length, Nat.sub_diag. reflexivity. }
  assert (OTHER : forall i c m, nth_error (map (fun x => (enc x, R)) (tj_in j) ++ [(enc (tj_out j), W)]) i = Some (c, m) ->
    (exists x, In x (tj_in j) /\ c = enc x /\ m = R) \/ (i = length (tj_in j) /\ c = enc (tj_out j))).
  { intros i c m E. destruct (Nat.lt_ge_cases i (length (tj_in j))) as [L|L].
    - rewrite nth_error_app1 in E by (rewrite map_length; lia). rewrite nth_error_map in E.
      destruct (nth_error (tj_in j) i) as [x|] eqn:Q; [|discriminate]. injection E as <- <-.
      left. exists x. split; [eapply nth_error_In; exact Q|auto].
    - right. assert (i = length (tj_in j)) as ->.
      { assert (X : (i < length (map (fun x => (enc x, R)) (tj_in j) ++ [(enc (tj_out j), W)]))%nat) by (apply nth_error_Some; congruence).
        rewrite app_length, map_length in X. cbn in X. lia. }
      rewrite LAST in E. injection E as <- _. auto. }
  split.
  - unfold kernel_of. apply loads_ok.
    + intros x I0. apply In_nth_error in I0 as [i E].
      assert (L : (i < length (tj_in j))%nat) by (apply nth_error_Some; congruence).
      exists i. split; [lia|]. rewrite nth_error_app1 by (rewrite map_length; lia). apply (map_nth_error (fun x => (enc x, R)) i (tj_in j) E).
    + intros vs. cbn [kernel_ok]. split; [exists (length (tj_in j)), W; split; [apply in_seq; lia|exact LAST]|].
      intros o. split; [exists (length (tj_in j)); split; [apply in_seq; lia|exact LAST]|]. apply (frees_ok _ (S (length (tj_in j)))).
  - intros i k c mi mk N E1 E2. destruct (OTHER _ _ _ E1) as [(x & A & B & ->)|[A B]], (OTHER _ _ _ E2) as [(y & A' & B' & ->)|[A' B']]; auto.
    + exfalso. apply OK. rewrite B in B'. apply enc_inj in B'. rewrite <- B'. exact A.
    + exfalso. apply OK. rewrite B in B'. apply enc_inj in B'. rewrite B'. exact A'.
    + congruence.
Qed.

(** What the calling thread submits for a list of jobs *)
Definition submitted (js : list tjob) : program V := program_of (map job_of js).
(** [every_schedule js st0 Q]: every execution of the tasks, from a memory that holds st0, whatever the
    scheduler does, can be continued to a complete one, none runs for ever, and every complete one ends
    with a memory that satisfies Q. *)
Definition every_schedule (js : list tjob) (st0 : tstore) (Q : tstore -> Prop) : Prop :=
  forall s0 : store V, (forall x, s0 (enc x) = st0 x) ->
  forall s, reachable (submitted js) s0 s ->
    (final (submitted js) s -> Q (fun x => st_store s (enc x))) /\
    (final (submitted js) s \/ exists s', step (submitted js) s s') /\
    Acc (fun next now => step (submitted js) now next) s.

Theorem every_schedule_intro : forall js st0 (Q : tstore -> Prop), Forall tjob_ok js ->
  (forall st, (forall x, st x = trun js st0 x) -> Q st) -> every_schedule js st0 Q.
Proof.
  intros js st0 Q OK QS s0 E s RS.
  assert (OK' : Forall job_ok (map job_of js)).
  { rewrite Forall_forall in *. intros j I0. apply in_map_iff in I0 as (k & <- & I1). apply job_of_ok. auto. }
  split; [|split].
  - intros FN. apply QS. intros x. unfold submitted in *.
    rewrite (C20_async_is_sequential _ s0 s OK' RS FN (enc x)), run_jobs_of. apply trun_ext. exact E.
  - apply (C20_no_deadlock _ s0 s OK' RS).
  - apply (C20_terminates _ s0 s OK' RS).
Qed.

(** A memory that holds st0 exists. *)
Definition unzn (n : nat) : Z := if Nat.even n then Z.of_nat (Nat.div2 n) else - Z.of_nat (Nat.div2 n).
Lemma unzn_zn : forall z, unzn (zn z) = z.
Proof.
  intros z. unfold unzn, zn. destruct (Z.ltb_spec z 0).
  - rewrite Nat.add_1_r, Nat.even_succ, Nat.odd_mul, Nat.odd_2, andb_false_l, Nat.div2_succ_double. lia.
  - rewrite Nat.even_mul. cbn [Nat.even orb]. rewrite Nat.div2_double. lia.
Qed.
Definition dec (n : nat) : tid :=
  let (a, n1) := Cantor.of_nat n in let (b, n2) := Cantor.of_nat n1 in let (c, d) := Cantor.of_nat n2 in
  Tid (unzn a) (unzn b) (unzn c) (unzn d).
Lemma dec_enc : forall x, dec (enc x) = x.
Proof.
  intros [a b c d]. unfold dec, enc. cbn [t_rank t_mat t_row t_col]. rewrite !Cantor.cancel_of_to, !unzn_zn. reflexivity.
Qed.
Lemma every_schedule_impl : forall js st0 (Q R : tstore -> Prop), (forall st, Q st -> R st) -> every_schedule js st0 Q -> every_schedule js st0 R.
Proof. intros js st0 Q R I E s0 M s1 R1. destruct (E s0 M s1 R1) as [A B]. split; [|exact B]. intros F1. apply I. exact (A F1). Qed.
(** So [every_schedule] speaks about at least one complete execution. *)
Theorem every_schedule_run : forall js st0 Q, Forall tjob_ok js -> every_schedule js st0 Q ->
  exists s0 s, (forall x, s0 (enc x) = st0 x) /\ reachable (submitted js) s0 s /\ final (submitted js) s /\
    Q (fun x => st_store s (enc x)).
Proof.
  intros js st0 Q OK ES.
  assert (OK' : Forall job_ok (map job_of js)).
  { rewrite Forall_forall in *. intros j I0. apply in_map_iff in I0 as (k & <- & I1). apply job_of_ok. auto. }
  set (s0 := fun n => st0 (dec n)). assert (E : forall x, s0 (enc x) = st0 x) by (intros x; unfold s0; rewrite dec_enc; reflexivity).
  destruct (C20_completes (map job_of js) s0 _ OK' (r_init _ _)) as (s & A & B).
  exists s0, s. split; [exact E|]. split; [exact A|]. split; [exact B|]. apply (ES s0 E s A). exact B.
Qed.
End jobs.
Arguments tjob : clear implicits.
Arguments tstore : clear implicits.

(** ** Loops of jobs *)
Section loops.
Context {V : Type}.
(** for (k = lo; k < hi; ++k) body(k) *)
Definition for_up (lo hi : Z) (body : Z -> list (tjob V)) : list (tjob V) := flat_map body (zrange lo hi).
(** for (k = hi; k >= lo; --k) body(k) *)
Definition for_down (hi lo : Z) (body : Z -> list (tjob V)) : list (tjob V) := flat_map body (rev (zrange lo (hi + 1))).

Lemma for_up_inv : forall lo hi body (I : Z -> tstore V -> Prop) st, lo <= hi -> I lo st ->
  (forall k st, lo <= k < hi -> I k st -> I (k + 1) (trun (body k) st)) -> I hi (trun (for_up lo hi body) st).
Proof.
  intros lo hi body I st L I0 STEP. unfold for_up.
  remember (Z.to_nat (hi - lo)) as n eqn:E. revert lo st L I0 STEP E. induction n as [|n IH]; intros lo st L I0 STEP E.
  - assert (lo = hi) as <- by lia. rewrite zrange_nil by lia. exact I0.
  - rewrite zrange_cons by lia. cbn [flat_map]. rewrite trun_app. apply IH; [lia|apply STEP; [lia|exact I0]| |lia].
    intros k st' Lk. apply STEP. lia.
Qed.
Lemma for_down_inv : forall hi lo body (I : Z -> tstore V -> Prop) st, lo <= hi + 1 -> I hi st ->
  (forall k st, lo <= k <= hi -> I k st -> I (k - 1) (trun (body k) st)) -> I (lo - 1) (trun (for_down hi lo body) st).
Proof.
  intros hi lo body I st L I0 STEP. unfold for_down.
  remember (Z.to_nat (hi + 1 - lo)) as n eqn:E. revert hi st L I0 STEP E. induction n as [|n IH]; intros hi st L I0 STEP E.
  - rewrite zrange_nil by lia. cbn. replace (lo - 1) with hi by lia. exact I0.
  - rewrite zrange_snoc by lia. rewrite rev_app_distr. cbn [rev app flat_map]. rewrite trun_app.
    replace hi with (hi - 1 + 1) at 1 by lia. apply IH; [lia|apply STEP; [lia|exact I0]| |lia].
    intros k st' Lk. apply STEP. lia.
Qed.
Lemma in_for_up : forall lo hi body j, In j (for_up lo hi body) <-> exists k, lo <= k < hi /\ In j (body k).
Proof.
  intros. unfold for_up. rewrite in_flat_map. split; intros (k & A & B); exists k; (split; [apply in_zrange; exact A|exact B]).
Qed.
Lemma in_for_down : forall lo hi body j, In j (for_down hi lo body) <-> exists k, lo <= k <= hi /\ In j (body k).
Proof.
  intros. unfold for_down. rewrite in_flat_map. split; intros (k & A & B); exists k.
  - apply in_rev in A. apply in_zrange in A. split; [lia|exact B].
  - split; [apply -> in_rev; apply in_zrange; lia|exact B].
Qed.

Lemma nodup_app : forall {A} (a b : list A), NoDup a -> NoDup b -> (forall x, In x a -> In x b -> False) -> NoDup (a ++ b).
Proof.
  induction a as [|x a IH]; intros b NA NB D; [exact NB|]. inversion NA; subst. cbn. constructor.
  - rewrite in_app_iff. intros [Q|Q]; [contradiction|apply (D x); [left; reflexivity|exact Q]].
  - apply IH; auto. intros y Y1 Y2. apply (D y); [right; exact Y1|exact Y2].
Qed.
Lemma outs_flat_map : forall (l : list Z) (body : Z -> list (tjob V)), NoDup l ->
  (forall k, In k l -> NoDup (map tj_out (body k))) ->
  (forall k1 k2 x, In k1 l -> In k2 l -> In x (map tj_out (body k1)) -> In x (map tj_out (body k2)) -> k1 = k2) ->
  NoDup (map tj_out (flat_map body l)).
Proof.
  induction l as [|k l IH]; intros body ND N1 N2; [constructor|]. inversion ND; subst. cbn [flat_map]. rewrite map_app. apply nodup_app.
  - apply N1. left. reflexivity.
  - apply IH; auto.
    + intros k' Ik. apply N1. right. exact Ik.
    + intros k1 k2 x I1 I2. apply N2; right; assumption.
  - intros x X1 X2. apply in_map_iff in X2 as (j & E & X2). apply in_flat_map in X2 as (k' & Ik & X2).
    assert (k = k'); [|subst; contradiction].
    apply (N2 k k' x); [left; reflexivity|right; exact Ik|exact X1|]. rewrite <- E. apply in_map. exact X2.
Qed.
Lemma nodup_for_up : forall lo hi (body : Z -> list (tjob V)),
  (forall k, lo <= k < hi -> NoDup (map tj_out (body k))) ->
  (forall k1 k2 x, lo <= k1 < hi -> lo <= k2 < hi -> In x (map tj_out (body k1)) -> In x (map tj_out (body k2)) -> k1 = k2) ->
  NoDup (map tj_out (for_up lo hi body)).
Proof.
  intros lo hi body N1 N2. apply outs_flat_map; [apply zrange_NoDup| |].
  - intros k Ik. apply N1. apply in_zrange. exact Ik.
  - intros k1 k2 x I1 I2. apply in_zrange in I1, I2. apply N2; assumption.
Qed.
Lemma nodup_for_down : forall hi lo (body : Z -> list (tjob V)),
  (forall k, lo <= k <= hi -> NoDup (map tj_out (body k))) ->
  (forall k1 k2 x, lo <= k1 <= hi -> lo <= k2 <= hi -> In x (map tj_out (body k1)) -> In x (map tj_out (body k2)) -> k1 = k2) ->
  NoDup (map tj_out (for_down hi lo body)).
Proof.
  intros hi lo body N1 N2. apply outs_flat_map; [apply NoDup_rev; apply zrange_NoDup| |].
  - intros k Ik. apply in_rev in Ik. apply in_zrange in Ik. apply N1. lia.
  - intros k1 k2 x I1 I2. apply in_rev in I1, I2. apply in_zrange in I1, I2. apply N2; lia.
Qed.
End loops.

(** ** Phases: loops of independent jobs *)
Section phases.
Context {V : Type}.
Lemma in_outs_for_up : forall lo hi (body : Z -> list (tjob V)) x,
  In x (map tj_out (for_up lo hi body)) <-> exists k, lo <= k < hi /\ In x (map tj_out (body k)).
Proof.
  intros lo hi body x. rewrite in_map_iff. split.
  - intros (j & <- & I0). apply in_for_up in I0 as (k & L & I0). exists k. split; [exact L|apply in_map; exact I0].
  - intros (k & L & I0). apply in_map_iff in I0 as (j & <- & I0). exists j. split; [reflexivity|]. apply in_for_up. eauto.
Qed.
(** one job per index *)
Lemma run_each : forall lo hi (job : Z -> tjob V) st,
  (forall a b, lo <= a < hi -> lo <= b < hi -> tj_out (job a) = tj_out (job b) -> a = b) ->
  (forall a b, lo <= a < hi -> lo <= b < hi -> ~ In (tj_out (job b)) (tj_in (job a))) ->
  (forall a, lo <= a < hi -> trun (for_up lo hi (fun i => [job i])) st (tj_out (job a)) = tval (job a) st) /\
  (forall x, (forall a, lo <= a < hi -> tj_out (job a) <> x) -> trun (for_up lo hi (fun i => [job i])) st x = st x).
Proof.
  intros lo hi job st INJ IND. destruct (trun_par (for_up lo hi (fun i => [job i])) st) as [A B].
  - apply nodup_for_up.
    + intros k _. cbn. constructor; [intros []|constructor].
    + intros k1 k2 x L1 L2 [<-|[]] [E|[]]. apply INJ; auto.
  - intros j k Ij Ik. apply in_for_up in Ij as (a & La & [<-|[]]). apply in_for_up in Ik as (b & Lb & [<-|[]]). apply IND; assumption.
  - split.
    + intros a La. apply A. apply in_for_up. exists a. split; [exact La|left; reflexivity].
    + intros x N. apply B. rewrite in_outs_for_up. intros (k & L & [E|[]]). exact (N k L E).
Qed.
End phases.

(** the same over lists of indices *)
Section lists.
Context {V : Type}.
Lemma run_list_inv : forall {X} (body : X -> list (tjob V)) ks (I : list X -> tstore V -> Prop) st, I [] st ->
  (forall l1 k l2 st, ks = l1 ++ k :: l2 -> I l1 st -> I (l1 ++ [k]) (trun (body k) st)) -> I ks (trun (flat_map body ks) st).
Proof.
  intros X body ks I st I0 STEP.
  assert (G : forall l2 l1 st, ks = l1 ++ l2 -> I l1 st -> I ks (trun (flat_map body l2) st)).
  { induction l2 as [|k l2 IH]; intros l1 s E I1; cbn [flat_map].
    - rewrite app_nil_r in E. subst l1. exact I1.
    - rewrite trun_app. apply (IH (l1 ++ [k])).
      + rewrite <- app_assoc. exact E.
      + apply (STEP l1 k l2); assumption. }
  apply (G ks [] st); [reflexivity|exact I0].
Qed.
Lemma run_each_in : forall {X} (l : list X) (job : X -> tjob V) st, NoDup l ->
  (forall a b, In a l -> In b l -> tj_out (job a) = tj_out (job b) -> a = b) ->
  (forall a b, In a l -> In b l -> ~ In (tj_out (job b)) (tj_in (job a))) ->
  (forall a, In a l -> trun (flat_map (fun i => [job i]) l) st (tj_out (job a)) = tval (job a) st) /\
  (forall x, (forall a, In a l -> tj_out (job a) <> x) -> trun (flat_map (fun i => [job i]) l) st x = st x).
Proof.
  intros X l job st ND INJ IND.
  assert (EQ : flat_map (fun i => [job i]) l = map job l) by (clear; induction l as [|a l IH]; cbn; [reflexivity|rewrite IH; reflexivity]).
  rewrite EQ. destruct (trun_par (map job l) st) as [A B].
  - rewrite map_map. clear EQ IND. induction l as [|a l IH]; cbn [map]; [constructor|]. inversion ND; subst. constructor.
    + rewrite in_map_iff. intros (b & E & Ib). assert (b = a) by (apply INJ; [right; exact Ib|left; reflexivity|exact E]). subst. contradiction.
    + apply IH; [assumption|]. intros x y Ix Iy. apply INJ; right; assumption.
  - intros j k Ij Ik. apply in_map_iff in Ij as (a & <- & Ia). apply in_map_iff in Ik as (b & <- & Ib). apply IND; assumption.
  - split.
    + intros a Ia. apply A. apply in_map. exact Ia.
    + intros x N. apply B. rewrite map_map, in_map_iff. intros (a & E & Ia). exact (N a Ia E).
Qed.
End lists.
