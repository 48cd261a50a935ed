(** * In-place sub-pipelines of matrices: specification of valid histories and of the documented order, and proofs. *)
From Coq Require Import List Arith Bool Lia Permutation Wf_nat.
From Verif Require Import PipeModel AsyncModel Properties_Pipe AsyncProofs Properties_Async SubPipeModel SubPipeProofs TileSubModel.
Import ListNotations.

Section tiles.
Context {V : Type}.
Context (region : nat -> nat -> bool).

(** ** Specification *)
(** A kernel loads only from memory of tiles it still holds, stores only to memory of tiles it holds with readwrite access, and destroys each of its tiles once. *)
Fixpoint tkernel_ok (acc : list (nat * mode)) (held : list nat) (b : body V) : Prop :=
  match b with
  | Ret => held = []
  | Load c k => (exists i m md, In i held /\ nth_error acc i = Some (m, md) /\ region m c = true) /\ forall v, tkernel_ok acc held (k v)
  | Put c v k => (exists i m, In i held /\ nth_error acc i = Some (m, W) /\ region m c = true) /\ tkernel_ok acc held k
  | Free i k => In i held /\ tkernel_ok acc (remove Nat.eq_dec i held) k
  end.
Definition tuse_ok (acc : list (nat * mode)) (k : body V) : Prop :=
  tkernel_ok acc (seq 0 (length acc)) k /\
  forall i j c mi mj, i <> j -> nth_error acc i = Some (c, mi) -> nth_error acc j = Some (c, mj) -> mi = R /\ mj = R.
Definition mentions (c : tcmd V) (s : nat) : Prop := In s (map fst (taccesses c)).
Record valid_thistory (hist : list (tcmd V)) : Prop := {
  tv_use : forall i accs k, nth_error hist i = Some (TUse accs k) -> tuse_ok accs k;
  (* the tiles of new managers are disjoint parts of the parent's tile; managers are new objects *)
  tv_make : forall m a ss, nth_error hist m = Some (TMake a ss) -> a < m /\ ss <> [] /\ NoDup ss /\
     (exists p, nth_error hist a = Some (TSplit p) /\ forall s c, In s ss -> region s c = true -> region p c = true) /\
     (forall s s' c, In s ss -> In s' ss -> s <> s' -> region s c = true -> region s' c = false) /\
     (forall i c s, i < m -> nth_error hist i = Some c -> In s ss -> ~ mentions c s) /\
     (forall m' ss', nth_error hist m' = Some (TMake a ss') -> m' = m);
  (* not used after the destruction *)
  tv_drop : forall d a ss, nth_error hist d = Some (TDrop a ss) -> (exists m, m < d /\ nth_error hist m = Some (TMake a ss)) /\
     forall j c s, d < j -> nth_error hist j = Some c -> In s ss -> ~ mentions c s;
  tv_release : forall r a m d, nth_error hist r = Some (TRelease a m d) -> (exists ss, nth_error hist m = Some (TMake a ss) /\ nth_error hist d = Some (TDrop a ss)) /\
     forall r' m' d', nth_error hist r' = Some (TRelease a m' d') -> r' = r;
  (* every sub-matrix is eventually destroyed *)
  tv_complete : forall a p, nth_error hist a = Some (TSplit p) -> exists r m d, nth_error hist r = Some (TRelease a m d);
  (* the tiles of the matrices at the root are disjoint *)
  tv_roots : forall p q c, (forall m a ss, nth_error hist m = Some (TMake a ss) -> ~ In p ss) -> (forall m a ss, nth_error hist m = Some (TMake a ss) -> ~ In q ss) ->
     p <> q -> region p c = true -> region q c = false
}.

(** The documented order of the effects: requests of the same tile in the order of the calls (unless both read); what is done to a tile after the creation of
    a sub-pipeline takes effect after the destruction of the sub-pipeline. *)
Inductive tbefore (hist : list (tcmd V)) : nat -> nat -> Prop :=
| tb_same : forall i j ci cj p mi mj, i < j -> nth_error hist i = Some ci -> nth_error hist j = Some cj ->
    In (p, mi) (taccesses ci) -> In (p, mj) (taccesses cj) -> mi = W \/ mj = W -> tbefore hist i j
| tb_make : forall m a ss, nth_error hist m = Some (TMake a ss) -> tbefore hist a m
| tb_release : forall r a m d, nth_error hist r = Some (TRelease a m d) -> tbefore hist d r
| tb_sub : forall r a m d j cj p md, nth_error hist r = Some (TRelease a m d) -> nth_error hist a = Some (TSplit p) ->
    a < j -> nth_error hist j = Some cj -> In (p, md) (taccesses cj) -> tbefore hist r j.
Definition tlinearisation (hist : list (tcmd V)) (lin : list nat) : Prop :=
  Permutation lin (seq 0 (length hist)) /\ forall i j, tbefore hist i j -> comes_before lin i j.
(** sequential meaning: only the work attached to the tiles changes memory *)
Definition run_tcmds (hist : list (tcmd V)) (lin : list nat) (st : store V) : store V :=
  fold_left (fun st i => match nth_error hist i with Some (TUse _ k) => run k st | _ => st end) lin st.

(** ** Proof *)
Lemma thandles_at : forall (hist : list (tcmd V)) i c k, nth_error hist i = Some c -> k < length (taccesses c) ->
  nth_error (flat_map taccesses hist) (tbase hist i + k) = nth_error (taccesses c) k.
Proof.
  induction hist as [|x hist IH]; intros i c k E L; [destruct i; discriminate|].
  destruct i as [|i]; cbn in E |- *.
  - injection E as ->. apply nth_error_app1. exact L.
  - unfold tbase. cbn [firstn flat_map]. rewrite app_length. rewrite nth_error_app2 by lia.
    rewrite <- (IH i c k E L). f_equal. unfold tbase. lia.
Qed.
Lemma tbase_le : forall (hist : list (tcmd V)) i j c, i < j -> nth_error hist i = Some c -> tbase hist i + length (taccesses c) <= tbase hist j.
Proof.
  induction hist as [|x hist IH]; intros i j c L E; [destruct i; discriminate|].
  destruct j as [|j]; [lia|]. destruct i as [|i]; cbn in E; unfold tbase; cbn [firstn flat_map]; rewrite ?app_length.
  - injection E as ->. cbn. lia.
  - assert (L' : i < j) by lia. pose proof (IH i j c L' E) as Q. unfold tbase in Q. lia.
Qed.
Lemma towner : forall (hist : list (tcmd V)) h, h < length (flat_map taccesses hist) ->
  exists i c k, nth_error hist i = Some c /\ k < length (taccesses c) /\ h = tbase hist i + k.
Proof.
  induction hist as [|x hist IH]; intros h L; cbn in L; [lia|]. rewrite app_length in L.
  destruct (Nat.lt_ge_cases h (length (taccesses x))) as [Q|Q].
  - exists 0, x, h. auto.
  - destruct (IH (h - length (taccesses x))) as (i & c & k & A & B & C); [lia|].
    exists (S i), c, k. split; [exact A|]. split; [exact B|]. unfold tbase in *. cbn [firstn flat_map]. rewrite app_length. lia.
Qed.

Section one.
Context (hist : list (tcmd V)) (lin : list nat).
Hypothesis VH : valid_thistory hist.
Hypothesis LIN : tlinearisation hist lin.
Let P := tile_program region hist lin.
Let pos i := index_of i lin.

Lemma tlin_nodup : NoDup lin.
Proof. eapply Permutation_NoDup; [apply Permutation_sym, (proj1 LIN)|apply seq_NoDup]. Qed.
Lemma tlin_in : forall i, In i lin <-> i < length hist.
Proof.
  intros i. split; intros H.
  - apply (Permutation_in _ (proj1 LIN)) in H. apply in_seq in H. lia.
  - apply (Permutation_in _ (Permutation_sym (proj1 LIN))). apply in_seq. lia.
Qed.
Lemma tbefore_pos : forall i j, tbefore hist i j -> pos i < pos j.
Proof. intros i j H. apply comes_before_pos; [apply tlin_nodup|apply (proj2 LIN), H]. Qed.
Lemma tlin_pos : forall i, i < length hist -> nth_error lin (pos i) = Some i.
Proof.
  intros i H. apply tlin_in in H. apply In_nth_error in H as [n Hn]. unfold pos. rewrite (index_of_nth lin n i tlin_nodup Hn). exact Hn.
Qed.
Lemma tpos_lin : forall t i, nth_error lin t = Some i -> t = pos i.
Proof. intros t i E. symmetry. apply index_of_nth; [apply tlin_nodup|exact E]. Qed.

Definition trequested (i h m : nat) (md : mode) : Prop :=
  exists c k, nth_error hist i = Some c /\ nth_error (taccesses c) k = Some (m, md) /\ h = tbase hist i + k.
(** call j needs handle h: its own request, or the parent's tile a release gives back *)
Definition tuses (j h : nat) : Prop :=
  (exists m md, trequested j h m md) \/ (exists a m d, nth_error hist j = Some (TRelease a m d) /\ h = tbase hist a).

Lemma trequested_attr : forall i h m md, trequested i h m md -> mutex_of P h = m /\ mode_of P h = md /\ h < length (p_handles P).
Proof.
  intros i h m md (c & k & A & B & ->). assert (L : k < length (taccesses c)) by (apply nth_error_Some; congruence).
  pose proof (thandles_at hist i c k A L) as E. rewrite B in E.
  unfold mutex_of, mode_of. cbn [P tile_program p_handles]. rewrite (nth_error_nth _ _ (0, R) E).
  split; [reflexivity|]. split; [reflexivity|]. apply nth_error_Some. congruence.
Qed.
Lemma trequested_ex : forall h, h < length (p_handles P) -> exists i, trequested i h (mutex_of P h) (mode_of P h).
Proof.
  intros h L. destruct (towner hist h L) as (i & c & k & A & B & E).
  destruct (nth_error (taccesses c) k) as [[m md]|] eqn:N; [|apply nth_error_None in N; lia].
  assert (Q : trequested i h m md) by (exists c, k; auto). exists i.
  destruct (trequested_attr i h m md Q) as (-> & -> & _). exact Q.
Qed.
Lemma trequested_lt : forall i j h1 h2 m1 d1 m2 d2, trequested i h1 m1 d1 -> trequested j h2 m2 d2 -> h1 < h2 -> i <= j.
Proof.
  intros i j h1 h2 m1 d1 m2 d2 (c1 & k1 & A1 & B1 & ->) (c2 & k2 & A2 & B2 & ->) L.
  destruct (Nat.le_gt_cases i j) as [Q|Q]; [exact Q|]. pose proof (tbase_le hist j i c2 Q A2).
  assert (k2 < length (taccesses c2)) by (apply nth_error_Some; congruence). lia.
Qed.
Lemma trequested_lt' : forall i j h1 h2 m1 d1 m2 d2, trequested i h1 m1 d1 -> trequested j h2 m2 d2 -> i < j -> h1 < h2.
Proof.
  intros i j h1 h2 m1 d1 m2 d2 (c1 & k1 & A1 & B1 & ->) (c2 & k2 & A2 & B2 & ->) L. pose proof (tbase_le hist i j c1 L A1).
  assert (k1 < length (taccesses c1)) by (apply nth_error_Some; congruence). lia.
Qed.
Lemma trequested_fun : forall i j h m1 d1 m2 d2, trequested i h m1 d1 -> trequested j h m2 d2 -> i = j.
Proof.
  intros i j h m1 d1 m2 d2 R1 R2. destruct (Nat.lt_total i j) as [L|[L|L]]; [|exact L|].
  - pose proof (trequested_lt' _ _ _ _ _ _ _ _ R1 R2 L). lia.
  - pose proof (trequested_lt' _ _ _ _ _ _ _ _ R2 R1 L). lia.
Qed.
Lemma trequested_access : forall i h m d, trequested i h m d -> exists c, nth_error hist i = Some c /\ In (m, d) (taccesses c).
Proof. intros i h m d (c & k & A & B & _). exists c. split; [exact A|]. eapply nth_error_In; exact B. Qed.
Lemma trequested_mentions : forall i h m d, trequested i h m d -> exists c, nth_error hist i = Some c /\ mentions c m.
Proof. intros i h m d Rq. destruct (trequested_access _ _ _ _ Rq) as (c & A & B). exists c. split; [exact A|]. apply in_map_iff. exists (m, d). auto. Qed.
Lemma split_requested : forall a p, nth_error hist a = Some (TSplit p) -> trequested a (tbase hist a) p W.
Proof. intros a p E. exists (TSplit p), 0. cbn. split; [exact E|]. split; [reflexivity|lia]. Qed.
Lemma list_requested : forall i c ss s, nth_error hist i = Some c -> taccesses c = map (fun s => (s, W)) ss -> In s ss -> exists h, trequested i h s W.
Proof.
  intros i c ss s E A I. apply In_nth_error in I as (k & K). exists (tbase hist i + k), c, k. split; [exact E|]. split; [|reflexivity].
  rewrite A, nth_error_map, K. reflexivity.
Qed.

Lemma seq_need : forall i c h, nth_error hist i = Some c -> (In h (seq (tbase hist i) (length (taccesses c))) <-> exists m md, trequested i h m md).
Proof.
  intros i c h E. rewrite in_seq. split.
  - intros H. destruct (nth_error (taccesses c) (h - tbase hist i)) as [[m md]|] eqn:N; [|apply nth_error_None in N; lia].
    exists m, md, c, (h - tbase hist i). split; [exact E|]. split; [exact N|lia].
  - intros (m & md & c' & k & E' & N & ->). rewrite E in E'. injection E' as <-. assert (k < length (taccesses c)) by (apply nth_error_Some; congruence). lia.
Qed.
Lemma ttask_need : forall i h, In h (t_need (ttask hist lin i)) <-> tuses i h.
Proof.
  intros i h. unfold ttask, tuses. destruct (nth_error hist i) as [c|] eqn:E.
  - assert (X : forall n, (forall a m d, c <> TRelease a m d) -> n = length (taccesses c) -> (In h (seq (tbase hist i) n) <-> (exists m md, trequested i h m md) \/ (exists a m d, Some c = Some (TRelease a m d) /\ h = tbase hist a))).
    { intros n N ->. rewrite (seq_need i c h E). split; [auto|]. intros [X|(a & m & d & X & _)]; [exact X|]. injection X as X. exfalso. exact (N a m d X). }
    destruct c as [accs k|p|a ss|a ss|a m d]; cbn [t_need].
    + apply X; [discriminate|reflexivity].
    + rewrite <- (X 1); [cbn; tauto|discriminate|reflexivity].
    + apply X; [discriminate|cbn; rewrite map_length; reflexivity].
    + apply X; [discriminate|cbn; rewrite map_length; reflexivity].
    + split.
      * intros [<-|[]]. right. exists a, m, d. auto.
      * intros [(x & md & c' & k & E' & N & _)|(a' & m' & d' & X' & ->)]; [rewrite E in E'; injection E' as <-; destruct k; discriminate|]. injection X' as <- <- <-. left. reflexivity.
  - cbn. split; [tauto|]. intros [(m & md & c & k & E' & _)|(a & m & d & X & _)]; [congruence|discriminate].
Qed.
Lemma tneed_uses : forall t h, need P t h <-> exists i, nth_error lin t = Some i /\ tuses i h.
Proof.
  intros t h. unfold need. cbn [P tile_program p_tasks]. split.
  - intros (tk & E & Ih). rewrite nth_error_map in E. destruct (nth_error lin t) as [i|] eqn:Ei; [|discriminate]. cbn in E. injection E as <-.
    exists i. split; [reflexivity|]. apply ttask_need, Ih.
  - intros (i & E & U). exists (ttask hist lin i). split; [|apply ttask_need, U]. rewrite nth_error_map, E. reflexivity.
Qed.
Lemma tuses_range : forall i h, tuses i h -> i < length hist.
Proof. intros i h [(m & md & c & k & A & _)|(a & m & d & A & _)]; apply nth_error_Some; congruence. Qed.
Lemma uses_need : forall i h, tuses i h -> need P (pos i) h.
Proof. intros i h U. apply tneed_uses. exists i. split; [apply tlin_pos; eapply tuses_range; exact U|exact U]. Qed.
Lemma req_uses : forall i h m d, trequested i h m d -> tuses i h.
Proof. intros i h m d Rq. left. eauto. Qed.
Lemma tafter_iff : forall t x, after P t x <-> exists i, nth_error lin t = Some i /\
  ((exists ss a, nth_error hist i = Some (TMake a ss) /\ x = pos a) \/ (exists a m d, nth_error hist i = Some (TRelease a m d) /\ (x = pos a \/ x = pos m \/ x = pos d))).
Proof.
  intros t x. unfold after. cbn [P tile_program p_tasks]. split.
  - intros (tk & E & I). rewrite nth_error_map in E. destruct (nth_error lin t) as [i|] eqn:Ei; [|discriminate]. cbn in E. injection E as <-. exists i. split; [reflexivity|].
    unfold ttask in I. destruct (nth_error hist i) as [[accs k|p|a ss|a ss|a m d]|] eqn:Eh; cbn in I; try contradiction.
    + destruct I as [<-|[]]. left. exists ss, a. auto.
    + right. exists a, m, d. split; [reflexivity|]. unfold pos. intuition auto.
  - intros (i & Ei & H). exists (ttask hist lin i). split; [rewrite nth_error_map, Ei; reflexivity|]. unfold ttask.
    destruct H as [(ss & a & -> & ->)|(a & m & d & -> & H)]; cbn; [left; reflexivity|]. unfold pos in H. intuition auto.
Qed.

(** the calls that belong to the creation of a sub-pipeline *)
Definition group (p a m d r : nat) (ss : list nat) : Prop :=
  nth_error hist a = Some (TSplit p) /\ nth_error hist m = Some (TMake a ss) /\ nth_error hist d = Some (TDrop a ss) /\ nth_error hist r = Some (TRelease a m d).
Lemma group_of_split : forall a p, nth_error hist a = Some (TSplit p) -> exists m d r ss, group p a m d r ss.
Proof.
  intros a p E. destruct (tv_complete hist VH a p E) as (r & m & d & Er). destruct (tv_release hist VH r a m d Er) as [(ss & Em & Ed) _]. exists m, d, r, ss. repeat split; assumption.
Qed.
Lemma group_of_make : forall m a ss, nth_error hist m = Some (TMake a ss) -> exists p d r, group p a m d r ss.
Proof.
  intros m a ss E. destruct (tv_make hist VH m a ss E) as (_ & _ & _ & (p & Ea & _) & _ & _ & U). destruct (group_of_split a p Ea) as (m' & d & r & ss' & G).
  assert (m' = m) as -> by (eapply U; apply G). destruct G as (G1 & G2 & G3 & G4). rewrite E in G2. injection G2 as <-. exists p, d, r. repeat split; assumption.
Qed.
Lemma group_order : forall p a m d r ss, group p a m d r ss -> a < m /\ m < d /\ pos a < pos m /\ pos m < pos d /\ pos d < pos r.
Proof.
  intros p a m d r ss (Ea & Em & Ed & Er). destruct (tv_make hist VH m a ss Em) as (L & NE & _ & _ & _ & _ & U). destruct (tv_drop hist VH d a ss Ed) as [(m' & L' & Em') _].
  assert (m' = m) as -> by (eapply U; exact Em'). split; [exact L|]. split; [exact L'|].
  split; [apply tbefore_pos; eapply tb_make; exact Em|]. split; [|apply tbefore_pos; eapply tb_release; exact Er].
  destruct ss as [|s ss]; [congruence|]. apply tbefore_pos. apply (tb_same hist m d _ _ s W W L' Em Ed); cbn; auto.
Qed.
Lemma release_unique : forall p a m d r ss r' m' d', group p a m d r ss -> nth_error hist r' = Some (TRelease a m' d') -> r' = r.
Proof. intros p a m d r ss r' m' d' (_ & _ & _ & Er) E. eapply (tv_release hist VH r a m d Er). exact E. Qed.

(** two requests of one call to one pipeline are reads *)
Lemma trequested_same_call : forall i h1 h2 m d1 d2, trequested i h1 m d1 -> trequested i h2 m d2 -> h1 <> h2 -> d1 = R /\ d2 = R.
Proof.
  intros i h1 h2 m d1 d2 (c & k1 & A1 & B1 & ->) (c2 & k2 & A2 & B2 & ->) N. rewrite A1 in A2. injection A2 as <-. assert (Ne : k1 <> k2) by lia.
  assert (ND : forall ss, NoDup ss -> nth_error (map (fun s => (s, W)) ss) k1 = Some (m, d1) -> nth_error (map (fun s => (s, W)) ss) k2 = Some (m, d2) -> False).
  { intros ss Nd X1 X2. rewrite nth_error_map in X1, X2. destruct (nth_error ss k1) as [y1|] eqn:Y1; [|discriminate]. destruct (nth_error ss k2) as [y2|] eqn:Y2; [|discriminate].
    cbn in X1, X2. injection X1 as <- _. injection X2 as <- _. apply Ne. eapply (proj1 (NoDup_nth_error ss) Nd); [apply nth_error_Some; congruence|congruence]. }
  destruct c as [accs k|p|a ss|a ss|a x d]; cbn in B1, B2.
  - apply (proj2 (tv_use hist VH i accs k A1) k1 k2 m d1 d2 Ne); assumption.
  - destruct k1 as [|[|k1]], k2 as [|[|k2]]; try discriminate; lia.
  - exfalso. eapply ND; [|exact B1|exact B2]. apply (tv_make hist VH i a ss A1).
  - exfalso. eapply ND; [|exact B1|exact B2]. destruct (tv_drop hist VH i a ss A1) as [(x & _ & Ex) _]. apply (tv_make hist VH x a ss Ex).
  - destruct k1; discriminate.
Qed.
Lemma tuses_requested : forall j h, tuses j h -> exists i m d, trequested i h m d /\
  (j = i \/ exists x y z ss, group m i x y j ss /\ h = tbase hist i /\ z = 0).
Proof.
  intros j h [(m & md & Rq)|(a & m & d & E & ->)].
  - exists j, m, md. auto.
  - destruct (tv_release hist VH j a m d E) as [(ss & Em & Ed) _]. destruct (tv_make hist VH m a ss Em) as (_ & _ & _ & (p & Ea & _) & _).
    exists a, p, W. split; [apply split_requested, Ea|]. right. exists m, d, 0, ss. repeat split; assumption.
Qed.

Lemma tblocks_order : forall h1 h2 i1 i2 m d1 d2, blocks P h1 h2 -> trequested i1 h1 m d1 -> trequested i2 h2 m d2 -> i1 < i2 /\ pos i1 < pos i2.
Proof.
  intros h1 h2 i1 i2 m d1 d2 (L & L2 & EM & x & Lx & EX & WX) R1 R2.
  pose proof (trequested_lt _ _ _ _ _ _ _ _ R1 R2 L) as Le.
  destruct (trequested_attr _ _ _ _ R1) as (M1 & D1 & _). destruct (trequested_attr _ _ _ _ R2) as (M2 & D2 & _).
  destruct (trequested_ex x) as (ix & Rx); [lia|]. rewrite EX, WX, M2 in Rx.
  assert (N1 : d1 = R -> i1 <> ix).
  { intros -> <-. assert (Ne : h1 <> x) by (intros ->; congruence). destruct (trequested_same_call _ _ _ _ _ _ R1 Rx Ne). discriminate. }
  assert (N2 : d2 = R -> i2 <> ix).
  { intros -> <-. assert (Ne : h2 <> x) by (intros ->; congruence). destruct (trequested_same_call _ _ _ _ _ _ R2 Rx Ne). discriminate. }
  assert (Lt : i1 < i2).
  { destruct (Nat.eq_dec i1 i2) as [<-|]; [|lia]. exfalso. assert (Ne : h1 <> h2) by lia.
    destruct (trequested_same_call _ _ _ _ _ _ R1 R2 Ne) as [-> ->].
    assert (L1 : i1 <= ix).
    { destruct (Nat.eq_dec h1 x) as [->|]; [rewrite (trequested_fun _ _ _ _ _ _ _ R1 Rx); lia|]. apply (trequested_lt _ _ _ _ _ _ _ _ R1 Rx). lia. }
    assert (L3 : ix <= i1).
    { destruct (Nat.eq_dec h2 x) as [->|]; [rewrite (trequested_fun _ _ _ _ _ _ _ R2 Rx); lia|]. apply (trequested_lt _ _ _ _ _ _ _ _ Rx R2). lia. }
    apply N1; [reflexivity|lia]. }
  split; [exact Lt|].
  destruct (trequested_access _ _ _ _ R1) as (c1 & A1 & B1). destruct (trequested_access _ _ _ _ R2) as (c2 & A2 & B2).
  destruct (trequested_access _ _ _ _ Rx) as (cx & Ax & Bx).
  destruct d1; [destruct d2|].
  - assert (Q1 : h1 <> x) by (intros ->; congruence). assert (Q2 : h2 <> x) by (intros ->; congruence).
    assert (Hx : h1 < x) by lia. assert (Hx2 : x < h2) by lia.
    pose proof (trequested_lt _ _ _ _ _ _ _ _ R1 Rx Hx). pose proof (trequested_lt _ _ _ _ _ _ _ _ Rx R2 Hx2).
    specialize (N1 eq_refl). specialize (N2 eq_refl).
    apply Nat.lt_trans with (pos ix); apply tbefore_pos.
    + apply (tb_same hist i1 ix c1 cx m R W); auto. lia.
    + apply (tb_same hist ix i2 cx c2 m W R); auto. lia.
  - apply tbefore_pos. apply (tb_same hist i1 i2 c1 c2 m R W); auto.
  - apply tbefore_pos. apply (tb_same hist i1 i2 c1 c2 m W d2); auto.
Qed.
Lemma torder_uses : forall h1 h2 j1 j2, blocks P h1 h2 -> tuses j1 h1 -> tuses j2 h2 -> pos j1 < pos j2.
Proof.
  intros h1 h2 j1 j2 B U1 U2.
  destruct (tuses_requested j1 h1 U1) as (i1 & m & d1 & R1 & C1). destruct (tuses_requested j2 h2 U2) as (i2 & m2 & d2 & R2 & C2).
  assert (EM : m2 = m).
  { destruct (trequested_attr _ _ _ _ R1) as (Q1 & _). destruct (trequested_attr _ _ _ _ R2) as (Q2 & _). destruct B as (_ & _ & E & _). congruence. }
  subst m2. destruct (tblocks_order h1 h2 i1 i2 m d1 d2 B R1 R2) as [Lt Lp].
  assert (X2 : pos i2 <= pos j2).
  { destruct C2 as [->|(x & y & z & ss & G & _)]; [lia|]. pose proof (group_order _ _ _ _ _ _ G). lia. }
  destruct C1 as [->|(x & y & z & ss & G & _)]; [lia|].
  apply Nat.lt_le_trans with (pos i2); [|exact X2]. apply tbefore_pos.
  destruct (trequested_access _ _ _ _ R2) as (c2 & Q1 & Q2). eapply tb_sub; [apply G|apply G|exact Lt|exact Q1|exact Q2].
Qed.
Lemma tshared_uses : forall h j1 j2, tuses j1 h -> tuses j2 h -> j1 <> j2 ->
  exists p a m d r ss, group p a m d r ss /\ h = tbase hist a /\ ((j1 = a /\ j2 = r) \/ (j2 = a /\ j1 = r)).
Proof.
  intros h j1 j2 U1 U2 N.
  destruct (tuses_requested j1 h U1) as (i1 & m & d1 & R1 & C1). destruct (tuses_requested j2 h U2) as (i2 & m2 & d2 & R2 & C2).
  pose proof (trequested_fun _ _ _ _ _ _ _ R1 R2) as <-.
  destruct C1 as [->|(x & y & z & ss & G & Eh & _)], C2 as [->|(x2 & y2 & z2 & ss2 & G2 & Eh2 & _)].
  - congruence.
  - exists m2, i1, x2, y2, j2, ss2. auto.
  - exists m, i1, x, y, j1, ss. auto.
  - exfalso. apply N. symmetry. eapply release_unique; [exact G|apply G2].
Qed.
Lemma tkept_pos : forall i h, (kept P (pos i) h <-> exists j, pos i < pos j /\ tuses j h).
Proof.
  intros i h. split.
  - intros (t & Lt & N). apply tneed_uses in N as (j & E & U). rewrite (tpos_lin t j E) in Lt. exists j. auto.
  - intros (j & Lt & U). exists (pos j). split; [exact Lt|]. apply uses_need, U.
Qed.
(** only the access to the parent's tile is passed on *)
Lemma not_kept : forall i h, tuses i h -> (forall p, nth_error hist i <> Some (TSplit p)) -> ~ kept P (pos i) h.
Proof.
  intros i h U NS Kp. apply tkept_pos in Kp as (j & Lj & U2). assert (Ne : i <> j) by (intros ->; lia).
  destruct (tshared_uses _ _ _ U U2 Ne) as (p & a & m & d & r & ss & G & _ & [[-> _]|[-> ->]]); [apply (NS p); apply G|].
  pose proof (group_order _ _ _ _ _ _ G). lia.
Qed.

Lemma tuse_shift_ok : forall i accs k, nth_error hist i = Some (TUse accs k) -> forall b held, (forall x, In x held -> x < length accs) ->
  tkernel_ok accs held b -> body_ok P (pos i) (map (Nat.add (tbase hist i)) held) (shift (tbase hist i) b).
Proof.
  intros i accs k A.
  assert (RQ : forall x c m, nth_error accs x = Some (c, m) -> trequested i (tbase hist i + x) c m).
  { intros x c m E. exists (TUse accs k), x. auto. }
  induction b as [|c kk IH|c v kk IH|h kk IH]; intros held HB K; cbn [shift body_ok].
  - cbn in K. subst held. intros h [].
  - destruct K as [(x & m & md & I1 & I2 & I3) K]. split.
    + exists (tbase hist i + x). split; [apply in_map; exact I1|]. unfold reaches.
      destruct (trequested_attr _ _ _ _ (RQ x m md I2)) as (Q & _). rewrite Q. exact I3.
    + intros v. apply IH; auto.
  - destruct K as [(x & m & I1 & I2 & I3) K]. split.
    + exists (tbase hist i + x). split; [apply in_map; exact I1|].
      destruct (trequested_attr _ _ _ _ (RQ x m W I2)) as (Q & Q2 & _). split; [exact Q2|].
      unfold reaches. rewrite Q. exact I3.
    + apply IH; auto.
  - destruct K as [I1 K]. split; [apply in_map; exact I1|]. split.
    + specialize (HB h I1). destruct (nth_error accs h) as [[m md]|] eqn:Eh; [|apply nth_error_None in Eh; lia].
      apply not_kept; [eapply req_uses; apply (RQ h m md Eh)|congruence].
    + rewrite remove_shift. apply IH; [|exact K]. intros x Hx. apply in_remove in Hx as [Hx _]. auto.
Qed.
Lemma frees_ok : forall i l, (forall h, In h l -> tuses i h) -> (forall p, nth_error hist i <> Some (TSplit p)) -> NoDup l -> body_ok P (pos i) l (frees l).
Proof.
  intros i l. induction l as [|h l IH]; intros U NS ND; [intros h []|]. inversion ND as [|? ? NI ND']; subst. cbn [frees body_ok].
  split; [left; reflexivity|]. split; [apply not_kept; [apply U; left; reflexivity|exact NS]|].
  cbn [remove]. destruct (Nat.eq_dec h h); [|congruence]. rewrite notin_remove by exact NI. apply IH; [intros x Hx; apply U; right; exact Hx|exact NS|exact ND'].
Qed.

(** ** Waiting *)
Notation wrel := (waits_rel P). Notation wstart := (waits_start P). Notation wfin := (waits_fin P).
Definition reach (t a : nat) : Prop := t = a \/ wstart t a.
Lemma fin_start : forall t a, wfin t a -> wstart t a.
Proof. intros t a [H|(x & H1 & H2)]; [apply ws_after, H|]. eapply ws_via; [exact H1|apply ws_after, H2]. Qed.
Lemma reach_after : forall t x a, reach t x -> after P x a -> wfin t a.
Proof. intros t x a [->|H] A; [left; exact A|right; exists x; auto]. Qed.
Lemma reach_rel : forall t x h, reach t x -> wrel x h -> wrel t h.
Proof. intros t x h [->|H] A; [exact A|eapply wr_via; eassumption]. Qed.
Lemma reach_start : forall t x a, reach t x -> wstart x a -> wstart t a.
Proof. intros t x a [->|H] A; [exact A|eapply ws_via; eassumption]. Qed.
Lemma req_blocks : forall i j h1 h2 m d1 d2, trequested i h1 m d1 -> trequested j h2 m d2 -> i < j -> d1 = W \/ d2 = W -> blocks P h1 h2.
Proof.
  intros i j h1 h2 m d1 d2 R1 R2 Lt D.
  destruct (trequested_attr _ _ _ _ R1) as (M1 & D1 & _). destruct (trequested_attr _ _ _ _ R2) as (M2 & D2 & L2).
  pose proof (trequested_lt' _ _ _ _ _ _ _ _ R1 R2 Lt) as Lh.
  split; [exact Lh|]. split; [exact L2|]. split; [congruence|].
  destruct D as [-> | ->]; [exists h1|exists h2]; (split; [lia|split; congruence]).
Qed.
Lemma group_after : forall p a m d r ss, group p a m d r ss -> after P (pos m) (pos a) /\ after P (pos r) (pos a) /\ after P (pos r) (pos m) /\ after P (pos r) (pos d).
Proof.
  intros p a m d r ss (Ea & Em & Ed & Er).
  assert (Lm : nth_error lin (pos m) = Some m) by (apply tlin_pos, nth_error_Some; congruence). assert (Lr : nth_error lin (pos r) = Some r) by (apply tlin_pos, nth_error_Some; congruence).
  split; [apply tafter_iff; exists m; split; [exact Lm|left; exists ss, a; auto]|].
  repeat split; apply tafter_iff; exists r; (split; [exact Lr|right; exists a, m, d; auto]).
Qed.
Lemma group_fresh : forall p a m d r ss s i h md, group p a m d r ss -> In s ss -> trequested i h s md -> m <= i <= d.
Proof.
  intros p a m d r ss s i h md (Ea & Em & Ed & Er) I Rq. destruct (trequested_mentions _ _ _ _ Rq) as (c & Ec & M).
  split; (apply Nat.le_ngt; intros L).
  - eapply (tv_make hist VH m a ss Em); eassumption.
  - eapply (tv_drop hist VH d a ss Ed); eassumption.
Qed.
Lemma parent_not_sub : forall p a m d r ss, group p a m d r ss -> ~ In p ss.
Proof.
  intros p a m d r ss G I. pose proof (group_order _ _ _ _ _ _ G) as O. pose proof (group_fresh _ _ _ _ _ _ p a _ W G I (split_requested a p ltac:(apply G))). lia.
Qed.

(** everything done through a manager is finished when the parent's tile is released *)
Lemma sub_done : forall t p a m d r ss s j h, group p a m d r ss -> In s ss -> reach t (pos r) -> tuses j h -> mutex_of P h = s -> wrel t h \/ wfin t (pos j).
Proof.
  intros t p a m d r ss s j h G I RT U EM. pose proof (group_after _ _ _ _ _ _ G) as (_ & Aa & Am & Ad). pose proof (group_order _ _ _ _ _ _ G) as O.
  destruct (tuses_requested j h U) as (i & s' & md & Rq & C). destruct (trequested_attr _ _ _ _ Rq) as (Q & _). rewrite EM in Q. subst s'.
  pose proof (group_fresh _ _ _ _ _ _ s i h md G I Rq) as Lr.
  destruct (Nat.eq_dec i d) as [->|Nd].
  { destruct C as [->|(x & y & z & ss' & G' & _)]; [right; eapply reach_after; eassumption|]. destruct G as (_ & _ & Ed & _), G' as (Ea' & _). congruence. }
  left. destruct (list_requested d _ ss s (proj1 (proj2 (proj2 G))) eq_refl I) as (hd & Rd).
  apply (reach_rel t (pos r)); [exact RT|]. apply (wr_via P _ (pos d)); [apply ws_after, Ad|]. apply (wr_block P _ _ hd); [eapply uses_need, req_uses; exact Rd|].
  eapply (req_blocks i d); [exact Rq|exact Rd|lia|auto].
Qed.
(** what uses a manager starts after the parent's tile is there *)
Lemma sub_starts : forall p a m d r ss s j h, group p a m d r ss -> In s ss -> tuses j h -> mutex_of P h = s -> wfin (pos j) (pos a).
Proof.
  intros p a m d r ss s j h G I U EM. pose proof (group_after _ _ _ _ _ _ G) as (Am & _).
  destruct (tuses_requested j h U) as (i & s' & md & Rq & C). destruct (trequested_attr _ _ _ _ Rq) as (Q & _). rewrite EM in Q. subst s'.
  pose proof (group_fresh _ _ _ _ _ _ s i h md G I Rq) as Lr. destruct (Nat.eq_dec i m) as [->|Nm].
  - destruct C as [->|(x & y & z & ss' & G' & _)]; [left; exact Am|]. destruct G as (_ & Em & _), G' as (Ea' & _). congruence.
  - destruct (list_requested m _ ss s (proj1 (proj2 G)) eq_refl I) as (hm & Rm). right. exists (pos m). split; [|exact Am].
    apply (ws_rel P _ hm); [|eapply uses_need, req_uses; exact Rm]. apply (wr_block P _ _ h); [apply uses_need, U|]. eapply (req_blocks m i); [exact Rm|exact Rq|lia|auto].
Qed.

Inductive tbelow (p : nat) : nat -> Prop :=
| tbelow_self : tbelow p p
| tbelow_sub : forall a m d r ss q q', tbelow p q' -> group q' a m d r ss -> In q ss -> tbelow p q.
Lemma below_done : forall t p a m d r ss s, group p a m d r ss -> In s ss -> reach t (pos r) -> forall q, tbelow s q ->
  forall j h, tuses j h -> mutex_of P h = q -> wrel t h \/ wfin t (pos j).
Proof.
  intros t p a m d r ss s G I RT q B. induction B as [|a' m' d' r' ss' q q' B IH G' I']; intros j h U EM.
  - eapply sub_done; eassumption.
  - assert (RR : wstart t (pos r')).
    { assert (Ur : tuses r' (tbase hist a')) by (right; exists a', m', d'; split; [apply G'|reflexivity]).
      destruct (IH r' (tbase hist a') Ur) as [H|H]; [apply (trequested_attr _ _ _ _ (split_requested a' q' (proj1 G')))| |].
      - eapply ws_rel; [exact H|apply uses_need, Ur].
      - apply fin_start, H. }
    eapply sub_done; [exact G'|exact I'|right; exact RR|exact U|exact EM].
Qed.
Lemma below_starts : forall p a m d r ss s, group p a m d r ss -> In s ss -> forall q, tbelow s q -> forall j h, tuses j h -> mutex_of P h = q -> wfin (pos j) (pos a).
Proof.
  intros p a m d r ss s G I q B. induction B as [|a' m' d' r' ss' q q' B IH G' I']; intros j h U EM.
  - eapply sub_starts; eassumption.
  - pose proof (sub_starts _ _ _ _ _ _ _ _ _ G' I' U EM) as W1.
    pose proof (IH a' (tbase hist a') (req_uses _ _ _ _ (split_requested a' q' (proj1 G'))) (proj1 (trequested_attr _ _ _ _ (split_requested a' q' (proj1 G'))))) as W2.
    destruct W2 as [H|(x & H1 & H2)]; [right; exists (pos a'); split; [apply fin_start, W1|exact H]|].
    right. exists x. split; [|exact H2]. eapply ws_via; [apply fin_start, W1|exact H1].
Qed.

(** ** Where two managers with common memory meet *)
Definition arm (q x : nat) (o : option nat) : Prop :=
  match o with None => x = q | Some a => exists m d r ss s, group q a m d r ss /\ In s ss /\ tbelow s x end.
Definition root (p : nat) : Prop := forall m a ss, nth_error hist m = Some (TMake a ss) -> ~ In p ss.
Definition made (x m : nat) : Prop := exists a ss, nth_error hist m = Some (TMake a ss) /\ In x ss.
Lemma made_fun : forall x m m', made x m -> made x m' -> m = m'.
Proof.
  assert (X : forall x m m', made x m -> made x m' -> m < m' -> False).
  { intros x m m' (a & ss & E & I) (a' & ss' & E' & I') L. assert (M : mentions (TMake a ss : tcmd V) x) by (unfold mentions; cbn; rewrite map_map; cbn; rewrite map_id; exact I).
    destruct (tv_make hist VH m' a' ss' E') as (_ & _ & _ & _ & _ & F & _). exact (F m _ x L E I' M). }
  intros x m m' A B. destruct (Nat.lt_total m m') as [L|[L|L]]; [exfalso|exact L|exfalso]; eauto.
Qed.
Lemma root_or_made : forall x, root x \/ exists m, made x m.
Proof.
  intros x. assert (D : forall n, (exists m, m < n /\ made x m) \/ forall m, m < n -> ~ made x m).
  { induction n as [|n [IH|IH]]; [right; lia|left; destruct IH as (m & L & M); exists m; split; [lia|exact M]|].
    assert (DD : made x n \/ ~ made x n).
    { unfold made. destruct (nth_error hist n) as [[accs k|p|a ss|a ss|a m d]|] eqn:E; try (right; intros (a' & ss' & E' & _); congruence).
      destruct (in_dec Nat.eq_dec x ss); [left; eauto|right; intros (a' & ss' & E' & I)]. injection E' as <- <-. contradiction. }
    destruct DD as [M|M]; [left; exists n; split; [lia|exact M]|right]. intros m L. destruct (Nat.eq_dec m n) as [->|]; [exact M|apply IH; lia]. }
  destruct (D (length hist)) as [(m & _ & M)|N]; [right; eauto|left]. intros m a ss E I. apply (N m); [apply nth_error_Some; congruence|exists a, ss; auto].
Qed.
(** rank: a root is 0, a manager made by call m is m + 1 *)
Definition ranked (x n : nat) : Prop := (root x /\ n = 0) \/ (exists m, made x m /\ n = S m).
Lemma ranked_ex : forall x, exists n, ranked x n.
Proof. intros x. destruct (root_or_made x) as [H|(m & H)]; [exists 0; left; auto|exists (S m); right; eauto]. Qed.
Lemma ranked_fun : forall x n n', ranked x n -> ranked x n' -> n = n'.
Proof.
  intros x n n' [[A ->]|(m & A & ->)] [[B ->]|(m' & B & ->)]; [reflexivity| | |f_equal; eapply made_fun; eassumption].
  - destruct B as (a & ss & E & I). exfalso. exact (A m' a ss E I).
  - destruct A as (a & ss & E & I). exfalso. exact (B m a ss E I).
Qed.
Lemma parent_rank : forall p a m d r ss n, group p a m d r ss -> ranked p n -> n < S m.
Proof.
  intros p a m d r ss n G [[_ ->]|(m' & (a' & ss' & E & I) & ->)]; [lia|]. pose proof (group_order _ _ _ _ _ _ G) as O.
  destruct (group_of_make m' a' ss' E) as (p' & d' & r' & G'). pose proof (group_fresh _ _ _ _ _ _ p a _ W G' I (split_requested a p (proj1 G))). lia.
Qed.
Lemma below_rank : forall s x n n', tbelow s x -> ranked s n -> ranked x n' -> x = s \/ n < n'.
Proof.
  intros s x n n' B. revert n n'. induction B as [|a m d r ss q q' B IH G I]; intros n n' RS RX; [left; reflexivity|]. right.
  destruct (ranked_ex q') as (n1 & R1). pose proof (parent_rank _ _ _ _ _ _ _ G R1) as L.
  assert (n' = S m) as -> by (eapply ranked_fun; [exact RX|right; exists m; split; [exists a, ss; split; [apply G|exact I]|reflexivity]]).
  destruct (IH n n1 RS R1) as [->|L2]; [rewrite (ranked_fun _ _ _ RS R1); exact L|lia].
Qed.
Lemma below_region : forall s x c, tbelow s x -> region x c = true -> region s c = true.
Proof.
  intros s x c B. induction B as [|a m d r ss q q' B IH G I]; intros H; [exact H|]. apply IH.
  destruct (tv_make hist VH m a ss (proj1 (proj2 G))) as (_ & _ & _ & (p & Ea & SR) & _). rewrite (proj1 G) in Ea. injection Ea as <-. exact (SR q c I H).
Qed.
Lemma below_trans : forall a b c, tbelow a b -> tbelow b c -> tbelow a c.
Proof. intros a b c A B. induction B as [|x m d r ss q q' B IH G I]; [exact A|]. eapply tbelow_sub; eassumption. Qed.

Lemma meet : forall x y c, region x c = true -> region y c = true -> x = y \/ exists q o1 o2, arm q x o1 /\ arm q y o2 /\ o1 <> o2.
Proof.
  assert (X : forall n x y c nx ny, ranked x nx -> ranked y ny -> nx + ny <= n -> region x c = true -> region y c = true ->
    x = y \/ exists q o1 o2, arm q x o1 /\ arm q y o2 /\ o1 <> o2).
  { (* x has the higher rank *)
    assert (S1 : forall n, (forall x y c nx ny, ranked x nx -> ranked y ny -> nx + ny < n -> region x c = true -> region y c = true -> x = y \/ exists q o1 o2, arm q x o1 /\ arm q y o2 /\ o1 <> o2) ->
      forall x y c nx ny, ranked x nx -> ranked y ny -> nx + ny <= n -> ny <= nx -> region x c = true -> region y c = true -> x = y \/ exists q o1 o2, arm q x o1 /\ arm q y o2 /\ o1 <> o2).
    { intros n IH x y c nx ny RX RY Ln Le HX HY. destruct (Nat.eq_dec x y) as [E|N]; [left; exact E|right].
      destruct RX as [[Rx ->]|(m & (a & ss & Em & I) & ->)].
      - assert (ny = 0) as -> by lia. destruct RY as [[Ry _]|(m & _ & Z)]; [|discriminate]. exfalso. pose proof (tv_roots hist VH x y c Rx Ry N HX). congruence.
      - destruct (group_of_make m a ss Em) as (p & d & r & G). destruct (ranked_ex p) as (np & RP). pose proof (parent_rank _ _ _ _ _ _ _ G RP) as Lp.
        assert (HP : region p c = true) by (apply (below_region p x c); [eapply tbelow_sub; [apply tbelow_self|exact G|exact I]|exact HX]).
        destruct (IH p y c np ny RP RY ltac:(lia) HP HY) as [->|(q & o1 & o2 & A1 & A2 & NO)].
        + exists y, (Some a), None. split; [exists m, d, r, ss, x; split; [exact G|split; [exact I|apply tbelow_self]]|]. split; [reflexivity|discriminate].
        + destruct o1 as [a1|].
          * exists q, (Some a1), o2. split; [|split; assumption]. destruct A1 as (m1 & d1 & r1 & ss1 & s1 & G1 & I1 & B1). exists m1, d1, r1, ss1, s1.
            split; [exact G1|]. split; [exact I1|]. eapply tbelow_sub; eassumption.
          * cbn in A1. subst q. exists p, (Some a), o2. split; [exists m, d, r, ss, x; split; [exact G|split; [exact I|apply tbelow_self]]|]. split; [exact A2|].
            intros <-. destruct A2 as (m2 & d2 & r2 & ss2 & s2 & G2 & I2 & B2).
            assert (m2 = m) as -> by (eapply (tv_make hist VH m a ss Em); apply G2). destruct G as (G0 & Gm & Gd & Gr). destruct G2 as (_ & Gm2 & _). rewrite Gm in Gm2. injection Gm2 as <-.
            destruct (Nat.eq_dec s2 x) as [->|Ns].
            -- destruct (below_rank x y (S m) ny B2) as [E|L]; [right; exists m; split; [exists a, ss; auto|reflexivity]|exact RY|congruence|lia].
            -- destruct (tv_make hist VH m a ss Em) as (_ & _ & _ & _ & DJ & _). pose proof (DJ x s2 c I I2 ltac:(congruence) HX). rewrite (below_region s2 y c B2 HY) in H. discriminate. }
    assert (XX : forall n x y c nx ny, ranked x nx -> ranked y ny -> nx + ny < n -> region x c = true -> region y c = true -> x = y \/ exists q o1 o2, arm q x o1 /\ arm q y o2 /\ o1 <> o2).
    { induction n as [|n IH]; intros x y c nx ny RX RY L HX HY; [lia|]. destruct (Nat.le_gt_cases ny nx) as [Le|Lt].
      - apply (S1 n IH x y c nx ny); auto. lia.
      - destruct (S1 n IH y x c ny nx) as [->|(q & o1 & o2 & A1 & A2 & NO)]; auto; [lia|lia|]. right. exists q, o2, o1. auto. }
    intros n x y c nx ny RX RY L. apply (XX (S n) x y c nx ny RX RY). lia. }
  intros x y c HX HY. destruct (ranked_ex x) as (nx & RX). destruct (ranked_ex y) as (ny & RY). apply (X (nx + ny) x y c nx ny RX RY (le_n _) HX HY).
Qed.

Lemma waits_lt : (forall t h, wrel t h -> forall a, need P a h -> a < t) /\ (forall t a, wstart t a -> a < t).
Proof.
  apply (waits_ind P (fun t h => forall a, need P a h -> a < t) (fun t a => a < t)).
  - intros t h1 h2 N B a Na. apply tneed_uses in Na as (j1 & E1 & U1). apply tneed_uses in N as (j2 & E2 & U2). rewrite (tpos_lin _ _ E1), (tpos_lin _ _ E2). eapply torder_uses; eassumption.
  - intros t a h _ L _ IH x Nx. specialize (IH x Nx). lia.
  - intros t a A. apply tafter_iff in A as (i & Ei & A). rewrite (tpos_lin _ _ Ei). destruct A as [(ss & b & E & ->)|(b & m & d & E & A)].
    + apply tbefore_pos. eapply tb_make. exact E.
    + destruct (tv_release hist VH i b m d E) as [(ss & Em & Ed) _]. destruct (group_of_make m b ss Em) as (p & d' & r' & G). assert (i = r') as -> by (eapply release_unique; eassumption).
      assert (d' = d) as -> by (destruct G as (_ & _ & _ & Er); rewrite E in Er; congruence). pose proof (group_order _ _ _ _ _ _ G). destruct A as [->|[->| ->]]; lia.
  - intros t h a _ IH N. exact (IH a N).
  - intros t x a _ L1 _ L2. lia.
Qed.
Lemma rel_or_fin_lt : forall t h a, wrel t h \/ wfin t a -> need P a h -> a < t.
Proof. intros t h a [H|H] N; [exact (proj1 waits_lt t h H a N)|]. apply (proj2 waits_lt), fin_start, H. Qed.

(** the request on q through which x (used by j with h) depends on q *)
Lemma arm_handle : forall q x o j h, arm q x o -> tuses j h -> mutex_of P h = x ->
  exists hq, mutex_of P hq = q /\ hq < length (p_handles P) /\ (o <> None -> mode_of P hq = W) /\ (o = None -> hq = h) /\ (forall a, o = Some a -> hq = tbase hist a /\ wfin (pos j) (pos a)) /\
    (forall t, wrel t hq -> wrel t h \/ wfin t (pos j)) /\ (forall x', blocks P x' hq -> wrel (pos j) x').
Proof.
  intros q x o j h A U EM. assert (LH : h < length (p_handles P)) by (destruct (tuses_requested j h U) as (i & y & md & Rq & _); apply (trequested_attr _ _ _ _ Rq)).
  destruct o as [a|]; cbn in A.
  - destruct A as (m & d & r & ss & s & G & I & B). pose proof (split_requested a q (proj1 G)) as Ra. destruct (trequested_attr _ _ _ _ Ra) as (M & D & L).
    pose proof (below_starts _ _ _ _ _ _ _ G I x B j h U EM) as WF.
    exists (tbase hist a). split; [exact M|]. split; [exact L|]. split; [intros _; exact D|]. split; [discriminate|]. split; [intros a' E; injection E as <-; auto|]. split.
    + intros t Wt. eapply below_done; [exact G|exact I| |exact B|exact U|exact EM]. right. eapply ws_rel; [exact Wt|]. apply uses_need. right. exists a, m, d. split; [apply G|reflexivity].
    + intros x' Bx. eapply wr_via; [apply fin_start, WF|]. eapply wr_block; [eapply uses_need, req_uses; exact Ra|exact Bx].
  - subst x. exists h. split; [exact EM|]. split; [exact LH|]. split; [congruence|]. split; [reflexivity|]. split; [discriminate|]. split; [auto|].
    intros x' Bx. eapply wr_block; [apply uses_need, U|exact Bx].
Qed.

Lemma tile_synchronised : well_synchronised P.
Proof.
  constructor.
  - intros t tk E. cbn [P tile_program p_tasks] in E. rewrite nth_error_map in E.
    destruct (nth_error lin t) as [i|] eqn:Ei; [|discriminate]. cbn in E. injection E as <-. rewrite (tpos_lin t i Ei).
    pose proof (ttask_need i) as TN. unfold ttask in *. destruct (nth_error hist i) as [[accs k|p|a ss|a ss|a m d]|] eqn:Eh; cbn [t_need t_body] in *.
    + replace (seq (tbase hist i) (length accs)) with (map (Nat.add (tbase hist i)) (seq 0 (length accs))).
      * apply (tuse_shift_ok i accs k Eh); [|apply (tv_use hist VH i accs k Eh)]. intros x Hx. apply in_seq in Hx. lia.
      * replace (tbase hist i) with (tbase hist i + 0) at 2 by lia. generalize 0 as a. clear.
        induction (length accs) as [|n IH]; intros a; [reflexivity|]. cbn. f_equal. rewrite IH. f_equal. lia.
    + intros h [<-|[]]. destruct (group_of_split i p Eh) as (m & d & r & ss & G). apply tkept_pos. exists r. split; [pose proof (group_order _ _ _ _ _ _ G); lia|].
      right. exists i, m, d. split; [apply G|reflexivity].
    + apply frees_ok; [intros h Hh; apply TN, Hh|congruence|apply seq_NoDup].
    + apply frees_ok; [intros h Hh; apply TN, Hh|congruence|apply seq_NoDup].
    + apply (frees_ok i [tbase hist a]); [intros h Hh; apply TN, Hh|congruence|repeat constructor; cbn; tauto].
    + cbn. intros h [].
  - intros t h N. apply tneed_uses in N as (i & _ & U). destruct (tuses_requested i h U) as (j & m & d & Rq & _). apply (trequested_attr _ _ _ _ Rq).
  - intros t a A. apply (proj2 waits_lt). apply ws_after, A.
  - intros h L. destruct (trequested_ex h L) as (i & Rq). exists (pos i). eapply uses_need, req_uses. exact Rq.
  - intros h1 h2 t1 t2 B N1 N2. apply tneed_uses in N1 as (j1 & E1 & U1). apply tneed_uses in N2 as (j2 & E2 & U2).
    rewrite (tpos_lin _ _ E1), (tpos_lin _ _ E2). eapply torder_uses; eassumption.
  - intros h t1 t2 N1 N2 L _. apply tneed_uses in N1 as (j1 & E1 & U1). apply tneed_uses in N2 as (j2 & E2 & U2). rewrite (tpos_lin _ _ E1), (tpos_lin _ _ E2) in *.
    assert (Ne : j1 <> j2) by (intros <-; lia). destruct (tshared_uses _ _ _ U1 U2 Ne) as (p & a & m & d & r & ss & G & _ & [[-> ->]|[-> ->]]).
    + apply (group_after _ _ _ _ _ _ G).
    + pose proof (group_order _ _ _ _ _ _ G). lia.
  - intros t1 t2 h1 h2 c L N1 N2 R1 R2 M. pose proof N1 as N1'. pose proof N2 as N2'. apply tneed_uses in N1 as (j1 & E1 & U1). apply tneed_uses in N2 as (j2 & E2 & U2).
    rewrite (tpos_lin _ _ E1), (tpos_lin _ _ E2) in *. unfold reaches in R1, R2. cbn [P tile_program p_guards] in R1, R2. fold P in R1, R2.
    assert (LH : forall j h, tuses j h -> h < length (p_handles P)).
    { intros j h U. destruct (tuses_requested j h U) as (x & m & d & Rq & _). apply (trequested_attr _ _ _ _ Rq). }
    assert (Ne : j1 <> j2) by (intros <-; lia).
    destruct (meet _ _ c R1 R2) as [EQ|(q & o1 & o2 & A1 & A2 & NO)].
    + destruct (Nat.lt_total h1 h2) as [Q|[Q|Q]].
      * left. apply (wr_block P _ h1 h2 N2'). split; [exact Q|]. split; [eapply LH; exact U2|]. split; [congruence|].
        destruct M as [M|M]; [exists h1|exists h2]; (split; [lia|split; [congruence|exact M]]).
      * right. left. subst h2. destruct (tshared_uses _ _ _ U1 U2 Ne) as (p & a & m & d & r & ss & G & _ & [[-> ->]|[-> ->]]); [apply (group_after _ _ _ _ _ _ G)|].
        pose proof (group_order _ _ _ _ _ _ G). lia.
      * exfalso. assert (B : blocks P h2 h1).
        { split; [exact Q|]. split; [eapply LH; exact U1|]. split; [congruence|]. destruct M as [M|M]; [exists h1|exists h2]; (split; [lia|split; [congruence|exact M]]). }
        pose proof (torder_uses _ _ _ _ B U2 U1). lia.
    + destruct (arm_handle q _ o1 j1 h1 A1 U1 eq_refl) as (x1 & X1 & L1 & W1 & Z1 & S1 & D1 & B1).
      destruct (arm_handle q _ o2 j2 h2 A2 U2 eq_refl) as (x2 & X2 & L2 & W2 & Z2 & S2 & D2 & B2).
      assert (WW : mode_of P x1 = W \/ mode_of P x2 = W).
      { destruct o1 as [a1|]; [left; apply W1; discriminate|]. destruct o2 as [a2|]; [right; apply W2; discriminate|congruence]. }
      assert (BL : forall u v, u < v -> (u = x1 /\ v = x2) \/ (u = x2 /\ v = x1) -> blocks P u v).
      { intros u v Luv H. assert (v < length (p_handles P)) by (destruct H as [[-> ->]|[-> ->]]; assumption).
        split; [exact Luv|]. split; [assumption|]. split; [destruct H as [[-> ->]|[-> ->]]; congruence|].
        destruct H as [[-> ->]|[-> ->]]; (destruct WW as [WW|WW]; [exists x1|exists x2]); (split; [lia|split; congruence]). }
      destruct (Nat.lt_total x1 x2) as [Q|[Q|Q]].
      * apply D1, B2, BL; auto.
      * subst x2. destruct o1 as [a1|], o2 as [a2|].
        -- destruct (S1 a1 eq_refl) as [E _]. destruct (S2 a2 eq_refl) as [E' _]. exfalso. apply NO. f_equal.
           destruct A1 as (m1 & d1 & r1 & ss1 & s1 & G1 & _). destruct A2 as (m2 & d2 & r2 & ss2 & s2 & G2 & _).
           pose proof (split_requested a1 q (proj1 G1)) as Q1. pose proof (split_requested a2 q (proj1 G2)) as Q2. rewrite <- E in Q1. rewrite <- E' in Q2. eapply trequested_fun; eassumption.
        -- (* t1 through a sub-pipeline, t2 holds the parent's access: its release *)
           destruct (S1 a1 eq_refl) as [E WF]. specialize (Z2 eq_refl). destruct A1 as (m1 & d1 & r1 & ss1 & s1 & G1 & I1 & Bl).
           assert (Ua : tuses a1 h2) by (rewrite <- Z2, E; eapply req_uses, split_requested; apply G1).
           destruct (Nat.eq_dec a1 j2) as [->|Na]; [exfalso; pose proof (proj2 waits_lt _ _ (fin_start _ _ WF)); lia|].
           destruct (tshared_uses _ _ _ Ua U2 Na) as (p & a & m & d & r & ss & G & Eh & [[-> ->]|[-> ->]]).
           ++ assert (r = r1) as -> by (eapply release_unique; [exact G1|apply G]). eapply below_done; [exact G1|exact I1|left; reflexivity|exact Bl|exact U1|reflexivity].
           ++ pose proof (group_order _ _ _ _ _ _ G). destruct G as (_ & _ & _ & Er). destruct G1 as (Ea & _). congruence.
        -- destruct (S2 a2 eq_refl) as [E WF]. specialize (Z1 eq_refl). destruct A2 as (m2 & d2 & r2 & ss2 & s2 & G2 & I2 & Bl).
           assert (Ua : tuses a2 h1) by (rewrite <- Z1, E; eapply req_uses, split_requested; apply G2).
           destruct (Nat.eq_dec a2 j1) as [->|Na]; [right; exact WF|].
           destruct (tshared_uses _ _ _ Ua U1 Na) as (p & a & m & d & r & ss & G & Eh & [[-> ->]|[-> ->]]).
           ++ exfalso. assert (r = r2) as -> by (eapply release_unique; [exact G2|apply G]).
              assert (X : wrel (pos r2) h2 \/ wfin (pos r2) (pos j2)) by (eapply below_done; [exact G2|exact I2|left; reflexivity|exact Bl|exact U2|reflexivity]).
              pose proof (rel_or_fin_lt _ _ _ X N2'). lia.
           ++ destruct G as (_ & _ & _ & Er). destruct G2 as (Ea & _). congruence.
        -- congruence.
      * exfalso. assert (X : wrel (pos j1) h2 \/ wfin (pos j1) (pos j2)) by (apply D2, B1, BL; auto). pose proof (rel_or_fin_lt _ _ _ X N2'). lia.
Qed.

Lemma run_frees : forall l (st : store V), run (frees l) st = st.
Proof. induction l; intros st; [reflexivity|]. cbn. apply IHl. Qed.
Lemma run_ttasks : forall l st st', (forall x, st x = st' x) -> forall x, run_tasks (map (ttask hist lin) l) st x = run_tcmds hist l st' x.
Proof.
  induction l as [|i l IH]; intros st st' E x; [apply E|]. unfold run_tasks, run_tcmds in *. cbn [map fold_left]. apply IH. intros y.
  unfold ttask. destruct (nth_error hist i) as [[accs k|p|a ss|a ss|a m d]|]; cbn [t_body]; rewrite ?run_frees; try apply E; cbn; try apply E.
  rewrite run_shift. apply run_ext, E.
Qed.
Lemma run_tile_program : forall s0 x, run_tasks (p_tasks P) s0 x = run_tcmds hist lin s0 x.
Proof. intros s0 x. apply run_ttasks. reflexivity. Qed.
End one.
End tiles.
