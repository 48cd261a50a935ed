(** * Sub-pipelines: specification of valid histories and of the documented order, and proofs. *)
From Coq Require Import List Arith Bool Lia Permutation.
From Verif Require Import PipeModel AsyncModel Properties_Pipe AsyncProofs Properties_Async SubPipeModel.
Import ListNotations.

Section sub.
Context {V : Type}.
Context (moved : V).

(** ** Specification *)
(** Preconditions of the calls of a history. *)
Record valid_history (hist : list (cmd V)) : Prop := {
  v_use : forall i accs k, nth_error hist i = Some (Use accs k) -> job_ok (Job accs k);
  (* a sub-pipeline is a new object *)
  v_fresh : forall a p s, nth_error hist a = Some (Sub p s) -> s <> p /\
     forall i c, i < a -> nth_error hist i = Some c -> ~ In s (map fst (accesses c));
  v_reset : forall i s, nth_error hist i = Some (Reset s) -> exists a p, a < i /\ nth_error hist a = Some (Sub p s);
  (* not used after reset() / destruction *)
  v_dead : forall i s j c, nth_error hist i = Some (Reset s) -> i < j -> nth_error hist j = Some c -> ~ In s (map fst (accesses c));
  (* every sub-pipeline is eventually destroyed *)
  v_complete : forall a p s, nth_error hist a = Some (Sub p s) -> exists i, nth_error hist i = Some (Reset s)
}.

(** The documented order of the calls' effects.  Calls that use the same pipeline take effect in call
    order (unless both read); and what is done to a pipeline after the creation of a sub-pipeline
    takes effect after the sub-pipeline was destroyed. *)
Inductive before (hist : list (cmd V)) : nat -> nat -> Prop :=
| bf_same : forall i j ci cj p mi mj, i < j -> nth_error hist i = Some ci -> nth_error hist j = Some cj ->
    In (p, mi) (accesses ci) -> In (p, mj) (accesses cj) -> mi = W \/ mj = W -> before hist i j
| bf_sub : forall a i j cj p s m, nth_error hist a = Some (Sub p s) -> nth_error hist i = Some (Reset s) ->
    a < j -> nth_error hist j = Some cj -> In (p, m) (accesses cj) -> before hist i j.

Definition comes_before {A} (l : list A) (x y : A) : Prop := exists l1 l2 l3, l = l1 ++ x :: l2 ++ y :: l3.
(** lin: all calls of the history in an order that respects the documented order *)
Definition linearisation (hist : list (cmd V)) (lin : list nat) : Prop :=
  Permutation lin (seq 0 (length hist)) /\ forall i j, before hist i j -> comes_before lin i j.

(** sequential meaning of a call: the value moves into the sub-pipeline and back *)
Definition parent_in (hist : list (cmd V)) (s : nat) : nat :=
  match creator hist s with Some (_, p) => p | None => s end.
Definition run_cmd (hist : list (cmd V)) (c : cmd V) (st : store V) : store V :=
  match c with
  | Use _ k => run k st
  | Sub p s => upd (upd st s (st p)) p moved
  | Reset s => upd (upd st (parent_in hist s) (st s)) s moved
  end.
Definition run_cmds (hist : list (cmd V)) (lin : list nat) (st : store V) : store V :=
  fold_left (fun st i => match nth_error hist i with Some c => run_cmd hist c st | None => st end) lin st.

(** ** Proof *)
Lemma creator_spec : forall (hist : list (cmd V)) s a p, creator hist s = Some (a, p) -> nth_error hist a = Some (Sub p s).
Proof.
  induction hist as [|c hist IH]; intros s a p E; [discriminate|].
  destruct c as [accs k|q x|x]; cbn in E.
  - destruct (creator hist s) as [[a' p']|] eqn:C; [|discriminate]. cbn in E. injection E as <- <-. cbn. auto.
  - destruct (Nat.eqb_spec x s) as [->|N]; [injection E as <- <-; reflexivity|].
    destruct (creator hist s) as [[a' p']|] eqn:C; [|discriminate]. cbn in E. injection E as <- <-. cbn. auto.
  - destruct (creator hist s) as [[a' p']|] eqn:C; [|discriminate]. cbn in E. injection E as <- <-. cbn. auto.
Qed.
Lemma creator_first : forall (hist : list (cmd V)) s a p, nth_error hist a = Some (Sub p s) ->
  (forall i c, i < a -> nth_error hist i = Some c -> ~ In s (map fst (accesses c))) -> creator hist s = Some (a, p).
Proof.
  induction hist as [|c hist IH]; intros s a p E F; [destruct a; discriminate|].
  destruct a as [|a]; cbn in E.
  - injection E as ->. cbn. rewrite Nat.eqb_refl. reflexivity.
  - assert (C : creator hist s = Some (a, p)).
    { apply IH; [exact E|]. intros i x Hi Ex. apply (F (S i)); [lia|exact Ex]. }
    pose proof (F 0 c (Nat.lt_0_succ _) eq_refl) as F0.
    destruct c as [accs k|q x|x]; cbn; rewrite C; try reflexivity.
    destruct (Nat.eqb_spec x s) as [->|N]; [|reflexivity]. exfalso. apply F0. cbn. auto.
Qed.

Lemma handles_at : forall (hist : list (cmd V)) i c k, nth_error hist i = Some c -> k < length (accesses c) ->
  nth_error (flat_map accesses hist) (base hist i + k) = nth_error (accesses c) k.
Proof.
  induction hist as [|x hist IH]; intros i c k E L; [destruct i; discriminate|].
  destruct i as [|i]; cbn in E |- *.
  - injection E as ->. apply nth_error_app1. exact L.
  - unfold base. cbn [firstn flat_map]. rewrite app_length. rewrite nth_error_app2 by lia.
    rewrite <- (IH i c k E L). f_equal. unfold base. lia.
Qed.
Lemma base_le : forall (hist : list (cmd V)) i j c, i < j -> nth_error hist i = Some c -> base hist i + length (accesses c) <= base hist j.
Proof.
  induction hist as [|x hist IH]; intros i j c L E; [destruct i; discriminate|].
  destruct j as [|j]; [lia|]. destruct i as [|i]; cbn in E; unfold base; cbn [firstn flat_map]; rewrite ?app_length.
  - injection E as ->. cbn. lia.
  - assert (L' : i < j) by lia. pose proof (IH i j c L' E) as Q. unfold base in Q. lia.
Qed.
Lemma owner : forall (hist : list (cmd V)) h, h < length (flat_map accesses hist) ->
  exists i c k, nth_error hist i = Some c /\ k < length (accesses c) /\ h = base hist i + k.
Proof.
  induction hist as [|x hist IH]; intros h L; cbn in L; [lia|]. rewrite app_length in L.
  destruct (Nat.lt_ge_cases h (length (accesses x))) as [Q|Q].
  - exists 0, x, h. auto.
  - destruct (IH (h - length (accesses x))) as (i & c & k & A & B & C); [lia|].
    exists (S i), c, k. split; [exact A|]. split; [exact B|]. unfold base in *. cbn [firstn flat_map]. rewrite app_length. lia.
Qed.

Lemma index_of_nth : forall l t x, NoDup l -> nth_error l t = Some x -> index_of x l = t.
Proof.
  induction l as [|y l IH]; intros t x ND E; [destruct t; discriminate|]. inversion ND as [|? ? N ND']; subst.
  destruct t as [|t]; cbn in E |- *.
  - injection E as ->. rewrite Nat.eqb_refl. reflexivity.
  - destruct (Nat.eqb_spec y x) as [->|Ne]; [exfalso; apply N; eapply nth_error_In; exact E|]. f_equal. apply IH; assumption.
Qed.
Lemma comes_before_pos : forall l x y, NoDup l -> comes_before l x y -> index_of x l < index_of y l.
Proof.
  intros l x y ND (l1 & l2 & l3 & ->).
  rewrite (index_of_nth _ (length l1) x ND) by (rewrite nth_error_app2, Nat.sub_diag by lia; reflexivity).
  rewrite (index_of_nth _ (length l1 + S (length l2)) y ND); [lia|].
  rewrite nth_error_app2 by lia. replace (length l1 + S (length l2) - length l1) with (S (length l2)) by lia. cbn.
  rewrite nth_error_app2, Nat.sub_diag by lia. reflexivity.
Qed.

Section one.
Context (hist : list (cmd V)) (lin : list nat).
Hypothesis VH : valid_history hist.
Hypothesis LIN : linearisation hist lin.
Let P := sub_program moved hist lin.
Let pos i := index_of i lin.

Lemma lin_nodup : NoDup lin.
Proof. eapply Permutation_NoDup; [apply Permutation_sym, (proj1 LIN)|apply seq_NoDup]. Qed.
Lemma lin_in : forall i, In i lin <-> i < length hist.
Proof.
  intros i. split; intros H.
  - apply (Permutation_in _ (proj1 LIN)) in H. apply in_seq in H. lia.
  - apply (Permutation_in _ (Permutation_sym (proj1 LIN))). apply in_seq. lia.
Qed.
Lemma before_pos : forall i j, before hist i j -> pos i < pos j.
Proof. intros i j H. apply comes_before_pos; [apply lin_nodup|apply (proj2 LIN), H]. Qed.
Lemma lin_pos : forall i, i < length hist -> nth_error lin (pos i) = Some i.
Proof.
  intros i H. apply lin_in in H. apply In_nth_error in H as [n Hn]. unfold pos. rewrite (index_of_nth lin n i lin_nodup Hn). exact Hn.
Qed.
Lemma pos_lin : forall t i, nth_error lin t = Some i -> t = pos i.
Proof. intros t i E. symmetry. apply index_of_nth; [apply lin_nodup|exact E]. Qed.

(** call j needs handle h: its own request, or, for a reset, the access the creation kept *)
Definition uses (j h : nat) : Prop :=
  (exists c k, nth_error hist j = Some c /\ k < length (accesses c) /\ h = base hist j + k) \/
  (exists s a p, nth_error hist j = Some (Reset s) /\ nth_error hist a = Some (Sub p s) /\ h = base hist a + 1).
Lemma creator_of : forall a p s, nth_error hist a = Some (Sub p s) -> creator hist s = Some (a, p).
Proof. intros a p s E. apply creator_first; [exact E|]. apply (v_fresh hist VH a p s E). Qed.
Lemma task_need : forall i h, In h (t_need (task_of moved hist lin i)) <-> uses i h.
Proof.
  intros i h. unfold task_of, uses. destruct (nth_error hist i) as [[accs k|p s|s]|] eqn:E; cbn [t_need].
  - rewrite in_seq. split.
    + intros H. left. exists (Use accs k), (h - base hist i). cbn. split; [reflexivity|]. lia.
    + intros [(c & x & A & B & ->)|(s & a & p & A & _)]; [injection A as <-; cbn in B; lia|discriminate].
  - cbn [In]. split.
    + intros [<-|[<-|[]]]; left; [exists (Sub p s), 0|exists (Sub p s), 1]; cbn; (split; [reflexivity|lia]).
    + intros [(c & x & A & B & ->)|(s' & a & p' & A & _)]; [injection A as <-; cbn in B; lia|discriminate].
  - destruct (v_reset hist VH i s E) as (a & p & La & Ea). rewrite (creator_of a p s Ea). cbn [t_need In]. split.
    + intros [<-|[<-|[]]].
      * left. exists (Reset s), 0. cbn. split; [reflexivity|lia].
      * right. exists s, a, p. auto.
    + intros [(c & x & A & B & ->)|(s' & a' & p' & A & B & ->)].
      * injection A as <-. cbn in B. lia.
      * injection A as <-. right. left. apply creator_of in B. rewrite (creator_of a p s Ea) in B. injection B as <- <-. reflexivity.
  - cbn. split; [tauto|]. intros [(c & x & A & _)|(s & a & p & A & _)]; discriminate.
Qed.
Lemma need_uses : forall t h, need P t h <-> exists i, nth_error lin t = Some i /\ uses i h.
Proof.
  intros t h. unfold need. cbn [P sub_program p_tasks]. split.
  - intros (tk & E & Ih). rewrite nth_error_map in E. destruct (nth_error lin t) as [i|] eqn:Ei; [|discriminate]. cbn in E. injection E as <-.
    exists i. split; [reflexivity|]. apply task_need, Ih.
  - intros (i & E & U). exists (task_of moved hist lin i). split; [|apply task_need, U]. rewrite nth_error_map, E. reflexivity.
Qed.
Lemma uses_range : forall i h, uses i h -> i < length hist.
Proof. intros i h [(c & k & A & _)|(s & a & p & A & _)]; apply nth_error_Some; congruence. Qed.

(** each handle was requested by one call *)
Definition requested (i h m : nat) (md : mode) : Prop :=
  exists c k, nth_error hist i = Some c /\ nth_error (accesses c) k = Some (m, md) /\ h = base hist i + k.
Lemma requested_attr : forall i h m md, requested i h m md -> mutex_of P h = m /\ mode_of P h = md /\ h < length (p_handles P).
Proof.
  intros i h m md (c & k & A & B & ->). assert (L : k < length (accesses c)) by (apply nth_error_Some; congruence).
  pose proof (handles_at hist i c k A L) as E. rewrite B in E.
  unfold mutex_of, mode_of. cbn [P sub_program p_handles]. rewrite (nth_error_nth _ _ (0, R) E).
  split; [reflexivity|]. split; [reflexivity|]. apply nth_error_Some. congruence.
Qed.
Lemma requested_ex : forall h, h < length (p_handles P) -> exists i, requested i h (mutex_of P h) (mode_of P h).
Proof.
  intros h L. destruct (owner hist h L) as (i & c & k & A & B & E).
  destruct (nth_error (accesses c) k) as [[m md]|] eqn:N; [|apply nth_error_None in N; lia].
  assert (Q : requested i h m md) by (exists c, k; auto). exists i.
  destruct (requested_attr i h m md Q) as (-> & -> & _). exact Q.
Qed.
Lemma requested_lt : forall i j h1 h2 m1 d1 m2 d2, requested i h1 m1 d1 -> requested j h2 m2 d2 -> h1 < h2 -> i <= j.
Proof.
  intros i j h1 h2 m1 d1 m2 d2 (c1 & k1 & A1 & B1 & ->) (c2 & k2 & A2 & B2 & ->) L.
  destruct (Nat.le_gt_cases i j) as [Q|Q]; [exact Q|]. pose proof (base_le hist j i c2 Q A2).
  assert (k2 < length (accesses c2)) by (apply nth_error_Some; congruence). lia.
Qed.
Lemma requested_fun : forall i j h m1 d1 m2 d2, requested i h m1 d1 -> requested j h m2 d2 -> i = j.
Proof.
  intros i j h m1 d1 m2 d2 (c1 & k1 & A1 & B1 & E1) (c2 & k2 & A2 & B2 & E2).
  assert (k1 < length (accesses c1)) by (apply nth_error_Some; congruence).
  assert (k2 < length (accesses c2)) by (apply nth_error_Some; congruence).
  destruct (Nat.lt_total i j) as [L|[L|L]]; [|exact L|].
  - pose proof (base_le hist i j c1 L A1). lia.
  - pose proof (base_le hist j i c2 L A2). lia.
Qed.
(** a user of a handle: the requester, or the reset of the sub-pipeline created with it *)
Lemma uses_requested : forall j h, uses j h -> exists i m d, requested i h m d /\
  (j = i \/ exists s, nth_error hist i = Some (Sub m s) /\ nth_error hist j = Some (Reset s) /\ h = base hist i + 1).
Proof.
  intros j h [(c & k & A & B & ->)|(s & a & p & A & B & ->)].
  - destruct (nth_error (accesses c) k) as [[m md]|] eqn:N; [|apply nth_error_None in N; lia].
    exists j, m, md. split; [exists c, k; auto|auto].
  - exists a, p, W. split; [exists (Sub p s), 1; cbn; auto|]. right. exists s. auto.
Qed.
Lemma requested_uses : forall i h m d, requested i h m d -> uses i h.
Proof. intros i h m d (c & k & A & B & ->). left. exists c, k. split; [exact A|]. split; [apply nth_error_Some; congruence|reflexivity]. Qed.

(** two requests of one call to one pipeline are reads *)
Lemma requested_same_call : forall i h1 h2 m d1 d2, requested i h1 m d1 -> requested i h2 m d2 -> h1 <> h2 -> d1 = R /\ d2 = R.
Proof.
  intros i h1 h2 m d1 d2 (c & k1 & A1 & B1 & ->) (c2 & k2 & A2 & B2 & ->) N. rewrite A1 in A2. injection A2 as <-.
  destruct c as [accs k|p s|s].
  - assert (Ne : k1 <> k2) by lia. apply (proj2 (v_use hist VH i accs k A1) k1 k2 m d1 d2 Ne); assumption.
  - destruct (v_fresh hist VH i p s A1) as [Ne _].
    destruct k1 as [|[|k1]], k2 as [|[|k2]]; cbn in B1, B2; try lia; try (destruct k1; discriminate); try (destruct k2; discriminate); congruence.
  - destruct k1 as [|k1], k2 as [|k2]; cbn in B1, B2; try lia; try (destruct k1; discriminate); destruct k2; discriminate.
Qed.
Lemma requested_access : forall i h m d, requested i h m d -> exists c, nth_error hist i = Some c /\ In (m, d) (accesses c).
Proof. intros i h m d (c & k & A & B & _). exists c. split; [exact A|]. eapply nth_error_In; exact B. Qed.

Lemma reset_after_sub : forall a p s r, nth_error hist a = Some (Sub p s) -> nth_error hist r = Some (Reset s) -> a < r.
Proof.
  intros a p s r A B. destruct (v_reset hist VH r s B) as (a' & p' & L & A').
  apply creator_of in A. apply creator_of in A'. rewrite A in A'. injection A' as <- _. exact L.
Qed.
Lemma sub_before_reset : forall a p s r, nth_error hist a = Some (Sub p s) -> nth_error hist r = Some (Reset s) -> before hist a r.
Proof.
  intros a p s r A B. apply (bf_same hist a r (Sub p s) (Reset s) s W W); auto; cbn; auto.
  eapply reset_after_sub; eassumption.
Qed.

Lemma blocks_order : forall h1 h2 i1 i2 m d1 d2, blocks P h1 h2 -> requested i1 h1 m d1 -> requested i2 h2 m d2 ->
  i1 < i2 /\ pos i1 < pos i2.
Proof.
  intros h1 h2 i1 i2 m d1 d2 (L & L2 & EM & x & Lx & EX & WX) R1 R2.
  pose proof (requested_lt _ _ _ _ _ _ _ _ R1 R2 L) as Le.
  destruct (requested_attr _ _ _ _ R1) as (M1 & D1 & _). destruct (requested_attr _ _ _ _ R2) as (M2 & D2 & _).
  destruct (requested_ex x) as (ix & Rx); [lia|]. rewrite EX, WX, M2 in Rx.
  assert (N1 : d1 = R -> i1 <> ix).
  { intros -> <-. assert (Ne : h1 <> x) by (intros ->; congruence).
    destruct (requested_same_call _ _ _ _ _ _ R1 Rx Ne). discriminate. }
  assert (N2 : d2 = R -> i2 <> ix).
  { intros -> <-. assert (Ne : h2 <> x) by (intros ->; congruence).
    destruct (requested_same_call _ _ _ _ _ _ R2 Rx Ne). discriminate. }
  assert (Lt : i1 < i2).
  { destruct (Nat.eq_dec i1 i2) as [<-|]; [|lia]. exfalso. assert (Ne : h1 <> h2) by lia.
    destruct (requested_same_call _ _ _ _ _ _ R1 R2 Ne) as [-> ->].
    assert (L1 : i1 <= ix).
    { destruct (Nat.eq_dec h1 x) as [->|]; [rewrite (requested_fun _ _ _ _ _ _ _ R1 Rx); lia|]. apply (requested_lt _ _ _ _ _ _ _ _ R1 Rx). lia. }
    assert (L3 : ix <= i1).
    { destruct (Nat.eq_dec h2 x) as [->|]; [rewrite (requested_fun _ _ _ _ _ _ _ R2 Rx); lia|]. apply (requested_lt _ _ _ _ _ _ _ _ Rx R2). lia. }
    apply N1; [reflexivity|lia]. }
  split; [exact Lt|].
  destruct (requested_access _ _ _ _ R1) as (c1 & A1 & B1). destruct (requested_access _ _ _ _ R2) as (c2 & A2 & B2).
  destruct (requested_access _ _ _ _ Rx) as (cx & Ax & Bx).
  destruct d1; [destruct d2|].
  - assert (Q1 : h1 <> x) by (intros ->; congruence). assert (Q2 : h2 <> x) by (intros ->; congruence).
    assert (Hx : h1 < x) by lia. assert (Hx2 : x < h2) by lia.
    pose proof (requested_lt _ _ _ _ _ _ _ _ R1 Rx Hx). pose proof (requested_lt _ _ _ _ _ _ _ _ Rx R2 Hx2).
    specialize (N1 eq_refl). specialize (N2 eq_refl).
    apply Nat.lt_trans with (pos ix); apply before_pos.
    + apply (bf_same hist i1 ix c1 cx m R W); auto. lia.
    + apply (bf_same hist ix i2 cx c2 m W R); auto. lia.
  - apply before_pos. apply (bf_same hist i1 i2 c1 c2 m R W); auto.
  - apply before_pos. apply (bf_same hist i1 i2 c1 c2 m W d2); auto.
Qed.

Lemma order_uses : forall h1 h2 j1 j2, blocks P h1 h2 -> uses j1 h1 -> uses j2 h2 -> pos j1 < pos j2.
Proof.
  intros h1 h2 j1 j2 B U1 U2.
  destruct (uses_requested j1 h1 U1) as (i1 & m & d1 & R1 & C1). destruct (uses_requested j2 h2 U2) as (i2 & m2 & d2 & R2 & C2).
  assert (EM : m2 = m).
  { destruct (requested_attr _ _ _ _ R1) as (Q1 & _). destruct (requested_attr _ _ _ _ R2) as (Q2 & _).
    destruct B as (_ & _ & E & _). congruence. }
  subst m2. destruct (blocks_order h1 h2 i1 i2 m d1 d2 B R1 R2) as [Lt Lp].
  assert (X2 : pos i2 <= pos j2).
  { destruct C2 as [->|(s & A & A' & _)]; [lia|]. apply Nat.lt_le_incl, before_pos. eapply sub_before_reset; eassumption. }
  destruct C1 as [->|(s & A & A' & _)]; [lia|].
  apply Nat.lt_le_trans with (pos i2); [|exact X2]. apply before_pos.
  destruct (requested_access _ _ _ _ R2) as (c2 & Q1 & Q2). eapply bf_sub; eassumption.
Qed.

Lemma shared_uses : forall h j1 j2, uses j1 h -> uses j2 h -> j1 <> j2 ->
  exists i p s, nth_error hist i = Some (Sub p s) /\ h = base hist i + 1 /\
    ((j1 = i /\ nth_error hist j2 = Some (Reset s)) \/ (j2 = i /\ nth_error hist j1 = Some (Reset s))).
Proof.
  intros h j1 j2 U1 U2 N.
  destruct (uses_requested j1 h U1) as (i1 & m & d1 & R1 & C1). destruct (uses_requested j2 h U2) as (i2 & m2 & d2 & R2 & C2).
  pose proof (requested_fun _ _ _ _ _ _ _ R1 R2) as <-.
  destruct C1 as [->|(s & A & A' & E)], C2 as [->|(s2 & A2 & A2' & E2)].
  - congruence.
  - exists i1, m2, s2. auto.
  - exists i1, m, s. auto.
  - exfalso. rewrite A in A2. injection A2 as <- <-.
    assert (D : forall x y, nth_error hist x = Some (Reset s) -> nth_error hist y = Some (Reset s) -> x < y -> False).
    { intros x y X Y L. apply (v_dead hist VH x s y (Reset s) X L Y). cbn. auto. }
    destruct (Nat.lt_total j1 j2) as [Q|[Q|Q]]; [exact (D _ _ A' A2' Q)|contradiction|exact (D _ _ A2' A' Q)].
Qed.

Lemma kept_pos : forall i h, i < length hist -> (kept P (pos i) h <-> exists j, pos i < pos j /\ uses j h).
Proof.
  intros i h L. split.
  - intros (t & Lt & N). apply need_uses in N as (j & E & U). rewrite (pos_lin t j E) in Lt. exists j. auto.
  - intros (j & Lt & U). exists (pos j). split; [exact Lt|]. apply need_uses. exists j. split; [|exact U]. apply lin_pos. eapply uses_range; exact U.
Qed.

Lemma use_shift_ok : forall i accs k, nth_error hist i = Some (Use accs k) -> forall b held, (forall x, In x held -> x < length accs) ->
  kernel_ok accs held b -> body_ok P (pos i) (map (Nat.add (base hist i)) held) (shift (base hist i) b).
Proof.
  intros i accs k A. assert (Li : i < length hist) by (apply nth_error_Some; congruence).
  assert (RQ : forall x c m, nth_error accs x = Some (c, m) -> requested i (base hist i + x) c m).
  { intros x c m E. exists (Use accs k), x. auto. }
  induction b as [|c kk IH|c v kk IH|h kk IH]; intros held HB K; cbn [shift body_ok].
  - cbn in K. subst held. intros h [].
  - destruct K as [(x & m & I1 & I2) K]. split.
    + exists (base hist i + x). split; [apply in_map; exact I1|]. unfold reaches.
      destruct (requested_attr _ _ _ _ (RQ x c m I2)) as (Q & _). rewrite Q. apply Nat.eqb_refl.
    + intros v. apply IH; auto.
  - destruct K as [(x & I1 & I2) K]. split.
    + exists (base hist i + x). split; [apply in_map; exact I1|].
      destruct (requested_attr _ _ _ _ (RQ x c W I2)) as (Q & Q2 & _). split; [exact Q2|].
      unfold reaches. rewrite Q. apply Nat.eqb_refl.
    + apply IH; auto.
  - destruct K as [I1 K]. split; [apply in_map; exact I1|]. split.
    + intros Kp. apply kept_pos in Kp as (j & Lj & U); [|exact Li].
      assert (Ui : uses i (base hist i + h)) by (left; exists (Use accs k), h; cbn; auto).
      assert (Ne : i <> j) by (intros ->; lia).
      destruct (shared_uses _ _ _ Ui U Ne) as (a & p & s & Sa & Eh & [[-> _]|[-> C]]); [congruence|].
      congruence.
    + rewrite remove_shift. apply IH; [|exact K]. intros x Hx. apply in_remove in Hx as [Hx _]. auto.
Qed.

Lemma hist_synchronised : well_synchronised P.
Proof.
  constructor.
  - intros t tk E. cbn [P sub_program p_tasks] in E. rewrite nth_error_map in E.
    destruct (nth_error lin t) as [i|] eqn:Ei; [|discriminate]. cbn in E. injection E as <-.
    rewrite (pos_lin t i Ei). assert (Li : i < length hist) by (apply lin_in; eapply nth_error_In; exact Ei).
    unfold task_of. destruct (nth_error hist i) as [[accs k|p s|s]|] eqn:Eh; cbn [t_need t_body].
    + replace (seq (base hist i) (length accs)) with (map (Nat.add (base hist i)) (seq 0 (length accs))).
      * apply (use_shift_ok i accs k Eh); [|apply (v_use hist VH i accs k Eh)]. intros x Hx. apply in_seq in Hx. lia.
      * replace (base hist i) with (base hist i + 0) at 2 by lia. generalize 0 as a. clear.
        induction (length accs) as [|n IH]; intros a; [reflexivity|]. cbn. f_equal. rewrite IH. f_equal. lia.
    + assert (Rs : requested i (base hist i) s W) by (exists (Sub p s), 0; cbn; rewrite Nat.add_0_r; auto).
      assert (Rp : requested i (base hist i + 1) p W) by (exists (Sub p s), 1; cbn; auto).
      destruct (requested_attr _ _ _ _ Rs) as (Ms & Ws & _). destruct (requested_attr _ _ _ _ Rp) as (Mp & Wp & _).
      destruct (v_fresh hist VH i p s Eh) as [Nsp _].
      cbn [body_ok]. split; [exists (base hist i + 1); split; [cbn; auto|unfold reaches; rewrite Mp; apply Nat.eqb_refl]|]. intros v.
      split; [exists (base hist i); split; [cbn; auto|split; [exact Ws|unfold reaches; rewrite Ms; apply Nat.eqb_refl]]|].
      split; [exists (base hist i + 1); split; [cbn; auto|split; [exact Wp|unfold reaches; rewrite Mp; apply Nat.eqb_refl]]|].
      split; [cbn; auto|]. split.
      * intros Kp. apply kept_pos in Kp as (j & Lj & U); [|exact Li].
        assert (Ne : i <> j) by (intros ->; lia).
        destruct (shared_uses _ _ _ (requested_uses _ _ _ _ Rs) U Ne) as (a & p' & s' & Sa & Eq & [[-> _]|[-> C]]); [lia|congruence].
      * intros h Hh. apply in_remove in Hh as [[<-|[<-|[]]] Nh]; [congruence|].
        destruct (v_complete hist VH i p s Eh) as (r & Er).
        apply kept_pos; [exact Li|]. exists r. split; [apply before_pos; eapply sub_before_reset; eassumption|].
        right. exists s, i, p. auto.
    + destruct (v_reset hist VH i s Eh) as (a & p & La & Ea). rewrite (creator_of a p s Ea). cbn [t_need t_body].
      assert (Rs : requested i (base hist i) s W) by (exists (Reset s), 0; cbn; rewrite Nat.add_0_r; auto).
      assert (Rp : requested a (base hist a + 1) p W) by (exists (Sub p s), 1; cbn; auto).
      destruct (requested_attr _ _ _ _ Rs) as (Ms & Ws & _). destruct (requested_attr _ _ _ _ Rp) as (Mp & Wp & _).
      destruct (v_fresh hist VH a p s Ea) as [Nsp _].
      assert (Nh : base hist a + 1 <> base hist i) by (intros E; rewrite E in Mp; congruence).
      cbn [body_ok]. split; [exists (base hist i); split; [cbn; auto|unfold reaches; rewrite Ms; apply Nat.eqb_refl]|]. intros v.
      split; [exists (base hist a + 1); split; [cbn; auto|split; [exact Wp|unfold reaches; rewrite Mp; apply Nat.eqb_refl]]|].
      split; [exists (base hist i); split; [cbn; auto|split; [exact Ws|unfold reaches; rewrite Ms; apply Nat.eqb_refl]]|].
      assert (NK : forall h, uses i h -> ~ kept P (pos i) h).
      { intros h U Kp. apply kept_pos in Kp as (j & Lj & U2); [|exact Li].
        assert (Ne : i <> j) by (intros ->; lia).
        destruct (shared_uses _ _ _ U U2 Ne) as (a' & p' & s' & Sa & Eq & [[-> _]|[-> C]]); [congruence|].
        rewrite Eh in C. injection C as <-. pose proof (before_pos _ _ (sub_before_reset _ _ _ _ Sa Eh)). lia. }
      assert (RM : remove Nat.eq_dec (base hist i) [base hist i; base hist a + 1] = [base hist a + 1]).
      { cbn. destruct (Nat.eq_dec (base hist i) (base hist i)); [|congruence].
        destruct (Nat.eq_dec (base hist i) (base hist a + 1)); [congruence|reflexivity]. }
      split; [cbn; auto|]. split; [apply NK, (requested_uses _ _ _ _ Rs)|]. rewrite RM.
      split; [cbn; auto|]. split; [apply NK; right; exists s, a, p; auto|].
      intros h Hh. apply in_remove in Hh as [[<-|[]] Nh']. congruence.
    + cbn. intros h [].
  - intros t h N. apply need_uses in N as (i & _ & U). destruct (uses_requested i h U) as (j & m & d & Rq & _).
    apply (requested_attr _ _ _ _ Rq).
  - intros t a (tk & E & Ia). cbn [P sub_program p_tasks] in E. rewrite nth_error_map in E.
    destruct (nth_error lin t) as [i|] eqn:Ei; [|discriminate]. cbn in E. injection E as <-.
    unfold task_of in Ia. destruct (nth_error hist i) as [[accs k|p s|s]|] eqn:Eh; cbn in Ia; try contradiction.
    destruct (v_reset hist VH i s Eh) as (x & p & Lx & Ex). rewrite (creator_of x p s Ex) in Ia. cbn in Ia.
    destruct Ia as [<-|[]]. rewrite (pos_lin t i Ei). apply before_pos. eapply sub_before_reset; eassumption.
  - intros h L. destruct (requested_ex h L) as (i & Rq). exists (pos i). apply need_uses. exists i.
    pose proof (requested_uses _ _ _ _ Rq) as U. split; [apply lin_pos; eapply uses_range; exact U|exact U].
  - intros h1 h2 t1 t2 B N1 N2. apply need_uses in N1 as (j1 & E1 & U1). apply need_uses in N2 as (j2 & E2 & U2).
    rewrite (pos_lin _ _ E1), (pos_lin _ _ E2). eapply order_uses; eassumption.
  - intros h t1 t2 N1 N2 L _. apply need_uses in N1 as (j1 & E1 & U1). apply need_uses in N2 as (j2 & E2 & U2).
    assert (Ne : j1 <> j2). { intros <-. rewrite (pos_lin _ _ E1), (pos_lin _ _ E2) in L. lia. }
    destruct (shared_uses _ _ _ U1 U2 Ne) as (i & p & s & Si & Eq & [[-> C]|[-> C]]).
    + exists (task_of moved hist lin j2). cbn [P sub_program p_tasks]. split; [rewrite nth_error_map, E2; reflexivity|].
      unfold task_of. rewrite C, (creator_of i p s Si). cbn. left. symmetry. apply pos_lin, E1.
    + pose proof (before_pos _ _ (sub_before_reset _ _ _ _ Si C)). rewrite (pos_lin _ _ E1), (pos_lin _ _ E2) in L. lia.
  - intros t1 t2 h1 h2 c L N1 N2 R1 R2 M. apply need_uses in N1 as (j1 & E1 & U1).
    pose proof N2 as N2'. apply need_uses in N2 as (j2 & E2 & U2).
    unfold reaches in R1, R2. cbn [P sub_program p_guards] in R1, R2. apply Nat.eqb_eq in R1, R2. fold P in R1, R2.
    assert (LH : forall j h, uses j h -> h < length (p_handles P)).
    { intros j h U. destruct (uses_requested j h U) as (x & m & d & Rq & _). apply (requested_attr _ _ _ _ Rq). }
    destruct (Nat.lt_total h1 h2) as [Q|[Q|Q]].
    + left. apply (wr_block P t2 h1 h2 N2'). split; [exact Q|]. split; [eapply LH; exact U2|]. split; [congruence|].
      destruct M as [M|M]; [exists h1|exists h2]; (split; [lia|split; [congruence|exact M]]).
    + right. left. subst h2.
      assert (Ne : j1 <> j2). { intros <-. rewrite (pos_lin _ _ E1), (pos_lin _ _ E2) in L. lia. }
      destruct (shared_uses _ _ _ U1 U2 Ne) as (i & p & s & Si & Eq & [[-> C]|[-> C]]).
      * exists (task_of moved hist lin j2). cbn [P sub_program p_tasks]. split; [rewrite nth_error_map, E2; reflexivity|].
        unfold task_of. rewrite C, (creator_of i p s Si). cbn. left. symmetry. apply pos_lin, E1.
      * pose proof (before_pos _ _ (sub_before_reset _ _ _ _ Si C)). rewrite (pos_lin _ _ E1), (pos_lin _ _ E2) in L. lia.
    + exfalso. assert (B : blocks P h2 h1).
      { split; [exact Q|]. split; [eapply LH; exact U1|]. split; [congruence|].
        destruct M as [M|M]; [exists h1|exists h2]; (split; [lia|split; [congruence|exact M]]). }
      pose proof (order_uses _ _ _ _ B U2 U1) as Lt. rewrite (pos_lin _ _ E1), (pos_lin _ _ E2) in L. lia.
Qed.

Lemma run_task_of : forall i c st, nth_error hist i = Some c -> forall x, run (t_body (task_of moved hist lin i)) st x = run_cmd hist c st x.
Proof.
  intros i c st E x. unfold task_of. rewrite E. destruct c as [accs k|p s|s]; cbn [t_body run_cmd].
  - rewrite run_shift. reflexivity.
  - reflexivity.
  - destruct (v_reset hist VH i s E) as (a & p & La & Ea). unfold parent_in. rewrite (creator_of a p s Ea). reflexivity.
Qed.
Lemma run_cmd_ext : forall c st st', (forall x, st x = st' x) -> forall x, run_cmd hist c st x = run_cmd hist c st' x.
Proof.
  intros [accs k|p s|s] st st' E x; cbn [run_cmd].
  - apply run_ext, E.
  - unfold upd. rewrite (E x), (E p). reflexivity.
  - unfold upd. rewrite (E x), (E s). reflexivity.
Qed.
Lemma run_lin : forall l st st', (forall i, In i l -> i < length hist) -> (forall x, st x = st' x) ->
  forall x, run_tasks (map (task_of moved hist lin) l) st x = run_cmds hist l st' x.
Proof.
  induction l as [|i l IH]; intros st st' B E x; [apply E|]. unfold run_tasks, run_cmds in *. cbn [map fold_left].
  assert (Li : i < length hist) by (apply B; left; reflexivity).
  destruct (nth_error hist i) as [c|] eqn:Ec; [|apply nth_error_None in Ec; lia].
  apply IH; [intros y Hy; apply B; right; exact Hy|]. intros y. rewrite (run_task_of i c st Ec y). apply run_cmd_ext, E.
Qed.
Lemma run_sub_program : forall s0 x, run_tasks (p_tasks P) s0 x = run_cmds hist lin s0 x.
Proof. intros s0 x. apply run_lin; [|reflexivity]. intros i Hi. apply lin_in, Hi. Qed.
End one.
End sub.
