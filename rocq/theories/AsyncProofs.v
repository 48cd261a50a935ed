(** * General theorem: synchronised task programs behave as if run one task at a time. *)
From Coq Require Import List Arith Bool Lia.
From Verif Require Import PipeModel AsyncModel Properties_Pipe.
Import ListNotations.

Section async.
Context {V : Type}.
Context (P : program V).

Definition need (t h : nat) : Prop := exists tk, nth_error (p_tasks P) t = Some tk /\ In h (t_need tk).
Definition after (t a : nat) : Prop := exists tk, nth_error (p_tasks P) t = Some tk /\ In a (t_after tk).
(** request h1 precedes h2 on the same pipeline, and not everything between is a read *)
Definition blocks (h1 h2 : nat) : Prop :=
  h1 < h2 /\ h2 < length (p_handles P) /\ mutex_of P h1 = mutex_of P h2 /\
  exists x, h1 <= x <= h2 /\ mutex_of P x = mutex_of P h2 /\ mode_of P x = W.
Definition reaches (h c : nat) : Prop := p_guards P (mutex_of P h) c = true.

(** t starting implies that h has been released / that a has started *)
Inductive waits_rel : nat -> nat -> Prop :=
| wr_block : forall t h1 h2, need t h2 -> blocks h1 h2 -> waits_rel t h1
| wr_via : forall t a h, waits_start t a -> waits_rel a h -> waits_rel t h
with waits_start : nat -> nat -> Prop :=
| ws_after : forall t a, after t a -> waits_start t a
| ws_rel : forall t h a, waits_rel t h -> need a h -> waits_start t a
| ws_via : forall t x a, waits_start t x -> waits_start x a -> waits_start t a.
Definition waits_fin (t a : nat) : Prop := after t a \/ exists x, waits_start t x /\ after x a.
Scheme waits_rel_mind := Minimality for waits_rel Sort Prop
  with waits_start_mind := Minimality for waits_start Sort Prop.
Combined Scheme waits_ind from waits_rel_mind, waits_start_mind.

(** h is passed on to a later task *)
Definition kept (t h : nat) : Prop := exists t', t < t' /\ need t' h.
(** a body only touches cells it has access to, and gives up its accesses exactly once *)
Fixpoint body_ok (t : nat) (held : list nat) (b : body V) : Prop :=
  match b with
  | Ret => forall h, In h held -> kept t h
  | Load c k => (exists h, In h held /\ reaches h c) /\ forall v, body_ok t held (k v)
  | Put c v k => (exists h, In h held /\ mode_of P h = W /\ reaches h c) /\ body_ok t held k
  | Free h k => In h held /\ ~ kept t h /\ body_ok t (remove Nat.eq_dec h held) k
  end.

Record well_synchronised : Prop := {
  ws_body : forall t tk, nth_error (p_tasks P) t = Some tk -> body_ok t (t_need tk) (t_body tk);
  ws_need : forall t h, need t h -> h < length (p_handles P);
  ws_afters : forall t a, after t a -> a < t;
  ws_used : forall h, h < length (p_handles P) -> exists t, need t h;
  ws_order : forall h1 h2 t1 t2, blocks h1 h2 -> need t1 h1 -> need t2 h2 -> t1 < t2;
  (* the last task that needs an access waits for the others that need it *)
  ws_share : forall h t1 t2, need t1 h -> need t2 h -> t1 < t2 -> ~ kept t2 h -> after t2 t1;
  (* two tasks that may conflict on a cell are synchronised *)
  ws_sync : forall t1 t2 h1 h2 c, t1 < t2 -> need t1 h1 -> need t2 h2 -> reaches h1 c -> reaches h2 c ->
     mode_of P h1 = W \/ mode_of P h2 = W -> waits_rel t2 h1 \/ waits_fin t2 t1
}.
Hypothesis WS : well_synchronised.
Context (s0 : store V).

Definition seq_at (k : nat) : store V := run_tasks (firstn k (p_tasks P)) s0.

(** ** histories *)
Definition rel (s : state V) (h : nat) : Prop := In (Rel h) (st_hist s).
Definition hist_ok (s : state V) : Prop :=
  requests (st_hist s) = map (fun h => (h, mode_of P h)) (seq 0 (st_issued s)) /\
  st_issued s <= length (p_handles P) /\
  (forall m, history (mutex_hist P m (st_hist s))) /\
  (forall h, rel s h -> h < st_issued s).

Lemma filter_requests : forall m hist, requests (mutex_hist P m hist) = filter (fun r => mutex_of P (fst r) =? m) (requests hist).
Proof.
  intros m hist. unfold mutex_hist. induction hist as [|[h md|h] hist IH]; [reflexivity| |].
  - cbn [filter ev_handle]. destruct (mutex_of P h =? m) eqn:E; cbn [requests flat_map app filter fst]; rewrite E.
    + f_equal. exact IH.
    + exact IH.
  - cbn [filter ev_handle]. destruct (mutex_of P h =? m); cbn [requests flat_map app]; exact IH.
Qed.
Lemma filter_map_comm : forall n m, filter (fun r => mutex_of P (fst r) =? m) (map (fun h => (h, mode_of P h)) (seq 0 n))
  = map (fun h => (h, mode_of P h)) (filter (fun h => mutex_of P h =? m) (seq 0 n)).
Proof.
  intros n m. generalize (seq 0 n). induction l as [|x l IH]; [reflexivity|]. cbn. destruct (_ =? m); cbn; congruence.
Qed.
Lemma seq_filter_split : forall (p : nat -> bool) n h, h < n -> p h = true ->
  filter p (seq 0 n) = filter p (seq 0 h) ++ h :: filter p (seq (S h) (n - S h)).
Proof.
  intros p n h Hh Hp. replace n with (h + S (n - S h)) at 1 by lia. rewrite seq_app, filter_app, Nat.add_0_l. cbn [seq filter]. rewrite Hp. reflexivity.
Qed.
Lemma seq_filter_split2 : forall (p : nat -> bool) n h1 h2, h1 < h2 -> h2 < n -> p h1 = true -> p h2 = true ->
  filter p (seq 0 n) = filter p (seq 0 h1) ++ h1 :: filter p (seq (S h1) (h2 - S h1)) ++ h2 :: filter p (seq (S h2) (n - S h2)).
Proof.
  intros p n h1 h2 H1 H2 P1 P2. rewrite (seq_filter_split p n h1) by (auto; lia).
  replace (n - S h1) with ((h2 - S h1) + S (n - S h2)) by lia. rewrite seq_app, filter_app.
  replace (S h1 + (h2 - S h1)) with h2 by lia. cbn [seq filter]. rewrite P2. reflexivity.
Qed.
Lemma nodup_map_split : forall (l a b c d : list nat) (x y : nat), NoDup l -> l = a ++ x :: b -> l = c ++ x :: d -> a = c /\ b = d.
Proof.
  induction l as [|z l IH]; intros a b c d x y ND E1 E2; [destruct a; discriminate|].
  inversion ND as [|? ? Hz ND']; subst.
  destruct a as [|a0 a], c as [|c0 c]; cbn in E1, E2; injection E1 as E1 E1'; injection E2 as E2 E2'; subst.
  - auto.
  - exfalso. apply Hz. apply in_or_app. right. left. reflexivity.
  - exfalso. apply Hz. apply in_or_app. right. left. reflexivity.
  - destruct (IH a b c d x y ND' eq_refl E2') as [-> ->]. auto.
Qed.

Lemma nodup_app_r {A} : forall a b : list A, NoDup (a ++ b) -> NoDup b.
Proof. induction a as [|x a IH]; intros b H; [exact H|]. inversion H; subst. apply IH. assumption. Qed.

Lemma must_precede_iff : forall n m h1 h2, n <= length (p_handles P) -> h2 < n -> mutex_of P h2 = m ->
  must_precede (map (fun h => (h, mode_of P h)) (filter (fun h => mutex_of P h =? m) (seq 0 n))) h1 h2 <-> blocks h1 h2.
Proof.
  intros n m h1 h2 Hn H2 Hm. set (p := fun h => mutex_of P h =? m) in *. set (f := fun h => (h, mode_of P h)).
  assert (P2 : p h2 = true) by (unfold p; apply Nat.eqb_eq; exact Hm).
  assert (ND : NoDup (map fst (map f (filter p (seq 0 n))))).
  { rewrite map_map. cbn. rewrite map_id. apply NoDup_filter, seq_NoDup. }
  split.
  - intros (pre & m1 & mid & m2 & post & E & HW).
    assert (L : filter p (seq 0 n) = map fst pre ++ h1 :: map fst mid ++ h2 :: map fst post).
    { apply (f_equal (map fst)) in E. rewrite map_map in E. cbn in E. rewrite map_id in E. rewrite E.
      rewrite map_app. cbn. rewrite map_app. reflexivity. }
    assert (I1 : In h1 (filter p (seq 0 n))) by (rewrite L; apply in_or_app; right; left; reflexivity).
    apply filter_In in I1 as [I1 P1]. apply in_seq in I1.
    assert (LT : h1 < h2).
    { pose proof (seq_filter_split p n h2 H2 P2) as S2.
      assert (L' : filter p (seq 0 n) = (map fst pre ++ h1 :: map fst mid) ++ h2 :: map fst post) by (rewrite L, <- app_assoc; reflexivity).
      destruct (nodup_map_split _ _ _ _ _ _ 0 (NoDup_filter p (seq_NoDup n 0)) L' S2) as [Q _].
      assert (X : In h1 (filter p (seq 0 h2))) by (rewrite <- Q; apply in_or_app; right; left; reflexivity).
      apply filter_In in X as [X _]. apply in_seq in X. lia. }
    pose proof (seq_filter_split2 p n h1 h2 LT H2 P1 P2) as S2.
    assert (E' : map f (filter p (seq 0 n)) = map f (filter p (seq 0 h1)) ++ f h1 ::
       (map f (filter p (seq (S h1) (h2 - S h1))) ++ f h2 :: map f (filter p (seq (S h2) (n - S h2))))).
    { rewrite S2, map_app. cbn [map]. rewrite map_app. reflexivity. }
    destruct (nodup_split _ _ _ _ _ _ _ ND E' E eq_refl) as (_ & E1 & E2). injection E1 as <-.
    assert (ND2 : NoDup (map fst (map f (filter p (seq (S h1) (h2 - S h1))) ++ f h2 :: map f (filter p (seq (S h2) (n - S h2)))))).
    { rewrite E', map_app in ND. cbn [map] in ND. apply NoDup_remove_1 in ND. apply nodup_app_r in ND. exact ND. }
    destruct (nodup_split _ _ _ _ _ _ _ ND2 eq_refl E2 eq_refl) as (E3 & E4 & _). injection E4 as <-.
    unfold p in P1. apply Nat.eqb_eq in P1.
    split; [exact LT|]. split; [lia|]. split; [congruence|].
    destruct HW as [HW|HW]; [exists h1; repeat split; try lia; congruence|].
    apply in_app_or in HW as [HW|[HW|[]]].
    + rewrite <- E3, map_map in HW. apply in_map_iff in HW as (x & HW & Hx). cbn in HW.
      apply filter_In in Hx as [Hx Px]. apply in_seq in Hx. unfold p in Px. apply Nat.eqb_eq in Px.
      exists x. repeat split; try lia; congruence.
    + exists h2. repeat split; try lia; congruence.
  - intros (LT & _ & EM & x & Hx & EX & WX).
    assert (P1 : p h1 = true) by (unfold p; apply Nat.eqb_eq; congruence).
    assert (PX : p x = true) by (unfold p; apply Nat.eqb_eq; congruence).
    exists (map f (filter p (seq 0 h1))), (mode_of P h1), (map f (filter p (seq (S h1) (h2 - S h1)))), (mode_of P h2),
      (map f (filter p (seq (S h2) (n - S h2)))).
    split.
    + rewrite (seq_filter_split2 p n h1 h2 LT H2 P1 P2). rewrite map_app. cbn [map]. rewrite map_app. reflexivity.
    + destruct (Nat.eq_dec x h1) as [->|N1]; [left; exact WX|]. right. apply in_or_app.
      destruct (Nat.eq_dec x h2) as [->|N2]; [right; left; exact WX|]. left.
      rewrite map_map. cbn. apply in_map_iff. exists x. split; [exact WX|]. apply filter_In. split; [apply in_seq; lia|exact PX].
Qed.

Lemma rel_mutex : forall s h, rel s h <-> released (mutex_hist P (mutex_of P h) (st_hist s)) h.
Proof.
  intros s h. unfold rel, released, mutex_hist. rewrite filter_In. cbn [ev_handle]. rewrite Nat.eqb_refl. tauto.
Qed.

Lemma access_iff : forall s h, hist_ok s ->
  (access P s h = true <-> h < st_issued s /\ ~ rel s h /\ forall h1, blocks h1 h -> rel s h1).
Proof.
  intros s h (HR & HL & HH & HB). unfold access, mutex_state.
  rewrite (C19_grant_order _ h (HH (mutex_of P h))). unfold granted.
  rewrite filter_requests, HR, filter_map_comm.
  assert (I1 : In h (map fst (map (fun h => (h, mode_of P h)) (filter (fun x => mutex_of P x =? mutex_of P h) (seq 0 (st_issued s))))) <-> h < st_issued s).
  { rewrite map_map. cbn. rewrite map_id, filter_In, in_seq, Nat.eqb_refl. intuition lia. }
  rewrite I1, <- rel_mutex.
  split; intros (A & B & C); split; [exact A|split|exact A|split]; try exact B; intros h1 H1.
  - assert (E : mutex_of P h1 = mutex_of P h) by apply H1.
    apply rel_mutex. rewrite E. apply C. apply must_precede_iff; auto.
  - apply must_precede_iff in H1; auto. assert (E : mutex_of P h1 = mutex_of P h) by apply H1.
    apply C in H1. apply rel_mutex in H1. rewrite E in H1. exact H1.
Qed.

(** ** structural invariant *)
Definition started (s : state V) (t : nat) : Prop := st_status s t <> Waiting.
Record inv (s : state V) : Prop := {
  i_hist : hist_ok s;
  i_range : forall t, started s t -> t < length (p_tasks P);
  i_run : forall t H b, st_status s t = Running H b -> body_ok t H b /\ forall h, In h H -> need t h;
  i_need : forall t h, started s t -> need t h -> h < st_issued s /\ forall h1, blocks h1 h -> rel s h1;
  i_after : forall t a, started s t -> after t a -> st_status s a = Finished;
  i_rel : forall h t, rel s h -> need t h ->
     st_status s t = Finished \/ exists H b, st_status s t = Running H b /\ ~ In h H;
  i_freed : forall t H b h, st_status s t = Running H b -> need t h -> In h H \/ rel s h;
  i_fin : forall t h, st_status s t = Finished -> need t h -> kept t h \/ rel s h
}.

Lemma upd_same {A} : forall (f : nat -> A) i x, upd f i x i = x.
Proof. intros. unfold upd. rewrite Nat.eqb_refl. reflexivity. Qed.
Lemma upd_other {A} : forall (f : nat -> A) i x j, j <> i -> upd f i x j = f j.
Proof. intros. unfold upd. destruct (Nat.eqb_spec j i); [contradiction|reflexivity]. Qed.
Lemma need_task : forall t tk h, nth_error (p_tasks P) t = Some tk -> (need t h <-> In h (t_need tk)).
Proof. intros t tk h E. split; [intros (x & E' & H); congruence|intros H; exists tk; auto]. Qed.
Lemma after_task : forall t tk a, nth_error (p_tasks P) t = Some tk -> (after t a <-> In a (t_after tk)).
Proof. intros t tk h E. split; [intros (x & E' & H); congruence|intros H; exists tk; auto]. Qed.

Lemma history_other : forall m hist e, mutex_of P (ev_handle e) <> m -> mutex_hist P m (hist ++ [e]) = mutex_hist P m hist.
Proof.
  intros m hist e N. unfold mutex_hist. rewrite filter_app. cbn. destruct (Nat.eqb_spec (mutex_of P (ev_handle e)) m); [contradiction|].
  apply app_nil_r.
Qed.
Lemma history_same : forall m hist e, mutex_of P (ev_handle e) = m -> mutex_hist P m (hist ++ [e]) = mutex_hist P m hist ++ [e].
Proof.
  intros m hist e N. unfold mutex_hist. rewrite filter_app. cbn. rewrite N, Nat.eqb_refl. reflexivity.
Qed.

Lemma inv_initial : inv (initial s0).
Proof.
  constructor; cbn.
  - split; [reflexivity|]. split; [apply Nat.le_0_l|]. split; [intros m; constructor|]. intros h [].
  - intros t H. exfalso. apply H. reflexivity.
  - discriminate.
  - intros t h H. exfalso. apply H. reflexivity.
  - intros t h H. exfalso. apply H. reflexivity.
  - intros h t [].
  - discriminate.
  - discriminate.
Qed.

(** who may free *)
Lemma free_is_last : forall s, inv s -> forall t H h k, st_status s t = Running H (Free h k) ->
  In h H /\ need t h /\ ~ kept t h /\ forall t', need t' h -> t' <> t -> st_status s t' = Finished.
Proof.
  intros s I t H h k E. destruct (i_run s I t H _ E) as [[B1 [B2 _]] B3].
  pose proof (B3 h B1) as N. split; [exact B1|]. split; [exact N|]. split; [exact B2|].
  intros t' N' Ne. destruct (Nat.lt_trichotomy t' t) as [L|[L|L]]; [|contradiction|].
  - apply (i_after s I t); [unfold started; congruence|]. apply (ws_share WS h); assumption.
  - exfalso. apply B2. exists t'. auto.
Qed.

Ltac same_or t t' := destruct (Nat.eq_dec t' t) as [-> | ?]; [rewrite ?upd_same in *|rewrite ?upd_other in * by assumption].

Lemma inv_step : forall s s', inv s -> step P s s' -> inv s'.
Proof.
  intros s s' I ST. destruct ST as [Hi|t tk Et Ew Ea Eh|t H c k Er|t H c v k Er|t H h k Er|t H Er].
  - (* issue *)
    set (h := st_issued s) in *.
    destruct (i_hist s I) as (HR & HL & HH & HB). fold h in HR, HL, HB.
    assert (RL : forall x, rel (State (st_store s) (S h) (st_hist s ++ [Req h (mode_of P h)]) (st_status s)) x <-> rel s x).
    { intros x. unfold rel. cbn [st_hist]. rewrite in_app_iff. cbn. intuition discriminate. }
    constructor; cbn [st_status st_issued].
    + split; [|split; [|split]]; cbn [st_hist st_issued].
      * rewrite requests_app, HR. cbn [requests flat_map app]. rewrite seq_S, map_app. reflexivity.
      * lia.
      * intros m. destruct (Nat.eq_dec (mutex_of P h) m) as [E|E].
        -- rewrite history_same by exact E. constructor; [apply HH|]. rewrite filter_requests, HR, filter_map_comm, map_map. cbn.
           rewrite map_id, filter_In, in_seq. fold h. intros [[_ X] _]. revert X. clear. lia.
        -- rewrite history_other by exact E. apply HH.
      * intros x X. apply RL in X. specialize (HB x X). lia.
    + apply (i_range s I).
    + apply (i_run s I).
    + intros t x S N. destruct (i_need s I t x S N) as [A B]. split; [fold h in A; lia|]. intros y Y. apply RL. auto.
    + apply (i_after s I).
    + intros x t X N. apply RL in X. apply (i_rel s I x t X N).
    + intros t H b x E N. rewrite RL. apply (i_freed s I t H b x E N).
    + intros t x E N. rewrite RL. apply (i_fin s I t x E N).
  - (* start *)
    assert (RL : forall x, rel (set_status s t (Running (t_need tk) (t_body tk))) x <-> rel s x) by (intros; reflexivity).
    assert (LT : t < length (p_tasks P)) by (apply nth_error_Some; congruence).
    constructor; unfold started; cbn [set_status st_status st_issued].
    + apply (i_hist s I).
    + intros x. same_or t x; [intros _; exact LT|apply (i_range s I)].
    + intros x H b. same_or t x; [|apply (i_run s I)].
      intros E. injection E as <- <-. split; [apply (ws_body WS), Et|]. intros h Hh. exists tk. auto.
    + intros x h. same_or t x; [|apply (i_need s I)].
      intros _ N. apply (need_task t tk h Et) in N. apply Eh in N. apply access_iff in N; [|apply (i_hist s I)]. tauto.
    + intros x a S A.
      assert (F : st_status s a = Finished).
      { revert S. same_or t x; [|intros S; apply (i_after s I x a S A)].
        intros _. apply Ea. apply (after_task t tk a Et), A. }
      same_or t a; [congruence|exact F].
    + intros h x X N. destruct (i_rel s I h x X N) as [F|(H & b & F & G)].
      * same_or t x; [congruence|auto].
      * same_or t x; [congruence|]. right. eauto.
    + intros x H b h E N. same_or t x; [|apply (i_freed s I x H b h E N)].
      injection E as <- <-. left. apply (need_task t tk h Et), N.
    + intros x h. same_or t x; [discriminate|apply (i_fin s I)].
  - (* load *)
    destruct (i_run s I t H _ Er) as [[B1 B2] B3].
    constructor; unfold started; cbn [set_status st_status st_issued].
    + apply (i_hist s I).
    + intros x. same_or t x; [intros _; apply (i_range s I); unfold started; congruence|apply (i_range s I)].
    + intros x H' b. same_or t x; [|apply (i_run s I)]. intros E. injection E as <- <-. auto.
    + intros x h. same_or t x; [intros _; apply (i_need s I); unfold started; congruence|apply (i_need s I)].
    + intros x a S A. assert (F : st_status s a = Finished).
      { revert S. same_or t x; [intros _|intros S]; (eapply (i_after s I); [|exact A]); [unfold started; congruence|exact S]. }
      same_or t a; [congruence|exact F].
    + intros h x X N. destruct (i_rel s I h x X N) as [F|(H' & b & F & G)].
      * same_or t x; [congruence|auto].
      * same_or t x; [|eauto]. right. rewrite Er in F. injection F as <- _. eauto.
    + intros x H' b h E N. same_or t x; [|apply (i_freed s I x H' b h E N)].
      injection E as <- _. apply (i_freed s I t H _ h Er N).
    + intros x h. same_or t x; [discriminate|apply (i_fin s I)].
  - (* put *)
    destruct (i_run s I t H _ Er) as [[B1 B2] B3].
    constructor; unfold started; cbn [st_status st_issued].
    + apply (i_hist s I).
    + intros x. same_or t x; [intros _; apply (i_range s I); unfold started; congruence|apply (i_range s I)].
    + intros x H' b. same_or t x; [|apply (i_run s I)]. intros E. injection E as <- <-. auto.
    + intros x h. same_or t x; [intros _; apply (i_need s I); unfold started; congruence|apply (i_need s I)].
    + intros x a S A. assert (F : st_status s a = Finished).
      { revert S. same_or t x; [intros _|intros S]; (eapply (i_after s I); [|exact A]); [unfold started; congruence|exact S]. }
      same_or t a; [congruence|exact F].
    + intros h x X N. destruct (i_rel s I h x X N) as [F|(H' & b & F & G)].
      * same_or t x; [congruence|auto].
      * same_or t x; [|eauto]. right. rewrite Er in F. injection F as <- _. eauto.
    + intros x H' b h E N. same_or t x; [|apply (i_freed s I x H' b h E N)].
      injection E as <- _. apply (i_freed s I t H _ h Er N).
    + intros x h. same_or t x; [discriminate|apply (i_fin s I)].
  - (* free *)
    destruct (free_is_last s I t H h k Er) as (F1 & F2 & F3 & F4).
    destruct (i_run s I t H _ Er) as [[B1 [B2 B2']] B3].
    destruct (i_hist s I) as (HR & HL & HH & HB).
    assert (NR : ~ rel s h).
    { intros X. destruct (i_rel s I h t X F2) as [Y|(H' & b & Y & Z)]; rewrite Er in Y; [discriminate|]. injection Y as <- _. contradiction. }
    assert (RL : forall x st, rel (State (st_store s) (st_issued s) (st_hist s ++ [Rel h]) st) x <-> rel s x \/ x = h).
    { intros x st. unfold rel. cbn [st_hist]. rewrite in_app_iff. cbn.
      split; [intros [X|[X|[]]]; [auto|injection X as <-; auto]|intros [X| ->]; auto]. }
    constructor; unfold started; cbn [st_status st_issued].
    + split; [|split; [|split]]; cbn [st_hist st_issued].
      * rewrite requests_app. cbn. rewrite app_nil_r. exact HR.
      * exact HL.
      * intros m. destruct (Nat.eq_dec (mutex_of P h) m) as [E|E].
        -- rewrite history_same by exact E. constructor; [apply HH|]. rewrite filter_requests, HR, filter_map_comm, map_map. cbn.
           rewrite map_id, filter_In, in_seq. split; [|apply Nat.eqb_eq; exact E].
           destruct (i_need s I t h) as [X _]; [unfold started; congruence|exact F2|lia].
        -- rewrite history_other by exact E. apply HH.
      * intros x X. apply RL in X as [X| ->]; [apply HB, X|].
        apply (i_need s I t h); [unfold started; congruence|exact F2].
    + intros x. same_or t x; [intros _; apply (i_range s I); unfold started; congruence|apply (i_range s I)].
    + intros x H' b. same_or t x; [|apply (i_run s I)]. intros E. injection E as <- <-. split; [exact B2'|].
      intros y Hy. apply in_remove in Hy as [Hy _]. auto.
    + intros x y S N.
      assert (S' : started s x) by (revert S; same_or t x; [intros _; unfold started; congruence|auto]).
      destruct (i_need s I x y S' N) as [A B]. split; [exact A|]. intros z Z. apply RL. auto.
    + intros x a S A. assert (F : st_status s a = Finished).
      { revert S. same_or t x; [intros _|intros S]; (eapply (i_after s I); [|exact A]); [unfold started; congruence|exact S]. }
      same_or t a; [congruence|exact F].
    + intros x y X N. apply RL in X as [X| ->].
      * destruct (i_rel s I x y X N) as [F|(H' & b & F & G)].
        -- same_or t y; [congruence|auto].
        -- same_or t y; [|eauto]. right. rewrite Er in F. injection F as <- _. eexists _, _. split; [reflexivity|].
           intros Q. apply in_remove in Q. tauto.
      * same_or t y; [|left; auto]. right. eexists _, _. split; [reflexivity|]. apply remove_In.
    + intros x H' b y E N. rewrite RL. same_or t x; [|destruct (i_freed s I x H' b y E N); auto].
      injection E as <- _. destruct (Nat.eq_dec y h) as [->|Ny]; [auto|].
      destruct (i_freed s I t H _ y Er N) as [Q|Q]; [|auto]. left. apply in_in_remove; assumption.
    + intros x y. same_or t x; [discriminate|]. intros E N. rewrite RL. destruct (i_fin s I x y E N); auto.
  - (* finish *)
    destruct (i_run s I t H _ Er) as [B1 B3]. cbn in B1.
    constructor; unfold started; cbn [set_status st_status st_issued].
    + apply (i_hist s I).
    + intros x. same_or t x; [intros _; apply (i_range s I); unfold started; congruence|apply (i_range s I)].
    + intros x H' b. same_or t x; [discriminate|apply (i_run s I)].
    + intros x h. same_or t x; [intros _; apply (i_need s I); unfold started; congruence|apply (i_need s I)].
    + intros x a S A. assert (F : st_status s a = Finished).
      { revert S. same_or t x; [intros _|intros S]; (eapply (i_after s I); [|exact A]); [unfold started; congruence|exact S]. }
      same_or t a; [reflexivity|exact F].
    + intros h x X N. destruct (i_rel s I h x X N) as [F|(H' & b & F & G)]; (same_or t x; [auto|eauto]).
    + intros x H' b h. same_or t x; [discriminate|apply (i_freed s I)].
    + intros x h. same_or t x; [|apply (i_fin s I)]. intros _ N.
      destruct (i_freed s I t H _ h Er N) as [Q|Q]; [left; auto|right; exact Q].
Qed.

Lemma waits_sound : forall s, inv s ->
  (forall t h, waits_rel t h -> started s t -> rel s h) /\ (forall t a, waits_start t a -> started s t -> started s a).
Proof.
  intros s I. apply waits_ind.
  - intros t h1 h2 N B S. apply (i_need s I t h2 S N). exact B.
  - auto.
  - intros t a A S. pose proof (i_after s I t a S A). unfold started. congruence.
  - intros t h a _ IH N S. destruct (i_rel s I h a (IH S) N) as [F|(H & b & F & _)]; unfold started; congruence.
  - auto.
Qed.
Lemma waits_fin_sound : forall s, inv s -> forall t a, waits_fin t a -> started s t -> st_status s a = Finished.
Proof.
  intros s I t a [A|(x & X & A)] S; [apply (i_after s I t a S A)|].
  apply (i_after s I x a); [|exact A]. apply (proj2 (waits_sound s I) t x X S).
Qed.

(** t2 started and t1 holds access h1 although both may touch c: impossible *)
Lemma no_overlap : forall s, inv s -> forall t1 t2 H1 b1 h1 h2 c, st_status s t1 = Running H1 b1 -> In h1 H1 ->
  started s t2 -> need t2 h2 -> reaches h1 c -> reaches h2 c -> mode_of P h1 = W \/ mode_of P h2 = W -> t1 < t2 -> False.
Proof.
  intros s I t1 t2 H1 b1 h1 h2 c E1 I1 S2 N2 R1 R2 M L.
  pose proof (proj2 (i_run s I t1 H1 b1 E1) h1 I1) as N1.
  destruct (ws_sync WS t1 t2 h1 h2 c L N1 N2 R1 R2 M) as [X|X].
  - apply (proj1 (waits_sound s I)) in X; [|exact S2].
    destruct (i_rel s I h1 t1 X N1) as [Y|(H' & b & Y & Z)]; rewrite E1 in Y; [discriminate|]. injection Y as <- _. contradiction.
  - apply (waits_fin_sound s I) in X; [|exact S2]. congruence.
Qed.

(** ** values *)
Definition writer (t c : nat) : Prop := exists h, need t h /\ mode_of P h = W /\ reaches h c.
Definition done_with (s : state V) (t c : nat) : Prop :=
  st_status s t = Finished \/
  exists H b, st_status s t = Running H b /\ forall h, In h H -> mode_of P h = W -> reaches h c -> False.
Definition values_ok (s : state V) : Prop :=
  (forall t H b, st_status s t = Running H b ->
     exists g, (forall c, run b g c = seq_at (S t) c) /\
       forall h c, In h H -> reaches h c -> g c = st_store s c) /\
  (forall c k, k <= length (p_tasks P) ->
     (forall t, t < k -> writer t c -> done_with s t c) ->
     (forall t, k <= t -> writer t c -> st_status s t = Waiting) ->
     st_store s c = seq_at k c).

Lemma run_frame : forall t b H g c, body_ok t H b ->
  (forall h, In h H -> mode_of P h = W -> reaches h c -> False) -> run b g c = g c.
Proof.
  intros t b. induction b as [|c0 k IH|c0 v k IH|h k IH]; intros H g c B N; cbn [run].
  - reflexivity.
  - destruct B as [_ B]. apply (IH (g c0) H); auto.
  - destruct B as [(h & H1 & H2 & H3) B]. rewrite (IH H) by auto. unfold upd.
    destruct (Nat.eqb_spec c c0) as [->|]; [|reflexivity]. exfalso. apply (N h); assumption.
  - destruct B as (B1 & B2 & B3). apply (IH (remove Nat.eq_dec h H)); [exact B3|].
    intros x X. apply in_remove in X as [X _]. apply N, X.
Qed.
Lemma run_ext : forall (b : body V) g g', (forall c, g c = g' c) -> forall c, run b g c = run b g' c.
Proof.
  induction b as [|c0 k IH|c0 v k IH|h k IH]; intros g g' E c; cbn [run].
  - apply E.
  - rewrite (E c0). apply IH, E.
  - apply IH. intros x. unfold upd. destruct (x =? c0); auto.
  - apply IH, E.
Qed.
Lemma seq_at_S : forall t tk, nth_error (p_tasks P) t = Some tk -> seq_at (S t) = run (t_body tk) (seq_at t).
Proof.
  intros t tk E. unfold seq_at, run_tasks.
  assert (X : firstn (S t) (p_tasks P) = firstn t (p_tasks P) ++ [tk]).
  { clear - E. revert t E. induction (p_tasks P) as [|x l IH]; intros t E; [destruct t; discriminate|].
    destruct t; [injection E as ->; reflexivity|]. cbn [firstn app]. f_equal. apply IH, E. }
  rewrite X, fold_left_app. reflexivity.
Qed.
Lemma seq_at_frame : forall a b c, a <= b -> b <= length (p_tasks P) -> (forall t, a <= t < b -> ~ writer t c) -> seq_at b c = seq_at a c.
Proof.
  intros a b c L. induction L as [|b L IH]; intros LB N; [reflexivity|].
  destruct (nth_error (p_tasks P) b) as [tk|] eqn:E; [|apply nth_error_None in E; lia].
  rewrite (seq_at_S b tk E). rewrite (run_frame b (t_body tk) (t_need tk)).
  - apply IH; [lia|]. intros t Ht. apply N. lia.
  - apply (ws_body WS), E.
  - intros h H1 H2 H3. apply (N b); [lia|]. exists h. split; [exists tk; auto|auto].
Qed.

(** after a step that only lowers what task t holds, the versions of the cells are still right *)
Lemma versions_after_release : forall s, inv s -> values_ok s -> forall t H b, st_status s t = Running H b ->
  forall s', (forall x, x <> t -> st_status s' x = st_status s x) -> st_store s' = st_store s -> started s' t ->
  (forall g c, (forall c, run b g c = seq_at (S t) c) -> done_with s' t c -> seq_at (S t) c = g c) ->
  forall c k, k <= length (p_tasks P) ->
     (forall x, x < k -> writer x c -> done_with s' x c) ->
     (forall x, k <= x -> writer x c -> st_status s' x = Waiting) ->
     st_store s' c = seq_at k c.
Proof.
  intros s I [V1 V2] t H b E s' SO SS ST G c k Lk D Wt. rewrite SS.
  destruct (V1 t H b E) as (g & G1 & G2).
  assert (DW : done_with s t c \/ exists h, In h H /\ mode_of P h = W /\ reaches h c).
  { assert (X : forall l, (forall h, In h l -> mode_of P h = W -> reaches h c -> False) \/ exists h, In h l /\ mode_of P h = W /\ reaches h c).
    { induction l as [|h l [IH|(x & A & B)]].
      - left. intros h [].
      - destruct (mode_of P h) eqn:M; [left; intros x [<-|X]; [congruence|apply IH, X]|].
        destruct (p_guards P (mutex_of P h) c) eqn:Q; [right; exists h; split; [left; reflexivity|split; [exact M|exact Q]]|].
        left. intros x [<-|X]; [unfold reaches; congruence|apply IH, X].
      - right. exists x. split; [right; exact A|exact B]. }
    destruct (X H) as [N|N]; [left; right; exists H, b; auto|right; exact N]. }
  assert (OT : forall x, x <> t -> done_with s' x c -> done_with s x c).
  { intros x Nx. unfold done_with. rewrite SO by exact Nx. auto. }
  destruct DW as [DW|(h & H1 & H2 & H3)].
  - apply V2; [exact Lk| |].
    + intros x Hx Wx. destruct (Nat.eq_dec x t) as [->|Nx]; [exact DW|]. apply OT; auto.
    + intros x Hx Wx. destruct (Nat.eq_dec x t) as [->|Nx].
      * exfalso. apply ST, Wt; assumption.
      * rewrite <- SO by exact Nx. auto.
  - assert (WR : writer t c) by (exists h; split; [apply (i_run s I t H b E), H1|auto]).
    assert (Hk : t < k).
    { destruct (Nat.lt_ge_cases t k) as [L|L]; [exact L|]. exfalso. apply ST, Wt; assumption. }
    rewrite <- (G2 h c H1 H3), <- (G g c G1 (D t Hk WR)). symmetry. apply seq_at_frame; [lia|exact Lk|].
    intros x Hx Wx. assert (Nx : x <> t) by lia.
    destruct Wx as (hx & Nhx & Mx & Rx).
    assert (Sx : started s x).
    { assert (Lx : x < k) by lia. assert (Wx : writer x c) by (exists hx; auto).
      destruct (OT x Nx (D x Lx Wx)) as [Q|(? & ? & Q & _)]; unfold started; congruence. }
    apply (no_overlap s I t x H b h hx c E H1 Sx Nhx H3 Rx (or_introl H2)). lia.
Qed.

Lemma values_step : forall s s', inv s -> values_ok s -> step P s s' -> values_ok s'.
Proof.
  intros s s' I Vo ST. pose proof (inv_step s s' I ST) as I'. pose proof Vo as [V1 V2].
  destruct ST as [Hi|t tk Et Ew Ea Eh|t H c k Er|t H c v k Er|t H h k Er|t H Er].
  - split; [exact V1|exact V2].
  - (* start *) split; cbn [set_status st_status st_store].
    + intros x H b. same_or t x; [|apply V1]. intros E. injection E as <- <-.
      exists (seq_at t). split; [intros c; rewrite (seq_at_S t tk Et); reflexivity|].
      intros h c Hh Rh. symmetry. apply V2.
      * apply Nat.lt_le_incl. apply nth_error_Some. congruence.
      * intros x Hx (hx & Nx & Mx & Rx).
        assert (St : started (set_status s t (Running (t_need tk) (t_body tk))) t)
          by (unfold started; cbn; rewrite upd_same; discriminate).
        assert (Nt : need t h) by (exists tk; auto).
        destruct (st_status s x) as [|H b|] eqn:Ex; [|right; exists H, b; split; [exact Ex|]|left; exact Ex].
        -- exfalso. destruct (ws_sync WS x t hx h c Hx Nx Nt Rx Rh (or_introl Mx)) as [Y|Y].
           ++ apply (proj1 (waits_sound _ I')) in Y; [|exact St]. apply (i_rel _ I') with (t := x) in Y; [|exact Nx].
              cbn in Y. rewrite upd_other in Y by lia. destruct Y as [Y|(? & ? & Y & _)]; congruence.
           ++ apply (waits_fin_sound _ I') in Y; [|exact St]. cbn in Y. rewrite upd_other in Y by lia. congruence.
        -- intros h' H'1 H'2 H'3. apply (no_overlap _ I' x t H b h' h c); auto.
           cbn. rewrite upd_other by lia. exact Ex.
      * intros x Hx (hx & Nx & Mx & Rx). destruct (Nat.eq_dec x t) as [->|Ne]; [exact Ew|].
        destruct (st_status s x) as [|H b|] eqn:Ex; [reflexivity| |].
        all: exfalso; assert (Sx : started s x) by (unfold started; congruence).
        all: assert (Nt : need t h) by (exists tk; auto).
        all: destruct (ws_sync WS t x h hx c ltac:(lia) Nt Nx Rh Rx (or_intror Mx)) as [Y|Y].
        all: try (apply (proj1 (waits_sound s I)) in Y; [|exact Sx]; apply (i_rel s I) with (t := t) in Y; [|exact Nt];
                  destruct Y as [Y|(? & ? & Y & _)]; congruence).
        all: apply (waits_fin_sound s I) in Y; [|exact Sx]; congruence.
    + intros c k Lk D Wt. apply V2; [exact Lk| |].
      * intros x Hx Wx. specialize (D x Hx Wx). unfold done_with in D. cbn [set_status st_status] in D.
        destruct (Nat.eq_dec x t) as [->|Ne]; [|rewrite upd_other in D by exact Ne; exact D].
        exfalso. rewrite upd_same in D. destruct D as [D|(H & b & D & N)]; [discriminate|]. injection D as <- <-.
        destruct Wx as (hx & Nx & Mx & Rx). apply (N hx); auto. apply (need_task t tk hx Et), Nx.
      * intros x Hx Wx. specialize (Wt x Hx Wx). cbn [set_status st_status] in Wt.
        destruct (Nat.eq_dec x t) as [->|Ne]; [exact Ew|]. rewrite upd_other in Wt by exact Ne. exact Wt.
  - (* load *) split; cbn [set_status st_status st_store].
    + intros x H' b. same_or t x; [|apply V1]. intros E. injection E as <- <-.
      destruct (V1 t H _ Er) as (g & G1 & G2). exists g. split; [|exact G2].
      destruct (i_run s I t H _ Er) as [[(h & Hh & Rh) _] _]. rewrite <- (G2 h c Hh Rh). exact G1.
    + apply (versions_after_release s I Vo t H _ Er (set_status s t (Running H (k (st_store s c))))).
      * intros x Nx. cbn. apply upd_other, Nx.
      * reflexivity.
      * unfold started. cbn. rewrite upd_same. discriminate.
      * intros g c' G1 [D|(H' & b & D & N)]; cbn in D; rewrite upd_same in D; [discriminate|]. injection D as <- _.
        rewrite <- G1. apply (run_frame t _ H); [apply (i_run s I t H _ Er)|exact N].
  - (* put *)
    destruct (i_run s I t H _ Er) as [[(h & Hh & Mh & Rh) _] B3].
    split; cbn [st_status st_store].
    + intros x H' b. same_or t x.
      * intros E. injection E as <- <-. destruct (V1 t H _ Er) as (g & G1 & G2). exists (upd g c v). split; [exact G1|].
        intros h' c' H1 H2. unfold upd. destruct (c' =? c); [reflexivity|]. apply (G2 h'); assumption.
      * intros E. destruct (V1 x H' b E) as (g & G1 & G2). exists g. split; [exact G1|]. intros h' c' H1 H2.
        unfold upd. destruct (Nat.eqb_spec c' c) as [->|]; [|apply (G2 h'); assumption].
        exfalso. destruct (Nat.lt_total x t) as [L|[L|L]]; [|contradiction|].
        -- assert (St : started s t) by (unfold started; congruence).
           apply (no_overlap s I x t H' b h' h c E H1 St); auto.
        -- assert (Sx : started s x) by (unfold started; congruence).
           apply (no_overlap s I t x H _ h h' c Er Hh Sx); auto.
           apply (i_run s I x H' b E), H1.
    + intros c' k' Lk D Wt. unfold upd. destruct (Nat.eqb_spec c' c) as [->|Nc].
      * exfalso. assert (WR : writer t c) by (exists h; auto).
        destruct (Nat.lt_ge_cases t k') as [L|L].
        -- destruct (D t L WR) as [Q|(H' & b & Q & N)]; cbn in Q; rewrite upd_same in Q; [discriminate|]. injection Q as <- _.
           apply (N h); assumption.
        -- specialize (Wt t L WR). cbn in Wt. rewrite upd_same in Wt. discriminate.
      * change (st_store s c') with (st_store (set_status s t (Running H k)) c').
        apply (versions_after_release s I Vo t H _ Er (set_status s t (Running H k))).
        -- intros x Nx. cbn. apply upd_other, Nx.
        -- reflexivity.
        -- unfold started. cbn. rewrite upd_same. discriminate.
        -- intros g c0 G1 [Q|(H' & b & Q & N)]; cbn in Q; rewrite upd_same in Q; [discriminate|]. injection Q as <- _.
           rewrite <- G1. apply (run_frame t _ H); [apply (i_run s I t H _ Er)|exact N].
        -- exact Lk.
        -- intros x Hx Wx. exact (D x Hx Wx).
        -- intros x Hx Wx. exact (Wt x Hx Wx).
  - (* free *)
    split; cbn [st_status st_store].
    + intros x H' b. same_or t x; [|apply V1]. intros E. injection E as <- <-.
      destruct (V1 t H _ Er) as (g & G1 & G2). exists g. split; [exact G1|]. intros h' c H1. apply in_remove in H1 as [H1 _]. apply G2, H1.
    + change (forall c k0, k0 <= length (p_tasks P) ->
        (forall t0, t0 < k0 -> writer t0 c -> done_with (State (st_store s) (st_issued s) (st_hist s ++ [Rel h])
             (upd (st_status s) t (Running (remove Nat.eq_dec h H) k))) t0 c) ->
        (forall t0, k0 <= t0 -> writer t0 c -> upd (st_status s) t (Running (remove Nat.eq_dec h H) k) t0 = Waiting) ->
        st_store s c = seq_at k0 c).
      apply (versions_after_release s I Vo t H _ Er (State (st_store s) (st_issued s) (st_hist s ++ [Rel h])
             (upd (st_status s) t (Running (remove Nat.eq_dec h H) k)))).
      * intros x Nx. cbn. apply upd_other, Nx.
      * reflexivity.
      * unfold started. cbn. rewrite upd_same. discriminate.
      * intros g c' G1 [D|(H' & b & D & N)]; cbn in D; rewrite upd_same in D; [discriminate|]. injection D as <- _.
        rewrite <- G1. cbn [run]. apply (run_frame t _ (remove Nat.eq_dec h H)); [apply (i_run s I t H _ Er)|exact N].
  - (* finish *)
    split; cbn [set_status st_status st_store].
    + intros x H' b. same_or t x; [discriminate|apply V1].
    + apply (versions_after_release s I Vo t H _ Er (set_status s t Finished)).
      * intros x Nx. cbn. apply upd_other, Nx.
      * reflexivity.
      * unfold started. cbn. rewrite upd_same. discriminate.
      * intros g c' G1 _. symmetry. apply G1.
Qed.

Lemma values_initial : values_ok (initial s0).
Proof.
  split; cbn; [discriminate|]. intros c k Lk D _.
  change (s0 c) with (seq_at 0 c). symmetry. apply seq_at_frame; [lia|exact Lk|].
  intros t Ht Wt. destruct (D t ltac:(lia) Wt) as [Q|(H & b & Q & _)]; discriminate.
Qed.

Lemma reachable_inv : forall s, reachable P s0 s -> inv s /\ values_ok s.
Proof.
  intros s Rs. induction Rs as [|s s' Rs [I Vo] ST]; [split; [apply inv_initial|apply values_initial]|].
  split; [eapply inv_step|eapply values_step]; eassumption.
Qed.

(** every complete execution ends with the values of the sequential execution *)
Theorem async_is_sequential : forall s, reachable P s0 s -> final P s -> forall c, st_store s c = run_tasks (p_tasks P) s0 c.
Proof.
  intros s Rs [_ F] c. destruct (reachable_inv s Rs) as [I [_ V2]].
  rewrite (V2 c (length (p_tasks P)) (le_n _)).
  - unfold seq_at. rewrite firstn_all. reflexivity.
  - intros t Ht _. left. apply F, Ht.
  - intros t Ht (h & (tk & E & _) & _). exfalso. apply (Nat.lt_irrefl t). apply Nat.lt_le_trans with (length (p_tasks P)); [|exact Ht].
    apply nth_error_Some. congruence.
Qed.

(** no deadlock *)
Lemma last_user : forall h, h < length (p_handles P) -> exists t, need t h /\ ~ kept t h.
Proof.
  intros h Hh. destruct (ws_used WS h Hh) as [t0 N0].
  assert (DN : forall t, need t h \/ ~ need t h).
  { intros t. unfold need. destruct (nth_error (p_tasks P) t) as [tk|] eqn:E.
    - destruct (in_dec Nat.eq_dec h (t_need tk)); [left; eauto|right; intros (x & X & Y); congruence].
    - right. intros (x & X & _). congruence. }
  assert (BD : forall t, need t h -> t < length (p_tasks P)).
  { intros t (tk & E & _). apply nth_error_Some. congruence. }
  assert (X : forall n t, length (p_tasks P) - t <= n -> need t h -> exists t', need t' h /\ ~ kept t' h).
  { induction n as [|n IH]; intros t L N.
    - specialize (BD t N). lia.
    - destruct (DN t) as [_|]; [|contradiction].
      assert (K : (exists t', t < t' /\ t' < length (p_tasks P) /\ need t' h) \/ ~ exists t', t < t' /\ t' < length (p_tasks P) /\ need t' h).
      { clear - DN. generalize (length (p_tasks P)). induction n as [|n IH].
        - right. intros (t' & A & B & _). lia.
        - destruct IH as [(t' & A & B & C)|IH]; [left; exists t'; repeat split; auto; lia|].
          destruct (DN n) as [D|D].
          + destruct (Nat.lt_ge_cases t n) as [Q|Q]; [left; exists n; repeat split; auto; lia|].
            right. intros (t' & A & B & C). lia.
          + right. intros (t' & A & B & C). destruct (Nat.eq_dec t' n) as [->|]; [contradiction|].
            apply IH. exists t'. repeat split; auto; lia. }
      destruct K as [(t' & A & B & C)|K]; [apply (IH t'); [lia|exact C]|].
      exists t. split; [exact N|]. intros (t' & A & C). apply K. exists t'. auto. }
  apply (X (length (p_tasks P) - t0) t0); auto.
Qed.

Theorem async_progress : forall s, reachable P s0 s -> final P s \/ exists s', step P s s'.
Proof.
  intros s Rs. destruct (reachable_inv s Rs) as [I _].
  destruct (i_hist s I) as (_ & HL & _).
  destruct (Nat.eq_dec (st_issued s) (length (p_handles P))) as [EI|EI].
  2: { right. eexists. apply s_issue. lia. }
  (* first task that has not finished *)
  assert (X : (forall t, t < length (p_tasks P) -> st_status s t = Finished) \/
     exists t, t < length (p_tasks P) /\ st_status s t <> Finished /\ forall x, x < t -> st_status s x = Finished).
  { generalize (length (p_tasks P)). induction n as [|n [IH|(t & A & B & C)]].
    - left. intros t Ht. lia.
    - destruct (st_status s n) eqn:E.
      + right. exists n. repeat split; auto; congruence.
      + right. exists n. repeat split; auto; congruence.
      + left. intros t Ht. destruct (Nat.eq_dec t n) as [->|]; [exact E|apply IH; lia].
    - right. exists t. repeat split; auto. }
  destruct X as [X|(t & A & B & C)]; [left; split; assumption|]. right.
  destruct (st_status s t) as [|H b|] eqn:E; [|destruct b; eexists; [eapply s_finish|eapply s_load|eapply s_put|eapply s_free]; eassumption|congruence].
  destruct (nth_error (p_tasks P) t) as [tk|] eqn:Et; [|apply nth_error_None in Et; lia].
  eexists. apply (s_start P s t tk Et E).
  - intros a Ha. apply C. apply (ws_afters WS t a). exists tk. auto.
  - intros h Hh. assert (N : need t h) by (exists tk; auto). apply access_iff; [apply (i_hist s I)|].
    split; [rewrite EI; apply (ws_need WS t h N)|]. split.
    + intros X. destruct (i_rel s I h t X N) as [Y|(? & ? & Y & _)]; congruence.
    + intros h1 B1. destruct (last_user h1) as (t1 & N1 & K1); [destruct B1; lia|].
      assert (F : st_status s t1 = Finished) by (apply C, (ws_order WS h1 h t1 t B1 N1 N)).
      destruct (i_fin s I t1 h1 F N1) as [K|K]; [contradiction|exact K].
Qed.

(** bodies are finite, so no execution goes on forever *)
Inductive body_lt : body V -> body V -> Prop :=
| bl_load : forall c k v, body_lt (k v) (Load c k)
| bl_put : forall c v k, body_lt k (Put c v k)
| bl_free : forall h k, body_lt k (Free h k).
Lemma body_lt_wf : forall b, Acc body_lt b.
Proof. induction b; constructor; intros y Hy; inversion Hy; subst; auto. Qed.
Inductive status_lt (t : nat) : status V -> status V -> Prop :=
| sl_start : forall tk, nth_error (p_tasks P) t = Some tk -> status_lt t (Running (t_need tk) (t_body tk)) Waiting
| sl_body : forall H H' b b', body_lt b' b -> status_lt t (Running H' b') (Running H b)
| sl_end : forall H b, status_lt t Finished (Running H b).
Lemma status_lt_wf : forall t x, Acc (status_lt t) x.
Proof.
  intros t. assert (F : Acc (status_lt t) Finished) by (constructor; intros y Hy; inversion Hy).
  assert (Rn : forall b, forall L, Acc (status_lt t) (Running L b)).
  { intros b. induction (body_lt_wf b) as [b _ IH]. intros L. constructor. intros y Hy. inversion Hy; subst; auto. }
  intros [|L b|]; [constructor; intros y Hy; inversion Hy; subst; apply Rn|apply Rn|exact F].
Qed.
(** one component decreases *)
Inductive vec_lt (off : nat) : list (status V) -> list (status V) -> Prop :=
| vl_here : forall x y l, status_lt off y x -> vec_lt off (y :: l) (x :: l)
| vl_there : forall x l l', vec_lt (S off) l' l -> vec_lt off (x :: l') (x :: l).
Lemma vec_lt_cons : forall off x, Acc (status_lt off) x -> forall l, Acc (vec_lt (S off)) l -> Acc (vec_lt off) (x :: l).
Proof.
  intros off x Ax. induction Ax as [x _ IHx]. intros l Al. induction Al as [l Hl IHl].
  constructor. intros y Hy. inversion Hy; subst.
  - apply IHx; [assumption|]. constructor. exact Hl.
  - apply IHl. assumption.
Qed.
Lemma vec_lt_wf : forall l off, Acc (vec_lt off) l.
Proof.
  induction l as [|x l IH]; intros off; [constructor; intros y Hy; inversion Hy|].
  apply vec_lt_cons; [apply status_lt_wf|apply IH].
Qed.
Lemma vec_lt_upd : forall (f : nat -> status V) t y n off, off <= t < off + n -> status_lt t y (f t) ->
  vec_lt off (map (upd f t y) (seq off n)) (map f (seq off n)).
Proof.
  intros f t y. induction n as [|n IH]; intros off L S; [lia|]. cbn [seq map].
  destruct (Nat.eq_dec off t) as [->|N].
  - rewrite upd_same. rewrite (map_ext_in (upd f t y) f).
    + constructor. exact S.
    + intros a Ha. apply in_seq in Ha. apply upd_other. lia.
  - rewrite upd_other by exact N. constructor. apply IH; [lia|exact S].
Qed.

(** every execution is finite *)
Theorem async_terminates : forall s, reachable P s0 s -> Acc (fun y x => step P x y) s.
Proof.
  assert (G : forall n v, Acc (vec_lt 0) v -> forall s, reachable P s0 s ->
    length (p_handles P) - st_issued s = n -> map (st_status s) (seq 0 (length (p_tasks P))) = v -> Acc (fun y x => step P x y) s).
  { induction n as [n IHn] using lt_wf_ind. intros v Av. induction Av as [v Hv IHv]. intros s Rs En Ev.
    destruct (reachable_inv s Rs) as [I _].
    constructor. intros s' St. assert (Rs' : reachable P s0 s') by (eapply r_step; eassumption).
    assert (SV : forall t y, st_issued s' = st_issued s -> st_status s' = upd (st_status s) t y -> t < length (p_tasks P) ->
       status_lt t y (st_status s t) -> Acc (fun y x => step P x y) s').
    { intros t y E1 E2 L S. refine (IHv (map (st_status s') (seq 0 (length (p_tasks P)))) _ s' Rs' _ eq_refl).
      - rewrite E2, <- Ev. apply vec_lt_upd; [lia|exact S].
      - rewrite E1. exact En. }
    assert (RG : forall t H b, st_status s t = Running H b -> t < length (p_tasks P)).
    { intros t H b E. apply (i_range s I). unfold started. congruence. }
    destruct St as [Hi|t tk Et Ew Ea Eh|t H c k Er|t H c w k Er|t H h k Er|t H Er].
    - assert (Lt : length (p_handles P) - S (st_issued s) < n) by lia.
      refine (IHn _ Lt (map (st_status s) (seq 0 (length (p_tasks P)))) (vec_lt_wf _ 0) _ Rs' eq_refl eq_refl).
    - refine (SV t _ eq_refl eq_refl _ _); [apply nth_error_Some; congruence|]. rewrite Ew. constructor. exact Et.
    - refine (SV t _ eq_refl eq_refl (RG t H _ Er) _). rewrite Er. constructor. constructor.
    - refine (SV t _ eq_refl eq_refl (RG t H _ Er) _). rewrite Er. constructor. constructor.
    - refine (SV t _ eq_refl eq_refl (RG t H _ Er) _). rewrite Er. constructor. constructor.
    - refine (SV t _ eq_refl eq_refl (RG t H _ Er) _). rewrite Er. constructor. }
  intros s Rs. eapply G; [apply (vec_lt_wf _ 0)|exact Rs|reflexivity|reflexivity].
Qed.

(** a running task that may touch a cell excludes conflicting tasks *)
Theorem async_no_race : forall s, reachable P s0 s -> forall t1 t2 H1 b1 H2 b2 h1 h2 c, t1 <> t2 ->
  st_status s t1 = Running H1 b1 -> st_status s t2 = Running H2 b2 -> In h1 H1 -> In h2 H2 ->
  reaches h1 c -> reaches h2 c -> mode_of P h1 = R /\ mode_of P h2 = R.
Proof.
  intros s Rs t1 t2 H1 b1 H2 b2 h1 h2 c N E1 E2 I1 I2 R1 R2. destruct (reachable_inv s Rs) as [I _].
  assert (NW : ~ (mode_of P h1 = W \/ mode_of P h2 = W)).
  { intros M. destruct (Nat.lt_total t1 t2) as [L|[L|L]]; [|contradiction|].
    - assert (S2 : started s t2) by (unfold started; congruence).
      apply (no_overlap s I t1 t2 H1 b1 h1 h2 c E1 I1 S2); auto. apply (i_run s I t2 H2 b2 E2), I2.
    - assert (S1 : started s t1) by (unfold started; congruence).
      apply (no_overlap s I t2 t1 H2 b2 h2 h1 c E2 I2 S1); auto; [apply (i_run s I t1 H1 b1 E1), I1|tauto]. }
  destruct (mode_of P h1), (mode_of P h2); auto; exfalso; apply NW; auto.
Qed.
End async.
