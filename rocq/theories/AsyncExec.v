(** * An executable scheduler, used for concrete executions (examples and counterexamples). *)
From Coq Require Import List Arith Bool Lia.
From Verif Require Import PipeModel AsyncModel.
Import ListNotations.

Section exec.
Context {V : Type} (P : program V).
Inductive choice := Issue | Go (t : nat).
Definition is_finished (x : status V) : bool := match x with Finished => true | _ => false end.
Definition exec1 (s : state V) (c : choice) : option (state V) :=
  match c with
  | Issue => if st_issued s <? length (p_handles P)
             then Some (State (st_store s) (S (st_issued s)) (st_hist s ++ [Req (st_issued s) (mode_of P (st_issued s))]) (st_status s))
             else None
  | Go t =>
      match st_status s t with
      | Waiting => match nth_error (p_tasks P) t with
                   | Some tk => if forallb (fun a => is_finished (st_status s a)) (t_after tk) && forallb (access P s) (t_need tk)
                                then Some (set_status s t (Running (t_need tk) (t_body tk))) else None
                   | None => None
                   end
      | Running H (Load c k) => Some (set_status s t (Running H (k (st_store s c))))
      | Running H (Put c v k) => Some (State (upd (st_store s) c v) (st_issued s) (st_hist s) (upd (st_status s) t (Running H k)))
      | Running H (Free h k) => Some (State (st_store s) (st_issued s) (st_hist s ++ [Rel h]) (upd (st_status s) t (Running (remove Nat.eq_dec h H) k)))
      | Running H Ret => Some (set_status s t Finished)
      | Finished => None
      end
  end.
Fixpoint exec (s : state V) (l : list choice) : option (state V) :=
  match l with [] => Some s | c :: l => match exec1 s c with Some s' => exec s' l | None => None end end.
Lemma exec1_sound : forall s c s', exec1 s c = Some s' -> step P s s'.
Proof.
  intros s [|t] s' E; unfold exec1 in E.
  - destruct (Nat.ltb_spec (st_issued s) (length (p_handles P))); [|discriminate]. injection E as <-. constructor. assumption.
  - destruct (st_status s t) as [|H b|] eqn:St; [|destruct b; injection E as <-; econstructor; eassumption|discriminate].
    destruct (nth_error (p_tasks P) t) as [tk|] eqn:Et; [|discriminate].
    destruct (forallb _ (t_after tk)) eqn:A; [|discriminate]. destruct (forallb _ (t_need tk)) eqn:B; [|discriminate].
    cbn [andb] in E. injection E as <-. rewrite forallb_forall in A, B. constructor; auto.
    intros a Ha. specialize (A a Ha). destruct (st_status s a); try discriminate. reflexivity.
Qed.
Lemma exec_sound : forall s0 l s s', reachable P s0 s -> exec s l = Some s' -> reachable P s0 s'.
Proof.
  intros s0. induction l as [|c l IH]; intros s s' Rs E; cbn in E; [injection E as <-; exact Rs|].
  destruct (exec1 s c) as [s1|] eqn:E1; [|discriminate]. apply (IH s1); [|exact E]. eapply r_step; [exact Rs|apply exec1_sound with c, E1].
Qed.
(** nothing can happen: no request left and no task can move *)
Definition stuck (s : state V) : bool :=
  negb (st_issued s <? length (p_handles P)) && forallb (fun t => match exec1 s (Go t) with None => true | _ => false end) (seq 0 (length (p_tasks P))).
Lemma stuck_sound : forall s, stuck s = true -> (forall t, length (p_tasks P) <= t -> st_status s t = Waiting) -> ~ exists s', step P s s'.
Proof.
  intros s E W [s' St]. apply andb_true_iff in E as [E1 E2]. rewrite forallb_forall in E2.
  assert (G : forall t, st_status s t <> Waiting \/ t < length (p_tasks P) -> exec1 s (Go t) = None).
  { intros t Ht. destruct (Nat.lt_ge_cases t (length (p_tasks P))) as [L|L].
    - assert (It : In t (seq 0 (length (p_tasks P)))) by (apply in_seq; lia). specialize (E2 t It). cbv beta in E2.
      destruct (exec1 s (Go t)); [discriminate E2|reflexivity].
    - destruct Ht as [Ht|Ht]; [exfalso; apply Ht, W, L|lia]. }
  destruct St as [Hi|t tk Et Ew Ea Eh|t H c k Er|t H c v k Er|t H h k Er|t H Er].
  - apply Nat.ltb_lt in Hi. rewrite Hi in E1. discriminate.
  - assert (L : t < length (p_tasks P)) by (apply nth_error_Some; congruence).
    specialize (G t (or_intror L)). unfold exec1 in G. rewrite Ew, Et in G.
    replace (forallb (fun a => is_finished (st_status s a)) (t_after tk)) with true in G.
    2: { symmetry. apply forallb_forall. intros a Ha. rewrite (Ea a Ha). reflexivity. }
    replace (forallb (access P s) (t_need tk)) with true in G by (symmetry; apply forallb_forall; exact Eh). discriminate.
  - assert (N : st_status s t <> Waiting) by congruence. specialize (G t (or_introl N)). unfold exec1 in G. rewrite Er in G. discriminate.
  - assert (N : st_status s t <> Waiting) by congruence. specialize (G t (or_introl N)). unfold exec1 in G. rewrite Er in G. discriminate.
  - assert (N : st_status s t <> Waiting) by congruence. specialize (G t (or_introl N)). unfold exec1 in G. rewrite Er in G. discriminate.
  - assert (N : st_status s t <> Waiting) by congruence. specialize (G t (or_introl N)). unfold exec1 in G. rewrite Er in G. discriminate.
Qed.
End exec.
