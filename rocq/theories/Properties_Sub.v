(** * C21: sub-pipelines are sequenced as one access. *)
From Coq Require Import List Arith Bool Lia Permutation.
From Verif Require Import PipeModel AsyncModel Properties_Pipe AsyncProofs Properties_Async SubPipeModel SubPipeProofs AsyncExec.
Import ListNotations.

Section c21.
Context {V : Type} (moved : V).

(** C21 (values).  The effects of the calls are those of executing them one at a time in any order
    that respects the documented one ([linearisation], [run_cmds] in SubPipeProofs.v), whatever the
    scheduler does; no execution gets stuck and all end. *)
Theorem C21_as_if_sequential : forall hist lin s0 s, valid_history hist -> linearisation hist lin ->
  reachable (sub_program moved hist lin) s0 s -> final (sub_program moved hist lin) s ->
  forall p, st_store s p = run_cmds moved hist lin s0 p.
Proof.
  intros hist lin s0 s VH L Rs F p.
  rewrite (async_is_sequential _ (hist_synchronised moved hist lin VH L) s0 s Rs F p). apply run_sub_program; assumption.
Qed.
Theorem C21_no_deadlock : forall hist lin s0 s, valid_history hist -> linearisation hist lin ->
  reachable (sub_program moved hist lin) s0 s ->
  (final (sub_program moved hist lin) s \/ exists s', step (sub_program moved hist lin) s s') /\
  Acc (fun next now => step (sub_program moved hist lin) now next) s.
Proof.
  intros hist lin s0 s VH L Rs. pose proof (hist_synchronised moved hist lin VH L) as WS. split.
  - apply (async_progress _ WS s0 s Rs).
  - apply (async_terminates _ WS s0 s Rs).
Qed.

(** C21 (order).  q is p or was made from p by sub_pipeline() calls. *)
Inductive below (hist : list (cmd V)) (p : nat) : nat -> Prop :=
| below_self : below hist p p
| below_sub : forall a q' q, below hist p q' -> nth_error hist a = Some (Sub q' q) -> below hist p q.

Section order.
Context (hist : list (cmd V)) (lin : list nat) (VH : valid_history hist) (L : linearisation hist lin).
Let P := sub_program moved hist lin.
Let task i := index_of i lin.

Lemma uses_need : forall i h, uses hist i h -> need P (task i) h.
Proof.
  intros i h U. apply (need_uses moved hist lin VH). exists i. split; [|exact U].
  apply (lin_pos hist lin L). eapply uses_range; exact U.
Qed.
Lemma req_blocks : forall i j h1 h2 m d1 d2, requested hist i h1 m d1 -> requested hist j h2 m d2 -> i < j -> d1 = W \/ d2 = W -> blocks P h1 h2.
Proof.
  intros i j h1 h2 m d1 d2 R1 R2 Lt D.
  destruct (requested_attr moved hist lin _ _ _ _ R1) as (M1 & D1 & _). destruct (requested_attr moved hist lin _ _ _ _ R2) as (M2 & D2 & L2).
  assert (Lh : h1 < h2).
  { destruct R1 as (c1 & k1 & A1 & B1 & ->), R2 as (c2 & k2 & A2 & B2 & ->). pose proof (base_le hist i j c1 Lt A1).
    assert (k1 < length (accesses c1)) by (apply nth_error_Some; congruence). lia. }
  split; [exact Lh|]. split; [exact L2|]. split; [unfold P; congruence|].
  destruct D as [-> | ->]; [exists h1|exists h2]; (split; [lia|split; [unfold P; congruence|unfold P; congruence]]).
Qed.
Lemma sub_handles : forall a p s, nth_error hist a = Some (Sub p s) ->
  requested hist a (base hist a) s W /\ requested hist a (base hist a + 1) p W.
Proof.
  intros a p s E. split; [exists (Sub p s), 0|exists (Sub p s), 1]; cbn; (split; [exact E|split; [reflexivity|lia]]).
Qed.
Lemma reset_handle : forall r s, nth_error hist r = Some (Reset s) -> requested hist r (base hist r) s W.
Proof. intros r s E. exists (Reset s), 0. cbn. split; [exact E|split; [reflexivity|lia]]. Qed.
Lemma mention : forall i h m d c, requested hist i h m d -> nth_error hist i = Some c -> In m (map fst (accesses c)).
Proof.
  intros i h m d c (c' & k & A & B & _) E. rewrite E in A. injection A as <-. apply nth_error_In in B.
  apply in_map_iff. exists (m, d). auto.
Qed.

(** once the reset of p has started, all accesses to p and below have been released *)
Lemma wait_down : forall p r, nth_error hist r = Some (Reset p) -> forall q, below hist p q ->
  forall rq, nth_error hist rq = Some (Reset q) -> r = rq \/ waits_start P (task r) (task rq).
Proof.
  intros p r Er q B. induction B as [|a q' q B IH Ea]; intros rq Erq.
  - left. destruct (Nat.lt_total r rq) as [Q|[Q|Q]]; [|exact Q|]; exfalso.
    + apply (v_dead hist VH r p rq _ Er Q Erq). cbn. auto.
    + apply (v_dead hist VH rq p r _ Erq Q Er). cbn. auto.
  - right. destruct (sub_handles a q' q Ea) as [_ Hp].
    assert (Up : uses hist rq (base hist a + 1)) by (right; exists q, a, q'; auto).
    assert (G : forall r', nth_error hist r' = Some (Reset q') -> waits_start P (task r') (task rq)).
    { intros r' Er'. apply (ws_rel P _ (base hist a + 1)); [|apply uses_need, Up].
      apply (wr_block P _ _ (base hist r')); [apply uses_need; eapply requested_uses; apply (reset_handle _ _ Er')|].
      apply (req_blocks a r' _ _ q' W W); [exact Hp|apply reset_handle, Er'| |auto].
      destruct (Nat.lt_total a r') as [Q|[Q|Q]]; [exact Q|subst; congruence|]. exfalso.
      apply (v_dead hist VH r' q' a _ Er' Q Ea). cbn. auto. }
    (* q' is p itself or is itself a sub-pipeline *)
    inversion B as [|a2 q2 q3 B2 E2]; subst.
    + apply G. exact Er.
    + destruct (v_complete hist VH _ _ _ E2) as (r' & Er').
      destruct (IH r' Er') as [<-|Wt]; [apply G; exact Er'|]. apply (ws_via P _ (task r')); [exact Wt|]. apply G, Er'.
Qed.

(** A call that uses the parent and was made after the creation of s starts only after every access
    requested through s, or anything made from s, has been released. *)
Lemma sub_first : forall a p s, nth_error hist a = Some (Sub p s) ->
  forall j hj mj, a < j -> requested hist j hj p mj -> forall q, below hist s q ->
  forall k h m, requested hist k h q m -> nth_error hist k <> Some (Reset q) -> waits_rel P (task j) h.
Proof.
  intros a p s Ea j hj mj Lj Rj q Bq k h m Rk Nk.
  destruct (v_complete hist VH a p s Ea) as (r & Er). destruct (sub_handles a p s Ea) as [_ Hp].
  assert (W1 : waits_start P (task j) (task r)).
  { apply (ws_rel P _ (base hist a + 1)).
    - apply (wr_block P _ _ hj); [apply uses_need; eapply requested_uses; exact Rj|]. apply (req_blocks a j _ _ p W mj); auto.
    - apply uses_need. right. exists s, a, p. auto. }
  assert (X : exists rq, nth_error hist rq = Some (Reset q)).
  { inversion Bq as [|a2 q2 q3 B2 E2]; subst; [exists r; exact Er|apply (v_complete hist VH _ _ _ E2)]. }
  destruct X as (rq & Erq).
  assert (W2 : waits_rel P (task rq) h).
  { apply (wr_block P _ _ (base hist rq)); [apply uses_need; eapply requested_uses; apply (reset_handle _ _ Erq)|].
    apply (req_blocks k rq _ _ q m W); [exact Rk|apply reset_handle, Erq| |auto].
    destruct (Nat.lt_total k rq) as [Q|[Q|Q]]; [exact Q|subst; congruence|]. exfalso.
    destruct Rk as (c & x & A & B & E). apply (v_dead hist VH rq q k c Erq Q A). apply in_map_iff. exists (q, m). split; [reflexivity|].
    eapply nth_error_In; exact B. }
  destruct (wait_down s r Er q Bq rq Erq) as [<-|W3].
  - apply (wr_via P _ (task r)); assumption.
  - apply (wr_via P _ (task rq)); [|exact W2]. apply (ws_via P _ (task r)); assumption.
Qed.
(** A call that uses s, or anything made from it, starts only after every access to the parent
    requested before the creation of s has been released. *)
Lemma parent_first : forall a p s, nth_error hist a = Some (Sub p s) ->
  forall i hi mi, i < a -> requested hist i hi p mi -> forall q, below hist s q ->
  forall k h m, requested hist k h q m -> (forall q', nth_error hist k <> Some (Sub q' q)) -> waits_rel P (task k) hi.
Proof.
  intros a p s Ea i hi mi Li Ri q Bq. destruct (sub_handles a p s Ea) as [Hs Hp].
  assert (W0 : waits_rel P (task a) hi).
  { apply (wr_block P _ _ (base hist a + 1)); [apply uses_need; eapply requested_uses; exact Hp|]. apply (req_blocks i a _ _ p mi W); auto. }
  (* the creation of q comes first *)
  assert (C : forall q' aq, nth_error hist aq = Some (Sub q' q) -> forall k h m, requested hist k h q m -> k <> aq -> waits_start P (task k) (task aq)).
  { intros q' aq Eq k h m Rk Nk. destruct (sub_handles aq q' q Eq) as [Hq _].
    apply (ws_rel P _ (base hist aq)); [|apply uses_need; eapply requested_uses; exact Hq].
    apply (wr_block P _ _ h); [apply uses_need; eapply requested_uses; exact Rk|]. apply (req_blocks aq k _ _ q W m); auto.
    destruct (Nat.lt_total aq k) as [Q|[Q|Q]]; [exact Q|congruence|]. exfalso.
    destruct Rk as (c & x & A & B & E). apply (proj2 (v_fresh hist VH aq q' q Eq) k c Q A). apply in_map_iff. exists (q, m).
    split; [reflexivity|]. eapply nth_error_In; exact B. }
  revert C. induction Bq as [|aq q' q B IH Eq]; intros C k h m Rk Nk.
  - assert (Ne : k <> a) by (intros ->; apply (Nk p); exact Ea).
    apply (wr_via P _ (task a)); [eapply C; eassumption|exact W0].
  - assert (Ne : k <> aq) by (intros ->; apply (Nk q'); exact Eq).
    apply (wr_via P _ (task aq)); [eapply C; eassumption|].
    destruct (sub_handles aq q' q Eq) as [_ Hq'].
    apply (IH) with (h := base hist aq + 1) (m := W).
    + intros q2 a2 E2 k2 h2 m2 R2 N2. destruct (sub_handles a2 q2 q' E2) as [Hq2 _].
      apply (ws_rel P _ (base hist a2)); [|apply uses_need; eapply requested_uses; exact Hq2].
      apply (wr_block P _ _ h2); [apply uses_need; eapply requested_uses; exact R2|]. apply (req_blocks a2 k2 _ _ q' W m2); auto.
      destruct (Nat.lt_total a2 k2) as [Q|[Q|Q]]; [exact Q|congruence|]. exfalso.
      destruct R2 as (c & x & A & B' & E). apply (proj2 (v_fresh hist VH a2 q2 q' E2) k2 c Q A). apply in_map_iff. exists (q', m2).
      split; [reflexivity|]. eapply nth_error_In; exact B'.
    + exact Hq'.
    + intros q2 E2. rewrite Eq in E2. injection E2 as -> ->. apply (proj1 (v_fresh hist VH aq q2 q2 Eq)). reflexivity.
Qed.
End order.

(** In every state of every execution: if the task of call j has started, and j uses pipeline p and
    was called after s = p.sub_pipeline(), then every access requested through s or anything made
    from it -- even by calls made after j -- has been released ... *)
Theorem C21_sub_accesses_come_first : forall hist lin s0 st, valid_history hist -> linearisation hist lin ->
  reachable (sub_program moved hist lin) s0 st ->
  forall a p s j hj mj, nth_error hist a = Some (Sub p s) -> a < j -> requested hist j hj p mj ->
  st_status st (index_of j lin) <> Waiting ->
  forall q k h m, below hist s q -> requested hist k h q m -> nth_error hist k <> Some (Reset q) -> In (Rel h) (st_hist st).
Proof.
  intros hist lin s0 st VH L Rs a p s j hj mj Ea Lj Rj St q k h m Bq Rk Nk.
  pose proof (hist_synchronised moved hist lin VH L) as WS. destruct (reachable_inv _ WS s0 st Rs) as [Iv _].
  apply (proj1 (waits_sound _ st Iv) (index_of j lin)); [|exact St]. eapply sub_first; eassumption.
Qed.
(** ... and if a task that uses s (or anything made from it) has started, every access to p
    requested before s was made has been released. *)
Theorem C21_earlier_parent_accesses_come_first : forall hist lin s0 st, valid_history hist -> linearisation hist lin ->
  reachable (sub_program moved hist lin) s0 st ->
  forall a p s i hi mi, nth_error hist a = Some (Sub p s) -> i < a -> requested hist i hi p mi ->
  forall q k h m, below hist s q -> requested hist k h q m -> (forall q', nth_error hist k <> Some (Sub q' q)) ->
  st_status st (index_of k lin) <> Waiting -> In (Rel hi) (st_hist st).
Proof.
  intros hist lin s0 st VH L Rs a p s i hi mi Ea Li Ri q k h m Bq Rk Nk St.
  pose proof (hist_synchronised moved hist lin VH L) as WS. destruct (reachable_inv _ WS s0 st Rs) as [Iv _].
  apply (proj1 (waits_sound _ st Iv) (index_of k lin)); [|exact St]. eapply parent_first; eassumption.
Qed.

(** ** When every use involves one pipeline, the documented order has no cycles: executing each
    sub-pipeline completely, where it was created (depth first), is a linearisation. *)
Inductive node := Cmd (i : nat) | End (s : nat).
Definition node_eq_dec : forall x y : node, {x = y} + {x <> y}.
Proof. decide equality; apply Nat.eq_dec. Defined.
Fixpoint ins (p : nat) (new l : list node) : list node :=
  match l with
  | [] => new
  | n :: l' => if node_eq_dec n (End p) then new ++ n :: l' else n :: ins p new l'
  end.
Fixpoint depth_first (hist : list (cmd V)) (n : nat) : list node :=
  match n with
  | 0 => []
  | S n => match nth_error hist n with
           | Some (Use [(p, _)] _) => ins p [Cmd n] (depth_first hist n)
           | Some (Sub p s) => ins p [Cmd n; End s] (depth_first hist n)
           | _ => depth_first hist n
           end
  end.

Lemma ins_split : forall p new l, exists l1 l2, l = l1 ++ l2 /\ ins p new l = l1 ++ new ++ l2 /\
  ((l2 = [] /\ ~ In (End p) l) \/ exists l2', l2 = End p :: l2').
Proof.
  intros p new. induction l as [|n l (l1 & l2 & A & B & C)].
  - exists [], []. cbn. rewrite app_nil_r. split; [reflexivity|]. split; [reflexivity|]. left. split; [reflexivity|tauto].
  - cbn [ins]. destruct (node_eq_dec n (End p)) as [->|N].
    + exists [], (End p :: l). cbn. split; [reflexivity|]. split; [reflexivity|]. right. eauto.
    + exists (n :: l1), l2. cbn. rewrite A at 1. rewrite B. split; [reflexivity|]. split; [reflexivity|].
      destruct C as [[C1 C2]|C]; [left; split; [exact C1|]|right; exact C]. intros [X|X]; auto.
Qed.
Lemma cb_app : forall {A} (l1 l2 : list A) x y, In x l1 -> In y l2 -> comes_before (l1 ++ l2) x y.
Proof.
  intros A l1 l2 x y Hx Hy. apply in_split in Hx as (a & b & ->). apply in_split in Hy as (c & d & ->).
  exists a, (b ++ c), d. rewrite <- !app_assoc. reflexivity.
Qed.
Lemma cb_in : forall {A} (l1 l2 l3 : list A) x y, comes_before (l1 ++ l3) x y -> comes_before (l1 ++ l2 ++ l3) x y.
Proof.
  intros A l1 l2 l3 x y. revert l3. induction l1 as [|z l1 IH]; intros l3 (a & b & c & E); cbn [app] in *.
  - exists (l2 ++ a), b, c. rewrite E, app_assoc. reflexivity.
  - destruct a as [|a0 a]; cbn in E; injection E as -> E.
    + destruct (in_app_or l1 l3 y) as [Hy|Hy]; [rewrite E; apply in_or_app; right; left; reflexivity| |].
      * apply in_split in Hy as (u & v & ->). exists [], u, (v ++ l2 ++ l3). cbn. rewrite <- app_assoc. reflexivity.
      * apply in_split in Hy as (u & v & ->). exists [], (l1 ++ l2 ++ u), v. cbn. rewrite <- !app_assoc. reflexivity.
    + destruct (IH l3) as (a' & b' & c' & E'); [exists a, b, c; exact E|]. exists (a0 :: a'), b', c'. cbn. rewrite E'. reflexivity.
Qed.
Lemma cb_ends : forall {A} (l : list A) x y, comes_before l x y -> In x l /\ In y l.
Proof.
  intros A l x y (a & b & c & ->). split; apply in_or_app; right; [left; reflexivity|right; apply in_or_app; right; left; reflexivity].
Qed.
Lemma cb_map : forall {A B} (f : A -> B) l x y, comes_before l x y -> comes_before (map f l) (f x) (f y).
Proof.
  intros A B f l x y (a & b & c & ->). exists (map f a), (map f b), (map f c). rewrite map_app. cbn. rewrite map_app. reflexivity.
Qed.
Lemma cb_prefix : forall {A} (l1 l2 : list A) x y, NoDup (l1 ++ y :: l2) -> comes_before (l1 ++ y :: l2) x y -> In x l1.
Proof.
  intros A l1 l2 x y. induction l1 as [|z l1 IH]; intros ND (a & b & c & E).
  - exfalso. destruct a as [|a0 a]; cbn in E; injection E as -> E.
    + cbn in ND. inversion ND as [|? ? N _]; subst. apply N. apply in_or_app. right. left. reflexivity.
    + cbn in ND. inversion ND as [|? ? N _]; subst. apply N. apply in_or_app. right. right. apply in_or_app. right. left. reflexivity.
  - destruct a as [|a0 a]; cbn in E; injection E as -> E; [left; reflexivity|]. right. apply IH.
    + cbn in ND. inversion ND; assumption.
    + exists a, b, c. exact E.
Qed.
Lemma ins_in : forall p new l x, In x (ins p new l) <-> In x l \/ In x new.
Proof.
  intros p new l x. destruct (ins_split p new l) as (l1 & l2 & -> & -> & _). rewrite !in_app_iff. tauto.
Qed.
Lemma ins_keeps : forall p new l x y, comes_before l x y -> comes_before (ins p new l) x y.
Proof. intros p new l x y. destruct (ins_split p new l) as (l1 & l2 & -> & -> & _). apply cb_in. Qed.
Lemma ins_nodup : forall p new l, NoDup l -> NoDup new -> (forall x, In x new -> ~ In x l) -> NoDup (ins p new l).
Proof.
  intros p new l N1 N2 D. destruct (ins_split p new l) as (l1 & l2 & -> & -> & _).
  apply (Permutation_NoDup (l := new ++ (l1 ++ l2))).
  - rewrite app_assoc. rewrite (app_assoc l1). apply Permutation_app_tail. apply Permutation_app_comm.
  - clear - N1 N2 D. induction new as [|x new IH]; [exact N1|]. inversion N2; subst. cbn. constructor.
    + rewrite in_app_iff. intros [X|X]; [contradiction|]. apply (D x); [left; reflexivity|exact X].
    + apply IH; [assumption|]. intros y Hy. apply D. right. exact Hy.
Qed.
(** what is inserted for p comes after everything that belongs to p and before the end of p *)
Lemma ins_after : forall p new l x n, NoDup l -> In x l -> (In (End p) l -> comes_before l x (End p)) -> In n new -> comes_before (ins p new l) x n.
Proof.
  intros p new l x n ND Hx HE Hn. destruct (ins_split p new l) as (l1 & l2 & E & -> & C).
  assert (X1 : In x l1).
  { destruct C as [[-> _]|(l2' & ->)]; [rewrite app_nil_r in E; congruence|].
    subst l. apply (cb_prefix l1 l2' x (End p)); [exact ND|]. apply HE. apply in_or_app. right. left. reflexivity. }
  destruct (cb_app l1 new x n X1 Hn) as (a & b & c & E2). exists a, b, (c ++ l2). rewrite app_assoc, E2, <- !app_assoc. cbn. rewrite <- app_assoc. reflexivity.
Qed.
Lemma ins_before_end : forall p new l n, In (End p) l -> In n new -> comes_before (ins p new l) n (End p).
Proof.
  intros p new l n HE Hn. destruct (ins_split p new l) as (l1 & l2 & E & -> & C).
  destruct C as [[-> N]|(l2' & ->)]; [contradiction|].
  destruct (cb_app new (End p :: l2') n (End p) Hn (or_introl eq_refl)) as (a & b & c & E2).
  exists (l1 ++ a), b, c. rewrite E2, <- app_assoc. reflexivity.
Qed.

Section df.
Context (hist : list (cmd V)) (VH : valid_history hist).
Hypothesis SINGLE : forall i accs k, nth_error hist i = Some (Use accs k) -> exists p m, accs = [(p, m)].

(** pipeline in whose block a call is executed *)
Definition block_of (c : cmd V) (p : nat) : Prop :=
  match c with Use accs _ => exists m, accs = [(p, m)] | Sub q s => p = q | Reset s => False end.

Record df_inv (n : nat) (l : list node) : Prop := {
  d_nodup : NoDup l;
  d_cmd : forall i, In (Cmd i) l <-> i < n /\ exists c, nth_error hist i = Some c /\ forall s, c <> Reset s;
  d_end : forall s, In (End s) l <-> exists a p, a < n /\ nth_error hist a = Some (Sub p s);
  d_call_end : forall i c p, i < n -> nth_error hist i = Some c -> block_of c p -> In (End p) l -> comes_before l (Cmd i) (End p);
  d_self : forall a p s, a < n -> nth_error hist a = Some (Sub p s) -> comes_before l (Cmd a) (End s);
  d_sub_end : forall a p s, a < n -> nth_error hist a = Some (Sub p s) -> In (End p) l -> comes_before l (End s) (End p);
  d_call : forall i j ci cj p, i < j -> j < n -> nth_error hist i = Some ci -> nth_error hist j = Some cj ->
     In p (map fst (accesses ci)) -> (forall s, ci <> Reset s) -> block_of cj p -> comes_before l (Cmd i) (Cmd j);
  d_sub : forall a j p s cj, a < j -> j < n -> nth_error hist a = Some (Sub p s) -> nth_error hist j = Some cj ->
     block_of cj p -> comes_before l (End s) (Cmd j)
}.
Lemma df_ins_inv : forall n p c (new : list node) l, df_inv n l -> nth_error hist n = Some c -> block_of c p ->
  (new = [Cmd n] /\ (forall q s, c <> Sub q s)) \/ (exists s, c = Sub p s /\ new = [Cmd n; End s]) ->
  df_inv (S n) (ins p new l).
Proof.
  intros n p c new l I Ec Bc Hnew.
  assert (NR : forall s, c <> Reset s) by (intros s ->; exact Bc).
  assert (CN : In (Cmd n) new) by (destruct Hnew as [[-> _]|(s & _ & ->)]; left; reflexivity).
  assert (FR : forall q s, c = Sub q s -> ~ In (End s) l /\ s <> p).
  { intros q s ->. cbn in Bc. subst q. destruct (v_fresh hist VH n p s Ec) as [Ne Fr]. split; [|exact Ne].
    intros H. apply (d_end n l I) in H as (a & p' & La & Ea). apply (Fr a _ La Ea). cbn. auto. }
  assert (BU : forall q, block_of c q -> q = p).
  { intros q Bq. destruct c as [accs k|q' s|s]; cbn in Bc, Bq; [|congruence|contradiction].
    destruct Bc as [m ->], Bq as [m' E]. congruence. }
  assert (NEW : forall x, In x new -> ~ In x l).
  { intros x Hx. destruct Hnew as [[-> _]|(s & -> & ->)].
    - destruct Hx as [<-|[]]. intros H. apply (d_cmd n l I) in H as [H _]. lia.
    - destruct Hx as [<-|[<-|[]]]; [|apply (FR p s eq_refl)]. intros H. apply (d_cmd n l I) in H as [H _]. lia. }
  assert (ENDP : forall x, In (End x) new -> x <> p).
  { intros x Hx. destruct Hnew as [[-> _]|(s & E & ->)]; destruct Hx as [Q|Hx]; try discriminate; try contradiction.
    destruct Hx as [Q|[]]. injection Q as <-. apply (FR p s E). }
  assert (INEND : forall x, In (End x) (ins p new l) -> In (End x) l \/ exists s, c = Sub p s /\ x = s).
  { intros x Hx. apply ins_in in Hx as [Hx|Hx]; [auto|]. right. destruct Hnew as [[-> _]|(s & E & ->)].
    - destruct Hx as [Q|[]]. discriminate.
    - destruct Hx as [Q|[Q|[]]]; [discriminate|]. injection Q as <-. eauto. }
  (* calls belonging to a pipeline created by call n itself: none yet *)
  assert (NOBLK : forall i ci s, i < n -> nth_error hist i = Some ci -> c = Sub p s -> In s (map fst (accesses ci)) -> False).
  { intros i ci s Li Ei E M. subst c. apply (proj2 (v_fresh hist VH n p s Ec) i ci Li Ei M). }
  assert (BA : forall ci q, block_of ci q -> In q (map fst (accesses ci))).
  { intros [accs k|q' s|s] q; cbn; [intros [m ->]; cbn; auto|intros ->; auto|tauto]. }
  constructor.
  - apply ins_nodup; [apply (d_nodup n l I)| |exact NEW].
    destruct Hnew as [[-> _]|(s & _ & ->)]; repeat constructor; cbn; intuition discriminate.
  - intros i. rewrite ins_in, (d_cmd n l I). split.
    + intros [[Li Q]|Hi]; [split; [lia|exact Q]|].
      assert (i = n) as -> by (destruct Hnew as [[-> _]|(s & _ & ->)]; cbn in Hi; intuition congruence).
      split; [lia|]. exists c. auto.
    + intros [Li Q]. destruct (Nat.eq_dec i n) as [->|]; [right; exact CN|left; split; [lia|exact Q]].
  - intros s. rewrite ins_in, (d_end n l I). split.
    + intros [(a & q & La & Ea)|Hs]; [exists a, q; split; [lia|exact Ea]|].
      destruct Hnew as [[-> _]|(x & E & ->)]; destruct Hs as [Q|Hs]; try discriminate; try contradiction.
      destruct Hs as [Q|[]]. injection Q as ->. exists n, p. split; [lia|congruence].
    + intros (a & q & La & Ea). destruct (Nat.eq_dec a n) as [->|]; [|left; exists a, q; split; [lia|exact Ea]].
      right. rewrite Ec in Ea. injection Ea as ->. destruct Hnew as [[_ N]|(x & E & ->)]; [exfalso; apply (N q s); reflexivity|].
      injection E as -> ->. right. left. reflexivity.
  - intros i ci q Li Ei Bi Hq. destruct (Nat.eq_dec i n) as [->|Ni].
    + rewrite Ec in Ei. injection Ei as <-. rewrite (BU q Bi) in *. apply ins_before_end; [|exact CN].
      destruct (INEND p Hq) as [H|(s & E & Q)]; [exact H|]. exfalso. apply (proj2 (FR p s E)). congruence.
    + destruct (INEND q Hq) as [H|(s & E & ->)].
      * apply ins_keeps. apply (d_call_end n l I i ci q); auto. lia.
      * exfalso. apply (NOBLK i ci s); auto. lia.
  - intros a q s La Ea. destruct (Nat.eq_dec a n) as [->|Na].
    + rewrite Ec in Ea. injection Ea as ->. destruct Hnew as [[_ N]|(x & E & ->)]; [exfalso; apply (N q s); reflexivity|].
      injection E as -> ->. destruct (ins_split p [Cmd n; End x] l) as (l1 & l2 & _ & -> & _).
      exists l1, [], l2. reflexivity.
    + apply ins_keeps. apply (d_self n l I a q s); auto. lia.
  - intros a q s La Ea Hq. destruct (Nat.eq_dec a n) as [->|Na].
    + rewrite Ec in Ea. injection Ea as ->. destruct Hnew as [[_ N]|(x & E & ->)]; [exfalso; apply (N q s); reflexivity|].
      injection E as -> ->. apply ins_before_end; [|right; left; reflexivity].
      destruct (INEND p Hq) as [H|(s & E & Q)]; [exact H|]. exfalso. apply (proj2 (FR p s E)). congruence.
    + destruct (INEND q Hq) as [H|(x & E & ->)].
      * apply ins_keeps. apply (d_sub_end n l I a q s); auto. lia.
      * exfalso. apply (NOBLK a (Sub x s) x); auto; [lia|cbn; auto].
  - intros i j ci cj q Lij Lj Ei Ej Mi Ni Bj. destruct (Nat.eq_dec j n) as [->|Nj].
    + rewrite Ec in Ej. injection Ej as <-. rewrite (BU q Bj) in *. apply ins_after; [apply (d_nodup n l I)| | |exact CN].
      * apply (d_cmd n l I). split; [lia|]. exists ci. auto.
      * intros HE. destruct ci as [accs k|q' s|s].
        -- destruct (SINGLE i accs k Ei) as (p' & m & ->). cbn in Mi. destruct Mi as [<-|[]].
           apply (d_call_end n l I i _ p' Lij Ei); [exists m; reflexivity|exact HE].
        -- cbn in Mi. destruct Mi as [<-|[<-|[]]].
           ++ apply (d_self n l I i q' s Lij Ei).
           ++ apply (d_call_end n l I i _ q' Lij Ei); [reflexivity|exact HE].
        -- exfalso. apply (Ni s). reflexivity.
    + apply ins_keeps. apply (d_call n l I i j ci cj q); auto. lia.
  - intros a j q s cj Laj Lj Ea Ej Bj. destruct (Nat.eq_dec j n) as [->|Nj].
    + rewrite Ec in Ej. injection Ej as <-. rewrite (BU q Bj) in *. apply ins_after; [apply (d_nodup n l I)| | |exact CN].
      * apply (d_end n l I). exists a, p. auto.
      * intros HE. apply (d_sub_end n l I a p s Laj Ea HE).
    + apply ins_keeps. apply (d_sub n l I a j q s cj); auto. lia.
Qed.
Lemma df_skip_inv : forall n l s, df_inv n l -> nth_error hist n = Some (Reset s) -> df_inv (S n) l.
Proof.
  intros n l s I E. constructor.
  - apply (d_nodup n l I).
  - intros i. rewrite (d_cmd n l I). split; [intros [A B]; split; [lia|exact B]|].
    intros [A (c & B & C)]. split; [|eauto]. destruct (Nat.eq_dec i n) as [->|]; [|lia]. exfalso. apply (C s). congruence.
  - intros x. rewrite (d_end n l I). split; intros (a & p & A & B); exists a, p; (split; [|exact B]); [lia|].
    destruct (Nat.eq_dec a n) as [->|]; [congruence|lia].
  - intros i c p A B C D. apply (d_call_end n l I i c p); auto. destruct (Nat.eq_dec i n) as [->|]; [|lia].
    rewrite E in B. injection B as <-. contradiction.
  - intros a p x A B. apply (d_self n l I a p x); auto. destruct (Nat.eq_dec a n) as [->|]; [congruence|lia].
  - intros a p x A B. apply (d_sub_end n l I a p x); auto. destruct (Nat.eq_dec a n) as [->|]; [congruence|lia].
  - intros i j ci cj p A B C D F G H. apply (d_call n l I i j ci cj p); auto. destruct (Nat.eq_dec j n) as [->|]; [|lia].
    rewrite E in D. injection D as <-. contradiction.
  - intros a j p x cj A B C D F. apply (d_sub n l I a j p x cj); auto. destruct (Nat.eq_dec j n) as [->|]; [|lia].
    rewrite E in D. injection D as <-. contradiction.
Qed.
Lemma df_invariant : forall n, n <= length hist -> df_inv n (depth_first hist n).
Proof.
  induction n as [|n IH]; intros L.
  - cbn [depth_first]. constructor.
    + constructor.
    + intros i. split; [intros []|]. intros [A _]. inversion A.
    + intros s. split; [intros []|]. intros (a & p & A & _). inversion A.
    + intros i c p A. inversion A.
    + intros a p s A. inversion A.
    + intros a p s A. inversion A.
    + intros i j ci cj p _ A. inversion A.
    + intros a j p s cj _ A. inversion A.
  - assert (I : df_inv n (depth_first hist n)) by (apply IH; lia).
    cbn [depth_first]. destruct (nth_error hist n) as [c|] eqn:E; [|apply nth_error_None in E; lia].
    destruct c as [accs k|p s|s].
    + destruct (SINGLE n accs k E) as (p & m & ->). eapply df_ins_inv; [exact I|exact E|exists m; reflexivity|].
      left. split; [reflexivity|]. discriminate.
    + eapply df_ins_inv; [exact I|exact E|reflexivity|]. right. eauto.
    + eapply df_skip_inv; [exact I|exact E].
Qed.

(** position of the reset of s *)
Fixpoint reset_index (h : list (cmd V)) (s : nat) : nat :=
  match h with
  | [] => 0
  | Reset x :: h' => if x =? s then 0 else S (reset_index h' s)
  | _ :: h' => S (reset_index h' s)
  end.
Lemma reset_index_spec : forall h s, (exists i, nth_error h i = Some (Reset s)) -> nth_error h (reset_index h s) = Some (Reset s).
Proof.
  induction h as [|c h IH]; intros s [i E]; [destruct i; discriminate|].
  destruct i as [|i]; cbn in E.
  - injection E as ->. cbn. rewrite Nat.eqb_refl. reflexivity.
  - destruct c as [accs k|p x|x]; cbn; try (apply IH; exists i; exact E).
    destruct (Nat.eqb_spec x s) as [->|]; [reflexivity|apply IH; exists i; exact E].
Qed.
Definition call_of (n : node) : nat := match n with Cmd i => i | End s => reset_index hist s end.
Lemma reset_unique : forall i j s, nth_error hist i = Some (Reset s) -> nth_error hist j = Some (Reset s) -> i = j.
Proof.
  intros i j s A B. destruct (Nat.lt_total i j) as [Q|[Q|Q]]; [|exact Q|]; exfalso.
  - apply (v_dead hist VH i s j _ A Q B). cbn. auto.
  - apply (v_dead hist VH j s i _ B Q A). cbn. auto.
Qed.
Lemma nodup_map_inj : forall {A B} (f : A -> B) l, NoDup l -> (forall x y, In x l -> In y l -> f x = f y -> x = y) -> NoDup (map f l).
Proof.
  intros A B f l ND. induction ND as [|x l N ND IH]; intros F; cbn; constructor.
  - intros H. apply in_map_iff in H as (y & E & Hy). apply N. rewrite (F x y); [exact Hy|left; reflexivity|right; exact Hy|congruence].
  - apply IH. intros y z Hy Hz. apply F; right; assumption.
Qed.
Lemma depth_first_linearisation : linearisation hist (map call_of (depth_first hist (length hist))).
Proof.
  pose proof (df_invariant (length hist) (le_n _)) as I. set (l := depth_first hist (length hist)) in *.
  assert (RS : forall s, In (End s) l -> nth_error hist (reset_index hist s) = Some (Reset s)).
  { intros s H. apply (d_end _ l I) in H as (a & p & La & Ea). apply reset_index_spec. apply (v_complete hist VH a p s Ea). }
  split.
  - apply NoDup_Permutation.
    + apply nodup_map_inj; [apply (d_nodup _ l I)|]. intros x y Hx Hy E.
      destruct x as [i|s], y as [j|s']; cbn in E.
      * congruence.
      * exfalso. apply (d_cmd _ l I) in Hx as [_ (c & A & B)]. apply RS in Hy. rewrite E in A. rewrite A in Hy. injection Hy as ->. apply (B s'). reflexivity.
      * exfalso. apply (d_cmd _ l I) in Hy as [_ (c & A & B)]. apply RS in Hx. rewrite <- E in A. rewrite A in Hx. injection Hx as ->. apply (B s). reflexivity.
      * apply RS in Hx. apply RS in Hy. rewrite E in Hx. rewrite Hx in Hy. injection Hy as ->. reflexivity.
    + apply seq_NoDup.
    + intros i. rewrite in_map_iff, in_seq. split.
      * intros (x & <- & Hx). destruct x as [j|s]; cbn; [apply (d_cmd _ l I) in Hx as [A _]; lia|].
        apply RS in Hx. assert (reset_index hist s < length hist) by (apply nth_error_Some; congruence). lia.
      * intros [_ Li]. cbn in Li. destruct (nth_error hist i) as [c|] eqn:E; [|apply nth_error_None in E; lia].
        destruct c as [accs k|p s|s].
        -- exists (Cmd i). split; [reflexivity|]. apply (d_cmd _ l I). split; [exact Li|]. eexists. split; [exact E|]. discriminate.
        -- exists (Cmd i). split; [reflexivity|]. apply (d_cmd _ l I). split; [exact Li|]. eexists. split; [exact E|]. discriminate.
        -- exists (End s). destruct (v_reset hist VH i s E) as (a & p & La & Ea).
           assert (He : In (End s) l) by (apply (d_end _ l I); exists a, p; split; [lia|exact Ea]).
           split; [|exact He]. cbn. apply (reset_unique _ _ s); [apply RS, He|exact E].
  - assert (NODE : forall i c, nth_error hist i = Some c -> exists x, In x l /\ call_of x = i /\
        match c with Reset s => x = End s | _ => x = Cmd i end).
    { intros i c E. assert (Li : i < length hist) by (apply nth_error_Some; congruence).
      destruct c as [accs k|p s|s].
      - exists (Cmd i). split; [|auto]. apply (d_cmd _ l I). split; [exact Li|]. eexists. split; [exact E|]. discriminate.
      - exists (Cmd i). split; [|auto]. apply (d_cmd _ l I). split; [exact Li|]. eexists. split; [exact E|]. discriminate.
      - exists (End s). destruct (v_reset hist VH i s E) as (a & p & La & Ea).
        assert (He : In (End s) l) by (apply (d_end _ l I); exists a, p; split; [lia|exact Ea]).
        split; [exact He|]. split; [|reflexivity]. cbn. apply (reset_unique _ _ s); [apply RS, He|exact E]. }
    assert (BLK : forall j cj p m, nth_error hist j = Some cj -> In (p, m) (accesses cj) -> block_of cj p \/ (exists q, cj = Sub q p) \/ cj = Reset p).
    { intros j cj p m E M. destruct cj as [accs k|q s|s]; cbn in M.
      - left. destruct (SINGLE j accs k E) as (p' & m' & ->). destruct M as [M|[]]. injection M as <- <-. exists m'. reflexivity.
      - destruct M as [M|[M|[]]]; injection M as <- <-; [right; left; eauto|left; reflexivity].
      - destruct M as [M|[]]. injection M as <- <-. auto. }
    assert (LEN : forall i c, nth_error hist i = Some c -> i < length hist) by (intros; apply nth_error_Some; congruence).
    intros i j B. destruct B as [i j ci cj p mi mj Lij Ei Ej Ai Aj M|a i j cj p s m Ea Er Laj Ej Aj].
    + assert (Mi : In p (map fst (accesses ci))) by (apply in_map_iff; exists (p, mi); auto).
      assert (NRi : forall s, ci <> Reset s).
      { intros s ->. cbn in Ai. destruct Ai as [Ai|[]]. injection Ai as <- <-.
        apply (v_dead hist VH i s j cj Ei Lij Ej). apply in_map_iff. exists (s, mj). auto. }
      destruct (BLK j cj p mj Ej Aj) as [Bj|[(q & ->)| ->]].
      * assert (NRj : forall s, cj <> Reset s) by (intros s ->; exact Bj).
        pose proof (d_call _ l I i j ci cj p Lij (LEN _ _ Ej) Ei Ej Mi NRi Bj) as C.
        apply (cb_map call_of) in C. exact C.
      * exfalso. apply (proj2 (v_fresh hist VH j q p Ej) i ci Lij Ei Mi).
      * destruct (NODE j _ Ej) as (y & Hy & <- & ->).
        assert (C : comes_before l (Cmd i) (End p)).
        { destruct (BLK i ci p mi Ei Ai) as [Bi|[(q & ->)| ->]].
          - apply (d_call_end _ l I i ci p (LEN _ _ Ei) Ei Bi Hy).
          - apply (d_self _ l I i q p (LEN _ _ Ei) Ei).
          - exfalso. apply (NRi p). reflexivity. }
        apply (cb_map call_of) in C. exact C.
    + destruct (NODE i _ Er) as (x & Hx & <- & ->).
      destruct (BLK j cj p m Ej Aj) as [Bj|[(q & ->)| ->]].
      * pose proof (d_sub _ l I a j p s cj Laj (LEN _ _ Ej) Ea Ej Bj) as C. apply (cb_map call_of) in C. exact C.
      * exfalso. apply (proj2 (v_fresh hist VH j q p Ej) a _ Laj Ea). cbn. auto.
      * destruct (NODE j _ Ej) as (y & Hy & <- & ->).
        pose proof (d_sub_end _ l I a p s (LEN _ _ Ea) Ea Hy) as C. apply (cb_map call_of) in C. exact C.
Qed.
End df.

Theorem C21_linearisation_exists : forall hist : list (cmd V), valid_history hist ->
  (forall i accs k, nth_error hist i = Some (Use accs k) -> exists p m, accs = [(p, m)]) ->
  exists lin, linearisation hist lin.
Proof. intros hist VH S. eexists. apply depth_first_linearisation; assumption. Qed.
End c21.

(** ** Assumptions *)
Print Assumptions C21_as_if_sequential.
Print Assumptions C21_no_deadlock.
Print Assumptions C21_sub_accesses_come_first.
Print Assumptions C21_earlier_parent_accesses_come_first.
Print Assumptions C21_linearisation_exists.
