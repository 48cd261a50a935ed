(** * C++ loops in the [res] monad.

    [for_ lo hi body s] is [for (i = lo; i < hi; ++i) body(i)]; [while_ fuel c body s] is
    [while (c) body] where running out of fuel yields [UB] (never reached in the theorems,
    which all state the outcome to be [Ok] or [Abort]). *)
From Coq Require Import ZArith Lia List Bool FinFun.
From Verif Require Import CInt.
Import ListNotations.
Open Scope Z_scope.

Fixpoint for_loop {S : Type} (n : nat) (i : Z) (body : Z -> S -> res S) (s : S) : res S :=
  match n with
  | O => Ok s
  | Datatypes.S m => s' <- body i s ;; for_loop m (i + 1) body s'
  end.
Definition for_ {S : Type} (lo hi : Z) (body : Z -> S -> res S) (s : S) : res S :=
  for_loop (Z.to_nat (hi - lo)) lo body s.

Fixpoint while_ {S : Type} (fuel : nat) (cond : S -> bool) (body : S -> res S) (s : S) : res S :=
  if cond s then
    match fuel with
    | O => UB
    | Datatypes.S f => s' <- body s ;; while_ f cond body s'
    end
  else Ok s.

(** [lo, lo+1, ..., hi-1] *)
Definition zrange (lo hi : Z) : list Z := map (fun k => lo + Z.of_nat k) (seq 0 (Z.to_nat (hi - lo))).

Lemma zrange_nil : forall lo hi, hi <= lo -> zrange lo hi = [].
Proof. intros. unfold zrange. replace (Z.to_nat (hi - lo)) with 0%nat by lia. reflexivity. Qed.

Lemma zrange_cons : forall lo hi, lo < hi -> zrange lo hi = lo :: zrange (lo + 1) hi.
Proof.
  intros. unfold zrange. replace (Z.to_nat (hi - lo)) with (S (Z.to_nat (hi - (lo + 1)))) by lia.
  cbn [seq map]. f_equal; [lia|]. rewrite <- seq_shift, map_map. apply map_ext. intros. lia.
Qed.

Lemma zrange_snoc : forall lo hi, lo <= hi -> zrange lo (hi + 1) = zrange lo hi ++ [hi].
Proof.
  intros. unfold zrange. replace (Z.to_nat (hi + 1 - lo)) with (Z.to_nat (hi - lo) + 1)%nat by lia.
  rewrite seq_app, map_app. cbn. do 2 f_equal. lia.
Qed.

Lemma zrange_app : forall lo mid hi, lo <= mid <= hi -> zrange lo hi = zrange lo mid ++ zrange mid hi.
Proof.
  intros lo mid hi H. unfold zrange.
  replace (Z.to_nat (hi - lo)) with (Z.to_nat (mid - lo) + Z.to_nat (hi - mid))%nat by lia.
  rewrite seq_app, map_app. f_equal. cbn.
  assert (SH : forall len s, seq s len = map (fun k => (s + k)%nat) (seq 0 len)).
  { induction len; intros s; cbn; [reflexivity|]. rewrite Nat.add_0_r. f_equal.
    rewrite IHlen, <- seq_shift, map_map. apply map_ext. intros. lia. }
  rewrite SH, map_map. apply map_ext. intros. lia.
Qed.

Lemma in_zrange : forall lo hi x, In x (zrange lo hi) <-> lo <= x < hi.
Proof.
  intros. unfold zrange. rewrite in_map_iff. split.
  - intros (k & <- & Hk). apply in_seq in Hk. lia.
  - intros H. exists (Z.to_nat (x - lo)). rewrite in_seq. lia.
Qed.

Lemma zrange_length : forall lo hi, Z.of_nat (length (zrange lo hi)) = Z.max 0 (hi - lo).
Proof. intros. unfold zrange. rewrite map_length, seq_length. lia. Qed.

Lemma zrange_nth : forall lo hi k, 0 <= k < hi - lo -> nth_error (zrange lo hi) (Z.to_nat k) = Some (lo + k).
Proof.
  intros lo hi k H.
  rewrite (zrange_app lo (lo + k) hi) by lia.
  rewrite nth_error_app2; pose proof (zrange_length lo (lo + k)); [|lia].
  replace (Z.to_nat k - length (zrange lo (lo + k)))%nat with 0%nat by lia.
  rewrite zrange_cons by lia. reflexivity.
Qed.

Lemma zrange_NoDup : forall lo hi, NoDup (zrange lo hi).
Proof.
  intros. unfold zrange. apply Injective_map_NoDup; [|apply seq_NoDup].
  intros a b H. lia.
Qed.

(** Invariant rules *)
Lemma for_inv : forall (S : Type) (I : Z -> S -> Prop) lo hi body s,
  lo <= hi -> I lo s ->
  (forall i s, lo <= i < hi -> I i s -> exists s', body i s = Ok s' /\ I (i + 1) s') ->
  exists s', for_ lo hi body s = Ok s' /\ I hi s'.
Proof.
  intros S I lo hi body s Hle H0 Hstep. unfold for_.
  remember (Z.to_nat (hi - lo)) as n eqn:En.
  assert (G : forall n i s, lo <= i -> i + Z.of_nat n = hi -> I i s ->
    exists s', for_loop n i body s = Ok s' /\ I hi s').
  { clear n En s H0. induction n as [|n IH]; intros i s Hi E H.
    - exists s. split; [reflexivity|]. replace hi with i by lia. exact H.
    - destruct (Hstep i s ltac:(lia) H) as (s' & Eb & H'). cbn. rewrite Eb. cbn.
      apply IH; [lia|lia|exact H']. }
  apply (G n lo s); [lia|lia|exact H0].
Qed.

(** partial correctness: every [Ok] run satisfies the invariant *)
Lemma for_inv_partial : forall (S : Type) (I : Z -> S -> Prop) lo hi body s s',
  lo <= hi -> I lo s ->
  (forall i s s1, lo <= i < hi -> I i s -> body i s = Ok s1 -> I (i + 1) s1) ->
  for_ lo hi body s = Ok s' -> I hi s'.
Proof.
  intros S I lo hi body s s' Hle H0 Hstep. unfold for_.
  remember (Z.to_nat (hi - lo)) as n eqn:En.
  assert (G : forall n i s, lo <= i -> i + Z.of_nat n = hi -> I i s ->
    for_loop n i body s = Ok s' -> I hi s').
  { clear n En s H0. induction n as [|n IH]; intros i s Hi E H; cbn.
    - intros [= <-]. replace hi with i by lia. exact H.
    - destruct (body i s) as [s1| |] eqn:Eb; cbn; try discriminate.
      apply IH; [lia|lia|]. eapply Hstep; [lia|exact H|exact Eb]. }
  apply (G n lo s); [lia|lia|exact H0].
Qed.

Lemma while_inv : forall (S : Type) (I : S -> Prop) (m : S -> Z) fuel cond body s,
  I s -> (Z.to_nat (m s) <= fuel)%nat ->
  (forall s, I s -> cond s = true -> exists s', body s = Ok s' /\ I s' /\ 0 <= m s' < m s) ->
  exists s', while_ fuel cond body s = Ok s' /\ I s' /\ cond s' = false.
Proof.
  intros S I m fuel. induction fuel as [|f IH]; intros cond body s H0 Hm Hstep; cbn.
  - destruct (cond s) eqn:E.
    + destruct (Hstep s H0 E) as (s' & _ & _ & B). lia.
    + exists s. auto.
  - destruct (cond s) eqn:E.
    + destruct (Hstep s H0 E) as (s' & Eb & H' & B). rewrite Eb. cbn. apply IH; [exact H'|lia|exact Hstep].
    + exists s. auto.
Qed.

Lemma for_nil : forall (S : Type) lo hi (body : Z -> S -> res S) s, hi <= lo -> for_ lo hi body s = Ok s.
Proof. intros. unfold for_. replace (Z.to_nat (hi - lo)) with 0%nat by lia. reflexivity. Qed.
Lemma for_cons : forall (S : Type) lo hi (body : Z -> S -> res S) s, lo < hi ->
  for_ lo hi body s = bind (body lo s) (for_ (lo + 1) hi body).
Proof.
  intros. unfold for_. replace (Z.to_nat (hi - lo)) with (Datatypes.S (Z.to_nat (hi - (lo + 1)))) by lia. reflexivity.
Qed.
