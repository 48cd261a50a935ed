(** * Blocks of independent jobs. *)
From Coq Require Import ZArith Lia List Bool.
From Verif Require Import Loop DenseJobs.
Import ListNotations.
Local Open Scope Z_scope.

(** ** Blocks of jobs, each updating its own tile *)
Section blocks.
Context {V : Type}.
Lemma trun_local : forall (js : list (tjob V)) (S : tid -> Prop) st st', (forall j, In j js -> S (tj_out j) /\ forall x, In x (tj_in j) -> S x) ->
  (forall x, S x -> st x = st' x) -> forall x, S x -> trun js st x = trun js st' x.
Proof.
  induction js as [|j js IH]; intros S st st' C E x Sx; [apply E; exact Sx|]. rewrite !trun_cons.
  apply (IH S); [intros k Ik; apply C; right; exact Ik| |exact Sx]. clear x Sx. intros x Sx.
  destruct (C j (or_introl eq_refl)) as [C1 C2]. unfold texec, tset. destruct (tid_eqb x (tj_out j)); [|apply E; exact Sx].
  apply tval_ext. intros y [Iy| ->]; apply E; auto.
Qed.
Lemma run_blocks : forall {X} (body : X -> list (tjob V)) (out : X -> tid) ks st, NoDup ks ->
  (forall a b, In a ks -> In b ks -> out a = out b -> a = b) ->
  (forall k j, In k ks -> In j (body k) -> tj_out j = out k /\ forall x, In x (tj_in j) -> forall k', In k' ks -> x <> out k') ->
  (forall k, In k ks -> trun (flat_map body ks) st (out k) = trun (body k) st (out k)) /\
  (forall x, (forall k, In k ks -> x <> out k) -> trun (flat_map body ks) st x = st x).
Proof.
  intros X body out ks st ND INJ C.
  set (I := fun l st' => (forall k, In k l -> st' (out k) = trun (body k) st (out k)) /\ (forall x, (forall k, In k l -> x <> out k) -> st' x = st x)).
  assert (G : I ks (trun (flat_map body ks) st)); [|exact G].
  apply (run_list_inv body ks I); unfold I.
  - split; [intros k []|reflexivity].
  - intros l1 k l2 s1 E [I1 I2].
    assert (Ik : In k ks) by (rewrite E; apply in_or_app; right; left; reflexivity).
    assert (Il : forall a, In a l1 -> In a ks) by (intros a Q; rewrite E; apply in_or_app; left; exact Q).
    assert (NK : ~ In k l1) by (intros Q; rewrite E in ND; apply NoDup_remove_2 in ND; apply ND; apply in_or_app; left; exact Q).
    assert (FR : forall x, x <> out k -> trun (body k) s1 x = s1 x).
    { intros x N. apply trun_frame. intros j Ij Q. apply N. rewrite <- Q. apply (C k j Ik Ij). }
    split.
    + intros a Ia. apply in_app_or in Ia as [Ia|[<-|[]]].
      * rewrite FR; [apply I1; exact Ia|]. intros Q. apply INJ in Q; [subst; contradiction|apply Il; exact Ia|exact Ik].
      * apply (trun_local (body k) (fun x => x = out k \/ forall k', In k' ks -> x <> out k')); [| |left; reflexivity].
        { intros j Ij. destruct (C k j Ik Ij) as [-> C2]. split; [left; reflexivity|]. intros x Ix. right. apply C2. exact Ix. }
        { intros x Sx. apply I2. intros k' Ik' Q. destruct Sx as [->|Sx].
          - apply INJ in Q; [subst; contradiction|exact Ik|apply Il; exact Ik'].
          - apply (Sx k'); [apply Il; exact Ik'|exact Q]. }
    + intros x N. rewrite FR; [apply I2; intros a Ia; apply N; apply in_or_app; left; exact Ia|].
      apply N. apply in_or_app. right. left. reflexivity.
Qed.
(** nested loops as one loop over pairs *)
Definition pairs (l1 l2 : list Z) : list (Z * Z) := flat_map (fun a => map (fun b => (a, b)) l2) l1.
Lemma flat_pairs : forall (f : Z -> Z -> list (tjob V)) l1 l2,
  flat_map (fun a => flat_map (fun b => f a b) l2) l1 = flat_map (fun ab => f (fst ab) (snd ab)) (pairs l1 l2).
Proof.
  intros f l1 l2. unfold pairs. induction l1 as [|a l1 IH]; cbn [flat_map]; [reflexivity|]. rewrite flat_map_app, <- IH. f_equal.
  clear. induction l2 as [|b l2 IH]; cbn; [reflexivity|]. rewrite IH. reflexivity.
Qed.
Lemma in_pairs : forall l1 l2 a b, In (a, b) (pairs l1 l2) <-> In a l1 /\ In b l2.
Proof.
  intros l1 l2 a b. unfold pairs. rewrite in_flat_map. split.
  - intros (a' & A & B). apply in_map_iff in B as (b' & E & B). injection E as -> ->. auto.
  - intros [A B]. exists a. split; [exact A|]. apply in_map_iff. eauto.
Qed.
Lemma nodup_pairs : forall l1 l2, NoDup l1 -> NoDup l2 -> NoDup (pairs l1 l2).
Proof.
  intros l1 l2 N1 N2. unfold pairs. induction l1 as [|a l1 IH]; cbn [flat_map]; [constructor|]. inversion N1; subst. apply nodup_app.
  - clear - N2. induction l2 as [|b l2 IH]; cbn; [constructor|]. inversion N2; subst. constructor; [|auto]. rewrite in_map_iff. intros (b' & E & Q). injection E as ->. contradiction.
  - apply IH. assumption.
  - intros [x y] Q1 Q2. apply in_map_iff in Q1 as (b & E & _). injection E as <- _. change (In (a, y) (pairs l1 l2)) in Q2. apply in_pairs in Q2 as [Q2 _]. contradiction.
Qed.
End blocks.


(** blocks that update several tiles *)
Lemma run_blocks_gen : forall {V X} (body : X -> list (tjob V)) (W : X -> tid -> Prop) ks st, NoDup ks ->
  (forall a b x, In a ks -> In b ks -> W a x -> W b x -> a = b) ->
  (forall k j, In k ks -> In j (body k) -> W k (tj_out j) /\ forall x, In x (tj_in j) -> forall k', In k' ks -> k' <> k -> ~ W k' x) ->
  (forall k x, In k ks -> (forall k', In k' ks -> k' <> k -> ~ W k' x) -> trun (flat_map body ks) st x = trun (body k) st x) /\
  (forall x, (forall k, In k ks -> ~ W k x) -> trun (flat_map body ks) st x = st x).
Proof.
  intros V X body W ks st ND DJ C.
  set (I := fun l st' => (forall k x, In k l -> (forall k', In k' ks -> k' <> k -> ~ W k' x) -> st' x = trun (body k) st x) /\
    (forall x, (forall k, In k l -> ~ W k x) -> st' x = st x)).
  assert (G : I ks (trun (flat_map body ks) st)); [|exact G].
  apply (run_list_inv body ks I); unfold I.
  - split; [intros k x []|reflexivity].
  - intros l1 k l2 s1 E [I1 I2].
    assert (Ik : In k ks) by (rewrite E; apply in_or_app; right; left; reflexivity).
    assert (Il : forall a, In a l1 -> In a ks) by (intros a Q; rewrite E; apply in_or_app; left; exact Q).
    assert (NK : ~ In k l1) by (intros Q; rewrite E in ND; apply NoDup_remove_2 in ND; apply ND; apply in_or_app; left; exact Q).
    assert (NE : forall a, In a l1 -> a <> k) by (intros a Ia ->; contradiction).
    assert (FR : forall x, ~ W k x -> trun (body k) s1 x = s1 x).
    { intros x N. apply trun_frame. intros j Ij Q. apply N. rewrite <- Q. apply (C k j Ik Ij). }
    split.
    + intros a x Ia N. apply in_app_or in Ia as [Ia|[<-|[]]].
      * rewrite FR; [apply I1; assumption|]. apply N; [exact Ik|]. intros ->. contradiction.
      * apply (trun_local (body k) (fun x => forall k', In k' ks -> k' <> k -> ~ W k' x)); [| |exact N].
        { intros j Ij. destruct (C k j Ik Ij) as [C1 C2]. split; [|exact C2]. intros k' Ik' Nk Q. apply Nk. apply (DJ k' k (tj_out j)); assumption. }
        { intros y Sy. apply I2. intros k' Ik'. apply Sy; [apply Il; exact Ik'|apply NE; exact Ik']. }
    + intros x N. rewrite FR; [apply I2; intros a Ia; apply N; apply in_or_app; left; exact Ia|].
      apply N. apply in_or_app. right. left. reflexivity.
Qed.
