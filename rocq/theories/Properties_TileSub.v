(** * C21: sub-pipelines of matrices, which refer to (parts of) the parent's tiles in place. *)
From Coq Require Import List Arith Bool Lia Permutation.
From Verif Require Import PipeModel AsyncModel Properties_Pipe AsyncProofs Properties_Async SubPipeModel SubPipeProofs TileSubModel TileSubProofs AsyncExec.
Import ListNotations.

Section c21t.
Context {V : Type} (region : nat -> nat -> bool).

(** C21 (matrices, values).  The contents of all tiles -- of the parents and of all (nested) sub-matrices, which share memory -- at the end are those
    of running the kernels one at a time in an order that respects the documented one ([tlinearisation], [run_tcmds]), whatever the scheduler does. *)
Theorem C21_tiles_as_if_sequential : forall (hist : list (tcmd V)) lin s0 s, valid_thistory region hist -> tlinearisation hist lin ->
  reachable (tile_program region hist lin) s0 s -> final (tile_program region hist lin) s ->
  forall c, st_store s c = run_tcmds hist lin s0 c.
Proof.
  intros hist lin s0 s VH L Rs F c.
  rewrite (async_is_sequential _ (tile_synchronised region hist lin VH L) s0 s Rs F c). apply run_tile_program.
Qed.
Theorem C21_tiles_no_deadlock : forall (hist : list (tcmd V)) lin s0 s, valid_thistory region hist -> tlinearisation hist lin ->
  reachable (tile_program region hist lin) s0 s ->
  (final (tile_program region hist lin) s \/ exists s', step (tile_program region hist lin) s s') /\
  Acc (fun next now => step (tile_program region hist lin) now next) s.
Proof.
  intros hist lin s0 s VH L Rs. pose proof (tile_synchronised region hist lin VH L) as WS. split.
  - apply (async_progress _ WS s0 s Rs).
  - apply (async_terminates _ WS s0 s Rs).
Qed.

(** C21 (matrices, order).  A task that uses the parent's tile, requested after the sub-matrix was made, starts only when every access requested through
    the sub-matrix, or through anything made from it, has been released -- even those requested later ... *)
Theorem C21_tiles_sub_accesses_come_first : forall (hist : list (tcmd V)) lin s0 st, valid_thistory region hist -> tlinearisation hist lin ->
  reachable (tile_program region hist lin) s0 st ->
  forall p a m d r ss s, group hist p a m d r ss -> In s ss ->
  forall j hj mj, a < j -> trequested hist j hj p mj -> st_status st (index_of j lin) <> Waiting ->
  forall q k h mk accs ker, tbelow hist s q -> nth_error hist k = Some (TUse accs ker) -> trequested hist k h q mk -> In (Rel h) (st_hist st).
Proof.
  intros hist lin s0 st VH L Rs p a m d r ss s G I j hj mj Lj Rj St q k h mk accs ker Bq Ek Rk.
  pose proof (tile_synchronised region hist lin VH L) as WS. destruct (reachable_inv _ WS s0 st Rs) as [Iv _].
  set (P := tile_program region hist lin) in *.
  assert (W1 : waits_start P (index_of j lin) (index_of r lin)).
  { apply (ws_rel P _ (tbase hist a)).
    - apply (wr_block P _ _ hj); [eapply uses_need, req_uses; eassumption|].
      eapply (req_blocks region hist lin); [apply split_requested, G|exact Rj|exact Lj|auto].
    - eapply uses_need; [eassumption..|]. right. exists a, m, d. split; [apply G|reflexivity]. }
  destruct (below_done region hist lin VH L (index_of j lin) p a m d r ss s G I (or_intror W1) q Bq k h) as [H|H].
  - eapply req_uses; exact Rk.
  - eapply trequested_attr; exact Rk.
  - apply (proj1 (waits_sound _ st Iv) (index_of j lin)); [exact H|exact St].
  - pose proof (waits_fin_sound _ st Iv _ _ H St) as Fk.
    assert (Uk : tuses hist k h) by (eapply req_uses; exact Rk).
    assert (Nk : need P (index_of k lin) h) by (eapply uses_need; eassumption).
    destruct (i_fin _ st Iv _ h Fk Nk) as [K|K]; [|exact K]. exfalso.
    eapply (not_kept region hist lin); [exact VH|exact L|exact Uk| |exact K]. intros p'. rewrite Ek. discriminate.
Qed.
(** ... and a task that uses the sub-matrix, or anything made from it, starts only when every access to the parent's tile requested before has been released. *)
Theorem C21_tiles_earlier_parent_accesses_come_first : forall (hist : list (tcmd V)) lin s0 st, valid_thistory region hist -> tlinearisation hist lin ->
  reachable (tile_program region hist lin) s0 st ->
  forall p a m d r ss s, group hist p a m d r ss -> In s ss ->
  forall i hi mi, i < a -> trequested hist i hi p mi ->
  forall q k h mk, tbelow hist s q -> trequested hist k h q mk -> st_status st (index_of k lin) <> Waiting -> In (Rel hi) (st_hist st).
Proof.
  intros hist lin s0 st VH L Rs p a m d r ss s G I i hi mi Li Ri q k h mk Bq Rk St.
  pose proof (tile_synchronised region hist lin VH L) as WS. destruct (reachable_inv _ WS s0 st Rs) as [Iv _].
  set (P := tile_program region hist lin) in *.
  assert (Wf : waits_fin P (index_of k lin) (index_of a lin)).
  { eapply (below_starts region hist lin VH L); [exact G|exact I|exact Bq|eapply req_uses; exact Rk|eapply trequested_attr; exact Rk]. }
  assert (Wr : waits_rel P (index_of k lin) hi).
  { eapply wr_via; [eapply fin_start; exact Wf|]. eapply wr_block.
    - eapply uses_need; [eassumption..|]. eapply req_uses, split_requested, G.
    - eapply (req_blocks region hist lin); [exact Ri|apply split_requested, G|exact Li|auto]. }
  apply (proj1 (waits_sound _ st Iv) (index_of k lin)); [exact Wr|exact St].
Qed.

(** The usual way to use them: the parent is used again only after the sub-matrix has been destroyed.  Then the documented order is the order of the calls. *)
Theorem C21_tiles_call_order : forall hist : list (tcmd V), valid_thistory region hist ->
  (forall a p m d r, nth_error hist a = Some (TSplit p) -> nth_error hist r = Some (TRelease a m d) -> d < r /\
     forall j md c, a < j -> nth_error hist j = Some c -> In (p, md) (taccesses c) -> r < j) ->
  tlinearisation hist (seq 0 (length hist)).
Proof.
  intros hist VH H. split; [reflexivity|]. intros i j B.
  assert (G : i < j /\ j < length hist).
  { destruct B as [i j ci cj p mi mj Lt Ei Ej _ _ _|m a ss Em|r a m d Er|r a m d j cj p md Er Ea Lt Ej Ij].
    - split; [exact Lt|]. apply nth_error_Some. congruence.
    - split; [apply (tv_make _ hist VH m a ss Em)|]. apply nth_error_Some. congruence.
    - split; [|apply nth_error_Some; congruence]. destruct (tv_release _ hist VH r a m d Er) as [(ss & Em & _) _].
      destruct (tv_make _ hist VH m a ss Em) as (_ & _ & _ & (p & Ea & _) & _). apply (H a p m d r Ea Er).
    - split; [|apply nth_error_Some; congruence]. eapply (proj2 (H a p m d r Ea Er)); eassumption. }
  destruct G as [G1 G2]. exists (seq 0 i), (seq (S i) (j - i - 1)), (seq (S j) (length hist - j - 1)).
  replace (length hist) with (i + S ((j - i - 1) + S (length hist - j - 1))) at 1 by lia.
  rewrite seq_app. f_equal. cbn [plus seq]. f_equal. rewrite seq_app. f_equal. cbn [seq]. f_equal; [lia|f_equal; lia].
Qed.
End c21t.

(** ** A concrete case: a tile of two cells; split into two tiles; the first of them again made a sub-pipeline; the parent is requested while the sub-matrices
    are alive, before they are used. *)
Definition ex_region (m c : nat) : bool :=
  match m with 0 => c <? 2 | 1 => c =? 0 | 2 => c =? 1 | 3 => c =? 0 | _ => false end.
Definition ex_hist : list (tcmd nat) :=
  [ TUse [(0, W)] (Put 0 5 (Put 1 7 (Free 0 Ret)));                                       (* 0 *)
    TSplit 0;                                                                             (* 1 *)
    TMake 1 [1; 2];                                                                       (* 2 *)
    TUse [(0, W)] (Load 0 (fun x => Load 1 (fun y => Put 0 (10 * x + y) (Free 0 Ret))));  (* 3: takes effect last *)
    TUse [(1, W); (2, R)] (Load 1 (fun y => Load 0 (fun x => Free 1 (Put 0 (x + y) (Free 0 Ret)))));  (* 4: 12 *)
    TSplit 1;                                                                             (* 5 *)
    TMake 5 [3];                                                                          (* 6 *)
    TUse [(2, W)] (Put 1 1 (Free 0 Ret));                                                 (* 7 *)
    TUse [(3, W)] (Load 0 (fun x => Put 0 (x + 1) (Free 0 Ret)));                         (* 8: 13 *)
    TDrop 5 [3];                                                                          (* 9 *)
    TRelease 5 6 9;                                                                       (* 10 *)
    TDrop 1 [1; 2];                                                                       (* 11 *)
    TRelease 1 2 11 ].                                                                    (* 12 *)
Definition ex_lin : list nat := [0; 1; 2; 4; 5; 6; 7; 8; 9; 10; 11; 12; 3].

Ltac each i := destruct i as [|[|[|[|[|[|[|[|[|[|[|[|[|i]]]]]]]]]]]]]; cbn [nth_error ex_hist] in *; try discriminate; try (destruct i; discriminate).
Example ex_valid : valid_thistory ex_region ex_hist.
Proof.
  constructor.
  - intros i accs k E. each i; try discriminate; injection E as <- <-; (split; [cbn|]).
    all: try (intros [|[|[|i]]] [|[|[|j]]] c mi mj Ne Ei Ej; cbn in Ei, Ej; congruence).
    all: repeat (first [ split | intro | reflexivity | (left; reflexivity) ]); try (cbn; tauto).
    all: try (exists 0, 0, W; cbn; tauto).
    all: try (exists 0, 0; cbn; tauto).
    all: try (exists 1, 2, R; cbn; tauto).
    all: try (exists 0, 1, W; cbn; tauto).
    all: try (exists 0, 1; cbn; tauto).
    all: try (exists 0, 2; cbn; tauto).
    all: try (exists 0, 3, W; cbn; tauto).
    all: try (exists 0, 3; cbn; tauto).
  - intros m a ss E. each m; injection E as <- <-.
    + split; [lia|]. split; [discriminate|]. split; [repeat constructor; cbn; intuition lia|]. split; [|split; [|split]].
      * exists 0. split; [reflexivity|]. intros s c [<-|[<-|[]]]; cbn; [intros H%Nat.eqb_eq; subst c|intros H%Nat.eqb_eq; subst c]; reflexivity.
      * intros s s' c [<-|[<-|[]]] [<-|[<-|[]]] Ne; try congruence; cbn; intros H%Nat.eqb_eq; subst c; reflexivity.
      * intros i c s Lt E Is M. each i; try lia; injection E as <-; cbn in M; cbn in Is; intuition lia.
      * intros m' ss' E. each m'; try discriminate; reflexivity.
    + split; [lia|]. split; [discriminate|]. split; [repeat constructor; cbn; intuition lia|]. split; [|split; [|split]].
      * exists 1. split; [reflexivity|]. intros s c [<-|[]]; cbn. auto.
      * intros s s' c [<-|[]] [<-|[]] Ne. congruence.
      * intros i c s Lt E Is M. each i; try lia; injection E as <-; cbn in M; cbn in Is; intuition lia.
      * intros m' ss' E. each m'; try discriminate; reflexivity.
  - intros d a ss E. each d; injection E as <- <-.
    + split; [exists 6; split; [lia|reflexivity]|]. intros j c s Lt E Is M. each j; try lia; injection E as <-; cbn in M; cbn in Is; intuition lia.
    + split; [exists 2; split; [lia|reflexivity]|]. intros j c s Lt E Is M. each j; try lia; injection E as <-; cbn in M; cbn in Is; intuition lia.
  - intros r a m d E. each r; injection E as <- <- <-.
    + split; [exists [3]; split; reflexivity|]. intros r' m' d' E. each r'; try discriminate; reflexivity.
    + split; [exists [1; 2]; split; reflexivity|]. intros r' m' d' E. each r'; try discriminate; reflexivity.
  - intros a p E. each a; injection E as <-; [exists 12, 2, 11|exists 10, 6, 9]; reflexivity.
  - intros p q c Hp Hq Ne. 
    assert (A : forall x, (forall m a ss, nth_error ex_hist m = Some (TMake a ss) -> ~ In x ss) -> x <> 0 -> ex_region x c = false).
    { intros x Hx N0. destruct x as [|[|[|[|x]]]]; [congruence|exfalso; apply (Hx 2 1 [1; 2] eq_refl); cbn; auto|exfalso; apply (Hx 2 1 [1; 2] eq_refl); cbn; auto
        |exfalso; apply (Hx 6 5 [3] eq_refl); cbn; auto|reflexivity]. }
    intros Rp. destruct (Nat.eq_dec q 0) as [->|Nq]; [|apply A; assumption]. rewrite (A p Hp) in Rp by congruence. discriminate.
Qed.
Lemma cb_nth : forall {A} (l : list A) a b x y, a < b -> nth_error l a = Some x -> nth_error l b = Some y -> comes_before l x y.
Proof.
  intros A l a b x y Lt Ea Eb. apply nth_error_split in Ea as (l1 & l2 & -> & <-).
  rewrite nth_error_app2 in Eb by lia. replace (b - length l1) with (S (b - length l1 - 1)) in Eb by lia. cbn in Eb.
  apply nth_error_In, in_split in Eb as (u & v & ->). exists l1, u, v. reflexivity.
Qed.
Example ex_linear : tlinearisation ex_hist ex_lin.
Proof.
  split.
  - change (seq 0 (length ex_hist)) with ([0; 1; 2] ++ 3 :: [4; 5; 6; 7; 8; 9; 10; 11; 12]).
    change ex_lin with ([0; 1; 2] ++ ([4; 5; 6; 7; 8; 9; 10; 11; 12] ++ [3])). apply Permutation_app_head.
    symmetry. apply (Permutation_cons_append [4; 5; 6; 7; 8; 9; 10; 11; 12] 3).
  - intros i j B.
    assert (G : (i < j /\ j < 13 /\ i <> 3) \/ (j = 3 /\ i < 13 /\ i <> 3)).
    { destruct B as [i j ci cj p mi mj Lt Ei Ej Ii Ij _|m a ss Em|r a m d Er|r a m d j cj p md Er Ea Lt Ej Ij].
      - left. split; [exact Lt|]. split; [change 13 with (length ex_hist); apply nth_error_Some; congruence|]. intros ->.
        cbn in Ei. injection Ei as <-. cbn in Ii. destruct Ii as [Q|[]]. injection Q as <- <-.
        each j; try lia; injection Ej as <-; cbn in Ij; intuition congruence.
      - each m; injection Em as <- <-; left; lia.
      - each r; injection Er as <- <- <-; left; lia.
      - each r; injection Er as <- <- <-; cbn in Ea; injection Ea as <-; each j; try lia; injection Ej as <-; cbn in Ij; intuition (congruence || lia). }
    set (ps := fun k => if k <? 3 then k else if k =? 3 then 12 else k - 1).
    assert (X : forall k, k < 13 -> nth_error ex_lin (ps k) = Some k) by (intros k K; do 13 (destruct k as [|k]; [reflexivity|]); lia).
    assert (Y : ps i < ps j).
    { unfold ps. destruct (Nat.ltb_spec i 3), (Nat.ltb_spec j 3), (Nat.eqb_spec i 3), (Nat.eqb_spec j 3); lia. }
    apply (cb_nth ex_lin (ps i) (ps j)); [exact Y|apply X; lia|apply X; lia].
Qed.
(** the result: cell 0 holds 10 * 13 + 1 *)
Example ex_result : run_tcmds ex_hist ex_lin (fun _ => 0) 0 = 131 /\ run_tcmds ex_hist ex_lin (fun _ => 0) 1 = 1.
Proof. split; reflexivity. Qed.
Example ex_all_executions : forall s, reachable (tile_program ex_region ex_hist ex_lin) (fun _ => 0) s -> final (tile_program ex_region ex_hist ex_lin) s ->
  st_store s 0 = 131 /\ st_store s 1 = 1.
Proof.
  intros s Rs F. rewrite !(C21_tiles_as_if_sequential ex_region ex_hist ex_lin (fun _ => 0) s ex_valid ex_linear Rs F). exact ex_result.
Qed.

(** ** Assumptions *)
Print Assumptions C21_tiles_as_if_sequential.
Print Assumptions C21_tiles_no_deadlock.
Print Assumptions C21_tiles_sub_accesses_come_first.
Print Assumptions C21_tiles_earlier_parent_accesses_come_first.
Print Assumptions C21_tiles_call_order.
