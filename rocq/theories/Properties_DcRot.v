(** * C58: Givens rotations of the distributed divide and conquer solver. *)
From Coq Require Import ZArith Lia List Bool Reals.
From Verif Require Import CInt Loop DistModel DenseJobs DistMachine DistGrid TridiagModel TridiagProofs TridiagDeflation Properties_Tridiag DcModel DcRotModel DcRotProofs.
Import ListNotations.
Local Open Scope Z_scope.

(** The rank that holds element (i, j) of a matrix with square tiles of size mb, distributed block-cyclically over a P x Q grid from rank (sr, sc), row-major numbering *)
Definition holder (P Q mb sr sc i j : Z) : Z := ((i / mb + sr) mod P) * Q + (j / mb + sc) mod Q.
(** [st] stores the n x n matrix M: every rank its elements; column j of matrix 0 *)
Definition stores (P Q mb sr sc n : Z) (st : tstore column) (M : Z -> Z -> R) : Prop :=
  forall i j, 0 <= i < n -> 0 <= j < n -> st (Tid (holder P Q mb sr sc i j) 0 0 j) i = M i j.
(** A rotation of columns a and b, in the rows [o, hi) *)
Definition rotate_columns (o hi : Z) (M : Z -> Z -> R) (g : rotation R) : Z -> Z -> R := fun i j =>
  let a := o + r_i g in let b := o + r_j g in
  if (o <=? i) && (i <? hi) then
    if j =? a then (r_c g * M i a + r_s g * M i b)%R else if j =? b then (r_c g * M i b - r_s g * M i a)%R else M i j
  else M i j.
(** first element of the range of tiles of a call, and the one after its last *)
Definition first_el (mb : Z) (c : rcall) : Z := rc_begin c * mb.
Definition end_el (mb n : Z) (c : rcall) : Z := Z.min n (rc_end c * mb).
(** all the rotations of all the calls, one after the other *)
Definition rotate_all (mb n : Z) (calls : list rcall) (M : Z -> Z -> R) : Z -> Z -> R :=
  fold_left (fun M c => fold_left (rotate_columns (first_el mb c) (end_el mb n c)) (rc_rots c) M) calls M.
(** the columns of the rotations are two different ones of the range *)
Definition in_range (mb n : Z) (c : rcall) : Prop := 0 <= rc_begin c /\
  forall g, In g (rc_rots c) -> 0 <= r_i g < end_el mb n c - first_el mb c /\ 0 <= r_j g < end_el mb n c - first_el mb c /\ r_i g <> r_j g.

Lemma rotc_ext : forall o hi g M M', (forall i j, M i j = M' i j) -> forall i j, rotate_columns o hi M g i j = rotate_columns o hi M' g i j.
Proof. intros o hi g M M' E i j. unfold rotate_columns. rewrite !E. reflexivity. Qed.
Lemma rots_ext : forall o hi rots M M', (forall i j, M i j = M' i j) -> forall i j, fold_left (rotate_columns o hi) rots M i j = fold_left (rotate_columns o hi) rots M' i j.
Proof. induction rots as [|g rots IH]; intros M M' E; cbn; [exact E|]. apply IH. apply rotc_ext. exact E. Qed.
Lemma all_ext : forall mb n calls M M', (forall i j, M i j = M' i j) -> forall i j, rotate_all mb n calls M i j = rotate_all mb n calls M' i j.
Proof. induction calls as [|c calls IH]; intros M M' E; [exact E|]. unfold rotate_all. cbn [fold_left]. apply IH. apply rots_ext. exact E. Qed.
Lemma rots_block : forall o m M rots, 0 <= m -> (forall g, In g rots -> 0 <= r_i g < m /\ 0 <= r_j g < m /\ r_i g <> r_j g) -> forall B i j,
  fold_left (rotate_columns o (o + m)) rots (put_block o o m m B M) i j = put_block o o m m (apply_rotations rots B) M i j.
Proof.
  intros o m M rots Lm. induction rots as [|g rots IH]; intros H B i j; [reflexivity|]. cbn [fold_left apply_rotations].
  change (fold_left rotate rots (rotate B g)) with (apply_rotations rots (rotate B g)). rewrite <- IH by (intros; apply H; right; assumption). apply rots_ext. clear i j.
  intros i j. destruct (H g (or_introl eq_refl)) as (LI & LJ & NE). unfold rotate_columns, put_block, rotate.
  replace (o <=? o + r_i g) with true by lia. replace (o + r_i g <? o + m) with true by lia. replace (o <=? o + r_j g) with true by lia. replace (o + r_j g <? o + m) with true by lia.
  rewrite !andb_true_r. replace (o + r_i g - o) with (r_i g) by lia. replace (o + r_j g - o) with (r_j g) by lia.
  destruct ((o <=? i) && (i <? o + m)) eqn:I; cbn [andb]; [|reflexivity].
  destruct (Z.eqb_spec j (o + r_i g)) as [->|N1].
  { replace (o + r_i g - o) with (r_i g) by lia. replace (o <=? o + r_i g) with true by lia. replace (o + r_i g <? o + m) with true by lia. rewrite Z.eqb_refl. reflexivity. }
  destruct (Z.eqb_spec j (o + r_j g)) as [->|N2].
  { replace (o + r_j g - o) with (r_j g) by lia. replace (o <=? o + r_j g) with true by lia. replace (o + r_j g <? o + m) with true by lia. replace (r_j g =? r_i g) with false by lia. rewrite Z.eqb_refl. reflexivity. }
  replace (j - o =? r_i g) with false by lia. replace (j - o =? r_j g) with false by lia. reflexivity.
Qed.
Lemma holder_rk : forall P Q mb src i j, 0 < P -> 0 < Q -> 0 < mb -> (forall rc, 0 <= src rc < gs P Q rc) -> 0 <= i -> 0 <= j ->
  rk Q (tile_rank P Q src Row (i / mb)) (tile_rank P Q src Col (j / mb)) = holder P Q mb (src Row) (src Col) i j.
Proof.
  intros P Q mb src i j HP HQ HM HS Li Lj. unfold rk, holder, tile_rank, rank_global_tile. cbn [gs]. rewrite !Z.add_0_r, !Z.quot_1_r.
  pose proof (HS Row). pose proof (HS Col). cbn [gs] in *. assert (0 <= i / mb) by (apply Z.div_pos; lia). assert (0 <= j / mb) by (apply Z.div_pos; lia). rewrite !Z.rem_mod_nonneg by lia. reflexivity.
Qed.

(** C58. For every grid, tile size, matrix size and source rank, every list of calls of the distributed rotation routine (each on a range of tiles, with
    its tag and its rotations), every content of the workspaces, and every order of the tasks and of the messages of all the ranks: the run ends,
    nobody waits forever for a column of another rank, and the matrix is the one that results from the rotations one after the other, as stored by one process. *)
Theorem C58_distributed_rotations : forall P Q mb n (src : coord -> Z) calls M st, 0 < P -> 0 < Q -> 0 < mb -> (forall rc, 0 <= src rc < gs P Q rc) ->
  (forall c, In c calls -> in_range mb n c) -> stores P Q mb (src Row) (src Col) n st M ->
  every_run (members P Q) (ranks P Q) (rots_prog P Q mb n src calls) st (fun st' => stores P Q mb (src Row) (src Col) n st' (rotate_all mb n calls M)).
Proof.
  intros P Q mb n src calls M st HP HQ HM HS OK ST.
  assert (OK' : Forall (call_ok mb n) calls).
  { apply Forall_forall. intros c I. destruct (OK c I) as [LB OC]. split; [exact LB|]. apply Forall_forall. intros g Ig. destruct (OC g Ig) as (A & B & C). constructor; assumption. }
  assert (EQ : forall i j, rotate_all mb n calls M i j = fold_left (call_spec mb n) calls M i j).
  { clear ST OK'. revert M. induction calls as [|c l IH]; intros M i j; [reflexivity|]. unfold rotate_all. cbn [fold_left].
    rewrite <- IH by (intros; apply OK; right; assumption). fold (rotate_all mb n l (call_spec mb n M c)). fold (rotate_all mb n l (fold_left (rotate_columns (first_el mb c) (end_el mb n c)) (rc_rots c) M)).
    apply all_ext. clear i j. intros i j. unfold call_spec. destruct (OK c (or_introl eq_refl)) as [LB OC]. change (rc_off mb c) with (first_el mb c). change (rc_size mb n c) with (end_el mb n c - first_el mb c).
    destruct (rc_rots c) as [|g0 rots0] eqn:ER.
    - cbn [fold_left apply_rotations]. unfold put_block. destruct (_ && _); [unfold view2; f_equal; lia|reflexivity].
    - rewrite <- rots_block; [|destruct (OC g0 (or_introl eq_refl)); lia|exact OC]. replace (first_el mb c + (end_el mb n c - first_el mb c)) with (end_el mb n c) by lia.
      apply rots_ext. intros i' j'. unfold put_block. destruct (_ && _); [unfold view2; f_equal; lia|reflexivity]. }
  intros s RS. destruct (rots_run P Q mb n src HP HQ HM HS calls M st OK') with (s := s) as (H1 & H2 & H3 & H4); [|exact RS|].
  - intros i j Li Lj. rewrite holder_rk by (assumption || lia). apply ST; assumption.
  - split; [|split; [exact H2|split; [exact H3|exact H4]]]. intros F i j Li Lj. rewrite EQ. rewrite <- (holder_rk P Q mb src i j) by (assumption || lia). apply H1; assumption.
Qed.

(** The rotations that deflation generates meet the requirement (C34): one merge of the solver, whose block of eigenvectors starts at tile ib and has m rows, leaves in the matrix
    what the model of the merge (C57) uses. *)
Theorem C58_merge : forall P Q mb n (src : coord -> Z) ib ie tag ws M st rho tol ip d0 z0 c0 (top : Z -> Prop), 0 < P -> 0 < Q -> 0 < mb -> (forall rc, 0 <= src rc < gs P Q rc) ->
  0 <= ib -> ib * mb < n -> ib < ie -> let o := ib * mb in let m := Z.min n (ie * mb) - o in
  (0 <= tol)%R -> is_perm m ip -> (forall p q, 0 <= p <= q -> q < m -> (d0 (ip p) <= d0 (ip q))%R) ->
  (forall x, 0 <= x < m -> c0 x = UpperHalf \/ c0 x = LowerHalf) ->
  (forall x row, 0 <= x < m -> (c0 x = UpperHalf -> ~ top row -> view2 o M row x = 0%R) /\ (c0 x = LowerHalf -> top row -> view2 o M row x = 0%R)) ->
  stores P Q mb (src Row) (src Col) n st M ->
  exists i1 d z c rots, deflate_R rho tol m ip d0 z0 c0 = (i1, d, z, c, rots) /\
    every_run (members P Q) (ranks P Q) (rots_prog P Q mb n src [RCall ib ie tag ws rots]) st
      (fun st' => stores P Q mb (src Row) (src Col) n st' (put_block o o m m (apply_rotations rots (view2 o M)) M)).
Proof.
  intros P Q mb n src ib ie tag ws M st rho tol ip d0 z0 c0 top HP HQ HM HS LB LN LE o m TOL PERM ASC TY TYD ST.
  assert (Lm : 1 <= m) by (unfold m, o; nia).
  destruct (C34_deflation rho tol m ip d0 z0 c0 top (view2 o M) TOL Lm PERM ASC TY TYD) as (i1 & d & z & c & rots & E & _ & _ & _ & _ & _ & RO).
  exists i1, d, z, c, rots. split; [exact E|]. intros s RS.
  destruct (C58_distributed_rotations P Q mb n src [RCall ib ie tag ws rots] M st HP HQ HM HS) with (s := s) as (H1 & H2); [|exact ST|exact RS|].
  - intros x [<-|[]]. split; [exact LB|]. intros g I. destruct (RO g I) as (A & B & C & _). auto.
  - split; [|exact H2]. intros F i j Li Lj. rewrite (H1 F i j Li Lj). unfold rotate_all. cbn [fold_left rc_rots].
    change (first_el mb (RCall ib ie tag ws rots)) with o. replace (end_el mb n (RCall ib ie tag ws rots)) with (o + m) by (unfold m, o, end_el; cbn [rc_end]; lia).
    rewrite <- rots_block; [|lia|intros g I; destruct (RO g I) as (A & B & C & _); auto].
    apply rots_ext. intros i' j'. unfold put_block. destruct (_ && _); [unfold view2; f_equal; lia|reflexivity].
Qed.

(** A case: 2 x 3 grid, 7 x 7 matrix, tiles of size 2, source rank (1, 2); a call on tiles [1, 4) with a rotation of columns of two process columns, then one
    that uses a rotated column again, and another call on tile 0. Rank (0, 0) holds a column of the first rotation: it exchanges it with (0, 1), then rotates. *)
Example C58_case :
  let src rc := match rc with Row => 1 | Col => 2 end in
  let calls := [RCall 1 4 1 0 [Rot 0 2 1%R 0%R; Rot 2 4 0%R 1%R; Rot 0 1 0%R 1%R]; RCall 0 1 0 1 [Rot 0 1 0%R 1%R]] in
  (forall c, In c calls -> in_range 2 7 c) /\
  map (fun a => match a with ALoc j => None | ACom b => Some (ca_comm b, ca_needs b) end) (rots_prog 2 3 2 7 src calls 0) =
    [Some (CP2P 0 1 1, [1]); None; None; None; None; None; None] /\
  map (fun a => match a with ALoc j => None | ACom b => Some (ca_comm b, ca_needs b) end) (rots_prog 2 3 2 7 src calls 1) =
    [Some (CP2P 0 1 1, [0]); None; None; None; Some (CP2P 1 2 1, [2]); None; None; None] /\
  (forall M st, stores 2 3 2 1 2 7 st M -> exists s, dreach (members 2 3) (ranks 2 3) (rots_prog 2 3 2 7 src calls) st s /\ dfinal (ranks 2 3) (rots_prog 2 3 2 7 src calls) s).
Proof.
  intros src calls.
  assert (OK : forall c, In c calls -> in_range 2 7 c).
  { intros c [<-|[<-|[]]]; (split; [cbn; lia|]); intros g I; cbn in I; repeat (destruct I as [<-|I]; [cbn; lia|]); destruct I. }
  split; [exact OK|]. split; [reflexivity|]. split; [reflexivity|].
  intros M st ST. destruct (every_run_final _ _ _ _ _ (C58_distributed_rotations 2 3 2 7 src calls M st ltac:(lia) ltac:(lia) ltac:(lia) ltac:(intros []; cbn; lia) OK ST)) as (s & R & F & _).
  exists s. split; assumption.
Qed.

(** ** Assumptions *)
Print Assumptions C58_distributed_rotations.
Print Assumptions C58_merge.
