(** * C59: the replicated vectors and the reductions of the distributed divide and conquer solver. *)
From Coq Require Import ZArith Lia List Bool Reals Lra.
From Verif Require Import CInt Loop DistModel DenseJobs DistMachine DistGrid DcModel DcSums DcMerge DcRotModel DcRotProofs DcCommModel DcCommProofs DcCommRank1.
Import ListNotations.
Local Open Scope Z_scope.

(** Process row, column of a tile row, column: block-cyclic from the source rank; number of a rank: row-major *)
Definition prow_of (P sr i : Z) : Z := (i + sr) mod P.
Definition pcol_of (Q sc j : Z) : Z := (j + sc) mod Q.
Definition number (Q p c : Z) : Z := p * Q + c.
Definition is_rank (P Q r : Z) : Prop := exists p c, 0 <= p < P /\ 0 <= c < Q /\ r = number Q p c.

Lemma trk_is : forall P Q (src : DistModel.coord -> Z) rc i, 0 < P -> 0 < Q -> (forall rc, 0 <= src rc < gs P Q rc) -> 0 <= i ->
  tile_rank P Q src rc i = (i + src rc) mod gs P Q rc.
Proof.
  intros P Q src rc i HP HQ HS Li. unfold tile_rank, rank_global_tile. rewrite Z.add_0_r, Z.quot_1_r. pose proof (HS rc). pose proof (gsp P Q HP HQ rc). apply Z.rem_mod_nonneg; lia.
Qed.
Lemma is_rank_in : forall P Q r, 0 < P -> 0 < Q -> is_rank P Q r <-> In r (ranks P Q).
Proof.
  intros P Q r HP HQ. split.
  - intros (p & c & Lp & Lc & ->). apply (mk_in P Q HP HQ Row); assumption.
  - intros R. exists (co Q Row r), (co Q Col r). apply (in_ranks P Q HP HQ) in R. split; [lia|]. split; [lia|]. symmetry. apply (rk_co P Q HP HQ).
Qed.
Lemma own2_is : forall P Q (src : DistModel.coord -> Z) i j, 0 < P -> 0 < Q -> (forall rc, 0 <= src rc < gs P Q rc) -> 0 <= i -> 0 <= j ->
  own2 P Q src i j = number Q (prow_of P (src Row) i) (pcol_of Q (src Col) j).
Proof. intros. unfold own2, rk, number, prow_of, pcol_of. rewrite !trk_is by assumption. reflexivity. Qed.

(** ** Leaves: solveDistLeaf *)
(** [stedc i d e]: eigenvalues and eigenvectors of the tridiagonal matrix of tile i with diagonal d, off-diagonal e. A tile of the tridiagonal matrix has
    the diagonal in column 0, the off-diagonal in column 1 *)
Definition vecs (stedc : Z -> (Z -> R) -> (Z -> R) -> (Z -> R) * (Z -> Z -> R)) (i : Z) (t : tile) : tile := snd (stedc i (fun a => t a 0) (fun a => t a 1)).
Definition vals (stedc : Z -> (Z -> R) -> (Z -> R) -> (Z -> R) * (Z -> Z -> R)) (i : Z) (t : tile) : tile :=
  fun a b => if b =? 0 then fst (stedc i (fun a => t a 0) (fun a => t a 1)) a else t a b.
(** C59. If all the ranks start with the same nt tiles D i of the tridiagonal matrix, every run of solveDistLeaf ends with all the ranks holding the eigenvalues of every tile,
    and the eigenvectors of tile i at the rank of its diagonal tile. *)
Theorem C59_leaves : forall P Q (src : DistModel.coord -> Z) stedc nt (D : Z -> tile) st, 0 < P -> 0 < Q -> (forall rc, 0 <= src rc < gs P Q rc) -> 0 <= nt ->
  (forall r i, is_rank P Q r -> 0 <= i < nt -> st (tTri r i) = D i) ->
  every_run (members P Q) (ranks P Q) (leaf_prog P Q src (vecs stedc) (vals stedc) nt) st (fun st' => forall i, 0 <= i < nt ->
    let '(lam, E) := stedc i (fun a => D i a 0) (fun a => D i a 1) in
    (forall r a, is_rank P Q r -> st' (tTri r i) a 0 = lam a) /\
    (forall a b, st' (tEv (number Q (prow_of P (src Row) i) (pcol_of Q (src Col) i)) i i) a b = E a b)).
Proof.
  intros P Q src stedc nt D st HP HQ HS LN REP s RS.
  assert (Z0 : is_rank P Q 0) by (exists 0, 0; unfold number; lia).
  destruct (leaf_run P Q src HP HQ HS (vecs stedc) (vals stedc) nt st LN) with (s := s) as (H1 & H2); [|exact RS|].
  - intros r i R Li. rewrite !REP; auto. apply is_rank_in; assumption.
  - split; [|exact H2]. intros F i Li. destruct (H1 F i Li) as [A B]. rewrite own2_is in A by (assumption || lia). rewrite (REP 0 i Z0 Li) in A, B. unfold vecs in A. unfold vals in B.
    destruct (stedc i (fun a => D i a 0) (fun a => D i a 1)) as [lam E]. cbn [fst snd] in A, B. split.
    + intros r a R. rewrite B by (apply is_rank_in; assumption). reflexivity.
    + intros a b. rewrite A. reflexivity.
Qed.

(** ** z: assembleDistZVec *)
(** kernels.h:97-118 *)
Definition z_kernel (n nb : Z) (rho : R) (top : bool) (evecs_row : Z) (t : tile) : tile :=
  fun j _ => ((if top && (if Rlt_dec rho 0 then true else false) then -1 else 1) * t (if top then dc_rows n nb evecs_row - 1 else 0)%Z j / sqrt 2)%R.
(** C59. Eigenvectors E distributed by tiles: every run of assembleDistZVec ends with all the ranks holding the vector z that the local solver computes from E (C50);
    the eigenvectors are not changed. *)
Theorem C59_z_vector : forall P Q (src : DistModel.coord -> Z) n nb i_begin i_split i_end rho (E : Z -> Z -> R) z st, 0 < P -> 0 < Q -> (forall rc, 0 <= src rc < gs P Q rc) ->
  0 < nb -> 0 < n -> 0 <= i_begin < i_split -> i_split < i_end <= ceilDiv n nb ->
  (forall i j a b, 0 <= i -> 0 <= j -> st (tEv (number Q (prow_of P (src Row) i) (pcol_of Q (src Col) j)) i j) a b = E (i * nb + a) (j * nb + b)) ->
  every_run (members P Q) (ranks P Q) (z_prog P Q src (z_kernel n nb rho) i_begin i_split i_end) st (fun st' =>
    (forall r i a, is_rank P Q r -> i_begin <= i < i_end -> 0 <= a < dc_rows n nb i -> st' (tZ r i) a 0 = assemble_z n nb i_begin i_split i_end rho E z (i * nb + a)) /\
    (forall r i j, st' (tEv r i j) = st (tEv r i j))).
Proof.
  intros P Q src n nb ib isp ie rho E z st HP HQ HS LNB LN LB LS HE s RS.
  destruct (z_run P Q src HP HQ HS (z_kernel n nb rho) ib isp ie st LB ltac:(lia)) with (s := s) as (H1 & H2); [exact RS|].
  split; [|exact H2]. intros F. destruct (H1 F) as [A B]. split; [|exact B]. intros r i a R Li La. rewrite A by (exact Li || apply is_rank_in; assumption).
  assert (0 <= z_row isp i) by (unfold z_row; destruct (i <? isp); lia). rewrite own2_is by (assumption || lia). unfold z_kernel. rewrite HE by lia. unfold z_row, assemble_z.
  rewrite (tiled_at n nb ltac:(lia) ltac:(lia) (fun i j => (i * nb + j)%Z) 0 (fun i p => (if Z.ltb i isp && (if Rlt_dec rho 0 then true else false) then -1 else 1) *
        E ((isp - (if Z.ltb i isp then 1 else 0)) * nb + (if Z.ltb i isp then dc_rows n nb (isp - (if Z.ltb i isp then 1 else 0)) - 1 else 0))%Z p / sqrt 2)%R ib ie); [|intros; lia|lia|unfold dc_nt; apply LS].
  assert (RB : dc_rows n nb i <= nb) by (unfold dc_rows; lia). assert (RN : dc_rows n nb i <= n - i * nb) by (unfold dc_rows; lia).
  replace ((i * nb + a + 0 * nb) / nb) with i by (symmetry; replace (i * nb + a + 0 * nb) with (a + i * nb) by lia; rewrite Z.div_add, Z.div_small by lia; lia).
  assert (C : Z.leb (ib * nb) (i * nb + a + 0 * nb) && Z.ltb (i * nb + a + 0 * nb) (hi n nb ie) = true) by (unfold hi; nia).
  rewrite C. reflexivity.
Qed.

(** ** Rank-one problem: solveRank1ProblemDist *)
(** sums over [0, n) *)
Lemma fold_sum : forall (f : Z -> R) n, 1 <= n -> fold_left (fun s x => (s + f x)%R) (zrange 1 n) (f 0) = rsum 0 n f.
Proof.
  intros f n Ln. replace n with (Z.of_nat (S (Z.to_nat (n - 1)))) by lia. generalize (Z.to_nat (n - 1)). intros m. induction m as [|m IH].
  - change (Z.of_nat 1) with 1. rewrite zrange_nil by lia. cbn [fold_left]. rewrite rsum_cons, rsum_nil by lia. lra.
  - replace (Z.of_nat (S (S m))) with (Z.of_nat (S m) + 1) by lia. rewrite zrange_snoc by lia. rewrite fold_left_app, IH. cbn [fold_left]. rewrite rsum_snoc by lia. reflexivity.
Qed.
(** C59. Let rank (p, c) compute the eigenvalues lam c i of the tiles of its columns (the same ones on all the ranks of a process column: their inputs are replicated), the partial weights lw p c and, from
    the weights w, the partial sums of squares ls p c w. Every run ends; all the ranks hold all the eigenvalues; and, if there are more than two values to compute, the ranks of process row p
    hold the products over the process columns, those of process column c the sums over the process rows: the values with which the model of the distributed merge goes on
    (C57: d1_weights, d1_squares). With at most two values no rank makes a reduction. *)
Theorem C59_rank_one : forall P Q (src : DistModel.coord -> Z) k i_begin i_end (lam : Z -> Z -> tile) (lw : Z -> Z -> tile) (ls : Z -> Z -> tile -> tile) st, 0 < P -> 0 < Q -> (forall rc, 0 <= src rc < gs P Q rc) ->
  0 <= i_begin <= i_end -> (forall p c v v', (forall a b, v a b = v' a b) -> forall a b, ls p c v a b = ls p c v' a b) ->
  let weights p : tile := fun a b => fold_left (fun x c => (x * lw p c a b)%R) (zrange 1 Q) (lw p 0 a b) in
  every_run (members P Q) (ranks P Q)
    (rank1_prog P Q src k i_begin i_end (fun r i => lam (co Q Col r) i) (fun r => lw (co Q Row r) (co Q Col r)) (fun r => ls (co Q Row r) (co Q Col r))) st
    (fun st' => forall p c, 0 <= p < P -> 0 <= c < Q -> let r := number Q p c in
       (forall i, i_begin <= i < i_end -> st' (tLam r i) = lam (pcol_of Q (src Col) i) i) /\
       (2 < k -> forall a b, st' (tW r) a b = weights p a b /\ st' (tS r) a b = rsum 0 P (fun p' => ls p' c (weights p') a b))).
Proof.
  intros P Q src k ib ie lam lw ls st HP HQ HS LB EXT weights s RS.
  destruct (rank1_run P Q src HP HQ HS k ib ie (fun r i => lam (co Q Col r) i) (fun r => lw (co Q Row r) (co Q Col r)) (fun r => ls (co Q Row r) (co Q Col r)) LB ltac:(intros; apply EXT; assumption) st) with (s := s) as (H1 & H2); [exact RS|].
  split; [|exact H2]. intros F p c Lp Lc. cbv zeta. destruct (co_rk P Q HP HQ p c Lp Lc) as [C1 C2]. change (rk Q p c) with (number Q p c) in C1, C2.
  destruct (H1 F (number Q p c)) as [A B]; [apply (mk_in P Q HP HQ Row p c); assumption|]. rewrite C1, C2 in *.
  assert (W : forall p' a b, 0 <= p' < P -> prow Q (fun r => lw (co Q Row r) (co Q Col r)) p' a b = weights p' a b).
  { intros p' a b Lp'. unfold prow, weights. destruct (co_rk P Q HP HQ p' 0 Lp' ltac:(lia)) as [-> ->]. apply fold_ext. intros x c' I. apply in_zrange in I. destruct (co_rk P Q HP HQ p' c' Lp' ltac:(lia)) as [-> ->]. reflexivity. }
  split.
  - intros i Li. rewrite A by exact Li. assert (LT : 0 <= tile_rank P Q src Col i < Q) by (apply (trk_range P Q src HP HQ HS Col); lia).
    destruct (co_rk P Q HP HQ p (tile_rank P Q src Col i) Lp LT) as [_ ->]. rewrite trk_is by (assumption || lia). reflexivity.
  - intros K a b. destruct (B K a b) as [B1 B2]. split; [rewrite B1; apply W; exact Lp|]. rewrite B2. unfold scol.
    rewrite <- (fold_sum (fun p' => ls p' c (weights p') a b)) by lia. destruct (co_rk P Q HP HQ 0 c ltac:(lia) Lc) as [-> ->].
    assert (X : forall p', 0 <= p' < P -> ls p' c (prow Q (fun r => lw (co Q Row r) (co Q Col r)) p') a b = ls p' c (weights p') a b) by (intros p' Lp'; apply EXT; intros; apply W; exact Lp').
    rewrite X by lia. apply fold_ext. intros x p' I. apply in_zrange in I. destruct (co_rk P Q HP HQ p' c ltac:(lia) Lc) as [-> ->]. rewrite X by lia. reflexivity.
Qed.

(** A case: 2 x 3 grid, source rank (1, 2). The calls of rank 4 = (1, 1) for the tiles [0, 3): it owns tile 2; reductions if k > 2. *)
Example C59_case :
  let src rc := match rc with Row => 1 | Col => 2 end in
  let v : tile := fun _ _ => 0%R in
  let calls l := map (fun a => match a with ALoc _ => None | ACom b => Some (ca_comm b, ca_sig b) end) (l : list (act tile)) in
  calls (rank1_prog 2 3 src 3 0 3 (fun _ _ => v) (fun _ => v) (fun _ t => t) 4) =
    [None; Some (CRow 1, SBcast 5); Some (CRow 1, SBcast 3); Some (CRow 1, SBcast 4); None; Some (CRow 1, SAllReduce); None; Some (CCol 1, SAllReduce)] /\
  calls (rank1_prog 2 3 src 2 0 3 (fun _ _ => v) (fun _ => v) (fun _ t => t) 4) = [None; Some (CRow 1, SBcast 5); Some (CRow 1, SBcast 3); Some (CRow 1, SBcast 4)] /\
  calls (leaf_prog 2 3 src (fun _ t => t) (fun _ t => t) 2 4) = [Some (CFull, SBcast 5); Some (CFull, SBcast 0)] /\
  (forall st, exists s, dreach (members 2 3) (ranks 2 3) (rank1_prog 2 3 src 3 0 3 (fun _ _ => v) (fun _ => v) (fun _ t => t)) st s /\ dfinal (ranks 2 3) (rank1_prog 2 3 src 3 0 3 (fun _ _ => v) (fun _ => v) (fun _ t => t)) s).
Proof.
  intros src v calls. split; [reflexivity|]. split; [reflexivity|]. split; [reflexivity|]. intros st.
  destruct (every_run_final _ _ _ _ _ (C59_rank_one 2 3 src 3 0 3 (fun _ _ => v) (fun _ _ => v) (fun _ _ t => t) st ltac:(lia) ltac:(lia) ltac:(intros []; cbn; lia) ltac:(lia) ltac:(intros; auto))) as (s & R & F & _).
  exists s. split; assumption.
Qed.

(** ** Assumptions *)
Print Assumptions C59_leaves.
Print Assumptions C59_z_vector.
Print Assumptions C59_rank_one.
