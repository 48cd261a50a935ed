(** * The distributed divide and conquer tridiagonal eigensolver: merge.h:386-592, 1269-1938, impl.h:293-470.
    Matrices distributed over the process grid are functions of global element indices (each element lives on its owner, C01); vectors are
    replicated on all ranks. Loops over the local columns of a rank go through the conversions of the distribution (DistModel.v) of
    the sub-problem, as the code does. Collectives are their result: a broadcast of an eigenvalue tile leaves the value of the owner
    everywhere, MPI_Iallreduce the product or sum over the ranks. Arithmetic of the solver is exact (real numbers). *)
From Coq Require Import ZArith Lia List Bool Reals.
From Verif Require Import CInt Loop DistModel DistSpec TridiagModel TridiagProofs TridiagDeflation DcSums DcModel.
Import ListNotations.
Local Open Scope Z_scope.

(** ** Distributed stable partition: merge.h:430-592 *)
Section partition.
Context {T : Type}.
Variable ltb : T -> T -> bool.
(** columns of dist_sub *)
Variable a : axis.
Variables (types : Z -> coltype).
(** merge.h:435-436 *)
Definition dp_k : Z := Z.of_nat (length (filter (fun i => negb (coltype_eqb (types i) Deflated)) (zrange 0 (ax_size a)))).
(** offsets before the partial sums, merge.h:480-492: by rank and slot *)
Definition dp_count (is : Z -> Z) : Z -> Z -> Z :=
  fold_left (fun o j => let jj := is j in let r := ax_rank_global_element a jj in
      if negb (coltype_eqb (types jj) Deflated) then upd o r (upd (o r) (1 + ev_sort_order (types jj)) (o r (1 + ev_sort_order (types jj)) + 1)) else o)
    (zrange 0 (ax_size a)) (fun _ _ => 0).
(** merge.h:493-495 *)
Definition dp_offsets (is : Z -> Z) : Z -> Z -> Z := fun r => partial_sum (dp_count is r).
(** merge.h:497-498, on rank r *)
Definition dp_k_lc (is : Z -> Z) (r : Z) : Z := dp_offsets is r (ev_sort_order Deflated).
(** merge.h:503-516 *)
Definition dp_bins (is isc0 : Z -> Z) : Z -> Z :=
  snd (fold_left (fun s j => let '(o, isc) := s in let jj := is j in let r := ax_rank_global_element a jj in
      let c := ev_sort_order (types jj) in let jjj_lc := o r c in
      let jjj := global_element_from_local_element_on_rank a r jjj_lc in
      (upd o r (upd (o r) c (o r c + 1)), upd isc jjj jj)) (zrange 0 (ax_size a)) (dp_offsets is, isc0)).
(** merge.h:518-522 *)
Definition dp_i5_lc (isc i5_lc0 : Z -> Z) : Z -> Z :=
  fold_left (fun o i_lc => upd o i_lc (ax_local_element_from_global_element a (isc (ax_global_element_from_local_element a i_lc))))
    (zrange 0 (ax_local_size a)) i5_lc0.
(** loops of merge.h:526-555: first index from i on that is not below n or at which [stop] holds; the same downwards *)
Fixpoint search_up (fuel : nat) (stop : Z -> bool) (n i : Z) : Z :=
  match fuel with O => i | S f => if i <? n then (if stop i then i else search_up f stop n (i + 1)) else i end.
Fixpoint search_down (fuel : nat) (stop : Z -> bool) (i : Z) : Z :=
  match fuel with O => i | S f => if 0 <=? i then (if stop i then i else search_down f stop (i - 1)) else i end.
Definition dp_udl (isc : Z -> Z) : Z * Z * Z :=
  let n := ax_size a in
  let first_dense := search_up (Z.to_nat n) (fun i => negb (coltype_eqb (types (isc i)) UpperHalf)) n 0 in
  let last_lower := search_down (Z.to_nat n) (fun i => negb (coltype_eqb (types (isc i)) Deflated)) (n - 1) in
  let last_dense := search_down (Z.to_nat n) (fun i => negb (coltype_eqb (types (isc i)) LowerHalf) && negb (coltype_eqb (types (isc i)) Deflated)) last_lower in
  (first_dense, last_dense + 1, last_lower + 1).
(** merge.h:574-587 *)
Definition dp_i6 (isc i4 i6_0 : Z -> Z) : Z -> Z :=
  fst (fold_left (fun s j => let '(i6, jnd) := s in
      if negb (coltype_eqb (types (isc j)) Deflated) then (upd i6 j jnd, jnd + 1) else (upd i6 j (i4 j), jnd)) (zrange 0 (ax_size a)) (i6_0, 0)).
(** what is returned (k, k_lc on this rank, n_udl) and written *)
Record dpart := DPart { dp_ret_k : Z; dp_ret_k_lc : Z; dp_ret_udl : Z * Z * Z; dp_is : Z -> Z; dp_isc : Z -> Z; dp_i5lc : Z -> Z; dp_i4 : Z -> Z; dp_i6o : Z -> Z; dp_perm : Z -> Z }.
(** stablePartitionIndexForDeflationArrays (distributed), merge.h:430-592 *)
Definition dist_partition (evals : Z -> T) (perm_sorted is0 isc0 i5_lc0 i4_0 i6_0 : Z -> Z) : dpart :=
  let n := ax_size a in
  let k := dp_k in
  let '(_, _, is) := fold_left (partition_step ltb types evals perm_sorted k) (zrange 0 n) (0, k, is0) in
  let isc := dp_bins is isc0 in
  let i2 := invert_index n is perm_sorted in
  let i4 := apply_index n isc i2 i4_0 in
  let i6 := dp_i6 isc i4 i6_0 in
  DPart k (dp_k_lc is (ax_rank a)) (dp_udl isc) is isc (dp_i5_lc isc i5_lc0) i4 i6 (invert_index n i6 i2).
End partition.

(** ** The distributed rank-one solver: merge.h:1269-1690 *)
Section rank1.
(** lapack::laed4(k, i, d, z, delta, rho, &lambda): (delta, lambda) *)
Variable laed4 : Z -> Z -> (Z -> R) -> (Z -> R) -> R -> (Z -> R) * R.
(** rows and columns of dist_sub (the rank coordinates in them are not used); number of threads on the rank in process row p and column c (merge.h:1345-1355:
    any number from 1 on) *)
Variables (ar ac : axis) (nth : Z -> Z -> Z).
Variables (k : Z) (k_lc : Z -> Z) (rho : R) (d z : Z -> R) (i4 i6 i2 : Z -> Z).
(** n of merge.h:1282 *)
Definition d1_n : Z := ax_size ac.
(** local_size().cols() on process column c: C01 *)
Definition d1_nloc (c : Z) : Z := count (fun e => ax_rank_global_element ac e =? c) d1_n.
(** local columns [lo c, hi c) of all process columns, as (process column, local index) *)
Definition d1_pairs (lo hi : Z -> Z) : list (Z * Z) := flat_map (fun c => map (fun l => (c, l)) (zrange (lo c) (hi c))) (zrange 0 (ax_grid ac)).
Definition d1_col (p : Z * Z) : Z := global_element_from_local_element_on_rank ac (fst p) (snd p).
(** STEP 0a, merge.h:1378-1389 *)
Definition d1_step0 (evals : Z -> R) : Z -> R :=
  if k <? d1_n then fold_left (fun ev p => upd ev (d1_col p) (d (i6 (d1_col p)))) (d1_pairs k_lc d1_nloc) evals else evals.
(** STEP 1, merge.h:1427-1468; [ord]: the order in which the columns are treated, over all ranks and threads. Every process row holds its rows of the column. *)
Definition d1_step1 (ord : list (Z * Z)) (evals : Z -> R) (q : Z -> Z -> R) : (Z -> R) * (Z -> Z -> R) :=
  fold_left (fun s p => let '(ev, q) := s in let j := d1_col p in let '(delta, lam) := laed4 k (i6 j) d z rho in
    (upd ev j lam, fun r c => if (c =? j) && (0 <=? r) && (r <? d1_n) && (i4 r <? k) then delta (i4 r) else q r c)) ord (evals, q).
(** STEP 2a, merge.h:1484-1519: workspace of thread t in process column c, element of row i *)
Definition d1_init (q : Z -> Z -> R) : Z -> Z -> Z -> R := fun c t i =>
  if t =? 0 then
    if k <=? i4 i then 0%R
    else let j := i2 (i4 i) in if c =? ax_rank_global_element ac j then q i j else 1%R
  else 1%R.
(** merge.h:1391-1393: the thread that treats local column l, on the rank of row i and process column c *)
Definition d1_thread (i : Z) (p : Z * Z) : Z := snd p / ceilDiv (k_lc (fst p)) (nth (ax_rank_global_element ar i) (fst p)).
(** STEP 2b, merge.h:1523-1566 *)
Definition d1_step2b (ord : list (Z * Z)) (q : Z -> Z -> R) (ws : Z -> Z -> Z -> R) : Z -> Z -> Z -> R :=
  fold_left (fun ws p => let j := d1_col p in let js := i6 j in
    fun c t i => if (c =? fst p) && (0 <=? i) && (i <? d1_n) && (t =? d1_thread i p) then
        if k <=? i4 i then ws c t i else if i4 i =? js then ws c t i else (ws c t i * (q i j / (d (i4 i) - d js)))%R
      else ws c t i) ord ws.
(** STEP 2c, merge.h:1570-1601: product over the threads, over the process columns (MPI_PROD), square root and sign *)
Definition d1_weights (ws : Z -> Z -> Z -> R) : Z -> R := fun i =>
  let local c := fold_left (fun w t => (w * ws c t i)%R) (zrange 1 (nth (ax_rank_global_element ar i) c)) (ws c 0 i) in
  let w := fold_left (fun w c => (w * local c)%R) (zrange 1 (ax_grid ac)) (local 0) in
  copysign (sqrt (- w)) (z (i4 i)).
(** STEP 3a, merge.h:1610-1650 *)
Definition d1_step3a (ord : list (Z * Z)) (w : Z -> R) (q : Z -> Z -> R) : Z -> Z -> R :=
  fold_left (fun q p => let j := d1_col p in
    fun r c => if (c =? j) && (0 <=? r) && (r <? d1_n) && negb (k <=? i4 r) then (w r / q r j)%R else q r c) ord q.
(** the sums of squares, merge.h:1648-1649 and 1655-1658: over the local rows, then over the process rows (MPI_SUM) *)
Definition d1_squares (q : Z -> Z -> R) (j : Z) : R :=
  rsum 0 (ax_grid ar) (fun p => rsum 0 d1_n (fun i => if ax_rank_global_element ar i =? p then (q i j * q i j)%R else 0%R)).
(** STEP 3c, merge.h:1663-1686 *)
Definition d1_step3c (ord : list (Z * Z)) (ss : Z -> R) (q : Z -> Z -> R) : Z -> Z -> R :=
  fold_left (fun q p => let j := d1_col p in let vec_norm := sqrt (ss j) in
    fun r c => if (c =? j) && (0 <=? r) && (r <? d1_n) then (1 / vec_norm * q r j)%R else q r c) ord q.
(** solveRank1ProblemDist, merge.h:1269-1690: (evals, evecs); [ord s]: the order of the columns in step s *)
Definition solve_rank1_dist (ord : Z -> list (Z * Z)) (evals : Z -> R) (q : Z -> Z -> R) : (Z -> R) * (Z -> Z -> R) :=
  let evals := d1_step0 evals in
  let '(ev, q1) := d1_step1 (ord 1) evals q in
  if k <=? 2 then (ev, q1) else
  let w := d1_weights (d1_step2b (ord 2) q1 (d1_init q1)) in
  let q2 := d1_step3a (ord 3) w q1 in
  (ev, d1_step3c (ord 4) (d1_squares q2) q2).
End rank1.

(** ** The distributed merge *)
(** multiplyEigenvectors (distributed), merge.h:1692-1808: two products (General::callNN, alpha = 1, beta = 0: C30) and, on every rank, the copy of its
    columns from the global index of local column k_lc on *)
Definition multiply_eigenvectors_dist (ac : axis) (o n_upper n_lower : Z) (k_lc : Z -> Z) (n_udl : Z * Z * Z) (e0 e1 e2 : Z -> Z -> R) : Z -> Z -> R :=
  let n := ax_size ac in
  let '(a, b, c) := n_udl in
  let e0a := put_block o o n_upper c (fun i j => rsum 0 b (fun l => Rmult (e1 (o + i) (o + l)) (e2 (o + l) (o + j)))) e0 in
  let e0b := put_block (o + n_upper) o n_lower c (fun i j => rsum 0 (c - a) (fun l => Rmult (e1 (o + n_upper + i) (o + a + l)) (e2 (o + a + l) (o + j)))) e0a in
  put_block o o n n (fun i j => let r := ax_rank_global_element ac j in
    if (k_lc r <? d1_nloc ac r) && (global_element_from_local_element_on_rank ac r (k_lc r) <=? j) then e1 (o + i) (o + j) else e0b (o + i) (o + j)) e0b.

Section solver.
Variables (n nb : Z) (eps : R).
Variable laed4 : Z -> Z -> (Z -> R) -> (Z -> R) -> R -> (Z -> R) * R.
Variable stedc : Z -> (Z -> R) -> (Z -> R) -> (Z -> R) * (Z -> Z -> R).
(** distribution of the eigenvectors, as any rank sees it; numbers of threads in the rank-one problem of a merge *)
Variables (dist : distribution) (nth : Z * Z * Z -> Z -> Z -> Z).

(** mergeDistSubproblems, merge.h:1811-1938; None: an assertion fails. Steps up to the partition are those of the local merge (assembleDistZVec, merge.h:1217-1266, broadcasts the
    pieces of the rows; applyGivensRotationsToMatrixColumns, rot.h, exchanges the columns that are on different ranks). permute by i5b is local to each rank: local column l gets local column
    i5b[l], that is, the column with global index j gets the one with index i5[j] (C57, on i5_lc). *)
Definition merge_dist (ord : list (Z * Z) -> Z -> list (Z * Z)) (i_begin i_split i_end : Z) (rho : R) (s : dcs) : option dcs :=
  let o := i_begin * nb in
  let m := dc_size n nb i_begin i_end in
  let n_upper := dc_size n nb i_begin i_split in
  let n_lower := dc_size n nb i_split i_end in
  match sub_distribution dist (o, o) (m, m) with
  | Ok ds =>
    let ar := get Row ds in let ac := get Col ds in
    let z0 := assemble_z n nb i_begin i_split i_end rho (s_e0 s) (s_z0 s) in
    let srho := scale_rho rho in
    let tol := calc_tolerance eps m (view o (s_d0 s)) (view o z0) in
    let c := at_ o (init_coltypes nb (dc_rows n nb) i_begin i_split i_end) (s_c s) in
    let i1 := if i_split =? i_begin + 1 then at_ o (init_index nb (dc_rows n nb) i_begin i_split) (s_i1 s) else s_i1 s in
    let i1 := if i_split + 1 =? i_end then at_ (i_split * nb) (init_index nb (dc_rows n nb) i_split i_end) i1 else i1 in
    let i1 := at_ (i_split * nb) (add_index n_lower n_upper) i1 in
    (* Step 1 *)
    match sort_index Rltb m n_upper (view o (s_d0 s)) (view o i1) (view o (s_i2 s)) with
    | None => None
    | Some i2 =>
      let '(_, d0, z0, c, rots) := deflate_R srho tol m i2 (view o (s_d0 s)) (view o z0) (view o c) in
      let e0 := put_block o o m m (apply_rotations rots (view2 o (s_e0 s))) (s_e0 s) in
      (* Step 2 *)
      let R := dist_partition Rltb ac c d0 i2 (view o (s_i3 s)) (view o (s_i5 s)) (fun _ => 0) (view o (s_i4 s)) (fun _ => 0) in
      let k := dp_ret_k R in let k_lc := dp_k_lc ac c (dp_is R) in
      let e1 := put_block o o m m (fun i j => e0 (o + i) (o + dp_isc R j)) (s_e1 s) in
      let d1 := apply_index m (dp_is R) d0 (view o (s_d1 s)) in
      let z1 := apply_index m (dp_is R) z0 (view o (s_z1 s)) in
      (* set0, merge.h:1915 *)
      let e2 := fun _ _ => 0%R in
      let '(d0, e2) := solve_rank1_dist laed4 ar ac (nth (i_begin, i_split, i_end)) k k_lc srho d1 z1 (dp_i4 R) (dp_i6o R) (dp_perm R) (ord (d1_pairs ac (fun _ => 0) k_lc)) d0 e2 in
      (* Step 3 *)
      let e2 := put_block o o m m e2 (s_e2 s) in
      let e0 := multiply_eigenvectors_dist ac o n_upper n_lower k_lc (dp_ret_udl R) e0 e1 e2 in
      (* Step 4 *)
      match sort_index Rltb m k d0 (dp_perm R) (view o i1) with
      | None => None
      | Some i1 =>
        let back {A : Type} (a : Z -> A) : Z -> A := fun i => a (i - o) in
        Some (DCS e0 e1 e2 (back d0) (back d1) (back z0) (back z1) (back c) (back i1) (back (dp_perm R)) (back (dp_is R)) (back (dp_i4 R)) (back (dp_isc R)))
      end
    end
  | _ => None
  end.

(** TridiagSolver::call (distributed), impl.h:363-471 with solveDistLeaf, impl.h:300-323 (the owner of the diagonal tile calls stedc and broadcasts the eigenvalues): (evals, evecs) *)
Definition tridiag_solver_dist (ord : Z * Z * Z -> list (Z * Z) -> Z -> list (Z * Z)) (d e : Z -> R) (s : dcs) : option ((Z -> R) * (Z -> Z -> R)) :=
  if n =? 0 then Some (s_d1 s, s_e2 s) else
  if dc_nt n nb =? 1 then let '(d, ev) := solve_leaf n nb stedc d e (s_e2 s) in Some (offload_diagonal n nb d (s_d1 s), ev) else
  let e0 : Z -> Z -> R := fun _ _ => 0%R in
  let '(d, off) := cuppens n nb d e in
  let '(d, e0) := solve_leaf n nb stedc d e e0 in
  let s0 := DCS e0 (s_e1 s) (s_e2 s) (offload_diagonal n nb d (s_d0 s)) (s_d1 s) (s_z0 s) (s_z1 s) (s_c s) (s_i1 s) (s_i2 s) (s_i3 s) (s_i4 s) (s_i5 s) in
  match generate_subproblem_indices (dc_nt n nb) with
  | None => None
  | Some l =>
    match fold_left (fun r t => match r with None => None | Some s => let '(b, m, e) := t in merge_dist (ord t) b m e (off (m - 1)) s end) l (Some s0) with
    | None => None
    | Some s => Some (apply_index n (s_i1 s) (s_d0 s) (s_d1 s), put_block 0 0 n n (fun i j => s_e0 s i (s_i1 s j)) (s_e2 s))
    end
  end.
End solver.
