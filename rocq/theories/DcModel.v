(** * The divide and conquer tridiagonal eigensolver (local): eigensolver/tridiag_solver/{impl.h, merge.h, kernels.h, rot.h}.
    Arithmetic is exact (real numbers); machine epsilon is a parameter. Vectors and matrices are functions of global element
    indices; a kernel that gets the pointer to tile i_begin sees the array from element i_begin * nb on. The tasks are in the order in which the
    code creates them (C20, C21: what the read/readwrite pipelines of a matrix guarantee); only inside of the rank-one solver, which runs
    on several threads, the order is free. The GPU variants, where host and device copies are kept in step, are not modelled; on CPU the
    mirrors are the same matrices. *)
From Coq Require Import ZArith Lia List Bool Reals.
From Verif Require Import CInt Loop DistModel TridiagModel TridiagProofs TridiagDeflation DcSums.
Import ListNotations.
Local Open Scope Z_scope.

(** ** Views *)
(** the array / the matrix seen from element o *)
Definition view {A : Type} (o : Z) (a : Z -> A) : Z -> A := fun i => a (i + o).
Definition view2 {A : Type} (o : Z) (a : Z -> Z -> A) : Z -> Z -> A := fun i j => a (i + o) (j + o).
(** a kernel that works in place on the array from element o on *)
Definition at_ {A : Type} (o : Z) (f : (Z -> A) -> (Z -> A)) (a : Z -> A) : Z -> A := fun i => f (view o a) (i - o).
(** rows [r, r + m) and columns [c, c + k) get the values B (relative to r, c) *)
Definition put_block {A : Type} (r c m k : Z) (B : Z -> Z -> A) (E : Z -> Z -> A) : Z -> Z -> A :=
  fun i j => if (r <=? i) && (i <? r + m) && (c <=? j) && (j <? c + k) then B (i - r) (j - c) else E i j.

(** ** The rank-one solver: merge.h:800-965 *)
(** std::copysign; there is no -0 *)
Definition copysign (x y : R) : R := if Rlt_dec y 0 then (- Rabs x)%R else Rabs x.
(** k values into column j, from row 0 on *)
Definition put_col (k j : Z) (v : Z -> R) (q : Z -> Z -> R) : Z -> Z -> R := fun r c => if (c =? j) && (0 <=? r) && (r <? k) then v r else q r c.

(** one element *)
Definition put_el (i j : Z) (v : R) (q : Z -> Z -> R) : Z -> Z -> R := fun r c => if (r =? i) && (c =? j) then v else q r c.

Section rank1.
(** lapack::laed4(k, i, d, z, delta, rho, &lambda): (delta, lambda) *)
Variable laed4 : Z -> Z -> (Z -> R) -> (Z -> R) -> R -> (Z -> R) * R.
(** available workers; get_tridiag_rank1_nworkers.h:22-30 *)
Variable workers : Z.
(** merge.h:813-818: std::clamp(ceilDiv(nrtiles, 2), 1, workers) *)
Definition r1_nthreads (nrtiles : Z) : Z := let ideal := ceilDiv nrtiles 2 in if ideal <? 1 then 1 else if workers <? ideal then workers else ideal.
(** merge.h:836-838: thread t treats the columns [t * batch, min((t + 1) * batch, k)): column j belongs to thread j / batch *)
Definition r1_batch (k nth : Z) : Z := ceilDiv k nth.
Definition r1_thread (k nth j : Z) : Z := j / r1_batch k nth.

(** [ord]: the order in which the columns are treated, over all threads, in this step (the steps are separated by barriers; a thread
    treats its columns in ascending order, but every order is allowed here). Threads write only their columns, eigenvalues and workspaces. *)
(** STEP 1, merge.h:850-867 *)
Definition r1_step1 (k : Z) (rho : R) (d z : Z -> R) (ord : list Z) (evals : Z -> R) (q : Z -> Z -> R) : (Z -> R) * (Z -> Z -> R) :=
  fold_left (fun s i => let '(ev, q) := s in let '(delta, lam) := laed4 k i d z rho in (upd ev i lam, put_col k i delta q)) ord (evals, q).
(** k = 2, merge.h:870-888 *)
Definition r1_rows2 (n k : Z) (i4 : Z -> Z) (ord : list Z) (q : Z -> Z -> R) : Z -> Z -> R :=
  fold_left (fun q j => let ws := fun r => q r j in
    fold_left (fun q i => if i4 i <? k then put_el i j (ws (i4 i)) q else q) (zrange 0 n)
      (put_col k j (fun _ => 0%R) q)) ord q.
(** STEP 2a, merge.h:896-931: the workspaces of the threads. Thread 0 starts with the diagonal, the others with 1 *)
Definition r1_init (q : Z -> Z -> R) : Z -> Z -> R := fun t i => if t =? 0 then q i i else 1%R.
Definition r1_step2a (k nth : Z) (d : Z -> R) (ord : list Z) (q : Z -> Z -> R) : Z -> Z -> R :=
  fold_left (fun ws j => upd ws (r1_thread k nth j)
      (fold_left (fun w i => upd w i (w i * (q i j / (d i - d j)))%R) (zrange 0 j ++ zrange (j + 1) k) (ws (r1_thread k nth j)))) ord (r1_init q).
(** STEP 2b, merge.h:933-944, one thread *)
Definition r1_step2b (k nth : Z) (ws : Z -> Z -> R) (z : Z -> R) : Z -> R :=
  fold_left (fun z i => let w := fold_left (fun w t => (w * ws t i)%R) (zrange 1 nth) (ws 0 i) in upd z i (copysign (sqrt (- w)) (z i))) (zrange 0 k) z.
(** STEP 3, merge.h:948-975 *)
Definition r1_step3 (k : Z) (i4 : Z -> Z) (w : Z -> R) (ord : list Z) (q : Z -> Z -> R) : Z -> Z -> R :=
  fold_left (fun q j => let s := fun i => (w i / q i j)%R in let vec_norm := sqrt (rsum 0 k (fun i => s i * s i)%R) in
    put_col k j (fun i => (s (i4 i) / vec_norm)%R) q) ord q.
(** solveRank1Problem, merge.h:800-977: (evals, z, evecs) *)
Definition solve_rank1 (nrtiles n k : Z) (rho : R) (d z evals : Z -> R) (i4 : Z -> Z) (ord : Z -> list Z) (q : Z -> Z -> R) : (Z -> R) * (Z -> R) * (Z -> Z -> R) :=
  let nth := r1_nthreads nrtiles in
  let '(ev, q1) := r1_step1 k rho d z (ord 1) evals q in
  if k <=? 2 then (ev, z, if k =? 2 then r1_rows2 n k i4 (ord 2) q1 else q1)
  else
    let w := r1_step2b k nth (r1_step2a k nth d (ord 2) q1) z in
    (ev, w, r1_step3 k i4 w (ord 3) q1).
End rank1.

(** ** The merge of two subproblems *)
(** the matrices and vectors of WorkSpace, WorkSpaceHost and WorkSpaceHostMirror (merge.h:117-178) that the local solver uses *)
Record dcs := DCS { s_e0 : Z -> Z -> R; s_e1 : Z -> Z -> R; s_e2 : Z -> Z -> R; s_d0 : Z -> R; s_d1 : Z -> R; s_z0 : Z -> R; s_z1 : Z -> R;
  s_c : Z -> coltype; s_i1 : Z -> Z; s_i2 : Z -> Z; s_i3 : Z -> Z; s_i4 : Z -> Z; s_i5 : Z -> Z }.

(** maxVectorElement, merge.h:222-244: the maximum of lange(Max) over the tiles *)
Definition vec_max (m : Z) (v : Z -> R) : R := fold_right Rmax 0%R (tab 0 m (fun i => Rabs (v i))).

Section solver.
Variables (n nb : Z) (eps : R) (workers : Z).
Variable laed4 : Z -> Z -> (Z -> R) -> (Z -> R) -> R -> (Z -> R) * R.
(** lapack::stedc(Job::Vec, m, d, e, evecs): (eigenvalues, eigenvectors) *)
Variable stedc : Z -> (Z -> R) -> (Z -> R) -> (Z -> R) * (Z -> Z -> R).

(** number of tiles; rows of tile i *)
Definition dc_nt : Z := ceilDiv n nb.
Definition dc_rows (i : Z) : Z := Z.min nb (n - i * nb).
(** problemSize, index_manipulation.h:29-35 *)
Definition dc_size (i_begin i_end : Z) : Z := (i_end - i_begin - 1) * nb + dc_rows (i_end - 1).

(** assembleZVec, merge.h:190-208 with assembleRank1UpdateVectorTile, kernels.h:97-118 *)
Definition assemble_z (i_begin i_split i_end : Z) (rho : R) (e0 : Z -> Z -> R) (z : Z -> R) : Z -> R :=
  fold_left (fun z i => let top := i <? i_split in let evecs_row := i_split - (if top then 1 else 0) in
    let row := if top then dc_rows evecs_row - 1 else 0 in
    let sign := if top && (if Rlt_dec rho 0 then true else false) then (-1)%R else 1%R in
    fold_left (fun z j => upd z (i * nb + j) (sign * e0 (evecs_row * nb + row)%Z (i * nb + j)%Z / sqrt 2)%R) (zrange 0 (dc_rows i)) z)
    (zrange i_begin i_end) z.
(** scaleRho, merge.h:210-218 *)
Definition scale_rho (rho : R) : R := (2 * Rabs rho)%R.
(** calcTolerance, merge.h:246-268 *)
Definition calc_tolerance (m : Z) (d z : Z -> R) : R := (8 * eps * Rmax (vec_max m d) (vec_max m z))%R.

(** multiplyEigenvectors, merge.h:979-1076: two products (General::callNN with alpha = 1, beta = 0: C30) and the copy of the deflated columns *)
Definition multiply_eigenvectors (o m n_upper n_lower k : Z) (n_udl : Z * Z * Z) (e0 e1 e2 : Z -> Z -> R) : Z -> Z -> R :=
  let '(n_uh, n_de, n_lh) := n_udl in
  let a := n_uh + n_de in let b := n_de + n_lh in
  let e0a := put_block o o n_upper k (fun i j => rsum 0 a (fun l => Rmult (e1 (o + i) (o + l)) (e2 (o + l) (o + j)))) e0 in
  let e0b := put_block (o + n_upper) o n_lower k (fun i j => rsum 0 b (fun l => Rmult (e1 (o + n_upper + i) (o + n_uh + l)) (e2 (o + n_uh + l) (o + j)))) e0a in
  put_block o (o + k) m (m - k) (fun i j => e1 (o + i) (o + k + j)) e0b.

(** mergeSubproblems, merge.h:1078-1214; None: an assertion fails *)
Definition merge_subproblems (ord : Z -> Z -> list Z) (i_begin i_split i_end : Z) (rho : R) (s : dcs) : option dcs :=
  let o := i_begin * nb in
  let m := dc_size i_begin i_end in
  let n_upper := dc_size i_begin i_split in
  let n_lower := dc_size i_split i_end in
  let z0 := assemble_z i_begin i_split i_end rho (s_e0 s) (s_z0 s) in
  let srho := scale_rho rho in
  let tol := calc_tolerance m (view o (s_d0 s)) (view o z0) in
  let c := at_ o (init_coltypes nb dc_rows i_begin i_split i_end) (s_c s) in
  let i1 := if i_split =? i_begin + 1 then at_ o (init_index nb dc_rows i_begin i_split) (s_i1 s) else s_i1 s in
  let i1 := if i_split + 1 =? i_end then at_ (i_split * nb) (init_index nb dc_rows i_split i_end) i1 else i1 in
  let i1 := at_ (i_split * nb) (add_index n_lower n_upper) i1 in
  (* Step 1 *)
  match sort_index Rltb m n_upper (view o (s_d0 s)) (view o i1) (view o (s_i2 s)) with
  | None => None
  | Some i2 =>
    let '(_, d0, z0, c, rots) := deflate_R srho tol m i2 (view o (s_d0 s)) (view o z0) (view o c) in
    let e0 := put_block o o m m (apply_rotations rots (view2 o (s_e0 s))) (s_e0 s) in
    (* Step 2 *)
    let '(k, n_udl, i3, i5) := stable_partition Rltb m c d0 i2 (view o (s_i3 s)) (view o (s_i5 s)) in
    (* permute<Coord::Col>(i_begin, i_end, i5, e0, e1): C33 *)
    let e1 := put_block o o m m (fun i j => e0 (o + i) (o + i5 j)) (s_e1 s) in
    let d1 := apply_index m i3 d0 (view o (s_d1 s)) in
    let z1 := apply_index m i3 z0 (view o (s_z1 s)) in
    let d0 := fold_left (fun a i => upd a i (d1 i)) (zrange 0 m) d0 in
    let i2 := invert_index m i3 i2 in
    let i4 := apply_index m i5 i2 (view o (s_i4 s)) in
    let '(d0, z1, e2) := solve_rank1 laed4 workers (i_end - i_begin) m k srho d1 z1 d0 i4 (ord k) (view2 o (s_e2 s)) in
    (* Step 3 *)
    let e2 := put_block o o m m e2 (s_e2 s) in
    let e0 := multiply_eigenvectors o m n_upper n_lower k n_udl e0 e1 e2 in
    (* Step 4 *)
    let i1 := init_index nb dc_rows i_begin i_end (view o i1) in
    match sort_index Rltb m k d0 i1 i2 with
    | None => None
    | Some i2 =>
      let i1 := fold_left (fun a i => upd a i (i2 i)) (zrange 0 m) i1 in
      let back {A : Type} (a : Z -> A) : Z -> A := fun i => a (i - o) in
      Some (DCS e0 e1 e2 (back d0) (back d1) (back z0) (back z1) (back c) (back i1) (back i2) (back i3) (back i4) (back i5))
    end
  end.

(** ** The solver: impl.h:80-289 *)
(** cuppensDecomposition, impl.h:78-99 with cuppensDecomp, kernels.h:57-72: the new diagonal and the off-diagonal values, number i_split - 1 *)
Definition cuppens (d e : Z -> R) : (Z -> R) * (Z -> R) :=
  fold_left (fun s i_split => let '(d, off) := s in
    let top := (i_split - 1) * nb + (dc_rows (i_split - 1) - 1) in let bottom := i_split * nb in
    let v := e top in
    let d := upd d top (d top - Rabs v)%R in let d := upd d bottom (d bottom - Rabs v)%R in
    (d, upd off (i_split - 1) v)) (zrange 1 dc_nt) (d, fun _ => 0%R).
(** solveLeaf, impl.h:101-108 with stedc, lapack/tile.h:466-479, tile by tile: (diagonal, evecs) *)
Definition solve_leaf (d e : Z -> R) (evecs : Z -> Z -> R) : (Z -> R) * (Z -> Z -> R) :=
  fold_left (fun s i => let '(d, ev) := s in let o := i * nb in let m := dc_rows i in
    let '(lam, E) := stedc m (view o d) (view o e) in
    (fun j => if (o <=? j) && (j <? o + m) then lam (j - o) else d j, put_block o o m m E ev)) (zrange 0 dc_nt) (d, evecs).
(** offloadDiagonal, impl.h:132-139 *)
Definition offload_diagonal (d evals : Z -> R) : Z -> R :=
  fold_left (fun a i => fold_left (fun a j => upd a (i * nb + j) (d (i * nb + j))) (zrange 0 (dc_rows i)) a) (zrange 0 dc_nt) evals.

(** TridiagSolver::call, impl.h:198-277: (evals, evecs). [s] holds the arguments evals (d1), evecs (e2) and the contents of the workspaces
    when they are allocated; [ord]: the orders of the columns in the rank-one problem of each merge *)
Definition tridiag_solver (ord : Z * Z * Z -> Z -> Z -> list Z) (d e : Z -> R) (s : dcs) : option ((Z -> R) * (Z -> Z -> R)) :=
  if n =? 0 then Some (s_d1 s, s_e2 s) else
  if dc_nt =? 1 then let '(d, ev) := solve_leaf d e (s_e2 s) in Some (offload_diagonal d (s_d1 s), ev) else
  let e0 : Z -> Z -> R := fun _ _ => 0%R in
  let '(d, off) := cuppens d e in
  let '(d, e0) := solve_leaf d e e0 in
  let s0 := DCS e0 (s_e1 s) (s_e2 s) (offload_diagonal d (s_d0 s)) (s_d1 s) (s_z0 s) (s_z1 s) (s_c s) (s_i1 s) (s_i2 s) (s_i3 s) (s_i4 s) (s_i5 s) in
  match generate_subproblem_indices dc_nt with
  | None => None
  | Some l =>
    match fold_left (fun r t => match r with None => None | Some s => let '(b, m, e) := t in merge_subproblems (ord t) b m e (off (m - 1)) s end) l (Some s0) with
    | None => None
    | Some s => Some (apply_index n (s_i2 s) (s_d0 s) (s_d1 s), put_block 0 0 n n (fun i j => s_e0 s i (s_i2 s j)) (s_e2 s))
    end
  end.
End solver.

(** castToComplex, kernels.h:31-38: the overload for complex eigenvectors, impl.h:280-291, runs the real solver and converts its result *)
Definition cast_to_complex (E : Z -> Z -> R) : Z -> Z -> R * R := fun i j => (E i j, 0%R).
