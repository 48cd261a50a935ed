(** * Model of the collective communications of the distributed divide and conquer solver:
    leaves (impl.h:300-323), z vector (merge.h:1217-1249), rank-one problem (merge.h:1294-1318, 1462-1660). *)
From Coq Require Import ZArith List Bool Reals.
From Verif Require Import CInt Loop DistModel DenseJobs DistMachine DistGrid DcModel DcRotModel.
Import ListNotations.
Local Open Scope Z_scope.

(** content of a tile; tiles of vectors have one column (tridiag: two) *)
Definition tile := Z -> Z -> R.

Section grid.
Variables P Q : Z.
Variable src : coord -> Z.
Notation trk := (tile_rank P Q src).
(** the rank of tile (i, j) of the matrix of eigenvectors *)
Definition own2 (i j : Z) : Z := rk Q (trk Row i) (trk Col j).
(** tiles of rank r: tridiag / z / eigenvalues (replicated vectors, one tile for each tile row), eigenvectors, workspaces *)
Definition tTri (r i : Z) : tid := Tid r 0 i 0.
Definition tEv (r i j : Z) : tid := Tid r 1 i j.
Definition tZ (r i : Z) : tid := Tid r 2 i 0.
Definition tLam (r i : Z) : tid := Tid r 3 i 0.
Definition tW (r : Z) : tid := Tid r 4 0 0.
Definition tS (r : Z) : tid := Tid r 5 0 0.
Definition in1 (f : tile -> tile) (vs : list tile) (d : tile) : tile := f (hd d vs).
(** full_task_chain.size() > 1 *)
Definition many : bool := 1 <? P * Q.
(** the part of rank r in "the owner computes, then broadcasts to everybody" (impl.h:308-321, merge.h:1233-1247) *)
Definition owner_bcast (r root : Z) (jobs : list (tjob tile)) (t : Z -> tid) : list (act tile) :=
  if root =? r then map ALoc jobs ++ (if many then [ACom (bsend CFull root (t r))] else [])
  else [ACom (brecv CFull root (t r))].

(** solveDistLeaf, impl.h:300-323. [stedc i]: eigenvalues (tridiag, column 0) and eigenvectors of tile i.
    Simplification: stedcAsync is one task with two outputs; here two tasks, the second writes tridiag *)
Section leaf.
Variable stedc_vecs stedc_vals : Z -> tile -> tile.
Variable nt : Z.
Definition leaf_jobs (r i : Z) : list (tjob tile) :=
  [TJob [tTri r i] (tEv r i i) (in1 (stedc_vecs i)); TJob [] (tTri r i) (fun _ d => stedc_vals i d)].
Definition leaf_prog (r : Z) : list (act tile) :=
  flat_map (fun i => owner_bcast r (own2 i i) (leaf_jobs r i) (fun q => tTri q i)) (zrange 0 nt).
End leaf.

(** assembleDistZVec, merge.h:1217-1249. [row top]: assembleRank1UpdateVectorTile (kernels.h:97-118): z tile from the tile of eigenvectors *)
Section zvec.
Variable row : bool -> Z -> tile -> tile.
Variables i_begin i_split i_end : Z.
Definition z_row (i : Z) : Z := i_split - (if i <? i_split then 1 else 0).
Definition z_jobs (r i : Z) : list (tjob tile) := [TJob [tEv r (z_row i) i] (tZ r i) (in1 (row (i <? i_split) (z_row i)))].
Definition z_prog (r : Z) : list (act tile) :=
  flat_map (fun i => owner_bcast r (own2 (z_row i) i) (z_jobs r i) (fun q => tZ q i)) (zrange i_begin i_end).
End zvec.

(** solveRank1ProblemDist, merge.h:1269-1690: its communications, made by thread 0. Local work is opaque:
    [lam r i]: eigenvalues of tile i, computed by rank r from the replicated d and z (1378-1389, 1427-1468);
    [w r]: partial weights (1484-1575); [sq r v]: partial sums of squares, given the weights from the product v (1588-1650) *)
Section rank1.
Variable k : Z.
Variables i_begin i_end : Z.
Variable lam : Z -> Z -> tile.
Variable w : Z -> tile.
Variable sq : Z -> tile -> tile.
(** MPI_PROD, MPI_SUM over the members of a communicator, in place *)
Definition reduce (op : R -> R -> R) (vs : list tile) (d : tile) : tile :=
  fun a b => match vs with [] => d a b | v :: l => fold_left (fun s x => op s (x a b)) l (v a b) end.
Definition all_reduce (c : comm) (op : R -> R -> R) (t : tid) : cact tile :=
  CAct c SAllReduce (Some t) (Some t) (members P Q c) (reduce op).
Definition rank1_prog (r : Z) : list (act tile) :=
  (* STEP 1: the eigenvalues of the own columns *)
  flat_map (fun i => if co Q Col r =? trk Col i then [ALoc (TJob [] (tLam r i) (fun _ _ => lam r i))] else []) (zrange i_begin i_end) ++
  (* STEP 2, bcast_evals: 1294-1318, 1474 *)
  (if 1 <? Q then
     map (fun i => let root := rk Q (co Q Row r) (trk Col i) in
       ACom (if co Q Col r =? trk Col i then bsend (CRow (co Q Row r)) root (tLam r i) else brecv (CRow (co Q Row r)) root (tLam r i))) (zrange i_begin i_end)
   else []) ++
  (* 1478 *)
  (if k <=? 2 then []
   else
     [ALoc (TJob [] (tW r) (fun _ _ => w r))] ++
     (* 1577-1581 *)
     (if 1 <? Q then [ACom (all_reduce (CRow (co Q Row r)) Rmult (tW r))] else []) ++
     [ALoc (TJob [tW r] (tS r) (in1 (sq r)))] ++
     (* 1655-1658 *)
     (if 1 <? P then [ACom (all_reduce (CCol (co Q Col r)) Rplus (tS r))] else [])).
End rank1.
End grid.
