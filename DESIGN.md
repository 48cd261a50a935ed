# DLA-Future in Rocq/Coq: design

Source: `/repo` (eth-cscs/DLA-Future, pinned).  Everything below is a hand-written
Gallina model of that C++ code; the code itself is never compiled here.

## 1. Trusted base

* Coq 8.16.1 kernel (`coqc`, no plugins, no kernel switches).
* The axioms listed by `Print Assumptions` under every theorem of the
  `Properties_*.v` files (every theorem is followed by `Print Assumptions`): they are "Closed under the
  global context", except the theorem that needs real numbers, see section 4.
* The faithfulness of the model: each definition cites the file and lines it
  transcribes, and says where it simplifies.  Section 3 lists what is not modelled.

## 2. Modelling conventions

* `SizeType` (int64) and `int` are modelled by `Z`.  C++ `/` and `%` are `Z.quot`
  and `Z.rem` (truncating), not floor division.  Division by zero, signed overflow
  and narrowing are made visible by the *checked* layer (`CInt.v`): a result type
  with distinct outcomes `Ok v | Abort | UB`, where `Abort` is a failed `DLAF_ASSERT`
  and `UB` is overflow / division by zero / read of an indeterminate value.  The
  unchecked layer (plain `Z` functions) is proven equal to the checked layer under
  explicit size bounds (C10).
* `DLAF_ASSERT` (always on) is modelled where it decides an outcome.
  `DLAF_ASSERT_HEAVY/MODERATE` (off in release builds) are not executed; their
  conditions appear as theorem hypotheses.
* Specifications live in `*Spec.v` files and do not use model helpers: they are
  phrased by counting (`count of smaller owned elements`), by absolute positions, by
  sums over index ranges, by sequential folds etc.
* Each area has `XModel.v` (transcription), `XSpec.v` (independent
  specification), `XProofs.v` (lemmas), and the property theorems, with
  non-vacuity examples and `Print Assumptions`, in `Properties_*.v`.
* Properties the code violates are stated as `..._refuted` theorems (a concrete
  witness on the transcribed code violating the English property), next to the
  strongest true variant.

## 3. Plan per property

| id | modelled | how proved |
|----|----------|-----------|
| C01-C04 | `util_distribution.h`, `Distribution` 1D index conversions, size computations, per axis | closed formulas shown equal to counting specs by induction on the index (step lemmas), nonlinear division lemmas |
| C05-C06 | constructors + `normalize_source_rank_and_offset`, including the int cast | checked layer; absolute-position owner invariant; `_refuted` for negative and 2^31-block offsets |
| C07 | `Distribution(Distribution, SubDistributionSpec)` and sub-distribution helpers | owner/tile preservation in absolute positions; composition by record equality |
| C08 | `nr_blocks`, `local_nr_blocks`, `create_single_tile_per_block_distribution` | counting spec; `_refuted` for empty matrices with offset |
| C09 | distance helpers of `distribution_extensions.h` | sums of tile sizes by induction |
| C10 | `ceilDiv`, casts, checked versions of the conversions | checked = unchecked under bounds |
| C11-C12 | `index2d.h`, `range2d.h` | division lemmas; list equality with the specification enumeration |
| C13 | `round_robin.h` | induction over request histories |
| C14 | `interleaveSplits` | loop invariant, fuel-free recursion on the remaining distance |
| C15-C16 | `matrix.h` tile setup for the three allocations, `col_major_layout.h`, `create_matrix.h` | injectivity of address map, bounds |
| C17 | sub-tile views, `subTileSpecsOverlap` | address arithmetic |
| C18 | `memory_view.h`, `memory_chunk.h` | transition system over histories with ownership counts; invariant |
| C19-C21 | `pipeline.h`, `tile_pipeline.h` | labelled transition system over requests/grants/releases; invariants; simulation to sequential execution |
| C22-C24 | `matrix_base.h`, `matrix_ref.h`, `views.h`, retiling | element-location equalities via C01-C04 lemmas |
| C25 | `copy.h` redistribution with MPI message matching | tags/`_refuted` witness; program-order variant proven |
| C26 | `communicator_grid.cpp` | MPI_Comm_split semantics, bijection |
| C27 | `broadcast_panel.h`, `panel.h` | traces of collectives per rank, equality of traces |
| C28-C32 | loop nests of the tiled dense algorithms over an abstract ring of tiles with kernel contracts | loop invariants |
| C33 | `permutations/general/impl.h` | element maps |
| C34-C35 | `index_manipulation.h`, `merge.h`, `impl.h` | permutation lemmas, induction on recursion |
| C36 | `get_band_size.h`, `get_1d_block_size.h` | divisor search invariant |
| C37 | `init.cpp` option layering | functional record updates, histories |
| C38 | `c_api/grid.cpp` | transition system; `_refuted` history |
| C39 | `data_descriptor.h`, `message.h` | address sets |
| C40 | `band_to_tridiag/mc.h` (local) semaphores, copies, sweeps, results | generic semaphore machine with non-atomic actions; counting invariants for the semaphores, conflicting actions ordered by them, swap argument for the final memory |
| C41 | `norm/mc.h` | max over partitions |
| C44 | `reduction_to_band/impl.h` (local and distributed, MC), `t_factor_impl.h` | Householder QR of the panel (invariant per reflector), block reflector I - V T V^H, two-sided update algebra, induction over the panels; `r2b_unique` for independence of threads; distributed: choreography of every iteration (panel task with its all-reductions, T factor, broadcasts, partial sums of X reduced over columns and rows, update), refined to the local algorithm; the branches of the panel task depend on the data: machine of `DistAdapt.v`, whose program is selected by the values recorded so far |
| C45 | `bt_reduction_to_band/impl.h` (local and distributed), `t_factor_impl.h:422-466` | block reflectors applied from the last to the first, reusing C44's T factor; distributed: choreography of local phases, broadcasts and all-reductions whose projection is every rank's program, partial sums over process columns added up (`lsum_owner`), T equal on all ranks by uniqueness of its recurrence |
| C46 | `band_to_tridiag/mc.h` (local): larfg, hemv/her2, gemv/ger on the compact band storage, copies, results | compact storage as a matrix (`low`); invariants between sweeps and inside a sweep (pending reflector applied to the left columns only), conjugation algebra, then C40 for all schedules |
| C47 | `bt_band_to_tridiag/impl.h` (local and distributed, MC): setupVWellFormed, computeT/VW, ApplyHHTo{Single,Double}TileRow, TileAccessHelper, the loop over diagonals | every job applies the product of the reflectors of its block (grouped compact WY, larft by contract); reordering of commuting (disjoint) reflectors from the documented order to the blocked one; `every_schedule_m`. Distributed: every rank's tasks and MPI calls (broadcast of the reflectors along the row, send to the row below, all-reduce between two rows) as a global sequence of events with matching projections; effect of one block on the grid; order of the blocks of the skewed epochs |
| C48, C49 | `eigensolver/impl.h`, `gen_eigensolver/impl.h` (local) | weakest precondition of the sequence of calls (each algorithm from any memory holding its inputs, every schedule); composition of C44, C46, contract of the tridiagonal solver, C47, C45; for C49 also C28, C32, C29 |
| C52, C53 | the same files, distributed calls | weakest precondition of the sequence of distributed calls (`every_run`, `every_adaptive_run` from any memory of the ranks that holds the inputs); band_to_tridiagonal by C46 and C56 (Properties_DistEigB2T), the distributed tridiagonal solver by C57 (Properties_DistEigFull); `_partial`: the matching of the collective calls inside the tridiagonal solver is missing |
| C54 | band_to_tridiag/mc.h:870-1560 (messages of call_L on a grid, VAccessHelper, tags), get_1d_block_size.h | list of operations of each rank in program order, data by name; sends of one rank and receives of the other are flat_maps over the same loops, compared iteration by iteration (workers: shifted by one block); tags by ranges and mixed-radix uniqueness |
| C55 | band_to_tridiag/mc.h:1158-1545 (tasks, semaphores, worker pipelines, column and worker messages of call_L on a grid, all ranks together), BandBlock ring buffers | tasks are programs of join/acquire/release/action (SemModel); progress by a lexicographic key on the least unfinished task and a count of releases per semaphore; no race and one result: every two conflicting actions are ordered by a chain of waits (columns: invariant on what holds a column at the start of a sweep), Reorder |
| C56 | band_to_tridiag/mc.h:121-171, 174-425, 428-650, 1213-1334, 1516-1538 (what the tasks of C55 compute) | effects of the tasks on lists of numbers; every kernel on a ring buffer, split or not, corresponds to the kernel on the unrolled band (wrel: columns in a window, nothing else changes); simulation of the sequential order of C55 by that of the local algorithm (home s q c: the block that holds column c), then C46; footprints of C55 proved for these effects |
| C57 | `eigensolver/tridiag_solver/{impl,merge}.h` (distributed): impl.h:293-471, merge.h:386-592, 1269-1938 | the model goes through sub_distribution and the index conversions of DistModel; dpart_ok: everything the distributed partition guarantees (from C01, C02: position of a column among those of its rank); the rank-one problem: product over threads, then over process columns = product over all kept columns (regrouping), squares over process rows = sum over all rows; dist_core reduces one merge to the facts used for C50; then the induction of C50 |
| C58 | `eigensolver/tridiag_solver/rot.h`:217-393 (distributed rotations), 43-115 | choreography (DistMachine): per process row, call and rotation an exchange of two columns and the rotation on both ranks; the projections are the programs of the ranks (a rank that owns a column of the range passes the range test: own_in_range); values: effect of an event list on the columns of a process row, rows are independent; C58_merge uses the facts of C34 about the rotations |
| C59 | `eigensolver/tridiag_solver/impl.h`:300-323 (solveDistLeaf), `merge.h`:1217-1249 (assembleDistZVec), 1294-1318, 1462-1660 (communications of solveRank1ProblemDist), `kernels.h`:97-118 | choreography (DistMachine): one broadcast or reduction event per tile or process row / column, projections are the programs of the ranks; values by induction on the events; z compared with the model of the local solver (assemble_z, C50) |
| C60 | `matrix/matrix_mirror.h`:26-164, `matrix/copy.h`:36-79 | program with a mirror compiled to jobs of the asynchronous machine (C20), for equal and for different devices; simulation relation between the two sequential runs (which side is newer) |
| C61 | `eigensolver/internal/get_red2band_panel_nworkers.h`, `get_tridiag_rank1_nworkers.h`, `factorization/qr/internal/get_tfactor_num_workers.h`, `factorization/qr/t_factor_impl.h`:54-71, `reduction_to_band/impl.h`:269-275, 1037-1038, `tridiag_solver/merge.h`:813-818, 1345-1354 | size_t arithmetic modulo 2^64, clamp and division with undefined behaviour; direct arithmetic proofs |
| C62 | `sender/with_temporary_tile.h`:88-203, `communication/kernels/internal/{broadcast,p2p,reduce,all_reduce}.h`, `src/communication/kernels/*.cpp`, `communication/rdma.h`, `matrix/copy_tile.h`:197-225 | buffer before and tile after each operation as functions of device, contiguity, flags of the call and arbitrary uninitialised content; MPI by contract; case analysis |
| C63 | `src/c_api/eigensolver/eigensolver.h`:30-106, `eigensolver.cpp`, `gen_eigensolver.h`:31-165, `eigensolver/eigensolver.h`:150-168, `src/c_api/utils.cpp`:26-33 | the sequence of assertions and the index conversion in the Ok/Abort/UB monad; case analysis |
| C50 | `eigensolver/tridiag_solver/{impl,merge,kernels,index_manipulation,rot}.h` (local) | quadratic forms: invariant "every finished interval of tiles holds orthonormal columns and ascending (via i1) values whose form differs from the form of its part of the (torn) matrix by at most dlt"; one merge = deflation (rotations keep the form, dropping costs tol) + rank-one problem (Loewner formula: the recomputed z makes the laed4 roots exact; every order of the columns) + block products + sort; induction over the merge list (C34) |
| C51 | `util_matrix.h:158-598` (set*, set_random*) | every loop over a tile is a list of writes (tile_is: succeeds, all elements covered, later writes of an element agree); global coordinates through C01-C03; Hermitian symmetry because the writes of the tile (i, j) and (j, i) come from the same stream; positive definite by diagonal dominance of the quadratic form |
| C42 | `matrix.h` constructors with moved-from parameters | evaluation of the transcribed constructor; `_refuted` |


## 4. Axioms

`Print Assumptions` prints "Closed under the global context" for every theorem, with these exceptions:
`C34_deflation` (Givens rotations over `R`) and the concrete instances (`CplxField.v`: the real and complex
numbers as a `starfield` with square roots; the examples of C44) list the axioms of Coq's own real numbers,
`ClassicalDedekindReals.sig_forall_dec`, `ClassicalDedekindReals.sig_not_dec` and
`FunctionalExtensionality.functional_extensionality_dep` (all of the standard library).  The general C44 theorems are stated for any field and do not use them.  Loading the
standard library's `Reals` makes tools list these for the whole environment; no other theorem uses them.
Nothing of our own is assumed: no `Axiom`, `Parameter`, `Admitted`, functor or module type.  Sections
use `Variable`/`Hypothesis`, all discharged.

## 5. Where things are

| area | model | specification | proofs | theorems |
|------|-------|---------------|--------|----------|
| distributions (C01-C10) | DistModel, DistCtor, DistChecked, DistSub | DistSpec | DistProofs, DistProofs2, DistBuilt, DistThms, DivLemmas | Properties_Dist, Properties_Sub |
| indices, ranges, round robin, splits, casts (C11-C14, C43) | IndexModel | in Properties_Index | Loop | Properties_Index |
| storage and memory (C15-C18, C42) | MemModel, MemHist, MemAxis | in Properties_Mem | MemProofs, MemThms | Properties_Mem, Properties_MemHist |
| pipelines, asynchronous execution (C19-C21) | PipeModel, AsyncModel, SubPipeModel, TileSubModel (in-place sub-tiles of matrices) | sequential folds | AsyncProofs, AsyncExec, SubPipeProofs, TileSubProofs | Properties_Pipe, Properties_Async, Properties_Sub, Properties_TileSub |
| retiling, references, views (C22-C24) | ViewModel | absolute positions | - | Properties_Retile, Properties_View |
| redistribution copy (C25) | CopyModel | - | CopyProofs | Properties_Copy |
| communicator grid (C26) | CommGridModel | - | - | Properties_CommGrid |
| distributed machine | DistMachine, DistGrid | - | DistSim, DistLocal, DistMat; Reorder, DistProg, DistPhase, DistLift (a distributed program simulates the local one phase by phase) | - |
| panels (C27) | PanelModel | - | PanelProofs | Properties_Panel |
| dense framework | StarField (fields with conjugation), Tiling, DenseJobs (asynchronous tile machine), TileJobs, BlockJobs | DenseSpec | RefKernels (kernels that satisfy the contracts) | - |
| Cholesky (C28) | CholeskyModel, DistCholeskyModel | DenseSpec | CholeskyProofs, DistCholeskyProofs | Properties_Cholesky, Properties_DistCholesky |
| triangular solve and multiplication (C29, C30) | TriangularModel, DistTriModel | DenseSpec | TriangularProofs, DistTriProofs | Properties_Triangular, Properties_DistTri |
| general and Hermitian multiplication (C30) | MultModel, DistMultModel | DenseSpec | in Properties_Mult, DistMultProofs | Properties_Mult, Properties_DistMult |
| inverses (C31) | InverseModel, DistInverseModel | DenseSpec | InverseProofs, AssembleProofs, DistInverseProofs | Properties_Inverse, Properties_DistInverse |
| generalised to standard (C32) | GenToStdModel, DistGenToStdModel | DenseSpec | GenToStdProofs, DistGenToStdProofs, DistGenToStdPhase | Properties_GenToStd, Properties_DistGenToStd |
| reduction to band (C44) | HouseModel, MultiJobs (tasks that update several tiles), Red2BandModel, DistR2BModel, DistAdapt (programs that branch on their data) | HouseSpec, Red2BandSpec | HouseProofs, HouseQR, TFactorProofs, Red2BandProofs, Red2BandTheory, CplxField, DistR2BIdx, DistR2BPanel, DistR2BStep, DistR2BTrail, DistR2BIter, DistR2BProofs, DistR2BAdapt | Properties_Red2Band, Properties_DistR2B |
| back transformation of the reduction to band (C45) | BtRed2BandModel, DistBtR2BModel | Red2BandSpec | BtRed2BandProofs, DistBtR2BProofs | Properties_BtRed2Band, Properties_DistBtR2B |
| band to tridiagonal, schedule (C40) | SemModel, B2TModel | B2TSpec (larfg) | SemProofs, B2TSched, B2TFrame | Properties_B2T |
| band to tridiagonal, result (C46) | B2TModel | B2TSpec, B2TResult | B2TAlg, B2TStore, B2TCopy, B2TNum, B2TFinal | Properties_B2TNum |
| back transformation of band to tridiagonal (C47) | BtB2TModel, DistBtB2TModel | B2TResult | BtB2TTile, BtB2TApply, BtB2TProofs, BtB2TFinal, DistBtB2T{Facts,Tile,Idx,Events,Proofs,Final} | Properties_BtB2T, Properties_DistBtB2T |
| eigensolvers (C48, C49; distributed C52, C53) | EigModel, DistEigModel | EigSpec | EigProofs | Properties_Eig, Properties_DistEig |
| messages of the distributed band_to_tridiag (C54) | B2TMsgModel | B2TMsgSpec | B2TMsgProofs, B2TMsgMatch, B2TMsgTags, B2TMsgCover | Properties_B2TMsg |
| schedule of the distributed band_to_tridiag (C55) | B2TDistModel | - | B2TDistStruct, B2TDistOrder, B2TDistProgress, B2TDistSeq, B2TDistKey, B2TDistFinal, B2TDistFifo | Properties_B2TDist |
| values of the distributed band_to_tridiag (C56) | B2TDistVal | B2TResult, B2TSpec | B2TDistSplit, B2TDistRing, B2TDistStep, B2TDistCopy, B2TDistFrame, B2TDistSim | Properties_B2TDistNum, Properties_DistEigB2T (C52, C53) |
| distributed divide and conquer (C57) | DcDistModel | DcSums, DcEig | DcDistPart, DcDistRank1, DcDistCore, DcDistMerge, DcDistSolver | Properties_DcDist, Properties_DistEigFull (C52, C53) |
| distributed rotations (C58) | DcRotModel | Properties_DcRot (holder, stores, rotate_all) | DcRotProofs | Properties_DcRot |
| replicated vectors of D&C (C59) | DcCommModel | Properties_DcComm (prow_of, pcol_of, number, vecs, vals, z_kernel) | DcCommProofs, DcCommRank1 | Properties_DcComm |
| matrix mirrors (C60) | MirrorModel | Properties_Mirror (disciplined, content) | Properties_Mirror | Properties_Mirror |
| worker counts (C61) | WorkersModel | Properties_Workers | Properties_Workers | Properties_Workers |
| temporary tiles (C62) | TempTileModel | Properties_TempTile (combine_from, mpi_memory_ok) | Properties_TempTile | Properties_TempTile |
| C eigensolver interfaces (C63) | CEigModel | Properties_CEig (descriptor) | Properties_CEig | Properties_CEig |
| divide and conquer (C50) | DcModel (with TridiagModel) | DcSums, DcEig | DcSecular, DcRank1, DcDeflate, DcCore, DcMerge, DcSolver, DcLaed4 | Properties_Dc |
| setting matrices (C51) | UtilMatModel | (in Properties_UtilMat) | UtilMatProofs | Properties_UtilMat |
| permutations (C33) | PermModel | PermAxis | PermProofs, PermRoute, PermDist | Properties_Perm |
| divide and conquer (C34, C35) | TridiagModel | - | TridiagProofs, TridiagDeflation | Properties_Tridiag |
| band size, 1D block size (C36) | BandSizeModel | - | - | Properties_BandSize |
| configuration (C37) | ConfigModel | - | - | Properties_Config |
| C API contexts (C38) | CApiModel | - | - | Properties_CApi |
| data descriptors, messages (C39) | DataModel | - | - | Properties_Data |
| norm (C41) | NormModel | - | - | Properties_Norm |

## 6. What the models assume, area by area

**Asynchronous execution.**  `async_rw_mutex` (pika, an external library) is modelled by its documented
contract: requests on a tile are granted in order, consecutive reads together.  Tasks are arbitrary
functions of the tiles they access; their loads and stores interleave in any way.  C20 proves that every
such execution ends as the sequential one.  The dense-algorithm theorems are stated with the coarser
`every_schedule`/`every_run` machines, in which a task runs atomically when all the earlier tasks in
conflict with it are done; C19/C20 are the justification for that rule.  Priorities, stack sizes, thread
pools and the GPU back ends are not modelled.

**Dense algorithms.**  Arithmetic is exact: any field with an involution (`starfield`).  BLAS/LAPACK tile
kernels are parameters `kn : kernels K` with a contract `kernels_ok kn` (what each kernel computes on the
part of the tile it may touch, unchanged elsewhere); `RefKernels.v` gives kernels that satisfy the
contract for complex rationals, so the hypotheses are met.  `hegst` is given a read-only factor (the code
passes it read-write).  Local matrices: any tiling.  Distributed matrices: every grid size, source rank,
matrix size and block size; offset (0, 0) and one tile per block, as the functions require.

**Reduction to band.**  The field must have square roots of sums of squares (`roots`; real and complex
numbers are instances).  The panel task runs its worker threads between barriers; each phase is modelled,
and the updates of the threads inside a phase run in any order (they touch disjoint tiles, so finer
interleavings give the same).  `panel_worker_minwork`, thread counts: arbitrary.  The compact workspaces
are whole tiles.  The distributed call is not modelled.

**Band to tridiagonal** (`SemModel.v`, `B2TModel.v`).  Tasks are sequences of acquire, release, wait for a task
(when_all, tile and worker pipelines) and actions; an action reads its inputs when it begins and writes its
outputs when it ends, other tasks run in between.  Counting semaphores, any interleaving, any number of threads
(the number of workers depends on it).  The BLAS calls are written out on the linear memory of the band block, so
that the addresses (leading dimensions 2b - 1 and 2b) are part of the model; lapack::larfg is a parameter.  Each
column of the compact storage is one unit of conflict.  The pipelines of the tiles of the results are modelled where two tasks
write the same tile.

**Distributed machine** (`DistMachine.v`).  Each rank has its program: a list of local tasks and MPI calls,
in the order of submission.  A local task runs when the earlier tasks of the rank in conflict with it
(reads and writes of tiles) are done; an MPI call is posted when, in addition, the earlier calls on the
same communicator are posted (the communicator pipelines, C19); calls of different ranks match by their
position in the communicator; a call completes eagerly or waits for its peers, as MPI allows; the
completion order is arbitrary.  `every_run` says: no mismatch, no deadlock, all final states satisfy the
postcondition.  Panel tiles are named by their global index; links to matrix tiles (setTile) are read at
the point of use, legal because no task of the models writes a linked tile before the reads (for the
triangular multiplication the trmm is placed after them, as the tile pipeline does).  setWidth/setHeight
are not modelled: kernels take explicit sizes.  Round robin workspaces (C13) are modelled: two workspaces
used in turn, so reuse conflicts are covered.

**Redistribution copy.**  Any posting order per rank, messages matched by (source, tag), non-overtaking;
the limit MPI_TAG_UB is not modelled.

**Permutations.**  Bulk bodies run in any order; std::sort on distinct keys; packed buffers column major.

**Divide and conquer.**  Vectors are contiguous; exact reals, no NaN.

**Norm.**  Any totally ordered type, no NaN; MPI_Reduce combines in any order.

**Configuration, C API.**  Command line and environment as maps from names to already parsed values;
BLACS and MPI handles by their documented contracts.

## 7. Findings

Differences between the documentation and the code, met while proving.  Those marked R have a `_refuted`
theorem with a concrete witness.

1. R negative tile sizes and offsets accepted, huge offsets give a wrong source rank (C06).
2. R empty distributions with an offset have wrong block counts (C08); `global_tile_element_distance` at the end (C09).
3. R sub-panel views on other ranks, missing tiles, offsets (C24).
4. R redistribution with colliding tags (C25).
5. R tune parameters are not reset, device pool from wrong fields, documented option names (C37).
6. R C API contexts can be reused, BLACS grids registered twice (C38).
7. R offset check reads a moved-from parameter (C42); sub-pipeline matrices do not initialise the allocation layout.
8. R large tiles overflow MPI counts (C39); R base smaller than a tile gives 1D blocks that copy nothing (C36).
9. `IterableRange2D` computes its end in the index type (possible int overflow).
10. `set_up_retiled_sub_pipelines`: the assertion `mat.blockSize() == mat.tile_size()` compares the already retiled sizes.
11. `grid_ordering` (C API): processes outside the BLACS grid make every rank exit.
12. the triangular solver divides by alpha; for alpha = 0 floating point gives NaN (the model's exact result is proved correct).
13. `lauum` ignores the imaginary part of the diagonal: the inverse needs a real diagonal.
14. `permute`, the triangular solver/multiplication (and their `multipliable` check) and `generalized_to_standard` do not compare source ranks of the two matrices
    (`util_matrix.h`: "TODO distributed (fix offset)"); the theorems assume equal source ranks along the shared axis.
15. the distributed `band_to_tridiagonal` documents `block size % band_size == 0` as a precondition but, unlike the local one, does not assert it.
16. `band_to_tridiag.h` documents `last(sw)` as the index of the last reflector of sweep `sw`, but the formula is the number of reflectors (the last index is one less); the theorems use the number.
17. The eigensolvers reject tiles of size 1 (`getBandSize(1) = 1`, and `reduction_to_band` asserts `band_size >= 2`), which their documentation does not exclude (C48_rejected).
18. `gen_eigensolver/impl.h:49` solves with `Op::ConjTrans` for both values of `uplo`; for `Upper` (B = U^H U) it would have to be `NoTrans`. Not reachable today, because the eigensolver rejects `Upper`.
19. R `calcTolerance` (`merge.h:246-268`) copies the tolerance `8 eps max(|d|, |z|)` of LAPACK's dlaed2, but dstedc scales T before; the code does not, so for norm(T) << 1 off-diagonal elements are lost: the error can be half of norm(T) whatever eps (C50_relative_error_refuted).
20. The tridiagonal solver treats vectors (and columns of the eigenvector matrices in the rank-one solver) as contiguous over tiles, which holds for column-major allocation only; the tune parameter for the default allocation layout also allows others.
21. The return codes of `lapack::stedc` (`lapack/tile.h:477`) and `lapack::laed4` (`merge.h`) are dropped: a leaf that does not converge is not reported.
22. R `set_random_hermitian_banded` (`util_matrix.h:505`) applies the band only in tiles off the diagonal: with a band smaller than the tile the diagonal tiles are full (C51_banded_diagonal_tile_refuted).
23. R `set_random_hermitian*` and `set_random_non_zero_diagonal` assert square size and square tile size only. For a matrix whose offsets in rows and columns differ (sub-matrix reference, offset constructor) `set_diagonal_tile` writes outside the tile (C51_offset_mismatch_refuted).
24. The distributed `bt_reduction_to_band` (`bt_reduction_to_band.h:88-95`) does not check that mat_c and mat_v start on the same rank row, which the loops (local row indices of C used in the panels of V) need; the theorem assumes it.
25. The distributed `bt_band_to_tridiagonal` does not check that mat_e and mat_hh start on the same rank row; the owner of a block of reflectors is used as the owner of the rows of E (`impl.h:459-467`), so the theorem assumes it. Its `nrSweeps == 0` test does not fire for a real 1 x 1 matrix (the number is -1); the loop is empty, so nothing happens. The row panels w2 ignore the row of the index, so all blocks of an epoch share one workspace per column (serialises, still correct).
26. Distributed `band_to_tridiagonal` (`mc.h:1140-1150`): the tag of the last column of block id is the tag of the other columns of block id + ranks (`C54_column_tag_shared`); the comment claims one tag per block. Sender and receiver start them many sweeps apart, so this is harmless only because of the data dependencies (proved: C55_column_messages_in_order). Tags grow with (size/P)(size/Q)/(nb b) and are cast to `int` without a check against MPI_TAG_UB. `offset_worker_tag` adds `offset_col_tag` twice when there are two ranks (harmless, wastes tags).
27. R `MatrixMirror` documents "the source matrix is unchanged and accessible while the mirror is alive"; if source and target device are the same the mirror is the source, so it changes (C60_same_device_refuted): programs that read the source in between differ between CPU and GPU.
28. `get_tridiag_rank1_num_workers` says it leaves one thread free, but may use all threads (C61_case). The assertion on the workspaces of the T factor (`t_factor_impl.h:111`) compares the requested range with itself, not with the number of workspaces that exist; they suffice (C61_tfactor_split) as long as the tune parameter is not changed in between.
29. `eigensolver.h` documents `eigenvalues_index_end < N`, but asserts and needs `<= N` (the whole spectrum). The ScaLAPACK-like calls accept an empty range for m = 0 only, the C API for every m; both only ranges that start at the first eigenvalue (C63_interior_range_refuted).

## 8. Not modelled

Floating point rounding, BLAS/LAPACK/GPU kernels (contracts only), the pika runtime internals
(scheduling is an arbitrary interleaving), MPI internals (semantic contract), printing, HDF5 I/O, the
Python/Spack packaging, miniapps; of the eigensolver: in the distributed band to tridiagonal, the path of the reflectors from the worker to
mat_v and the final broadcast of mat_trid beyond their messages (C54); the messages and
collective calls of the distributed divide and conquer solver (C57: a collective is its result; the messages of the rotations are C58, of leaves, z and rank-one problem C59; not composed into one program); the GPU variants of the divide and conquer solver.
