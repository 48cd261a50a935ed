{
 "C05": {
  "note": "Offsets whose block quotient fits a 32-bit int (the code narrows it); the case beyond is C06_huge_offset_wrong_source_refuted."
 },
 "C06": {
  "status": "partial",
  "note": "The literal claim is false of the code: negative tile sizes and negative offsets are accepted in release builds and offsets of 2^31 or more blocks give a wrong (negative) source rank; *_refuted theorems give witnesses. Proved: documented arguments are accepted and give the requested layout, each checked precondition aborts, negative blocks never pass."
 },
 "C07": {
  "note": ""
 },
 "C08": {
  "status": "partial",
  "note": "False for empty distributions with an offset beyond the first tile of a block (C08_empty_distribution_refuted); proved for every non-empty axis and for empty ones with offset below a tile."
 },
 "C09": {
  "status": "partial",
  "note": "global_tile_element_distance(nr_tiles, nr_tiles) is not 0 in general (C09_empty_range_at_end_refuted); all other ranges proved."
 },
 "C10": {
  "note": "Bound used: size + 2*block + grid <= 2^63-1 and 2*grid-1 <= 2^31-1; the second is necessary (C10_large_grid_overflows_refuted)."
 },
 "C12": {
  "note": "Quantifier: non-negative sizes; a Size2D with two negative extents is not rejected and iterates phantom indices (C12_negative_size_refuted)."
 },
 "C43": {
  "note": "The assertions are DLAF_ASSERT_MODERATE, i.e. compiled out at lower assertion levels; the model returns the conjunction of their conditions with the cast value."
 },
 "C15": {
  "note": "Leading dimension precondition: at least max(1, rows) of each piece (otherwise not accepted, C15_small_ld_rejected); column-major storage needs a zero offset."
 },
 "C16": {
  "note": "Includes the C API descriptor path. A null pointer for a non-empty matrix is not rejected (see C18_null_pointer_accepted_refuted)."
 },
 "C18": {
  "note": "Proved for sub-view arguments >= 0 (documented, not checked by the code: C18_negative_offset_accepted_refuted); null user pointers keep their size and a self move-assignment loses the size (refuted theorems)."
 },
 "C42": {
  "status": "partial",
  "note": "The claim is false: the constructor's offset check reads a moved-from parameter, so tile/block storage accepts offsets (C42_offset_accepted_refuted), and sub-pipeline matrices never initialise allocation_layout_ (C42_sub_pipeline_layout_refuted). Proved: column-major storage of a non-empty local matrix rejects, and both public constructors report the requested layout."
 },
 "C22": {
  "note": "Original matrix with one tile per block and an offset that is a multiple of the block (the code drops the offset: C22_offset_refuted); tiles_per_block must divide the block (not checked: C22_not_a_divisor_refuted)."
 },
 "C23": {
  "note": ""
 },
 "C24": {
  "status": "partial",
  "note": "SubMatrixView fully proved. SubPanelView proved on ranks that own the panel's tile column and for tile-aligned distribution offsets; elsewhere the claim is false of the code (three *_refuted theorems)."
 },
 "C19": {
  "note": "pika's async_rw_mutex (an external library) is modelled by its documented group queue; every request/release history is covered."
 },
 "C20": {
  "note": "All jobs whose accesses to one tile are not read+write/write+write within one job; C20_read_and_write_same_tile_refuted shows that restriction is needed. Loads and stores of running tasks interleave arbitrarily."
 },
 "C21": {
  "status": "proved",
  "note": "Pipeline<T>: all histories of read/readwrite/sub_pipeline/reset, all nesting depths, all schedules (C21_*). Matrices (sub_pipeline, retiled_sub_pipeline: tiles that refer in place to (parts of) the parent's tile and keep its access alive): all histories of requests, sub-matrices of any nesting depth and destructions, all schedules (C21_tiles_*): values, order, no deadlock, termination. Excluded by the hypotheses, and shown to go wrong: one task that uses a pipeline and its live sub-pipeline deadlocks; move-assigning onto a live sub-pipeline loses the parent's value."
 },
 "C36": {
  "status": "partial",
  "note": "The band size part is proved in full. The 1D block size is proved when the base is at least the tile size; otherwise the code returns 1 and the distributed band-to-tridiagonal reduction copies nothing (C36_small_base_refuted)."
 },
 "C37": {
  "status": "partial",
  "note": "Precedence, independence and reset of the configuration proved. False parts refuted: tune parameters are not reset by finalize, the device pool uses wrong fields, documented names differ. Text-to-number parsing and program_options parsing are parameters."
 },
 "C38": {
  "status": "partial",
  "note": "A context keeps denoting its grid until freed in every history; freshness holds when grids are freed most-recent-first (C38_fresh_and_correct) and is false in general (C38_context_reused_refuted)."
 },
 "C39": {
  "note": "Message theorem for counts that fit an int; beyond that C39_large_tile_refuted. MPI_Type_vector and MPI_Reduce by contract."
 },
 "C26": {
  "note": "MPI_Comm_split modelled by its standard contract; grid sizes positive."
 },
 "C28": {
  "status": "proved",
  "note": "Local and distributed, both triangles. Local: every field with conjugation, every tiling, every schedule of the asynchronous tile machine. Distributed: every grid shape, source rank, matrix and block size, every schedule of every rank and every MPI completion order; matching collectives, no deadlock, factor in the triangle, rest unchanged. Exact arithmetic; kernels by contract (kernels_ok, with reference kernels as witness); GPU variants not modelled."
 },
 "C29": {
  "status": "proved",
  "note": "All variants, local and distributed (LLN/LLT/LUN/LUT/RLN/RLT/RUN/RUT, Trans and ConjTrans, unit or not): every size, tiling, grid shape, source rank, schedule and MPI completion order, including alpha = 0; collectives match, no deadlock, mat_a unchanged. Exact arithmetic, kernels by contract. The distributed theorem assumes mat_a and mat_b have the same source rank along the shared direction, which the library does not check (finding 20)."
 },
 "C30": {
  "status": "proved",
  "note": "Triangular multiplication: local (all variants) and distributed (the four implemented NoTrans variants). General (NoTrans, NoTrans) and Hermitian (left, lower), the only variants the library implements: local and distributed, every grid, tiling, schedule. Distributed: whole matrices (offset (0,0)); MatrixRef sub-matrices only in the local theorem."
 },
 "C31": {
  "status": "proved",
  "note": "Local and distributed triangular inverse (both triangles, both diagonals) and inverse from a Cholesky factor: every size, tiling, grid shape, source rank, schedule and MPI completion order. The assembly needs a real diagonal, which a Cholesky factor has. Exact arithmetic, kernels by contract."
 },
 "C32": {
  "status": "proved",
  "note": "Local and distributed reduction (both triangles): every size, tiling, grid shape, source rank, schedule and MPI completion order, with the equivalence of the eigenproblems. Exact arithmetic, kernels by contract; hegst's read-write access to the factor is modelled as a read; mat_a and mat_b from the same source rank (not checked by the library)."
 },
 "C27": {
  "note": "Machine of DistMachine.v: per-rank asynchronous tasks plus MPI calls in communicator order; choreography theorem every_run_intro. Tiles of a panel are named by their global index. Stated for square distributions without offset (what broadcast asserts); the grid may have any size."
 },
 "C34": {
  "status": "proved",
  "note": "initIndex, addIndex, sortIndex, applyIndex, invertIndex, the local stable partition by column type and applyDeflation (exact reals, any tolerance). The distributed variant of the stable partition is not modelled."
 },
 "C35": {
  "status": "proved",
  "note": "Split recursion and merge schedule for every number of tiles."
 },
 "C33": {
  "status": "proved",
  "note": "Local and distributed call, rows and columns, every P x Q grid, source rank, tile range and permutation, any order of the bulk bodies, any uninitialised memory. The theorem also says that every point-to-point message of the exchange has its receive with the same shape. Assumes input and output have the same distribution (the code checks sizes, tiles and grid but not the source rank). GPU variant not modelled."
 },
 "C41": {
  "status": "proved",
  "note": "For any totally ordered norm type (exact values, no NaN), any grid/distribution with one tile per block, any order in which MPI combines the contributions. Upper is DLAF_UNIMPLEMENTED in the code and so is not a case. C41_result_exists shows that a run exists."
 },
 "C25": {
  "status": "partial",
  "note": "Every send has exactly one receive, for all distributions and posting orders. Every element arrives (a) for all distributions when every rank posts in loop order, (b) for all posting orders when the tags are distinct (proved for one process row, one tile column, equal distributions). The unrestricted claim is false of the code: C25_tag_collision_refuted (tag = row + col*ld with ld too small, communicator taken shared())."
 },
 "C44": {
  "status": "proved",
  "note": "Local and distributed (every grid, every schedule of ranks and MPI) on the MC backend, exact arithmetic over any field with conjugation and square roots of sums of squares (instances: real and complex numbers). Local: the panel and T-factor threads are modelled phase by phase between barriers; the order of the threads inside the update phase is arbitrary. Distributed: whole matrices (offset (0,0)); every rank decides the branches of its panel task from its own data; the number of pika threads available to the blocking MPI calls of the panel task is not modelled."
 },
 "C45": {
  "status": "proved",
  "note": "Local and distributed (every grid, every schedule of ranks and MPI) on the MC backend, exact arithmetic over any field with conjugation. Tile kernels enter through their contracts. Distributed: whole matrices (offset (0,0)), mat_c and mat_v on the same source rank row (not checked by the library, DESIGN 7.24)."
 },
 "C40": {
  "status": "proved",
  "note": "Local call on the MC backend, all sizes, band sizes dividing the block size, thread counts and interleavings of non-atomic actions. C40_footprints shows that the locations by which races are defined are those that the (transcribed) BLAS calls access. The distributed variant is not modelled."
 },
 "C46": {
  "status": "proved",
  "note": "Local call on the MC backend, exact arithmetic over any field with an involution (real case: identity involution); lapack::larfg is a parameter with the contract larfg_ok (B2TSpec.v), satisfied by a reference larfg over the reals and the complex numbers. The other BLAS/LAPACK calls are written out. band_size = 1 is not covered (the public function asserts band_size >= 2)."
 },
 "C47": {
  "status": "proved",
  "note": "Local and distributed (every grid, every schedule of ranks and MPI) on the MC backend, exact arithmetic over any field with an involution. lapack::larft is a parameter with the contract larft_ok (BtB2TModel.v), met by the reference larft proved in BtB2TFinal.v; trmm/gemm through their contracts. HH and E are modelled through their retilings to tiles of band_size rows (C07 covers retiling). Distributed: whole matrices (offset (0,0)), mat_e and mat_hh on the same source rank row (not checked by the library, DESIGN 7.25). GPU kernels not modelled."
 },
 "C48": {
  "status": "proved",
  "note": "Local call, MC backend, exact arithmetic. tridiagonal_eigensolver enters through its contract ts_ok (its result is an eigendecomposition of the tridiagonal matrix); C50 proves this contract for the real and the complex solver. The phases are composed one after the other (overlap of tasks of different phases is covered by C20, not by this theorem). C48_some_execution: not vacuous."
 },
 "C49": {
  "status": "proved",
  "note": "As C48; Cholesky (C28), generalized_to_standard (C32) and the triangular solve (C29) for every schedule."
 },
 "C50": {
  "status": "proved",
  "note": "Local call, CPU, exact real arithmetic with the machine epsilon of the deflation test as a parameter; laed4 and stedc (one tile) enter through contracts that are shown to be satisfiable (exact_laed4_ok by the intermediate value theorem, exact_stedc_ok). C50_real_eigensolver / C50_complex_eigensolver: C48 with this solver. C50_relative_error_refuted: the error is not small relative to the norm of T, because T is not scaled."
 },
 "C51": {
  "status": "proved",
  "note": "The random engine is a parameter; exact arithmetic for positive definiteness and for the annulus. C51_banded_diagonal_tile_refuted and C51_offset_mismatch_refuted record two promises of the documentation that do not hold (the band inside diagonal tiles; square size and square tiles do not suffice when the offsets of rows and columns differ), they are not part of the property."
 },
 "C52": {
  "status": "partial",
  "note": "The composition of reduction_to_band (C44), band_to_tridiagonal (C46 on one rank, C56 otherwise), tridiagonal_eigensolver (C57), bt_band_to_tridiagonal (C47) and bt_reduction_to_band (C45) on the grid, real and complex: the result claim is proved with contracts of BLAS/LAPACK kernels only (C52_real/complex_eigensolver_distributed_partial; *_contract: any solvers that meet their contracts). Missing: in the tridiagonal solver a collective is its result; matching of its calls is proved phase by phase (leaves, z vector, rank-one problem: C59; rotations: C58; product: C30; permutations: C33), not composed into one program of the solver (it is for the other phases of the eigensolver). The phases are composed one after the other; exact arithmetic. C52_some_*_run_distributed: not vacuous."
 },
 "C53": {
  "status": "partial",
  "note": "As C52; distributed Cholesky (C28), generalized_to_standard (C32) and triangular solve (C29) for every run. Missing: as C52 (one program of the collective calls inside the tridiagonal solver)."
 },
 "C54": {
  "status": "proved",
  "note": "For every rank, the list of sends, receives and copies in program order (B2TMsgModel). Data are named, not valued. C54_column_tags_unique_refuted: column tags are shared (also by blocks nranks apart), so that for columns the pairing of sends and receives rests on the order in which the runtime starts them, which is C55 (C55_column_messages_in_order). The cast of tags to int and MPI_TAG_UB are not modelled."
 },
 "C55": {
  "status": "proved",
  "note": "All ranks together: semaphores per block and sweep, worker pipelines, column and worker messages with or without rendezvous, footprints on the ring buffers. What tasks compute is a parameter that depends only on the memory the task is said to read (C56: the real one does). Simplified: the copy of a column of tiles of the band (its messages are in C54) is one action; the reflectors go to a place per step (panel_v round robin, reflector messages and the final broadcast are not in the schedule)."
 },
 "C56": {
  "status": "proved",
  "note": "Values of the tasks of C55: kernels on ring buffers (full and split steps), start of a sweep, copies of the band, column and worker messages, copies into mat_trid; exact arithmetic, larfg by contract (ref_larfg satisfies it). Simplified: Copy takes the tiles of the matrix directly and the reflectors stay where the worker stores them (V is any matrix that holds them at their places; panel_v, the reflector messages and the final broadcast of mat_trid are in C54 only)."
 },
 "C57": {
  "status": "proved",
  "note": "Distributed call, CPU, exact real arithmetic with the machine epsilon of the deflation test as a parameter; laed4 and stedc (one tile) by contract (satisfiable: exact_laed4_ok, exact_stedc_ok). Modelled through the conversions of the distribution of each sub-problem (sub_distribution): the partition by rank and type, the rank-one problem with its per-rank, per-thread workspaces and reductions over process rows and columns, products and copies, local permutation. Simplified: vectors are replicated, a collective is its result, matrices are functions of global indices, the exchange of columns in the rotations and the z vector are those of the local merge."
 },
 "C58": {
  "status": "proved",
  "note": "Every run of all the ranks (DistMachine) ends, exchanges match, result = serial rotations; C58_merge: for the rotations that deflation generates, exactly the block that the model of the distributed merge (C57) uses. A Isend/Irecv pair with wait is one exchange of a two-member channel; local column layout is not modelled (columns indexed by global row). Real numbers."
 },
 "C59": {
  "status": "proved",
  "note": "Every run of all the ranks (DistMachine) of the three sequences of collective calls; local work (stedc, laed4, partial products and sums) is an opaque function, the values with which C57 goes on. Message sizes are not part of the signature of a call; communications of multiplyEigenvectors and permutations are C30/C33, of the rotations C58. Real numbers."
 },
 "C60": {
  "status": "proved",
  "note": "Built on the asynchronous machine of C20; tiles are values, a copy between devices is a task that reads one tile and writes the other. C60_same_device_refuted: the documented 'source is unchanged while the mirror is alive' fails with the same device (the mirror is the source), so programs must follow the discipline stated."
 },
 "C61": {
  "status": "proved",
  "note": "size_t arithmetic modulo 2^64; C61_no_tiles_refuted: split_tfactor_work divides by zero for a panel without tiles (callers return before). The tune parameters are read twice (workspaces, split): assumed unchanged in between."
 },
 "C62": {
  "status": "proved",
  "note": "MPI operations by contract on buffers; tile content is one value, device and contiguity are flags. Lifetime of the temporary (kept until the operation ends: let_value) is not modelled."
 },
 "C63": {
  "status": "proved",
  "note": "Argument handling only; the computation is C48/C52, the layout of the user memory C16, the mirrors C60. C63_interior_range_refuted: ranges that do not start at the first eigenvalue, valid in ScaLAPACK, terminate the program (documented precondition). C63_scalapack_generalized_range: pxhegvd and pxhegvd_factorized (the same checks, with those of b)."
 }
}