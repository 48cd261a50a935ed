{"id": "C01", "title": "Every global element has exactly one owner and one local slot", "statement": "For any distribution of a matrix axis, each global element is stored by exactly one rank: the rank reported as its owner; on that rank its local index is the number of elements with smaller global index owned by the same rank, on every other rank the local-index query answers -1; and local size of a rank is the number of elements it owns.", "quantifier": "all matrix sizes, tile sizes, block sizes (multiples of tile size), grid sizes, source ranks, element offsets, ranks and elements", "why_tests_cant": "the claim ranges over unboundedly many sizes/grids/offsets; unit tests sample a few dozen literals", "anchors": ["include/dlaf/matrix/util_distribution.h", "include/dlaf/matrix/distribution.h:local_element_from_global_element,rank_global_element,local_size", "src/matrix/distribution.cpp:compute_local_size"]}
{"id": "C02", "title": "Global<->local element conversions are mutually inverse", "statement": "local->global followed by global->local (and vice versa, for owned elements) is the identity; local->global is strictly increasing and lands inside the matrix on elements owned by that rank.", "quantifier": "all distributions, ranks, local and global element indices in range", "why_tests_cant": "the claim ranges over unboundedly many sizes/grids/offsets; unit tests sample a few dozen literals", "anchors": ["include/dlaf/matrix/distribution.h:global_element_from_local_element,local_element_from_global_element", "include/dlaf/matrix/distribution_extensions.h:global_element_from_local_element_on_rank"]}
{"id": "C03", "title": "Tile-level ownership and local tile numbering", "statement": "The owner of a tile is (source rank + index of its block) mod grid; the local tile index is the number of smaller owned tiles (-1 if not owned); the 'next local tile' query returns the number of owned tiles with smaller index, i.e. the first owned tile >= the argument or the local tile count; the local tile count is the number of owned tiles; local->global tile conversion is its inverse.", "quantifier": "all distributions, ranks and tile indices including the one-past-the-end index", "why_tests_cant": "the claim ranges over unboundedly many sizes/grids/offsets; unit tests sample a few dozen literals", "anchors": ["include/dlaf/matrix/util_distribution.h:rank_global_tile,local_tile_from_global_tile,next_local_tile_from_global_tile,global_tile_from_local_tile", "src/matrix/distribution.cpp:compute_local_nr_tiles_and_local_size"]}
{"id": "C04", "title": "Tiles partition the axis", "statement": "(tile, element-in-tile) <-> element is a bijection between pairs with element-in-tile < size of that tile and global elements; tile sizes are positive, bounded by the nominal tile size, only the first and last can be short, and sum to the matrix size; the number of tiles is the number of distinct tile indices. The same holds for local tiles and the local size.", "quantifier": "all sizes, tile sizes, offsets", "why_tests_cant": "the claim ranges over unboundedly many sizes/grids/offsets; unit tests sample a few dozen literals", "anchors": ["include/dlaf/matrix/util_distribution.h:tile_from_element,tile_element_from_element,element_from_tile_and_tile_element", "include/dlaf/matrix/distribution.h:global_tile_size_of,local_tile_size_of", "src/matrix/distribution.cpp:compute_global_nr_tiles"]}
{"id": "C05", "title": "Constructor normalisation does not change the distribution", "statement": "A distribution built with element offset o and source rank s assigns element e to the rank that a block-cyclic distribution starting at absolute position o with first block on s assigns; the reported offset is < block size; shifting o by k*block and s by -k gives the same distribution. Tile-offset constructors equal element-offset ones.", "quantifier": "all non-negative offsets such that offset/block + source rank fits a 32-bit int, all grids", "why_tests_cant": "offsets and ranks are unbounded; wrap-around only shows at 2^31 blocks", "anchors": ["src/matrix/distribution.cpp:normalize_source_rank_and_offset"]}
{"id": "C06", "title": "Constructor argument checking", "statement": "A distribution constructor either terminates the process (documented precondition violated) or yields a well-formed distribution whose offset lies in [0, block size) and whose source rank lies in the grid.", "quantifier": "all argument values, including negative and huge offsets", "why_tests_cant": "negative or >2^31-block offsets are never passed by tests", "anchors": ["src/matrix/distribution.cpp:Distribution::Distribution,normalize_source_rank_and_offset"]}
{"id": "C07", "title": "Sub-distributions are restrictions", "statement": "Taking the sub-distribution (origin, size) of a distribution preserves for every element of the window its owner and its tile boundaries (sub tile index = parent tile index minus the tile index of origin); nested sub-distributions compose by adding origins; the whole window is the identity; local tiles of the sub-distribution are exactly parent tiles that intersect the window.", "quantifier": "all distributions, windows contained in the matrix, nesting depth any", "why_tests_cant": "the claim ranges over unboundedly many sizes/grids/offsets; unit tests sample a few dozen literals", "anchors": ["src/matrix/distribution.cpp:Distribution(Distribution,SubDistributionSpec)", "include/dlaf/matrix/distribution_extensions.h:global_tile_index_from_sub_distribution,tile_element_offset_from_sub_distribution"]}
{"id": "C08", "title": "Block-level view of a distribution is consistent", "statement": "Number of (local) blocks reported is the number of distinct blocks that contain an element of the matrix (owned by the rank), and the one-tile-per-block helper distribution equals the distribution constructed directly with tile size = block size.", "quantifier": "all distributions including empty ones with non-zero offset", "why_tests_cant": "the claim ranges over unboundedly many sizes/grids/offsets; unit tests sample a few dozen literals", "anchors": ["include/dlaf/matrix/distribution.h:nr_blocks,local_nr_blocks", "src/matrix/distribution.cpp:create_single_tile_per_block_distribution"]}
{"id": "C09", "title": "Distance helpers measure what they say", "statement": "The element distance between two tile indices equals the sum of the sizes of the tiles in between, globally, over local tiles, and over the local part of a global tile range; distance to the adjacent tile is the number of remaining elements of the tile.", "quantifier": "all distributions, all begin<=end tile ranges (incl. one-past-the-end)", "why_tests_cant": "the claim ranges over unboundedly many sizes/grids/offsets; unit tests sample a few dozen literals", "anchors": ["include/dlaf/matrix/distribution_extensions.h:global_tile_element_distance,local_element_distance_from_local_tile,local_element_distance_from_global_tile,distance_to_adjacent_tile"]}
{"id": "C10", "title": "Integer safety of index conversions", "statement": "If every intermediate is documented to fit (size + tile + offset and tile*grid products below 2^63) then no conversion overflows, divides by zero or narrows; conversions evaluate to their mathematical value.", "quantifier": "all argument values up to the 64-bit bound", "why_tests_cant": "overflow needs sizes no test allocates", "anchors": ["include/dlaf/matrix/util_distribution.h", "include/dlaf/types.h:to_signed,to_unsigned,integral_cast", "include/dlaf/util_math.h:ceilDiv"]}
{"id": "C11", "title": "2D linear index <-> coordinates is a bijection", "statement": "For both orderings, linear index and coordinates in a grid are mutually inverse, in range, and enumerate cells in the stated order; sub-range membership agrees with containment.", "quantifier": "all grid sizes and indices", "why_tests_cant": "the claim ranges over unboundedly many sizes/grids/offsets; unit tests sample a few dozen literals", "anchors": ["include/dlaf/common/index2d.h:computeCoords,computeLinearIndex,isIn,isInSub"]}
{"id": "C12", "title": "2D range iteration visits each index exactly once in column-major order", "statement": "Iterating a 2D range yields precisely the indices of the rectangle, each once, column by column; empty rectangles yield nothing; random access and membership agree with it.", "quantifier": "all begin/end/size combinations incl. empty", "why_tests_cant": "the claim ranges over unboundedly many sizes/grids/offsets; unit tests sample a few dozen literals", "anchors": ["include/dlaf/common/range2d.h"]}
{"id": "C13", "title": "Round-robin resources are handed out fairly", "statement": "n successive requests to a pool of n resources return n different resources, request k and k+n return the same one, and two processes that make the same number of requests get the same index.", "quantifier": "all pool sizes and request histories", "why_tests_cant": "history property", "anchors": ["include/dlaf/common/round_robin.h", "include/dlaf/communication/communicator_grid.h:full_communicator_pipeline"]}
{"id": "C14", "title": "Interleaved splits", "statement": "interleaveSplits(l,b,o1,o2) is strictly increasing, starts at 0, ends at l, and contains exactly the positions below l of the form o1+kb or o2+kb (plus 0 and l).", "quantifier": "all l,b>0 and offsets in [0,b]", "why_tests_cant": "the claim ranges over unboundedly many sizes/grids/offsets; unit tests sample a few dozen literals", "anchors": ["include/dlaf/util_math.h:interleaveSplits"]}
{"id": "C15", "title": "Matrix storage never aliases", "statement": "For every allocation layout (column-major, blocks, tiles) and leading dimension spec, two different local elements are stored at different addresses, every element lies inside its allocation, and every tile has its element (i,j) at base + i + ld*j with ld >= max(1, rows).", "quantifier": "all distributions, layouts, leading dimensions", "why_tests_cant": "the claim ranges over unboundedly many sizes/grids/offsets; unit tests sample a few dozen literals", "anchors": ["include/dlaf/matrix/matrix.h:set_up_non_preallocated_tiles,compute_ld", "include/dlaf/matrix/col_major_layout.h"]}
{"id": "C16", "title": "User-provided column-major memory is addressed as documented", "statement": "Element (i,j) of the local matrix wrapped from a user pointer is at ptr[i + ld*j]; no access leaves the min_mem_size() elements; min_mem_size is tight.", "quantifier": "all distributions with zero offset, all ld >= max(1, local rows)", "why_tests_cant": "the claim ranges over unboundedly many sizes/grids/offsets; unit tests sample a few dozen literals", "anchors": ["include/dlaf/matrix/col_major_layout.h", "include/dlaf/matrix/create_matrix.h", "src/c_api/utils.cpp:make_layout"]}
{"id": "C17", "title": "Sub-tiles address the right elements and disjoint specs never alias", "statement": "Element (i,j) of the sub-tile with origin (a,b) is element (a+i,b+j) of the tile; sub-tiles of sub-tiles compose; two sub-tile specs overlap (per the library's check) iff they share an element; non-overlapping sub-tiles share no address.", "quantifier": "all tiles, ld, specs within the tile", "why_tests_cant": "the claim ranges over unboundedly many sizes/grids/offsets; unit tests sample a few dozen literals", "anchors": ["include/dlaf/matrix/tile.h:createMemoryViewForSubtile,subTileSpecsOverlap"]}
{"id": "C18", "title": "Memory views stay inside their allocation and allocations are released exactly once", "statement": "Any sequence of view construction, sub-view, copy, move and destruction keeps every view inside its chunk; an owned chunk is freed exactly once, when the last view goes away, and user memory never.", "quantifier": "all histories of view operations", "why_tests_cant": "history property; double free needs specific orders", "anchors": ["include/dlaf/memory/memory_view.h", "include/dlaf/memory/memory_chunk.h"]}
{"id": "C19", "title": "Tile access order (pipeline) is program order with concurrent reads", "statement": "Requests to a tile are granted in request order; a write is granted only when all earlier accesses are released, reads are granted together when all earlier writes are released; no two conflicting accesses are ever held simultaneously; whenever holders release, the queue head is eventually granted (no lost wake-up).", "quantifier": "all request/release histories and schedules", "why_tests_cant": "schedules are unbounded", "anchors": ["include/dlaf/common/pipeline.h", "include/dlaf/matrix/internal/tile_pipeline.h"]}
{"id": "C20", "title": "Asynchronous execution is equivalent to sequential execution", "statement": "Any task program whose tasks access tiles through read()/readwrite() produces, under every schedule admitted by the tile pipelines, the same final tile values as executing the tasks one by one in program order; and no schedule deadlocks.", "quantifier": "all task programs, all schedules", "why_tests_cant": "exponentially many interleavings", "anchors": ["include/dlaf/matrix/matrix.h:read,readwrite", "include/dlaf/matrix/internal/tile_pipeline.h"]}
{"id": "C21", "title": "Sub-pipelines are sequenced as one access", "statement": "All accesses made through a sub-pipeline happen after earlier and before later accesses to the parent, whenever they are requested, and the parent sees the final value written through the sub-pipeline.", "quantifier": "all interleavings of requests to parent and sub pipelines, all nesting depths", "why_tests_cant": "history + schedule property", "anchors": ["include/dlaf/common/pipeline.h:sub_pipeline,release_parent_pipeline", "include/dlaf/matrix/matrix.h:set_up_sub_pipelines"]}
{"id": "C22", "title": "Retiling preserves elements", "statement": "A retiled sub-pipeline of a matrix has each element in exactly one of its tiles, at the same memory location as in the original, with sub-tiles of one tile pairwise disjoint and covering it, and the owner rank of each element unchanged.", "quantifier": "all distributions with one tile per block and all tiles-per-block divisors", "why_tests_cant": "the claim ranges over unboundedly many sizes/grids/offsets; unit tests sample a few dozen literals", "anchors": ["include/dlaf/matrix/matrix.h:set_up_retiled_sub_pipelines", "include/dlaf/matrix/matrix_base.h"]}
{"id": "C23", "title": "Matrix references address the parent's elements", "statement": "Element (i,j) of a matrix reference with origin o is element o+(i,j) of the parent, through the tile and sub-tile returned by read/readwrite.", "quantifier": "all matrices, windows", "why_tests_cant": "the claim ranges over unboundedly many sizes/grids/offsets; unit tests sample a few dozen literals", "anchors": ["include/dlaf/matrix/matrix_ref.h:read,readwrite"]}
{"id": "C24", "title": "Views select exactly the elements of the window", "statement": "Iterating a sub-matrix view (panel view) over local tiles and applying its sub-tile specs covers each local element with global index >= offset (and within the panel columns) exactly once and nothing else.", "quantifier": "all distributions, offsets, panel widths", "why_tests_cant": "the claim ranges over unboundedly many sizes/grids/offsets; unit tests sample a few dozen literals", "anchors": ["include/dlaf/matrix/views.h"]}
{"id": "C25", "title": "Redistribution copies every element", "statement": "After copying between two matrices with different distributions, every destination element equals the source element with the same global index, whatever order messages are posted in; every send has exactly one matching receive.", "quantifier": "all compatible distributions, grids and message schedules", "why_tests_cant": "needs specific message reorderings", "anchors": ["include/dlaf/matrix/copy.h:copy(Matrix,Matrix,CommunicatorGrid)"]}
{"id": "C26", "title": "Communicator grid coordinates", "statement": "Every process of the grid has a unique 2D position; the rank in the full communicator equals the row-major index of the position regardless of requested ordering; the row (column) communicator contains exactly the processes in the same grid row (column), ordered by their column (row) coordinate.", "quantifier": "all communicator sizes, grid shapes, orderings", "why_tests_cant": "the claim ranges over unboundedly many sizes/grids/offsets; unit tests sample a few dozen literals", "anchors": ["src/communication/communicator_grid.cpp", "include/dlaf/communication/communicator_grid.h"]}
{"id": "C27", "title": "Collective calls match across ranks", "statement": "In panel broadcasts every rank of a communicator posts the same sequence of collectives with the same root, the root owns the data, and afterwards each rank's panel (and transposed panel) slot k holds the source tile of global index k.", "quantifier": "all distributions, grids, panel ranges, roots", "why_tests_cant": "deadlocks/mismatches depend on grid and sizes", "anchors": ["include/dlaf/communication/broadcast_panel.h", "include/dlaf/matrix/panel.h"]}
{"id": "C28", "title": "Cholesky factorization", "statement": "In exact arithmetic, if tile-level potrf/trsm/herk/gemm meet their contracts, the tiled lower (upper) factorization of a Hermitian matrix produces L with L L^H = A (U^H U = A) in the referenced triangle and never touches the other triangle.", "quantifier": "all tile counts and tile sizes, both triangles", "why_tests_cant": "the claim ranges over unboundedly many sizes/grids/offsets; unit tests sample a few dozen literals", "anchors": ["include/dlaf/factorization/cholesky/impl.h"]}
{"id": "C29", "title": "Triangular solve", "statement": "In exact arithmetic, the tiled triangular solver overwrites B with alpha op(A)^-1 B (resp. alpha B op(A)^-1) for every side/uplo/op/diag combination.", "quantifier": "all tile counts, variants", "why_tests_cant": "the claim ranges over unboundedly many sizes/grids/offsets; unit tests sample a few dozen literals", "anchors": ["include/dlaf/solver/triangular/impl.h"]}
{"id": "C30", "title": "Triangular, Hermitian and general multiplication", "statement": "In exact arithmetic the tiled multiplications compute alpha op(A) B, alpha A B + beta C etc. for every variant, including the sub-range variant, and touch nothing else.", "quantifier": "all tile counts, variants, tile sub-ranges", "why_tests_cant": "the claim ranges over unboundedly many sizes/grids/offsets; unit tests sample a few dozen literals", "anchors": ["include/dlaf/multiplication"]}
{"id": "C31", "title": "Triangular inverse and inverse from a Cholesky factor", "statement": "In exact arithmetic the tiled algorithms overwrite the triangle with the inverse of the triangular matrix, resp. with the corresponding triangle of (L L^H)^-1.", "quantifier": "all tile counts, uplo, diag", "why_tests_cant": "the claim ranges over unboundedly many sizes/grids/offsets; unit tests sample a few dozen literals", "anchors": ["include/dlaf/inverse/triangular/impl.h", "include/dlaf/inverse/cholesky/impl.h"]}
{"id": "C32", "title": "Generalized to standard reduction", "statement": "In exact arithmetic the tiled reduction overwrites the triangle of A by the triangle of L^-1 A L^-H (U^-H A U^-1).", "quantifier": "all tile counts, uplo", "why_tests_cant": "the claim ranges over unboundedly many sizes/grids/offsets; unit tests sample a few dozen literals", "anchors": ["include/dlaf/eigensolver/gen_to_std/impl.h"]}
{"id": "C33", "title": "Permutations", "statement": "Permuting a tile range by a permutation gives out(i,:) = in(perm(i),:) (rows) / out(:,i)=in(:,perm(i)) (columns) inside the range, nothing outside it changes, and the distributed version gives the same global result as the local one.", "quantifier": "all distributions, tile ranges, permutations", "why_tests_cant": "the claim ranges over unboundedly many sizes/grids/offsets; unit tests sample a few dozen literals", "anchors": ["include/dlaf/permutations/general/impl.h"]}
{"id": "C34", "title": "Tridiagonal divide & conquer index bookkeeping", "statement": "The index arrays (initial, sorted, deflated partition, composed, inverted) used in merging are permutations; sorting merges two ascending ranges into an ascending order; inverting gives the inverse; the deflation partition is stable and separates deflated from non-deflated entries with the reported counts.", "quantifier": "all problem sizes, splits and value vectors", "why_tests_cant": "the claim ranges over unboundedly many sizes/grids/offsets; unit tests sample a few dozen literals", "anchors": ["include/dlaf/eigensolver/tridiag_solver/index_manipulation.h", "include/dlaf/eigensolver/tridiag_solver/merge.h"]}
{"id": "C35", "title": "Subproblem decomposition of the tridiagonal solver", "statement": "The recursive splitting produces a merge schedule whose leaves are all single tiles and in which each merge joins two adjacent, already solved ranges, ending with the whole range.", "quantifier": "all tile counts", "why_tests_cant": "the claim ranges over unboundedly many sizes/grids/offsets; unit tests sample a few dozen literals", "anchors": ["include/dlaf/eigensolver/tridiag_solver/impl.h"]}
{"id": "C36", "title": "Band size and 1D block size selection", "statement": "The band size is the smallest divisor of the block size not below the configured minimum (or the block size); the 1D block size is a positive multiple of the block size not above the configured base when possible.", "quantifier": "all block sizes and tune parameter values", "why_tests_cant": "the claim ranges over unboundedly many sizes/grids/offsets; unit tests sample a few dozen literals", "anchors": ["include/dlaf/eigensolver/internal/get_band_size.h", "include/dlaf/eigensolver/internal/get_1d_block_size.h"]}
{"id": "C37", "title": "Configuration precedence", "statement": "Each configuration value comes from the command line if given there, else from the environment variable if set, else from the user configuration; values for different options never influence each other; re-initialisation after finalize starts from the user configuration.", "quantifier": "all combinations of sources, all initialize/finalize histories", "why_tests_cant": "combinatorial + history", "anchors": ["src/init.cpp", "include/dlaf/init.h"]}
{"id": "C38", "title": "C API contexts identify grids", "statement": "A context returned by grid creation is fresh and keeps referring to the grid it was created for until it is freed; freeing one context does not affect others.", "quantifier": "all create/free histories", "why_tests_cant": "history property", "anchors": ["src/c_api/grid.cpp", "src/c_api/utils.cpp:grid_from_context"]}
{"id": "C39", "title": "Message/data descriptors cover exactly the data", "statement": "The (count, block length, stride) description of a tile used for communication covers exactly the tile elements; the contiguity test is exact; copy between two descriptors of equal total size preserves element order.", "quantifier": "all sizes and strides", "why_tests_cant": "the claim ranges over unboundedly many sizes/grids/offsets; unit tests sample a few dozen literals", "anchors": ["include/dlaf/common/data_descriptor.h", "include/dlaf/communication/message.h"]}
{"id": "C40", "title": "Band to tridiagonal sweep scheduling", "statement": "Tasks of successive sweeps are released only when the preceding sweep is far enough ahead, so that no two concurrent tasks touch the same band elements, and every sweep completes (no deadlock).", "quantifier": "all matrix sizes, band sizes, schedules", "why_tests_cant": "schedule property", "anchors": ["include/dlaf/eigensolver/band_to_tridiag/mc.h"]}
{"id": "C41", "title": "Matrix norm", "statement": "The distributed max norm returns, on the designated rank, the maximum absolute value over the referenced triangle/whole matrix independently of the distribution.", "quantifier": "all distributions, matrices", "why_tests_cant": "the claim ranges over unboundedly many sizes/grids/offsets; unit tests sample a few dozen literals", "anchors": ["include/dlaf/auxiliary/norm/mc.h"]}
{"id": "C42", "title": "Matrix construction rejects unsupported offset distributions", "statement": "Constructing a matrix from a distribution with non-zero offset is rejected (the code documents it as not supported); matrix metadata such as the allocation layout is always initialised.", "quantifier": "all distributions and construction paths", "why_tests_cant": "tests never construct with a non-zero offset expecting a rejection", "anchors": ["include/dlaf/matrix/matrix.h"]}
{"id": "C43", "title": "Checked integral casts", "statement": "The checked casts to_signed / to_unsigned / to_int / to_SizeType assert exactly when the value is not representable in the destination type, and otherwise return the same mathematical value.", "quantifier": "all pairs of integer types up to 64 bits and all source values", "why_tests_cant": "2^64 values per pair of types; tests try a handful", "anchors": ["include/dlaf/types.h: to_signed, to_unsigned, integral_cast"]}
{"id": "C44", "title": "Reduction to band form (local and distributed)", "statement": "On return of reduction_to_band the Householder vectors stored below the band and the taus define a unitary Q, and the lower band of the matrix defines a Hermitian band matrix B, with A = Q B Q^H; the strict upper triangle is unchanged. The values depend neither on the number of worker threads, nor on the order in which they run, nor on the schedule of the tasks; eigenpairs of B map to eigenpairs of A through Q. In the distributed variant this holds for the matrix spread over the grid, with the taus on all the ranks of the process column of their panel; every rank decides from its own data which collective calls its panel task makes, and these calls match, no rank waits for ever and every run terminates.", "quantifier": "all Hermitian matrices, sizes, tile sizes, band sizes dividing the tile size, thread counts, orders of threads inside the panel task, and task schedules; distributed: all grids, source ranks, and schedules of the ranks and of MPI", "why_tests_cant": "infinitely many matrices and schedules; data races between panel workers and reuse of round-robin workspaces show only under rare interleavings", "anchors": ["include/dlaf/eigensolver/reduction_to_band/impl.h", "include/dlaf/factorization/qr/t_factor_impl.h"]}
{"id": "C45", "title": "Back transformation of the reduction to band", "statement": "bt_reduction_to_band replaces C by Q C, Q the product of the reflectors that reduction_to_band stored, changes no other entry of C, and leaves V and the taus unchanged; so the eigenvectors of the band matrix become those of the original matrix. Called on a grid, the ranks' collective calls match, no rank waits for ever, and the distributed C becomes the same Q C.", "quantifier": "all sizes, tile sizes, band sizes, matrices C, reflectors and taus, thread counts and task schedules; distributed: all grids and schedules of ranks and MPI", "why_tests_cant": "infinitely many inputs and schedules; block boundaries interact with the band size in many ways", "anchors": ["include/dlaf/eigensolver/bt_reduction_to_band/impl.h", "include/dlaf/factorization/qr/t_factor_impl.h"]}
{"id": "C46", "title": "Band to tridiagonal (local): a unitary reduction", "statement": "On return of band_to_tridiagonal the reflectors stored in mat_v, multiplied in the documented order, are a unitary Q, the two columns of mat_trid are real, and band(A) = Q T Q^H, where band(A) is the Hermitian band matrix given by the lower triangle of the input and T is the tridiagonal matrix of mat_trid; eigenpairs of T are mapped by Q to eigenpairs of band(A) and conversely. This holds in every execution of the concurrent sweeps.", "quantifier": "all Hermitian matrices (real and complex), sizes, block sizes, band sizes >= 2 dividing the block size, thread counts, initial memory contents and interleavings of the sweep tasks", "why_tests_cant": "infinitely many matrices and sizes; the bulge chasing reads and writes overlapping parts of a compact storage in tasks that run concurrently, so that a wrong result may appear only under rare interleavings or for particular remainders of the sizes", "anchors": ["include/dlaf/eigensolver/band_to_tridiag/mc.h", "include/dlaf/eigensolver/band_to_tridiag/api.h", "include/dlaf/eigensolver/band_to_tridiag.h"]}
{"id": "C47", "title": "Back transformation band to tridiagonal (local and distributed) applies exactly Q", "statement": "bt_band_to_tridiagonal(band_size, E, HH) replaces E by Q E, where Q is the product of the Householder reflectors stored in HH in the order documented by band_to_tridiagonal, whatever the group size used to block the application; HH is unchanged. The distributed call does the same to a matrix E distributed over the process grid, with matching collective calls on all ranks and no deadlock. Applied to the output of band_to_tridiagonal, eigenvectors of the tridiagonal matrix become eigenvectors of the band matrix with the same eigenvalues, and orthonormal columns stay orthonormal.", "quantifier": "all sizes of HH and E (real and complex), band sizes >= 2, group sizes, column tilings of E, contents of HH, E and workspaces, and schedules of the tile tasks; distributed: also all process grids, block sizes, source ranks, and schedules of every rank and of MPI", "why_tests_cant": "the reflectors are applied diagonally blocked, in an order different from the one they are generated in, in groups of a tuning parameter, with two round-robin workspaces shared by asynchronous tasks: correctness depends on commuting reflectors with disjoint supports for every remainder of the sizes and every schedule", "anchors": ["include/dlaf/eigensolver/bt_band_to_tridiag/impl.h", "include/dlaf/eigensolver/bt_band_to_tridiag.h", "include/dlaf/eigensolver/band_to_tridiag/api.h"]}
{"id": "C48", "title": "Hermitian eigensolver (local)", "statement": "hermitian_eigensolver(Lower, A, evals, E, 0, k) returns all the eigenvalues of the Hermitian matrix A and, in the first k columns of E, orthonormal eigenvectors for the first k of them: A E = E diag(evals), E^H E = I. The call terminates in every execution. With uplo = Upper, and with tiles of size 1, the call is rejected.", "quantifier": "all Hermitian matrices (real and complex), sizes, tile sizes >= 2, minimal band sizes, thread counts, numbers k of eigenvectors, initial contents of workspaces, schedules of the tasks", "why_tests_cant": "infinitely many matrices and sizes; the result rests on five algorithms that hand over matrices in compact and retiled formats (reflectors below the band, taus, compact reflectors of the sweeps), each with its own remainders and its own schedule", "anchors": ["include/dlaf/eigensolver/eigensolver/impl.h", "include/dlaf/eigensolver/eigensolver.h"]}
{"id": "C49", "title": "Generalized Hermitian eigensolver (local)", "statement": "hermitian_generalized_eigensolver(Lower, A, B, evals, X, 0, k) returns all the eigenvalues of the pencil (A, B) and, in the first k columns of X, B-orthonormal eigenvectors: A X = B X diag(evals), X^H B X = I; the variant for an already factorized B gives the same for B = L L^H. The call terminates in every execution.", "quantifier": "all Hermitian A and Hermitian positive definite B (real and complex), sizes, tile sizes >= 2, configurations, k, initial contents of workspaces, schedules", "why_tests_cant": "infinitely many matrices and sizes; composition of Cholesky, reduction to standard form, the eigensolver and a triangular solve, each for every schedule", "anchors": ["include/dlaf/eigensolver/gen_eigensolver/impl.h", "include/dlaf/eigensolver/gen_eigensolver.h"]}
{"id": "C50", "title": "Tridiagonal divide and conquer eigensolver (local)", "statement": "tridiagonal_eigensolver(T, evals, evecs) returns ascending values and orthonormal vectors; the difference between T and evecs diag(evals) evecs^T is only what deflation drops: as a quadratic form at most ((1 + 24 n eps)^(nt-1) - 1) max(1, norm T), nt the number of tiles, and so is the residual of every vector. With exact comparisons (eps = 0) the result is an eigendecomposition. No order of the columns and no number of threads in the rank-one solver, and no initial contents of the workspaces changes this.", "quantifier": "all symmetric tridiagonal matrices, sizes, tile sizes, tolerances eps >= 0, worker counts, orders of the threads' work, workspace contents", "why_tests_cant": "infinitely many matrices, sizes and deflation patterns; thread interleavings; an error bound is a claim about all vectors", "anchors": ["include/dlaf/eigensolver/tridiag_solver/impl.h", "include/dlaf/eigensolver/tridiag_solver/merge.h", "include/dlaf/eigensolver/tridiag_solver/kernels.h", "include/dlaf/eigensolver/tridiag_solver/index_manipulation.h"]}
{"id": "C51", "title": "Setting and filling matrices", "statement": "matrix::util::set gives every element the value of the given function at its global indices (transposed and conjugated for the other operations), set_identity the identity. The set_random* functions give a matrix that depends on its size and tiling only: not on the grid, the rank, the blocks, the source rank or the previous contents. set_random_hermitian gives F(y,x) = conj(F(x,y)) although each rank fills its tiles alone; set_random_hermitian_positive_definite gives a positive definite matrix; set_random_non_zero_diagonal gives a diagonal of absolute value at least 0.1. No element outside a tile is written.", "quantifier": "all sizes, tile and block sizes, offsets, grids, ranks, random engines with values in [-1,1] (the unit disk), element functions", "why_tests_cant": "infinitely many distributions; positive definiteness is a claim about all vectors; agreement of ranks is a claim about pairs of executions on different grids", "anchors": ["include/dlaf/util_matrix.h: set, set_identity, set_random, set_random_hermitian, set_random_hermitian_banded, set_random_hermitian_positive_definite, set_random_non_zero_diagonal, getter_random"]}
{"id": "C52", "title": "Hermitian eigensolver (distributed)", "statement": "hermitian_eigensolver(grid, Lower, A, evals, E, 0, k) on matrices distributed over a process grid returns, on every rank, all the eigenvalues of the Hermitian matrix A and, in the first k columns of E, orthonormal eigenvectors for the first k of them: A E = E diag(evals), E^H E = I. All ranks make matching collective calls and the call ends on every rank. With uplo = Upper, and with blocks of size 1, the call is rejected.", "quantifier": "all process grids, source ranks (A and E on the same rank row), Hermitian matrices (real and complex), sizes, block sizes >= 2, minimal band sizes, thread counts, numbers k of eigenvectors, initial contents of workspaces, schedules of every rank and of MPI", "why_tests_cant": "a run of the test suite sees one interleaving of the ranks, of their tasks and of the messages, on a few grids and sizes; a deadlock or a wrong workspace shows up only for some of them", "anchors": ["include/dlaf/eigensolver/eigensolver/impl.h", "include/dlaf/eigensolver/eigensolver.h"]}
{"id": "C53", "title": "Generalized Hermitian eigensolver (distributed)", "statement": "hermitian_generalized_eigensolver(grid, Lower, A, B, evals, X, 0, k) on matrices distributed over a process grid returns all the eigenvalues of the pencil (A, B) and, in the first k columns of X, B-orthonormal eigenvectors: A X = B X diag(evals), X^H B X = I; the variant for an already factorized B gives the same for B = L L^H. All ranks make matching collective calls and the call ends on every rank.", "quantifier": "all process grids, source ranks (A, B, X on the same rank row, A and B on the same rank), Hermitian A and Hermitian positive definite B (real and complex), sizes, block sizes >= 2, configurations, k, initial contents of workspaces, schedules of every rank and of MPI", "why_tests_cant": "as C52", "anchors": ["include/dlaf/eigensolver/gen_eigensolver/impl.h", "include/dlaf/eigensolver/gen_eigensolver.h"]}
{"id": "C54", "title": "Distributed band to tridiagonal: messages", "statement": "The point-to-point messages that the ranks exchange in band_to_tridiagonal(grid, ...) match: for every ordered pair of ranks and every tag, the k-th message sent with that tag is the k-th message received with it, it has the extents and the destination (tile, column, worker, rows and column of the reflector matrix) that the receiver expects, nothing is sent that is not received or awaited that is not sent, no rank sends to itself. Messages of different kinds never share sender, addressee and tag; band tiles and reflector blocks have a tag of their own, worker messages with one tag come from one worker pipeline and go to one. The ranks of the one-dimensional distribution obtain every tile of the band exactly once, and every element of every Householder reflector is sent exactly once to its place in the reflector matrix, on the rank that owns it.", "quantifier": "all matrix sizes, block sizes, band sizes dividing the block size, tuning parameter at least the block size, process grids of at least two ranks, source ranks, real and complex element types, all ordered pairs of ranks and all tags", "why_tests_cant": "tests run a handful of grids and sizes; an unmatched or misrouted message is a hang or a silent data error that depends on the residues of size, block size, band size and number of ranks", "anchors": ["include/dlaf/eigensolver/band_to_tridiag/mc.h: BandToTridiag::call_L (grid), VAccessHelper, compute_copy_tag, compute_v_tag, compute_col_tag, compute_worker_tag", "include/dlaf/eigensolver/internal/get_1d_block_size.h: get1DBlockSize", "include/dlaf/eigensolver/band_to_tridiag/api.h: nrSweeps, nrStepsForSweep"]}
{"id": "C55", "title": "Distributed band to tridiagonal: schedule", "statement": "band_to_tridiagonal(grid, ...) cannot hang on its own synchronisation and has one result: whatever the order in which the runtime starts the ready tasks of all the ranks, and whichever sends wait for their receive (MPI leaves that open), as long as some task has not finished some task can go on, and every execution is finite. Two tasks that execute at the same time never touch the same column of a band block (the blocks are ring buffers whose places are reused), worker, message, reflector or tile of the result unless both only read it; so the final memory is that of one sequential order of the same tasks, each once. When two column or worker messages of different sweeps share sender, addressee and tag, the message of the later sweep is not started before that of the earlier sweep has been sent, nor its receive before the earlier one has been received, so that each receive gets its own message.", "quantifier": "all matrix sizes, block sizes, band sizes, tuning parameters, grids of at least two ranks, source ranks, element types; all interleavings of the tasks; all choices of the sends that wait for their receive; all functions computed by the tasks", "why_tests_cant": "a deadlock, a race on a reused place of a ring buffer or a swap of two messages with one tag depends on the scheduling of thousands of tasks on several ranks and on whether MPI buffers a send", "anchors": ["include/dlaf/eigensolver/band_to_tridiag/mc.h: BandToTridiag::call_L (grid), BandBlock, SweepWorkerDist, send_col, recv_col, send_worker, recv_worker"]}
{"id": "C56", "title": "Distributed band to tridiagonal: the result", "statement": "On a grid of at least two ranks band_to_tridiagonal(grid, Lower, b, A), in exact arithmetic, whatever the scheduling of the tasks of all the ranks and of MPI, ends and returns real d, e and reflectors with Q T Q^H = band(A), where T is the tridiagonal matrix of d and e and Q, the product of the reflectors in the documented order, is unitary; number by number it is what the local call returns. In particular the ring buffers of the band blocks, the steps that are split by the end of a buffer, the columns and workers that travel between ranks and the copies into the tridiagonal matrix lose nothing. Every task changes only the memory that C55 says it writes, and what it writes depends only on the memory that C55 says it reads.", "quantifier": "all matrix sizes, block sizes, band sizes, tuning parameters, grids of at least two ranks, source ranks, real and complex fields, Hermitian matrices, initial contents of the memory; all interleavings of the tasks; all choices of the sends that wait for their receive", "why_tests_cant": "the result must be right for every schedule and for every position at which the end of a ring buffer cuts a step; tests see a few sizes, grids and schedules", "anchors": ["include/dlaf/eigensolver/band_to_tridiag/mc.h: BandToTridiag::call_L (grid), BandBlock<T, true>, SweepWorkerDist::do_step, do_step_split, apply_HH_left_right_herm, apply_HH_left, apply_HH_right (split), copy_tridiag"]}
{"id": "C57", "title": "Distributed tridiagonal divide and conquer eigensolver", "statement": "tridiagonal_eigensolver(grid, T, evals, evecs) on a process grid returns ascending values and orthonormal columns that diagonalize T up to the error of deflation, a known multiple of the deflation tolerance (exactly if the tolerance is 0), however the eigenvectors are distributed, whatever the number of threads of each rank and the order in which they treat the columns, and whatever the workspaces contain. The rearrangement of the columns before each product keeps every column on its rank, groups the columns of each rank by type in a stable way with the deflated ones at the end, and its local form is the restriction of the global one, so it needs no communication.", "quantifier": "all matrix sizes, tile sizes, process grids, source ranks, offsets of the distribution, numbers of threads per rank, orders of the work, contents of the workspaces, tridiagonal matrices; all laed4 and stedc that meet their contracts; all column types and sorted orders", "why_tests_cant": "which columns deflate, on which rank they are, and how the products over threads and ranks are split differs with every matrix, grid and thread count; tests see a few of them", "anchors": ["include/dlaf/eigensolver/tridiag_solver/impl.h: TridiagSolver::call (grid), solveDistLeaf", "include/dlaf/eigensolver/tridiag_solver/merge.h: mergeDistSubproblems, stablePartitionIndexForDeflationArrays (distributed), solveRank1ProblemDist, multiplyEigenvectors (distributed)"]}
{"id": "C58", "title": "Distributed Givens rotations of the divide and conquer solver end and equal the serial application", "statement": "When the ranks of a grid apply the Givens rotations of deflation to the distributed eigenvector matrix, each rotation needing columns that may live in two process columns, then whatever the order in which tasks run and messages arrive on every rank, the ranks exchange matching columns, no rank waits forever, and the distributed matrix that results is the one obtained by applying the rotations one after the other to the undistributed matrix. Rows and columns outside the merged range are unchanged; ranks that own nothing of the range do not take part and nobody waits for them.", "quantifier": "every grid, tile size, matrix size, source rank, list of calls (range, tag, rotations on two different columns of the range), initial content and schedule of all ranks", "why_tests_cant": "Tests run a few grids and the schedules that happen to occur; a rotation may use a column that an earlier rotation changed on another rank, and a missed or crossed message shows only for some placements and interleavings.", "anchors": ["include/dlaf/eigensolver/tridiag_solver/rot.h: applyGivensRotationsToMatrixColumns (distributed)", "include/dlaf/eigensolver/tridiag_solver/merge.h: mergeDistSubproblems, applyDeflation"]}
{"id": "C59", "title": "Replicated vectors and reductions of the distributed divide and conquer solver agree on all ranks", "statement": "In the distributed tridiagonal eigensolver the tridiagonal matrix, the rank-one vector z and the eigenvalues are replicated and updated by broadcasts and reductions. Whatever the order in which the tasks of the ranks run, all ranks issue matching collective calls and none waits forever; after the leaves every rank holds the eigenvalues of every leaf and the owner its eigenvectors; every rank holds the same z, equal to the one the local solver computes from the undistributed eigenvectors; after the rank-one problem every rank holds all the eigenvalues, the weights of a process row are the products over its ranks and the sums of squares of a process column the sums over its ranks; when there are at most two values no rank makes a reduction.", "quantifier": "every grid, source rank, tile and matrix size, range of tiles, split, number of non-deflated values, content and schedule of all ranks", "why_tests_cant": "A rank that takes another branch, another root or another order of broadcasts hangs or mixes vectors only for some grids, source ranks, numbers of deflated values and schedules.", "anchors": ["include/dlaf/eigensolver/tridiag_solver/impl.h: solveDistLeaf", "include/dlaf/eigensolver/tridiag_solver/merge.h: assembleDistZVec, solveRank1ProblemDist", "include/dlaf/eigensolver/tridiag_solver/kernels.h: assembleRank1UpdateVectorTile"]}
{"id": "C60", "title": "Matrix mirrors give the same result on any device", "statement": "A program that works on a matrix through a mirror, and copies with copySourceToTarget / copyTargetToSource before it uses the side that is out of date, leaves the same content in the source matrix and in all other matrices whether the mirror is a copy on another device or the source itself (same device), for every schedule of the tasks; no schedule hangs. With different devices the source does not change while the mirror is alive, and never if the elements are const.", "quantifier": "every number of tiles, every sequence of tasks and copies between construction and destruction, const or not, every pair of schedules, every initial content", "why_tests_cant": "Tests run a few sequences with the schedules that happen to occur; the copies are asynchronous and race with the tasks unless the order of the accesses excludes it.", "anchors": ["include/dlaf/matrix/matrix_mirror.h: MatrixMirror", "include/dlaf/matrix/copy.h: copy"]}
{"id": "C61", "title": "Number of workers, their parts and workspaces in multi-threaded steps", "statement": "For every tune parameter and every number of threads the number of workers used for panels, T factors and rank-one problems is at least one and at most the number of threads (one thread is left free in the first two), without undefined behaviour; in the T factor every tile is treated by exactly one worker, no worker is without work, and the workspaces allocated by the callers suffice.", "quantifier": "every value of the tune parameters (any size_t), number of threads from one on, number of tiles", "why_tests_cant": "Tests run with one thread count and default parameters; the arithmetic is unsigned and clamped, errors show at the boundaries only.", "anchors": ["include/dlaf/eigensolver/internal/get_red2band_panel_nworkers.h: get_red2band_panel_num_workers", "include/dlaf/eigensolver/internal/get_tridiag_rank1_nworkers.h: get_tridiag_rank1_num_workers", "include/dlaf/factorization/qr/internal/get_tfactor_num_workers.h: get_tfactor_num_workers", "include/dlaf/factorization/qr/t_factor_impl.h: split_tfactor_work", "include/dlaf/eigensolver/reduction_to_band/impl.h: nworkers, nworkspaces"]}
{"id": "C62", "title": "Communication of tiles does not depend on device, layout or MPI build", "statement": "Broadcasts, messages and reductions of tiles have the same effect on the tiles wherever the tiles of the ranks are (CPU or GPU), whether their memory is contiguous or not, and however MPI was built: all ranks get the tile of the root / sender, reductions combine the tiles of all ranks, other tiles do not change; uninitialised memory is never sent or left in a tile. MPI gets GPU memory only if it is GPU aware, contiguous memory in reductions, and no copy is made of a tile that can be used directly.", "quantifier": "every set of ranks, device and layout of each tile, build option, reduction operation, content of tiles and of uninitialised memory", "why_tests_cant": "A test build has one set of options and few layouts; a missing copy shows only if a temporary is used, and uninitialised memory may hold the right value by chance.", "anchors": ["include/dlaf/sender/with_temporary_tile.h: withTemporaryTile", "include/dlaf/communication/kernels/internal/broadcast.h", "include/dlaf/communication/kernels/internal/p2p.h", "include/dlaf/communication/kernels/internal/reduce.h", "include/dlaf/communication/kernels/internal/all_reduce.h"]}
{"id": "C63", "title": "Eigenvalue ranges and argument checks of the C and ScaLAPACK-like eigensolver interfaces", "statement": "A call of the ScaLAPACK-like interface with the range il..iu (from 1, inclusive) either terminates the program or computes precisely the eigenvalues with numbers il..iu; it is accepted exactly for dense matrices of one context starting at (1,1) with equal square blocks, il = 1 and iu <= m (an empty range only for m = 0). The C interface counts from 0 with exclusive end, accepts begin 0 and end <= m, and without range computes all. The interfaces of the generalized problem behave the same, for all three matrices. No argument leads to undefined behaviour.", "quantifier": "every size, descriptor, index and range", "why_tests_cant": "Tests use a few ranges; off-by-one errors show at the boundaries (m = 0, the last eigenvalue, integer limits) only.", "anchors": ["src/c_api/eigensolver/eigensolver.h: pxheevd, hermitian_eigensolver", "src/c_api/eigensolver/eigensolver.cpp", "src/c_api/eigensolver/gen_eigensolver.h: pxhegvd, hermitian_generalized_eigensolver", "include/dlaf/eigensolver/eigensolver.h: hermitian_eigensolver"]}
