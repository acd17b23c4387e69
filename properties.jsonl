{"id": "C01", "title": "Sparsity pattern is a set", "statement": "After any sequence of addnz_sparsepattern / clear_sparsepattern calls on a fresh pattern, the row lists contain exactly the (row,col) pairs added since the last clear, each pair once; no call touches memory outside the row array as long as row < rows.", "quantifier": "every number of rows and columns and every finite sequence of add/clear calls", "why_tests_cant": "the list of operation histories is unbounded and duplicates only show up for particular repetition patterns", "anchors": ["Library/sparsepattern.c:new_sparsepattern", "Library/sparsepattern.c:clear_sparsepattern", "Library/sparsepattern.c:addnz_sparsepattern"]}
{"id": "C02", "title": "Sparse matrix behaves like a dense matrix restricted to its pattern", "statement": "new_zero_sparsematrix(sp) yields the zero matrix whose stored positions are exactly the pattern's pairs with a valid row-start array; setentry/addentry on a stored position change exactly that entry and addentry returns the new value; on a position that is not stored they stop on an assertion and never write elsewhere; sort_sparsematrix changes neither the matrix nor the set of stored positions and moves each stored diagonal entry to the front of its row.", "quantifier": "every pattern without duplicates, every position, value and operation history", "why_tests_cant": "compressed-row data structures fail for rare pattern shapes (empty rows, last row, missing diagonal)", "anchors": ["Library/sparsematrix.c:new_zero_sparsematrix", "Library/sparsematrix.c:addentry_sparsematrix", "Library/sparsematrix.c:setentry_sparsematrix", "Library/sparsematrix.c:sort_sparsematrix", "Library/sparsematrix.c:clear_sparsematrix"]}
{"id": "C03", "title": "Sparse matrix-vector products and conversion equal the dense ones", "statement": "addeval_sparsematrix_avector computes y := y + alpha A x, addevaltrans_sparsematrix_avector y := y + alpha A^T x and add_sparsematrix_amatrix adds alpha A (or its transpose) to a dense matrix, for the dense matrix A that the compressed rows represent; every other memory cell keeps its value and no access is out of bounds.", "quantifier": "every well-formed compressed-row matrix, scalar and pair of vectors of matching dimensions, over every field", "why_tests_cant": "holds for every size and sparsity structure; memory frame conditions are not observable by value tests", "anchors": ["Library/sparsematrix.c:addeval_sparsematrix_avector", "Library/sparsematrix.c:addevaltrans_sparsematrix_avector", "Library/sparsematrix.c:mvm_sparsematrix_avector", "Library/sparsematrix.c:add_sparsematrix_amatrix"]}
{"id": "C04", "title": "Cluster trees partition the index set", "statement": "Every cluster tree built by build_adaptive_cluster, build_regular_cluster and build_simsub_cluster from an index array contains exactly the given indices: the idx array of the root is a permutation of the input, the sons' idx arrays are non-overlapping consecutive slices that together make up the father's, sizes add up, and every leaf has at most leafsize indices (or a size that cannot be split).", "quantifier": "every point set in every dimension, every index array and every leaf size", "why_tests_cant": "in-place partitioning with two moving pointers is only wrong on particular point orders", "anchors": ["Library/cluster.c:build_adaptive_cluster", "Library/cluster.c:build_regular_cluster", "Library/cluster.c:build_simsub_cluster", "Library/cluster.c:build_cluster"]}
{"id": "C05", "title": "Cluster construction terminates", "statement": "build_adaptive_cluster, build_regular_cluster and build_simsub_cluster return for every finite point set.", "quantifier": "every point set, including coinciding points, and every leaf size", "why_tests_cant": "non-termination (infinite recursion) needs inputs with special coincidences; a test that hangs is not a proof of termination elsewhere", "anchors": ["Library/cluster.c:build_adaptive_cluster", "Library/cluster.c:build_regular_cluster", "Library/cluster.c:build_simsub_cluster"]}
{"id": "C06", "title": "Bounding boxes enclose their clusters", "statement": "After update_support_bbox_cluster the box of a cluster contains the support box of each of its indices, after update_point_bbox_clustergeometry the box bounds are attained minima/maxima over the points, and update_bbox_cluster makes the father's box the smallest box containing the sons' boxes.", "quantifier": "every cluster tree, dimension and set of support boxes", "why_tests_cant": "must hold for all points of all clusters; tests sample a few geometries", "anchors": ["Library/clustergeometry.c:update_point_bbox_clustergeometry", "Library/clustergeometry.c:update_support_bbox_cluster", "Library/clustergeometry.c:update_bbox_cluster"]}
{"id": "C07", "title": "Distance and diameter of boxes are sound bounds", "statement": "dist_2/dist_max never exceed the distance between any two points of the two boxes, diam_2/diam_max are never smaller than the distance of any two points of one box, and both bounds are attained.", "quantifier": "every pair of boxes and every pair of points in them, in every dimension", "why_tests_cant": "a universally quantified geometric inequality", "anchors": ["Library/cluster.c:getdiam_2_cluster", "Library/cluster.c:getdist_2_cluster", "Library/cluster.c:getdiam_max_cluster", "Library/cluster.c:getdist_max_cluster"]}
{"id": "C08", "title": "Cluster numbering and iteration", "statement": "desc equals the number of clusters in the subtree; iterate_cluster calls pre and post exactly once per cluster, with pairwise different numbers covering tname..tname+desc-1, pre before and post after all descendants; enumerate_cluster returns the array that maps each such number to its cluster.", "quantifier": "every tree shape and every start number", "why_tests_cant": "numbering errors only show up for particular tree shapes", "anchors": ["Library/cluster.c:update_cluster", "Library/cluster.c:iterate_cluster", "Library/cluster.c:enumerate_cluster", "Library/cluster.c:getdepth_cluster", "Library/cluster.c:getmindepth_cluster"]}
{"id": "C09", "title": "Parallel tree iteration equals sequential iteration under every schedule", "statement": "When the callbacks for different subtrees touch disjoint memory, the parallel traversals (iterate_parallel_cluster and the parallel forward/backward transformations built on it) end in the same memory as the sequential traversal for every interleaving of the threads' individual loads and stores.", "quantifier": "every tree, every interleaving of the parallel sons' memory accesses, every parallel depth", "why_tests_cant": "there are exponentially many schedules; a test run sees one", "anchors": ["Library/cluster.c:iterate_parallel_cluster", "Library/clusterbasis.c:forward_parallel_clusterbasis_avector", "Library/clusterbasis.c:backward_parallel_clusterbasis_avector"]}
{"id": "C10", "title": "Block trees partition the product index set", "statement": "The leaves of the block tree returned by build_nonstrict_block and build_strict_block cover every (row index, column index) pair of the root exactly once; a leaf is marked admissible only if the admissibility condition accepted it, and an inadmissible leaf has no further subdivision available (one of its clusters is a leaf; for strict trees both are).", "quantifier": "every pair of cluster trees and every admissibility callback", "why_tests_cant": "coverage must hold for all index pairs of all trees", "anchors": ["Library/block.c:build_nonstrict_block", "Library/block.c:build_strict_block", "Library/block.c:new_block", "Library/block.c:update_block"]}
{"id": "C11", "title": "Lower block trees", "statement": "build_nonstrict_lower_block and build_strict_lower_block are memory safe and produce, below and on the diagonal, the same leaves as the full construction whenever row and column cluster trees coincide.", "quantifier": "every cluster tree and admissibility callback", "why_tests_cant": "an out-of-bounds access needs row and column clusters with different numbers of sons", "anchors": ["Library/block.c:build_nonstrict_lower_block", "Library/block.c:build_strict_lower_block"]}
{"id": "C12", "title": "Block numbering, depth and sparsity constant", "statement": "desc equals the number of blocks, enumerate_block/iterate_block number the blocks consecutively and pass the row and column cluster numbers that iterate_cluster would assign to the same clusters; getdepth_block is the height; compute_csp_block returns the largest number of blocks any row or column cluster takes part in.", "quantifier": "every block tree built from cluster trees", "why_tests_cant": "numbers are used as array indices by callers; an error is a silent memory error for rare tree shapes", "anchors": ["Library/block.c:iterate_block", "Library/block.c:enumerate_block", "Library/block.c:enumerate_level_block", "Library/block.c:getdepth_block", "Library/block.c:compute_csp_block"]}
{"id": "C13", "title": "Row-wise and column-wise parallel block iteration", "statement": "iterate_byrow_block and iterate_bycol_block call pre and post exactly once for every block; two blocks handled by different parallel branches never share a row (column) cluster index, so updates of row (column) data cannot race.", "quantifier": "every block tree, every schedule", "why_tests_cant": "absence of races cannot be established by running", "anchors": ["Library/block.c:iterate_byrow_block", "Library/block.c:iterate_bycol_block", "Library/block.c:iterate_rowlist", "Library/block.c:addrow"]}
{"id": "C14", "title": "Vector kernels", "statement": "clear, fill, copy, copy_sub, scale, add, dotprod and norm of avectors (also of sub-vectors, columns and matrices viewed as vectors) compute the textbook result, change only the cells of their target and never access a cell outside the views.", "quantifier": "every dimension, every view of a buffer, every field", "why_tests_cant": "frame conditions and all sizes", "anchors": ["Library/avector.c:init_sub_avector", "Library/avector.c:copy_avector", "Library/avector.c:copy_sub_avector", "Library/avector.c:scale_avector", "Library/avector.c:add_avector", "Library/avector.c:dotprod_avector"]}
{"id": "C15", "title": "Dense matrix kernels", "statement": "clear (also strictly/non-strictly lower/upper), identity, copy (plain and adjoint), copy_sub, scale, add_amatrix (all four forms) and the bilinear/inner product compute the textbook result on the given view, change only cells of the target view and never access a cell outside the views.", "quantifier": "all shapes including empty ones, all leading dimensions, all sub-matrix views, every field with conjugation", "why_tests_cant": "empty shapes and padding (ld > rows) are exactly the cases unit tests omit", "anchors": ["Library/amatrix.c:clear_amatrix", "Library/amatrix.c:clear_lower_amatrix", "Library/amatrix.c:clear_upper_amatrix", "Library/amatrix.c:identity_amatrix", "Library/amatrix.c:copy_amatrix", "Library/amatrix.c:copy_sub_amatrix", "Library/amatrix.c:scale_amatrix", "Library/amatrix.c:add_amatrix"]}
{"id": "C16", "title": "Dense matrix-vector and matrix-matrix products", "statement": "addeval/addevaltrans_amatrix_avector compute y + alpha A x and y + alpha A^* x; addmul_amatrix computes C + alpha op(A) op(B) in all four transposition cases; only the target view changes and there is no out-of-bounds access.", "quantifier": "all shapes, scalars, views with the target disjoint from the sources, every field with conjugation", "why_tests_cant": "four code paths with different loop orders, all sizes", "anchors": ["Library/amatrix.c:addeval_amatrix_avector", "Library/amatrix.c:addevaltrans_amatrix_avector", "Library/amatrix.c:addmul_amatrix"]}
{"id": "C17", "title": "Views created by the init_* constructors have the requested shape", "statement": "init_sub_amatrix, init_vec_amatrix, init_pointer_amatrix, init_column_avector, init_sub_avector return views with the requested number of rows and columns that lie inside the source storage.", "quantifier": "all arguments accepted by the constructor's assertions", "why_tests_cant": "wrap-around of 32-bit offsets and zero sizes are not reached by tests", "anchors": ["Library/amatrix.c:init_sub_amatrix", "Library/amatrix.c:init_vec_amatrix", "Library/amatrix.c:init_pointer_amatrix", "Library/avector.c:init_sub_avector", "Library/avector.c:init_column_avector"]}
{"id": "C18", "title": "Triangular solves and evaluations", "statement": "triangularsolve_amatrix_avector and triangularsolve_amatrix leave x with op(T) x = b for the lower/upper, unit/non-unit, plain/adjoint triangular part T of the given matrix whenever the used diagonal is invertible, reading no entry outside the triangle; triangulareval computes op(T) x, so the two are inverse to each other.", "quantifier": "all sizes, all eight modes, every field with conjugation", "why_tests_cant": "in-place substitution order errors need particular sizes and modes", "anchors": ["Library/factorizations.c:triangularsolve_amatrix_avector", "Library/factorizations.c:triangularsolve_amatrix", "Library/factorizations.c:triangulareval_amatrix_avector", "Library/factorizations.c:triangulareval_amatrix"]}
{"id": "C19", "title": "LR decomposition and solver", "statement": "If lrdecomp_amatrix returns 0, the unit lower and upper triangular factors stored in place multiply to the original matrix and all pivots are non-zero, and lrsolve_amatrix_avector afterwards solves A x = b (or A^* x = b); if it returns i > 0, the i-th pivot of the elimination vanishes. No access is out of bounds.", "quantifier": "all square matrices, every field", "why_tests_cant": "all sizes and all pivot patterns; the empty matrix", "anchors": ["Library/factorizations.c:lrdecomp_amatrix", "Library/factorizations.c:lrsolve_amatrix_avector", "Library/factorizations.c:lreval_amatrix_avector"]}
{"id": "C20", "title": "Blocked LR decomposition agrees with the plain one", "statement": "lrdecomp_blocks_amatrix returns 0 exactly when lrdecomp_amatrix does and then produces the same factors, for every block size >= 1; the blocks n*k/blocks partition the index range.", "quantifier": "all matrices and block sizes", "why_tests_cant": "partition arithmetic with truncating division and 32-bit products", "anchors": ["Library/factorizations.c:lrdecomp_blocks_amatrix"]}
{"id": "C21", "title": "Cholesky and LDL^T decompositions", "statement": "If choldecomp_amatrix returns 0 the lower triangle holds L with L L^* equal to the hermitian matrix whose lower triangle was given (the strict upper triangle is neither read nor written); likewise ldltdecomp_amatrix with L D L^*; the corresponding solvers solve A x = b.", "quantifier": "all sizes and hermitian matrices", "why_tests_cant": "all sizes; non-access of the upper triangle", "anchors": ["Library/factorizations.c:choldecomp_amatrix", "Library/factorizations.c:ldltdecomp_amatrix", "Library/factorizations.c:cholsolve_amatrix_avector", "Library/factorizations.c:ldltsolve_amatrix_avector"]}
{"id": "C22", "title": "QR decomposition", "statement": "After qrdecomp_amatrix, the reflections applied by qreval_amatrix_avector form an orthogonal matrix Q (plain and adjoint application are inverse and preserve inner products), the upper triangle R satisfies Q R = A (for columns above the zero threshold), qrexpand_amatrix returns the leading columns of Q, and qrsolve solves A x = b.", "quantifier": "all shapes", "why_tests_cant": "all sizes, rank-deficient columns", "anchors": ["Library/factorizations.c:qrdecomp_amatrix", "Library/factorizations.c:qreval_amatrix_avector", "Library/factorizations.c:qrexpand_amatrix", "Library/factorizations.c:qrsolve_amatrix_avector"]}
{"id": "C23", "title": "Low-rank matrices act as A B^*", "statement": "addeval, addevaltrans, scale, copy, clone and norm-free operations of rkmatrix act as the corresponding operation on the dense matrix A B^*.", "quantifier": "all ranks including 0, all sizes, every field with conjugation", "why_tests_cant": "all sizes and ranks", "anchors": ["Library/rkmatrix.c:addeval_rkmatrix_avector", "Library/rkmatrix.c:addevaltrans_rkmatrix_avector", "Library/rkmatrix.c:scale_rkmatrix", "Library/rkmatrix.c:copy_rkmatrix"]}
{"id": "C24", "title": "Truncation rank meets the requested accuracy and is minimal", "statement": "findrank_truncmode returns the smallest rank whose discarded singular values meet the error bound of the chosen mode (absolute/relative, spectral/Frobenius), and never more than the number of singular values.", "quantifier": "every non-increasing non-negative sequence of singular values, every tolerance and mode", "why_tests_cant": "minimality is a statement about all smaller ranks", "anchors": ["Library/truncation.c:findrank_truncmode"]}
{"id": "C25", "title": "Adaptive cross approximation", "statement": "decomp_fullaca_rkmatrix returns a low-rank matrix whose rank is the number of pivots; pivot rows and columns are pairwise different; it reproduces the original matrix exactly in all pivot rows and columns; every entry of the remainder is at most the accuracy times the largest entry of the matrix. decomp_partialaca_rkmatrix returns a matrix that reproduces the given entries exactly in all pivot rows and columns, with pairwise different pivots that are largest entries of their row or column. copy_lower_aca_amatrix and copy_upper_aca_amatrix copy the pivoted triangular parts and leave the rest unchanged.", "quantifier": "every matrix and tolerance", "why_tests_cant": "algebraic identity for all matrices and all pivot choices", "anchors": ["Library/aca.c:decomp_fullaca_rkmatrix", "Library/aca.c:decomp_partialaca_rkmatrix", "Library/aca.c:copy_lower_aca_amatrix", "Library/aca.c:copy_upper_aca_amatrix"]}
{"id": "C26", "title": "H-matrix by vector multiplication equals the dense product", "statement": "addeval_hmatrix_avector, addevaltrans_hmatrix_avector (and the fast variants without permutation) compute y + alpha G x and y + alpha G^* x for the dense matrix G represented by the block tree of low-rank, full and zero leaves; addevalsymm does the same for the hermitian matrix given by the lower half.", "quantifier": "every H-matrix structure consistent with its cluster trees, every vector, every field", "why_tests_cant": "all tree shapes; wrong sub-vector offsets show only for unbalanced trees", "anchors": ["Library/hmatrix.c:fastaddeval_hmatrix_avector", "Library/hmatrix.c:addeval_hmatrix_avector", "Library/hmatrix.c:fastaddevaltrans_hmatrix_avector", "Library/hmatrix.c:addevalsymm_hmatrix_avector"]}
{"id": "C27", "title": "H-matrix construction, copy and structure conversions", "statement": "build_from_block_hmatrix followed by build_from_hmatrix_block gives back the block tree; clone and copy reproduce the represented dense matrix; clear, identity and scale act as their dense counterparts; getnearsize + getfarsize account for all leaves; desc is the number of submatrices.", "quantifier": "every block tree and H-matrix", "why_tests_cant": "all tree shapes", "anchors": ["Library/hmatrix.c:build_from_block_hmatrix", "Library/hmatrix.c:build_from_hmatrix_block", "Library/hmatrix.c:clone_hmatrix", "Library/hmatrix.c:copy_hmatrix", "Library/hmatrix.c:scale_hmatrix", "Library/hmatrix.c:clear_hmatrix"]}
{"id": "C28", "title": "Reference counting is safe", "statement": "For objects managed by ref/unref (hmatrix, h2matrix, clusterbasis) an object is freed exactly when the last reference disappears; no history of ref/unref calls on valid pointers leads to an access after free or a leak.", "quantifier": "every finite history of ref/unref operations, including re-assigning a pointer to the object it already holds", "why_tests_cant": "histories are unbounded and the failure is a use-after-free", "anchors": ["Library/hmatrix.c:ref_hmatrix", "Library/hmatrix.c:unref_hmatrix", "Library/h2matrix.c:ref_h2matrix", "Library/clusterbasis.c:ref_clusterbasis"]}
{"id": "C29", "title": "Reading back a written H-matrix", "statement": "read_hlib_hmatrix applied to the text written by write_hlib_hmatrix reconstructs the same block structure and matrix entries.", "quantifier": "every H-matrix", "why_tests_cant": "round trip for every tree", "anchors": ["Library/hmatrix.c:write_hlib_hmatrix", "Library/hmatrix.c:read_hlib_hmatrix"]}
{"id": "C30", "title": "Forward and backward transformation of nested bases", "statement": "forward_clusterbasis_avector stores in the coefficient vector, for every cluster t, V_t^* x restricted to t (and x itself at the leaves); backward adds sum of V_t y_t to the target; V_t is the basis expanded through the transfer matrices. The two are adjoint to each other.", "quantifier": "every nested cluster basis, every vector, every field with conjugation", "why_tests_cant": "all tree shapes and ranks (including rank 0)", "anchors": ["Library/clusterbasis.c:forward_clusterbasis_avector", "Library/clusterbasis.c:backward_clusterbasis_avector"]}
{"id": "C31", "title": "Compression and expansion in nested bases", "statement": "compress_clusterbasis_avector/amatrix compute V_t^* x, expand_clusterbasis_avector/amatrix add V_t y, and the parallel variants compute the same result as the sequential ones.", "quantifier": "every cluster basis and vector or matrix", "why_tests_cant": "all tree shapes; sharing of workspace between sons", "anchors": ["Library/clusterbasis.c:compress_clusterbasis_avector", "Library/clusterbasis.c:compress_clusterbasis_amatrix", "Library/clusterbasis.c:compress_parallel_clusterbasis_amatrix", "Library/clusterbasis.c:expand_clusterbasis_avector", "Library/clusterbasis.c:expand_clusterbasis_amatrix"]}
{"id": "C32", "title": "Matrix variants of the transformations", "statement": "forward/backward_clusterbasis_amatrix and the _trans_ variants act on every column (row) like the vector transformations.", "quantifier": "every cluster basis and matrix", "why_tests_cant": "all tree depths; the recursion is only exercised by trees with more than one level", "anchors": ["Library/clusterbasis.c:forward_clusterbasis_trans_amatrix", "Library/clusterbasis.c:backward_clusterbasis_trans_amatrix", "Library/clusterbasis.c:backward_clusterbasis_amatrix"]}
{"id": "C33", "title": "H2-matrix by vector multiplication equals the dense product", "statement": "addeval_h2matrix_avector and addevaltrans_h2matrix_avector compute y + alpha G x and y + alpha G^* x for the dense matrix G represented by couplings V_t S W_s^* and full leaves.", "quantifier": "every H2-matrix structure consistent with its cluster bases", "why_tests_cant": "all tree shapes and ranks", "anchors": ["Library/h2matrix.c:addeval_h2matrix_avector", "Library/h2matrix.c:fastaddeval_h2matrix_avector", "Library/h2matrix.c:addevaltrans_h2matrix_avector"]}
{"id": "C34", "title": "Cloning cluster bases", "statement": "clone_clusterbasis returns an equal copy (same ranks, transfer and leaf matrices, same represented basis) without out-of-bounds access; clonestructure_clusterbasis returns a basis of the same structure.", "quantifier": "every cluster basis", "why_tests_cant": "depends on optional fields being present", "anchors": ["Library/clusterbasis.c:clone_clusterbasis", "Library/clusterbasis.c:clonestructure_clusterbasis"]}
{"id": "C35", "title": "Lists of uniform matrices attached to cluster bases", "statement": "After any history of new/ref/unref/delete operations on uniform matrices the row list (column list) of a cluster basis contains exactly the uniform matrices that currently refer to it, as a properly doubly linked list, and reference counts equal the number of such references.", "quantifier": "every finite history of operations", "why_tests_cant": "unbounded histories of pointer updates", "anchors": ["Library/uniform.c:ref_row_uniform", "Library/uniform.c:unref_row_uniform", "Library/uniform.c:ref_col_uniform", "Library/uniform.c:unref_col_uniform"]}
{"id": "C36", "title": "heapsort sorts", "statement": "_h2_heapsort permutes the data so that it is ordered with respect to the given comparison, using only swaps of indices below n.", "quantifier": "every n, every data set and every total preorder", "why_tests_cant": "all lengths and all permutations", "anchors": ["Library/basic.c:_h2_heapsort", "Library/basic.c:heap_down"]}
{"id": "C37", "title": "Allocation size checks", "statement": "allocuint, allocreal, allocfield, allocmatrix never return a block smaller than the requested number of elements: when the byte count does not fit the size type the program stops.", "quantifier": "all 64-bit sizes", "why_tests_cant": "2^64 argument values", "anchors": ["Library/basic.c:_h2_allocmem", "Library/basic.c:_h2_allocuint", "Library/basic.c:_h2_allocfield", "Library/basic.c:_h2_allocmatrix"]}
{"id": "C38", "title": "Conjugate gradient invariants", "statement": "After init_cg/init_pcg and any number of steps, r = b - A x; the new search direction is A-conjugate and the new residual orthogonal to the previous direction; evalfunctional_cg equals 1/2 <Ax,x> - <b,x>.", "quantifier": "every matrix, right-hand side, start vector and number of steps for which the divisions are defined", "why_tests_cant": "unbounded number of steps", "anchors": ["Library/krylov.c:init_cg", "Library/krylov.c:step_cg", "Library/krylov.c:init_pcg", "Library/krylov.c:step_pcg", "Library/krylov.c:evalfunctional_cg"]}
{"id": "C39", "title": "BiCG, BiCGStab and Uzawa invariants", "statement": "step_bicg and step_bicgstab keep r = b - A x (and the adjoint recurrence); step_uzawa/puzawa keep A11 x1 + A21^* x2 = b1 and r2 = A21 x1 - b2.", "quantifier": "every system and number of steps for which the divisions are defined", "why_tests_cant": "unbounded number of steps", "anchors": ["Library/krylov.c:step_bicg", "Library/krylov.c:step_bicgstab", "Library/krylov.c:step_uzawa", "Library/krylov.c:step_puzawa"]}
{"id": "C40", "title": "GMRES accesses only its workspace and its rotations are orthogonal", "statement": "step_gmres never accesses memory outside the workspace vectors, and the Givens rotations it determines preserve the Euclidean norm and eliminate the subdiagonal entry.", "quantifier": "every dimension n >= 1, every Krylov dimension and every pair of entries", "why_tests_cant": "needs the case that the Krylov space fills the whole space, and equal magnitudes", "anchors": ["Library/krylov.c:step_gmres", "Library/krylov.c:findapply_givens", "Library/krylov.c:apply_givens", "Library/krylov.c:solve_gmres"]}
{"id": "C41", "title": "Iteration limits of the Krylov solvers", "statement": "solve_cg_avector and its relatives perform at most maxiter iterations, maxiter = 0 meaning no bound, and stop as soon as the residual norm is below eps times the norm of b.", "quantifier": "every system, tolerance and limit", "why_tests_cant": "all limits including 0 and 1", "anchors": ["Library/krylovsolvers.c:solve_cg_avector", "Library/krylovsolvers.c:solve_pcg_avector", "Library/krylovsolvers.h"]}
{"id": "C42", "title": "Norm estimation of sparse matrices", "statement": "norm2_sparsematrix and norm2diff_sparsematrix run the power iteration with vectors of matching dimensions for every sparse matrix, square or not.", "quantifier": "all shapes", "why_tests_cant": "only square matrices are ever tested", "anchors": ["Library/sparsematrix.c:norm2_sparsematrix", "Library/sparsematrix.c:norm2diff_sparsematrix", "Library/krylov.c:norm2_matrix"]}
{"id": "C43", "title": "Cluster restructuring keeps the index set", "statement": "extend_cluster, cut_cluster, balance_cluster and coarsen_cluster keep the multiset of leaf indices (in order) and the consistency of sizes, and reach the requested depth.", "quantifier": "every cluster tree and depth", "why_tests_cant": "all tree shapes", "anchors": ["Library/cluster.c:extend_cluster", "Library/cluster.c:cut_cluster", "Library/cluster.c:balance_cluster", "Library/cluster.c:coarsen_cluster"]}
{"id": "C44", "title": "Orthogonalisation keeps the represented space", "statement": "ortho_clusterbasis replaces the basis by one with orthonormal columns such that V_old = V_new R with the recorded R, for every cluster of the tree.", "quantifier": "every cluster basis", "why_tests_cant": "algebraic identity for all trees and ranks", "anchors": ["Library/clusterbasis.c:ortho_clusterbasis", "Library/clusterbasis.c:check_ortho_clusterbasis"]}
{"id": "C45", "title": "Memory tracing is exact", "statement": "When the library is compiled with memory tracing, get_current_memory always returns the number of bytes in blocks that are currently allocated (including the header of each block); freeing a block never fails its internal assertion, removes this block only and reduces the count by its size; the count is zero when everything has been freed.", "quantifier": "every history of allocations and releases", "why_tests_cant": "histories are unbounded", "anchors": ["Library/basic.c:_h2_allocmem", "Library/basic.c:freemem", "Library/basic.c:get_current_memory"]}
{"id": "C46", "title": "Storage and ranks of cluster bases", "statement": "build_from_cluster_clusterbasis returns a consistent basis of rank zero for the whole cluster tree; setrank_clusterbasis changes the rank of one cluster, adjusts the leaf or transfer matrices and keeps everything else; del_clusterbasis releases all storage owned by the basis and nothing else, so that creating a copy and deleting it leaves the memory as it was.", "quantifier": "every cluster tree, every cluster basis, every rank", "why_tests_cant": "absence of leaks and of accesses to foreign storage for every tree", "anchors": ["Library/clusterbasis.c:build_from_cluster_clusterbasis", "Library/clusterbasis.c:setrank_clusterbasis", "Library/clusterbasis.c:update_clusterbasis", "Library/clusterbasis.c:del_clusterbasis"]}
{"id": "C47", "title": "Products of cluster bases", "statement": "build_from_clusterbasis_clusteroperator returns an operator with one matrix for each cluster of the basis; basisproduct_clusteroperator fills an operator with the products V^* W of the matrices of two nested bases for every cluster of the operator, whatever it contained before and without changing the bases; del_clusteroperator releases exactly the storage of the operator.", "quantifier": "every pair of nested cluster bases on a common cluster tree, every operator tree that ends where one of the bases ends", "why_tests_cant": "must hold for every tree, every rank distribution and every mixture of leaves and inner clusters", "anchors": ["Library/clusteroperator.c:build_from_clusterbasis_clusteroperator", "Library/clusteroperator.c:basisproduct_clusteroperator", "Library/clusteroperator.c:del_clusteroperator", "Library/clusteroperator.c:resize_clusteroperator"]}
{"id": "C48", "title": "Products of H2-matrices with dense matrices and hermitian products", "statement": "addmul_h2matrix_amatrix_amatrix adds alpha op(H) op(X) to Y for the dense matrix H represented by the H2-matrix, addmul_amatrix_h2matrix_amatrix adds alpha op(X) op(H), and addevalsymm_h2matrix_avector adds alpha A x for the hermitian matrix A whose lower half the H2-matrix represents, without reading the strict upper half.", "quantifier": "every H2-matrix structure consistent with its cluster bases, all transposition flags, all dimensions", "why_tests_cant": "all tree shapes, ranks, flags and matrix sizes", "anchors": ["Library/h2matrix.c:addmul_h2matrix_amatrix_amatrix", "Library/h2matrix.c:addmul_amatrix_h2matrix_amatrix", "Library/h2matrix.c:addevalsymm_h2matrix_avector"]}
{"id": "C49", "title": "Construction, copies and projection of H2-matrices", "statement": "build_from_block_h2matrix creates exactly one leaf per leaf of the block tree, uniform for admissible and dense for inadmissible ones, with new storage of the right size, and build_from_h2matrix_block recovers the block tree; for strict block trees the result has the structure the products require. clone_h2matrix represents the same matrix in new storage, clonestructure_h2matrix and clear_h2matrix represent zero, scale_h2matrix represents alpha times the matrix, del_h2matrix releases exactly its own storage, and the size functions add up the storage of all submatrices. project_amatrix_h2matrix and project_hmatrix_h2matrix store V_t^* A W_s in every uniform leaf and A in every dense leaf, and with orthonormal bases they reproduce every representable matrix.", "quantifier": "every block tree, every cluster basis covering it, every H2-matrix with the structure set up by the constructors, every memory content", "why_tests_cant": "all tree shapes, ranks, sizes and matrix entries; absence of leaks and of changes elsewhere", "anchors": ["Library/h2matrix.c:build_from_block_h2matrix", "Library/h2matrix.c:build_from_h2matrix_block", "Library/h2matrix.c:clone_h2matrix", "Library/h2matrix.c:clonestructure_h2matrix", "Library/h2matrix.c:clear_h2matrix", "Library/h2matrix.c:scale_h2matrix", "Library/h2matrix.c:del_h2matrix", "Library/h2matrix.c:getsize_h2matrix", "Library/h2matrix.c:project_amatrix_h2matrix", "Library/h2matrix.c:project_hmatrix_h2matrix", "Library/h2matrix.c:collectdense_h2matrix"]}
{"id": "C50", "title": "Triangular systems, factorisation-based solvers and dense products with H-matrices", "statement": "addmul_rkmatrix_amatrix_amatrix and addmul_hmatrix_amatrix_amatrix compute op(C) + alpha op(A) op(B) for every combination of adjoints and change nothing else. triangularinvmul and triangularmul for vectors and for dense matrices (or their adjoints) solve and evaluate exactly the stored lower or upper triangle, with an implicit unit diagonal if requested, whatever the other triangle contains. triangularsolve, triangulareval, lrsolve, lreval, cholsolve and choleval do the same for vectors in the original numbering: lrsolve returns the solution of A x = b and A^* x = b if the H-matrix holds a factorisation A = LR, cholsolve that of A = L L^*.", "quantifier": "every H-matrix with dense diagonal leaves and a nonzero diagonal, every block structure and depth, every permutation, every right-hand side", "why_tests_cant": "all trees, sizes, ranks and entries; the block substitution touches each off-diagonal block in an order that depends on the tree", "anchors": ["Library/harith.c:addmul_rkmatrix_amatrix_amatrix", "Library/harith.c:addmul_hmatrix_amatrix_amatrix", "Library/harith.c:triangularinvmul_hmatrix_avector", "Library/harith.c:triangularsolve_hmatrix_avector", "Library/harith.c:triangularinvmul_hmatrix_amatrix", "Library/harith.c:triangularmul_hmatrix_avector", "Library/harith.c:triangulareval_hmatrix_avector", "Library/harith.c:triangularmul_hmatrix_amatrix", "Library/harith.c:lrsolve_hmatrix_avector", "Library/harith.c:lreval_hmatrix_avector", "Library/harith.c:cholsolve_hmatrix_avector", "Library/harith.c:choleval_hmatrix_avector"]}
{"id": "C51", "title": "Truncated low-rank arithmetic", "statement": "trunc_rkmatrix, add_rkmatrix and add_amatrix_rkmatrix replace a low-rank matrix by a truncation of itself, of B + alpha A for a low-rank A, or of B + alpha op(A) for a dense A: the result consists of the first k terms of a singular value decomposition of the exact sum, where k is the smallest rank for which the requested accuracy (Frobenius or spectral norm, absolute or relative) holds, and the difference is at most the requested accuracy in that norm. The rank never grows beyond the exact rank, the old storage is reused or released, all auxiliary storage is released, and nothing else changes. If no nonzero singular value is dropped, the result is exact. add_rkmatrix_amatrix adds exactly alpha op(A) to a dense matrix.", "quantifier": "every low-rank matrix, all dimensions and ranks (including ranks larger than the dimensions), every accuracy and truncation mode, every factor alpha", "why_tests_cant": "four different algorithms are selected by comparing rank and dimensions; the error bound must hold for all entries", "anchors": ["Library/harith.c:trunc_rkmatrix", "Library/harith.c:add_rkmatrix", "Library/harith.c:add_amatrix_rkmatrix", "Library/harith.c:add_rkmatrix_amatrix", "Library/truncation.c:findrank_truncmode"]}
{"id": "C52", "title": "Addition, splitting and merging of H-matrices", "statement": "add_hmatrix, add_rkmatrix_hmatrix and add_amatrix_hmatrix replace an H-matrix B by B + alpha A for an H-matrix, low-rank matrix or dense matrix A, whatever kinds of leaves meet: the block structure, the clusters and the storage of dense leaves stay as they are, only factors of low-rank leaves are replaced, and apart from rounding by truncation the result is exact (exactly B + alpha A if no nonzero singular value is dropped). add_hmatrix_amatrix adds exactly alpha op(A) to a dense matrix. merge_rkmatrix puts a low-rank matrix below or beside another one and truncates the result; merge_hmatrix_rkmatrix turns an H-matrix with low-rank leaves into one low-rank matrix; split_sub_amatrix yields an H-matrix that shares the storage of a dense matrix and represents it. No storage leaks, and nothing else changes.", "quantifier": "every block tree, every combination of subdivided, dense and low-rank blocks on both sides, all ranks, factors and positions", "why_tests_cant": "the recursion meets any combination of leaf types at any depth; leaks and aliasing show up only in particular combinations", "anchors": ["Library/harith.c:add_hmatrix", "Library/harith.c:add_rkmatrix_hmatrix", "Library/harith.c:add_amatrix_hmatrix", "Library/harith.c:add_hmatrix_amatrix", "Library/harith.c:merge_rkmatrix", "Library/harith.c:merge_hmatrix_rkmatrix", "Library/harith.c:split_sub_amatrix", "Library/harith.c:split_rkmatrix"]}
{"id": "C53", "title": "Products of H-matrices", "statement": "addmul_hmatrix replaces an H-matrix Z by Z + alpha op(X) op(Y) for H-matrices X and Y, where op is the identity or the adjoint for each of them separately (addmul_nn, addmul_nt, addmul_tn, addmul_tt). Each of the three matrices may be dense, low-rank or subdivided at any level. The result is exact if truncation drops only zero singular values. The block structure, the clusters and the storage of dense leaves of Z stay as they are, only factors of low-rank leaves are replaced, all auxiliary matrices are released, X and Y (which may be the same matrix) are not changed, and nothing else changes.", "quantifier": "every triple of block trees over matching clusters, every combination of subdivided, dense and low-rank blocks, all ranks, all factors, all four combinations of adjoints", "why_tests_cant": "the recursion meets any combination of leaf types of three matrices at any depth, with temporary splitting and merging in each of them", "anchors": ["Library/harith.c:addmul_hmatrix", "Library/harith.c:addmul_nn_hmatrix", "Library/harith.c:addmul_nt_hmatrix", "Library/harith.c:addmul_tn_hmatrix", "Library/harith.c:addmul_tt_hmatrix"]}
{"id": "C54", "title": "Triangular solves, triangular products and LR factorizations of H-matrices", "statement": "triangularinvmul_hmatrix overwrites an H-matrix X (or its adjoint) by the solution of T Y = X, where T is the lower or upper triangle of an H-matrix, with stored or unit diagonal, or its adjoint; triangularinvmul_amatrix_hmatrix does the same for a dense triangular matrix; triangularmul_hmatrix overwrites X by T X. lrdecomp_hmatrix overwrites an H-matrix whose leading blocks are regular by its LR factors: the unit lower triangle times the upper triangle is the given matrix. Factorization followed by lrsolve_hmatrix_avector solves A x' = x or the adjoint system in the original numbering. The block structure stays the same, auxiliary matrices are released, and only the storage of the changed matrix changes. Results are exact if truncation drops only zero singular values.", "quantifier": "every block tree with dense or subdivided diagonal blocks, every combination of subdivided, dense and low-rank blocks, both triangles, all transposition flags, every matrix with regular leading blocks", "why_tests_cant": "the recursion combines triangular solves with all leaf types and truncated products at any depth; a wrong update order or a wrong index shows up only for some block structures", "anchors": ["Library/harith.c:triangularinvmul_hmatrix", "Library/harith.c:triangularinvmul_amatrix_hmatrix", "Library/harith.c:triangularmul_hmatrix", "Library/harith.c:lowereval_nt_hmatrix", "Library/harith.c:lrdecomp_hmatrix", "Library/harith.c:lrsolve_hmatrix_avector"]}
{"id": "C55", "title": "Updates of the lower triangular part and Cholesky factorizations of H-matrices", "statement": "add_lower_amatrix_hmatrix and add_lower_rkmatrix_hmatrix add a multiple of a dense or low-rank matrix to the lower triangular part of an H-matrix, and addmul_lower_hmatrix adds a multiple of a product of two H-matrices or their adjoints to it. choldecomp_hmatrix overwrites the lower triangular part of an H-matrix that represents a positive definite matrix by its Cholesky factor: the factor has a positive diagonal, and the factor times its adjoint is the matrix. Factorization followed by cholsolve_hmatrix_avector solves A x' = x in the original numbering. The block structure stays the same, auxiliary matrices are released, and only the storage of the changed matrix changes. Results are exact if truncation drops only zero singular values.", "quantifier": "every block tree with dense or subdivided diagonal blocks, every combination of subdivided, dense and low-rank blocks, all transposition flags, every positive definite matrix", "why_tests_cant": "the recursion combines all leaf types at any depth, and for symmetric matrices only half of the blocks is updated: a wrong index shows up only for some block structures and flags", "anchors": ["Library/harith.c:add_lower_amatrix_hmatrix", "Library/harith.c:add_lower_rkmatrix_hmatrix", "Library/harith.c:addmul_lower_hmatrix", "Library/harith.c:choldecomp_hmatrix", "Library/harith.c:cholsolve_hmatrix_avector"]}
{"id": "C56", "title": "Inversion of H-matrices", "statement": "invert_hmatrix overwrites an H-matrix by its inverse: if all leading principal submatrices are regular, the product of the matrix and the result, in either order, is the identity. The contents of the working storage do not matter; it may be created by clonestructure_hmatrix. The block structures of the matrix and of the working storage stay the same, and only their storage changes. The result is exact if truncation drops only zero singular values.", "quantifier": "every block tree with dense or subdivided diagonal blocks, any depth and any number of sons, every matrix with regular leading principal submatrices, every content of the working storage", "why_tests_cant": "the two sweeps over the blocks and the recursion overwrite the matrix in place: a wrong index or order shows up only for more than two block rows or deeper trees, and uninitialised working storage usually looks like zero", "anchors": ["Library/harith.c:invert_hmatrix"]}
{"id": "C57", "title": "Triangular parts of H-matrices", "statement": "clone_lower_hmatrix and clone_upper_hmatrix create a new H-matrix that represents exactly the lower or upper triangular part of the source, with ones on the diagonal if the unit diagonal is requested. The new matrix owns new storage only, its blocks on the other side of the diagonal are low-rank leaves of rank zero, the descendant counters are correct, and the source is not changed. Applied to a matrix that contains an LR factorization, both calls give the two factors as separate matrices whose product is the original matrix.", "quantifier": "every square block tree of any depth and number of sons with dense diagonal leaves, all entries, both triangles, with and without unit diagonal", "why_tests_cant": "whether the right blocks are copied, cleared or recursed into depends on the tree, and sharing of storage with the source is only visible after later changes", "anchors": ["Library/harith.c:clone_lower_hmatrix", "Library/harith.c:clone_upper_hmatrix", "Library/factorizations.c:copy_lower_amatrix", "Library/factorizations.c:copy_upper_amatrix"]}
{"id": "C58", "title": "Refinement and checking of triangular meshes", "statement": "A mesh of triangles in the plane is consistent if its edges join two different vertices, each triangle consists of the three edges between three corners, an edge marked as inner belongs to two triangles, an edge marked as boundary belongs to one triangle, and boundary edges have boundary vertices as end points. refine_tri2d succeeds for every consistent mesh and returns its regular refinement: the old vertices and the midpoints of the edges, the halves of the edges and three edges in each triangle, four triangles with a quarter of the signed area (and therefore the same orientation) for each old one, boundary flags inherited. The result is consistent again, and the optional description names the ancestor of each vertex, edge and triangle. getvertices_tri2d returns the corners opposite the edges. check_tri2d finds no errors exactly if the conditions it checks hold. The meshes created by new_unitsquare_tri2d, new_unitcircle_tri2d, new_lshape_tri2d and new_ushape_tri2d are consistent, and so are all meshes obtained by refining them any number of times.", "quantifier": "every consistent mesh with any number of vertices, edges and triangles, any numbering and orientation of edges, any coordinates; every number of refinements of the four meshes of the library; for the check, every mesh", "why_tests_cant": "which halves of edges form a new triangle depends on the orientation of the old edges, and the meshes and the number of refinements are unlimited", "anchors": ["Library/tri2d.c:refine_tri2d", "Library/tri2d.c:check_tri2d", "Library/tri2d.c:getvertices_tri2d", "Library/tri2d.c:intersecting_edges", "Library/tri2d.c:new_ushape_tri2d"]}
{"id": "C59", "title": "Construction of triangular meshes from lists of triangles", "statement": "If a mesh builder is created for n vertices, their coordinates are filled in, and triangles with three different corners below n are added, then buildmesh_tri2dbuilder delivers a mesh exactly if no edge belongs to more than two of the triangles. The mesh is consistent and can be refined. It has the given coordinates, its j-th triangle has the corners given for the j-th call with each edge opposite its corner, each edge exists only once, the boundary edges are those that belong to one triangle, the boundary vertices are those on boundary edges, and no triangle lies to the right of its boundary edges. fixnormals_tri2d achieves the latter for every consistent mesh by reversing edges that are not inner edges, and changes nothing else.", "quantifier": "every list of vertices and triangles in any order and with any order of corners, every consistent mesh for fixnormals_tri2d", "why_tests_cant": "edges are found in lists that depend on the order in which triangles and corners are given; there are unboundedly many triangulations", "anchors": ["Library/tri2d.c:new_tri2dbuilder", "Library/tri2d.c:addtriangle_tri2dbuilder", "Library/tri2d.c:find_edgeentry", "Library/tri2d.c:buildmesh_tri2dbuilder", "Library/tri2d.c:fixnormals_tri2d"]}
{"id": "C60", "title": "Admissibility conditions separate clusters", "statement": "For two clusters with bounding boxes of the same dimension and eta >= 0: admissible_2_cluster (admissible_max_cluster) accepts the pair exactly if the diameter of each box is at most eta times the distance of the boxes in the Euclidean norm (maximum norm), where diameter and distance mean the largest and smallest distances of points; admissible_2_min_cluster accepts it exactly if this holds for at least one of the boxes; admissible_sphere_cluster accepts it exactly if it holds for the balls around the boxes, which implies that it holds for the boxes. In a block tree built with the Euclidean or the spherical condition, the supports of the row indices and of the column indices of an admissible leaf are therefore separated as promised. Clusters of different dimensions are rejected by an assertion.", "quantifier": "every pair of clusters, every dimension, every eta >= 0, all points of the boxes; every pair of cluster trees for the leaves", "why_tests_cant": "the guarantee concerns all points of continuous sets and all positions of two boxes in any dimension", "anchors": ["Library/block.c:admissible_2_cluster", "Library/block.c:admissible_max_cluster", "Library/block.c:admissible_sphere_cluster", "Library/block.c:admissible_2_min_cluster", "Library/block.c:build_strict_block"]}
{"id": "C61", "title": "Surface meshes", "statement": "check_surface3d returns zero exactly for meshes whose vertex and edge numbers are in range and whose triangle sides are the edges between the corners. isclosed_surface3d and isoriented_surface3d tell whether every edge lies between two triangles and whether the triangles that meet at an edge traverse it in opposite directions. prepare_surface3d computes the unit normal vector and twice the area of every triangle that is not degenerate; translate_surface3d moves all vertices and changes neither. refine_red_surface3d delivers, for a consistent mesh, a consistent mesh made of the old vertices and the midpoints of the edges that is closed or oriented exactly if the old mesh is, and the four parts of a triangle have its normal vector and a quarter of its area. merge_surface3d unites two meshes, and scale_surface3d fits a mesh into a given box.", "quantifier": "every surface mesh of any size, every position of the vertices, every translation vector and box", "why_tests_cant": "closedness and orientation are global properties of meshes of any size and numbering; refinement can be repeated without limit, and an error in one of the four cases of the choice of half edges only shows for particular edge orientations", "anchors": ["Library/surface3d.c:prepare_surface3d", "Library/surface3d.c:check_surface3d", "Library/surface3d.c:isclosed_surface3d", "Library/surface3d.c:isoriented_surface3d", "Library/surface3d.c:scale_surface3d", "Library/surface3d.c:translate_surface3d", "Library/surface3d.c:merge_surface3d", "Library/surface3d.c:refine_red_surface3d"]}
{"id": "C62", "title": "Piecewise linear finite elements", "statement": "new_tri2dp1 numbers the vertices of a mesh that are not on the boundary, and those that are, consecutively and independently. The matrices built for a mesh store exactly the pairs of vertices that share a triangle and are zero. Assembling the Laplace matrix adds to every entry the integral of the product of the gradients of the two hat functions, assembling the mass matrix the integral of their product, with the part that belongs to boundary vertices in the interaction matrix; the load vector receives the integrals of the hat functions times the given function by the edge midpoint rule whatever it contained before, the vector of boundary values the values of the given function, and normmax_tri2dp1 returns the maximal error in the inner vertices. The prolongation matrix of a refined mesh contains the values of the coarse hat functions in the fine inner vertices. The assembled Laplace matrix is symmetric and positive semidefinite, and its row sums cancel with those of the interaction matrix. norml2_tri2dp1 returns the L2-norm of the difference between a discrete and a given function by the edge midpoint rule. build_tri2dp1_clustergeometry delivers the inner vertices and the smallest boxes around the supports of their hat functions, as a valid argument for building cluster trees. All this works for every consistent mesh.", "quantifier": "every consistent mesh of any size and numbering, every position of the vertices without degenerate triangles, every right-hand side and boundary function, every matrix with the required pattern", "why_tests_cant": "the local numbering of the corners of a triangle depends on the numbering and direction of its edges, so that an error only shows for particular meshes; sums over all triangles and patterns have to be right for meshes of every size", "anchors": ["Library/tri2dp1.c:new_tri2dp1", "Library/tri2dp1.c:build_tri2dp1_sparsematrix", "Library/tri2dp1.c:build_tri2dp1_interaction_sparsematrix", "Library/tri2dp1.c:build_tri2dp1_prolongation_sparsematrix", "Library/tri2dp1.c:assemble_tri2dp1_laplace_sparsematrix", "Library/tri2dp1.c:assemble_tri2dp1_mass_sparsematrix", "Library/tri2dp1.c:assemble_tri2dp1_dirichlet_avector", "Library/tri2dp1.c:assemble_tri2dp1_functional_avector", "Library/tri2dp1.c:normmax_tri2dp1", "Library/tri2dp1.c:norml2_tri2dp1", "Library/tri2dp1.c:build_tri2dp1_clustergeometry"]}
{"id": "C63", "title": "Polygons in the plane", "statement": "prepare_curve2d computes the lengths of the edges of a polygon and unit vectors perpendicular to them that point to the right of the edge. new_circle_curve2d, new_square_curve2d and new_star_curve2d deliver, for every admissible number of edges, closed polygons in which every edge leads to the next vertex: the vertices of the first lie on the circle, those of the others run in equal steps through the corners of the square or of the star with sixteen spikes. Inadmissible numbers of edges stop with an assertion. The normal vectors of the circle and the square point outwards.", "quantifier": "every number of edges, every radius or side length, every polygon with numbers in range", "why_tests_cant": "The number of edges is unbounded and need not be a multiple of the number of corners, so that the sides of the square have different numbers of steps.", "anchors": ["Library/curve2d.c:prepare_curve2d", "Library/curve2d.c:new_circle_curve2d", "Library/curve2d.c:new_square_curve2d", "Library/curve2d.c:new_star_curve2d"]}
