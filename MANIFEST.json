{
 "claims": [
  {
   "property": "C01",
   "status": "proved",
   "theorems": [
    "C01_pattern_is_set",
    "C01_addnz_out_of_range"
   ],
   "note": "All histories. Linked-list cells are values in the model."
  },
  {
   "property": "C02",
   "status": "proved",
   "theorems": [
    "C02_sparse_history",
    "C02_new_zero",
    "C02_unstored_rejected",
    "C02_sort",
    "C02_new_identity"
   ],
   "note": "All histories of pattern and matrix operations."
  },
  {
   "property": "C03",
   "status": "proved",
   "theorems": [
    "C03_addeval",
    "C03_addevaltrans",
    "C03_mvm",
    "C03_mvm_real_adjoint",
    "C03_add_sparsematrix_amatrix",
    "C03_mvm_dim",
    "C03_adjoint_refuted"
   ],
   "note": "As stated (transposed product). The documentation announces the adjoint; for complex scalars the code does not conjugate (C03_adjoint_refuted, finding in DESIGN.md). uint wrap of i + j*ld in add_sparsematrix_amatrix not modelled."
  },
  {
   "property": "C04",
   "status": "proved",
   "theorems": [
    "C04_build_cluster",
    "C04_leaves",
    "C04_leaf_size"
   ],
   "note": "All four strategies, all dimensions, any scalar type (rounding included: no arithmetic law is used); whenever the construction returns. The eigenvector routine used by the principal component strategy is any function that returns an array of the right length."
  },
  {
   "property": "C05",
   "status": "partial",
   "theorems": [
    "C05_adaptive_terminates",
    "C05_regular_terminates",
    "C05_simsub_terminates",
    "C05_coincident_points_refuted",
    "C05_adaptive_rounding_refuted"
   ],
   "note": "False of the code for coincident points and, with rounding, for adaptive clustering (refuted theorems). Termination is proved with the exact arithmetic of an archimedean ordered field when no more than clf points coincide (adaptive: without a condition on the points)."
  },
  {
   "property": "C06",
   "status": "proved",
   "theorems": [
    "C06_support_bbox",
    "C06_point_bbox",
    "C06_update_bbox",
    "C06_build_cluster"
   ],
   "note": "Needs only the laws of the comparison, so rounding is covered; NaN is excluded."
  },
  {
   "property": "C07",
   "status": "proved",
   "theorems": [
    "C07_diam_2",
    "C07_diam_max",
    "C07_dist_2",
    "C07_dist_max",
    "C07_dim_mismatch"
   ],
   "note": "Exact arithmetic of an ordered field with a square root; the reals are an instance."
  },
  {
   "property": "C08",
   "status": "proved",
   "theorems": [
    "C08_iterate_cluster",
    "C08_iterate_trace",
    "C08_walk",
    "C08_enumerate_cluster",
    "C08_depth"
   ],
   "note": "All trees with consistent desc fields; C04_build_cluster shows that build_cluster produces such trees."
  },
  {
   "property": "C09",
   "status": "proved",
   "theorems": [
    "C09_forward_parallel",
    "C09_backward_parallel",
    "C09_iterate_parallel",
    "C09_race_free"
   ],
   "note": "iterate_parallel_cluster: full statement, for arbitrary callbacks with disjoint footprints; general race-freedom theorem for every program with parallel loops; parallel forward and backward transformations of cluster bases are race-free and deterministic and compute what the sequential versions compute, for every parallel depth."
  },
  {
   "property": "C10",
   "status": "proved",
   "theorems": [
    "C10_build_nonstrict",
    "C10_build_strict",
    "C10_exactly_once"
   ],
   "note": "Coverage, admissibility marks and leaf conditions for both constructions, for every pair of cluster trees and every admissibility condition. Fuel only bounds recursion depth; any fuel above the sum of the depths suffices. uint wrap-around of rsons*csons is not modelled."
  },
  {
   "property": "C11",
   "status": "proved",
   "theorems": [
    "C11_nonstrict_lower",
    "C11_strict_lower",
    "C11_lower_refuted"
   ],
   "note": "Proved when row and column trees coincide. C11_lower_refuted: with different trees both lower constructions read out of bounds."
  },
  {
   "property": "C12",
   "status": "proved",
   "theorems": [
    "C12_desc",
    "C12_iterate_block",
    "C12_cluster_numbers",
    "C12_walk",
    "C12_enumerate",
    "C12_depth",
    "C12_csp"
   ],
   "note": "For all block trees whose sons are given by splittings of the two clusters, as both constructions build them."
  },
  {
   "property": "C13",
   "status": "proved",
   "theorems": [
    "C13_byrow",
    "C13_bycol",
    "C13_byrow_parallel",
    "C13_bycol_parallel"
   ],
   "note": "Exactly one pre and one post call per block with the right numbers, parallel iterations have disjoint row (column) clusters, and all schedules agree for callbacks with non-interfering footprints."
  },
  {
   "property": "C14",
   "status": "proved",
   "theorems": [
    "C14_clear_avector",
    "C14_fill_avector",
    "C14_copy_avector",
    "C14_copy_avector_dim",
    "C14_copy_sub_avector",
    "C14_scale_avector",
    "C14_add_avector",
    "C14_dotprod_avector",
    "C14_norm2_avector",
    "C14_init_zero_avector"
   ],
   "note": "All views, all dimensions, any commutative ring with conjugation; rounding not modelled."
  },
  {
   "property": "C15",
   "status": "partial",
   "theorems": [
    "C15_clear_amatrix",
    "C15_identity_amatrix",
    "C15_clear_lower_amatrix",
    "C15_clear_upper_amatrix_partial",
    "C15_clear_upper_amatrix_refuted",
    "C15_copy_amatrix",
    "C15_copy_sub_amatrix",
    "C15_copy_colpiv_amatrix",
    "C15_scale_amatrix",
    "C15_conjugate_amatrix",
    "C15_add_amatrix",
    "C15_dotprod_amatrix",
    "C15_normfrob_amatrix",
    "C15_clone_amatrix",
    "C15_resizecopy_amatrix",
    "C15_init_identity_amatrix",
    "C15_init_zero_amatrix",
    "C15_bidiagmul_amatrix",
    "C15_check_ortho_amatrix"
   ],
   "note": "Full statement holds except clear_upper_amatrix(a, false) for a matrix with columns but no rows, where the code writes out of bounds (C15_clear_upper_amatrix_refuted)."
  },
  {
   "property": "C16",
   "status": "proved",
   "theorems": [
    "C16_mvm_amatrix_avector",
    "C16_addeval_amatrix_avector",
    "C16_addevaltrans_amatrix_avector",
    "C16_addmul_amatrix"
   ],
   "note": "Code paths without BLAS; all transposition cases."
  },
  {
   "property": "C17",
   "status": "partial",
   "theorems": [
    "C17_init_sub_avector_partial",
    "C17_init_sub_plain",
    "C17_init_sub_avector_refuted",
    "C17_init_sub_amatrix_partial",
    "C17_init_column_avector",
    "C17_init_vec_amatrix_partial",
    "C17_init_vec_amatrix_refuted",
    "C17_init_pointer_amatrix_partial",
    "C17_init_pointer_amatrix_refuted",
    "C17_uninit_avector",
    "C17_uninit_amatrix"
   ],
   "note": "False of the code in three places: sums in assertions wrap at 2^32, init_vec_amatrix divides by zero for cols = 0, init_pointer_amatrix sets cols to rows. The _partial theorems exclude exactly these cases, the _refuted theorems exhibit them."
  },
  {
   "property": "C18",
   "status": "proved",
   "theorems": [
    "C18_triangularsolve_amatrix_avector",
    "C18_triangularsolve_amatrix",
    "C18_triangulareval_amatrix_avector",
    "C18_triangulareval_amatrix",
    "C18_solve_eval",
    "C18_eval_solve",
    "C18_diagsolve_amatrix_avector",
    "C18_diagsolve_amatrix",
    "C18_diageval_amatrix_avector",
    "C18_diageval_amatrix",
    "C18_diageval_realavector_amatrix",
    "C18_triangularaddmul_amatrix",
    "C18_copy_lower_amatrix",
    "C18_copy_upper_amatrix"
   ],
   "note": "All modes, rectangular matrices for evaluation, BLAS-free code paths, exact arithmetic in any field with conjugation. Only the entries of the triangle are assumed initialised, so no other entry is read. Also covers the diagonal variants, triangularaddmul_amatrix and copy_lower/upper_amatrix."
  },
  {
   "property": "C19",
   "status": "partial",
   "theorems": [
    "C19_lrdecomp_amatrix",
    "C19_lrdecomp_result",
    "C19_lrdecomp_not_square",
    "C19_empty_refuted",
    "C19_lrsolve_amatrix_avector",
    "C19_lrsolve_amatrix",
    "C19_lreval_amatrix_avector",
    "C19_decomp_solve"
   ],
   "note": "Exact arithmetic in any field, BLAS-free code path. The result is 0 exactly if all leading blocks are regular, otherwise the order of the smallest singular one. C19_empty_refuted: the empty matrix is read out of bounds (n-1 wraps around)."
  },
  {
   "property": "C20",
   "status": "partial",
   "theorems": [
    "C20_blocks",
    "C20_blocks_refuted",
    "C20_lrdecomp_blocks_amatrix",
    "C20_agreement",
    "C20_not_square",
    "C20_blocksize_zero"
   ],
   "note": "Same result and same factors for every block size >= 1 as long as n*blocks < 2^32. C20_blocks_refuted: beyond that the 32-bit block offsets do not partition the index range. The OpenMP task variant is not modelled."
  },
  {
   "property": "C21",
   "status": "partial",
   "theorems": [
    "C21_choldecomp_amatrix",
    "C21_choldecomp_result",
    "C21_chol_unique",
    "C21_choldecomp_not_square",
    "C21_empty_refuted",
    "C21_cholsolve_amatrix_avector",
    "C21_cholsolve_amatrix",
    "C21_choleval_amatrix_avector",
    "C21_chol_solve",
    "C21_ldltdecomp_amatrix",
    "C21_ldltsolve_amatrix_avector",
    "C21_ldltsolve_amatrix",
    "C21_blocks_agreement",
    "C21_choldecomp_blocks_amatrix",
    "C21_blocksize_zero",
    "C21_blocks_read_refuted",
    "C21_blocks_write_refuted"
   ],
   "note": "Exact arithmetic in any field with a conjugation, real parts and square roots of positive elements (instances: real and complex numbers), BLAS-free code path. C21_empty_refuted: empty matrices are read out of bounds. C21_blocks_read_refuted and C21_blocks_write_refuted: the blocked variant reads and writes the strict upper triangle of the diagonal blocks."
  },
  {
   "property": "C22",
   "status": "partial",
   "theorems": [
    "C22_qrdecomp_amatrix",
    "C22_qrdecomp_exact",
    "C22_qrdecomp_pivot_amatrix",
    "C22_qrdecomp_rank_amatrix",
    "C22_qreval_amatrix_avector",
    "C22_qreval_amatrix",
    "C22_qreval_inverse",
    "C22_qreval_dot",
    "C22_qrexpand_amatrix",
    "C22_qrsolve_amatrix_avector",
    "C22_qr_solve",
    "C22_qrinvert_amatrix",
    "C22_not_square",
    "C22_small_column_refuted"
   ],
   "note": "Exact arithmetic in any field with conjugation, square roots, SIGN1 and a threshold test (instances: real and complex numbers; the complex SIGN1 is idealised to be exact for all nonzero numbers), BLAS-free code path. The decomposition is A = QR + E where every column of E passes the test norm^2 <= H2_ALMOST_ZERO. C22_small_column_refuted: E can be nonzero, columns of tiny norm are not eliminated."
  },
  {
   "property": "C23",
   "status": "proved",
   "theorems": [
    "C23_addeval_rkmatrix",
    "C23_addevaltrans_rkmatrix",
    "C23_mvm_rkmatrix",
    "C23_scale_rkmatrix",
    "C23_init_rkmatrix",
    "C23_resize_rkmatrix",
    "C23_setrank_rkmatrix",
    "C23_copy_rkmatrix",
    "C23_clone_rkmatrix",
    "C23_init_sub_rkmatrix",
    "C23_norm2_rkmatrix",
    "C23_norm2diff_rkmatrix"
   ],
   "note": "Exact arithmetic in any commutative ring with conjugation; all ranks including 0. rkown describes a matrix that owns its two factors."
  },
  {
   "property": "C24",
   "status": "proved",
   "theorems": [
    "C24_findrank_truncmode"
   ],
   "note": "Any ordered field. The fields blocks, zeta_level and zeta_age do not influence the function."
  },
  {
   "property": "C25",
   "status": "partial",
   "theorems": [
    "C25_fullaca",
    "C25_partialaca_partial",
    "C25_maximal_rank",
    "C25_large_accuracy_refuted",
    "C25_copy_lower",
    "C25_copy_upper",
    "C25_zero_pivot_refuted",
    "C25_copy_upper_refuted"
   ],
   "note": "Any field with conjugation and any comparison that is a strict order with nonnegative squares. Full pivoting is proved completely. Partial pivoting is proved under the condition that no pivot is zero; C25_zero_pivot_refuted shows that the code divides by zero for a zero matrix, C25_large_accuracy_refuted that an accuracy of at least one leaves the rank inconsistent with the factors. The documentation of copy_upper_aca_amatrix is refuted, the actual behaviour proved."
  },
  {
   "property": "C26",
   "status": "partial",
   "theorems": [
    "C26_fastaddeval_hmatrix",
    "C26_fastaddevaltrans_hmatrix",
    "C26_addeval_hmatrix",
    "C26_addevaltrans_hmatrix",
    "C26_mvm_hmatrix",
    "C26_fastaddevalsymm_hmatrix",
    "C26_addevalsymm_hmatrix",
    "C26_norm2_hmatrix",
    "C26_norm2diff_hmatrix",
    "C26_zero_leaf_refuted"
   ],
   "note": "Any commutative ring with conjugation, any tree of low-rank and full leaves. Zero leaves (no matrix attached) are refuted: the size assertions at the end of the traversal fail for them. Reference counters are not modelled."
  },
  {
   "property": "C27",
   "status": "proved",
   "theorems": [
    "C27_build_from_block",
    "C27_clone",
    "C27_clonestructure",
    "C27_copy",
    "C27_clear",
    "C27_clear_upper",
    "C27_identity",
    "C27_identity_rk_refuted",
    "C27_clear_upper_rk_refuted",
    "C27_sizes",
    "C27_scale"
   ],
   "note": "Proved for every block tree and every H-matrix whose leaves own their storage. identity needs dense or off-diagonal leaves and clear_upper dense diagonal leaves; the two _refuted theorems show that low-rank diagonal leaves are set to zero by both functions."
  },
  {
   "property": "C28",
   "status": "partial",
   "theorems": [
    "C28_history",
    "C28_freed",
    "C28_alive",
    "C28_no_leak",
    "C28_self_assign_refuted",
    "C28_self_assign_h2_refuted",
    "C28_null_son_refuted"
   ],
   "note": "Proved for every history of admissible operations on cluster bases, H-matrices, cluster operators, H2-matrices and uniform matrices: no access after release, no failed assertion, correct counters; a structure is released exactly with its last reference; nothing remains if the caller holds nothing and there are no cycles. The claim for all histories is refuted: assigning a pointer the object it already holds (refs = 1), or one of its descendants, is a use after free; deleting a matrix with unset sons releases null pointers."
  },
  {
   "property": "C29",
   "status": "partial",
   "theorems": [
    "C29_roundtrip",
    "C29_roundtrip_sons",
    "C29_numbering",
    "C29_complex_refuted",
    "C29_inconsistent_refuted",
    "C29_symm_desc_refuted",
    "C29_symm_columns_refuted"
   ],
   "note": "Round trip for every H-matrix whose clusters are split the same way in all blocks (C29_roundtrip), in particular when sons of blocks are sons of clusters (C29_roundtrip_sons). Printing and scanning of floating-point numbers is a parameter; the theorem assumes that the entries survive it. The numbering of the unknowns is not stored (C29_numbering). Refuted: inconsistent splittings, complex numbers, read_hlibsymm_hmatrix (desc, column indices)."
  },
  {
   "property": "C30",
   "status": "proved",
   "theorems": [
    "C30_forward",
    "C30_forward_nopermutation",
    "C30_forward_notransfer",
    "C30_backward",
    "C30_backward_nopermutation",
    "C30_backward_notransfer",
    "C30_adjoint",
    "C30_nested"
   ],
   "note": "Forward and backward transformation, with and without permutation, with nested or separate matrices, and adjointness, for every tree, ranks including 0, every field with conjugation."
  },
  {
   "property": "C31",
   "status": "partial",
   "theorems": [
    "C31_compress_avector",
    "C31_expand_avector",
    "C31_addeval",
    "C31_addevaltrans",
    "C31_compress_amatrix",
    "C31_expand_amatrix",
    "C31_compress_parallel_refuted"
   ],
   "note": "Vectors and matrices for all trees and ranks. The parallel matrix version is refuted: its sons share the rows of the coefficient matrix."
  },
  {
   "property": "C32",
   "status": "partial",
   "theorems": [
    "C32_forward",
    "C32_forward_trans",
    "C32_backward",
    "C32_backward_trans_partial",
    "C32_backward_trans_refuted"
   ],
   "note": "Forward (both versions) and backward for all trees; the backward version for adjoint targets is proved for leaf clusters and refuted for larger bases, because the code recurses into the ordinary version."
  },
  {
   "property": "C33",
   "status": "proved",
   "theorems": [
    "C33_addeval",
    "C33_addevaltrans",
    "C33_mvm",
    "C33_fastaddeval",
    "C33_fastaddevaltrans",
    "C33_norm2",
    "C33_norm2diff",
    "C33_dense_inner_refuted"
   ],
   "note": "Products with vectors (ordinary and adjoint) and norm estimators for H2-matrices whose block structure follows the bases (h2strict), for all ranks, tree shapes and permutations. C33_dense_inner_refuted shows what goes wrong for dense leaves of clusters with sons, which the property excludes as inconsistent."
  },
  {
   "property": "C34",
   "status": "partial",
   "theorems": [
    "C34_clone",
    "C34_clonestructure",
    "C34_clone_weight_refuted",
    "C34_clonestructure_refuted"
   ],
   "note": "Clones are proved equal, consistent, separate and leak-free for all bases without weight matrices at inner clusters; with a weight matrix the clone leaves the array of sons (refuted). Structure copies have the same tree and rank zero; their ktree/kbranch are not set for leaves (refuted)."
  },
  {
   "property": "C35",
   "status": "partial",
   "theorems": [
    "C35_history",
    "C35_stale_refuted"
   ],
   "note": "Lists and counters are correct after every admissible history. C35_stale_refuted: unref_row_uniform/unref_col_uniform leave the list pointers of the matrix, so a second call or del_uniform fails an assertion if there were neighbours."
  },
  {
   "property": "C36",
   "status": "partial",
   "theorems": [
    "C36_heapsort",
    "C36_large_refuted"
   ],
   "note": "Proved for arbitrary callbacks and n <= 2^31. For larger n the 32-bit child index wraps around: C36_large_refuted."
  },
  {
   "property": "C37",
   "status": "partial",
   "theorems": [
    "C37_allocmem",
    "C37_allocvec",
    "C37_allocmatrix",
    "C37_allocmatrix_refuted",
    "C37_trace_partial",
    "C37_trace_refuted"
   ],
   "note": "Proved for every size without TRACE_MEMORY (allocmatrix for 32-bit numbers of rows and columns, as used in the library). Refuted for allocmatrix with arbitrary size_t arguments and for sizes close to 2^64 with TRACE_MEMORY."
  },
  {
   "property": "C38",
   "status": "proved",
   "theorems": [
    "C38_cg",
    "C38_pcg",
    "C38_orthogonal",
    "C38_nobreak",
    "C38_terminates",
    "C38_optimal",
    "C38_evalfunctional"
   ],
   "note": "Exact arithmetic in any field with conjugation; the matrix and the preconditioner are arbitrary routines with the contract op_ok / prcd_ok (instances: dense and sparse matrices). Division by zero yields an unspecified field element, the orthogonality statements assume that it does not occur and C38_nobreak shows this for definite matrices."
  },
  {
   "property": "C39",
   "status": "partial",
   "theorems": [
    "C39_bicg",
    "C39_bicg_orthogonal",
    "C39_bicg_terminates",
    "C39_bicgstab",
    "C39_bicgstab_minimal",
    "C39_puzawa",
    "C39_uzawa",
    "C39_bicg_complex_refuted"
   ],
   "note": "Exact arithmetic in any field with conjugation. C39_bicg_complex_refuted: over the complex numbers step_bicg lacks a conjugation of the step length and does not solve a 1x1 system; biorthogonality is proved for fields with trivial conjugation."
  },
  {
   "property": "C40",
   "status": "partial",
   "theorems": [
    "C40_givens_partial",
    "C40_givens_tie_refuted",
    "C40_givens_complex_refuted",
    "C40_step_bounds_refuted",
    "C40_solve_bounds_refuted",
    "C40_solve_uninit_refuted"
   ],
   "note": "Proved for real numbers: rotations for entries a <> 0 with |a| <> |b| are orthogonal, eliminate the entry, and are reproduced by apply_givens. Refuted: entries of equal magnitude (b is dropped without a rotation), complex numbers (no conjugation), Krylov spaces of the full dimension (access beyond the workspace, also in the solver), kmax = 0 (uninitialised dimension). The case a = 0 <> b is not covered since the code relies on the IEEE infinity 1/0."
  },
  {
   "property": "C41",
   "status": "partial",
   "theorems": [
    "C41_solve_cg_partial",
    "C41_solve_pcg_partial",
    "C41_maxiter_refuted"
   ],
   "note": "solve_cg_avector and solve_pcg_avector. C41_maxiter_refuted: at most maxiter-1 iterations are performed (none for maxiter = 1), and maxiter = 0 means 2^32-1, not unbounded; solve_gmres_avector and solve_pgmres_avector are not covered."
  },
  {
   "property": "C42",
   "status": "partial",
   "theorems": [
    "C42_norm2_square_partial",
    "C42_norm2diff_square_partial",
    "C42_norm2_rect_refuted"
   ],
   "note": "Square matrices: full statement. Rectangular matrices: false of the code, the number of rows is passed twice (C42_norm2_rect_refuted)."
  },
  {
   "property": "C43",
   "status": "proved",
   "theorems": [
    "C43_extend",
    "C43_cut",
    "C43_balance",
    "C43_coarsen"
   ],
   "note": "All trees, depths and thresholds."
  },
  {
   "property": "C44",
   "status": "proved",
   "theorems": [
    "C44_ortho_clusterbasis",
    "C44_weight_clusterbasis",
    "C44_weight_gram",
    "C44_ortho_gram"
   ],
   "note": "Every cluster basis and every operator of the same shape; the factor matrices are recorded in the operator. The products are exact if the QR decomposition treats no nonzero vector as zero; orthonormality holds always. Also basis weights and their inner products."
  },
  {
   "property": "C45",
   "status": "proved",
   "theorems": [
    "C45_trace"
   ],
   "note": "Sequential histories; the updates of the counter are atomic, so parallel ones are covered by their linearisations."
  },
  {
   "property": "C46",
   "status": "partial",
   "theorems": [
    "C46_build",
    "C46_setrank",
    "C46_delete",
    "C46_clone_delete",
    "C46_delete_weight_refuted"
   ],
   "note": "Construction, change of ranks and deletion for all bases; refuted for weight matrices, which are not released."
  },
  {
   "property": "C47",
   "status": "proved",
   "theorems": [
    "C47_build_from_clusterbasis",
    "C47_delete",
    "C47_build_delete",
    "C47_basisproduct",
    "C47_orthogonal"
   ],
   "note": "All cases of basisproduct_clusteroperator except two inner clusters without an operator for their sons, which the code rejects by an assertion."
  },
  {
   "property": "C48",
   "status": "partial",
   "theorems": [
    "C48_addmul",
    "C48_addevalsymm",
    "C48_symm_zero_refuted",
    "C48_addmul_left_refuted"
   ],
   "note": "addmul_h2matrix_amatrix_amatrix for all flags and the symmetric product are proved. Left products (addmul_amatrix_h2matrix_amatrix) and zero blocks in the symmetric product are refuted: the code asserts or uses conj(alpha)."
  },
  {
   "property": "C49",
   "status": "partial",
   "theorems": [
    "C49_build_from_block",
    "C49_build_strict",
    "C49_clone",
    "C49_clonestructure",
    "C49_clear",
    "C49_scale",
    "C49_delete",
    "C49_clone_delete",
    "C49_sizes",
    "C49_project_amatrix",
    "C49_project_hmatrix",
    "C49_reproduce_amatrix",
    "C49_reproduce_hmatrix",
    "C49_project_zero_refuted",
    "C49_to_block_zero_refuted"
   ],
   "note": "All parts are proved for H2-matrices of the structure set up by the constructors. Projection and conversion to a block tree are refuted for leaves without a matrix (new_zero_h2matrix)."
  },
  {
   "property": "C50",
   "status": "proved",
   "theorems": [
    "C50_addmul_rkmatrix_amatrix",
    "C50_addmul_hmatrix_amatrix",
    "C50_triangularinvmul_hmatrix_avector",
    "C50_triangularmul_hmatrix_avector",
    "C50_triangularinvmul_hmatrix_amatrix",
    "C50_triangularmul_hmatrix_amatrix",
    "C50_triangularsolve_hmatrix",
    "C50_triangulareval_hmatrix",
    "C50_lrsolve_hmatrix",
    "C50_lreval_hmatrix",
    "C50_cholsolve_hmatrix",
    "C50_choleval_hmatrix"
   ],
   "note": "Diagonal leaves are dense, as the assertions in the code require. Right-hand sides are disjoint from the H-matrix."
  },
  {
   "property": "C51",
   "status": "partial",
   "theorems": [
    "C51_trunc_rkmatrix",
    "C51_add_rkmatrix",
    "C51_add_amatrix_rkmatrix_partial",
    "C51_add_amatrix_rkmatrix_conj",
    "C51_add_rkmatrix_amatrix",
    "C51_lossless",
    "C51_truncated_within",
    "C51_trunc_error",
    "C51_add_error",
    "C51_add_amatrix_error",
    "C51_add_amatrix_rkmatrix_refuted"
   ],
   "note": "svd_amatrix (LAPACK or the QR iteration) is a parameter: its contract svd_ok is assumed. add_amatrix_rkmatrix is proved for real factors or no more columns than rows; with a complex factor and more columns than rows the code uses the conjugate of alpha (refuted). Errors are bounded over real scalars."
  },
  {
   "property": "C52",
   "status": "partial",
   "theorems": [
    "C52_merge_rkmatrix",
    "C52_add_hmatrix_amatrix",
    "C52_add_rkmatrix_hmatrix",
    "C52_add_amatrix_hmatrix_partial",
    "C52_add_hmatrix",
    "C52_merge_hmatrix_rkmatrix",
    "C52_split_sub_amatrix",
    "C52_add_amatrix_hmatrix_refuted"
   ],
   "note": "svd_amatrix is a parameter (contract svd_ok). Exactness is stated for truncation that drops only zero singular values; the general error of merge_rkmatrix is C51's. add_amatrix_hmatrix with transposition is proved for leaves and refuted for subdivided targets. add_hmatrix needs both H-matrices to split clusters the same way, and real factors."
  },
  {
   "property": "C53",
   "status": "proved",
   "theorems": [
    "C53_addmul_hmatrix"
   ],
   "note": "svd_amatrix is a parameter (contract svd_ok). Exactness is stated for truncation that drops only zero singular values. The matrices split clusters the same way (hstd), as block trees built by the library do."
  },
  {
   "property": "C54",
   "status": "partial",
   "theorems": [
    "C54_triangularinvmul_hmatrix",
    "C54_triangularinvmul_amatrix_hmatrix",
    "C54_triangularmul_hmatrix_partial",
    "C54_triangularmul_refuted",
    "C54_lrdecomp_hmatrix",
    "C54_lr_solve"
   ],
   "note": "The product by a lower triangle needs as many block rows as block columns for the adjoint of X, because of a wrong assertion (C54_triangularmul_refuted). svd_amatrix is a parameter (contract svd_ok). Exactness is stated for truncation that drops only zero singular values."
  },
  {
   "property": "C55",
   "status": "partial",
   "theorems": [
    "C55_add_lower_amatrix_hmatrix_partial",
    "C55_add_lower_rkmatrix_hmatrix",
    "C55_addmul_lower_hmatrix_partial",
    "C55_choldecomp_hmatrix",
    "C55_chol_solve",
    "C55_addmul_lower_hmatrix_refuted"
   ],
   "note": "addmul_lower_hmatrix is wrong if only the first factor is transposed (C55_addmul_lower_hmatrix_refuted); add_lower_amatrix_hmatrix is proved for the matrix itself, not its adjoint (the blocks below the diagonal use add_amatrix_hmatrix, see C52_add_amatrix_hmatrix_refuted), and for real factors. svd_amatrix is a parameter (contract svd_ok). Exactness is stated for truncation that drops only zero singular values."
  },
  {
   "property": "C56",
   "status": "proved",
   "theorems": [
    "C56_invert_hmatrix",
    "C56_invert_clonestructure"
   ],
   "note": "Proved for matrices whose leading principal submatrices are regular. svd_amatrix is a parameter (contract svd_ok). Exactness is stated for truncation that drops only zero singular values and columns."
  },
  {
   "property": "C57",
   "status": "proved",
   "theorems": [
    "C57_clone_lower_hmatrix",
    "C57_clone_upper_hmatrix",
    "C57_lr_parts"
   ],
   "note": "Proved for square block trees with dense diagonal leaves in which clusters are split into their sons (hstd). The code uses the sons of the row cluster for the blocks it clears."
  },
  {
   "property": "C58",
   "status": "partial",
   "theorems": [
    "C58_refine",
    "C58_refine_area",
    "C58_getvertices",
    "C58_check",
    "C58_shipped_meshes",
    "C58_check_illegal_edge_refuted",
    "C58_check_illegal_vertex_refuted",
    "C58_check_degenerate_refuted"
   ],
   "note": "Refinement, getvertices_tri2d and the shipped meshes are proved for all consistent meshes. check_tri2d is characterised exactly; the refuted theorems show that it leaves its arrays for illegal numbers, which it is meant to report, and accepts degenerate triangles. Rounding of coordinates and unsigned wrap-around are not modelled; the number of errors, which the code prints, is the result in the model."
  },
  {
   "property": "C59",
   "status": "proved",
   "theorems": [
    "C59_fixnormals",
    "C59_build",
    "C59_build_iff",
    "C59_build_refine"
   ],
   "note": "Over every ordered field, so without rounding in the sign of the determinant. Each edge entry is allocated by the code with allocmem and addressed by pointers; the model uses positions in a growing list. Unsigned wrap-around is not modelled."
  },
  {
   "property": "C60",
   "status": "partial",
   "theorems": [
    "C60_admissible_2",
    "C60_admissible_max",
    "C60_admissible_2_min",
    "C60_admissible_sphere",
    "C60_order",
    "C60_leaves",
    "C60_dimension",
    "C60_admissible_2_dimension_refuted"
   ],
   "note": "Proved for every ordered field with square roots, so without rounding. The last sentence is refuted for admissible_2_cluster, which reads outside the bounding box if the dimensions differ; it is proved for the other three conditions (C60_dimension)."
  },
  {
   "property": "C61",
   "status": "partial",
   "theorems": [
    "C61_check",
    "C61_isclosed",
    "C61_isoriented",
    "C61_closed_oriented",
    "C61_prepare",
    "C61_translate",
    "C61_refine",
    "C61_merge_refuted",
    "C61_scale_partial",
    "C61_scale_refuted"
   ],
   "note": "The last sentence is refuted (C61_merge_refuted, C61_scale_refuted); C61_scale_partial proves what scaling achieves, missing is that the result lies in the box in all directions. The other sentences are proved, over ordered fields with square roots where lengths are involved, so without rounding. hmin and hmax and the file formats are not modelled."
  },
  {
   "property": "C62",
   "status": "partial",
   "theorems": [
    "C62_new",
    "C62_build",
    "C62_build_interaction",
    "C62_laplace",
    "C62_mass",
    "C62_functional",
    "C62_dirichlet",
    "C62_normmax",
    "C62_prolongation",
    "C62_gradients",
    "C62_no_dof_refuted",
    "C62_stiffness",
    "C62_norml2",
    "C62_clustergeometry"
   ],
   "note": "The last sentence is refuted for meshes without inner vertices (C62_no_dof_refuted); the others are proved over ordered fields, so without rounding."
  },
  {
   "property": "C63",
   "status": "partial",
   "theorems": [
    "C63_prepare",
    "C63_circle",
    "C63_square",
    "C63_star",
    "C63_refused",
    "C63_circle_outward_refuted"
   ],
   "note": "The last sentence is refuted for the circle (C63_circle_outward_refuted); the others are proved over ordered fields, so without rounding, with square root, sine and cosine as parameters. new_hilbert_curve2d is not modelled."
  }
 ]
}