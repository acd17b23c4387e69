# Formal model of H2Lib in Rocq (Coq 8.16.1)

The source is /repo (H2Lib).  It was read as text; nothing of it was built or run.
The model is in `rocq/theories`.  `properties.jsonl` lists the properties in
English, `MANIFEST.json` maps them to theorem names, `seeded/LOG.jsonl` logs
mutation experiments ("edit the model like a bug would, which theorems fail?").

## 1. Modelling approach

* **Control.**  C functions become total Gallina functions in an error monad.
  Undefined behaviour is never totalised away: out-of-bounds access, reading
  uninitialised memory, access through NULL, division by zero, failed `assert`
  and running out of fuel are *different error outcomes*.  A theorem "the call
  returns `Ok ..`" therefore includes absence of all of these.
* **Memory.**  Numerical code runs on an explicit memory of field cells.
  Programs are trees of `load`/`store` events over addresses (block, offset);
  vectors and matrices are *views* (block, offset, leading dimension, shape), as
  in the C structs.  The logic tracks a read set and a write set, so every
  theorem also says which cells may change, and two programs with disjoint
  footprints can be run in any interleaving (parallel loops).
* **Numbers.**  `field` is an arbitrary type with operations; theorems quantify
  over every commutative ring/field with a conjugation (record arguments, not
  axioms).  Instances (Z, canonical rationals, Gaussian rationals, reals) show
  the hypotheses can be met.  *Rounding is not modelled*: a theorem about
  numerical code is about exact arithmetic.  Where an order, a square root or an
  absolute value is needed the model uses the reals of the standard library.
* **Integers.**  `uint`/`size_t` are unbounded `nat` unless the property is
  about wrap-around; then the wrap is written explicitly over `N`/`Z`.
* **Trees.**  clusters, blocks, H-matrices, cluster bases are inductive trees.
  Functions that mutate a freshly built tree return it.  Pointer identity
  (`b->rc == son->rc`) is modelled by explicit identifiers where the code
  compares pointers.
* **Build options.**  The code without USE_BLAS, USE_COMPLEX-agnostic (abstract
  conjugation), without NetCDF, OpenCL, Cairo.  OpenMP loops are modelled by
  arbitrary interleavings.

## 2. Plan per property

| id | model | proof |
|----|-------|-------|
| C01 | row lists as lists, add/clear as state machine | invariant over operation lists |
| C02 | compressed rows (row, col, coeff arrays) as lists with checked access | refinement to a partial map |
| C03 | load/store program over coeff and vector views | loop invariants, sums over rows |
| C04 | in-place partition loop on the index array, recursion on fuel | permutation invariant, induction on fuel |
| C05 | same model; termination = fuel bound | measure for the adaptive case; refutation witness for regular subdivision with coinciding points |
| C06 | box updates as folds over an abstract total order | induction on indices/sons |
| C07 | box distances over R | real inequalities, induction on the dimension |
| C08 | tree recursion with numbering | induction on trees |
| C09 | interleaving semantics of load/store programs | footprint/commutation theorem, then instantiate |
| C10 | block construction on fuel (tree depth) | induction; coverage counted as a function of (i,j) |
| C11 | same with son arrays checked | refutation + restricted theorem |
| C12 | numbering recursion | induction |
| C13 | row lists; footprint by row cluster | induction; disjointness |
| C14-C16 | load/store programs over views | loop invariants |
| C17 | constructors with 32-bit wrap | case analysis; refutation for init_pointer_amatrix |
| C18-C22 | in-place factorisations on views | loop invariants with algebraic identities |
| C23 | composition of C16 programs | rewriting sums |
| C24 | the four loops | induction over the list of singular values |
| C25 | full-pivoting elimination | loop invariant A = U V^* + R |
| C26,C27 | recursion on H-matrix trees over C16/C23 programs | induction on trees |
| C28 | heap of reference-counted objects as state machine | invariant; refutation for self-assignment |
| C29 | printer and parser on lists of characters, `fgets`/`sscanf` as in C; printing of numbers is a parameter with the hypothesis that each entry is read back | round-trip by induction; refutations |
| C30-C33 | recursion on cluster-basis trees with kbranch/ktree layouts | induction on trees |
| C48 | H2-matrix times dense matrix, hermitian product with four coefficient vectors | induction on H2-matrices, forward/backward lemmas of C30 |
| C49 | recursions on block trees, H2-matrices and pairs of cluster bases | induction on trees with ownership of matrices |
| C50 | block substitution and block products, one function for vectors and dense matrices | induction on the H-matrix, invariants of the block loops over an abstract right-hand side |
| C51 | the variants of the truncation (QR of one, both or no factor), sums stacked from two factors, dense sums; `svd_amatrix` is a parameter with a contract | one lemma per program step on a list of separated matrices, then linear algebra (Bessel's inequality for the error) |
| C52 | addition to H-matrices (dense, low-rank, H), splitting of dense and low-rank leaves, merging; functions that change an H-matrix return it | footprints of changeable H-matrices, `moves` (storage replaced, nothing else touched), induction over the source matrix |
| C53 | `addmul_hmatrix` with its four transposition variants as one recursion parametrised by the two flags | induction over the sizes of both factors; auxiliary matrices as in C52; the low-rank target is split, multiplied and merged again |
| C54 | `triangularinvmul_hmatrix`, `triangularmul_hmatrix` and their sixteen variants as one recursion parametrised by the flags, `triangularinvmul_amatrix_hmatrix`, `lrdecomp_hmatrix` | induction over the block tree; the loops by invariants for partly solved block columns and Schur complements; existence of the factors from the dense factorization of C19 |
| C55 | `add_lower_amatrix_hmatrix`, `add_lower_rkmatrix_hmatrix`, `addmul_lower_hmatrix`, `choldecomp_hmatrix` | induction over the block tree with invariants that speak only about the lower triangular part; the Cholesky step by Schur complements; existence of the factor from the dense factorization |
| C56 | `invert_hmatrix` with working storage of unknown contents | induction over the block tree; the first loop computes Schur complements and the inverses of their diagonal blocks, the second loop the blocks of the inverse by the formulas for block matrices; existence of the inverse from the dense QR factorization |
| C57 | `clone_lower_hmatrix`, `clone_upper_hmatrix` with new storage | induction over the block tree; the loops append the blocks in the order of the storage, and the invariant describes every block by its position relative to the diagonal |
| C58 | triangular meshes as index arrays: `refine_tri2d`, `check_tri2d`, `getvertices_tri2d`, the four meshes of the library | the arrays are filled from left to right with closed formulas for the refined mesh; each half of an edge is counted once where the edge is counted; the literal meshes by a verified decision procedure |
| C59 | `tri2dbuilder` as a heap of edge entries, one list per vertex and a list of triangles; `fixnormals_tri2d` over an ordered field | invariant of the builder: each entry is in the list of its smaller vertex, entries are unique, counters equal the number of uses; the loops of `buildmesh_tri2dbuilder` fill the arrays; the sign of the determinant decides the orientation |
| C60 | the four admissibility conditions of block.c over an ordered field with square roots | the code computes the distance of the closest points of the boxes and of opposite corners; the condition with spheres by the triangle inequality (Cauchy-Schwarz) and by points on the line between the centres |
| C61 | surface meshes as flat arrays with the memory layout of C; refinement, checks, normal vectors, translation, scaling and merging (without hmin/hmax and file formats) | loop invariants for arrays filled from left to right; counting of the directed uses of edges in the coarse and the fine mesh; vector products of the parts of a triangle |
| C62 | piecewise linear finite elements on the mesh model of C58, matrices as the sparse matrices of C01 to C03 | loop invariants over triangles that compare the entries with the sum of the element integrals so far; the gradients are characterised by their values along the sides, the quadrature rule by edge midpoints |
| C63 | polygons of curve2d.c without the Hilbert curve and the output functions; square root, sine and cosine are parameters with their laws | loop invariants that describe the part of the arrays filled so far; normal vectors are characterised by length and direction of the edge, vertices by equal steps between corners |
| C34 | clone with checked son index | refutation + theorem under the guard |
| C35 | doubly linked list as heap of nodes | invariant over histories |
| C36 | heap_down/heapsort on arrays with callbacks | heap invariant |
| C37 | byte counts mod 2^64 | arithmetic |
| C38,C39 | vector-space model of the steps with abstract linear operator | invariants by algebra, induction on steps |
| C40 | index bookkeeping of step_gmres, Givens over R | refutations; theorems under the guard |
| C41 | loop on fuel with abstract residuals | induction |
| C42 | dimension bookkeeping | refutation; theorem for square matrices |
| C43 | tree recursion | induction |
| C44 | nested basis recursion with abstract QR oracle | induction |
| C47 | operators as trees of owned matrices | induction over the operator |
| C46 | allocation of matrices in the memory model, trees as values | list of owned matrices as invariant, induction over the tree |

Properties that turn out false of the faithful model are kept as `.._refuted`
theorems with a concrete witness and are listed as findings in section 4.

## 3. Trusted base

* Coq's kernel (checked again by `coqchk`).
* Axioms: each `Properties*.v` file ends every theorem with `Print Assumptions`;
  the summary is kept in section 5.
* The reading of the C code: every definition cites file and lines.

## 4. Findings

Where the faithful model violates the property as a user would expect it, a
`_refuted` theorem exhibits the inputs.  These are statements about the model,
i.e. about the code as read; the code was not run.

| theorem | what the code does |
|---|---|
| C03_adjoint_refuted | `addevaltrans_sparsematrix_avector` multiplies by the transposed, not by the adjoint matrix (complex case) |
| C05_coincident_points_refuted | regular, PCA and simultaneous subdivision recurse for ever when more than `clf` points coincide |
| C05_adaptive_rounding_refuted | adaptive subdivision does the same when the midpoint is rounded to one end of the box |
| C11_lower_refuted | `build_*_lower_block` leave the son array when the row cluster has fewer sons than the column cluster |
| C15_clear_upper_amatrix_refuted | `clear_upper_amatrix(a, false)` with zero rows leaves the matrix |
| C17_init_pointer_amatrix_refuted | `init_pointer_amatrix` stores `rows` as number of columns |
| C17_init_vec_amatrix_refuted, C17_init_sub_avector_refuted | division by zero rows; `uint` wrap-around defeats the assertions on sub-objects |
| C19_empty_refuted, C21_empty_refuted | `lrdecomp`, `choldecomp`, `ldltdecomp` with dimension 0: `n-1` wraps around |
| C20_blocks_refuted | block versions divide by a zero block size |
| C21_blocks_read_refuted, C21_blocks_write_refuted | `choldecomp_blocks` reads and writes the strict upper triangle |
| C22_small_column_refuted | `qrdecomp` does not eliminate columns of very small norm |
| C25_zero_pivot_refuted | partial pivoting ACA stores a zero cross when it meets a zero row |
| C25_large_accuracy_refuted | with accuracy at least 1 the rank is set to 0 but the old columns stay |
| C25_copy_upper_refuted | `copy_upper_aca_amatrix` copies other entries than documented |
| C26_zero_leaf_refuted | leaves without matrices fail an assertion in the products |
| C27_identity_rk_refuted, C27_clear_upper_rk_refuted | low-rank diagonal leaves become zero |
| C31_compress_parallel_refuted | the parallel compression lets sons share rows of the workspace and returns a wrong result even if executed sequentially |
| C32_backward_trans_refuted | the backward transformation for adjoint matrices recurses into the version for ordinary matrices |
| C33_dense_inner_refuted | products with H2-matrices read the coefficients of a dense leaf at the places used by leaf clusters; for clusters with sons (`new_full_h2matrix` accepts them, non-strict block trees produce them) the result is wrong |
| C48_symm_zero_refuted | `addevalsymm_h2matrix_avector` asserts that every block without matrix has sons: a zero leaf, accepted by all other products, stops the program |
| C48_addmul_left_refuted | `addmul_amatrix_h2matrix_amatrix` stops in an assertion for every combination of flags if the bases have sons (`backward_clusterbasis_trans_amatrix` calls the variant for the other orientation); for leaf bases it multiplies by the conjugate of alpha |
| C49_project_zero_refuted | `project_amatrix_h2matrix` follows a null pointer for a leaf without a matrix |
| C49_to_block_zero_refuted | `build_from_h2matrix_block` fails an assertion for a leaf without a matrix |
| C28_self_assign_refuted, C28_self_assign_h2_refuted, C28_descendant_refuted | `ref_*` releases the old object before it references the new one: assigning a pointer the object it already holds as only reference, or a descendant, is a use after free |
| C28_null_son_refuted | deleting a block matrix whose sons have not been set releases null pointers |
| C35_stale_refuted | `unref_row_uniform`, `unref_col_uniform` do not reset the list pointers; a second call or `del_uniform` fails an assertion |
| C29_inconsistent_refuted | `write_hlib_hmatrix` accepts matrices where a cluster is split in one block and not in another one; reading the file stops in an assertion |
| C29_complex_refuted | with complex numbers `read_hlib_hmatrix` stops at the first entry: `sscanf` converts two fields, the assertion expects one |
| C29_symm_desc_refuted | `read_hlibsymm_hmatrix` never calls `update_hmatrix`, so the number of submatrices is zero |
| C29_symm_columns_refuted | `read_hlibsymm_hmatrix` passes the row index for the columns: column clusters of subdivided off-diagonal blocks get wrong indices |
| C34_clone_weight_refuted | `clone_clusterbasis` uses the loop variable after the loop and leaves the array of sons if a cluster with sons has a weight matrix |
| C34_clonestructure_refuted | `clonestructure_clusterbasis` does not set `ktree` and `kbranch` of leaves, so the copy is inconsistent |
| C46_delete_weight_refuted | `del_clusterbasis` does not release weight matrices |
| C36_large_refuted | index arithmetic of heapsort wraps for more than 2^31 elements |
| C37_allocmatrix_refuted, C37_trace_refuted | `rows*cols` may wrap in the allocation check; the memory tracer wraps near 2^64 |
| C39_bicg_complex_refuted | BiCG without conjugation loses biorthogonality in the complex case |
| C40_givens_tie_refuted, C40_givens_complex_refuted | Givens rotations for equal magnitudes and for complex entries |
| C40_step_bounds_refuted, C40_solve_bounds_refuted, C40_solve_uninit_refuted | GMRES leaves its arrays when the Krylov dimension reaches n, and returns an uninitialised index for zero steps |
| C41_maxiter_refuted | solvers perform `maxiter-1` steps; for `maxiter = 0` the counter wraps |
| C42_norm2_rect_refuted | `norm2_sparsematrix` passes (rows, rows) and fails for rectangular matrices |
| C51_add_amatrix_rkmatrix_refuted | `add_amatrix_rkmatrix` scales the adjoint by `alpha`, not by its conjugate, if the matrix has more columns than rows |
| C52_add_amatrix_hmatrix_refuted | `add_amatrix_hmatrix` with `atrans` and a subdivided target takes submatrices without exchanging rows and columns: blocks of A instead of its adjoint are added (or an assertion fails) |
| C54_triangularmul_refuted | `lowereval_nt_hmatrix` asserts `xp->rsons == a->rsons` instead of `xp->csons`: the product with a subdivided matrix that has different numbers of block rows and columns fails |
| C55_addmul_lower_hmatrix_refuted | `addmul_lower_hmatrix` with `xtrans = true` and `ytrans = false` uses `y->son[j + k * y->rsons]` instead of `y->son[k + j * y->rsons]` below the diagonal (harith.c:3543): an assertion fails for 2 x 2 block matrices |
| C58_check_illegal_edge_refuted | `check_tri2d` counts the triangles of an edge without testing its number: a mesh with an illegal edge number, which the check is meant to report, makes it write outside its array of counters |
| C58_check_illegal_vertex_refuted | the same for a boundary edge with an illegal vertex number: `check_tri2d` reads outside the array `xb` |
| C58_check_degenerate_refuted | `check_tri2d` only counts the vertices of a triangle: two edges between the same vertices and a third edge pass for a triangle |
| C60_admissible_2_dimension_refuted | `admissible_2_cluster` does not compare the dimensions, unlike the other three conditions: for a column cluster of lower dimension it reads outside the bounding box |
| C61_merge_refuted | `merge_surface3d` copies the entries `e[i][0]`, `e[i][1]` and `e[i][2]` of the edges, although an edge is a `uint[2]`: it reads past the end of the array for every first mesh that has edges |
| C61_scale_refuted | `scale_surface3d` computes the shift `alpha` for one direction and uses it for all three: a mesh with a vertex that has equal coordinates in two directions is not moved into a box whose intervals in these directions do not meet |
| C62_no_dof_refuted | `new_sparsepattern` asserts that there are rows and columns, so the matrices and the prolongation cannot be built on a mesh without inner vertices, such as the unit square of `new_unitsquare_tri2d` |
| C63_circle_outward_refuted | `new_circle_curve2d` traverses the circle clockwise and `new_square_curve2d` the square counterclockwise, so the normal vectors of the circle point to its center and those of the square outwards; the documentation does not say which is meant |

Seen while reading, not (yet) part of a theorem: `write_hlib_hmatrix` never
closes its file; `new_zero_avector`
allocates the size of an `amatrix`; `enumerate_hmatrix` dereferences `hm->rc`
before the test for NULL; `leaves_into_sons` mixes `free` and `freemem`;
`lrdecomp_tasks`/`choldecomp_tasks` factorise twice if n equals the block size.

## 5. Assumptions per theorem

Output of `Print Assumptions` for every theorem named in MANIFEST.json
(generated; the same commands stand at the end of the `Prop*.v` files).

* **Closed under the global context** (417 theorems): all those not listed below.
* `ClassicalDedekindReals.sig_forall_dec`, `ClassicalDedekindReals.sig_not_dec`, `FunctionalExtensionality.functional_extensionality_dep` (5 theorems): C22_small_column_refuted, C40_givens_partial, C40_givens_tie_refuted, C40_givens_complex_refuted, C51_add_amatrix_rkmatrix_refuted.

These axioms belong to the standard library (`Coq.Reals`, `Coq.Logic`).  No other axiom is used.

## 6. Which functions are modelled

For every C file that the model cites: the functions whose lines are cited by a
definition, and those that are not modelled.  C files that do not appear are not
modelled at all.

* **aca.c**: modelled (4): decomp_fullaca_rkmatrix, decomp_partialaca_rkmatrix, copy_lower_aca_amatrix, copy_upper_aca_amatrix.
* **amatrix.c**: modelled (32): init_amatrix, init_sub_amatrix, init_vec_amatrix, init_pointer_amatrix, init_zero_amatrix, init_identity_amatrix, uninit_amatrix, resize_amatrix, resizecopy_amatrix, getsize_amatrix, getsize_heap_amatrix, clear_amatrix, clear_lower_amatrix, clear_upper_amatrix, identity_amatrix, random_amatrix, copy_amatrix, copy_colpiv_amatrix, clone_amatrix, copy_sub_amatrix, check_ortho_amatrix, scale_amatrix, conjugate_amatrix, dotprod_amatrix, normfrob_amatrix, normfrob2_amatrix, addeval_amatrix_avector, addevaltrans_amatrix_avector, mvm_amatrix_avector, add_amatrix, addmul_amatrix, bidiagmul_amatrix.  Not modelled (14): new_amatrix, new_sub_amatrix, new_pointer_amatrix, new_zero_amatrix, new_identity_amatrix, del_amatrix, getactives_amatrix, random_invertible_amatrix, random_selfadjoint_amatrix, random_spd_amatrix, print_amatrix, print_matlab_amatrix, norm2_amatrix, norm2diff_amatrix.
* **avector.c**: modelled (17): init_avector, init_sub_avector, init_zero_avector, init_column_avector, init_pointer_avector, uninit_avector, resize_avector, shrink_avector, clear_avector, fill_avector, random_avector, copy_avector, copy_sub_avector, scale_avector, norm2_avector, dotprod_avector, add_avector.  Not modelled (10): new_avector, new_sub_avector, new_zero_avector, new_pointer_avector, del_avector, getactives_avector, getsize_avector, getsize_heap_avector, random_real_avector, print_avector.
* **basic.c**: modelled (8): _h2_allocmem, _h2_allocuint, _h2_allocmatrix, freemem, _h2_allocreal, _h2_allocfield, heap_down, _h2_heapsort.  Not modelled (10): init_h2lib, uninit_h2lib, get_current_memory, new_stopwatch, del_stopwatch, start_stopwatch, stop_stopwatch, new_cairopdf, new_cairopng, write_cairopng.
* **bem3d.c**: modelled (1): assemble_cc_near_bem3d.  Not modelled (195): uninit_interpolation_bem3d, uninit_green_bem3d, uninit_aca_bem3d, uninit_recompression_bem3d, new_greencluster3d, del_greencluster3d, new_greenclusterbasis3d, del_greenclusterbasis3d, new_listnode, del_listnode, new_aprxbem3d, del_aprxbem3d, new_kernelbem3d, del_kernelbem3d, new_parbem3d, del_parbem3d, new_bem3d, del_bem3d, new_vert_list, del_vert_list, new_tri_list, del_tri_list, setup_vertex_to_triangle_map_bem3d, build_bem3d_const_clustergeometry, build_bem3d_linear_clustergeometry, build_bem3d_clustergeometry, build_bem3d_cluster, assemble_cc_simd_near_bem3d, assemble_cc_simd_far_bem3d, assemble_cc_far_bem3d, assemble_cl_simd_near_bem3d, assemble_cl_near_bem3d, assemble_cl_simd_far_bem3d, assemble_cl_far_bem3d, assemble_lc_simd_near_bem3d, assemble_lc_near_bem3d, assemble_lc_simd_far_bem3d, assemble_lc_far_bem3d, assemble_ll_simd_near_bem3d, assemble_ll_near_bem3d, assemble_ll_simd_far_bem3d, assemble_ll_far_bem3d, fill_bem3d, fill_wave_bem3d, fill_row_c_bem3d, fill_row_simd_c_bem3d, fill_col_c_bem3d, fill_col_simd_c_bem3d, fill_row_l_bem3d, fill_col_l_bem3d, fill_dnz_row_c_bem3d, fill_dnz_row_simd_c_bem3d, fill_dnz_col_c_bem3d, fill_dnz_col_simd_c_bem3d, fill_dnz_row_l_bem3d, fill_dnz_col_l_bem3d, setup_interpolation_bem3d, setup_green_bem3d, setup_aca_bem3d, build_bem3d_cube_quadpoints, assemble_interpoints3d_array, assemble_interpoints3d_realavector, assemble_bem3d_inter_row_rkmatrix, assemble_bem3d_inter_col_rkmatrix, assemble_bem3d_inter_mixed_rkmatrix, assemble_bem3d_green_row_rkmatrix, assemble_bem3d_green_col_rkmatrix, assemble_bem3d_green_mixed_rkmatrix, assemble_row_greencluster3d, assemble_bem3d_greenhybrid_row_rkmatrix, assemble_col_greencluster3d, assemble_bem3d_greenhybrid_col_rkmatrix, assemble_bem3d_greenhybrid_mixed_rkmatrix, assemble_bem3d_ACA_rkmatrix, assemble_bem3d_PACA_rkmatrix, assemble_bem3d_HCA_rkmatrix, assemble_bem3d_inter_row_clusterbasis, assemble_bem3d_inter_transfer_row_clusterbasis, assemble_bem3d_inter_col_clusterbasis, assemble_bem3d_inter_transfer_col_clusterbasis, assemble_bem3d_inter_uniform, update_pivotelements_greenclusterbasis3d, collect_pivotelements_greenclusterbasis3d, assemble_bem3d_greenhybrid_leaf_row_clusterbasis, assemble_bem3d_greenhybrid_transfer_row_clusterbasis, assemble_bem3d_greenhybrid_leaf_col_clusterbasis, assemble_bem3d_greenhybrid_transfer_col_clusterbasis, assemble_bem3d_greenhybrid_uniform, assemble_bem3d_greenhybrid_ortho_leaf_row_clusterbasis, assemble_bem3d_greenhybrid_ortho_transfer_row_clusterbasis, assemble_bem3d_greenhybrid_ortho_leaf_col_clusterbasis, assemble_bem3d_greenhybrid_ortho_transfer_col_clusterbasis, assemble_bem3d_greenhybrid_ortho_uniform, assemble_bem3d_inter_nowave_leaf_row_dclusterbasis, assemble_bem3d_inter_nowave_leaf_col_dclusterbasis, assemble_bem3d_inter_wave_leaf_row_dclusterbasis, assemble_bem3d_inter_wave_leaf_col_dclusterbasis, assemble_bem3d_inter_nowave_transfer_row_dclusterbasis, assemble_bem3d_inter_nowave_transfer_col_dclusterbasis, assemble_bem3d_inter_wave_transfer_row_dclusterbasis, assemble_bem3d_inter_wave_transfer_col_dclusterbasis, assemble_bem3d_inter_wavewave_transfer_row_dclusterbasis, assemble_bem3d_inter_wavewave_transfer_col_dclusterbasis, assemble_bem3d_inter_nowave_duniform, assemble_bem3d_inter_wave_duniform, assemble_bem3d_inter_ortho_nowave_duniform, assemble_bem3d_inter_ortho_wave_duniform, eval_lagrange1d, eval_dn_lagrange1d, assemble_bem3d_lagrange_c_amatrix, assemble_bem3d_lagrange_wave_c_amatrix, assemble_bem3d_lagrange_l_amatrix, assemble_bem3d_lagrange_wave_l_amatrix, assemble_bem3d_dn_lagrange_c_amatrix, assemble_bem3d_dn_lagrange_wave_c_amatrix, assemble_bem3d_dn_lagrange_l_amatrix, assemble_bem3d_dn_lagrange_wave_l_amatrix, assemble_bem3d_lagrange_amatrix, assemble_bem3d_lagrange_wave_amatrix, integrate_bem3d_c_avector, integrate_bem3d_l_avector, normL2_bem3d, normL2_c_bem3d, normL2diff_c_bem3d, projectL2_bem3d_c_avector, addeval_mass_linear_bem3d, normL2_l_bem3d, normL2diff_l_bem3d, projectL2_bem3d_l_avector, build_bem3d_rkmatrix, build_bem3d_amatrix, setup_hmatrix_recomp_bem3d, setup_hmatrix_aprx_inter_row_bem3d, setup_hmatrix_aprx_inter_col_bem3d, setup_hmatrix_aprx_inter_mixed_bem3d, setup_hmatrix_aprx_green_row_bem3d, setup_hmatrix_aprx_green_col_bem3d, setup_hmatrix_aprx_green_mixed_bem3d, setup_hmatrix_aprx_greenhybrid_row_bem3d, setup_hmatrix_aprx_greenhybrid_col_bem3d, setup_hmatrix_aprx_greenhybrid_mixed_bem3d, setup_hmatrix_aprx_aca_bem3d, setup_hmatrix_aprx_paca_bem3d, setup_hmatrix_aprx_hca_bem3d, setup_h2matrix_recomp_bem3d, setup_h2matrix_aprx_inter_bem3d, setup_h2matrix_aprx_greenhybrid_bem3d, setup_h2matrix_aprx_greenhybrid_ortho_bem3d, setup_dh2matrix_aprx_inter_bem3d, setup_dh2matrix_aprx_inter_ortho_bem3d, setup_dh2matrix_aprx_inter_recomp_bem3d, assemble_bem3d_amatrix, assemble_bem3d_block_hmatrix, assemblecoarsen_bem3d_block_hmatrix, assemble_bem3d_nearfield_block_hmatrix, assemble_bem3d_farfield_block_hmatrix, assemble_bem3d_hmatrix, assemblecoarsen_bem3d_hmatrix, assemble_bem3d_nearfield_hmatrix, assemble_bem3d_farfield_hmatrix, assemble_bem3d_block_h2matrix, assemble_bem3d_nearfield_block_h2matrix, assemble_bem3d_farfield_block_h2matrix, assemblehiercomp_bem3d_block_h2matrix, assemble_bem3d_h2matrix, assemble_bem3d_nearfield_h2matrix, assemble_bem3d_farfield_h2matrix, assemblehiercomp_bem3d_h2matrix, assemble_bem3d_h2matrix_cluster_row_clusterbasis, assemble_bem3d_h2matrix_row_clusterbasis, assemble_bem3d_h2matrix_cluster_col_clusterbasis, assemble_bem3d_h2matrix_col_clusterbasis, assemble_bem3d_dh2matrix_cluster_row_dclusterbasis, assemble_bem3d_dh2matrix_cluster_col_dclusterbasis, ortho_leaf, ortho_transfer_row, ortho_transfer_col, assemble_bem3d_dh2matrix_ortho_cluster_row_dclusterbasis, assemble_bem3d_dh2matrix_ortho_cluster_col_dclusterbasis, assemble_bem3d_dh2matrix_row_dclusterbasis, assemble_bem3d_dh2matrix_col_dclusterbasis, assemble_bem3d_dh2matrix_ortho_row_dclusterbasis, assemble_bem3d_dh2matrix_ortho_col_dclusterbasis, create_newadmisblock, create_weight_lists, local_weight, recomp_dweights, assemble_bem3d_dh2matrix_recomp_both_dclusterbasis, assemble_bem3d_block_dh2matrix, assemble_bem3d_farfield_block_dh2matrix, assemble_bem3d_nearfield_block_dh2matrix, assemble_bem3d_dh2matrix, assemble_bem3d_farfield_dh2matrix, assemble_bem3d_nearfield_dh2matrix, build_bem3d_curl_sparsematrix.
* **block.c**: modelled (29): admissible_2_cluster, admissible_max_cluster, admissible_sphere_cluster, admissible_2_min_cluster, new_block, update_block, build_nonstrict_block, build_nonstrict_lower_block, build_strict_block, build_strict_lower_block, iterate_block, addrow, iterate_rowlist, iterate_rowlist_block, addcol, iterate_collist, iterate_collist_block, call_reversed_blockentry, pre_blocklist, call_inorder_blockentry, iterate_byrow_block, iterate_bycol_block, enumerate, enumerate_block, enumerate_level, enumerate_level_block, getdepth_block, pre_compute_csp_block, compute_csp_block.  Not modelled (12): del_block, draw_cairo_subblock, draw_cairo_block, display_glut_block, reshape_glut_block, mouse_glut_block, motion_glut_block, keyboard_glut_block, displaylist_block, view_block, del_blockentry, post_blocklist.
* **cluster.c**: modelled (24): new_cluster, update_cluster, build_adaptive_cluster, build_regular_cluster, build_help_cluster, leaves_into_sons, build_simsub_cluster, build_pca_cluster, build_cluster, getdepth_cluster, getmindepth_cluster, extend_cluster, cut_cluster, balance_cluster, coarsen_cluster, setsons_cluster, getdiam_2_cluster, getdist_2_cluster, getdiam_max_cluster, getdist_max_cluster, iterate_cluster, iterate_parallel_cluster, enumerate, enumerate_cluster.  Not modelled (9): del_cluster, write_count, write_cdf, write_cdf_cluster, prefix_name, write_cdfpart_cluster, read_cdf_part, read_cdf_cluster, read_cdfpart_cluster.
* **clusterbasis.c**: modelled (43): init_raw_clusterbasis, init_clusterbasis, init_leaf_clusterbasis, init_sub_clusterbasis, uninit_clusterbasis, new_clusterbasis, new_leaf_clusterbasis, del_clusterbasis, ref_clusterbasis, unref_clusterbasis, update_clusterbasis, update_tree_clusterbasis, resize_clusterbasis, setrank_clusterbasis, build_from_cluster_clusterbasis, clone_clusterbasis, clonestructure_clusterbasis, getsize_clusterbasis, clear_weight_clusterbasis, new_coeffs_clusterbasis_avector, forward_clusterbasis_avector, forward_parallel_clusterbasis_avector, forward_nopermutation_clusterbasis_avector, forward_notransfer, forward_notransfer_clusterbasis_avector, backward_clusterbasis_avector, backward_parallel_clusterbasis_avector, backward_nopermutation_clusterbasis_avector, backward_notransfer, backward_notransfer_clusterbasis_avector, compress_clusterbasis_avector, expand_clusterbasis_avector, compress_clusterbasis_amatrix, compress_parallel_clusterbasis_amatrix, expand_clusterbasis_amatrix, forward_clusterbasis_amatrix, forward_clusterbasis_trans_amatrix, backward_clusterbasis_amatrix, backward_clusterbasis_trans_amatrix, addeval_clusterbasis_avector, addevaltrans_clusterbasis_avector, ortho_clusterbasis, weight_clusterbasis_clusteroperator.  Not modelled (16): getactives_clusterbasis, iterate_clusterbasis, iterate_parallel_clusterbasis, enumerate, enumerate_clusterbasis, check_ortho_clusterbasis, computeweight, weight_enum_clusterbasis_clusteroperator, write_count, write_cdf, write_cdf_clusterbasis, prefix_name, write_cdfpart_clusterbasis, read_cdf_part, read_cdf_clusterbasis, read_cdfpart_clusterbasis.
* **clustergeometry.c**: modelled (4): new_clustergeometry, update_point_bbox_clustergeometry, update_support_bbox_cluster, update_bbox_cluster.  Not modelled (1): del_clustergeometry.
* **clusteroperator.c**: modelled (13): init_clusteroperator, init_leaf_clusteroperator, uninit_clusteroperator, new_clusteroperator, new_leaf_clusteroperator, del_clusteroperator, removesons_clusteroperator, ref_clusteroperator, unref_clusteroperator, resize_clusteroperator, build_from_cluster_clusteroperator, build_from_clusterbasis_clusteroperator, basisproduct_clusteroperator.  Not modelled (12): update_clusteroperator, identify_son_clusterweight_clusteroperator, getactives_clusteroperator, getsize_clusteroperator, print_tree, print_tree_clusteroperator, norm2diff, norm2diff_clusteroperator, compareweights, compareweights_clusteroperator, enumerate, enumerate_clusteroperator.
* **curve2d.c**: modelled (5): new_curve2d, prepare_curve2d, new_circle_curve2d, new_square_curve2d, new_star_curve2d.  Not modelled (6): del_curve2d, hilbert_rec_curve2d, new_hilbert_curve2d, print_curve2d, compute_boundingbox_curve2d, draw_curve2d.
* **factorizations.c**: modelled (45): diagsolve_amatrix_avector, diagsolve_amatrix, diageval_amatrix_avector, diageval_amatrix, diageval_realavector_amatrix, lowersolve_amatrix_avector, uppersolve_amatrix_avector, triangularsolve_amatrix_avector, lowersolve_amatrix, uppersolve_amatrix, triangularsolve_amatrix, lowereval_amatrix_avector, uppereval_amatrix_avector, triangulareval_amatrix_avector, lowereval_amatrix, uppereval_amatrix, triangulareval_amatrix, triangularaddmul_amatrix, copy_lower_amatrix, copy_upper_amatrix, lrdecomp_amatrix, lrdecomp_blocks_amatrix, lrsolve_n_amatrix_avector, lrsolve_t_amatrix_avector, lrsolve_amatrix_avector, lrsolve_amatrix, lreval_n_amatrix_avector, lreval_t_amatrix_avector, lreval_amatrix_avector, choldecomp_amatrix, choldecomp_blocks_amatrix, cholsolve_amatrix_avector, cholsolve_amatrix, choleval_amatrix_avector, ldltdecomp_amatrix, ldltsolve_amatrix_avector, ldltsolve_amatrix, qrdecomp_amatrix, qrdecomp_pivot_amatrix, qrdecomp_rank_amatrix, qreval_amatrix_avector, qreval_amatrix, qrsolve_amatrix_avector, qrinvert_amatrix, qrexpand_amatrix.  Not modelled (2): lrdecomp_tasks_amatrix, choldecomp_tasks_amatrix.
* **h2matrix.c**: modelled (32): new_h2matrix, new_uniform_h2matrix, new_full_h2matrix, new_super_h2matrix, new_zero_h2matrix, clonestructure_h2matrix, clone_h2matrix, update_h2matrix, del_h2matrix, ref_h2matrix, unref_h2matrix, getsize_h2matrix, gettotalsize_h2matrix, clear_h2matrix, scale_h2matrix, build_from_block_h2matrix, build_from_h2matrix_block, mvm_h2matrix_avector, fastaddeval_h2matrix_avector, addeval_h2matrix_avector, fastaddevaltrans_h2matrix_avector, addevaltrans_h2matrix_avector, addevalsymm_offdiag, addevalsymm_diag, addevalsymm_h2matrix_avector, fastaddmul_h2matrix_amatrix_amatrix, addmul_h2matrix_amatrix_amatrix, addmul_amatrix_h2matrix_amatrix, collectdense_h2matrix, project_amatrix_h2matrix, project_hmatrix_h2matrix, norm2_h2matrix.  Not modelled (32): getnearsize_h2matrix, getfarsize_h2matrix, random_h2matrix, enumerate, enumerate_h2matrix, iterate_h2matrix, del_h2matrixlist, addrow_iterate, iterate_rowlist, iterate_rowlist_h2matrix, addcol_iterate, iterate_collist, iterate_collist_h2matrix, call_reversed_h2matrixlist, pre_h2matrixlist, call_inorder_h2matrixlist, post_h2matrixlist, iterate_byrow_h2matrix, iterate_bycol_h2matrix, norm2diff_h2matrix, write_count, write_cdf, write_cdf_h2matrix, prefix_name, write_cdfpart_h2matrix, read_cdf_part, read_cdf_h2matrix, read_cdfpart_h2matrix, write_cdfcomplete_h2matrix, read_cdfcomplete_h2matrix, cairodraw, draw_cairo_h2matrix.
* **harith.c**: modelled (70): trunc_ab_rkmatrix, trunc_qb_rkmatrix, trunc_aq_rkmatrix, trunc_qq_rkmatrix, trunc_rkmatrix, add_amatrix_rkmatrix, add_rkmatrix_amatrix, add_hmatrix_amatrix, add_ab_rkmatrix, add_qb_rkmatrix, add_aq_rkmatrix, add_qq_rkmatrix, add_rkmatrix, add_amatrix_hmatrix, add_lower_amatrix_hmatrix, add_rkmatrix_hmatrix, add_lower_rkmatrix_hmatrix, add_hmatrix, split_sub_amatrix, split_rkmatrix, merge_aq_rkmatrix, merge_rkmatrix, merge_hmatrix_rkmatrix, addmul_rkmatrix_amatrix_amatrix, addmul_n_hmatrix_amatrix_amatrix, addmul_t_hmatrix_amatrix_amatrix, addmul_hmatrix_amatrix_amatrix, addmul_nn_hmatrix, addmul_nt_hmatrix, addmul_tn_hmatrix, addmul_hmatrix, addmul_lower_hmatrix, invert_hmatrix, clone_lower_hmatrix, clone_upper_hmatrix, lowersolve_n_hmatrix_avector, lowersolve_hmatrix_avector, uppersolve_hmatrix_avector, triangularinvmul_hmatrix_avector, triangularsolve_hmatrix_avector, lowersolve_hmatrix_amatrix, lowersolve_nn_hmatrix, lowersolve_hmatrix, lowersolve_nn_amatrix_hmatrix, lowersolve_nt_amatrix_hmatrix, lowersolve_tn_amatrix_hmatrix, lowersolve_tt_amatrix_hmatrix, lowersolve_amatrix_hmatrix, uppersolve_nn_amatrix_hmatrix, uppersolve_nt_amatrix_hmatrix, uppersolve_tn_amatrix_hmatrix, uppersolve_tt_amatrix_hmatrix, uppersolve_amatrix_hmatrix, triangularinvmul_amatrix_hmatrix, lowereval_n_hmatrix_avector, lowereval_hmatrix_avector, uppereval_hmatrix_avector, triangularmul_hmatrix_avector, triangulareval_hmatrix_avector, lowereval_hmatrix_amatrix, lrdecomp_hmatrix, lrsolve_n_hmatrix_avector, lrsolve_t_hmatrix_avector, lrsolve_hmatrix_avector, lreval_n_hmatrix_avector, lreval_t_hmatrix_avector, lreval_hmatrix_avector, choldecomp_hmatrix, cholsolve_hmatrix_avector, choleval_hmatrix_avector.  Not modelled (44): split_sub_rkmatrix, addmul_tt_hmatrix, lowersolve_t_hmatrix_avector, uppersolve_n_hmatrix_avector, uppersolve_t_hmatrix_avector, lowersolve_nn_hmatrix_amatrix, lowersolve_nt_hmatrix_amatrix, lowersolve_tn_hmatrix_amatrix, lowersolve_tt_hmatrix_amatrix, uppersolve_nn_hmatrix_amatrix, uppersolve_nt_hmatrix_amatrix, uppersolve_tn_hmatrix_amatrix, uppersolve_tt_hmatrix_amatrix, uppersolve_hmatrix_amatrix, triangularinvmul_hmatrix_amatrix, lowersolve_nt_hmatrix, lowersolve_tn_hmatrix, lowersolve_tt_hmatrix, uppersolve_nn_hmatrix, uppersolve_nt_hmatrix, uppersolve_tn_hmatrix, uppersolve_tt_hmatrix, uppersolve_hmatrix, triangularinvmul_hmatrix, lowereval_t_hmatrix_avector, uppereval_n_hmatrix_avector, uppereval_t_hmatrix_avector, lowereval_n_hmatrix_amatrix, lowereval_t_hmatrix_amatrix, uppereval_n_hmatrix_amatrix, uppereval_t_hmatrix_amatrix, uppereval_hmatrix_amatrix, triangularmul_hmatrix_amatrix, lowereval_nn_hmatrix, lowereval_nt_hmatrix, lowereval_tn_hmatrix, lowereval_tt_hmatrix, lowereval_hmatrix, uppereval_nn_hmatrix, uppereval_nt_hmatrix, uppereval_tn_hmatrix, uppereval_tt_hmatrix, uppereval_hmatrix, triangularmul_hmatrix.
* **hmatrix.c**: modelled (36): init_hmatrix, uninit_hmatrix, new_hmatrix, new_rk_hmatrix, new_full_hmatrix, new_super_hmatrix, clonestructure_hmatrix, clone_hmatrix, update_hmatrix, del_hmatrix, ref_hmatrix, unref_hmatrix, getsize_hmatrix, clear_hmatrix, clear_upper_hmatrix, copy_hmatrix, identity_hmatrix, scale_hmatrix, build_from_block_hmatrix, build_from_hmatrix_block, mvm_hmatrix_avector, fastaddeval_hmatrix_avector, addeval_hmatrix_avector, fastaddevaltrans_hmatrix_avector, addevaltrans_hmatrix_avector, addevalsymm_offdiag, addevalsymm_diag, fastaddevalsymm_hmatrix_avector, addevalsymm_hmatrix_avector, norm2_hmatrix, write_hlib_part, write_hlib_hmatrix, read_hlib_part, read_hlib_hmatrix, read_hlibsymm_part, read_hlibsymm_hmatrix.  Not modelled (19): getnearsize_hmatrix, getfarsize_hmatrix, random_hmatrix, enumerate, enumerate_hmatrix, norm2diff_hmatrix, write_count, write_cdf, write_cdf_hmatrix, prefix_name, write_cdfpart_hmatrix, read_cdf_part, read_cdf_hmatrix, read_cdfpart_hmatrix, write_cdfcomplete_hmatrix, read_cdfcomplete_hmatrix, cairodraw, draw_cairo_hmatrix, copy_sparsematrix_hmatrix.
* **krylov.c**: modelled (23): norm2_matrix, norm2diff_matrix, norm2diff_pre_matrix, norm2diff_id_pre_matrix, init_cg, step_cg, evalfunctional_cg, init_pcg, step_pcg, init_uzawa, step_uzawa, init_puzawa, step_puzawa, init_bicg, step_bicg, init_bicgstab, step_bicgstab, findapply_givens, apply_givens, init_gmres, step_gmres, finish_gmres, residualnorm_gmres.  Not modelled (5): solve_gmres, init_pgmres, step_pgmres, finish_pgmres, residualnorm_pgmres.
* **krylovsolvers.c**: modelled (8): solve_cg_avector, solve_cg_amatrix_avector, solve_pcg_avector, solve_pcg_amatrix_avector, solve_gmres_avector, solve_gmres_amatrix_avector, solve_gmres_dh2matrix_avector, solve_pgmres_avector.  Not modelled (16): solve_cg_sparsematrix_avector, solve_cg_hmatrix_avector, solve_cg_h2matrix_avector, solve_cg_dh2matrix_avector, solve_pcg_sparsematrix_avector, solve_pcg_hmatrix_avector, solve_pcg_h2matrix_avector, solve_pcg_dh2matrix_avector, solve_gmres_sparsematrix_avector, solve_gmres_hmatrix_avector, solve_gmres_h2matrix_avector, solve_pgmres_amatrix_avector, solve_pgmres_sparsematrix_avector, solve_pgmres_hmatrix_avector, solve_pgmres_h2matrix_avector, solve_pgmres_dh2matrix_avector.
* **rkmatrix.c**: modelled (18): init_rkmatrix, init_sub_rkmatrix, uninit_rkmatrix, new_rkmatrix, new_sub_rkmatrix, del_rkmatrix, setrank_rkmatrix, resize_rkmatrix, getsize_rkmatrix, clone_rkmatrix, copy_rkmatrix, scale_rkmatrix, random_rkmatrix, addeval_rkmatrix_avector, addevaltrans_rkmatrix_avector, mvm_rkmatrix_avector, norm2_rkmatrix, norm2diff_rkmatrix.  Not modelled (1): getsize_heap_rkmatrix.
* **sparsematrix.c**: modelled (14): new_raw_sparsematrix, new_identity_sparsematrix, new_zero_sparsematrix, addentry_sparsematrix, setentry_sparsematrix, swap, sort_sparsematrix, clear_sparsematrix, addeval_sparsematrix_avector, addevaltrans_sparsematrix_avector, mvm_sparsematrix_avector, norm2_sparsematrix, norm2diff_sparsematrix, add_sparsematrix_amatrix.  Not modelled (4): del_sparsematrix, getsize_sparsematrix, print_sparsematrix, print_eps_sparsematrix.
* **sparsepattern.c**: modelled (3): new_sparsepattern, clear_sparsepattern, addnz_sparsepattern.  Not modelled (4): create_entry, free_entry, del_sparsepattern, print_sparsepattern.
* **surface3d.c**: modelled (9): new_surface3d, prepare_surface3d, check_surface3d, isclosed_surface3d, isoriented_surface3d, scale_surface3d, translate_surface3d, merge_surface3d, refine_red_surface3d.  Not modelled (17): del_surface3d, getproperties_surface3d, print_surface3d, write_surface3d, readline, read_surface3d, nc_handle_error, write_nc_surface3d, read_nc_surface3d, prepend_edge, mark_edge, prepare_edges, prepare_arrays_s, read_netgen_surface3d, read_gmsh_surface3d, prepare_dynamic_edges, read_unv_surface3d.
* **tri2d.c**: modelled (22): new_tri2d, new_unitsquare_tri2d, new_unitcircle_tri2d, new_lshape_tri2d, new_ushape_tri2d, fixnormals_tri2d, check_tri2d, common_vertex, common_vertex_global, getvertices_tri2d, intersecting_edges, refine_tri2d, new_edgeentry, new_trientry, new_tri2dbuilder, del_trientry, del_edgeentry, del_tri2dbuilder, real, find_edgeentry, addtriangle_tri2dbuilder, buildmesh_tri2dbuilder.  Not modelled (6): del_tri2d, write_tri2d, read_tri2d, draw_cairo_tri2d, smooth_unitcircle_tri2d, del_tri2dref.
* **tri2dp1.c**: modelled (11): new_tri2dp1, build_tri2dp1_sparsematrix, build_tri2dp1_interaction_sparsematrix, build_tri2dp1_prolongation_sparsematrix, assemble_tri2dp1_laplace_sparsematrix, assemble_tri2dp1_mass_sparsematrix, assemble_tri2dp1_dirichlet_avector, assemble_tri2dp1_functional_avector, normmax_tri2dp1, norml2_tri2dp1, build_tri2dp1_clustergeometry.  Not modelled (1): del_tri2dp1.
* **truncation.c**: modelled (8): new_truncmode, del_truncmode, new_releucl_truncmode, new_relfrob_truncmode, new_blockreleucl_truncmode, new_blockrelfrob_truncmode, new_abseucl_truncmode, findrank_truncmode.
* **uniform.c**: modelled (8): new_uniform, del_uniform, ref_row_uniform, ref_col_uniform, unref_row_uniform, unref_col_uniform, getsize_uniform, scale_uniform.  Not modelled (8): clear_uniform, copy_uniform, clone_uniform, random_uniform, mvm_uniform_avector, add_projected_uniform, project_inplace_uniform, add_rkmatrix_uniform.
