{"id": "C01", "title": "In-place permutation gathers exactly", "statement": "apply_permutation_in_place(perm, vec) with perm a permutation of 0..n-1 and |vec| = n terminates without leaving the vector and leaves vec'[i] = vec[perm[i]] for every i; no element is lost or duplicated.", "quantifier": "for every length n, every permutation of 0..n-1, every element type and every vector content", "why_tests_cant": "the number of permutations is n!; tests use one or two of them with a single cycle structure", "anchors": ["include/mfmg/common/utils.hpp:57-79 apply_permutation_in_place"]}
{"id": "C02", "title": "sort_permutation orders pairs lexicographically", "statement": "sort_permutation(v1, v2) returns a permutation of 0..n-1; applying it in place to v1, v2 and any companion array of the same length yields arrays sorted lexicographically by (v1, v2) in which every triple (v1[k], v2[k], w[k]) of the input occurs exactly as often as before.", "quantifier": "for every pair of equally long key arrays, every companion array and every sorting algorithm that meets the contract of std::sort (any permutation sorted by the comparator)", "why_tests_cant": "std::sort is unstable, so the result on ties is unspecified; tests see only one implementation and few inputs", "anchors": ["include/mfmg/common/utils.hpp:34-55 sort_permutation", "include/mfmg/common/utils.hpp:57-79 apply_permutation_in_place", "source/cuda/utils.cu:286-297 csr_to_amgx"]}
{"id": "C03", "title": "In-place permutation terminates exactly on bijections", "statement": "On an index array with all entries in range and as long as the vector, apply_permutation_in_place terminates if and only if the index array is a bijection; on any non-injective index array it loops forever.", "quantifier": "for every length and every in-range index array", "why_tests_cant": "non-termination cannot be observed by a test", "anchors": ["include/mfmg/common/utils.hpp:57-79 apply_permutation_in_place"]}
{"id": "C04", "title": "Block agglomeration covers every owned cell", "statement": "After build_agglomerates_block on a mesh whose cells carry no user index, every locally owned active cell carries an agglomerate id between 1 and the returned number, every other cell keeps user index 0.", "quantifier": "for every finite mesh (any set of cells, any neighbour relation, any ownership), every agglomerate size >= 1 in each direction and dimension 2 or 3", "why_tests_cant": "holds for all mesh topologies and partitions; tests use small hyper cubes", "anchors": ["include/mfmg/common/amge.templates.hpp:412-499 build_agglomerates_block"]}
{"id": "C05", "title": "Block agglomeration of a structured grid is the tiling", "statement": "On a serial structured nx x ny (x nz) grid whose cell numbering grows along each axis (lexicographic, Z-order, ...), build_agglomerates_block with block size bx x by (x bz) gives two cells the same id iff they lie in the same tile (i/bx, j/by, k/bz), returns ceil(nx/bx)*ceil(ny/by)*ceil(nz/bz), and numbers the tiles by their first cells.", "quantifier": "for every grid size, every block size >= 1, dimension 2 and 3, every numbering of the cells that grows along the axes", "why_tests_cant": "sizes are unbounded and the boundary tiles differ from the interior ones", "anchors": ["include/mfmg/common/amge.templates.hpp:412-499 build_agglomerates_block"]}
{"id": "C06", "title": "Agglomerate ids returned by block agglomeration can be empty", "statement": "If stepping to the next neighbour in each direction never leads to a smaller cell number, every id 1..n returned by build_agglomerates_block is used by at least one cell, for any ownership of cells; without that condition a later block can overwrite an earlier one entirely and an id can be left without any cell.", "quantifier": "for every mesh, ownership and block sizes with monotone numbering (non-emptiness); some mesh with another numbering (failure)", "why_tests_cant": "needs a mesh whose cell numbering is not monotone along the axes", "anchors": ["include/mfmg/common/amge.templates.hpp:412-499 build_agglomerates_block"]}
{"id": "C07", "title": "Partitioner renumbering is dense and respects the partition", "statement": "For the partitioner path of build_agglomerates: given any part number per owned cell, the ids assigned are exactly 1..n with n the number of distinct parts, two owned cells share an id iff the partitioner put them into the same part, and non-owned cells are not touched.", "quantifier": "for every number of cells, ownership pattern and every output of the external partitioner", "why_tests_cant": "depends on arbitrary external partitioner output including empty parts", "anchors": ["include/mfmg/common/amge.templates.hpp:501-594 build_agglomerates_partitioner"]}
{"id": "C08", "title": "Interior and halo split of an agglomerate", "statement": "For each agglomerate, the interior list holds, in increasing order and without repetition, exactly its locally owned cells that share a vertex with a cell outside the agglomerate; the halo list holds exactly the cells outside that share a vertex with a cell inside. Every vertex adjacency that leaves the agglomerate runs from an interior-list cell to a halo-list cell.", "quantifier": "for every mesh, every vertex connectivity and every assignment of ids in 1..n to the owned cells", "why_tests_cant": "quantifies over all adjacency structures", "anchors": ["include/mfmg/common/amge.templates.hpp:87-151 build_boundary_agglomerates"]}
{"id": "C09", "title": "Agglomerate patch selects exactly the requested cells", "statement": "build_agglomerate_triangulation(id) collects exactly the active cells with that user index; build_agglomerate_triangulation(index list) collects exactly the listed active cells, in order, if and only if the list is nondecreasing and within the number of active cells (otherwise the iterator leaves the mesh); the lists produced by build_boundary_agglomerates always satisfy this.", "quantifier": "for every mesh size and every index list", "why_tests_cant": "advances an iterator by unsigned differences; only increasing lists are tested", "anchors": ["include/mfmg/common/amge.templates.hpp:153-197 build_agglomerate_triangulation", "include/mfmg/common/amge.templates.hpp:645-698"]}
{"id": "C10", "title": "Patch-to-global dof map", "statement": "compute_dof_index_map returns for each dof of the agglomerate patch the global dof at the same location, provided patch cells and global cells enumerate their dofs consistently, and fills every patch dof.", "quantifier": "for every patch and every consistent numbering", "why_tests_cant": "holds for all numberings", "anchors": ["include/mfmg/common/amge.templates.hpp:199-225 compute_dof_index_map"]}
{"id": "C11", "title": "Restriction matrix rows are weighted eigenvectors", "statement": "The restriction matrix assembled from per-agglomerate data has one row per eigenvector, agglomerate by agglomerate; entry (row, g) is the sum over the patch dofs k mapped to g of local_diag[k]/global_diag[g]*eigenvector[k], and zero where no patch dof maps to g.", "quantifier": "for every number of agglomerates, eigenvectors per agglomerate, dof maps and values", "why_tests_cant": "all combinations of overlapping dof maps", "anchors": ["include/mfmg/common/amge.templates.hpp:271-325 compute_restriction_sparse_matrix", "include/mfmg/dealii/amge_host.templates.hpp:617-650 copy_local_to_global"]}
{"id": "C12", "title": "Restriction is a partition of unity", "statement": "If the sum over agglomerates of the local diagonal at a dof equals the global diagonal there, and every agglomerate's eigenvectors equal the restriction of one global vector, then the sum over agglomerates of the corresponding restriction rows reproduces that vector exactly; in particular the constant.", "quantifier": "for every covering by agglomerates, every diagonal, every global vector", "why_tests_cant": "algebraic identity over all meshes", "anchors": ["include/mfmg/common/amge.templates.hpp:271-325 compute_restriction_sparse_matrix", "include/mfmg/common/utils.hpp:81-155 check_restriction_matrix"]}
{"id": "C13", "title": "Coarse rows are numbered consecutively over ranks", "statement": "The row ranges computed by each rank from the all-gathered row counts are pairwise disjoint, consecutive, in rank order, cover 0..total-1, and each rank's range has exactly its own number of rows.", "quantifier": "for every number of ranks and every vector of row counts, including zero", "why_tests_cant": "all process counts and imbalances", "anchors": ["include/mfmg/common/amge.templates.hpp:596-643 compute_restriction_sparsity_pattern", "include/mfmg/common/amge.templates.hpp:330-360"]}
{"id": "C14", "title": "R = E + Delta split used by fast AP", "statement": "With the fast-AP variant of the assembly the restriction matrix equals eigenvector matrix plus delta matrix, although two of them are filled with add and the third with set: always if set on a matrix without pattern accumulates until compress (what the source says in a comment), and for injective dof maps also if it replaces; with replacing set and a global dof hit twice by one patch the identity would fail.", "quantifier": "for every data that fit together; both readings of set", "why_tests_cant": "needs all overlap patterns; the failing input has never been exercised by the tests", "anchors": ["include/mfmg/common/amge.templates.hpp:327-410 compute_restriction_sparse_matrix"]}
{"id": "C15", "title": "Fast AP computes A times R transposed", "statement": "If the global matrix is the sum of cell matrices, the local eigenpairs are exact, all agglomerates of a rank have the same number of eigenvectors, and either every agglomerate of the rank touches a cell outside it or none does, then scaling the eigenvector matrix by the eigenvalues and adding the interface corrections yields exactly the rank's columns of A * R^T, for every schedule of the correction loops. Without either of the last two conditions the result can be wrong.", "quantifier": "for every cell decomposition, agglomeration, set of exact eigenpairs, rank and schedule", "why_tests_cant": "the test compares one mesh against the slow product to a tolerance", "anchors": ["source/dealii/dealii_hierarchy_helpers.cc:56-303 build_restrictor", "source/dealii/dealii_hierarchy_helpers.cc:323-328 fast_multiply_transpose", "source/dealii/dealii_matrix_free_hierarchy_helpers.cc:55-303"]}
{"id": "C16", "title": "Work item results in the fast-AP correction loop", "statement": "In the fast-AP correction loop an agglomerate with a nonempty boundary patch contributes its own delta rows exactly once, whatever the copy data object it was given; one with an empty patch returns early, so the copier adds again whatever that object held: nothing if it is fresh, otherwise the rows of another agglomerate once more. Hence the loop is right under every schedule if no patch or every patch is empty, and wrong with one copy object when an empty patch follows a nonempty one.", "quantifier": "for every number of agglomerates, every assignment of work items and every set of empty patches", "why_tests_cant": "depends on reuse of copy objects by the task scheduler", "anchors": ["source/dealii/dealii_hierarchy_helpers.cc:130-228 worker/copier"]}
{"id": "C17", "title": "Sparse product helper drops only tiny entries", "statement": "matrix_transpose_matrix_multiply(B, A) stores in C exactly those entries of A B^T whose magnitude exceeds 1e-14, each on the rank owning its row, for any distribution of rows and columns over the ranks; every entry of C differs from the exact product by at most 1e-14, and entry (p,q) of the coarse matrix R C from the Galerkin product by at most 1e-14 times the 1-norm of row p of R. Symmetry of the coarse matrix is not guaranteed: dropping can break it.", "quantifier": "for every operator and every sparse matrix", "why_tests_cant": "all matrices and magnitudes", "anchors": ["include/mfmg/dealii/dealii_utils.hpp:32-81 matrix_transpose_matrix_multiply", "source/dealii/dealii_utils.cc:20-60 extract_row"]}
{"id": "C18", "title": "Preconditioner result is independent of the incoming x", "statement": "In preconditioner mode, vmult(x, b) yields a result that depends on b only, never on the previous content of x, on any number of levels.", "quantifier": "for every hierarchy, every number of smoothing steps, every b and every pair of initial vectors x", "why_tests_cant": "tests start from one initial vector", "anchors": ["include/mfmg/common/hierarchy.hpp:238-309 vmult, apply"]}
{"id": "C19", "title": "The V-cycle is linear in preconditioner mode", "statement": "If smoother and coarse solver are linear then vmult is a linear map of b: M(s*b + t*c) = s*M(b) + t*M(c).", "quantifier": "for every hierarchy depth, sizes, scalars and vectors", "why_tests_cant": "linearity is a universally quantified statement", "anchors": ["include/mfmg/common/hierarchy.hpp:246-309 apply"]}
{"id": "C20", "title": "Exact solutions are fixed points in solver mode", "statement": "With is preconditioner = false and at least two levels, if A x = b on the finest level then one cycle returns x unchanged.", "quantifier": "for every hierarchy whose coarse solver maps 0 to 0 and whose smoothers map zero residual to zero correction", "why_tests_cant": "universally quantified over operators", "anchors": ["include/mfmg/common/hierarchy.hpp:246-309 apply", "source/dealii/dealii_smoother.cc:68-81 apply"]}
{"id": "C21", "title": "The V-cycle preconditioner is symmetric", "statement": "If all level operators, smoother corrections and the coarse solve are symmetric and prolongation is the transpose of restriction, vmult is symmetric: <M b, c> = <b, M c>. This is what conjugate gradients needs.", "quantifier": "for every number of levels, smoothing steps and all vectors b, c", "why_tests_cant": "CG may converge on one example with a slightly unsymmetric preconditioner", "anchors": ["include/mfmg/common/hierarchy.hpp:246-309 apply"]}
{"id": "C22", "title": "Galerkin coarse operators inherit symmetry and definiteness", "statement": "Every coarse operator built by the hierarchy equals R (A R^T); it is symmetric if A is, positive semidefinite if A is, and positive definite if in addition R^T is injective.", "quantifier": "for every number of levels and every restriction", "why_tests_cant": "universally quantified", "anchors": ["include/mfmg/common/hierarchy.hpp:208-233 constructor"]}
{"id": "C23", "title": "Two-grid error propagation", "statement": "One cycle with exact coarse solve maps the error e = x* - x to G^n (I - R^T Ac^-1 R A) G^n e with G the error propagation of one smoothing step; an error in the range of R^T is eliminated by the coarse correction.", "quantifier": "for every two-level hierarchy, right-hand side, initial guess, number of smoothing steps", "why_tests_cant": "algebraic identity", "anchors": ["include/mfmg/common/hierarchy.hpp:246-309 apply"]}
{"id": "C24", "title": "Hierarchy construction populates every level", "statement": "After a successful construction with L >= 1 levels: every level has an operator, every level but the last a smoother, every level but the first a restrictor, exactly the last one a solver; each slot holds the object the helpers returned for that level, asked from fine to coarse, and each coarse operator is R (A R^T) of the level above. Conversely construction succeeds whenever the helpers return objects for every level.", "quantifier": "for every number of levels and every behaviour of the helper factories that return objects", "why_tests_cant": "all depths and helper behaviours", "anchors": ["include/mfmg/common/hierarchy.hpp:159-236 Hierarchy"]}
{"id": "C25", "title": "Timer sections are balanced", "statement": "Construction and every cycle enter and leave timer sections in a properly nested, balanced way when they succeed, and never change their result because of the timer; if a component fails, the outermost section (Setup or Apply) and what was entered inside stay open. With deal.II's checked timer a cycle over three or more levels stops, because the section of the fine levels is entered while open.", "quantifier": "for every number of levels, any cycle and any point at which a helper throws", "why_tests_cant": "crash points", "anchors": ["include/mfmg/common/hierarchy.hpp:36-47 timer_enter_subsection/timer_leave_subsection", "include/mfmg/common/hierarchy.hpp:159-309"]}
{"id": "C26", "title": "User parameter tree is modified only for single level", "statement": "Constructing a hierarchy leaves the caller's parameter tree unchanged unless max levels is 1, in which case exactly the key coarse.params.zero starting solution is (over)written with is preconditioner.", "quantifier": "for every parameter tree", "why_tests_cant": "all trees", "anchors": ["include/mfmg/common/hierarchy.hpp:159-192 Hierarchy"]}
{"id": "C27", "title": "Dimensions are compatible at every level", "statement": "If the restrictor built for each level has as many columns as the level operator has rows, construction succeeds and every cycle runs to the end on vectors of the right size. The host helpers do not know the level: with three or more levels and a restriction that really coarsens, construction multiplies matrices of different sizes.", "quantifier": "for every depth and all sizes", "why_tests_cant": "all sizes", "anchors": ["include/mfmg/common/hierarchy.hpp:159-309", "source/dealii/dealii_trilinos_matrix_operator.cc:55-114"]}
{"id": "C28", "title": "Smoother step is affine with the exact solution as fixed point", "statement": "apply(b, x) of the smoothers computes x - B(Ax - b): x is unchanged iff the correction B(Ax-b) is zero, and the step is linear in (b, x) if A and B are. For every symmetric positive definite matrix the default symmetric Gauss-Seidel is symmetric and strictly reduces the energy of every error; Gauss-Seidel reduces it too; Jacobi is symmetric but can increase the error.", "quantifier": "for every operator, correction B, b and x; every SPD matrix", "why_tests_cant": "universally quantified", "anchors": ["source/dealii/dealii_smoother.cc:68-81 apply", "source/dealii/dealii_matrix_free_smoother.cc:60-76", "source/cuda/cuda_smoother.cu:39-84 SmootherOperator::apply"]}
{"id": "C29", "title": "Lanczos convergence-check schedule", "statement": "The Lanczos loop performs a convergence check in iteration 1, then in the first iteration whose distance from the last check exceeds the given percentage of that iteration number, and always in the last permitted iteration; it ends at the first check that succeeds, or after the maximum. It never exceeds the maximum, the basis vectors and the tridiagonal matrix have as many entries as iterations were done, and the eigenpairs returned are those of the last check.", "quantifier": "for every percentage, maximum iteration count and every sequence of check outcomes", "why_tests_cant": "loop schedule over all parameters", "anchors": ["include/mfmg/common/lanczos.templates.hpp:179-293 details_solve_lanczos"]}
{"id": "C30", "title": "Spurious eigenvalue filter", "statement": "details_calc_tridiag_epairs discards exactly the eigenvalues of the tridiagonal matrix that are not repeated within tolerance and match some eigenvalue of the trailing submatrix within tolerance, plus repeated duplicates; the submatrix is consulted only if it has at least as many rows as pairs are requested. Every kept eigenvalue keeps its own eigenvector; those returned are orthonormal, ascending and more than the tolerance apart.", "quantifier": "for every pair of sorted eigenvalue lists", "why_tests_cant": "all interleavings of two sorted lists", "anchors": ["include/mfmg/common/lanczos.templates.hpp:297-453 details_calc_tridiag_epairs"]}
{"id": "C31", "title": "Lanczos three-term recurrence", "statement": "Whenever the iteration ends regularly, the basis vectors are orthonormal, the first is the normalised start vector, and A V = V T + w e_k^T holds in exact arithmetic, where the remainder w is orthogonal to V and has norm beta.", "quantifier": "for every symmetric operator, start vector and number of steps", "why_tests_cant": "induction over iterations", "anchors": ["include/mfmg/common/lanczos.templates.hpp:179-293 details_solve_lanczos"]}
{"id": "C32", "title": "Ritz pair residual estimate", "statement": "The returned vectors are orthonormal, and the residual A y - theta y of each returned pair is orthogonal to all of them and has norm beta times the last component of the tridiagonal eigenvector; after a successful convergence check it is at most the tolerance. If the maximum number of iterations is reached without convergence the pairs are returned nevertheless, without notice and with residuals above the tolerance.", "quantifier": "for every number of steps and every eigenpair of T", "why_tests_cant": "identity over all runs", "anchors": ["include/mfmg/common/lanczos.templates.hpp:456-503 details_check_convergence, details_calc_evecs"]}
{"id": "C33", "title": "Deflation vectors are orthonormal and projected out", "statement": "After any sequence of add_deflation_vecs calls the stored vectors are orthonormal, contain the earlier ones unchanged and span the same space as all vectors given; the calls succeed for linearly independent vectors and abort (debug) or divide by zero (release) for dependent ones. deflate is the orthogonal projection onto the complement of that space. The deflated operator is symmetric on that complement and maps into it; it has the deflated space in its kernel exactly if that space is invariant under the operator.", "quantifier": "for every sequence of calls, vectors and symmetric operators", "why_tests_cant": "history property", "anchors": ["include/mfmg/common/lanczos_deflatedop.templates.hpp:31-126 DeflatedOperator"]}
{"id": "C34", "title": "Multi-cycle Lanczos returns the requested number of sorted pairs", "statement": "solve returns exactly n_eigenvectors pairs in nondecreasing order, each a pair found by one of the cycles, provided the cycles together find that many; otherwise the rest is filled with the eigenvalue 0 and empty vectors. Because the list is cut to length before it is sorted, the result need not be the smallest of all pairs found.", "quantifier": "for every number of cycles and pairs per cycle", "why_tests_cant": "depends on the cycle results in all orders", "anchors": ["include/mfmg/common/lanczos.templates.hpp:83-176 solve"]}
{"id": "C35", "title": "Initial guesses respect constrained dofs", "statement": "The initial vector given to the eigensolver is zero at every constrained dof; the perturbed start vector of a Lanczos cycle is zero exactly where its source is zero and elsewhere keeps the sign and at most doubles the size; vectors reused from a previous agglomerate are zero exactly where the evaluator's guess is zero. Reusing fewer vectors than requested reads past the end.", "quantifier": "for every constraint set and random sequence", "why_tests_cant": "all constraint patterns and random numbers", "anchors": ["source/dealii/dealii_mesh_evaluator.cc:43-55 set_initial_guess", "include/mfmg/common/lanczos.templates.hpp:36-49 details_set_initial_guess", "include/mfmg/dealii/amge_host.templates.hpp:241-265"]}
{"id": "C36", "title": "Eigenvalue shift cancels", "statement": "Shifting the agglomerate matrix by the diagonal average before the eigensolve and subtracting it afterwards returns eigenpairs of the original matrix, with the same residual, for every vector supported on unconstrained dofs; eigenvectors of the shifted matrix are supported there unless the eigenvalue is the marker 200 put at constrained dofs, so the LAPACK branch returns orthonormal eigenpairs of the agglomerate matrix. With large entries the marker can be the smallest eigenvalue of the shifted matrix.", "quantifier": "for every matrix, shift and eigenpair", "why_tests_cant": "universally quantified", "anchors": ["include/mfmg/dealii/amge_host.templates.hpp:350-483 compute_local_eigenvectors"]}
{"id": "C37", "title": "Parameter tree to Teuchos list conversion", "statement": "ptree2plist maps every leaf to a typed parameter with the same name; the inferred type is the first of int, double, bool, string that accepts the whole text; subtrees become sublists; values at inner nodes are dropped. This holds for trees whose names and texts are free of XML mark-up; the text is not escaped, and a name containing mark-up injects other parameters.", "quantifier": "for every tree with plain names and texts (conversion); some tree with mark-up (failure)", "why_tests_cant": "all trees", "anchors": ["source/common/utils.cc:20-80 ptree2plist"]}
{"id": "C38", "title": "Parameter dispatch is total", "statement": "Every choice string (evaluator type and dimension, smoother, coarse solver, partitioner) either selects the documented implementation or raises an error; smoother, solver and partitioner names are compared without case. Two exceptions: an unknown CUDA solver is reported by apply, not by the constructor, and an unknown eigensolver is silently skipped in release builds. Matrix-free evaluators reject ARPACK and LAPACK.", "quantifier": "for every string", "why_tests_cant": "infinite input domain", "anchors": ["include/mfmg/common/hierarchy.hpp:49-153", "source/dealii/dealii_smoother.cc:19-66", "source/dealii/dealii_solver.cc:25-72", "include/mfmg/dealii/amge_host.templates.hpp:407-471", "source/cuda/cuda_solver.cu:204-445", "source/cuda/cuda_smoother.cu:99-162"]}
{"id": "C39", "title": "Device CSR from deal.II matrix is sorted and complete", "statement": "convert_matrix(dealii::SparseMatrix) of a matrix with at least one entry yields CSR arrays whose rows hold the same entries with strictly increasing columns, the matching row pointers and the complete index sets, whatever value lies behind the column array. For a non-square matrix no element outside the arrays is read; for every non-empty square matrix the reordering loop reads one element past the column array when it handles the last row (whose diagonal has no larger column).", "quantifier": "for every sparsity pattern as deal.II stores it (square: diagonal first, the rest increasing; otherwise increasing), all values, all contents of the memory behind the array", "why_tests_cant": "undefined read is invisible to result-checking tests", "anchors": ["source/cuda/utils.cu:39-89 convert_matrix"]}
{"id": "C40", "title": "Matrix conversion round trips", "statement": "On every rank with at least one stored entry, converting a Trilinos matrix to the device format and back, or a device matrix to Trilinos and back, returns the same entries in every row with the same sizes and index sets (the same stored entries up to order if no column is stored twice); the Epetra conversion agrees with the Trilinos one. A rank without entries cannot be converted: assertion failure, or undefined behaviour without assertions.", "quantifier": "for every distributed matrix", "why_tests_cant": "all sparsity patterns and distributions", "anchors": ["source/cuda/utils.cu:91-204 convert_matrix, convert_to_trilinos_matrix"]}
{"id": "C41", "title": "CUDA operator transpose history", "statement": "A CUDA matrix operator for A computes A x or A^T x in every application, in any sequence of applications in both modes and any number of ranks. The first transpose() returns an operator for A^T and leaves the operator as it is. If the transpose is already cached, by an earlier transpose() or by a transposed application, transpose() returns an operator for A and the operator itself becomes A^T. Every program of applications, transpositions and products acts on the operators in this way. (Every rank owns a nonzero column; otherwise building the transpose fails.)", "quantifier": "for every matrix, distribution, number of ranks, build mode and every history of calls", "why_tests_cant": "history property; tests call transpose once", "anchors": ["source/cuda/cuda_matrix_operator.cu:80-130 apply, transpose", "source/cuda/cuda_matrix_operator.cu:132-225 multiply, multiply_transpose"]}
{"id": "C42", "title": "Device matrix ownership", "statement": "Over any program that constructs, copies, moves, move-assigns, re-initialises, applies, multiplies and destroys device matrices, no released device memory is used or released again. If the program never copies or multiplies empty matrices and multiplies into no operand, it succeeds and every matrix keeps the value that the program gave it. What remains allocated is exactly what the living matrices need plus what operations have lost: a move assignment, re-initialisation or second descriptor on a matrix that has memory, matrix-vector products and distributed products. So everything is released at the end iff nothing was lost. A move assignment onto a matrix with memory leaks it, a self move assignment loses the matrix, copying an empty matrix fails an assertion or is undefined behaviour, and multiplying into an operand is undefined behaviour.", "quantifier": "for every program of such operations, matrices and sizes", "why_tests_cant": "unbounded histories; leaks invisible", "anchors": ["include/mfmg/cuda/sparse_matrix_device.templates.cuh:141-301 constructors, destructor, move assignment", "include/mfmg/cuda/sparse_matrix_device.templates.cuh:303-335 reinit", "include/mfmg/cuda/sparse_matrix_device.templates.cuh:351-434 vmult, mmult"]}
{"id": "C43", "title": "Device matrix-vector product memory balance", "statement": "Each product with a non-empty source vector leaves exactly two device buffers allocated, and a product with an empty source none; so any number k of products leaves 2k more allocations than before, whatever else lives.", "quantifier": "for every number of products, matrices and sizes", "why_tests_cant": "leak only visible over long runs", "anchors": ["include/mfmg/cuda/sparse_matrix_device.templates.cuh:104-138 gather_vector", "include/mfmg/cuda/sparse_matrix_device.templates.cuh:351-371 vmult"]}
{"id": "C44", "title": "Global nonzero count", "statement": "n_nonzero_elements() of a distributed device matrix returns the number of entries on the calling rank in every program, and equals the number of entries of the whole matrix only if all other ranks hold none.", "quantifier": "for every program, number of ranks and counts", "why_tests_cant": "tests run on one rank", "anchors": ["include/mfmg/cuda/sparse_matrix_device.templates.cuh:207-220", "include/mfmg/cuda/sparse_matrix_device.templates.cuh:303-335"]}
{"id": "C45", "title": "Jacobi smoother inverse diagonal", "statement": "The CUDA Jacobi smoother keeps for local row r the reciprocal of the entry in global column r, or uninitialised memory if none is stored. On one rank that stores the diagonal, applying the smoother is therefore one Jacobi step x_i - (Ax-b)_i / a_ii; on a rank whose rows start at a positive index it keeps off-diagonal entries or uninitialised memory although the diagonal is stored and positive.", "quantifier": "for every matrix, row distribution, thread order and initial content of the buffers", "why_tests_cant": "only visible in parallel with specific patterns", "anchors": ["source/cuda/cuda_smoother.cu:86-162 extract_inv_diag, CudaSmoother"]}
{"id": "C46", "title": "Distributed product equals serial product", "statement": "The distributed device matrix-vector product with gathered source equals the local rows of the serial product for any distribution of rows and of source indices, in any order of the kernel threads and with any previous content of the buffers and of the result.", "quantifier": "for every number of ranks and index distribution", "why_tests_cant": "all partitions", "anchors": ["include/mfmg/cuda/sparse_matrix_device.templates.cuh:25-138 reorder_vector, gather_vector", "include/mfmg/cuda/sparse_matrix_device.templates.cuh:351-371 vmult", "source/cuda/utils.cu:305-482 all_gather"]}
{"id": "C47", "title": "AMGX reordering is a symmetric permutation", "statement": "csr_to_amgx renumbers rows and columns by one bijection (rows that are not sent, then rows that are sent, then the columns owned elsewhere, each increasing), returns CSR arrays that hold exactly the same entries in the new numbering with increasing columns in every row, and returns the maps that describe this numbering.", "quantifier": "for every local matrix, halo and set of sent rows", "why_tests_cant": "all patterns", "anchors": ["source/cuda/utils.cu:206-303 csr_to_amgx"]}
{"id": "C48", "title": "AMGX solve returns the solution in user order and modifies the right-hand side", "statement": "If AMGX solves the distributed system it is given, amgx_solve returns the solution of the caller's system in the caller's order, for device and for host vectors. The device version leaves the caller's constant right-hand side in the AMGX order of the rows: unchanged on one rank, but in general changed on several; the host version leaves it alone and ignores the initial x.", "quantifier": "for every number of ranks, structurally symmetric distributed matrix, right-hand side and initial guess", "why_tests_cant": "tests use identity permutations", "anchors": ["source/cuda/cuda_solver.cu:108-200 amgx_solve"]}
{"id": "C49", "title": "AMGX resources are released once", "statement": "In every program that constructs and destroys CUDA solvers without copying them no AMGX handle is destroyed twice, early or while in use, and once an object is gone all its handles have been destroyed except the matrix handle, which is leaked. Copying a solver destroys handles twice, and destroying one of two AMGX solvers finalises the library under the other.", "quantifier": "for every history of constructions and destructions", "why_tests_cant": "leak invisible to tests", "anchors": ["source/cuda/cuda_solver.cu:447-494 ~CudaSolver"]}
{"id": "C50", "title": "Multivector algebra for Anasazi", "statement": "The multivector operations compute the mathematical results and change no vector outside their result: MvTimesMatAddMv gives alpha A B + beta mv if mv shares no vector with A, MvAddMv gives alpha A + beta B also when mv is A, MvScale, MvTransMv, MvDot, MvNorm, SetBlock, MvInit and OperatorTraits::Apply give what their names say, if the result has no vector twice and no source vector is overwritten before its turn. MvAddMv into B gives (alpha + beta) A; MvTimesMatAddMv into A, MvScale of a view with a vector twice and SetBlock of a block shifted within one multivector give wrong results.", "quantifier": "for every number of vectors, vector size, coefficients, contents and sharing between the arguments", "why_tests_cant": "aliasing patterns are chosen by the external eigensolver", "anchors": ["include/mfmg/dealii/anasazi_traits.hpp:129-282 MultiVecTraits", "include/mfmg/dealii/anasazi_traits.hpp:284-304 OperatorTraits", "include/mfmg/dealii/multivector.hpp:23-53"]}
{"id": "C51", "title": "AMGX communication maps line up", "statement": "If a rank has columns of another one only when the converse holds, the lists of rows sent and of columns received of every pair of neighbours have the same length and mean the same global indices position by position. Otherwise the constructor reads the receive lists out of bounds whenever more ranks need rows of a rank than it needs rows of others, and there are patterns for which it succeeds with maps between the wrong ranks.", "quantifier": "for every number of ranks and pattern", "why_tests_cant": "all patterns and rank counts", "anchors": ["source/cuda/cuda_solver.cu:300-405"]}
{"id": "C52", "title": "Visualisation index lists every rank's file", "statement": "The parallel visualisation record written by output lists one file per rank; the code assigns every name to entry 0, so it is right only with one rank.", "quantifier": "for every number of ranks", "why_tests_cant": "not compared in tests", "anchors": ["include/mfmg/common/amge.templates.hpp:227-269 output"]}
{"id": "C53", "title": "Eigensolver extraction stays in bounds", "statement": "Anasazi results are copied into arrays of the requested size without writing outside iff the external solver returns at most the requested number of values.", "quantifier": "for every number of returned values", "why_tests_cant": "external solver behaviour", "anchors": ["include/mfmg/dealii/anasazi.templates.hpp:36-105 solve"]}
{"id": "C54", "title": "WorkStream schedule independence", "statement": "If the eigensolver ignores the guess kept in the scratch data, the data collected from the agglomerates, hence the restriction, are the same for every schedule of the worker tasks and every number of scratch and copy-data objects, and come in agglomerate order; with a guess (anasazi, use_initial_guess) they can depend on the schedule.", "quantifier": "for every schedule allowed by the WorkStream contract", "why_tests_cant": "all thread interleavings", "anchors": ["include/mfmg/dealii/amge_host.templates.hpp:485-650 setup_restrictor, local_worker, copy_local_to_global"]}
{"id": "C55", "title": "Second agglomeration of the same mesh", "statement": "Calling the block agglomeration a second time on the same mesh returns zero agglomerates and changes nothing, because ids are never cleared.", "quantifier": "for every mesh and block sizes", "why_tests_cant": "needs two calls on the same mesh", "anchors": ["include/mfmg/common/amge.templates.hpp:412-499 build_agglomerates_block", "include/mfmg/common/hierarchy.hpp:208-212"]}
{"id": "C56", "title": "ML coarse solver parameters", "statement": "The coarse solver ml gets ML's smoothed aggregation defaults exactly when the tree has no subtree coarse.params; parameters given there replace the defaults instead of augmenting them. A hierarchy with one level always creates that subtree, so its ML solver never sees the defaults.", "quantifier": "for every parameter tree", "why_tests_cant": "needs inspection of the list handed to an external library", "anchors": ["source/dealii/dealii_solver.cc:25-74 DealIISolver", "include/mfmg/common/hierarchy.hpp:159-192 Hierarchy", "source/common/utils.cc:20-80 ptree2plist"]}
{"id": "C57", "title": "The constructed hierarchy is an SPD preconditioner", "statement": "For a symmetric positive definite problem with symmetric error-reducing smoothers, restrictions of full row rank and exact coarse solves, every vmult of a constructed hierarchy applies one fixed operator M that is linear, symmetric and positive definite, and I - M A strictly reduces the energy of every error. In particular this holds for the host helpers with default smoother and coarse solver on one or two levels.", "quantifier": "for every SPD matrix, restriction of full row rank, depth, positive number of smoothing steps, timer and vectors", "why_tests_cant": "a statement about all right-hand sides; tests only see iteration counts", "anchors": ["include/mfmg/common/hierarchy.hpp:159-309 Hierarchy, vmult, apply", "source/dealii/dealii_hierarchy_helpers.cc:33-328", "source/dealii/dealii_smoother.cc:19-81", "source/dealii/dealii_solver.cc:25-87"]}
{"id": "C58", "title": "The implemented cycle is the textbook V-cycle", "statement": "vmult computes: smooth, restrict the residual b - A x, recurse from zero, add the prolongated correction, smooth; the sign tricks of the code (residual negated, correction subtracted) cancel for linear components.", "quantifier": "for every depth, number of smoothing steps, linear components, right-hand side and start vector", "why_tests_cant": "all sizes and depths", "anchors": ["include/mfmg/common/hierarchy.hpp:246-309 apply"]}
{"id": "C59", "title": "A cycle never increases the energy of the error", "statement": "With Galerkin coarse operators, smoothers and a coarse solver that do not increase the energy of the error, and residuals that are solvable on each level, one cycle in solver mode does not increase the energy of the error, for symmetric semidefinite operators too.", "quantifier": "for every depth, number of smoothing steps, start vector", "why_tests_cant": "all operators", "anchors": ["include/mfmg/common/hierarchy.hpp:246-309 apply"]}
{"id": "C60", "title": "Debug self-check of the restriction matrix", "statement": "The debug check of the restriction matrix either passes or aborts with its own message, passes for exact data, and when it passes the local diagonals sum up to the global diagonal within the tolerance times its largest entry and the weights sum up to one within the tolerance at every dof; in release builds it does nothing. This holds if every agglomerate has an eigenvector; otherwise the check itself can read past the end.", "quantifier": "for every distribution of agglomerates over ranks, all diagonals, every tolerance", "why_tests_cant": "needs all data; tests run the check on good data only", "anchors": ["include/mfmg/common/utils.hpp:81-155 check_restriction_matrix"]}
{"id": "C61", "title": "Restriction has full row rank", "statement": "If the eigenvectors of every agglomerate are linearly independent on the dofs that belong to no other agglomerate, the restriction matrix has full row rank, so a Galerkin coarse operator of an SPD operator is SPD; if patches share all their dofs the rank can drop.", "quantifier": "for every distribution of agglomerates over ranks, all eigenvectors and diagonals", "why_tests_cant": "a statement about all coarse vectors", "anchors": ["include/mfmg/common/amge.templates.hpp:271-325 compute_restriction_sparse_matrix"]}
{"id": "C62", "title": "Eigenvectors of all cycles are orthonormal", "statement": "The eigenvectors solve returns are orthonormal, also across deflation cycles and after sorting, for every symmetric operator.", "quantifier": "for every symmetric operator, number of cycles, pairs per cycle and random perturbation", "why_tests_cant": "all operators and cycle counts", "anchors": ["include/mfmg/common/lanczos.templates.hpp:83-176 solve", "include/mfmg/common/lanczos_deflatedop.templates.hpp:31-126 DeflatedOperator"]}
{"id": "C63", "title": "Too few pairs left by the filter", "statement": "When the filter leaves fewer pairs than requested although the tridiagonal matrix is large enough, details_calc_tridiag_epairs returns empty lists and the convergence check reads past the end of the empty vector list; there are symmetric matrices and start vectors for which solve does this with and without debug checks.", "quantifier": "for every tridiagonal matrix, eigensystem and tolerance; some symmetric matrix", "why_tests_cant": "needs eigenvalues closer than the built-in tolerance", "anchors": ["include/mfmg/common/lanczos.templates.hpp:297-453 details_calc_tridiag_epairs", "include/mfmg/common/lanczos.templates.hpp:456-479 details_check_convergence"]}
{"id": "C64", "title": "Requests beyond the Krylov space", "statement": "If the start vector lies in a subspace that the operator maps into itself and that is spanned by fewer vectors than eigenpairs are requested - in particular if there are fewer unknowns than requested pairs - the Lanczos solver never returns a result.", "quantifier": "for every symmetric operator, invariant subspace, start vector and parameters", "why_tests_cant": "a statement about all operators", "anchors": ["include/mfmg/common/lanczos.templates.hpp:179-293 details_solve_lanczos"]}
{"id": "C65", "title": "LAPACK branch searches a fixed interval", "statement": "The LAPACK branch reads within bounds iff at least the requested number of eigenvalues of the shifted matrix lies in (-0.5, 100]; for every symmetric positive semidefinite agglomerate matrix with average diagonal above 100 there are none, and the read is out of bounds in every build.", "quantifier": "for every symmetric positive semidefinite matrix, constraint set and number of eigenvectors", "why_tests_cant": "test problems have small entries", "anchors": ["include/mfmg/dealii/amge_host.templates.hpp:447-471 compute_local_eigenvectors (lapack)"]}
{"id": "C66", "title": "Eigenvalues stay with their eigenvectors", "statement": "With debug checks, and always with Lanczos, LAPACK and ARPACK, every agglomerate yields as many eigenvalues as eigenvectors, so in the flat lists of all agglomerates entry k of one belongs to entry k of the other, which the fast AP product relies on. In release builds a LOBPCG run that finds fewer vectors breaks this for all later agglomerates.", "quantifier": "for every matrix, parameter tree, solver answer and list of agglomerates", "why_tests_cant": "needs a partially converged external solver", "anchors": ["include/mfmg/dealii/amge_host.templates.hpp:209-275 anasazi_compute_eigenvalues_and_eigenvectors", "include/mfmg/dealii/amge_host.templates.hpp:350-483 compute_local_eigenvectors", "include/mfmg/dealii/amge_host.templates.hpp:617-633 copy_local_to_global", "source/dealii/dealii_hierarchy_helpers.cc:240-287"]}
{"id": "C67", "title": "Accuracy of the Lanczos branch", "statement": "If the permitted iterations reach the size of the agglomerate, the Lanczos branch, with or without deflation cycles, returns the requested number of orthonormal vectors, zero at constrained dofs, with ascending values, and every pair has a squared residual with respect to the unshifted agglomerate matrix of at most t*t*(1+(c-1)m) where t is the larger of the tolerance and 1e-4, c the number of cycles and m the pairs per cycle.", "quantifier": "for every symmetric agglomerate matrix with decoupled constraints, every parameter tree and random sequence", "why_tests_cant": "a statement about all matrices", "anchors": ["include/mfmg/dealii/amge_host.templates.hpp:164-207 lanczos_compute_eigenvalues_and_eigenvectors", "include/mfmg/dealii/amge_host.templates.hpp:350-483 compute_local_eigenvectors", "include/mfmg/common/lanczos.templates.hpp:83-176 solve"]}
{"id": "C68", "title": "The AMGX solver rewrites the matrix of its operator", "statement": "Constructing a CUDA solver of type amgx changes the matrix of the constant operator it is given. On one rank only the order of the entries within the rows changes, so every product with the operator is as before; on several ranks the operator afterwards computes a different product.", "quantifier": "for every matrix on one rank; refuted by an example on two ranks", "why_tests_cant": "tests do not apply the operator after constructing the solver on several ranks", "anchors": ["source/cuda/cuda_solver.cu:222-232 const_cast", "source/cuda/cuda_solver.cu:393-396", "source/cuda/utils.cu:206-303 csr_to_amgx", "include/mfmg/cuda/sparse_matrix_device.templates.cuh:351-371 vmult"]}
{"id": "C69", "title": "Products of CUDA operators", "statement": "multiply() of operators for A and B returns an operator for A B, that is, applying it applies B and then A, on one rank and on several. multiply_transpose() returns an operator for A B^T on one rank; on several ranks the returned operator holds A B^T but cannot be applied: debug builds abort, release builds leave the destination vector unchanged.", "quantifier": "for all matrices, distributions, numbers of ranks and subsequent applications", "why_tests_cant": "parallel path of multiply_transpose is never applied in a test", "anchors": ["source/cuda/cuda_matrix_operator.cu:132-149 multiply", "source/cuda/cuda_matrix_operator.cu:151-225 multiply_transpose", "include/mfmg/cuda/sparse_matrix_device.templates.cuh:373-434 mmult"]}
{"id": "C70", "title": "Galerkin product of CUDA operators", "statement": "The coarse operator of the hierarchy, R multiply (A multiply_transpose R), is an operator for R A R^T that can be applied in both modes, on one rank and on several, although the intermediate product cannot be applied on several ranks.", "quantifier": "for all R, A, distributions, numbers of ranks and subsequent applications", "why_tests_cant": "composition across the one-rank and distributed code paths", "anchors": ["include/mfmg/common/hierarchy.hpp:216-232", "source/cuda/cuda_matrix_operator.cu:132-225 multiply, multiply_transpose"]}
{"id": "C71", "title": "Copies are independent, views are shared", "statement": "In every program of multivector operations a view made by CloneView or CloneViewNonConst shows, after any further operations, the chosen vectors of its source; a copy made by Clone or CloneCopy has the contents of its source at that time, keeps them through all operations that do not write to the copy or a view of it, and no operation on the copy changes the source. Every operation changes only multivectors connected by views to the one it writes to.", "quantifier": "for all programs of multivector operations before and after, of any length", "why_tests_cant": "all sequences of operations", "anchors": ["include/mfmg/dealii/anasazi_traits.hpp:38-128 Clone, CloneCopy, CloneView", "include/mfmg/dealii/multivector.hpp:23-53"]}
{"id": "C72", "title": "Random blocks repeat", "statement": "MvRandom fills vector i of a multivector with vectors of length n by the numbers i n to i n + n - 1 of one fixed stream, since every call seeds the generator anew: the result does not depend on earlier calls, and two multivectors of the same shape get the same contents.", "quantifier": "for every shape, earlier contents and number stream", "why_tests_cant": "a statement about all pairs of calls", "anchors": ["include/mfmg/dealii/anasazi_traits.hpp:256-268 MvRandom"]}
{"id": "C73", "title": "Direct coarse solvers on the device", "statement": "On one rank DirectSolver::apply with solver cholesky (symmetric positive definite matrices), lu_dense or lu_sparse_host (regular matrices) leaves the only solution of A x = b in x whatever x contained, for vectors on the device and on the host, and releases all device memory it allocated. Debug builds abort for matrices without this property; another solver name is an exception. On several ranks every rank that does not own all rows reads beyond its arrays.", "quantifier": "for all matrices, right-hand sides, initial contents, memory states and builds", "why_tests_cant": "tests use one system", "anchors": ["source/cuda/dealii_operator_device_helpers.cu:20-264 cholesky_factorization, lu_factorization", "source/cuda/cuda_solver.cu:42-93 DirectSolver::apply"]}
{"id": "C74", "title": "Eigenvectors and restriction on the device", "statement": "AMGe_device::setup_restrictor computes for every agglomerate n_eigenvectors orthonormal eigenvectors for the smallest eigenvalues of its matrix, and returns the device matrix with one row per eigenvector, rank after rank and agglomerate after agglomerate, whose entries are the components times local diagonal over global diagonal; rows are distributed in consecutive blocks, columns like the dofs. The order of the kernel threads and the previous contents of the buffers do not matter. Debug builds abort if cuSOLVER reports a failure; release builds put whatever is in the array into the restriction. An agglomerate with fewer dofs than n_eigenvectors makes the kernels read beyond the arrays.", "quantifier": "for all agglomerates, ranks, thread orders, buffer contents and builds", "why_tests_cant": "tests use one mesh, one GPU and one schedule", "anchors": ["include/mfmg/cuda/amge_device.templates.cuh:28-323 compute_local_eigenvectors", "include/mfmg/cuda/amge_device.templates.cuh:325-432 compute_restriction_sparse_matrix, setup_restrictor", "source/cuda/cuda_hierarchy_helpers.cu:54-82 build_restrictor"]}
{"id": "C75", "title": "Device memory after building the restrictor", "statement": "The loop over the agglomerates of AMGe_device::setup_restrictor leaves everything that was in the device memory as it was and releases its buffers, except for one matrix descriptor and one array with n_eigenvectors eigenvalues per agglomerate, which nothing refers to afterwards.", "quantifier": "for all agglomerates, memory states, thread orders and builds", "why_tests_cant": "a leak has no effect on the results a test compares", "anchors": ["include/mfmg/cuda/amge_device.templates.cuh:216-323 compute_local_eigenvectors", "include/mfmg/cuda/amge_device.templates.cuh:364-423 setup_restrictor"]}
{"id": "C76", "title": "Multigrid cycle on the device", "statement": "vmult() of a device hierarchy of any number of levels on any number of ranks computes the textbook V-cycle of the matrices behind its operators, smoothers and restrictors, call after call: the transposes cached by the first call and the memory used by earlier calls do not change later results, the order of the kernel threads does not matter, and the device memory after every call is as before.", "quantifier": "for all levels, matrices, distributions, numbers of calls, smoothing steps, thread orders and builds, for every coarse solver that is linear", "why_tests_cant": "a statement about all call sequences and schedules", "anchors": ["include/mfmg/common/hierarchy.hpp:238-309 vmult, apply", "source/cuda/cuda_matrix_operator.cu:32-130 apply", "source/cuda/cuda_smoother.cu:31-80 apply", "source/cuda/cuda_smoother.cu:165-172 apply"]}
{"id": "C77", "title": "The hierarchy the device helpers build", "statement": "With the CUDA helpers on one process and two levels every vmult() is the two-grid method: the given number of Jacobi steps, the exact solution of the Galerkin system R A R^T, as many Jacobi steps; with one level vmult() solves A y = b. Nothing else stays in device memory than what build_restrictor leaves. Other smoother names are an exception, fast_ap never yields a hierarchy, three or more levels abort in debug builds because build_restrictor always uses the finest mesh, and on several processes the direct solvers read beyond the arrays.", "quantifier": "for all matrices, restrictions, parameter trees, numbers of calls, memory states, thread orders and builds", "why_tests_cant": "tests run one mesh with two levels", "anchors": ["include/mfmg/common/hierarchy.hpp:159-309 Hierarchy, vmult, apply", "source/cuda/cuda_hierarchy_helpers.cu:23-103", "source/cuda/cuda_smoother.cu:31-172", "source/cuda/cuda_solver.cu:42-93 DirectSolver::apply"]}
{"id": "C78", "title": "The device preconditioner is symmetric positive definite", "statement": "If A is symmetric positive definite, R has full rank and one Jacobi step reduces the energy of every error, then the two-level device hierarchy on one process, used as a preconditioner with at least one smoothing step, is one fixed linear map for all calls, symmetric and positive definite, and its stationary iteration reduces the energy norm of every nonzero error.", "quantifier": "for all such matrices, numbers of smoothing steps, direct solvers, call sequences and thread orders", "why_tests_cant": "needed for the conjugate gradient method; a statement about all vectors", "anchors": ["include/mfmg/common/hierarchy.hpp:159-309 Hierarchy, vmult, apply", "source/cuda/cuda_hierarchy_helpers.cu:23-103"]}
{"id": "C79", "title": "Spectral two-grid method on the device", "statement": "Constructed from the agglomerates by build_restrictor on one process, the device hierarchy is the two-grid method whose restriction has the weighted eigenvectors of the agglomerates for the smallest eigenvalues as rows; apart from the descriptor and the eigenvalues of every agglomerate (C75) no device memory is left allocated.", "quantifier": "for all agglomerates, matrices, parameter trees, calls, memory states and builds, whenever the Galerkin matrix can be solved", "why_tests_cant": "end-to-end statement about all meshes", "anchors": ["source/cuda/cuda_hierarchy_helpers.cu:54-103 build_restrictor, build_smoother, build_coarse_solver", "include/mfmg/cuda/amge_device.templates.cuh:216-432", "include/mfmg/common/hierarchy.hpp:159-309 Hierarchy, vmult, apply"]}
{"id": "C80", "title": "Matrix-free operators on the device: products", "statement": "multiply_transpose() of a CudaMatrixFreeOperator for A with a CUDA operator for B returns, on one rank and on several, an operator for A B^T without the entries of modulus at most 1e-14, which can be applied in both modes (unlike the one of C69 on several ranks); R multiply (A multiply_transpose R) is an operator whose entries are those of R A R^T up to 1e-14 times the sum of the moduli of the row of R. If a rank has no entry above the threshold, debug builds abort and release builds have undefined behaviour.", "quantifier": "for all evaluators, matrices, distributions, numbers of ranks, thresholds, subsequent applications and builds", "why_tests_cant": "the class is not tested", "anchors": ["source/cuda/cuda_matrix_free_operator.cu:23-165", "include/mfmg/dealii/dealii_utils.hpp:32-82 matrix_transpose_matrix_multiply", "source/cuda/utils.cu:91-204 convert_matrix, convert_to_trilinos_matrix"]}
{"id": "C81", "title": "Fast AP with inexact eigenpairs", "statement": "Whatever the accuracy of the local eigenpairs, each column of A R^T that fast AP computes is the true one minus the residual of the pair it belongs to, at the dofs of its agglomerate: the inaccuracy of a pair affects its own column only, and the norm of the error is the norm of the residual. With Lanczos it is at most max(tolerance, 1e-4) times the square root of 1 + (num_cycles - 1) num_eigenpairs_per_cycle. The product is not A R^T as soon as a residual is not zero.", "quantifier": "for every cell decomposition, agglomeration, rank, schedule and set of vectors and values", "why_tests_cant": "the test compares one mesh against the slow product, with eigenpairs accurate to machine precision", "anchors": ["source/dealii/dealii_hierarchy_helpers.cc:56-303 build_restrictor", "source/dealii/dealii_hierarchy_helpers.cc:323-328 fast_multiply_transpose", "include/mfmg/dealii/amge_host.templates.hpp:350-483 compute_local_eigenvectors"]}
{"id": "C82", "title": "The fast_ap parameter does not change the preconditioner", "statement": "On one rank, with LAPACK as eigensolver, build_restrictor() computes the same restriction R with and without \"fast_ap\", whatever the thread schedules, and passes its own debug check. Both hierarchies are constructed, and vmult() of both returns the same vector: the two-grid cycle with the assembled matrix A, the smoother and an exact solution with R A R^T. With the default smoother and coarse solver this is a fixed symmetric positive definite map that reduces the energy of every error. Needed: no constrained dofs, and agglomerates that either all have neighbours or are all isolated.", "quantifier": "for all meshes without local refinement, partitions, symmetric cell matrices with an SPD sum, smoothers that are linear, initial values and right-hand sides, schedules and builds", "why_tests_cant": "the test compares products on one mesh up to a tolerance, and no test follows the setting through to vmult", "anchors": ["source/dealii/dealii_hierarchy_helpers.cc:56-303 build_restrictor", "source/dealii/dealii_hierarchy_helpers.cc:305-328 build_smoother, build_coarse_solver, fast_multiply_transpose", "include/mfmg/dealii/amge_host.templates.hpp:485-615 setup_restrictor, local_worker", "include/mfmg/common/amge.templates.hpp:51-260", "include/mfmg/common/hierarchy.hpp:159-309 Hierarchy, vmult, apply"]}
{"id": "C83", "title": "The Chebyshev smoother of a matrix-free level reduces every error", "statement": "Let the operator A of a matrix-free level be symmetric positive definite, let the inverse diagonal D^-1 that the smoother reads from the operator be positive, and let the eigenvalue estimates that deal.II obtains with conjugate gradients, multiplied by its safety factor 1.2, bound the eigenvalues of D^-1 A. Then, for every degree and every smoothing range, DealIIMatrixFreeSmoother::apply(b, x) adds a fixed, linear, symmetric correction of b - A x to x, and strictly reduces the energy norm of every nonzero error. The option smoother.max_eigenvalue has no effect on the smoother, because deal.II uses it only when eig_cg_n_iterations is 0 and the smoother never sets that option. Consequently a correct max_eigenvalue does not protect the user: with an estimate that is too small, apply() increases the error (refuted).", "quantifier": "for all dimensions, all symmetric positive definite operators, all positive diagonals, all degrees, all smoothing ranges, all estimates that bound the spectrum, all right-hand sides and all iterates", "why_tests_cant": "Tests run one Laplacian with default options and compare a convergence rate. They cannot show that no degree, range or operator makes the smoother amplify an error, and they never compare runs with different max_eigenvalue.", "anchors": ["source/dealii/dealii_matrix_free_smoother.cc:19-76 DealIIMatrixFreeSmoother", "source/dealii/dealii_matrix_free_operator.cc:145-150 get_diagonal_inverse", "source/dealii/dealii_matrix_free_hierarchy_helpers.cc:305-330 build_smoother"]}
{"id": "C84", "title": "A matrix-free hierarchy is one fixed symmetric positive definite preconditioner that reduces every error", "statement": "Under the conditions of C83, with a restrictor of full row rank, and if the product A R^T computed by the matrix-free operator is exact (fast_ap with exact eigenpairs) or has no nonzero entry below the absolute threshold 1e-14, a two-level Hierarchy with a matrix-free fine level can be constructed, and vmult applies one fixed symmetric positive definite operator; one vmult correction strictly reduces the energy norm of every nonzero error. Only max levels = 2 can be constructed with a matrix-free operator. The threshold is absolute: for every operator A there is a positive factor s such that the hierarchy for s A gets a zero coarse operator (scale invariance is refuted).", "quantifier": "for all dimensions, all symmetric positive definite operators, all restrictors of full row rank, all smoother options that satisfy C83, all vectors, all values of max levels", "why_tests_cant": "Tests use one problem at scale 1 and a convergence rate; symmetry and definiteness quantify over all vectors, and the failure needs a badly scaled operator.", "anchors": ["source/dealii/dealii_matrix_free_hierarchy_helpers.cc:35-330", "source/dealii/dealii_matrix_free_operator.cc:93-111 multiply_transpose", "source/dealii/dealii_utils.cc:32-81 matrix_transpose_matrix_multiply", "include/mfmg/common/hierarchy.hpp:159-309 Hierarchy, vmult"]}
{"id": "C85", "title": "An agglomerate sees the boundary conditions of the domain, and only those", "statement": "AMGe::build_agglomerate_triangulation gives the user's evaluator a mesh for each agglomerate. On that mesh, every face of a cell of the agglomerate that lies on the boundary of the domain carries the boundary id of the global face, and every other face, in particular the artificial boundary between agglomerates, has the id 0. Hence an evaluator that imposes a condition on a set of nonzero boundary ids imposes it on an agglomerate exactly where it is imposed on the domain. This needs nonzero ids: a condition on id 0, the default of deal.II's meshes, also constrains every artificial face (refuted). It also needs a patch without hanging nodes: the additional cells of such a patch never receive their ids, and lose the condition (refuted).", "quantifier": "for all meshes, all boundary ids, all agglomerates, all meshes of agglomerates that deal.II may return, all sets of constrained ids, debug and release builds", "why_tests_cant": "Tests set every boundary id to 1 and use uniform meshes, so that neither id 0 nor extra cells occur; the ids on the agglomerate meshes are not compared with the global ids.", "anchors": ["include/mfmg/common/amge.templates.hpp:645-698 build_agglomerate_triangulation", "include/mfmg/common/amge.templates.hpp:153-197 build_agglomerate_triangulation overloads", "tests/laplace.hpp:100-108"]}
{"id": "C86", "title": "The coarse space approximates as well as the discarded eigenvalues promise", "statement": "Let build_restrictor() run on one rank with LAPACK, symmetric positive semidefinite cell matrices and no constrained dofs, and let lambda be at most every eigenvalue of an agglomerate matrix whose eigenvector was not kept. Then for every fine vector v there is a coarse vector w with lambda |v - R^T w|^2 <= v^T A v. So the setting eigensolver.number of eigenvectors controls the quality of the coarse space: keeping more eigenvectors raises lambda. lambda must not exceed 100 minus the mean of the diagonal of an agglomerate matrix, since the code asks LAPACK for the interval (-0.5, 100] of the shifted spectrum.", "quantifier": "for all meshes without local refinement, partitions, cell matrices, thread schedules, numbers of eigenvectors, lambda and fine vectors", "why_tests_cant": "tests count eigenvectors and compare convergence rates of one Laplacian with stored values; no run can establish an inequality for every vector and every mesh", "anchors": ["source/dealii/dealii_hierarchy_helpers.cc:56-303 build_restrictor", "include/mfmg/dealii/amge_host.templates.hpp:356-482 compute_local_eigenvectors, lapack", "include/mfmg/common/amge.templates.hpp:271-410 compute_restriction_sparse_matrix", "include/mfmg/dealii/amge_host.templates.hpp:485-615 setup_restrictor, local_worker"]}
{"id": "C87", "title": "The hierarchy converges at a rate that is known in advance", "statement": "With the default smoother (symmetric Gauss-Seidel) and coarse solver (direct), under the conditions of C86: let theta times the sum of a_ij^2 / a_jj over the lower triangle of A be at most 1. Then every call of vmult() multiplies the energy norm of the error by at most 1 - theta lambda. As a solver (is preconditioner = false), k calls multiply it by at most (1 - theta lambda)^k. As a preconditioner, M A has its spectrum in [theta lambda, 2 - theta lambda], which bounds the condition number an outer Krylov method sees. Both settings of fast_ap are covered.", "quantifier": "for all meshes without local refinement, partitions, cell matrices with an SPD sum, numbers of eigenvectors and smoothing steps, right-hand sides, initial values and numbers of calls", "why_tests_cant": "the tests compare measured rates of a few Laplacians with reference values; a measured rate of some vectors does not bound the rate of all vectors", "anchors": ["include/mfmg/common/hierarchy.hpp:159-309 Hierarchy, vmult, apply", "source/dealii/dealii_hierarchy_helpers.cc:56-328 build_restrictor, build_smoother, build_coarse_solver", "include/mfmg/cuda/sparse_matrix_device.templates.cuh DealIISmoother", "include/mfmg/dealii/amge_host.templates.hpp:356-482 compute_local_eigenvectors, lapack"]}
{"id": "C88", "title": "Reported complexities", "statement": "In every program that applies, transposes and multiplies device operators, grid_complexity() of an operator that stands for the matrix B is the number of rows of B on every rank. operator_complexity() is the number of entries stored on the calling rank; a rank that reports 0 owns zero rows only, and over all ranks the numbers add up to at least the number of nonzero entries of B. So on several ranks no rank need report the entries of the matrix (refuted). Matrix-free operators have no complexity: the host throws, the device reports 0 (refuted). Hierarchy::grid_complexity() and operator_complexity() report 0 for every hierarchy, although a grid complexity is never less than 1 (refuted).", "quantifier": "for all programs of operator calls, matrices, distributions and ranks; for all hierarchies", "why_tests_cant": "the only test prints the values; on one rank local and global counts agree", "anchors": ["source/cuda/cuda_matrix_operator.cu:251-261 grid_complexity, operator_complexity", "source/cuda/cuda_matrix_free_operator.cu:151-165", "source/dealii/dealii_matrix_free_operator.cc:131-143", "include/mfmg/common/hierarchy.hpp:311-366 grid_complexity, operator_complexity"]}
{"id": "C89", "title": "Smoothers on several processes", "statement": "The Trilinos preconditioners of DealIISmoother drop the couplings between processes. On one process symmetric Gauss-Seidel is the serial smoother, and Jacobi is the same on any number of processes. For every distribution of the rows of a symmetric positive definite matrix the symmetric Gauss-Seidel preconditioner is linear, symmetric and positive. A smoothing step reduces the energy norm of every error, and the default host preconditioner is symmetric positive definite and reduces every error, if there are at most two processes (any number of levels), or processes of two colours are only coupled to the other colour, or the matrix is diagonally dominant and every unknown is linked to a strictly dominant row; with dominance alone no step makes an error larger. Without the condition this fails: on three processes an SPD matrix and default parameters give a preconditioner that is not positive and multiplies an error by more than three, although the same run on one process gives an SPD preconditioner (refuted).", "quantifier": "for all SPD matrices, distributions of rows, right-hand sides, parameters and restrictions of full rank", "why_tests_cant": "the tests smooth diagonally dominant matrices on a few processes; neither other matrices nor all distributions can be run", "anchors": ["source/dealii/dealii_smoother.cc:19-81 DealIISmoother", "source/dealii/dealii_hierarchy_helpers.cc:305-312 build_smoother", "include/mfmg/common/hierarchy.hpp construct, vmult"]}
{"id": "C90", "title": "From the mesh to a preconditioner on several processes", "statement": "However the cells are distributed over processes, with the LAPACK eigensolver, the agglomerates that each process builds from its own cells give together a coarse space that approximates as on one process: if lambda is at most every discarded eigenvalue of every agglomerate of every process, each vector v has a coarse vector w with lambda |v - R^T w|^2 <= v^T A v. Such runs exist whenever all local problems can be solved. If R has full row rank, the two-level preconditioner without fast_ap is symmetric positive definite and reduces every error under the condition of C89 on the distribution of the rows; and if the couplings between processes add at most the factor 2 - delta to the energy of the blocks of the processes, one call of vmult reduces the error at least by 1 - delta theta lambda, theta depending on the entries of the blocks only.", "quantifier": "for all distributed meshes, numbers of processes, cell matrices (symmetric, positive semidefinite), agglomerations, schedules, parameters and right-hand sides", "why_tests_cant": "the tests run one mesh on a few processes and compare iteration counts; neither all distributions nor the rate for all errors can be run", "anchors": ["source/dealii/dealii_hierarchy_helpers.cc:56-312 build_restrictor, build_smoother", "include/mfmg/dealii/amge_host.templates.hpp:485-640 setup_restrictor", "include/mfmg/common/amge.templates.hpp build_agglomerates, compute_restriction_sparse_matrix", "source/dealii/dealii_smoother.cc:19-81 DealIISmoother", "include/mfmg/common/hierarchy.hpp construct, vmult"]}
{"id": "C91", "title": "The hierarchy inherits the quality of inexact local vectors", "statement": "Whatever eigensolver computed the vectors kept on the agglomerates, with constrained dofs and on any number of processes: if they represent every vector on their agglomerate up to its energy over lambda and eps times its square, then R represents every vector up to its energy over lambda and kappa eps times its square, kappa being the largest number of cells meeting in a dof. Orthonormal vectors with residuals (Lanczos: bounded by the tolerance used, with or without deflation) represent up to such a slack as soon as what is orthogonal to them has a larger Rayleigh quotient and the constrained dofs a large enough diagonal; with LAPACK asking for more eigenvectors never represents less. If the smallest eigenvalue of A is at least mu, the slack costs the factor mu / (mu + kappa eps) of lambda only, and the rate of C90 for one call, for repeated calls of a solver and for the spectrum of the preconditioned operator holds with that lambda. Without slack it is false: at the default tolerance Lanczos can accept a vector on a floating agglomerate with which no positive lambda works; and small residuals do not suffice without the gap.", "quantifier": "for all eigensolvers, parameters, distributed meshes, cell matrices (positive semidefinite), schedules, right-hand sides and initial vectors", "why_tests_cant": "the tests run Lanczos with one tolerance on small problems and compare iteration counts with recorded ones; what an inexact pair costs in the worst case does not show there", "anchors": ["include/mfmg/dealii/amge_host.templates.hpp:278-483 compute_local_eigenvectors", "include/mfmg/common/lanczos.templates.hpp solve", "source/dealii/dealii_hierarchy_helpers.cc:56-312 build_restrictor, build_smoother", "include/mfmg/common/hierarchy.hpp construct, vmult"]}
{"id": "C92", "title": "The preconditioner keeps its rate with an inexact coarse solver", "statement": "If \"coarse.type\" is ML and ML acts on the coarse matrix R A R^T as a symmetric linear map whose product with it has its spectrum between alpha and beta, 0 <= alpha <= 1 (a symmetric solver that leaves at most the fraction gamma of the error has alpha = 1 - gamma, beta = 1 + gamma), then one call of vmult of the two-level hierarchy with symmetric Gauss-Seidel reduces the error in the energy norm at least by the larger of 1 - alpha delta theta lambda and beta - 1, where delta theta lambda is what C87/C90/C91 give for an exact coarse solver; repeated calls of a solver converge with that rate; as a preconditioner the spectrum of the preconditioned operator lies between alpha delta theta lambda and the larger of 1 and beta. With the direct coarse solver it lies between delta theta lambda and 1: the preconditioner never overshoots. The upper bound is needed: with a symmetric positive definite coarse solver that takes three times the correction, a call of vmult makes the error larger.", "quantifier": "for all matrices, restrictors, distributions of the rows, numbers of smoothing steps, coarse solvers meeting the bounds, right-hand sides and initial vectors, with and without fast_ap", "why_tests_cant": "the tests run ML with one list of parameters on one coarse problem; how the quality of the coarse solver enters the rate is a statement about all of them", "anchors": ["source/dealii/dealii_solver.cc:25-87 DealIISolver::DealIISolver, apply", "source/dealii/dealii_hierarchy_helpers.cc:305-321 build_smoother, build_coarse_solver", "include/mfmg/common/hierarchy.hpp construct, vmult, apply"]}
{"id": "C93", "title": "Every process reads the operator's diagonal, and the setup's self-check accepts it", "statement": "get_diagonal gives every process, in debug and release builds, the diagonal of the matrix of evaluate_global at exactly the dofs it owns and its ghost dofs, provided the rows of that matrix are distributed as its columns. With it every process has what the setup of the restriction needs, and check_restriction_matrix on all processes accepts what they collected if every agglomerate keeps at least one vector and no diagonal entry is 0. If the check accepts, the diagonals of the agglomerates of all processes sum up to the diagonal up to the tolerance; otherwise it aborts. Without the condition on the distribution a debug build aborts in get_diagonal and a release build reads 0 for entries that are not 0.", "quantifier": "for all matrices, distributions of the dofs, ghost dofs, meshes, agglomerations, eigensolvers and numbers of processes, in debug and release", "why_tests_cant": "the tests read the diagonal on one or two meshes; which entries a process can read depends on the distribution", "anchors": ["source/dealii/dealii_mesh_evaluator.cc:57-86 DealIIMeshEvaluator::get_diagonal", "include/mfmg/common/utils.hpp check_restriction_matrix", "include/mfmg/dealii/amge_host.templates.hpp setup_restrictor"]}
{"id": "C94", "title": "Handles of the CUDA libraries are destroyed exactly once", "statement": "In a program that uses and destroys CudaHandle objects only while they exist, exactly the cuSOLVER and cuSPARSE handles held by the existing objects exist at every moment, no call reaches a handle that does not exist, and once all objects are gone every handle created has been destroyed exactly once. A debug build aborts if and only if a creation fails. Assigning one CudaHandle to another, which compiles, destroys handles twice and leaks others. In a release build a failed creation goes unnoticed and the calls that need the handle do nothing.", "quantifier": "for all programs creating, using and destroying any number of objects in any order, and all outcomes of the creations, in debug and release", "why_tests_cant": "a test has one CudaHandle per process and a working device", "anchors": ["source/cuda/cuda_handle.cu CudaHandle::CudaHandle, ~CudaHandle", "include/mfmg/cuda/cuda_handle.cuh CudaHandle", "include/mfmg/common/exceptions.hpp ASSERT_CUSOLVER, ASSERT_CUSPARSE"]}
{"id": "C95", "title": "The initial guess is the same on host and device", "statement": "CudaMatrixFreeMeshEvaluator::set_initial_guess gives entry by entry what DealIIMeshEvaluator::set_initial_guess gives: 0 at the constrained dofs, elsewhere the next number of a freshly seeded generator. If the vector is distributed, an entry does not depend on the distribution.", "quantifier": "for all sizes, sets of constrained dofs, generators and distributions of the vector", "why_tests_cant": "no test compares the two; a test on one device cannot vary the distribution", "anchors": ["source/cuda/cuda_matrix_free_mesh_evaluator.cu:48-67 set_initial_guess", "source/dealii/dealii_mesh_evaluator.cc:43-55 set_initial_guess"]}
{"id": "C96", "title": "What the local eigensolvers are asked for, with the documented defaults", "statement": "ARPACK is asked for the number of eigenpairs and the tolerance in the parameters, by default for one pair and 1e-14, and for nothing else: two ARPACKs that agree on such requests give the same restriction matrix. Every agglomerate contributes as many rows to the restriction matrix as eigenvectors were asked for, by default one. Lanczos never uses a tolerance below 1e-4: asking for one changes nothing.", "quantifier": "for all parameter trees, meshes, evaluators, external eigensolvers and schedules, in debug and release", "why_tests_cant": "a test fixes the tree; the tolerance a library is called with cannot be seen from a converged result", "anchors": ["source/dealii/dealii_hierarchy_helpers.cc:56-303 build_restrictor", "include/mfmg/dealii/amge_host.templates.hpp:164-207 lanczos_compute_eigenvalues_and_eigenvectors", "include/mfmg/dealii/amge_host.templates.hpp:350-483 compute_local_eigenvectors"]}
{"id": "C97", "title": "Agglomerates see each other's eigenvectors only on request", "statement": "Unless the eigensolver is \"anasazi\" and \"use_initial_guess\" is true, the eigenproblem of an agglomerate starts from nothing computed for another one, whatever the number of threads and the schedule, so that all runs of build_restrictor give one restriction matrix. If both are set, on one thread every agglomerate starts from the eigenvectors of the one before.", "quantifier": "for all parameter trees, meshes, evaluators, external eigensolvers, numbers of agglomerates, threads and schedules", "why_tests_cant": "a test sees one schedule per run, and a converged result does not show its guess", "anchors": ["include/mfmg/dealii/amge_host.templates.hpp:586-615 local_worker", "include/mfmg/dealii/amge_host.templates.hpp:485-584 setup_restrictor", "include/mfmg/dealii/amge_host.hpp:23-26 ScratchData"]}
{"id": "C98", "title": "The rate of a matrix-free hierarchy", "statement": "One step of the Chebyshev smoother, of every degree, removes at least theta times the square of the residual from the energy of the error, where theta = 4 a / (dmax (a + b)^2) for the interval [a, b] given by \"smoothing_range\" and the estimated eigenvalues, and the largest diagonal entry dmax. If the range of the prolongation contains, for every vector, another one at a squared distance of at most its energy over lambda, then each call of vmult of the two-level matrix-free hierarchy multiplies the energy norm of the error by at most 1 - theta lambda, k calls by its k-th power, and the spectrum of the preconditioned operator lies in [theta lambda, 2 - theta lambda].", "quantifier": "for all symmetric positive definite operators, positive diagonals, estimates that bound the spectrum, degrees, ranges, numbers of smoothing steps, restrictions of full row rank, right-hand sides and start vectors", "why_tests_cant": "a rate is a statement about all vectors and all operators; a test measures one of each", "anchors": ["source/dealii/dealii_matrix_free_smoother.cc:19-76 DealIIMatrixFreeSmoother", "source/dealii/dealii_matrix_free_hierarchy_helpers.cc:53-303 build_restrictor", "include/mfmg/common/hierarchy.hpp:159-309 Hierarchy, vmult"]}
{"id": "C99", "title": "From the mesh to a matrix-free preconditioner", "statement": "With a matrix-free evaluator on one process, the restriction build_restrictor ends with, whatever the schedules of its loops, represents every vector as well as the local eigenvectors represent vectors on the agglomerates, up to their slack times the number of cells in a dof. The diagonals the user returns at constrained dofs do not matter, as long as the global one is not zero there. With \"fast_ap\" and exact eigenpairs the product computed with the operators of the patches is A R^T. With the Lanczos eigensolver, operators that are symmetric, and a gap in the spectra of the agglomerates, the vectors are good enough: each call of vmult of the two-level hierarchy with the Chebyshev smoother multiplies the energy norm of the error by at most 1 - theta lambda'. Nothing checks the diagonal of an agglomerate at the free dofs: a single wrong entry, even in debug mode, goes unnoticed and spoils the coarse space.", "quantifier": "for all meshes, numberings, cell matrices that are positive semidefinite, sets of constrained dofs, values at them, partitions, schedules, tolerances, right-hand sides and start vectors", "why_tests_cant": "a rate is a statement about all vectors; tests run a few meshes and one schedule, and for matrix-free evaluators the code has no self-check of the restriction", "anchors": ["source/dealii/dealii_matrix_free_hierarchy_helpers.cc:53-303 build_restrictor", "include/mfmg/dealii/amge_host.templates.hpp:49-123 MatrixFreeAgglomerateOperator, 278-348 compute_local_eigenvectors, 485-609 setup_restrictor, local_worker", "source/dealii/dealii_matrix_free_smoother.cc:19-76", "include/mfmg/common/hierarchy.hpp:159-309 Hierarchy, vmult"]}
{"id": "C100", "title": "The rate of the hierarchy on the device", "statement": "With the restriction computed on the device, a direct coarse solver and the Jacobi smoother, each call of vmult of the two-level hierarchy multiplies the energy norm of the error by at most 1 - theta lambda. Here lambda is a lower bound of the eigenvalues of the agglomerates whose eigenvectors are left out, and theta = (2 - beta) / dmax for the largest diagonal entry dmax and any beta < 2 with A <= beta D. This holds in every call, in any order of the threads, and whatever was called before; as a solver the calls converge geometrically, and as a preconditioner the spectrum of M A lies in [theta lambda, 2 - theta lambda]. The bound beta < 2 is needed: the smoother has no damping, and for a symmetric positive definite matrix whose diagonal is too small a call makes the error larger.", "quantifier": "for all symmetric positive definite matrices assembled from positive semidefinite cell matrices, agglomerates, numbers of eigenvectors, orders of the threads, sequences of calls, right-hand sides and start vectors, in debug and release builds", "why_tests_cant": "a rate is a statement about all vectors; tests compare the rate of a single problem with a number recorded earlier", "anchors": ["source/cuda/cuda_smoother.cu:20-178 CudaSmoother, apply", "source/cuda/cuda_hierarchy_helpers.cu build_restrictor, build_smoother, build_coarse_solver", "include/mfmg/cuda/amge_device.templates.cuh:79-206, 215-435 compute_local_eigenvectors, compute_restriction_sparse_matrix, setup_restrictor", "source/cuda/cuda_solver.cu apply", "include/mfmg/common/hierarchy.hpp:159-309 Hierarchy, vmult"]}
{"id": "C101", "title": "Conjugate gradients preconditioned with the hierarchy", "statement": "The solve of the test driver, conjugate gradients with the hierarchy as preconditioner and as many steps allowed as there are unknowns, ends normally and with a residual within the tolerance, whatever the tolerance, the right-hand side, the start vector and the contents of the work vectors. If the spectrum of M A lies in [a, c], the energy norm of the error after k steps is at most 1 / T_k((c + a) / (c - a)) times that of the start, T_k being Chebyshev's polynomial, hence at most 2 ((r - 1) / (r + 1))^k times for every r with r^2 >= c / a, and the number of steps is bounded accordingly. For the hierarchy built from a mesh with the default options a = theta lambda and c = 2 - theta lambda as in C87. With 'is preconditioner' false this fails: the same solve can return or throw NoConvergence depending on what a work vector held.", "quantifier": "for all symmetric positive definite matrices and preconditioners, tolerances, right-hand sides, start vectors, contents of the work vectors, numbers of steps, in debug and release builds; for all meshes with the hypotheses of C87", "why_tests_cant": "a test runs one problem and compares the number of steps with a number recorded earlier; conjugacy, optimality and the bound are statements about all vectors and all steps", "anchors": ["tests/hierarchy_driver.cc:30-116 matrix_free_two_grids", "tests/hierarchy_driver.cc:119-214 matrix_based_two_grids", "include/mfmg/common/hierarchy.hpp:159-309 Hierarchy, vmult", "include/mfmg/dealii/amge_host.templates.hpp setup_restrictor"]}
{"id": "C102", "title": "Conjugate gradients with matrix-free hierarchies and on several ranks", "statement": "The bounds of C101 hold for the driver with every hierarchy whose vmult is a fixed symmetric positive definite operator M with the spectrum of M A in [a, c]: the solve ends normally after at most n steps with a residual within the tolerance, and the energy norm of the error after k steps is at most 2 ((r - 1) / (r + 1))^k times that of the start whenever r^2 >= c / a. This covers the matrix-free hierarchy with the Chebyshev smoother (a = theta lambda, c = 2 - theta lambda with the constants of C98) and the hierarchy built from a mesh distributed over several MPI ranks (a = delta theta lambda, c = 2 - delta theta lambda with the constants of C90).", "quantifier": "for all operators, restrictors, tolerances, right-hand sides, start vectors and contents of the work vectors meeting the hypotheses of C98, and for all meshes, distributions and numbers of ranks meeting those of C90", "why_tests_cant": "a test runs one mesh on a fixed number of processes and compares the number of steps with a recorded number", "anchors": ["tests/hierarchy_driver.cc:30-116 matrix_free_two_grids", "tests/hierarchy_driver.cc:119-214 matrix_based_two_grids", "include/mfmg/common/hierarchy.hpp:159-309 Hierarchy, vmult", "source/dealii/dealii_matrix_free_smoother.cc", "source/dealii/dealii_smoother.cc"]}
{"id": "C103", "title": "The measured convergence rate", "statement": "The rate the driver and the tests report for a hierarchy used as a solver is the quotient of the residual norms after the last two cycles; it is a number exactly if the residual before the last cycle is not zero, and it is not a number (0/0) otherwise, in particular always when the coarse space is the whole space. For the default two-level hierarchy the map from the error before a cycle to the error after it is symmetric in the energy inner product: the factors by which successive cycles reduce the energy of the error never decrease, so the factor of the last cycle is at least the mean of all factors before and at most the rate rho of C87, and the total reduction of the residual after k cycles is at most sqrt(Lam / mu) rho^k, mu and Lam being bounds of the eigenvalues of A. The reported number itself is at most sqrt(Lam / mu) rho and, because it uses the Euclidean norm of residuals, it may exceed rho and even 1 for a method that converges.", "quantifier": "for all symmetric positive definite matrices, restrictors of full rank, start vectors, right-hand sides and numbers of cycles; for all meshes meeting the hypotheses of C87, matrix-free hierarchies with the Chebyshev smoother meeting those of C98, and distributed meshes on several MPI ranks meeting those of C90", "why_tests_cant": "a test reports one quotient for one pseudo-random start and compares it with a recorded number; that the factors grow, what bounds the quotient and that it is not a rate are statements about all starts", "anchors": ["tests/hierarchy_driver.cc:75-102, 172-199 matrix_free_two_grids, matrix_based_two_grids", "tests/test_hierarchy.cc:51-201 test_mf, test", "include/mfmg/common/hierarchy.hpp:159-309 Hierarchy, vmult", "source/dealii/dealii_smoother.cc"]}
{"id": "C104", "title": "Entries dropped by the matrix-free product", "statement": "The product A R^T of a matrix-free operator omits the entries of modulus at most 1e-14. If this threshold eps is small relative to the operator, eps sqrt(n m) <= delta sqrt(mu nu) with delta < 1, where n and m are the numbers of fine and coarse unknowns and mu and nu are lower bounds of the eigenvalues of A and of R A R^T, then construction of the two-level matrix-free hierarchy succeeds whatever entries are dropped, the coarse system is solvable although its matrix need not be symmetric, and every call of vmult multiplies the energy norm of the error by at most 1 - theta lambda + delta / (1 - delta): the rate of C98 plus a term for the dropped entries. As a preconditioner M, <M b, b> stays between 1 - rho and 1 + rho times <A^-1 b, b>. The same holds with fast_ap if the product of the restrictor is off by at most eps in each entry. The threshold is absolute: every operator has a multiple whose product and coarse matrix are zero, and the preconditioner of a symmetric operator is in general not symmetric once entries are dropped.", "quantifier": "for all operators that are symmetric positive definite matrices, restrictors, thresholds, parameter trees meeting the hypotheses of C98, start vectors and numbers of calls", "why_tests_cant": "a test compares one product with one matrix to a tolerance; the effect of what is dropped on the coarse solve and on convergence is a statement about all operators, and an operator scaled by a small factor is not tested", "anchors": ["include/mfmg/dealii/dealii_utils.hpp:32-81 matrix_transpose_matrix_multiply", "source/dealii/dealii_matrix_free_operator.cc multiply_transpose", "include/mfmg/common/hierarchy.hpp:159-309 Hierarchy, vmult", "source/dealii/dealii_solver.cc"]}
{"id": "C105", "title": "Matrix-free preconditioners on several ranks", "statement": "For matrix-free evaluators on any number of MPI ranks, whatever part of the mesh each rank owns and however its cells are numbered and partitioned, the restrictor that build_restrictor ends with inherits the quality of the local eigenvectors: if on every agglomerate of every rank the vectors kept represent all vectors up to lambda and eps, the coarse space represents all vectors up to lambda and eps times the number of cells a dof belongs to. With Lanczos a gap in the spectra of the agglomerates suffices. The constrained dofs may have any nonzero diagonal, also different ones on different ranks. The preconditioner with the direct coarse solver and the Chebyshev smoother then contracts the energy norm of the error by 1 - theta lambda' in every call of vmult, its preconditioned operator has its spectrum between theta lambda' and 2 - theta lambda', and entries dropped by the product A R^T add at most delta / (1 - delta). The diagonal each rank reads has to be that of the whole operator: if every rank reads only what its own cells contribute, build_restrictor ends without an error, even in debug mode, and the coarse space loses the bound.", "quantifier": "for all meshes, elements and numbers of ranks, distributions of cells, agglomerations, evaluators that keep their contract, schedules of the loops, option trees, start vectors and right-hand sides", "why_tests_cant": "the tests run the matrix-free hierarchy on at most a few ranks with fixed meshes and compare numbers of iterations; a wrong value at a dof two ranks share gives no error and only changes the rate of convergence", "anchors": ["source/dealii/dealii_matrix_free_hierarchy_helpers.cc:53-76,288-303 build_restrictor", "include/mfmg/dealii/amge_host.templates.hpp:278-348,485-535,586-606 setup_restrictor", "include/mfmg/common/amge.templates.hpp:51-86,272-326 build_agglomerates, compute_restriction_sparse_matrix", "include/mfmg/common/hierarchy.hpp:159-309 Hierarchy, vmult"]}
{"id": "C106", "title": "What the texts of options mean", "statement": "An option that is a truth value is read exactly if its text, between blanks, is 0 or 1 or true or false (or one of the two words after a sign or after another number); an int exactly if it is a decimal number that fits. Any other text (True, yes, 2, 3.0) counts as if the option were not given, without an error: the hierarchy is then a preconditioner, has two levels, one smoothing step and does not use fast_ap, so that fast_multiply_transpose is never consulted. A negative n_smoothing_steps becomes its remainder modulo 2^32. Options without a default (num_cycles, num_eigenpairs_per_cycle) throw if missing or unreadable. The hierarchy on the device reads the options alike, and with two levels or more it is built only without fast_ap. It is not true that a misspelt text is reported: a tree with 'False', 'yes', '3.0' and '2.5' builds a preconditioner with two levels and one smoothing step.", "quantifier": "for all texts, all option trees, all paths, all helpers and all scalars, on host and device", "why_tests_cant": "the tests give every option a well-formed text; nothing in the results shows that an option was ignored, since the defaults work as well", "anchors": ["include/mfmg/common/hierarchy.hpp:168-172,189-190,216 Hierarchy", "include/mfmg/common/lanczos.templates.hpp:88-97 num_cycles", "include/mfmg/dealii/amge_host.templates.hpp:183-192 eigensolver options", "source/dealii/dealii_matrix_free_hierarchy_helpers.cc:77-78 fast_ap", "include/mfmg/cuda/cuda_hierarchy_helpers.cuh CudaHierarchyHelpers"]}
{"id": "C107", "title": "Fast product with approximate pairs", "statement": "With fast_ap and a matrix-free evaluator the hierarchy works with the pairs Lanczos returns, though they are not eigenpairs: every column of the product that build_restrictor computes differs from that of A R^T by a vector whose square is at most that of the residual of its pair on its agglomerate, at most tol^2 (1 + (cycles - 1) pairs per cycle) with the tolerance of the options but not less than 1e-4. If that, times the number of coarse unknowns, is small relative to the smallest eigenvalues mu of the operator and nu of the Galerkin product (at most delta^2 mu nu, delta < 1), construction succeeds and every call of vmult multiplies the energy norm of the error by at most 1 - theta lambda' + delta / (1 - delta); as a preconditioner M, <M b, b> lies between 1 - rho and 1 + rho times <A^-1 b, b> with that rho. The bound does not depend on the number of fine unknowns.", "quantifier": "for all meshes, elements, agglomerations, evaluators that keep their contract, schedules of the loops, Lanczos options, option trees, start vectors and right-hand sides", "why_tests_cant": "the tests compare the fast product with the exact one on one mesh with a loose tolerance; how an error in the coarse matrix that depends on the tolerance of the eigensolver acts on convergence cannot be seen on examples", "anchors": ["source/dealii/dealii_matrix_free_hierarchy_helpers.cc:53-303 build_restrictor", "include/mfmg/common/lanczos.templates.hpp:69-233 Lanczos::solve", "include/mfmg/dealii/amge_host.templates.hpp:278-348,586-606 setup_restrictor", "include/mfmg/common/hierarchy.hpp:159-309 Hierarchy, vmult"]}
{"id": "C108", "title": "Fast product on several ranks", "statement": "On any number of ranks, fast_ap with a matrix-free evaluator gives the same restriction as without it, and every column of the product, computed by the rank that owns the row of the restriction without any communication, differs from that of A R^T (A assembled over all ranks) by a vector whose square is at most that of the residual of its pair. All a rank needs is to see, as ghosts, the cells that have a dof in common with a cell it owns; without ghosts the product can be wrong by more than any residual (C108_ghosts_refuted). With Lanczos the residuals are bounded by the tolerance on every rank; if they are small relative to the smallest eigenvalues of A and of R A R^T (delta as in C107), construction succeeds and every call of vmult multiplies the energy norm of the error by at most 1 - theta lambda' + delta / (1 - delta); as a preconditioner M, <M b, b> lies between 1 - rho and 1 + rho times <A^-1 b, b> with that rho. Neither depends on the number of ranks.", "quantifier": "for all numbers of ranks, distributions and numberings of the cells, elements, agglomerations, evaluators that keep their contract, schedules of the loops on each rank, Lanczos options, option trees, start vectors and right-hand sides", "why_tests_cant": "the tests run a few rank counts on one mesh with a loose tolerance; that no distribution of the cells makes a rank miss a contribution from across the boundary of its part cannot be tested", "anchors": ["source/dealii/dealii_matrix_free_hierarchy_helpers.cc:53-303 build_restrictor", "include/mfmg/common/amge.templates.hpp:89-151 build_boundary_agglomerates", "include/mfmg/dealii/amge_host.templates.hpp:278-348,586-606 setup_restrictor", "include/mfmg/common/hierarchy.hpp:159-309 Hierarchy, vmult"]}
{"id": "C109", "title": "Exact fast product on several ranks", "statement": "On any number of ranks, fast_ap with a matrix-based evaluator and LAPACK gives the same restriction as without it, whatever the schedules of the loops, and the product that the ranks compute, each the columns of the rows it owns and without communication, is exactly A R^T with A assembled over all ranks, provided each rank sees, as ghosts, the cells that have a dof in common with a cell it owns. So fast_ap changes no result of vmult, and the two-level hierarchy with it is the one of C90: as a preconditioner it is symmetric, positive and reduces every error, and one call of vmult reduces the energy norm of the error by 1 - delta theta lambda.", "quantifier": "for all numbers of ranks, distributions and numberings of the cells, elements, agglomerations, evaluators that keep their contract, schedules of the loops on each rank, option trees, start vectors and right-hand sides", "why_tests_cant": "the tests compare two products for a few rank counts on one mesh and up to a tolerance; that no distribution of the cells makes a rank miss or double a contribution from across the boundary of its part cannot be tested", "anchors": ["source/dealii/dealii_hierarchy_helpers.cc:56-303 build_restrictor", "include/mfmg/common/amge.templates.hpp:89-151 build_boundary_agglomerates", "include/mfmg/dealii/amge_host.templates.hpp:485-606 setup_restrictor", "include/mfmg/common/hierarchy.hpp:159-309 Hierarchy, vmult"]}
{"id": "C110", "title": "The distribution over ranks does not change the preconditioner", "statement": "With LAPACK, two runs whose agglomerates have the same local results, whichever rank has which agglomerate, in whatever order and on however many ranks, give restrictions with equally many rows that span the same space, and the two-level hierarchies built from them give the same result of every vmult for the same smoother. More generally, two restrictions whose rows span the same space, as when eigenvectors come with another sign, length or order, give the same two-level preconditioner. In particular, with one evaluator for all ranks, the same partition of the mesh into agglomerates gives the same preconditioner however its parts are distributed over however many ranks, and in whatever order the ranks are listed. The rows that the smoother treats as one block must stay the same: with other owned rows the result differs (refuted).", "quantifier": "for all numbers of ranks, distributions of the agglomerates, schedules of the loops on each rank, elements, option trees with a direct coarse solver, start vectors and right-hand sides", "why_tests_cant": "tests run a few rank counts and compare iteration counts or norms to a tolerance; that no distribution of the agglomerates and no choice of the eigenvectors can be seen from outside is a statement about all of them", "anchors": ["source/dealii/dealii_hierarchy_helpers.cc:56-303 build_restrictor", "include/mfmg/common/amge.templates.hpp:271-325 compute_restriction_sparse_matrix", "include/mfmg/dealii/amge_host.templates.hpp:485-606 setup_restrictor", "include/mfmg/common/hierarchy.hpp:159-309 Hierarchy, vmult"]}
