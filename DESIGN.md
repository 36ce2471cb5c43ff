# Formal model of mfmg in Rocq (Coq 8.16.1): design

## 1. Shape of the development

All Coq files are in `rocq/theories`. They come in layers.

* `Base.v`: outcome type and list update helpers. `OField.v`: ordered fields and vectors. `Mat.v`, `LinAlg.v`: matrices and linear algebra lemmas.
* `M_*.v`: the model, definitions only, function by function. Every definition cites file and lines in `/repo`.
* `S_*.v`: specifications. They do not use the model's helpers.
* `P_*.v`: proofs.
* `E_*.v`: data shared by examples.
* `C_*.v`: the property theorems `Cnn_...`, each with `Print Assumptions` and with `Example`s that meet its hypotheses.
  Theorems ending in `_refuted` show, with a witness or for a whole class of inputs, that the conditions of the neighbouring theorem cannot be dropped.

### Conventions of the model

* A C++ function becomes a total Gallina function. Its result is `outcome A` whenever the C++ code can do
  something other than return: `Ok a`, `Throw` (a C++ exception), `Abort` (a debug `ASSERT`), `UB` (undefined behaviour:
  out-of-range access, null dereference), `Fuel` (the loop has not ended within the fuel given).
  A theorem that says a function returns `Ok` therefore says that no undefined behaviour occurred.
* Many functions take a flag `debug`: whether `ASSERT` and deal.II's `Assert` are active.
* Loops become structural recursion when the C++ bound is a count, and recursion on explicit fuel otherwise.
  "Terminates" is stated as `exists fuel, ... <> Fuel`, "diverges" as `forall fuel, ... = Fuel`.
* Scalars. Numerical identities hold in exact arithmetic. They are proved for every ordered field (`OField.v`), with the
  canonical rationals `Qc` of the standard library as the computable instance used in examples. Floating-point rounding is *not* modelled.
  Theorems about order, counting, indices, ownership or control flow do not depend on arithmetic.
* External code (deal.II, Trilinos, LAPACK, cuSPARSE, AMGX, std::sort, random numbers) enters as a function argument with its
  contract as a hypothesis of the theorem. Examples give an instance that satisfies the contract. All contracts are listed in section 3.
* MPI: one list element per rank; a collective is a function on the list of all ranks' contributions.
* Objects with mutable state (hierarchies, operators, device matrices, AMGX handles, multivectors, WorkStream) are transition systems; theorems
  quantify over all programs or histories.

## 2. Plan per property

| id | title | modelled | how proved | theorems in |
|---|---|---|---|---|
| C01 | In-place permutation gathers exactly | `apply_permutation_in_place` loop with `done` bits and swaps, fuel on the inner while | cycle invariant: processed positions are final, others untouched | `C_Perm.v` |
| C02 | sort_permutation orders pairs lexicographically | `sort_permutation`: iota and any result `std::sort` may give with the C++ comparator | permutation and sortedness lemmas, composed with C01 | `C_Perm.v` |
| C03 | In-place permutation terminates exactly on bijections | same loop | C01 for one direction; a non-injective map has an orbit that never returns | `C_Perm.v` |
| C04 | Block agglomeration covers every owned cell | `build_agglomerates_block`: cells, neighbour functions, owned flags, user indices | invariant over the sweep | `C_Agglo.v` |
| C05 | Block agglomeration of a structured grid is the tiling | same | refinement to the tile formula | `C_Agglo.v` |
| C06 | Agglomerate ids returned by block agglomeration can be empty | same | invariant on used ids; witness mesh for the refutation | `C_Agglo.v` |
| C07 | Partitioner renumbering is dense and respects the partition | renumbering loop of the partitioner path | invariant: map is a bijection from parts seen to 1..k | `C_Agglo.v` |
| C08 | Interior and halo split of an agglomerate | `build_boundary_agglomerates` | set extensionality | `C_Agglo.v` |
| C09 | Agglomerate patch selects exactly the requested cells | patch extraction by id and by index, iterator advance | induction over the list, arithmetic in Z | `C_Agglo.v` |
| C10 | Patch-to-global dof map | double loop writing `dof_indices` | last-writer lemma, agreement of writers | `C_Agglo.v` |
| C11 | Restriction matrix rows are weighted eigenvectors | `compute_restriction_sparse_matrix`, sparse add of triples | fold over triples equals a sum | `C_Restr.v` |
| C12 | Restriction is a partition of unity | same, with patch diagonals | sums of weights | `C_Restr.v` |
| C13 | Coarse rows are numbered consecutively over ranks | row ranges from counts of all ranks | prefix sums | `C_Restr.v` |
| C14 | R = E + Delta split used by fast AP | same, two readings of `set` | case analysis on duplicates | `C_Restr.v` |
| C15 | Fast AP computes A times R transposed | `build_transpose_product` worker and assembly with delta corrections | bilinear algebra over cells | `C_FastAP.v` |
| C16 | Work item results in the fast-AP correction loop | copier and WorkStream transition system | invariant over all schedules | `C_FastAP.v` |
| C17 | Sparse product helper drops only tiny entries | column loop of `matrix_transpose_matrix_multiply`, extraction of rows, all ranks | entrywise case split; refinement to the global form | `C_SpProd.v` |
| C18 | Preconditioner result is independent of the incoming x | recursive `apply`, `vmult` | induction over levels | `C_Hier.v` |
| C19 | The V-cycle is linear in preconditioner mode | same | induction over levels; linear maps | `C_Hier.v` |
| C20 | Exact solutions are fixed points in solver mode | same | induction over levels | `C_Hier.v` |
| C21 | The V-cycle preconditioner is symmetric | same | adjoints; witness for gauss-seidel | `C_Hier.v` |
| C22 | Galerkin coarse operators inherit symmetry and definiteness | hierarchy constructor as a state machine over level slots | induction over levels | `C_Hier.v` |
| C23 | Two-grid error propagation | same | algebra | `C_Hier.v` |
| C24 | Hierarchy construction populates every level | constructor | induction over levels, both directions | `C_Hier.v` |
| C25 | Timer sections are balanced | timer log in constructor and cycle | stack discipline of sections | `C_Hier.v` |
| C26 | User parameter tree is modified only for single level | parameter tree reads and writes | exact effect on each path | `C_Hier.v` |
| C27 | Dimensions are compatible at every level | sizes through the helpers | induction; refutation for the host helpers | `C_Hier.v` |
| C28 | Smoother step is affine with the exact solution as fixed point | smoother step and documented action of Trilinos' preconditioners | algebra over ordered fields | `C_Hier.v` |
| C29 | Lanczos convergence-check schedule | Lanczos loop with list of check iterations | induction over steps | `C_Lanczos.v` |
| C30 | Spurious eigenvalue filter | tridiagonal filter, `dstev` through its contract | list invariants | `C_Lanczos.v` |
| C31 | Lanczos three-term recurrence | Lanczos recurrence | orthonormality by induction over steps | `C_Lanczos.v` |
| C32 | Ritz pair residual estimate | Ritz vectors | residual identity | `C_Lanczos.v` |
| C33 | Deflation vectors are orthonormal and projected out | deflated operator, `add_deflation` | invariant over calls | `C_Deflate.v` |
| C34 | Multi-cycle Lanczos returns the requested number of sorted pairs | multi-cycle driver | induction over cycles | `C_Deflate.v` |
| C35 | Initial guesses respect constrained dofs | initial guesses of all solvers | pointwise | `C_Eig.v` |
| C36 | Eigenvalue shift cancels | shift of constrained diagonals, marker, residuals | pointwise algebra | `C_Eig.v` |
| C37 | Parameter tree to Teuchos list conversion | `ptree2plist`: tree to XML text to list | induction over trees | `C_Ptree.v` |
| C38 | Parameter dispatch is total | string dispatch | case analysis against tables in `S_Host.v` | `C_Host.v` |
| C39 | Device CSR from deal.II matrix is sorted and complete | `convert_matrix(dealii)` with bounds-checked reads | row-wise loop invariants | `C_Csr.v` |
| C40 | Matrix conversion round trips | conversions from and to Trilinos | composition of the row invariants | `C_Csr.v` |
| C41 | CUDA operator transpose history | CudaMatrixOperator with matrix and cached transpose | invariant over call histories | `C_CudaOp.v` |
| C42 | Device matrix ownership | device memory with allocations, objects as slots | ownership invariant over all programs | `C_Dev.v` |
| C43 | Device matrix-vector product memory balance | same | exact count of allocations | `C_Dev.v` |
| C44 | Global nonzero count | same | invariant | `C_Dev.v` |
| C45 | Jacobi smoother inverse diagonal | smoother kernel as a fold over an arbitrary thread order | order independence | `C_Csr.v` |
| C46 | Distributed product equals serial product | distributed product, gathering of vectors | sums over ranks | `C_Csr.v` |
| C47 | AMGX reordering is a symmetric permutation | `csr_to_amgx` | permutation of rows and columns | `C_Amgx.v` |
| C48 | AMGX solve returns the solution in user order and modifies the right-hand side | AMGX solve with host and device vectors | composition of C47 with the contract of AMGX | `C_Amgx.v` |
| C49 | AMGX resources are released once | AMGX handles | invariant over histories | `C_Amgx.v` |
| C50 | Multivector algebra for Anasazi | store of vectors, multivectors as lists of positions | loop invariants with sharing conditions | `C_MultiVec.v` |
| C51 | AMGX communication maps line up | communication maps of all ranks | sorting and counting | `C_Amgx.v` |
| C52 | Visualisation index lists every rank's file | loop of `output` | induction | `C_Agglo.v` |
| C53 | Eigensolver extraction stays in bounds | extraction of eigenvectors | index bounds | `C_Eig.v` |
| C54 | WorkStream schedule independence | WorkStream with reused objects | invariant over schedules | `C_Restr.v` |
| C55 | Second agglomeration of the same mesh | block agglomeration twice | invariant | `C_Agglo.v` |
| C56 | ML coarse solver parameters | parameter list for ML | tree algebra | `C_Host.v` |
| C57 | The constructed hierarchy is an SPD preconditioner | whole cycle | C21 and positivity | `C_Hier.v`, `C_Host.v` |
| C58 | The implemented cycle is the textbook V-cycle | `vmult` | induction over levels against a textbook cycle | `C_Hier.v` |
| C59 | A cycle never increases the energy of the error | whole cycle | energy estimates | `C_Hier.v` |
| C60 | Debug self-check of the restriction matrix | `check_restriction_matrix` | sums of rows | `C_Restr.v`, `C_Reuse.v` |
| C61 | Restriction has full row rank | restriction assembly | triangular structure of private dofs | `C_Restr.v` |
| C62 | Eigenvectors of all cycles are orthonormal | deflation cycles | invariant over cycles | `C_Deflate.v` |
| C63 | Too few pairs left by the filter | final gather of pairs | index bounds | `C_Lanczos.v` |
| C64 | Requests beyond the Krylov space | Lanczos on an invariant subspace | dimension count | `C_Lanczos.v` |
| C65 | LAPACK branch searches a fixed interval | LAPACK branch | index bounds, counting | `C_Eig.v` |
| C66 | Eigenvalues stay with their eigenvectors | flat lists of values and vectors over agglomerates | induction over agglomerates | `C_Eig.v` |
| C67 | Accuracy of the Lanczos branch | Lanczos branch end to end | C31 to C34 within the subspace of unconstrained vectors | `C_Eig.v` |
| C68 | The AMGX solver rewrites the matrix of its operator | constructor's effect on the shared matrix | C47 on one rank; witness on two | `C_Amgx.v` |
| C69 | Products of CUDA operators | products of operators | semantics of C41 and sums over ranks | `C_CudaOp.v` |
| C70 | Galerkin product of CUDA operators | Galerkin product | composition of C69 | `C_CudaOp.v` |
| C71 | Copies are independent, views are shared | programs of multivector operations | invariant on families | `C_MultiVec.v` |
| C72 | Random blocks repeat | `MvRandom` | loop invariant | `C_MultiVec.v` |
| C73 | Direct coarse solvers on the device | `cholesky_factorization`, `lu_factorization` (dense, sparse host), `DirectSolver::apply`; cuSOLVER as arguments with contracts | execution on the heap model; contracts met by Gaussian elimination (`E_Solve.v`) | `C_DevSolve.v` |
| C74 | Eigenvectors and restriction on the device | `AMGe_device`: kernels, `compute_local_eigenvectors`, `setup_restrictor` on all ranks; cuSOLVER, compression and user matrices as arguments | execution on the heap model, any thread order; then C11 and C60 for the assembled matrix and the conversion lemmas of C44 | `C_AmgeDev.v` |
| C75 | Device memory after building the restrictor | the heap of `M_Dev.v` through the same programs | exact accounting of allocations by induction over the agglomerates | `C_AmgeDev.v` |
| C76 | Multigrid cycle on the device | `M_CudaHier.v`: `Hierarchy` with the device operators of `M_CudaOp.v`, levels, smoother, vmult | induction over the levels with the invariant that operators keep their meaning and the memory its contents | `C_CudaHier.v` |
| C77 | The hierarchy the device helpers build | `M_CudaHier.v`: `CudaHierarchyHelpers`, constructor of `Hierarchy` | the constructed levels meet the description used in C76; the direct solvers by C73 | `C_CudaHier.v` |
| C78 | The device preconditioner is symmetric positive definite | the same | the hierarchy as a chain of symmetric positive definite levels, lemmas of `P_Hier*.v` | `C_CudaHier.v` |
| C79 | Spectral two-grid method on the device | the same with `build_restrictor` of `M_AmgeDev.v` | C74 provides the restriction that C77 needs | `C_CudaHier.v` |
| C80 | Matrix-free operators on the device: products | `M_CudaMf.v`: `CudaMatrixFreeOperator` with `mtmm` of `M_SpProd.v` and the conversions of `M_Csr.v` | the entries set, exactly; conversions as in C40; then C41 and C69 | `C_CudaMf.v` |
| C81 | Fast AP with inexact eigenpairs | `M_FastAP.v`, `M_Eig.v` and `M_Restr.v` as for C15 and C67 | the computation of C15 without its eigenvalue hypothesis leaves the residual as the only difference; its size from C67 | `C_FastAP2.v` |
| C82 | The fast_ap parameter does not change the preconditioner | `M_HostEnd.v`: build_restrictor as a whole, from the user indices to the matrices; `M_Host.v` and `M_Hier.v` for the rest | determinism of the loops gives equal restrictions; C15 gives the product; both cycles satisfy the same two-grid equations, whose solution is unique | `C_HostEnd.v` |
| C83 | The Chebyshev smoother of a matrix-free level reduces every error | `M_Cheby.v`: the options read by the smoother, deal.II's defaults and documented Chebyshev recurrence, the choice of eigenvalue bounds | the error of one step is a scaled Chebyshev polynomial in D^-1 A; the polynomial is written as 1 minus a sum of nonnegative kernels, so that the contraction needs no eigenvectors; any ordered field | `C_Cheby.v` |
| C84 | A matrix-free hierarchy is one fixed symmetric positive definite preconditioner that reduces every error | `M_Cheby.v`: the matrix-free helpers as an instance of the hierarchy of `M_Hier.v` | C83 gives the condition on the smoother that the multigrid theorem needs; the entry threshold is handled by hypothesis and refuted by scaling | `C_Cheby.v` |
| C85 | An agglomerate sees the boundary conditions of the domain, and only those | `M_Bids.v`: the collection of (cell, face, id) in the std::map, find_if over the map of cells, set_boundary_id with deal.II's debug assertion | characterisation of the std::map by its triples, invariant of the copy loop; the contract of deal.II's function is a record in `S_Bids.v` | `C_Bids.v` |
| C86 | The coarse space approximates as well as the discarded eigenvalues promise | the models of C82, no new definitions | spectral bound on the complement of the kept eigenvectors (`quotient_lower`), Jensen's inequality with the weights of the partition of unity, sum over agglomerates | `C_Rate.v` |
| C87 | The hierarchy converges at a rate that is known in advance | the models of C82; repeated calls in `S_Rate.v` | weighted Cauchy-Schwarz on the triangular factors of the smoother, then smoothing and approximation property give the rate; induction over the calls | `C_Rate.v` |
| C88 | Reported complexities | `M_CudaOp.v` (op_grid_complexity, op_operator_complexity), `M_Complexity.v` | invariant of C41 along programs of operator calls, counting of nonzero columns per stored row; direct for the hierarchy | `C_Complexity.v` |
| C89 | Smoothers on several processes | `M_Par.v`: the smoothers of every process on its own rows, and the helpers of `M_Host.v` with them | per process the correction is at most exact in energy; the matrix is below twice its diagonal blocks by a change of signs (two colours) or by dominance propagated along nonzero entries; then the two-level and multi-level theorems of C57; the refutation is a computed run | `C_Par.v` |
| C90 | From the mesh to a preconditioner on several processes | `M_ParEnd.v`: build_restrictor on a list of ranks, each with its own mesh, numbering, partitioner, evaluator and part of the diagonal | cells of other ranks keep user index 0, so every agglomerate consists of owned cells; the agglomerates of all ranks split the energy of the whole mesh, and the approximation of C86 holds over any index set; the smoother of C89 removes delta theta times the squared residual; then the rate of C87 | `C_ParEnd.v` |
| C91 | The hierarchy inherits the quality of inexact local vectors | as C67 and C90; the eigensolver enters only through what its vectors represent | `P_Local.v`: projecting on almost invariant vectors, the residuals are paid from the part of the gap above lambda'; `P_Approx.v`: the local estimates are summed with the weights of setup_restrictor, a dof is counted at most kappa times; the slack is absorbed by the smallest eigenvalue of A; then the rate of C90. Refutations: a Lanczos run accepted at 1e-4 after one step, and one started with the wrong eigenvector | `C_Local.v` |
| C92 | The preconditioner keeps its rate with an inexact coarse solver | as C90, with the coarse solver ML of `M_Host.v` as an argument | `P_Coarse.v`: the error propagation of the cycle is symmetric in the energy product, its form is bounded from both sides by splitting the smoothed error into its coarse part and the rest, and a symmetric map bounded as a form is bounded as a map (polarisation and Cauchy-Schwarz). Refutation: the cycle is computed for one coarse function | `C_Coarse.v` |
| C93 | Every process reads the operator's diagonal, and the setup's self-check accepts it | `M_Diag.v`: get_diagonal on all ranks (row and column distribution, ghost import), check_restriction_matrix with what each rank can read | `P_Diag.v`: induction over ranks and owned dofs; what the ranks find in the check is what one rank that reads everything finds (C60), and the diagonals of the agglomerates of all ranks sum up because every cell is in one agglomerate of one rank. Refutation: a matrix with different row and column distributions | `C_Diag.v` |
| C94 | Handles of the CUDA libraries are destroyed exactly once | `M_Handle.v`: CudaHandle objects, the resources of the three libraries, constructor, destructor, calls, the assignment the compiler provides | `P_Handle.v`: invariant over programs: the existing resources are a permutation of those held by the objects, the numbers created are a permutation of the existing and the destroyed ones | `C_Handle.v` |
| C95 | The initial guess is the same on host and device | `M_Handle.v`: the loop over the read-write vector and the import; `M_Eig.v` for the host | `P_Handle.v`: induction over the loop | `C_Handle.v` |
| C96 | What the local eigensolvers are asked for, with the documented defaults | `M_HostEnd.v`, `M_Eig.v`: build_restrictor from the mesh to the restriction matrix with all eigensolvers | `P_Reuse.v`: runs with workers that agree where they are called are the same runs; what is asked for is read off the tree in `S_Reuse.v` | `C_Reuse.v` |
| C97 | Agglomerates see each other's eigenvectors only on request | `M_HostEnd.v`, `M_WorkStream.v`: the loop over the agglomerates with its scratch data | `P_Reuse.v`: invariant on the scratch objects; with one scratch and one copy object a complete run is the sequential one | `C_Reuse.v` |
| C98 | The rate of a matrix-free hierarchy | `M_Cheby.v`: the Chebyshev smoother and the matrix-free helpers; `M_Hier.v`: constructor and vmult | `P_Poly.v`, `P_Cheby.v`: the smoother is a polynomial in the symmetrised operator, and a Chebyshev polynomial of any degree is at most its first-degree value at the low end, by induction with the polynomials of the second kind; `P_Cheby3.v`: two-grid cycle; `P_Rate.v`: rate of a two-grid cycle | `C_MfRate.v` |
| C99 | From the mesh to a matrix-free preconditioner | `M_MfEnd.v`: build_restrictor for matrix-free evaluators, with `M_Eig.v`, `M_Restr.v`, `M_FastAP.v`, `M_Agglo.v`, `M_WorkStream.v` | `P_MfEnd.v`: rows of constrained dofs vanish, so a run with any diagonal there gives the restriction of a run with the assembled one, and `P_Approx.v`, `P_FastAP.v` apply; Lanczos through `P_Lanczos8.v` and `P_Local.v`; rate through C98 | `C_MfEnd.v` |
| C100 | The rate of the hierarchy on the device | `M_CudaHier.v`, `M_AmgeDev.v`, `M_DevSolve.v`, `M_CudaOp.v`: the hierarchy on the device, as for C77 to C79 | `P_DevRate.v`: the smoothing property of Jacobi's method from A <= beta D and the Cauchy-Schwarz inequality; a complete orthonormal system turns the discarded eigenvalues into a gap. `P_DevRate2.v`: the local results of the device are patches of `P_Approx.v`, so the coarse space approximates; construction and the calls of vmult through C77 with an invariant of the device; `P_Rate.v` gives the rate | `C_DevRate.v` |
| C101 | Conjugate gradients preconditioned with the hierarchy | `M_Cg.v`: the conjugate gradient branch of tests/hierarchy_driver.cc with the loop of SolverCG, the checks of SolverControl, NoConvergence and the Asserts on divisors; the preconditioner is vmult of the hierarchy with the old contents of its destination | `P_Cg.v`: one invariant carries conjugacy, the Krylov space and the vectors T_k(X) e0; `P_Cg2.v`: Pell's equation for operators bounds T_k(X) e0, and for numbers gives the growth of T_k; `P_Cg3.v`: the loop refines the invariant, n + 1 conjugate directions would be dependent; the bounds for the mesh from C57 and C87 | `C_Cg.v` |
| C102 | Conjugate gradients with matrix-free hierarchies and on several ranks | driver_solve of `M_Cg.v` with the hierarchies of `M_Cheby.v` and `M_ParEnd.v` | C101 for a fixed operator M, which C84 and C90 provide, with the spectral bounds of C98 and C90 | `C_CgEnd.v` |
| C103 | The measured convergence rate | `M_RateRun.v`: the branch of tests/hierarchy_driver.cc and the loop of tests/test_hierarchy.cc for a hierarchy used as a solver, with the division of doubles | `P_RateRun.v`: the two-grid cycle is symmetric in the energy inner product, Cauchy-Schwarz makes the energies log-convex, the loop by induction on the cycles; the bounds from C87 and the quotients of the eigenvalues; refutation and 0/0 by computation and by injectivity of the full-rank prolongation; `P_RateRun2.v`, `C_RateRunEnd.v`: matrix-free hierarchies and several ranks through their two-grid form | `C_RateRun.v`, `C_RateRunEnd.v` |
| C104 | Entries dropped by the matrix-free product | `M_Hier.v` (matrix_transpose_matrix_multiply with its threshold), `M_Cheby.v` (the matrix-free helpers), `M_Host.v` (elimination) | `P_Trunc.v`: elimination on matrices with a positive form by induction on the size; the dropped part is bounded in the energy norm by Cauchy-Schwarz; the inexact correction is compared with the exact one of C98 and the triangle inequality gives the rate; refutations by computation and by bounding the entries | `C_Trunc.v` |
| C105 | Matrix-free preconditioners on several ranks | `M_ParMfEnd.v`: build_restrictor of the matrix-free helpers on several ranks, each with its part of the mesh, its evaluator, partitioner and locally relevant diagonal; `M_Cheby.v`, `M_Hier.v` | `P_ParMfEnd.v`: the weights of all agglomerates of all ranks sum to one at every free dof, so the splitting of C91 applies to the union of the ranks' agglomerates; the local bounds come from C99's Lanczos bound; the rates from C98 and C104; refutation by computation of a run and a direction the coarse space misses | `C_ParMfEnd.v` |
| C106 | What the texts of options mean | `M_Ptree.v`: how boost reads the texts of options (number, else word), get with default and get without; `M_Hier.v`, `M_CudaHier.v`: where the hierarchy reads them | `P_Ptree.v`: parse_bool and parse_int are exactly the grammars of `S_Ptree.v` (induction over the text); the hierarchies by the construction lemmas of C24 and by inversion of dev_construct; replacing fast_multiply_transpose by induction over the levels built; refutation by computation | `C_Opt.v` |
| C107 | Fast product with approximate pairs | `M_MfEnd.v`: build_restrictor of the matrix-free helpers with fast_ap, Lanczos on every agglomerate; `M_Lanczos.v`, `M_Cheby.v`, `M_Hier.v` | `P_MfFast.v`: the columns of the fast product are off by the residuals of the pairs (C81's identity, with the diagonals corrected at constrained dofs); Lanczos' residual bound from C99; `P_Trunc.v`: a coarse matrix R T with T off by c from A R^T is coercive and gives the perturbed two-grid rate (Cauchy-Schwarz in the energy product) | `C_MfFast.v` |
| C108 | Fast product on several ranks | `M_ParMfFast.v`: build_restrictor with fast_ap on a list of ranks, each with its cells, ghosts, connectivity and rows; `M_ParMfEnd.v` for the restriction | `P_ParMfFast.v`: on a rank that sees the neighbours of its cells, A acts on vectors supported on its cells as the matrix of the cells it sees, so C107's error bound holds rank by rank and the owner of each row gives the column; the restriction is that of C105, hence the coarse space; `P_Trunc.v` for the rate | `C_ParMfFast.v` |
| C109 | Exact fast product on several ranks | `M_ParFast.v`: build_restrictor of the matrix-based helpers with fast_ap on a list of ranks, each with its cells, ghosts, connectivity and rows; `M_ParEnd.v` for the restriction | `P_ParFast.v`: LAPACK gives exact pairs, so C15 applies on every rank with the matrix of all ranks, which acts on vectors supported on the cells of the rank as that of the cells it sees; the owner of each row gives the column; C89 and C90 for the hierarchy | `C_ParFast.v` |
| C110 | The distribution over ranks does not change the preconditioner | no new code: `M_ParEnd.v` for the runs on a list of ranks, `M_Par.v` for the hierarchy; `S_Redist.v` states equal spans and equal agglomerates | `P_Redist.v`: the rows of the two restrictions are permutations of each other, so they span the same space and keep full rank; the two-grid equations depend on the span only, and have one solution | `C_Redist.v` |

No listed property is considered inexpressible. Some properties are violated by the code outside a stated condition. There, the theorem
under the condition stands next to a theorem ending in `_refuted`, and the statement in `properties.jsonl` mentions both.

## 3. Trusted base

* Coq's kernel (8.16.1), including its `vm_compute` machine, which the examples use, and the standard library definitions the statements use.
* The reading of the C++ source by hand: nothing ties the model to the code mechanically. The comments in `M_*.v` say where the model simplifies.
* The specifications in `S_*.v` and the statements in `C_*.v`.
* The contracts of external code. They are hypotheses of theorems, never axioms:
  * `std::sort`: returns a sorted permutation (`C02`, `C30`, `C34`, `C47`).
  * the square root of exact arithmetic: partial, right where defined (`C31` and later).
  * `LAPACKE_dstev`, `dsyev`-type solvers: orthonormal eigenvectors of the given matrix, ascending values (`C30`-`C36`, `C65`).
  * ARPACK, Anasazi: arbitrary answers of the right shape unless a theorem says otherwise (`C53`, `C66`).
  * random numbers: an arbitrary sequence.
  * deal.II's mesh: arbitrary neighbour, vertex and ownership functions; the correspondence of patch and global cells is one-to-one (`C10`).
  * `WorkStream::run`: any interleaving allowed by its documentation (`M_WorkStream.v`).
  * deal.II and Trilinos matrices: entries as functions or lists of rows; the insertion and compression of Epetra as a contract (`C40`).
  * cuSPARSE `csrmv`, `csrgemm`: row-wise sums; any order of entries (`C41`-`C46`, `C69`, `C70`).
  * AMGX: solves the system handed to it, with the halo described by the maps (`C48`).
  * deal.II's `PreconditionChebyshev`: its documented recurrence; its eigenvalue estimate is arbitrary (`C83`, `C84`).
  * Trilinos' preconditioners: their documented action on one rank (`M_Smoother.v`) and on several (`M_Par.v`).
  * The boost property tree and XML reader: as in `M_Ptree.v`.

## 4. What is modelled and what is not

| file in /repo | modelled in |
|---|---|
| include/mfmg/common/utils.hpp | `M_Perm.v` (34-79), `M_Restr.v` (81-155) |
| include/mfmg/common/amge.templates.hpp | `M_Agglo.v` (51-225, 412-594), `M_Bids.v` (645-698), `M_Restr.v` (271-410), `M_Ptree.v`/`C_Ptree.v` (output 227-269); the sparsity pattern 596-643 is `sparsity_pattern` of `M_Restr.v`, adding outside of it throws |
| include/mfmg/common/hierarchy.hpp, level.hpp, operator.hpp, smoother.hpp, solver.hpp, hierarchy_helpers.hpp | `M_Hier.v`, `M_Host.v` |
| include/mfmg/common/lanczos*.hpp | `M_Lanczos.v` |
| include/mfmg/common/exceptions.hpp | the outcomes of `Base.v`; CUDA checks as `Abort` or ignored |
| include/mfmg/dealii/amge_host.templates.hpp | `M_Eig.v`, `M_Restr.v`, `M_WorkStream.v`, `M_Host.v` |
| include/mfmg/dealii/anasazi.templates.hpp | `M_Eig.v` |
| include/mfmg/dealii/anasazi_traits.hpp, multivector.hpp | `M_MultiVec.v`; not: `MvPrint` |
| include/mfmg/dealii/dealii_utils.hpp, source/dealii/dealii_utils.cc | `M_SpProd.v`, `M_Hier.v` |
| source/common/utils.cc | `M_Ptree.v` |
| source/dealii/dealii_hierarchy_helpers.cc, dealii_matrix_free_hierarchy_helpers.cc | `M_FastAP.v`, `M_Host.v`, `M_Restr.v`, `M_HostEnd.v`, `M_ParEnd.v`, `M_MfEnd.v`, `M_ParMfEnd.v`, `M_Cheby.v` |
| source/dealii/dealii_smoother.cc, dealii_solver.cc, dealii_matrix_free_smoother.cc | `M_Host.v`, `M_Smoother.v`, `M_Hier.v`, `M_Cheby.v`, `M_Par.v` |
| source/dealii/dealii_matrix_operator.cc, dealii_trilinos_matrix_operator.cc, dealii_matrix_free_operator.cc | `M_Hier.v` as linear maps; not: their sparsity patterns |
| source/dealii/dealii_mesh_evaluator.cc | `M_Eig.v` (initial vectors), `M_Diag.v` (get_diagonal) |
| source/cuda/utils.cu, include/mfmg/cuda/utils.cuh | `M_Csr.v`, `M_Amgx.v`, `M_Dev.v` |
| include/mfmg/cuda/sparse_matrix_device*.cuh | `M_Csr.v`, `M_Dev.v`, `M_CudaOp.v` |
| source/cuda/cuda_matrix_operator.cu | `M_CudaOp.v` |
| source/cuda/cuda_smoother.cu | `M_Csr.v`, `M_Host.v` |
| tests/hierarchy_driver.cc | `M_Cg.v` (102-116, 199-213: the solve with conjugate gradients; the loop of the external SolverCG is written out); `M_RateRun.v` (75-102, 172-199: the twenty cycles and the reported rate, also tests/test_hierarchy.cc) |
| source/cuda/cuda_solver.cu, dealii_operator_device_helpers.cu | `M_Amgx.v`, `M_AmgxLife.v`, `M_Host.v`, `M_DevSolve.v` |
| include/mfmg/cuda/amge_device.templates.cuh | `M_AmgeDev.v` |
| source/cuda/cuda_hierarchy_helpers.cu (matrix-based; the AMGX branch of build_coarse_solver is in `M_Amgx.v`) | `M_CudaHier.v` |
| source/cuda/cuda_matrix_free_operator.cu (apply, transpose, multiply, multiply_transpose) | `M_CudaMf.v` |
| cuda_matrix_free_mesh_evaluator.cu (set_initial_guess), cuda_handle.cu | `M_Handle.v` |
| cuda_mesh_evaluator.cu | not modelled: accessors, and functions that throw unless overridden |
| include/mfmg/dealii/belos_traits.hpp, include/mfmg/common/instantiation.hpp | not modelled: every function throws; preprocessor lists |

Not modelled at all: floating-point rounding, NaN and overflow of `unsigned int` (unless a property is about it); the inside of deal.II, Trilinos, LAPACK, ARPACK,
cuSPARSE, cuSOLVER, AMGX and MPI; GPU thread scheduling inside a kernel, except that kernels are proved independent of the order of their threads where
they are modelled; printed text; the order in which destructors of independent objects run.

## 5. Assumptions of the theorems

`Print Assumptions` answers "Closed under the global context" for every theorem named in `MANIFEST.json`; the command stands behind each of them in `C_*.v`.
The whole development (`coqchk`-style closure) also loads axioms of the standard library, because one example (`C33_real_example` through `E_Real.v`)
uses the real numbers: the axioms of `Coq.Reals` (`ClassicalDedekindReals.sig_forall_dec`, `sig_not_dec`, the sealed `Rdefinitions` modules),
`FunctionalExtensionality.functional_extensionality_dep` and `Classical_Prop.classic`. The module `Coq.ssr.ssrunder.Under_rel`, loaded with ssreflect by the standard
library, lists sealed constants of that module. No theorem depends on any of these, and the development adds no axiom of its own.

| property | theorems |
|---|---|
| C01 | `C01_apply_permutation_gathers` |
| C02 | `C02_sort_permutation_sorts`, `C02_sizes` |
| C03 | `C03_apply_permutation_terminates_iff` |
| C04 | `C04_block_covers_owned_cells` |
| C05 | `C05_block_tiles_box` |
| C06 | `C06_block_ids_nonempty`, `C06_block_ids_nonempty_refuted` |
| C07 | `C07_partitioner_renumbering` |
| C08 | `C08_boundary_agglomerates_exact` |
| C09 | `C09_patch_by_id_exact`, `C09_patch_by_index_exact`, `C09_boundary_patches_stay_in_mesh` |
| C10 | `C10_dof_index_map_correct`, `C10_unknown_patch_cell_throws` |
| C11 | `C11_restriction_rows`, `C11_entry` |
| C12 | `C12_partition_of_unity` |
| C13 | `C13_row_ranges`, `C13_ranks_write_own_rows` |
| C14 | `C14_split`, `C14_split_replacing`, `C14_replacing_duplicates_refuted` |
| C15 | `C15_fast_ap`, `C15_run_exists`, `C15_isolated_agglomerate_refuted`, `C15_uneven_counts_refuted` |
| C16 | `C16_worker`, `C16_any_schedule`, `C16_own_rows`, `C16_one_object`, `C16_stale_copy_refuted` |
| C17 | `C17_extract_row`, `C17_stored_entries`, `C17_product_within_threshold`, `C17_refines_global_form`, `C17_galerkin_error`, `C17_galerkin_symmetry_refuted` |
| C18 | `C18_vmult_ignores_x` |
| C19 | `C19_vmult_linear` |
| C20 | `C20_solution_is_fixed_point` |
| C21 | `C21_vmult_symmetric`, `C21_gauss_seidel_refuted` |
| C22 | `C22_coarse_operators_galerkin` |
| C23 | `C23_two_grid_error` |
| C24 | `C24_levels_populated`, `C24_levels_hold_helpers_objects`, `C24_construction_succeeds` |
| C25 | `C25_construction_sections`, `C25_construction_independent_of_timer`, `C25_cycle_sections`, `C25_deep_cycle_with_checked_timer_refuted` |
| C26 | `C26_params_untouched` |
| C27 | `C27_fitting_sizes_suffice`, `C27_host_helpers_three_levels_refuted` |
| C28 | `C28_smoother_step`, `C28_smoother_step_linear`, `C28_symmetric_gauss_seidel_good`, `C28_gauss_seidel_relaxes`, `C28_jacobi_symmetric`, `C28_jacobi_reduces_refuted` |
| C29 | `C29_schedule`, `C29_every_iteration`, `C29_gap` |
| C30 | `C30_filter`, `C30_pairs` |
| C31 | `C31_recurrence` |
| C32 | `C32_ritz_pairs`, `C32_unconverged_refuted` |
| C33 | `C33_add_orthonormal`, `C33_add_succeeds`, `C33_dependent_fails`, `C33_calls`, `C33_deflate`, `C33_operator`, `C33_kernel_refuted` |
| C34 | `C34_result`, `C34_smallest_refuted` |
| C35 | `C35_evaluator_guess`, `C35_evaluator_support`, `C35_perturbation`, `C35_lobpcg_fresh`, `C35_lobpcg_reuse`, `C35_lobpcg_short_refuted`, `C35_start_vectors_vanish` |
| C36 | `C36_residuals`, `C36_result`, `C36_marker`, `C36_lapack`, `C36_marker_refuted` |
| C37 | `C37_ptree2plist_correct`, `C37_ptree2plist_total`, `C37_ptree2plist_escaping_refuted`, `C37_int_iff`, `C37_bool_words`, `C37_bool_iff` |
| C38 | `C38_host_smoother`, `C38_matrix_free_smoother`, `C38_cuda_smoother`, `C38_host_solver`, `C38_cuda_solver_at_apply`, `C38_cuda_solver_constructor_refuted`, `C38_evaluator`, `C38_eigensolver_known`, `C38_eigensolver_unknown_refuted`, `C38_eigensolver_matrix_free`, `C38_partitioner` |
| C39 | `C39_sorted_and_complete`, `C39_rectangular_in_bounds`, `C39_overrun_refuted` |
| C40 | `C40_trilinos_round_trip`, `C40_device_round_trip`, `C40_epetra_agrees`, `C40_empty_rank_refuted` |
| C41 | `C41_applications`, `C41_first_transpose`, `C41_cached_transpose`, `C41_history`, `C41_second_transpose_refuted` |
| C42 | `C42_never_dead`, `C42_values`, `C42_released`, `C42_move_assign_refuted`, `C42_self_move_refuted`, `C42_copy_empty_refuted`, `C42_multiply_in_place_refuted` |
| C43 | `C43_leak_per_product` |
| C44 | `C44_local_count` |
| C45 | `C45_extracted_values`, `C45_serial_jacobi_step`, `C45_offset_refuted` |
| C46 | `C46_distributed_product` |
| C47 | `C47_symmetric_renumbering` |
| C48 | `C48_device_vectors`, `C48_host_vectors`, `C48_one_rank_keeps_rhs`, `C48_rhs_changed_refuted` |
| C49 | `C49_handles`, `C49_copy_refuted`, `C49_early_finalize_refuted` |
| C50 | `C50_times_mat_add`, `C50_add`, `C50_add_into_second`, `C50_scale`, `C50_inner`, `C50_set_block`, `C50_init`, `C50_apply`, `C50_times_aliased_refuted`, `C50_add_into_second_refuted`, `C50_scale_repeated_refuted`, `C50_set_block_overtaken_refuted` |
| C51 | `C51_maps_line_up`, `C51_out_of_bounds_refuted`, `C51_misaligned_refuted` |
| C52 | `C52_pvtu_record_correct_iff`, `C52_pvtu_record_content` |
| C53 | `C53_extract_in_bounds` |
| C54 | `C54_schedule_independent`, `C54_guess_refuted` |
| C55 | `C55_second_block_agglomeration_is_empty` |
| C56 | `C56_ml_single_level_loses_defaults` |
| C57 | `C57_spd_preconditioner`, `C57_default_host_configuration` |
| C58 | `C58_vmult_is_textbook_vcycle` |
| C59 | `C59_cycle_never_increases_energy` |
| C60 | `C60_self_check`, `C60_no_eigenvectors_refuted`, `C60_run` |
| C61 | `C61_full_row_rank`, `C61_shared_patches_refuted` |
| C62 | `C62_orthonormal` |
| C63 | `C63_too_few_pairs`, `C63_too_few_pairs_refuted` |
| C64 | `C64_small_invariant_subspace`, `C64_more_pairs_than_unknowns` |
| C65 | `C65_reads_in_bounds`, `C65_large_entries_refuted` |
| C66 | `C66_one_value_per_vector`, `C66_aligned`, `C66_short_solution_refuted` |
| C67 | `C67_lanczos` |
| C68 | `C68_one_rank_operator_kept`, `C68_several_ranks_refuted` |
| C69 | `C69_multiply`, `C69_multiply_value`, `C69_multiply_transpose`, `C69_multiply_transpose_not_ready`, `C69_multiply_transpose_refuted` |
| C70 | `C70_galerkin`, `C70_galerkin_value` |
| C71 | `C71_views`, `C71_copies`, `C71_families` |
| C72 | `C72_random`, `C72_random_repeats` |
| C73 | `C73_direct_solve`, `C73_host_vectors`, `C73_singular_refused`, `C73_unknown_name`, `C73_several_ranks_refuted` |
| C74 | `C74_agglomerates`, `C74_restrictor`, `C74_failure_noticed`, `C74_too_many_eigenvectors_refuted`, `C74_release_failure_refuted` |
| C75 | `C75_memory_left`, `C75_leak_refuted` |
| C76 | `C76_cycle` |
| C77 | `C77_two_levels`, `C77_one_level`, `C77_three_levels_refuted`, `C77_unknown_smoother`, `C77_fast_ap`, `C77_several_ranks_refuted` |
| C78 | `C78_spd` |
| C79 | `C79_spectral_two_grid` |
| C80 | `C80_product`, `C80_galerkin`, `C80_empty_rank_refuted`, `C80_apply`, `C80_transposed_refuted` |
| C81 | `C81_error`, `C81_lanczos`, `C81_inexact_refuted` |
| C82 | `C82_fast_ap_same`, `C82_runs_exist`, `C82_from_mesh_to_preconditioner` |
| C83 | `C83_chebyshev_reduces_error`, `C83_max_eigenvalue_ignored`, `C83_negative_degree_refuted`, `C83_max_eigenvalue_refuted` |
| C84 | `C84_matrix_free_preconditioner`, `C84_exactly_two_levels`, `C84_scale_refuted` |
| C85 | `C85_boundary_ids`, `C85_same_conditions`, `C85_id_zero`, `C85_id_zero_refuted`, `C85_extra_cells`, `C85_extra_cells_refuted` |
| C86 | `C86_gap_of_lapack`, `C86_coarse_space_approximates` |
| C87 | `C87_rate`, `C87_repeated_calls`, `C87_condition` |
| C88 | `C88_host_operators`, `C88_device_operators`, `C88_hierarchy_refuted`, `C88_operator_complexity_refuted`, `C88_matrix_free_refuted` |
| C89 | `C89_one_process`, `C89_symmetric_positive`, `C89_jacobi_same`, `C89_smoother`, `C89_dominant`, `C89_hierarchy`, `C89_two_processes`, `C89_three_processes_refuted` |
| C90 | `C90_coarse_space_approximates`, `C90_runs_exist`, `C90_preconditioner`, `C90_rate` |
| C91 | `C91_inexact`, `C91_lanczos`, `C91_more_vectors`, `C91_coarse_space`, `C91_runs_exist`, `C91_rate`, `C91_repeated_calls`, `C91_condition`, `C91_kernel_refuted`, `C91_missed_refuted` |
| C92 | `C92_reducing`, `C92_direct`, `C92_rate`, `C92_repeated_calls`, `C92_condition`, `C92_direct_condition`, `C92_overshoot_refuted` |
| C93 | `C93_diagonal`, `C93_ready`, `C93_self_check`, `C93_check_meaning`, `C93_maps_refuted` |
| C94 | `C94_safe`, `C94_released`, `C94_assign_refuted`, `C94_failure_refuted` |
| C95 | `C95_same_guess`, `C95_values` |
| C96 | `C96_arpack_requests`, `C96_rows`, `C96_lanczos_tolerance` |
| C97 | `C97_separate`, `C97_runs_agree`, `C97_chained` |
| C98 | `C98_smoother_gain`, `C98_rate`, `C98_repeated_calls`, `C98_condition` |
| C99 | `C99_lanczos_pairs`, `C99_lanczos`, `C99_coarse_space`, `C99_runs_exist`, `C99_fast_product`, `C99_lanczos_represents`, `C99_rate`, `C99_condition`, `C99_wrong_diagonal_refuted` |
| C100 | `C100_jacobi`, `C100_gap`, `C100_coarse_space`, `C100_rate`, `C100_repeated_calls`, `C100_condition`, `C100_diagonal_refuted` |
| C101 | `C101_terminates`, `C101_rate`, `C101_steps`, `C101_rate_root`, `C101_driver`, `C101_solver_mode_refuted` |
| C102 | `C102_any_hierarchy`, `C102_matrix_free`, `C102_ranks` |
| C103 | `C103_measures`, `C103_factors`, `C103_host`, `C103_exact_coarse_space`, `C103_from_mesh`, `C103_rate_refuted`, `C103_matrix_free`, `C103_ranks` |
| C104 | `C104_rate`, `C104_repeated_calls`, `C104_condition`, `C104_small_operators`, `C104_symmetry_refuted` |
| C105 | `C105_coarse_space`, `C105_runs_exist`, `C105_lanczos_represents`, `C105_rate`, `C105_condition`, `C105_rate_dropped`, `C105_own_share_refuted` |
| C106 | `C106_bool_texts`, `C106_options`, `C106_required`, `C106_hierarchy`, `C106_fast_ap`, `C106_device`, `C106_words_refuted` |
| C107 | `C107_product`, `C107_lanczos`, `C107_rate`, `C107_condition` |
| C108 | `C108_product`, `C108_restriction`, `C108_lanczos`, `C108_rate`, `C108_condition`, `C108_ghosts_refuted` |
| C109 | `C109_product`, `C109_restriction`, `C109_one_restriction`, `C109_fast_ap_same`, `C109_preconditioner`, `C109_rate` |
| C110 | `C110_span`, `C110_restriction`, `C110_same_preconditioner`, `C110_distribution`, `C110_rank_order`, `C110_owned_rows_refuted` |
