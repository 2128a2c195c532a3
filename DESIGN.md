# Formal model of htool in Rocq (Coq 8.16.1): design

Source: /repo (read as text, never built or run). Model: /verif/rocq/theories, logical name `Verif`.

## Method

* Every function of the code that a property needs becomes a small total Gallina function; each definition
  carries a comment with the file and the lines it models and the simplifications made.
* Out-of-bounds accesses, null dereferences, double frees and similar undefined behaviour are explicit
  outcomes (`None` or an error constructor); exhausted fuel is an explicit outcome as well.
* Coefficients are the elements of an arbitrary commutative ring with an involution (`Coef`, file Algebra.v), or of an
  arbitrary field, so one theorem covers real and complex scalars **in exact arithmetic**. Floating-point
  rounding is modelled only in RoundModel.v, RoundDistModel.v and RoundTransModel.v (C86, C88, C90). The concrete instances used for examples and refutations are Z, the
  Gaussian integers and the canonical rationals Qc.
* Where order or norms matter (ball of a cluster, SVD truncation) the Coq reals are used.
* Things the code takes from outside (user geometry, admissibility condition, generators, LAPACK kernels, thread
  schedules, the order std::sort gives to equal keys) are universally quantified parameters of the theorems.
* Model files contain no proofs; files `P_*.v` ("properties") contain the theorems, each
  followed by `Print Assumptions`, and next to it an `Example` which shows a concrete case meeting the hypotheses.
* Where the unmodified code violates the natural statement, the theorem carries the exact guard and a theorem
  `..._refuted` exhibits, by computation in the faithful model, the failure outside the guard.

## Plan per property

| id | model | proof |
|----|-------|-------|
| C01-C04 | `create_cluster_tree` as recursion in the order of the explicit stack, sort as arbitrary rearrangement of a slice, splitting as arbitrary function (C01, C02: with checked ranges), partition arithmetic exactly | invariants by induction on the recursion |
| C05, C06 | RegularSplitting on nat with C++ integer division | arithmetic; measure; divergence for one child by induction on fuel |
| C07, C08 | vectors as lists, out-of-range access = None | permutation inverse lemmas |
| C09 | save: level lists from preorder; read: counters and stack | induction over trees, generalised over reader state |
| C10, C11 | lists of characters / bytes | induction |
| C12 | Coq reals | max over finite set |
| C13 | explicit stack machines | induction on size of the stack |
| C14-C17 | block tree recursion over two cluster trees, admissibility oracle | induction over fuel/trees, counting of covering leaves |
| C18-C22 | leaves as dense or low-rank blocks over a ring; products as loops over leaves | finite sums |
| C23, C24 | low-rank matrices | finite sums |
| C25 | block recursion | induction over structure, truncation oracle exact |
| C26 | pivot vectors | permutation inverse |
| C27-C29 | block matrices as nested lists | induction over blocks |
| C30 | reals | loop invariant |
| C31-C33 | ACA loops with pivot oracle | loop invariant |
| C34 | heap + set of matrices state machine | invariant over histories |
| C35-C38 | P processes as lists of local states, collectives as functions on them | list concatenation lemmas |
| C39 | lists | induction |
| C40 | 2x2 block elimination with exact kernels | ring algebra |
| C41, C42 | selection loop, gather | induction |
| C43 | fold over leaves | induction |
| C44 | the sort by projection and the split of RegularSplitting/GeometricSplitting (ClusterModel) | sortedness of the slices |
| C45 | depths recorded by the builder (ClusterModel, P_ClusterDepth) | induction over the recursion |
| C46 | the other distributed products (DistModel) | as C35-C37 |
| C47 | the heap of C34 (P_Memory): copies and moves | invariant over histories |
| C48 | error estimator of partialACA (CompModel) with real and complex numbers | loop invariant: aux, frob are the exact square norms |
| C49, C50 | LAPACK getrf/getrs/potrf/potrs from their documentation as elimination loops (DenseModel) | elimination invariants over a field |
| C51 | RjasanowSteinbach admissibility on Coq reals (GeomModel) | triangle inequality |
| C52, C53 | bounding box and 2D covariance directions (GeomModel) | real algebra |
| C54 | scale.hpp, add_lrmat_hmatrix.hpp (ArithModel) | induction over the blocks |
| C55, C56 | local_dense_solvers.hpp, local_hmatrix_solvers.hpp (LocalModel) | from C26-C29, C49, C50 and the renumbering lemmas |
| C57, C58 | wrapper_hpddm.hpp, ddm.hpp (DdmModel): processes as lists of local buffers, messages received in any order, HPDDM's exchange from its documentation, the Krylov method an arbitrary function | list lemmas and C35 |
| C59 | compute_blocks as OpenMP threads whose statements interleave arbitrarily over a heap of cells (BuildModel) | invariant over executions, measure for completion |
| C60 | the ACA loops of C31-C33 | Wedderburn rank reduction along the loop |
| C61 | copy_diagonal and copy_diagonal_in_user_numbering on the matrices of C18-C19 | every diagonal entry lies in exactly one leaf of L, which starts on the diagonal; induction over the leaves |
| C62 | hcopy, hassign (fields of the copied nodes), td_copy/td_set (heap of shared parameters) | the loops over the leaves ignore the fields that differ; induction over the tree for the heap |
| C63 | recompression: both branches on buffers, Householder reflectors of geqrf/gelqf and their application concrete; geqrf, gelqf, gesvd parameters with their documentation | orthonormal decomposition U V = sum of s_k p_k v_k, of which the first terms are kept; Frobenius norm by orthonormality; truncation lemmas of C30 |
| C64 | solve_EVP_3 with its literals (Evp3Model) | trigonometric solution of the cubic; a traceless symmetric matrix has determinant at most 2 p^3 (Cauchy-Schwarz, positive definite matrices); rank-one adjugate; double eigenvalue by explicit rank-one form; bounds on PI by Machin's series |
| C65 | get_sub_hmatrix (breadth-first search, ArithModel) on the trees of BlockModel/HMatModel | completeness of the search by the weight of the queue; induction on the construction: as long as a block contains the pair of parts one of its children does; the block found is what the builder makes of the two parts alone, so C18/C19 apply to it |
| C66 | OvrModel.v: the local matrices of DDMSolverWithDenseLocalSolver (assembly with overlap, block Jacobi, local hierarchical matrix) on the models of C22, C39, C65 | the columns copied are disjoint regions of the buffer; a leaf for symmetry never touches the diagonal, so with UPLO L every lower entry lies in a stored leaf; the inverse of the local permutation; refuted for UPLO U |
| C67 | the built hierarchical matrices of C18, C19 with the generators of C30, C31 (no new model) | the leaves and the mirror images of the leaves for symmetry cover the root once, so the squared Frobenius norm is the sum of those of the blocks; Cauchy-Schwarz for the products |
| C68 | GeneoModel: the constructors from dense and hierarchical matrices, build_coarse_space with gv, ggev and std::sort as parameters that meet their documentation | D A D entry by entry; sorted permutations and the selection of C41; a B-orthonormal family of n vectors is a basis (through LU), hence D A D has an eigenvalue zero when there is an overlap |
| C69 | the operators of C35, built as in C67 (no new model) | the rows of the parts tile the matrix: Minkowski's inequality over the parts, invariance of the norm under the numbering, and the products of C35-C38, C46, between global vectors and between their parts; in the symmetric case the transposed product is bounded through the row products |
| C70 | the kernels of C24, C25, C54 with truncations that meet the contracts of C63 (no new model) | each kernel is the exact one followed by at most one truncation (proved by running the kernel with the identity); Minkowski's inequality for the kernels with a truncated SVD; for a hierarchical matrix, the leaves are truncated independently and tile the block of the root |
| C71 | save_leaves_with_rank, save_levels: the text of the files, the depth stored in the nodes | the text is a list of lines of integers, read back by an independent reader; the leaves in preorder are a rearrangement of those of get_leaves_from, whose tiling is C14/C15/C18; levels by induction on the tree |
| C72 | get_distributed_hmatrix_information: local arrays, MPI_Reduce position by position, integer entries and timings | reductions of per-process extrema/sums are those of the concatenated lists; assoc lookup by position since the keys of a map are distinct |
| C73 | Frobenius_absolute_error (the buffer and its updates), normFrob, norm2, max, min, argmax, compression_ratio, space_saving over the reals | induction over the pairs of the loops: each entry is finished before it is read; the modulus is a parameter, the Euclidean norm is proved for R and C |
| C74 | save_clustered_geometry: the columns of coordinates, the table of numbers with its counters, the text | the traversal of the tree fills the intervals of the clusters of a depth with consecutive numbers (induction on the tree); the clusters of a depth are disjoint, and cover when all leaves are at least that deep |
| C75 | rows, columns, operators, argmax, print and csv_save of Matrix as loops over the buffer | loop lemmas: each position is written once; index arithmetic of column-major storage; the text is split again by the model of split (C13) |
| C76 | Logger and StandartOutputWriter: current writer, thresholds, output | induction over the history of calls |
| C77 | the product kernels of ArithModel.v and the row-major product of HMatModel.v (no new model) | the row-major product theorem (C19) read as a product of transposes; on the right, the symmetry of the entries replaces op(B)^T; the diagonal leaves of a built matrix are dense and expanded by their symmetry |
| C78 | hh_lr, hh_h, add_lrmat_hmatrix with truncations that meet the contracts of C63 (no new model) | induction on the fuel: the run is the exact one plus the list of its truncations (events on sub-blocks), each applied to a matrix bounded entry by entry by |C| + |alpha| |op(A)| |op(B)| and the errors made before; the entrywise bounds are then summed in the Frobenius norm (Minkowski, Cauchy-Schwarz), giving a geometric growth; the number of truncations by counting pairs of nodes |
| C79 | cluster_tree, hbuild, hh_h, lu, cholesky and their solves together (no new model) | induction on the block tree: a node that is divided has exactly the pairs of children, so a built matrix satisfies the hypotheses `hrep`, `hsym`, `factorable` of C25, C27, C28; the trees of C01-C05 satisfy `cluster_tree parts` |
| C80 | hbuild and hh_h together (no new model) | the matrix represented by a built operand is within C67's bound of the generator; the difference of two bilinear products is expanded and each term bounded by Cauchy-Schwarz; C78 bounds the truncations |
| C81 | hbuild with the information record of C43 (no new model) | the leaves tile the matrix (C14, C15): sum over the tiling of a constant, and of the indicator of one triangle; each leaf stores at most its area |
| C82 | cluster_tree of C01-C06 (no new model) | C05 gives the sizes of the children of one cluster; induction on the tree with invariants stable under one more division (floor of floor; m^j size + m <= n + (m-1) m^j + 1) |
| C83 | MachModel.v: the loops of the compressors with 32-bit checked or wrapped products; the counter of a child | loop invariant q (M+N) <= M N between tests; counters bounded by parts times a power of the number of children, which C82 bounds by the number of points |
| C84 | ProcModel.v: one program per process (a tree of local computations and collective calls), MPI collectives matched by order of call, interleavings of arbitrary environments | invariant on the position of every process in the common sequence of calls; the process the furthest behind can always advance; the programs are shown equal to the collective functions of DistModel.v, SolverModel.v and DdmModel.v (gathering of the solution; the exchange between neighbours is in HPDDM) |
| C85 | MachDistModel.v, MachDdmModel.v: the products of several vectors of DistModel.v, the product with overlap and the solve of DdmModel.v with 32-bit sizes, counts, displacements and indices | every operation bounded by the sizes; equality with DistModel.v and DdmModel.v, hence C36, C46, C57 and C58; the square term is shown necessary on every input |
| C86 | RoundModel.v: the products of HMatModel.v with a BLAS given as a record of rounded operations; RoundSpec.v: an accuracy contract for it | an invariant "the coefficient is within (1+u)^n - 1 of the exact sum, relative to the sum of absolute values, after n roundings" that addition of a leaf, of a thread, and reordering preserve; the contract is shown to be met by loops rounded one by one; the roundings of a row are counted by summing over (column, leaf) pairs in the two orders (P_RoundCost.v) |
| C87 | hbuild and RoundModel.v together (no new model) | C20 gives the exact product, C67 its distance to the product of the generator, C86 the distance of the computed vector to it; triangle inequality in the Euclidean norm |
| C88 | RoundDistModel.v: the distributed operator of DistModel.v with the local products of RoundModel.v | whatever every process computes for its rows is what every process gets (RoundDistProofs.v, for any predicate on rows); C86 on every process; the renumberings permute the columns of the sum |
| C89 | the inputs of C69 and the operator of C88 (no new model) | C69 bounds the distance of the matrix held to the user's, C88 that of the computed vector to its product; triangle inequality |
| C90 | RoundTransModel.v: the distributed product by the transpose (distributed_operator.hpp 212-252, 529-541) with the rounded local products of C88 and an MPI_SUM given by an arbitrary function of receiver, position and contributions | every local product is near the exact one (C86); a sum near the exact one up to one rounding per process multiplies the factors; induction on the tree of additions for the contract of the sum; with C69 and the triangle inequality, the whole error (P_RoundTransTotal.v) |

## Trusted base

1. The kernel of Coq 8.16.1 (with its virtual machine: some examples and refutations use `vm_compute`), its standard library, and the
   definitions of the model (`*Model.v`) and of the specification vocabulary (`*Spec.v`) as readings of the C++ text and of the English
   properties. No plugin, no axiom, no `Admitted`, no disabled check, no functor or module type of ours.
2. `Print Assumptions` for each theorem of MANIFEST.json (each `P_*.v` file prints it):
   * the theorems that speak of real or complex numbers, namely C12_ball_contains_points, C28_solve_real, C28_solve_complex,
     C30_svd_truncation, C30_svd_generator_real, C31_full_aca_real, C31_full_aca_complex, C48_estimator_real, C48_estimator_complex,
     C51_admissible_blocks_are_separated, C51_condition_symmetric_and_monotone, C53_largest_extent_2d, C60_full_aca_real,
     C60_full_aca_complex, C63_recompression_real, C63_recompression_complex, C63_truncated_svd_real, C63_truncated_svd_complex,
     C63_tolerance_zero, C63_sum_real, the five C64 theorems, the ten C67 theorems, the nine C69 theorems, the C70 theorems but C70_exact_refuted, C79_cholesky_solve_real and C79_cholesky_solve_complex, C80_total_error, C80_real and C80_complex, the three C87 theorems, C89_total_error, C89_local_vectors, C90_total_error and C90_symmetric_total_error, the C78 theorems but C78_number_of_truncations and C78_exact_refuted (C78_low_rank_errors and C78_hierarchical_errors without `sig_not_dec`), the C73 theorems, C75_argmax: `ClassicalDedekindReals.sig_not_dec`, `ClassicalDedekindReals.sig_forall_dec`,
     `FunctionalExtensionality.functional_extensionality_dep` (the axioms of the Reals library of Coq); the C64 theorems also `Classical_Prop.classic`, which the standard library uses for acos and for Machin's formula;
   * C52_bounding_box_longest_axis, C52_negative_coordinates_refuted the ten C86 theorems, the three C88 theorems, C90_every_process, C90_any_order, C90_number_of_roundings and C89_number_of_roundings: the last two of these;
   * all the others: "Closed under the global context".
3. Modelled from documentation, not from code (they are not in the repository): BLAS (`gemv`, `gemm`, `symv`, `hemv`, `symm`, `hemm`, `trsm`,
   `axpy`, `scal`, `dot`), LAPACK (`laswp`, `getrf`, `getrs`, `potrf`, `potrs`, `geqrf`, `gelqf`, `ormqr`/`unmqr`, `ormlq`/`unmlq`, `gesvd`, generalised eigenproblems: an arbitrary list of
   eigenpairs), MPI collectives and point-to-point messages, HPDDM's exchange and Krylov methods, OpenMP loops, the standard library
   (`std::sort`: an arbitrary rearrangement that sorts, `std::max_element`, streams as lists of characters or bytes).
   An illegal BLAS argument (an `lda` too small, a negative size) is an error outcome.

### General simplifications

* Coefficients are exact (except in RoundModel.v, RoundDistModel.v and RoundTransModel.v, C86, C88 and C90, where the products of a real hierarchical matrix and a vector, and the sum of MPI_Allreduce, are rounded): no rounding, no overflow, no NaN except where a comparison with NaN decides (`overR`, `smallR`). Sizes, offsets and
  ranks are mathematical integers: no 32-bit overflow, in particular in `nr*nc`, except in MachModel.v (C83), MachDistModel.v and MachDdmModel.v (C85) and in the information record (C43).
* A buffer is a list that goes from the pointer to the end of the allocation; reading or writing beyond it is an error outcome (`None`).
* `get_leaves_from` (hmatrix.hpp 250-253) and `reset_root_of_block_tree` keep a reference to the top of a stack and pop it before its
  last use: formally undefined behaviour, modelled as the intended access.
* Exceptions and `exit` are `None`; log messages are not modelled, except the information records of C43.
* Processes of MPI programs are lists of local states; collectives act on the whole list. Deadlock is not modelled except through
  the absence of a matching message (C57) and in ProcModel.v (C84).

### Coverage by file (include/htool)

| file | modelled | not modelled |
|---|---|---|
| clustering/cluster_node.hpp, cluster_tree_data.hpp, tree_builder/recursive_build.hpp, splitting.hpp | all of the construction, partition, permutation, ball | custom copy and move |
| clustering/tree_builder/direction_computation.hpp, misc/evp.hpp | all | |
| clustering/cluster_output.hpp | save and read of cluster trees, file of the clustered points | printed cluster information |
| basic_types/tree.hpp, vector.hpp, misc/user.hpp | traversals, binary files, join, split, norms, extrema | debugging output |
| matrix/matrix.hpp | ownership, copy, move, assign, files, entries, rows, columns, operators, products, text output | |
| matrix/linalg/*.hpp | all | |
| matrix/utils/SVD_truncation.hpp, hmatrix/lrmat/*.hpp | SVD, fullACA, partialACA, sympartialACA, constructor, products, sums, recompression | C24, C25, C27-C29, C40, C54, C55 take the truncations exact (C63: they are when epsilon is 0) |
| hmatrix/hmatrix.hpp, hmatrix_tree_data.hpp | tree, leaves, symmetry, data, dense export, diagonal, search of sub-blocks | move operations, debugging output |
| hmatrix/tree_builder/tree_builder.hpp | all, including threads and a custom generator of dense blocks | |
| hmatrix/linalg/*.hpp | all; the products with a vector also rounded (C86) | is_pivoted (see C26) |
| hmatrix/hmatrix_output.hpp, hmatrix_distributed_output.hpp | information records, files of blocks | layout of the printed tables |
| distributed_operator/*, local_operators/* | all products, partitions, builders' layouts, interleavings of the processes (C84), 32-bit integers of the products of several vectors (C85); rounding of the product of a vector between global or local vectors (C88) and of the transposed product of a global vector (C90) | 32-bit integers of the local operators; rounding of the other products |
| solvers/utility.hpp, local_solvers/*, geneo/*, ddm.hpp, wrappers/wrapper_hpddm.hpp | numbering with overlap, local matrices, local solvers, coarse space and operator, GMV, exchange, solve | Krylov iterations and convergence, eigenvalue solvers, timings |
| solvers/proto_ddm.hpp, wrappers/wrapper_proto_ddm.hpp, wrapper_mpi.hpp | | prototype solver, not included by htool.hpp |
| misc/logger.hpp | all | |
| testing/*.hpp, misc/petsc.hpp | | test support |

### How the theorems were tested

/verif/seeded/LOG.jsonl: each line is one wrong program (an edit of the model) with the theorems whose proof no longer goes through.
