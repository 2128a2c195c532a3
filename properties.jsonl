{"id": "C01", "title": "The cluster renumbering is a bijection", "statement": "For every set of points and every choice of clustering parameters for which ClusterTreeBuilder::create_cluster_tree returns, the numbering exposed by Cluster::get_permutation() is a permutation of 0..n-1: every user index occurs exactly once.", "quantifier": "all numbers of points, geometries, direction strategies, splitting strategies, numbers of children, partition sizes, minimal cluster sizes, and all orders std::sort may give to points with equal keys", "why_tests_cant": "tests only look at a few geometries; a lost or duplicated index in a rare split shape silently drops or doubles an unknown of the user's operator", "anchors": ["include/htool/clustering/tree_builder/recursive_build.hpp: ClusterTreeBuilder::create_cluster_tree", "include/htool/clustering/cluster_node.hpp: Cluster::get_permutation"]}
{"id": "C02", "title": "The children of a cluster tile it", "statement": "In every cluster tree returned by create_cluster_tree, the root is the interval [0,n); the children of a non-leaf cluster are consecutive intervals, in order, that start at its offset and end at its offset+size; consequently the leaves tile [0,n), each index lying in exactly one leaf. No later step of the construction changes the set of user indices held by a cluster already created.", "quantifier": "all inputs of the builder, all clusters of the tree", "why_tests_cant": "needs an induction over trees of any depth and over the mutations of the shared permutation made after a cluster was created", "anchors": ["include/htool/clustering/tree_builder/recursive_build.hpp: create_cluster_tree", "include/htool/clustering/tree_builder/splitting.hpp: RegularSplitting, GeometricSplitting"]}
{"id": "C03", "title": "The partition has the requested number of parts and they tile the root", "statement": "When create_cluster_tree returns, get_clusters_on_partition() contains exactly size_of_partition clusters, the i-th one has rank i, their intervals tile [0,n) in rank order, and all descendants of the cluster of rank i have rank i.", "quantifier": "all sizes of partition and numbers of children, all trees in which no cluster above the partition level was turned into a leaf", "why_tests_cant": "the arithmetic that spreads a partition that is not a power of the number of children is exercised by tests for only a few pairs", "anchors": ["include/htool/clustering/tree_builder/recursive_build.hpp: create_cluster_tree", "include/htool/clustering/cluster_node.hpp: get_clusters_on_partition"]}
{"id": "C04", "title": "A user-given partition is respected", "statement": "With a partition given by the user, the cluster of rank p is exactly the p-th interval given, the user indices held by it are exactly that interval (the renumbering never moves a point to another part), and is_permutation_local() is true.", "quantifier": "all user partitions made of pairwise disjoint intervals of [0,n), in any order, all other parameters", "why_tests_cant": "the local renumbering must hold after any number of sorts inside any sub-cluster", "anchors": ["include/htool/clustering/tree_builder/recursive_build.hpp: create_cluster_tree", "include/htool/clustering/cluster_node.hpp: is_permutation_local"]}
{"id": "C05", "title": "Splitting respects the minimal cluster size and leaves are small", "statement": "With RegularSplitting every cluster created below the partition level has more than minclustersize points, sizes of siblings differ by less than the number of children, and a cluster below the partition level is a leaf only when size/number_of_children <= minclustersize.", "quantifier": "all sizes, numbers of children and minimal cluster sizes", "why_tests_cant": "the boundary cases of the integer division are unbounded in number", "anchors": ["include/htool/clustering/tree_builder/splitting.hpp: RegularSplitting::splitting"]}
{"id": "C06", "title": "The construction of the cluster tree terminates", "statement": "With number_of_children >= 2 and any size of partition >= 1, create_cluster_tree stops for every input, with both splitting strategies, after at most n+2 nested levels; with number_of_children = 1 and a user-given partition that has a part with more points than the minimal cluster size, RegularSplitting never stops.", "quantifier": "all inputs", "why_tests_cant": "a test cannot observe non-termination, nor termination on all inputs", "anchors": ["include/htool/clustering/tree_builder/recursive_build.hpp: create_cluster_tree", "include/htool/clustering/tree_builder/splitting.hpp"]}
{"id": "C07", "title": "Renumbering to and from the cluster numbering round-trips", "statement": "user_to_cluster followed by cluster_to_user, and the converse, give back the original vector and touch no memory outside the cluster's range, for the root cluster; cluster_to_user puts entry i of the cluster vector at user position get_permutation()[i].", "quantifier": "all permutations, all vectors", "why_tests_cant": "must hold for every permutation", "anchors": ["include/htool/clustering/cluster_node.hpp: cluster_to_user, user_to_cluster, global_to_root_cluster, root_cluster_to_global"]}
{"id": "C08", "title": "Local renumbering round-trips when and only when the permutation is local", "statement": "For a cluster whose slice of the permutation is a permutation of its own index interval, local_to_local_cluster and local_cluster_to_local are inverse of one another and stay inside the local vector; for any other cluster both access memory outside the local vector.", "quantifier": "all permutations and partitions, all subdomain numbers", "why_tests_cant": "the out-of-bounds access depends on data, it cannot be excluded by examples", "anchors": ["include/htool/clustering/cluster_node.hpp: local_cluster_to_local, local_to_local_cluster"]}
{"id": "C09", "title": "Saving and reading back a cluster tree gives the same tree", "statement": "read_cluster_tree applied to the files written by save_cluster_tree returns a cluster tree with the same shape and, at each node, the same offset, size, rank, counter, depth and partition membership, and the same permutation, depths and locality flag, for every cluster tree of at least one point made by create_cluster_tree without ERROR (coordinates are those obtained by printing and parsing).", "quantifier": "all cluster trees", "why_tests_cant": "the reader rebuilds the shape from level-wise lists with counters per level; only an induction covers all shapes", "anchors": ["include/htool/clustering/cluster_output.hpp: save_cluster_tree, read_cluster_tree"]}
{"id": "C10", "title": "join and split are inverse on tokens without delimiter", "statement": "For a one-character delimiter d, split(join(d, tokens), d) returns the tokens for every list of delimiter-free tokens whose first token is non-empty; the same holds for longer delimiters when the first occurrence of d in (token d) is the one that follows the token, and can fail otherwise; leading empty tokens are lost with their delimiters; split returns for every non-empty delimiter and never returns for an empty one.", "quantifier": "all lists of strings, all one-character delimiters", "why_tests_cant": "unbounded strings", "anchors": ["include/htool/misc/user.hpp: split, join"]}
{"id": "C11", "title": "Binary files of vectors and matrices round-trip", "statement": "bytes_to_vector(vector_to_bytes(v)) = v and bytes_to_matrix(matrix_to_bytes(M)) = M for all sizes below 2^31, including empty ones.", "quantifier": "all vectors and matrices over any fixed-size element encoding", "why_tests_cant": "all lengths", "anchors": ["include/htool/basic_types/vector.hpp: vector_to_bytes, bytes_to_vector", "include/htool/matrix/matrix.hpp: matrix_to_bytes, bytes_to_matrix"]}
{"id": "C12", "title": "The ball of a cluster contains its points", "statement": "Every point of a cluster, with its own radius, lies within radius of center, where center and radius are those computed by the builder; the radius is the smallest possible around this center (non-negative point radii), and the center is the weighted mean of the points (weights of non-zero sum).", "quantifier": "all geometries in any dimension, all weights of non-zero sum, exact arithmetic", "why_tests_cant": "admissibility relies on it for every geometry", "anchors": ["include/htool/clustering/tree_builder/recursive_build.hpp: compute_center, compute_radius"]}
{"id": "C13", "title": "Tree traversals visit every node once, parents first or last", "statement": "preorder_tree_traversal and postorder_tree_traversal apply the function exactly once to each node of a tree, in preorder (children in order) respectively with all descendants before the node.", "quantifier": "all trees", "why_tests_cant": "unbounded shapes; implemented with explicit stacks", "anchors": ["include/htool/basic_types/tree.hpp: preorder_tree_traversal, postorder_tree_traversal"]}
{"id": "C14", "title": "The leaves of the block tree tile the matrix", "statement": "For a hierarchical matrix built without symmetry, each pair (row, column) of the target x source block belongs to exactly one leaf.", "quantifier": "all pairs of cluster trees, all admissibility conditions, all depth limits, all partition settings, consistent or not", "why_tests_cant": "every entry of the operator must be represented once, for every pair of trees and every admissibility pattern", "anchors": ["include/htool/hmatrix/tree_builder/tree_builder.hpp: HMatrixTreeBuilder::build_block_tree"]}
{"id": "C15", "title": "Symmetric storage keeps every entry once up to mirroring", "statement": "For a hierarchical matrix built on one cluster tree with symmetry and UPLO, each pair (i,j) is covered exactly once by the stored leaves together with the mirror images of the leaves reported for symmetry.", "quantifier": "all cluster trees, all admissibility conditions symmetric or not, UPLO = L or U", "why_tests_cant": "an omitted or doubled block depends on the interplay of offsets over all tree shapes", "anchors": ["include/htool/hmatrix/tree_builder/tree_builder.hpp: is_removed_by_symmetry, build_block_tree", "include/htool/hmatrix/hmatrix.hpp: get_leaves_from"]}
{"id": "C16", "title": "Only admissible blocks are compressed", "statement": "A block handed to the low-rank generator satisfies the admissibility condition, has target and source depths at least the minimal depths and is not above the partition; every block handed to the dense generator is a pair of leaf clusters (or is a rejected low-rank block).", "quantifier": "all cluster trees and parameters", "why_tests_cant": "all trees", "anchors": ["include/htool/hmatrix/tree_builder/tree_builder.hpp: build_block_tree, compute_blocks"]}
{"id": "C17", "title": "The row blocks of the processes cover the matrix once", "statement": "The hierarchical matrices built by the processes 0..P-1, each for its own part of the target partition, together contain each pair (row, column) in exactly one leaf of exactly one process.", "quantifier": "all numbers of processes, all cluster trees and admissibility patterns", "why_tests_cant": "every process count and tree shape", "anchors": ["include/htool/hmatrix/tree_builder/tree_builder.hpp: build, reset_root_of_block_tree"]}
{"id": "C18", "title": "The hierarchical matrix-vector product is the product by the represented matrix", "statement": "add_hmatrix_vector_product(trans, alpha, A, x, beta, y) sets y to alpha op(A) x + beta y, where A is the matrix whose entries are those of the leaf containing them, for all leaf kinds, alpha and beta, in exact arithmetic (a matrix that is a single block of rank 0 leaves y unchanged, hence is right only for beta = 1).", "quantifier": "all hierarchical matrices without symmetry, all scalars, vectors and trans in N,T,C", "why_tests_cant": "all shapes, ranks and data", "anchors": ["include/htool/hmatrix/linalg/add_hmatrix_vector_product.hpp: sequential_internal_add_hmatrix_vector_product"]}
{"id": "C19", "title": "The symmetric hierarchical product uses each stored half correctly", "statement": "For a hierarchical matrix with symmetry S (or H) the product with trans N (and T for S, C for H) computes the product by the full symmetric (Hermitian) matrix of which only one half is stored.", "quantifier": "all symmetric block structures, symmetric or Hermitian, UPLO L or U, all data", "why_tests_cant": "all shapes and data", "anchors": ["include/htool/hmatrix/linalg/add_hmatrix_vector_product.hpp", "include/htool/hmatrix/hmatrix.hpp: get_leaves_from"]}
{"id": "C20", "title": "The multithreaded product does not depend on the schedule", "statement": "openmp_internal_add_hmatrix_vector_product gives the same result as the sequential product, for every number of threads, every distribution of the leaves over threads and every order of the critical sections, in exact arithmetic.", "quantifier": "all schedules, thread counts and matrices", "why_tests_cant": "the schedules of a test run are few and not controllable", "anchors": ["include/htool/hmatrix/linalg/add_hmatrix_vector_product.hpp: openmp_internal_add_hmatrix_vector_product"]}
{"id": "C21", "title": "Multi-right-hand-side products equal column-wise products", "statement": "The row-major product of a hierarchical matrix with mu vectors gives in column j the product with column j, for each j < mu.", "quantifier": "all mu, matrices and data", "why_tests_cant": "all sizes", "anchors": ["include/htool/hmatrix/linalg/add_hmatrix_matrix_product_row_major.hpp"]}
{"id": "C22", "title": "Expansion to dense agrees with the product", "statement": "copy_to_dense(A) writes in position (i,j) the entry by which the product multiplies x_j in y_i, in cluster numbering, and copy_to_dense_in_user_numbering the same matrix in the user's numbering, when every low-rank leaf has rank at least 1.", "quantifier": "all hierarchical matrices without symmetry (with symmetry: for the user-numbering function)", "why_tests_cant": "all shapes", "anchors": ["include/htool/hmatrix/hmatrix.hpp: copy_to_dense, copy_to_dense_in_user_numbering"]}
{"id": "C23", "title": "Low-rank times vector honours alpha and beta", "statement": "add_lrmat_vector_product(trans, alpha, A, x, beta, y) sets y to alpha op(UV) x + beta y for every low-rank matrix of rank at least 1; for rank 0 it leaves y unchanged, hence is right only for beta = 1 (or y = 0).", "quantifier": "all ranks, sizes, scalars and data", "why_tests_cant": "all sizes and data", "anchors": ["include/htool/hmatrix/lrmat/linalg/add_lrmat_vector_product.hpp"]}
{"id": "C24", "title": "Low-rank addition represents the sum", "statement": "add_lrmat_lrmat (without recompression) of blocks that are equal, nested or containing one another yields a low-rank matrix whose entries are the sum of the entries of both, on the destination block.", "quantifier": "all offsets, sizes, ranks, data", "why_tests_cant": "all offsets and ranks", "anchors": ["include/htool/hmatrix/lrmat/linalg/add_lrmat_lrmat.hpp"]}
{"id": "C25", "title": "A hierarchical matrix product is the matrix product", "statement": "internal_add_hmatrix_hmatrix_product adds alpha op(A) op(B) to C, op among N, T, C, when low-rank truncation loses nothing, the low-rank blocks of A, B and C have rank at least 1, A and B have no symmetry and every node of their block trees is split along both of its clusters (block tree consistency; a cluster above the partition is split into the clusters of the partition), and beta = 1 (any beta if C is a leaf or A and B are both hierarchical). C may be hierarchical (possibly with missing blocks), dense or low-rank.", "quantifier": "all such block structures, cluster sizes, ranks, coefficients, trans, alpha", "why_tests_cant": "recursion over arbitrary structures", "anchors": ["include/htool/hmatrix/linalg/add_hmatrix_hmatrix_product.hpp"]}
{"id": "C26", "title": "Dense triangular solves honour row pivots", "statement": "With a pivot vector produced by a row-pivoted factorisation, triangular_matrix_matrix_solve applies exactly the permutation of that factorisation, so that the L solve followed by the U solve inverts the factored matrix, for side L, trans N and T.", "quantifier": "all sizes and pivot vectors that getrf can return", "why_tests_cant": "all permutations", "anchors": ["include/htool/matrix/linalg/factorization.hpp: triangular_matrix_matrix_solve, lu_solve"]}
{"id": "C27", "title": "Block LU solves the system", "statement": "lu_factorization followed by lu_solve on a hierarchical matrix returns x with A x = b, with op(A) for trans N, T and C, in the numbering of the clusters (internal_lu_solve) and of the user (lu_solve), when the leaf kernels and the truncations are exact, the leaves of the diagonal are dense and the leading principal submatrices that end with one of these leaves are not singular (rows are exchanged inside the leaves only; without this the result is wrong).", "quantifier": "all nested block structures, numbers of children, block sizes and right-hand sides", "why_tests_cant": "induction over the hierarchy", "anchors": ["include/htool/hmatrix/linalg/factorization.hpp: lu_factorization, internal_lu_solve", "include/htool/hmatrix/linalg/triangular_hmatrix_matrix_solve.hpp"]}
{"id": "C28", "title": "Block Cholesky factors the matrix for two-way cluster trees", "statement": "For a real symmetric or complex Hermitian positive definite matrix of which a triangle (UPLO L or U) is stored in a hierarchical matrix over a cluster tree with at most two children per cluster, with dense leaves on the diagonal and exact truncation, cholesky_factorization succeeds, leaves L with L L^H = A (U with U^H U = A) in that triangle, and cholesky_solve returns, in user numbering and for any number of right-hand sides, X with A X = B. Only that triangle has to be stored. (With three or more children the Schur update of the off-diagonal blocks uses the wrong factor: the factorisation can report success and the solution is wrong.)", "quantifier": "all matrices and block structures", "why_tests_cant": "depends on the number of children at any level", "anchors": ["include/htool/hmatrix/linalg/factorization.hpp: cholesky_factorization"]}
{"id": "C29", "title": "Triangular solves with hierarchical matrices are exact substitution", "statement": "The triangular solves of a hierarchical matrix with a dense, a low-rank or a hierarchical right-hand side, sides L and R, UPLO L and U, trans N, T, C, return X with op(T) X = alpha B respectively X op(T) = alpha B, T the triangle of the matrix with the given diagonal convention, when the leaves of the diagonal are dense, the diagonal is not zero (if it is used) and truncation is exact. The other triangle is not used.", "quantifier": "all block structures, numbers of children, sizes and data with exact leaf solves", "why_tests_cant": "induction over structure", "anchors": ["include/htool/hmatrix/linalg/triangular_hmatrix_matrix_solve.hpp", "include/htool/hmatrix/linalg/triangular_hmatrix_lrmat_solve.hpp", "include/htool/hmatrix/linalg/triangular_hmatrix_hmatrix_solve.hpp"]}
{"id": "C30", "title": "SVD truncation meets the tolerance with the smallest rank", "statement": "SVD_truncation returns a rank r between 1 and the number of singular values such that either nothing is dropped or the dropped singular values have relative l2 norm below epsilon, and every smaller rank would drop at least epsilon. Consequently the factors returned by the SVD generator with automatic rank approximate the block within epsilon in relative Frobenius norm.", "quantifier": "all singular value lists of positive length and norm, all epsilon; all blocks and all decompositions A = u S vt that satisfy the documentation of gesvd", "why_tests_cant": "all spectra", "anchors": ["include/htool/matrix/utils/SVD_truncation.hpp: SVD_truncation"]}
{"id": "C31", "title": "Full-pivoting ACA keeps an exact residual", "statement": "The fullACA generator ends; it either gives up (no factors) or returns factors U, V of consistent sizes for which one of these holds: the requested rank was reached; the rank is automatic and the Frobenius norm of A - U V is at most epsilon times that of A; every entry of A - U V is below 1e-15 in modulus. The residual that the code updates in place is exactly A - U V.", "quantifier": "all matrices, all epsilons, all requested ranks, all pivot sequences", "why_tests_cant": "all data-dependent pivot paths", "anchors": ["include/htool/hmatrix/lrmat/fullACA.hpp"]}
{"id": "C32", "title": "Partial-pivoting ACA interpolates the visited rows and columns", "statement": "In exact arithmetic partialACA and sympartialACA end, and give up or return factors of rank r that reproduce the block exactly on r distinct rows and r distinct columns. No tolerance on the remaining entries follows: a vanishing residual row stops the iteration with a large error elsewhere.", "quantifier": "all matrices, requested ranks, tolerances and pivot sequences", "why_tests_cant": "all data-dependent pivot paths", "anchors": ["include/htool/hmatrix/lrmat/partialACA.hpp", "include/htool/hmatrix/lrmat/sympartialACA.hpp"]}
{"id": "C33", "title": "A compressed block never costs more than the dense block", "statement": "When the requested rank is left automatic, a low-rank block kept by the SVD, fullACA and partialACA generators satisfies rank*(M+N) <= M*N; otherwise the block is stored dense. A requested rank of 0 gives a zero low-rank block (M x 0 times 0 x N, without calling the generator); any other requested rank is passed to the generator.", "quantifier": "all blocks and tolerances", "why_tests_cant": "all data paths", "anchors": ["include/htool/hmatrix/lrmat/SVD.hpp", "include/htool/hmatrix/lrmat/fullACA.hpp", "include/htool/hmatrix/lrmat/partialACA.hpp", "include/htool/hmatrix/lrmat/sympartialACA.hpp", "include/htool/hmatrix/tree_builder/tree_builder.hpp: compute_blocks"]}
{"id": "C34", "title": "The matrix container never frees or reads memory it does not own", "statement": "For every sequence of constructions, copies, moves, fills, element accesses, assign, resize, release and destructions of Matrix objects, interleaved with the caller's own allocations, in which a moved-from, released or dangling matrix is only reassigned, resized to another size or destroyed, a view is not resized to its own size, a matrix is not copied from an overlapping view of itself, and assign is not called on an owning matrix without entries, no buffer is freed twice, leaked, or accessed after being freed, through a null pointer or out of bounds. Without these exclusions each of these faults can happen.", "quantifier": "all finite histories of operations on any number of matrices", "why_tests_cant": "needs all histories", "anchors": ["include/htool/matrix/matrix.hpp: Matrix"]}
{"id": "C35", "title": "The distributed product equals the global product", "statement": "vector_product_global_to_global on P processes returns on every process the product of the global matrix by the vector in user numbering, for every P and every partition in rank order, when local operators of each process add up to its row block.", "quantifier": "all numbers of processes, partitions, local operator splittings and data", "why_tests_cant": "test runs use a few process counts", "anchors": ["include/htool/distributed_operator/distributed_operator.hpp: vector_product_global_to_global", "include/htool/distributed_operator/implementations/partition_from_cluster.hpp"]}
{"id": "C36", "title": "Distributed multi-vector products equal column-wise products", "statement": "matrix_product_global_to_global(in, out, mu) gives in column i of out the product of column i of in, when the local operators of each process add up to its row block. (A LocalOperator that renumbers its target does not: it loses the product of several vectors.)", "quantifier": "all mu, process counts, partitions, with and without permutation", "why_tests_cant": "index arithmetic of three transposes and a gather for all sizes", "anchors": ["include/htool/distributed_operator/distributed_operator.hpp: matrix_product_global_to_global"]}
{"id": "C37", "title": "Transposed distributed products sum the contributions of all processes", "statement": "vector_product_transp_global_to_global and the local-to-local variant return the product by the transpose of the global matrix (for the local variant: the local part of it); an operator declared symmetric or Hermitian represents a symmetric or Hermitian matrix. The internal local-to-local product of an operator declared Hermitian does not conjugate and returns the product by the matrix itself.", "quantifier": "all process counts, partitions, data, symmetric types N and S", "why_tests_cant": "all process counts", "anchors": ["include/htool/distributed_operator/distributed_operator.hpp: vector_product_transp_global_to_global, internal_vector_product_transp_local_to_local"]}
{"id": "C38", "title": "Local-to-local products agree with the global product", "statement": "vector_product_local_to_local applied on all processes to the local parts of x gives the local parts of A x, when the partition is local.", "quantifier": "all process counts, partitions, data", "why_tests_cant": "all process counts", "anchors": ["include/htool/distributed_operator/distributed_operator.hpp: vector_product_local_to_local, local_to_global_source"]}
{"id": "C39", "title": "The local numbering with overlap is consistent", "statement": "LocalNumberingBuilder puts first the points of the subdomain in cluster order, then the remaining overlap points in order; the local-to-global numbering is a rearrangement of the given one and the renumbered intersections refer to the same global points as the input ones.", "quantifier": "all overlapping subdomains and intersections", "why_tests_cant": "all numberings", "anchors": ["include/htool/solvers/utility.hpp: LocalNumberingBuilder"]}
{"id": "C40", "title": "The local solver with overlap inverts the 2x2 block matrix", "statement": "LocalHMatrixPlusOverlapSolver: after numfact, solve (in place or into x, mu right-hand sides stored one after the other) returns the solution of [[A,B],[C,D]] x = b when the hierarchical matrix A is non-symmetric with non-singular leading blocks, both coupling blocks are given and the 2x2 block matrix is invertible; without overlap it returns the solution of A x = b for non-symmetric and for Hermitian positive definite A. With an overlap the symmetric cases (UPLO L and U) return something else, and so does the non-symmetric solver set up by DDMSolverBuilder, which never fills C.", "quantifier": "all blocks with exact kernels", "why_tests_cant": "all data", "anchors": ["include/htool/solvers/local_solvers/local_hmatrix_plus_overlap_solvers.hpp", "include/htool/solvers/utility.hpp: DDMSolverBuilder"]}
{"id": "C41", "title": "The GenEO threshold keeps exactly the large eigenvalues", "statement": "With a positive threshold, build_coarse_space keeps exactly the eigenvectors whose eigenvalue modulus exceeds the threshold, provided at least one does not; if all exceed it the selection loop reads past the end of the index array.", "quantifier": "all spectra and thresholds", "why_tests_cant": "all spectra", "anchors": ["include/htool/solvers/geneo/coarse_space_builder.hpp: build_coarse_space"]}
{"id": "C42", "title": "The coarse operator is the Galerkin product", "statement": "build_geneo_coarse_operator assembles on process 0 the matrix whose (a,b) entry is z_b^T A z_a, for the concatenation of all processes' coarse vectors, for operators declared 'N' or 'S' with one local operator per process that covers all the columns, for every process count and every number of vectors per process, including zero; for operators declared 'H' it is z_b^T A conj(z_a) (not the Galerkin product for complex matrices), and local operators whose source cluster does not start at 0 make it write out of bounds.", "quantifier": "all process counts and coarse space sizes", "why_tests_cant": "all process counts", "anchors": ["include/htool/solvers/geneo/coarse_operator_builder.hpp: build_geneo_coarse_operator"]}
{"id": "C43", "title": "Reported block statistics are the true ones", "statement": "The maximal block sizes and ranks and the numbers of blocks reported by get_hmatrix_information are those of the leaves; so are the means and the compression ratio (in exact arithmetic, when rows times columns fits in an unsigned int); the reported minimal block sizes are the true minima when some block has at most max(rows, cols) entries, and may be wrong otherwise.", "quantifier": "all hierarchical matrices", "why_tests_cant": "all leaf collections", "anchors": ["include/htool/hmatrix/hmatrix_output.hpp: get_hmatrix_information"]}
{"id": "C44", "title": "Sibling clusters are separated along the splitting direction", "statement": "If std::sort orders the points of a cluster by their projection on the direction of that cluster, then every point of a child has a projection at most that of every point of a later sibling.", "quantifier": "all geometries, directions and parameters, both splitting strategies", "why_tests_cant": "the property has to survive the later in-place sorts of the descendants", "anchors": ["include/htool/clustering/tree_builder/recursive_build.hpp: create_cluster_tree"]}
{"id": "C45", "title": "The recorded depths are those of the leaves", "statement": "After create_cluster_tree the number of ERROR messages is the number of leaves above the partition; if there is none, get_maximal_depth() and get_minimal_depth() are the largest and the smallest depth of a leaf.", "quantifier": "all inputs of the builder (a given partition being non-empty)", "why_tests_cant": "the depths are accumulated over all leaves in the order of a stack", "anchors": ["include/htool/clustering/tree_builder/recursive_build.hpp: create_cluster_tree", "include/htool/clustering/cluster_node.hpp: get_maximal_depth, get_minimal_depth"]}
{"id": "C46", "title": "The other distributed multi-vector products agree with the global matrix", "statement": "matrix_product_local_to_local returns the local rows of A X, and matrix_product_transp_global_to_global and matrix_product_transp_local_to_local return A^T X (its local rows), column by column, when the local operators of a process either add to their output or have disjoint source clusters. Two LocalOperators of one process with the same source cluster give a wrong transposed product.", "quantifier": "all process counts, partitions, numbers of right-hand sides and data", "why_tests_cant": "index arithmetic of packing, transposition and all-to-all exchange for all sizes", "anchors": ["include/htool/distributed_operator/distributed_operator.hpp: matrix_product_local_to_local, matrix_product_transp_global_to_global, matrix_product_transp_local_to_local", "include/htool/local_operators/local_operator.hpp"]}
{"id": "C47", "title": "Matrices have value semantics", "statement": "Construction, copy, copy assignment, move, move assignment, resize, fill, element reads and writes leave in the target the entries and sizes they are documented to leave; a copy keeps its entries as long as it is itself left alone, whatever happens later to the original and to all other matrices.", "quantifier": "all finite histories of operations on any number of matrices and views", "why_tests_cant": "needs all histories and all aliasing patterns", "anchors": ["include/htool/matrix/matrix.hpp: Matrix"]}
{"id": "C48", "title": "The stopping test of partial-pivoting ACA uses the exact norm of the approximation", "statement": "With automatic rank, when partialACA succeeds, the last rank-one term is at most epsilon times the whole approximation U V in Frobenius norm, for real and complex coefficients, unless the iteration met an unused row on which the error is nowhere above 1e-15.", "quantifier": "all blocks, tolerances and pivot sequences", "why_tests_cant": "the norm is updated incrementally from dot products along a data-dependent path", "anchors": ["include/htool/hmatrix/lrmat/partialACA.hpp", "include/htool/wrappers/wrapper_blas.hpp: dot"]}
{"id": "C49", "title": "Dense LU solves the system", "statement": "lu_factorization of an invertible dense matrix followed by lu_solve with trans N, T or C returns X with op(A) X = B.", "quantifier": "all sizes, invertible matrices and right-hand sides, exact arithmetic", "why_tests_cant": "all pivot sequences and sizes", "anchors": ["include/htool/matrix/linalg/factorization.hpp: lu_factorization, lu_solve"]}
{"id": "C50", "title": "Dense Cholesky factors the matrix and solves the system", "statement": "When LAPACK reports success, cholesky_factorization of a Hermitian dense matrix with UPLO L (U) leaves a triangular factor with A = L L^H (U^H U), reading only that triangle, and cholesky_solve returns X with A X = B.", "quantifier": "all sizes, Hermitian matrices and right-hand sides, exact arithmetic", "why_tests_cant": "all sizes and data", "anchors": ["include/htool/matrix/linalg/factorization.hpp: cholesky_factorization, cholesky_solve"]}
{"id": "C51", "title": "Admissible blocks are separated", "statement": "A block accepted by RjasanowSteinbach is well separated: the smaller of the diameters of its two clusters is less than eta times the distance between any point of the target and any point of the source (points taken with their own radius); the test is symmetric in the two clusters and monotone in eta.", "quantifier": "all cluster trees, geometries, dimensions, weights, non-negative radii and eta > 0, exact arithmetic", "why_tests_cant": "low-rank approximability of every admissible block relies on it", "anchors": ["include/htool/hmatrix/interfaces/virtual_admissibility_condition.hpp: RjasanowSteinbach", "include/htool/clustering/tree_builder/recursive_build.hpp: compute_radius"]}
{"id": "C52", "title": "The bounding-box direction is the longest axis", "statement": "ComputeBoundingBox returns an axis along which the cluster is at least as long as along any other (extents up to the smallest positive number count as zero) when every axis has a point with a positive coordinate; for clusters with negative coordinates the axis can be wrong.", "quantifier": "all geometries, dimensions and clusters, exact arithmetic", "why_tests_cant": "all point sets", "anchors": ["include/htool/clustering/tree_builder/direction_computation.hpp: ComputeBoundingBox"]}
{"id": "C53", "title": "The splitting direction in the plane maximises the variance", "statement": "In dimension two ComputeLargestExtent returns a unit vector along which the weighted variance of the points of the cluster is maximal up to three machine epsilons, or the zero vector when the variance is at most epsilon in every direction.", "quantifier": "all geometries in the plane and non-negative weights, exact arithmetic", "why_tests_cant": "all point sets", "anchors": ["include/htool/clustering/tree_builder/direction_computation.hpp: ComputeLargestExtent", "include/htool/misc/evp.hpp: solve_EVP_2"]}
{"id": "C54", "title": "Scaling a hierarchical matrix and adding a low-rank matrix to it act on the represented matrix", "statement": "scale(a, A) leaves the block structure of the hierarchical matrix A unchanged and multiplies every represented entry by a. internal_add_lrmat_hmatrix(L, A) adds the entries of the low-rank matrix L (of rank at least 1, on the same rows and columns) to every represented entry, whatever the mix of dense and low-rank leaves, when recompression loses nothing.", "quantifier": "all block structures without symmetry, all coefficients, all ranks", "why_tests_cant": "recursion over arbitrary structures", "anchors": ["include/htool/hmatrix/linalg/scale.hpp", "include/htool/hmatrix/linalg/add_lrmat_hmatrix.hpp"]}
{"id": "C55", "title": "The dense local solver solves the local system", "statement": "LocalDenseSolver: after numfact on an invertible matrix, solve(b, mu) and solve(b, x, mu) replace the first mu columns of b (of x) by the solutions of A y = column of b, leave the rest of the buffer untouched and, for solve(b, x, mu), do not change b; any number of solves may follow one factorisation.", "quantifier": "all sizes, invertible matrices, numbers of right-hand sides and buffers at least as long as the data, exact arithmetic", "why_tests_cant": "all sizes and data", "anchors": ["include/htool/solvers/local_solvers/local_dense_solvers.hpp"]}
{"id": "C56", "title": "The hierarchical local solver solves the local system in the chosen numbering", "statement": "LocalHMatrixSolver: after numfact on a non-symmetric hierarchical matrix with non-singular leading blocks, or on a symmetric (Hermitian) positive definite one with at most two children per cluster, solve(b, mu) and solve(b, x, mu) write the solutions of A y = column of b, in user numbering when is_using_permutation is set (the cluster being locally renumberable) and in the numbering of the cluster otherwise, and leave the rest of the buffer untouched.", "quantifier": "all cluster trees, block structures, symmetries, numbers of right-hand sides, exact truncations and exact arithmetic", "why_tests_cant": "all structures and data", "anchors": ["include/htool/solvers/local_solvers/local_hmatrix_solvers.hpp"]}
{"id": "C57", "title": "The operator used by the domain decomposition solver is the global matrix, overlap included", "statement": "HPDDMOperator::GMV: when every process holds the coefficients of its own part of global vectors X (mu columns; the values on the overlap are ignored), the result on every process is the restriction to its part and its overlap of the columns A X, whatever the order in which the messages of the neighbours arrive, provided neighbours list their shared coefficients in the same order, every coefficient of an overlap is shared with the process it belongs to, and (for mu > 1) the operator is not complex Hermitian. The scaled exchange gives the coefficients of the owner to all the processes that have them in their overlap.", "quantifier": "all numbers of processes, overlapping decompositions, operators, numbers of right-hand sides and arrival orders, exact arithmetic", "why_tests_cant": "all decompositions and message orders", "anchors": ["include/htool/wrappers/wrapper_hpddm.hpp: HPDDMOperator", "include/htool/solvers/ddm.hpp: DDM"]}
{"id": "C58", "title": "DDM::solve returns the solution found by the iterative method", "statement": "DDM::solve(b, x, mu): the Krylov method receives on every process the restriction of the mu right-hand sides (user numbering) to the part and the overlap of the process; whatever it computes, every process then holds in x the global columns X, in user numbering, of which it computed the restrictions, and nothing else of x is changed; so if the operator applied to its result equals its right-hand side, A X = b. The operator must use the permutation.", "quantifier": "all numbers of processes, overlapping decompositions, renumberings, numbers of right-hand sides and Krylov methods", "why_tests_cant": "all decompositions and iterations", "anchors": ["include/htool/solvers/ddm.hpp: DDM::solve"]}
{"id": "C59", "title": "A built matrix does not depend on the number of threads nor on their interleaving", "statement": "HMatrixTreeBuilder::build with a builder that has not been used before: whatever the number of OpenMP threads, the distribution of the blocks over the threads and the interleaving of their statements, the computation can always be completed and, when it is, every block of the matrix holds either the compressed block or, when it is not to be compressed or the compression is refused, the entries of the generator; exactly one of the two storages is filled, the counter Number_of_false_positive is the number of refused compressions and no other existing matrix changes. A user-supplied generator of dense blocks is called once, with the sizes and offsets of exactly the dense blocks, and fills them. (A builder used for a second matrix recomputes the blocks of the first one with the second generator, and accesses freed memory if the first one no longer exists.)", "quantifier": "all block trees, numbers of threads, distributions of the iterations, interleavings, compressors, contents of memory", "why_tests_cant": "thread schedules are out of reach of tests", "anchors": ["include/htool/hmatrix/tree_builder/tree_builder.hpp: build, compute_blocks", "include/htool/hmatrix/hmatrix.hpp: compute_low_rank_data, compute_dense_data, clear_low_rank_data"]}
{"id": "C60", "title": "Adaptive cross approximation never exceeds the rank of the block", "statement": "For a block that is a sum of k outer products, the rank returned by fullACA, partialACA and sympartialACA is at most k, the error A - U V is a sum of k - r outer products where r is the rank returned (so the approximation is exact when r = k), and the full pivoting approximation is exact on r distinct rows and r distinct columns. With an automatic rank, a non-negative epsilon and k(M+N) <= MN (k >= 1), full pivoting does not give the block up; partial pivoting gives it up only if (k+1)(M+N) > MN or the first row (column) is negligible.", "quantifier": "all blocks, sizes, ranks, requested ranks and tolerances, exact arithmetic", "why_tests_cant": "all blocks", "anchors": ["include/htool/hmatrix/lrmat/fullACA.hpp", "include/htool/hmatrix/lrmat/partialACA.hpp", "include/htool/hmatrix/lrmat/sympartialACA.hpp"]}
{"id": "C61", "title": "The diagonal of a hierarchical matrix is extracted exactly", "statement": "copy_diagonal and copy_diagonal_in_user_numbering, on a square hierarchical matrix (stored fully, symmetric or Hermitian) whose blocks that meet the diagonal start on it and are not rectangular low-rank blocks - every matrix built from one cluster tree with an admissibility condition that refuses distinct overlapping clusters and compressors that never return a rank 0 - write the n diagonal entries of the represented matrix, in the numbering of the clusters or of the user, and leave the rest of the buffer unchanged. (With different row and column clusters, entries may be missed or wrong.)", "quantifier": "all block structures, symmetries, data, local permutations and buffers", "why_tests_cant": "depends on where the blocks fall; a test with square diagonal blocks cannot see missed entries", "anchors": ["include/htool/hmatrix/hmatrix.hpp: copy_diagonal, copy_diagonal_in_user_numbering"]}
{"id": "C62", "title": "A copied hierarchical matrix is the same operator", "statement": "The copy constructor of HMatrix: the copy of a matrix without symmetry, of a Hermitian one, or of a real symmetric one returns the same results as the original for every product (vector, several vectors, any number of threads), dense export and diagonal, and - without symmetry - can be LU-factorised and used for solves like the original. The copy assignment does so for every matrix. The copy has its own parameters (epsilon, eta, ...): it starts with those of the original and a setter called on one is not seen by the other; in a built tree, a setter called on any block is seen by all. (The copy of a complex symmetric matrix conjugates the blocks that are not stored; the blocks of a copy no longer share their parameters.)", "quantifier": "all hierarchical matrices, operations, vectors, thread distributions, parameters", "why_tests_cant": "a field left out of a copy is invisible on real data", "anchors": ["include/htool/hmatrix/hmatrix.hpp: HMatrix(const HMatrix &), operator=", "include/htool/basic_types/tree.hpp: TreeNode"]}
{"id": "C63", "title": "Recompression keeps the prescribed accuracy", "statement": "recompression of a low-rank matrix U V of rank at least 1, and the truncated SVD used by the products into a low-rank matrix: the result has factors of the same outer sizes, a rank of at least 1 and at most the former rank and both sizes, and a relative error in Frobenius norm of at most the epsilon of the matrix; the rank is the smallest the tolerance permits in the singular value decomposition of U V; with epsilon 0 nothing is lost, as the sums, products and factorisations of hierarchical matrices assume. The sum of two low-rank matrices is then accurate to epsilon relative to the exact sum. (A matrix of rank 0 cannot be recompressed.)", "quantifier": "all sizes, ranks (also larger than the sizes), factors and tolerances, real and complex; all QR, LQ and SVD results allowed by LAPACK's documentation", "why_tests_cant": "an error bound for all matrices; tests use well separated singular values", "anchors": ["include/htool/hmatrix/lrmat/utils/recompression.hpp: recompression", "include/htool/matrix/utils/SVD_truncation.hpp: SVD_truncation", "include/htool/hmatrix/lrmat/linalg/add_matrix_matrix_product.hpp: add_matrix_matrix_product", "include/htool/hmatrix/lrmat/linalg/add_lrmat_lrmat.hpp: add_lrmat_lrmat"]}
{"id": "C64", "title": "The splitting direction in space maximises the variance", "statement": "In dimension 3, with non-negative weights, the largest-extent strategy always returns a unit vector. If the sum of the squares of the correlations between coordinates is at least the machine epsilon, the weighted variance of the points along this vector is the largest over all directions (exactly, if some direction strictly dominates those orthogonal to it; otherwise, for a double largest eigenvalue, up to a relative error of 2e-30 due to the literal for pi/3). If the correlations are below epsilon, the vector is an axis and its variance is the largest up to twice the square root of a third of the sum. (The test is absolute: for small geometries, points on a diagonal, the variance along the axis returned is only half of the largest.)", "quantifier": "all finite sets of points, weights, centers", "why_tests_cant": "a maximum over all directions, and degenerate eigenvalues", "anchors": ["include/htool/misc/evp.hpp: solve_EVP_3", "include/htool/clustering/tree_builder/direction_computation.hpp: ComputeLargestExtent"]}
{"id": "C65", "title": "The diagonal block of a process is found and represents its part of the matrix", "statement": "get_sub_hmatrix(t,s) returns a block of the matrix whose clusters compare equal to (t,s) and returns the null pointer only if no block has these clusters. For every cluster tree with a partition, every admissibility condition and every compression, the hierarchical matrix that HMatrixTreeBuilder builds with the default block tree consistency (rows of the part of one process, or all the rows; without symmetry, symmetric or Hermitian, UPLO L or U) contains a block for (cluster of process p, cluster of process p): block_diagonal_hmatrix of DistributedOperatorFromHMatrix is not null, it is itself a well-formed hierarchical matrix on these two clusters, and it represents the entries of the generator with rows and columns in these clusters (up to the error of the compressed blocks).", "quantifier": "all cluster trees, partitions, processes, generators, admissibility conditions, symmetries", "why_tests_cant": "the tests run a few geometries and partition counts; whether the block exists depends on the interplay of the two trees, the ranks, the leaves above the partition and the symmetry pruning", "anchors": ["include/htool/hmatrix/hmatrix.hpp: get_sub_hmatrix", "include/htool/distributed_operator/utility.hpp: DistributedOperatorFromHMatrix::block_diagonal_hmatrix", "include/htool/hmatrix/tree_builder/tree_builder.hpp: build_block_tree, reset_root_of_block_tree"]}
{"id": "C66", "title": "The local matrices of the domain decomposition solvers are restrictions of the global matrix", "statement": "Let l2g be the list of the global numbers of the points of a subdomain with overlap, as LocalNumberingBuilder orders them (first the points of the cluster of the process). The local matrix of DDMSolverWithDenseLocalSolver is the restriction of the global matrix to l2g: (a) assembled from the hierarchical diagonal block of the process and the generator, without symmetry: every entry (i,j) is the entry (l2g[i],l2g[j]) of the generator, exactly outside the diagonal block and up to the error of the compressed blocks inside; symmetric or Hermitian with UPLO 'L': the lower triangle, which the symmetric local solver reads; (b) block Jacobi: the same for the diagonal block alone; (c) with a local hierarchical matrix on the points of the subdomain (any symmetry): the hierarchical matrix represents the restriction in the numbering of the local cluster tree, its dense copy is the restriction in the local numbering, also for a subdomain too small to be split; the local tree is built from the coordinates of the points l2g. (With UPLO 'U', for which the solver only logs an error, the assembled matrix has no complete triangle.)", "quantifier": "all cluster trees, partitions, processes, generators, subdomains, numberings, admissibility conditions, symmetries", "why_tests_cant": "tests compare the result of a whole solve on a few geometries, where a wrong entry is hidden by the iterative method", "anchors": ["include/htool/solvers/utility.hpp: DDMSolverWithDenseLocalSolver, DDMSolverBuilder", "include/htool/hmatrix/interfaces/virtual_generator.hpp: InternalGeneratorWithPermutation", "include/htool/hmatrix/hmatrix.hpp: copy_to_dense, copy_to_dense_in_user_numbering", "include/htool/solvers/ddm.hpp: make_DDM_solver"]}
{"id": "C67", "title": "Epsilon controls the error of the whole hierarchical matrix", "statement": "If each compressed block has relative Frobenius error at most epsilon (or an error nowhere above an absolute tolerance), then the represented matrix differs from the matrix of the generator by at most epsilon times its Frobenius norm (plus the tolerance times the square root of the number of entries), with or without symmetry and for the rows of one process; each vector product then has an error at most |alpha| times that bound times the norm of the input. The SVD and full-pivoting ACA generators meet the contract with the epsilon given to the builder and tolerances 0 and 1e-15.", "quantifier": "all cluster trees, partitions, admissibility conditions, symmetries, generators, real or complex coefficients, vectors, epsilon and tolerances", "why_tests_cant": "the bound is over every matrix and every block structure; a test checks the error of a few kernels", "anchors": ["include/htool/hmatrix/tree_builder/tree_builder.hpp: HMatrixTreeBuilder::build, compute_blocks", "include/htool/hmatrix/lrmat/SVD.hpp: SVD::copy_low_rank_approximation", "include/htool/hmatrix/lrmat/fullACA.hpp: fullACA::copy_low_rank_approximation", "include/htool/hmatrix/linalg/add_hmatrix_vector_product.hpp", "include/htool/hmatrix/linalg/add_hmatrix_matrix_product_row_major.hpp"]}
{"id": "C68", "title": "The GenEO coarse space: eigenvectors of the weighted local problem", "statement": "GeneoCoarseSpaceDenseBuilder (GeneoWithNu, GeneoWithThreshold), given a dense local matrix of the size of the subdomain or of its part inside, the hierarchical matrix of the subdomain with its overlap, or the hierarchical diagonal block when there is an overlap, builds the pencil (D A D, B), D being the partition of unity (one inside, zero on the overlap) and A the restriction of the global matrix in the local numbering. build_coarse_space returns D v_1, ..., D v_m for eigenvectors v_k of the pencil, ordered by decreasing modulus of the eigenvalue: the nu largest, or exactly those above the threshold (infinite eigenvalues included in the general case). In the symmetric or Hermitian case only the triangle UPLO is used, and with an overlap the threshold selection always stays in range. Guard: the eigenvalues are real if the coefficients are real and the symmetry is 'N'.", "quantifier": "all local matrices, sizes, overlaps, symmetries, thresholds, numbers of vectors, and all answers of LAPACK that meet its documentation", "why_tests_cant": "all matrices and all eigenvalue solvers; tests only look at the number of iterations", "anchors": ["include/htool/solvers/geneo/coarse_space_builder.hpp: GeneoCoarseSpaceDenseBuilder, GeneoWithNu, GeneoWithThreshold, build_coarse_space"]}
{"id": "C69", "title": "Epsilon controls the error of the distributed operator", "statement": "When every process builds its rows of a matrix with the default builder and a low-rank generator that honours epsilon on each block (up to an absolute tolerance), the distributed operator, in user numbering, differs from the matrix of the generator by at most epsilon times its Frobenius norm plus the tolerance times the square root of the number of entries - the number of processes does not enter; hence the products of one or several vectors, by the matrix and by its transpose, between global vectors or between the parts of the vectors held by the processes (when the renumbering keeps the parts), differ from the exact products by at most that bound times the norm of the vector, on every process, with or without symmetry.", "quantifier": "all numbers of processes, partitions, cluster trees, generators, admissibility conditions, epsilon, vectors, distributions of the leaves over threads, real or complex coefficients, symmetry N, S or H", "why_tests_cant": "a test compares one product on one geometry with one number of processes", "anchors": ["include/htool/distributed_operator/distributed_operator.hpp: vector_product_global_to_global, matrix_product_global_to_global, vector_product_transp_global_to_global", "include/htool/distributed_operator/utility.hpp: DefaultApproximationBuilder", "include/htool/hmatrix/tree_builder/tree_builder.hpp: HMatrixTreeBuilder::build"]}
{"id": "C70", "title": "Truncated sums and products stay within epsilon of the exact result", "statement": "With a recompression and a truncated SVD of relative tolerance epsilon, adding a low-rank matrix to a low-rank or hierarchical matrix gives a valid matrix of the same structure at a Frobenius distance at most epsilon times the norm of the exact sum. A product of which at least one factor is low-rank (the other being dense, low-rank or hierarchical), accumulated into a low-rank matrix, is within epsilon times the norm of beta C + alpha op(A) op(B); a product of dense or hierarchical and dense factors is within that plus epsilon (1 + epsilon) times the norm of the product. The result always has rank at least 1 and the right sizes.", "quantifier": "all sizes, cluster trees, hierarchical matrices without symmetry, operations N, T, C, scalars, tolerances, real or complex coefficients", "why_tests_cant": "the bound is over every matrix and every accumulated result; a test compares a few products with a margin", "anchors": ["include/htool/hmatrix/linalg/add_lrmat_hmatrix.hpp: internal_add_lrmat_hmatrix", "include/htool/hmatrix/lrmat/linalg/add_lrmat_lrmat.hpp: add_lrmat_lrmat", "include/htool/hmatrix/lrmat/linalg/add_matrix_matrix_product.hpp: add_matrix_matrix_product", "include/htool/hmatrix/lrmat/linalg/add_lrmat_lrmat_product.hpp: add_lrmat_lrmat_product", "include/htool/hmatrix/lrmat/utils/recompression.hpp: recompression"]}
{"id": "C71", "title": "The files of blocks describe the block structure", "statement": "save_leaves_with_rank writes, after a line with the numbers of rows and columns, one line for each leaf of the hierarchical matrix (first row, number of rows, first column, number of columns relative to the matrix, rank or -1 for a dense block); the numbers can be read back, the rectangles of the lines tile the matrix (with symmetry: no position is in two rectangles and a position in none is the mirror image of one that is in exactly one). save_levels writes one file with its own name per requested depth, that holds the nodes of that depth; a depth that is requested twice gets its nodes in the first of the two files only.", "quantifier": "every hierarchical matrix, with or without symmetry, whole or local to a process; every file name; every list of depths", "why_tests_cant": "The tiling and the faithfulness of the text concern every block tree and every size; a test looks at a few files.", "anchors": ["include/htool/hmatrix/hmatrix_output.hpp: save_leaves_with_rank", "include/htool/hmatrix/hmatrix_output.hpp: save_levels", "include/htool/hmatrix/hmatrix_output.hpp: DisplayBlock", "include/htool/hmatrix/hmatrix.hpp: get_rank"]}
{"id": "C72", "title": "Statistics of a distributed matrix are those of all the processes", "statement": "get_distributed_hmatrix_information reports on process 0 the numbers of blocks, the maxima and means of block sizes, ranks and local sizes, and the compression ratio and space saving of the blocks of all the processes together (in exact arithmetic; for the ratio, the product of the sizes of each local matrix must fit in an unsigned int); the minima are the true ones unless a process without blocks of a kind has a matrix smaller than every block of that kind; the integer entries of the information are summed over the processes and the timings reduced to maximum, mean and minimum, when the processes have the same entries.", "quantifier": "every number of processes, all local hierarchical matrices, every list of information and timings", "why_tests_cant": "All numbers of processes and all block structures.", "anchors": ["include/htool/hmatrix/hmatrix_distributed_output.hpp: get_distributed_hmatrix_information", "include/htool/hmatrix/hmatrix_distributed_output.hpp: is_positive_integer", "include/htool/hmatrix/hmatrix_output.hpp: get_leaves"]}
{"id": "C73", "title": "Norms and error measures are the mathematical ones", "statement": "Frobenius_absolute_error(low-rank block, matrix, r) returns the Frobenius norm of the difference between the block of the matrix and the sum of the first r terms of the approximation, for every r from 0 to the rank, and of all of them for r = -1; normFrob is the Frobenius norm of a matrix, norm2 the Euclidean norm of a real or complex vector; max, min and argmax of a non-empty vector are taken with respect to the modulus and argmax is the first position that has it; compression_ratio and space_saving of a low-rank block of positive sizes (and positive rank for the ratio) compare the number of stored coefficients with the number of coefficients of the block.", "quantifier": "every shape, rank, requested number of terms and coefficients", "why_tests_cant": "All shapes, ranks and coefficients; the loops write into a shared buffer, so an index error shows only for some shapes.", "anchors": ["include/htool/hmatrix/lrmat/lrmat.hpp: Frobenius_absolute_error, compression_ratio, space_saving", "include/htool/matrix/matrix.hpp: normFrob", "include/htool/basic_types/vector.hpp: norm2, dprod, max, min, argmax"]}
{"id": "C74", "title": "The file of the clustered points gives the points and their clusters", "statement": "save_clustered_geometry writes one comma-separated file: for each coordinate a line with its name and the coordinate of every point, in cluster numbering; then for each requested depth a line with the depth and a number for every point. If the requested depths are different, and every leaf of the cluster tree is at least that deep, two points have the same number exactly when one cluster of that depth contains both. For a set of points that is not empty and depths that are representable; the texts of the coordinates must contain neither commas nor line ends. Points that belong to no cluster of a depth have the number 0, which is also that of the first cluster of this depth.", "quantifier": "every cluster tree, including every tree built by create_cluster_tree, all points, every list of depths", "why_tests_cant": "All trees, sizes and lists of depths; the numbers come from a traversal with counters shared by the depths.", "anchors": ["include/htool/clustering/cluster_output.hpp: save_clustered_geometry"]}
{"id": "C75", "title": "Operators, rows, columns and text of a dense matrix", "statement": "get_row, get_col, set_row, set_col read and write exactly the coefficients of one row or column; the operators +, -, * of matrices (of equal sizes for sum and difference, of matching sizes for the product), * by a scalar and * by a vector give the mathematical results; argmax gives the position of a coefficient of largest modulus; csv_save (and print) write one line for each row, with the coefficients of the row in order, separated by the delimiter, when the matrix has at least one column and the texts of the coefficients do not contain the delimiter.", "quantifier": "every shape and all coefficients, all delimiters", "why_tests_cant": "All shapes and coefficients; an error in a stride shows only for matrices that are not square.", "anchors": ["include/htool/matrix/matrix.hpp: get_row, get_col, set_row, set_col, operator+, operator-, operator*, argmax, print, csv_save"]}
{"id": "C76", "title": "The logger writes the messages of the chosen level and no others", "statement": "A message logged with a level is written, by the standard writer that is current at that moment, with the prefix of its level, exactly when its level is at most the threshold that was last set for that writer (errors only before any call of set_current_log_level); a critical message is always written; a writer supplied by the user receives every message and decides itself; changing the writer does not change the thresholds, and the messages are written in the order of the calls.", "quantifier": "every sequence of calls of the logger", "why_tests_cant": "All histories: the singleton keeps its state between the calls.", "anchors": ["include/htool/misc/logger.hpp: Logger, set_current_writer, set_current_log_level, log"]}
{"id": "C77", "title": "Products with a matrix stored by one of its halves", "statement": "C := beta C + alpha op(A) op(B), one of A and B being a hierarchical matrix with symmetric or Hermitian storage (or without symmetry) and the other a dense or low-rank matrix, C dense or low-rank, is the product with the whole matrix, mirrored blocks included. With the hierarchical matrix on the left, for the op that the storage supports (N, T for 'S'; N, C for 'H'); on the right, for every op when the block is square and the entries have the symmetry that the root announces, except Hermitian storage with transb = 'N' and transa other than 'N' (there the conjugate of B is used). Matrices built from a symmetric or Hermitian generator without admissible diagonal blocks meet these conditions.", "quantifier": "all hierarchical matrices, cluster sizes, op, alpha, beta, dense and low-rank operands, truncations that lose nothing", "why_tests_cant": "the conjugations and the choice of op depend on the storage, both trans and the field; a test fixes one combination", "anchors": ["include/htool/hmatrix/linalg/add_hmatrix_matrix_product.hpp: internal_add_hmatrix_matrix_product", "include/htool/hmatrix/linalg/add_hmatrix_lrmat_product.hpp: internal_add_hmatrix_lrmat_product", "include/htool/hmatrix/linalg/add_matrix_hmatrix_product.hpp: internal_add_matrix_hmatrix_product", "include/htool/hmatrix/linalg/add_lrmat_hmatrix_product.hpp: internal_add_lrmat_hmatrix_product"]}
{"id": "C78", "title": "Accumulated truncation error of a product of hierarchical matrices", "statement": "With a recompression and a truncated SVD of relative tolerance eps (Frobenius norm), C := C + alpha op(A) op(B) for hierarchical matrices A, B without symmetry and C hierarchical or low-rank succeeds, and the result differs from the exact C + alpha op(A) op(B) by a sum of the errors of the truncations made on sub-blocks of C; their number n depends only on the shapes (kinds of the leaves) of A, B and C and is less than (3 + number of low-rank leaves of C) x nodes of A x nodes of B; the Frobenius norm of the difference is at most ((1+eps)^n - 1)(||C|| + |alpha| ||op(A)|| ||op(B)||), hence at most 2 n eps (...) when 2 n eps <= 1. It is not zero in general.", "quantifier": "all hierarchical matrices on a common cluster tree, op, alpha, tolerances eps >= 0, truncations (any that meet the contract, in particular those of the library with LAPACK as documented)", "why_tests_cant": "the number of truncations grows with the block trees and the errors of a truncation enter the next ones; a test observes one matrix and one tolerance", "anchors": ["include/htool/hmatrix/linalg/add_hmatrix_hmatrix_product.hpp: internal_add_hmatrix_hmatrix_product", "include/htool/hmatrix/linalg/add_lrmat_hmatrix.hpp: internal_add_lrmat_hmatrix", "include/htool/hmatrix/lrmat/linalg/add_lrmat_lrmat.hpp: add_lrmat_lrmat", "include/htool/hmatrix/lrmat/utils/recompression.hpp: recompression"]}
{"id": "C79", "title": "Built matrices are valid operands of the products and of the factorisations", "statement": "A matrix built by HMatrixTreeBuilder on cluster trees of ClusterTreeBuilder whose partition is one level deep (a given partition, or fewer parts than the square of the number of children), for the whole matrix, without symmetry, with consistent block trees and compressed blocks of rank at least 1, can be used as any operand of the hierarchical product: when the compression loses nothing, C := C + alpha op(A) op(B) gives exactly C + alpha op(A) op(B) for the matrices of the three generators; with a lossy compression the operand is a matrix whose entries are as close to the generator as those of the compressed blocks. If no diagonal block is admissible and the leading blocks that end with a leaf are not singular, LU factorisation and solve return the solution of the system of the user matrix (any op, any right-hand sides); built with one half (symmetric real or Hermitian complex, clusters with at most two children) and positive definite, so do Cholesky factorisation and solve. With a partition two levels deep the product is silently lost.", "quantifier": "all cluster trees, partitions of one level, block trees (admissibility, depths), generators, exact compressions, op, alpha, right-hand sides", "why_tests_cant": "the tests multiply and factor a few matrices on a few trees; none has a partition deeper than one level; the link between the shape the builder produces and the shape the algebra assumes is over all trees", "anchors": ["include/htool/hmatrix/tree_builder/tree_builder.hpp: HMatrixTreeBuilder::build", "include/htool/hmatrix/linalg/add_hmatrix_hmatrix_product.hpp: internal_add_hmatrix_hmatrix_product", "include/htool/hmatrix/hmatrix.hpp: get_child_or_this", "include/htool/hmatrix/linalg/factorization.hpp: lu_factorization, cholesky_factorization", "include/htool/clustering/tree_builder/recursive_build.hpp: create_cluster_tree"]}
{"id": "C80", "title": "The error of a product of built matrices is bounded by the tolerances", "statement": "Take three matrices built by HMatrixTreeBuilder for the whole matrix, without symmetry, on cluster trees whose partition is one level deep, with consistent block trees and compressed blocks of rank at least 1, whose compressed blocks have relative error e in the Frobenius norm or entries within t. With E = e ||g|| + t sqrt(mn) for each generator g, and a recompression and truncated SVD of relative error eps, the result of C := C + alpha op(A) op(B) represents a matrix whose distance to g_C + alpha op(g_A) op(g_B), in the Frobenius norm, is at most E_C + |alpha| (E_A ||g_B|| + ||g_A|| E_B + E_A E_B) + ((1+eps)^n - 1) (||g_C|| + E_C + |alpha| (||g_A|| + E_A) (||g_B|| + E_B)), n the number of truncations (C78 bounds it). In particular with the library's own recompression and SVD, real or complex.", "quantifier": "all cluster trees with a partition of one level, block trees, generators, compressions and truncations meeting their contracts, op, alpha", "why_tests_cant": "the tests compare one product with the dense one for a few sizes, with a tolerance that is a constant times epsilon; how compression and truncation errors combine has to hold for all matrices", "anchors": ["include/htool/hmatrix/tree_builder/tree_builder.hpp: HMatrixTreeBuilder::build", "include/htool/hmatrix/linalg/add_hmatrix_hmatrix_product.hpp: internal_add_hmatrix_hmatrix_product", "include/htool/hmatrix/lrmat/utils/recompression.hpp: recompression", "include/htool/hmatrix/lrmat/utils/SVD_truncation.hpp: SVD_truncation"]}
{"id": "C81", "title": "A built matrix never stores more coefficients than the dense matrix", "statement": "With factors that are kept only when they are not larger than the block (what the compressors of the library return with the automatic rank), the matrix built by HMatrixTreeBuilder without symmetry stores at most rows times columns coefficients; a whole symmetric or Hermitian matrix of size n, built from one half with consistent block trees and an admissibility condition that does not accept blocks that meet the diagonal, stores at most n(n+1)/2. When the compressed blocks have rank at least 1 and rows times columns is less than 2^32 the reported compression ratio is therefore at least 1 (2n/(n+1) with symmetry) and the reported space saving is at least 0 ((1-1/n)/2 with symmetry) and less than 1, in exact arithmetic. Without the guards this fails: a compressor of the user may return larger factors, and an admissibility condition of the user may accept a diagonal block.", "quantifier": "all cluster trees, block trees (admissibility, depths, local or whole), generators and compressors whose factors are not larger than the block", "why_tests_cant": "the tests print the compression ratio of a few matrices; no test says it is at least 1, and it depends on every block of every block tree", "anchors": ["include/htool/hmatrix/tree_builder/tree_builder.hpp: HMatrixTreeBuilder::build", "include/htool/hmatrix/hmatrix_output.hpp: get_hmatrix_information", "include/htool/hmatrix/lrmat/SVD.hpp: SVD::copy_low_rank_approximation", "include/htool/hmatrix/lrmat/fullACA.hpp: fullACA::copy_low_rank_approximation"]}
{"id": "C82", "title": "Regular splitting makes balanced trees, and no tree has too many clusters", "statement": "With RegularSplitting and m >= 2 children, take a cluster of size n in the partition or below it (or any cluster, when no partition is given and the number of parts is a power of m): the clusters j levels below it have between floor(n/m^j) and n/m^j + (m-1)(1-1/m^j) points (floor or ceiling of n/2^j when m = 2); its leaves lie on at most two consecutive levels; a leaf j levels below satisfies n < m^(j+1) (minclustersize+1) and, if j >= 1, m^j minclustersize + m^(j-1) < n, so that the depth is logarithmic. When the number of parts is a power of m and no error is logged, the maximal and minimal depths stored with the tree differ by at most one. With either splitting strategy, below the partition a cluster of more than minclustersize points has at most n/(minclustersize+1) leaves, and any cluster has less than twice as many descendants (itself included) as leaves. Not claimed for other numbers of parts (the last cluster above the partition gets more children), nor for GeometricSplitting, whose depth can be linear in n.", "quantifier": "all sizes, numbers of children and parts, minimal sizes, sorts (directions), clusters", "why_tests_cant": "the tests build a few trees of a few sizes; the rounding of the sizes accumulates along the levels and has to stay bounded for every size and depth", "anchors": ["include/htool/clustering/tree_builder/splitting.hpp: RegularSplitting, GeometricSplitting", "include/htool/clustering/tree_builder/recursive_build.hpp: create_cluster_tree", "include/htool/clustering/cluster_node.hpp: get_maximal_depth, get_minimal_depth"]}
{"id": "C83", "title": "Products of sizes computed in int do not overflow, within stated sizes", "statement": "The compressors decide whether a rank pays by the test q*(M+N) > M*N computed in int. For blocks with (M+1)(N+1) <= 2^31 no operation of this test overflows during fullACA, partialACA or sympartialACA, whatever the matrix, tolerance and requested rank, and every decision is the one of exact integers; for the SVD generator this holds when M^2, N^2 and min(M,N)(M+N) are less than 2^31. The bound is sharp in this sense: when M*N >= 2^31 every one of the four generators has undefined behaviour for every matrix and any nonzero requested rank, even the partially pivoted ones that never store the block; with two's complement wrap-around a 65536 x 65536 block is always declared not compressible. The counters given to the clusters with RegularSplitting and minclustersize at least 1 do not overflow when parts times points and parts squared are at most 2^31; with GeometricSplitting 66 points suffice to overflow them.", "quantifier": "all block sizes, matrices, tolerances, requested ranks; all cluster trees of the builder", "why_tests_cant": "the tests use blocks of a few hundred rows; an overflow needs a block of more than 46340 x 46340, where a test cannot afford to look", "anchors": ["include/htool/hmatrix/lrmat/fullACA.hpp: fullACA::copy_low_rank_approximation", "include/htool/hmatrix/lrmat/partialACA.hpp: partialACA::copy_low_rank_approximation", "include/htool/hmatrix/lrmat/sympartialACA.hpp: sympartialACA::copy_low_rank_approximation", "include/htool/hmatrix/lrmat/SVD.hpp: SVD::copy_low_rank_approximation", "include/htool/clustering/tree_builder/recursive_build.hpp: create_cluster_tree", "include/htool/matrix/matrix.hpp: Matrix::Matrix"]}
{"id": "C84", "title": "The distributed operations neither deadlock nor depend on the schedule of the processes", "statement": "When all the processes hold the same partition, flags, symmetry and mu and all of them call the same operation (one of the eight products of a distributed operator, the construction of the coarse operator, or the gathering of the solution at the end of DDM::solve), then for every interleaving of the processes and every MPI library that lets a process out of a collective call at any moment between having received what it needs and the arrival of all the processes: no call mismatches, no process meets an error, the number of steps is bounded, no process waits for ever, and every process returns the result proved for the processes advancing together (C35-C38, C42, C46). If the symmetry flags differ between processes the calls may mismatch, and if a process does not call the others may wait for ever.", "quantifier": "every number of processes, operator, input, buffers, number of coarse vectors per process, interleaving and MPI behaviour", "why_tests_cant": "tests see a few interleavings of one MPI library, most of which synchronises the processes", "anchors": ["include/htool/distributed_operator/distributed_operator.hpp: all products", "include/htool/solvers/geneo/coarse_operator_builder.hpp: build_geneo_coarse_operator"]}
{"id": "C85", "title": "The products of several vectors by a distributed operator and the DDM solver do not overflow their integers, within stated sizes", "statement": "The products of mu >= 1 vectors by a distributed operator and by its transpose compute sizes, counts, displacements and indices in int. Between the parts, with any part sizes, no operation overflows and the results are those of exact integers (C46) when (rows)*mu, (columns)*mu and, for the transposed product, (columns + processes * part size)*mu are below 2^31, with or without a work array from the caller; the work array allocated by the function is large enough. Between global vectors, 2*(rows)*mu and (columns)*mu below 2^31 are not sufficient: the code multiplies the index of a vector by the number of coefficients of a part for all the vectors, so (mu-1)*(part size)*mu must be below 2^31 too, and then the result is that of C36 and C46; as soon as it is not for one part, the product is undefined behaviour on every input, e.g. with 1000 vectors of 2200 coefficients on one process. The same holds of DDM::solve with mu right-hand sides (C58): the product with overlap given to the Krylov method needs only that the sizes of the arrays fit, while the gathering of the solution also needs (mu-1)*(part size)*mu below 2^31 and is undefined behaviour for every input and Krylov method otherwise.", "quantifier": "every number of processes, partition, operator, number of vectors, input and work arrays", "why_tests_cant": "the tests use few vectors of a few hundred coefficients; the failure needs mu^2 times the size of a part above 2^31", "anchors": ["include/htool/distributed_operator/distributed_operator.hpp: matrix_product_global_to_global, matrix_product_transp_global_to_global, matrix_product_local_to_local, matrix_product_transp_local_to_local", "include/htool/solvers/ddm.hpp: DDM::solve", "include/htool/wrappers/wrapper_hpddm.hpp: HPDDMOperator::GMV"]}
{"id": "C86", "title": "Rounding errors of the products of a hierarchical matrix and a vector", "statement": "With a BLAS whose operations make relative errors of at most a unit roundoff u (each result of gemv, symv, axpy is exact up to the roundings of a sum of products), for every distribution of the leaves over the threads and every order of the threads, the multithreaded product y := beta y + alpha op(A) x succeeds and each coefficient differs from the exact one by at most (1+u)^N - 1 times the same expression with absolute values (|beta||y| + |alpha||op(A)||x|), where N is one plus two per thread plus the roundings of the leaves that touch the row; without the term in threads for the sequential product. That number of roundings is at most n + k (r + 6) for n columns, ranks at most r and k leaves (or mirror images) on the row. Hence two runs, whatever the number of threads and the schedules, differ by at most twice that. The memory behind the output is unchanged. Without rounding the result is that of the exact product. The results of two runs need not be equal, and the error is not small relative to the result.", "quantifier": "all real hierarchical matrices, op, alpha, beta, vectors, numbers of threads, distributions of leaves, orders of the critical sections, unit roundoffs and accurate BLAS", "why_tests_cant": "the order of the sums changes at every run: a test compares one run with one tolerance; the bound is over all schedules and all BLAS", "anchors": ["include/htool/hmatrix/linalg/add_hmatrix_vector_product.hpp: openmp_internal_add_hmatrix_vector_product, sequential_internal_add_hmatrix_vector_product", "include/htool/hmatrix/lrmat/linalg/add_lrmat_vector_product.hpp: add_lrmat_vector_product", "include/htool/matrix/linalg/add_matrix_vector_product.hpp: add_matrix_vector_product"]}
{"id": "C87", "title": "Compression and rounding together: the whole error of a product with a built matrix", "statement": "A real matrix built by HMatrixTreeBuilder with a generator of tolerance eps (relative, Frobenius) or tol (absolute, by entry), multiplied by a vector with a BLAS of unit roundoff u: for every distribution of the leaves over the threads and every order, the Euclidean norm of the difference with beta y + alpha op(A_user) x, A_user being the matrix of the user's generator, is at most |alpha| (eps ||A_user||_F + tol sqrt(M N)) ||x|| plus ((1+u)^N - 1) times the norm of |beta||y| + |alpha||op(A)||x| (A the compressed matrix, absolute values of the factors), N being the largest number of roundings of a row. With the truncated SVD the first term is |alpha| eps ||A_user||_F ||x||. Same for the sequential product.", "quantifier": "all cluster trees, partitions, symmetric or not, generators, compressions that meet the tolerance, op, alpha, beta, vectors, threads, schedules, accurate BLAS", "why_tests_cant": "a test compares one product with a fixed tolerance on one run; it cannot separate what is due to the compression, to the rounding and to the schedule, nor bound it for all", "anchors": ["include/htool/hmatrix/tree_builder/tree_builder.hpp: HMatrixTreeBuilder::build", "include/htool/hmatrix/linalg/add_hmatrix_vector_product.hpp: openmp_internal_add_hmatrix_vector_product, sequential_internal_add_hmatrix_vector_product"]}
{"id": "C88", "title": "Rounding errors of the distributed product of a vector", "statement": "With real coefficients, a distributed operator built from one hierarchical matrix per process (rows of its part, all columns) and a BLAS of unit roundoff u: vector_product_global_to_global with permutations succeeds, every process gets the same vector, and each coefficient differs from that of A x (user numbering) by at most (1+u)^N - 1 times |A||x|, where N bounds one plus two per thread plus the roundings of the leaves of a row; the communications add no error; the memory behind the outputs is unchanged. Two runs with different threads and schedules differ by at most twice the bound. With a renumbering that keeps every part, vector_product_local_to_local gives every process its part of A x with the same bound.", "quantifier": "all real hierarchical matrices with valid leaves, one per process; all numbers of processes and partitions with their permutations; all distributions of the leaves over the threads of every process and all orders of their critical sections; all BLAS results within the contract; all inputs", "why_tests_cant": "A test compares the distributed result with a tolerance chosen by hand for a few numbers of processes, threads and schedules; the order of the additions is not reproducible, and the bound must hold for all of them.", "anchors": ["include/htool/distributed_operator/distributed_operator.hpp: vector_product_global_to_global, internal_vector_product_global_to_local", "include/htool/local_operators/local_hmatrix.hpp: LocalHMatrix", "include/htool/distributed_operator/utility.hpp: DistributedOperatorFromHMatrix", "include/htool/hmatrix/linalg/add_hmatrix_vector_product.hpp: openmp_internal_add_hmatrix_vector_product"]}
{"id": "C89", "title": "The whole error of the distributed product: compression and rounding together", "statement": "A distributed operator built by DefaultApproximationBuilder from a real generator with tolerance eps (relative, Frobenius) or tol (absolute), without symmetry or symmetric, multiplied by a global vector with a BLAS of unit roundoff u: every process gets the same vector, whose Euclidean distance to the product of the user's matrix G by x is at most (eps ||G||_F + tol sqrt(M N)) ||x|| plus ((1+u)^K - 1) times the norm of |A||x| (A the compressed matrix with |U||V| for the compressed leaves), where K bounds the roundings of a row on every process; such a K exists and depends only on the leaves and the number of threads, not on the schedule. The same between local vectors, for the part of every process.", "quantifier": "all generators, cluster trees, partitions, numbers of processes and threads; all schedules; all compressors within their tolerance; all BLAS results within the contract; all input vectors", "why_tests_cant": "A test measures the error for a few meshes, processes and threads against a tolerance chosen by hand.", "anchors": ["include/htool/distributed_operator/utility.hpp: DefaultApproximationBuilder", "include/htool/distributed_operator/distributed_operator.hpp: vector_product_global_to_global", "include/htool/hmatrix/tree_builder/tree_builder.hpp: HMatrixTreeBuilder::build", "include/htool/hmatrix/linalg/add_hmatrix_vector_product.hpp: openmp_internal_add_hmatrix_vector_product"]}
{"id": "C90", "title": "Rounding errors of the distributed product by the transpose", "statement": "With real coefficients and no symmetric storage, a distributed operator built from one hierarchical matrix per process (rows of its part, all columns), a BLAS of unit roundoff u and an MPI_Allreduce whose sum makes at most one rounding per process: vector_product_transp_global_to_global with permutations succeeds, and on every process each coefficient of the result differs from that of A^T x (user numbering) by at most (1+u)^(N+P) - 1 times |A|^T|x|, where P is the number of processes and N bounds one plus two per thread plus the roundings of the leaves of a column on every process; the memory behind the outputs is unchanged. Any order of the additions is such a sum, also when it differs between the processes or the coefficients (the processes may then hold different results, all within the bound). For an operator built by DefaultApproximationBuilder from a generator G with tolerance eps (relative, Frobenius) or tol (absolute), the Euclidean distance of the vector of every process to G^T x is at most (eps ||G||_F + tol sqrt(M N)) ||x|| plus that factor times the norm of |A|^T|x|, also with symmetric storage.", "quantifier": "all real hierarchical matrices with valid leaves, one per process; all numbers of processes and partitions with their renumberings; all distributions over the threads and schedules; all orders of the additions of MPI_Allreduce; all BLAS results within the contract; all vectors", "why_tests_cant": "A test runs one MPI library, one number of processes and one schedule, and compares with a tolerance chosen by hand.", "anchors": ["include/htool/distributed_operator/distributed_operator.hpp: vector_product_transp_global_to_global, internal_vector_product_transp_local_to_global", "include/htool/local_operators/local_hmatrix.hpp: LocalHMatrix", "include/htool/hmatrix/linalg/add_hmatrix_vector_product.hpp: openmp_internal_add_hmatrix_vector_product"]}
