{"id": "C01", "title": "Uniform splitting of an index range tiles it", "statement": "IndexRange(start,n).split(k) returns exactly k ranges; the first begins at start, each one begins where the previous one ends, the sizes sum to n, so every index of the parent lies in exactly one child whenever all sizes are non-negative. All sizes are non-negative exactly when (k-1)*ceil(n/k) <= n; the unconditional claim 'every child is a valid sub-range of the parent' is false (n=5, k=4 gives a child of size -1 starting at 6).", "quantifier": "every start, every n >= 0, every k >= 1", "why_tests_cant": "The sizes depend on the residue of n mod k; tests only use sizes divisible by the block count, where the bad tail never appears.", "anchors": ["src/classes/initialization_helpers/index_range.cpp:IndexRange::split", "include/FRANK/classes/initialization_helpers/index_range.h"]}
{"id": "C02", "title": "split_at and split_like cover the range they are asked to cover", "statement": "split_at(k) yields two adjacent ranges covering the parent. split_like(H, dimension) yields consecutive ranges whose lengths are the block heights (or widths) of the first block column (row) of H and, for a parent starting at 0 whose size equals that of H, tile the parent. For a parent whose start is not 0 split_like ignores the start, so the result is not inside the parent.", "quantifier": "every range, every split position, every block structure of H", "why_tests_cant": "Tests only exercise ranges starting at 0; the statement is about arbitrary block sizes and starts.", "anchors": ["src/classes/initialization_helpers/index_range.cpp:IndexRange::split_at", "src/classes/initialization_helpers/index_range.cpp:IndexRange::split_like"]}
{"id": "C03", "title": "The leaves of a cluster tree partition the matrix index set", "statement": "For a ClusterTree built over row range R and column range C in which every uniform split is regular, every pair (i,j) in R x C lies in exactly one leaf block, every leaf lies inside R x C, and every inner node is exactly covered by its children.", "quantifier": "every row/column range, leaf size, block layout (m x n) and depth", "why_tests_cant": "Depth, leaf size and layout are unbounded; a test inspects one tree.", "anchors": ["src/classes/initialization_helpers/cluster_tree.cpp:ClusterTree", "src/classes/initialization_helpers/cluster_tree.cpp:is_leaf"]}
{"id": "C04", "title": "Cluster tree nodes carry consistent coordinates", "statement": "In every tree, a child at block position (i,j) of a node has level one more than the node, block position (i,j), and absolute position (abs_i*block_m+i, abs_j*block_n+j); operator()(i,j) returns that child, and dist_to_diag is |abs_i-abs_j|. Nodes of one level have pairwise different absolute positions.", "quantifier": "every tree and every node at every depth", "why_tests_cant": "Needs an induction over depth; tests look at level 1.", "anchors": ["src/classes/initialization_helpers/cluster_tree.cpp:ClusterTree", "src/classes/initialization_helpers/cluster_tree.cpp:operator()", "src/classes/initialization_helpers/cluster_tree.cpp:dist_to_diag"]}
{"id": "C05", "title": "Cluster tree construction terminates", "statement": "Construction terminates whenever both block counts are at least 2 (or leaf size is 0): the recursion depth is bounded by the logarithm of the range. It does not terminate for layouts such as 1x1 or 1x2 when the row size exceeds a positive leaf size.", "quantifier": "every range, leaf size and block layout", "why_tests_cant": "Non-termination cannot be observed by a finite test; termination must hold for all sizes.", "anchors": ["src/classes/initialization_helpers/cluster_tree.cpp:ClusterTree", "src/classes/initialization_helpers/cluster_tree.cpp:is_leaf"]}
{"id": "C06", "title": "Position based admissibility", "statement": "With position based admissibility a block is compressed iff it has more than one row and more than one column and its distance from the diagonal is larger than the truncated admissibility parameter. Hence for parameter >= 0 no diagonal block is ever compressed, the decision is symmetric under transposing the block, and increasing the parameter never makes more blocks compressed.", "quantifier": "every block of every tree, every admissibility parameter", "why_tests_cant": "The set of compressed blocks depends on all parameters at once.", "anchors": ["src/classes/initialization_helpers/matrix_initializer.cpp:MatrixInitializer::is_admissible"]}
{"id": "C07", "title": "Geometry based admissibility", "statement": "With geometry based admissibility the decision is symmetric in the row and column cluster, invariant under reordering the points inside a cluster and under translating all points by a common vector, monotone (a larger parameter never admits more blocks), and, for nonnegative parameter, a block whose row and column clusters are the same index set is never admissible.", "quantifier": "every set of points in every dimension, every pair of clusters, every parameter", "why_tests_cant": "Quantifies over all point sets in R^d.", "anchors": ["src/classes/initialization_helpers/matrix_initializer.cpp:MatrixInitializer::is_admissible", "src/classes/initialization_helpers/matrix_initializer.cpp:get_coords_range"]}
{"id": "C08", "title": "A hierarchical matrix built from a kernel represents the kernel matrix", "statement": "Converting the Hierarchical built from a kernel back to Dense gives the kernel matrix entry by entry, up to exactly the compression error of the admissible blocks: inadmissible entries are equal, and the entry in an admissible block equals the entry of that block's low-rank approximation. Leaf blocks are never larger than the requested leaf size and the block tree has the requested number of block rows and columns.", "quantifier": "every kernel, every size, leaf size, layout, admissibility and compression routine", "why_tests_cant": "The tests compare one random kernel at a few power-of-two sizes.", "anchors": ["src/classes/hierarchical.cpp:Hierarchical::Hierarchical", "src/classes/initialization_helpers/matrix_initializer.cpp", "src/classes/dense.cpp:fill_dense_from_omm"]}
{"id": "C09", "title": "Building from a Dense block of a larger matrix", "statement": "Hierarchical(Dense&&, ..., row_start, col_start) reproduces the matrix it was given. True for row_start = col_start = 0; for other starts the constructor reads entries outside of the given matrix.", "quantifier": "every dense matrix, layout and start offset", "why_tests_cant": "The out of bounds read shows no symptom in a test that happens to have padding after the buffer.", "anchors": ["src/classes/hierarchical.cpp:Hierarchical(Dense&&", "src/classes/initialization_helpers/matrix_initializer_block.cpp:fill_dense_representation"]}
{"id": "C10", "title": "Element access of a Dense never leaves its storage", "statement": "Every Dense obtained from constructors, copies, copying and non-copying splits, shallow copies, resize and transposition, nested in any order, can be read and written at every (i,j) within its dimensions without leaving the storage it refers to.", "quantifier": "every finite history of Dense-producing operations and every in-range index", "why_tests_cant": "The stride/offset arithmetic has to be right for every nesting of views.", "anchors": ["src/classes/dense.cpp", "src/operations/misc/resize.cpp"]}
{"id": "C11", "title": "Copies are independent", "statement": "After copy-constructing a Dense (also from a view) the copy has the same entries, and no later write through either object, or through any view derived from either, changes an entry of the other.", "quantifier": "every source (including nested views), every subsequent history of writes", "why_tests_cant": "Aliasing bugs appear only for particular histories.", "anchors": ["src/classes/dense.cpp:Dense::Dense(const Dense&)", "src/classes/dense.cpp:copy_to"]}
{"id": "C12", "title": "Copy assignment of a Dense", "statement": "After A = B, A has the dimensions and entries of B. True when rows*columns elements suffice for B's stride (stride equals the number of columns, or B has at most one row, or no column) and A and B are different objects; in every other case, when B is a non-copying block of a wider matrix, the assignment keeps B's stride but allocates only rows*cols elements and writes outside of them. Self-assignment A = A sets all entries to zero.", "quantifier": "every pair of Dense objects, every self-assignment", "why_tests_cant": "Tests assign only contiguous matrices.", "anchors": ["src/classes/dense.cpp:Dense::operator=(const Dense&)"]}
{"id": "C13", "title": "Non-copying split gives exact, disjoint, write-through windows", "statement": "For split(A, ...) without copying: block (r,c) entry (i,j) is A's entry at the block offset; a write through a block changes exactly that one entry of A and of no other block; blocks of different positions never share an element; writing all blocks determines A.", "quantifier": "every parent (possibly itself a view), every tiling, every write history", "why_tests_cant": "Aliasing at all offsets and nestings.", "anchors": ["src/classes/dense.cpp:Dense::split", "src/operations/misc/misc.cpp:split"]}
{"id": "C14", "title": "Object identifiers", "statement": "In a single thread, identifiers of all Dense objects constructed with dimensions, copied, assigned or split (the default constructor leaves -1) are pairwise different, except that a shallow copy carries the identifier of its source and a moved object keeps its own. With two threads constructing at the same time this fails: the identifier counter is updated by an unsynchronised read-modify-write, so two distinct matrices can obtain the same identifier.", "quantifier": "every history of object constructions; every interleaving of two threads", "why_tests_cant": "Requires all histories and schedules.", "anchors": ["src/classes/dense.cpp:next_unique_id", "src/classes/dense.cpp:shallow_copy", "src/classes/dense.cpp:id"]}
{"id": "C15", "title": "is_submatrix", "statement": "is_submatrix() answers false iff the object starts at the first element of its storage and covers as many elements as the storage has; a Dense that owns its storage is never a submatrix and a block that covers strictly less than its parent always is.", "quantifier": "every Dense reachable by construction and splitting", "why_tests_cant": "Must hold for every nesting of views.", "anchors": ["src/classes/dense.cpp:is_submatrix"]}
{"id": "C16", "title": "Densification is faithful to the block layout", "statement": "Dense(M) has M's number of rows and columns; its entry (i,j) is the entry of the block of M that contains (i,j), recursively; for a LowRank leaf it is the entry of U*S*V and for an Empty leaf it is zero.", "quantifier": "every matrix tree of every depth, with non-uniform block sizes", "why_tests_cant": "Quantifies over all trees.", "anchors": ["src/classes/dense.cpp:fill_dense_from", "src/classes/dense.cpp:Dense(const Matrix&)"]}
{"id": "C17", "title": "Splitting preserves the represented matrix", "statement": "split(M, m, n) and split(M, like) of a Dense or LowRank matrix produce a Hierarchical that represents the same matrix and has the requested block sizes; of a Hierarchical it either returns the same block structure or aborts, never a wrong matrix.", "quantifier": "every Dense/LowRank/Hierarchical, every m, n, like", "why_tests_cant": "All dimensions including those not divisible by the block count.", "anchors": ["src/operations/misc/misc.cpp:split_omm", "src/operations/misc/misc.cpp:split"]}
{"id": "C18", "title": "Splitting a LowRank without copying and then scaling a block", "statement": "Operations on one block of split(LR) without copying affect only that block's rows and columns. False: all blocks share the same S, so scaling one block scales the whole matrix, and scaling every block once scales the matrix several times.", "quantifier": "every LowRank and layout", "why_tests_cant": "Aliasing effect across blocks appears only for certain operation sequences.", "anchors": ["src/operations/misc/misc.cpp:split_omm", "src/operations/arithmetic/multiplication.cpp:operator*="]}
{"id": "C19", "title": "Number of rows and columns agree with the represented matrix", "statement": "get_n_rows/get_n_cols of any well formed matrix tree equal the dimensions of its dense conversion and are preserved by transposition (swapped), scaling, zeroing and addition.", "quantifier": "every matrix tree", "why_tests_cant": "All trees of all depths.", "anchors": ["src/operations/misc/get_dim.cpp"]}
{"id": "C20", "title": "Transposition", "statement": "transpose(M) represents the transposed matrix for Dense, LowRank and Hierarchical at any nesting, leaves M unchanged, and transposing twice gives the original matrix.", "quantifier": "every matrix tree", "why_tests_cant": "All trees of all depths.", "anchors": ["src/operations/misc/transpose.cpp"]}
{"id": "C21", "title": "norm is the sum of squares of all entries, whatever the structure", "statement": "norm(M) equals the sum of the squares of the entries of the represented matrix (the squared Frobenius norm) for every structure, so any two representations of the same matrix have equal norm; scaling by a multiplies it by a^2.", "quantifier": "every matrix tree", "why_tests_cant": "All trees; tests only compare relative errors.", "anchors": ["src/operations/misc/norm.cpp"]}
{"id": "C22", "title": "Zeroing a matrix or a triangle", "statement": "zero_all makes the represented matrix zero for every structure. zero_lower makes exactly the entries strictly below the diagonal zero and leaves all others unchanged; zero_upper likewise for entries strictly above the diagonal; for hierarchical matrices this holds whenever the diagonal blocks are square, recursively.", "quantifier": "every matrix tree", "why_tests_cant": "All trees and all non-uniform block sizes.", "anchors": ["src/operations/misc/misc.cpp:zero_all_omm", "src/operations/misc/misc.cpp:zero_lower_omm", "src/operations/misc/misc.cpp:zero_upper_omm"]}
{"id": "C23", "title": "gemm computes beta*C + alpha*op(A)*op(B) for every combination of structures", "statement": "gemm(A,B,C,alpha,beta,TransA,TransB) leaves in C the matrix beta*C + alpha*op(A)*op(B) for every combination of Dense, LowRank and Hierarchical operands (at any nesting) whose block structures are compatible, up to the rounding of low-rank additions, which is exact if the addition is. With transposition the two combinations (LowRank,Hierarchical,Hierarchical) and (Hierarchical,LowRank,Hierarchical) with a flat result are wrong.", "quantifier": "every matrix trees A, B, C, scalars and transposition flags", "why_tests_cant": "27 type combinations times 4 flags times unbounded nesting.", "anchors": ["src/operations/BLAS/gemm.cpp"]}
{"id": "C24", "title": "gemm does not modify its inputs and writes only C", "statement": "After gemm(A,B,C,...) with C not sharing elements with A or B, every element not belonging to C is unchanged, for dense/hierarchical/view operands.", "quantifier": "every heap, every views A, B, C with disjoint elements", "why_tests_cant": "Aliasing of views with arbitrary strides.", "anchors": ["src/operations/BLAS/gemm.cpp"]}
{"id": "C25", "title": "Product-returning gemm", "statement": "gemm(A,B,alpha,TransA,TransB) returns a matrix representing alpha*op(A)*op(B) with the dimensions op(A).rows x op(B).cols.", "quantifier": "every pair of compatible matrices", "why_tests_cant": "All trees.", "anchors": ["src/operations/BLAS/gemm.cpp:gemm(const Matrix&, const Matrix&, const double", "src/operations/BLAS/gemm.cpp:gemm_omm"]}
{"id": "C26", "title": "Low-rank addition: naive addition is exact below full rank", "statement": "Adding two LowRank matrices with square middle factors by naive addition, with rank sum smaller than both dimensions, represents exactly the sum and has rank equal to the sum of the ranks; otherwise the result has the rank of the first operand. (For middle factors that are not square, as products of LowRank matrices of different ranks have, this fails: the blocks of the new middle factor do not fit.)", "quantifier": "every pair of LowRank matrices of equal dimensions whose middle factors are rank x rank", "why_tests_cant": "All shapes and ranks.", "anchors": ["src/operations/arithmetic/addition.cpp:naive_addition"]}
{"id": "C27", "title": "Low-rank addition: rounded additions only lose what the truncation drops", "statement": "rounded_addition and fast_rounded_addition represent exactly the sum before the singular value truncation; after truncation the result differs from the sum exactly by the dropped part, has the rank of the first operand in fixed-rank mode (dimensions permitting), and its factors have consistent shapes.", "quantifier": "every pair of LowRank matrices, every QR/SVD satisfying their contract", "why_tests_cant": "All shapes, ranks and all LAPACK results.", "anchors": ["src/operations/arithmetic/addition.cpp:rounded_addition", "src/operations/arithmetic/addition.cpp:fast_rounded_addition"]}
{"id": "C28", "title": "The addition algorithm is chosen by the FRANK_LRA setting and does not change the dense meaning", "statement": "LowRank += LowRank uses the algorithm named by FRANK_LRA (naive, rounded_addition, and fast_rounded_addition for every other value); whichever is chosen, with exact truncation the represented matrix is the sum.", "quantifier": "every setting string, every pair of LowRank matrices", "why_tests_cant": "All settings.", "anchors": ["src/operations/arithmetic/addition.cpp:addition_omm", "src/util/global_key_value.cpp"]}
{"id": "C29", "title": "Addition, subtraction and scaling of structured matrices", "statement": "M += N represents the sum, M *= a represents the scaled matrix and A - B the difference, for each supported combination of structures; unsupported combinations abort and never return a wrong matrix.", "quantifier": "every matrix trees", "why_tests_cant": "All trees.", "anchors": ["src/operations/arithmetic/addition.cpp", "src/operations/arithmetic/multiplication.cpp", "src/operations/arithmetic/subtraction.cpp"]}
{"id": "C30", "title": "trmm multiplies by the triangle", "statement": "trmm(A,B,side,uplo,trans,diag,alpha) leaves alpha*op(tri(A))*B (or B*op(tri(A))) in B for Dense, LowRank and Hierarchical operands, where tri takes the chosen triangle, with unit diagonal if asked. With trans='t' and two Hierarchical operands the result (asserts disabled) is not that product.", "quantifier": "every matrix trees with square diagonal blocks, all sides, triangles and diagonal modes", "why_tests_cant": "All trees; block order of the in-place update matters.", "anchors": ["src/operations/BLAS/trmm.cpp"]}
{"id": "C31", "title": "trsm solves the triangular system", "statement": "trsm(A,B,uplo,side) leaves in B the X with tri(A)*X = B (left) or X*tri(A) = B (right), where Lower takes unit diagonal and Upper the stored diagonal, for Dense and Hierarchical operands at every nesting; combinations not supported abort.", "quantifier": "every block triangular matrix with invertible diagonal, every right-hand side", "why_tests_cant": "Block forward/backward substitution order for every block count.", "anchors": ["src/operations/BLAS/trsm.cpp"]}
{"id": "C32", "title": "Block LU factorization", "statement": "getrf of a Hierarchical matrix gives L (unit lower block triangular) and U with L*U equal to the input whenever every pivot block has an LU factorization without row exchange. For a Dense input the row exchanges made by LAPACK are discarded, so L*U is in general a row permutation of the input.", "quantifier": "every block matrix with block-regular leading minors", "why_tests_cant": "All block counts and nesting; pivoting shows only for particular values.", "anchors": ["src/operations/LAPACK/getrf.cpp"]}
{"id": "C33", "title": "Solving a linear system with LU and two triangular solves", "statement": "After getrf and trsm(L, x, Lower), trsm(U, x, Upper) on a right-hand side b, x solves A x = b.", "quantifier": "every block LU-regular hierarchical A and block vector b", "why_tests_cant": "Composition of two algorithms over all block counts.", "anchors": ["src/operations/LAPACK/getrf.cpp", "src/operations/BLAS/trsm.cpp", "examples/h_lu.cpp", "examples/blr_lu.cpp"]}
{"id": "C34", "title": "Applying block reflectors (tpmqrt) is the same for all structures", "statement": "tpmqrt(V,T,A,B,trans) replaces (A;B) by (I - [I;V] op(T) [I;V]^T)(A;B) for every Dense/LowRank combination of V, A and B; hence applying it with trans and then without restores (A;B) whenever the reflector is orthogonal.", "quantifier": "every V, T, A, B and all eight structure combinations", "why_tests_cant": "All shapes and combinations.", "anchors": ["src/operations/LAPACK/tpmqrt.cpp", "src/operations/LAPACK/larfb.cpp"]}
{"id": "C35", "title": "Tiled Householder QR", "statement": "After tiled_householder_blr_qr(A,T) applying the stored reflectors in reverse order to the upper triangular factor reproduces the original matrix, and the strictly lower blocks of the factor are zero.", "quantifier": "every p x q tile grid with p >= q, every tile kernel satisfying its contract", "why_tests_cant": "Induction over all grid sizes.", "anchors": ["src/operations/LAPACK/qr.cpp:tiled_householder_blr_qr", "src/operations/LAPACK/qr.cpp:left_multiply_tiled_reflector"]}
{"id": "C36", "title": "Left multiplication by the implicit Q", "statement": "left_multiply_tiled_reflector / left_multiply_blocked_reflector (Y,T,C,trans) multiply C by Q or Q^T for any conforming C. False: only block columns j >= k of C are updated at step k, so a general C is not multiplied by Q.", "quantifier": "every grid and every C", "why_tests_cant": "Tests call it with C = identity-like blocks for which the skipped updates are no-ops.", "anchors": ["src/operations/LAPACK/qr.cpp:left_multiply_blocked_reflector", "src/operations/LAPACK/qr.cpp:left_multiply_tiled_reflector"]}
{"id": "C37", "title": "Block modified Gram-Schmidt QR reconstructs the input", "statement": "mgs_qr(A,Q,R) on a hierarchical matrix gives Q*R equal to the input, R block upper triangular, and mutually orthogonal block columns of Q when each block-column orthogonalization is exact.", "quantifier": "every block grid, every exact dense QR", "why_tests_cant": "Induction over the number of block columns.", "anchors": ["src/operations/LAPACK/mgs_qr.cpp:mgs_qr"]}
{"id": "C38", "title": "Dense modified Gram-Schmidt on views", "statement": "mgs_qr on Dense arguments factors the matrix the arguments represent. False for views: it uses the number of columns as row stride.", "quantifier": "every Dense including non-copying blocks", "why_tests_cant": "Tests use contiguous matrices.", "anchors": ["src/operations/LAPACK/mgs_qr.cpp:mgs_qr_omm"]}
{"id": "C39", "title": "Interpolative decomposition", "statement": "The column interpolative decomposition picks k existing columns C of A and an interpolation matrix W which is an identity on the picked columns, such that C*W equals A whenever the pivoted QR drops nothing; interleaving places every column of the coefficient matrix at its pivot position exactly once.", "quantifier": "every matrix, every pivot permutation, every rank", "why_tests_cant": "All permutations.", "anchors": ["src/operations/LAPACK/id.cpp:interleave_id", "src/operations/LAPACK/id.cpp:one_sided_id", "src/operations/LAPACK/id.cpp:get_cols"]}
{"id": "C40", "title": "Fixed-accuracy truncation keeps the requested accuracy", "statement": "The rank returned by find_svd_truncation_rank(S,eps) for sorted non-negative singular values is between 1 and the number of values (if any), and the dropped values satisfy sqrt(sum of squares) <= eps * sqrt(sum of all squares). It is not minimal, although documented so.", "quantifier": "every sorted list of singular values, every eps", "why_tests_cant": "All value distributions.", "anchors": ["src/operations/misc/misc.cpp:find_svd_truncation_rank"]}
{"id": "C41", "title": "Randomized SVD composes its factors correctly", "statement": "rsvd(A,r) returns factors whose product is Q*Q^T*A for the range basis Q, hence A whenever Q spans A's columns; old_rsvd should also, but combines the wrong SVD factors.", "quantifier": "every matrix, every sample, every QR/SVD satisfying their contract", "why_tests_cant": "Random sampling; all results of LAPACK.", "anchors": ["src/operations/randomized/rsvd.cpp"]}
{"id": "C42", "title": "LowRank compression of a Hierarchical matrix", "statement": "LowRank(H, rank) has the dimensions of H. False: it takes the number of blocks instead of the number of rows and columns.", "quantifier": "every Hierarchical", "why_tests_cant": "The class invariant (dimensions of U, V) is never examined in tests.", "anchors": ["src/classes/low_rank.cpp:LowRank(const Hierarchical&", "src/operations/randomized/rsvd.cpp:rsvd"]}
{"id": "C43", "title": "equallySpacedVector", "statement": "equallySpacedVector(N,min,max) yields N points in [min,max]. False: spacing is 1/(max-min), so points leave the interval; it yields consecutive points with constant spacing 1/(max-min).", "quantifier": "every N and interval", "why_tests_cant": "Only the relative geometry influences tests.", "anchors": ["src/operations/misc/misc.cpp:equallySpacedVector"]}
{"id": "C44", "title": "Morton indices are a bijection", "statement": "getMortonIndex and getCartesianIndex are inverse to each other on boxes of the given level in any dimension: encoding then decoding returns the coordinates and decoding then encoding returns the index; different boxes have different indices.", "quantifier": "every dimension, level and box", "why_tests_cant": "Unbounded bit width; tests never call it.", "anchors": ["src/operations/misc/morton_index.cpp:getMortonIndex", "src/operations/misc/morton_index.cpp:getCartesianIndex"]}
{"id": "C45", "title": "Sorting by Morton index permutes the points", "statement": "sortByMortonIndex reorders the points: the output is a permutation of the input given by the returned permutation, consistent across coordinates, and Morton indices are non-decreasing along the output.", "quantifier": "every point set", "why_tests_cant": "All inputs, ties included.", "anchors": ["src/operations/misc/morton_index.cpp:sortByMortonIndex", "src/operations/misc/morton_index.cpp:normalizeWithinBox"]}
{"id": "C46", "title": "Reading a matrix from file", "statement": "Reading a well formed text file (row- or column-major, words separated by one blank and lines ended by a line end) into a block at (row_start,col_start) gives exactly the corresponding entries of the matrix written, for every block inside the matrix; a block not inside fails an assertion; a missing file leaves the matrix unchanged. With blanks at line ends the claim is false.", "quantifier": "every matrix, layout, and block position", "why_tests_cant": "All offsets interact with the skipping of rows and columns.", "anchors": ["src/classes/initialization_helpers/matrix_initializer_file.cpp"]}
{"id": "C47", "title": "Kernel functions are offset consistent", "statement": "Filling a block at (row_start,col_start) with the zeros, identity, cauchy2d, laplacend or helmholtznd kernel gives the corresponding block of filling the full matrix, and all of these but cauchy2d give symmetric matrices with positive entries at most 1000 for the last two. False for arange, which ignores the offsets, and for the random kernels, which give every block of a size the same entries.", "quantifier": "every kernel, block position and point set", "why_tests_cant": "All offsets.", "anchors": ["src/functions.cpp"]}
{"id": "C48", "title": "Global key-value settings", "statement": "getGlobalValue(k) returns the most recently set value of k, else the environment's value, else the empty string; setting one key never changes another.", "quantifier": "every history of settings and every environment", "why_tests_cant": "All histories.", "anchors": ["src/util/global_key_value.cpp"]}
{"id": "C49", "title": "Timers form a properly nested tree", "statement": "For every properly nested sequence of start/stop calls, the timers' tree reflects the nesting, each timer counts each start/stop pair once, its total time is the sum of its intervals, and after the sequence the current timer is again the one before; disabling timers makes all calls no-ops.", "quantifier": "every properly nested history of start/stop", "why_tests_cant": "All histories.", "anchors": ["src/util/timer.cpp"]}
{"id": "C50", "title": "Memory usage accounting", "statement": "get_memory_usage(M) is additive over blocks, at least 8 bytes per stored matrix element, and independent of the entries; for LowRank the structural part counts two Dense headers too many.", "quantifier": "every matrix tree", "why_tests_cant": "All trees.", "anchors": ["src/util/get_memory_usage.cpp"]}
{"id": "C51", "title": "l2_error is a relative Frobenius error", "statement": "When it returns, l2_error(A,B)^2 equals |A-B|^2/(|A|^2+epsilon) for every combination of structures; it is zero iff the represented matrices are equal and does not depend on how the matrices are structured. It returns for all trees whose blocks match or are split evenly where the other tree has a leaf; for unevenly split trees compared with a leaf it can fail an assertion.", "quantifier": "every pair of matrix trees of equal dimensions", "why_tests_cant": "All trees.", "anchors": ["src/util/l2_error.cpp"]}
{"id": "C52", "title": "Task based tiled QR gives the sequential result under every schedule", "statement": "In the task based tiled Householder QR, every execution order of the tasks allowed by the declared dependencies yields the same tiles as the sequential program, and tasks that may run concurrently never write what the other accesses, given that the reflector kernel reads only the strict lower part of the diagonal tile and the coupling kernel writes only its upper part. At whole-tile granularity the claim is false: the update task and the first coupling task of a step touch the same diagonal tile and are not ordered.", "quantifier": "every grid size p x q, every schedule consistent with the dependencies", "why_tests_cant": "Exponentially many schedules.", "anchors": ["examples/taskbased_tiled_householder_blr_qr.cpp"]}
{"id": "C53", "title": "Fork-join parallel loops are race free", "statement": "In each parallel loop of the fork-join QR examples, the iterations write disjoint blocks and none reads a block another writes, so every execution order gives the sequential result.", "quantifier": "every grid size, every iteration order", "why_tests_cant": "All schedules.", "anchors": ["examples/forkjoin_tiled_householder_blr_qr.cpp", "examples/forkjoin_blocked_householder_blr_qr.cpp", "examples/forkjoin_blocked_mgs_blr_qr.cpp"]}
{"id": "C54", "title": "Resizing keeps the leading block", "statement": "resize(A,r,c) returns a new r x c matrix holding the leading r x c block of A, leaving A unchanged.", "quantifier": "every Dense and r <= rows, c <= cols", "why_tests_cant": "All sizes and strides.", "anchors": ["src/operations/misc/resize.cpp"]}
{"id": "C55", "title": "MatrixProxy has value semantics", "statement": "Copying a MatrixProxy (or a Hierarchical holding proxies) gives a matrix representing the same values and sharing no elements with the original; moving transfers it; copying an empty proxy is not allowed.", "quantifier": "every matrix tree", "why_tests_cant": "All trees and later write histories.", "anchors": ["src/classes/matrix_proxy.cpp", "src/classes/hierarchical.cpp"]}
{"id": "C56", "title": "JSON output records absolute block positions", "statement": "write_JSON/to_json labels every leaf with the absolute block position equal to the position obtained by refining its ancestors' positions and lists as many children as the matrix has blocks; positions of blocks of one level are distinct if all nodes of each level are divided in the same way, and need not be otherwise.", "quantifier": "every matrix tree", "why_tests_cant": "All trees.", "anchors": ["src/util/print.cpp"]}
{"id": "C57", "title": "Dispatch is total on Dense/LowRank/Hierarchical", "statement": "For every combination of Dense, LowRank and Hierarchical operands gemm reaches a specialised implementation; operations reach the aborting fallback exactly for the combinations without implementation, and never silently do nothing.", "quantifier": "every combination of dynamic types", "why_tests_cant": "All combinations.", "anchors": ["src/operations", "src/util/omm_error_handler.cpp"]}
{"id": "C58", "title": "Reading point sets from file", "statement": "read_geometry_file returns, for a file holding n, dim and at least n*dim numbers in any white space, dim coordinate lists of n numbers with coordinate j of point i being number i*dim+j. If the file is missing, or holds no coordinates, uninitialised variables are used.", "quantifier": "every file content", "why_tests_cant": "All files.", "anchors": ["src/util/geometry_file.cpp:read_geometry_file"]}
{"id": "C59", "title": "Blocked Householder QR of BLR matrices", "statement": "For a BLR matrix with square Dense diagonal blocks and LowRank blocks with orthonormal left bases, blocked_householder_blr_qr leaves in A and T an orthogonal Q and a block upper triangular R with A = Q R, and left_multiply_blocked_reflector multiplies block upper triangular matrices by Q and takes A to R.", "quantifier": "every number and size of blocks, every mixture of Dense and LowRank blocks below and above the diagonal, every tile QR kernel meeting the LAPACK contract, exact low-rank arithmetic", "why_tests_cant": "Test sizes are few; the products of reflectors over any number of block columns.", "anchors": ["src/operations/LAPACK/qr.cpp:blocked_householder_blr_qr", "src/operations/LAPACK/qr.cpp:triangularize_block_col", "src/operations/LAPACK/qr.cpp:apply_block_col_householder", "src/operations/LAPACK/qr.cpp:left_multiply_blocked_reflector"]}
{"id": "C60", "title": "Truncated QR with column pivoting", "statement": "truncated_geqp3(A, eps) returns Q with orthonormal columns and P = Q^T A such that every column of Q P differs from that of A by at most eps times the Frobenius norm of A; the number r of columns of Q is below the number of columns of A and at most the rank of A, and the error of the whole matrix is at most sqrt(n-r) eps times its norm. It always returns for matrices with more columns than rows, but has undefined behaviour on every matrix of full column rank that is not to be truncated. A matrix whose columns are all below the machine precision is replaced by zero.", "quantifier": "every size, every real matrix, every tolerance and accuracy", "why_tests_cant": "Tests run a few matrices and compare norms; the column norms are updated by a recurrence that has to stay equal to the true norms in every step, for every pivot order.", "anchors": ["src/operations/LAPACK/geqp3.cpp:truncated_geqp3"]}
{"id": "C61", "title": "Compression of a Dense matrix to given accuracy", "statement": "LowRank(Dense A, eps) has orthonormal bases on both sides, an upper triangular middle factor, a rank at most that of A, and every column of U S V is within eps times the Frobenius norm of A of that of A.", "quantifier": "every size, every real matrix, every accuracy for which truncated_geqp3 returns", "why_tests_cant": "All matrices and accuracies; composition of the pivoted QR with the RQ factorization.", "anchors": ["src/classes/low_rank.cpp:LowRank(const Dense&, double)", "src/operations/LAPACK/rq.cpp:rq"]}
{"id": "C62", "title": "Dense QR and RQ factorizations", "statement": "qr(A, Q, R) and rq(A, R, Q) of Dense matrices return A = Q R (A = R Q) with orthonormal Q and triangular R for all admissible sizes, given R with a zero lower triangle on entry. qr does not write R below the diagonal, and with more columns than rows in Q it silently does not form Q.", "quantifier": "every size, every matrix, every reflector generator meeting the contract of dlarfg (which is proved for dlarfg over the reals)", "why_tests_cant": "The index arithmetic of copying the triangles has different cases for tall and wide matrices and for every size of Q.", "anchors": ["src/operations/LAPACK/qr.cpp:qr", "src/operations/LAPACK/rq.cpp:rq"]}
{"id": "C63", "title": "Truncating addition keeps a best approximation of the sum", "statement": "rounded_addition, and fast_rounded_addition when the first operand has orthonormal bases, return a matrix that is at least as close to the sum in the Frobenius norm as every product of two matrices with as many columns and rows as the rank of the result; hence so does LowRank += LowRank for every setting but naive. Without orthonormal bases the fast variant does not.", "quantifier": "every pair of real LowRank matrices of every size and rank, every competing product, every library meeting the documented contract of QR and SVD", "why_tests_cant": "Optimality compares with all matrices of a rank; a test compares with the rounding error of a few.", "anchors": ["src/operations/arithmetic/addition.cpp:rounded_addition", "src/operations/arithmetic/addition.cpp:fast_rounded_addition"]}
{"id": "C64", "title": "Truncating addition returns an SVD", "statement": "rounded_addition returns orthonormal bases and a diagonal middle factor of non-negative, non-increasing values. fast_rounded_addition does so if the first operand has orthonormal bases and no kept singular value is 0; if one is 0 the bases can be linearly dependent.", "quantifier": "every pair of real LowRank matrices of every size and rank, every library meeting the contract", "why_tests_cant": "A chain of additions relies on the bases staying orthonormal; random operands never have a sum of smaller rank.", "anchors": ["src/operations/arithmetic/addition.cpp:rounded_addition", "src/operations/arithmetic/addition.cpp:fast_rounded_addition"]}
{"id": "C65", "title": "Addition with fixed accuracy loses at most eps times the norm of the sum", "statement": "If A.eps is not 0, A += B changes the sum by at most A.eps times the Frobenius norm of the sum, for every setting of FRANK_LRA but naive and for arbitrary bases.", "quantifier": "every pair of real LowRank matrices, every eps, every setting, every library meeting the contract", "why_tests_cant": "All sizes, ranks and distributions of singular values.", "anchors": ["src/operations/arithmetic/addition.cpp:addition_omm", "src/operations/misc/misc.cpp:find_svd_truncation_rank"]}
{"id": "C66", "title": "The contracts of QR, RQ and SVD can be met for all matrices", "statement": "Every real matrix has a singular value decomposition with orthonormal factors and sorted values; together with the modelled qr, rq and find_svd_truncation_rank this gives a library for which the theorems on addition hold without assumptions.", "quantifier": "every real matrix of every size", "why_tests_cant": "Existence for all matrices.", "anchors": ["src/operations/LAPACK/svd.cpp:svd", "src/operations/LAPACK/qr.cpp:qr", "src/operations/LAPACK/rq.cpp:rq"]}
{"id": "C67", "title": "Tile kernels return the QR factorization in compact form", "statement": "For every real tile with at least as many rows as columns dgeqrt3 returns Y, T and R with Q = I - Y T Y^T orthogonal and A = Q R; dtpqrt2 does so for a triangle on top of a tile and leaves the rest of the first tile alone. The product of elementary reflectors is I - Y T Y^T with the T of dlarft for all vectors and factors.", "quantifier": "every real tile of every size; every commutative ring for the compact form", "why_tests_cant": "All sizes and entries, including zero columns where the reflector is the identity.", "anchors": ["src/operations/LAPACK/geqrt.cpp:geqrt_omm", "src/operations/LAPACK/tpqrt.cpp:tpqrt_omm"]}
{"id": "C68", "title": "Tiled Householder QR always returns A = Q R", "statement": "For p x q tiles, q <= p, Dense or LowRank with orthonormal left bases, Dense and square on the diagonal (the last diagonal tile may be higher), the tiled factorization returns, A = Q R with Q orthogonal and R upper triangular. With square diagonal tiles multiplying a block upper triangular matrix by Q and A by Q^T return and give Q C and R. For real Dense tiles no assumption on kernels or low-rank arithmetic is left.", "quantifier": "every number and size of tiles, all entries, all kernels and low-rank arithmetic meeting the contracts", "why_tests_cant": "No run stops, whatever the mixture of Dense and LowRank tiles; all entries.", "anchors": ["src/operations/LAPACK/qr.cpp:tiled_householder_blr_qr", "src/operations/LAPACK/qr.cpp:left_multiply_tiled_reflector"]}
{"id": "C69", "title": "Blocked Householder QR always returns A = Q R", "statement": "As C68 for blocked_householder_blr_qr with square diagonal blocks, and left_multiply_blocked_reflector. For Dense tiles the tiled and blocked factorizations do not depend on the low-rank arithmetic.", "quantifier": "every number and size of blocks, all entries, all kernels and low-rank arithmetic meeting the contracts", "why_tests_cant": "No run stops, whatever the mixture of Dense and LowRank blocks; all entries.", "anchors": ["src/operations/LAPACK/qr.cpp:blocked_householder_blr_qr", "src/operations/LAPACK/qr.cpp:left_multiply_blocked_reflector"]}
{"id": "C70", "title": "Products, solves and factorizations of nested matrices end", "statement": "gemm, trsm, trmm, getrf, block Gram-Schmidt QR and l2_error return or abort after finitely many nested calls, for all kinds and nestings of well formed operands (Dense, LowRank, Hierarchical in any mixture, fitting or not) and all flags. The depth of the calls is bounded by a multiple of the number of levels, whatever the sizes. gemm keeps the nesting of its result.", "quantifier": "every well formed operand of every nesting and size, all flags, all low-rank and LAPACK routines that return", "why_tests_cant": "gemm falls back to splitting, densifying and calling itself with other kinds in more than twenty cases; that no chain of fallbacks is circular is a statement about all combinations.", "anchors": ["src/operations/BLAS/gemm.cpp:gemm_omm", "src/operations/BLAS/trsm.cpp:trsm_omm", "src/operations/BLAS/trmm.cpp:trmm_omm", "src/operations/LAPACK/getrf.cpp:getrf_omm", "src/operations/LAPACK/mgs_qr.cpp:mgs_qr_omm", "src/util/l2_error.cpp:collect_diff_norm_omm"]}
{"id": "C71", "title": "Products, solves and factorizations of matrices on a common cluster tree succeed", "statement": "If the rows and columns of the operands are divided along common cluster trees, gemm returns for every mixture of Dense, LowRank and Hierarchical blocks (LowRank blocks of the result truncated to an accuracy, or all operands of weakly admissible form), with the blocks of C in the result; trsm and getrf return if no diagonal block is divided less than the blocks beside it, and factoring followed by the two solves returns. Every matrix the Hierarchical constructor builds by halving is divided so, whatever the sizes, leaf size and admissibility; with sizes that divide evenly and a diagonal that is not admissible it can also be factored and solved with. With sizes that do not divide evenly getrf can abort, but not if all blocks off the diagonal are admissible.", "quantifier": "all trees, sizes, depths and mixtures of blocks; all low-rank arithmetic that keeps shapes and accuracies and does not fail with an accuracy; all LAPACK routines that return", "why_tests_cant": "Whether some combination of kinds of blocks at some level reaches a missing multi-method or a failing assert depends on all combinations at all depths.", "anchors": ["src/operations/BLAS/gemm.cpp:gemm_omm", "src/operations/BLAS/trsm.cpp:trsm_omm", "src/operations/LAPACK/getrf.cpp:getrf_omm", "src/classes/hierarchical.cpp:Hierarchical", "src/classes/initialization_helpers/cluster_tree.cpp:is_leaf"]}
{"id": "C72", "title": "Block LU of matrices with diagonally dominant columns loses nothing by dropping row exchanges", "statement": "getrf on a Dense or nested Hierarchical matrix calls LAPACK's pivoted LU on each diagonal block and drops the row exchanges it reports. If in every column of A the diagonal entry is larger in size than the other entries together, no exchange happens in any block at any level: L is unit lower and U upper triangular without a zero on the diagonal, L U = A, and factoring followed by the two solves returns the only solution of A x = b. Dominant rows are not enough.", "quantifier": "all matrices, nestings, block counts and sizes with square diagonal blocks; real entries; exact low-rank arithmetic or no LowRank blocks", "why_tests_cant": "The diagonal blocks are factored after updates by all earlier block columns; that pivoting never acts on any of them is a statement about all Schur complements of all dominant matrices.", "anchors": ["src/operations/LAPACK/getrf.cpp:getrf_omm", "src/operations/BLAS/trsm.cpp:trsm_omm"]}
{"id": "C73", "title": "Accuracy of Hierarchical matrices built from a kernel or a Dense", "statement": "If every admissible block is replaced by something within relative error c of it (Frobenius norm), the constructed Hierarchical matrix is within relative error c of the matrix it is built from, whatever the tree; best approximations of the blocks make a best approximation of the matrix among those with such blocks. For the constructors that take an accuracy eps this gives |A - H|^2 <= N eps^2 |A|^2 plus tol^2 per entry (tol: machine epsilon), N being the largest number of columns of a compressed block, and the same bound for what l2_error reports. The factor N cannot be dropped: for every eps = 1/k there is a matrix that is replaced by zero.", "quantifier": "all kernels that depend on the position only, all dense matrices, block layouts, leaf sizes, depths and admissibility conditions; real arithmetic", "why_tests_cant": "Tests build a few kernel matrices whose blocks have rapidly decaying singular values and compare with a tolerance; the bound is about all matrices and trees, and matrices with flat singular values lose far more than eps.", "anchors": ["src/classes/hierarchical.cpp:Hierarchical", "src/classes/initialization_helpers/matrix_initializer.cpp:get_compressed_representation", "src/classes/low_rank.cpp:LowRank", "src/util/l2_error.cpp:l2_error"]}
{"id": "C74", "title": "The fixed-rank H-LU program runs to its end", "statement": "With the position-based admissibility condition (parameter in [0,1)), N = s*k^(e+1), leaves of at least s >= 2 and a rank between 1 and s, examples/h_lu.cpp returns: the Hierarchical matrix is built from the kernel, multiplied with a vector, compared with the dense kernel matrix, factored by block LU, and both triangular solves return a vector of N entries. Every truncating addition on the way succeeds and leaves the rank of the block as it was. The same holds for every N and every number k >= 2 of parts, evenly divided or not, as long as N and the leaf size allow for (k-1)^2 + k(r-1) (r the rank, at least 2) - with the default leaf size 16, rank 8 and 2 parts: for every N from 16 on. For 2 parts this bound is sharp. If the rank is larger than the smallest blocks the construction does not succeed.", "quantifier": "all kernels, points, random samples, ranks, leaf sizes, numbers of parts and levels, right-hand sides; rounded_addition and the default (fast) addition; any LAPACK that meets its contract, in particular the one over the reals", "why_tests_cant": "The example is run with one set of parameters; that no assert, dimension mismatch or abort is reachable depends on all combinations of depth, number of parts and ranks, and on the sizes of all intermediate low-rank products.", "anchors": ["examples/h_lu.cpp:main", "src/operations/LAPACK/getrf.cpp:getrf_omm", "src/operations/BLAS/trsm.cpp:trsm_omm", "src/operations/arithmetic/addition.cpp:rounded_addition", "src/operations/arithmetic/addition.cpp:fast_rounded_addition", "src/classes/low_rank.cpp:LowRank"]}
{"id": "C75", "title": "Index arithmetic stays within machine integers", "statement": "Computed with int64_t, IndexRange::split, split_at, split_like and ClusterTree either give the same ranges as exact arithmetic or run into undefined behaviour, never other ranges; for split the condition is exact (n + parts and the start of the last part are below 2^63). Trees over index sets of up to 2^31 - 1 rows and columns never overflow, whatever the leaf size and the depth. In every legal history of objects whose arrays have less than 2^63 elements all element addresses and the fields of all windows are exact and inside of the arrays. The int offsets of truncated_geqp3 are exact up to 2^31 - 1 elements and overflow beyond; the element count of Dense wraps to 0 for 2^32 x 2^32; get_non_negative_vector is undefined from 2^31 on.", "quantifier": "all ranges, numbers of parts, leaf sizes, depths, histories, indices and dimensions", "why_tests_cant": "Overflow shows only at sizes no test can allocate, or at the ends of the integer range; wrapped indices may look valid.", "anchors": ["src/classes/index_range.cpp:IndexRange::split", "src/classes/cluster_tree.cpp:ClusterTree", "src/classes/dense.cpp:operator()", "src/operations/LAPACK/geqp3.cpp:truncated_geqp3", "src/util/experiment_setup.cpp:get_non_negative_vector"]}
{"id": "C76", "title": "Morton indices in machine integers", "statement": "getMortonIndex computes the exact index if dimensions times level is at most 63 and is undefined above 64; getCartesianIndex recovers all components below 2^31, so the two are inverse for levels up to 31; the box numbers used for sorting are exact for levels up to 30 with at most 63 bits. Beyond: components of 2^31 come back negative, on level 31 box numbers are in reversed order, on level 32 the shift is undefined, and 64-bit indices can be negative.", "quantifier": "all dimensions, levels, indices and point sets", "why_tests_cant": "The int literal in 1 << level only matters at levels far above those used in tests.", "anchors": ["src/operations/misc/morton_index.cpp:getMortonIndex", "src/operations/misc/morton_index.cpp:getCartesianIndex", "src/operations/misc/morton_index.cpp:getBoxNumber"]}
{"id": "C77", "title": "Backward error of tiled QR with truncating low-rank arithmetic", "statement": "The tiled Householder QR of a BLR matrix of p x q tiles of order at most nb, Dense or LowRank with orthonormal left bases and accuracy e, with low-rank additions truncated at relative accuracy e and Dense products compressed by truncated pivoted QR, computes R upper triangular with |A - QR| <= ((1+r)^m - 1)|A| + sqrt(q) m (1+r)^m 2 tau in the Frobenius norm for an exactly orthogonal Q, where m = sum of p-1-k is the number of eliminated pairs, r = (8 + 6 sqrt nb) sqrt(nb) e and tau comes from the machine epsilon of the compression. Multiplying with the stored reflectors gives QC for block upper triangular C up to the same bound, and R from A up to twice of it. With LowRank tiles below a Dense diagonal the factorization always returns, tau = 0, r = (8 + 6 sqrt nb) e, and the error is at most 2 m r |A| if m r <= 1.", "quantifier": "all numbers and sizes of tiles, layouts of Dense and LowRank tiles, entries, accuracies and choices of sampled or exact decompositions (FRANK_LRA other than naive)", "why_tests_cant": "Tests print the residual of a few matrices; that truncation errors of all updates add up to no more than a fixed multiple of the accuracy is a statement over all of them.", "anchors": ["src/operations/LAPACK/qr.cpp:qr", "src/operations/BLAS/tpmqrt.cpp:tpmqrt", "src/operations/LAPACK/tpqrt.cpp:tpqrt", "src/operations/LAPACK/larfb.cpp:larfb", "src/operations/misc/addition.cpp:rounded_addition"]}
{"id": "C78", "title": "The tiled QR example: three bounded numbers", "statement": "The program examples/tiled_householder_blr_qr.cpp with tiles of order b >= 2, p >= q > 0 block rows and columns, accuracy eps > 0 with eps^2 b < 1 and weak admissibility runs to its end once the compressed matrix is built, and of the three numbers it prints: the compression error times |F| is at most d = sqrt(b) eps |F| + tol sqrt(mn), the residual times |F| at most d + (g + (g + h(1+g)) sqrt(n) (1+g)) (|F| + d), and the loss of orthogonality at most 2g + g^2, where F is the kernel matrix, g = (1 + (8 + 6 sqrt b) eps)^pairs - 1 and h = (1 + eps)^q - 1. The compressed matrix is built if no tile off the diagonal has full rank.", "quantifier": "all positional kernels, points, tile sizes, numbers of tiles and accuracies", "why_tests_cant": "A run prints the numbers for one matrix; that construction, factorization, multiplication and comparison accept each other's results and keep the errors small for all sizes needs the composition of their contracts.", "anchors": ["examples/tiled_householder_blr_qr.cpp:main", "src/classes/hierarchical.cpp:Hierarchical", "src/operations/LAPACK/qr.cpp:tiled_householder_blr_qr", "src/operations/BLAS/trmm.cpp:trmm", "src/util/l2_error.cpp:l2_error"]}
{"id": "C79", "title": "Low-rank additions that fit into the rank lose nothing; the addition example prints one number three times", "statement": "With a fixed rank, LowRank += LowRank returns exactly the sum whenever the sum can be written with that many inner terms, with rounded_addition for all operands and with the default addition if the bases of the first operand are orthonormal. Hence examples/lr_add.cpp returns for every rank from 1 to N, the errors it prints for the default and the rounded addition are equal, and equal to the relative error of compressing D + D by A + A; the error of the naive addition is the same if twice the rank is smaller than N. With a rank larger than N the program does not succeed.", "quantifier": "all operands, ranks, sizes, points and random samples; any LAPACK that meets its contract over the reals", "why_tests_cant": "Tests compare the error with a tolerance for a few sizes; that the truncation is lossless for every operand whose sum fits is a statement about all singular value decompositions.", "anchors": ["examples/lr_add.cpp:main", "src/operations/arithmetic/addition.cpp:rounded_addition", "src/operations/arithmetic/addition.cpp:fast_rounded_addition", "src/operations/arithmetic/addition.cpp:naive_addition", "src/classes/low_rank.cpp:LowRank"]}
{"id": "C80", "title": "The parallel tiled QR programs print what the sequential one prints", "statement": "Whenever the sequential tiled QR example returns, examples/taskbased_tiled_householder_blr_qr.cpp returns the same three numbers for every order of its tasks that respects the declared dependences in each of its three parallel regions, and examples/forkjoin_tiled_householder_blr_qr.cpp for every order of the iterations of its parallel loops. With the premises of C78 both return for all schedules, with numbers within the bounds of C78.", "quantifier": "all kernels, points, sizes, accuracies, admissibility parameters and schedules", "why_tests_cant": "A run shows one schedule; a missing dependence shows up only in rare ones. That construction, factorization, forming and checking Q compose under every schedule is a statement over all of them.", "anchors": ["examples/taskbased_tiled_householder_blr_qr.cpp:main", "examples/forkjoin_tiled_householder_blr_qr.cpp:main", "examples/tiled_householder_blr_qr.cpp:main"]}
{"id": "C81", "title": "Block LU with truncated low-rank blocks is backward stable, with an explicit bound", "statement": "If getrf returns factors L and U of a hierarchical matrix with LowRank blocks of accuracy e off the diagonal, at any number of levels, then the Frobenius norm of A - LU is at most ((1 + e/(1-e))^k - 1) times the product of the norms of L and U, where k is the number of updates (blocks per row minus one, summed over levels); solving with L and U gives the exact solution of a system whose matrix differs from A by no more than that. For flat BLR matrices with Dense and LowRank blocks anywhere off the diagonal, where products of Dense blocks are compressed on the way, a bound of the same form with an additive term holds.", "quantifier": "all sizes, block counts, levels, entries, ranks, accuracies below 1, right-hand sides", "why_tests_cant": "A test compares residuals for a few matrices against a fixed tolerance. How truncation errors of thousands of updates accumulate, and that the accumulation depends on the number of updates and on the norms of the factors only, is a statement over all matrices.", "anchors": ["src/operations/LAPACK/getrf.cpp:45-90", "src/operations/BLAS/trsm.cpp:34-131", "src/operations/BLAS/gemm.cpp:38-640", "src/operations/arithmetic/addition.cpp:93-201"]}
{"id": "C82", "title": "The H-LU computation with blocks compressed to an accuracy returns, and what it prints is bounded by that accuracy", "statement": "Take the steps of the H-LU program (and of the LU test with fixed accuracy): compress the kernel matrix to accuracy eps with weak admissibility, form b = A x, factor A, solve twice, compare. If the compression returns, the whole computation returns. If LAPACK exchanges no rows and the diagonal of U is invertible, then the printed compression error is at most sqrt(N)*eps plus the machine-epsilon term, A - LU is at most ((1 + eps/(1-eps))^k - 1) * |L| * |U| with k = (blocks per level - 1) * levels, the computed solution solves a system within that distance of A, and the printed solution error is at most kappa/(1-kappa) for kappa the norm of the inverse of A times that distance.", "quantifier": "all kernels that depend on the position only, point sets, sizes N = s*k^(e+1) (and every N > 3 for two blocks per level), leaf sizes, accuracies with eps^2*N < 1, right-hand sides, both truncating additions", "why_tests_cant": "The test checks that one printed error is at most eps for a few sizes; whether the errors of construction, updates and solves can add up to more, and how this depends on levels and norms, is a statement about all matrices.", "anchors": ["examples/h_lu.cpp:15-66", "test/hierarchical_fixed_acc_test.cpp:51-69", "src/classes/hierarchical.cpp:46-146", "src/operations/LAPACK/getrf.cpp:45-90", "src/operations/BLAS/trsm.cpp:34-131", "src/operations/arithmetic/addition.cpp:93-201"]}
{"id": "C83", "title": "Block Gram-Schmidt QR of a BLR matrix with truncation: the product of the factors stays close to the matrix, and each block column of Q close to orthonormal", "statement": "If mgs_qr of a grid of Dense and LowRank tiles with low-rank additions and compressions of relative accuracy u (and absolute term tau) returns, then |A - QR| is at most ((1+v)^q - 1)*|Q|*|R| + sqrt(pq)*w*(1+v)^q*(|R|+q) in the Frobenius norm, with v = (2u+u^2)/(1-2u-u^2) and w = (1+u)tau/(1-2u-u^2); so the residual grows linearly with the number q of block columns as long as q*v is at most 1. Every block column of Q differs from a matrix with orthonormal columns by at most v times its norm plus sqrt(p)*w. For the truncating additions of the library u is sqrt(nb)*eps and tau is nb times the machine epsilon.", "quantifier": "all grids of p x q Dense and LowRank tiles with sides up to nb (classes of the tiles chosen freely in A, in Q and above the diagonal in R), all entries, all low-rank arithmetics of the stated accuracy, both truncating additions of the library", "why_tests_cant": "The test checks the residual and the orthogonality for a few kernel matrices (blr_fixed_acc_test.cpp:80-110) against a fixed threshold; how truncation errors of p*q*q updates add up is a statement about all matrices.", "anchors": ["src/operations/LAPACK/mgs_qr.cpp:46-62", "src/operations/LAPACK/mgs_qr.cpp:279-306", "src/operations/LAPACK/mgs_qr.cpp:340-361", "src/operations/BLAS/gemm.cpp:202-218", "src/operations/arithmetic/addition.cpp:93-201", "examples/blocked_mgs_blr_qr.cpp"]}
{"id": "C84", "title": "The block Gram-Schmidt BLR-QR program: what its three numbers mean and how large they are", "statement": "examples/blocked_mgs_blr_qr.cpp builds a kernel matrix F as a block low-rank matrix with accuracy eps, factorizes it and prints three numbers. The zero matrices it starts from are always built. Whenever the compressed matrix is built and the factorization returns Q and R, the program prints all three: the first times sqrt(|F|^2 + DBL_EPSILON) is |F - A| for the compressed matrix A, and at most d = sqrt(b)*eps*|F| plus the machine epsilon times sqrt(m*n); the second times sqrt(|F|^2 + DBL_EPSILON) differs from |F - QR| by at most ((1+eps)^q - 1)|Q||R|, and |F - QR| is at most d plus the bound of C83; the third times sqrt(n + DBL_EPSILON) differs from |I - Q^T Q| by at most ((1+eps)^p - 1)|Q|^2. Every block column of Q is close to a matrix with orthonormal columns, so |Q| is about sqrt(n). With one block column (n = b) the factorization always returns, and the second and the third number have bounds in terms of eps, b, p and |F| alone.", "quantifier": "all positional kernels and points, all tile sizes b >= 2 and numbers of tiles p >= q >= 1, all accuracies eps > 0 with 2u+u^2 < 1 for u = sqrt(b)*eps, all admissibility constants below 1, with and without asserts in trmm", "why_tests_cant": "Running the program shows three numbers for one kernel, size and accuracy. That they measure the factorization itself, and not the truncations made by the products Q*R and Q^T*Q on the way to the check, is a statement about all of them.", "anchors": ["examples/blocked_mgs_blr_qr.cpp:13-57", "src/operations/LAPACK/mgs_qr.cpp:340-361", "src/operations/BLAS/trmm.cpp:185-195", "src/operations/BLAS/gemm.cpp:420-442", "src/operations/misc/transpose.cpp"]}
{"id": "C85", "title": "The JSON document of a constructed matrix shows its cluster tree, and the program Hmatrix_to_json", "statement": "write_JSON of a freshly constructed Hierarchical matrix shows the cluster tree it was built from. The entry reached by a sequence of children carries the absolute position, the level and the size of the node of the cluster tree reached by the same children; it is LowRank with the rank of the compressed block if the node is admissible, Dense if it is a leaf that is not admissible, and otherwise Hierarchical with one child per block. There are entries exactly for the children of the root and of nodes that are neither admissible nor leaves. The entries that are not Hierarchical cover every matrix position exactly once, and no two entries have the same position and level. For examples/Hmatrix_to_json.cpp: the first entry is the N x N matrix with 2 x 2 children, and the type of every other entry follows from its own position (i,j), size and the arguments: LowRank if it has more than one row and column and |i-j| > admis, otherwise Dense if it is within nleaf, otherwise Hierarchical. For N = s*2^e with s <= nleaf, the entry (i,j) of level l <= e is block (i,j) of the matrix cut into 2^l x 2^l equal blocks, and each matrix position is in exactly one undivided entry. The program runs to its end for every N and nleaf >= 1 if the compression of blocks does.", "quantifier": "all initializers that make blocks of the size asked for, all ranges, block layouts and leaf sizes with regular cluster trees; for the program all N, nleaf, admis and compressions that keep dimensions", "why_tests_cant": "The document is written by a traversal of the finished matrix that counts positions again, apart from the cluster tree that decided the types. That the two agree at every depth, and that the leaves drawn from the document cover the matrix without gaps or overlaps, concerns trees of all sizes and depths.", "anchors": ["examples/Hmatrix_to_json.cpp:14-35", "src/util/print.cpp:27-125", "src/classes/hierarchical.cpp:46-88", "src/classes/initialization_helpers/cluster_tree.cpp:14-45", "src/classes/initialization_helpers/matrix_initializer.cpp:28-58"]}
{"id": "C86", "title": "When no block is compressed: the full-rank setting N / nleaf of the examples", "statement": "The examples ask for a Hierarchical matrix without LowRank blocks, to compare against, by the admissibility constant N / nleaf. For s*k^e rows and columns in k x k blocks per level with 1 <= s <= nleaf and position based admissibility, a constant of at least k^e - 1 makes every stored block a Dense leaf, so the matrix is the kernel matrix exactly, and it is built whatever the compression would do. The constant is sharp: if 2 <= s and the blocks are divided as far as possible, some block is compressed exactly if the constant truncates to less than k^e - 1. N / nleaf is enough when N = nleaf*k^e, so the Dense tree of examples/blocked_mgs_h_qr.cpp is then the kernel matrix. It is not enough in general: for N = 8, nleaf = 3 and 2 x 2 blocks the corner blocks are compressed.", "quantifier": "all starts, s, k, e and leaf sizes, all admissibility constants, all initializers with position based admissibility; for the program all kernels whose entries depend on the position only and all compressions that keep dimensions", "why_tests_cant": "A reference matrix that is silently compressed makes every reported error smaller than it is, and only for some combinations of size and leaf size. Whether a block is compressed depends on its distance to the diagonal at every level of the tree.", "anchors": ["examples/blocked_mgs_h_qr.cpp:26-52", "src/classes/initialization_helpers/matrix_initializer.cpp:51-58", "src/classes/initialization_helpers/cluster_tree.cpp:14-75", "src/classes/hierarchical.cpp:46-88"]}
{"id": "C87", "title": "Matrices built over the same cluster tree can be compared, and the compression accuracy printed by blocked_mgs_h_qr", "statement": "l2_error of two Hierarchical matrices built over the same rows and columns, with the same division into blocks and leaf size, always returns, whatever admissibility, compression and values each of them is built with, and its result is the relative error of the entries. This includes blocks that one matrix divides over several levels and the other one stores whole. For examples/blocked_mgs_h_qr.cpp with N = nleaf*k^e and k x k blocks per level: when the compressed matrix A is built, the program prints err with err^2 (|F|^2 + 2^-52) = |F - A|^2, where F is the kernel matrix, and |F - A|^2 <= (N/k) eps^2 |F|^2 + tol^2 N^2. With two blocks per level and any N the comparison returns once both matrices are built, with the error relative to the reference matrix. With the full-rank setting for both matrices (modes 0 and 1) it prints 0.", "quantifier": "all initializers that make blocks of the size asked for, all ranges, block layouts and leaf sizes with regular cluster trees; for the program all nleaf >= 1, k >= 2, e >= 1, accuracies, admissibility constants, kernels whose entries depend on the position only and compressions that keep dimensions", "why_tests_cant": "Where the two trees differ, l2_error splits the block that is whole into equal parts and fails if these do not match the parts of the other matrix, at any depth. That they match depends on the sizes at every level. The bound concerns all kernels, sizes and accuracies.", "anchors": ["src/util/l2_error.cpp:22-105", "examples/blocked_mgs_h_qr.cpp:26-57", "src/classes/hierarchical.cpp:46-88", "src/classes/initialization_helpers/cluster_tree.cpp:14-45"]}
