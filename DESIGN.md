# Formal model of FRANK: design

Everything under `rocq/theories` is Coq 8.16.1. Build:
`cd rocq && coq_makefile -f _CoqProject -o Makefile && make -j4` (about eight minutes).

`properties.jsonl` states the properties, `MANIFEST.json` maps each one to its
theorems, `seeded/LOG.jsonl` records what happened to the theorems when the model was
changed into a wrong program.

## Trusted base

* Coq's kernel (type checker, `vm_compute`) and the standard library.
* The correspondence of the definitions to the C++ text. Every definition cites file
  and lines of `/repo`; simplifications are listed below and in the header of each file.
* No axioms, parameters or admitted facts of our own; no functors or module types.
  `Print Assumptions` stands below each property theorem. Its answers:

| theorems | assumptions |
|---|---|
| all not named below | none ("Closed under the global context") |
| `C08_kernels`, `C38_contiguous`, `C38_views_refuted`, `C40_*`, `C47_window`, `C47_succeeds`, `C47_symmetric`, `C47_arange_refuted`, `C47_random_refuted`, `C51_*`, `C60_*`, `C61_*`, `C62_dlarfg`, `C63_*` - `C66_*`, `C67_geqrt3`, `C67_tpqrt2`, `C68_real_tiles`, `C69_real_blocks`, `C72_*`, `C73_*`, `C74_program*`, `C74_real_program*`, `C79_*`, `C80_tasks`, `C80_forks`, `C81_weak`, `C81_real`, `C81_solve`, `C82_*`, `C85_program`, `C85_grid`, `C85_runs`, `C86_program`, `C87_*` | `ClassicalDedekindReals.sig_forall_dec`, `ClassicalDedekindReals.sig_not_dec`, `FunctionalExtensionality.functional_extensionality_dep`: the standard library's construction of the reals (all or some of the three) |
| `C47_bounds`, `C77_*`, `C78_*`, `C80_bounds`, `C81_blr`, `C81_blr_real`, `C83_*`, `C84_*` | the same and `Classical_Prop.classic` (`C47_bounds`: through the library's theory of `cos` and `exp`) |
| `C52_factorization`, `C52_forming_Q`, `C52_checking_Q`, `C53_blocked`, `C53_mgs` | `FunctionalExtensionality.functional_extensionality_dep` |

`Hypothesis`/`Variable` occur inside sections only, so they become premises of the
theorems. External routines (LAPACK, compression) are such premises: a theorem holds for
every function that meets the stated contract, and an `Example` or `Lemma` exhibits one
that does.

## Layers

| layer | files | what it models |
|---|---|---|
| general | `Prelude`, `Osim`, `Ring`, `MatFun`, `MatSetoid` | outcomes, simulation of two programs, scalars and sums, matrices as entry functions |
| index | `IndexRange*`, `ClusterTree*`, `Admissible*`, `Construct*`, `DenseTree` | `index_range.cpp`, `cluster_tree.cpp`, `matrix_initializer*.cpp`, constructors of `Hierarchical` |
| values | `Matrix`, `MatOps*`, `MatSpec`, `MatTheorems`, `Dispatch` | trees of `Dense / LowRank / Hierarchical / Empty` with exact entries; transposition, norm, scaling, zeroing, resizing, splitting, densification; the table of all multi-methods |
| products | `Gemm*`, `LowRankAdd*` | `gemm.cpp`, `addition.cpp` for every combination of types |
| triangles | `Triangular`, `Tri*`, `Lu*` | `trmm.cpp`, `trsm.cpp`, `getrf.cpp` |
| dominance | `Dominant`, `PartialPivot`, `BlockSchur`, `BlockDominant`, `DominantTheorems` | LAPACK's `dgetf2` (partial pivoting) over the reals; block LU of matrices with dominant columns |
| construction error | `ConstructError` | Frobenius distance between a constructed Hierarchical and the matrix it is built from |
| termination | `GemmTerm`, `TriTerm`, `MgsTerm` | the recursions of `gemm.cpp`, `trsm.cpp`, `trmm.cpp`, `getrf.cpp`, `mgs_qr.cpp`, `l2_error.cpp` end |
| success | `CommonTree`, `GemmSucc`, `LuSucc`, `TreeSucc`, `TreeFit` | which operands `gemm.cpp`, `trsm.cpp`, `getrf.cpp` take without aborting; that constructed matrices are such; parameters: what is known of ranks (`policy`) |
| fixed rank | `FixedRank`, `UnevenTree` (weakly admissible matrices of any size) | the policy for `LowRank(Dense, rank)` and `addition.cpp:93-203`; success of the `Hierarchical` constructor; `examples/h_lu.cpp` as a whole |
| QR | `Reflect*`, `Qr*`, `Blocked*`, `Mgs*` | `larfb.cpp`, `geqrt.cpp`, `tpqrt.cpp`, `tpmqrt.cpp`, `qr.cpp`, `mgs_qr.cpp` |
| compression | `Lapack`, `Sampled*`, `SvdRank` | `id.cpp`, `geqp3.cpp:29-60`, `rsvd.cpp`, `rid.cpp`, constructors of `LowRank`, truncation rank |
| dense QR | `Householder`, `HouseQr`, `HouseReal`, `Rrqr*` | `dgeqrf`, `dorgqr`, `dlarfg` of LAPACK as used by `qr.cpp:65-90`, `rq.cpp`, `geqp3.cpp:69-191`, and `LowRank(Dense, eps)` |
| tile kernels | `TileKernels`, `QrSuccess`, `BlockedSuccess`, `DenseQr`, `RealQr` | `dgeqrt3` and `dtpqrt2` as called by `geqrt.cpp` and `tpqrt.cpp`; tiled and blocked QR of `qr.cpp` without assumptions on them |
| QR error | `FroNorm`, `QrErr*` | Frobenius norm; error of `tpmqrt`, of the tiled factorization and of its application with low-rank additions and compressions of given relative accuracy |
| LU and Gram-Schmidt error | `LuErr*`, `HLuEps`, `MgsErr` | error of block LU and block Gram-Schmidt with low-rank additions and compressions of given relative accuracy; the H-LU steps with an accuracy instead of a rank |
| QR program | `TrmmErr`, `BlrBuild`, `BlrCompare`, `QrProgram`, `RrqrDeficient`, `GramErr`, `MgsProgram`, `MgsOne` | construction of block low-rank matrices, error of `trmm.cpp:185-195` and of a product of two block matrices, `examples/tiled_householder_blr_qr.cpp` and `examples/blocked_mgs_blr_qr.cpp` as a whole |
| real addition | `Spectral`, `RealSvd`, `RealLapack`, `EckartYoung`, `RealAdd*` | singular value decompositions over the reals, best approximation, `addition.cpp:93-203` with them |
| storage | `Heap*`, `Tree*`, `Proxy*`, `HGemm*`, `MgsHeap*`, `Counter` | `Dense` as window into a counted buffer, objects as trees over storage, `MatrixProxy`, `gemm` and dense Gram-Schmidt in place, the id counter under threads |
| utilities | `KeyValue`, `Timer`, `Memory`, `Json`, `JsonTree`, `L2Error`, `L2Real`, `TreeCompare`, `FileRead`, `Kernels`, `Spaced`, `Morton*` | the rest of `src/util`, `functions.cpp`, `misc.cpp`, `morton_index.cpp` |
| machine integers | `Machine`, `MachineMorton`, `MachineMem` | `index_range.cpp`, `cluster_tree.cpp`, `morton_index.cpp`, element access, offsets with `int` and `int64_t` that overflow |
| schedules | `Tasks`, `TaskQr`, `TaskRun`, `ForkJoin`, `Fj*` | OpenMP tasks and parallel loops of `examples/` |
| properties | `Prop_*` | one theorem `Cnn_*` per claim, closed by `exact lemma`, and a concrete `Example` |

The value layer and the storage layer are connected by simulation: `Prop_Proxy.v` (C55)
for programs over `MatrixProxy` objects, `Prop_HGemm.v` (C24) for `gemm`. The algorithm
properties (QR, LU, MGS, addition) are stated on values.

## Modelling conventions

* `double` is an element of an arbitrary commutative ring; of a field where the code
  divides; the reals where square roots or order matter. Rounding of floating point
  arithmetic is **not** modelled. "Up to the truncation error" statements (C23, C27,
  C30 - C33) bound the effect of low-rank compression, with an arbitrary relation or norm.
* `int64_t` is unbounded `Z`/`nat`. For index ranges, cluster trees, element access, Morton
  indices and the offsets of `truncated_geqp3`, `Machine*.v` has the same functions with
  overflow as undefined behaviour; C75 and C76 say when the two agree.
* `assert(e)` gives the outcome `AssertFail` when `e` is false. The default build type is
  Release, which disables asserts. Theorems of the form "if the program returns `Ok`, the
  result is ..." therefore speak of runs whose asserts hold; where a violated assert is
  reachable by a plausible caller the fact is a theorem or a finding of its own.
* `std::abort()` reached through the multi-method fallback is the outcome `Abort`.
* An access outside of a buffer, or through an empty proxy, is the outcome `UB`.
* `NoFuel` is the outcome of a recursion whose budget is used up. Budgets are universally
  quantified; that enough of it exists is a theorem of its own (C05, C70).
* BLAS calls with a closed form (`cblas_dgemm`, `cblas_dtrmm`, `cblas_dtrsm`,
  `LAPACKE_dlarfb`, `LAPACKE_dtprfb`) are that closed form. Factorizations
  (`dgetrf`, `dgeqrf/dorgqr`, `dgesdd`, `dgeqp3`, `dgeqrt3`, `dtpqrt2`) are parameters with
  their documented contract; for C60 - C62 `dgeqrf` and `dorgqr` are products of the
  reflectors of `dlarfg`, and `dgerqf` and `dorgrq` are the same with rows and columns in
  reverse order. For C67 - C69 `dgeqrt3` and `dtpqrt2` reduce one column after the other and
  build T as `dlarft` does; LAPACK's `dgeqrt3` halves the columns recursively instead.
  For C72 `dgetrf` eliminates one column after the other (`dgetf2`); LAPACK does the same
  eliminations by blocks of columns.
* The blocks of a `Hierarchical` are a function of the block position; blocks outside of
  the array are never looked at. Equality of matrices is equality of the entries inside.
* OpenMP: the runtime is the set of all orders (and of all interleavings of steps) of
  tasks that respect the declared dependencies, or the barrier after a parallel loop.

## Not modelled

* Floating point rounding, overflow, NaN; integer overflow other than in `Machine*.v`; the numerical quality of LAPACK routines.
* `latms.cpp`, `experiment_setup.cpp` (but C75), `initialize.cpp`, `omm_error_handler.cpp`, text output in
  `print.cpp` other than the block positions of `to_json`, timer output.
* The inside of yomm2; its selection rule is a definition in `Dispatch.v`.
* `std::shared_ptr` reference counting except for "freed when nobody uses it".
* Reading numbers from words in files (`std::stod`), the file system.
* Random number generators: some fixed sequence.
* The examples other than the parallel QR loops, `h_lu.cpp` (C74; with an accuracy, C82), `tiled_householder_blr_qr.cpp` (C78), `lr_add.cpp` (C79), `taskbased_tiled_householder_blr_qr.cpp` and `forkjoin_tiled_householder_blr_qr.cpp` (C80), `blocked_mgs_blr_qr.cpp` (C84), `Hmatrix_to_json.cpp` (C85), and the construction and comparison in `blocked_mgs_h_qr.cpp` (lines 26-57, C86 and C87).
* Data races inside of one BLAS call (BLAS is run with one thread per call in the examples).

## Where the code does not do what one might expect

Each of these is a theorem, mostly named `..._refuted`, next to the part of the property
that does hold.

| property | finding |
|---|---|
| C01 | `IndexRange::split` with more parts than the size supports does not tile (n = 5, 4 parts) |
| C02 | `split_like` starts at 0 whatever the start of the range |
| C03, C05 | the leaves partition the index set only for regular trees; a positive leaf size can make the construction run forever (exact conditions proved) |
| C09 | building from a `Dense` with a start other than 0 never succeeds: it reads outside of the block |
| C10 | `split` with ranges that are not checked gives views outside of the storage |
| C12 | assigning to a `Dense` view writes outside; self-assignment loses the values |
| C14 | two threads can give two objects the same id |
| C18 | scaling a block of a `LowRank` split without copying scales the whole matrix; `*=` on p x q such blocks multiplies by a^(pq) |
| C23 | `gemm` of LowRank x H into H and of H x LowRank into H is wrong when transposed |
| C24 | C sharing storage with A gives a wrong result (example) |
| C26 | naive addition of factors with a rectangular middle is wrong |
| C30 | `trmm` with a transposed hierarchical triangle is wrong once asserts are off |
| C31 | `trsm` lower/right aborts for hierarchical operands |
| C32 | `getrf` drops the row exchanges LAPACK makes |
| C35 | tiles wider than high are silently not factored |
| C36, C59 | multiplying by the implicit Q only updates block columns from the diagonal on, so it is wrong for general operands |
| C37 | with a singular diagonal block of R the block columns of Q need not be orthogonal |
| C38 | Gram-Schmidt on a view of fewer columns uses the wrong stride |
| C40 | the truncation rank is not minimal |
| C41 | `old_rsvd` composes its factors wrongly |
| C42 | `LowRank(Hierarchical, rank)` has the numbers of blocks as dimensions |
| C43 | `equallySpacedVector` leaves the interval |
| C46, C58 | blanks at line ends break the file reader; a missing or short point file is undefined behaviour |
| C47 | `arange` ignores offsets; random kernels repeat for each block |
| C49 | `clearTimers` under a running timer leaves a dangling pointer |
| C51 | `l2_error` asserts for blocks that do not split evenly |
| C52 | by whole tiles, `larfb(k,j)` and `tpqrt` race on A(k,k); they touch different triangles of it |
| C56 | `abs_pos` is not distinct for trees that are not uniformly divided |
| C57 | `print` and `to_json` only report a missing method for `Empty` |
| C60 | `truncated_geqp3` reads past the end of a vector for every matrix of full column rank that eps does not truncate; the error of the whole matrix is only bounded by sqrt(n - r) eps |
| C62 | `qr` leaves R below the diagonal as it was; with more columns than rows in Q it returns without forming Q |
| C63 | `fast_rounded_addition` (the default) to a matrix without orthonormal bases, such as a product or a part of a LowRank matrix, can drop the larger part of the sum |
| C64 | `fast_rounded_addition` can return linearly dependent bases if the sum has a smaller rank |
| C86 | the "full rank" constant N / nleaf compresses the corner blocks if N is not nleaf times a power of the number of blocks (N = 8, nleaf = 3) |
| C59 | a LowRank block on the diagonal aborts the blocked QR |
| C71 | `is_leaf` asks for few rows and few columns, so sizes that do not divide evenly (10 by halving, leaf size 2) give a Dense diagonal block beside Hierarchical ones; `getrf` then aborts |
| C72 | `getrf` throws the row exchanges of LAPACK away; dominant columns make them unnecessary, dominant rows do not: the factors of (2 1; 3 4) multiply to (3 4; 2 1) |
| C73 | `Hierarchical(..., eps)` is not within `eps` of the matrix: each column of a block may be off by `eps` times the norm of the block; the identity of order k^2 with eps = 1/k becomes zero if admissible |
| C74 | a rank larger than the leaf size makes `Hierarchical(kernel, ..., rank, ...)` fail (assert in `resize`); with `NDEBUG` the resize reads past the factors |
| C75 | `Dense(2^32, 2^32)` computes a size of 0 after wrapping; `truncated_geqp3` multiplies in `int`, so matrices from 46342 x 46342 on are undefined behaviour; `get_non_negative_vector` counts an `int64_t` with an `int` |
| C76 | `1 << level` is an `int`: decoding is wrong from components of 2^31 on, `getBoxNumber` reverses the order on level 31 and is undefined on level 32; 64-bit indices can be negative |

## Approach per property

| id | proof idea |
|---|---|
| C01, C02 | arithmetic; refutation by computation |
| C03 - C05 | induction on depth; measure; invariance argument for divergence |
| C06, C07 | order reasoning on bounding boxes |
| C08, C09 | induction over the tree, tiling from C03 |
| C10 - C15, C55 | invariants over histories of operations on storage |
| C16, C17, C19 - C22, C54 | structural induction |
| C18 | computation over storage plus general statement |
| C23 - C25, C29, C57 | induction on the budget, block algebra; simulation for storage |
| C26 - C28 | matrix algebra with QR/SVD contracts |
| C30 - C33 | loop invariants, block substitution |
| C34 - C36, C59 | reflectors as matrices, loop invariants |
| C37, C38 | loop invariants; storage indexing |
| C39, C41, C42 | matrix algebra with contracts; counterexamples |
| C40, C43, C47, C51 | reals and rationals |
| C44, C45 | induction on the level; permutations |
| C46, C58 | induction on rows and columns of the token stream |
| C48 - C50, C56 | histories; structural induction |
| C60 - C62 | reflectors are orthogonal; invariants of the column loop (norms of the remaining columns); kernel argument for the rank |
| C63 - C65 | Bessel's inequality and rearrangement of weights (Eckart-Young); isometries on the range of the small matrix |
| C67 - C69 | compact form of products of reflectors by induction; success as loop invariant |
| C66 | maximum of a continuous function on the sphere; deflation by reflectors |
| C70 | a weight of the operands (nesting, then kind) that falls with every call |
| C71 | induction on the budget over operands divided along common axes; C70 for the budget; invariants of the constructor |
| C72 | Schur complements of matrices with dominant columns have dominant columns; the diagonal blocks at the time they are factored are Schur complements; induction over block columns and nesting |
| C73 | errors on disjoint blocks add up (squared); induction over the cluster tree; C61 for one block |
| C74 | C71 over a policy for ranks (middle factors not larger than the rank, blocks that are added to of exactly that rank); the policy holds of the modelled sampling and truncating additions |
| C77 | errors of one tile update relative to the norm of the pair; orthogonal factors keep norms, so they compound as (1 + r)^m; induction over pairs and columns |
| C78 | the tiles of the constructor one by one (C73), then C77 for the factorization and the multiplications, the product by R column by column |
| C79 | the best-approximation property of C63 applied to the sum itself |
| C80 | one program text with the three parallel parts as parameters; C52 and C53 for the parts |
| C81 | each tile of A is a chain of updates that ends in the factors; relative errors compound along the chain as (1 + v)^k; tiles summed with Cauchy-Schwarz; induction over levels. Not covered: blocks with Hierarchical blocks off the diagonal (nested strong admissibility) |
| C82 | C73 for the construction, C81 for the factors, then norms; success: C71 over a policy for accuracies. The policy of C71 has a parameter for the blocks to which compressed products are added; with weak admissibility there are none |
| C83 | the chain of updates of C81 for every tile of A, ended by the error of the product that is stored in Q(i,j); tiles summed with Cauchy-Schwarz. How R(j,k) was computed does not matter for the residual. Not covered: R(j,j) Hierarchical, orthogonality between block columns |
| C84 | composition: construction (C78), C83 with the invariant that R keeps triangular Dense blocks on the diagonal, LowRank blocks above and zeros below, the error of trmm, a new error bound for `gemm` with beta 0 on two block matrices, and the exact value of `l2_error`. One block column: every LowRank block of A has fewer columns in U than b, so the product stored in Q(i,0) has deficient rank and its compression returns |
| C85 | induction over the cluster tree along a path of children (C04, C08), composed with the structural induction of C56; parts of a split are disjoint and cover (C01), so leaves are unique and exist; for powers of 2 an invariant: rows = position times size |
| C86 | invariant of the tree for s*k^e: a node of level l is block (i,j) of k^l x k^l equal blocks, so its distance to the diagonal is below k^e; C08 for the entries; the corner block for sharpness |
| C87 | induction over the common cluster tree: sub-matrices are divided equally (C01), so one of two blocks is whole or both are divided alike (C51); the Dense tree is exact (C86), the error of blocks adds up (C73) |
| C75, C76 | bounds on all intermediate values by induction over levels, bits and the storage invariant of C10 |
| C52, C53 | unordered tasks do not conflict, hence all schedules are equal to the sequential loops |
