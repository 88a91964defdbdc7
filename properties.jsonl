{"id": "C01", "title": "Sorted lookup is exact", "statement": "find_in_sorted_array(elem, a) on an ascending array returns an index holding elem if elem occurs, and -1 exactly when it does not occur; it never reads outside the array.", "quantifier": "every ascending array (any length, duplicates allowed) and every searched element", "why_tests_cant": "The search mixes bisection with a linear tail (window of 5); correctness depends on every combination of length, position and duplicates.", "anchors": ["src/base/utils/utils_arrays_tables.hpp: find_in_sorted_array (24-43)"]}
{"id": "C02", "title": "Sorted insertion keeps order and content", "statement": "merge_pos_in_sorted_array(elem, a) returns a position with everything before it <= elem and everything from it on > elem, and insert_into_sorted_array / insert_into_sorted_array_nodups therefore yield an ascending array whose content is the old content plus elem (plus elem only if absent, for the nodups variant).", "quantifier": "every ascending array and every element", "why_tests_cant": "Holds only if the bisection window and the early-exit tests agree for all lengths and positions.", "anchors": ["src/base/utils/utils_arrays_tables.hpp: merge_pos_in_sorted_array (70-94), insert_into_sorted_array, insert_into_sorted_array_nodups, insert_into_sorted_array_if_new"]}
{"id": "C03", "title": "In-place permutation", "statement": "ApplyPermutation(a, perm) terminates and leaves a'[k] = a[perm[k]] for every k, for every permutation perm; the keep-variant additionally returns perm unchanged, and InvertPermutation returns the inverse permutation.", "quantifier": "every array and every permutation of its indices", "why_tests_cant": "The cycle-following loop destroys perm while it runs; termination and correctness depend on the cycle structure of the permutation.", "anchors": ["src/base/utils/utils_arrays_tables.hpp: ApplyPermutation, ApplyAndKeepPermutation, InvertPermutation"]}
{"id": "C04", "title": "Merging sorted rows", "statement": "merge_arrays of two ascending duplicate-free arrays, merge_arrays / MergeArrays1 / MergeArrays of any number of ascending rows (for MergeArrays: non-negative values, as column indices are), return the strictly ascending list of exactly the values occurring in some input row; every value is reported once.", "quantifier": "every number of ascending rows of every length", "why_tests_cant": "k-way merge with moving heads: interleavings of row contents cannot be enumerated.", "anchors": ["src/base/utils/utils_arrays_tables.hpp: merge_arrays, MergeArrays1"]}
{"id": "C05", "title": "Set iteration over two sorted arrays", "statement": "iterate_intersection calls its functor exactly once for every common value, with its positions in both arrays, in ascending order; is_intersect_empty returns true exactly when no value is common; intersect_sorted_arrays returns the common values; iterate_anotb / setMinus report exactly the values of a that are not in b.", "quantifier": "every pair of strictly ascending arrays", "why_tests_cant": "Two-pointer loops must be right for every interleaving of the arrays.", "anchors": ["src/base/utils/utils_arrays_tables.hpp: iterate_intersection, is_intersect_empty, intersect_sorted_arrays, iterate_anotb, setMinus"]}
{"id": "C06", "title": "Positions of a sorted list in a sorted list", "statement": "posSortedInSorted(a, b, pos) sets pos[k] to the position of a[k] in b; this is only guaranteed if every element of a occurs in b: a single missing element makes every later position -1 even when the element is present.", "quantifier": "every pair of ascending duplicate-free arrays", "why_tests_cant": "The failure needs a missing element in the middle; the guarantee must cover all subsets.", "anchors": ["src/base/utils/utils_arrays_tables.hpp: posSortedInSorted"]}
{"id": "C07", "title": "Tuples used as sort keys are ordered", "statement": "The comparison of IVec<N,T> tuples and of arrays of any length (lex_smaller) used for sorting and map keys is a strict total order (irreflexive, transitive, any two different keys comparable), so sorted containers of them are well defined.", "quantifier": "all tuples of length 2 to 5, all arrays, all ordered element types", "why_tests_cant": "Asymmetry is a relation between all pairs of values; the length-5 overload compares the wrong component.", "anchors": ["src/base/utils/utils.hpp: operator< for IVec<2>, IVec<3>, IVec<4>, IVec<5>", "src/base/utils/utils_arrays_tables.hpp: lex_smaller"]}
{"id": "C08", "title": "Sparse transpose", "statement": "TransposeSPM(A) has exactly the entries A^T: entry (j,i) is stored iff (i,j) is stored in A, with the same value, every row is strictly ascending in its columns, and transposing twice gives back A.", "quantifier": "every sparse matrix with strictly ascending rows, any shape, any scalar ring", "why_tests_cant": "Counting/filling with running row counters; must hold for every sparsity pattern, including empty rows and columns.", "anchors": ["src/base/linalg/utils_sparseMM.cpp: TransposeSPMImpl (49-86)"]}
{"id": "C09", "title": "Sparse product", "statement": "MatMultAB(A,B) returns a matrix whose entries are sum_k A_ik B_kj, with every row strictly ascending, containing a stored entry exactly where some stored A_ik meets a stored B_kj; updating the values of an existing product gives the same values.", "quantifier": "all pairs of compatible sparse matrices", "why_tests_cant": "Sum over all index chains, symbolic and numeric phase must agree for every pattern and every hash collision.", "anchors": ["src/base/linalg/utils_sparseMM.cpp: MatMultABImpl (101-238), MatMultABUpdateValsImpl (246-320)"]}
{"id": "C10", "title": "Galerkin restriction", "statement": "RestrictMatrix(P^T, A, P) is P^T A P: applying it to any coarse vector equals prolongating, applying A and restricting; it is symmetric if A is.", "quantifier": "all fine matrices, prolongations and coarse vectors", "why_tests_cant": "An identity over all vectors and matrices.", "anchors": ["src/base/linalg/utils_sparseMM.hpp: RestrictMatrix, RestrictMatrixKeepFactor", "src/base/coarsening/dof_map.cpp: ProlMap::AssembleMatrix"]}
{"id": "C11", "title": "Matrix building blocks act as their documentation says", "statement": "BuildPermutationMatrix(sort) applied to x yields x[sort[k]] in row k; EmbedSparseMatrix keeps every entry at its place in the larger matrix; AddSPM of two matrices with the same pattern yields alpha A + beta B.", "quantifier": "all permutations, matrices, sizes and scalars", "why_tests_cant": "Universal over vectors and patterns.", "anchors": ["src/base/linalg/utils_sparseLA.hpp: BuildPermutationMatrix (366)", "src/base/linalg/utils_sparseLA.cpp: EmbedSparseMatrix (785), AddSPM (216)"]}
{"id": "C12", "title": "Merging sum of two sparse matrices", "statement": "AddMergeSPM(alpha, A, beta, B) returns alpha A + beta B on the union pattern.", "quantifier": "all pairs of matrices and all scalars", "why_tests_cant": "A sum on a merged pattern must be right for every interleaving of the two row patterns.", "anchors": ["src/base/linalg/utils_sparseLA.cpp: AddMergeSPM (154-209)"]}
{"id": "C13", "title": "Compressing a matrix never loses non-zero entries", "statement": "CompressA drops an entry only when it is (numerically) zero compared with the tolerance, so the compressed matrix acts like the original.", "quantifier": "all matrices, including those with negative entries", "why_tests_cant": "Depends on the sign of every entry.", "anchors": ["src/base/linalg/utils_sparseLA.cpp: CompressA_impl (970-1006), abssum_tm (966)"]}
{"id": "C14", "title": "Sparse identity and block assembly", "statement": "createSparseIdentity(n) acts as the identity on every vector; assembling a block matrix of sparse blocks into one sparse matrix places block (i,j) at the right row and column offset.", "quantifier": "all sizes n; all block layouts", "why_tests_cant": "Must hold for every size and index.", "anchors": ["src/base/linalg/utils_sparseLA.cpp: createSparseIdentityImpl (840-867), Block2SparseMatrix_impl (509-619)"]}
{"id": "C15", "title": "Gauss-Seidel keeps the residual contract", "statement": "For the sequential Gauss-Seidel smoother, Smooth / SmoothBack called with res = b - A x (res_updated) and update_res leave res = b - A x for the new x; if res is not valid on entry but update_res is requested, res is valid on exit all the same.", "quantifier": "all symmetric matrices, all sets of free dofs, all x, b, all flag combinations allowed by the contract", "why_tests_cant": "An algebraic invariant of every step of a sweep of arbitrary length.", "anchors": ["src/base/smoothers/gssmoother.cpp: GSS3::SmoothRHSInternal, SmoothRESInternal, Smooth, SmoothBack (350-398)", "src/base/smoothers/base_smoother.hpp (68-72)"]}
{"id": "C16", "title": "The optimisation flags never change the result", "statement": "The new x computed by Gauss-Seidel Smooth / SmoothBack depends only on x and b: whatever of res_updated / update_res / x_zero the caller passes, as long as the flags are truthful, the same x is produced.", "quantifier": "all flag combinations, matrices, vectors", "why_tests_cant": "Equality of two different sweep algorithms (row access vs. residual update) for all inputs.", "anchors": ["src/base/smoothers/gssmoother.cpp: GSS3::SmoothRHSInternal, SmoothRESInternal, Smooth, SmoothBack"]}
{"id": "C17", "title": "Constrained dofs are never touched", "statement": "Smoothing leaves x unchanged in every dof that is not free.", "quantifier": "all freedofs sets, matrices, vectors, sweeps in both directions", "why_tests_cant": "Frame condition over all dofs and all sets.", "anchors": ["src/base/smoothers/gssmoother.cpp: GSS3::SetUp, CalcDiags", "src/base/smoothers/block_gssmoother.cpp: BSmoother ctor"]}
{"id": "C18", "title": "The solution is a fixed point of smoothing", "statement": "If A x = b on all free dofs then Smooth and SmoothBack return x unchanged.", "quantifier": "all matrices, right-hand sides and free sets", "why_tests_cant": "Universally quantified fixed point equation.", "anchors": ["src/base/smoothers/gssmoother.cpp: GSS3::Smooth, SmoothBack"]}
{"id": "C19", "title": "Backward sweep is the adjoint of the forward sweep", "statement": "For symmetric A, the error propagation of SmoothBack is the A-adjoint of that of Smooth: <A S x, y> = <A x, S* y> for all x,y; hence a forward followed by a backward sweep is a symmetric preconditioner step.", "quantifier": "all symmetric matrices, all free sets, all pairs of vectors", "why_tests_cant": "Bilinear identity over all vectors.", "anchors": ["src/base/smoothers/gssmoother.cpp: GSS3::Smooth, SmoothBack"]}
{"id": "C20", "title": "Smoothing never increases the energy error", "statement": "For symmetric A with positive diagonal on the free dofs, Gauss-Seidel sweeps in any order never increase J(x) = <Ax,x> - 2<b,x> (equivalently the energy norm of the error).", "quantifier": "all such matrices, all x, b and all sweep orders", "why_tests_cant": "An inequality over real vector spaces of every dimension.", "anchors": ["src/base/smoothers/gssmoother.cpp: GSS3::SmoothRHSInternal"]}
{"id": "C21", "title": "Block Gauss-Seidel keeps the residual contract and is flag independent", "statement": "The block smoother, for arbitrary (also overlapping) blocks, leaves res = b - A x when update_res is requested and res was valid, and computes the same x from the right-hand side variant and the residual variant.", "quantifier": "all symmetric matrices, all block tables, vectors, directions", "why_tests_cant": "Overlapping blocks of arbitrary shape.", "anchors": ["src/base/smoothers/block_gssmoother.cpp: BSmoother::Smooth_impl (283-334), SmoothRES_impl (358-388), Smooth, SmoothBack (436-497)"]}
{"id": "C22", "title": "Parallel block sweeps are schedule independent", "statement": "Blocks with the same colour may be processed in any order (hence by any task schedule) with identical results for x and res, because the colouring separates every two blocks whose updates interact.", "quantifier": "all matrices, block tables, and all permutations of each colour class", "why_tests_cant": "Number of schedules is factorial; races show up only on some of them.", "anchors": ["src/base/smoothers/block_gssmoother.cpp: BSmoother ctor colouring (16-214), IterateBlocks (217-275)"]}
{"id": "C23", "title": "Block smoother with precomputed rows: same iterate, right residual, for all flags", "statement": "The block smoother with precomputed block rows (overlapping and non-overlapping version, forward and backward) computes the same new x as the reference block smoother with the same blocks whatever the flags (in particular whether or not the caller declares x = 0, and whether or not the residual is supplied), and with update_res hands back b - A x; SmoothGroups over all groups equals Smooth; the non-overlapping version rejects overlapping blocks.", "quantifier": "all symmetric block matrices, block lists in groups, vectors, flag combinations consistent with the data, directions, step counts and contents of the work vector", "why_tests_cant": "Two different algorithms selected by a flag.", "anchors": ["src/base/smoothers/loc_block_gssmoother_impl.hpp: Smooth (747-772), RichardsonUpdate, FW_zig (262), BW_zig (278)"]}
{"id": "C24", "title": "Composed smoothers keep the contract", "statement": "Richardson, Jacobi, k-step and symmetric proxy smoothers keep res = b - A x when asked to, given that the wrapped smoother does; so does the Hiptmair smoother's forward sweep.", "quantifier": "all wrapped smoothers meeting the contract, all step counts, all flags", "why_tests_cant": "Quantifies over arbitrary smoothers and step counts.", "anchors": ["src/base/smoothers/base_smoother.cpp: BaseSmoother::SmoothSymm, SmoothK, SmoothBackK, SmoothSymmK, RichardsonSmoother, HiptMairSmoother", "src/base/smoothers/base_smoother.hpp: ProxySmoother"]}
{"id": "C25", "title": "AMG cycle is a linear operator", "statement": "One V-, W- or BS-cycle started from x = 0 maps b to x linearly.", "quantifier": "any number of levels, any linear level smoothers and transfers, any linear coarse solve", "why_tests_cant": "Depends on the depth of the hierarchy.", "anchors": ["src/base/solve/amg_matrix.cpp: AMGMatrix::SmoothV, SmoothW, SmoothBS, Mult"]}
{"id": "C26", "title": "V-cycle is symmetric", "statement": "If level matrices are symmetric, restriction is the transpose of prolongation, post-smoothing is the adjoint of pre-smoothing and the coarse inverse is symmetric, the V-cycle preconditioner B satisfies <B u, v> = <u, B v>, as Krylov methods such as CG require.", "quantifier": "every hierarchy depth and all vectors", "why_tests_cant": "An induction over levels on arbitrary operators.", "anchors": ["src/base/solve/amg_matrix.cpp: AMGMatrix::SmoothV (190-307), MultTrans"]}
{"id": "C27", "title": "No cycle increases the energy", "statement": "With Galerkin coarse matrices, smoothers that do not increase their level's energy and an exact coarse solve, a V-, W- or BS-cycle never increases J(x) = <Ax,x> - 2<b,x>.", "quantifier": "every depth, all cycle types, all x, b", "why_tests_cant": "Inequality over all hierarchies.", "anchors": ["src/base/solve/amg_matrix.cpp: SmoothV, SmoothW, SmoothBS, SmoothVFromLevel"]}
{"id": "C28", "title": "V-cycle internal residual bookkeeping is right", "statement": "The residual that the V-cycle hands to the next level is exactly P^T (b - A x) for the pre-smoothed x on each level, whatever smoother honouring the contract is used, and the cycle's result equals the textbook recursive V-cycle.", "quantifier": "every depth and contract-abiding smoother", "why_tests_cant": "The iterative up/down loops share buffers among levels; equality with the recursion must hold for all depths.", "anchors": ["src/base/solve/amg_matrix.cpp: AMGMatrix::SmoothV (190-307), SmoothVFromLevel (310-374)"]}
{"id": "C29", "title": "MultAdd and repeated application", "statement": "MultAdd(s,b,x) adds s times the result of Mult(b) to x and does not depend on stale workspace contents of earlier calls, for every hierarchy of at least two levels; with a single level both depend on stale data.", "quantifier": "all call histories, all s, b, x", "why_tests_cant": "State left in the work vectors from arbitrary earlier calls.", "anchors": ["src/base/solve/amg_matrix.cpp: AMGMatrix::Mult, MultAdd, MultTransAdd"]}
{"id": "C30", "title": "Basis function request validation", "statement": "GetBF(level, rank, comp, dof) rejects every request whose rank, component or dof is out of range and otherwise returns the prolongated unit vector.", "quantifier": "all request tuples and hierarchies", "why_tests_cant": "Boundary values.", "anchors": ["src/base/solve/amg_matrix.cpp: AMGMatrix::GetBF"]}
{"id": "C31", "title": "Transfer through a DOF map is composition, and F2C is the adjoint of C2F", "statement": "Transferring level i to level j applies the single steps in order; coarse-to-fine is the exact adjoint of fine-to-coarse on every path, so <F2C x, y> = <x, C2F y>.", "quantifier": "any number of steps of any shape, all vectors", "why_tests_cant": "Depth and dimension unbounded.", "anchors": ["src/base/coarsening/dof_map.cpp: DOFMap::TransferAtoB, ConcDMS, ProlMap"]}
{"id": "C32", "title": "Coarse matrices are the Galerkin chain", "statement": "AssembleMatrices returns, for every level, the matrix obtained by repeatedly applying the steps' Galerkin projections, so <A_l x, y> = <A_0 P x, P y> with P the product of all prolongations to level l.", "quantifier": "any number of steps, all vectors", "why_tests_cant": "Depth unbounded.", "anchors": ["src/base/coarsening/dof_map.cpp: DOFMap::AssembleMatrices"]}
{"id": "C33", "title": "Concatenating steps preserves the transfer", "statement": "Merging neighbouring steps whenever they can be concatenated yields, once the result has been finalised, a step with the same fine-to-coarse and coarse-to-fine action as applying all original steps in order; the list is cut into groups such that no merged group can still be concatenated with the step after it. The result itself is not finalised: restricting with it first is undefined behaviour.", "quantifier": "every list of steps", "why_tests_cant": "Greedy loop over arbitrary lists.", "anchors": ["src/base/coarsening/dof_map.cpp: MakeSingleStep2, MakeSingleStep3, ConcDMS"]}
{"id": "C34", "title": "A finalised DOF map is immutable", "statement": "After Finalize of a map with at least one step (or any use that finalises implicitly), adding or prepending a step throws and leaves the map unchanged; before, nothing throws and the map's steps are exactly those prepended and added, in order. Finalising an empty map has no effect and ReplaceStep is not guarded.", "quantifier": "all histories of AddStep / PrependStep / Finalize", "why_tests_cant": "All operation histories.", "anchors": ["src/base/coarsening/dof_map.cpp: DOFMap::AddStep, PrependStep, Finalize"]}
{"id": "C35", "title": "Distributed vectors are cumulated correctly", "statement": "After the distributed-to-concentrated and concentrated-to-cumulated exchange every rank sees, on each shared dof, the sum of all ranks' contributions; after the first half the lowest rank sharing a dof holds the sum and all others zero; no schedule of computations and message deliveries deadlocks, touches a buffer in use or changes the result. (Only for vectors marked as distributed: concentrating a vector marked as cumulated adds left-over receive buffers to the masters' values.)", "quantifier": "all rank counts, sharing patterns, values, previous buffer contents and schedules", "why_tests_cant": "All process counts and message orders.", "anchors": ["src/base/linalg/dcc_map.cpp: DCCMap::DIS2CO, CO2CU, BasicDCCMap"]}
{"id": "C36", "title": "Hybrid splitting preserves the global operator", "statement": "Splitting each rank's matrix into a master part M and a rest G preserves the global matrix: the sum over ranks of M+G equals the sum of the original local matrices, M has entries only between dofs the rank is master of, and the hybrid matrix applied to a vector is Mx + Gx.", "quantifier": "all rank counts, sharing patterns and local matrices", "why_tests_cant": "All process counts and patterns.", "anchors": ["src/base/linalg/hybrid_matrix.cpp: DecomposeSparseMatrixHybrid (20-307), HybridBaseMatrix::Mult"]}
{"id": "C37", "title": "Hybrid smoother keeps the residual contract", "statement": "One call of the MPI-parallel smoother, with any number of local steps, any overlap mode (synchronous, overlapped, communication in a background thread), any flags and any message schedule, terminates, adds to x on all ranks alike the correction the owner of each dof computes from b - A x (the same correction for all modes and flags), leaves b standing for the same vector, and returns a distributed residual equal to b - A x when asked to. Exceptions: for a cumulated b with x = 0 and no residual given, or a cumulated residual, the returned residual is wrong.", "quantifier": "all partitions, matrices, vectors, local stage smoothers meeting the local contract, flags, step counts, overlap modes, interleavings with the communication thread and message schedules", "why_tests_cant": "Combination of stages, flags and stashed G x.", "anchors": ["src/base/smoothers/hybrid_base_smoother.cpp: SmoothImpl (246-289), SmoothImplRHS, SmoothImplRES, stage order (502-574)"]}
{"id": "C38", "title": "Hybrid smoother forward and backward are adjoint only for one local step", "statement": "With at most one local step the backward hybrid sweep is the adjoint of the forward sweep with respect to the parallel inner product (for symmetric local matrices and mutually adjoint stage kernels, whatever modes and flags the two sweeps are run with). This does not hold for more than one local step; with locally symmetrised Gauss-Seidel kernels each direction is self-adjoint instead, and the two directions are not adjoint to each other.", "quantifier": "all numbers of local steps and stage kernels", "why_tests_cant": "Requires reasoning about the composed operator for every step count.", "anchors": ["src/base/smoothers/hybrid_base_smoother.cpp: CallStageKernelsImpl (502-574)"]}
{"id": "C39", "title": "Background communication thread runs every job exactly once", "statement": "For every interleaving of the main thread and the background thread, each StartInThread / WaitForThread pair runs the given function exactly once and WaitForThread returns only after it has finished.", "quantifier": "all schedules and all numbers of rounds", "why_tests_cant": "Schedules are unbounded.", "anchors": ["src/base/smoothers/hybrid_base_smoother.cpp: BackgroundMPIThread (11-67)"]}
{"id": "C40", "title": "Shutting down the background thread terminates", "statement": "Destroying the background thread always makes the worker terminate so that join returns.", "quantifier": "all schedules", "why_tests_cant": "A lost wake-up occurs only in one interleaving.", "anchors": ["src/base/smoothers/hybrid_base_smoother.cpp: ~BackgroundMPIThread, BackgroundMPIThread loop"]}
{"id": "C41", "title": "Equivalence classes: order, merge and intersection tables", "statement": "IsLEQ(i,j) is true exactly if the rank set of class i is contained in that of class j; the merge/intersection tables give the class of the union/intersection whenever it exists and 'none' otherwise; lookup by rank set finds a class exactly when it exists.", "quantifier": "all families of rank sets", "why_tests_cant": "All set families.", "anchors": ["src/base/distributed/eqchierarchy.cpp: SetupFromDPs (537-770)", "src/base/distributed/eqchierarchy.hpp: IsLEQ, GetCommonEQC, FindEQCWithDPs"]}
{"id": "C42", "title": "Ranks agree on the order and identity of shared classes", "statement": "Any two ranks list the classes they share in the same relative order, and the ids assigned by the masters are globally unique and agreed by all members.", "quantifier": "all rank counts and families of classes", "why_tests_cant": "All process counts.", "anchors": ["src/base/distributed/eqchierarchy.cpp: SetupFromDPs sort and id assignment (537-640)"]}
{"id": "C43", "title": "Class hierarchy is closed under intersection", "statement": "The completion loop terminates and its result contains the intersection of any two classes and every initial class.", "quantifier": "all families of rank sets", "why_tests_cant": "Fixpoint loop over set families.", "anchors": ["src/base/distributed/eqchierarchy.cpp: SetupFromInitialDPs (496-523)"]}
{"id": "C44", "title": "Global number of classes", "statement": "The reported global number of equivalence classes equals the number of different classes over all ranks.", "quantifier": "all rank counts and class families", "why_tests_cant": "Needs all rank counts.", "anchors": ["src/base/distributed/eqchierarchy.cpp: SetupFromDPs neqcs_glob (618-630)"]}
{"id": "C45", "title": "ReduceTable", "statement": "ReduceTable makes every member of a class end up with the same row: the reduction function applied to the members' rows, ordered by rank.", "quantifier": "all rank counts, classes, row contents and reduction functions", "why_tests_cant": "All process counts and data.", "anchors": ["src/base/distributed/reducetable.hpp: ReduceTable (20-520)"]}
{"id": "C46", "title": "Aggregates partition the free vertices", "statement": "MIS agglomeration puts every vertex in at most one aggregate, every free (non-Dirichlet) vertex in exactly one, every aggregate is non-empty, contains its centre, and v_to_agg agrees with the aggregates' member lists, whatever the strength-of-connection values are.", "quantifier": "all graphs, all orderings of vertices, all strength oracles, all fixed-vertex sets", "why_tests_cant": "Every graph and every strength function.", "anchors": ["src/base/coarsening/mis_agg_impl.hpp: init_agglomerate (468-574), first loop (694-708), second loop (738-833)"]}
{"id": "C47", "title": "Dirichlet vertices are never aggregated", "statement": "No aggregate contains a Dirichlet vertex.", "quantifier": "all graphs and Dirichlet sets", "why_tests_cant": "Needs the pathological graph (hanging vertex attached to a Dirichlet vertex).", "anchors": ["src/base/coarsening/mis_agg_impl.hpp: second loop (765-780)"]}
{"id": "C48", "title": "Vertex map of an agglomeration", "statement": "For agglomerates of owned vertices whose ranks all know the centre, on every rank the vertex map is -1 exactly on the vertices that are in no agglomerate of their owner, sends two vertices to the same coarse vertex iff they are in the same agglomerate, and hits every coarse number 0..nc-1; numbers on different ranks denote the same coarse vertex (same place in the same class) iff they stand for the same agglomerate, a coarse vertex lies in the class of the agglomerate's centre, and ranks agree on the number of coarse vertices of a class.", "quantifier": "all numbers of ranks, class structures, vertex counts and admissible agglomerates on all ranks", "why_tests_cant": "All partitions and all distributions over ranks; ranks see only their part.", "anchors": ["src/base/coarsening/agglomerate_map.cpp: MapVerts (99-283)"]}
{"id": "C49", "title": "Edge map of an agglomeration", "statement": "On every rank the edge map sends a fine edge to the coarse edge joining the images of its end points, and to -1 iff they coincide or one is unmapped; coarse edges are unique on a rank and have v0 < v1; every coarse edge comes from a fine edge on one of its ranks; the class of a coarse edge is the set of ranks that have both its vertices, it is an edge within a class iff both vertices are in that class; all ranks of a class agree on the number of its coarse edges and on their order, and two coarse edges of different ranks join the same vertices iff they have the same place in the same class.", "quantifier": "all numbers of ranks, class hierarchies, distributed meshes and vertex maps that are consistent across ranks (in particular those of MapVerts)", "why_tests_cant": "All graphs and all distributions of them over any number of ranks.", "anchors": ["src/base/coarsening/agglomerate_map.cpp: MapEdges (466-957)"]}
{"id": "C50", "title": "Level setup terminates with strictly shrinking levels", "statement": "Building the hierarchy terminates for every coarsening behaviour, produces one transfer step per added level, level measures strictly decrease (by the demanded factor if redistribution is enabled), and it stops only because the coarse mesh is small enough, the last allowed level is reached, or no acceptable coarser mesh exists.", "quantifier": "all coarsening/contraction outcomes and option values", "why_tests_cant": "Behaviour of the coarsening is arbitrary; recursion depth unbounded.", "anchors": ["src/base/factory/base_factory.cpp: BaseAMGFactory::RSU (246-330), DoStep (333-434), TryCoarseStep (520-563)"]}
{"id": "C51", "title": "max_n_levels is respected for every value", "statement": "The hierarchy never has more levels than max_n_levels.", "quantifier": "all values of the option, including 0 and 1", "why_tests_cant": "Boundary values of an equality test in a recursion.", "anchors": ["src/base/factory/base_factory.cpp: RSU (246-330)"]}
{"id": "C52", "title": "Redistribution factor", "statement": "The contraction factor proposed is 1 (no redistribution), -1 (everything to one rank) or a value in (0, 1/2], and a redistribution that is asked for leaves fewer ranks than before.", "quantifier": "all measures, rank counts and options", "why_tests_cant": "Real-valued inputs.", "anchors": ["src/base/factory/base_factory.cpp: FindRDFac (566-618)"]}
{"id": "C53", "title": "Level-dependent options", "statement": "GetOpt(level) returns the level specific value if one was given and the default otherwise, whatever the level; reading the option from flags sets exactly what the flags say; copying, moving and assigning keep all values; merging two boolean option sets switches a level on iff one of them has it on there.", "quantifier": "all specifications and levels", "why_tests_cant": "All lists and levels.", "anchors": ["src/base/utils/SpecOpt.hpp: SpecOpt"]}
{"id": "C54", "title": "Parallel block filtering loses no master dof", "statement": "Splitting smoothing blocks into the two local groups and the exchange group keeps, in each group, only dofs the rank is master of, and every master dof of every block appears in exactly one of the filtered blocks it came from.", "quantifier": "all block tables and sharing patterns", "why_tests_cant": "All tables.", "anchors": ["src/base/smoothers/block_gssmoother.cpp: HybridBS FilterBlocks (586-666)"]}
{"id": "C55", "title": "Message packing round-trip", "statement": "Packing a sequence of items (numbers, vectors, matrices, tuples, elasticity vertex data) with PackIntoBuffer into a buffer of the advertised size writes only into that part of the buffer, and UnpackFromBuffer of the same sequence returns exactly these items and consumes what was written.", "quantifier": "all sequences of items of all buffered types, all buffer contents around them", "why_tests_cant": "All data sequences.", "anchors": ["src/base/utils/utils_buffering.hpp: PackIntoBuffer, UnpackFromBuffer, SIZE_IN_BUFFER", "src/elasticity/elasticity_mesh.hpp: ElastVData, PackIntoBuffer, UnpackFromBuffer"]}
{"id": "C56", "title": "Compressed Gauss-Seidel equals uncompressed Gauss-Seidel", "statement": "The smoother that stores only the rows of a dof subset (GSS4) computes, for right-hand-side and residual sweeps in both directions, exactly what the full-matrix smoother (GSS3) computes on the same subset, when it is given the diagonal to use; built without a replacement diagonal and with a proper subset it uses a wrong diagonal entry and does not.", "quantifier": "every matrix, subset, diagonal, right hand side, iterate and direction", "why_tests_cant": "Depends on the renumbering of rows but not of columns for every subset.", "anchors": ["src/base/smoothers/gssmoother.cpp: GSS4 (406-583), GSS3 (93-396)"]}
{"id": "C57", "title": "Coarse-grid-only application", "statement": "CINV(x,b) overwrites x with prolongation . coarse inverse . restriction applied to b over all levels, without any smoothing, and afterwards the work vectors of level 0 are again the ones from before.", "quantifier": "every hierarchy depth, every b, any content of the work vectors and of x", "why_tests_cant": "All depths and any stale content of the work vectors.", "anchors": ["src/base/solve/amg_matrix.cpp: AMGMatrix::CINV (410-443)"]}
{"id": "C58", "title": "AMG as a smoother", "statement": "An AMG matrix used as a smoother on some start level honours the smoother contract (new iterate x + C(b-Ax), true residual when asked for, for all valid flags) and its SmoothBack is the adjoint of its Smooth, with the coarse correction on only one side or on both; the exception is the one-sided variant started on the last smoothed level, which accesses the smoother array out of bounds.", "quantifier": "every hierarchy, start level, flag combination and work vector content", "why_tests_cant": "All hierarchies, levels and flags.", "anchors": ["src/base/solve/amg_matrix.cpp: AMGSmoother::Smooth/SmoothBack (690-788)", "src/base/solve/amg_matrix.cpp: SmoothVFromLevel (310-374)"]}
{"id": "C59", "title": "Embedded AMG matrix", "statement": "EmbeddedAMGMatrix::Mult is pre-smoothing with the finest-level smoother, coarse correction with one cycle of the inner AMG matrix, post-smoothing (without finest-level smoother: embedding . V-cycle . transposed embedding); the result is a symmetric linear operator if its parts are; MultAdd(s,b,x) adds s times this.", "quantifier": "every inner hierarchy, embedding, smoother pair, scalar, vector and work vector content", "why_tests_cant": "All hierarchies and stale work vectors.", "anchors": ["src/base/solve/amg_matrix.cpp: EmbeddedAMGMatrix::Mult (600-641), MultAdd (650-654)"]}
{"id": "C60", "title": "Block smoother as additive Schwarz operator", "statement": "MultAdd(s,b,x) of the block smoother adds s times the sum over all blocks of (extend . block inverse . restrict) applied to b, whatever the schedule of the parallel loop, when no dof lies in two blocks; when blocks overlap the loop is not coloured and there are schedules that lose an update.", "quantifier": "every set of blocks, matrix, scalar, vectors and every interleaving of the parallel loop", "why_tests_cant": "Needs all interleavings of all threads and all block layouts.", "anchors": ["src/base/smoothers/block_gssmoother.cpp: BSmoother::MultAdd (411-433)"]}
{"id": "C61", "title": "The parallel block smoother works only on its own dofs", "statement": "Whenever at least two ranks take part in a level, a rank's parallel block smoother works only on blocks of dofs it is master of, and blocks with dofs shared with other ranks are in the group that is smoothed between the exchanges.", "quantifier": "all communicator sizes, both values of \"rank 0 is idle\", all block tables and sharing patterns", "why_tests_cant": "The number of ranks, the idle flag and the sharing pattern are all free; the case of exactly two ranks is easily missed.", "anchors": ["src/base/smoothers/block_gssmoother.cpp: HybridBS constructor (525-535), FilterBlocks", "src/base/distributed/eqchierarchy.cpp:86"]}
{"id": "C62", "title": "Redistribution groups partition the ranks", "statement": "For every answer of the graph partitioner, the groups of ranks are disjoint, non-empty, cover all ranks and number at most what was asked for; an idle rank 0 stays alone; exactly one rank of every group (its smallest) takes part afterwards, with the group's number as its new rank.", "quantifier": "all numbers of ranks and groups, all partitioner answers", "why_tests_cant": "Partitioner output and rank counts are unbounded.", "anchors": ["src/base/coarsening/grid_contract.cpp: PartitionProcsMETIS (20-202), BuildCEQCH (909-934)"]}
{"id": "C63", "title": "All ranks build the same hierarchy", "statement": "Every rank sees the same level measures and communicator sizes as rank 0, up to the level in which it drops out; rank 0 never drops out.", "quantifier": "all ranks, coarsening outcomes, options and partitioner answers", "why_tests_cant": "Depends on every interleaving of redistribution decisions over unboundedly many levels and ranks.", "anchors": ["src/base/factory/base_factory.cpp: RSU (246-330), DoStep (333-434), TryContractStep (621-675)"]}
{"id": "C64", "title": "Missed coarsening goal triggers redistribution", "statement": "When the coarsening misses its goal or slows down beyond rd_crs_thresh, the ranks are regrouped and the setup goes on.", "quantifier": "all coarsening outcomes and options", "why_tests_cant": "Combination of two thresholds in different functions.", "anchors": ["src/base/factory/base_factory.cpp: DoStep (385-395), TryCoarseStep (545-563)"]}
{"id": "C65", "title": "Constructors find all classes", "statement": "The class hierarchy built from the dofs' distant ranks starts from the local class followed by exactly the different non-empty rank sets of the selected dofs, each once, in the order of their first dof; this fails for the constructor from the nodes of several types of a mesh, where a class may get lost or appear twice.", "quantifier": "all numbers of dofs, selections and distant-rank assignments", "why_tests_cant": "Needs every assignment of ranks to dofs.", "anchors": ["src/base/distributed/eqchierarchy.cpp: EQCHierarchy::EQCHierarchy(pardofs), EQCHierarchy(mesh, node types)"]}
{"id": "C66", "title": "Redistribution step: gather and scatter", "statement": "A redistribution step hands the dofs of a group of ranks to one of them. Restricting gives on the receiving rank, for each new dof, the sum of the (distributed) values of all group members' dofs mapped to it, independent of the order in which the messages complete; prolongating gives each member exactly the values of the (cumulated) new vector at its dofs; the additive versions add the given multiple of these to the existing vectors; restriction and prolongation are adjoint to each other; members without dofs take no part and nothing hangs or overflows a buffer; setting up the communication a second time changes nothing.", "quantifier": "all group sizes, all dof maps (also members without dofs, dofs mapped to the same new dof), all vectors, factors and all completion orders of the messages", "why_tests_cant": "the completion order of the receives is up to the MPI library and dof maps come from arbitrary meshes; a test sees one order and one map", "anchors": ["src/base/coarsening/dof_contract.cpp: CtrMap::TransferF2C, AddF2C, TransferC2F, AddC2F, SetUpMPIStuff"]}
{"id": "C67", "title": "Redistribution step: contracted matrix", "statement": "Assembling the matrix of a redistribution step never fails and yields, on the receiving rank, the sum over the group members of their matrices renumbered by their dof maps: entry by entry, with exactly the union pattern, rows sorted strictly ascending; applying it equals scattering the vector to the members, applying their matrices and gathering; energy is the sum of the members' energies and symmetry is inherited.", "quantifier": "all group sizes, all duplicate free dof maps into at most INT_MAX dofs, all member matrices with distinct columns per row in any stored order", "why_tests_cant": "the row merging takes different paths for rows with zero, one and several sources, for sorted and unsorted renumbered columns, for own and received rows", "anchors": ["src/base/coarsening/dof_contract.cpp: CtrMap::DoAssembleMatrix"]}
{"id": "C68", "title": "Redistribution step: swapping with a prolongation", "statement": "Pulling a prolongation through a redistribution step gives every member a chunk of it and new dof maps such that prolongating with the full matrix and scattering equals scattering with the new maps and prolongating with the chunks, and likewise for restriction with the transposes; the new dof maps are ascending and contain exactly the needed columns. This holds only if the swap happens before the communication is set up: afterwards the message types stay those of the old maps (setting up again does nothing) and members can receive wrong entries.", "quantifier": "all group maps, all prolongation matrices, all vectors, all completion orders", "why_tests_cant": "depends on arbitrary sparsity patterns and on the order of two calls", "anchors": ["src/base/coarsening/dof_contract.cpp: CtrMap::SwapWithProl, PullBack, SetUpMPIStuff"]}
{"id": "C69", "title": "Dynamic block matrices: conversion and product", "statement": "Converting a square sparse matrix with ascending columns and structurally symmetric pattern to the dynamic block format never fails; the row blocks are exactly the classes of rows with identical stored columns (each row in one block, rows of a block ascending, the block holding their values); multiplying gives A x and multiply-add gives y + s A x, for every vector. The same holds for rectangular matrices with a given column blocking if every row stores whole column groups. The symmetry of the pattern is needed: a matrix with unsymmetric pattern is converted without complaint and then the product runs over its column buffer.", "quantifier": "all square matrices of any size with ascending columns and symmetric pattern (any entries, empty rows allowed), all rectangular ones with a compatible column blocking, all vectors and factors, every order in which the row sort leaves equal rows", "why_tests_cant": "the layout depends on arbitrary coincidences of sparsity patterns far apart in the matrix and on an unstable sort", "anchors": ["src/base/linalg/dyn_block.cpp: DynBlockSparseMatrix (constructors), Finalize, Mult, MultAdd, MultiplyBlock, ConvertToDynSPM", "src/base/linalg/dyn_block_impl.hpp: GetBlockRCV"]}
{"id": "C70", "title": "Dynamic block smoother", "statement": "Building the dynamic block smoother of a symmetric matrix never fails, and a call of Smooth/SmoothBack never runs outside its buffers; whatever the flags, if the residual is asked for it is b - A x of the new iterate, and the new iterate does not depend on the flags; constrained dofs are never changed, also when they share a block with free ones; a vector that satisfies the equations of all free dofs is left alone; SmoothBack is the adjoint of Smooth, for every relaxation factor.", "quantifier": "all symmetric matrices with stored diagonal and ascending columns, every choice of free dofs and replacement diagonal, every relaxation factor, all vectors and legal flag combinations, both directions", "why_tests_cant": "must hold for every pattern of blocks and every mixture of free and constrained dofs in a block; residual and iterate are updated by different code for different flags", "anchors": ["src/base/smoothers/dyn_block_smoother.cpp: DynBlockSmoother, SetUp, updateBlockRHS, updateBlockRes, SmoothImpl, IterateBlocks"]}
{"id": "C71", "title": "Iterative solver: stopping, residual and statistics", "statement": "With its flags set, LinearSolver::Solve runs the iteration until the first iterate whose residual norm is below rtol times the initial one, never more than max_steps times, and never fewer unless that happened; it hands back that iterate with its true residual, reports convergence exactly if the criterion was met, records the error of every iterate when asked to, and GetNeededSteps is one more than the number of steps done (-1 without convergence). Mult starts from zero and its result depends neither on the vectors passed for the result nor on earlier calls; MultAdd adds s times that. For AMGAsLinearSolver the iterates are V-cycles. Exceptions: a solver that was only constructed and configured through its public setters reads an uninitialised flag in Solve; and with error checking on but tolerance 0 and neither printing nor recording, it stops after one step and reports convergence whatever the residual.", "quantifier": "all iterations that honour the residual contract (in particular every AMG hierarchy), all matrices, right hand sides, start values, tolerances, step limits and flag combinations", "why_tests_cant": "stopping depends on data-dependent comparisons after arbitrarily many steps; the uninitialised flag makes any single test run meaningless", "anchors": ["src/base/solve/LinearSolver.cpp: Solve, Mult, MultAdd, AMGAsLinearSolver::DoIteration", "src/base/solve/LinearSolver.hpp: LinearSolver"]}
{"id": "C72", "title": "Elasticity: vertex transformations, products with them and edge contributions", "statement": "The transformation Q between the degrees of freedom (displacement, scaled rotation) of two vertices that the elasticity energy builds carries the values of every rigid body mode at one vertex to its values at the other; the two transformations of an edge carry both end values to the values at the midpoint vertex and are inverse to each other; transformations along a path compose. The specialised in-place products (M*Q, Q^T*M, Q^T*M*Q and their scaled, adding and stored-matrix variants) equal the full matrix products. The 2x2 block contribution of an edge with symmetric matrix E is symmetric, has energy (E d, d) for the jump d of the transformed end values, and vanishes on all rigid body modes; midpoint weights keep the energy for equal rotation scalings. Exceptions: the variant of SetQ with a factor does not scale the coupling block; Q*M*Q^T is wrong in three dimensions; SetQtMQ (hence midpoint weights) is wrong for different rotation scalings.", "quantifier": "both space dimensions, all vertex positions and non-zero rotation scalings with square roots, all (symmetric where stated) matrices, all rigid body modes and block vectors, all previous contents of result matrices", "why_tests_cant": "polynomial identities in 40 and more real variables; random tests with rotation scaling 1 (the default) never see the scaling errors, and several routines have no caller that would expose a wrong entry", "anchors": ["src/elasticity/elasticity_energy.hpp: EpsEpsEnergy::TQ, CalcRMBlock, QtMQ, AddQtMQ, SetQtMQ, CalcMQ, AddMQ, CalcQTM, AddQTM", "src/elasticity/elasticity_energy_impl.hpp: CalcQ, CalcQs, CalcInvQs, CalcQHh, CalcMPData, CalcMPDataWW"]}
{"id": "C73", "title": "Vertex prolongations: rows, columns and kernel vectors", "statement": "The piecewise prolongation has one entry per vertex with a coarse vertex, the transformation from it, and empty rows elsewhere. Every row of the smoothed prolongation of a mapped vertex has strictly ascending columns that include its own coarse vertex; further columns are coarse vertices of neighbours in an equal or higher equivalence class, at most sp_max_per_row in total, and they are the strongest ones by summed edge weight: each is at least sp_min_frac times the largest edge weight at the vertex, none left out is stronger than one chosen, and if the row is not full the strongest one left out is too weak. Vertices without a neighbour in their own aggregate stay piecewise. Rows are smoothed with the system matrix exactly for local vertices all of whose matrix neighbours have coarse vertices in suitable classes, at most sp_max_per_row_classic different ones. Applied to any coarse vector, a row gives the piecewise value minus the damped block Jacobi correction with the system matrix, or with the auxiliary matrix of the edges to vertices of the chosen coarse vertices; so coarse vectors whose piecewise prolongation has no jump over the edges are reproduced exactly by auxiliary rows, for every damping and whatever pseudo inverse is used. The improvement iterations keep the columns and, for such vectors, perform exactly a damped Jacobi step with A*P. The same holds for the rows of the purely auxiliary smoothing matrix. For scalar energies the inverted diagonal is positive. Exception: sp_max_per_row <= 0 makes the loop over the candidates run off the end of the array.", "quantifier": "all meshes, vertex maps, edge weights and matrices, equivalence class orders, options, dampings, (pseudo-)inversion routines, block algebras, coarse vectors and sort implementations that sort", "why_tests_cant": "the statements range over all graphs and weight distributions; a test sees a wrong column choice only as slightly slower convergence, and a violation of kernel preservation only for energies and damping parameters it happens to use", "anchors": ["src/base/factory/vertex_factory_impl.hpp: PWProlMap, SemiAuxSProlMap, ImproveSProlRow, AuxSProlMap"]}
{"id": "C74", "title": "Edge connectivity and auxiliary matrix", "statement": "The edge connectivity of a mesh holds for every vertex exactly its edges, sorted by neighbour (out of range edges are out of bounds accesses). The auxiliary matrix assembled from a mesh has ascending columns (vertex and neighbours), equals the sum of the 2x2 edge matrices over the mastered edges without excluded end plus (on request) the vertex matrices of the mastered vertices, as operator and as energy; it is symmetric when these are, and without vertex matrices annihilates every vector all edges annihilate (for H1: constants). Boosting in-aggregate edges keeps the pattern and the action on vectors that are rigid inside aggregates, and is equivalent to damping by 1/(1+theta) when the process is master of exactly one class; with more mastered classes it is applied once per class.", "quantifier": "all meshes (edge lists), all distributions of edges over mastered classes, all exclusion sets, all vectors, all block algebras and edge matrices", "why_tests_cant": "A test assembles a few meshes; that the sum over edges, symmetry and kernel hold for every mesh and class distribution is a universal statement.", "anchors": ["src/base/mesh/base_mesh.cpp: TopologicMesh::GetEdgeCM", "src/base/factory/aux_mat.hpp: AssembleAhatSparse, addInAggregateEdgeBoost, AssembleAhatSparseStabSP", "src/base/mesh/base_mesh.hpp: BlockTM::ApplyEQ", "src/h1/h1_energy.hpp: CalcRMBlockImpl"]}
{"id": "C75", "title": "Coarse mesh data of H1 meshes", "statement": "For every vertex and edge map of a coarsening and any number of processes sharing the fine mesh: the coarse edge weights, cumulated over the processes, are the sums of the fine edge weights mapped to that coarse edge; the coarse vertex weights are the sums of the fine vertex weights mapped to that vertex plus the weights of the fine edges connecting it to a dropped vertex; therefore the graph energy of a coarse vector equals the fine energy of its piecewise constant interpolation (zero on dropped vertices).", "quantifier": "all meshes, all vertex/edge maps that fit together, all weights (scalar or block-valued energies), all numbers of processes and assignments of masters, all coarse vectors", "why_tests_cant": "A test compares weights of a few coarsenings; that energy is preserved for every vector, map and distribution over processes is universal.", "anchors": ["src/h1/h1_impl.hpp: H1VData::map_data, H1EData::map_data", "src/base/mesh/base_mesh.hpp: BlockTM::Apply", "src/base/mesh/alg_mesh.hpp: AttachedNodeData"]}
{"id": "C76", "title": "Coarse to fine tables and concatenated maps", "statement": "The coarse to fine table of a node map lists for every coarse node exactly the fine nodes mapped to it, in ascending order, each once (map entries out of range are out of bounds accesses). Concatenating two coarse maps maps a node to the image of its image, a dropped node stays dropped, the concatenated maps fit the fine and the coarsest mesh, and mapping the mesh data in two steps gives the same data as mapping it once with the concatenated map.", "quantifier": "all pairs of compatible coarse maps, all meshes and weights", "why_tests_cant": "A test concatenates particular maps; equality of one-step and two-step data for every pair of maps is universal.", "anchors": ["src/base/coarsening/base_coarse.cpp: BaseCoarseMap::GetMapC2F, BaseCoarseMap::SetConcedMap", "src/h1/h1_impl.hpp: H1VData::map_data, H1EData::map_data"]}
{"id": "C77", "title": "Coarse mesh data of elasticity meshes", "statement": "Coarse edge matrices of elasticity meshes are the sums of the fine edge matrices transformed to the coarse edge midpoint; hence the edge energy of every rigid-body interpolated coarse vector equals the coarse energy. Coarse vertex matrices and positions are correct when every coarse vertex is placed at its lowest numbered member. Full statement (also for other centres, for edges to dropped vertices, and for shared coarse vertices) is false of the code: the weight of the lowest member is counted twice and the centre's is lost, dropped-edge contributions are not moved to the coarse vertex, and a process which is not master of a coarse vertex uses zeros as its position.", "quantifier": "all meshes, all fitting maps, all edge matrices, all positions, all coarse vectors", "why_tests_cant": "A test compares one mesh; the equality of energies for all rigid body coefficients and all maps is universal.", "anchors": ["src/elasticity/elasticity_impl.hpp: AttachedEED::map_data, AttachedEVD::map_data", "src/elasticity/elasticity_energy.hpp"]}
{"id": "C78", "title": "Choice of the matching partner", "statement": "When agglomeration by pairwise matching looks for a partner of a vertex, it returns an eligible neighbour of the largest score, and none only if no neighbour is eligible. Eligible: allowed, strength at least scalRelThresh times the largest strength over all neighbours (also those not allowed), robust strength at least min(that bound, edge_thresh) (as a check, or as the score when robust_pick is on), and, if switched on, the agglomerate-wide check. This holds for edge thresholds above -1; at or below -1 a neighbour that is not allowed can be returned, and for scalar energies with robust_pick the robust score is the constant 1, so that not the strongest neighbour is chosen.", "quantifier": "all neighbour lists, all strengths and checks, all thresholds, every sorting routine that sorts", "why_tests_cant": "A test looks at particular strengths; maximality among all eligible neighbours for every combination of filters is universal.", "anchors": ["src/base/coarsening/spw_agg_impl.hpp: FindNeib3Step, FindNeighborToMatch, FindNeighborToJoin"]}
{"id": "C79", "title": "Agglomerates of pairwise matching partition the vertices", "statement": "For every mesh, free vertex set, set of fixed agglomerates, number of rounds, strengths and checks, with or without orphan round: agglomeration by pairwise matching ends without out of bounds access; every vertex that takes part and every vertex of a fixed agglomerate lies in exactly one agglomerate and the vertex to agglomerate table says which, all other vertices in none; fixed agglomerates are kept and numbered last; every other agglomerate is non-empty, connected in the mesh graph, sorted, contains its centre, and without orphan round has at most 2^rounds members. Full statement (also on a process of a parallel run that shares no vertex) is false of the code: with one class only the class table of coarse vertices stays empty and is read out of bounds in the second round.", "quantifier": "all meshes, classes of shared vertices, options, strengths, sorting routines", "why_tests_cant": "A test runs particular meshes; partition, connectedness and size for every strength function and option are universal.", "anchors": ["src/base/coarsening/spw_agg_impl.hpp: SPWAgglomerator::FormAgglomerates_impl, PairingIteration, JoiningIteration, LocCoarseMap::FinishUp, LocCoarseMap::ConcatenateProper, LocCoarseMap::ConcatenateVMap", "src/base/coarsening/base_coarse.cpp: BaseCoarseMap::GetMapC2F, BaseCoarseMap::SetConcedMap"]}
{"id": "C80", "title": "The graph between two matching rounds", "statement": "After a matching round two coarse vertices are joined by an edge exactly when some edge of the finer graph joins members of the two; the edge connectivity has ascending rows and holds exactly these edges; an edge is mapped to a coarse edge joining the images of its ends exactly when these exist and differ. Full statement also says that every coarse edge is listed once; that is false of the code: a coarse vertex with one member that has two edges to members of a later coarse vertex gets the same coarse edge twice.", "quantifier": "all meshes, all vertex maps", "why_tests_cant": "A test builds particular graphs; adjacency for every map is universal.", "anchors": ["src/base/coarsening/spw_agg_impl.hpp: LocCoarseMap::FinishUp, LocCoarseMap::IterateCoarseEdges"]}
{"id": "C81", "title": "The centre of an agglomerate is shared by all processes of its members", "statement": "In a parallel run every agglomerate formed by pairwise matching (other than the fixed ones) has a centre whose set of processes contains the sets of processes of all its members, so that the coarse vertex belongs to one of the existing classes. This holds without orphan round for any number of rounds; with the orphan round it is false of the code: joining does not update the class of the agglomerate it joins, so two vertices shared with different processes can end up in one agglomerate.", "quantifier": "all meshes, all orders of classes by inclusion, all rounds, options and strengths", "why_tests_cant": "A test runs a few distributions; the order between all members and the centre over all rounds is universal.", "anchors": ["src/base/coarsening/spw_agg_impl.hpp: PairingIteration, JoiningIteration, LocCoarseMap::FinishUp, LocCoarseMap::ConcatenateProper, SPWAgglomerator::FormAgglomerates_impl"]}
{"id": "C82", "title": "Loops are sorted into trails", "statement": "Sorting and orienting a loop returns every member exactly once, some of them turned around, as a sequence of pieces in which every member starts where the one before ends (for a loop whose vertices are not all touched an even number of times a piece may be followed by the members that extend it at its beginning, listed backwards). If every vertex is touched an even number of times all pieces are closed; if in addition the loop hangs together and no vertex is touched more than twice there is exactly one piece. Building a loop of signed edge numbers from the edges of one process gives one closed trail, throws if an edge is missing, and throws when the sorting found more than one piece: that also happens for some loops that hang together (two rings with a common vertex).", "quantifier": "all loops of edges of any length, in every order and orientation", "why_tests_cant": "A test sorts particular loops; closedness and completeness for every order and orientation of every loop is universal.", "anchors": ["src/stokes/common/loop_utils.hpp: SortAndOrientLoop, loopDecode, loopEncode", "src/stokes/common/stokes_pc.cpp: sortTup4Loop, BuildStokesMesh (localTransformLoop)"]}
{"id": "C83", "title": "Coarse loops are cut into simple cycles with the same edges", "statement": "Joining the chunks of a coarse loop and cutting the result gives simple cycles (first vertex = last vertex, no other repetition, at least two edges) whose directed edges are together exactly the directed edges of the chunks without those that join a vertex to itself, whenever in the chunks as many edges leave each vertex as enter it and all class numbers are positive; the chunks are left unchanged. A closed vertex list is cut in the same way. An open vertex list without repetition is kept; an open one with a repetition is closed by an edge that it does not contain. With a class number that is not positive the joining never ends.", "quantifier": "all chunk tables and vertex lists, every sorting routine that sorts", "why_tests_cant": "A test cuts particular loops; that no edge is lost or invented for every walk is universal, and non-termination cannot be tested.", "anchors": ["src/stokes/common/loop_utils.cpp: SplitChunk, SimpleLoopsFromChunks"]}
{"id": "C84", "title": "Rotation of a simple loop", "statement": "Rotating a closed simple loop gives the same cycle, in one of the two directions, started at its smallest vertex. The direction is towards the smaller neighbour of the smallest vertex when the loop already started there, and towards the larger neighbour otherwise; so two loops along the same cycle get the same form if both or neither start at their smallest vertex, and can get different forms (and both be kept as coarse loops) otherwise. An open loop is reversed when its last vertex is smaller than its first. Fewer than two vertices are out of bounds.", "quantifier": "all simple cycles of any length", "why_tests_cant": "A test rotates particular loops; equality of the form for every pair of rotations and directions of every cycle is universal.", "anchors": ["src/stokes/common/loop_utils.hpp: rotateVLoop"]}
{"id": "C85", "title": "Coarse loops carry the flow of the fine loop", "statement": "When the loops of a Stokes mesh are mapped to the coarse mesh, the coarse loops of every fine loop are simple cycles with at least three edges that start at their smallest vertex, and summed up with suitable signs +1 and -1 they have on every pair of coarse vertices the same net flow as the image of the whole fine loop, however its edges are spread over the processes: nothing is lost, invented or counted twice. This needs that the masters of the edges together enter a flow without sources (a closed loop), that the tables of shared loops fit on the processes and that class numbers are positive. The part one process enters consists of the edges it is master of, in order and direction of the loop, without edges inside one coarse vertex and without edges between dropped vertices; a master edge between a dropped and a kept vertex is an access out of bounds.", "quantifier": "all numbers of processes, all distributions of loops over processes, all coarse maps, every sorting routine that sorts", "why_tests_cant": "A test maps the loops of one mesh on a few processes; conservation of the flow for every distribution of the edges over processes and every coarse map is universal.", "anchors": ["src/stokes/common/stokes_map_impl.hpp: StokesCoarseMap::MapAdditionalDataB (phases I, II)", "src/stokes/common/loop_utils.cpp: SimpleLoopsFromChunks", "src/stokes/common/loop_utils.hpp: rotateVLoop"]}
{"id": "C86", "title": "All processes of a loop get the same coarse loops", "statement": "All processes that share a fine loop compute the same list of coarse loops for it. Afterwards each process keeps of equal coarse loops the first one; the kept ones come in the old order with the processes of their fine loop and as signed coarse edges: one code for every step between vertices and along an edge the process knows, with the sign of the direction; a cycle all of whose steps are known becomes a closed trail. The tables of kept loops of all processes fit together provided equal coarse loops come from fine loops on the same processes. Otherwise they need not: a loop of one process alone in front of a shared one with the same image makes this process drop a shared loop the other one keeps, and the exchange that follows has rows of different lengths.", "quantifier": "all numbers of processes, all distributions of loops over processes, all lists of coarse loops", "why_tests_cant": "A test compares the tables of a few processes; equality on all processes and the exact condition under which the tables fit range over all distributions.", "anchors": ["src/stokes/common/stokes_map_impl.hpp: StokesCoarseMap::MapAdditionalDataB (phases II, III: tup2bucket, ce_dups, convert_loop, init_loopers)"]}
{"id": "C87", "title": "Leaving out empty loops keeps the tables of shared loops fitting", "statement": "Shrinking the table of processes of the loops, and adding oriented loops to a Stokes mesh (which leaves out empty ones), works for every set of rows each process wants to remove without asking the others: the remaining rows stay in order, the row map numbers them consecutively and has -1 for removed ones, and a process stays in the row of a loop exactly if it keeps the loop itself. When the tables fitted before, they fit afterwards: a loop that two processes keep is shared by both, and in the same order on both.", "quantifier": "all numbers of processes, all tables that fit, all choices of rows to remove on each process", "why_tests_cant": "A test removes particular rows on a few processes; agreement of the tables of all processes for every choice is universal.", "anchors": ["src/stokes/common/loop_utils.hpp: ShrinkDPTable", "src/stokes/common/stokes_mesh_impl.hpp: AddOrientedLoops"]}
{"id": "C88", "title": "Loop blocks: one block per coarse facet", "statement": "The loop blocks of a Stokes mesh for a coarse map are one block for every coarse facet that some fine loop runs over, holding exactly the loops that run over it in increasing order, and one block for every loop none of whose facets survives. So every loop is in a block and two loops are together in a block exactly if they run over a common coarse facet. If every block is a single loop the empty table is returned instead.", "quantifier": "all lists of loops with valid facet codes, all facet maps", "why_tests_cant": "A test builds the blocks of one mesh; completeness and exactness for every list of loops and every map are universal.", "anchors": ["src/stokes/common/stokes_mesh_impl.hpp: StokesMesh::LoopBlocks"]}
{"id": "C89", "title": "Edges with unknowns and who shares them", "statement": "The edges of a Stokes mesh that carry unknowns are those with at least one end that is no ghost; they are numbered consecutively in order, both number maps are inverse to each other, and an edge between two ghosts has number -1. Without ghost vertices all edges are numbered, unless the mesh is parallel, which throws. After the exchange with the neighbours an unknown is shared with exactly those processes of the edge's class for which the edge carries unknowns too; the tables of all processes fit together: same groups, same order.", "quantifier": "all numbers of processes, all meshes whose equivalence classes fit, all choices of ghost vertices", "why_tests_cant": "A test looks at one distributed mesh; agreement of the tables of all processes for every mesh and every choice of ghosts is universal.", "anchors": ["src/stokes/common/stokes_mesh_impl.hpp: StokesMesh::SetUpDOFedEdges, GetDOFedEdges, GetDofedEdgeUDofs", "src/base/mesh/base_mesh.hpp: ApplyEQ2"]}
{"id": "C90", "title": "Ghost vertices of the coarse Stokes mesh", "statement": "A coarse vertex is a ghost on a process exactly if one of the fine vertices the process maps to it is one. If every fine vertex is solid on exactly one process, the vertex maps fit and the vertices of an agglomerate are solid on the same process, then every coarse vertex is solid on exactly one process again; an agglomerate over two owners is solid nowhere. A fine edge that is mapped to a coarse edge with unknowns carries unknowns itself.", "quantifier": "all numbers of processes, all vertex maps, all choices of ghost vertices", "why_tests_cant": "A test checks one mesh; that solid vertices stay unique for every map that keeps agglomerates on one owner is universal.", "anchors": ["src/stokes/common/stokes_map_impl.hpp: StokesCoarseMap::MapAdditionalDataA"]}
{"id": "C91", "title": "Redistribution messages and duplicates", "statement": "When a Stokes mesh is redistributed, the group master unpacks from every member exactly the data the member packed: the global loop numbers, the table of loops, the table of processes of the loops, the ghost marks of the vertices (none if there are no ghost vertices) and the marks of the edges with unknowns, whatever stands in the unused end of the message. Removing duplicates leaves in every row exactly its different entries, in increasing order.", "quantifier": "all tables of loops and processes incl. empty ones and empty rows, all marks, all contents of the unused end of the message", "why_tests_cant": "A test packs one mesh; the roundtrip for every shape of table, empty rows and missing ghost marks included, is universal.", "anchors": ["src/stokes/common/stokes_map_impl.hpp: RemoveDuplicates, StokesContractMap::MapAdditionalData (pack_table, unpack_table, pack_message, unpack_message)"]}
{"id": "C92", "title": "Loops of the redistributed mesh", "statement": "The redistributed Stokes mesh has one loop for every loop that some member of the group has, in the order of the global numbers, and the loop maps lead from every loop of a member to the loop with its global number. A loop consists of exactly the images of the oriented edges of its pieces on the members, without duplicates; the image of an edge that runs from a to b runs from the image of a to the image of b, also if the edge is turned around. It is shared with exactly the processes, other than this one, that the processes of its pieces go to. If the tables of shared loops of the fine mesh fit together (same groups, same order on all processes), so do those of the redistributed mesh, and a process of the redistributed mesh has a loop exactly if one of its members has it.", "quantifier": "all numbers of processes, all ways to group them, all loops and tables of shared loops that fit, all node maps", "why_tests_cant": "A test redistributes one mesh over a few processes; that the tables of all new processes agree for every grouping is universal.", "anchors": ["src/stokes/common/stokes_map_impl.hpp: StokesContractMap::MapAdditionalData", "src/base/mesh/grid_contract.hpp: GetProcMap, GetNodeMap"]}
{"id": "C93", "title": "Ghosts, unknowns and flips of the redistributed mesh", "statement": "A vertex of the redistributed Stokes mesh is a ghost exactly if no member has it as a solid vertex. Every edge with unknowns of a member becomes an edge with unknowns, and the map of unknowns leads from the unknown of the edge to the unknown of the edge it becomes, never to -1. An edge is marked for a change of sign exactly if a member turns around an edge that becomes it.", "quantifier": "all groups, all vertex and edge maps that fit, all choices of ghost vertices", "why_tests_cant": "A test checks one mesh; that no unknown is mapped to -1 for any choice of ghosts and any maps is universal.", "anchors": ["src/stokes/common/stokes_map_impl.hpp: StokesContractMap::MapAdditionalData"]}
{"id": "C94", "title": "Groups of processes for redistribution", "statement": "The partition of the processes used for redistribution is a grouping whatever METIS answers: every process is in exactly one group, no group is empty, there are at most as many groups as asked for, every group is listed in increasing order, the groups are ordered by their first rank (so rank 0 leads the first group), and rank 0 is alone if that was asked for. (Asking for rank 0 to be alone needs at least two processes and two parts.)", "quantifier": "all numbers of processes and parts, all answers of METIS incl. empty parts, with and without rank 0 kept apart", "why_tests_cant": "A test sees one answer of METIS; that every answer gives sorted, non-empty groups that cover all ranks is universal.", "anchors": ["src/base/coarsening/grid_contract.cpp: PartitionProcsMETIS"]}
{"id": "C95", "title": "Equivalence classes of the redistributed mesh", "statement": "The leader of every group finds for every class of every member a merged class, with exactly the ranks of that class, and a contracted class, with exactly the other groups some rank of that class belongs to; two classes of two members get the same merged class exactly if they are the same class, every merged and contracted class comes from a class of a member, and no contracted class is listed twice. The tables of contracted classes of all leaders fit together and are sorted, so they form the hierarchy of the new mesh. Exception: they are not completed by intersections, so two classes of the new mesh may have no common class even though all classes of the old mesh have one.", "quantifier": "all hierarchies of the old mesh (any number of ranks, any sharing pattern), all groupings with sorted groups", "why_tests_cant": "A test redistributes over a few ranks; agreement between all leaders for every sharing pattern and every grouping is universal.", "anchors": ["src/base/coarsening/grid_contract.cpp: GridContractMap::BuildCEQCH", "src/base/mesh/eqchierarchy.cpp: EQCHierarchy"]}
{"id": "C96", "title": "Vertices of the redistributed mesh", "statement": "Redistribution maps every vertex of every member to a vertex of the new mesh, in the range of the contracted class of its class; two vertices of members become the same vertex exactly if they are the same vertex of the old mesh, and every vertex of the new mesh is the image of some vertex. Two groups that share a vertex give it the same position within its class, and the class has the same number of vertices and the same groups on both.", "quantifier": "all hierarchies, all groupings, all vertex tables with the same number of vertices of a class on all its ranks", "why_tests_cant": "A test compares the maps for one mesh; that all leaders number shared vertices alike without communication, for every mesh and grouping, is universal.", "anchors": ["src/base/coarsening/grid_contract.cpp: GridContractMap::BuildNodeMaps"]}
{"id": "C97", "title": "Edges of the redistributed mesh", "statement": "Redistribution maps every edge of every member to the edge of the new mesh between the images of its two vertices, with the smaller one first, and records whether the direction changed; two edges get the same number exactly if they are the same edge of the old mesh. The new mesh of a group has, exactly once, every edge that some rank of the old mesh knows and whose two vertices exist in the group, including edges between vertices that no member had as an edge. This holds if any two contracted classes of a group have a common class; without that assumption the map uses -1 as a class and reads out of bounds, even for a valid old mesh.", "quantifier": "all hierarchies, all groupings whose contracted classes are closed under intersection, all vertex and edge tables of a valid distributed mesh", "why_tests_cant": "A test redistributes one mesh; that all groups find the edges of other groups and number them consistently for every mesh and grouping is universal.", "anchors": ["src/base/coarsening/grid_contract.cpp: GridContractMap::BuildNodeMaps"]}
{"id": "C98", "title": "The redistributed mesh is a distributed mesh", "statement": "The tables of all groups after redistribution form a valid distributed mesh: the classes fit together; vertices and edges are numbered class by class, cross edges last; the first vertex of an edge is the smaller one and no edge is listed twice; an edge of a class has both vertices in it; a cross edge connects two classes and belongs to the ranks both have in common; all ranks of a class list the same edges in the same order. So redistribution can be repeated.", "quantifier": "all valid distributed meshes and all groupings whose contracted classes are closed under intersection", "why_tests_cant": "That the numbering chosen by every group separately fits that of all other groups, for every mesh and grouping, is universal.", "anchors": ["src/base/coarsening/grid_contract.cpp: GridContractMap::BuildCEQCH, BuildNodeMaps"]}
{"id": "C99", "title": "Cumulated and distributed data of nodes", "statement": "Data attached to the nodes (vertices, edges) of a distributed mesh is either cumulated, every rank that has a node holds its value, or distributed, its value is the sum over all ranks that have it. Cumulate turns distributed data into cumulated data: every rank gets, for each of its nodes, the sum of the values of exactly the ranks that have the node, so all ranks agree. Distribute leaves the value of a node on the lowest rank that has it and sets all others to zero, so the sums are the values the data had. Distribute followed by Cumulate changes nothing, and neither does anything if the data has the wanted status.", "quantifier": "all numbers of ranks, all valid class hierarchies whose first class is the local one, all numberings of nodes by class that agree in size between ranks, all values", "why_tests_cant": "A parallel test fixes the number of ranks and one mesh; that no node is counted twice or missed for every way ranks can share nodes is universal.", "anchors": ["src/base/mesh/alg_mesh.hpp: AttachedNodeData::Cumulate, AttachedNodeData::Distribute", "src/base/mesh/base_mesh.hpp: BlockTM::AllreduceNodalData, BlockTM::ApplyEQ2", "src/base/distributed/reducetable.hpp: ReduceTable, sum_table"]}
{"id": "C100", "title": "Vertex data after redistribution", "statement": "When a distributed mesh is redistributed to fewer processes, data of its vertices is carried over. Cumulated data stays cumulated: every vertex of the new mesh has, on every new process that has it, the value it had on the old ranks. Distributed data stays distributed: the sum over the new processes of the values of a vertex is the sum over the old ranks. Cumulating after the redistribution therefore gives the same values as redistributing the cumulated data.", "quantifier": "all numbers of ranks, all valid class hierarchies, all groupings of the ranks, all numberings of vertices by class, all values", "why_tests_cant": "A test runs one grouping of one mesh; that the contributions of all members of a group to shared vertices are kept exactly once for every grouping is universal.", "anchors": ["src/base/coarsening/grid_contract.hpp: GridContractMap::MapNodeData", "src/base/coarsening/grid_contract.cpp: GridContractMap::BuildCEQCH, GridContractMap::BuildNodeMaps", "src/base/mesh/alg_mesh.hpp: AttachedNodeData::Cumulate"]}
{"id": "C101", "title": "Edge data after redistribution", "statement": "When a distributed mesh is redistributed to fewer processes, data of its edges is carried over. Cumulated data stays cumulated: every edge of the new mesh has, on every new process that has it, the value it had on the old ranks, and the new processes agree. Distributed data stays distributed (the sum over the new processes is the sum over the old ranks) for an edge if each new process that gets the edge has an old rank with it among its members. Otherwise - an edge that no old rank of one of the new processes had, but both of whose vertices it has - every new process that gets the edge stores the whole sum, so that the sum over the new processes is the old one times their number.", "quantifier": "all numbers of ranks, all valid class hierarchies, all closed groupings of the ranks, all numberings of vertices and edges by class, all values", "why_tests_cant": "A test runs one grouping of one mesh; which edges are new to a process depends on the shape of all groups, and that every other value survives exactly once must hold for every grouping.", "anchors": ["src/base/coarsening/grid_contract.hpp: GridContractMap::MapNodeData", "src/base/coarsening/grid_contract.cpp: GridContractMap::BuildNodeMaps", "src/base/mesh/alg_mesh.hpp: AttachedNodeData"]}
{"id": "C102", "title": "Dof numbering of the Stokes facets and its contraction", "statement": "In the H(div) Stokes AMG the dofs of the edges (facets) are numbered one edge after the other, whatever the numbers of dofs of the edges are, 0 included: every number below the total is the dof of exactly one edge and one local number, the look-ups edge to dof, dof to edge and the sub-numbering of any list of edges agree with this. When the meshes of a group of processes are contracted, an edge of the new mesh gets the largest number of dofs of the edges that become it; every dof of every member is mapped to the dof with the same local number of the new edge, every dof of the new mesh comes from some member, and dofs of two members become one dof only if they are the same local number of the same new edge.", "quantifier": "all numbers of edges, all sequences of set-up calls, all lists of edges, all groups of members with any edge maps and any dof counts", "why_tests_cant": "A test sees one mesh with one set of dof counts; the binary search for the edge of a dof takes other branches when edges without dofs repeat an offset, and the union of the dofs of several members depends on all edge maps together.", "anchors": ["src/stokes/hdiv/mesh_dofs.hpp: MeshDOFs", "src/stokes/hdiv/hdiv_stokes_factory_impl.hpp: ContractMeshDOFs", "src/base/utils/utils_arrays_tables.hpp: merge_pos_in_sorted_array"]}
{"id": "C103", "title": "Basis of the preserved vectors of a coarse facet", "statement": "When the Stokes AMG coarsens a facet, the special vector and the preserved vectors on the fine dofs of the facet (the columns of V) are replaced by a basis (the columns of P, one coarse dof each) and coordinates (W). In exact arithmetic, for every V whose special columns are not 0: the special columns are kept unchanged as the first coarse basis vectors; every column of V is the combination P W of the basis up to a remainder of at most 1e-6 of its size (1e-8 if there is one special column, or they are orthogonal; 0 for special columns), so no preserved vector is lost; a further basis vector is only added for a column of V that is more than 1e-8 of its size away from the earlier ones, and the number of coarse dofs is between the number of special columns and the number of columns. The basis is orthogonal (with the additional vectors normalised) if the special columns are. Removing the flow afterwards leaves number, remainders and special vectors as they are, and then every coarse basis function but the special ones has flow 0.", "quantifier": "all numbers of fine dofs, of special and of preserved vectors, all values (real numbers), all initial contents of P and W", "why_tests_cant": "A test checks one facet with particular vectors; which columns are dropped, kept or orthogonalised again depends on the values, and that nothing is lost must hold for all of them.", "anchors": ["src/stokes/hdiv/preserved_vectors_impl.hpp: computePW, computePWZF"]}
{"id": "C104", "title": "Preserved vectors survive the coarsening of facets", "statement": "When the Stokes AMG builds the facet part of the prolongation (in exact arithmetic, one process), for every coarse facet with dofs: the number of its coarse dofs is between 1 and 1 plus the number of preserved vectors; the fine dofs on it are prolongated from the coarse dofs of this facet only; every preserved vector of the fine level equals, on the fine dofs of the facet, the prolongation of the coarse preserved vector up to a remainder of at most 1e-8 of its size; the first coarse dof prolongates to 1 or -1 in the first dof of every fine facet and 0 in the others, with the signs such that all contributions to the flow from the first to the second coarse vertex are positive; the flow stored for the coarse facet is the flow of that function, the sum of the absolute values of the fine flows, and the flow of all other coarse basis functions is 0. No facet overwrites the part of another one in the buffer in which prolongation blocks and coordinates are kept between the passes, and nothing is read or written out of bounds.", "quantifier": "all meshes, numbers of dofs, maps from fine to coarse facets, orientations, flows and preserved vectors (real numbers), all orders in which the coarse facets are visited, all initial contents of heap memory; the coarse facets with dofs come from fine facets with dofs whose flows are not all 0", "why_tests_cant": "A test runs one mesh and looks at the result of the solver; the offsets into the shared buffer, the orientations and the number of dofs per facet depend on mesh and vectors, and the property must hold for all.", "anchors": ["src/stokes/hdiv/preserved_vectors_impl.hpp: PreservedVectorsMap::computeCFBufferSize, computeCFProlBlocks, Finalize, ReadProlBlockFromBuffer", "src/stokes/hdiv/hdiv_stokes_factory_impl.hpp: BuildPrimarySpaceProlongation (special vectors, facet prolongation, flow)"]}
{"id": "C105", "title": "Scattering node data from the masters", "statement": "BlockTM::ScatterNodalData terminates on all ranks, every message finds its receiver and has the length the receiver expects, nothing is read or written out of bounds, and afterwards the value of every node of every rank is the value the node had on the lowest rank that has it. So the values of a node agree on all ranks; values that agree already are not changed; and scattering after AttachedNodeData::Distribute gives back the data that were distributed.", "quantifier": "all numbers of ranks, all consistent tables of neighbours, all numbers of nodes and cross nodes per class of ranks (the same on all ranks of a class), all data", "why_tests_cant": "A test fixes one partition. Which part of the array belongs to which class, which classes are sent to which rank and in which order they arrive depends on the partition.", "anchors": ["src/base/mesh/base_mesh.hpp: BlockTM::ScatterNodalData", "src/base/mesh/base_mesh_impl.hpp: disp_eqc, disp_cross", "src/base/mesh/alg_mesh.hpp: AttachedNodeData::Distribute"]}
{"id": "C106", "title": "Active elements, potential nodes and facets", "statement": "For a space that is defined on some of the elements, FacetAuxiliaryInformation numbers exactly the facets that belong to an element, of this rank or of any other rank that has the facet, on which the space is defined; if the space has a definedon the same holds for elements and potential-space nodes, else those keep their own numbers. The numbers are 0, 1, ... in the order of the mesh, A2R and R2A are inverse to each other, everything else has number -1, IsElementRel and IsPSNRel say which is the case, and nothing is read or written out of bounds. With one exception: IsFacetRel (GetActiveFacets) does not agree with the numbers of the facets. It is true for the facets of the rank's own elements on which the space is defined and for all facets whose mesh number is below the number of relevant facets; so it can be true for a facet without a number (A2R_Facet gives -1) and false for a relevant facet shared with another rank. It is right if the relevant facets have the lowest mesh numbers, in particular if all facets are relevant.", "quantifier": "all meshes (elements with any facets and potential-space nodes), all numbers of ranks and distributions, all sets of elements on which the space is defined", "why_tests_cant": "A test needs a mesh with a definedon or refinement; whether IsFacetRel is right depends on the order of the facets in that mesh, and most tests have all facets relevant.", "anchors": ["src/base/ngs_extension/facet_aux_info.cpp: markToSubsetMappings, FacetAuxiliaryInformation::setup", "src/base/ngs_extension/facet_aux_info.hpp: IsElementRel, A2R_EL, R2A_EL, IsPSNRel, A2R_PSN, R2A_PSN, IsFacetRel, A2R_Facet, R2A_Facet"]}
{"id": "C107", "title": "Fine facet loops", "statement": "makeFacetLoop2D (vertex) and makeFacetLoop3D (edge) return, sorted and without duplicates, exactly the active facets around the node whose first dof is free and which no rank with a lower number has; nothing is accessed out of bounds if active facets have dofs. Over all ranks no facet is in loops of two ranks, and a facet that is active and free on the ranks that have it is in the loop of each of its nodes on exactly one rank, the lowest one that has it. If that rank does not have it as an active free facet, no rank has it in any loop. With one exception to be expected from C106: the set of active facets that FacetAuxiliaryInformation makes can miss a shared facet with dofs, which then is in no loop on any rank, and can contain a facet without dofs, for which the free dof number -1 is asked.", "quantifier": "all meshes in 2d and 3d, all numbers of ranks and distributions, all sets of active facets and free dofs, all nodes", "why_tests_cant": "Loops have facets from several ranks; a test with the elements of one mesh in one distribution sees whether these few loops have all their facets, not that no distribution loses or doubles one.", "anchors": ["src/stokes/common/stokes_pc.cpp: masterOfFacet, makeFacetLoop2D, makeFacetLoop3D, iterateFacetLoops", "src/base/utils/utils_arrays_tables.hpp: insert_into_sorted_array_nodups"]}
{"id": "C108", "title": "Reduced tables of local and shared rows", "statement": "ProduceReducedTable gives, for every mixture of local rows and rows with distant ranks, a table with first the local rows in their order, transformed by localTransformData, then the shared rows in their order, decoded from the result of the reduction; the table of distant ranks that it returns fits: no entries for the local rows, then the distant ranks of the shared rows. Into the reduction go exactly the encoded shared rows with their distant ranks. Rows whose size changes in the reduction or in decoding get the size that decodeData returns, and nothing is read or written out of bounds.", "quantifier": "all numbers and orders of local and shared rows, all sizes, all callbacks that write as many entries as the row has (encodeData, localTransformData) or as the reduced row has at most (decodeData), all results of the reduction", "why_tests_cant": "The positions depend on how local and shared rows alternate; a test has one mesh and one distribution.", "anchors": ["src/stokes/common/stokes_pc.cpp: ProduceReducedTable"]}
