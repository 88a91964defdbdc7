# Formal model of NgsAMG in Rocq (Coq 8.16.1)

## 1. What is modelled and what is not (trusted base)

* Kernel of Coq 8.16.1, plus (where listed in section 4) standard-library axioms. No axioms of our own.
* The model is written by reading `/repo/src`; nothing is extracted from the C++ and the C++ was not run.  Every
  definition carries a comment with the file and lines it models and the simplifications made.
* Numbers: `double` arithmetic is replaced by exact arithmetic (an arbitrary commutative ring, an ordered field, or an
  abstract block algebra, see `LinAlg`).  Rounding is out of scope.  `int`/`size_t` are unbounded unless a property is
  about their range.
* Arrays are lists.  Out-of-bounds access, missing initialisation and nontermination are explicit outcomes
  (`None`/error values) where the code does not exclude them locally.
* MPI is modelled as message passing between pure per-rank states; threads as interleavings of atomic steps
  of the code between lock operations.
* Not modelled: NGSolve finite element spaces, python bindings, I/O, timers, performance, floating point.

## 2. Layout

`rocq/theories/<Area>Model.v`  – executable model, with source citations, no proofs (beyond what a definition needs)
`rocq/theories/<Area>Proofs.v` – lemmas
`rocq/theories/<Area>Props.v`  – the theorems referred to by `MANIFEST.json`, each `exact`-ing a lemma, with
non-vacuity `Example`s and `Print Assumptions`.

## 3. Plan per property

* **C01 Sorted lookup is exact** – Model find_in_sorted_array as the window loop with fuel (option result; OOB read = error). Prove exactness by invariant 'elem, if present, lies in [first,last)'.
* **C02 Sorted insertion keeps order and content** – Model merge_pos + Insert; prove split property, sortedness, Permutation.
* **C03 In-place permutation** – Model the cycle-following loop on (array,perm) with explicit fuel and error; prove it ends and computes a[perm[k]] for every permutation by induction on the number of unresolved slots.
* **C04 Merging sorted rows** – Model two-way merge, MergeArrays1 loop and the hashed quicksort-queue MergeArrays; prove strictly ascending + membership (invariant over queue, hash table and range stack).
* **C05 Set iteration over two sorted arrays** – Two-pointer loops as functions of two lists with positions; prove the call list equals the filter specification.
* **C06 Positions of a sorted list in a sorted list** – Loop model; theorem for subset case, refutation otherwise.
* **C07 Tuples used as sort keys are ordered** – Boolean comparison as written; strict order for N=2,3; refuted for N=5.
* **C08 Sparse transpose** – Count/fill/sort loop on CSR-like structure; entries specification.
* **C09 Sparse product** – Symbolic merge + numeric accumulation; entries = ring sum.
* **C10 Galerkin restriction** – From C09 + C08 over an arbitrary commutative ring.
* **C11 Matrix building blocks act as their documentation says** – Direct models and entries specification.
* **C12 Merging sum of two sparse matrices** – Model as written; refutation by witness; corrected part (same pattern, alpha=beta=1) as _partial if it holds.
* **C13 Compressing a matrix never loses non-zero entries** – Model with the scalar abssum as written; exact for nonnegative entries, refuted in general.
* **C14 Sparse identity and block assembly** – Model as written; refuted by witnesses.
* **C15 Gauss-Seidel keeps the residual contract** – Vectors over a block algebra (matrix entries act on vector entries, transposition); invariant res = b - A x through the sweep.
* **C16 The optimisation flags never change the result** – Equality of RHS and RES sweeps by simulation.
* **C17 Constrained dofs are never touched** – Frame lemma over the sweep.
* **C18 The solution is a fixed point of smoothing** – Fixed point lemma.
* **C19 Backward sweep is the adjoint of the forward sweep** – Each row step is A-selfadjoint; reversal of the product.
* **C20 Smoothing never increases the energy error** – Energy difference of a row step is -<a_ii u,u>.
* **C21 Block Gauss-Seidel keeps the residual contract and is flag independent** – As C15/C16 with blocks as index lists.
* **C22 Parallel block sweeps are schedule independent** – Commutation of block steps with disjoint extended blocks; Permutation invariance of each colour class; colouring algorithm proven to produce such classes.
* **C23 Non-overlapping block smoother: flags must not change the result** – Model of both branches; refuted by witness; equality for the non-zero branch.
* **C24 Composed smoothers keep the contract** – Smoothers as functions satisfying the contract; induction over steps. Hiptmair SmoothBack refuted.
* **C25 AMG cycle is a linear operator** – Cycle loops over level arrays; linearity by induction over levels.
* **C26 V-cycle is symmetric** – Symmetry by induction over levels.
* **C27 No cycle increases the energy** – Energy argument by induction over levels.
* **C28 V-cycle internal residual bookkeeping is right** – Iterative SmoothV with workspaces = recursive V-cycle.
* **C29 MultAdd and repeated application** – MultAdd model with workspace state as part of state.
* **C30 Basis function request validation** – Boolean guard as written; refuted at the boundary.
* **C31 Transfer through a DOF map is composition, and F2C is the adjoint of C2F** – Steps as pairs of linear maps (matrix, transpose); TransferAtoB as loops; adjointness by induction.
* **C32 Coarse matrices are the Galerkin chain** – Induction over steps.
* **C33 Concatenating steps preserves the transfer** – Greedy loop over list of steps with an arbitrary concatenation oracle.
* **C34 A finalised DOF map is immutable** – State machine with exceptions.
* **C35 Distributed vectors are cumulated correctly** – Per-rank vectors and exchange lists; message processing order universally quantified.
* **C36 Hybrid splitting preserves the global operator** – Per-rank matrices; decomposition as in the code; sum over ranks.
* **C37 Hybrid smoother keeps the residual contract** – SmoothImpl/RHS/RES over abstract stage kernels satisfying the local contract.
* **C38 Hybrid smoother forward and backward are adjoint only for one local step** – Stage list as in the code for n steps; reversal equality for n=1; refuted for n=2.
* **C39 Background communication thread runs every job exactly once** – Interleaving semantics of the two threads with condition variables; invariant over all reachable states.
* **C40 Shutting down the background thread terminates** – Same model, destructor without lock: reachable deadlock state (refuted).
* **C41 Equivalence classes: order, merge and intersection tables** – Tables computed as in the code; specification by set inclusion/union/intersection.
* **C42 Ranks agree on the order and identity of shared classes** – Sort key model; order agreement; id assignment loop over ranks.
* **C43 Class hierarchy is closed under intersection** – Completion loop with termination measure.
* **C44 Global number of classes** – Count as written; refuted.
* **C45 ReduceTable** – Per-class gather/apply/scatter model for all ranks.
* **C46 Aggregates partition the free vertices** – State machine of agglomeration with arbitrary SOC oracle; invariant.
* **C47 Dirichlet vertices are never aggregated** – Witness graph (refuted); and the positive statement under the condition excluding it.
* **C48 Vertex map of an agglomeration** – All ranks, on top of the EQC model (`AggMapModel`): first pass, scatter, second pass; the proof computes the map in closed form (class offset of the centre's class + position of the agglomerate in the owner's visiting order).
* **C49 Edge map of an agglomeration** – All ranks, all four rounds, the reduction of the tentative additional edges (ReduceTable model + k-way merge with less_tup) and the final numbering (`EdgeMapModel`); the proof computes the result in closed form (per class: first occurrences of pairs of images, then the merged additional edges) and compares the ranks by the rank independent tuples.
* **C50 Level setup terminates with strictly shrinking levels** – RSU recursion with arbitrary step oracle.
* **C51 max_n_levels is respected for every value** – Refuted for max_n_levels<2.
* **C52 Redistribution factor** – Exact rational model.
* **C53 Level-dependent options** – List model.
* **C54 Parallel block filtering loses no master dof** – List model.
* **C55 Message packing round-trip** – Byte/word-level codec model.
* **C56 Compressed Gauss-Seidel equals uncompressed Gauss-Seidel** – Fold equality after re-indexing; refuted for the constructor without replacement diagonal.
* **C57 Coarse-grid-only application** – Loops over level arrays as in the code with temporary aliasing of x_level[0], rhs_level[0]; induction over levels.
* **C58 AMG as a smoother** – Model of both branches; the exception (out of bounds access on the second coarsest level) is proved too.
* **C59 Embedded AMG matrix** – Model of both branches sharing the workspace with the inner AMG matrix.
* **C60 Block smoother as additive Schwarz operator** – The loop body is a shared-memory task (Shm.v); race freedom for disjoint blocks gives schedule independence, a two-block interleaving refutes the overlapping case.
* **C61 The parallel block smoother works only on its own dofs** – the constructor's decision on top of the FilterBlocks model; false for two working ranks.
* **C62 Redistribution groups partition the ranks** – FactoryModel (PartitionProcs, contract_rank); METIS and QuickSortI are oracles constrained only by their contracts.
* **C63 All ranks build the same hierarchy** – FactoryModel RSU run for each rank in the same environment; induction on the recursion.
* **C64 Missed coarsening goal triggers redistribution** – FactoryModel RSU; expected to fail for the rd_crs_thresh part.
* **C65 Constructors find all classes** – Fold over the dofs as in the constructor; explicit characterisation of the list; counterexample for two node types.
* **C66 Redistribution step: gather and scatter** – CtrModel.v models the group as a whole; messages are handed over directly, the completion order is universally quantified; proof by permutation invariance of the sum.
* **C67 Redistribution step: contracted matrix** – Function by function model of reverse map, symbolic phase (in place renumbering of received rows, buffer, merge) and fill phase; loop invariants; then entries as triple sums.
* **C68 Redistribution step: swapping with a prolongation** – Model of get_rows (column bitmap, renumbering, chunk filling); commuting diagram proved entrywise; a two-rank counterexample for the late swap.
* **C69 Dynamic block matrices: conversion and product** – DynModel.v: chunks of equal consecutive rows, lexicographic sort (contract of QuickSort only), grouping, column compression with capacities, data layout; loop invariant over the grouping loop, then meaning of the storage (record rep) and product entrywise.
* **C70 Dynamic block smoother** – SetUp reduced to 'inverse of the block with constrained rows and columns replaced by identity, constrained diagonal zeroed'; each block update is x += C_k (b - A x); composition of linear corrections (seq_op); the dense inverse is a parameter with the contract used in each theorem.
* **C71 Iterative solver: stopping, residual and statistics** – LSModel.v with the virtual functions as parameters, members the constructor leaves uninitialised as option; loop invariant; AMG instance through C28.
* **C72 Elasticity: vertex transformations, products with them and edge contributions** – EnergyModel.v over an abstract field with sqrt, matrices as index functions with block views; entrywise proofs by ring/field, energy identity through adjointness lemmas.
* **C73 Vertex prolongations: rows, columns and kernel vectors** – ProlModel.v: one process' view with the edge connectivity, vertex map and energy as parameters; ProlSpec.v describes admissible columns and the auxiliary matrix; folds over rows are tracked by the linear functional 'row applied to a coarse vector', columns by invariants of the weight table.
* **C74 Edge connectivity and auxiliary matrix** – Modelled in AuxModel.v (count/fill table, sort, pattern with merge_pos_in_sorted_array, lookups with find_in_sorted_array); specified in AuxSpec.v by edge_action / edge_energy; proved by representing the matrix as pattern + value function and induction over the edge list (AuxProofs, AuxProofs2, AuxProps).
* **C75 Coarse mesh data of H1 meshes** – Modelled in CDataModel.v (loops over master nodes with read-modify-write), specified in CDataSpec.v (interp, edge_en, vert_en, share, cumulate); proved by fold invariants over generic commutative monoid sums (CDataProofs, CDataProps).
* **C76 Coarse to fine tables and concatenated maps** – Modelled in CDataModel.v, proved in CMapProps.v by the bucket lemmas for count/fill tables and re-indexing of sums.
* **C77 Coarse mesh data of elasticity meshes** – Modelled in ECDataModel.v, specified in ECDataSpec.v; proved for the part that holds (C77_edges_partial, C77_energy_partial) and the three failures proved as existence theorems (_refuted).
* **C78 Choice of the matching partner** – Modelled in SPWModel.v (FindNeib3Step on rationals, sorting as a contract), specified in SPWSpec.v (top_soc, eligible, score, best_choice); proved in SPWProofs.v by induction over the sorted candidates.
* **C79 Agglomerates of pairwise matching partition the vertices** – Modelled in SPWModel.v, specified in SPWSpec.v (takes_part, connected, input_ok); invariants of the matching (pinv), joining (jinv) and of the rounds (base, msh, size) in SPWProofs2-9.v.
* **C80 The graph between two matching rounds** – Modelled in SPWModel.v (crs_row with the std::set and the sort for single members, count and fill, edge map by lookup); proved in SPWProofs4.v through lexicographic order of the edges; C80_edges_once_partial and C80_edges_once_refuted.
* **C81 The centre of an agglomerate is shared by all processes of its members** – Modelled in SPWModel.v (allow_match, first_v2eq, conc_eq, set_agg), proved by the invariant eqs (the recorded class of a coarse vertex is the largest class of its members) in SPWProofs6-9.v.
* **C82 Loops are sorted into trails** – Modelled in LoopModel.v (used flags, chunk index array, ApplyPermutation of C03), specified in LoopSpec.v (trail, touches, reordered, one_piece, closed_trail); invariants of extend_chunk and of the chunk loop in LoopProofs.v, one piece by a parity and separation argument in LoopProofs6.v.
* **C83 Coarse loops are cut into simple cycles with the same edges** – Modelled in LoopModel.v (find_group, bnd_arr, split_rec, visit, sl_loop; sorting as a contract), specified in LoopSpec.v (steps, proper, balanced, simple_cycle); LoopProofs2-4.v: measure (length + 1 if open), edge multiset of the pieces, degree argument for closedness of joined chunks.
* **C84 Rotation of a simple loop** – Modelled in LoopModel.v (find_min, rotateVLoop), proved in LoopProofs5.v (turned) and LoopProps.v (a simple cycle is determined by its first vertex and its directed edges).
* **C85 Coarse loops carry the flow of the fine loop** – Modelled in SMapModel.v (rankd, init_loop, send_table, exchange, chunk_ijks, loops_of, phase2), specified in SMapSpec.v (runs, net, loop_sum, coarse_loop); SMapProofs.v-SMapProofs3.v: what is received is what the processes of the loop entered; SMapProofs5.v, SMapProofs6.v: flow of images, cycles and rotations.
* **C86 All processes of a loop get the same coarse loops** – Modelled in SMapModel.v (phase2, eq_arrays, buckets, ce_dups, convert_loop, phase3); SMapProofs4.v (bucket numbers are injective), SMapProofs7.v (first occurrences, codes), SMapProofs8.v/9.v (tables fit: several loops for one, some loops left out by all).
* **C87 Leaving out empty loops keeps the tables of shared loops fitting** – Modelled in SMapModel.v (istay, shrink_proc, shrink_loop, ShrinkDPTable, all_loop_dps, AddOrientedLoops on all processes); SMapProofs8.v (keep_consistent, shrink_ok), SMapProofs9.v (add_ok).
* **C88 Loop blocks: one block per coarse facet** – Modelled in SMeshModel.v (facet_entry, block_facet, block_loop, LoopBlocks); SMeshProofs.v: invariant of the table and of ce2block over the loops.
* **C89 Edges with unknowns and who shares them** – Modelled in SMeshModel.v (SetUpDOFedEdges, de_send, cdps_edge, GetDofedEdgeUDofs on all processes); SMeshProofs2.v (numbering), SMeshProofs3.v (the position in the received row counts the edges shared with that process; keep_consistent of SMapProofs8.v).
* **C90 Ghost vertices of the coarse Stokes mesh** – Modelled in SMeshModel.v (coarse_ghosts); proved in SMeshProps.v.
* **C91 Redistribution messages and duplicates** – Modelled in SCtrModel.v (dedup_row, pack_table, unpack_table, pack_message, unpack_message); SCtrProofs.v: the message as a concatenation, sizes of the parts.
* **C92 Loops of the redistributed mesh** – Modelled in SCtrModel.v (all_gnums, loop_map, map_code, ctr_loop, ctr_member, ctr_loops); SCtrProofs2.v (rows as sets of images), SCtrProofs3.v (a process holds a loop; consistency of the new tables).
* **C93 Ghosts, unknowns and flips of the redistributed mesh** – Modelled in SCtrModel.v (cgv_member, ctr_ghosts, de_map, flip_member, ctr_flips); SCtrProofs4.v; uses SetUpDOFedEdges of SMeshModel.v.
* **C94 Groups of processes for redistribution** – Modelled in GCModel.v (PartitionProcs; METIS' answer is a parameter); GCProofs3.v (good_groups, partition_good).
* **C95 Equivalence classes of the redistributed mesh** – Modelled in GCModel.v (BuildCEQCH); GCProofs.v, GCProofs2.v (merged and contracted classes as sets of ranks and groups); the exception is C95_closed_refuted, on five ranks.
* **C96 Vertices of the redistributed mesh** – Modelled in GCModel.v (map_vertices with cut_min, first, count and shift loops); GCProofs2.v, GCProofs3.v (blocks of a contracted class in the order of the merged classes; offsets agree on all sharing groups).
* **C97 Edges of the redistributed mesh** – Modelled in GEModel.v (count, exchange of annoying edges, positions, maps of all groups); GEProofs.v to GEProofs9.v (edges as pairs of global vertices, layout of the five blocks of a class); the exception is C97_closed_refuted, on five ranks.
* **C98 The redistributed mesh is a distributed mesh** – GEProofs10.v (new_vertex_tables, new_edge_tables) on top of C95, C96 and C97.
* **C99 Cumulated and distributed data of nodes** – Modelled in DataModel.v for all ranks at once, on top of ReduceTable (C45), including the early return of ranks with nothing to exchange; DataProofs.v, DataProofs2.v: a node's copies are named by its class and position, the reduced row of a class is the sum over its ranks. The theorem assumes that the first class of every rank is the local one: the code skips class 0 without looking at it.
* **C100 Vertex data after redistribution** – MapNodeData is modelled in DataModel.v for all groups at once, with the reduction over annoying nodes (none for vertices); DataProofs3.v, DataProofs4.v, MapDataProps.v: total over the new processes = total over the old ranks, by exchanging sums over groups, members and vertices, on top of C96 and C98. Edges, whose annoying nodes are reduced over the groups of their class, are not covered by the theorems.
* **C101 Edge data after redistribution** – MapNodeData of DataModel.v with the tables e_maps, e_annoy that contract_mesh (GEModel.v) computes. AnnoyProofs.v: a generic theorem on MapNodeData with nodes reduced over the groups of their class; EdgeDataProofs.v, EdgeDataProofs2.v, EdgeDataProps.v: the edge maps meet its hypotheses (C97, C98), old and new totals by exchanging sums. C101_refuted: on the mesh of C98_ex the total of an edge doubles (the code says "annoy data is not scattered correctly now for edge-based data", grid_contract.hpp:188).
* **C102 Dof numbering of the Stokes facets and its contraction** – MeshDofsModel.v models MeshDOFs and the master's part of ContractMeshDOFs; MeshDofsSpec.v says which number a dof has. C102_numbering, C102_sub, C102_contract by invariants of the loops; DOFToEdge with the specification of merge_pos_in_sorted_array (C04). Not modelled: that SetOffsets takes an Array<int> for a member of type Array<size_t>, sending the offsets to the master.
* **C103 Basis of the preserved vectors of a coarse facet** – GramModel.v models both functions over the real numbers (Coq.Reals, its axioms are listed in section 4), with the thresholds 1e-8, 1e-3 and the two further tries; GramSpec.v defines product, size and factorisation. C103_factor, C103_zero_flow by an invariant over the columns. Not covered: rounding. In exact arithmetic orthogonalising again changes nothing; with rounding a column that is accepted after a further try is divided by its norm before that try, so that it is not normalised.
* **C104 Preserved vectors survive the coarsening of facets** – PresModel.v models the passes over the coarse facets with the buffer as one array, on top of GramModel.v (C103) and MeshDofsModel.v (C102), over the real numbers; PresSpec.v defines prolongate, the dofs of a facet and the orientation. C104_coarse_facets by invariants of the passes (disjoint parts of the buffer, what each part holds). Not covered: rounding, rows of dofs inside agglomerates and of Dirichlet facets, several processes.
* **C105 Scattering node data from the masters** – ScatModel.v models all ranks at once: the parts of the array by displacement, the messages from every rank to every other one in the order in which they are sent, the receives in the order in which they are posted. ScatSpec.v defines the numbering of the nodes by class; the nodes shared by ranks, the lowest rank and the data are those of C99 (DataSpec.v). C105_scatter: the list of classes a rank sends to another one is the list for which that one waits, in the same order (order of the classes, ReduceProofs.v); then what is written for every node. C105_agree and C105_undo follow, C105_undo with Distribute as modelled for C99. Not covered: interleaving of non-blocking messages beyond their order per pair of ranks.
* **C106 Active elements, potential nodes and facets** – FauxModel.v models setup on all ranks and the functions that read the result; what NGSolve answers (elements, their nodes, where the space is defined, which nodes of two ranks are the same, the logical or over the ranks) is given. FauxSpec.v defines the relevant nodes and what a numbering is. C106_numbering, C106_relevant by the invariant of markToSubsetMappings; C106_active says exactly which facets are active, C106_active_lowest when this is right, C106_active_refuted shows both errors (line 137 sets bit k instead of bit r2a_facet[k]).
* **C107 Fine facet loops** – FLoopModel.v models the functions with the array insertion of ArraysModel.v; what NGSolve answers (elements of a node, nodes and dofs of a facet, other ranks that have a facet) is given, the callback that builds the loop tables is left out. FLoopSpec.v says what a loop is to contain and what a distributed mesh is. C107_loop2D, C107_loop3D, C107_iterate by invariants over the facets seen so far; C107_at_most_one, C107_owner, C107_lost from the lowest rank that has the facet; C107_refuted runs the setup of FauxModel.v (C106) and the loops on two ranks.
* **C108 Reduced tables of local and shared rows** – PrtModel.v models the function on one rank, the result of ReduceTable (C45) is given; the callbacks are functions that give the same result in every call. PrtSpec.v separates local and shared rows. C108_tables, C108_out by invariants of the three loops.

## 4. Assumptions per theorem

`Print Assumptions` was run for each of the 373 theorems named in `MANIFEST.json`: every one, except those
listed next, prints "Closed under the global context", i.e. **no axiom at all**, neither of the standard library nor of ours.
The theorems `C103_factor`, `C103_zero_flow`, `C104_coarse_facets` use the real numbers of the standard library (Coq.Reals), and
`Print Assumptions` lists for each of them exactly (a subset of) the axioms of that library:
`ClassicalDedekindReals.sig_forall_dec`, `ClassicalDedekindReals.sig_not_dec` and
`FunctionalExtensionality.functional_extensionality_dep`.  (The seven
names `Coq.ssr.ssrunder.Under_rel.*` which the checker lists as library axioms are fields of a standard library module
type that is loaded with ssreflect; no theorem depends on them.)  Each `Props` file ends its theorems with
`Print Assumptions`, so that the build log shows it.

What is trusted besides the kernel is therefore only the faithfulness of the model.  The decisions that matter:

* *Doubles*: an arbitrary commutative ring / block algebra (LinAlg), a field with square roots (Energy, ECData), rationals
  (Factory, Prol, MIS weights), the real numbers without rounding (Gram).  Dense inverses are oracles with the contract "is an inverse" where a theorem needs it.
* *Library code of NGSolve/ngcore*: QuickSort/QuickSortI is either insertion sort or any function satisfying the sorting
  contract (Dyn, Prol, Aux); ComputeColoring by its contract (no two rows of a colour share a column); SharedLoop2 /
  ParallelForRange as a barrier per colour with any interleaving inside; Distribute/Cumulate of parallel vectors by their
  mathematical meaning; METIS and the strength-of-connection function as arbitrary oracles.
* *Threads*: sequentially consistent memory, interleaving of the atomic steps named in ThreadModel/Shm; the stage kernels
  of the hybrid smoother are atomic with respect to the communication thread.
* *MPI*: non-overtaking channels (Net, EQC), and direct handover of the message with matching size for the collective
  exchanges (ReduceTable, HybMat, Ctr); a size mismatch is an error of the model.
* *One process' view*: Prol, Aux, AggMap, EdgeMap, CData, ECData see one process' mesh; sums over processes are made explicit
  where a property is about several of them (C75).  AllreduceNodalData is a parameter.
* *Virtual functions* (LS, AMG, HybSm kernels) are parameters constrained by the stated contract.
* *Caching and timers*: cached tables (GetEdgeCM, GetMapC2F) are recomputed; timers, logging and python bindings dropped.
* BSmoother2: memory layout of its blocks, `symm=true` and omega<>1 are not modelled.

### Source files with modelled parts

The exact lines are cited in the comment of each definition; this table is generated from those citations.

| source file (under /repo/src) | model files |
|---|---|
| base/coarsening/agglomerate_map.cpp | AggMapModel.v, EdgeMapModel.v |
| base/coarsening/agglomerator.hpp | MISModel.v |
| base/coarsening/base_coarse.cpp | CDataModel.v, EdgeMapModel.v |
| base/coarsening/dof_contract.cpp | CtrModel.v |
| base/coarsening/dof_contract.hpp | CtrModel.v |
| base/coarsening/dof_map.cpp | DofMapModel.v |
| base/coarsening/grid_contract.cpp | DataModel.v, FactoryModel.v, GCModel.v, GEModel.v |
| base/coarsening/grid_contract.hpp | DataModel.v |
| base/coarsening/mis_agg_impl.hpp | MISModel.v |
| base/coarsening/spw_agg.hpp | SPWModel.v |
| base/coarsening/spw_agg_impl.hpp | SPWModel.v |
| base/distributed/eqchierarchy.cpp | EQCModel.v |
| base/distributed/eqchierarchy.hpp | EQCModel.v |
| base/distributed/mpiwrap_extension.hpp | EQCModel.v |
| base/distributed/reducetable.hpp | DataModel.v, ReduceModel.v |
| base/factory/aux_mat.hpp | AuxModel.v |
| base/factory/base_factory.cpp | FactoryModel.v |
| base/factory/base_factory.hpp | FactoryModel.v |
| base/factory/nodal_factory_impl.hpp | FactoryModel.v |
| base/factory/vertex_factory_impl.hpp | ProlModel.v |
| base/linalg/dcc_map.cpp | NetModel.v |
| base/linalg/dyn_block.cpp | DynModel.v, MergeModel.v |
| base/linalg/dyn_block.hpp | DynModel.v |
| base/linalg/dyn_block_impl.hpp | DynModel.v |
| base/linalg/hybrid_matrix.cpp | HybSmModel.v |
| base/linalg/utils_sparseLA.cpp | SparseModel.v |
| base/linalg/utils_sparseLA.hpp | SparseModel.v |
| base/linalg/utils_sparseMM.cpp | MergeModel.v, SparseModel.v |
| base/linalg/utils_sparseMM.hpp | SparseModel.v |
| base/mesh/alg_mesh.hpp | DataModel.v |
| base/mesh/base_mesh.cpp | AuxModel.v, EdgeMapModel.v |
| base/mesh/base_mesh.hpp | AggMapModel.v, AuxModel.v, CDataModel.v, DataModel.v, EdgeMapModel.v, GEModel.v, SMeshModel.v, ScatModel.v |
| base/mesh/base_mesh_impl.hpp | ScatModel.v |
| base/ngs_extension/facet_aux_info.cpp | FauxModel.v |
| base/ngs_extension/facet_aux_info.hpp | FauxModel.v |
| base/smoothers/base_smoother.cpp | GSModel.v |
| base/smoothers/base_smoother.hpp | GSModel.v |
| base/smoothers/block_gssmoother.cpp | BlockModel.v, UtilModel.v |
| base/smoothers/block_gssmoother.hpp | BlockModel.v |
| base/smoothers/dyn_block_smoother.cpp | DynModel.v |
| base/smoothers/dyn_block_smoother.hpp | DynModel.v |
| base/smoothers/gssmoother.cpp | GSModel.v, HybSmModel.v |
| base/smoothers/gssmoother.hpp | GSModel.v |
| base/smoothers/hybrid_base_smoother.cpp | ThreadModel.v |
| base/smoothers/hybrid_smoother.cpp | HybSmModel.v |
| base/smoothers/loc_block_gssmoother.cpp | Block2Model.v |
| base/smoothers/loc_block_gssmoother.hpp | Block2Model.v |
| base/solve/LinearSolver.cpp | LSModel.v |
| base/solve/LinearSolver.hpp | LSModel.v |
| base/solve/amg_matrix.cpp | AMGModel.v, UtilModel.v |
| base/solve/amg_matrix.hpp | AMGModel.v |
| base/utils/SpecOpt.hpp | UtilModel.v |
| base/utils/utils.hpp | UtilModel.v |
| base/utils/utils_arrays_tables.hpp | ArraysModel.v, CtrModel.v, EdgeMapModel.v, MergeModel.v, SparseModel.v, UtilModel.v |
| base/utils/utils_buffering.hpp | UtilModel.v |
| base/utils/utils_denseLA.hpp | EnergyModel.v |
| elasticity/elasticity_energy.hpp | EnergyModel.v |
| elasticity/elasticity_energy_impl.hpp | EnergyModel.v |
| elasticity/elasticity_impl.hpp | ECDataModel.v |
| elasticity/elasticity_mesh.hpp | ECDataModel.v, EnergyModel.v, UtilModel.v |
| h1/h1_energy.hpp | AuxModel.v |
| h1/h1_impl.hpp | CDataModel.v |
| stokes/common/loop_utils.cpp | LoopModel.v |
| stokes/common/loop_utils.hpp | LoopModel.v, SMapModel.v |
| stokes/common/stokes_map_impl.hpp | SCtrModel.v, SMapModel.v, SMeshModel.v |
| stokes/common/stokes_mesh_impl.hpp | SMapModel.v, SMeshModel.v |
| stokes/common/stokes_pc.cpp | FLoopModel.v, LoopModel.v, PrtModel.v |
| stokes/hdiv/hdiv_stokes_factory_impl.hpp | MeshDofsModel.v, PresModel.v |
| stokes/hdiv/mesh_dofs.hpp | MeshDofsModel.v |
| stokes/hdiv/preserved_vectors_impl.hpp | GramModel.v, PresModel.v |

### Source files without any modelled part

`base/base.hpp`, `base/coarsening/agglomerate_map.hpp`, `base/coarsening/agglomerator.cpp`, `base/coarsening/agglomerator_impl.hpp`, `base/coarsening/agglomerator_utils.hpp`, `base/coarsening/base_coarse.hpp`, `base/coarsening/dof_map.hpp`, `base/coarsening/grid_map.hpp`, `base/coarsening/mis_agg.hpp`, `base/coarsening/mis_agg_map.hpp`, `base/coarsening/plate_test_agg.hpp`, `base/coarsening/plate_test_agg_impl.hpp`, `base/coarsening/plate_test_agg_map.hpp`, `base/coarsening/python_coarse.cpp`, `base/coarsening/spw_agg_map.hpp`, `base/distributed/universal_dofs.cpp`, `base/distributed/universal_dofs.hpp`, `base/dummy_mpi_wrapper.hpp`, `base/factory/nodal_factory.hpp`, `base/factory/vertex_factory.hpp`, `base/linalg/bla_extension.cpp`, `base/linalg/bla_extension.hpp`, `base/linalg/dcc_map.hpp`, `base/linalg/hybrid_matrix.hpp`, `base/mesh/alg_mesh_nodes.hpp`, `base/ngs_extension/ncfespace.cpp`, `base/ngs_extension/ncfespace.hpp`, `base/precond/amg_pc.cpp`, `base/precond/amg_pc.hpp`, `base/precond/amg_pc_vertex.hpp`, `base/precond/amg_pc_vertex_impl.hpp`, `base/python/python_amg.cpp`, `base/python/python_amg.hpp`, `base/smoothers/hybrid_base_smoother.hpp`, `base/smoothers/hybrid_smoother.hpp`, `base/smoothers/hybrid_smoother_utils.hpp`, `base/smoothers/loc_block_gssmoother_impl.hpp`, `base/smoothers/python_smoothers.cpp`, `base/solve/python_solve.cpp`, `base/utils/amg_register.cpp`, `base/utils/amg_register.hpp`, `base/utils/amg_solver_settings.hpp`, `base/utils/python_utils.cpp`, `base/utils/utils.cpp`, `base/utils/utils_denseLA.cpp`, `base/utils/utils_io.hpp`, `base/utils/utils_numeric_types.hpp`, `base/utils/utils_tuples.hpp`, `elasticity/elasticity.hpp`, `elasticity/elasticity_2d.cpp`, `elasticity/elasticity_2d_mis.cpp`, `elasticity/elasticity_2d_spw.cpp`, `elasticity/elasticity_3d.cpp`, `elasticity/elasticity_3d_mis.cpp`, `elasticity/elasticity_3d_spw.cpp`, `elasticity/elasticity_pc_impl.hpp`, `elasticity/python_elasticity.cpp`, `h1/h1.hpp`, `h1/h1_dim1.cpp`, `h1/h1_dim1_agg.cpp`, `h1/h1_dim2.cpp`, `h1/h1_dim2_agg.cpp`, `h1/h1_dim3.cpp`, `h1/h1_dim3_agg.cpp`, `h1/h1_energy_impl.hpp`, `h1/python_h1.cpp`, `stokes/common/python_stokes.hpp`, `stokes/common/stokes_energy.hpp`, `stokes/common/stokes_factory.hpp`, `stokes/common/stokes_factory_impl.hpp`, `stokes/common/stokes_map.hpp`, `stokes/common/stokes_mesh.cpp`, `stokes/common/stokes_mesh.hpp`, `stokes/common/stokes_pc.hpp`, `stokes/common/stokes_pc_impl.hpp`, `stokes/hdiv/hdiv_hdg_embedding.cpp`, `stokes/hdiv/hdiv_hdg_embedding.hpp`, `stokes/hdiv/hdiv_stokes_factory.hpp`, `stokes/hdiv/hdiv_stokes_gg_2d.cpp`, `stokes/hdiv/hdiv_stokes_gg_2d_factory.cpp`, `stokes/hdiv/hdiv_stokes_gg_2d_mis.cpp`, `stokes/hdiv/hdiv_stokes_gg_2d_spw.cpp`, `stokes/hdiv/hdiv_stokes_gg_3d.cpp`, `stokes/hdiv/hdiv_stokes_gg_3d_factory.cpp`, `stokes/hdiv/hdiv_stokes_gg_3d_mis.cpp`, `stokes/hdiv/hdiv_stokes_gg_3d_spw.cpp`, `stokes/hdiv/hdiv_stokes_mesh.hpp`, `stokes/hdiv/hdiv_stokes_mesh_impl.hpp`, `stokes/hdiv/hdiv_stokes_pc.hpp`, `stokes/hdiv/hdiv_stokes_pc_impl.hpp`, `stokes/hdiv/preserved_vectors.hpp`, `stokes/ncfes/nc_stokes_factory.hpp`, `stokes/ncfes/nc_stokes_factory_impl.hpp`, `stokes/ncfes/nc_stokes_gg_2d.cpp`, `stokes/ncfes/nc_stokes_gg_2d_factory.cpp`, `stokes/ncfes/nc_stokes_gg_2d_mis.cpp`, `stokes/ncfes/nc_stokes_gg_2d_spw.cpp`, `stokes/ncfes/nc_stokes_gg_3d.cpp`, `stokes/ncfes/nc_stokes_gg_3d_factory.cpp`, `stokes/ncfes/nc_stokes_gg_3d_mis.cpp`, `stokes/ncfes/nc_stokes_gg_3d_spw.cpp`, `stokes/ncfes/nc_stokes_mesh.hpp`, `stokes/ncfes/nc_stokes_mesh_impl.hpp`, `stokes/ncfes/nc_stokes_pc.hpp`, `stokes/ncfes/nc_stokes_pc_impl.hpp`
