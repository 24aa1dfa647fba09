# Formal model of Scotch (live-clones/scotch) in Rocq

## Approach

* The model is shallow: each C function becomes a total Gallina function over
  `Z` and lists, in the result monad `res` (`theories/Base.v`):
  `Ok a` (normal result), `Err e` (the C function took an error-return path
  with code `e`), `UB` (an access outside an array, signed overflow where it is
  modelled, division by zero, ...) and `Fuel` (the step bound of an unbounded
  `while` loop was exhausted; theorems always exclude it).
* Scotch arrays `xxxtax` are "based": index `i` reads `data[i - baseval]`.
  The model has `rd base a i` / `wr base a i v`, which yield `UB` outside.
* Integers are unbounded `Z` unless a property is about overflow; then the
  range is an explicit parameter or is checked with an explicit `UB` outcome.
* Pointer structures (Fibonacci heap, gain tables) are modelled at pointer
  level: node numbers and one map per field, arbitrary initial memory.
* Concurrency is modelled by a small-step relation over shared state, one
  atomic step per shared access or critical section; properties hold for all
  reachable states of all interleavings.
* Model files `M_*.v`, specifications `S_*.v`, proofs `P_*.v`, and the property
  theorems `C_*.v` (statement, proof from the lemmas, `Print Assumptions`, and
  non-vacuity `Example`s).  A specification file uses the data types of the
  model (records, lists) but none of its functions.
* A theorem whose name ends in `_refuted` is a proof that the code violates
  the property (or an expected strengthening of it) on a concrete input.

## Trusted base

* Coq 8.16.1 kernel and its virtual machine (`vm_compute` in examples and
  refutation witnesses).
* `Print Assumptions` is run in the `C_*.v` files on every property theorem:
  each prints "Closed under the global context" — no axiom, not even one of
  the standard library.  Only the standard library is used (lists, ZArith,
  lia, Permutation, Sorted).
* The fidelity of the model: each definition cites the lines it models, and
  its comment says where it simplifies.  Common simplifications: memory
  allocation succeeds (but for C33, C35, C40); text output succeeds; debug-only
  code (`SCOTCH_DEBUG_*`) is left out unless a property is about it; floating
  point values appear only as arbitrary functions (C31) or not at all.

## Plan per property

| id | modelled | proof method |
|----|----------|--------------|
| C01, C02 | intLoad/intSave on a byte stream, overflow explicit | induction on digits |
| C03, C04 | common_sort.c/common_psort.c with explicit stack, pointers as indices | loop invariants on array segments; stack bound by halving |
| C05-C08 | intPerm, xorshift128+ generator, save/load, gcd | induction |
| C09, C10 | graphCheck | loop invariants, soundness and completeness wrt S_Graph |
| C11 | graphBase | invariants |
| C12 | graphInduceList / Part, with index array | invariants |
| C13, C14 | graphSave/graphLoad, listSave/listLoad over byte streams | invariants + C01 |
| C15 | SCOTCH_graphColor with the generator of C06 | refutation witness + exact characterisation of conflicts |
| C16 | sequential matching | invariant |
| C17 | threaded matching as transition system | inductive invariant over all interleavings |
| C18, C43 | coarsening with hash table, graphCoarsen, graphCoarsenMatch | invariants |
| C19-C21, C41, C42 | orderPeri/Check/Rang/Tree, ordering files | tree induction |
| C22-C25, C45 | architectures, reading of domains | arithmetic, tree induction |
| C26 | gain tables, pointer level | history invariant |
| C27 | Fibonacci heap, pointer level | history invariant, degree bound by Fibonacci numbers |
| C28-C30 | vgraphCheck, store, thin | invariants |
| C31, C32 | bgraphCheck/Cost/Zero/Swal/store | invariants |
| C33, C40 | memAllocGroup offsets, footprint accounting | list induction, history induction |
| C34, C35 | barrier, launch as transition systems | inductive invariant, decreasing measure |
| C36 | threadReduce, threadScan | induction on rounds; independence of concurrent calls |
| C37 | DATASIZE/DATASCAN | arithmetic |
| C38 | context values | history induction |
| C39 | stringSubst on a byte buffer | induction on occurrences |
| C44 | MatchInit/MatchMate of complete, hypercube, mesh/torus and tree architectures | invariant kept from call to call |
| C46, C47 | ordering strategies: Si, Nd, Cc, conditions, user interface; separations and other methods as black boxes with a contract | induction on strategies and on the size of subgraphs; induction on separator trees |
| C48 | hgraphInduceList | loop invariants |
| C49 | vgraphSeparateSt, vgraphSeparateZr, vgraphSeparateTh | induction on strategies; contracts of methods |
| C50 | vgraphSeparateMl*, on top of graphCoarsen | induction on levels; sums by groups of a matching |
| C51 | vgraphSeparateGp | invariants of the searches and of the growth |
| C52 | SCOTCH_graphPart, kgraphMapRb, kgraphMapRbPart2 over any bipartitioning method | induction on the size of the domain; jobs as sets of original vertices |
| C53 | SCOTCH_graphPartFixed/Repart/RepartFixed, kgraphMapRbVflo* | open addressing hash table invariant (P_Hash); merge of domains |
| C54 | kgraphMapRb, kgraphFron, kgraphCost, mapBuild, mapTerm over an abstract architecture | as above, loop invariants for sums |
| C55 | kgraphMapRbBgraph, kgraphMapRbVfloSplit | subgraph relation keeps adjacency order; two-pointer invariant |
| C56 | bgraphBipartSt, bgraphBipartZr, bgraphStoreSave/Updt | induction on strategies; contracts of methods; selection rule by cases |
| C57 | bgraphBipartMl2, bgraphBipartMlCoarsen, bgraphBipartMlUncoarsen | coarse cut equals fine cut; in-place rewriting invariant of the shared frontier; induction on levels |
| C58 | bgraphBipartGp, linked to SCOTCH_graphPart and kgraphMapRb through C52-C55 | queue invariant of M_VgraphSt; frontier from the queue left over; target of a problem without fixed vertices |
| C59 | meshCheck, SCOTCH_meshBuild on a view of the mesh as a bipartite graph | loop invariants, as C09 |
| C60, C61 | meshGraph, meshGraphDual with their hash tables | generic linear probing (P_MeshHash); counting of paths of length two |
| C62 | meshBase, through graphBase | as C11 |
| C63 | SCOTCH_graphTabSave/Load on byte streams, with the sort of C03 | loop invariants; merge of two sorted arrays |
| C64 | wgraphPartRb2, wgraphPartRb3*, wgraphPartSt, SCOTCH_graphPartOvl | invariant `rstep`: a job only writes the cells of its vertices, appends distinct separator vertices, and separates the domains below it; induction on the number of parts |
| C65 | wgraphCost, wgraphCheck, wgraphStore* | flag array invariant (last vertex that counted for a part), induction on strategies |
| C66 | wgraphPartMlCoarsen, wgraphPartMlUncoarsen, wgraphPartMl2, wgraphPartMl, on graphCoarsen of C18 | frontier as a list; linked list of parts as a chain without repetition; induction on levels |
| C67 | vgraphSeparateGg; gain table as the set of its vertices, any of which may come first; random root and permutation arbitrary | invariant on gains (load of the neighbours in part 0 minus own load), on the parts and on the loads, kept by every move; number of vertices out of part 1 as a measure |
| C68 | bgraphBipartGg; gain table as the set of its vertices, any of which may come first; random root and permutation arbitrary | invariant on gains (communication load change of moving each vertex), parts, loads and communication loads, kept by every move; number of vertices in part 0 as a measure; then the frontier scan |
| C69 | vgraphSeparateFm, vgraphSeparateFmTablGet; hash table as arrays indexed by vertices, gain table as the links it gives, in any order | invariant on gains, states, lock and save lists, kept by every move, undo and unlock: undoing the saved moves leads back to the best separation; lexicographic measure (separator load, imbalance) for the passes; then the scan of the slots in any order |
| C70 | SCOTCH_graphBuild | loop invariants on the sums and the maximum degree |
| C71 | _SCOTCH_METIS_OutputCut, _SCOTCH_METIS_OutputVol, _SCOTCH_METIS_PartGraph2, _SCOTCH_METIS_PartGraph, _SCOTCH_METIS_PartGraph_Volume, over the model of SCOTCH_graphPart | each arc and its reverse have the same load, so that the sum over arcs is twice the sum over edges; invariant on the flag array: cells equal to the current vertex are the parts met so far |
| C72 | _SCOTCH_METIS_Node over the model of ordering | from C46 and C19 |
| C73 | _SCOTCH_METIS_MeshToDual2 and METIS_MeshToDual over the model of the dual graph of a mesh | the n-th arc to a node goes to the n-th cell of the list of this node: slots of arcs are distinct and fill the lists, hence the mesh is consistent and C61 applies |
| C74 | hgraphOrderGp, then as a method of the ordering driver of C46 | marks are pass numbers: a vertex of the current component is in the queue if and only if it bears the current one; numbered vertices form a union of components, by closure under adjacency |
| C75 | graphDiamPV, with the heap as the set of its vertices; additions that overflow are errors | correctness of searches by increasing distances: processed vertices have their true distance, arcs from them are relaxed; the sum of the costs of processed vertices bounds distances |
| C76 | hgraphOrderBl, over any method that makes a single block; blocks written past their array are errors | loads of the first positions increase strictly up to the sum of loads, so that bounds of blocks are found and the blocks are at most as many as the vertices and as the ghost blocks; even blocks by the arithmetic of DATASIZE; a bound exceeds the load by at most one share, and is exceeded by less than a vertex load |

## Findings (violations proved on the model)

| where | theorem | what |
|-------|---------|------|
| common_integer.c:108-118 | C01_int_min_refuted | the most negative integer is saved but reading it back overflows |
| graph_base.c | C11_shared_ranges_refuted | vertices sharing edge cells (accepted by graphCheck) are shifted twice |
| graph_io.c:300-317 | C13_graphLoad_* | arc ends not checked without labels; negative degrees accepted; a negative end with labels reads out of bounds |
| graph_list.c:249-263 | C14_listCopy_refuted | listCopy overflows its destination |
| library_graph_color.c:145 | C15_graphColor_proper_refuted | neighbours can get the same colour |
| graph_coarsen.c:220-238 | C18_unchecked_mate_refuted | mate array of the caller unchecked: out-of-bounds write |
| arch_cmplt.c:265-279 | C22_negative_terminal_refuted | negative terminal accepted |
| arch_hcub.c | C23_dimension_31_refuted | dimension 31 and above shifts out of range |
| arch_mesh.c (n-dimensional) | C24_meshX_manhattan_refuted | distance wraps around as for a torus |
| arch_tleaf.c | C24_tleaf_inclusion_refuted, C24_tleaf_distance_symmetry_refuted | inclusion is overlap; distance is asymmetric on nested domains |
| arch_cmpltw.c:496 and others | C24_cmpltw_*_refuted | DomLoad adds to the old weight; DomNum not the smallest; DomTerm(-1) reads out of bounds |
| arch_vcmplt.c, arch_vhcub.c | C25_variable_bipart_never_fails_refuted | error at the last representable level |
| gain.c:414-415, gain.h | C26_last_bucket_refuted, C26_empty_refuted | enumeration misses the last bucket; emptiness test wrong for it |
| fibo.c:86, 150-161 | C27_degree_array_refuted | degree array sized for powers of two, but degrees follow Fibonacci numbers: overflow from 5702887 nodes on with 32-bit INT |
| vgraph_check.c | C28_frontier_exact_refuted | duplicate frontier entries accepted |
| bgraph.c:225-227, 242 | C31_bgraph*_fixed_load_refuted | states refused by bgraphCheck when loads are fixed |
| common_memory.c | C33_size_overflow_refuted, C40_realloc_null_refuted | size_t wrap; NULL reallocation undefined under accounting |
| common_thread.c:147-151 | C35_init_failure_refuted | lock destroyed while in use when a thread cannot be created |
| library_context.c:306 | C38_*_refuted | `switch (optival)` instead of the option number |
| common_string.c | C39_empty_pattern_refuted | empty pattern: endless recursion |
| order_io.c:91-120 | C41_orderLoad_unchecked_refuted | vertex count and values unchecked: out-of-bounds writes |
| graph_coarsen.c:188-193, 549-553 | C43_ratio_refuted | coarse vertex bound never tested after matching |
| arch_*.c DomLoad | C45_load_refuted | texts accepted that denote no domain |
| library_graph_order.c:277-280 | C46_empty_list_refuted | error code returned for an empty list or graph |
| library_graph_order.c:291 | C46_induced_graph_refuted | ordering a graph made by graphInduce* writes original numbers in the permutation, then out of bounds |
| library_graph_order.c:291-299 | C46_edge_load_sum_refuted | edge loads dropped, their sum kept |
| hgraph_order_nd.c:178, hgraph_order_st.c:293-297 | C46_unreported_failure_refuted | 0 returned although nothing was ordered |
| hgraph_order_cc.c:180 | C46_inner_components_refuted | components of a subgraph are ordered from position 0 |
| order.c (orderTree2) | C47_separator_blocks_refuted | parts are linked to the last block of a separator only |
| vgraph_separate_st.c:315-317 | C49_select_wide_refuted | abs truncates 64-bit imbalances to int: the worse separation may be kept |
| kgraph_map_rb.c:163-176 | C52_failure_refuted | after a failed bipartitioning, cost is computed from an uninitialised part array |
| kgraph_map_rb_part.c:153, 186 | C52_induced_refuted | graph made by graphInduce*: original numbers index the part array of the subgraph, out of bounds |
| kgraph_map_rb.c:298-303, 468 | C53_zero_loads_refuted | fixed vertices of zero load are not counted when sizing a hash table, whose search then never ends (probe_full) |
| library_graph_map.c:369-391 | C53_bad_entries_refuted | fixed part values below -1 or too large lead to undefined behaviour |
| kgraph_map_rb.c:339-395 | C55_fixed_loads_refuted | load of a fixed terminal counted in both halves, or in none |
| bgraph_bipart_st.c:322-350 | C56_select_failed_refuted | result of a failed strategy saved, then restored with return value 0 although its frontier array is corrupted |
| bgraph_bipart_st.c:341-346 | C56_select_wide_refuted | abs truncates 64-bit imbalances to int: the worse bipartition may be kept |
| bgraph_bipart_gp.c:131 | C58_negative_refuted, C58_fixed_refuted | with a negative target load, which fixed vertices may give, the search of a root goes past the end of the array |
| mesh_check.c | C59_edgenbr_refuted | the number of arcs is not checked; meshGraph then writes out of bounds |
| mesh_graph.c (dual) | C61_loads_refuted | dual graph has the sum of element loads but no loads, and is rejected by graphCheck |
| mesh.c (meshBase) | C62_loads_refuted | load arrays are not moved: read at wrong indices |
| library_graph_map_io.c:153 | C63_base_refuted | labels read from index 0 of an array of the base of the graph: out of bounds for base 1 |
| library_graph_map_io.c:99-100 | C63_empty_refuted | the file of the empty graph, which has no pairs, is rejected |
| wgraph_part_rb.c:355-368 | C64_three_parts_refuted | if a separation leaves the second part empty and there are three parts, a null part array is read |
| wgraph_part_rb.c (vnumtax) | C64_induced_refuted | the part array of an induced graph is indexed by the numbers of vertices in its father: out of bounds |
| library_graph_part_ovl.c:101-110 | C64_first_method_refuted | the initial partition is not set; strategies that begin by method Z, nothing or a selection read fresh memory: they may return 0 with no partition, or read out of bounds |
| wgraph_check.c | C65_check_separation_refuted, C65_check_frontier_refuted | edges between parts, and repeated frontier vertices, are accepted |
| vgraph_separate_gg.c:145 | C67_empty_refuted | on the empty graph, the first root is drawn modulo zero: SCOTCH_graphPartOvl of an empty graph, whose default strategy uses this method, divides by zero |
| bgraph_bipart_gg.c:220 | C68_empty_refuted | on the empty graph, the first root is drawn modulo zero: SCOTCH_graphPart of an empty graph by recursive bipartitioning with this method, as default strategies do, divides by zero |
| bgraph_bipart_gg.c:311-342 | C68_nopass_refuted | with no pass (pass=0), the frontier is reset while the parts are kept: the bipartition becomes inconsistent |
| vgraph_separate_fm.c:121-126 | C69_zero_load_refuted | the two links of a vertex are told apart by the sign of minus its load: with null vertex loads, which SCOTCH_graphCheck accepts, the refinement uses the memory before the slot of the vertex |
| vgraph_separate_fm.c:189-192 | C69_empty_refuted | on the empty graph, with a positive balance ratio, the mean load divides by the number of vertices, zero |
| metis_graph_dual.c:188 | C73_nonodes_refuted | without nodes, the size of the move is -1 cells, taken as unsigned |
| metis_graph_dual.c:149-155, 177-186 | C73_offset_refuted | when element lists do not start at the base, the shift is added instead of removed, and later loops ignore it: node lists are written past the end of the edge array |
| graph_diam.c:160-173 | C75_overflow_refuted | distances add vertex and edge loads: they may overflow although both sums are valid |
| hgraph_order_bl.c:161-164 | C76_list_refuted | the loads of a subgraph are read at the numbers of the vertices in the whole graph, from the first position of the whole ordering: blocks are written past the end of their array |
| hgraph_order_bl.c:175 | C76_null_load_refuted | block splitting stops when the sum of the loads is reached: last vertices of null load belong to no block |
| hgraph_order_bl.c:193-196 | C76_several_blocks_refuted | when the strategy makes several blocks, the method calls itself on each of them with the whole graph and the same strategy: the recursion is infinite |

Noticed while reading, not proved: bgraphStoreUpdt recomputes the imbalance
ratio with an absolute value, bgraphInit2/bgraphZero do not; graphCoarsen2
(graph_coarsen.c:526-529) leaks the mate array when graphMatchInit fails; the
coarsening hash `coarvertend * 1049` overflows a 32-bit Gnum above about two
million vertices; archCmpltMatchMate (arch_cmplt.c:236-237) stores its pass
number back unchanged; the debug checks of
metis_graph_dual.c:104 let through a node number that is one too large;
SCOTCH_graphDiamPV (library_graph_diam.c:83) returns 1, a valid diameter, when its context cannot be set;
METIS partitioning with several constraints
(metis_graph_part.c) gives vwgt to SCOTCH_graphBuild as it is, though the
weights of a vertex are ncon cells apart; vgraphSeparateFmResize, on a full
table, looks for an empty slot below index 0; meshSave (mesh_io.c:356)
sets the same flag twice, and meshLoad does not set the number of isolated elements.

## Not modelled

The distributed library (dgraph, dorder, dmapping), mesh files, mesh induction, coarsening and ordering
(mesh_io*.c, mesh_induce*.c, mesh_coarsen.c, hmesh_*.c, vmesh_*.c), the strategy parser, the numerical heuristics (multilevel drivers other than
those of vertex separation, bipartitioning and partitioning with overlap, greedy growing of overlapped parts, Fiduccia-Mattheyses refinement other than that of vertex separators (for which the enlargement of the hash table, vgraphSeparateFmResize, is not modelled either), diffusion, minimum degree/fill, graph compression, k-way ordering, recursive
bipartitioning on non-partitioning architectures, exactifying), general
decomposition-defined and sub- architectures (arch_deco*.c, arch_sub.c,
arch_dist.c), the wrappers (METIS routines other than graph partitioning, ordering and dual graphs, target part weights, ESMUMPS, Fortran) and the command-line
tools.
