{"id": "C01", "title": "Integer text round trip", "statement": "Whatever integer of the configured integer type the library writes as text, followed by any non-digit byte, is read back as the same integer, and the reader consumes exactly the characters that were written plus the single following separator, which it pushes back.", "quantifier": "every representable integer value (any word width), every continuation of the character stream", "why_tests_cant": "The set of values and continuations is unbounded (2^64 values); boundary values such as INT_MIN depend on how the magnitude is accumulated.", "anchors": ["src/libscotch/common_integer.c: intLoad, intSave"]}
{"id": "C02", "title": "Integer reader decodes the decimal grammar", "statement": "On any character stream the integer reader either reports failure or returns the value of the optional-sign decimal literal found after leading white space; the value returned is exact provided it fits the integer type; it never returns success without having read at least one digit.", "quantifier": "every finite character stream", "why_tests_cant": "Infinite set of streams.", "anchors": ["src/libscotch/common_integer.c: intLoad"]}
{"id": "C03", "title": "Sorting routines sort", "statement": "The array sorting routines (used for all key widths) return a permutation of the input records in non-decreasing key order, never access a record outside the array and never overflow their fixed-size partition stack, whatever the array contents and for every length representable in the integer type.", "quantifier": "every array length and contents, every record width (1, 2, 3 integers), one- and two-key comparison", "why_tests_cant": "Quicksort with median-of-three, sentinel-based inner scans and a fixed stack is only safe because of an invariant; adversarial inputs are unbounded.", "anchors": ["src/libscotch/common_sort.c: INTSORTNAME", "src/libscotch/common_integer.c: intSort1asc1, intSort2asc1, intSort2asc2, intSort3asc1, intSort3asc2"]}
{"id": "C04", "title": "Partial sort keeps the data and partitions it", "statement": "The level-limited sorting routines terminate, stay inside the array and their partition stack, and leave a permutation of the input records, for any maximum level.", "quantifier": "every array, every level bound", "why_tests_cant": "Unbounded inputs and levels.", "anchors": ["src/libscotch/common_psort.c: INTSORTNAME", "src/libscotch/common_integer.c: intPsort2asc1"]}
{"id": "C05", "title": "Random permutation is a permutation", "statement": "intPerm turns its array into a permutation of the original contents, for every state of the pseudo-random generator, reading and writing only inside the array.", "quantifier": "every array and every sequence of random values", "why_tests_cant": "Depends on all generator states and lengths.", "anchors": ["src/libscotch/common_integer.c: intPerm, intRandVal"]}
{"id": "C06", "title": "Pseudo-random generator is resettable and replayable", "statement": "After a reset the generator produces the sequence it produced after the previous reset with the same seed and process number; saving the state to a stream and loading it back continues with exactly the same sequence; the internal state is never the absorbing all-zero state.", "quantifier": "every seed, process number, number of values drawn before and after", "why_tests_cant": "Quantifies over histories of calls and 2^128 states.", "anchors": ["src/libscotch/common_integer.c: intRandInit, intRandReset, intRandSeed, intRandSave, intRandLoad, intRandVal"]}
{"id": "C07", "title": "Random values stay in range", "statement": "A random value requested below a positive bound n is in [0,n).", "quantifier": "every generator state and every bound", "why_tests_cant": "2^128 states.", "anchors": ["src/libscotch/common_integer.c: intRandVal"]}
{"id": "C08", "title": "Greatest common divisor", "statement": "The gcd routine terminates and returns the greatest common divisor for all pairs of non-negative integers.", "quantifier": "all pairs of non-negative integers", "why_tests_cant": "Unbounded.", "anchors": ["src/libscotch/common_integer.c: intGcd"]}
{"id": "C09", "title": "graphCheck accepts only consistent graphs", "statement": "If SCOTCH_graphCheck returns 0 on a graph whose arrays can be read, then the graph is a well-formed undirected graph: every arc end is a vertex, no loops, no duplicate arcs, every arc has its reverse with the same load, loads are non-negative and the recorded sums, arc count and maximum degree are right.", "quantifier": "every graph structure (compact or not, with or without optional arrays, any base value)", "why_tests_cant": "Unbounded graph structures.", "anchors": ["src/libscotch/graph_check.c: graphCheck", "src/libscotch/graph.h: Graph"]}
{"id": "C10", "title": "graphCheck accepts every consistent graph", "statement": "SCOTCH_graphCheck returns 0 on every well-formed graph (as above) whose load sums fit the integer type, without reading outside the arrays.", "quantifier": "every well-formed graph", "why_tests_cant": "Unbounded graph structures.", "anchors": ["src/libscotch/graph_check.c: graphCheck"]}
{"id": "C11", "title": "Rebasing a graph changes only the numbering", "statement": "SCOTCH_graphBase returns the previous base value, shifts every index array by the same offset so that the graph relation and all loads are preserved, leaves label values' association to vertices intact, and rebasing back restores the original graph exactly; an accepted graph stays accepted.", "quantifier": "every graph, every pair of base values", "why_tests_cant": "Unbounded.", "anchors": ["src/libscotch/graph_base.c: graphBase"]}
{"id": "C12", "title": "Induced subgraph is exact", "statement": "SCOTCH_graphInduceList/Part return a graph whose vertices are exactly the selected vertices in order, whose arcs are exactly the arcs of the original graph between selected vertices with the same loads, with right sums, and which graphCheck accepts.", "quantifier": "every valid graph, every duplicate-free vertex list / every part array and part value", "why_tests_cant": "Unbounded.", "anchors": ["src/libscotch/graph_induce.c: graphInduceList, graphInducePart, graphInduce2, graphInduce3"]}
{"id": "C13", "title": "Graph file round trip", "statement": "Saving a graph with SCOTCH_graphSave and loading the file with SCOTCH_graphLoad gives back the same graph (vertices, neighbour lists in order, loads, labels), up to the base requested and to loads being dropped or defaulted as requested by flags; on any stream the loader either fails or returns a graph whose counts agree with what was read.", "quantifier": "every valid graph, requested base value and flag value", "why_tests_cant": "Unbounded graphs and streams.", "anchors": ["src/libscotch/graph_io.c: graphLoad, graphLoad2, graphSave"]}
{"id": "C14", "title": "Vertex list file round trip", "statement": "A saved vertex list without duplicates is loaded back as the same numbers in increasing order (unchanged if it was in order); a list with a duplicate is refused; every list that is accepted, whatever the stream, is strictly increasing.", "quantifier": "every vertex list", "why_tests_cant": "Unbounded.", "anchors": ["src/libscotch/graph_list.c: listLoad, listSave, listSort"]}
{"id": "C15", "title": "Graph colouring is proper", "statement": "SCOTCH_graphColor gives every vertex a colour between 0 and the returned number of colours minus one, and no two neighbours get the same colour.", "quantifier": "every valid graph, every random generator state", "why_tests_cant": "The outcome depends on random values; ordinary runs rarely hit the order that breaks it.", "anchors": ["src/libscotch/library_graph_color.c: SCOTCH_graphColor"]}
{"id": "C16", "title": "Sequential matching is a maximal greedy matching", "statement": "The sequential matching of a graph gives every vertex exactly one mate, possibly itself, and every vertex is the mate of its mate. Two distinct mates are neighbours, or one of them is isolated and merging isolated vertices was allowed. Fixed values and old parts are respected. The reported number of coarse vertices is the number of groups. No two vertices that could have been grouped are both left alone, and a vertex choosing among free neighbours takes one over a heaviest edge.", "quantifier": "every valid graph, every part and fixed-vertex arrays, with or without loads", "why_tests_cant": "Unbounded graphs; the outcome depends on the order produced by a partial sort and on a queue that is consumed from both ends.", "anchors": ["src/libscotch/graph_match.c: graphMatchInit, graphMatchQueueSort, graphMatch", "src/libscotch/graph_match_scan.c: GRAPHMATCHSCANNAME"]}
{"id": "C17", "title": "Concurrent matching is a matching under every schedule", "statement": "When several threads match vertices concurrently with per-vertex test-and-set locks, for every interleaving the resulting mate relation is an involution in which every vertex has at most one mate.", "quantifier": "every number of threads and every interleaving of their atomic steps", "why_tests_cant": "Schedules cannot be enumerated by tests.", "anchors": ["src/libscotch/graph_match_scan.c: GRAPHMATCHSCANNAME", "src/libscotch/graph_match.c: graphMatch"]}
{"id": "C18", "title": "Coarsening conserves loads and structure", "statement": "The coarse graph built from a matching is a valid graph; each coarse vertex load is the sum of the loads of its fine vertices, each coarse edge load is the sum of the loads of the fine edges between the two groups, and no other edges exist.", "quantifier": "every valid fine graph and every matching", "why_tests_cant": "Hash table with linear probing; unbounded graphs.", "anchors": ["src/libscotch/graph_coarsen.c: graphCoarsen3, graphCoarsenEdgeLl", "src/libscotch/graph_coarsen_edge.c"]}
{"id": "C19", "title": "Inverse permutation of an ordering", "statement": "orderPeri gives the direct permutation that is the exact inverse of the inverse permutation held by the ordering, for every base value.", "quantifier": "every ordering and base", "why_tests_cant": "Unbounded.", "anchors": ["src/libscotch/order.c: orderPeri"]}
{"id": "C20", "title": "orderCheck characterises valid orderings", "statement": "orderCheck returns 0 exactly on orderings whose permutation array is a permutation of the vertex range and whose column block tree is consistent (sizes sum up, block counts match).", "quantifier": "every ordering structure", "why_tests_cant": "Unbounded trees and arrays.", "anchors": ["src/libscotch/order_check.c: orderCheck, orderCheck2"]}
{"id": "C21", "title": "Column block ranges and separator tree", "statement": "orderRang yields an increasing range array that starts at the base value, ends at base+n and has one entry per column block; orderTree yields a parent array in which every parent has a higher index than its child, or is -1 for roots.", "quantifier": "every consistent ordering", "why_tests_cant": "Unbounded trees.", "anchors": ["src/libscotch/order.c: orderRang, orderTree"]}
{"id": "C22", "title": "Complete-graph architecture domains", "statement": "For the complete graph architecture: bipartitioning a domain of more than one processor gives two non-empty disjoint domains covering it with sizes adding up; the terminal number / terminal domain functions are inverse; distance is symmetric, zero exactly on equal domains; inclusion is the set inclusion; saving and loading a domain gives it back; repeated bipartition terminates in terminal domains.", "quantifier": "every architecture size and domain", "why_tests_cant": "Unbounded sizes.", "anchors": ["src/libscotch/arch_cmplt.c"]}
{"id": "C23", "title": "Hypercube architecture domains", "statement": "Same for the hypercube architecture, with the distance of terminals being the Hamming distance of their numbers.", "quantifier": "every dimension and domain", "why_tests_cant": "Unbounded.", "anchors": ["src/libscotch/arch_hcub.c"]}
{"id": "C24", "title": "Weighted complete-graph, mesh, torus and tree-leaf architecture domains", "statement": "Same for weighted complete graphs, n-dimensional meshes and tori (distance of terminals is the Manhattan, resp. wrap-around Manhattan distance) and tree-leaf architectures.", "quantifier": "every architecture parameter and domain", "why_tests_cant": "Unbounded dimensions and sizes.", "anchors": ["src/libscotch/arch_cmpltw.c", "src/libscotch/arch_mesh.c", "src/libscotch/arch_torus.c", "src/libscotch/arch_tleaf.c"]}
{"id": "C25", "title": "Variable-sized architectures", "statement": "For variable-sized complete graphs and hypercubes, bipartitioning never fails, gives disjoint subdomains whose union is the domain, and terminal numbers are unique.", "quantifier": "every domain number", "why_tests_cant": "Unbounded recursion depth.", "anchors": ["src/libscotch/arch_vcmplt.c", "src/libscotch/arch_vhcub.c"]}
{"id": "C26", "title": "Gain table keeps exactly the added elements", "statement": "For every history of additions, removals, flushes and relocations, the linked-list gain table contains exactly the elements added and not removed; its first element is the last added one of the lowest bucket; first/next enumerates each element once in order of increasing bucket (as long as none lies in the last bucket); buckets increase with gains and never leave the table.", "quantifier": "every history of operations", "why_tests_cant": "Pointer structure depends on whole history.", "anchors": ["src/libscotch/gain.c"]}
{"id": "C27", "title": "Fibonacci heap returns the minimum", "statement": "For every history of insertions, deletions and key decreases, the heap holds exactly the inserted and not deleted elements and returns one that is minimal.", "quantifier": "every history of operations, any comparison function that is a total preorder", "why_tests_cant": "Pointer structure depends on whole history.", "anchors": ["src/libscotch/fibo.c", "src/libscotch/fibo.h"]}
{"id": "C28", "title": "Vertex separator bookkeeping", "statement": "Whenever vgraphCheck accepts a vertex-separated graph, no arc joins part 0 to part 1, the recorded sizes and loads are those of the part array, and the recorded frontier is made of separator vertices, as many as the separator has (hence is the separator when its entries are distinct); vgraphCheck accepts every consistent separation, and in particular the one obtained by a reset.", "quantifier": "every graph and separation", "why_tests_cant": "Unbounded.", "anchors": ["src/libscotch/vgraph_check.c: vgraphCheck"]}
{"id": "C29", "title": "Separator save/restore", "statement": "Saving the current separation and restoring it later gives back exactly the saved part array, frontier, loads and sizes, whatever happened in between.", "quantifier": "every graph and pair of separations", "why_tests_cant": "Unbounded.", "anchors": ["src/libscotch/vgraph_store.c: vgraphStoreSave, vgraphStoreUpdt"]}
{"id": "C30", "title": "Separator thinning", "statement": "Thinning a valid separation yields a valid separation whose separator is a subset of the previous one and in which every separator vertex has a neighbour in both parts.", "quantifier": "every graph and valid separation", "why_tests_cant": "Unbounded.", "anchors": ["src/libscotch/vgraph_separate_th.c: vgraphSeparateTh"]}
{"id": "C31", "title": "Bipartition bookkeeping", "statement": "bgraphCost2/bgraphCheck: the recorded sizes, loads, frontier and communication load of an accepted bipartition are those of the part array; recomputing them from a part array yields an accepted state; the initial state, resetting to part 0 and exchanging the parts give accepted states when no vertex is fixed outside the graph.", "quantifier": "every graph, part array, domain distance and external gains", "why_tests_cant": "Unbounded.", "anchors": ["src/libscotch/bgraph_check.c", "src/libscotch/bgraph_cost.c", "src/libscotch/bgraph.c: bgraphZero, bgraphSwal, bgraphInit2"]}
{"id": "C32", "title": "Bipartition save/restore", "statement": "Saving the current bipartition and restoring it later, whatever was done to the bipartition in between, gives back the saved parts, frontier, sizes, loads and communication figures, and an accepted state.", "quantifier": "every graph and pair of bipartitions", "why_tests_cant": "Unbounded.", "anchors": ["src/libscotch/bgraph_store.c"]}
{"id": "C33", "title": "Grouped allocation gives disjoint aligned blocks", "statement": "The blocks handed out by the grouped allocation routines are aligned on 8 bytes, pairwise disjoint, in order, and lie inside the single allocated area.", "quantifier": "every list of sizes", "why_tests_cant": "Unbounded argument lists.", "anchors": ["src/libscotch/common_memory.c: memAllocGroup, memReallocGroup, memOffset"]}
{"id": "C34", "title": "Thread barrier releases nobody early", "statement": "For every schedule, including spurious wake-ups, no thread leaves a barrier before all threads of the context have entered it, exactly one of them gets the distinguished return value per round, and the barrier is reusable.", "quantifier": "every number of threads, every interleaving, every number of rounds", "why_tests_cant": "Schedules are unbounded.", "anchors": ["src/libscotch/common_thread.c: threadContextBarrier"]}
{"id": "C35", "title": "Thread launch runs the function once per thread", "statement": "Each launch runs the given function exactly once on every thread of the context, and the launch returns only after all have finished; for every schedule.", "quantifier": "every number of threads, launches and interleavings", "why_tests_cant": "Schedules are unbounded.", "anchors": ["src/libscotch/common_thread.c: threadLaunch, threadWait, threadWaitBarrier"]}
{"id": "C36", "title": "Thread reduction and scan", "statement": "A reduction with an associative commutative operator leaves on the root the combination of all per-thread values; a scan leaves on thread i the combination of values 0..i; for every number of threads and root (both canonical and simple variants).", "quantifier": "every number of threads, root, operator and data", "why_tests_cant": "Unbounded.", "anchors": ["src/libscotch/common_thread.c: threadReduce, threadScan"]}
{"id": "C37", "title": "Block data distribution", "statement": "The block distribution macros split n items over p processes contiguously, without overlap or omission, with sizes differing by at most one.", "quantifier": "every n and p", "why_tests_cant": "Unbounded.", "anchors": ["src/libscotch/common.h: DATASIZE, DATASCAN"]}
{"id": "C38", "title": "Context option values", "statement": "After setting an option value in a context, reading it returns that value, other values are unchanged, the shared default table is never modified, and invalid option numbers are rejected without effect.", "quantifier": "every history of option settings", "why_tests_cant": "Histories.", "anchors": ["src/libscotch/common_values.c"]}
{"id": "C39", "title": "In-place string substitution", "statement": "stringSubst replaces every non-overlapping left-to-right occurrence of a non-empty pattern by the replacement, in place, needing only a buffer large enough for the longer of the two strings, whatever the relative lengths.", "quantifier": "every string, pattern, replacement", "why_tests_cant": "Overlapping memory moves; unbounded strings.", "anchors": ["src/libscotch/common_string.c: stringSubst, stringSubst2"]}
{"id": "C40", "title": "Memory footprint accounting", "statement": "When memory accounting is compiled in, the current footprint reported is the total of the sizes of the live blocks, and the maximum footprint is the largest such total ever reached.", "quantifier": "every history of allocations, reallocations (including failing ones) and releases", "why_tests_cant": "Histories.", "anchors": ["src/libscotch/common_memory.c: memAllocRecord, memReallocRecord, memFreeRecord, memCur, memMax"]}
{"id": "C41", "title": "Ordering files can be read back", "statement": "Saving an ordering writes one line per vertex with its position, and loading the file into an ordering of the same base and size gives the same permutation, consuming exactly the saved text but its last line end.", "quantifier": "every valid permutation, base and following text", "why_tests_cant": "Unbounded sizes; text round trip.", "anchors": ["src/libscotch/order_io.c: orderLoad, orderSave"]}
{"id": "C42", "title": "Ordering mapping and tree files", "statement": "The mapping file lists each vertex once, in increasing order, with the number of the column block that holds it; the tree file lists each vertex with the father of its column block.", "quantifier": "every valid ordering", "why_tests_cant": "Unbounded trees.", "anchors": ["src/libscotch/order_io.c: orderSaveMap, orderSaveTree"]}
{"id": "C43", "title": "The matching routine honours the contraction bound", "statement": "SCOTCH_graphCoarsenMatch returns 0 only if the number of coarse vertices it reports is below the maximum allowed by the contraction ratio, and 1 when the graph cannot be matched within the bounds.", "quantifier": "every valid graph, bounds and flags", "why_tests_cant": "The bound depends on the graph; unit tests use graphs that contract well.", "anchors": ["src/libscotch/library_graph_coarsen.c: SCOTCH_graphCoarsenMatch", "src/libscotch/graph_coarsen.c: graphCoarsenMatch, graphCoarsen2, graphCoarsen3"]}
{"id": "C44", "title": "Target architectures coarsen down to one vertex", "statement": "Starting from all processors, each call of the architecture matching routine groups the vertices left by the previous call by one or two, each in exactly one group, with strictly fewer groups, until one is left and the routine reports the end. Mesh and torus calls pair neighbours along one dimension; tree calls pair sons of the same node.", "quantifier": "every complete graph, hypercube, mesh, torus and tree, of any sizes (odd ones included)", "why_tests_cant": "Unbounded sizes; the state carried between calls alternates the vertex left alone.", "anchors": ["src/libscotch/arch_cmplt.c: archCmpltMatchInit, archCmpltMatchMate", "src/libscotch/arch_hcub.c: archHcubMatchInit, archHcubMatchMate", "src/libscotch/arch_mesh.c: archMeshXMatchInit, archMeshXMatchMate", "src/libscotch/arch_tleaf.c: archTleafMatchInit, archTleafMatchMate"]}
{"id": "C45", "title": "Domains read from files are valid", "statement": "When reading a domain from a file succeeds, the domain read is one of the architecture.", "quantifier": "every text, architecture and size", "why_tests_cant": "Arbitrary input text.", "anchors": ["src/libscotch/arch_cmplt.c: archCmpltDomLoad", "src/libscotch/arch_hcub.c: archHcubDomLoad", "src/libscotch/arch_mesh.c: archMeshXDomLoad", "src/libscotch/arch_tleaf.c: archTleafDomLoad", "src/libscotch/arch_vcmplt.c, arch_vhcub.c: DomLoad, DomTerm"]}
{"id": "C46", "title": "Graph ordering gives an ordering", "statement": "SCOTCH_graphOrder never reads or writes out of bounds, and when it returns 0 the direct and inverse permutations are inverse permutations of the vertices, the column block ranges partition the positions into as many non-empty blocks as reported, and the father of a block is -1 or a block that comes later. Ordering a list of vertices puts the vertices of the list first and the others after them, in their initial order.", "quantifier": "every valid graph, every ordering strategy made of simple ordering, connected components, nested dissection, conditions and well-behaved black-box methods, every separation computed, every initial memory contents", "why_tests_cant": "The recursion depends on the graph and on the separators computed.", "anchors": ["src/libscotch/library_graph_order.c: SCOTCH_graphOrder, SCOTCH_graphOrderCompute, SCOTCH_graphOrderComputeList", "src/libscotch/hgraph_order_st.c", "src/libscotch/hgraph_order_nd.c", "src/libscotch/hgraph_order_cc.c", "src/libscotch/hgraph_order_si.c"]}
{"id": "C47", "title": "The tree of an ordering is a separator tree", "statement": "After SCOTCH_graphOrder, two adjacent vertices always are in the same column block, or one of their blocks is an ancestor of the other in the tree returned, so that block elimination does not create fill between unrelated blocks.", "quantifier": "every valid graph, strategy and pair of adjacent vertices", "why_tests_cant": "Depends on all the separators computed along the recursion.", "anchors": ["src/libscotch/library_graph_order.c: SCOTCH_graphOrder", "src/libscotch/hgraph_order_nd.c", "src/libscotch/order.c: orderTree"]}
{"id": "C48", "title": "Subgraphs given to ordering methods", "statement": "A halo-induced subgraph has the listed vertices in their order, then each of their other neighbours once; listed vertices keep all their arcs, those to listed vertices first; halo vertices only keep arcs to listed vertices; loads and original numbers follow; no array is overrun if the halo array can hold the neighbours.", "quantifier": "every valid graph, list of distinct vertices and initial memory contents", "why_tests_cant": "Unbounded sizes; memory layout.", "anchors": ["src/libscotch/hgraph_induce.c: hgraphInduceList", "src/libscotch/hgraph_induce_edge.c"]}
{"id": "C49", "title": "Separation strategies keep separations consistent and select the better result", "statement": "Running any vertex separation strategy from a consistent separation never reads or writes out of bounds, and when it returns 0 the separation is a consistent one of the same graph, which the checking routine accepts. A selection runs both strategies from the same separation, never fails, and keeps what one of them gave, such that the other one did not give a smaller separator, or one as small with a better balance.", "quantifier": "every valid graph, consistent separation, strategy tree and well-behaved method, every failure of methods", "why_tests_cant": "Strategies nest without bound, and states are saved and restored between alternatives.", "anchors": ["src/libscotch/vgraph_separate_st.c: vgraphSeparateSt", "src/libscotch/vgraph_separate_zr.c", "src/libscotch/vgraph_separate_th.c", "src/libscotch/vgraph_store.c"]}
{"id": "C50", "title": "Multilevel separation", "statement": "Multilevel separation never fails in memory whatever the number of levels, and gives a consistent separation of the graph when it returns 0. A separation of a coarse graph is carried to the finer graph without change of the loads of its parts and separator, each vertex getting the part of its coarse vertex.", "quantifier": "every valid graph, matching, number of levels, pair of low and ascending strategies, and memory contents", "why_tests_cant": "The number of levels depends on the graph.", "anchors": ["src/libscotch/vgraph_separate_ml.c: vgraphSeparateMl, vgraphSeparateMl2, vgraphSeparateMlCoarsen, vgraphSeparateMlUncoarsen", "src/libscotch/graph_coarsen.c: graphCoarsen"]}
{"id": "C51", "title": "Greedy separation by levels", "statement": "The Gibbs-Poole-Stockmeyer-like method always succeeds, within its queue and distance arrays, on connected graphs or not, and gives a consistent separation such that the load of part 0 is not above its share.", "quantifier": "every valid graph, consistent separation, number of passes and memory contents", "why_tests_cant": "The breadth-first searches depend on the whole graph.", "anchors": ["src/libscotch/vgraph_separate_gp.c: vgraphSeparateGp"]}
{"id": "C52", "title": "Graph partitioning yields a partition", "statement": "SCOTCH_graphPart with recursive bipartitioning returns 0, writes for every vertex a part number between 0 and the number of parts less one, and no other cell of the array.", "quantifier": "every valid graph that is not an induced one, every number of parts, every bipartitioning method that gives two parts, all memory contents", "why_tests_cant": "The recursion depends on the number of parts, the subgraphs on the bipartitions.", "anchors": ["src/libscotch/library_graph_map.c: SCOTCH_graphPart, graphMapCompute2", "src/libscotch/kgraph_map_rb.c", "src/libscotch/kgraph_map_rb_part.c", "src/libscotch/mapping.c"]}
{"id": "C53", "title": "Fixed vertices stay where they are put; old partitions are honoured", "statement": "SCOTCH_graphPartFixed, SCOTCH_graphRepart and SCOTCH_graphRepartFixed return 0 with a part number in range for every vertex; every vertex fixed by the caller keeps its part; cells beyond the vertices are not written.", "quantifier": "every valid graph, number of parts, set of fixed vertices, old partition, migration costs and bipartitioning method", "why_tests_cant": "Fixed vertices are taken away, then merged back through hash tables after the recursion.", "anchors": ["src/libscotch/library_graph_map.c: SCOTCH_graphPartFixed, SCOTCH_graphRepart, SCOTCH_graphRepartFixed", "src/libscotch/kgraph_map_rb.c: kgraphMapRbVfloBuild, kgraphMapRbVfloMerge"]}
{"id": "C54", "title": "Recursive bipartitioning maps onto terminals and records the true cost of the mapping", "statement": "On any architecture of fixed size, recursive bipartitioning maps each vertex to a terminal domain, distinct domains being distinct terminals and fixed vertices being on theirs; the frontier, load imbalances and communication load it records are those of the mapping. Terminal numbers turned into a mapping come back.", "quantifier": "every architecture that meets the interface contract, every graph, fixed vertices and old mapping", "why_tests_cant": "Quantifies over architectures and over all recursions.", "anchors": ["src/libscotch/kgraph_map_rb.c: kgraphMapRb", "src/libscotch/kgraph.c: kgraphFron, kgraphCost", "src/libscotch/mapping.c: mapBuild, mapTerm"]}
{"id": "C55", "title": "Bipartition problems handed to the strategy are exact", "statement": "At each step of recursive bipartitioning the bipartitioning strategy only gets the subgraph induced by the vertices concerned, with their loads and internal edges, the distance and weights of the two halves, and external gains equal to the difference of cost of edges to fixed vertices plus migration between the two halves; and the loads of fixed vertices in each half.", "quantifier": "every graph, subgraph, architecture, fixed part array, old mapping and cost coefficients", "why_tests_cant": "The gains are computed by walking two adjacency lists side by side.", "anchors": ["src/libscotch/kgraph_map_rb.c: kgraphMapRbBgraph, kgraphMapRbVfloSplit", "src/libscotch/kgraph_map_rb_part.c: kgraphMapRbPart2"]}
{"id": "C56", "title": "Bipartitioning strategies keep bipartitions consistent and select the better one", "statement": "Whatever the bipartitioning strategy (sequence, test, selection, nesting), starting from a consistent bipartition there is no memory error, the graph, target loads and external gains are unchanged, and a null return value comes with a consistent bipartition: exact frontier, loads, sizes and communication load. Selection runs both strategies from the same bipartition and keeps the better result: balanced first, then by cut and imbalance, or by imbalance and cut if none is balanced.", "quantifier": "every valid graph, consistent bipartition, strategy tree, well-behaved method, save area, every failure of methods", "why_tests_cant": "Strategies nest without bound, and states are saved and restored between alternatives.", "anchors": ["src/libscotch/bgraph_bipart_st.c: bgraphBipartSt", "src/libscotch/bgraph_bipart_zr.c", "src/libscotch/bgraph_store.c"]}
{"id": "C57", "title": "Multilevel bipartitioning", "statement": "Multilevel bipartitioning never fails in memory whatever the number of levels, and gives a consistent bipartition of the graph when it returns 0. A bipartition of a coarse graph is carried to the finer graph without change of load, imbalance and communication load, each vertex getting the part of its coarse vertex; the frontier array, shared by all levels, is rewritten in place and stays exact.", "quantifier": "every valid graph, external gains, matching, number of levels, pair of low and ascending strategies, and memory contents", "why_tests_cant": "The number of levels depends on the graph.", "anchors": ["src/libscotch/bgraph_bipart_ml.c: bgraphBipartMl, bgraphBipartMl2, bgraphBipartMlCoarsen, bgraphBipartMlUncoarsen", "src/libscotch/graph_coarsen.c: graphCoarsen"]}
{"id": "C58", "title": "Graph growing bipartitioning, and partitioning with it", "statement": "The Gibbs-Poole-Stockmeyer-like bipartitioning method always succeeds, within its arrays, on connected graphs or not, and gives a consistent bipartition: part 0 is not heavier than its target, and would be with one more vertex. Partitioning and mapping by recursive bipartitioning with strategies made of such methods give a part in range to every vertex.", "quantifier": "every valid graph, consistent bipartition, number of passes, memory contents, number of parts and strategy tree", "why_tests_cant": "The breadth-first searches depend on the whole graph.", "anchors": ["src/libscotch/bgraph_bipart_gp.c: bgraphBipartGp", "src/libscotch/library_graph_map.c: SCOTCH_graphPart", "src/libscotch/kgraph_map_rb.c"]}
{"id": "C59", "title": "Mesh check", "statement": "The mesh consistency check accepts every consistent mesh (elements tied to nodes only and nodes to elements only, each incidence recorded on both sides and once, loads at least one, right sums, right number of isolated elements), and rejects every other one whose number of arcs is right, whether elements or nodes come first. Building a mesh keeps the arrays given and computes sums, isolated elements and largest degree. (The number of arcs should be checked too.)", "quantifier": "every mesh, numbers of elements and nodes, base, load arrays and arc array", "why_tests_cant": "The set of meshes is unbounded.", "anchors": ["src/libscotch/mesh_check.c: meshCheck", "src/libscotch/library_mesh.c: SCOTCH_meshBuild, SCOTCH_meshCheck"]}
{"id": "C60", "title": "Graph of a mesh", "statement": "Building the graph of a consistent mesh succeeds, within the arrays it allocates, and gives a consistent graph with one vertex per node, in the same order and with the same loads; two vertices are tied if and only if some element has both nodes, and then only once.", "quantifier": "every consistent mesh, of elements first or nodes first, of any base", "why_tests_cant": "The hash table has collisions that depend on the numbering; the bound on the number of arcs depends on all degrees.", "anchors": ["src/libscotch/mesh_graph.c: meshGraph", "src/libscotch/library_mesh_graph.c: SCOTCH_meshGraph"]}
{"id": "C61", "title": "Dual graph of a mesh", "statement": "Building the dual graph of a consistent mesh succeeds, within the arrays it allocates, and gives a graph with one vertex per element, in the same order; two vertices are tied if and only if the elements have a node in common and at least the number asked for, or all nodes but one of either of them if this is less. The graph is consistent.", "quantifier": "every consistent mesh and number of common nodes asked for", "why_tests_cant": "Common nodes are counted in a hash table shared by all elements.", "anchors": ["src/libscotch/mesh_graph.c: meshGraphDual", "src/libscotch/library_mesh_graph.c: SCOTCH_meshGraphDual"]}
{"id": "C62", "title": "Base of a mesh", "statement": "Changing the base of a consistent mesh returns the former base, shifts all numbers, keeps the mesh consistent with the same loads, and can be undone.", "quantifier": "every consistent mesh, former and new base", "why_tests_cant": "Loads are read through pointers that depend on the base.", "anchors": ["src/libscotch/mesh.c: meshBase", "src/libscotch/library_mesh.c: SCOTCH_meshBase"]}
{"id": "C63", "title": "Mapping files", "statement": "A mapping saved to a file is loaded back, for any graph, with or without labels, of any base, empty or not. The file holds one pair (label, part) per vertex. When a file is loaded, in any order of its pairs and with any white space, each vertex gets the part given to its label, or -1 if there is none; a file with a repeated label or anything but pairs of integers is rejected.", "quantifier": "every graph, labels, base, mapping, and file contents", "why_tests_cant": "Files are unbounded texts; sorting of labels depends on all of them.", "anchors": ["src/libscotch/library_graph_map_io.c: SCOTCH_graphTabSave, SCOTCH_graphTabLoad, SCOTCH_graphMapSave, SCOTCH_graphMapLoad"]}
{"id": "C64", "title": "Partitioning with overlap separates the parts", "statement": "SCOTCH_graphPartOvl returns without memory error and, when it returns 0, every vertex is either in a part numbered from 0 to partnbr - 1 or in the separator (-1), and no edge joins vertices of two different parts; whatever the separation strategy used for recursive bipartitioning and the schedule of the two branches.", "quantifier": "every valid graph, number of parts, separation strategy, schedule, and contents of fresh memory", "why_tests_cant": "Unbounded graphs, recursion depth and numbers of parts; depends on outcomes of heuristics and on uninitialised memory.", "anchors": ["src/libscotch/library_graph_part_ovl.c: SCOTCH_graphPartOvl", "src/libscotch/wgraph_part_rb.c", "src/libscotch/wgraph_part_st.c", "src/libscotch/wgraph_part_zr.c", "src/libscotch/wgraph.c"]}
{"id": "C65", "title": "Loads of overlapped parts are exact and kept so by strategies", "statement": "The load and size recorded for each part count the vertices of the part and the separator vertices that have a neighbour in it, each once; the consistency check accepts exactly the partitions with such counts; strategies keep partitions consistent, and selection returns the result with the smallest separator load.", "quantifier": "every valid graph, partition, and strategy tree", "why_tests_cant": "Sums over arbitrary graphs; strategies are arbitrary trees of methods.", "anchors": ["src/libscotch/wgraph.c: wgraphCost", "src/libscotch/wgraph_check.c", "src/libscotch/wgraph_store.c", "src/libscotch/wgraph_part_st.c"]}
{"id": "C66", "title": "Multilevel partitioning with overlap projects consistent partitions", "statement": "In multilevel partitioning with overlap, every fine vertex receives the part of the coarse vertex it was merged into; separation of parts, frontier, loads and sizes of overlapped parts are exact again on the fine graph, and the load of the separator is unchanged; so that the whole multilevel method returns a consistent partition whenever its low and ascending strategies keep partitions consistent.", "quantifier": "every valid graph, number of parts, number of levels, and strategies", "why_tests_cant": "Unbounded graphs and numbers of levels.", "anchors": ["src/libscotch/wgraph_part_ml.c"]}
{"id": "C67", "title": "Greedy growing of vertex separators", "statement": "The greedy graph growing separation method, on any consistent separation of a graph with at least one vertex, returns 0 without memory error, whatever the random numbers, the vertex the gain table yields among those it holds, and the number of passes; the separation it leaves is consistent: no edge joins the two parts, loads, imbalance, sizes and frontier are exact. More passes never give a worse separation.", "quantifier": "every valid graph, initial separation, part weights, random sequence, gain table policy, and number of passes", "why_tests_cant": "Gains are maintained incrementally over unbounded sequences of moves that depend on random choices.", "anchors": ["src/libscotch/vgraph_separate_gg.c: vgraphSeparateGg"]}
{"id": "C68", "title": "Greedy growing of bipartitions", "statement": "The greedy graph growing bipartitioning method, on any consistent bipartition of a graph with at least one vertex, returns 0 without memory error, whatever the external gains, the random numbers, the vertex the gain table yields among those it holds, and the number of passes (at least one); the bipartition it leaves is consistent: loads, imbalance, sizes, communication load with its external and tree distance parts, external gain sum and frontier are exact. It never ends farther from the target load than with all vertices in part 0, and stops only when all vertices have moved or the move of some vertex would not reduce the imbalance. More passes never give a worse bipartition.", "quantifier": "every valid graph, initial bipartition, external gains, part weights and domain distance, random sequence, gain table policy, and number of passes", "why_tests_cant": "Gains are maintained incrementally over unbounded sequences of moves that depend on random choices.", "anchors": ["src/libscotch/bgraph_bipart_gg.c: bgraphBipartGg"]}
{"id": "C69", "title": "Refinement of vertex separators", "statement": "The move-based refinement of vertex separators, on any consistent separation of a graph with vertices, none of which has a null load, neither fails nor accesses memory out of bounds, whatever the order in which the gain table yields moves, the tolerated imbalance and the limits on moves and passes; when it ends, the separation it leaves is consistent: no edge joins the two parts, loads, imbalance, sizes and frontier are exact. From a separation whose imbalance is within the tolerance, it always ends, stays within the tolerance, and its separator is not larger, nor the parts less balanced for the same separator load.", "quantifier": "every valid graph with positive vertex loads, initial separation, part weights, gain table policy, balance ratio, move and pass limits", "why_tests_cant": "Gains are maintained incrementally over unbounded sequences of moves, part of which are undone; the order of moves is that of a hashed structure.", "anchors": ["src/libscotch/vgraph_separate_fm.c: vgraphSeparateFm, vgraphSeparateFmTablGet"]}
{"id": "C70", "title": "Graphs built from user arrays", "statement": "From arrays that describe a graph (each arc has its reverse with the same load, no loops nor multiple arcs, non-negative loads) and the number of its arcs, SCOTCH_graphBuild, for compact or non-compact arrays and with or without loads, reads no cell out of bounds and gives a consistent graph over these arrays: sums of vertex and edge loads and maximum degree are exact.", "quantifier": "every consistent array set, base, and number of vertices", "why_tests_cant": "Unbounded arrays; sums and degrees over all of them.", "anchors": ["src/libscotch/library_graph.c: SCOTCH_graphBuild"]}
{"id": "C71", "title": "METIS partitioning routines report the true cut and volume", "statement": "METIS_PartGraphKway, METIS_PartGraphRecursive and METIS_PartGraphVKway, for any graph given in METIS format, based or not, with or without weights or communication sizes, return METIS_OK and a part between the base and base + nparts - 1 for each vertex; the edge cut they report is the load of the edges between different parts, each counted once; the volume is the sum, over vertices, of the communication size times the number of other parts that hold neighbours of the vertex.", "quantifier": "every graph in METIS format, number of parts, weights, and partition", "why_tests_cant": "Counting over arbitrary graphs and partitions; the flag array of the volume is shared by all vertices.", "anchors": ["src/libscotchmetis/metis_graph_part.c"]}
{"id": "C72", "title": "METIS ordering routines give two inverse permutations", "statement": "METIS_NodeND, METIS_EdgeND and METIS_NodeWND, for any graph in METIS format with at least one vertex, based or not, return METIS_OK and fill perm and iperm with permutations of the vertex numbers, from the base on, that are inverse to one another.", "quantifier": "every graph in METIS format, and ordering strategy", "why_tests_cant": "Orderings come from recursive heuristics over arbitrary graphs.", "anchors": ["src/libscotchmetis/metis_graph_order.c"]}
{"id": "C73", "title": "METIS mesh arrays give the dual graph", "statement": "METIS_MeshToDual, called on arrays that describe elements and at least one node, succeeds and returns arrays that describe a consistent graph, with one vertex per element, in which two elements are joined by a single edge exactly when they share at least one node, and at least ncommon nodes or all nodes but one of either of them. The arrays have exactly the cells that are needed.", "quantifier": "for all bases, numbers of elements and nodes, element arrays and thresholds", "why_tests_cant": "Tests try a few meshes; whether every element-to-node relation is inverted into a consistent mesh, whatever the order in which nodes appear, needs an argument on the counting and filling passes for all arrays.", "anchors": ["src/libscotchmetis/metis_graph_dual.c:71-247", "src/libscotch/mesh_graph.c:232-368"]}
{"id": "C74", "title": "Gibbs-Poole-Stockmeyer ordering keeps components together", "statement": "SCOTCH_graphOrder with the Gibbs-Poole-Stockmeyer method, for any graph with at least one vertex and any number of passes, returns 0 without memory error, with inverse permutations of the vertices and a single block; the vertices of each connected component have consecutive positions. The method also succeeds on the non-halo vertices of any halo graph, anywhere in a strategy, and only writes the positions it is given.", "quantifier": "every graph, halo graph, place in the ordering, and number of passes", "why_tests_cant": "Tests try a few graphs; that every vertex is numbered once, by breadth-first passes that share marks and a queue of bounded size, needs invariants over all graphs and passes.", "anchors": ["src/libscotch/hgraph_order_gp.c: hgraphOrderGp"]}
{"id": "C75", "title": "Pseudo-diameter", "statement": "SCOTCH_graphDiamPV, on any graph with vertices whose loads sum up to less than the largest number, always ends. If the graph is connected, it returns the distance between two vertices, counting the loads of edges and of the vertices that are left on a shortest walk, such that no vertex is farther than that from the second one. If the graph is not connected, it returns the largest number.", "quantifier": "every valid graph, starting vertex, and order in which the heap yields vertices at equal distances", "why_tests_cant": "Shortest walks are over unbounded graphs; the number of searches depends on the distances found.", "anchors": ["src/libscotch/graph_diam.c: graphDiamPV", "src/libscotch/library_graph_diam.c: SCOTCH_graphDiamPV"]}
{"id": "C76", "title": "Block splitting of orderings", "statement": "SCOTCH_graphOrder with the block splitting method, over a strategy that makes a single block and for any minimum block size, succeeds without memory error whenever that strategy does, with inverse permutations and blocks that are not empty and cover all the vertices. There are at most as many blocks as the minimum size fits in the sum of the vertex loads; without vertex loads there are exactly that many, and the sizes of any two blocks differ by at most one. The load of a block is less than twice the minimum size plus the largest load of a vertex.", "quantifier": "every graph, strategy and minimum block size", "why_tests_cant": "The bounds of blocks depend on all the loads in the order of the permutation; that the array of blocks is large enough needs an invariant over all of them.", "anchors": ["src/libscotch/hgraph_order_bl.c: hgraphOrderBl"]}
