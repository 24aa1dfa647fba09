{
 "claims": [
  {
   "property": "C01",
   "status": "partial",
   "theorems": [
    "C01_int_text_round_trip_partial",
    "C01_int_min_refuted"
   ],
   "note": "Round trip proved for every value except the most negative one, for which the code has signed overflow (refuted)."
  },
  {
   "property": "C02",
   "status": "proved",
   "theorems": [
    "C02_int_reader_decodes_grammar"
   ],
   "note": ""
  },
  {
   "property": "C03",
   "status": "proved",
   "theorems": [
    "C03_sort_one_int",
    "C03_sort_two_ints_one_key",
    "C03_sort_two_ints_two_keys",
    "C03_sort_three_ints_one_key",
    "C03_sort_three_ints_two_keys"
   ],
   "note": ""
  },
  {
   "property": "C04",
   "status": "proved",
   "theorems": [
    "C04_partial_sort"
   ],
   "note": ""
  },
  {
   "property": "C05",
   "status": "proved",
   "theorems": [
    "C05_intPerm_permutes",
    "C05_intAscn"
   ],
   "note": ""
  },
  {
   "property": "C06",
   "status": "proved",
   "theorems": [
    "C06_reset_replays",
    "C06_seed_determines_stream",
    "C06_state_never_zero",
    "C06_save_load_round_trip"
   ],
   "note": ""
  },
  {
   "property": "C07",
   "status": "proved",
   "theorems": [
    "C07_random_in_range"
   ],
   "note": ""
  },
  {
   "property": "C08",
   "status": "proved",
   "theorems": [
    "C08_intGcd"
   ],
   "note": ""
  },
  {
   "property": "C09",
   "status": "proved",
   "theorems": [
    "C09_graphCheck_sound"
   ],
   "note": ""
  },
  {
   "property": "C10",
   "status": "proved",
   "theorems": [
    "C10_graphCheck_complete"
   ],
   "note": ""
  },
  {
   "property": "C11",
   "status": "proved",
   "theorems": [
    "C11_graphBase_shifts_and_reverts",
    "C11_compact_graphs_qualify",
    "C11_shared_ranges_refuted"
   ],
   "note": "Proved for graphs in which no two vertices share edge array cells (always the case for compact graphs); refuted for shared ranges, which graphCheck accepts."
  },
  {
   "property": "C12",
   "status": "proved",
   "theorems": [
    "C12_induce_list",
    "C12_induce_part"
   ],
   "note": "For lists of distinct vertex numbers in range, and part sizes equal to the number of vertices of the part (the documented preconditions, which the code does not check). Allocation failure is not modelled."
  },
  {
   "property": "C13",
   "status": "proved",
   "theorems": [
    "C13_graphSave_graphLoad",
    "C13_graphLoad_counts",
    "C13_graphLoad_ends_unchecked_refuted",
    "C13_graphLoad_negative_degree_refuted",
    "C13_graphLoad_negative_end_refuted"
   ],
   "note": "Round trip for every valid graph (compact or not, with or without loads and labels, any base, both flags) and soundness of the counts on any accepted stream. Labels are assumed distinct, not negative and below the largest integer; vertex numbers must fit. Findings: arc ends unchecked without labels, negative degrees accepted, negative arc end with labels reads out of bounds."
  },
  {
   "property": "C14",
   "status": "proved",
   "theorems": [
    "C14_listSave_listLoad",
    "C14_sorted_list_unchanged",
    "C14_listLoad_increasing",
    "C14_listCopy_refuted"
   ],
   "note": "Finding: listCopy overflows its destination (graph_list.c:254)."
  },
  {
   "property": "C15",
   "status": "partial",
   "theorems": [
    "C15_graphColor_partial",
    "C15_graphColor_proper_refuted"
   ],
   "note": "Range, use of all colours and termination hold; properness is false of the code (library_graph_color.c:145): refuted with a two-vertex graph and a real generator seed. The partial theorem says exactly when neighbours can share a colour."
  },
  {
   "property": "C16",
   "status": "proved",
   "theorems": [
    "C16_matching",
    "C16_heaviest"
   ],
   "note": "Sequential path of graphMatch; the sort of the queue is the model of C04."
  },
  {
   "property": "C17",
   "status": "proved",
   "theorems": [
    "C17_matching",
    "C17_progress"
   ],
   "note": "All interleavings of the atomic steps between the two barriers, for any number of threads, with stale reads of the mate array allowed; the sequential end by thread 0 and the split of the vertices are included. Memory model: single accesses are atomic, locks are atomic read-modify-writes, a mate once read as set is set."
  },
  {
   "property": "C18",
   "status": "proved",
   "theorems": [
    "C18_build",
    "C18_graphCoarsen",
    "C18_unchecked_mate_refuted"
   ],
   "note": "single-threaded build and graphCoarsen; loads, adjacency and edge loads of the coarse graph stated against the fine graph. The mate array given by a caller is a precondition: C18_unchecked_mate_refuted."
  },
  {
   "property": "C19",
   "status": "proved",
   "theorems": [
    "C19_orderPeri",
    "C19_orderPeri_twice"
   ],
   "note": ""
  },
  {
   "property": "C20",
   "status": "proved",
   "theorems": [
    "C20_orderCheck",
    "C20_orderCheck_total"
   ],
   "note": "For structures whose arrays have the recorded sizes. Integers are unbounded."
  },
  {
   "property": "C21",
   "status": "proved",
   "theorems": [
    "C21_orderRang",
    "C21_orderTree",
    "C21_orderTree_root"
   ],
   "note": ""
  },
  {
   "property": "C22",
   "status": "proved",
   "theorems": [
    "C22_complete_graph_domains",
    "C22_complete_graph_distance",
    "C22_complete_graph_save_load",
    "C22_negative_terminal_refuted"
   ],
   "note": "Terminal lookup of negative numbers is accepted by the code (refuted contract, recorded in DESIGN.md)."
  },
  {
   "property": "C23",
   "status": "proved",
   "theorems": [
    "C23_hypercube_domains",
    "C23_hypercube_distance",
    "C23_hypercube_save_load",
    "C23_dimension_31_refuted"
   ],
   "note": "For dimensions 0..30; from 31 on the code shifts out of the int range (refuted)."
  },
  {
   "property": "C24",
   "status": "partial",
   "theorems": [
    "C24_meshX_domains",
    "C24_mesh_save_load",
    "C24_mesh2_domains",
    "C24_mesh3_domains",
    "C24_torus_distance",
    "C24_meshX_distance_partial",
    "C24_meshX_manhattan_refuted",
    "C24_tleaf_domains",
    "C24_tleaf_save_load",
    "C24_tleaf_inclusion_partial",
    "C24_tleaf_distance_partial",
    "C24_tleaf_inclusion_refuted",
    "C24_tleaf_distance_symmetry_refuted",
    "C24_ltleaf_domains",
    "C24_cmpltw_domains",
    "C24_cmpltw_rejects",
    "C24_cmpltw_arch_save_load",
    "C24_cmpltw_save_load_partial",
    "C24_cmpltw_load_weight_refuted",
    "C24_cmpltw_num_smallest_refuted",
    "C24_cmpltw_negative_terminal_refuted"
   ],
   "note": "Refuted: n-dimensional mesh distance is the torus distance; tree-leaf inclusion is overlap at equal levels; tree-leaf distance is not symmetric on nested domains. Weighted complete graph: domain loading adds to the old weight field, the domain number is not the smallest, and looking up -1 reads out of bounds (all refuted)."
  },
  {
   "property": "C25",
   "status": "partial",
   "theorems": [
    "C25_variable_bipart_partial",
    "C25_variable_bipart_never_fails_refuted",
    "C25_variable_domains",
    "C25_variable_distances"
   ],
   "note": "Bipartition reports an error at the last representable level (refuted); everything else proved."
  },
  {
   "property": "C26",
   "status": "proved",
   "theorems": [
    "C26_history_linear",
    "C26_history_logarithmic",
    "C26_linear_buckets",
    "C26_logarithmic_buckets",
    "C26_enumeration",
    "C26_last_bucket_refuted",
    "C26_empty_refuted"
   ],
   "note": "The loop of gainTablNext stops before the last bucket, whose elements are then not enumerated (refuted without the proviso); the gainTablEmpty macro is wrong when the only elements are in the last bucket (refuted)."
  },
  {
   "property": "C27",
   "status": "proved",
   "theorems": [
    "C27_heap",
    "C27_drain",
    "C27_degree_array_refuted"
   ],
   "note": "Pointer-level model of all heap routines; any total preorder, any legal history from arbitrary initial memory, no call fails or goes out of bounds, all answers right, final contents exact. Precondition made explicit: the heap holds fewer than fib2(D) elements, D being the size of the degree array (5702887 for 32-bit INT). The size chosen by the code presumes 2^D: C27_degree_array_refuted."
  },
  {
   "property": "C28",
   "status": "proved",
   "theorems": [
    "C28_vgraphCheck_sound",
    "C28_vgraphCheck_complete",
    "C28_vgraphZero",
    "C28_frontier_exact_refuted"
   ],
   "note": "Duplicate frontier entries are not detected by vgraphCheck: without the proviso that entries are distinct, the frontier need not be the separator (refuted). Load sums are unbounded integers."
  },
  {
   "property": "C29",
   "status": "proved",
   "theorems": [
    "C29_save_restore"
   ],
   "note": ""
  },
  {
   "property": "C30",
   "status": "proved",
   "theorems": [
    "C30_thinning"
   ],
   "note": "Load sums are unbounded integers."
  },
  {
   "property": "C31",
   "status": "proved",
   "theorems": [
    "C31_bgraphCheck",
    "C31_bgraphCost",
    "C31_bgraphInit",
    "C31_bgraphZero",
    "C31_bgraphSwal",
    "C31_bgraphZero_fixed_load_refuted",
    "C31_bgraphSwal_fixed_load_refuted"
   ],
   "note": "The rounding of the target average to an integer is an arbitrary function of its operands; sums are unbounded integers. With fixed load the reset and the exchange give states which the check refuses (refuted)."
  },
  {
   "property": "C32",
   "status": "proved",
   "theorems": [
    "C32_save_restore"
   ],
   "note": "The imbalance ratio is not saved but recomputed as |delta| / average."
  },
  {
   "property": "C33",
   "status": "proved",
   "theorems": [
    "C33_group_allocation",
    "C33_laid_disjoint",
    "C33_group_offsets",
    "C33_size_overflow_refuted"
   ],
   "note": "For sizes whose padded total fits in size_t; beyond that the total silently wraps and the area is too small (refuted)."
  },
  {
   "property": "C34",
   "status": "proved",
   "theorems": [
    "C34_barrier",
    "C35_progress"
   ],
   "note": "Transition system of the thread context, all interleavings and spurious wake-ups, any number of threads (at least 2; with 1 the barrier returns at once) and rounds; the barrier counter wraps. Precondition: all threads call the barrier the same number of times in a launched function."
  },
  {
   "property": "C35",
   "status": "proved",
   "theorems": [
    "C35_launch",
    "C35_progress",
    "C35_bounded",
    "C35_exit",
    "C35_init_failure_refuted"
   ],
   "note": "Same transition system: each function is run once by each thread, in order, before the launch returns; no deadlock, and a bound on the moves of a launch; the lock is destroyed after all threads have released it. When a thread cannot be created this last part is false: C35_init_failure_refuted (common_thread.c:147-151)."
  },
  {
   "property": "C36",
   "status": "proved",
   "theorems": [
    "C36_reduce",
    "C36_reduce_canonical",
    "C36_scan",
    "C36_scan_canonical",
    "C36_well_behaved",
    "C36_finishes"
   ],
   "note": "Both variants of threadReduce and threadScan, all interleavings of the user function calls between barriers; commutativity is not needed, the order of combination is part of the statements. No data race between calls made at the same time, cells in range, same number of barriers on all threads."
  },
  {
   "property": "C37",
   "status": "proved",
   "theorems": [
    "C37_block_distribution"
   ],
   "note": ""
  },
  {
   "property": "C38",
   "status": "proved",
   "theorems": [
    "C38_values_history",
    "C38_option_set",
    "C38_option_parse",
    "C38_deterministic_fixes_seed_refuted",
    "C38_nonzero_normalised_refuted"
   ],
   "note": "SCOTCH_contextOptionSetNum switches on the value rather than on the option number: deterministic behaviour does not fix the seed, and non-zero values other than 1 are refused (both refuted)."
  },
  {
   "property": "C39",
   "status": "proved",
   "theorems": [
    "C39_stringSubst",
    "C39_substitution_defined",
    "C39_empty_pattern_refuted"
   ],
   "note": "An empty pattern makes the recursion endless (refuted)."
  },
  {
   "property": "C40",
   "status": "proved",
   "theorems": [
    "C40_footprint",
    "C40_realloc_null_refuted"
   ],
   "note": "For histories that only pass live blocks and totals within intptr_t. Reallocating NULL is undefined when accounting is enabled (refuted)."
  },
  {
   "property": "C41",
   "status": "proved",
   "theorems": [
    "C41_orderSave",
    "C41_orderSave_orderLoad",
    "C41_orderLoad_unchecked_refuted"
   ],
   "note": "For non-negative bases. Orderings with vertex labels are refused by the loading (as documented in the code). Files with a larger vertex count or values out of range lead to out of bounds writes (refuted)."
  },
  {
   "property": "C42",
   "status": "proved",
   "theorems": [
    "C42_orderSaveMap",
    "C42_orderSaveTree"
   ],
   "note": ""
  },
  {
   "property": "C43",
   "status": "partial",
   "theorems": [
    "C43_ratio_partial",
    "C43_ratio_refuted"
   ],
   "note": "The upper bound is never looked at once the matching is made (graph_coarsen.c:188-193, 549-553): refuted with a concrete graph; the early test is proved. Missing: the bound itself, which is false of the code."
  },
  {
   "property": "C44",
   "status": "proved",
   "theorems": [
    "C44_hcub",
    "C44_cmplt",
    "C44_tleaf",
    "C44_tleaf_step",
    "C44_mesh",
    "C44_mesh_step"
   ],
   "note": "All MatchInit/MatchMate routines but that of arch_sub. Hypercube dimension below 31 (shift of an int). C44_*_step say which vertices are grouped."
  },
  {
   "property": "C45",
   "status": "partial",
   "theorems": [
    "C45_cmplt_load_partial",
    "C45_hcub_load_partial",
    "C45_mesh_load_partial",
    "C45_tleaf_load_partial",
    "C45_variable_load_partial",
    "C45_variable_term",
    "C45_load_refuted"
   ],
   "note": "The full claim is false: C45_load_refuted gives, for each architecture, a text that is accepted and denotes no domain. The partial theorems say what is guaranteed."
  },
  {
   "property": "C46",
   "status": "partial",
   "theorems": [
    "C46_graphOrder_partial",
    "C46_graphOrderComputeList_partial",
    "C46_empty_list_refuted",
    "C46_induced_graph_refuted",
    "C46_unreported_failure_refuted",
    "C46_inner_components_refuted",
    "C46_edge_load_sum_refuted"
   ],
   "note": "Proved for strategies that meet sgood: conditions have an alternative, leaf strategies of nested dissection cannot fail, connected components are only looked for in the whole graph; and for graphs which are not induced ones. Each restriction is needed: the refutations show that the code breaks the claim without it. Separation methods, and ordering methods other than Si, Nd, Cc and Gp (C74), are black boxes with an explicit contract; the two recursive calls of Nd are run in sequence."
  },
  {
   "property": "C47",
   "status": "partial",
   "theorems": [
    "C47_separator_tree_partial",
    "C47_separator_blocks_refuted"
   ],
   "note": "Proved when separators are ordered as a single block. The claim is false of the code otherwise: C47_separator_blocks_refuted."
  },
  {
   "property": "C48",
   "status": "proved",
   "theorems": [
    "C48_halo_induce"
   ],
   "note": "Graphs without edge loads, the only ones the ordering routines use."
  },
  {
   "property": "C49",
   "status": "partial",
   "theorems": [
    "C49_strategy",
    "C49_select",
    "C49_methods",
    "C49_dissection",
    "C49_select_wide_refuted"
   ],
   "note": "Consistency is proved in full. The choice of the better separation is proved when abs is exact on the integer type of the library; C49_select_wide_refuted shows that it is not made when Gnum is a 64-bit type, since abs truncates its argument to an int. Methods other than Zr, Th, Gp and Ml are black boxes with an explicit contract."
  },
  {
   "property": "C50",
   "status": "proved",
   "theorems": [
    "C50_project",
    "C50_multilevel"
   ],
   "note": "Single-threaded coarsening; no bound on the number of levels. Low and ascending strategies are any ones that meet the contract, which C49 proves of strategies."
  },
  {
   "property": "C51",
   "status": "proved",
   "theorems": [
    "C51_greedy"
   ],
   "note": ""
  },
  {
   "property": "C52",
   "status": "partial",
   "theorems": [
    "C52_graphPart",
    "C52_failure_refuted",
    "C52_induced_refuted"
   ],
   "note": "Proved for the strategy made of recursive bipartitioning alone, whose bipartitioning method succeeds (bip_ok), on graphs that are not induced ones. Without the latter two the claim is false: refutations. The two sub-jobs run in sequence."
  },
  {
   "property": "C53",
   "status": "partial",
   "theorems": [
    "C53_graphPartFixed",
    "C53_graphRepart",
    "C53_graphRepartFixed",
    "C53_zero_loads_refuted",
    "C53_bad_entries_refuted"
   ],
   "note": "As C52, when some fixed vertex has a non-zero load; otherwise the code may not end: C53_zero_loads_refuted. Entries below -1 or above the last part are not checked: C53_bad_entries_refuted."
  },
  {
   "property": "C54",
   "status": "proved",
   "theorems": [
    "C54_kgraphMapRb",
    "C54_mapping_round_trip"
   ],
   "note": "For any architecture that meets arch_ok, an abstract contract proved of complete graphs (cmplt_ok). Communication load and frontier are exact. Hypothesis on zero loads as in C53."
  },
  {
   "property": "C55",
   "status": "partial",
   "theorems": [
    "C55_problem_exact",
    "C54_kgraphMapRb",
    "C55_variable_fixed_loads",
    "C55_fixed_loads_refuted"
   ],
   "note": "Exact but for the loads of fixed vertices, which are wrong in the code (C55_fixed_loads_refuted). C54_kgraphMapRb only asks the method to succeed on such problems, hence no other is handed to it. Partitioning architectures (line 690 excluded)."
  },
  {
   "property": "C56",
   "status": "partial",
   "theorems": [
    "C56_strategy",
    "C56_select",
    "C56_methods",
    "C56_partition",
    "C56_select_failed_refuted",
    "C56_select_wide_refuted"
   ],
   "note": "Consistency is proved in full for strategies whose selections are between strategies that leave a consistent bipartition when they fail, or cannot fail; it is false otherwise (C56_select_failed_refuted). The choice of the better bipartition is proved when both strategies succeed and abs is exact on the integer type of the library; it is false with 64-bit integers (C56_select_wide_refuted). Vertices fixed in part 0 may or may not be counted in its load, as routines disagree (C31). Methods other than Zr, Gp and Ml are black boxes with an explicit contract."
  },
  {
   "property": "C57",
   "status": "proved",
   "theorems": [
    "C57_project",
    "C57_multilevel"
   ],
   "note": "Single-threaded coarsening; no bound on the number of levels. Low and ascending strategies are any ones that meet the contract, which C56 proves of strategies."
  },
  {
   "property": "C58",
   "status": "partial",
   "theorems": [
    "C58_grow",
    "C58_mapping",
    "C58_partition",
    "C58_negative_refuted",
    "C58_fixed_refuted"
   ],
   "note": "Proved when the target load is not negative, which holds of all problems without fixed vertices if the floating-point average of non-negative loads is not negative. With fixed vertices the target may be negative and the method reads out of bounds (C58_negative_refuted, C58_fixed_refuted)."
  },
  {
   "property": "C59",
   "status": "partial",
   "theorems": [
    "C59_check_sound",
    "C59_check_complete",
    "C59_build",
    "C59_build_check",
    "C59_edgenbr_refuted"
   ],
   "note": "Sound and complete, provided that the number of arcs is right: the code does not check it (C59_edgenbr_refuted)."
  },
  {
   "property": "C60",
   "status": "proved",
   "theorems": [
    "C60_graph"
   ],
   "note": "Both orders of elements and nodes."
  },
  {
   "property": "C61",
   "status": "partial",
   "theorems": [
    "C61_dual",
    "C61_loads_refuted"
   ],
   "note": "Success and exact adjacency in full; consistency when the sum of element loads is the number of elements. Otherwise the graph keeps the sum without the loads and is inconsistent (C61_loads_refuted)."
  },
  {
   "property": "C62",
   "status": "partial",
   "theorems": [
    "C62_base_partial",
    "C62_base_noloads",
    "C62_loads_refuted"
   ],
   "note": "Meshes without loads in full (C62_base_noloads); load arrays are not moved by the code (C62_loads_refuted). Vertices must not share cells of the edge array, as for graphs (C11)."
  },
  {
   "property": "C63",
   "status": "partial",
   "theorems": [
    "C63_load_partial",
    "C63_load_only",
    "C63_round_trip_partial",
    "C63_empty_refuted",
    "C63_base_refuted"
   ],
   "note": "Proved for non-empty graphs that are of base 0 or have no labels; false otherwise (C63_empty_refuted, C63_base_refuted)."
  },
  {
   "property": "C64",
   "status": "partial",
   "theorems": [
    "C64_strategy_partial",
    "C64_recursive",
    "C64_recursive_partial",
    "C64_three_parts_refuted",
    "C64_induced_refuted",
    "C64_first_method_refuted"
   ],
   "note": "Proved for graphs that are not induced subgraphs, strategies that begin with a method that sets the partition, and numbers of parts that are powers of two (for other numbers, the only other outcome is the memory error of C64_three_parts_refuted); false otherwise."
  },
  {
   "property": "C65",
   "status": "partial",
   "theorems": [
    "C65_cost",
    "C65_check_complete",
    "C65_check_sound_partial",
    "C65_strategy",
    "C65_select",
    "C65_check_separation_refuted",
    "C65_check_frontier_refuted"
   ],
   "note": "The check also accepts unseparated partitions and repeated frontier vertices (the two refutations); the rest is proved. Branches of a selection must not fail."
  },
  {
   "property": "C66",
   "status": "proved",
   "theorems": [
    "C66_project",
    "C66_multilevel",
    "C66_graphPartOvl_partial"
   ],
   "note": "C66_graphPartOvl_partial combines the method with recursive bipartitioning (C64), for numbers of parts that are powers of two and an arbitrary consistent ascending strategy."
  },
  {
   "property": "C67",
   "status": "proved",
   "theorems": [
    "C67_grow",
    "C67_passes",
    "C67_guarded",
    "C67_empty_refuted"
   ],
   "note": "For graphs with at least one vertex; on the empty graph the first root is drawn modulo zero (C67_empty_refuted). C67_guarded makes the method usable in other strategies and in nested dissection."
  },
  {
   "property": "C68",
   "status": "proved",
   "theorems": [
    "C68_grow",
    "C68_passes",
    "C68_guarded",
    "C68_nopass_refuted",
    "C68_empty_refuted"
   ],
   "note": "For graphs with at least one vertex and at least one pass; the two refutations show what happens otherwise. C68_guarded makes the method usable in other strategies and in SCOTCH_graphPart."
  },
  {
   "property": "C69",
   "status": "proved",
   "theorems": [
    "C69_refine",
    "C69_better",
    "C69_zero_load_refuted",
    "C69_empty_refuted"
   ],
   "note": "For graphs with vertices, all of positive load; the two refutations show what happens otherwise. The hash table is modelled as arrays indexed by vertices, and its enlargement is not modelled. Termination is proved from separations within the tolerated imbalance only, as the property says."
  },
  {
   "property": "C70",
   "status": "proved",
   "theorems": [
    "C70_build"
   ],
   "note": "Sums are those of unbounded integers."
  },
  {
   "property": "C71",
   "status": "partial",
   "theorems": [
    "C71_metrics",
    "C71_cut_partial",
    "C71_volume_partial"
   ],
   "note": "C71_metrics is about any partition. Return value and part numbers are proved for recursive bipartitioning whose bipartitioning method succeeds, as in C52; missing: the other strategies that may be built by default, and target part weights (tpwgts)."
  },
  {
   "property": "C72",
   "status": "partial",
   "theorems": [
    "C72_order_partial"
   ],
   "note": "For strategies of the model that cannot fail (sgood), as in C46; missing: the strategies that are built by default, which use minimum fill methods that are not modelled."
  },
  {
   "property": "C73",
   "status": "proved",
   "theorems": [
    "C73_dual",
    "C73_nonodes_refuted",
    "C73_offset_refuted"
   ],
   "note": "Node lists must start at the base and there must be a node: both conditions are shown to be needed."
  },
  {
   "property": "C74",
   "status": "proved",
   "theorems": [
    "C74_method",
    "C74_order"
   ],
   "note": ""
  },
  {
   "property": "C75",
   "status": "proved",
   "theorems": [
    "C75_diameter",
    "C75_overflow_refuted"
   ],
   "note": "The heap is modelled by the set of its vertices (see C27). The bound on the sum of loads is needed: C75_overflow_refuted."
  },
  {
   "property": "C76",
   "status": "partial",
   "theorems": [
    "C76_order_partial",
    "C76_null_load_refuted",
    "C76_list_refuted",
    "C76_several_blocks_refuted"
   ],
   "note": "Proved for graphs without vertex loads or with positive loads, and strategies that make a single block. The claim is false of the code for null loads, for lists of vertices of graphs with loads, and for strategies that make several blocks: three refutations."
  }
 ]
}